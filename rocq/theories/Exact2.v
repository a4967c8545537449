(** What is parsed without an error outside Luau is a tree of the tree grammar (C49): expressions. *)
From Verif Require Import LexerSpec PunctuatedProofs.
From Verif Require Import GrammarSound.
From Verif Require Export Exact1.
From Coq Require Import Lia.
Local Open Scope nat_scope.
Import ListNotations.

(** ** Tables *)
Lemma x_expression_key c p b ts : sgood c p -> is_symbol b SLeftBracket = true -> E (expect_expression_key p b) ts (xsome (field c)).
Proof. begin. unfold expect_expression_key. xgo. apply fi_expression; auto with xtree. Qed.
#[export] Hint Resolve x_expression_key : xspec.
Lemma x_table_field c p b fs t r : has_luau c = false -> sgood c p -> E (table_field c p b fs t) (t :: r) (xsome (field c)).
Proof.
  begin. unfold table_field. xgo; auto; first [apply fi_name; solve [auto with xtree]|apply fi_set; solve [auto with xtree]|now apply fi_value].
Qed.
#[export] Hint Resolve x_table_field : xspec.
Lemma entries_snoc {A} (P : tree -> Prop) (f : A -> tree) l m : dotted [SComma; SSemicolon] l -> Forall (fun x => P (f (pair_value x))) l -> entries P m -> entries P (map (pair_tree f) l ++ m).
Proof.
  intros D H Hm. induction l as [|x l IH]; [exact Hm|]. apply Forall_inv in H as Hx. apply Forall_inv_tail in H. inversion_clear D as [|? ? Dx D']. destruct x as [u|u d]; [contradiction|].
  cbn [app map pair_tree]. cbn in Dx. rewrite orb_false_r in Dx. apply orb_true_iff in Dx as [Dx|Dx]; (eapply e_more; [exact Hx|apply sym_eq; exact Dx|auto|auto]).
Qed.
Lemma x_table c p b ts : has_luau c = false -> sgood c p -> is_symbol b SLeftBrace = true -> E (force_table_constructor c p b) ts (fun t _ => table c t).
Proof.
  begin. unfold force_table_constructor. cbv zeta. estep.
  eapply (E_loop (fun l _ => each (field c) l /\ dotted [SComma; SSemicolon] (pairs l))); [mono_tac|split; auto using each_new, dotted_new|].
  intros l ts1 (Hl & D). xgo.
  - constructor; auto with xtree. rewrite <- (app_nil_r (map _ _)). apply entries_snoc; [assumption|assumption|constructor].
  - unfold push_field. xgo.
    + split; [now apply each_push|]. apply dotted_push; [assumption|]. cbn [existsb]. now rewrite orb_false_r.
    + constructor; auto with xtree. cbn [p_push pairs]. rewrite map_app. apply entries_snoc; [assumption|assumption|]. now constructor.
Qed.
#[export] Hint Resolve x_table : xspec.

(** ** Prefixes and suffixes *)
Definition xprefix (c : cfg) (x : Parsers.prefix) : Prop :=
  match x with PrefixExpression e => parenthesised c e | PrefixName r => is_identifier r = true end.
Lemma prefix_in c x : xprefix c x -> prefix_expression c (prefix_tree x).
Proof. destruct x; intros H; constructor; auto with xtree. Qed.
Lemma x_prefix c p ts : sgood c p -> E (parse_prefix c p) ts (xok (xprefix c)).
Proof. begin. unfold parse_prefix. xgo; auto; cbn [xprefix]; auto. constructor; auto with xtree. Qed.
#[export] Hint Resolve x_prefix : xspec.
Lemma listing_expressions c l : several (expression c) SComma (map (pair_tree (fun t => t)) (pairs l)) -> expressions c (map (pair_tree (fun t => t)) (pairs l)).
Proof. apply xs_some. Qed.
#[export] Hint Resolve listing_expressions : xtree.
Lemma x_arguments c p ts : has_luau c = false -> sgood c p -> E (parse_arguments c p) ts (xok (arguments c)).
Proof.
  begin. unfold parse_arguments. xgo; auto.
  - apply ar_parentheses; auto with xtree.
  - apply ar_parentheses; auto with xtree. constructor.
  - apply ar_table; auto.
  - apply ar_string; auto with xtree.
Qed.
#[export] Hint Resolve x_arguments : xspec.
Lemma x_dot_suffix c m t r : is_symbol t SDot = true \/ is_symbol t SQuestionMarkDot = true /\ f_cfxlua (c_feat c) = true -> E (dot_suffix m) (t :: r) (fun r _ => match r with Value e => suffix c e | _ => False end).
Proof. begin. unfold dot_suffix. xgo. destruct H as [H|(H & Z)]; (eapply su_dot; [apply sym_eq; exact H|exact I || exact Z|auto with xtree]). Qed.
Lemma x_suffix c p ts : has_luau c = false -> sgood c p -> E (parse_suffix c p) ts (fun r ts' => xok (suffix c) r ts' /\ (r = NotFound -> shut true ts')).
Proof.
  begin. unfold parse_suffix. estep. estep. subst. estep.
  { apply andb_true_iff in X as [X1 X2]. eapply E_conseq; [apply (x_dot_suffix c); auto|]. intros [a| |] ts' K; try contradiction; split; auto; discriminate. }
  estep.
  { eapply E_conseq; [apply (x_dot_suffix c); auto|]. intros [a| |] ts' K; cbn in *; try contradiction; split; auto; discriminate. }
  xgo; try (exfalso; congruence); (split; [|try discriminate]); auto.
  - apply su_brackets; auto with xtree.
  - apply su_call; auto.
  - apply su_method; auto with xtree. constructor.
  - intros _ _. apply orb_false_iff in X2 as [X2 _]. now apply orb_false_iff in X2 as [X2 _].
Qed.
#[export] Hint Resolve x_suffix : xspec.
Lemma x_prefix_and_suffixes c p ts : has_luau c = false -> sgood c p -> E (parse_prefix_and_suffixes c p) ts (fun r ts' => match r with
  | Value (x, l) => xprefix c x /\ Forall (suffix c) l /\ shut true ts'
  | NotFound => True
  | LexerMoved => False
  end).
Proof.
  begin. unfold parse_prefix_and_suffixes. estep. eapply E_conseq; [eapply x_prefix; eassumption|]. intros [x| |] ts1 K; xnorm.
  - estep. eapply (E_loop (fun l _ => Forall (suffix c) l)); [mono_tac|constructor|].
    intros l ts2 Hl. estep. eapply E_conseq; [now apply x_suffix|]. intros [s| |] ts3 [K1 K2]; cbn in K1; try contradiction.
    + estep. apply Forall_app. auto.
    + estep. estep. auto.
  - now estep.
Qed.
#[export] Hint Resolve x_prefix_and_suffixes : xspec.

(** ** The right edge outside Luau *)
Scheme expression_edge := Minimality for expression Sort Prop with unit_edge := Minimality for unit_expression Sort Prop.
Lemma no_luau_edge c e p : has_luau c = false -> (forall k, p k = true -> k = KExprIfExpression \/ k = KExprTypeAssertion) -> expression c e -> on_edge p e = false.
Proof.
  intros L K. assert (Q : forall k, k <> KExprIfExpression -> k <> KExprTypeAssertion -> p k = false).
  { intros k A B. destruct (p k) eqn:X; [|reflexivity]. apply K in X. tauto. }
  induction 1 using expression_edge with (P0 := fun e => on_edge p e = false); auto; try congruence.
  - cbn [on_edge ends_in_expression andb]. rewrite Q by discriminate. assumption.
  - inversion H; subst; cbn [on_edge ends_in_expression andb orb]; rewrite ?Q by discriminate; try reflexivity. inversion H0; subst. cbn [on_edge ends_in_expression andb orb]. now rewrite Q by discriminate.
  - cbn [on_edge ends_in_expression andb]. rewrite Q by discriminate. assumption.
Qed.
Lemma no_if c e : has_luau c = false -> expression c e -> ends_in_if e = false.
Proof. intros L. apply no_luau_edge; [assumption|]. intros [] X; try discriminate X; auto. Qed.
Lemma no_type c e : has_luau c = false -> expression c e -> ends_in_type e = false.
Proof. intros L. apply no_luau_edge; [assumption|]. intros [] X; try discriminate X; auto. Qed.
Lemma no_type_name c e : has_luau c = false -> expression c e -> ends_in_type_name e = false.
Proof.
  intros L. induction 1 using expression_edge with (P0 := fun e => ends_in_type_name e = false); auto; try congruence.
  inversion H; subst; try reflexivity. inversion H0; subst. reflexivity.
Qed.
Lemma no_more_type c e s : has_luau c = false -> expression c e -> goes_on e s = false.
Proof. intros L X. unfold goes_on. destruct s; try reflexivity; eauto using no_type, no_type_name. Qed.

(** ** Operators *)
Lemma binop_in c s n t : precedence_of_token c t = Some n -> t_type (r_token t) = TSymbol s -> binop_enabled c s = true -> binary_in c s.
Proof.
  unfold precedence_of_token. intros H X B. rewrite X in H. destruct s; try discriminate H; try exact I; cbn in B |- *; try assumption. now apply orb_true_iff in B.
Qed.
Lemma x_binop c t r n : precedence_of_token c t = Some n ->
  E (consume_binop c) (t :: r) (fun o ts' => ts' = r /\ exists s, o = (Nd (KBinOp s) [Tok t], t) /\ t_type (r_token t) = TSymbol s /\ binary_in c s).
Proof.
  intros H. unfold consume_binop. estep. estep. rewrite H. destruct (t_type (r_token t)) eqn:X; try apply E_panic.
  estep; [|apply E_panic]. estep. estep. estep. split; [reflexivity|]. eexists. repeat split. eapply binop_in; eassumption.
Qed.
Lemma x_unop c t ts : E (unop c t) ts (fun o ts' => ts' = ts /\ exists s, o = Nd (KUnOp s) [Tok t] /\ unary_in c s /\ is_symbol t s = true).
Proof. unfold unop. repeat (estep; enorm); (split; [reflexivity|]); eexists; repeat split; auto. Qed.
Lemma x_unary c p t ts : sgood c p -> E (parse_unary_expression c p t) ts (xval (unit_expression c)).
Proof.
  begin. unfold parse_unary_expression. estep. eapply E_conseq; [apply x_unop|]. intros o ts1 (-> & s & -> & U & S). cbv zeta.
  estep. eapply E_conseq; [now apply (sg_primary c p)|]. intros [e| |] ts1 [K1 K2]; cbn [primary_post xval] in *; try contradiction; [|estep].
  destruct K1 as (_ & He & Hf & Hn), K2 as (Ue & Se). estep. eapply E_conseq; [apply (sg_precedence c p); auto using ex_unit|].
  intros [e'| |] ts2 [K1 K2]; cbn [climb_post xval] in *; try contradiction. destruct K1 as (_ & _ & _ & _ & Hh), K2 as (Xe & Se').
  estep. cbn [xval]. split; [|exact Se']. apply ue_unary; auto using sym_eq. destruct Hh as [->|(z & -> & L)].
  - destruct (head_of e) as [z| |]; cbn in *; [now destruct Hn|reflexivity|reflexivity].
  - cbn [under_unary]. apply Nat.ltb_lt. unfold unop_precedence, unary_level in *. destruct (Nat.eq_dec (level z) 11) as [Z|Z]; [|lia].
    exfalso. clear - Z. destruct z; vm_compute in Z; discriminate.
Qed.
#[export] Hint Resolve x_unary : xspec.
Lemma x_attributes c ts : E parse_attributes ts (fun r _ => match r with Value l => Forall (attribute c) l | _ => False end).
Proof.
  unfold parse_attributes. estep. estep. estep; [apply E_panic|].
  eapply (E_loop (fun l _ => Forall (attribute c) l)); [mono_tac|constructor|].
  intros l ts1 Hl. estep. estep; subst.
  - estep. estep. estep; enorm.
    + estep. plain. apply Forall_app. split; [assumption|]. constructor; [|constructor]. constructor; auto with xtree.
    + unfold error_at_current. estep. estep. estep. subst. apply E_error.
  - now estep.
Qed.
Lemma x_anonymous c p ats ts : has_luau c = false -> sgood c p -> Forall (attribute c) ats -> (ats <> [] -> f_luau (c_feat c) = true) -> (forall t r, ts = t :: r -> is_symbol t SFunction = true) ->
  E (anonymous_function c p ats) ts (fun r ts' => match r with Value e => unit_expression c e /\ shut (open e) ts' | _ => False end).
Proof.
  begin. unfold anonymous_function. destruct ts as [|t ts]; [intros es x s' X; discriminate|]. match goal with H : forall t r, _ -> _ |- _ => specialize (H _ _ eq_refl) end.
  xgo. split; [|discriminate]. apply ue_atom, at_function; auto with xtree.
Qed.
Lemma call_last (l : list tree) : match last_of l with Some x => is_call x = ends_in_call l | None => l = [] end.
Proof. unfold last_of, ends_in_call. destruct (rev l) as [|x r] eqn:E; cbn [hd_error]; [|reflexivity]. rewrite <- (rev_involutive l), E. reflexivity. Qed.
Definition xarm (c : cfg) (x : pres tree * bool) (ts' : list tokref) : Prop := xval (unit_expression c) (fst x) ts'.
Lemma number_type r : match t_type (r_token r) with TNumber _ => true | _ => false end = true -> terminal_of r = TNumeral.
Proof. unfold terminal_of. now destruct (t_type (r_token r)). Qed.
Lemma symbol_atom c t : is_symbol t STrue || is_symbol t SFalse || is_symbol t SNil || is_symbol t SEllipsis = true -> atom c (Nd KExprSymbol [Tok t]).
Proof. intros X. rewrite !orb_true_iff in X. decompose [or] X; (eapply at_symbol; [|apply sym_eq; eassumption]; auto). Qed.
Lemma suffixed_in c x l z : xprefix c x -> Forall (suffix c) l -> last_of l = Some z ->
  unit_expression c (if is_call z then Nd KExprFunctionCall [Nd KFunctionCall [prefix_tree x; vec l]] else Nd KExprVar [Nd KVarExpr [Nd KVarExpression [prefix_tree x; vec l]]]).
Proof.
  intros P L Z. pose proof (call_last l) as CL. rewrite Z in CL. apply ue_atom. destruct (is_call z).
  - apply at_call; auto using prefix_in.
  - apply at_var; auto using prefix_in. intros ->. discriminate Z.
Qed.
Lemma x_arm c p ts : has_luau c = false -> sgood c p -> E (primary_arm c p) ts (xarm c).
Proof.
  begin. unfold primary_arm. cbv zeta. estep. estep. subst. unfold xarm. estep.
  { apply andb_true_iff in X as [LF X]. estep. eapply E_conseq; [apply (x_attributes c)|]. intros [l| |] ts1 K; try contradiction. estep. estep. subst. estep; [|estep].
    estep. eapply E_conseq; [eapply (x_anonymous c p l (t0 :: r0)); auto; now intros ? ? [= <- <-]|]. intros [e| |] ts2 K2; try contradiction. estep. exact K2. }
  estep.
  { estep. eapply E_conseq; [eapply (x_anonymous c p [] (t :: r)); auto; now intros ? ? [= <- <-]|]. intros [e| |] ts2 K2; try contradiction. estep. exact K2. }
  estep.
  { estep. estep. estep. split; [|discriminate]. now apply ue_atom, symbol_atom. }
  estep.
  { estep. estep. estep. split; [|discriminate]. apply ue_atom, at_string. auto with xtree. }
  match goal with |- E (if ?b then _ else _) _ _ => destruct b eqn:XN end.
  { estep. estep. estep. split; [|discriminate]. apply ue_atom, at_number. now apply number_type. }
  estep.
  { estep. eapply E_conseq; [now apply x_prefix_and_suffixes|]. intros [[x l]| |] ts1 K; try contradiction; [|apply E_panic]. destruct K as (P & L & S). destruct (last_of l) as [z|] eqn:Z.
    - pose proof (suffixed_in c x l z P L Z) as U. destruct (is_call z); estep; (split; [exact U|exact S]).
    - apply last_of_none in Z. subst l. destruct x as [e|n]; estep; cbn [fst xval xprefix] in *.
      + inversion P; subst. split; [now apply ue_atom, at_parentheses|exact S].
      + split; [apply ue_atom, at_name; auto with xtree|exact S]. }
  estep.
  { estep. estep. estep. eapply E_conseq; [now apply x_unary|]. intros r1 ts1 K. estep. exact K. }
  estep.
  { estep. estep. estep. eapply E_conseq; [now apply x_table|]. intros r1 ts1 K. estep. split; [now apply ue_atom, at_table|discriminate]. }
  rewrite H, andb_false_r. destruct (t_type (r_token t)); estep; exact I.
Qed.
Lemma x_primary c p ts : has_luau c = false -> sgood c p -> E (parse_primary_expression c p) ts (fun r ts' => primary_post c ts r ts' /\ xval (unit_expression c) r ts').
Proof.
  begin. apply E_and; [now apply e_primary|]. unfold parse_primary_expression. estep. eapply E_conseq; [apply E_and; [apply e_arm; eassumption|apply x_arm; eassumption]|]. intros [r1 b] ts1 [[_ K0] K]. rewrite H.
  cbn [fst snd] in K0. unfold xarm in K. cbn [fst] in K. destruct r1 as [e| |], b; try discriminate (K0 eq_refl); try contradiction; apply E_ret; exact K.
Qed.

Definition xright (c : cfg) (r : option tree) (ts' : list tokref) : Prop := match r with Some e => expression c e /\ shut (open e) ts' | None => False end.
Lemma x_climb_right c p t n s rhs ts : sgood c p -> precedence_of_token c t = Some n -> t_type (r_token t) = TSymbol s -> proper rhs -> fits c (head_of rhs) ts -> right_of (head_of rhs) s = true ->
  expression c rhs -> shut (open rhs) ts -> E (climb_right c p t n rhs) ts (xright c).
Proof.
  intros H N S Hr Hf Ho Xr Sr. pose proof (sg_mono _ _ H) as Hm. pose proof (sg_good _ _ H) as Hg. unfold climb_right.
  eapply (E_loop (fun e ts1 => proper e /\ fits c (head_of e) ts1 /\ expression c e /\ shut (open e) ts1)); [mono_tac|auto|].
  clear Hr Hf Ho Xr Sr. intros e ts1 (He & Hf & Xe & Se). estep. estep. enorm. destruct (precedence_of_token c t0) as [m|] eqn:M.
  2:{ estep. split; auto. }
  cbv zeta.
  match goal with |- E (match ?o with _ => _ end) _ _ => destruct o as [q|] end.
  - estep. eapply E_conseq; [now apply (sg_precedence c p)|]. intros r1 ts2 [K1 K2]. destruct r1 as [e'| |]; cbn [climb_post xval] in *; try contradiction.
    estep. tauto.
  - estep. split; auto.
Qed.
Lemma x_precedence c p lhs q ts : has_luau c = false -> sgood c p -> proper lhs -> fits c (head_of lhs) ts -> expression c lhs -> shut (open lhs) ts ->
  E (parse_expression_with_precedence c p lhs q) ts (fun r ts' => climb_post c lhs q ts r ts' /\ xval (expression c) r ts').
Proof.
  intros L H Hl Hf Xl Sl. pose proof (sg_mono _ _ H) as Hm. pose proof (sg_good _ _ H) as Hg. apply E_and; [now apply e_precedence|]. unfold parse_expression_with_precedence.
  eapply (E_loop (fun e ts1 => proper e /\ fits c (head_of e) ts1 /\ expression c e /\ shut (open e) ts1)); [mono_tac|auto 6|].
  clear Hl Hf Xl Sl. intros e ts1 (He & Hf & Xe & Se). estep. estep. subst ts1. destruct (precedence_of_token c t) as [n|] eqn:N.
  2:{ estep. split; assumption. }
  destruct (Nat.ltb_spec n q) as [Lt|Ge].
  { estep. split; assumption. }
  estep. eapply E_conseq; [now apply (x_binop c t r n)|]. intros o ts2 (-> & s & -> & S & B). cbn [fst snd].
  destruct (prec_symbol _ _ _ N) as (s' & S' & Ln & _ & Y). rewrite S in S'. injection S' as <-.
  estep. eapply E_conseq; [now apply (sg_primary c p)|]. intros [rhs| |] ts2 [K1 K2]; cbn [primary_post xval] in *; [|contradiction|estep].
  destruct K1 as (T1 & Hr & Hfr & Hn), K2 as (Ur & Sr). estep.
  assert (Ro : right_of (head_of rhs) s = true) by (destruct (head_of rhs); [now destruct Hn|reflexivity|reflexivity]).
  eapply E_conseq; [apply E_and; [now apply (e_climb_right c p t n s)|apply (x_climb_right c p t n s); auto using ex_unit]|].
  intros [e'|] ts3 [K1 K2]; [|contradiction]. destruct K1 as (T2 & He' & Hrt & Hc), K2 as (Xe' & Se'). estep.
  assert (Lo : left_of (head_of e) s = true) by (apply Hf; congruence).
  repeat split.
  - apply proper_nd; [|repeat (apply Forall_cons; [try assumption|]); try apply Forall_nil].
    + enode.
    + apply proper_nd; [|repeat constructor]. enode.
  - cbn [head_of]. destruct ts3 as [|u ts3]; [exact I|]. intros z Z X. cbn [left_of]. apply orb_true_iff. destruct (Hc z Z X) as [L'|[L' ->]].
    + left. apply Nat.ltb_lt. lia.
    + right. rewrite andb_true_r. apply Nat.eqb_eq. lia.
  - apply ex_binary; auto using sym_eq, (no_if c), (no_more_type c).
  - exact Se'.
Qed.
Lemma x_expression c p ts : has_luau c = false -> sgood c p -> E (parse_expression c p) ts (xval (expression c)).
Proof.
  begin. unfold parse_expression. estep. eapply E_conseq; [now apply (x_primary c p)|]. intros [e| |] ts1 [K1 K2]; cbn [primary_post xval] in *; [|contradiction|now estep].
  destruct K1 as (T & He & Hf & _), K2 as (Ue & Se). eapply E_conseq; [now apply (x_precedence c p); auto using ex_unit|]. intros r1 ts2 [_ K]. exact K.
Qed.
