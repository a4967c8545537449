(** What is parsed without an error outside Luau is a tree of the tree grammar (C49): names, lists, function bodies. *)
From Verif Require Import LexerSpec PunctuatedProofs.
From Verif Require Import GrammarSound.
From Verif Require Export ParserClean4 RoundSpec.
From Coq Require Import Lia.
Local Open Scope nat_scope.
Import ListNotations.

Lemma at_toks_inj a b es : at_toks a es = at_toks b es -> a = b.
Proof. unfold at_toks. intros X. injection X as X. revert b X. induction a as [|x a IH]; intros [|y b] X; try discriminate; [reflexivity|]. injection X as -> X. f_equal. auto. Qed.
Lemma E_and {A} (m : M A) ts P Q : E m ts P -> E m ts Q -> E m ts (fun a ts' => P a ts' /\ Q a ts').
Proof.
  intros H1 H2 es a s' X Y. destruct (H1 es a s' X Y) as (t1 & -> & K1). destruct (H2 es a _ X Y) as (t2 & Z & K2). apply at_toks_inj in Z as ->. eauto.
Qed.

(** No argument list comes next. *)
Definition shut (b : bool) (ts : list tokref) : Prop := b = true -> match ts with t :: _ => is_symbol t SLeftParen = false | [] => True end.
Lemma shut_false ts : shut false ts.
Proof. discriminate. Qed.
Definition xval (P : tree -> Prop) (r : pres tree) (ts' : list tokref) : Prop := match r with Value e => P e /\ shut (open e) ts' | LexerMoved => False | NotFound => True end.
(** Where nothing can be dropped. *)
Definition xok {A} (P : A -> Prop) (r : pres A) (_ : list tokref) : Prop := match r with Value e => P e | LexerMoved => False | NotFound => True end.
Definition xsome {A} (P : A -> Prop) (r : option A) (_ : list tokref) : Prop := match r with Some e => P e | None => False end.

Definition sgood (c : cfg) (p : parsers) : Prop :=
  egood c p /\
  (forall ts, E (p_block p) ts (fun r _ => match r with Value b => block c b | _ => False end)) /\
  (forall ts, E (p_expression p) ts (xval (expression c))) /\
  (forall ts, E (p_primary p) ts (fun r ts' => primary_post c ts r ts' /\ xval (unit_expression c) r ts')) /\
  (forall e q ts, proper e -> fits c (head_of e) ts -> expression c e -> shut (open e) ts -> E (p_precedence p e q) ts (fun r ts' => climb_post c e q ts r ts' /\ xval (expression c) r ts')).
Lemma sg_good c p : sgood c p -> egood c p. Proof. now intros (? & ? & ? & ? & ?). Qed.
Lemma sg_mono c p : sgood c p -> pmono p. Proof. intros (H & _). exact (eg_mono _ _ H). Qed.
Lemma sg_block c p ts : sgood c p -> E (p_block p) ts (fun r _ => match r with Value b => block c b | _ => False end). Proof. now intros (? & ? & ? & ? & ?). Qed.
Lemma sg_expression c p ts : sgood c p -> E (p_expression p) ts (xval (expression c)). Proof. now intros (? & ? & ? & ? & ?). Qed.
Lemma sg_primary c p ts : sgood c p -> E (p_primary p) ts (fun r ts' => primary_post c ts r ts' /\ xval (unit_expression c) r ts'). Proof. now intros (? & ? & ? & ? & ?). Qed.
Lemma sg_precedence c p e q ts : sgood c p -> proper e -> fits c (head_of e) ts -> expression c e -> shut (open e) ts ->
  E (p_precedence p e q) ts (fun r ts' => climb_post c e q ts r ts' /\ xval (expression c) r ts').
Proof. intros (? & ? & ? & ? & ?). auto. Qed.
Create HintDb xspec.
#[export] Hint Resolve sg_mono : mono.
#[export] Hint Resolve sg_good sg_block sg_expression : xspec.
#[export] Hint Resolve e_parse_name e_force_type e_name_type : xspec.

Ltac xnorm := unfold xval, xok, xsome in *; enorm.
Ltac xstep :=
  lazymatch goal with
  | |- E (bind _ _) _ _ => estep
  | |- E (match ?x with _ => _ end) _ _ => estep
  | |- E (let _ := _ in _) _ _ => estep
  | |- E _ _ _ => first [ eapply E_conseq; [solve [eauto with xspec]|]; let a := fresh "a" in let r := fresh "r" in let K := fresh "K" in intros a r K | estep ]
  end.
Ltac xgo := repeat (xnorm; xstep); xnorm.
Ltac begin := intros; match goal with H : sgood _ _ |- _ => pose proof (sg_mono _ _ H); pose proof (sg_good _ _ H) | _ => idtac end.

(** Tokens of the grammar. *)
Lemma sym_eq r s : is_symbol r s = true -> sy r s.
Proof. apply sym_terminal. Qed.
Lemma name_eq r : is_identifier r = true -> nm r.
Proof. apply name_terminal. Qed.
#[export] Hint Resolve sym_eq name_eq string_terminal number_terminal shut_false : xtree.

(** ** Lists *)
Lemma edge_last p k l x : (k = CPunctuated \/ k = CEnd) -> on_edge p (Con k (l ++ [x])) = on_edge p x.
Proof.
  intros K. assert (H : forall l, (fix last_one (l : list tree) : bool := match l with [] => false | [x] => on_edge p x | _ :: l => last_one l end) (l ++ [x]) = on_edge p x).
  { clear l. induction l as [|y l IH]; [reflexivity|]. cbn [app]. destruct (l ++ [x]) eqn:Z; [now destruct l|]. exact IH. }
  destruct K as [->| ->]; cbn [on_edge]; apply H.
Qed.
Lemma edge_final p t : on_edge p (final t) = on_edge p t.
Proof. exact (edge_last p CEnd [] t (or_intror eq_refl)). Qed.
Lemma several_snoc {A} (P : tree -> Prop) s (f : A -> tree) l v : dotted [s] l -> Forall (fun x => P (f (pair_value x))) l -> P (f v) -> several P s (map (pair_tree f) (l ++ [End v])).
Proof.
  intros D H Hv. induction l as [|x l IH]; [now constructor|]. apply Forall_inv in H as Hx. apply Forall_inv_tail in H. inversion_clear D as [|? ? Dx D']. destruct x as [u|u d]; [contradiction|].
  cbn [app map pair_tree]. cbn in Dx. rewrite orb_false_r in Dx. constructor; auto using sym_eq.
Qed.
Lemma several_ok {A} (P : tree -> Prop) s (f : A -> tree) l : list_ok (fun v => P (f v)) [s] l -> several P s (map (pair_tree f) (pairs l)).
Proof.
  intros (H1 & H2 & H3). unfold each, nonempty in *. destruct l as [l]. cbn [pairs] in *. induction l as [|x l IH]; [congruence|]. apply Forall_inv in H1 as Hx. apply Forall_inv_tail in H1.
  destruct x as [u|u d]; cbn [map pair_tree].
  - destruct l; [|contradiction]. now constructor.
  - apply spaced_cons in H2 as (S1 & S2 & S3). cbn in S2. rewrite orb_false_r in S2. destruct l as [|y l]; [now specialize (S1 eq_refl)|].
    constructor; auto using sym_eq. apply IH; auto. discriminate.
Qed.
Lemma x_one_or_more {A} (q : M (pres A)) d (f : A -> tree) (P : tree -> Prop) ts : mono q ->
  (forall ts, E q ts (fun r ts' => match r with Value v => P (f v) /\ shut (open (f v)) ts' | LexerMoved => False | NotFound => True end)) ->
  E (one_or_more q d) ts (fun r ts' => match r with Value l => several P d (map (pair_tree f) (pairs l)) /\ shut (open (punct f l)) ts' | LexerMoved => False | NotFound => True end).
Proof.
  intros Hm Hq. unfold one_or_more. apply E_bind; [mono_tac|mono_tac|].
  eapply (E_loop (fun l _ => Forall (fun x => P (f (pair_value x))) (pairs l) /\ dotted [d] (pairs l))); [mono_tac|repeat split; constructor|].
  intros l ts1 (Hl & D). apply E_bind; [mono_tac|mono_tac|]. eapply E_conseq; [apply Hq|]. intros r ts2 K. destruct r as [v| |]; [|contradiction|]; enorm.
  - estep; estep; enorm.
    + apply E_ret. split; [apply (each_push (fun v => P (f v))); auto|]. apply dotted_push; [assumption|]. cbn. match goal with H : is_symbol _ _ = true |- _ => now rewrite H end.
    + apply E_ret. unfold p_is_empty, p_len. cbn [pairs p_push]. rewrite app_length, Nat.add_comm. cbn [Nat.add List.length Nat.eqb].
      rewrite (p_pop_snoc _ (pairs l) (End v)) by reflexivity. apply E_ret. split; [now apply several_snoc|].
      unfold punct, open. cbn [p_push pairs]. rewrite map_app. cbn [map pair_tree]. rewrite edge_last, edge_final by auto. assumption.
  - apply E_ret. destruct l as [l]. unfold p_is_empty, p_len. cbn [pairs] in *. destruct l as [|x l _] using rev_ind.
    + now apply E_ret.
    + rewrite app_length, Nat.add_comm. cbn [Nat.add List.length Nat.eqb]. rewrite (p_pop_snoc _ l x) by reflexivity.
      apply Forall_app in D as [_ D]. inversion_clear D as [|? ? D' _]. destruct x as [|v e]; [contradiction|]. estep.
Qed.
Lemma x_expression_list c p ts : sgood c p -> E (parse_expression_list p) ts (fun r ts' => match r with
  | Value l => several (expression c) SComma (map (pair_tree (fun t => t)) (pairs l)) /\ shut (open (puncts l)) ts' | LexerMoved => False | NotFound => True end).
Proof. begin. apply x_one_or_more; [auto with mono|]. intros ts1. eapply E_conseq; [eauto with xspec|]. intros [v| |] ts2 K; exact K. Qed.
#[export] Hint Resolve x_expression_list : xspec.

(** ** Names *)
Definition bound_ok (c : cfg) (n : name) : Prop := is_identifier (n_name n) = true /\ n_type_specifier n = None /\ bound c (opt_tree (n_attribute n)) none.
Lemma x_force_attributes c p r ts : has_luau c = false -> sgood c p -> is_identifier r = true -> E (force_name_with_attributes c p r) ts (fun n _ => bound_ok c n).
Proof.
  begin. unfold force_name_with_attributes. destruct (negb (has_lua54 c) && negb (has_cfxlua c)) eqn:V.
  - xgo. subst. repeat split; auto. repeat constructor.
  - apply andb_false_iff in V. rewrite !negb_false_iff in V. xgo; repeat match goal with |- bound_ok _ _ => split | |- _ /\ _ => split end; auto; cbn; first [apply bo_attribute; auto with xtree|subst; apply bo_type; constructor].
Qed.
#[export] Hint Resolve x_force_attributes : xspec.
Lemma x_name_attributes c p ts : has_luau c = false -> sgood c p -> E (parse_name_with_attributes c p) ts (xok (bound_ok c)).
Proof. begin. unfold parse_name_with_attributes. xgo; auto. Qed.
#[export] Hint Resolve x_name_attributes : xspec.
Lemma x_attribute_list c p ts : has_luau c = false -> sgood c p -> E (one_or_more (parse_name_with_attributes c p) SComma) ts (xok (list_ok (bound_ok c) [SComma])).
Proof.
  begin. eapply E_conseq; [apply (e_one_or_more (parse_name_with_attributes c p) SComma name_toks (fun n => name_ok n /\ bound_ok c n)); [auto with mono|]|].
  - intros ts1. eapply E_conseq; [apply E_and; [apply e_name_attributes; auto|apply x_name_attributes; auto]|]. intros [n| |] ts2 [K1 K2]; cbn in *; tauto.
  - intros [l| |] ts2 K; cbn in *; [|tauto|tauto]. destruct K as [_ K]. eapply list_ok_impl; [|exact K]. now intros v [_ Hv].
Qed.
Lemma names_bindings (P : tree -> tree -> Prop) (g h : name -> tree) (l : list (pair_of name)) : spaced [SComma] false l -> l <> [] ->
  Forall (fun x => is_identifier (n_name (pair_value x)) = true /\ P (g (pair_value x)) (h (pair_value x))) l ->
  bindings P (map (pair_tree Tok) (map (pair_map n_name) l)) (map g (map pair_value l)) (map h (map pair_value l)).
Proof.
  induction l as [|x l IH]; [congruence|]. intros S _ H. inversion_clear H as [|? ? (N & Hx) Hl]. destruct x as [u|u d]; cbn [map pair_map pair_tree pair_value] in *.
  - destruct l; [|contradiction]. constructor; auto with xtree.
  - apply spaced_cons in S as (S1 & S2 & S3). cbn in S2. rewrite orb_false_r in S2. destruct l as [|y l]; [now specialize (S1 eq_refl)|].
    constructor; auto with xtree. apply IH; auto. discriminate.
Qed.

(** ** Blocks with an end *)
Lemma x_block_end c p name st ts : sgood c p ->
  E (expect_block_with_end c p name st) ts (xsome (fun be => block c (fst be) /\ sy (snd be) SEnd)).
Proof.
  begin. unfold expect_block_with_end. estep. eapply E_conseq; [eapply sg_block; eassumption|]. intros r ts1 K. destruct r as [b| |]; [|contradiction|contradiction]. estep.
  assert (X : forall Q : _ -> _ -> Prop, (forall se, Q se ts1) -> E (match block_last_stmt b with
                  | Some l => ends_of l
                  | None => match block_last_of_stmts b with Some l => ends_of l | None => ret (st, st) end
                  end) ts1 Q).
  { intros Q HQ. destruct (block_last_stmt b); [|destruct (block_last_of_stmts b)]; [apply E_pure; [apply pure_ends_of|auto]| apply E_pure; [apply pure_ends_of|auto]|apply E_ret; auto]. }
  apply X. intros se. xgo. auto with xtree.
Qed.
#[export] Hint Resolve x_block_end : xspec.

(** ** Function bodies *)
Definition names_so_far (c : cfg) (l : list (pair_of tree)) (specs : list tree) : Prop :=
  Forall2 (fun x t => match x with Punctuated v d => (exists n, v = param_name n /\ nm n) /\ sy d SComma /\ t = none | End _ => False end) l specs.
Lemma names_then c l specs x y : names_so_far c l specs ->
  parameters (optional (specifier c)) (optional (dots_specifier c)) (has_luau c) [x] y ->
  parameters (optional (specifier c)) (optional (dots_specifier c)) (has_luau c) (map (pair_tree (fun t => t)) l ++ [x]) (specs ++ y).
Proof.
  induction 1 as [|a b l specs H _ IH]; intros X; [exact X|]. destruct a as [|v d]; [contradiction|]. destruct H as ((n & -> & N) & D & ->). cbn [map app pair_tree]. constructor; auto. constructor.
Qed.
Definition xparams (c : cfg) (r : punctuated tree + punctuated tree * list tree * tokref) (_ : list tokref) : Prop :=
  match r with
  | inl _ => False
  | inr (l, specs, e) => sy e SRightParen /\ ((exists m v d, pairs l = m ++ [Punctuated v d]) \/ body_parameters c (map (pair_tree (fun t => t)) (pairs l)) specs)
  end.
Lemma x_parameters c p ts : has_luau c = false -> sgood c p -> E (parameter_loop c p) ts (xparams c).
Proof.
  begin. unfold parameter_loop.
  eapply (E_loop (fun '(l, specs) _ => names_so_far c (pairs l) specs)); [mono_tac|constructor|].
  intros [l specs] ts1 I. xgo; cbn [xparams p_push pairs].
  - split; [auto with xtree|]. destruct l as [l]. cbn [pairs] in *. destruct l as [|x l _] using rev_ind.
    + right. inversion I. constructor.
    + left. apply Forall2_app_inv_l in I as (s1 & s2 & _ & I & _). inversion I as [|? ? ? ? Hx]; subst. destruct x; [contradiction|]. eauto.
  - split; [auto with xtree|]. right. constructor. rewrite map_app. rewrite <- (app_nil_r specs). apply names_then; [assumption|]. constructor; auto with xtree.
  - apply Forall2_app; [assumption|]. repeat constructor; auto with xtree.
    + eexists. split; [reflexivity|]. unfold plain_ok in *. enorm. auto with xtree.
    + unfold plain_ok in *. enorm. match goal with H : n_type_specifier _ = None |- _ => now rewrite H end.
  - split; [auto with xtree|]. right. constructor. rewrite map_app. apply names_then; [assumption|]. unfold plain_ok in *. enorm. match goal with H : n_type_specifier _ = None |- _ => rewrite H end.
    constructor; auto with xtree. constructor.
Qed.
#[export] Hint Resolve x_parameters : xspec.
Lemma x_function_body c p ts : has_luau c = false -> sgood c p -> E (parse_function_body c p) ts (xok (function_body c)).
Proof.
  begin. unfold parse_function_body. rewrite H. estep. estep. cbv iota zeta. estep. estep; enorm; [|now apply E_ret].
  estep. eapply E_conseq; [eauto with xspec|]. intros [l|[[l specs] e]] ts1 K; [contradiction|]. cbn [xparams] in K. destruct K as (S & K).
  assert (X : E (match p_pop l with
                 | (Some (Punctuated v q), rest) =>
                     token_error q (str "trailing commas in arguments are not allowed") ;; ret (p_push rest (End v))
                 | _ => ret l
                 end) ts1 (fun l' _ => l' = l /\ body_parameters c (map (pair_tree (fun t => t)) (pairs l)) specs)).
  { destruct K as [(m & v & d & X)|K].
    - rewrite (p_pop_snoc _ _ _ X). estep.
    - destruct l as [l]. destruct l as [|x l _] using rev_ind; [now apply E_ret|]. rewrite (p_pop_snoc _ l x) by reflexivity. destruct x as [v|v q]; [now apply E_ret|estep]. }
  estep. eapply E_conseq; [exact X|]. intros l' ts' (-> & B). clear X. unfold body_return_type. rewrite H. estep. estep. cbv iota. estep. eapply E_conseq; [eauto with xspec|].
  intros [[b en]|] ts2 K'; [|contradiction]. destruct K' as (Hb & He). estep. cbn [xok fst snd] in *. constructor; auto with xtree; constructor.
Qed.
#[export] Hint Resolve x_function_body : xspec.
