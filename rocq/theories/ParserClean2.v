(** Error-free runs: expressions. *)
From Verif Require Import LexerSpec PunctuatedProofs.
From Verif Require Export ParserClean1.
From Coq Require Import Lia.
Local Open Scope nat_scope.

(** ** Tables *)
Lemma e_expression_key c p b ts : egood c p -> is_symbol b SLeftBracket = true ->
  E (expect_expression_key p b) ts (fun r ts' => match r with Some t => b :: ts = printed t ++ ts' /\ proper t | None => False end).
Proof. start. unfold expect_expression_key. ego; leaf. Qed.
#[export] Hint Resolve e_expression_key : espec.
Lemma e_table_field c p b fs t r : has_luau c = false -> egood c p -> E (table_field c p b fs t) (t :: r) (ook printed proper (t :: r)).
Proof. start. unfold table_field. ego; leaf. Qed.
#[export] Hint Resolve e_table_field : espec.
Lemma e_table c p b ts : has_luau c = false -> egood c p -> is_symbol b SLeftBrace = true ->
  E (force_table_constructor c p b) ts (fun t ts' => b :: ts = printed t ++ ts' /\ proper t).
Proof.
  start. unfold force_table_constructor. cbv zeta. estep.
  eapply (E_loop (fun l ts1 => ts = list_toks printed l ++ ts1 /\ each proper l /\ dotted [SComma; SSemicolon] (pairs l)));
    [mono_tac|pieces; auto using each_new, dotted_new|].
  intros l ts1 (T & Hl & D). ego.
  - leaf.
    apply proper_nd; [|repeat (apply Forall_cons; [eproper|]); try apply Forall_nil].
    enode. apply fits_list; [now apply dotted_spaced|now left|discriminate].
  - unfold push_field. ego; pieces.
    + apply dotted_push; [assumption|]. cbn [existsb]. now rewrite orb_false_r.
    + apply proper_nd; [|repeat (apply Forall_cons; [try eproper|]); try apply Forall_nil; now apply proper_each, each_push].
      enode. apply fits_list; [now apply dotted_end|now left|discriminate].
Qed.
#[export] Hint Resolve e_table : espec.

(** ** Prefixes and suffixes *)
Definition prefix_ok (x : prefix) : Prop :=
  match x with PrefixExpression e => proper e /\ is_parentheses e = true | PrefixName r => is_identifier r = true end.
Definition prefix_toks (x : prefix) : list tokref := match x with PrefixExpression e => printed e | PrefixName r => [r] end.
Lemma printed_prefix x : printed (prefix_tree x) = prefix_toks x.
Proof. destruct x; cbn [prefix_tree prefix_toks]; [|reflexivity]. rewrite printed_plain by reflexivity. cbn. now rewrite app_nil_r. Qed.
Lemma proper_prefix x : prefix_ok x -> proper (prefix_tree x).
Proof. destruct x; cbn [prefix_ok prefix_tree]; intros H; enorm; eproper. Qed.
Lemma e_prefix c p ts : egood c p -> E (parse_prefix c p) ts (fun r ts' => vok prefix_toks prefix_ok ts r ts' /\
  (r = NotFound -> exists t r, ts = t :: r /\ is_symbol t SLeftParen = false /\ is_identifier t = false)).
Proof. start. unfold parse_prefix. ego; leaf; cbn [prefix_toks prefix_ok]; leaf; try discriminate. eauto. Qed.
#[export] Hint Resolve e_prefix : espec.
Lemma e_arguments c p ts : has_luau c = false -> egood c p -> E (parse_arguments c p) ts (vok printed proper ts).
Proof. start. unfold parse_arguments. ego; leaf. Qed.
#[export] Hint Resolve e_arguments : espec.
Lemma e_dot_suffix m t r : is_symbol t SDot = true \/ is_symbol t SQuestionMarkDot = true -> E (dot_suffix m) (t :: r) (vok printed proper (t :: r)).
Proof. start. unfold dot_suffix. ego; leaf. destruct H as [H|H]; eproper. Qed.
#[export] Hint Resolve e_dot_suffix : espec.
Lemma e_suffix c p ts : has_luau c = false -> egood c p -> E (parse_suffix c p) ts (vok printed proper ts).
Proof. start. unfold parse_suffix. ego; try (exfalso; congruence); leaf. Qed.
#[export] Hint Resolve e_suffix : espec.
Lemma e_prefix_and_suffixes c p ts : has_luau c = false -> egood c p -> E (parse_prefix_and_suffixes c p) ts (fun r ts' => match r with
  | Value (x, l) => ts = prefix_toks x ++ flat_map printed l ++ ts' /\ prefix_ok x /\ Forall proper l
  | NotFound => ts' = ts /\ exists t r, ts = t :: r /\ is_symbol t SLeftParen = false /\ is_identifier t = false
  | LexerMoved => False
  end).
Proof.
  start. unfold parse_prefix_and_suffixes. estep. estep. destruct a as [x| |]; enorm.
  - estep. eapply (E_loop (fun l ts1 => r = flat_map printed l ++ ts1 /\ Forall proper l)); [mono_tac|split; [reflexivity|constructor]|].
    intros l ts1 (T & Hl). ego.
    + split; [rewrite flat_map_app; etoks|]. apply Forall_app. auto.
    + auto.
  - estep. split; [reflexivity|]. specialize (H3 eq_refl). enorm. eauto.
Qed.
#[export] Hint Resolve e_prefix_and_suffixes : espec.

(** ** Operators *)
Lemma prec_symbol c t n : precedence_of_token c t = Some n -> exists s, t_type (r_token t) = TSymbol s /\ n = level s /\ n <> unary_level /\ is_symbol t s = true.
Proof.
  unfold precedence_of_token, is_symbol. destruct (t_type (r_token t)) as [| | | | | | |s| | |]; try discriminate. intros H. exists s.
  assert (X : symbol_eqb s s = true). { unfold symbol_eqb. destruct (symbol_eq_dec s s); congruence. }
  split; [reflexivity|]. rewrite X.
  destruct s; cbn in H; try discriminate; try (injection H as <-; repeat split; discriminate);
  repeat match type of H with (if ?b then _ else _) = _ => destruct b end; try discriminate; injection H as <-; repeat split; discriminate.
Qed.
Lemma right_token t s : t_type (r_token t) = TSymbol s -> is_right_associative_token t = right_associative s.
Proof. intros H. unfold is_right_associative_token, right_associative, is_symbol. rewrite H. apply orb_comm. Qed.
Lemma right_level c t n s : precedence_of_token c t = Some n -> t_type (r_token t) = TSymbol s -> right_associative s = Nat.eqb n 8 || Nat.eqb n 12.
Proof.
  unfold precedence_of_token. intros H X. rewrite X in H.
  destruct s; cbn in H; try discriminate; try (injection H as <-; reflexivity);
  repeat match type of H with (if ?b then _ else _) = _ => destruct b end; try discriminate; injection H as <-; reflexivity.
Qed.
Lemma e_binop c t r n : precedence_of_token c t = Some n ->
  E (consume_binop c) (t :: r) (fun o ts' => ts' = r /\ exists s, o = (Nd (KBinOp s) [Tok t], t) /\ t_type (r_token t) = TSymbol s).
Proof.
  intros H. unfold consume_binop. estep. estep. rewrite H. destruct (t_type (r_token t)) eqn:X; try apply E_panic.
  estep; [|apply E_panic]. estep. estep. estep. split; [reflexivity|]. eauto.
Qed.
Lemma fits_operand c ts : fits c Operand ts.
Proof. destruct ts; [exact I|]. intros s _ _. reflexivity. Qed.
#[export] Hint Resolve fits_operand : espec.

Lemma e_unary c p t ts : egood c p -> (is_symbol t SMinus || is_symbol t SNot || is_symbol t SHash || (f_lua53 (c_feat c) && is_symbol t STilde)) = true ->
  E (parse_unary_expression c p t) ts (primary_post c (t :: ts)).
Proof.
  start. unfold parse_unary_expression. estep.
  assert (X : E (unop c t) ts (fun o ts' => ts' = ts /\ printed o = [t] /\ proper o)).
  { unfold unop. repeat (estep; enorm); leaf. }
  eapply E_conseq; [exact X|]. intros o ts1 (-> & Po & Ho). clear X. cbv zeta. estep. estep. destruct a as [e| |]; cbn [primary_post] in K; enorm.
  - estep. eapply E_conseq; [eauto with espec|]. intros r1 ts2 K. destruct r1 as [e'| |]; cbn [climb_post] in K; try contradiction. destruct K as (T & He & Hf & Hb & Hh).
    estep. cbn [primary_post head_of is_binary]. rewrite T. repeat split.
    + eprint. elist. now rewrite Po.
    + apply proper_nd; [|repeat (apply Forall_cons; [assumption|]); apply Forall_nil]. enode.
      destruct Hh as [->|(s & -> & L)].
      * destruct (head_of e) as [s| |]; cbn in *; [now destruct H3|reflexivity|reflexivity].
      * cbn [under_unary]. apply Nat.ltb_lt. unfold unop_precedence, unary_level in *. destruct (Nat.eq_dec (level s) 11) as [Z|Z]; [|lia].
        exfalso. clear - Z. destruct s; vm_compute in Z; discriminate.
    + unfold fits, below in *. destruct ts2 as [|u ts2]; [trivial|]. intros s Hs Hp. cbn [left_of]. destruct (precedence_of_token c u) as [n|] eqn:N; [|congruence].
      apply Nat.ltb_lt. specialize (Hb n eq_refl). destruct (prec_symbol _ _ _ N) as (s' & X1 & X2 & _). rewrite Hs in X1. injection X1 as <-. subst n. exact Hb.
    + tauto.
  - estep.
Qed.
#[export] Hint Resolve e_unary : espec.

Lemma e_anonymous c p ats ts : has_luau c = false -> egood c p -> Forall proper ats -> (forall t r, ts = t :: r -> is_symbol t SFunction = true) ->
  E (anonymous_function c p ats) ts (fun r ts' => match r with Value e => flat_map printed ats ++ ts = printed e ++ ts' /\ proper e /\ head_of e = Operand | _ => False end).
Proof.
  start. unfold anonymous_function. destruct ts as [|t ts]; [intros es x s' X; discriminate|]. specialize (H2 _ _ eq_refl). ego; leaf.
Qed.

Lemma last_of_snoc {A} (l : list A) x : last_of (l ++ [x]) = Some x.
Proof. unfold last_of. now rewrite rev_app_distr. Qed.
Lemma last_of_none {A} (l : list A) : last_of l = None -> l = [].
Proof. destruct l as [|x l _] using rev_ind; [reflexivity|]. rewrite last_of_snoc. discriminate. Qed.
Lemma last_call l : last_is_call (vec l) = option_map call_suffix (last_of l).
Proof. cbn. unfold last_of. now destruct (rev l). Qed.
Lemma is_call_suffix t : is_call t = call_suffix t.
Proof. reflexivity. Qed.

Lemma proper_call x l z : prefix_ok x -> Forall proper l -> last_of l = Some z -> is_call z = true -> proper (Nd KFunctionCall [prefix_tree x; vec l]).
Proof.
  intros H1 H2 H3 H4. apply proper_nd; [|repeat (apply Forall_cons; [first [now apply proper_prefix|now apply proper_con]|]); apply Forall_nil].
  eapply node_intro; [reflexivity|reflexivity| |reflexivity]. cbn [joint]. rewrite last_call, H3. exact H4.
Qed.
Lemma proper_var_expression x l z : prefix_ok x -> Forall proper l -> last_of l = Some z -> is_call z = false -> proper (Nd KVarExpression [prefix_tree x; vec l]).
Proof.
  intros H1 H2 H3 H4. apply proper_nd; [|repeat (apply Forall_cons; [first [now apply proper_prefix|now apply proper_con]|]); apply Forall_nil].
  eapply node_intro; [reflexivity|reflexivity| |reflexivity]. cbn [joint]. rewrite last_call, H3. cbn [option_map]. now rewrite <- is_call_suffix, H4.
Qed.
Lemma proper_var_parentheses e : prefix_ok (PrefixExpression e) -> proper (Nd KVarExpression [prefix_tree (PrefixExpression e); vec []]).
Proof.
  intros H1. apply proper_nd; [|repeat (apply Forall_cons; [first [now apply proper_prefix|now apply proper_con]|]); apply Forall_nil].
  eapply node_intro; reflexivity.
Qed.

Definition arm_post (c : cfg) (ts : list tokref) (x : pres tree * bool) (ts' : list tokref) : Prop := primary_post c ts (fst x) ts' /\ (snd x = true -> fst x = NotFound).
Lemma operand_post c ts e ts' : head_of e = Operand -> ts = printed e ++ ts' -> proper e ->
  ts = printed e ++ ts' /\ proper e /\ fits c (head_of e) ts' /\ ~ is_binary (head_of e).
Proof. intros H1 H2 H3. rewrite H1. auto using fits_operand. Qed.
Lemma head_parentheses e : is_parentheses e = true -> head_of e = Operand.
Proof. destruct e as [?|k cs|? ?]; try discriminate. destruct k; discriminate || reflexivity. Qed.
Lemma e_arm c p ts : has_luau c = false -> egood c p -> E (primary_arm c p) ts (arm_post c ts).
Proof.
  start. unfold primary_arm. cbv zeta. estep. estep. subst. unfold arm_post.
  repeat (estep; enorm); try (exfalso; congruence); cbn [fst snd primary_post]; try (split; [|discriminate]).
  1,2: eapply E_conseq; [eapply e_anonymous; eauto; intros; enorm; assumption|]; intros [e| |] ts1 K; cbv beta iota in K; enorm; try contradiction; estep; cbn [fst snd primary_post];
    match goal with H : head_of _ = Operand |- _ => rewrite H end; split; [|discriminate]; leaf; auto using fits_operand.
  all: try assumption; try reflexivity.
  all: repeat match goal with H : last_of ?l = None |- _ => apply last_of_none in H; subst l end; cbn [prefix_toks prefix_ok flat_map app] in *; enorm.
  all: apply operand_post; [first [reflexivity|now apply head_parentheses]| |].
  all: try solve [eprint; rewrite ?printed_prefix; etoks | eproper
    | apply proper_nd; [reflexivity|apply Forall_cons; [|apply Forall_nil]]; eauto using proper_call;
      apply proper_nd; [reflexivity|apply Forall_cons; [|apply Forall_nil]]; eauto using proper_var_expression].
  1: apply proper_nd; [|repeat constructor]; enode; now rewrite ?orb_assoc in *.
  all: try (apply proper_nd; [reflexivity|apply Forall_cons; [|apply Forall_nil]]; eauto using proper_call; fail).
  apply proper_nd; [|repeat constructor]. enode. cbn. unfold is_number. now rewrite X3.
Qed.
#[export] Hint Resolve e_arm : espec.
Lemma e_primary c p ts : has_luau c = false -> egood c p -> E (parse_primary_expression c p) ts (primary_post c ts).
Proof.
  start. unfold parse_primary_expression. estep. estep. destruct a as [r1 b]. destruct K as [K1 K2]. cbn [fst snd] in *. rewrite H.
  destruct r1 as [e| |], b; try discriminate (K2 eq_refl); apply E_ret; assumption.
Qed.
#[export] Hint Resolve e_primary : espec.

(** What the inner loop leaves: no operator that binds tighter, or equally tight to the right. *)
Definition climbed (c : cfg) (n : nat) (ts : list tokref) : Prop :=
  match ts with t :: _ => forall s, t_type (r_token t) = TSymbol s -> precedence_of_token c t <> None -> level s < n \/ (level s = n /\ right_associative s = false) | [] => True end.
Lemma e_climb_right c p t n s rhs ts : egood c p -> precedence_of_token c t = Some n -> t_type (r_token t) = TSymbol s -> proper rhs -> fits c (head_of rhs) ts -> right_of (head_of rhs) s = true ->
  E (climb_right c p t n rhs) ts (fun r ts' => match r with
    | Some e => printed rhs ++ ts = printed e ++ ts' /\ proper e /\ right_of (head_of e) s = true /\ climbed c n ts'
    | None => False
    end).
Proof.
  intros H N S Hr Hf Ho. pose proof (eg_mono _ _ H) as Hm. destruct (prec_symbol _ _ _ N) as (s' & S' & Ln & _ & _). rewrite S in S'. injection S' as <-.
  pose proof (right_level _ _ _ _ N S) as Ra. unfold climb_right.
  eapply (E_loop (fun e ts1 => printed rhs ++ ts = printed e ++ ts1 /\ proper e /\ fits c (head_of e) ts1 /\ right_of (head_of e) s = true)); [mono_tac|auto|].
  clear Hr Hf Ho. intros e ts1 (T & He & Hf & Ho). estep. estep. enorm. destruct (precedence_of_token c t0) as [m|] eqn:M.
  2:{ estep. repeat split; auto. intros z Hz X. congruence. }
  destruct (prec_symbol _ _ _ M) as (z & Z & Lm & _ & _). pose proof (right_level _ _ _ _ M Z) as Rz. rewrite (right_token _ _ Z). cbv zeta.
  destruct (Nat.ltb_spec n m) as [Lt|Ge].
  - estep. eapply E_conseq; [eauto with espec|]. intros r1 ts2 K. destruct r1 as [e'| |]; cbn [climb_post] in K; try contradiction. destruct K as (T' & He' & Hf' & _ & Hh).
    estep. repeat split; auto; [congruence|]. destruct Hh as [->|(w & -> & L)]; [assumption|]. cbn [right_of]. apply orb_true_iff. left. apply Nat.ltb_lt. lia.
  - destruct (right_associative z && Nat.eqb m n) eqn:Q.
    + apply andb_true_iff in Q as [Q1 Q2]. apply Nat.eqb_eq in Q2. subst m.
      estep. eapply E_conseq; [eauto with espec|]. intros r1 ts2 K. destruct r1 as [e'| |]; cbn [climb_post] in K; try contradiction. destruct K as (T' & He' & Hf' & _ & Hh).
      estep. repeat split; auto; [congruence|]. destruct Hh as [->|(w & -> & L)]; [assumption|]. cbn [right_of]. rewrite Ra. rewrite Rz, Q2 in Q1. rewrite Q1, andb_true_r.
      apply orb_true_iff. destruct (Nat.eq_dec (level s) (level w)); [right; now apply Nat.eqb_eq|left; apply Nat.ltb_lt; lia].
    + estep. repeat split; auto. intros z' Z' _. rewrite Z in Z'. injection Z' as <-. rewrite <- Lm. destruct (Nat.eq_dec m n) as [->|]; [right|left; lia].
      split; [reflexivity|]. now rewrite Nat.eqb_refl, andb_true_r in Q.
Qed.
Lemma e_precedence c p lhs q ts : egood c p -> proper lhs -> fits c (head_of lhs) ts -> E (parse_expression_with_precedence c p lhs q) ts (climb_post c lhs q ts).
Proof.
  intros H Hl Hf. pose proof (eg_mono _ _ H) as Hm. unfold parse_expression_with_precedence.
  eapply (E_loop (fun e ts1 => printed lhs ++ ts = printed e ++ ts1 /\ proper e /\ fits c (head_of e) ts1 /\ (e = lhs \/ exists s, head_of e = Binary s /\ q <= level s))); [mono_tac|auto 6|].
  clear Hl Hf. intros e ts1 (T & He & Hf & Hh). estep. estep. subst ts1. destruct (precedence_of_token c t) as [n|] eqn:N.
  2:{ estep. cbn [climb_post]. repeat split; auto. cbn. intros n X. congruence. }
  destruct (Nat.ltb_spec n q) as [Lt|Ge].
  { estep. cbn [climb_post]. repeat split; auto. cbn. intros m X. congruence. }
  estep. eapply E_conseq; [now apply (e_binop c t r n)|]. intros o ts2 (-> & s & -> & S). cbn [fst snd].
  destruct (prec_symbol _ _ _ N) as (s' & S' & Ln & _ & Y). rewrite S in S'. injection S' as <-.
  estep. estep. destruct a as [rhs| |]; cbn [primary_post] in K; [|contradiction|estep].
  destruct K as (T1 & Hr & Hfr & Hn). estep.
  eapply E_conseq; [apply (e_climb_right c p t n s); eauto; destruct (head_of rhs); [now destruct Hn|reflexivity|reflexivity]|].
  intros [e'|] ts3 K; [|contradiction]. destruct K as (T2 & He' & Hrt & Hc). estep. repeat split.
  - subst r. rewrite T. eprint. elist. now rewrite T2.
  - apply proper_nd; [|repeat (apply Forall_cons; [try assumption|]); try apply Forall_nil].
    + enode. apply Hf; congruence.
    + apply proper_nd; [|repeat constructor]. enode.
  - cbn [head_of]. destruct ts3 as [|u ts3]; [exact I|]. intros z Z X. cbn [left_of]. apply orb_true_iff. destruct (Hc z Z X) as [L|[L ->]].
    + left. apply Nat.ltb_lt. lia.
    + right. rewrite andb_true_r. apply Nat.eqb_eq. lia.
  - right. exists s. split; [reflexivity|lia].
Qed.
Lemma e_expression c p ts : has_luau c = false -> egood c p -> E (parse_expression c p) ts (vok printed proper ts).
Proof.
  start. unfold parse_expression. estep. estep. destruct a as [e| |]; cbn [primary_post] in K; [|contradiction|estep; now cbn].
  destruct K as (T & He & Hf & _). eapply E_conseq; [now apply e_precedence|]. intros r1 ts1 K. destruct r1 as [e'| |]; cbn [climb_post] in K; try contradiction.
  destruct K as (T' & He' & _). cbn. split; [congruence|assumption].
Qed.
