(** What is parsed without an error outside Luau is a tree of the tree grammar (C49): statements and blocks. *)
From Verif Require Import LexerSpec PunctuatedProofs.
From Verif Require Import GrammarSound.
From Verif Require Export Exact2.
From Coq Require Import Lia.
Local Open Scope nat_scope.
Import ListNotations.
#[export] Hint Resolve x_expression x_primary : xspec.

(** ** Lists built by [push_punctuated] *)
Definition chain {A} (P : A -> Prop) (ys : list symbol) (l : punctuated A) : Prop :=
  each P l /\ spaced ys false (pairs l) /\ exists m w, pairs l = m ++ [End w].
Lemma chain_one {A} (P : A -> Prop) ys v : P v -> chain P ys (p_push p_new (End v)).
Proof. intros H. repeat split; [apply each_push; auto using each_new|]. exists [], v. reflexivity. Qed.
Lemma chain_push {A} (P : A -> Prop) ys l v d ts (Q : punctuated A -> list tokref -> Prop) : chain P ys l ->
  existsb (is_symbol d) ys = true -> P v -> (forall m, chain P ys m -> Q m ts) -> E (push_punctuated l v d) ts Q.
Proof.
  intros (Hl & S & m & w & X) D Hv H. unfold push_punctuated, p_push_punctuated. rewrite X, pop_snoc. cbn [pair_punctuation into_value]. apply E_ret, H. repeat split.
  - unfold each in *. cbn [pairs]. rewrite X in Hl. apply Forall_app in Hl as [Hl1 Hl2]. inversion_clear Hl2. apply Forall_app. split; [apply Forall_app; split; [assumption|]|]; repeat constructor; assumption.
  - cbn [pairs pair_new]. rewrite X in S. now apply spaced_snoc.
  - eexists. eexists. reflexivity.
Qed.
Lemma chain_several {A} (P : tree -> Prop) s (f : A -> tree) l : chain (fun v => P (f v)) [s] l -> several P s (map (pair_tree f) (pairs l)).
Proof. intros (H1 & H2 & m & w & X). apply several_ok. repeat split; auto. unfold nonempty. rewrite X. now destruct m. Qed.

(** ** Statements *)
Definition xopt (P : tree -> Prop) (r : option tree) (ts' : list tokref) : Prop := match r with Some t => P t /\ shut (open t) ts' | None => True end.
Definition xstmt (c : cfg) (r : pres stmt_variant) (ts' : list tokref) : Prop := match r with Value (VStmt t) => statement c t /\ shut (open t) ts' | _ => True end.
Ltac stmt := cbn [xopt xstmt] in *; repeat match goal with |- _ /\ _ => split | |- True => exact I | |- shut _ _ => first [assumption|discriminate] end.
Lemma x_function_name ts : E expect_function_name ts (fun r _ => match r with Value t => function_name t | _ => True end).
Proof.
  unfold expect_function_name. estep. estep. subst. estep; [|now estep]. estep. estep.
  eapply (E_loop (fun l _ => chain (fun t => exists r, Tok t = Tok r /\ nm r) [SDot] l)); [mono_tac|apply chain_one; eauto using name_eq|].
  intros l ts1 G. assert (S : several (fun t => exists r, t = Tok r /\ nm r) SDot (map (pair_tree Tok) (pairs l))) by now apply (chain_several _ _ Tok).
  estep. estep. subst. estep.
  - estep. estep. estep. estep. subst. estep; [|now estep]. estep. estep. estep.
    + estep. eapply chain_push; [exact G|cbn; now rewrite X2|cbv beta; eauto using name_eq|]. intros m Gm. estep. exact Gm.
    + estep; [|apply E_panic]. estep. apply fn_method; auto with xtree.
  - estep. now apply fn_plain.
Qed.
#[export] Hint Resolve x_function_name : xspec.
Lemma x_function_declaration c p ts ft : has_luau c = false -> sgood c p -> is_symbol ft SFunction = true ->
  E (expect_function_declaration c p [] ft) ts (xopt (fun t => statement c (Nd KStmtFunctionDeclaration [t]))).
Proof. begin. unfold expect_function_declaration. xgo; stmt. apply sm_function; auto with xtree. constructor. Qed.
Lemma x_local_function c p ts lt ft : has_luau c = false -> sgood c p -> is_symbol ft SFunction = true -> is_symbol lt SLocal = true ->
  E (expect_local_function_declaration c p [] lt ft) ts (xopt (fun t => statement c (Nd KStmtLocalFunction [t]))).
Proof. begin. unfold expect_local_function_declaration. xgo; stmt. apply sm_local_function; auto with xtree. constructor. Qed.
#[export] Hint Resolve x_function_declaration x_local_function : xspec.

(** ** Loops *)
Lemma x_numeric_for c p ts ft n : has_luau c = false -> sgood c p -> is_symbol ft SFor = true -> plain_ok n ->
  E (expect_numeric_for_stmt c p ft n) ts (xopt (fun t => statement c (Nd KStmtNumericFor [t]))).
Proof.
  begin. unfold expect_numeric_for_stmt. destruct ts as [|et ts]; [intros es x s' X; discriminate|]. plain. xgo; stmt.
  all: apply negb_false_iff in X; destruct p0 as [b e]; cbn [fst snd] in *.
  all: first [apply sm_numeric_step; solve [auto with xtree|constructor]|apply sm_numeric; solve [auto with xtree|constructor]].
Qed.
#[export] Hint Resolve x_numeric_for e_name_list : xspec.
Lemma plain_bindings c l : list_ok plain_ok [SComma] l -> exists ns, bindings (bound_type c) (map (pair_tree Tok) (map (pair_map n_name) (pairs l))) ns (map (fun n => opt_tree (n_type_specifier n)) (map pair_value (pairs l))).
Proof.
  intros (H1 & H2 & H3). eexists. apply (names_bindings (bound_type c) (fun _ => none) (fun n => opt_tree (n_type_specifier n))); auto.
  eapply Forall_impl; [|exact H1]. intros x (N & T & _). split; [exact N|]. rewrite T. constructor. constructor.
Qed.
Lemma x_for c p ts ft : has_luau c = false -> sgood c p -> is_symbol ft SFor = true -> E (expect_for_stmt c p ft) ts (xopt (statement c)).
Proof.
  begin. unfold expect_for_stmt. estep. eapply E_conseq; [now apply e_name_list|]. intros [l| |] ts1 K; enorm; [|estep]. estep. estep. subst. estep; [apply E_panic|]. estep.
  - apply andb_true_iff in X0 as [X0 X1]. apply Nat.eqb_eq in X0. rewrite into_iter_eq. unfold p_len in X0. destruct l as [l]. cbn [pairs] in *. destruct l as [|x [|]]; try discriminate.
    cbn [map]. match goal with H : list_ok _ _ _ |- _ => destruct H as (L1 & L2 & _) end. inversion_clear L1. xgo. destruct a as [t'|]; cbn [option_map]; [|exact I]. destruct K as [K1 K2]. split; [exact K1|discriminate].
  - match goal with H : list_ok plain_ok _ _ |- _ => destruct (plain_bindings c _ H) as (ns & B) end. rewrite into_iter_eq. xgo; stmt. destruct p0 as [b e]. cbn [fst snd] in *. eapply sm_generic; auto with xtree. exact B.
Qed.
#[export] Hint Resolve x_for : xspec.

(** ** Other statements *)
Lemma x_repeat c p ts rt : sgood c p -> is_symbol rt SRepeat = true -> E (expect_repeat_stmt c p rt) ts (xopt (statement c)).
Proof. begin. unfold expect_repeat_stmt. xgo; stmt. apply sm_repeat; auto with xtree. Qed.
Lemma x_while c p ts wt : sgood c p -> is_symbol wt SWhile = true -> E (expect_while_stmt c p wt) ts (xopt (fun t => statement c (Nd KStmtWhile [t]))).
Proof. begin. unfold expect_while_stmt. xgo; stmt. apply sm_while; auto with xtree. Qed.
#[export] Hint Resolve x_repeat x_while : xspec.
Lemma x_if c p ts it : sgood c p -> is_symbol it SIf = true -> E (expect_if_stmt c p it) ts (xopt (fun t => statement c (Nd KStmtIf [t]))).
Proof.
  begin. unfold expect_if_stmt. estep. eapply E_conseq; [eauto with xspec|]. intros [cond| |] ts1 K; xnorm; [|estep]. estep. estep. subst. estep. eapply E_conseq; [eapply sg_block; eassumption|].
  intros [b| |] ts2 Kb; [|contradiction|contradiction]. estep.
  eapply (E_loop (fun l _ => Forall (else_if_block c) l)); [mono_tac|constructor|].
  intros l ts3 Hl. estep. estep. subst. estep.
  - estep. estep. estep. eapply E_conseq; [eauto with xspec|]. intros [cond2| |] ts4 K2; xnorm; [|estep]. estep. estep. subst. estep. eapply E_conseq; [eapply sg_block; eassumption|].
    intros [b2| |] ts5 K3; [|contradiction|contradiction]. estep. apply Forall_app. split; [assumption|]. constructor; [|constructor]. constructor; auto with xtree.
  - estep. estep.
    assert (El : else_if_blocks c (opt_tree (else_if_optional l))). { destruct l; now constructor. }
    remember (opt_tree (else_if_optional l)) as ei eqn:Z0. clear Z0. estep; enorm.
    + estep. estep. eapply E_conseq; [eapply sg_block; eassumption|]. intros [b2| |] ts5 K3; [|contradiction|contradiction]. xgo; stmt. apply sm_if_else; auto with xtree.
    + xgo; stmt. apply sm_if; auto with xtree.
Qed.
#[export] Hint Resolve x_if : xspec.
Lemma bound_bindings c l : list_ok (bound_ok c) [SComma] l -> bindings (bound c) (map (pair_tree Tok) (map (pair_map n_name) (pairs l)))
  (map (fun n => opt_tree (n_attribute n)) (map pair_value (pairs l))) (map (fun n => opt_tree (n_type_specifier n)) (map pair_value (pairs l))).
Proof.
  intros (H1 & H2 & H3). apply (names_bindings (bound c) (fun n => opt_tree (n_attribute n)) (fun n => opt_tree (n_type_specifier n))); auto.
  eapply Forall_impl; [|exact H1]. intros x (N & T & B). split; [exact N|]. now rewrite T.
Qed.
Lemma x_local_assignment c p ts lt : has_luau c = false -> sgood c p -> is_symbol lt SLocal = true ->
  E (expect_local_assignment c p lt) ts (xopt (fun t => statement c (Nd KStmtLocalAssignment [t]))).
Proof.
  begin. unfold expect_local_assignment. estep. eapply E_conseq; [apply x_attribute_list; eassumption|]. intros [l| |] ts1 K; xnorm; [|apply E_panic]. cbv zeta. estep.
  apply bound_bindings in K. rewrite into_iter_eq. estep; enorm.
  - assert (S : exists s, is_symbol t s = true /\ equal_in c s).
    { match goal with H : existsb (is_symbol t) _ = true |- _ => rename H into S end. destruct (f_cfxlua (c_feat c)) eqn:F; cbn [existsb] in S; rewrite orb_false_r in S; [apply orb_true_iff in S as [S|S]|]; eexists; (split; [exact S|]); cbn; auto. }
    destruct S as (s & S & Q). xgo; stmt. apply (sm_local_values c lt _ _ _ t s); auto using sym_eq.
  - estep. stmt. apply sm_local; auto using sym_eq.
Qed.
#[export] Hint Resolve x_local_assignment : xspec.

(** ** Assignments and calls *)
Lemma variable_last c x l z : xprefix c x -> Forall (suffix c) l -> last_of l = Some z -> is_call z = false -> RoundSpec.variable c (var_tree (VarExpression x l)).
Proof. intros P L Z C. pose proof (call_last l) as CL. rewrite Z, C in CL. apply va_suffix; auto using prefix_in. intros ->. discriminate Z. Qed.
Lemma variable_plain c x : xprefix c x -> RoundSpec.variable c (var_tree (match x with PrefixExpression _ => VarExpression x [] | PrefixName n => VarName n end)).
Proof. destruct x as [e|n]; intros P; [now apply va_parentheses|apply va_name; now apply name_eq]. Qed.
Lemma x_compound c p v t ts : has_luau c = false -> sgood c p -> RoundSpec.variable c (var_tree v) -> is_compound c t = true -> E (parse_compound_assignment c p v) (t :: ts) (xstmt c).
Proof.
  begin. unfold parse_compound_assignment. estep. estep. estep. eapply E_conseq; [eauto with xspec|]. intros [e| |] ts1 K; xnorm; [|estep].
  match goal with H : is_compound c t = true |- _ => rename H into C end. unfold is_compound in C. rewrite H in C. cbn [andb orb] in C. apply andb_true_iff in C as [F C].
  assert (O : E (compound_op c t) ts1 (fun o ts' => ts' = ts1 /\ exists s, o = Nd (KCompoundOp s) [Tok t] /\ is_symbol t s = true /\ compound_in c s)).
  { unfold compound_op. cbv zeta. cbn [existsb] in C.
    assert (G : forall s, is_symbol t s = true -> compound_in c s -> exists s0, Nd (KCompoundOp s) [Tok t] = Nd (KCompoundOp s0) [Tok t] /\ is_symbol t s0 = true /\ compound_in c s0) by eauto.
    assert (U : forall s s', is_symbol t s = true -> is_symbol t s' = true -> s' = s).
    { intros s s' A B. apply sym_eq in A. apply sym_eq in B. congruence. }
    rewrite !orb_true_iff in C.
    repeat (estep; enorm); (split; [reflexivity|]); apply G.
    all: try match goal with X : (if ?b then _ else _) = Some _ |- _ => destruct b; [|discriminate X] end.
    all: match goal with X : find _ _ = Some _ |- _ => apply find_some in X as [I X] end; try assumption.
    all: cbn in I; decompose [or] I; subst; try contradiction; try solve [cbn; auto].
    all: exfalso; decompose [or] C; try discriminate; match goal with A : is_symbol _ _ = true, B : is_symbol _ _ = true |- _ => discriminate (U _ _ A B) end. }
  estep. eapply E_conseq; [exact O|]. intros o ts2 (-> & s & -> & S & Q). estep. stmt. apply sm_compound; auto with xtree.
Qed.
Lemma x_var_loop c p v ts : has_luau c = false -> sgood c p -> RoundSpec.variable c (var_tree v) ->
  E (var_loop c p v) ts (fun r _ => match r with Some l => several (RoundSpec.variable c) SComma (map (pair_tree var_tree) (pairs l)) | None => True end).
Proof.
  begin. unfold var_loop.
  eapply (E_loop (fun l _ => chain (fun v => RoundSpec.variable c (var_tree v)) [SComma] l)); [mono_tac|now apply chain_one|].
  intros l ts1 G. estep. estep. subst. estep.
  2:{ estep. now apply (chain_several _ _ var_tree). }
  estep. estep. estep. eapply E_conseq; [now apply x_prefix_and_suffixes|]. intros [[x l']| |] ts2 K; [|contradiction|estep]. destruct K as (P & L & _). estep.
  - estep.
    + estep. apply E_pure; [pure_tac; try apply pure_last_token|]. intros. now estep.
    + estep. eapply chain_push; [exact G|cbn; now rewrite X|cbv beta; eapply variable_last; eauto|]. intros m Gm. estep. exact Gm.
  - apply last_of_none in X0. subst l'. cbv zeta. estep. eapply chain_push; [exact G|cbn; now rewrite X|cbv beta; now apply variable_plain|]. intros m Gm. estep. exact Gm.
Qed.
Lemma x_assignment c p v ts : has_luau c = false -> sgood c p -> RoundSpec.variable c (var_tree v) -> E (assignment c p v) ts (xstmt c).
Proof.
  begin. unfold assignment. estep. eapply E_conseq; [now apply x_var_loop|]. intros [l|] ts1 K; [|now estep]. xgo; stmt. apply sm_assignment; auto with xtree.
Qed.
Lemma x_expression_stmt c p ts : has_luau c = false -> sgood c p -> E (expression_stmt c p) ts (xstmt c).
Proof.
  begin. unfold expression_stmt. estep. eapply E_conseq; [now apply x_prefix_and_suffixes|]. intros [[x l]| |] ts1 K; [|contradiction|apply E_panic]. destruct K as (P & L & S). cbv zeta.
  assert (C : forall v, RoundSpec.variable c (var_tree v) -> E (let! o := current in
         match o with
         | None => ret LexerMoved
         | Some t =>
             if is_compound c t then parse_compound_assignment c p v
             else if is_symbol t SComma || is_symbol t SEqual then assignment c p v
             else
               let! r := contextual_stmt c p v in
               match r with
               | Some r => ret r
               | None => token_error t (str "unexpected expression when looking for a statement") ;; ret LexerMoved
               end
         end) ts1 (xstmt c)).
  { intros v Hv. estep. estep. subst. estep; [now apply x_compound|]. estep; [now apply x_assignment|]. unfold contextual_stmt. rewrite H. estep. estep. estep. }
  estep.
  - estep.
    + estep. stmt. pose proof (call_last l) as CL. rewrite X, X0 in CL. apply sm_call; auto using prefix_in.
    + apply C. eapply variable_last; eauto.
  - apply last_of_none in X. subst l. pose proof (variable_plain c x P) as V. destruct x as [e|n]; now apply C.
Qed.
Lemma x_goto c ts t : is_symbol t SGoto = true -> E (goto_stmt c) (t :: ts) (xstmt c).
Proof. begin. unfold goto_stmt. xgo; stmt. apply negb_false_iff, orb_true_iff in X. apply sm_goto; auto with xtree. Qed.
Lemma x_label c ts t : has_luau c = false -> (has_lua52 c || has_luajit c) = true -> is_symbol t STwoColons = true -> E (label_stmt c) (t :: ts) (xstmt c).
Proof. begin. unfold label_stmt. xgo; stmt. apply sm_label; auto with xtree. now apply orb_true_iff. Qed.
Lemma x_local c p ts t : has_luau c = false -> sgood c p -> is_symbol t SLocal = true -> E (local_stmt c p) (t :: ts) (xstmt c).
Proof.
  begin. unfold local_stmt. xgo; destruct a as [t'|]; cbn [stmt_or_moved xopt xstmt] in *; try exact I; (destruct K as [K1 K2]; split; [exact K1|first [exact K2|discriminate]]).
Qed.
#[export] Hint Resolve x_expression_stmt x_goto x_label x_local : xspec.
Lemma x_stmt c p ts : has_luau c = false -> sgood c p -> E (parse_stmt c p) ts (xstmt c).
Proof.
  begin. unfold parse_stmt. estep. estep. subst. repeat match goal with |- E (if ?b then _ else _) _ _ => destruct b eqn:? end.
  all: repeat match goal with H : _ && _ = true |- _ => apply andb_true_iff in H as [? ?] end; try solve [eauto with xspec].
  7:{ congruence. }
  7:{ now estep. }
  all: estep; estep; estep; (eapply E_conseq; [eauto with xspec|]); intros [a|] ts1 K; estep; cbn [stmt_or_moved xopt xstmt xsome] in *; try exact I.
  all: try (destruct K as [K1 K2]; split; [exact K1|first [exact K2|discriminate]]).
  destruct a as [b e]. destruct K as [K1 K2]. split; [|discriminate]. apply sm_do; auto with xtree.
Qed.

(** ** Blocks *)
Lemma x_last c p ts : sgood c p -> E (parse_last_stmt p) ts (fun r _ => match r with Value (t, o) => last_line c (stmt_pair t o) | _ => True end).
Proof.
  begin. unfold parse_last_stmt. cbv zeta. estep. estep. subst. estep; [|estep].
  - estep. estep. estep. eapply E_conseq; [eauto with xspec|]. intros [l| |] ts1 K; [|contradiction|]; estep; estep; enorm; apply E_ret; constructor.
    all: first [apply ls_return; [auto with xtree|first [apply xs_some; assumption|apply xs_nil]]|apply o_some; constructor; auto with xtree|apply o_none].
  - estep. estep. estep. estep; enorm; apply E_ret; constructor; first [apply ls_break; auto with xtree|apply o_some; constructor; auto with xtree|apply o_none].
  - now estep.
Qed.
Lemma is_terminal r s : terminal_of r = TSym s -> is_symbol r s = true.
Proof. unfold is_symbol, terminal_of. destruct (t_type (r_token r)) as [| | | | | | | |z| |] eqn:E; try discriminate. intros [= ->]. unfold symbol_eqb. now destruct (symbol_eq_dec s s). Qed.
Lemma apart_snoc l x : apart l -> (forall m a, l = m ++ [a] -> separate a x) -> apart (l ++ [x]).
Proof.
  induction 1 as [|a|a b l H _ IH]; intros S; cbn [app]; [constructor|constructor; [|constructor]|constructor; [assumption|]].
  - now apply (S []).
  - apply IH. intros m a' X. apply (S (a :: m)). cbn. now rewrite X.
Qed.
(** What comes next is no argument list of the last statement. *)
Definition shut_after (l : list tree) (ts : list tokref) : Prop := forall m s, l = m ++ [Con CTuple [s; none]] -> shut (open s) ts.
Lemma separate_next a t o ts : (exists s x, a = Con CTuple [s; x] /\ (x = none -> shut (open s) (printed t ++ ts))) -> (forall d, o = Some d -> is_symbol d SSemicolon = true) ->
  separate a (stmt_pair t o).
Proof.
  intros (s & x & -> & H) O. intros X S. specialize (H X). destruct (open s); [|reflexivity]. exfalso. specialize (H eq_refl). unfold starts_with, first_of in S. rewrite printed_pair in S.
  destruct (printed t) as [|r l]; cbn in S.
  - destruct o as [d|]; [|discriminate]. cbn in S. injection S as S. specialize (O d eq_refl). apply sym_eq in O. congruence.
  - injection S as S. apply is_terminal in S. cbn in H. congruence.
Qed.
Lemma line_pair c t o : statement c t -> (forall d, o = Some d -> is_symbol d SSemicolon = true) -> line c (stmt_pair t o).
Proof. intros H O. constructor; [assumption|]. destruct o as [d|]; constructor. constructor. auto using sym_eq. Qed.
Lemma x_block c p ts : has_luau c = false -> sgood c p -> E (parse_block c p) ts (fun r _ => match r with Value b => block c b | _ => False end).
Proof.
  begin. unfold parse_block. estep.
  eapply (E_loop (fun l ts1 => Forall (line c) l /\ apart l /\ shut_after l ts1)); [mono_tac|repeat split; [constructor|constructor|intros [] s; discriminate]|].
  intros l ts1 (L & A & S). estep. eapply E_conseq; [apply E_and; [now apply e_stmt|now apply x_stmt]|]. intros [[t|t]| |] ts2 [K1 K2]; try contradiction; cbn [xstmt] in K2.
  - destruct K1 as (-> & _ & _), K2 as (St & Sh).
    assert (N : forall o ts', (forall d, o = Some d -> is_symbol d SSemicolon = true) -> (o = None -> ts' = ts2) ->
      Forall (line c) (l ++ [stmt_pair t o]) /\ apart (l ++ [stmt_pair t o]) /\ shut_after (l ++ [stmt_pair t o]) ts').
    { intros o ts' O T. split; [|split].
      - apply Forall_app. split; [assumption|]. constructor; [now apply line_pair|constructor].
      - apply apart_snoc; [assumption|]. intros m a ->. apply (separate_next a t o ts2); [|assumption]. apply Forall_app in L as [_ L]. inversion_clear L as [|? ? La _]. inversion La as [s x Hs Hx]; subst. exists s, x. split; [reflexivity|]. intros ->. now apply (S m).
      - intros m s X. apply app_inj_tail in X as [_ X]. unfold stmt_pair in X. injection X as <- X. destruct o; [discriminate|]. now rewrite T. }
    estep. estep; enorm; apply E_ret; apply N; congruence.
  - estep. estep. eapply E_conseq; [apply E_and; [now apply (ParserClean3.e_last c)|now apply (x_last c)]|]. intros [[t o]| |] ts3 [K3 K4]; estep; cbn [block_tree option_map fst snd].
    + constructor; auto. now constructor.
    + unfold last_post in K3. contradiction.
    + constructor; auto. constructor.
Qed.
Lemma sgood_at c n : has_luau c = false -> sgood c (parsers_at c n).
Proof.
  intros L. induction n as [|n IH]; unfold sgood; (split; [now apply egood_at|]); repeat match goal with |- _ /\ _ => split end.
  - intros; apply E_fuel.
  - intros; apply E_fuel.
  - intros; apply E_fuel.
  - intros; apply E_fuel.
  - intros. now apply x_block.
  - intros. now apply x_expression.
  - intros. now apply x_primary.
  - intros. now apply x_precedence.
Qed.
