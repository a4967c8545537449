(** Error-free runs: statements, blocks, the whole parser. *)
From Verif Require Import LexerSpec PunctuatedProofs.
From Verif Require Export ParserClean2.
From Coq Require Import Lia.
Local Open Scope nat_scope.

(** ** Lists built by [push_punctuated] *)
Definition growing {A} (pr : A -> list tokref) (P : A -> Prop) (ys : list symbol) (ts : list tokref) (l : punctuated A) (ts' : list tokref) : Prop :=
  ts = list_toks pr l ++ ts' /\ each P l /\ spaced ys false (pairs l) /\ exists m w, pairs l = m ++ [End w].
Lemma growing_one {A} (pr : A -> list tokref) (P : A -> Prop) ys v ts : P v -> growing pr P ys (pr v ++ ts) (p_push p_new (End v)) ts.
Proof. intros H. repeat split; [etoks|apply each_push; auto using each_new|]. exists [], v. reflexivity. Qed.
Lemma growing_push {A} (pr : A -> list tokref) (P : A -> Prop) ys ts l v d ts1 ts2 (Q : punctuated A -> list tokref -> Prop) : growing pr P ys ts l ts1 -> ts1 = d :: pr v ++ ts2 ->
  existsb (is_symbol d) ys = true -> P v -> (forall m, growing pr P ys ts m ts2 -> Q m ts2) -> E (push_punctuated l v d) ts2 Q.
Proof.
  intros (T & Hl & S & m & w & X) -> D Hv H. unfold push_punctuated, p_push_punctuated. rewrite X, pop_snoc. cbn [pair_punctuation into_value]. apply E_ret, H. repeat split.
  - rewrite T. unfold list_toks. rewrite X. cbn [pairs]. rewrite !flat_map_app. cbn. rewrite !app_nil_r, <- !app_assoc. reflexivity.
  - unfold each in *. cbn [pairs]. rewrite X in Hl. apply Forall_app in Hl as [Hl1 Hl2]. inversion_clear Hl2. apply Forall_app. split; [apply Forall_app; split; [assumption|]|]; repeat constructor; assumption.
  - cbn [pairs pair_new]. rewrite X in S. now apply spaced_snoc.
  - eexists. eexists. reflexivity.
Qed.
Lemma growing_ok {A} (pr : A -> list tokref) (P : A -> Prop) ys ts l ts' : growing pr P ys ts l ts' -> ts = list_toks pr l ++ ts' /\ list_ok P ys l.
Proof. intros (T & Hl & S & m & w & X). repeat split; auto. unfold nonempty. rewrite X. now destruct m. Qed.
#[export] Hint Extern 1 (proper (Tok _)) => reflexivity : efit.

(** ** Functions *)
Definition one (t : tokref) : list tokref := [t].
Lemma e_function_name ts : E expect_function_name ts (fun r ts' => match r with Value t => ts = printed t ++ ts' /\ proper t | LexerMoved => False | NotFound => False end).
Proof.
  unfold expect_function_name. estep. estep. subst. estep; [|estep]. estep. estep.
  eapply (E_loop (growing one (fun t => is_identifier t = true) [SDot] (t :: r))); [mono_tac|exact (growing_one one _ _ t r X)|].
  assert (N : forall l o ts', growing one (fun t => is_identifier t = true) [SDot] (t :: r) l ts' -> fits_piece (POptTwo SColon) o = true -> proper o ->
    proper (Nd KFunctionName [punct Tok l; o])).
  { intros l o ts' G F O. destruct (growing_ok _ _ _ _ _ _ G) as (_ & G1 & G2 & G3). apply proper_nd; [|repeat (apply Forall_cons; [try assumption|]); try apply Forall_nil].
    - enode; [apply fits_list; auto; intros _; exact G1|assumption].
    - eapply proper_punct; [|exact G1]. reflexivity. }
  assert (P : forall l ts', growing one (fun t => is_identifier t = true) [SDot] (t :: r) l ts' -> t :: r = printed (punct Tok l) ++ ts').
  { intros l ts' (T & _). rewrite T, printed_punct. f_equal. }
  intros l ts1 G. estep. estep. subst. estep.
  - estep. estep. estep. estep. subst. estep; [|estep]. estep. estep. estep.
    + estep. eapply growing_push; [exact G|reflexivity|cbn; now rewrite X2|assumption|]. intros m Gm. now estep.
    + estep; [|apply E_panic]. estep. split.
      * rewrite (P _ _ G). etoks.
      * eapply N; [exact G| |reflexivity]. cbn. now rewrite X3, X1.
  - estep. split.
    + rewrite (P _ _ G). etoks.
    + eapply N; [exact G|reflexivity|reflexivity].
Qed.
#[export] Hint Resolve e_function_name : espec.
Lemma e_function_declaration c p ts ft : has_luau c = false -> egood c p -> is_symbol ft SFunction = true ->
  E (expect_function_declaration c p [] ft) ts (ook printed proper (ft :: ts)).
Proof. start. unfold expect_function_declaration. ego; leaf. Qed.
Lemma e_local_function c p ts lt ft : has_luau c = false -> egood c p -> is_symbol ft SFunction = true -> is_symbol lt SLocal = true ->
  E (expect_local_function_declaration c p [] lt ft) ts (ook printed proper (lt :: ft :: ts)).
Proof. start. unfold expect_local_function_declaration. ego; leaf. Qed.
#[export] Hint Resolve e_function_declaration e_local_function : espec.

(** ** Loops *)
Lemma e_numeric_for c p ts ft n : has_luau c = false -> egood c p -> is_symbol ft SFor = true -> plain_ok n ->
  E (expect_numeric_for_stmt c p ft n) ts (ook printed proper (ft :: n_name n :: ts)).
Proof.
  start. unfold expect_numeric_for_stmt. destruct ts as [|et ts]; [intros es x s' X; discriminate|]. plain. repeat (enorm; estep).
  all: destruct p0 as [b e]; enorm; apply negb_false_iff in X; leaf.
Qed.
#[export] Hint Resolve e_numeric_for : espec.

Lemma list_toks_map {A B} (f : A -> B) (pr : B -> list tokref) l : list_toks pr (p_from_iter (map (pair_map f) (p_pairs l))) = list_toks (fun v => pr (f v)) l.
Proof. unfold list_toks, p_from_iter, p_pairs. cbn [pairs]. induction (pairs l) as [|x m IH]; [reflexivity|]. cbn [map flat_map]. rewrite IH. f_equal. now destruct x. Qed.
Lemma each_map {A B} (f : A -> B) (P : B -> Prop) l : each (fun v => P (f v)) l -> each P (p_from_iter (map (pair_map f) (p_pairs l))).
Proof. intros H. unfold each, p_from_iter, p_pairs. cbn [pairs]. apply Forall_map. eapply Forall_impl; [|exact H]. now intros [v|v d]. Qed.
Lemma spaced_map {A B} (f : A -> B) ys tr l : spaced ys tr l -> spaced ys tr (map (pair_map f) l).
Proof.
  induction l as [|x l IH]; [trivial|]. destruct x as [v|v d]; cbn [map pair_map].
  - destruct l; [trivial|contradiction].
  - rewrite !spaced_cons. intros (H1 & H2 & H3). repeat split; auto. intros X. apply H1. now destruct l.
Qed.
Lemma list_ok_map {A B} (f : A -> B) (P : B -> Prop) ys l : list_ok (fun v => P (f v)) ys l -> list_ok P ys (p_from_iter (map (pair_map f) (p_pairs l))).
Proof.
  intros (H1 & H2 & H3). repeat split; [now apply each_map|now apply spaced_map|]. unfold nonempty, p_from_iter, p_pairs in *. cbn [pairs] in *. intros X. apply H3. now destruct (pairs l).
Qed.
Lemma list_ok_impl {A} (P Q : A -> Prop) ys l : (forall v, P v -> Q v) -> list_ok P ys l -> list_ok Q ys l.
Proof. intros H (H1 & H2). split; [|assumption]. eapply Forall_impl; [|exact H1]. intros x. apply H. Qed.
Lemma list_toks_ext {A} (f g : A -> list tokref) l : each (fun v => f v = g v) l -> list_toks f l = list_toks g l.
Proof. unfold list_toks, each. induction 1 as [|x m Hx _ IH]; [reflexivity|]. cbn [flat_map]. rewrite IH. f_equal. destruct x; cbn in *; now rewrite Hx. Qed.
(** The names with the vectors of attributes and type specifiers. *)
Lemma zip_plain l : Forall (fun x => plain_ok (pair_value x)) l ->
  zip_pick printed true (map (pair_tree Tok) (map (pair_map n_name) l)) [map (fun n => opt_tree (n_type_specifier n)) (map pair_value l)] = flat_map (pair_toks name_toks) l.
Proof.
  induction 1 as [|x l (H1 & H2 & H3) _ IH]; [reflexivity|]. cbn [map zip_pick flat_map tl]. rewrite IH. unfold name_toks. destruct x; cbn [pair_value] in *; unfold name_toks;
  cbn [pair_map pair_tree subs at_ nth_error pair_toks]; rewrite H2, ?H3; reflexivity.
Qed.
Lemma names_ok l : list_ok plain_ok [SComma] l ->
  fits_piece (PList [SComma] false false true) (punct Tok (p_from_iter (map (pair_map n_name) (p_pairs l)))) = true /\ proper (punct Tok (p_from_iter (map (pair_map n_name) (p_pairs l)))).
Proof.
  intros H. assert (X : list_ok (fun t => is_identifier t = true) [SComma] (p_from_iter (map (pair_map n_name) (p_pairs l)))).
  { apply list_ok_map. eapply list_ok_impl; [|exact H]. now intros v (N & _). }
  destruct X as (X1 & X2 & X3). split; [apply fits_list; auto|]. eapply proper_punct; [|exact X1]. reflexivity.
Qed.
Lemma no_types l : list_ok plain_ok [SComma] l -> Forall proper (map (fun n => opt_tree (n_type_specifier n)) (p_into_iter l)).
Proof. intros (H & _). apply Forall_map. eapply Forall_impl; [|apply each_into_iter; exact H]. now intros n (_ & -> & _). Qed.
Lemma e_for c p ts ft : has_luau c = false -> egood c p -> is_symbol ft SFor = true -> E (expect_for_stmt c p ft) ts (ook printed proper (ft :: ts)).
Proof.
  start. unfold expect_for_stmt. estep. estep. destruct a as [l| |]; enorm; [|estep]. estep. estep. subst. estep; [apply E_panic|]. estep.
  - apply andb_true_iff in X0 as [X0 X1]. apply Nat.eqb_eq in X0. rewrite into_iter_eq. unfold p_len in X0. destruct l as [l]. cbn [pairs] in *. destruct l as [|x [|]]; try discriminate.
    cbn [map]. destruct H4 as (L1 & L2 & _). inversion_clear L1. estep. eapply E_conseq; [eauto with espec|]. intros [e|] ts1 K; enorm; estep; cbn [option_map]; enorm.
    destruct x as [v|v d]; [|now destruct L2]. cbn [pair_value] in *. plain. unfold list_toks. cbn. unfold name_toks. rewrite N1. cbn. leaf.
  - estep; [|estep]. repeat (enorm; estep). destruct p0 as [b e]. enorm. destruct (names_ok _ H4) as [N1 N2]. split.
    + rewrite (printed_plain KStmtGenericFor) by reflexivity. cbn [flat_map]. rewrite printed_nd. cbn [display_order flat_map pick at_ subs_at subs nth_error map span vec punct].
      rewrite into_iter_eq. unfold p_from_iter, p_pairs. cbn [pairs]. rewrite zip_plain by apply H4. change (flat_map (pair_toks name_toks) (pairs l)) with (list_toks name_toks l). etoks.
    + pose proof (no_types _ H4). eproper.
Qed.
#[export] Hint Resolve e_for : espec.

(** ** Other statements *)
Lemma e_repeat c p ts rt : egood c p -> is_symbol rt SRepeat = true -> E (expect_repeat_stmt c p rt) ts (ook printed proper (rt :: ts)).
Proof. start. unfold expect_repeat_stmt. ego. all: cbn [block_post] in *; enorm. leaf. Qed.
Lemma e_while c p ts wt : egood c p -> is_symbol wt SWhile = true -> E (expect_while_stmt c p wt) ts (ook printed proper (wt :: ts)).
Proof. start. unfold expect_while_stmt. ego. leaf. Qed.
#[export] Hint Resolve e_repeat e_while : espec.
Lemma e_blk c p ts : egood c p -> E (p_block p) ts (fun r ts' => match r with Value b => ts = printed b ++ ts' /\ proper b | _ => False end).
Proof. start. eapply E_conseq; [eauto with espec|]. intros [b| |] ts1 K; cbn [block_post] in K; enorm; auto. Qed.
Lemma e_if c p ts it : egood c p -> is_symbol it SIf = true -> E (expect_if_stmt c p it) ts (ook printed proper (it :: ts)).
Proof.
  start. unfold expect_if_stmt. estep. estep. destruct a as [cond| |]; enorm; [|estep]. estep. estep. subst. estep. eapply E_conseq; [eapply e_blk; eassumption|].
  intros [b| |] ts1 K; [|contradiction|contradiction]. enorm. estep.
  eapply (E_loop (fun l ts2 => ts1 = flat_map printed l ++ ts2 /\ Forall proper l)); [mono_tac|split; [reflexivity|constructor]|].
  intros l ts2 (T & Hl). estep. estep. subst. estep.
  - estep. estep. estep. estep. destruct a as [cond2| |]; enorm; [|estep]. estep. estep. subst. estep. eapply E_conseq; [eapply e_blk; eassumption|].
    intros [b2| |] ts3 K; [|contradiction|contradiction]. enorm. estep. split; [rewrite flat_map_app; cbn [flat_map]; etoks|]. apply Forall_app. split; [assumption|]. constructor; [|constructor]. eproper.
  - estep. estep.
    assert (El : printed (opt_tree (else_if_optional l)) = flat_map printed l /\ proper (opt_tree (else_if_optional l))).
    { destruct l; [split; reflexivity|]. cbn [else_if_optional]. split; [eprint; reflexivity|]. eproper. }
    destruct El as [El Pl]. remember (opt_tree (else_if_optional l)) as ei eqn:Z0. clear Z0. estep; enorm.
    + estep. estep. eapply E_conseq; [eapply e_blk; eassumption|]. intros [b2| |] ts3 K; [|contradiction|contradiction]. enorm. ego. split.
      * rewrite printed_plain by reflexivity. cbn [flat_map]. rewrite El. etoks.
      * eproper.
    + ego. split.
      * rewrite printed_plain by reflexivity. cbn [flat_map]. rewrite El. etoks.
      * eproper.
Qed.
#[export] Hint Resolve e_if : espec.

Lemma zip_names l : Forall (fun x => name_ok (pair_value x)) l ->
  zip_pick printed true (map (pair_tree Tok) (map (pair_map n_name) l))
    [map (fun n => opt_tree (n_attribute n)) (map pair_value l); map (fun n => opt_tree (n_type_specifier n)) (map pair_value l)] = flat_map (pair_toks name_toks) l.
Proof.
  induction 1 as [|x l (H1 & H2 & H3) _ IH]; [reflexivity|]. cbn [map zip_pick flat_map tl]. rewrite IH.
  destruct x as [n|n d]; cbn [pair_value] in *; cbn [pair_map pair_tree subs at_ nth_error pair_toks]; rewrite H2, !printed_opt_tree; unfold name_toks; rewrite ?printed_tok; elist; reflexivity.
Qed.
Lemma typed_ok l : list_ok name_ok [SComma] l ->
  fits_piece (PList [SComma] false false true) (punct Tok (p_from_iter (map (pair_map n_name) (p_pairs l)))) = true /\ proper (punct Tok (p_from_iter (map (pair_map n_name) (p_pairs l)))).
Proof.
  intros H. assert (X : list_ok (fun t => is_identifier t = true) [SComma] (p_from_iter (map (pair_map n_name) (p_pairs l)))).
  { apply list_ok_map. eapply list_ok_impl; [|exact H]. now intros v (N & _). }
  destruct X as (X1 & X2 & X3). split; [apply fits_list; auto|]. eapply proper_punct; [|exact X1]. reflexivity.
Qed.
Lemma attributes_ok l : list_ok name_ok [SComma] l -> Forall proper (map (fun n => opt_tree (n_type_specifier n)) (p_into_iter l)) /\ Forall proper (map (fun n => opt_tree (n_attribute n)) (p_into_iter l)).
Proof.
  intros (H & _). split; apply Forall_map; (eapply Forall_impl; [|apply each_into_iter; exact H]); intros n (_ & T & N); [now rewrite T|]. destruct (n_attribute n); [eproper|reflexivity].
Qed.
Lemma nonempty_puncts l : nonempty l -> some_pairs (puncts l) = true.
Proof. unfold nonempty. cbn. destruct (pairs l); [congruence|reflexivity]. Qed.
Lemma e_local_assignment c p ts lt : has_luau c = false -> egood c p -> is_symbol lt SLocal = true -> E (expect_local_assignment c p lt) ts (ook printed proper (lt :: ts)).
Proof.
  start. unfold expect_local_assignment. estep. eapply E_conseq; [apply e_attribute_list; eassumption|]. intros [l| |] ts1 K; enorm; [|apply E_panic]. cbv zeta. estep.
  destruct (typed_ok _ H4) as [N1 N2]. destruct (attributes_ok _ H4) as [N3 N4].
  assert (Y : forall o es ts', (forall t, o = Some t -> is_symbol t SEqual = true \/ is_symbol t SIn = true) -> (o = None /\ es = p_new \/ exists t, o = Some t /\ list_ok proper [SComma] es) ->
    ts1 = match o with Some t => [t] | None => [] end ++ list_toks printed es ++ ts' ->
    ook printed proper (lt :: list_toks name_toks l ++ ts1) (Some (Nd KLocalAssignment [Tok lt; vec (map (fun n => opt_tree (n_type_specifier n)) (p_into_iter l));
      punct Tok (p_from_iter (map (pair_map n_name) (p_pairs l))); vec (map (fun n => opt_tree (n_attribute n)) (p_into_iter l)); opt_tok o; puncts es])) ts').
  { intros o es ts' Ho Hes T. cbn [ook]. split.
    - rewrite printed_nd. cbn [display_order flat_map pick at_ subs_at subs nth_error map span vec punct].
      rewrite into_iter_eq. unfold p_from_iter, p_pairs. cbn [pairs]. rewrite zip_names by apply H4. change (flat_map (pair_toks name_toks) (pairs l)) with (list_toks name_toks l).
      rewrite T. destruct o; etoks.
    - apply proper_nd; [eapply node_intro; [reflexivity|repeat (apply all_fit_cons; [efit|]); try reflexivity|cbn [joint]|reflexivity]|].
      + destruct Hes as [[-> ->]|(t & -> & Hes)]; [reflexivity|]. now apply fits_puncts.
      + destruct Hes as [[-> ->]|(t & -> & Hes)]; [reflexivity|]. rewrite nonempty_puncts by apply Hes. cbn [opt_tok option_map opt_tree present Bool.eqb opt_symbol one_of existsb andb].
        destruct (Ho t eq_refl) as [->| ->]; [reflexivity|]. now rewrite orb_true_r.
      + repeat (apply Forall_cons; [eproper|]); try apply Forall_nil. destruct Hes as [[-> ->]|(t & -> & Hes)]; [reflexivity|]. now apply (proper_puncts [SComma]). }
  estep; enorm.
  - assert (S : is_symbol t SEqual = true \/ is_symbol t SIn = true).
    { match goal with H : existsb (is_symbol t) _ = true |- _ => rename H into S end. destruct (f_cfxlua (c_feat c)); cbn [existsb] in S; rewrite orb_false_r in S; [now apply orb_true_iff in S|now left]. }
    estep. estep. destruct a as [es| |]; enorm; [|estep]. estep. apply Y; [now intros ? [= <-]|right; eauto|reflexivity].
  - estep. apply Y; [discriminate|now left|reflexivity].
Qed.
#[export] Hint Resolve e_local_assignment : espec.

(** ** Assignments and calls *)
Definition variable (v : var) : Prop := proper (var_tree v).
Lemma variable_last x l z : prefix_ok x -> Forall proper l -> last_of l = Some z -> is_call z = false -> variable (VarExpression x l).
Proof. intros. apply proper_nd; [reflexivity|]. constructor; [|constructor]. eapply proper_var_expression; eauto. Qed.
Lemma variable_parentheses e : prefix_ok (PrefixExpression e) -> variable (VarExpression (PrefixExpression e) []).
Proof. intros. apply proper_nd; [reflexivity|]. constructor; [|constructor]. now apply proper_var_parentheses. Qed.
Lemma variable_name r : is_identifier r = true -> variable (VarName r).
Proof. intros. unfold variable, var_tree. eproper. Qed.
Lemma printed_var_expression x l : printed (var_tree (VarExpression x l)) = prefix_toks x ++ flat_map printed l.
Proof. unfold var_tree. eprint. rewrite printed_prefix. elist. reflexivity. Qed.
Lemma e_compound_op c t ts : E (compound_op c t) ts (fun o ts' => ts' = ts /\ printed o = [t] /\ proper o).
Proof.
  unfold compound_op. cbv zeta. assert (F : forall ys y, find (is_symbol t) ys = Some y -> proper (Nd (KCompoundOp y) [Tok t])).
  { intros ys y X. apply find_some in X as [_ X]. eproper. }
  repeat (estep; enorm); leaf; try (eapply F; eassumption).
  all: match goal with X : (if ?b then _ else _) = Some _ |- _ => destruct b; [eapply F; exact X|discriminate] end.
Qed.
#[export] Hint Resolve e_compound_op : espec.
Lemma e_compound c p v ts : egood c p -> variable v -> E (parse_compound_assignment c p v) ts (fun r ts' => match r with
  | Value (VStmt t) => printed (var_tree v) ++ ts = printed t ++ ts' /\ proper t | _ => False end).
Proof.
  start. unfold parse_compound_assignment. destruct ts as [|t ts]; [intros es x s' X; discriminate|]. ego. leaf. eprint. rewrite H4. elist. reflexivity.
Qed.
Lemma e_var_loop c p v ts : has_luau c = false -> egood c p -> variable v -> E (var_loop c p v) ts (fun r ts' => match r with
  | Some l => printed (var_tree v) ++ ts = list_toks (fun v => printed (var_tree v)) l ++ ts' /\ list_ok variable [SComma] l | None => False end).
Proof.
  start. unfold var_loop.
  eapply (E_loop (growing (fun v => printed (var_tree v)) variable [SComma] (printed (var_tree v) ++ ts))); [mono_tac|now apply (growing_one (fun v => printed (var_tree v)))|].
  intros l ts1 G. estep. estep. subst. estep.
  2:{ estep. now apply growing_ok. }
  estep. estep. estep. estep. destruct a as [[x l']| |]; enorm; [|estep]. estep.
  - estep.
    + estep. apply E_pure; [pure_tac; try apply pure_last_token|]. intros. estep.
    + estep. eapply growing_push; [exact G| |cbn; now rewrite X|eapply variable_last; eauto|].
      * cbv beta. rewrite printed_var_expression. elist. reflexivity.
      * intros. estep. assumption.
  - apply last_of_none in X0. subst l'. cbv zeta. estep. destruct x as [e|n]; cbn [prefix_toks prefix_ok flat_map app] in *; (eapply growing_push; [exact G| |cbn; now rewrite X| |intros; estep; assumption]).
    + cbv beta. rewrite printed_var_expression. elist. reflexivity.
    + now apply variable_parentheses.
    + cbn [var_tree]. etoks.
    + now apply variable_name.
Qed.
Lemma e_assignment c p v ts : has_luau c = false -> egood c p -> variable v -> E (assignment c p v) ts (fun r ts' => match r with
  | Value (VStmt t) => printed (var_tree v) ++ ts = printed t ++ ts' /\ proper t | _ => False end).
Proof.
  start. unfold assignment. estep. eapply E_conseq; [now apply e_var_loop|]. intros [l|] ts1 K; [|contradiction]. destruct K as [T Hl]. ego. rewrite T. destruct Hl as (L1 & L2 & L3). split.
  - etoks.
  - apply proper_nd; [reflexivity|]. apply Forall_cons; [|apply Forall_nil]. apply proper_nd.
    + enode. apply fits_list; [assumption|now right|discriminate].
    + repeat (apply Forall_cons; [try eproper|]); try apply Forall_nil. eapply proper_punct; [|exact L1]. trivial.
Qed.
Lemma e_expression_stmt c p ts : has_luau c = false -> egood c p -> E (expression_stmt c p) ts (fun r ts' => match r with
  | Value (VStmt t) => ts = printed t ++ ts' /\ proper t | _ => False end).
Proof.
  start. unfold expression_stmt. estep. estep. destruct a as [[x l]| |]; enorm; [|apply E_panic]. cbv zeta.
  assert (C : forall v, variable v -> E (let! o := current in
         match o with
         | None => ret LexerMoved
         | Some t =>
             if is_compound c t then parse_compound_assignment c p v
             else if is_symbol t SComma || is_symbol t SEqual then assignment c p v
             else
               let! r := contextual_stmt c p v in
               match r with
               | Some r => ret r
               | None => token_error t (str "unexpected expression when looking for a statement") ;; ret LexerMoved
               end
         end) r (fun r0 ts' => match r0 with Value (VStmt t) => printed (var_tree v) ++ r = printed t ++ ts' /\ proper t | _ => False end)).
  { intros v Hv. estep. estep. subst. estep; [now apply e_compound|]. estep; [now apply e_assignment|]. unfold contextual_stmt. rewrite H. estep. estep. estep. }
  estep.
  - estep.
    + estep. split; [eprint; rewrite printed_prefix; elist; reflexivity|]. apply proper_nd; [reflexivity|]. apply Forall_cons; [|apply Forall_nil]. eapply proper_call; eauto.
    + eapply E_conseq; [apply C; eapply variable_last; eauto|]. intros [[t'|]| |] ts' K; try contradiction. rewrite printed_var_expression in K. now rewrite <- app_assoc in K.
  - apply last_of_none in X. subst l. cbn [flat_map app] in *. destruct x as [e|n]; cbn [prefix_toks prefix_ok] in *.
    + eapply E_conseq; [apply C; now apply variable_parentheses|]. intros [[t'|]| |] ts' K; try contradiction. rewrite printed_var_expression in K. cbn [prefix_toks flat_map] in K. now rewrite app_nil_r in K.
    + eapply E_conseq; [apply C; now apply variable_name|]. intros [[t'|]| |] ts' K; try contradiction. exact K.
Qed.
Definition stmt_post (ts : list tokref) (r : pres stmt_variant) (ts' : list tokref) : Prop :=
  match r with Value (VStmt t) => ts = printed t ++ ts' /\ proper t | _ => False end.
#[export] Hint Resolve e_expression_stmt : espec.
Lemma e_goto c ts t : is_symbol t SGoto = true -> E (goto_stmt c) (t :: ts) (stmt_post (t :: ts)).
Proof. start. unfold goto_stmt. ego. cbn [stmt_post]. leaf. Qed.
Lemma e_label c ts t : is_symbol t STwoColons = true -> E (label_stmt c) (t :: ts) (stmt_post (t :: ts)).
Proof. start. unfold label_stmt. ego. cbn [stmt_post]. leaf. Qed.
Lemma e_local c p ts t : has_luau c = false -> egood c p -> is_symbol t SLocal = true -> E (local_stmt c p) (t :: ts) (stmt_post (t :: ts)).
Proof. start. unfold local_stmt. ego; destruct a; enorm; cbn [stmt_post stmt_or_moved]; leaf. Qed.
#[export] Hint Resolve e_goto e_label e_local : espec.
Definition stmt_start (c : cfg) (ts : list tokref) : bool := match ts with t :: _ => opens_stmt c t | [] => false end.
Lemma e_stmt c p ts : has_luau c = false -> egood c p -> E (parse_stmt c p) ts (fun r ts' => match r with
  | Value (VStmt t) => ts = printed t ++ ts' /\ proper t /\ stmt_start c ts = true
  | NotFound => ts' = ts /\ stmt_start c ts = false
  | _ => False
  end).
Proof.
  start. unfold parse_stmt. estep. estep. subst.
  assert (S : forall (m : M (pres stmt_variant)), E m (t :: r) (stmt_post (t :: r)) -> opens_stmt c t = true -> E m (t :: r) (fun r0 ts' => match r0 with
    | Value (VStmt t') => t :: r = printed t' ++ ts' /\ proper t' /\ stmt_start c (t :: r) = true
    | NotFound => ts' = t :: r /\ stmt_start c (t :: r) = false
    | _ => False
    end)).
  { intros m Hm Ho. eapply E_conseq; [exact Hm|]. intros [[t'|]| |] ts' K; cbn [stmt_post] in K; try contradiction. cbn [stmt_start]. rewrite Ho. tauto. }
  unfold opens_stmt in S. repeat match goal with |- E (if ?b then _ else _) _ _ => destruct b eqn:? end.
  12:{ estep. split; [reflexivity|]. cbn [stmt_start]. unfold opens_stmt. repeat match goal with H : _ = false |- _ => rewrite H; clear H end. reflexivity. }
  11:{ exfalso. rewrite H, andb_false_r in *. discriminate. }
  all: apply S; [clear S|repeat match goal with |- context [true] => first [reflexivity|rewrite orb_true_r] end].
  all: try solve [eauto with espec].
  all: repeat match goal with H : _ && _ = true |- _ => apply andb_true_iff in H as [? ?] end; try solve [eauto with espec].
  all: estep; estep; estep; (eapply E_conseq; [eauto with espec|]); intros [a|] ts1 K; cbn [ook] in K; try contradiction; try (destruct a as [b e]); enorm; apply E_ret; cbn [stmt_post stmt_or_moved]; leaf.
Qed.
#[export] Hint Resolve e_stmt : espec.

Definition semicolon (o : option tokref) : list tokref := match o with Some t => [t] | None => [] end.
Definition last_post (ts : list tokref) (r : pres (tree * option tokref)) (ts' : list tokref) : Prop :=
  match r, ts with
  | Value (t, o), u :: _ => ts = printed t ++ semicolon o ++ ts' /\ proper t /\ (forall d, o = Some d -> is_symbol d SSemicolon = true) /\ (is_symbol u SReturn || is_symbol u SBreak) = true /\ last_shape t
  | NotFound, u :: _ => ts' = ts /\ (is_symbol u SReturn || is_symbol u SBreak) = false
  | _, _ => False
  end.
Lemma e_last c p ts : egood c p -> E (parse_last_stmt p) ts (last_post ts).
Proof.
  start. unfold parse_last_stmt. cbv zeta. estep. estep. subst. estep; [|estep].
  - estep. estep. estep. estep. destruct a as [l| |]; enorm; estep; estep; enorm; apply E_ret; cbn [last_post semicolon]; rewrite ?X; leaf; try (intros ? [= <-]; assumption); try discriminate; left; eauto.
  - estep. estep. estep. estep; enorm; apply E_ret; cbn [last_post semicolon]; rewrite ?X, ?X0; leaf; try (intros ? [= <-]; assumption); try discriminate; right; eauto.
  - estep. cbn [last_post]. rewrite X, X0. auto.
Qed.
#[export] Hint Resolve e_last : espec.
Lemma proper_pair t o : proper t -> proper (stmt_pair t o).
Proof. intros H. unfold stmt_pair. eproper. Qed.
Lemma semicolon_pair t o : (forall d, o = Some d -> is_symbol d SSemicolon = true) -> with_semicolon (stmt_pair t o) = true.
Proof. intros H. destruct o as [d|]; [|reflexivity]. cbn. now rewrite (H d eq_refl). Qed.
Lemma printed_pair t o : printed (stmt_pair t o) = printed t ++ semicolon o.
Proof. unfold stmt_pair. eprint. destruct o; elist; reflexivity. Qed.
Lemma proper_block l o : Forall proper l -> Forall (fun t => with_semicolon t = true) l ->
  match o with Some (t, d) => proper t /\ (forall x, d = Some x -> is_symbol x SSemicolon = true) | None => True end -> proper (block_tree l o).
Proof.
  intros H1 H2 H3. apply proper_nd; [eapply node_intro; [reflexivity|repeat (apply all_fit_cons; [|]); try reflexivity|reflexivity|reflexivity]|].
  - cbn. apply forallb_forall. now apply Forall_forall.
  - destruct o as [[t d]|]; [|reflexivity]. now apply semicolon_pair.
  - apply Forall_cons; [now apply proper_con|]. apply Forall_cons; [|apply Forall_nil]. destruct o as [[t d]|]; [|reflexivity]. apply proper_con. constructor; [now apply proper_pair|constructor].
Qed.
Lemma printed_block l o : printed (block_tree l o) = flat_map printed l ++ match o with Some (t, d) => printed t ++ semicolon d | None => [] end.
Proof. unfold block_tree. eprint. destruct o as [[t d]|]; cbn [option_map fst snd]; elist; [now rewrite printed_pair|reflexivity]. Qed.
Lemma opens_start c ts : opens c ts = false -> stmt_start c ts = false.
Proof. destruct ts; [trivial|]. cbn. intros H. apply orb_false_iff in H as [H _]. now apply orb_false_iff in H as [H _]. Qed.
Lemma e_parse_block c p ts : has_luau c = false -> egood c p -> E (parse_block c p) ts (block_post c ts).
Proof.
  start. unfold parse_block. estep.
  eapply (E_loop (fun l ts1 => ts = flat_map printed l ++ ts1 /\ Forall proper l /\ Forall (fun t => with_semicolon t = true) l /\ (l <> [] -> stmt_start c ts = true))); [mono_tac|repeat split; auto; now intros []|].
  intros l ts1 (T & H2 & H3 & H4). estep. estep. destruct a as [[t|t]| |]; enorm; try contradiction.
  - assert (X : l ++ [t] <> [] -> stmt_start c (flat_map printed l ++ printed t ++ r) = true).
    { intros _. destruct l; [assumption|]. apply H4. discriminate. }
    estep. estep; enorm; apply E_ret; (repeat split; [rewrite flat_map_app; cbn [flat_map]; rewrite printed_pair; cbn [semicolon]; elist; reflexivity|apply Forall_app; split; [assumption|]; constructor; [now apply proper_pair|constructor]
      |apply Forall_app; split; [assumption|]; constructor; [|constructor]; apply semicolon_pair; congruence|]).
    + intros _. apply X. now destruct l.
    + intros _. apply X. now destruct l.
  - apply E_ret. estep. estep. estep. unfold last_post in K. destruct a as [[t o]| |]; [| |]; destruct ts1 as [|u ts1]; try contradiction; enorm; cbn [block_post].
    + repeat match goal with |- _ /\ _ => split end.
      * rewrite printed_block, H5. elist. reflexivity.
      * apply proper_block; auto.
      * exists l, (Some (t, o)). split; [reflexivity|]. split; [discriminate|]. now intros ? ? [= <- <-].
      * intros O. exfalso. destruct l.
        -- cbn [flat_map app opens] in O. rewrite <- orb_assoc, H9, orb_true_r in O. discriminate.
        -- apply opens_start in O. rewrite H4 in O by discriminate. discriminate.
    + repeat match goal with |- _ /\ _ => split end.
      * rewrite printed_block. elist. reflexivity.
      * apply proper_block; auto.
      * exists l, None. split; [reflexivity|]. split; [|discriminate]. intros _. cbn [opens stmt_start] in *. now rewrite <- orb_assoc, H6.
      * intros O. destruct l; [split; reflexivity|]. apply opens_start in O. rewrite H4 in O by discriminate. discriminate.
Qed.

Lemma egood_at c n : has_luau c = false -> egood c (parsers_at c n).
Proof.
  intros L. induction n as [|n IH]; unfold egood; repeat match goal with |- _ /\ _ => split end.
  - exact (mono_at c 0).
  - intros; apply E_fuel.
  - intros; apply E_fuel.
  - intros; apply E_fuel.
  - intros; apply E_fuel.
  - exact (mono_at c (S n)).
  - intros. now apply e_parse_block.
  - intros. now apply e_expression.
  - intros. now apply e_primary.
  - intros. now apply e_precedence.
Qed.
