(** What is parsed without an error in Luau is a tree of the tree grammar: statements and blocks. *)
From Verif Require Import LexerSpec PunctuatedProofs.
From Verif Require LexerStep.
From Verif Require Export Sound7.
From Coq Require Import Lia.
Local Open Scope nat_scope.
Import ListNotations.

(** ** Edges *)
Lemma edge_last p k l x : (k = CPunctuated \/ k = CEnd) -> on_edge p (Con k (l ++ [x])) = on_edge p x.
Proof.
  intros K. assert (H : forall l, (fix last_one (l : list tree) : bool := match l with [] => false | [x] => on_edge p x | _ :: l => last_one l end) (l ++ [x]) = on_edge p x).
  { clear l. induction l as [|y l IH]; [reflexivity|]. cbn [app]. destruct (l ++ [x]) eqn:Z; [now destruct l|]. exact IH. }
  destruct K as [->| ->]; cbn [on_edge]; apply H.
Qed.
Lemma listed_open c l ts : listed (exp_end c) l ts -> open (puncts l) = true -> next_not SLeftParen ts.
Proof.
  intros (l0 & v & -> & _ & _ & S & _). unfold puncts, punct, open. cbn [p_push pairs]. rewrite map_app. cbn [map pair_tree]. rewrite edge_last by auto. rewrite (edge_last _ CEnd [] v) by auto. exact S.
Qed.

(** ** Lists built by [push_punctuated] *)
Definition chain {A} (P : A -> Prop) (ys : list symbol) (l : punctuated A) : Prop :=
  each P l /\ spaced ys false (pairs l) /\ exists m w, pairs l = m ++ [End w].
Lemma chain_one {A} (P : A -> Prop) ys v : P v -> chain P ys (p_push p_new (End v)).
Proof. intros H. repeat split; [apply each_push; auto using each_new|]. exists [], v. reflexivity. Qed.
Definition plain_end {A} (l : punctuated A) : Prop := exists m w, pairs l = m ++ [End w].
Lemma plain_end_one {A} (v : A) : plain_end (p_push p_new (End v)). Proof. exists [], v. reflexivity. Qed.
Lemma j_push {A} (f : A -> nat) (P : A -> Prop) ys l v d ts : plain_end l -> E (push_punctuated l v d) ts (fun m ts' => ts' = ts /\ plain_end m /\ lw f m = lw f l + f v + wt d /\ hd_error (map pair_value (pairs m)) = hd_error (map pair_value (pairs l)) /\
  (chain P ys l -> existsb (is_symbol d) ys = true -> P v -> chain P ys m)).
Proof.
  intros (m & w & X). unfold push_punctuated, p_push_punctuated. rewrite X, pop_snoc. cbn [pair_punctuation into_value]. apply E_ret. split; [reflexivity|]. split; [|split; [|split]].
  - eexists. eexists. reflexivity.
  - unfold lw. rewrite X. cbn [pairs pair_new]. rewrite !map_app, !list_sum_app. cbn. lia.
  - cbn [pairs pair_new]. now destruct m.
  - intros (Hl & Sp & _) D Hv. repeat split.
    + unfold each in *. cbn [pairs]. rewrite X in Hl. apply Forall_app in Hl as [Hl1 Hl2]. inversion_clear Hl2. apply Forall_app. split; [apply Forall_app; split; [assumption|]|]; repeat constructor; assumption.
    + cbn [pairs pair_new]. rewrite X in Sp. now apply spaced_snoc.
    + eexists. eexists. reflexivity.
Qed.
Lemma chain_several {A} (P : tree -> Prop) s (f : A -> tree) l : chain (fun v => P (f v)) [s] l -> several P s (map (pair_tree f) (pairs l)).
Proof.
  intros (H1 & H2 & m & w & X). unfold each in *. rewrite X in *. clear X. induction m as [|x m IH]; [inversion_clear H1; now constructor|]. apply Forall_inv in H1 as Hx. apply Forall_inv_tail in H1.
  destruct x as [u|u d]; [destruct m; contradiction|]. cbn [app map pair_tree]. cbn [app] in *. apply spaced_cons in H2 as (S1 & S2 & S3). cbn in S2. rewrite orb_false_r in S2. constructor; auto using sym_eq.
Qed.

(** ** Statements *)
Definition kept (c : cfg) (k : tree -> tree) (g : list tree) (tok : tokref) (r : option tree) (ts' : list tokref) : Prop :=
  match r with
  | Some t => statement c (k t) /\ (open (k t) = true -> next_not SLeftParen ts') /\ hd_error (printed t) = hd_error (flat_map printed g ++ [tok])
  | None => False
  end.
Ltac first_tok := eprint; cbn [app hd_error flat_map]; first [reflexivity | assumption | idtac].
Lemma lw_tok l : lw (fun v => tw (Tok v)) l = lw wt l. Proof. reflexivity. Qed.
#[export] Hint Rewrite lw_tok : tw.
Lemma j_function_name ts : reals ts -> E expect_function_name ts (held (vw tw) ts 0 (fun r _ => match r with Value t => function_name t | _ => False end)).
Proof.
  intros R. unfold expect_function_name. jgo.
  eapply (E_loop (fun l ts1 => plain_end l /\ held (lw wt) (t :: r) 0 (fun l _ => chain (fun t => exists r, Tok t = Tok r /\ nm r) [SDot] l) l ts1)); [mono_tac|split; [apply plain_end_one|jend; apply chain_one; eauto using name_eq]|].
  intros l ts1 (PE & K). jnorm. jstep; jstep. jnorm. jstep; jnorm.
  - jstep; jstep; jnorm. jstep; jstep; jnorm. jstep; jnorm; [|jstep; jstep]. jstep; jstep; jnorm. jstep; jnorm.
    + jstep. eapply E_conseq; [apply (j_push wt (fun t => exists r, Tok t = Tok r /\ nm r) [SDot]); assumption|]. intros m ts2 (-> & PM & W & _ & HC). jstep. split; [assumption|]. jend. apply HC; [assumption|cbn; now rewrite X2|eauto using name_eq].
    + jstep; [|apply E_panic]. jstep. jend. apply fn_method; auto with jtree. now apply (chain_several _ _ Tok).
  - jstep. jend. apply fn_plain. now apply (chain_several _ _ Tok).
Qed.
#[export] Hint Resolve j_function_name : jspec.
Lemma j_body_new c ts : E (function_body_new c) ts (fun t ts' => ts' = ts /\ tw t = 0).
Proof. unfold function_body_new. jgo. split; [reflexivity|]. wnorm. lia. Qed.
#[export] Hint Resolve j_body_new : jspec.
Lemma attributes_in c l : luau c -> Forall (attribute c) l -> attributes c l.
Proof. intros (L & _) H. destruct l; [constructor|now apply at_some]. Qed.
Ltac bodies := cbn [body_post kept] in *; jnorm.
Ltac stmt := unfold kept; (split; [|split; [try discriminate|first_tok]]).
Lemma first_app (l m n : list tokref) : n <> [] -> hd_error (l ++ n ++ m) = hd_error (l ++ n).
Proof. destruct l; [|reflexivity]. now destruct n. Qed.
Lemma j_function_with c p g ft ts : jgood c p -> reals ts -> is_symbol ft SFunction = true ->
  E (expect_function_declaration c p g ft) ts (held (ow tw) ts (tws g + wt ft) (fun r ts' => Forall (attribute c) g -> kept c (fun t => Nd KStmtFunctionDeclaration [t]) g ft r ts')).
Proof.
  jbegin. pose proof (jg_luau _ _ H) as L. unfold expect_function_declaration. jgo; jend; bodies. intros G. stmt.
  - apply sm_function; auto using attributes_in with jtree.
  - now destruct (flat_map printed g).
Qed.
Lemma j_local_with c p g lt ft ts : jgood c p -> reals ts -> is_symbol ft SFunction = true -> is_symbol lt SLocal = true ->
  E (expect_local_function_declaration c p g lt ft) ts (held (ow tw) ts (tws g + wt lt + wt ft) (fun r ts' => Forall (attribute c) g -> kept c (fun t => Nd KStmtLocalFunction [t]) g lt r ts')).
Proof.
  jbegin. pose proof (jg_luau _ _ H) as L. unfold expect_local_function_declaration. jgo; jend; bodies. intros G. stmt.
  - apply sm_local_function; auto using attributes_in with jtree.
  - now destruct (flat_map printed g).
Qed.
Lemma j_function_declaration c p g ft ts : jgood c p -> reals ts -> is_symbol ft SFunction = true -> Forall (attribute c) g ->
  E (expect_function_declaration c p g ft) ts (held (ow tw) ts (tws g + wt ft) (kept c (fun t => Nd KStmtFunctionDeclaration [t]) g ft)).
Proof. intros H R S G. eapply E_conseq; [now apply j_function_with|]. intros r ts' (K1 & K2 & K3). split; [|split]; auto. Qed.
Lemma j_local_function c p g lt ft ts : jgood c p -> reals ts -> is_symbol ft SFunction = true -> is_symbol lt SLocal = true -> Forall (attribute c) g ->
  E (expect_local_function_declaration c p g lt ft) ts (held (ow tw) ts (tws g + wt lt + wt ft) (kept c (fun t => Nd KStmtLocalFunction [t]) g lt)).
Proof. intros H R S T G. eapply E_conseq; [now apply j_local_with|]. intros r ts' (K1 & K2 & K3). split; [|split]; auto. Qed.
#[export] Hint Resolve j_function_declaration j_local_function : jspec.

(** ** Loops *)
Lemma names_w (l : punctuated name) : lw nw l = tw (punct Tok (p_from_iter (map (pair_map n_name) (p_pairs l)))) +
  tws (map (fun n => opt_tree (n_attribute n)) (p_into_iter l)) + tws (map (fun n => opt_tree (n_type_specifier n)) (p_into_iter l)).
Proof.
  rewrite tw_punct, into_iter_eq, !tws_map. unfold lw, p_from_iter, p_pairs. cbn [pairs]. induction (pairs l) as [|x m IH]; [reflexivity|]. cbn [map list_sum fold_right] in *. unfold list_sum in *. rewrite IH. destruct x as [n|n d]; cbn [pw pair_map pair_value nw]; unfold nw; rewrite !tw_opt_tree; cbn [tw]; lia.
Qed.
Definition step_w (x : option tokref * option tree) : nat := ow wt (fst x) + ow tw (snd x).
#[export] Hint Unfold step_w : jw.
Lemma j_numeric_for c p ft n ts : jgood c p -> reals ts -> is_symbol ft SFor = true ->
  E (expect_numeric_for_stmt c p ft n) ts (held (ow tw) ts (wt ft + nw n) (fun r ts' => typed_name c n -> kept c (fun t => Nd KStmtNumericFor [t]) [] ft r ts')).
Proof.
  jbegin. unfold expect_numeric_for_stmt. destruct ts as [|et ts]; [intros es x s' X; discriminate|]. jgo; jend; intros (N & T & O); bodies; stmt.
  all: apply negb_false_iff in X; first [apply sm_numeric_step; solve [auto with jtree]|apply sm_numeric; solve [auto with jtree]].
Qed.
#[export] Hint Resolve j_numeric_for : jspec.
Lemma single_w (n : name) x l : pairs l = [x] -> pair_value x = n -> nw n <= lw nw l.
Proof. intros X Y. unfold lw. rewrite X. destruct x; cbn in *; subst; lia. Qed.
Lemma listed_each {A} (P : A -> list tokref -> Prop) l ts x : listed P l ts -> In x (pairs l) -> exists ts, P (pair_value x) ts.
Proof.
  intros (l0 & v & -> & (S1 & _) & Pv) I. cbn [p_push pairs] in I. apply in_app_iff in I as [I|[<-|[]]]; [|eauto]. unfold each in S1. rewrite Forall_forall in S1. exact (S1 x I).
Qed.
Lemma j_for c p ft ts : jgood c p -> reals ts -> is_symbol ft SFor = true -> E (expect_for_stmt c p ft) ts (held (ow tw) ts (wt ft) (kept c (fun t => t) [] ft)).
Proof.
  jbegin. unfold expect_for_stmt. jstep. eapply E_conseq; [now apply j_name_list|]. intros [l| |] ts1 K; jnorm; [|jstep; jend|jstep; jstep]. jstep; jstep; jnorm. jstep; [apply E_panic|]. jstep; jnorm.
  - match goal with HN : Nat.eqb _ _ = true |- _ => rename HN into XN end. apply Nat.eqb_eq in XN. rewrite into_iter_eq. unfold p_len in XN. destruct (pairs l) as [|x [|]] eqn:PL; try discriminate. cbn [map]. pose proof (single_w _ x l PL eq_refl) as W. jgo; (destruct a as [t'|]; cbn [option_map]; [|jend; exfalso]).
    + jend. assert (TN : typed_name c (pair_value x)) by (edestruct (listed_each (fun n (_ : list tokref) => typed_name c n) l) as [? Y]; [eassumption|rewrite PL; now left|exact Y]).
      match goal with HK : typed_name _ _ -> _ |- _ => specialize (HK TN) end. bodies. stmt; [assumption|]. rewrite app_nil_r. assumption.
    + assert (TN : typed_name c (pair_value x)) by (edestruct (listed_each (fun n (_ : list tokref) => typed_name c n) l) as [? Y]; [eassumption|rewrite PL; now left|exact Y]).
      match goal with HK : typed_name _ _ -> _ |- _ => specialize (HK TN) end. bodies.
  - pose proof (names_w l) as W. jgo; jend; stmt. eapply sm_generic; auto with jtree.
    + match goal with HL : listed (fun n _ => typed_name c n) _ _ |- _ => rewrite into_iter_eq; refine (names_bindings (bound_type c) (typed_name c) (fun _ => none) (fun n => opt_tree (n_type_specifier n)) l _ _ HL) end.
      intros n (N & T & O). split; [exact N|]. now constructor.
    + eapply listed_several; [|eassumption]. now intros ? ? [? _].
Qed.
#[export] Hint Resolve j_for : jspec.

(** ** Other statements *)
Lemma j_repeat c p rt ts : jgood c p -> reals ts -> is_symbol rt SRepeat = true -> E (expect_repeat_stmt c p rt) ts (held (ow tw) ts (wt rt) (kept c (fun t => t) [] rt)).
Proof. jbegin. unfold expect_repeat_stmt, do_with_block. jgo; jend; stmt. { apply sm_repeat; auto with jtree. } match goal with HS : settled _ _ _ |- _ => destruct HS as (HS & _); exact HS end. Qed.
Lemma j_while c p w ts : jgood c p -> reals ts -> is_symbol w SWhile = true -> E (expect_while_stmt c p w) ts (held (ow tw) ts (wt w) (kept c (fun t => Nd KStmtWhile [t]) [] w)).
Proof. jbegin. unfold expect_while_stmt, while_new. jgo; jend; stmt. apply sm_while; auto with jtree. Qed.
#[export] Hint Resolve j_repeat j_while : jspec.
Lemma else_ifs_w l : ow tw (else_if_optional l) = tws l. Proof. destruct l; [reflexivity|]. cbn. lia. Qed.
#[export] Hint Rewrite else_ifs_w : tw.
Lemma j_if_new c e o ts : E (if_new c e o) ts (fun t ts' => ts' = ts /\ tw t = tw e + ow tw o).
Proof. unfold if_new. jgo. split; [reflexivity|]. wnorm. lia. Qed.
#[export] Hint Resolve j_if_new : jspec.
Definition if_w (r : tree + list tree) : nat := match r with inl t => tw t | inr l => tws l end.
Definition if_post (c : cfg) (r : tree + list tree) (_ : list tokref) : Prop := match r with inl _ => False | inr l => Forall (else_if_block c) l end.
Definition else_w (x : option tree * option tokref) : nat := ow tw (fst x) + ow wt (snd x).
#[export] Hint Unfold else_w : jw.
Lemma if_w_inl t : if_w (inl t) = tw t. Proof. reflexivity. Qed.
Lemma if_w_inr t : if_w (inr t) = tws t. Proof. reflexivity. Qed.
#[export] Hint Rewrite if_w_inl if_w_inr : tw.
Lemma j_if c p it ts : jgood c p -> reals ts -> is_symbol it SIf = true -> E (expect_if_stmt c p it) ts (held (ow tw) ts (wt it) (kept c (fun t => Nd KStmtIf [t]) [] it)).
Proof.
  jbegin. unfold expect_if_stmt. jstep; jstep. destruct a as [cond| |]; jnorm; [|jstep; jend|jstep; jstep].
  jstep; jstep; jnorm. jstep; jstep. destruct a as [b| |]; jnorm; [|jgo; jend|jstep; jstep].
  jstep. match goal with |- E _ ?ts2 _ => eapply (E_conseq _ _ (fun r ts3 => match r with
    | inl t => reals ts3 /\ tw t + w ts3 <= tw cond + w ts2
    | inr l => held tws ts2 0 (fun l _ => Forall (else_if_block c) l) l ts3 end)) end.
  - match goal with |- E _ ?ts2 _ => eapply (E_loop (held tws ts2 0 (fun l _ => Forall (else_if_block c) l))) end; [mono_tac|jend; constructor|].
    intros l ts3 K. jgo.
    + jend. apply Forall_app. split; [assumption|]. constructor; [|constructor]. constructor; auto with jtree.
    + split; [assumption|]. wnorm. nlia.
    + split; [assumption|]. wnorm. nlia.
    + jend. assumption.
  - intros [t1|l] ts3 K; jnorm; [jstep; jend|].
    assert (El : Forall (else_if_block c) l -> else_if_blocks c (opt_tree (else_if_optional l))) by (intros; destruct l; now constructor).
    jgo; jend; stmt; first [apply sm_if_else; solve [auto with jtree]|apply sm_if; solve [auto with jtree]|idtac].
Qed.
#[export] Hint Resolve j_if : jspec.
Lemma j_local_assignment c p lt ts : jgood c p -> reals ts -> is_symbol lt SLocal = true ->
  E (expect_local_assignment c p lt) ts (held (ow tw) ts (wt lt) (kept c (fun t => Nd KStmtLocalAssignment [t]) [] lt)).
Proof.
  jbegin. unfold expect_local_assignment. jstep. eapply E_conseq; [now apply j_attribute_list|]. intros [l| |] ts1 K; jnorm; [|jstep; jend|apply E_panic]. cbv zeta.
  pose proof (names_w l) as W.
  assert (B : listed (fun n _ => bound_name c n) l ts1 -> bindings (bound c) (map (pair_tree Tok) (map (pair_map n_name) (pairs l))) (map (fun n => opt_tree (n_attribute n)) (p_into_iter l)) (map (fun n => opt_tree (n_type_specifier n)) (p_into_iter l))).
  { intros HL. rewrite into_iter_eq. exact (names_bindings (bound c) (bound_name c) (fun n => opt_tree (n_attribute n)) (fun n => opt_tree (n_type_specifier n)) l ts1 (fun n X => X) HL). }
  jstep; jstep; jnorm.
  - assert (Sy : exists s, is_symbol t s = true /\ equal_in c s).
    { match goal with HE : existsb (is_symbol t) _ = true |- _ => rename HE into Sy end. destruct (f_cfxlua (c_feat c)) eqn:F; cbn [existsb] in Sy; rewrite orb_false_r in Sy; [apply orb_true_iff in Sy as [Sy|Sy]|]; eexists; (split; [exact Sy|]); cbn; auto. }
    destruct Sy as (s & Sy & Q). jgo; jend; stmt.
    + apply (sm_local_values c lt _ _ _ t s); auto using sym_eq. eapply listed_several; [|eassumption]. now intros ? ? [? _].
    + cbn [opt_tok]. intros O. eapply listed_open; [eassumption|]. exact O.
  - jstep. jend; stmt. apply sm_local; auto using sym_eq.
Qed.
#[export] Hint Resolve j_local_assignment : jspec.
Lemma j_type_generics c p ts : jgood c p -> reals ts ->
  E (parse_generic_type_list c p WithDefaults) ts (held (vw tw) ts 0 (fun r _ => match r with Value g => generics c true g | LexerMoved => False | NotFound => True end)).
Proof.
  jbegin. destruct ts as [|t r].
  - unfold parse_generic_type_list. destruct (jg_luau _ _ H) as (L & _). rewrite L. cbn [negb]. jstep. apply E_consume_if; intros; discriminate.
  - eapply E_conseq; [apply j_generic_list; assumption|]. intros x ts' [K _]. jnorm. split; [assumption|]. split; [assumption|]. intros F. fullen. destruct x; jnorm; auto.
Qed.
Definition declared (P : tree -> Prop) (tok : tokref) (r : option tree) (_ : list tokref) : Prop :=
  match r with Some t => P t /\ hd_error (printed t) = Some tok | None => False end.
Lemma j_type_declaration c p tt ts : jgood c p -> reals ts -> word (str "type") tt ->
  E (expect_type_declaration c p tt) ts (held (ow tw) ts (wt tt) (declared (type_declaration c) tt)).
Proof.
  jbegin. destruct (jg_luau _ _ H) as (L & _). unfold expect_type_declaration. jstep; jstep; jnorm. jstep; jnorm; [|jstep; jstep]. jstep; jstep; jnorm. jstep.
  eapply E_conseq; [apply j_type_generics; assumption|]. intros [g| |] ts1 K; jnorm; [|jstep; jend|]; jgo; jend; (split; [|first_tok]).
  - apply td_intro; auto with jtree. now constructor.
  - apply td_intro; auto with jtree. constructor.
Qed.
Lemma j_type_function c p tt ft ts : jgood c p -> reals ts -> word (str "type") tt -> is_symbol ft SFunction = true ->
  E (expect_type_function c p tt ft) ts (held (ow tw) ts (wt tt + wt ft) (declared (type_function c) tt)).
Proof.
  jbegin. destruct (jg_luau _ _ H) as (L & _). unfold expect_type_function. jgo; jend; bodies. split; [|first_tok]. apply tn_intro; auto with jtree.
Qed.
#[export] Hint Resolve j_type_declaration j_type_function : jspec.

(** ** Assignments and calls *)
Definition varw (v : var) : nat := tw (var_tree v).
Lemma varw_name r : varw (VarName r) = wt r. Proof. cbn. lia. Qed.
Lemma varw_expression x l : varw (VarExpression x l) = prefix_w x + tws l.
Proof. unfold varw, prefix_w. cbn [var_tree]. autorewrite with tw. lia. Qed.
Lemma lw_var l : lw (fun v => tw (var_tree v)) l = lw varw l. Proof. reflexivity. Qed.
Lemma tw_var v : tw (var_tree v) = varw v. Proof. reflexivity. Qed.
#[export] Hint Rewrite varw_name varw_expression lw_var tw_var : tw.
Definition sw (x : stmt_variant) : nat := match x with VStmt t | VLastStmt t => tw t end.
Lemma sw_stmt t : sw (VStmt t) = tw t. Proof. reflexivity. Qed.
Lemma sw_last t : sw (VLastStmt t) = tw t. Proof. reflexivity. Qed.
#[export] Hint Rewrite sw_stmt sw_last : tw.
Definition jstmt (c : cfg) (tok : option tokref) (r : pres stmt_variant) (ts' : list tokref) : Prop :=
  match r with
  | Value (VStmt t) => statement c t /\ (open t = true -> next_not SLeftParen ts') /\ hd_error (printed t) = tok
  | Value (VLastStmt t) => last_statement c t
  | LexerMoved => False
  | NotFound => True
  end.
Definition maybe_stmt (c : cfg) (tok : option tokref) (r : option (pres stmt_variant)) (ts' : list tokref) : Prop := match r with Some r => jstmt c tok r ts' | None => True end.
Lemma j_contextual c p word ts : jgood c p -> reals ts ->
  E (contextual_stmt c p (VarName word)) ts (fun r ts' => held (ow (vw sw)) ts (wt word) (maybe_stmt c (Some word)) r ts' /\ r <> Some NotFound).
Proof.
  jbegin. destruct (jg_luau _ _ H) as (L & _). unfold contextual_stmt. rewrite L. destruct (t_type (r_token word)) eqn:TW; try (jstep; split; [jend; exact I|discriminate]). match type of TW with _ = TIdentifier ?y => rename y into x end.
  jstep.
  { apply LexerStep.text_eqb_eq in X. subst x. jstep; jstep; jnorm. destruct (t_type (r_token t)) eqn:TT; cbv iota; try solve [jstep]. match goal with |- E (if ?b then _ else _) _ _ => destruct b eqn:X end; [|jstep; jstep].
    assert (WT : RoundSpec.word (str "type") t) by (unfold RoundSpec.word; apply LexerStep.text_eqb_eq in X; now subst).
    jgo; (destruct a as [d|]; jnorm; (split; [jend|discriminate]); cbn [declared] in *; jnorm; (split; [|split; [discriminate|first_tok]])).
    - now apply sm_export_function.
    - now apply sm_export. }
  jstep.
  { apply LexerStep.text_eqb_eq in X0. subst x. jgo; (destruct a as [d|]; cbn [stmt_or_moved]; jnorm; (split; [jend|discriminate]); cbn [declared] in *; jnorm; (split; [|split; [discriminate|first_tok; rewrite app_nil_r; assumption]])).
    - now apply sm_type_function.
    - now apply sm_type. }
  jstep; jstep; (split; [jend|discriminate]); [|exact I]. cbn [maybe_stmt jstmt]. apply LexerStep.text_eqb_eq in X1. subst x. now apply ls_continue.
Qed.
Lemma variable_last c ts x l z : jprefix c ts x -> Forall (suffix c) l -> last_of l = Some z -> is_call z = false -> RoundSpec.variable c (var_tree (VarExpression x l)).
Proof. intros P L Z C. pose proof (call_last l) as CL. rewrite Z, C in CL. apply va_suffix; auto; [now apply (prefix_in c ts)|]. intros ->. discriminate Z. Qed.
Lemma variable_plain c ts x : jprefix c ts x -> RoundSpec.variable c (var_tree (match x with PrefixExpression _ => VarExpression x [] | PrefixName n => VarName n end)).
Proof. destruct x as [e|n]; intros [P _]; [now apply va_parentheses|apply va_name; now apply name_eq]. Qed.
Lemma variable_some c v : RoundSpec.variable c v -> printed v <> [].
Proof.
  assert (PS : forall p l, prefix_expression c p -> printed (Nd KVarExpr [Nd KVarExpression [p; vector l]]) <> []).
  { intros p l P X. apply prefix_some in P. revert X; eprint; destruct (printed p); [now destruct P|discriminate]. }
  intros H; inversion H; subst; auto; try discriminate. apply PS. now constructor.
Qed.
Lemma hd_more (l m : list tokref) : l <> [] -> hd_error (l ++ m) = hd_error l. Proof. now destruct l. Qed.
Lemma j_compound_op c t ts : is_compound c t = true ->
  E (compound_op c t) ts (fun o ts' => ts' = ts /\ exists s, o = Nd (KCompoundOp s) [Tok t] /\ is_symbol t s = true /\ compound_in c s).
Proof.
  intros C. unfold compound_op. cbv zeta.
  assert (G : forall s, is_symbol t s = true -> compound_in c s -> exists s0, Nd (KCompoundOp s) [Tok t] = Nd (KCompoundOp s0) [Tok t] /\ is_symbol t s0 = true /\ compound_in c s0) by eauto.
  assert (U : forall s s', is_symbol t s = true -> is_symbol t s' = true -> s' = s).
  { intros s s' A B. apply sym_eq in A. apply sym_eq in B. congruence. }
  unfold is_compound in C. cbn [existsb] in C. repeat first [rewrite orb_true_iff in C|rewrite andb_true_iff in C].
  repeat (estep; enorm); (split; [reflexivity|]); apply G.
  all: try match goal with X : (if ?b then _ else _) = Some _ |- _ => destruct b; [|discriminate X] end.
  all: match goal with X : find _ _ = Some _ |- _ => apply find_some in X as [I X] end; try assumption.
  all: cbn in I; decompose [or] I; subst; try contradiction; cbn [compound_in]; decompose [and or] C; auto.
  all: try discriminate.
  all: exfalso; match goal with A : is_symbol _ _ = true, B : is_symbol _ _ = true |- _ => discriminate (U _ _ A B) end.
Qed.
Lemma j_compound c p v t ts : jgood c p -> reals (t :: ts) -> is_compound c t = true ->
  E (parse_compound_assignment c p v) (t :: ts) (fun r ts' => held (vw sw) (t :: ts) (varw v) (fun r ts' => RoundSpec.variable c (var_tree v) -> jstmt c (hd_error (printed (var_tree v))) r ts') r ts' /\ r <> NotFound).
Proof.
  jbegin. unfold parse_compound_assignment. jstep; jstep; jstep; jnorm. jstep. destruct a as [e| |]; jnorm; [|jstep; jstep|jstep; jstep]. jstep.
  eapply E_conseq; [apply j_compound_op; assumption|]. intros o ts2 (-> & s & -> & Sy & Q). jstep. split; [|discriminate]. jend. intros V. split; [|split].
  - apply sm_compound; auto with jtree.
  - match goal with HS : settled _ _ _ |- _ => destruct HS as (HS & _); exact HS end.
  - eprint. apply variable_some in V. rewrite <- ?app_assoc. now apply hd_more.
Qed.
Definition vars_post (c : cfg) (v : var) (r : option (punctuated var)) (_ : list tokref) : Prop := RoundSpec.variable c (var_tree v) ->
  match r with Some l => several (RoundSpec.variable c) SComma (map (pair_tree var_tree) (pairs l)) /\ hd_error (map pair_value (pairs l)) = Some v | None => False end.
Lemma j_var_loop c p v ts : jgood c p -> reals ts -> E (var_loop c p v) ts (held (ow (lw varw)) ts (varw v) (vars_post c v)).
Proof.
  jbegin. unfold var_loop.
  eapply (E_loop (fun l ts1 => plain_end l /\ hd_error (map pair_value (pairs l)) = Some v /\ held (lw varw) ts (varw v) (fun l _ => RoundSpec.variable c (var_tree v) -> chain (fun v => RoundSpec.variable c (var_tree v)) [SComma] l) l ts1)); [mono_tac| |].
  { split; [apply plain_end_one|]. split; [reflexivity|]. jend. intros V. apply chain_one. exact V. }
  intros l ts1 (PE & HD & K). jnorm. jstep; jstep; jnorm. jstep; jnorm.
  2:{ jstep. jend. intros V. split; [|assumption]. apply (chain_several _ _ var_tree). auto. }
  jstep; jstep; jstep; jnorm. eapply E_conseq; [apply j_prefix_and_suffixes; [assumption|now apply reals_tail]|]. intros a ts2 [K MV]. destruct a as [[x l']| |]; cbn [moved_or] in MV; jnorm; [|jstep; jend|jstep; jstep].
  jstep; jnorm.
  - jstep; jnorm.
    + jstep. apply E_pure; [pure_tac; try apply pure_last_token|]. intros. jstep; jstep.
    + jstep. eapply E_conseq; [apply (j_push varw (fun v => RoundSpec.variable c (var_tree v)) [SComma]); assumption|]. intros m ts3 (-> & PM & W & HD' & HC). jstep. split; [assumption|]. split; [congruence|].
      jend. intros V. apply HC; [auto|cbn; now rewrite X|]. eapply variable_last; eassumption.
  - apply last_of_none in X0. subst l'. cbv zeta. jstep. eapply E_conseq; [apply (j_push varw (fun v => RoundSpec.variable c (var_tree v)) [SComma]); assumption|]. intros m ts3 (-> & PM & W & HD' & HC). jstep. split; [assumption|]. split; [congruence|].
    destruct x; jend; intros V; (apply HC; [auto|cbn; now rewrite X|]); match goal with HP : jprefix c _ _ |- _ => exact (variable_plain c _ _ HP) end.
Qed.
Lemma first_listed {A} (f : A -> tree) l v rest : hd_error (map pair_value (pairs l)) = Some v -> printed (f v) <> [] -> hd_error (list_toks (fun v => printed (f v)) l ++ rest) = hd_error (printed (f v)).
Proof.
  unfold list_toks. destruct (pairs l) as [|x m]; [discriminate|]. cbn. intros [= <-] N. destruct x as [u|u d]; cbn in *; rewrite ?app_nil_r, <- ?app_assoc; now apply hd_more.
Qed.
Lemma j_assignment c p v ts : jgood c p -> reals ts ->
  E (assignment c p v) ts (fun r ts' => held (vw sw) ts (varw v) (fun r ts' => RoundSpec.variable c (var_tree v) -> jstmt c (hd_error (printed (var_tree v))) r ts') r ts' /\ r <> NotFound).
Proof.
  jbegin. unfold assignment. jstep. eapply E_conseq; [now apply j_var_loop|]. intros [l|] ts1 K; jnorm; [|jstep; split; [jend; intros V; match goal with HV : vars_post _ _ _ _ |- _ => destruct (HV V) end|discriminate]].
  jgo; (split; [jend|discriminate]). intros V. match goal with HV : vars_post _ _ _ _ |- _ => destruct (HV V) as (SV & HD) end. split; [|split].
  - apply sm_assignment; auto with jtree. eapply listed_several; [|eassumption]. now intros ? ? [? _].
  - intros O. eapply listed_open; [eassumption|]. exact O.
  - eprint. rewrite <- ?app_assoc. apply (first_listed var_tree); [exact HD|]. now apply variable_some in V.
Qed.
Lemma prefix_first c ts x l : jprefix c ts x -> hd_error (printed (prefix_tree x) ++ l) = hd_error ts.
Proof.
  intros P. apply prefix_in in P as [P B]. pose proof (prefix_some _ _ P). rewrite hd_more by assumption. destruct ts; [contradiction|]. exact B.
Qed.
Lemma tw_prefix x : tw (prefix_tree x) = prefix_w x. Proof. reflexivity. Qed.
#[export] Hint Rewrite tw_prefix : tw.
Lemma j_expression_stmt c p ts : jgood c p -> reals (tl ts) ->
  E (expression_stmt c p) ts (fun r ts' => heldo (vw sw) ts 0 (jstmt c (hd_error ts)) r ts' /\ r <> NotFound).
Proof.
  jbegin. unfold expression_stmt. jstep. eapply E_conseq; [now apply j_prefix_and_suffixes|]. intros a ts1 [K MV]. destruct a as [[x l]| |]; cbn [moved_or] in MV; jnorm; [|jstep; split; [jend|discriminate]|apply E_panic]. cbv zeta.
  assert (C : forall v, varw v = prefix_w x + tws l -> (Forall (suffix c) l -> jprefix c ts x -> RoundSpec.variable c (var_tree v) /\ hd_error (printed (var_tree v)) = hd_error ts) -> E (let! o := current in
         match o with
         | None => ret LexerMoved
         | Some t =>
             if is_compound c t then parse_compound_assignment c p v
             else if is_symbol t SComma || is_symbol t SEqual then assignment c p v
             else
               let! r := contextual_stmt c p v in
               match r with
               | Some r => ret r
               | None => token_error t (str "unexpected expression when looking for a statement") ;; ret LexerMoved
               end
         end) ts1 (fun r ts' => heldo (vw sw) ts 0 (jstmt c (hd_error ts)) r ts' /\ r <> NotFound)).
  { intros v WV Hv. jstep; jstep; jnorm. jstep; [|jstep].
    - eapply E_conseq; [apply j_compound; auto with jspec|]. intros a r0 [K NF]. jnorm. split; [|assumption]. jend; destruct Hv as [V HD]; [assumption|assumption|]. match goal with HV : RoundSpec.variable _ _ -> _ |- _ => specialize (HV V); rewrite HD in HV; exact HV end.
    - eapply E_conseq; [apply j_assignment; auto with jspec|]. intros a r0 [K NF]. jnorm. split; [|assumption]. jend; destruct Hv as [V HD]; [assumption|assumption|]. match goal with HV : RoundSpec.variable _ _ -> _ |- _ => specialize (HV V); rewrite HD in HV; exact HV end.
    - jstep. destruct v as [y m|word]; [unfold contextual_stmt; destruct (has_luau c); jgo|]. eapply E_conseq; [apply j_contextual; auto with jspec|]. intros [a|] r0 [K NF]; [|jstep; jstep]. jnorm. jstep. split; [|congruence].
      jend; destruct Hv as [V HD]; [assumption|assumption|]. cbn [maybe_stmt] in *. cbn in HD. rewrite <- HD. assumption. }
  jstep; jnorm.
  - jstep; jnorm.
    + jstep. split; [|discriminate]. jend. pose proof (call_last l) as CL. rewrite X, X0 in CL. split; [|split].
      * apply sm_call; auto. eapply prefix_in; eassumption.
      * auto.
      * eprint. rewrite <- ?app_assoc. eapply prefix_first; eassumption.
    + apply C; [now autorewrite with tw|]. intros Sf P. split; [eapply variable_last; eassumption|]. cbn [var_tree]. eprint. rewrite <- ?app_assoc. eapply prefix_first; eassumption.
  - apply last_of_none in X. subst l. destruct x as [e|n]; (apply C; [now autorewrite with tw|]); intros Sf P; (split; [exact (variable_plain _ _ _ P)|]); cbn [var_tree]; eprint; rewrite <- ?app_assoc; apply (prefix_first _ _ _ [] P).
Qed.
Lemma j_local c p t r : jgood c p -> reals r -> is_symbol t SLocal = true ->
  E (local_stmt c p) (t :: r) (fun x ts' => held (vw sw) (t :: r) 0 (jstmt c (Some t)) x ts' /\ x <> NotFound).
Proof.
  jbegin. unfold local_stmt. jgo; (destruct a as [t'|]; cbn [stmt_or_moved]; jnorm; (split; [jend|discriminate])); bodies.
  all: split; [assumption|split; [assumption|]]; eprint; rewrite ?app_nil_r; assumption.
Qed.
Lemma j_attribute_stmt c p ts : jgood c p -> reals (tl ts) ->
  E (attribute_stmt c p) ts (fun x ts' => heldo (vw sw) ts 0 (jstmt c (hd_error ts)) x ts' /\ x <> NotFound).
Proof.
  jbegin. unfold attribute_stmt. jstep. eapply E_conseq; [now apply (j_attributes c)|]. intros [g| |] ts1 K; jnorm; [|jstep; split; [jend; contradiction|discriminate]..].
  assert (R1 : reals (tl ts1)) by (match goal with HR : _ \/ reals ts1 |- _ => destruct HR as [->|?]; [assumption|now apply reals_tail] end).
  assert (HG : forall t, Forall (attribute c) g -> g <> [] -> hd_error (flat_map printed g ++ [t]) = hd_error (flat_map printed g)).
  { intros t0 G N. apply hd_more. destruct g as [|x g]; [congruence|]. inversion_clear G as [|? ? Gx _]. inversion Gx; subst. discriminate. }
  jstep; jstep. subst ts1. cbn [tl] in R1. jstep.
  - jstep; jstep; jstep. eapply E_conseq; [now apply j_function_with|]. intros [d|] ts2 K; jnorm; jstep; cbn [stmt_or_moved]; (split; [|discriminate]); jend; match goal with HK : Forall _ _ -> kept _ _ _ _ _ _ |- _ => specialize (HK ltac:(assumption)) end; bodies.
    split; [assumption|split; [assumption|]]. eprint. rewrite ?app_nil_r. rewrite <- H9, <- (HG t) by assumption. assumption.
  - jstep; [|jstep]. jstep; jstep; jstep; jstep. subst r. jstep; [|jstep]. jnorm. jstep; jstep; jstep. eapply E_conseq; [now apply j_local_with|]. intros [d|] ts2 K; jnorm; jstep; cbn [stmt_or_moved]; (split; [|discriminate]); jend; match goal with HK : Forall _ _ -> kept _ _ _ _ _ _ |- _ => specialize (HK ltac:(assumption)) end; bodies.
    split; [assumption|split; [assumption|]]. eprint. rewrite ?app_nil_r. match goal with HF : hd_error (flat_map printed g) = _ |- _ => rewrite <- HF, <- (HG t) by assumption end. assumption.
Qed.
(** The tokens that a statement starts with. *)
Definition opens_luau (ts : list tokref) : bool :=
  match ts with
  | t :: _ => existsb (is_symbol t) [SLocal; SFor; SDo; SIf; SFunction; SRepeat; SWhile; SLeftParen; SAtSign] || is_identifier t
  | [] => false
  end.
Lemma j_stmt c p ts : jgood c p -> reals (tl ts) ->
  E (parse_stmt c p) ts (fun r ts' => heldo (vw sw) ts 0 (jstmt c (hd_error ts)) r ts' /\ (r = NotFound -> ts' = ts) /\ (opens_luau ts = false <-> r = NotFound)).
Proof.
  jbegin. destruct (jg_luau _ _ H) as (L1 & L2 & L3). unfold parse_stmt. jstep; jstep. subst ts. cbn [tl hd_error opens_luau existsb] in *. rewrite L1, L2, L3, ?andb_false_r, ?andb_true_r. cbn [orb].
  assert (NN : forall m : M (pres stmt_variant), E m (t :: r) (fun x ts' => heldo (vw sw) (t :: r) 0 (jstmt c (Some t)) x ts' /\ x <> NotFound) ->
    E m (t :: r) (fun x ts' => heldo (vw sw) (t :: r) 0 (jstmt c (Some t)) x ts' /\ (x = NotFound -> ts' = t :: r) /\ (true = false <-> x = NotFound))).
  { intros m Hm. eapply E_conseq; [exact Hm|]. intros x ts' [K N]. split; [exact K|]. split; [intros; contradiction|]. split; intros; [discriminate|contradiction]. }
  repeat match goal with |- E (if ?b then _ else _) _ _ => destruct b eqn:? end; cbn [orb]; rewrite ?orb_true_r.
  9:{ unfold goto_stmt. rewrite L2, L3. apply E_panic. }
  10:{ jstep. split; [jend; exact I|]. split; [reflexivity|]. split; [reflexivity|]. intros _. match goal with HO : is_symbol t SLeftParen || is_identifier t = false |- _ => apply orb_false_iff in HO as [-> ->] end. now destruct (is_symbol t SAtSign). }
  8:{ match goal with |- context [?b = false <-> _] => replace b with true by (symmetry; match goal with HO : is_symbol t SLeftParen || is_identifier t = true |- _ => apply orb_true_iff in HO as [->| ->]; now rewrite ?orb_true_r end) end. apply NN. now apply j_expression_stmt. }
  8:{ cbn [orb]. apply NN. now apply j_attribute_stmt. }
  all: apply NN.
  { eapply E_conseq; [now apply j_local|]. intros x ts' [(K1 & K2 & K3) N]. split; [|exact N]. split; auto. }
  all: jstep; jstep; jstep; jstep; (destruct a as [t'|]; try match type of t' with prod _ _ => destruct t' as [b e] end; cbn [stmt_or_moved]; autounfold with jw in *; jnorm; jstep); (split; [jend|try discriminate]); bodies.
  all: try (split; [assumption|split; [assumption|]]; eprint; rewrite ?app_nil_r; assumption).
  split; [now apply sm_do; auto with jtree|]. split; [discriminate|]. reflexivity.
Qed.

(** ** Blocks *)
Lemma tw_pair t o : tw (stmt_pair t o) = tw t + ow wt o. Proof. unfold stmt_pair. autorewrite with tw. lia. Qed.
Definition last_w (x : tree * option tokref) : nat := tw (fst x) + ow wt (snd x).
Lemma last_pair t o : last_w (t, o) = tw t + ow wt o. Proof. reflexivity. Qed.
Lemma tw_block l o : tw (block_tree l o) = tws l + ow last_w o.
Proof. unfold block_tree. destruct o as [[t o]|]; cbn [option_map fst snd]; autorewrite with tw; rewrite ?tw_pair, ?last_pair; lia. Qed.
#[export] Hint Rewrite tw_pair last_pair tw_block : tw.
Lemma j_last c p ts : jgood c p -> reals (tl ts) ->
  E (parse_last_stmt p) ts (fun r ts' => heldo (vw last_w) ts 0 (fun r _ => match r with Value (t, o) => last_line c (stmt_pair t o) | LexerMoved => False | NotFound => True end) r ts' /\ (r = NotFound -> ts' = ts) /\ r <> LexerMoved).
Proof.
  jbegin. unfold parse_last_stmt. cbv zeta. jstep; jstep. subst ts. cbn [tl] in *. jstep; [|jstep].
  - jstep; jstep; jstep; jstep. destruct a as [l| |]; jnorm; jstep; jstep; jnorm; jstep; (split; [|split; discriminate]); jend; constructor.
    all: first [apply ls_return; [auto with jtree|first [apply xs_some; eapply listed_several; [|eassumption]; now intros ? ? [? _]|apply xs_nil]]|apply o_some; constructor; auto with jtree|apply o_none].
  - jstep; jstep; jstep. jstep; jnorm; jstep; (split; [|split; discriminate]); jend; constructor; first [apply ls_break; auto with jtree|apply o_some; constructor; auto with jtree|apply o_none].
  - jstep. split; [jend; exact I|]. split; [reflexivity|discriminate].
Qed.
Lemma is_terminal r s : terminal_of r = TSym s -> is_symbol r s = true.
Proof. unfold is_symbol, terminal_of. destruct (t_type (r_token r)) as [| | | | | | | |z| |] eqn:E; try discriminate. intros [= ->]. unfold symbol_eqb. now destruct (symbol_eq_dec s s). Qed.
Lemma apart_snoc l x : apart l -> (forall m a, l = m ++ [a] -> separate a x) -> apart (l ++ [x]).
Proof.
  induction 1 as [|a|a b l H _ IH]; intros S; cbn [app]; [constructor|constructor; [|constructor]|constructor; [assumption|]].
  - now apply (S []).
  - apply IH. intros m a' X. apply (S (a :: m)). cbn. now rewrite X.
Qed.
(** What comes next is no argument list of the last statement. *)
Definition shut_after (l : list tree) (ts : list tokref) : Prop := forall m s, l = m ++ [Con CTuple [s; none]] -> open s = true -> next_not SLeftParen ts.
Lemma separate_next a t o ts : (exists s x, a = Con CTuple [s; x] /\ (x = none -> open s = true -> next_not SLeftParen ts)) -> hd_error (printed t) = hd_error ts -> ts <> [] -> separate a (stmt_pair t o).
Proof.
  intros (s & x & -> & H) O N. intros X S. specialize (H X). destruct (open s); [|reflexivity]. exfalso. specialize (H eq_refl). unfold starts_with, first_of in S. rewrite printed_pair in S.
  destruct ts as [|r ts]; [congruence|]. destruct (printed t) as [|r' l]; [discriminate|]. injection O as ->. cbn in S. injection S as S. apply is_terminal in S. cbn in H. congruence.
Qed.
Lemma line_pair c t o : statement c t -> (forall d, o = Some d -> is_symbol d SSemicolon = true) -> line c (stmt_pair t o).
Proof. intros H O. constructor; [assumption|]. destruct o as [d|]; constructor. constructor. auto using sym_eq. Qed.
Definition lines (c : cfg) (l : list tree) (ts : list tokref) : Prop := Forall (line c) l /\ apart l /\ shut_after l ts.
Lemma lines_more c l t o ts ts2 ts3 : lines c l ts -> ts <> [] -> statement c t -> (open t = true -> next_not SLeftParen ts2) -> hd_error (printed t) = hd_error ts ->
  (forall d, o = Some d -> is_symbol d SSemicolon = true) -> (o = None -> ts3 = ts2) -> lines c (l ++ [stmt_pair t o]) ts3.
Proof.
  intros (L & A & Sh) N St Op B O T. split; [|split].
  - apply Forall_app. split; [assumption|]. constructor; [now apply line_pair|constructor].
  - apply apart_snoc; [assumption|]. intros m a ->. apply (separate_next a t o ts); [|assumption|assumption]. apply Forall_app in L as [_ L]. inversion_clear L as [|? ? La _]. inversion La as [s x Hs Hx]; subst. exists s, x. split; [reflexivity|]. intros ->. now apply (Sh m).
  - intros m s X. apply app_inj_tail in X as [_ X]. unfold stmt_pair in X. injection X as <- X. destruct o; [discriminate|]. now rewrite T.
Qed.
Definition bpost (c : cfg) (r : pres tree) (ts' : list tokref) : Prop :=
  match r with Value b => block c b /\ (block_last_stmt b = None -> opens_luau ts' = false) | _ => False end.
Definition empty_block (r : pres tree) : Prop := match r with Value b => block_stmts b = [] | _ => True end.
Definition bloop_w (r : pres tree + list tree) : nat := match r with inl r => vw tw r | inr l => tws l end.
Lemma stmt_nil c p Q : E (parse_stmt c p) [] Q.
Proof. intros es a s' X. discriminate. Qed.
Lemma j_parse_block c p ts : jgood c p -> reals (tl ts) ->
  E (parse_block c p) ts (fun r ts' => heldo (vw tw) ts 0 (bpost c) r ts' /\ (opens_luau ts = false -> empty_block r)).
Proof.
  jbegin. unfold parse_block. jstep.
  eapply (E_conseq _ _ (fun r ts1 => match r with
    | inl r => heldo (vw tw) ts 0 (bpost c) r ts1 /\ (opens_luau ts = false -> empty_block r)
    | inr l => heldo tws ts 0 (fun l ts1 => lines c l ts1 /\ opens_luau ts1 = false) l ts1 /\ (opens_luau ts = false -> l = [])
    end)).
  { eapply (E_loop (fun l ts1 => heldo tws ts 0 (lines c) l ts1 /\ (l = [] /\ ts1 = ts \/ opens_luau ts = true))); [mono_tac| |].
    { split; [|now left]. jend. split; [constructor|split; [constructor|intros [] s; discriminate]]. }
    intros l ts1 [K O]. jnorm. assert (R1 : reals (tl ts1)) by (match goal with HR : _ \/ reals ts1 |- _ => destruct HR as [->|?]; [assumption|now apply reals_tail] end).
    jstep. assert (NE : ts1 = [] \/ ts1 <> []) by (destruct ts1; [now left|right; discriminate]). destruct NE as [N0|NE]; [rewrite N0; apply stmt_nil|].
    eapply E_conseq; [now apply j_stmt|]. intros x ts2 (K & NF & OP).
    assert (OT : x <> NotFound -> opens_luau ts = true). { intros Nx. destruct O as [[-> ->]|O]; [|exact O]. destruct (opens_luau ts); [reflexivity|]. exfalso. apply Nx, OP. reflexivity. }
    unfold heldo in K. destruct K as (K1 & K2 & K3).
    assert (R2 : ts2 = ts \/ reals ts2) by (destruct K1 as [->|K1]; auto).
    assert (R3 : reals (tl ts2)) by (destruct R2 as [->|R2]; [assumption|now apply reals_tail]).
    destruct x as [[t|t]| |].
    - specialize (OT ltac:(discriminate)).
      jstep; jstep; jnorm; jstep; (split; [|now right]).
      + jend. cbn [jstmt] in *. jnorm. eapply lines_more; eauto; congruence.
      + jend. cbn [jstmt] in *. jnorm. eapply lines_more; eauto; congruence.
    - specialize (OT ltac:(discriminate)). jstep; jstep; jnorm; jstep; (split; [|congruence]).
      + jend. cbn [jstmt] in *. jnorm. split; [|discriminate]. match goal with HL : lines _ _ _ |- _ => destruct HL as (? & ? & ?) end. constructor; auto. cbn. constructor. constructor; [assumption|]. constructor. constructor. auto with jtree.
      + jend. cbn [jstmt] in *. jnorm. split; [|discriminate]. match goal with HL : lines _ _ _ |- _ => destruct HL as (? & ? & ?) end. constructor; auto. cbn. constructor. constructor; [assumption|]. constructor.
    - specialize (OT ltac:(discriminate)). destruct l as [|y l]; jstep; (split; [|try congruence]); jend; cbn [jstmt] in *; jnorm.
    - specialize (NF eq_refl). subst ts2. assert (ON : opens_luau ts1 = false) by now apply OP. jstep. split; [jend; now split|]. intros X. destruct O as [[-> _]|O]; [reflexivity|congruence]. }
  intros [x|l] ts1 K.
  - jstep. exact K.
  - destruct K as [K O]. unfold heldo in K. destruct K as (K1 & K2 & K3). assert (R3 : reals (tl ts1)) by (destruct K1 as [->|R2]; [assumption|now apply reals_tail]).
    jstep. eapply E_conseq; [now apply (j_last c)|]. intros x ts2 (K & NF & NM). jstep. unfold heldo in K. destruct K as (K4 & K5 & K6). destruct x as [[t o]| |]; [|congruence|].
    + split; [|cbn; auto]. jend; [destruct K4 as [->|?]; auto|]. split; [|discriminate]. match goal with HL : lines _ _ _ |- _ => destruct HL as (? & ? & ?) end. constructor; auto. cbn. now constructor.
    + specialize (NF eq_refl). subst ts2. split; [|cbn; auto]. jend. split; [|auto]. match goal with HL : lines _ _ _ |- _ => destruct HL as (? & ? & ?) end. constructor; auto. constructor.
Qed.
Lemma jgood_at c n : luau c -> jgood c (parsers_at c n).
Proof.
  intros L. induction n as [|n IH]; unfold jgood; (split; [assumption|]); (split; [apply mono_at|]); repeat match goal with |- _ /\ _ => split end.
  1-6: intros; apply E_fuel.
  - intros. eapply E_conseq; [now apply j_parse_block|]. intros r ts' [(K1 & K2 & K3) _]. split; [exact K1|]. split; [exact K2|]. intros F. specialize (K3 F). destruct r; cbn in *; tauto.
  - intros. now apply j_expression.
  - intros. now apply j_primary.
  - intros. now apply j_precedence.
  - intros. now apply j_type.
  - intros. now apply j_type_or_pack.
Qed.
