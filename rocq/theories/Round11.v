(** Parsing undoes printing (C48): statements. *)
From Verif Require Import LexerSpec PunctuatedProofs.
From Verif Require Export Round10.
From Coq Require Import Lia.
Local Open Scope nat_scope.
Import ListNotations.

(** ** Statements that start with a name or a parenthesis *)
Definition var_stmt (c : cfg) (p : parsers) (v : var) : M (pres stmt_variant) :=
  let! o := current in
  match o with
  | None => ret LexerMoved
  | Some t =>
      if is_compound c t then parse_compound_assignment c p v
      else if is_symbol t SComma || is_symbol t SEqual then assignment c p v
      else
        let! r := contextual_stmt c p v in
        match r with
        | Some r => ret r
        | None => token_error t (str "unexpected expression when looking for a statement") ;; ret LexerMoved
        end
  end.
Definition starter (x : terminal) : bool := match x with TName | TSym SLeftParen => true | _ => false end.
Lemma stmt_expression c p ts Q : follows ts starter -> run (expression_stmt c p) ts Q -> run (parse_stmt c p) ts Q.
Proof.
  intros (r & k & -> & F) H. unfold parse_stmt. apply run_bind, run_current. cbv iota.
  assert (X : terminal_of r = TName \/ sy r SLeftParen) by (destruct (terminal_of r) as [| | |[]|]; try discriminate F; auto).
  destruct X as [X|X]; tests; cbn [orb]; exact H.
Qed.
Lemma run_var_stmt c p t k Q : good c p -> variable c t -> no_suffix k -> (forall v, var_tree v = t -> run (var_stmt c p v) k Q) -> run (parse_stmt c p) (printed t ++ k) Q.
Proof.
  intros G V K H. apply stmt_expression; [eapply variable_first; eassumption|]. destruct (rt_var c p t k G V K) as (v & y & l & E & R & Y). unfold expression_stmt. apply run_bind. eapply run_gives; [exact R|]. cbv iota.
  destruct (last_of l) as [z|].
  - destruct Y as (-> & ->). now apply H.
  - destruct y; subst v; now apply H.
Qed.
Lemma rt_compound c p t s o e k : good c p -> variable c t -> compound_in c s -> sy o s -> expression c e -> follow c 0 e k ->
  gives (parse_stmt c p) (printed t ++ o :: printed e ++ k) (Value (VStmt (Nd KStmtCompoundAssignment [Nd KCompoundAssignment [t; Nd (KCompoundOp s) [Tok o]; e]]))) k.
Proof.
  intros G V S O E K. apply run_var_stmt; auto; [eapply symbol_no_suffix; [eassumption|destruct s; try easy; reflexivity|intros ->; exact S]|].
  intros v EV. unfold var_stmt. apply run_bind, run_current. cbv iota.
  assert (C : is_compound c o = true).
  { unfold is_compound. cbn [existsb]. rewrite !test_symbol, O. destruct s; try (exfalso; exact S); cbn in S |- *; repeat (destruct S as [S|S]); rewrite S; cbn; rewrite ?orb_true_r; reflexivity. }
  rewrite C. unfold parse_compound_assignment. rsteps. eapply run_gives; [apply (g_exp _ _ G); eassumption|]. cbv iota. apply run_bind.
  assert (W : gives (compound_op c o) k (Nd (KCompoundOp s) [Tok o]) k).
  { assert (F1 : has_luau c = true -> f_luau (c_feat c) = true) by (unfold has_luau; destruct (f_luau (c_feat c)); auto).
    assert (F2 : has_cfxlua c = true -> f_cfxlua (c_feat c) = true) by (unfold has_cfxlua; destruct (f_cfxlua (c_feat c)); auto).
    unfold compound_op. cbn [find]. rewrite !test_symbol, O. destruct s; try (exfalso; exact S); cbn in S |- *; try (now apply run_ret); [..|];
      try (rewrite (F1 S); now apply run_ret); rewrite (F2 S); destruct (f_luau (c_feat c)); now apply run_ret. }
  eapply run_gives; [exact W|]. apply run_ret. rewrite EV. auto.
Qed.
Lemma var_of c t : variable c t -> exists v, var_tree v = t.
Proof. intros H. inversion H as [r N|x l X F NN NC|e P]; subst; [now exists (VarName r)| |now exists (VarExpression (PrefixExpression e) [])]. inversion X as [r N|e P]; subst; [exists (VarExpression (PrefixName r) l)|exists (VarExpression (PrefixExpression e) l)]; reflexivity. Qed.
Lemma var_tree_inj v w : var_tree v = var_tree w -> v = w.
Proof. destruct v as [[] ?|], w as [[] ?|]; intros H; inversion H; reflexivity. Qed.
Lemma rt_assignment c p l q m k : good c p -> several (variable c) SComma l -> sy q SEqual -> several (expression c) SComma m -> follows k (after_stmt c (open (listing m))) ->
  gives (parse_stmt c p) (flat_map printed l ++ q :: flat_map printed m ++ k) (Value (VStmt (Nd KStmtAssignment [Nd KAssignment [listing l; Tok q; listing m]]))) k.
Proof.
  intros G L Q M K. apply (several_as _ var_tree) in L; [|intros t; apply var_of]. destruct L as (ps & -> & L & F). rewrite printed_as. rewrite Forall_forall in F.
  assert (Y : exists q rest, ps = q :: rest) by (inversion L; eauto). destruct Y as (q0 & rest0 & E0). set (tl := q :: flat_map printed m ++ k).
  assert (SP : forall (x : pair_of var) rest, ltoks (fun a => printed (var_tree a)) (x :: rest) ++ tl = printed (var_tree (pair_value x)) ++ mark x ++ ltoks (fun a => printed (var_tree a)) rest ++ tl).
  { intros x rest. cbn [flat_map]. rewrite <- app_assoc. destruct x; cbn [pair_toks pair_value mark]; rewrite <- ?app_assoc; reflexivity. }
  assert (NS : forall (x : pair_of var) rest, listed SComma (x :: rest) -> exists r m, mark x ++ ltoks (fun a => printed (var_tree a)) rest ++ tl = r :: m /\ (sy r SComma \/ sy r SEqual)).
  { intros x rest LX. inversion LX; subst; cbn [mark app flat_map]; unfold tl; eauto. }
  rewrite E0, SP. destruct (NS q0 rest0) as (r1 & m1 & E1 & R1); [now rewrite <- E0|].
  apply run_var_stmt; [assumption|apply (F q0); rewrite E0; now left|rewrite E1; destruct R1; eapply symbol_no_suffix; [eassumption|reflexivity|discriminate|eassumption|reflexivity|discriminate]|].
  intros v EV. apply var_tree_inj in EV. subst v. unfold var_stmt. rewrite E1. rstep. apply run_current. cbv iota.
  assert (X : is_compound c r1 = false /\ is_symbol r1 SComma || is_symbol r1 SEqual = true).
  { unfold is_compound. cbn [existsb]. destruct R1; tests; rewrite !andb_false_r; auto. }
  destruct X as (-> & ->). rewrite <- E1. unfold assignment. apply run_bind.
  eapply run_conseq with (P := fun x s => x = Some (mkPunctuated ps) /\ s = tl).
  - unfold var_loop. apply (run_loop (fun x s => exists done q rest, ps = done ++ q :: rest /\ x = mkPunctuated (done ++ [End (pair_value q)]) /\ listed SComma (q :: rest) /\
        s = mark q ++ ltoks (fun a => printed (var_tree a)) rest ++ tl)).
    + exists [], q0, rest0. rewrite E0 in *. auto.
    + intros x s (done & q' & rest & E & -> & L' & ->). inversion L' as [v EV|v d m' D L1]; subst q' rest; cbn [mark flat_map app pair_value].
      * unfold tl. rsteps. rewrite E. auto.
      * assert (Y : exists q rest, m' = q :: rest) by (inversion L1; eauto). destruct Y as (q' & rest & ->). rewrite SP. destruct (NS q' rest L1) as (r2 & m2 & E2 & R2).
        assert (V2 : variable c (var_tree (pair_value q'))) by (apply F; rewrite E; apply in_app_iff; right; right; now left).
        assert (K2 : no_suffix (mark q' ++ ltoks (fun a => printed (var_tree a)) rest ++ tl)).
        { rewrite E2; destruct R2; eapply symbol_no_suffix; [eassumption|reflexivity|discriminate|eassumption|reflexivity|discriminate]. }
        destruct (rt_var c p _ _ G V2 K2) as (v' & y & l & EV & R & Y). apply var_tree_inj in EV. subst v'.
        rsteps. eapply run_gives; [exact R|]. cbv iota.
        assert (DN : exists done0 q1 rest1, ps = done0 ++ q1 :: rest1 /\ mkPunctuated (done ++ [Punctuated v d; End (pair_value q')]) = mkPunctuated (done0 ++ [End (pair_value q1)]) /\ listed SComma (q1 :: rest1) /\
           mark q' ++ ltoks (fun a => printed (var_tree a)) rest ++ tl = mark q1 ++ ltoks (fun a => printed (var_tree a)) rest1 ++ tl).
        { exists (done ++ [Punctuated v d]), q', rest. rewrite <- !app_assoc. auto. }
        destruct (last_of l) as [z|].
        -- destruct Y as (-> & EY). rewrite <- EY. apply run_bind, run_push, run_ret. exact DN.
        -- destruct y; cbv zeta; rewrite <- Y; apply run_bind, run_push, run_ret; exact DN.
  - intros x s (-> & ->). cbv iota. unfold tl. rsteps. destruct (rt_expressions c p m k G M) as (x & EX & R); [now apply after_stmt_stop|eapply after_stmt_comma; eassumption|].
    eapply run_gives; [exact R|]. cbv iota. rsteps. rewrite EX, <- E0. auto.
Qed.
Lemma rt_call c p x l k : good c p -> prefix_expression c x -> Forall (suffix c) l -> ends_in_call l = true -> follows k (stop c true) ->
  gives (parse_stmt c p) (printed x ++ flat_map printed l ++ k) (Value (VStmt (Nd KStmtFunctionCall [Nd KFunctionCall [x; vector l]]))) k.
Proof.
  intros G X F C K. apply stmt_expression; [eapply prefix_first; eassumption|]. destruct (rt_suffixes c p x l k G X F) as (y & EY & R); [now apply stop_no_suffix with c|].
  unfold expression_stmt. apply run_bind. eapply run_gives; [exact R|]. cbv iota. pose proof (last_call l) as LC. destruct (last_of l) as [z|]; [|now subst l]. rewrite LC, C. apply run_ret. rewrite EY. auto.
Qed.

(** ** The words of Luau *)

(** ** The words of Luau *)
Lemma run_word c p r k Q : good c p -> nm r -> no_suffix k -> run (var_stmt c p (VarName r)) k Q -> run (parse_stmt c p) (r :: k) Q.
Proof.
  intros G N K H. pose proof (run_var_stmt c p (Nd KVarName [Tok r]) k Q G (va_name c r N) K) as X. revert X. spell. intros X. apply X. intros v E. destruct v as [y l|v]; [discriminate E|]. injection E as ->. exact H.
Qed.
Definition quiet (x : terminal) : bool :=
  match x with
  | TSym s => match s with
              | SComma | SEqual | SPlusEqual | SMinusEqual | SStarEqual | SSlashEqual | SCaretEqual | SDoubleSlashEqual | SPercentEqual | STwoDotsEqual
              | SDoubleLessThanEqual | SDoubleGreaterThanEqual | SAmpersandEqual | SPipeEqual => false
              | _ => true
              end
  | _ => true
  end.
Lemma run_contextual c p v r k Q : quiet (terminal_of r) = true ->
  run (let! x := contextual_stmt c p v in
        match x with
        | Some x => ret x
        | None => token_error r (str "unexpected expression when looking for a statement") ;; ret LexerMoved
        end) (r :: k) Q -> run (var_stmt c p v) (r :: k) Q.
Proof.
  intros H R. unfold var_stmt. apply run_bind, run_current. cbv iota.
  assert (X : is_compound c r = false /\ is_symbol r SComma || is_symbol r SEqual = false).
  { assert (Y : forall y, quiet (TSym y) = false -> is_symbol r y = false).
    { intros y Y. destruct (is_symbol r y) eqn:I; [|reflexivity]. apply sym_terminal in I. rewrite I, Y in H. discriminate. }
    unfold is_compound. cbn [existsb]. rewrite !Y by reflexivity. cbn. rewrite !andb_false_r. auto. }
  destruct X as (-> & ->). exact R.
Qed.
Lemma stop_quiet c o x : after_stmt c o x = true -> quiet x = true.
Proof. destruct x as [| | |s|]; auto. destruct s; try reflexivity; discriminate. Qed.

Lemma rt_type_declaration c p d k : good c p -> type_declaration c d -> follows k after_type ->
  exists y n m, printed d ++ k = y :: n :: m /\ word (str "type") y /\ nm n /\ gives (expect_type_declaration c p y) (n :: m) (Some d) k.
Proof.
  intros G D K. inversion D as [y n g q t L Y N GG Q T]; subst. spell. eexists _, _, _. split; [reflexivity|]. repeat split; [assumption..|]. unfold expect_type_declaration. rsteps.
  inversion GG as [|g' G']; subst; spell.
  - eapply run_gives; [apply no_generics; st|]. cbv iota. rsteps. rtype G L. rsteps. auto.
  - eapply run_gives; [apply (rt_generics c p WithDefaults g' _ G L G')|]. cbv iota. rsteps. rtype G L. rsteps. auto.
Qed.
Lemma rt_type_function c p d k : good c p -> type_function c d ->
  exists y f m, printed d ++ k = y :: f :: m /\ word (str "type") y /\ sy f SFunction /\ gives (expect_type_function c p y f) m (Some d) k.
Proof.
  intros G D. inversion D as [y f n b L Y F N B]; subst. spell. eexists _, _, _. split; [reflexivity|]. repeat split; [assumption..|]. unfold expect_type_function. rsteps.
  eapply run_gives; [now apply rt_body|]. rsteps. auto.
Qed.
Lemma declaration_luau c d : type_declaration c d -> has_luau c = true.
Proof. now intros []. Qed.
Lemma function_luau c d : type_function c d -> has_luau c = true.
Proof. now intros []. Qed.
Lemma rt_type_stmt c p d k : good c p -> type_declaration c d -> follows k after_type -> gives (parse_stmt c p) (printed d ++ k) (Value (VStmt (Nd KStmtTypeDeclaration [d]))) k.
Proof.
  intros G D K. destruct (rt_type_declaration c p d k G D K) as (y & n & m & -> & Y & N & R). apply run_word; [assumption|eapply word_name; eassumption|now apply name_no_suffix|].
  apply run_contextual; [st|]. apply run_bind. unfold contextual_stmt. rewrite (declaration_luau c d D), Y. cbn. rsteps. eapply run_gives; [exact R|]. rsteps. auto.
Qed.
Lemma rt_export_stmt c p x d k : good c p -> word (str "export") x -> type_declaration c d -> follows k after_type ->
  gives (parse_stmt c p) (x :: printed d ++ k) (Value (VStmt (Nd KStmtExportedTypeDeclaration [Nd KExportedTypeDeclaration [Tok x; d]]))) k.
Proof.
  intros G X D K. destruct (rt_type_declaration c p d k G D K) as (y & n & m & -> & Y & N & R). pose proof (word_name _ _ Y) as NY. apply run_word; [assumption|eapply word_name; eassumption|now apply name_no_suffix|].
  apply run_contextual; [st|]. apply run_bind. unfold contextual_stmt. rewrite (declaration_luau c d D), X. cbn. rsteps. rewrite Y. cbn. rsteps. eapply run_gives; [exact R|]. rsteps. auto.
Qed.
Lemma rt_type_function_stmt c p d k : good c p -> type_function c d -> gives (parse_stmt c p) (printed d ++ k) (Value (VStmt (Nd KStmtTypeFunction [d]))) k.
Proof.
  intros G D. destruct (rt_type_function c p d k G D) as (y & f & m & -> & Y & F & R). apply run_word; [assumption|eapply word_name; eassumption|eapply symbol_no_suffix; [eassumption|reflexivity|discriminate]|].
  apply run_contextual; [st|]. apply run_bind. unfold contextual_stmt. rewrite (function_luau c d D), Y. cbn. rsteps. eapply run_gives; [exact R|]. rsteps. auto.
Qed.
Lemma rt_export_function_stmt c p x d k : good c p -> word (str "export") x -> type_function c d ->
  gives (parse_stmt c p) (x :: printed d ++ k) (Value (VStmt (Nd KStmtExportedTypeFunction [Nd KExportedTypeFunction [Tok x; d]]))) k.
Proof.
  intros G X D. destruct (rt_type_function c p d k G D) as (y & f & m & -> & Y & F & R). pose proof (word_name _ _ Y) as NY. apply run_word; [assumption|eapply word_name; eassumption|now apply name_no_suffix|].
  apply run_contextual; [st|]. apply run_bind. unfold contextual_stmt. rewrite (function_luau c d D), X. cbn. rsteps. rewrite Y. cbn. rsteps. eapply run_gives; [exact R|]. rsteps. auto.
Qed.
Lemma rt_continue c p r k : good c p -> has_luau c = true -> word (str "continue") r -> follows k (fun x => after_stmt c true x && negb (term_symbol x SFunction)) ->
  gives (parse_stmt c p) (r :: k) (Value (VLastStmt (Nd KLastContinue [Tok r]))) k.
Proof.
  intros G L R (u & m & -> & F). apply andb_true_iff in F as (F & _). apply run_word; [assumption|eapply word_name; eassumption|apply (stop_no_suffix c), (after_stmt_stop c), follows_here, F|].
  apply run_contextual; [eapply stop_quiet; eassumption|]. apply run_bind. unfold contextual_stmt. rewrite L, R. cbn. rsteps. auto.
Qed.
