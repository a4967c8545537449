(** Completeness (C36, C46): statements and blocks. *)
From Verif Require Import LexerSpec PunctuatedProofs.
From Verif Require Export ParserComplete2.
From Coq Require Import Lia.
Local Open Scope nat_scope.
Import ListNotations.

Definition stmt_val (k : list tokref) (r : pres stmt_variant) (s : list tokref) : Prop := s = k /\ exists t, r = Value (VStmt t).
Lemma stmt_intro k t : stmt_val k (Value (VStmt t)) k.
Proof. split; [reflexivity|now exists t]. Qed.
Lemma ok_stmt_som (m : M (option tree)) kd ts k : ok m ts (som k) -> ok (let! r := m in ret (stmt_or_moved kd r)) ts (stmt_val k).
Proof. intros H. apply ok_bind. eapply ok_som; [exact H|]. intros t. apply ok_ret, stmt_intro. Qed.
Lemma ok_stmt_som' (m : M (option tree)) ts k : ok m ts (som k) -> ok (let! r := m in ret (match r with Some t => Value (VStmt t) | None => LexerMoved end)) ts (stmt_val k).
Proof. intros H. apply ok_bind. eapply ok_som; [exact H|]. intros t. apply ok_ret, stmt_intro. Qed.

(** ** Assignments and calls *)
Definition plain_var (x : Parsers.prefix) (ss : list tree) : Prop :=
  (last_of ss = None /\ exists t, x = PrefixName t) \/ exists l, last_of ss = Some l /\ is_call l = false.
Lemma ok_var {dia : dialect} c p w o ts k : flat c -> good p -> clear [N Var] w o -> terminals ts = w -> follows k suffix_end ->
  ok (parse_prefix_and_suffixes c p) (ts ++ k) (fun r s => s = k /\ exists x ss, r = Value (x, ss) /\ plain_var x ss).
Proof.
  intros L G C T F. apply prefix_forms in C. destruct C as (pw & sw & l & -> & P & S & V). apply terminals_app_inv in T as (tp & ts' & -> & Tp & Ts). rewrite <- app_assoc.
  eapply ok_conseq; [eapply ok_suffixed; eassumption|]. intros r s (-> & x & ss & -> & Hl & Hx). split; [reflexivity|]. exists x, ss. split; [reflexivity|].
  destruct V as [(-> & ->)| ->].
  - left. split; [|auto]. destruct (last_of ss); [discriminate|reflexivity].
  - right. destruct (last_of ss) as [q|]; [|discriminate]. injection Hl as Hl. eauto.
Qed.
Lemma ok_push {A} (l : punctuated A) v d ts (Q : punctuated A -> list tokref -> Prop) : (forall l', Q l' ts) -> ok (push_punctuated l v d) ts Q.
Proof. intros H. unfold push_punctuated. destruct (p_push_punctuated l v d) as [[| |] l']; [apply ok_ret, H|apply ok_panic|apply ok_fuel]. Qed.
Lemma ok_vars {dia : dialect} c p v ts e k : flat c -> good p -> (ts = [] \/ exists q w o, terminals ts = TSym SComma :: w /\ terminal_of q = TSym SComma /\ listw (fun w o => clear [N Var] w o) w o) ->
  terminal_of e = TSym SEqual -> ok (var_loop c p v) (ts ++ e :: k) (som (e :: k)).
Proof.
  intros L G Ts E. unfold var_loop.
  apply (ok_loop (fun _ ts1 => ts1 = e :: k \/ exists q ts' o, ts1 = q :: ts' ++ e :: k /\ terminal_of q = TSym SComma /\ listw (fun w o => clear [N Var] w o) (terminals ts') o)).
  - destruct Ts as [->|(q & w & o & T & Q & W)]; [now left|right]. split_ts. subst. eauto 6.
  - clear ts Ts v. intros vs ts1 [->|(q & ts' & o & -> & Q & W)].
    + osteps. apply som_intro.
    + osteps. destruct (listw_inv _ _ _ W) as [V|(v & ov & w2 & Ew & V & W2)].
      * eapply ok_conseq; [eapply ok_var; try eassumption; [reflexivity|fol]|]. cbv beta. intros r s (-> & x & ss & -> & Pv). cbv beta iota.
        destruct Pv as [(-> & t & ->)|(l & -> & Hc)]; [|rewrite Hc]; (ostep; apply ok_push; intros l'; osteps; now left).
      * apply terminals_app_inv in Ew as (tv & tb & -> & Tv & Tb). apply terminals_cons_inv in Tb as (q2 & tw & -> & Eq & Tw). rewrite <- app_assoc. cbn [app].
        eapply ok_conseq; [eapply ok_var; try eassumption; fol|]. cbv beta. intros r s (-> & x & ss & -> & Pv). cbv beta iota. subst.
        destruct Pv as [(-> & t & ->)|(l & -> & Hc)]; [|rewrite Hc]; (ostep; apply ok_push; intros l'; osteps; right; eauto 8).
Qed.
Lemma ok_assignment {dia : dialect} c p v ts e w o tx k : flat c -> good p ->
  (ts = [] \/ exists q w o, terminals ts = TSym SComma :: w /\ terminal_of q = TSym SComma /\ listw (fun w o => clear [N Var] w o) w o) ->
  terminal_of e = TSym SEqual -> clear [N ExpList] w o -> terminals tx = w -> follows k (list_end o) ->
  ok (assignment c p v) (ts ++ e :: tx ++ k) (stmt_val k).
Proof.
  intros L G Ts E C Tx F. unfold assignment. ostep. eapply ok_som; [now apply ok_vars|]. intros vs. osteps. eapply ok_val; [eapply ok_explist; eassumption|]. intros l. osteps. apply stmt_intro.
Qed.
Lemma is_compound_flat {dia : dialect} c t : flat c -> is_compound c t = false.
Proof. intros (L1 & _ & Lc & _). unfold is_compound. now rewrite L1, Lc. Qed.
Lemma ok_assign_stmt {dia : dialect} c p w o tv e x ox tx k : flat c -> good p -> clear [N VarList] w o -> terminals tv = w -> terminal_of e = TSym SEqual ->
  clear [N ExpList] x ox -> terminals tx = x -> follows k (list_end ox) -> ok (expression_stmt c p) (tv ++ e :: tx ++ k) (stmt_val k).
Proof.
  intros L G C Tv E Cx Tx F. apply list_forms in C. unfold expression_stmt.
  assert (A : forall t1 r1 s1 v, s1 = t1 :: r1 -> (is_symbol t1 SComma || is_symbol t1 SEqual = true) -> ok (assignment c p v) s1 (stmt_val k) ->
     ok (let! o := current in
         match o with
         | None => ret LexerMoved
         | Some t =>
             if is_compound c t then parse_compound_assignment c p v
             else if is_symbol t SComma || is_symbol t SEqual then assignment c p v
             else
               let! r := contextual_stmt c p v in
               match r with
               | Some r => ret r
               | None => token_error t (str "unexpected expression when looking for a statement") ;; ret LexerMoved
               end
         end) s1 (stmt_val k)).
  { intros t1 r1 s1 v -> H1 H2. ostep. ostep. cbv beta iota. now rewrite is_compound_flat, H1. }
  destruct (listw_inv _ _ _ C) as [V|(v & ov & w2 & Ew & V & W2)].
  - ostep. eapply ok_conseq; [eapply ok_var; try eassumption; fol|]. cbv beta. intros r s (-> & y & ss & -> & Pv). cbv beta iota zeta.
    destruct Pv as [(-> & t & ->)|(l & -> & Hc)]; [|rewrite Hc]; (eapply A; [reflexivity|tests; reflexivity|]); apply (ok_assignment c p _ [] e x ox tx k); auto.
  - rewrite Ew in Tv. apply terminals_app_inv in Tv as (ta & tb & -> & Ta & Tb). apply terminals_cons_inv in Tb as (q2 & tw & -> & Eq & Tw). rewrite <- app_assoc. cbn [app].
    ostep. eapply ok_conseq; [eapply ok_var; try eassumption; fol|]. cbv beta. intros r s (-> & y & ss & -> & Pv). cbv beta iota zeta.
    assert (B : forall v, ok (assignment c p v) (q2 :: tw ++ e :: tx ++ k) (stmt_val k)).
    { intros v'. apply (ok_assignment c p v' (q2 :: tw) e x ox tx k); auto. right. exists q2, w2, o. split; [unfold terminals; cbn [map]; fold (terminals tw); now rewrite Eq, Tw|auto]. }
    destruct Pv as [(-> & t & ->)|(l & -> & Hc)]; [|rewrite Hc]; (eapply A; [reflexivity|tests; reflexivity|apply B]).
Qed.
Lemma ok_call_stmt {dia : dialect} c p w o ts k : flat c -> good p -> clear [N FunctionCall] w o -> terminals ts = w -> follows k (stat_end true) -> ok (expression_stmt c p) (ts ++ k) (stmt_val k).
Proof.
  intros L G C T F. apply prefix_forms in C as (pw & sw & l & -> & P & S & ->). apply terminals_app_inv in T as (tp & ts' & -> & Tp & Ts). rewrite <- app_assoc. unfold expression_stmt. ostep.
  eapply ok_conseq; [eapply ok_suffixed; try eassumption; fol|]. intros r s (-> & x & ss & -> & Hl & Hx). cbv beta iota zeta. destruct (last_of ss) as [q|]; [|discriminate]. injection Hl as ->.
  osteps. apply stmt_intro.
Qed.

(** ** Functions *)
Lemma ok_function_name {dia : dialect} w o ts e k : clear [N FuncName] w o -> terminals ts = w -> terminal_of e = TSym SLeftParen -> ok expect_function_name (ts ++ e :: k) (val (e :: k)).
Proof.
  intros C T E. assert (A : exists v m, w = TName :: v ++ m /\ dotsw v /\ (m = [] \/ m = [TSym SColon; TName])).
  { clear T. inv_clear C; match goal with X : clear [N DotNames] _ _ |- _ => apply rep_forms in X as (v0 & -> & D) end; [exists v0, []|exists v0, [TSym SColon; TName]]; cbn [app]; auto. }
  destruct A as (v & m & -> & D & Hm). apply terminals_cons_inv in T as (t & tr & -> & Et & T). apply terminals_app_inv in T as (tv & tm & -> & Tv & Tm). cbn [app]. rewrite <- app_assoc.
  unfold expect_function_name. osteps. apply (ok_loop (fun _ ts1 => exists tv, ts1 = tv ++ tm ++ e :: k /\ dotsw (terminals tv))).
  - exists tv. split; [reflexivity|now rewrite Tv].
  - clear C tv v D Tv. intros ns ts1 (tv & -> & D). remember (terminals tv) as v eqn:Ev. symmetry in Ev. destruct D as [|v D].
    + destruct Hm as [->| ->]; split_ts; osteps; apply val_intro.
    + split_ts. osteps. apply ok_push. intros ns'. osteps. eexists. split; [reflexivity|congruence].
Qed.
Lemma body_paren {dia : dialect} w o : clear [N FuncBody] w o -> exists v, w = TSym SLeftParen :: v.
Proof. intros C. inv_clear C; eauto. Qed.
Lemma ok_function_stmt {dia : dialect} c p w o wb ob ts tb k f : flat c -> good p -> clear [N FuncName] w o -> terminals ts = w -> clear [N FuncBody] wb ob -> terminals tb = wb ->
  ok (expect_function_declaration c p [] f) (ts ++ tb ++ k) (som k).
Proof.
  intros L G C T Cb Tb. unfold expect_function_declaration. destruct (body_paren _ _ Cb) as (v & E). pose proof Tb as Tb'. rewrite E in Tb'. apply terminals_cons_inv in Tb' as (e & r & -> & Ee & _).
  ostep. cbn [app]. eapply ok_val; [eapply ok_function_name; eassumption|]. intros n. osteps. change (e :: r ++ k) with ((e :: r) ++ k). eapply ok_val; [eapply ok_body; eassumption|]. intros b. osteps. apply som_intro.
Qed.
Lemma ok_local_function {dia : dialect} c p t wb ob tb k lt f : flat c -> good p -> terminal_of t = TName -> clear [N FuncBody] wb ob -> terminals tb = wb ->
  ok (expect_local_function_declaration c p [] lt f) (t :: tb ++ k) (som k).
Proof. intros L G E Cb Tb. unfold expect_local_function_declaration. osteps. eapply ok_val; [eapply ok_body; eassumption|]. intros b. osteps. apply som_intro. Qed.

(** ** Loops and conditionals *)
Ltac oblock G := match goal with
  | T : terminals ?ts = ?v, C : clear [N Chunk] ?v ?o |- ok (p_block _) (?ts ++ ?k) _ => apply (ok_val _ _ k); [apply (g_block _ G v o ts k C T); fol|intros ?]
  | T : terminals ?ts = ?v, C : clear [N Chunk] ?v ?o |- ok (expect_block_with_end _ _ _ _) (?ts ++ ?e :: ?k) _ =>
      apply (ok_som _ _ k); [apply (ok_block_end _ _ _ _ v o ts e k G C T); assumption|intros ?]
  end.
Ltac oexps G := match goal with
  | T : terminals ?ts = ?v, C : clear [N ExpList] ?v ?o |- ok (parse_expression_list _) (?ts ++ ?k) _ => apply (ok_val _ _ k); [apply (ok_explist _ v o ts k G C T); fol|intros ?]
  end.
Lemma ok_while {dia : dialect} c p w1 o1 w2 o2 t1 d t2 e k tk : good p -> clear [N Exp] w1 o1 -> terminals t1 = w1 -> terminal_of d = TSym SDo -> clear [N Chunk] w2 o2 -> terminals t2 = w2 ->
  terminal_of e = TSym SEnd -> ok (expect_while_stmt c p tk) (t1 ++ d :: t2 ++ e :: k) (som k).
Proof. intros G C1 T1 D C2 T2 E. unfold expect_while_stmt. ostep. oexp G. osteps. oblock G. destruct a0 as [b e']. osteps. apply som_intro. Qed.
Lemma ok_repeat {dia : dialect} c p w1 o1 w2 o2 t1 u t2 k tk : good p -> clear [N Chunk] w1 o1 -> terminals t1 = w1 -> terminal_of u = TSym SUntil -> clear [N Exp] w2 o2 -> terminals t2 = w2 ->
  follows k (stat_end o2) -> ok (expect_repeat_stmt c p tk) (t1 ++ u :: t2 ++ k) (som k).
Proof. intros G C1 T1 D C2 T2 F. unfold expect_repeat_stmt. ostep. oblock G. osteps. oexp G. osteps. apply som_intro. Qed.
Lemma ok_numeric_for {dia : dialect} c p tk n i e w1 o1 t1 c1 w2 o2 t2 step d wb ob tb en k : flat c -> good p -> terminal_of i = TName -> terminal_of e = TSym SEqual ->
  clear [N Exp] w1 o1 -> terminals t1 = w1 -> terminal_of c1 = TSym SComma -> clear [N Exp] w2 o2 -> terminals t2 = w2 ->
  (step = [] \/ exists c2 w3 o3 t3, step = c2 :: t3 /\ terminal_of c2 = TSym SComma /\ clear [N Exp] w3 o3 /\ terminals t3 = w3) ->
  terminal_of d = TSym SDo -> clear [N Chunk] wb ob -> terminals tb = wb -> terminal_of en = TSym SEnd ->
  ok (expect_numeric_for_stmt c p tk n) (e :: t1 ++ c1 :: t2 ++ step ++ d :: tb ++ en :: k) (som k).
Proof.
  intros L G Ei Ee C1 T1 Ec1 C2 T2 S Ed Cb Tb Een. unfold expect_numeric_for_stmt. osteps. oexp G. osteps.
  destruct S as [->|(c2 & w3 & o3 & t3 & -> & Ec2 & C3 & T3)]; cbn [app].
  - oexp G. osteps. oblock G. osteps. apply som_intro.
  - oexp G. osteps. oexp G. osteps. oblock G. osteps. apply som_intro.
Qed.
Lemma ok_for_numeric {dia : dialect} c p tk i e w1 o1 t1 c1 w2 o2 t2 step d wb ob tb en k : flat c -> good p -> terminal_of i = TName -> terminal_of e = TSym SEqual ->
  clear [N Exp] w1 o1 -> terminals t1 = w1 -> terminal_of c1 = TSym SComma -> clear [N Exp] w2 o2 -> terminals t2 = w2 ->
  (step = [] \/ exists c2 w3 o3 t3, step = c2 :: t3 /\ terminal_of c2 = TSym SComma /\ clear [N Exp] w3 o3 /\ terminals t3 = w3) ->
  terminal_of d = TSym SDo -> clear [N Chunk] wb ob -> terminals tb = wb -> terminal_of en = TSym SEnd ->
  ok (expect_for_stmt c p tk) (i :: e :: t1 ++ c1 :: t2 ++ step ++ d :: tb ++ en :: k) (som k).
Proof.
  intros L G Ei Ee C1 T1 Ec1 C2 T2 S Ed Cb Tb Een. unfold expect_for_stmt. ostep.
  match goal with |- ok _ (i :: ?r) _ => eapply ok_conseq; [apply (ok_one _ [i] r (name_end false)); [reflexivity|now apply ok_name|fol]|] end.
  cbv beta. intros r s (-> & a & ->). cbv beta iota. osteps. change (p_into_iter (p_push p_new (End a))) with [a]. change (p_is_empty (p_push p_new (End a))) with false. change (p_len (p_push p_new (End a)) =? 1) with true. cbn [andb]. cbv beta iota. ostep.
  eapply ok_som; [now apply (ok_numeric_for c p tk a i e w1 o1 t1 c1 w2 o2 t2 step d wb ob tb en k)|]. intros x. osteps. apply som_intro.
Qed.
Lemma ok_for_generic {dia : dialect} c p tk wn on tn i wx ox tx d wb ob tb en k : flat c -> good p -> clear [N NameList] wn on -> terminals tn = wn -> terminal_of i = TSym SIn ->
  clear [N ExpList] wx ox -> terminals tx = wx -> terminal_of d = TSym SDo -> clear [N Chunk] wb ob -> terminals tb = wb -> terminal_of en = TSym SEnd ->
  ok (expect_for_stmt c p tk) (tn ++ i :: tx ++ d :: tb ++ en :: k) (som k).
Proof.
  intros L G Cn Tn Ei Cx Tx Ed Cb Tb Een. unfold expect_for_stmt. ostep. eapply ok_val; [eapply ok_namelist; try eassumption; fol|]. intros l. cbv beta iota. osteps. rewrite andb_false_r.
  destruct (p_is_empty l); [osteps|]. osteps. oexps G. osteps. oblock G. osteps. apply som_intro.
Qed.
Lemma ok_if {dia : dialect} c p tk w1 o1 t1 th w2 o2 t2 te el en k : good p -> clear [N Exp] w1 o1 -> terminals t1 = w1 -> terminal_of th = TSym SThen -> clear [N Chunk] w2 o2 -> terminals t2 = w2 ->
  elseifsw (terminals te) -> (el = [] \/ exists e w3 o3 t3, el = e :: t3 /\ terminal_of e = TSym SElse /\ clear [N Chunk] w3 o3 /\ terminals t3 = w3) -> terminal_of en = TSym SEnd ->
  ok (expect_if_stmt c p tk) (t1 ++ th :: t2 ++ te ++ el ++ en :: k) (som k).
Proof.
  intros G C1 T1 Eth C2 T2 We Hel Een. unfold expect_if_stmt. ostep. oexp G. osteps.
  assert (Fk : follows (el ++ en :: k) block_end). { destruct Hel as [->|(e & w3 & o3 & t3 & -> & Ee & _)]; cbn [app]; fol. }
  assert (Fe : forall te, elseifsw (terminals te) -> follows (te ++ el ++ en :: k) block_end).
  { intros te' W. remember (terminals te') as w eqn:Ew. symmetry in Ew. destruct W; split_ts; [exact Fk|fol]. }
  specialize (Fe te We) as F1. eapply ok_val; [eapply (g_block _ G); eassumption|]. intros b. cbv beta iota zeta. ostep.
  apply (ok_loop (fun _ ts1 => exists te, ts1 = te ++ el ++ en :: k /\ elseifsw (terminals te))).
  - eauto.
  - clear te We F1. intros els ts1 (te & -> & We). remember (terminals te) as w eqn:Ew. symmetry in Ew. destruct We as [|we oe wb ob w Ce Cb We].
    + split_ts. destruct Hel as [->|(e & w3 & o3 & t3 & -> & Ee & C3 & T3)]; cbn [app]; osteps.
      * apply som_intro.
      * oblock G. osteps. apply som_intro.
    + apply terminals_cons_inv in Ew as (ei & r & -> & Eei & Ew). apply terminals_app_inv in Ew as (tx & r2 & -> & Tx & Ew). apply terminals_cons_inv in Ew as (tt' & r3 & -> & Ett & Ew).
      apply terminals_app_inv in Ew as (tb & tr & -> & Tb & Tr). cbn [app]. rewrite <- app_assoc. cbn [app]. rewrite <- app_assoc.
      osteps. oexp G. osteps. rewrite <- Tr in We. eapply ok_val; [eapply (g_block _ G); try eassumption; now apply Fe|]. intros b'. osteps. eauto.
Qed.
(** Names, with attributes or without. *)
Definition locals {dia : dialect} (w : list terminal) (o : bool) : Prop := clear [N NameList] w o \/ clear [N AttNameList] w o.
Lemma ok_locals {dia : dialect} c p w o ts k : flat c -> locals w o -> terminals ts = w -> follows k (att_end o) -> ok (one_or_more (parse_name_with_attributes c p) SComma) (ts ++ k) (val k).
Proof. intros L [C|C] T F; [eapply ok_attributes|eapply ok_attributed]; eassumption. Qed.
Lemma ok_local {dia : dialect} c p tk wn on tn k : flat c -> locals wn on -> terminals tn = wn -> follows k (stat_end false) -> ok (expect_local_assignment c p tk) (tn ++ k) (som k).
Proof.
  intros L Cn Tn F. pose proof L as (_ & _ & _ & Lc & _). unfold expect_local_assignment. rewrite Lc. ostep. eapply ok_val; [eapply ok_locals; try eassumption; fol|]. intros l. destruct F as (t & r & -> & F).
  osteps. apply som_intro.
Qed.
Lemma ok_local_assign {dia : dialect} c p tk wn on tn e wx ox tx k : flat c -> good p -> locals wn on -> terminals tn = wn -> terminal_of e = TSym SEqual -> clear [N ExpList] wx ox -> terminals tx = wx ->
  follows k (stat_end ox) -> ok (expect_local_assignment c p tk) (tn ++ e :: tx ++ k) (som k).
Proof.
  intros L G Cn Tn Ee Cx Tx F. pose proof L as (_ & _ & _ & Lc & _). unfold expect_local_assignment. rewrite Lc. ostep. eapply ok_val; [eapply ok_locals; try eassumption; fol|]. intros l.
  osteps. oexps G. osteps. apply som_intro.
Qed.
Lemma ok_goto {dia : dialect} c t u k : flat c -> d_goto = true -> terminal_of u = TName -> ok (goto_stmt c) (t :: u :: k) (stmt_val k).
Proof. intros (_ & _ & _ & _ & Lg & _) D U. unfold goto_stmt. rewrite (Lg D). cbn [negb]. osteps. apply stmt_intro. Qed.
Lemma ok_label c t u e k : terminal_of u = TName -> terminal_of e = TSym STwoColons -> ok (label_stmt c) (t :: u :: e :: k) (stmt_val k).
Proof. intros U E. unfold label_stmt. osteps. apply stmt_intro. Qed.
Lemma locals_name {dia : dialect} w o ts : locals w o -> terminals ts = w -> exists t r, ts = t :: r /\ terminal_of t = TName.
Proof.
  intros H T. assert (A : exists v, w = TName :: v).
  { destruct H as [C|C]; apply list_forms in C; cbn in C; destruct (listw_inv _ _ _ C) as [V|(v' & ov & w2 & Ew & V & _)].
    - destruct V as [-> _]. eauto.
    - destruct V as [-> _]. subst. cbn [app]. eauto.
    - inv_clear V; eauto.
    - clear T C. subst. inv_clear V; cbn [app]; eauto. }
  destruct A as (v & ->). apply terminals_cons_inv in T as (t & r & -> & E & _). eauto.
Qed.
