(** Completeness (C36, C46): all statements, blocks, whole programs. *)
From Verif Require Import LexerSpec PunctuatedProofs.
From Verif Require Import TokenSpec PrintProofs ParserTop ParserTheorems ParserAccept LexerTheorems LexerTheorems3.
From Verif Require Export ParserComplete3.
From Coq Require Import Lia.
Local Open Scope nat_scope.
Import ListNotations.

Lemma first_token_of {dia : dialect} n w o ts k : clear [N n] w o -> nullable n = false -> terminals ts = w -> exists t r, ts ++ k = t :: r /\ begins n (terminal_of t) = true.
Proof.
  intros C Hn T. apply first_forms in C. unfold first_form in C. destruct w as [|x w]; [congruence|]. apply terminals_cons_inv in T as (t & b & -> & E & _). exists t, (b ++ k). split; [reflexivity|now rewrite E].
Qed.
Lemma expression_dispatch c p s t r k : s = t :: r -> var_start (terminal_of t) = true -> ok (expression_stmt c p) s (stmt_val k) -> ok (parse_stmt c p) s (stmt_val k).
Proof.
  intros -> F H. unfold parse_stmt. ostep. ostep. cbv beta iota.
  assert (B : is_symbol t SLeftParen || is_identifier t = true) by (rewrite test_symbol, test_identifier; destruct (terminal_of t) as [| | |[]|]; try discriminate; reflexivity).
  assert (A : forall y, y <> SLeftParen -> is_symbol t y = false).
  { intros z Z. rewrite test_symbol. destruct (terminal_of t) as [| | |[]|]; try discriminate; [reflexivity|]. now destruct z. }
  rewrite !A by discriminate. rewrite B. exact H.
Qed.
Lemma ok_do {dia : dialect} c p w o ts e k d : good p -> clear [N Chunk] w o -> terminals ts = w -> terminal_of d = TSym SDo -> terminal_of e = TSym SEnd -> ok (parse_stmt c p) (d :: ts ++ e :: k) (stmt_val k).
Proof. intros G C T D E. unfold parse_stmt. osteps. oblock G. match goal with a : (tree * tokref)%type |- _ => destruct a end. osteps. apply stmt_intro. Qed.
Ltac okey := unfold parse_stmt; osteps.
Ltac oelse := match goal with X : elseifsw ?v, Y : terminals ?d = ?v |- elseifsw (terminals ?d) => rewrite Y; exact X end.
Ltac ofinish := intros ?; osteps; apply stmt_intro.
Ltac olocal := split_ts;
  match goal with Y : locals ?w _, T : terminals ?tv = ?w |- _ => destruct (locals_name _ _ tv Y T) as (t & r & -> & E) end;
  okey; unfold local_stmt; cbn [app]; osteps;
  match goal with |- ok _ (?t :: ?r ++ ?k) _ => change (t :: r ++ k) with ((t :: r) ++ k) end; eapply ok_som; [eapply ok_local; try eassumption; fol|]; ofinish.
Ltac olocals := split_ts;
  match goal with Y : locals ?w _, T : terminals ?tv = ?w |- _ => destruct (locals_name _ _ tv Y T) as (t & r & -> & E) end;
  okey; unfold local_stmt; cbn [app]; osteps;
  match goal with |- ok _ (?t :: ?r ++ ?l) _ => change (t :: r ++ l) with ((t :: r) ++ l) end; eapply ok_som; [eapply ok_local_assign; try eassumption; fol|]; ofinish.
Lemma goto_gate {dia : dialect} c : flat c -> d_goto = true -> f_lua52 (c_feat c) || f_luajit (c_feat c) || f_cfxlua (c_feat c) = true.
Proof.
  intros (_ & _ & _ & _ & Lg & _) D. specialize (Lg D). unfold has_lua52, has_luajit in Lg. destruct (f_lua52 (c_feat c)), (f_luajit (c_feat c)); try reflexivity. discriminate Lg.
Qed.
Lemma ok_stmt {dia : dialect} c p w o ts k : flat c -> good p -> clear [N Stat] w o -> terminals ts = w -> follows k (stat_end o) -> ok (parse_stmt c p) (ts ++ k) (stmt_val k).
Proof.
  intros L G C. inv_clear C; rewrite ?app_nil_r; intros T F.
  - split_ts. match goal with X : clear [N VarList] _ _, Y : terminals ?tv = _ |- ok _ (?tv ++ ?k) _ => destruct (first_token_of _ _ _ tv k X eq_refl Y) as (t & r & E & B) end.
    rewrite E. eapply expression_dispatch; [reflexivity|exact B|]. rewrite <- E. eapply ok_assign_stmt; try eassumption. fol.
  - destruct (first_token_of _ _ _ ts k H1 eq_refl T) as (t & r & E & B). rewrite E. eapply expression_dispatch; [reflexivity|exact B|]. rewrite <- E. eapply ok_call_stmt; try eassumption.
    now rewrite (prefix_open FunctionCall _ _ eq_refl H1) in F.
  - split_ts. eapply ok_do; eassumption.
  - split_ts. okey. eapply ok_som; [eapply ok_while; eassumption|]. ofinish.
  - split_ts. okey. eapply ok_som; [eapply ok_repeat; eassumption|]. ofinish.
  - match goal with X : clear [N ElseIfs] _ _ |- _ => apply rep_forms in X; unfold rep_form in X end. split_ts. okey.
    match goal with |- ok (expect_if_stmt _ _ _) (?a ++ ?b :: ?c2 ++ ?d ++ ?e :: ?l) _ => eapply ok_som; [eapply (ok_if c p _ _ _ a b _ _ c2 d [] e l); try match goal with |- terminals _ = _ => eassumption end; try eassumption; [oelse|now left]|] end. ofinish.
  - match goal with X : clear [N ElseIfs] _ _ |- _ => apply rep_forms in X; unfold rep_form in X end. split_ts. okey.
    match goal with |- ok (expect_if_stmt _ _ _) (?a ++ ?b :: ?c2 ++ ?d ++ ?e :: ?f ++ ?g :: ?l) _ => eapply ok_som; [eapply (ok_if c p _ _ _ a b _ _ c2 d (e :: f) g l); try match goal with |- terminals _ = _ => eassumption end; try eassumption; [oelse|right; eauto 8]|] end. ofinish.
  - split_ts. okey.
    match goal with |- ok (expect_for_stmt _ _ _) (?i :: ?e :: ?a ++ ?b :: ?d ++ ?f :: ?g ++ ?h :: ?l) _ => eapply ok_som; [eapply (ok_for_numeric c p _ i e _ _ a b _ _ d [] f _ _ g h l); try match goal with |- terminals _ = _ => eassumption end; try eassumption; now left|] end. ofinish.
  - split_ts. okey.
    match goal with |- ok (expect_for_stmt _ _ _) (?i :: ?e :: ?a ++ ?b :: ?d ++ ?q :: ?s ++ ?f :: ?g ++ ?h :: ?l) _ =>
      eapply ok_som; [eapply (ok_for_numeric c p _ i e _ _ a b _ _ d (q :: s) f _ _ g h l); try match goal with |- terminals _ = _ => eassumption end; try eassumption; right; eauto 8|] end. ofinish.
  - split_ts. okey. eapply ok_som; [eapply ok_for_generic; eassumption|]. ofinish.
  - split_ts. okey. eapply ok_som; [eapply ok_function_stmt; eassumption|]. ofinish.
  - split_ts. okey. unfold local_stmt. osteps. eapply ok_som; [eapply ok_local_function; eassumption|]. ofinish.
  - match goal with X : clear [N NameList] _ _ |- _ => assert (Y : locals _ _) by (left; exact X); clear X end. olocal.
  - match goal with X : clear [N NameList] _ _ |- _ => assert (Y : locals _ _) by (left; exact X); clear X end. olocals.
  - split_ts. okey. rewrite (goto_gate c L En). osteps. apply ok_goto; assumption.
  - split_ts. pose proof L as (_ & _ & _ & _ & Lg & _). okey. rewrite (Lg En). osteps. apply ok_label; assumption.
  - match goal with X : clear [N AttNameList] _ _ |- _ => assert (Y : locals _ _) by (right; exact X); clear X end. olocal.
  - match goal with X : clear [N AttNameList] _ _ |- _ => assert (Y : locals _ _) by (right; exact X); clear X end. olocals.
Qed.

(** ** Blocks *)
Definition tail_start (x : terminal) : bool := block_end x || last_start x.
Lemma ok_nostmt c p k : follows k tail_start -> ok (parse_stmt c p) k (fun r s => s = k /\ r = NotFound).
Proof. intros (t & r & -> & F). unfold parse_stmt. osteps. now split. Qed.
Lemma ok_last {dia : dialect} p w o ts semi k : good p -> clear [N LastStat] w o -> terminals ts = w -> (semi = [] \/ exists t, semi = [t] /\ terminal_of t = TSym SSemicolon) -> follows k block_end ->
  ok (parse_last_stmt p) (ts ++ semi ++ k) (val k).
Proof.
  intros G C T S F. revert T. inv_clear C; rewrite ?app_nil_r; intros T; split_ts; unfold parse_last_stmt; osteps.
  - eapply ok_conseq; [apply ok_noexplist; [assumption|]|].
    + destruct S as [->|(q & -> & Eq)]; cbn [app]; fol.
    + cbv beta. intros r s (-> & ->). cbv beta iota zeta. destruct S as [->|(q & -> & Eq)]; cbn [app]; [destruct F as (t & r & -> & F)|]; osteps; apply val_intro.
  - match goal with X : clear [N ExpList] ?v ?o, Y : terminals ?tv = ?v |- _ => eapply ok_val; [apply (ok_explist p v o tv (semi ++ k) G X Y)|] end.
    + destruct S as [->|(q & -> & Eq)]; cbn [app]; fol.
    + intros l. cbv beta iota zeta. destruct S as [->|(q & -> & Eq)]; cbn [app]; [destruct F as (t & r & -> & F)|]; osteps; apply val_intro.
  - destruct S as [->|(q & -> & Eq)]; cbn [app]; [destruct F as (t & r & -> & F)|]; osteps; apply val_intro.
Qed.
Lemma ok_nolast p k : follows k block_end -> ok (parse_last_stmt p) k (fun r s => s = k /\ r = NotFound).
Proof. intros (t & r & -> & F). unfold parse_last_stmt. osteps. now split. Qed.

(** What follows a statement without a semicolon. *)
Definition next_stat (o : bool) (x : terminal) : bool := stat_end o x && negb (match x with TSym SSemicolon => true | _ => false end).
Lemma tail_next o x : tail_start x = true -> next_stat o x = true.
Proof. revert x. ends. Qed.
Lemma start_next o x : stat_start x = true -> (o = true -> x <> TSym SLeftParen) -> next_stat o x = true.
Proof. revert x. destruct o; intros [| | |[]|]; cbn; try discriminate; try reflexivity. intros _ H. exfalso. now apply H. Qed.
Lemma next_stats {dia : dialect} o w o' ts k : statsw o w o' -> terminals ts = w -> follows k tail_start -> follows (ts ++ k) (next_stat o).
Proof.
  intros S T F. destruct S as [o|o v ov semi w o' H C S].
  - split_ts. eapply follows_weaken; [|exact F]. apply tail_next.
  - apply terminals_app_inv in T as (tv & tr & -> & Tv & _). rewrite <- app_assoc. destruct (first_token_of _ _ _ tv (tr ++ k) C eq_refl Tv) as (t & r & E & B). rewrite E. apply follows_here.
    apply start_next; [exact B|]. intros Ho Et. apply (H Ho). apply first_forms in C. destruct v as [|x v]; [discriminate C|]. apply terminals_cons_inv in Tv as (t' & b & -> & E' & _). injection E as -> _. exists v. congruence.
Qed.
Lemma ok_stats {dia : dialect} c p w o o' ts k : flat c -> good p -> statsw o w o' -> terminals ts = w -> follows k tail_start ->
  ok (loop (fun stmts =>
    let! r := parse_stmt c p in
    match r with
    | Value (VStmt stmt) =>
        let! semicolon := consume_if SSemicolon in
        ret (inl (stmts ++ [stmt_pair stmt semicolon]))
    | Value (VLastStmt last_stmt) =>
        let! semicolon := consume_if SSemicolon in
        ret (inr (inl (Value (block_tree stmts (Some (last_stmt, semicolon))))))
    | NotFound => ret (inr (inr stmts))
    | LexerMoved => match stmts with [] => ret (inr (inl LexerMoved)) | _ => ret (inr (inr stmts)) end
    end) []) (ts ++ k) (fun (r : pres tree + list tree) s => s = k /\ exists l, r = inr l).
Proof.
  intros L G S T F. apply (ok_loop (fun _ ts1 => exists ts o, ts1 = ts ++ k /\ statsw o (terminals ts) o')).
  - exists ts, o. rewrite T. auto.
  - clear ts w o S T. intros l ts1 (ts & o & -> & S). remember (terminals ts) as w eqn:T. symmetry in T. destruct S as [o|o v ov semi w o' H C S].
    + split_ts. ostep. eapply ok_conseq; [now apply ok_nostmt|]. cbv beta. intros r s (-> & ->). osteps. split; [reflexivity|eauto].
    + apply terminals_app_inv in T as (tv & tr & -> & Tv & T). apply terminals_app_inv in T as (tsemi & tw & -> & Ts & Tw). rewrite <- !app_assoc. rewrite <- Tw in S. ostep.
      destruct semi; cbn [separator negb andb] in *.
      * split_ts. eapply ok_conseq; [eapply ok_stmt; try eassumption; fol|]. cbv beta. intros r s (-> & t & ->). osteps. eexists _, _. split; [reflexivity|exact S].
      * apply terminals_nil_inv in Ts as ->. cbn [app]. rewrite andb_true_r in S. pose proof (next_stats _ _ _ tw k S eq_refl F) as N.
        eapply ok_conseq; [eapply ok_stmt; try eassumption|].
        { eapply follows_weaken; [|exact N]. unfold next_stat. intros x X. now apply andb_true_iff in X as [X _]. }
        cbv beta. intros r s (-> & t & ->). cbv beta iota. destruct N as (u & q & E & X). rewrite E. ostep. apply ok_consume_if. cbv beta.
        assert (Z : is_symbol u SSemicolon = false). { rewrite test_symbol. revert X. destruct (terminal_of u) as [| | |[]|]; cbn; rewrite ?andb_false_r; try reflexivity; discriminate. }
        rewrite Z. osteps. exists tw, ov. rewrite <- E. auto.
Qed.
Lemma ok_block {dia : dialect} c p : flat c -> good p -> block_spec (parse_block c p).
Proof.
  intros L G w o ts k C T F.
  assert (A : exists ws os wl, w = ws ++ wl /\ statsw false ws os /\
    (wl = [] \/ exists v ov, clear [N LastStat] v ov /\ (wl = v \/ wl = v ++ [TSym SSemicolon]))).
  { clear T. inv_clear C; rewrite ?app_nil_r; match goal with X : clear [N Stats] ?v ?o |- _ => apply stats_forms in X end; eauto 12. eexists _, _, []. rewrite app_nil_r. eauto. }
  destruct A as (ws & os & wl & -> & S & H). apply terminals_app_inv in T as (tw & tl & -> & Tw & Tl). rewrite <- app_assoc. unfold parse_block. ostep.
  destruct H as [->|(v & ov & Cl & H)].
  - split_ts. eapply ok_conseq; [eapply ok_stats; try eassumption|].
    { eapply follows_weaken; [|exact F]. intros x X. unfold tail_start. now rewrite X. }
    cbv beta. intros r s (-> & l & ->). ostep. eapply ok_conseq; [now apply ok_nolast|]. cbv beta. intros r s (-> & ->). osteps. apply val_intro.
  - assert (Hs : exists tv semi, tl = tv ++ semi /\ terminals tv = v /\ (semi = [] \/ exists t, semi = [t] /\ terminal_of t = TSym SSemicolon)).
    { destruct H as [->| ->]; [exists tl, []; rewrite app_nil_r; auto|]. apply terminals_app_inv in Tl as (tv & ts' & -> & Tv & T2). split_ts. eauto 8. }
    destruct Hs as (tv & semi & -> & Tv & Hs). rewrite <- app_assoc. eapply ok_conseq; [eapply ok_stats; try eassumption|].
    { destruct (first_token_of _ _ _ tv (semi ++ k) Cl eq_refl Tv) as (t & r & E & B). rewrite E. apply follows_here. cbn in B. unfold tail_start. now rewrite B, orb_true_r. }
    cbv beta. intros r s (-> & l & ->). ostep. eapply ok_val; [eapply ok_last; eassumption|]. intros x. osteps. apply val_intro.
Qed.

(** ** The recursive functions, and the whole parser *)
Lemma good_at {dia : dialect} c n : flat c -> good (parsers_at c n).
Proof.
  intros L. induction n as [|n IH]; cbn [parsers_at].
  - split; cbn; repeat intro; discriminate.
  - pose proof L as L'. split; cbn [parsers_step p_expression p_primary p_precedence p_block];
      [now apply ok_expression|now apply ok_noexp|now apply ok_primary|now apply ok_precedence|now apply ok_block].
Qed.
Lemma eof_other e : is_eof e = true -> terminal_of e = TOther.
Proof. unfold is_eof, terminal_of. now destruct (t_type (r_token e)). Qed.
Lemma ok_and_E {A} (m : M A) ts P Q : ok m ts P -> E m ts Q -> ok m ts (fun a s => P a s /\ Q a s).
Proof. intros H1 H2 es a s' X. destruct (H1 es a s' X) as (ts1 & Es & HP). assert (Y : st_errors s' = es) by now rewrite Es. destruct (H2 es a s' X Y) as (ts2 & E2 & HQ).
  exists ts1. split; [assumption|]. split; [assumption|]. rewrite Es in E2. unfold at_toks in E2. injection E2 as E2.
  assert (Z : ts1 = ts2); [|now subst]. clear - E2. revert ts2 E2. induction ts1; intros [|]; try discriminate; [reflexivity|]. intros [= -> E2]. f_equal. auto.
Qed.
Lemma ok_stream {dia : dialect} c w o ts e : flat c -> clear [N Chunk] w o -> terminals ts = w -> is_eof e = true ->
  ok (parse_stream c) (ts ++ [e]) (fun a s => s = [] /\ printed (a_nodes a) = ts /\ a_eof a = e).
Proof.
  intros L C T E es a s' H. revert es a s' H. set (n := S (List.length (map (@LOk tokref) (ts ++ [e])))).
  change (ok (let! r := p_block (parsers_at c n) in
   let block := match r with Value block => block | _ => block_new end in
   let block_has_last_stmt := match block_last_stmt block with Some _ => true | None => false end in
   let! block := fallible_loop (p_block (parsers_at c n)) block_has_last_stmt block in
   let! eof := final_token in
   ret (mkAst block eof)) (ts ++ [e]) (fun a s => s = [] /\ printed (a_nodes a) = ts /\ a_eof a = e)).
  pose proof (eof_other _ E) as Eo. ostep.
  eapply ok_conseq; [apply ok_and_E; [apply (g_block _ (good_at c n L) w o ts [e] C T); fol|apply (eg_block c); apply egood_at; apply L]|].
  cbv beta. intros r s ((-> & b & ->) & B). cbn [block_post] in B. destruct B as (B & _). apply app_inv_tail in B. cbv zeta. ostep.
  apply (ok_conseq _ _ (fun b' s => b' = b /\ s = [e])).
  - unfold fallible_loop. apply (ok_loop (fun b' s => b' = b /\ s = [e])); [auto|]. intros b' s' (-> & ->). ostep.
    intros es0 a0 s0 H0. injection H0 as <- <-. exists [e]. split; [reflexivity|]. cbn [map hd_error at_toks st_toks]. rewrite E. osteps. auto.
  - intros b' s' (-> & ->). ostep. unfold final_token. ostep. apply ok_consume. rewrite E. osteps. auto.
Qed.

(** ** No panic: the symbols of the grammar are enabled *)
Definition base_part (x : gsym) : bool :=
  match x with
  | T TOther => false
  | T (TSym (SGoto | STwoColons | SDoubleSlash | SAmpersand | STilde | SPipe | SDoubleGreaterThan | SDoubleLessThan)) => true
  | T (TSym s) => sym_enabled cfg_lua51 s
  | _ => true
  end.
Definition plain_part {dia : dialect} (g : gsym) : bool := base_part g && enabled_part dia g.
Definition plain_terminal {dia : dialect} (x : terminal) : bool := plain_part (T x).
Lemma full_base n : forallb (forallb base_part) (full n) = true.
Proof. destruct n; vm_compute; reflexivity. Qed.
Lemma moon_plain {dia : dialect} n rhs : In rhs (moon n) -> forallb plain_part rhs = true.
Proof.
  intros I. apply moon_full in I as [I E]. pose proof (full_base n) as X. rewrite forallb_forall in X. specialize (X rhs I). cbn [forallb] in E. apply andb_true_iff in E as [_ E].
  rewrite forallb_forall in *. intros x Hx. unfold plain_part. now rewrite (X x Hx), (E x Hx).
Qed.
Lemma clear_plain {dia : dialect} ss w o : clear ss w o -> forallb plain_part ss = true -> Forall (fun x => plain_terminal x = true) w.
Proof.
  induction 1 as [|t ss w o C IH|n rhs ss v w o o' I C1 IH1 C2 IH2 Hp]; cbn [forallb]; intros H; [constructor|apply andb_true_iff in H as [H1 H]; constructor; auto|].
  apply andb_true_iff in H as [_ H]. apply Forall_app. split; [|auto]. apply IH1. now apply moon_plain with n.
Qed.
Lemma enabled_plain c s : @plain_terminal (dialect_of c) (TSym s) = true -> sym_enabled c s = true.
Proof.
  unfold plain_terminal, plain_part, dialect_of. intros H. apply andb_true_iff in H as [H1 H2].
  destruct s; try reflexivity; cbn in H1, H2; try discriminate H1; cbn [sym_enabled]; rewrite ?H2, ?orb_true_r; try reflexivity.
  now rewrite <- orb_assoc, H2, orb_true_r.
Qed.
Lemma bits_plain c t : @plain_terminal (dialect_of c) (terminal_of t) = true -> has_lua53 c = false -> is_symbol t SAmpersand = false /\ is_symbol t SPipe = false.
Proof.
  intros P H. split; (destruct (is_symbol t _) eqn:Z; [|reflexivity]; rewrite (sym_terminal _ _ Z) in P; unfold plain_terminal, plain_part, dialect_of in P; cbn in P; congruence).
Qed.
Lemma plain_flat c : plain c -> @flat (dialect_of c) c.
Proof. intros (A & B & C). repeat split; auto. Qed.
Lemma symbol_terminal t s : t_type (r_token t) = TSymbol s -> terminal_of t = TSym s.
Proof. intros H. apply sym_terminal. unfold is_symbol. rewrite H. now destruct s. Qed.
Lemma stream_accepts c ts e o : plain c -> clear_in (@moon (dialect_of c)) [N Chunk] (terminals ts) o -> is_eof e = true ->
  exists a, parse_stream c (mkState (map LOk (ts ++ [e])) []) = Done (a, mkState [] []) /\ printed (a_nodes a) = ts /\ a_eof a = e.
Proof.
  intros H C E. pose (dia := dialect_of c). pose proof (clear_plain (dia := dialect_of c) _ _ _ C eq_refl) as P. unfold terminals in P. rewrite Forall_map, Forall_forall in P.
  assert (Q : forall r t, In r (map (@LOk tokref) (ts ++ [e])) -> tok_of r = Some t -> t = e \/ @plain_terminal (dialect_of c) (terminal_of t) = true).
  { intros r t Hr Ht. apply in_map_iff in Hr as (u & <- & Hu). injection Ht as ->. apply in_app_iff in Hu as [Hu|[<-|[]]]; auto. }
  assert (Te : t_type (r_token e) = TEof) by (unfold is_eof in E; now destruct (t_type (r_token e))).
  pose proof (parse_stream_spec c False e (mkState (map LOk (ts ++ [e])) [])) as S. cbn [st_toks st_errors] in S.
  pose proof (ok_stream c _ o ts e (plain_flat c H) C eq_refl E []) as K. unfold at_toks in K.
  assert (S1 : exists l r, map LOk (ts ++ [e]) = l ++ [r] /\ tok_of r = Some e /\ is_eof e = true /\ Forall not_eof l).
  { exists (map LOk ts), (LOk e). rewrite map_app. repeat split; [assumption|]. apply Forall_forall. intros r Hr. apply in_map_iff in Hr as (u & <- & Hu). unfold not_eof. cbn.
    destruct (is_eof u) eqn:Eu; [|reflexivity]. specialize (P u Hu). rewrite (eof_other _ Eu) in P. discriminate. }
  assert (S2 : Forall (enabled c) (map LOk (ts ++ [e]))).
  { apply Forall_forall. intros r Hr. unfold enabled. destruct (tok_of r) as [t|] eqn:Et; [|exact I]. destruct (t_type (r_token t)) as [| | | | | | |s| | |] eqn:Es; try exact I.
    apply (enabled_plain c s). destruct (Q r t Hr Et) as [->|Pl]; [congruence|]. now rewrite (symbol_terminal _ _ Es) in Pl. }
  destruct (parse_stream c (mkState (map LOk (ts ++ [e])) [])) as [[a s']| |].
  - destruct (K a s' eq_refl) as (ts' & -> & -> & A1 & A2). exists a. auto.
  - exfalso. apply S; [exact S1|exact S2|right].
    apply Forall_forall. intros r Hr. split; [destruct H as (A & _); congruence|]. intros _ H3 t Et. destruct (Q r t Hr Et) as [->|Pl]; [unfold is_symbol; now rewrite Te|]. now apply (bits_plain c).
  - exfalso. apply S; [exact S1|exact S2|right].
    apply Forall_forall. intros r Hr. split; [destruct H as (A & _); congruence|]. intros _ H3 t Et. destruct (Q r t Hr Et) as [->|Pl]; [unfold is_symbol; now rewrite Te|]. now apply (bits_plain c).
Qed.

(** ** Sources *)
Lemma clear_accepted c source rs o : plain c -> tokenize c source = Done rs -> clean rs -> rs <> [] -> clear_in (@moon (dialect_of c)) [N Chunk] (terminals (removelast (refs_of rs))) o ->
  exists a, parse c source = Done (inl a) /\ refs_of rs = printed (a_nodes a) ++ [a_eof a] /\ (shebang_kept source rs -> display_ast a = source).
Proof.
  intros H T Cl N C. destruct (tokenize_eof _ _ _ T N) as (e & (pre & x & Ers & X & Ee & _) & _). pose proof Cl as Cl'. apply clean_map in Cl' as (ts & Ets).
  assert (Et : exists ts0, ts = ts0 ++ [e]).
  { rewrite Ets in Ers. apply map_eq_app in Ers as (l1 & l2 & -> & _ & E2). destruct l2 as [|y [|]]; try discriminate. injection E2 as <-. injection X as ->. eauto. }
  destruct Et as (ts0 & ->). rewrite Ets, refs_of_oks, removelast_last in C. destruct (stream_accepts c ts0 e o H C Ee) as (a & Ps & Pr & Eo).
  exists a. assert (P : parse c source = Done (inl a)). { unfold parse, parse_fallible. rewrite lex_all_tokenize, T, Ets, Ps. reflexivity. }
  split; [assumption|]. rewrite Ets, refs_of_oks, Pr, Eo. split; [reflexivity|]. rewrite <- Ets. intros S. rewrite <- (lexing_lossless c source _ T Cl S).
  rewrite Ets. unfold print_refs, display_ast, display. rewrite refs_of_oks, flat_map_app, Pr, Eo. cbn [flat_map]. now rewrite app_nil_r.
Qed.

(** ** Versions *)
Lemma clear_mono g h : (forall n rhs, In rhs (g n) -> In rhs (h n)) -> forall ss w o, clear_in g ss w o -> clear_in h ss w o.
Proof. intros H ss w o C. induction C; [constructor|now constructor|econstructor; eauto]. Qed.
Lemma clear_moon g d : (forall n, g n = @moon d n) -> forall ss w o, clear_in g ss w o -> clear_in (@moon d) ss w o.
Proof. intros H. apply clear_mono. intros n rhs. now rewrite H. Qed.
Definition d51 : dialect := {| d_goto := false; d_bits := false; d_attributes := false |}.
Lemma lua51_moon n : lua51 n = @moon d51 n.
Proof. destruct n; reflexivity. Qed.
Lemma version_moon v n : lua51_blocks (reference v) n = @moon (dialect_in v) n.
Proof. destruct v, n; reflexivity. Qed.
Lemma luajit_moon n : luajit n = @moon d52 n.
Proof. destruct n; reflexivity. Qed.
Lemma stream_accepts_51 c ts e o : as_lua51 c -> clear_in lua51 [N Chunk] (terminals ts) o -> is_eof e = true ->
  exists a, parse_stream c (mkState (map LOk (ts ++ [e])) []) = Done (a, mkState [] []) /\ printed (a_nodes a) = ts /\ a_eof a = e.
Proof. intros V C. destruct (lua51_plain c V) as [P E]. apply stream_accepts with o; [assumption|]. rewrite E. exact (clear_moon _ _ lua51_moon _ _ _ C). Qed.
Lemma clear_accepted_51 c source rs o : as_lua51 c -> tokenize c source = Done rs -> clean rs -> rs <> [] -> clear_in lua51 [N Chunk] (terminals (removelast (refs_of rs))) o ->
  exists a, parse c source = Done (inl a) /\ refs_of rs = printed (a_nodes a) ++ [a_eof a] /\ (shebang_kept source rs -> display_ast a = source).
Proof. intros V T Cl N C. destruct (lua51_plain c V) as [P E]. apply (clear_accepted c source rs o P T Cl N). rewrite E. exact (clear_moon _ _ lua51_moon _ _ _ C). Qed.
Lemma stream_accepts_version v c ts e o : cfg_ok c -> as_version v c -> clear_in (lua51_blocks (reference v)) [N Chunk] (terminals ts) o -> is_eof e = true ->
  exists a, parse_stream c (mkState (map LOk (ts ++ [e])) []) = Done (a, mkState [] []) /\ printed (a_nodes a) = ts /\ a_eof a = e.
Proof. intros K V C. destruct (version_plain v c K V) as [P E]. apply stream_accepts with o; [assumption|]. rewrite E. exact (clear_moon _ _ (version_moon v) _ _ _ C). Qed.
Lemma clear_accepted_version v c source rs o : cfg_ok c -> as_version v c -> tokenize c source = Done rs -> clean rs -> rs <> [] ->
  clear_in (lua51_blocks (reference v)) [N Chunk] (terminals (removelast (refs_of rs))) o ->
  exists a, parse c source = Done (inl a) /\ refs_of rs = printed (a_nodes a) ++ [a_eof a] /\ (shebang_kept source rs -> display_ast a = source).
Proof. intros K V T Cl N C. destruct (version_plain v c K V) as [P E]. apply (clear_accepted c source rs o P T Cl N). rewrite E. exact (clear_moon _ _ (version_moon v) _ _ _ C). Qed.
Lemma stream_accepts_jit c ts e o : as_luajit c -> clear_in luajit [N Chunk] (terminals ts) o -> is_eof e = true ->
  exists a, parse_stream c (mkState (map LOk (ts ++ [e])) []) = Done (a, mkState [] []) /\ printed (a_nodes a) = ts /\ a_eof a = e.
Proof. intros V C. destruct (luajit_plain c V) as [P E]. apply stream_accepts with o; [assumption|]. rewrite E. exact (clear_moon _ _ luajit_moon _ _ _ C). Qed.
Lemma clear_accepted_jit c source rs o : as_luajit c -> tokenize c source = Done rs -> clean rs -> rs <> [] -> clear_in luajit [N Chunk] (terminals (removelast (refs_of rs))) o ->
  exists a, parse c source = Done (inl a) /\ refs_of rs = printed (a_nodes a) ++ [a_eof a] /\ (shebang_kept source rs -> display_ast a = source).
Proof. intros V T Cl N C. destruct (luajit_plain c V) as [P E]. apply (clear_accepted c source rs o P T Cl N). rewrite E. exact (clear_moon _ _ luajit_moon _ _ _ C). Qed.

(** Clear words are words of the grammar. *)
Lemma clear_derives g ss w o : clear_in g ss w o -> derives g ss w.
Proof. induction 1; [constructor|now constructor|econstructor; eassumption]. Qed.

(** Derivations given by the numbers of their productions, leftmost first: the word, whether it ends with a prefix expression, whether the
    derivation is clear, and the unused numbers. *)
Definition parenthesis_first (w : list terminal) : bool := match w with TSym SLeftParen :: _ => true | _ => false end.
Fixpoint derivation (g : nonterminal -> list (list gsym)) (fuel : nat) (script : list nat) (ss : list gsym) : option (list terminal * bool * bool * list nat) :=
  match fuel, ss with
  | O, _ => None
  | S fuel, [] => Some ([], false, true, script)
  | S fuel, T t :: ss => match derivation g fuel script ss with Some (w, o, b, r) => Some (t :: w, o, b, r) | None => None end
  | S fuel, N n :: ss =>
      match script with
      | [] => None
      | i :: script =>
          match nth_error (g n) i with
          | None => None
          | Some rhs =>
              match derivation g fuel script rhs with
              | None => None
              | Some (v, o, b, r) =>
                  match derivation g fuel r ss with
                  | None => None
                  | Some (w, o', b', r') =>
                      Some (v ++ w, match ss with [] => callable n || o | _ => o' end,
                            b && b' && negb (match n with Stats => o && parenthesis_first w | _ => false end), r')
                  end
              end
          end
      end
  end.
Lemma parenthesis_first_spec w : begins_with_parenthesis w -> parenthesis_first w = true.
Proof. now intros (v & ->). Qed.
Lemma derivation_sound g fuel : forall script ss w o b r, derivation g fuel script ss = Some (w, o, b, r) -> derives g ss w /\ (b = true -> clear_in g ss w o).
Proof.
  induction fuel as [|fuel IH]; intros script ss w o b r H; [discriminate|]. destruct ss as [|[t|n] ss]; cbn [derivation] in H.
  - injection H as <- <- <- <-. split; [|intros _]; constructor.
  - destruct (derivation g fuel script ss) as [[[[w1 o1] b1] r1]|] eqn:D; [|discriminate]. injection H as <- <- <- <-. apply IH in D as [D1 D2]. split; [|intros B]; constructor; auto.
  - destruct script as [|i script]; [discriminate|]. destruct (nth_error (g n) i) as [rhs|] eqn:I; [|discriminate]. apply nth_error_In in I.
    destruct (derivation g fuel script rhs) as [[[[v o1] b1] r1]|] eqn:D; [|discriminate]. destruct (derivation g fuel r1 ss) as [[[[w1 o2] b2] r2]|] eqn:D'; [|discriminate].
    injection H as <- <- <- <-. apply IH in D as [D1 D2], D' as [E1 E2]. split; [econstructor; eassumption|]. intros B. apply andb_true_iff in B as [B B3]. apply andb_true_iff in B as [B1 B2].
    apply (c_rule n rhs ss v w1 o1 o2); auto. intros -> -> P. apply parenthesis_first_spec in P. rewrite P in B3. discriminate.
Qed.
Lemma derivation_clear g fuel script ss w o : derivation g fuel script ss = Some (w, o, true, []) -> clear_in g ss w o.
Proof. intros H. now apply (derivation_sound _ _ _ _ _ _ _ _ H). Qed.
Lemma derivation_derives g fuel script ss w : option_map (fun x => fst (fst (fst x))) (derivation g fuel script ss) = Some w -> derives g ss w.
Proof. destruct (derivation g fuel script ss) as [[[[v o] b] r]|] eqn:D; [|discriminate]. intros [= <-]. now apply (derivation_sound _ _ _ _ _ _ _ _ D). Qed.
