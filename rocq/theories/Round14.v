(** Parsing undoes printing (C49): a last statement after the last statement of the whole source is read and dropped. *)
From Verif Require Import LexerSpec PunctuatedProofs TokenSpec.
From Verif Require Import ParserTop ParserTheorems ParserAccept LexerTheorems LexerTheorems3.
From Verif Require Import PrintProofs ParserComplete4.
From Verif Require Export Round13.
Local Open Scope nat_scope.
Import ListNotations.

Definition another (k : list tokref) : Prop := exists r l, k = r :: l /\ (sy r SReturn \/ sy r SBreak).
Lemma follows_prefix x k k' f : x <> [] -> follows (x ++ k) f -> follows (x ++ k') f.
Proof. destruct x as [|r x]; [congruence|]. intros _ (t & l & E & F). injection E as -> _. now exists t, (x ++ k'). Qed.
Lemma last_printed c z : last_line c z -> printed z <> [].
Proof. intros Z E. destruct (last_first c z [] Z) as (r & l & X & _). rewrite E in X. discriminate. Qed.
Lemma some_printed z : printed (some z) = printed z.
Proof. now spell. Qed.
Lemma eof_ended : ended [end_of_file].
Proof. exists end_of_file, []. auto. Qed.
Lemma lines_then c s l z k : Forall (line c) l -> apart (Con CTuple [s; none] :: l) -> last_line c z -> follows (flat_map printed l ++ printed z ++ k) (after_stmt c (open s)).
Proof.
  intros L A Z. pose proof (lines_stop c s l (some z) [end_of_file] L A (o_some _ _ Z) eof_ended) as F. rewrite some_printed, app_assoc in F. rewrite app_assoc. revert F. apply follows_prefix.
  intros E. apply app_eq_nil in E as [_ E]. now apply last_printed in Z.
Qed.
Lemma semicolon_then c l z k : Forall (line c) l -> last_line c z -> follows (flat_map printed l ++ printed z ++ k) (fun x => negb (term_symbol x SSemicolon)).
Proof.
  intros L Z. pose proof (after_not_semicolon c l (some z) [end_of_file] L (o_some _ _ Z) eof_ended) as F. rewrite some_printed, app_assoc in F. rewrite app_assoc. revert F. apply follows_prefix.
  intros E. apply app_eq_nil in E as [_ E]. now apply last_printed in Z.
Qed.
Lemma rt_block_then c p l z k : has_luau c = false -> good c p -> block c (Nd KBlock [vector l; some z]) -> another k -> gives (parse_block c p) (printed (Nd KBlock [vector l; some z]) ++ k) (Value (Nd KBlock [vector l; some z])) k.
Proof.
  intros LU G H K. inversion H as [l' z' L A Z']; subst. inversion Z' as [|z'' Z]; subst. unfold parse_block. apply run_bind.
  eapply run_conseq with (P := fun x s => x = inr l /\ s = printed z ++ k).
  - apply (run_loop (fun x s => exists todo, x ++ todo = l /\ s = flat_map printed todo ++ printed z ++ k)); [exists l; spell; auto|].
    intros x s (todo & EX & ->). pose proof L as F. rewrite <- EX in F, A. apply Forall_app in F as (_ & F). apply apart_drop in A. destruct F as [|y todo Y F]; cbn [flat_map app].
    + rewrite app_nil_r in EX. subst x. inversion Z as [s o S O]; subst. inversion S as [r B|r LU' W|r m B M]; subst; [spell| congruence|spell].
      * apply run_bind. eapply run_gives; [apply rt_not_stmt; auto|]. cbv iota. apply run_ret. auto.
      * apply run_bind. eapply run_gives; [apply rt_not_stmt; auto|]. cbv iota. apply run_ret. auto.
    + inversion Y as [s o S O]; subst. spell. destruct (opt_semicolon o (flat_map printed todo ++ printed z ++ k) O) as (u & EU & RU); [now apply semicolon_then with c|].
      apply run_bind. eapply run_gives; [apply rt_statement; [assumption..|]|].
      { clear EU RU. inversion O as [|t T]; subst; spell; [now apply lines_then|]. inversion T; subst; spell. fo. }
      cbv iota. apply run_bind. eapply run_gives; [exact RU|]. apply run_ret. exists todo. unfold stmt_pair. rewrite EU, <- app_assoc. auto.
  - intros x s (-> & ->). inversion Z as [s o S O]; subst. destruct K as (w & k' & -> & W).
    assert (NK : follows (w :: k') (fun x => negb (term_symbol x SSemicolon))) by (apply follows_here; destruct W as [-> | ->]; reflexivity).
    assert (KI : exists r k0, printed o ++ w :: k' = r :: k0 /\ is_interpolated r = false /\ no_exp (terminal_of r) = true /\ stop c true (terminal_of r) = true /\ term_symbol (terminal_of r) SComma = false).
    { inversion O as [|t T]; subst; spell.
      - exists w, k'. split; [reflexivity|]. split; [eapply test_interpolated; [reflexivity|destruct W as [-> | ->]; discriminate]|]. destruct W as [-> | ->]; auto.
      - inversion T as [u U]; subst; spell. eexists _, _. split; [reflexivity|]. split; [eapply test_interpolated; [eassumption|discriminate]|]. rewrite U. auto. }
    destruct (opt_semicolon o (w :: k') O NK) as (u & EU & RU). inversion S as [r B|r LU' W'|r m B M]; subst; cbv beta iota; [spell|congruence|spell].
    + unfold parse_last_stmt. rsteps. eapply run_gives; [exact RU|]. rsteps. unfold block_tree, stmt_pair. cbn. auto.
    + unfold parse_last_stmt. rsteps. inversion M as [|m' M']; subst; cbn [flat_map app].
      * destruct KI as (v & k0 & E & KI & KN & _). rewrite E. eapply run_gives; [eapply rt_no_expressions; eassumption|]. rewrite <- E. rsteps. eapply run_gives; [exact RU|]. rsteps. auto.
      * destruct KI as (v & k0 & E & _ & _ & KS & KC).
        destruct (rt_expressions c p m (printed (opt_tok u) ++ w :: k') G M') as (x & EX & RX).
        { rewrite E. apply follows_here. destruct (terminal_of v) as [| | |[]|]; try discriminate KS; try reflexivity; exact KS. }
        { rewrite E. apply follows_here. now rewrite KC. }
        eapply run_gives; [exact RX|]. rsteps. eapply run_gives; [exact RU|]. rsteps. unfold block_tree, stmt_pair. cbn. rewrite EX. auto.
Qed.
Lemma good_block_then c n l z k : has_luau c = false -> block c (Nd KBlock [vector l; some z]) -> another k -> gives (p_block (parsers_at c n)) (printed (Nd KBlock [vector l; some z]) ++ k) (Value (Nd KBlock [vector l; some z])) k.
Proof. destruct n; intros L B K; [apply run_fuel|]. apply rt_block_then; auto using good_at. Qed.
Lemma last_another c y k : has_luau c = false -> last_line c y -> another (printed y ++ k).
Proof. intros LU Y. inversion Y as [s o S O]; subst. inversion S as [r B|r L W|r m B M]; subst; [spell|congruence|spell]; eexists _, _; eauto. Qed.
Lemma last_alone c y : last_line c y -> block c (Nd KBlock [vector []; some y]).
Proof. intros Y. constructor; constructor. assumption. Qed.
Lemma alone_printed y : printed (Nd KBlock [vector []; some y]) = printed y.
Proof. now spell. Qed.
Lemma run_stream_then c l z y e : has_luau c = false -> block c (Nd KBlock [vector l; some z]) -> last_line c y -> is_eof e = true ->
  run (parse_stream c) (printed (Nd KBlock [vector l; some z]) ++ printed y ++ [e]) (fun a s => a = mkAst (Nd KBlock [vector l; some z]) e /\ s = []).
Proof.
  intros LU B Y E es. set (t := Nd KBlock [vector l; some z]) in *. set (n := S (List.length (map (@LOk tokref) (printed t ++ printed y ++ [e])))).
  assert (X : run (let! r := p_block (parsers_at c n) in
   let block := match r with Value block => block | _ => block_new end in
   let block_has_last_stmt := match block_last_stmt block with Some _ => true | None => false end in
   let! block := fallible_loop (p_block (parsers_at c n)) block_has_last_stmt block in
   let! eof := final_token in
   ret (mkAst block eof)) (printed t ++ printed y ++ [e]) (fun a s => a = mkAst t e /\ s = [])); [|exact (X es)].
  assert (EN : ended [e]).
  { exists e, []. pose proof (eof_other _ E) as O. rewrite O. repeat split. unfold is_eof in E. unfold is_interpolated. now destruct (t_type (r_token e)). }
  apply run_bind. eapply run_gives; [apply (good_block_then c n l z); [assumption..|now apply (last_another c)]|].
  cbv beta iota zeta. apply run_bind. eapply run_conseq with (P := fun b s => b = t /\ s = [e]).
  - unfold fallible_loop. apply (run_loop (fun b s => b = t /\ s = printed y ++ [e])); [auto|]. intros b s (-> & ->). apply run_bind.
    destruct (last_another c y [e] LU Y) as (r & m & EY & R). intros es0. rewrite EY. cbn. exists (r :: m). split; [reflexivity|].
    assert (F : is_eof r = false) by (unfold is_eof; unfold terminal_of in R; destruct (t_type (r_token r)), R; congruence).
    rewrite F. rewrite <- EY. unfold next_block. apply run_bind. pose proof (g_block _ _ (good_at c n) _ [e] (last_alone c y Y) EN) as GB. rewrite alone_printed in GB. eapply run_gives; [exact GB|].
    cbv iota. cbn [block_stmts]. apply run_bind, run_current. cbv iota. rewrite E. apply run_ret. auto.
  - intros b s (-> & ->). unfold final_token. rsteps. rewrite E. rsteps. auto.
Qed.
Lemma round_trip_then c source l z y e : cfg_ok c -> has_luau c = false -> tokenize c source = Done (map LOk (printed (Nd KBlock [vector l; some z]) ++ printed y ++ [e])) ->
  block c (Nd KBlock [vector l; some z]) -> last_line c y -> parse c source = Done (inl (mkAst (Nd KBlock [vector l; some z]) e)).
Proof.
  intros C LU T B Y. set (t := Nd KBlock [vector l; some z]) in *. assert (E : is_eof e = true).
  { destruct (tokenize_eof _ _ _ T) as (e' & (pre & x & Ers & X & Ee & _) & _); [rewrite app_assoc, map_app; intros Q; apply app_eq_nil in Q as [_ Q]; discriminate|].
    rewrite app_assoc, map_app in Ers. apply app_inj_tail in Ers as (_ & <-). injection X as ->. exact Ee. }
  pose proof (parsing_terminates c source C) as F. unfold parse, parse_fallible in F |- *. rewrite lex_all_tokenize, T in *. pose proof (run_stream_then c l z y e LU B Y E []) as R. fold t in R. unfold at_toks in R.
  destruct (parse_stream c (mkState (map LOk (printed t ++ printed y ++ [e])) [])) as [[a s]| |]; [|easy|now destruct F].
  destruct R as (ts' & -> & -> & ->). reflexivity.
Qed.
