(** Parsing undoes printing (C48): whole sources. *)
From Verif Require Import LexerSpec PunctuatedProofs TokenSpec PrintProofs.
From Verif Require Import ParserTop ParserTheorems ParserAccept LexerTheorems LexerTheorems3 ParserComplete4.
From Verif Require Export Round12.
Local Open Scope nat_scope.
Import ListNotations.

Lemma run_stream c t e : block c t -> is_eof e = true -> run (parse_stream c) (printed t ++ [e]) (fun a s => a = mkAst t e /\ s = []).
Proof.
  intros B E es. set (n := S (List.length (map (@LOk tokref) (printed t ++ [e])))).
  assert (X : run (let! r := p_block (parsers_at c n) in
   let block := match r with Value block => block | _ => block_new end in
   let block_has_last_stmt := match block_last_stmt block with Some _ => true | None => false end in
   let! block := fallible_loop (p_block (parsers_at c n)) block_has_last_stmt block in
   let! eof := final_token in
   ret (mkAst block eof)) (printed t ++ [e]) (fun a s => a = mkAst t e /\ s = [])); [|exact (X es)].
  apply run_bind. eapply run_gives; [apply (g_block _ _ (good_at c n)); [assumption|]|].
  { exists e, []. pose proof (eof_other _ E) as O. rewrite O. repeat split. unfold is_eof in E. unfold is_interpolated. now destruct (t_type (r_token e)). }
  cbv beta iota zeta. apply run_bind. eapply run_conseq with (P := fun b s => b = t /\ s = [e]).
  - unfold fallible_loop. apply (run_loop (fun b s => b = t /\ s = [e])); [auto|]. intros b s (-> & ->). apply run_bind.
    intros es0. cbn. exists [e]. split; [reflexivity|]. rewrite E. apply run_ret. auto.
  - intros b s (-> & ->). unfold final_token. rsteps. rewrite E. rsteps. auto.
Qed.
Lemma round_trip c source ts e t : cfg_ok c -> tokenize c source = Done (map LOk (ts ++ [e])) -> block c t -> printed t = ts -> parse c source = Done (inl (mkAst t e)).
Proof.
  intros C T B <-. assert (E : is_eof e = true).
  { destruct (tokenize_eof _ _ _ T) as (e' & (pre & x & Ers & X & Ee & _) & _); [rewrite map_app; now destruct (map LOk (printed t))|].
    rewrite map_app in Ers. apply app_inj_tail in Ers as (_ & <-). injection X as ->. exact Ee. }
  pose proof (parsing_terminates c source C) as F. unfold parse, parse_fallible in F |- *. rewrite lex_all_tokenize, T in *. pose proof (run_stream c t e B E []) as R. unfold at_toks in R.
  destruct (parse_stream c (mkState (map LOk (printed t ++ [e])) [])) as [[a s]| |]; [|easy|now destruct F].
  destruct R as (ts' & -> & -> & ->). reflexivity.
Qed.

(** ** Corollaries *)
Lemma eof_of c source ts e : tokenize c source = Done (map LOk (ts ++ [e])) -> clean (map LOk (ts ++ [e])) /\ refs_of (map LOk (ts ++ [e])) = ts ++ [e].
Proof. intros _. split; [apply Forall_forall; intros r Hr; apply in_map_iff in Hr as (u & <- & _); now exists u|apply refs_of_oks]. Qed.
Lemma round_trip_text c source t e : cfg_ok c -> tokenize c source = Done (map LOk (printed t ++ [e])) -> block c t -> shebang_kept source (map LOk (printed t ++ [e])) ->
  display_ast (mkAst t e) = source.
Proof.
  intros C T B S. destruct (eof_of _ _ _ _ T) as (Cl & Rf). rewrite <- (lexing_lossless c source _ T Cl S).
  unfold print_refs, display_ast, display. rewrite Rf, flat_map_app. cbn [flat_map a_nodes a_eof]. now rewrite app_nil_r.
Qed.
Definition end_of_file : tokref := mkRef [] (mkToken pos0 pos0 TEof) [].
Lemma unambiguous c t1 t2 : block c t1 -> block c t2 -> printed t1 = printed t2 ->
  Forall (fun r => is_eof r = false /\ forall s, t_type (r_token r) = TSymbol s -> sym_enabled c s = true) (printed t1) -> t1 = t2.
Proof.
  intros B1 B2 P K. rewrite Forall_forall in K. pose proof (run_stream c t1 end_of_file B1 eq_refl []) as R1. pose proof (run_stream c t2 end_of_file B2 eq_refl []) as R2. rewrite <- P in R2.
  pose proof (parse_stream_spec c True end_of_file (mkState (map LOk (printed t1 ++ [end_of_file])) [])) as S. cbn [st_toks st_errors] in S. unfold at_toks in R1, R2.
  destruct (parse_stream c _) as [[a s]| |].
  - destruct R1 as (ts1 & _ & -> & _), R2 as (ts2 & _ & E & _). now injection E as ->.
  - easy.
  - exfalso. apply S; [| |now left].
    + exists (map LOk (printed t1)), (LOk end_of_file). rewrite map_app. repeat split. apply Forall_forall. intros r Hr. apply in_map_iff in Hr as (u & <- & Hu). cbn. now apply K.
    + apply Forall_forall. intros r Hr. apply in_map_iff in Hr as (u & <- & Hu). unfold enabled. cbn. apply in_app_iff in Hu as [Hu|[<-|[]]]; [|exact I].
      destruct (t_type (r_token u)) eqn:Et; try exact I. now apply (K u Hu).
Qed.
