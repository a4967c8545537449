(** A space or a line end between tokens keeps them apart (C52). Proof file. *)
From Verif Require Import Lexer LexerFacts LexerFacts2 LexerCases LexerStep LexerStream LexerSpec LexerProofs LexerTheorems LexerTheorems2 LexerTheorems3 TokenSpec TokenProofs TokenTheorems StringProofs StringProofs2 Relex Relex2.
From Verif Require Export Scan5.
From Coq Require Import Lia ZifyBool ZifyNat ZifyN.
Local Open Scope N_scope.
Arguments ch a : simpl never.
Arguments advance p c : simpl never.

(** Tokens that can stand alone in a file, apart from white space and the parts of interpolated strings. *)
Definition alone (c : cfg) (t : token_type) : Prop :=
  token_then c t [] /\ (forall w, t <> TWhitespace w) /\ (forall w k, t <> TInterpolatedString w k).
Definition gap (x : char) : Prop := x = 10 \/ x = 32.
Lemma gap_prefix x (z w v r : text) : ~ In x z -> w ++ x :: v = z ++ r -> exists r', w = z ++ r'.
Proof.
  revert w. induction z as [|y z IH]; intros w Hn E; [exists w; reflexivity|]. destruct w as [|a w]; cbn in E; injection E as E1 E.
  - exfalso. apply Hn. left. congruence.
  - subst a. destruct (IH w) as (r' & ->); [intros I; apply Hn; now right|exact E|]. exists r'. reflexivity.
Qed.
Lemma first_extends (z w v : text) : (forall a b, w ++ z ++ [] = a ++ z ++ b -> (List.length w <= List.length a)%nat) ->
  forall a b, w ++ z ++ v = a ++ z ++ b -> (List.length w <= List.length a)%nat.
Proof.
  intros F a b E. destruct (Nat.le_gt_cases (List.length w) (List.length a)) as [L|L]; [exact L|]. exfalso.
  assert (Q : exists b', w ++ z = (a ++ z) ++ b').
  { rewrite !app_assoc in E. assert (L2 : (List.length (a ++ z) <= List.length (w ++ z))%nat) by (rewrite !app_length; lia).
    exists (skipn (List.length (a ++ z)) (w ++ z)). rewrite <- (firstn_skipn (List.length (a ++ z)) (w ++ z)) at 1. f_equal.
    apply (f_equal (firstn (List.length (a ++ z)))) in E. rewrite firstn_app, (firstn_app _ (a ++ z)), Nat.sub_diag, firstn_all in E.
    replace (List.length (a ++ z) - List.length (w ++ z))%nat with O in E by lia. cbn in E. now rewrite !app_nil_r in E. }
  destruct Q as (b' & Q). specialize (F a b'). rewrite app_nil_r, Q, <- app_assoc in F. specialize (F eq_refl). lia.
Qed.
Lemma gap_no_op x c o : gap x -> In o (operators c) -> ~ In x o.
Proof.
  intros G I. apply operator_sym in I as (sy & <- & _). destruct G as [->| ->]; destruct sy; vm_compute; intros J; repeat (destruct J as [J|J]; [discriminate J|]); exact J.
Qed.
Lemma gap_not_open x n : gap x -> ~ In x (long_bracket_open n).
Proof.
  intros G I. unfold long_bracket_open, eqs in I. rewrite !in_app_iff in I. destruct I as [[I|[]]|[I|[I|[]]]]; [| apply repeat_spec in I|]; destruct G as [->| ->]; discriminate I.
Qed.
Lemma gap_part x P v : P x = false -> not_continued P (x :: v).
Proof. apply cons_continued. Qed.

Lemma tail_gap c marks more e x v : gap x -> (forall y, In y marks -> y <> x) -> more x = false -> tail_then c marks more e [] -> tail_then c marks more e (x :: v).
Proof.
  intros G Hm Hx T. inversion T as [v0 _|t v0 E N|t v0 J S]; subst.
  - apply tt_none. apply gap_part. rewrite Hx. assert (Em : existsb (N.eqb x) marks = false).
    { destruct (existsb (N.eqb x) marks) eqn:Q; [|reflexivity]. apply existsb_exists in Q as (y & I & Q). apply N.eqb_eq in Q. subst y. now destruct (Hm x I). }
    rewrite Em. destruct G as [->| ->]; rewrite andb_false_r; reflexivity.
  - apply tt_exp; [exact E|]. apply gap_part. unfold digit_of. destruct G as [->| ->]; cbn; apply andb_false_r.
  - now apply tt_suffix.
Qed.
Lemma gap_digit x c : gap x -> digit_of c x = false /\ hexdigit_of c x = false /\ bindigit x = false /\ word_part x = false.
Proof. intros [->| ->]; unfold digit_of, hexdigit_of; cbn; rewrite !andb_false_r; auto. Qed.

Lemma number_gap c w x v : gap x -> number_then c w [] -> number_then c w (x :: v).
Proof.
  intros G Nb. destruct (gap_digit x c G) as (D1 & D2 & D3 & _). assert (X46 : (x =? 46) = false) by (destruct G as [->| ->]; reflexivity).
  assert (Mk : forall y, In y [101; 69; 112; 80] -> y <> x) by (intros y I; destruct G as [->| ->]; cbn in I; intuition congruence).
  inversion Nb as [d m e v0 Hd Hm Ht Hr|d m e v0 Hd Hm Ht|y m e v0 Hy Hm Ht Hs|b m e v0 Hv Hb Hm Ht Hs]; subst.
  - apply nb_dec; try assumption.
    + apply tail_gap; try assumption; [|now rewrite D1, X46]. intros y I. apply Mk. cbn in *. tauto.
    + intros (y & r & E & R). apply Hr. rewrite app_nil_r. destruct (m ++ e) as [|a q] eqn:Q.
      * rewrite app_assoc, Q in E. cbn in E. injection E as -> <- _. exfalso. unfold ci in R. destruct G as [->| ->]; destruct R as [[R|R]|[_ [R|R]]]; discriminate R.
      * rewrite app_assoc, Q in E. cbn in E. injection E as -> <- _. exists a, q. auto.
  - apply nb_dot; try assumption. apply tail_gap; try assumption; [|now rewrite D1, X46]. intros y I. apply Mk. cbn in *. tauto.
  - apply nb_hex; try assumption. apply tail_gap; try assumption; [|rewrite D2, X46; now destruct (has_lua52 c)]. intros a I. apply Mk. destruct (has_lua52 c); cbn in *; tauto.
  - apply nb_bin; try assumption. apply tail_gap; try assumption. intros a [].
Qed.

Lemma token_gap c t x v : alone c t -> separates t x -> token_then c t (x :: v).
Proof.
  intros (T & NS & NI) Sx. assert (G : gap x) by (destruct Sx as [->|[-> _]]; [now left|now right]). destruct (gap_digit x c G) as (_ & _ & _ & D4).
  inversion T as [w v0 W Hn NC|s v0 I NC|s v0 O|w v0 Nb|w q y v0 Hq Hb A|w n v0 F|w v0 N Hv L|w n v0 F|w v0 Hc F|w v0 Sp|w k v0 HL Se]; subst.
  - apply to_name; try assumption. now apply gap_part.
  - apply to_keyword; try assumption. now apply gap_part.
  - apply to_operator. destruct O as (I & L & N1 & N2 & N3 & N4). rewrite app_nil_r in *.
    assert (P : forall z r, ~ In x z -> sym_text s ++ x :: v = z ++ r -> exists r', sym_text s = z ++ r') by (intros z r; apply gap_prefix).
    assert (X : forall y, y <> 10 -> y <> 32 -> x <> y) by (intros y H1 H2 ->; destruct G as [->| ->]; congruence).
    split; [exact I|]. repeat split.
    + intros o v' Io E. destruct (P o v') as (r' & Er); [now apply (gap_no_op x c)|exact E|]. rewrite Er, app_length. lia.
    + intros r E. destruct (P (str "--") r) as (r' & Er); [intros J; cbn in J; destruct G as [->| ->]; intuition discriminate|exact E|]. now apply (N1 r').
    + intros HC r E. destruct (P (str "/*") r) as (r' & Er); [intros J; cbn in J; destruct G as [->| ->]; intuition discriminate|exact E|]. now apply (N2 HC r').
    + intros n r E. destruct (P (long_bracket_open n) r) as (r' & Er); [now apply gap_not_open|exact E|]. now apply (N3 n r').
    + intros d r Hd E. destruct (P [46; d] r) as (r' & Er); [|exact E|now apply (N4 d r' Hd)]. intros [J|[J|[]]]; [destruct G as [->| ->]; discriminate|subst d; destruct G as [->| ->]; discriminate].
  - apply to_number. now apply number_gap.
  - eapply to_quoted; eassumption.
  - apply to_long. split; [reflexivity|]. destruct F as [_ F]. now apply first_extends.
  - destruct Sx as [->|[_ Sx]]; [|now destruct (Sx w)]. apply to_comment; [exact N|right; eauto|]. rewrite app_nil_r in L. intros n r E.
    destruct (gap_prefix 10 (long_bracket_open n) w v r) as (r' & Er); [apply gap_not_open; now left|exact E|]. now apply (L n r').
  - apply to_long_comment. split; [reflexivity|]. destruct F as [_ F]. now apply first_extends.
  - apply to_c_comment; [exact Hc|]. now apply first_extends.
  - now destruct (NS w).
  - now destruct (NI w k).
Qed.

(** The first character of such a token is not white space. *)
Lemma alone_head c t : alone c t -> exists x r, spelling t = x :: r /\ x <> 32 /\ x <> 9 /\ x <> 10 /\ x <> 13.
Proof.
  intros (T & NS & NI).
  assert (D : forall x, digit x = true -> x <> 32 /\ x <> 9 /\ x <> 10 /\ x <> 13) by (intros x; unfold digit, between; lia).
  assert (Ws : forall s, exists x r, sym_text s = x :: r /\ x <> 32 /\ x <> 9 /\ x <> 10 /\ x <> 13) by (intros s; destruct s; do 2 eexists; (split; [reflexivity|]); repeat split; discriminate).
  inversion T as [w v0 (x & r & -> & Lx & _) Hn NC|s v0 I NC|s v0 O|w v0 Nb|w q y v0 Hq Hb A|w n v0 F|w v0 N Hv L|w n v0 F|w v0 Hc F|w v0 Sp|w k v0 HL Se]; subst; cbn [spelling].
  - exists x, r. split; [reflexivity|]. unfold letter, between in Lx. lia.
  - apply Ws.
  - apply Ws.
  - inversion Nb; subst; do 2 eexists; (split; [reflexivity|]); auto; repeat split; discriminate.
  - destruct q; try discriminate Hq; do 2 eexists; (split; [reflexivity|]); repeat split; discriminate.
  - do 2 eexists. split; [reflexivity|]. repeat split; discriminate.
  - do 2 eexists. split; [reflexivity|]. repeat split; discriminate.
  - do 2 eexists. split; [reflexivity|]. repeat split; discriminate.
  - do 2 eexists. split; [reflexivity|]. repeat split; discriminate.
  - now destruct (NS w).
  - now destruct (NI w k).
Qed.

Lemma separated_tokens c l : forall st, Forall (fun p => alone c (fst p) /\ separates (fst p) (snd p)) l -> balanced c st (map fst l) -> tokens_in c st (separated l).
Proof.
  induction l as [|[t x] l IH]; intros st F B; [constructor|]. inversion F as [|? ? [A Sx] F']; subst. cbn [map fst snd] in *. inversion B as [|? ? st' ? U B']; subst.
  specialize (IH st' F' B'). change (separated ((t, x) :: l)) with (t :: TWhitespace [x] :: separated l).
  eapply ti_cons; [|exact U|eapply ti_cons; [| |exact IH]].
  - change (written (TWhitespace [x] :: separated l)) with (x :: written (separated l)). now apply token_gap.
  - apply to_space. assert (G : gap x) by (destruct Sx as [->|[-> _]]; [now left|now right]). destruct G as [->| ->]; [apply sp_line_feed|].
    destruct l as [|[t' x'] l]; [apply (sp_blanks 32 []); [auto|reflexivity|apply nil_continued|intros e r [->| ->]; discriminate]|].
    inversion F' as [|? ? [A' _] _]; subst. destruct (alone_head c t' A') as (y & r & Ey & N1 & N2 & N3 & N4).
    assert (Ew : written (separated ((t', x') :: l)) = y :: r ++ x' :: written (separated l)).
    { change (separated ((t', x') :: l)) with (t' :: TWhitespace [x'] :: separated l). unfold written. cbn [flat_map spelling]. rewrite Ey. reflexivity. }
    rewrite Ew. apply (sp_blanks 32 []); [auto|reflexivity| |].
    + apply gap_part. apply N.eqb_neq in N1, N2. now rewrite N1, N2.
    + intros e q [->| ->] Q; cbn in Q; congruence.
  - apply tu_other; intros; discriminate.
Qed.
Lemma separated_file c l : Forall (fun p => alone c (fst p) /\ separates (fst p) (snd p)) l -> balanced c [] (map fst l) -> file c (separated l ++ [TEof]) (written (separated l)).
Proof.
  intros F B. apply fi_plain; [now apply separated_tokens|]. intros (r & E). destruct l as [|[t x] l]; [discriminate|].
  inversion F as [|? ? [A Sx] _]; subst. cbn [fst snd] in *. change (written (separated ((t, x) :: l))) with (spelling t ++ x :: written (separated l)) in E.
  destruct A as (T & NS & NI). 
  assert (Hs : forall q, spelling t = 35 :: q -> t = TSymbol SHash \/ exists w, t = TShebang w).
  { intros q Q. inversion T as [w v0 (y & r0 & -> & Lx & _) Hn NC|s v0 I NC|s v0 O|w v0 Nb|w q0 y v0 Hq Hb A|w n v0 F0|w v0 N Hv L|w n v0 F0|w v0 Hc F0|w v0 Sp|w k v0 HL Se]; subst; cbn [spelling] in Q.
    - injection Q as -> _. discriminate Lx.
    - destruct s; try discriminate Q; auto.
    - destruct s; try discriminate Q; auto.
    - subst w. inversion Nb; discriminate.
    - destruct q0; try discriminate Hq; discriminate Q.
    - discriminate Q. - discriminate Q. - discriminate Q. - discriminate Q.
    - now destruct (NS w).
    - now destruct (NI w k). }
  destruct (spelling t) as [|y q] eqn:Q; [now apply token_spelled in T|]. cbn in E. injection E as -> E.
  destruct (Hs q eq_refl) as [->|(w & ->)]; [|inversion T]. cbn in Q. injection Q as <-. cbn in E. injection E as -> _.
  destruct Sx as [Sx|[Sx _]]; discriminate.
Qed.

Lemma file_unambiguous c source ts ts' : cfg_ok c -> file c ts source -> file c ts' source -> ts = ts'.
Proof. intros HC F F'. apply file_exact in F as (rs & H & _ & _ & <-); [|exact HC]. apply file_exact in F' as (rs' & H' & _ & _ & <-); [|exact HC]. rewrite H in H'. now injection H' as ->. Qed.
Lemma written_app a b : written (a ++ b) = written a ++ written b.
Proof. apply flat_map_app. Qed.
Lemma file_written c source ts : file c ts source -> written ts = source.
Proof.
  intros F. inversion F as [ts0 T N|w ts0 N1 N2 T]; subst.
  - rewrite written_app. apply app_nil_r.
  - change (written (TShebang (str "#!" ++ w) :: ts0 ++ [TEof])) with ((str "#!" ++ w) ++ written (ts0 ++ [TEof])). rewrite written_app. cbn [written flat_map spelling]. now rewrite !app_nil_r, app_assoc.
Qed.
Lemma lone_token c t : (forall w, t <> TShebang w) -> file c [t; TEof] (spelling t) -> token_then c t [].
Proof.
  intros NS F. inversion F as [ts0 T N Et|w ts0 N1 N2 T Et]; [|now destruct (NS (str "#!" ++ w))].
  destruct ts0 as [|t0 [|t1 ts0]]; [discriminate|injection Et as ->|destruct ts0; discriminate].
  now inversion T.
Qed.
Lemma separated_files c l :
  Forall (fun p => file c [fst p; TEof] (spelling (fst p)) /\
    (forall w, fst p <> TWhitespace w) /\ (forall w k, fst p <> TInterpolatedString w k) /\ (forall w, fst p <> TShebang w) /\ separates (fst p) (snd p)) l ->
  balanced c [] (map fst l) -> file c (separated l ++ [TEof]) (written (separated l)).
Proof.
  intros F. apply separated_file. eapply Forall_impl; [|exact F]. intros p (H & N1 & N2 & N3 & Sp). split; [|exact Sp]. repeat split; auto. now apply lone_token.
Qed.
