(** Numbers and what follows them, exactly (C52). Proof file. *)
From Verif Require Import Lexer LexerFacts LexerFacts2 LexerCases LexerStep LexerStream LexerSpec LexerProofs LexerTheorems LexerTheorems2 LexerTheorems3 TokenSpec TokenProofs TokenTheorems Relex.
From Verif Require Export ScanSpec.
From Coq Require Import Lia ZifyBool ZifyNat ZifyN.
Local Open Scope N_scope.
Arguments ch a : simpl never.
Arguments advance p c : simpl never.

Lemma suffix_char_is x : is_suffix_char x = existsb (N.eqb x) (str "uUlLiI").
Proof. reflexivity. Qed.
Lemma continued_false P x v : not_continued P (x :: v) -> P x = false.
Proof. intros H. exact (H x v eq_refl). Qed.
Lemma nil_continued P : not_continued P [].
Proof. intros x r E. discriminate. Qed.
Lemma cons_continued (P : char -> bool) x v : P x = false -> not_continued P (x :: v).
Proof. intros H y r E. injection E as <- _. exact H. Qed.
Lemma exponent_part_of c m ms t : In m ms -> exponent c m (m :: t) -> exponent_part c ms (m :: t).
Proof.
  intros I E. inversion E as [d ds H1 H2|sg d ds H1 H2 H3]; subst.
  - now apply (ep c ms m [] d ds); auto.
  - apply (ep c ms m [sg] d ds); auto. change (ch "+") with 43 in H1. change (ch "-") with 45 in H1. destruct H1 as [->| ->]; auto.
Qed.
Lemma exponent_of_part c ms w : exponent_part c ms w -> exists m t, In m ms /\ w = m :: t /\ exponent c m (m :: t).
Proof.
  intros [m sign d ds Hm Hs Hd Hds]. exists m, (sign ++ d :: ds). split; [assumption|]. split; [reflexivity|].
  destruct Hs as [->|[->| ->]]; cbn [app]; [now apply exp_plain|now apply exp_signed; auto|now apply exp_signed; auto].
Qed.
Lemma mant_cons P ok x m : P x = true -> mant P ok m -> mant P ok (x :: m).
Proof.
  intros H [a Ha|a b Hd Ha Hb]; [apply mn_int|apply (mn_dot P ok (x :: a) b)]; auto; unfold digits in *; cbn; now rewrite H.
Qed.
Lemma mant_nil P ok : mant P ok [].
Proof. now apply mn_int. Qed.

Definition dec_more c x := digit_of c x || (x =? 46).
Lemma number_sound c start rest : forall pos number hd t s, read_number c start rest pos number hd = (LOk t, s) ->
  exists m e, rest = m ++ e ++ s_rest s /\ mant (digit_of c) (negb hd) m /\ tail_then c [101; 69] (dec_more c) e (s_rest s) /\ t_type t = TNumber (number ++ m ++ e).
Proof.
  induction rest as [|d r IH]; intros pos number hd t s H; cbn [read_number] in H.
  - injection H as <- <-. exists [], []. cbn [app s_rest t_type]. rewrite !app_nil_r. repeat split; try apply mant_nil. apply tt_none, nil_continued.
  - fold (dec_char c d) in H. destruct (dec_char c d) eqn:Ed.
    + apply IH in H as (m & e & -> & Hm & He & ->). exists (d :: m), e. rewrite <- app_assoc. repeat split; auto. now apply mant_cons.
    + destruct (d =? ch ".") eqn:Edot.
      { apply N.eqb_eq in Edot; subst d. destruct hd; [apply eat_invalid_number_spec in H as (? & _ & H); discriminate|].
        apply IH in H as (m & e & -> & Hm & He & ->). exists (ch "." :: m), e. rewrite <- app_assoc. repeat split; auto.
        inversion Hm as [a Ha|]; [|discriminate]; subst. now apply (mn_dot (digit_of c) true [] m). }
      destruct ((d =? ch "e") || (d =? ch "E")) eqn:Ee.
      { apply read_exponent_part_spec in H as (t0 & M & [(E & X & Hd)|E]); [|discriminate]. injection E as ->. destruct M as [M _]. cbn [s_rest] in M.
        exists [], (d :: t0). cbn [app]. repeat split; [exact M|apply mant_nil|]. apply tt_exp; [|now apply head_not_continued].
        apply (exponent_part_of c d); [|assumption]. apply orb_true_iff in Ee as [Ee|Ee]; apply N.eqb_eq in Ee; subst; cbn; auto. }
      destruct (has_luajit c && is_suffix_char d) eqn:Es.
      { apply andb_true_iff in Es as [Ej Es]. apply read_luajit_number_suffix_spec in H as (t0 & M & [(E & X)|E]); [|discriminate|discriminate]. injection E as ->. destruct M as [M _]. cbn [s_rest] in M.
        exists [], t0. cbn [app]. repeat split; [exact M|apply mant_nil|]. apply tt_suffix; [assumption|now apply jit_luajit]. }
      injection H as <- <-. exists [], []. cbn [app s_rest t_type]. rewrite app_nil_r. repeat split; [apply mant_nil|]. apply tt_none, cons_continued. unfold dec_more.
      change (ch ".") with 46 in Edot. change (ch "e") with 101 in Ee. change (ch "E") with 69 in Ee. rewrite <- suffix_char_is. rewrite Es, Edot.
      change (digit_of c d) with (dec_char c d). rewrite Ed. cbn [existsb orb]. rewrite !orb_false_r. exact Ee.
Qed.

(** The exact version of [read_number_complete]. *)
Lemma number_complete c start m : forall hd e v pos number, mant (digit_of c) (negb hd) m -> tail_then c [101; 69] (dec_more c) e v ->
  exists s, read_number c start (m ++ e ++ v) pos number hd = (num_ok start s (number ++ m ++ e), s) /\ s_rest s = v.
Proof.
  assert (Base : forall hd e v pos number, tail_then c [101; 69] (dec_more c) e v ->
    exists s, read_number c start (e ++ v) pos number hd = (num_ok start s (number ++ e), s) /\ s_rest s = v).
  { intros hd e v pos number Ht. destruct Ht as [v Hv|t v E Hv|t v Hj J].
    - cbn [app]. rewrite app_nil_r. destruct v as [|x v]; [eexists; split; reflexivity|].
      apply continued_false in Hv. unfold dec_more in Hv. rewrite !orb_false_iff in Hv. destruct Hv as [[[H1 H2] H3] H4]. cbn [read_number].
      fold (dec_char c x). change (dec_char c x) with (digit_of c x). rewrite H1. change (x =? ch ".") with (x =? 46). rewrite H2.
      cbn [existsb] in H3. rewrite orb_false_r in H3. change (x =? ch "e") with (x =? 101). change (x =? ch "E") with (x =? 69). rewrite H3, suffix_char_is, H4.
      eexists. split; reflexivity.
    - apply exponent_of_part in E as (k & t' & Hk & -> & E).
      destruct (exponent_read c start k t' v pos number E) as (s & R & Rs); [now apply head_not_continued|].
      exists s. split; [|exact Rs]. rewrite <- R. cbn [app read_number]. fold (dec_char c k).
      destruct Hk as [<-|[<-|[]]]; unfold dec_char; cbn; rewrite ?andb_false_r; reflexivity.
    - apply luajit_jit in J. destruct (suffix_read start t v pos number J) as (s & R & Rs). exists s. split; [|exact Rs]. rewrite <- R.
      apply jit_suffix_char in J as (x & r & -> & Hs & _ & Hd & N1 & N2 & N3 & N4 & _). cbn [app read_number].
      fold (dec_char c x). unfold dec_char. rewrite Hd. change (x =? ch "_") with (x =? 95). change (x =? ch ".") with (x =? 46).
      change (x =? ch "e") with (x =? 101). change (x =? ch "E") with (x =? 69).
      apply N.eqb_neq in N1, N2, N3, N4. rewrite N1, N2, N3, N4, Hj, Hs, andb_false_r. reflexivity. }
  induction m as [|x m IH]; intros hd e v pos number Hm Ht.
  - cbn [app]. now apply Base.
  - cbn [app]. inversion Hm as [a Ha Ea|a b Hdot Ha Hb Ea].
    + subst a. unfold digits in Ha. cbn in Ha. apply andb_true_iff in Ha as [H1 H2]. cbn [read_number]. fold (dec_char c x). change (dec_char c x) with (digit_of c x). rewrite H1.
      destruct (IH hd e v (advance pos x) (number ++ [x])) as (s & R & Rs); [now apply mn_int|assumption|].
      exists s. rewrite R, <- app_assoc. auto.
    + destruct a as [|y a]; cbn [app] in Ea; injection Ea as Ex Em; subst x m.
      * cbn [read_number]. fold (dec_char c 46).
        assert (Hnd : dec_char c 46 = false) by (unfold dec_char; cbn; apply andb_false_r). rewrite Hnd. change (46 =? ch ".") with true. cbv iota.
        destruct hd; [discriminate|]. cbv iota.
        destruct (IH true e v (advance pos 46) (number ++ [46])) as (s & R & Rs); [now apply mn_int|assumption|].
        exists s. split; [|exact Rs]. etransitivity; [exact R|]. now rewrite <- app_assoc.
      * unfold digits in Ha. cbn in Ha. apply andb_true_iff in Ha as [H1 H2]. cbn [read_number]. fold (dec_char c y). change (dec_char c y) with (digit_of c y). rewrite H1.
        destruct (IH hd e v (advance pos y) (number ++ [y])) as (s & R & Rs); [now apply mn_dot|assumption|].
        exists s. rewrite R, <- app_assoc. auto.
Qed.

Definition hex_more c x := hexdigit_of c x || (has_lua52 c && (x =? 46)).
Definition hex_marks c : list char := if has_lua52 c then [112; 80] else [].
Lemma hexdigit_of_is c x : hexdigit_of c x = is_hex_digit x || ((x =? ch "_") && has_luau c).
Proof. unfold hexdigit_of. rewrite hexdigit_is, (andb_comm (has_luau c)). reflexivity. Qed.
Lemma finish_sound start rest pos number t s : finish_radix start rest pos number = (LOk t, s) -> (2 <= List.length number)%nat -> s_rest s = rest /\ t_type t = TNumber number /\ (2 < List.length number)%nat.
Proof.
  unfold finish_radix. destruct (Nat.eqb (List.length number) 2) eqn:E; intros H L; [apply eat_invalid_number_spec in H as (? & _ & H); discriminate|].
  injection H as <- <-. apply Nat.eqb_neq in E. repeat split. lia.
Qed.
Lemma hex_sound c start rest : forall pos number hd t s, (2 <= List.length number)%nat -> read_hex_number c start rest pos number hd = (LOk t, s) ->
  exists m e, rest = m ++ e ++ s_rest s /\ mant (hexdigit_of c) (negb hd && has_lua52 c) m /\ tail_then c (hex_marks c) (hex_more c) e (s_rest s) /\ t_type t = TNumber (number ++ m ++ e) /\
    (has_luajit c = true /\ luajit_suffix e \/ (2 < List.length (number ++ m))%nat).
Proof.
  induction rest as [|d r IH]; intros pos number hd t s L H; cbn [read_hex_number] in H.
  - apply finish_sound in H as (E & -> & L'); [|assumption]. exists [], []. cbn [app]. rewrite !app_nil_r. rewrite E. repeat split; auto; try apply mant_nil. apply tt_none, nil_continued.
  - assert (L1 : (2 <= List.length (number ++ [d]))%nat) by (rewrite app_length; lia).
    assert (Grow : forall b m e, has_luajit c = true /\ luajit_suffix e \/ (2 < List.length ((number ++ [b]) ++ m))%nat -> has_luajit c = true /\ luajit_suffix e \/ (2 < List.length (number ++ b :: m))%nat).
    { intros b m e. now rewrite <- app_assoc. }
    destruct (hexdigit_of c d) eqn:Ed.
    { assert (H' : read_hex_number c start r (advance pos d) (number ++ [d]) hd = (LOk t, s)).
      { rewrite hexdigit_of_is in Ed. destruct (is_hex_digit d); [exact H|]. cbn in Ed. rewrite Ed in H. exact H. }
      apply IH in H' as (m & e & -> & Hm & He & -> & Hl); [|assumption]. exists (d :: m), e. rewrite <- app_assoc. repeat split; auto. now apply mant_cons. }
    pose proof Ed as Ed'. rewrite hexdigit_of_is in Ed'. apply orb_false_iff in Ed' as [E1 E2]. rewrite E1, E2 in H.
    destruct ((d =? ch ".") && has_lua52 c) eqn:Edot.
    { apply andb_true_iff in Edot as [Edot E52]. apply N.eqb_eq in Edot; subst d. destruct hd; [apply eat_invalid_number_spec in H as (? & _ & H); discriminate|].
      apply IH in H as (m & e & -> & Hm & He & -> & Hl); [|assumption]. exists (ch "." :: m), e. rewrite <- app_assoc. repeat split; auto.
      inversion Hm as [a Ha|]; [|discriminate]; subst. rewrite E52. now apply (mn_dot (hexdigit_of c) true [] m). }
    destruct (((d =? ch "p") || (d =? ch "P")) && has_lua52 c) eqn:Ee.
    { apply andb_true_iff in Ee as [Ee E52]. destruct (Nat.eqb (List.length number) 2) eqn:EL; [apply eat_invalid_number_spec in H as (? & _ & H); discriminate|].
      apply read_exponent_part_spec in H as (t0 & M & [(E & X & Hd)|E]); [|discriminate]. injection E as ->. destruct M as [M _]. cbn [s_rest] in M.
      exists [], (d :: t0). cbn [app]. rewrite app_nil_r. apply Nat.eqb_neq in EL. repeat split; [exact M|apply mant_nil| |right; lia]. apply tt_exp; [|now apply head_not_continued].
      apply (exponent_part_of c d); [|assumption]. unfold hex_marks. rewrite E52. apply orb_true_iff in Ee as [Ee|Ee]; apply N.eqb_eq in Ee; subst; cbn; auto. }
    destruct (is_suffix_char d && has_luajit c) eqn:Es.
    { apply andb_true_iff in Es as [Es Ej]. apply read_luajit_number_suffix_spec in H as (t0 & M & [(E & X)|E]); [|discriminate|discriminate]. injection E as ->. destruct M as [M _]. cbn [s_rest] in M.
      exists [], t0. cbn [app]. apply jit_luajit in X. repeat split; [exact M|apply mant_nil| |left; auto]. now apply tt_suffix. }
    apply finish_sound in H as (E & -> & L'); [|assumption]. exists [], []. cbn [app]. rewrite !app_nil_r. rewrite E. repeat split; auto; try apply mant_nil. apply tt_none, cons_continued. unfold hex_more.
    change (ch ".") with 46 in Edot. change (ch "p") with 112 in Ee. change (ch "P") with 80 in Ee. rewrite <- suffix_char_is, Ed, (andb_comm (has_luajit c)), Es, (andb_comm (has_lua52 c)), Edot.
    unfold hex_marks. destruct (has_lua52 c); [|reflexivity]. rewrite andb_true_r in Ee. cbn [existsb orb]. rewrite !orb_false_r. exact Ee.
Qed.
Lemma hex_complete c start m : forall hd e v pos number, (2 <= List.length number)%nat ->
  mant (hexdigit_of c) (negb hd && has_lua52 c) m -> tail_then c (hex_marks c) (hex_more c) e v ->
  (has_luajit c = true /\ luajit_suffix e \/ (2 < List.length (number ++ m))%nat) ->
  exists s, read_hex_number c start (m ++ e ++ v) pos number hd = (num_ok start s (number ++ m ++ e), s) /\ s_rest s = v.
Proof.
  assert (Base : forall hd e v pos number, (2 <= List.length number)%nat -> tail_then c (hex_marks c) (hex_more c) e v ->
    (has_luajit c = true /\ luajit_suffix e \/ (2 < List.length number)%nat) ->
    exists s, read_hex_number c start (e ++ v) pos number hd = (num_ok start s (number ++ e), s) /\ s_rest s = v).
  { intros hd e v pos number Hlen Ht Hl. destruct Ht as [v Hv|t v E Hv|t v Hj J].
    - cbn [app]. rewrite app_nil_r. destruct Hl as [[_ Hl]|Hl]; [inversion Hl|].
      destruct v as [|x v].
      + cbn [read_hex_number]. rewrite finish_radix_ok by assumption. eexists. split; reflexivity.
      + apply continued_false in Hv. unfold hex_more in Hv. rewrite !orb_false_iff in Hv. destruct Hv as [[[H1 H2] H3] H4]. cbn [read_hex_number].
        rewrite hexdigit_of_is in H1. apply orb_false_iff in H1 as [E1 E2]. rewrite E1, E2. change (x =? ch ".") with (x =? 46). rewrite andb_comm in H2. rewrite H2.
        change (x =? ch "p") with (x =? 112). change (x =? ch "P") with (x =? 80). unfold hex_marks in H3. rewrite <- suffix_char_is, andb_comm in H4.
        destruct (has_lua52 c); [cbn [existsb orb] in H3; rewrite orb_false_r in H3; rewrite H3|rewrite andb_false_r]; cbn [andb]; rewrite H4, finish_radix_ok by assumption; eexists; split; reflexivity.
    - apply exponent_of_part in E as (k & t' & Hk & -> & E). unfold hex_marks in Hk. destruct (has_lua52 c) eqn:H52; [|destruct Hk].
      destruct (exponent_read c start k t' v pos number E) as (s & R & Rs); [now apply head_not_continued|].
      exists s. split; [|exact Rs]. rewrite <- R. cbn [app read_hex_number]. destruct Hl as [[_ Hl]|Hl].
      { exfalso. apply luajit_jit, jit_suffix_char in Hl as (x & r & E0 & _ & _ & _ & _ & _ & _ & _ & N1 & N2). injection E0 as <- _.
        destruct Hk as [<-|[<-|[]]]; first [now apply N1|now apply N2]. }
      assert (L2 : Nat.eqb (List.length number) 2 = false) by (apply Nat.eqb_neq; lia).
      destruct Hk as [<-|[<-|[]]]; cbn; rewrite H52, L2; reflexivity.
    - apply luajit_jit in J. destruct (suffix_read start t v pos number J) as (s & R & Rs). exists s. split; [|exact Rs]. rewrite <- R.
      apply jit_suffix_char in J as (x & r & -> & Hs & Hh & Hd & N1 & N2 & N3 & N4 & N5 & N6). cbn [app read_hex_number].
      rewrite Hh. change (x =? ch "_") with (x =? 95). change (x =? ch ".") with (x =? 46).
      change (x =? ch "p") with (x =? 112). change (x =? ch "P") with (x =? 80).
      apply N.eqb_neq in N1, N2, N5, N6. rewrite N1, N2, N5, N6, Hj, Hs. reflexivity. }
  assert (Hex : forall x rest pos number hd, hexdigit_of c x = true ->
     read_hex_number c start (x :: rest) pos number hd = read_hex_number c start rest (advance pos x) (number ++ [x]) hd).
  { intros x rest pos number hd Hx. cbn [read_hex_number]. rewrite hexdigit_of_is in Hx. destruct (is_hex_digit x); [reflexivity|]. cbn in Hx.
    rewrite Hx. reflexivity. }
  induction m as [|x m IH]; intros hd e v pos number Hlen Hm Ht Hl.
  - cbn [app] in *. rewrite app_nil_r in Hl. now apply Base.
  - cbn [app].
    assert (Hl' : has_luajit c = true /\ luajit_suffix e \/ (2 < List.length ((number ++ [x]) ++ m))%nat).
    { right. rewrite !app_length. cbn. lia. }
    assert (Hlen' : (2 <= List.length (number ++ [x]))%nat) by (rewrite app_length; lia).
    inversion Hm as [a Ha Ea|a b Hdot Ha Hb Ea].
    + subst a. unfold digits in Ha. cbn in Ha. apply andb_true_iff in Ha as [H1 H2]. rewrite Hex by assumption.
      destruct (IH hd e v (advance pos x) (number ++ [x]) Hlen') as (s & R & Rs); [now apply mn_int|assumption|assumption|].
      exists s. rewrite R, <- app_assoc. auto.
    + destruct a as [|y a]; cbn [app] in Ea; injection Ea as Ex Em; subst x m.
      * apply andb_true_iff in Hdot as [Hd1 Hd2]. destruct hd; [discriminate|]. cbn [read_hex_number].
        change (is_hex_digit 46) with false. change (46 =? ch "_") with false. change (46 =? ch ".") with true. rewrite Hd2. cbn [andb].
        destruct (IH true e v (advance pos 46) (number ++ [46]) Hlen') as (s & R & Rs); [now apply mn_int|assumption|assumption|].
        exists s. split; [|exact Rs]. etransitivity; [exact R|]. now rewrite <- app_assoc.
      * unfold digits in Ha. cbn in Ha. apply andb_true_iff in Ha as [H1 H2]. rewrite Hex by assumption.
        destruct (IH hd e v (advance pos y) (number ++ [y]) Hlen') as (s & R & Rs); [now apply mn_dot|assumption|assumption|].
        exists s. rewrite R, <- app_assoc. auto.
Qed.

Lemma bin_sound c start rest : forall pos number t s, (2 <= List.length number)%nat -> read_binary_number c start rest pos number = (LOk t, s) ->
  exists m e, rest = m ++ e ++ s_rest s /\ digits bindigit m /\ tail_then c [] bindigit e (s_rest s) /\ t_type t = TNumber (number ++ m ++ e) /\
    (has_luajit c = true /\ luajit_suffix e \/ (2 < List.length (number ++ m))%nat).
Proof.
  induction rest as [|d r IH]; intros pos number t s L H; cbn [read_binary_number] in H.
  - apply finish_sound in H as (E & -> & L'); [|assumption]. exists [], []. cbn [app]. rewrite !app_nil_r. rewrite E. repeat split; auto. apply tt_none, nil_continued.
  - change ((d =? ch "0") || (d =? ch "1") || (d =? ch "_")) with (bindigit d) in H. destruct (bindigit d) eqn:Ed.
    { apply IH in H as (m & e & -> & Hm & He & -> & Hl); [|rewrite app_length; lia]. exists (d :: m), e. rewrite <- app_assoc. repeat split; auto.
      - unfold digits in *. cbn. now rewrite Ed.
      - now rewrite <- app_assoc in Hl. }
    destruct (is_suffix_char d && has_luajit c) eqn:Es.
    { apply andb_true_iff in Es as [Es Ej]. apply read_luajit_number_suffix_spec in H as (t0 & M & [(E & X)|E]); [|discriminate|discriminate]. injection E as ->. destruct M as [M _]. cbn [s_rest] in M.
      exists [], t0. cbn [app]. apply jit_luajit in X. repeat split; [exact M| |left; auto]. now apply tt_suffix. }
    apply finish_sound in H as (E & -> & L'); [|assumption]. exists [], []. cbn [app]. rewrite !app_nil_r. rewrite E. repeat split; auto. apply tt_none, cons_continued.
    rewrite <- suffix_char_is, Ed, (andb_comm (has_luajit c)), Es. reflexivity.
Qed.
Lemma bin_complete c start m : forall e v pos number, (2 <= List.length number)%nat ->
  digits bindigit m -> tail_then c [] bindigit e v ->
  (has_luajit c = true /\ luajit_suffix e \/ (2 < List.length (number ++ m))%nat) ->
  exists s, read_binary_number c start (m ++ e ++ v) pos number = (num_ok start s (number ++ m ++ e), s) /\ s_rest s = v.
Proof.
  induction m as [|x m IH]; intros e v pos number Hlen Hm Ht Hl.
  - cbn [app] in *. rewrite app_nil_r in Hl. destruct Ht as [v Hv|t v E Hv|t v Hj J].
    + cbn [app]. rewrite app_nil_r. destruct Hl as [[_ Hl]|Hl]; [inversion Hl|].
      destruct v as [|x v].
      * cbn [read_binary_number]. rewrite finish_radix_ok by assumption. eexists. split; reflexivity.
      * apply continued_false in Hv. rewrite !orb_false_iff in Hv. destruct Hv as [[H1 _] H4]. cbn [read_binary_number].
        change ((x =? ch "0") || (x =? ch "1") || (x =? ch "_")) with (bindigit x). rewrite H1, suffix_char_is, andb_comm, H4, finish_radix_ok by assumption. eexists; split; reflexivity.
    + apply exponent_of_part in E as (k & t' & [] & _).
    + apply luajit_jit in J. destruct (suffix_read start t v pos number J) as (s & R & Rs). exists s. split; [|exact Rs]. rewrite <- R.
      apply jit_suffix_char in J as (x & r & -> & Hs & Hh & Hd & N1 & N2 & N3 & N4 & N5 & N6). cbn [app read_binary_number].
      assert (x <> 48 /\ x <> 49) as [N7 N8] by (split; intros ->; discriminate).
      change (x =? ch "_") with (x =? 95). change (x =? ch "0") with (x =? 48). change (x =? ch "1") with (x =? 49).
      apply N.eqb_neq in N1, N7, N8. rewrite N1, N7, N8, Hj, Hs. reflexivity.
  - cbn [app]. unfold digits in Hm. cbn in Hm. apply andb_true_iff in Hm as [H1 H2]. cbn [read_binary_number].
    change ((x =? ch "0") || (x =? ch "1") || (x =? ch "_")) with (bindigit x). rewrite H1.
    destruct (IH e v (advance pos x) (number ++ [x])) as (s & R & Rs); auto.
    + rewrite app_length. lia.
    + right. rewrite !app_length. cbn. lia.
    + exists s. rewrite R, <- app_assoc. auto.
Qed.

(** ** One step *)
Lemma not_radix c d r : ~ radix_prefix c (d :: r) <-> (d = 48 -> forall x r', r = x :: r' -> x <> 120 /\ x <> 88 /\ ((has_luau c || has_luajit c) = true -> x <> 98 /\ x <> 66)).
Proof.
  split.
  - intros H -> x r' ->. assert (K : forall y, x = y -> y = 120 \/ y = 88 \/ (has_luau c || has_luajit c = true /\ (y = 98 \/ y = 66)) -> False).
    { intros y <- Q. apply H. exists x, r'. split; [reflexivity|]. destruct Q as [->|[->|[Q [->| ->]]]]; [left; now left|left; now right| |]; right; (split; [now apply orb_true_iff|]); [now left|now right]. }
    repeat split; try intros ->; try (intros Q; split; intros ->); eapply K; try reflexivity; tauto.
  - intros H (x & r' & E & Q). injection E as -> ->. destruct (H eq_refl x r' eq_refl) as (N1 & N2 & N3). destruct Q as [[->| ->]|(Q & [->| ->])]; try congruence; apply orb_true_iff in Q; destruct (N3 Q); congruence.
Qed.
Lemma number_then_step c l w v : number_then c w v -> s_rest (l_src l) = w ++ v ->
  exists t s, process_next c l = Done (Some (LOk t), with_src l s) /\ t_type t = TNumber w /\ s_rest s = v.
Proof.
  intros [d m e u Hd Hm Ht Hr|d m e u Hd Hm Ht|x m e u Hx Hm Ht Hs|b m e u Hv Hb Hm Ht Hs] E; cbn [app] in E; rewrite <- ?app_assoc in E.
  - rewrite (process_next_digit c l d (m ++ e ++ u) E Hd); [|now apply not_radix].
    destruct (number_complete c (s_pos (l_src l)) m false e u (advance (s_pos (l_src l)) d) [d]) as (s & R & Rs); [assumption|assumption|].
    rewrite R. do 2 eexists. split; [reflexivity|]. repeat split; assumption.
  - assert (P : process_next c l = (let '(t, s) := read_number c (s_pos (l_src l)) (d :: m ++ e ++ u) (advance (s_pos (l_src l)) (ch ".")) [ch "."] false in
      yield t (with_src l s))).
    { head_step E. unfold on_char, src_consume. cbn [s_rest s_pos]. assert (Hn : d =? ch "." = false) by (apply N.eqb_neq; intros ->; discriminate).
      rewrite Hn. change (is_digit d) with (digit d). rewrite Hd. reflexivity. }
    rewrite P. change (d :: m ++ e ++ u) with ((d :: m) ++ e ++ u).
    destruct (number_complete c (s_pos (l_src l)) (d :: m) false e u (advance (s_pos (l_src l)) (ch ".")) [ch "."]) as (s & R & Rs); [assumption|assumption|].
    rewrite R. do 2 eexists. split; [reflexivity|]. repeat split; assumption.
  - assert (P : process_next c l = (let '(t, s) := read_hex_number c (s_pos (l_src l)) (m ++ e ++ u) (advance (advance (s_pos (l_src l)) 48) x) [ch "0"; x] false in
      yield t (with_src l s))).
    { head_step E. destruct Hx as [->| ->]; reflexivity. }
    rewrite P.
    destruct (hex_complete c (s_pos (l_src l)) m false e u (advance (advance (s_pos (l_src l)) 48) x) [ch "0"; x]) as (s & R & Rs);
      [cbn; lia|assumption|assumption| |].
    + destruct m as [|y m]; [left; auto|right; cbn; lia].
    + rewrite R. do 2 eexists. split; [reflexivity|]. repeat split; assumption.
  - assert (P : process_next c l = (let '(t, s) := read_binary_number c (s_pos (l_src l)) (m ++ e ++ u) (advance (advance (s_pos (l_src l)) 48) b) [ch "0"; b] in
      yield t (with_src l s))).
    { assert (Hv' : has_luau c || has_luajit c = true) by (destruct Hv as [-> | ->]; rewrite ?orb_true_r; reflexivity).
      head_step E. destruct Hb as [->| ->]; cbn; rewrite Hv'; reflexivity. }
    rewrite P.
    destruct (bin_complete c (s_pos (l_src l)) m e u (advance (advance (s_pos (l_src l)) 48) b) [ch "0"; b]) as (s & R & Rs);
      [cbn; lia|assumption|assumption| |].
    + destruct m as [|y m]; [left; auto|right; cbn; lia].
    + rewrite R. do 2 eexists. split; [reflexivity|]. repeat split; assumption.
Qed.
