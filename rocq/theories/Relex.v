(** Readers on their own output: every token text, read again, gives the token back. Proof file. *)
From Verif Require Import Lexer LexerFacts LexerFacts2 LexerCases LexerStep LexerStream LexerSpec LexerProofs LexerTheorems LexerTheorems2 LexerTheorems3 TokenSpec TokenProofs TokenTheorems.
From Coq Require Import Lia ZifyBool ZifyNat ZifyN.
Local Open Scope N_scope.
Arguments ch a : simpl never.
Arguments advance p c : simpl never.

(** ** Numbers *)
Lemma number_ends_dec c v : number_ends v -> head_not (dec_char c) v.
Proof.
  intros H. destruct v as [|x v]; [exact I|]. specialize (H x v eq_refl). apply orb_false_iff in H as [H _].
  cbn. unfold dec_char, word_part, letter in *. rewrite !orb_false_iff in H. destruct H as [[_ H1] H2].
  change (is_digit x) with (digit x). rewrite H2. cbn. change (x =? ch "_") with (x =? 95). rewrite H1. apply andb_false_r.
Qed.
Lemma number_ends_head x v : number_ends (x :: v) -> letter x = false /\ digit x = false /\ x <> 46.
Proof.
  intros H. specialize (H x v eq_refl). apply orb_false_iff in H as [H H2]. unfold word_part in H. apply orb_false_iff in H as [H0 H1].
  apply N.eqb_neq in H2. auto.
Qed.

Lemma read_exp_digits_complete c ds : forall v pos number, forallb (dec_char c) ds = true -> head_not (dec_char c) v ->
  read_exp_digits c (ds ++ v) pos number = (number ++ ds, mkSrc v (adv pos ds)).
Proof.
  induction ds as [|x ds IH]; intros v pos number F H; cbn [app].
  - rewrite app_nil_r. destruct v as [|x v]; [reflexivity|]. cbn [read_exp_digits]. cbn in H. fold (dec_char c x). rewrite H. reflexivity.
  - cbn in F. apply andb_true_iff in F as [F1 F2]. cbn [read_exp_digits]. fold (dec_char c x). rewrite F1, IH by assumption.
    now rewrite <- app_assoc.
Qed.

Lemma exponent_read c start m t v pos number : exponent c m (m :: t) -> head_not (dec_char c) v ->
  exists s, read_exponent_part c start m (t ++ v) pos number = (num_ok start s (number ++ m :: t), s) /\ s_rest s = v.
Proof.
  intros E H. inversion E as [d ds Hd Hs|sg d ds Hg Hd Hs]; subst.
  - unfold read_exponent_part. cbn [app].
    assert (Hn : (d =? ch "+") || (d =? ch "-") = false).
    { apply orb_false_iff. split; apply N.eqb_neq; intros ->; discriminate. }
    rewrite Hn, Hd. change (d :: ds ++ v) with ((d :: ds) ++ v).
    rewrite read_exp_digits_complete; [|cbn; unfold dec_char at 1; now rewrite Hd|assumption].
    eexists. split; [rewrite <- app_assoc; reflexivity|reflexivity].
  - unfold read_exponent_part. cbn [app].
    assert (Hn : (sg =? ch "+") || (sg =? ch "-") = true).
    { destruct Hg as [->| ->]; reflexivity. }
    rewrite Hn, Hd. change (d :: ds ++ v) with ((d :: ds) ++ v).
    rewrite read_exp_digits_complete; [|cbn; unfold dec_char at 1; now rewrite Hd|assumption].
    eexists. split; [rewrite <- !app_assoc; reflexivity|reflexivity].
Qed.

Lemma suffix_read start t v pos number : jit_suffix t ->
  exists s, read_luajit_number_suffix start (t ++ v) pos number = (num_ok start s (number ++ t), s) /\ s_rest s = v.
Proof.
  intros [i Hi|a b Ha Hb|u a b Hu Ha Hb]; cbn [app].
  - pose proof (suffix_disjoint i) as [D1 D2]. cbn [read_luajit_number_suffix]. fold (is_ul i) (is_ll i) (is_ii i).
    destruct (is_ul i) eqn:E1; [destruct (D1 eq_refl); congruence|]. destruct (is_ll i) eqn:E2; [destruct (D2 eq_refl); congruence|].
    rewrite Hi. eexists. split; reflexivity.
  - pose proof (suffix_disjoint a) as [D1 D2]. cbn [read_luajit_number_suffix]. fold (is_ul a) (is_ll a) (is_ll b).
    destruct (is_ul a) eqn:E1; [destruct (D1 eq_refl); congruence|]. rewrite Ha, Hb. eexists. split; reflexivity.
  - pose proof (suffix_disjoint a) as [D1 D2]. cbn [read_luajit_number_suffix]. fold (is_ul u) (is_ul a) (is_ll a) (is_ll b).
    rewrite Hu, Ha. destruct (is_ul a) eqn:E1; [destruct (D1 eq_refl); congruence|]. rewrite Hb. eexists. split; [rewrite <- !app_assoc; reflexivity|reflexivity].
Qed.

Lemma jit_suffix_char t : jit_suffix t -> exists x r, t = x :: r /\ is_suffix_char x = true /\
  is_hex_digit x = false /\ is_digit x = false /\ x <> 95 /\ x <> 46 /\ x <> 101 /\ x <> 69 /\ x <> 112 /\ x <> 80.
Proof.
  intros J. apply jit_luajit in J.
  destruct J as [i [->| ->]|a b [->| ->] _|u a b [->| ->] _ _]; do 2 eexists; (split; [reflexivity|]); repeat (split; [reflexivity|]); repeat split; discriminate.
Qed.

Lemma read_number_complete c start m : forall hd e v pos number, mantissa (dec_char c) (negb hd) m -> num_tail c (str "eE") true e -> number_ends v ->
  exists s, read_number c start (m ++ e ++ v) pos number hd = (num_ok start s (number ++ m ++ e), s) /\ s_rest s = v.
Proof.
  assert (Base : forall hd e v pos number, num_tail c (str "eE") true e -> number_ends v ->
    exists s, read_number c start (e ++ v) pos number hd = (num_ok start s (number ++ e), s) /\ s_rest s = v).
  { intros hd e v pos number Ht Hv. destruct Ht as [|k t _ Hk E|t Hj J].
    - cbn [app]. rewrite app_nil_r. destruct v as [|x v]; [eexists; split; reflexivity|].
      pose proof (number_ends_dec c _ Hv) as Hd. cbn in Hd. apply number_ends_head in Hv as (L & D & Nd). cbn [read_number].
      fold (dec_char c x). rewrite Hd. change (x =? ch ".") with (x =? 46). apply N.eqb_neq in Nd. rewrite Nd.
      assert (x <> 101 /\ x <> 69) as [N1 N2] by (split; intros ->; discriminate).
      change (x =? ch "e") with (x =? 101). change (x =? ch "E") with (x =? 69). apply N.eqb_neq in N1, N2. rewrite N1, N2. cbn [orb].
      assert (Hs : is_suffix_char x = false).
      { destruct (is_suffix_char x) eqn:Hs; [|reflexivity]. exfalso. unfold is_suffix_char, is_one_of in Hs. cbn in Hs.
        rewrite !orb_true_iff, !N.eqb_eq in Hs. repeat (destruct Hs as [Hs|Hs]; [subst; discriminate|]). discriminate. }
      rewrite Hs, andb_false_r. eexists. split; reflexivity.
    - assert (Et : exists t', t = k :: t') by (destruct E; eauto). destruct Et as (t' & ->).
      destruct (exponent_read c start k t' v pos number E (number_ends_dec c v Hv)) as (s & R & Rs).
      exists s. split; [|exact Rs]. rewrite <- R. cbn [app read_number]. fold (dec_char c k).
      destruct Hk as [<-|[<-|[]]]; unfold dec_char; cbn; rewrite ?andb_false_r; reflexivity.
    - destruct (suffix_read start t v pos number J) as (s & R & Rs). exists s. split; [|exact Rs]. rewrite <- R.
      apply jit_suffix_char in J as (x & r & -> & Hs & _ & Hd & N1 & N2 & N3 & N4 & _). cbn [app read_number].
      fold (dec_char c x). unfold dec_char. rewrite Hd. change (x =? ch "_") with (x =? 95). change (x =? ch ".") with (x =? 46).
      change (x =? ch "e") with (x =? 101). change (x =? ch "E") with (x =? 69).
      apply N.eqb_neq in N1, N2, N3, N4. rewrite N1, N2, N3, N4, Hj, Hs, andb_false_r. reflexivity. }
  induction m as [|x m IH]; intros hd e v pos number Hm Ht Hv.
  - cbn [app]. now apply Base.
  - cbn [app]. inversion Hm as [a Ha Ea|a b Hdot Ha Hb Ea].
    + subst a. cbn in Ha. apply andb_true_iff in Ha as [H1 H2]. cbn [read_number]. fold (dec_char c x). rewrite H1.
      destruct (IH hd e v (advance pos x) (number ++ [x])) as (s & R & Rs); [now apply man_plain|assumption|assumption|].
      exists s. rewrite R, <- app_assoc. auto.
    + destruct a as [|y a]; cbn [app] in Ea; injection Ea as Ex Em; subst x m.
      * cbn [read_number]. fold (dec_char c (ch ".")).
        assert (Hnd : dec_char c (ch ".") = false) by (unfold dec_char; cbn; apply andb_false_r). rewrite Hnd, N.eqb_refl.
        destruct hd; [discriminate|].
        destruct (IH true e v (advance pos (ch ".")) (number ++ [ch "."])) as (s & R & Rs); [now apply man_plain|assumption|assumption|].
        exists s. rewrite R, <- app_assoc. auto.
      * cbn in Ha. apply andb_true_iff in Ha as [H1 H2]. cbn [read_number]. fold (dec_char c y). rewrite H1.
        destruct (IH hd e v (advance pos y) (number ++ [y])) as (s & R & Rs); [now apply man_dot|assumption|assumption|].
        exists s. rewrite R, <- app_assoc. auto.
Qed.

Lemma finish_radix_ok start v pos number : (2 < List.length number)%nat ->
  finish_radix start v pos number = (num_ok start (mkSrc v pos) number, mkSrc v pos).
Proof. intros H. unfold finish_radix. destruct (Nat.eqb (List.length number) 2) eqn:E; [apply Nat.eqb_eq in E; lia|reflexivity]. Qed.

Lemma not_suffix_char x : letter x = false -> is_suffix_char x = false.
Proof.
  intros L. destruct (is_suffix_char x) eqn:Hs; [|reflexivity]. exfalso. unfold is_suffix_char, is_one_of in Hs. cbn in Hs.
  rewrite !orb_true_iff, !N.eqb_eq in Hs. repeat (destruct Hs as [Hs|Hs]; [subst; discriminate|]). discriminate.
Qed.
Lemma letter_false_neq x : letter x = false -> x <> 95 /\ x <> 112 /\ x <> 80 /\ x <> 120 /\ x <> 88 /\ x <> 98 /\ x <> 66.
Proof. intros L. repeat split; intros ->; discriminate. Qed.

Lemma read_hex_complete c start m : forall hd e v pos number, (2 <= List.length number)%nat ->
  mantissa (hex_char c) (negb hd && has_lua52 c) m -> num_tail c (str "pP") (has_lua52 c) e -> number_ends v ->
  (has_luajit c = true /\ jit_suffix e \/ (2 < List.length (number ++ m))%nat) ->
  exists s, read_hex_number c start (m ++ e ++ v) pos number hd = (num_ok start s (number ++ m ++ e), s) /\ s_rest s = v.
Proof.
  assert (Base : forall hd e v pos number, (2 <= List.length number)%nat -> num_tail c (str "pP") (has_lua52 c) e -> number_ends v ->
    (has_luajit c = true /\ jit_suffix e \/ (2 < List.length number)%nat) ->
    exists s, read_hex_number c start (e ++ v) pos number hd = (num_ok start s (number ++ e), s) /\ s_rest s = v).
  { intros hd e v pos number Hlen Ht Hv Hl. destruct Ht as [|k t Hok Hk E|t Hj J].
    - cbn [app]. rewrite app_nil_r. destruct Hl as [[_ Hl]|Hl]; [inversion Hl|].
      destruct v as [|x v].
      + cbn [read_hex_number]. rewrite finish_radix_ok by assumption. eexists. split; reflexivity.
      + apply number_ends_head in Hv as (L & D & Nd). cbn [read_hex_number].
        assert (Hh : is_hex_digit x = false).
        { rewrite hexdigit_is. unfold hexdigit. rewrite D. unfold letter, between in *. lia. }
        rewrite Hh. destruct (letter_false_neq x L) as (N1 & N2 & N3 & _). apply N.eqb_neq in N1, N2, N3, Nd.
        change (x =? ch "_") with (x =? 95). change (x =? ch ".") with (x =? 46). change (x =? ch "p") with (x =? 112). change (x =? ch "P") with (x =? 80).
        rewrite N1, N2, N3, Nd, (not_suffix_char x L). cbn [andb orb]. rewrite finish_radix_ok by assumption. eexists. split; reflexivity.
    - assert (Et : exists t', t = k :: t') by (destruct E; eauto). destruct Et as (t' & ->).
      destruct (exponent_read c start k t' v pos number E (number_ends_dec c v Hv)) as (s & R & Rs).
      exists s. split; [|exact Rs]. rewrite <- R. cbn [app read_hex_number]. destruct Hl as [[_ Hl]|Hl].
      { exfalso. apply jit_suffix_char in Hl as (x & r & E0 & _ & _ & _ & _ & _ & _ & _ & N1 & N2). injection E0 as <- _.
        destruct Hk as [<-|[<-|[]]]; first [now apply N1|now apply N2]. }
      assert (L2 : Nat.eqb (List.length number) 2 = false) by (apply Nat.eqb_neq; lia).
      destruct Hk as [<-|[<-|[]]]; cbn; rewrite Hok, L2; reflexivity.
    - destruct (suffix_read start t v pos number J) as (s & R & Rs). exists s. split; [|exact Rs]. rewrite <- R.
      apply jit_suffix_char in J as (x & r & -> & Hs & Hh & Hd & N1 & N2 & N3 & N4 & N5 & N6). cbn [app read_hex_number].
      rewrite Hh. change (x =? ch "_") with (x =? 95). change (x =? ch ".") with (x =? 46).
      change (x =? ch "p") with (x =? 112). change (x =? ch "P") with (x =? 80).
      apply N.eqb_neq in N1, N2, N5, N6. rewrite N1, N2, N5, N6, Hj, Hs. reflexivity. }
  assert (Hex : forall x rest pos number hd, hex_char c x = true ->
     read_hex_number c start (x :: rest) pos number hd = read_hex_number c start rest (advance pos x) (number ++ [x]) hd).
  { intros x rest pos number hd Hx. cbn [read_hex_number]. unfold hex_char in Hx. destruct (is_hex_digit x); [reflexivity|]. cbn in Hx.
    rewrite andb_comm in Hx. rewrite Hx. reflexivity. }
  induction m as [|x m IH]; intros hd e v pos number Hlen Hm Ht Hv Hl.
  - cbn [app] in *. rewrite app_nil_r in Hl. now apply Base.
  - cbn [app].
    assert (Hl' : has_luajit c = true /\ jit_suffix e \/ (2 < List.length ((number ++ [x]) ++ m))%nat).
    { right. rewrite !app_length. cbn. lia. }
    assert (Hlen' : (2 <= List.length (number ++ [x]))%nat) by (rewrite app_length; lia).
    inversion Hm as [a Ha Ea|a b Hdot Ha Hb Ea].
    + subst a. cbn in Ha. apply andb_true_iff in Ha as [H1 H2]. rewrite Hex by assumption.
      destruct (IH hd e v (advance pos x) (number ++ [x]) Hlen') as (s & R & Rs); [now apply man_plain|assumption|assumption|assumption|].
      exists s. rewrite R, <- app_assoc. auto.
    + destruct a as [|y a]; cbn [app] in Ea; injection Ea as Ex Em; subst x m.
      * apply andb_true_iff in Hdot as [Hd1 Hd2]. destruct hd; [discriminate|]. cbn [read_hex_number].
        change (is_hex_digit (ch ".")) with false. change (ch "." =? ch "_") with false. rewrite N.eqb_refl, Hd2. cbn [andb].
        destruct (IH true e v (advance pos (ch ".")) (number ++ [ch "."]) Hlen') as (s & R & Rs); [now apply man_plain|assumption|assumption|assumption|].
        exists s. rewrite R, <- app_assoc. auto.
      * cbn in Ha. apply andb_true_iff in Ha as [H1 H2]. rewrite Hex by assumption.
        destruct (IH hd e v (advance pos y) (number ++ [y]) Hlen') as (s & R & Rs); [now apply man_dot|assumption|assumption|assumption|].
        exists s. rewrite R, <- app_assoc. auto.
Qed.

Lemma read_binary_complete c start m : forall e v pos number, (2 <= List.length number)%nat ->
  forallb bin_char m = true -> num_tail c [] false e -> number_ends v ->
  (has_luajit c = true /\ jit_suffix e \/ (2 < List.length (number ++ m))%nat) ->
  exists s, read_binary_number c start (m ++ e ++ v) pos number = (num_ok start s (number ++ m ++ e), s) /\ s_rest s = v.
Proof.
  induction m as [|x m IH]; intros e v pos number Hlen Hm Ht Hv Hl.
  - cbn [app] in *. rewrite app_nil_r in Hl. destruct Ht as [|k t Hok Hk E|t Hj J].
    + cbn [app]. rewrite app_nil_r. destruct Hl as [[_ Hl]|Hl]; [inversion Hl|].
      destruct v as [|x v].
      * cbn [read_binary_number]. rewrite finish_radix_ok by assumption. eexists. split; reflexivity.
      * apply number_ends_head in Hv as (L & D & Nd). cbn [read_binary_number].
        destruct (letter_false_neq x L) as (N1 & _). assert (x <> 48 /\ x <> 49) as [N2 N3] by (split; intros ->; discriminate).
        apply N.eqb_neq in N1, N2, N3. change (x =? ch "_") with (x =? 95). change (x =? ch "0") with (x =? 48). change (x =? ch "1") with (x =? 49).
        rewrite N1, N2, N3, (not_suffix_char x L). cbn [andb orb]. rewrite finish_radix_ok by assumption. eexists. split; reflexivity.
    + destruct Hk.
    + destruct (suffix_read start t v pos number J) as (s & R & Rs). exists s. split; [|exact Rs]. rewrite <- R.
      apply jit_suffix_char in J as (x & r & -> & Hs & Hh & Hd & N1 & N2 & N3 & N4 & N5 & N6). cbn [app read_binary_number].
      assert (x <> 48 /\ x <> 49) as [N7 N8] by (split; intros ->; discriminate).
      change (x =? ch "_") with (x =? 95). change (x =? ch "0") with (x =? 48). change (x =? ch "1") with (x =? 49).
      apply N.eqb_neq in N1, N7, N8. rewrite N1, N7, N8, Hj, Hs. reflexivity.
  - cbn [app]. cbn in Hm. apply andb_true_iff in Hm as [H1 H2]. cbn [read_binary_number]. fold (bin_char x). rewrite H1.
    destruct (IH e v (advance pos x) (number ++ [x])) as (s & R & Rs); auto.
    + rewrite app_length. lia.
    + right. rewrite !app_length. cbn. lia.
    + exists s. rewrite R, <- app_assoc. auto.
Qed.

(** One step that reads exactly [w] and makes a token of type [tt]. *)
Definition reads (c : cfg) (w : text) (tt : token_type) : Prop :=
  forall l v, l_braces l = [] -> s_rest (l_src l) = w ++ v -> v = [] ->
  exists t l', process_next c l = Done (Some (LOk t), l') /\ t_type t = tt /\ s_rest (l_src l') = v /\ l_sent_eof l' = l_sent_eof l.

Ltac head_step E := unfold process_next, src_next; rewrite E;
  cbn -[read_number read_hex_number read_binary_number read_string_loop read_multi_line_body read_comment read_c_style_comment
        read_whitespace read_interpolated_string_section yield yield_symbol create create_recovered with_src on_char src_consume has_luau has_luajit has_lua52
        has_lua53 has_cfxlua].

Lemma mant_mantissa p q b w : (forall x, p x = q x) -> mant q b w -> mantissa p b w.
Proof.
  intros E [a H|a d Hb H1 H2].
  - apply man_plain. rewrite <- H. now apply forallb_ext_eq.
  - change (46 :: d) with (ch "." :: d). apply man_dot; [assumption| |]; [rewrite <- H1|rewrite <- H2]; now apply forallb_ext_eq.
Qed.
Lemma luajit_jit t : luajit_suffix t -> jit_suffix t.
Proof.
  intros [i [->| ->]|a b [->| ->] [->| ->]|u a b [->| ->] [->| ->] [->| ->]];
  (apply js_i; reflexivity) || (apply js_ll; reflexivity) || (apply js_ull; reflexivity).
Qed.
Lemma tail_num_tail c ms (ok : bool) (ms' : list char) e : (if ok then incl ms ms' else ms = []) -> tail c ms e -> num_tail c ms' ok e.
Proof.
  intros Hi [|t [m sign d ds Hm Hs Hd Hds]|t Hj Hs].
  - apply nt_none.
  - destruct ok; [|subst; destruct Hm]. apply nt_exp with m; [reflexivity|now apply Hi|].
    assert (Hds' : forallb (dec_char c) ds = true) by (rewrite <- Hds; apply forallb_ext_eq; reflexivity).
    destruct Hs as [->|[->| ->]]; cbn [app].
    + now apply exp_plain.
    + apply exp_signed; auto.
    + apply exp_signed; auto.
  - apply nt_suffix; [assumption|]. now apply luajit_jit.
Qed.

Lemma num_ok_create start s w : num_ok start s w = create s start (TNumber w).
Proof. reflexivity. Qed.

Lemma digit_cases d : digit d = true -> d = 48 \/ in_range 49 57 d = true /\ d <> 48.
Proof. unfold digit, between, in_range. intros H. destruct (N.eqb_spec d 48); [auto|right]. lia. Qed.

Lemma digit_not d : digit d = true -> is_identifier_start d = false /\ d <> 32 /\ d <> 9 /\ d <> 13.
Proof. intros H. rewrite letter_ident. unfold digit, letter, between in *. repeat split; try lia. Qed.

Lemma process_next_digit c l d r : s_rest (l_src l) = d :: r -> digit d = true ->
  (d = 48 -> forall x r', r = x :: r' -> x <> 120 /\ x <> 88 /\ ((has_luau c || has_luajit c) = true -> x <> 98 /\ x <> 66)) ->
  process_next c l = (let '(t, s) := read_number c (s_pos (l_src l)) r (advance (s_pos (l_src l)) d) [d] false in yield t (with_src l s)).
Proof.
  intros E Hd Hx. unfold process_next, src_next. rewrite E. cbn [s_rest s_pos].
  destruct (digit_not d Hd) as (H1 & H2 & H3 & H4). rewrite H1.
  change c_space with 32. change c_tab with 9. change c_cr with 13. apply N.eqb_neq in H2, H3, H4. rewrite H2, H3, H4. cbn [orb].
  destruct (digit_cases d Hd) as [->|[Hr Hn]].
  - change (48 =? ch "0") with true. cbn [s_rest s_pos]. destruct r as [|x r]; [reflexivity|].
    destruct (Hx eq_refl x r eq_refl) as (N1 & N2 & N3). change (ch "x") with 120. change (ch "X") with 88. change (ch "b") with 98. change (ch "B") with 66.
    apply N.eqb_neq in N1, N2. rewrite N1, N2. cbn [orb].
    destruct (has_luau c || has_luajit c) eqn:V; [|reflexivity]. destruct (N3 eq_refl) as [N4 N5]. apply N.eqb_neq in N4, N5. rewrite N4, N5. reflexivity.
  - change (ch "0") with 48. apply N.eqb_neq in Hn. rewrite Hn, Hr. reflexivity.
Qed.

Lemma mant_head P ok w x r : (forall y, P y = true -> digit y = true \/ y = 95) -> mant P ok w -> w = x :: r -> digit x = true \/ x = 95 \/ x = 46.
Proof.
  intros HP [a H|a b Ho H1 H2] E.
  - subst a. cbn in H. apply andb_true_iff in H as [H _]. apply HP in H. tauto.
  - destruct a as [|y a]; cbn in E; injection E as <- _; [auto|]. cbn in H1. apply andb_true_iff in H1 as [H _]. apply HP in H. tauto.
Qed.
Lemma digit_of_head c y : digit_of c y = true -> digit y = true \/ y = 95.
Proof. unfold digit_of. destruct (digit y); [auto|]. cbn. intros H. apply andb_true_iff in H as [_ H]. apply N.eqb_eq in H. auto. Qed.

Lemma second_not_radix c m e v x r : mant (digit_of c) true m -> tail c [101; 69] e -> number_ends v -> m ++ e ++ v = x :: r ->
  x <> 120 /\ x <> 88 /\ ((has_luau c || has_luajit c) = true -> x <> 98 /\ x <> 66).
Proof.
  intros Hm Ht Hv E. assert (K : digit x = true \/ x = 95 \/ x = 46 \/ In x [101; 69; 105; 73; 108; 76; 117; 85] \/ letter x = false).
  { destruct m as [|y m]; cbn [app] in E.
    - destruct Ht as [|t [k sign d ds Hk _ _ _]|t _ Hs]; cbn [app] in E.
      + subst v. apply number_ends_head in Hv. tauto.
      + injection E as <- _. cbn in Hk |- *. tauto.
      + destruct Hs as [i [->| ->]|a b [->| ->] _|u a b [->| ->] _ _]; cbn [app] in E; injection E as <- _; cbn; tauto.
    - injection E as <- _. eapply mant_head in Hm; [|apply digit_of_head|reflexivity]. tauto. }
  repeat split; intros ->; cbn in K; repeat (destruct K as [K|K]; try discriminate); try contradiction.
Qed.

Lemma number_step c l w v : loose_numeral c w -> number_ends v -> s_rest (l_src l) = w ++ v ->
  exists t l', process_next c l = Done (Some (LOk t), l') /\ t_type t = TNumber w /\ s_rest (l_src l') = v /\ l_sent_eof l' = l_sent_eof l.
Proof.
  intros [d m e Hd Hm Ht|d m e Hd Hm Ht|x m e Hx Hm Ht Hs|b m e Hv Hb Hm Ht Hs] Hf E; cbn [app] in E; rewrite <- ?app_assoc in E.
  - rewrite (process_next_digit c l d (m ++ e ++ v) E Hd); [|intros _ x r; now apply second_not_radix].
    destruct (read_number_complete c (s_pos (l_src l)) m false e v (advance (s_pos (l_src l)) d) [d]) as (s & R & Rs);
      [eapply mant_mantissa; [|exact Hm]; reflexivity|eapply tail_num_tail; [|exact Ht]; apply incl_refl|assumption|].
    rewrite R. do 2 eexists. split; [reflexivity|]. repeat split; assumption.
  - assert (P : process_next c l = (let '(t, s) := read_number c (s_pos (l_src l)) (d :: m ++ e ++ v) (advance (s_pos (l_src l)) (ch ".")) [ch "."] false in
      yield t (with_src l s))).
    { head_step E. unfold on_char, src_consume. cbn [s_rest s_pos]. assert (Hn : d =? ch "." = false) by (apply N.eqb_neq; intros ->; discriminate).
      rewrite Hn. change (is_digit d) with (digit d). rewrite Hd. reflexivity. }
    rewrite P. change (d :: m ++ e ++ v) with ((d :: m) ++ e ++ v).
    destruct (read_number_complete c (s_pos (l_src l)) (d :: m) false e v (advance (s_pos (l_src l)) (ch ".")) [ch "."]) as (s & R & Rs);
      [eapply mant_mantissa; [|exact Hm]; reflexivity|eapply tail_num_tail; [|exact Ht]; apply incl_refl|assumption|].
    rewrite R. do 2 eexists. split; [reflexivity|]. repeat split; assumption.
  - assert (P : process_next c l = (let '(t, s) := read_hex_number c (s_pos (l_src l)) (m ++ e ++ v) (advance (advance (s_pos (l_src l)) 48) x) [ch "0"; x] false in
      yield t (with_src l s))).
    { head_step E. destruct Hx as [->| ->]; reflexivity. }
    rewrite P.
    destruct (read_hex_complete c (s_pos (l_src l)) m false e v (advance (advance (s_pos (l_src l)) 48) x) [ch "0"; x]) as (s & R & Rs);
      [cbn; lia|cbn [negb andb]; eapply mant_mantissa; [|exact Hm]| |assumption| |].
    + intros y. unfold hex_char, hexdigit_of. now rewrite hexdigit_is.
    + eapply tail_num_tail; [|exact Ht]. destruct (has_lua52 c); [apply incl_refl|reflexivity].
    + destruct m as [|y m]; [left|right; cbn; lia]. destruct (Hs eq_refl). split; [assumption|]. now apply luajit_jit.
    + rewrite R. do 2 eexists. split; [reflexivity|]. repeat split; assumption.
  - assert (P : process_next c l = (let '(t, s) := read_binary_number c (s_pos (l_src l)) (m ++ e ++ v) (advance (advance (s_pos (l_src l)) 48) b) [ch "0"; b] in
      yield t (with_src l s))).
    { assert (Hv' : has_luau c || has_luajit c = true) by (destruct Hv as [-> | ->]; rewrite ?orb_true_r; reflexivity).
      head_step E. destruct Hb as [->| ->]; cbn; rewrite Hv'; reflexivity. }
    rewrite P.
    destruct (read_binary_complete c (s_pos (l_src l)) m e v (advance (advance (s_pos (l_src l)) 48) b) [ch "0"; b]) as (s & R & Rs);
      [cbn; lia|rewrite <- Hm; apply forallb_ext_eq; reflexivity| |assumption| |].
    + eapply tail_num_tail; [|exact Ht]. reflexivity.
    + destruct m as [|y m]; [left|right; cbn; lia]. destruct (Hs eq_refl). split; [assumption|]. now apply luajit_jit.
    + rewrite R. do 2 eexists. split; [reflexivity|]. repeat split; assumption.
Qed.

Lemma with_dot_mant P real ok m : with_dot P real ok m -> mant P ok m.
Proof. intros [a H _|a b Ho H1 H2 _]; [now apply mn_int|now apply mn_dot]. Qed.
Lemma with_dot_nonempty P real ok m : with_dot P real ok m -> m <> [].
Proof. intros [a H E|a b Ho H1 H2 E] Hn; [subst; discriminate|]. destruct a; discriminate. Qed.

Lemma numeral_is_loose c w : numeral c w -> loose_numeral c w.
Proof.
  intros [m e Hm (d & r & Hd & [->| ->]) Ht|x m e Hx Hm Ht|b m e Hv Hb Hm Hr Ht].
  - apply (ln_dec c d r e); [assumption| |assumption]. inversion Hm as [a H _ Ea|a b Ho H1 H2 _ Ea].
    + subst a. cbn in H. apply andb_true_iff in H as [_ H]. now apply mn_int.
    + destruct a as [|y a]; cbn [app] in Ea; injection Ea as E1 Er; subst; [discriminate|].
      cbn in H1. apply andb_true_iff in H1 as [_ H1]. now apply mn_dot.
  - apply (ln_dot c d r e); [assumption| |assumption]. inversion Hm as [a H _ Ea|a b Ho H1 H2 _ Ea].
    + subst a. cbn in H. apply andb_true_iff in H as [H _]. now apply digit_of_not_dot in H.
    + destruct a as [|y a]; cbn [app] in Ea.
      * injection Ea as Eb. subst b. now apply mn_int.
      * injection Ea as E1 _; subst. cbn in H1. apply andb_true_iff in H1 as [H1 _]. now apply digit_of_not_dot in H1.
  - apply ln_hex; [assumption|eapply with_dot_mant; eassumption|assumption|]. intros ->. now apply with_dot_nonempty in Hm.
  - apply ln_bin; try assumption. intros ->. discriminate.
Qed.

Lemma numerals_accepted c l w v : numeral c w -> number_ends v -> s_rest (l_src l) = w ++ v ->
  exists t l', process_next c l = Done (Some (LOk t), l') /\ t_type t = TNumber w /\ s_rest (l_src l') = v.
Proof.
  intros H1 H2 H3. destruct (number_step c l w v (numeral_is_loose _ _ H1) H2 H3) as (t & l' & A & B & C & _). eauto.
Qed.
