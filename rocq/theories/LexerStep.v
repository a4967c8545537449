(** One step of the lexer: what a produced token prints and where it is. Proof file. *)
From Verif Require Import Lexer LexerFacts LexerFacts2 LexerCases.
From Coq Require Import Lia ZifyBool ZifyNat ZifyN.
Local Open Scope N_scope.
Arguments ch a : simpl never.
Arguments advance p c : simpl never.

Lemma text_eqb_eq a : forall b, text_eqb a b = true <-> a = b.
Proof.
  induction a as [|x a IH]; intros [|y b]; cbn; split; intros H; try discriminate; auto.
  - apply andb_true_iff in H as [H1 H2]. apply N.eqb_eq in H1. apply IH in H2. congruence.
  - injection H as -> ->. rewrite N.eqb_refl. now apply IH.
Qed.

Lemma sym_from_str_text c w sy : sym_from_str c w = Some sy -> sym_text sy = w /\ sym_enabled c sy = true.
Proof.
  unfold sym_from_str. destruct (find _ _) as [s|] eqn:F; [|discriminate].
  destruct (sym_enabled c s) eqn:E; [|discriminate]. intros [= <-].
  apply find_some in F as [_ F]. apply text_eqb_eq in F. auto.
Qed.

Lemma sym_text_nonempty sy : sym_text sy <> [].
Proof. destruct sy; discriminate. Qed.

Lemma sym_text_inj a b : sym_text a = sym_text b -> a = b.
Proof.
  intros H.
  assert (F : forall s, find (fun x => text_eqb (sym_text x) (sym_text s)) all_symbols = Some s)
    by (intros []; vm_compute; reflexivity).
  pose proof (F a) as Fa. rewrite H, F in Fa. congruence.
Qed.

Lemma sym_from_str_complete c sy : sym_enabled c sy = true -> sym_from_str c (sym_text sy) = Some sy.
Proof.
  intros H. unfold sym_from_str.
  assert (F : find (fun x => text_eqb (sym_text x) (sym_text sy)) all_symbols = Some sy) by (destruct sy; vm_compute; reflexivity).
  now rewrite F, H.
Qed.

Lemma sym_from_str_none c w : sym_from_str c w = None -> forall sy, sym_enabled c sy = true -> sym_text sy <> w.
Proof. intros H sy E <-. rewrite sym_from_str_complete in H; [discriminate|assumption]. Qed.

Lemma sym_from_str_disabled c sy : sym_enabled c sy = false -> sym_from_str c (sym_text sy) = None.
Proof.
  intros H. destruct (sym_from_str c (sym_text sy)) as [s|] eqn:E; [|reflexivity].
  apply sym_from_str_text in E as [E1 E2]. apply sym_text_inj in E1. congruence.
Qed.

Lemma ends_nl_app a b : b <> [] -> ends_nl (a ++ b) = ends_nl b.
Proof.
  intros H. unfold ends_nl. rewrite rev_app_distr. destruct (rev b) eqn:E.
  - apply (f_equal (@rev _)) in E. rewrite rev_involutive in E. now destruct b.
  - reflexivity.
Qed.

Lemma ends_nl_cons a b : b <> [] -> ends_nl (a :: b) = ends_nl b.
Proof. intros H. now apply (ends_nl_app [a]). Qed.

Lemma ends_nl_forallb P t : (forall x, P x = true -> x <> c_nl) -> forallb P t = true -> ends_nl t = false.
Proof.
  intros HP H. destruct t as [|x t] using rev_ind; [reflexivity|].
  rewrite ends_nl_snoc. rewrite forallb_app in H. apply andb_true_iff in H as [_ H]. cbn in H.
  rewrite andb_true_r in H. apply HP in H. now apply N.eqb_neq.
Qed.

Lemma word_char_not_nl x : word_char x = true -> x <> c_nl.
Proof. intros H ->. discriminate. Qed.

(** Number tokens contain no newline. *)
Lemma dec_char_not_nl c x : dec_char c x = true -> x <> c_nl.
Proof. intros H ->. unfold dec_char in H. change (c_nl =? ch "_") with false in H. now rewrite andb_false_r in H. Qed.
Lemma hex_char_not_nl c x : hex_char c x = true -> x <> c_nl.
Proof. intros H ->. unfold hex_char in H. change (c_nl =? ch "_") with false in H. now rewrite andb_false_r in H. Qed.
Lemma bin_char_not_nl x : bin_char x = true -> x <> c_nl.
Proof. intros H ->. discriminate. Qed.

Definition not_nl (x : char) : bool := negb (x =? c_nl).

Lemma forallb_impl (P Q : char -> bool) t : (forall x, P x = true -> Q x = true) -> forallb P t = true -> forallb Q t = true.
Proof. intros H F. rewrite forallb_forall in *. auto. Qed.

Lemma not_nl_of (P : char -> bool) : (forall x, P x = true -> x <> c_nl) -> forall x, P x = true -> not_nl x = true.
Proof. intros H x Hx. unfold not_nl. apply H in Hx. apply N.eqb_neq in Hx. now rewrite Hx. Qed.

Lemma mantissa_not_nl P d m : (forall x, P x = true -> x <> c_nl) -> mantissa P d m -> forallb not_nl m = true.
Proof.
  intros HP H. destruct H as [a H|a b _ Ha Hb].
  - eapply forallb_impl; [apply not_nl_of; exact HP|eassumption].
  - rewrite forallb_app. cbn [forallb]. rewrite (forallb_impl P not_nl a), (forallb_impl P not_nl b) by (try assumption; now apply not_nl_of). reflexivity.
Qed.

Lemma exponent_not_nl c m t : m <> c_nl -> exponent c m t -> forallb not_nl t = true.
Proof.
  intros Hm H.
  assert (Hm' : not_nl m = true) by (unfold not_nl; apply N.eqb_neq in Hm; now rewrite Hm).
  assert (D : forall d, is_digit d = true -> not_nl d = true).
  { intros d Hd. eapply (not_nl_of (dec_char c)); [apply dec_char_not_nl|]. unfold dec_char. now rewrite Hd. }
  assert (Ds : forall ds, forallb (dec_char c) ds = true -> forallb not_nl ds = true).
  { intros ds. apply forallb_impl. apply not_nl_of. apply dec_char_not_nl. }
  destruct H as [d ds Hd Hds|sg d ds Hs Hd Hds]; cbn [forallb].
  - now rewrite Hm', (D _ Hd), (Ds _ Hds).
  - rewrite Hm', (D _ Hd), (Ds _ Hds). destruct Hs; subst sg; reflexivity.
Qed.

Lemma jit_suffix_not_nl t : jit_suffix t -> forallb not_nl t = true.
Proof.
  assert (L : forall P, P c_nl = false -> forall x, P x = true -> not_nl x = true).
  { intros P HP x Hx. unfold not_nl. destruct (x =? c_nl) eqn:E; [|reflexivity]. apply N.eqb_eq in E; subst. congruence. }
  intros [i Hi|a b Ha Hb|u a b Hu Ha Hb]; cbn [forallb];
    repeat match goal with
    | H : is_ii _ = true |- _ => apply (L is_ii eq_refl) in H; rewrite H; clear H
    | H : is_ll _ = true |- _ => apply (L is_ll eq_refl) in H; rewrite H; clear H
    | H : is_ul _ = true |- _ => apply (L is_ul eq_refl) in H; rewrite H; clear H
    end; reflexivity.
Qed.

Lemma num_tail_not_nl c ms ok t : ~ In c_nl ms -> num_tail c ms ok t -> forallb not_nl t = true.
Proof.
  intros Hm [|m e _ Hi He|e _ He]; [reflexivity| |now apply jit_suffix_not_nl].
  apply (exponent_not_nl c m); [|assumption]. intros ->. contradiction.
Qed.

Lemma not_nl_ends t : forallb not_nl t = true -> ends_nl t = false.
Proof.
  apply ends_nl_forallb. unfold not_nl. intros x H ->. discriminate.
Qed.

Lemma marks_e : ~ In c_nl (str "eE").
Proof. cbn; intros [?|[?|[]]]; discriminate. Qed.
Lemma marks_p : ~ In c_nl (str "pP").
Proof. cbn; intros [?|[?|[]]]; discriminate. Qed.

(** Everything [process_next] says about a token it accepts. *)
Definition good_step (l : lexer) (t : token) (l' : lexer) : Prop :=
  moved (l_src l) (show_token t) (l_src l') /\
  t_start t = s_pos (l_src l) /\
  t_end t = end_pos (s_pos (l_src l)) (show_token t) /\
  ((t_type t = TEof /\ s_rest (l_src l) = [] /\ l_sent_eof l = false /\ l_sent_eof l' = true) \/
   (t_type t <> TEof /\ show_token t <> [] /\ l_sent_eof l' = l_sent_eof l)).

Lemma good_step_mk l tt s l' txt :
  moved (l_src l) txt s -> show_type tt = txt -> tt <> TEof -> txt <> [] -> ends_nl txt = false ->
  l_src l' = s -> l_sent_eof l' = l_sent_eof l ->
  good_step l (mkToken (s_pos (l_src l)) (s_pos s) tt) l'.
Proof.
  intros M <- Ht Hn He <- Hs. unfold good_step, show_token. cbn [t_start t_end t_type].
  split; [assumption|]. split; [reflexivity|]. split; [|right; auto].
  rewrite end_pos_no_nl by assumption. apply M.
Qed.

Lemma recovered_ok s start tt rec e t :
  create_recovered s start tt (recovered_errs rec e start s) = LOk t -> rec = false /\ t = mkToken start (s_pos s) tt.
Proof. unfold create_recovered, recovered_errs, lexres_new. destruct rec; [discriminate|]. now intros [= <-]. Qed.

Lemma show_string_literal lit q qt c :
  string_quote_type c q = Some qt -> show_type (TStringLiteral lit 0 qt) = q :: lit ++ [q].
Proof.
  unfold string_quote_type. intros H.
  destruct (q =? c_dquote) eqn:E1. { apply N.eqb_eq in E1; subst. injection H as <-. reflexivity. }
  destruct (q =? c_squote) eqn:E2. { apply N.eqb_eq in E2; subst. injection H as <-. reflexivity. }
  destruct (f_cfxlua _ && _) eqn:E3; [|discriminate]. apply andb_true_iff in E3 as [_ E3]. apply N.eqb_eq in E3; subst.
  injection H as <-. reflexivity.
Qed.

Lemma quote_not_special c q qt : string_quote_type c q = Some qt -> q <> c_backslash /\ q <> c_nl /\ q <> c_cr.
Proof.
  unfold string_quote_type. intros H.
  destruct (q =? c_dquote) eqn:E1. { apply N.eqb_eq in E1; subst. repeat split; discriminate. }
  destruct (q =? c_squote) eqn:E2. { apply N.eqb_eq in E2; subst. repeat split; discriminate. }
  destruct (f_cfxlua _ && _) eqn:E3; [|discriminate]. apply andb_true_iff in E3 as [_ E3]. apply N.eqb_eq in E3; subst.
  repeat split; discriminate.
Qed.

Lemma is_op_ends_nl sy : ends_nl (sym_text sy) = false.
Proof. destruct sy; reflexivity. Qed.

Lemma rest_moved l x r : s_rest (l_src l) = x :: r -> moved (l_src l) [x] (mkSrc r (advance (s_pos (l_src l)) x)).
Proof. intros H. split; [exact H|reflexivity]. Qed.

Lemma rest_moved2 l x y r : s_rest (l_src l) = x :: y :: r ->
  moved (l_src l) [x; y] (mkSrc r (advance (advance (s_pos (l_src l)) x) y)).
Proof. intros H. split; [exact H|reflexivity]. Qed.

Lemma show_multi_comment n b : show_type (TMultiLineComment n b) = [ch "-"; ch "-"] ++ long_open n ++ b ++ closer n.
Proof.
  unfold show_type, long_open, closer. change (str "--[") with [ch "-"; ch "-"; ch "["].
  change (str "[") with [ch "["]. change (str "]") with [ch "]"]. cbn [app]. now rewrite <- !app_assoc.
Qed.

Lemma show_long_string n b : show_type (TStringLiteral b n QBrackets) = [ch "["] ++ repeat_eq n ++ ch "[" :: b ++ closer n.
Proof.
  unfold show_type, closer. change (str "[") with [ch "["]. change (str "]") with [ch "]"]. reflexivity.
Qed.

Lemma ends_nl_closer a n : ends_nl (a ++ closer n) = false.
Proof. rewrite ends_nl_app by discriminate. unfold closer. rewrite app_comm_cons, ends_nl_snoc. reflexivity. Qed.

Lemma process_next_ok c l t l' :
  process_next c l = Done (Some (LOk t), l') -> good_step l t l'.
Proof.
  intros H. pose proof (process_next_cases c l) as HC. rewrite H in HC. cbn [next_ok] in HC.
  remember (Some (LOk t)) as o eqn:Ho.
  destruct HC as [ | He Hs | next w s Hid M F Hd | next w s Hn M T Z | s M | d r res s HR Hx R | d r res s HR Hx Hv R
    | d r res s HR Hx Hv R | d r res s HR Hx R | r res l1 HR Hv R | r bs res l1 HR Hv Hb R
    | q r qt lit rec s HR Hq Hv R | r n b s HR R | r n b s HR R | r tt rec s HR R | r tt rec s HR Hv R
    | sy s Hop M HL HE _ _ _ _ _ | d s e M He HN ]; try discriminate.
  - (* eof *) injection Ho as <-. split; [apply moved_nil|]. split; [reflexivity|]. split; [reflexivity|]. left. auto.
  - (* word *) injection Ho as <-.
    eapply good_step_mk; [eassumption| | | | |reflexivity|reflexivity].
    + destruct (sym_from_str c (next :: w)) as [sy|] eqn:E; [|reflexivity]. now apply sym_from_str_text in E as [E _].
    + destruct (sym_from_str c (next :: w)); discriminate.
    + discriminate.
    + apply (ends_nl_forallb word_char); [exact word_char_not_nl|]. cbn [forallb]. rewrite F. unfold word_char. now rewrite Hid.
  - (* ws *) injection Ho as <-. split; [assumption|]. split; [reflexivity|]. split; [reflexivity|]. right. repeat split; discriminate.
  - (* nl *) injection Ho as <-. split; [assumption|]. split; [reflexivity|]. split; [reflexivity|]. right. repeat split; discriminate.
  - (* hex *) injection Ho as ->. apply read_hex_number_spec in R as (u & M & [[E (m & e & -> & Hm & He & _)]|E]); [|discriminate E|cbn; lia].
    injection E as ->.
    assert (M' := moved_app _ _ _ _ _ (rest_moved2 _ _ _ _ HR) M).
    eapply good_step_mk; [exact M'|reflexivity|discriminate|discriminate| |reflexivity|reflexivity].
    apply not_nl_ends. rewrite !forallb_app, (mantissa_not_nl _ _ _ (hex_char_not_nl c) Hm).
    rewrite (num_tail_not_nl _ _ _ _ marks_p He). cbn [forallb app]. destruct Hx; subst d; reflexivity.
  - (* bin *) injection Ho as ->. apply read_binary_number_spec in R as (u & M & [[E (m & e & -> & Hm & He & _)]|E]); [|discriminate E|cbn; lia].
    injection E as ->.
    assert (M' := moved_app _ _ _ _ _ (rest_moved2 _ _ _ _ HR) M).
    eapply good_step_mk; [exact M'|reflexivity|discriminate|discriminate| |reflexivity|reflexivity].
    apply not_nl_ends. rewrite !forallb_app, (forallb_impl _ _ _ (not_nl_of _ bin_char_not_nl) Hm).
    rewrite (num_tail_not_nl _ _ _ _ (in_nil (a:=c_nl)) He). cbn [forallb app]. destruct Hx; subst d; reflexivity.
  - (* dec *) injection Ho as ->. apply read_number_spec in R as (u & M & [[E (m & e & -> & Hm & He)]|E]); [|discriminate E].
    injection E as ->.
    assert (M' := moved_app _ _ _ _ _ (rest_moved _ _ _ HR) M).
    eapply good_step_mk; [exact M'|reflexivity|discriminate|discriminate| |reflexivity|reflexivity].
    apply not_nl_ends. rewrite !forallb_app, (mantissa_not_nl _ _ _ (dec_char_not_nl c) Hm).
    rewrite (num_tail_not_nl _ _ _ _ marks_e He).
    cbn [forallb app]. rewrite !andb_true_r. apply (not_nl_of (dec_char c) (dec_char_not_nl c)). unfold dec_char. now rewrite Hx.
  - (* dot *) injection Ho as ->. apply read_number_spec in R as (u & M & [[E (m & e & -> & Hm & He)]|E]); [|discriminate E].
    injection E as ->.
    assert (M' := moved_app _ _ _ _ _ (rest_moved _ _ _ HR) M).
    eapply good_step_mk; [exact M'|reflexivity|discriminate|discriminate| |reflexivity|reflexivity].
    apply not_nl_ends. rewrite !forallb_app, (mantissa_not_nl _ _ _ (dec_char_not_nl c) Hm).
    rewrite (num_tail_not_nl _ _ _ _ marks_e He). reflexivity.
  - (* istr begin *) injection Ho as ->. unfold read_interpolated_string_section in R. cbn [l_src with_src s_rest s_pos] in R.
    destruct (read_istr _ _ _ _ _ _) as [[w e] s] eqn:RR. apply read_istr_spec in RR as (u & -> & M).
    destruct e as [[]|]; [| |discriminate R]; injection R as <- <-.
    + assert (M' := moved_app _ _ _ _ _ (rest_moved _ _ _ HR) M).
      eapply good_step_mk; [exact M'|reflexivity|discriminate|discriminate| |reflexivity|reflexivity].
      rewrite app_assoc, ends_nl_snoc. reflexivity.
    + assert (M' := moved_app _ _ _ _ _ (rest_moved _ _ _ HR) M).
      eapply good_step_mk; [exact M'|reflexivity|discriminate|discriminate| |reflexivity|reflexivity].
      rewrite app_assoc, ends_nl_snoc. reflexivity.
  - (* istr middle *) injection Ho as ->. unfold read_interpolated_string_section in R. cbn [l_src with_src s_rest s_pos l_sent_eof] in R.
    destruct (read_istr _ _ _ _ _ _) as [[w e] s] eqn:RR. apply read_istr_spec in RR as (u & -> & M).
    destruct e as [[]|]; [| |discriminate R]; injection R as <- <-.
    + assert (M' := moved_app _ _ _ _ _ (rest_moved _ _ _ HR) M).
      eapply good_step_mk; [exact M'|reflexivity|discriminate|discriminate| |reflexivity|reflexivity].
      rewrite app_assoc, ends_nl_snoc. reflexivity.
    + assert (M' := moved_app _ _ _ _ _ (rest_moved _ _ _ HR) M).
      eapply good_step_mk; [exact M'|reflexivity|discriminate|discriminate| |reflexivity|reflexivity].
      rewrite app_assoc, ends_nl_snoc. reflexivity.
  - (* quoted *) injection Ho as Ho. apply recovered_ok in Ho as [-> ->].
    destruct (quote_not_special _ _ _ Hq) as (Q1 & Q2 & Q3).
    apply read_string_loop_spec in R as (u & -> & M & _ & _); auto.
    assert (M' := moved_app _ _ _ _ _ (rest_moved _ _ _ HR) M).
    eapply good_step_mk; [exact M'|cbn [app]; now apply (show_string_literal u q qt c)|discriminate|discriminate| |reflexivity|reflexivity].
    rewrite app_assoc, ends_nl_snoc. now apply N.eqb_neq.
  - (* long ok *) injection Ho as <-. apply read_multi_line_body_spec in R as (m & -> & full & E & F & M).
    assert (M' := moved_app _ _ _ _ _ (rest_moved _ _ _ HR) M).
    eapply good_step_mk; [exact M'|apply show_long_string|discriminate|discriminate| |reflexivity|reflexivity].
    replace ([ch "["] ++ repeat_eq m ++ ch "[" :: b ++ closer m) with (([ch "["] ++ repeat_eq m ++ ch "[" :: b) ++ closer m)
      by (rewrite <- !app_assoc; reflexivity). apply ends_nl_closer.
  - (* comment *) injection Ho as Ho. apply recovered_ok in Ho as [-> ->].
    apply read_comment_spec in R as [(n & b & full & -> & _ & E & F & M)|[(n & b & _ & E & _)|(u & -> & _ & M & NL & F & Hd)]]; [|discriminate E|].
    + assert (M' := moved_app _ _ _ _ _ (rest_moved2 _ _ _ _ HR) M).
      eapply good_step_mk; [exact M'|apply show_multi_comment|discriminate|discriminate| |reflexivity|reflexivity].
      rewrite !app_assoc. apply ends_nl_closer.
    + assert (M' := moved_app _ _ _ _ _ (rest_moved2 _ _ _ _ HR) M).
      eapply good_step_mk; [exact M'|reflexivity|discriminate|discriminate| |reflexivity|reflexivity].
      apply not_nl_ends. rewrite forallb_app. change (true && forallb not_nl u = true). exact F.
  - (* c comment *) injection Ho as Ho. apply recovered_ok in Ho as [-> ->].
    apply read_c_style_comment_spec in R as [(b & -> & _ & M & _)|(_ & E & _)]; [|discriminate E].
    assert (M' := moved_app _ _ _ _ _ (rest_moved2 _ _ _ _ HR) M).
    eapply good_step_mk; [exact M'|reflexivity|discriminate|discriminate| |reflexivity|reflexivity].
    rewrite !app_assoc, ends_nl_app by discriminate. reflexivity.
  - (* symbol *) injection Ho as <-.
    eapply good_step_mk; [exact M|reflexivity|discriminate|apply sym_text_nonempty|apply is_op_ends_nl|reflexivity|reflexivity].
Qed.
