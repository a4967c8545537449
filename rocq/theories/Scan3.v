(** One step of the lexer follows the lexical grammar (C52). Proof file. *)
From Verif Require Import Lexer LexerFacts LexerFacts2 LexerCases LexerStep LexerStream LexerSpec LexerProofs LexerTheorems LexerTheorems2 LexerTheorems3 TokenSpec TokenProofs TokenTheorems StringProofs StringProofs2 Relex Relex2.
From Verif Require Export Scan2.
From Coq Require Import Lia ZifyBool ZifyNat ZifyN.
Local Open Scope N_scope.
Arguments ch a : simpl never.
Arguments advance p c : simpl never.

Lemma blank_is x : is_blank x = (x =? 32) || (x =? 9).
Proof. reflexivity. Qed.
Lemma ws_more_is v : ws_more v = false <-> not_continued (fun y => (y =? 32) || (y =? 9)) v /\ (forall e r, line_end e -> v <> e ++ r).
Proof.
  split.
  - intros H. split.
    + intros x r ->. cbn in H. apply orb_false_iff in H as [H _]. apply orb_false_iff in H as [H _]. exact H.
    + intros e r [->| ->] ->; cbn in H; discriminate.
  - intros [H1 H2]. destruct v as [|x v]; [reflexivity|]. cbn [ws_more]. rewrite blank_is, (H1 x v eq_refl). cbn [orb].
    destruct (x =? c_nl) eqn:E. { apply N.eqb_eq in E. subst x. destruct (H2 [10] v (or_introl eq_refl) eq_refl). }
    cbn [orb]. destruct (x =? c_cr) eqn:E2; [|reflexivity]. apply N.eqb_eq in E2. subst x. cbn. destruct v as [|y v]; [reflexivity|].
    destruct (y =? c_nl) eqn:E3; [|reflexivity]. apply N.eqb_eq in E3. subst y. destruct (H2 [13; 10] v (or_intror eq_refl) eq_refl).
Qed.
Lemma ends_blank b : forallb is_blank b = true -> ends_nl b = false.
Proof.
  intros H. destruct b as [|x b] using rev_ind; [reflexivity|]. rewrite ends_nl_snoc. rewrite forallb_app in H. apply andb_true_iff in H as [_ H]. cbn in H.
  rewrite andb_true_r in H. rewrite blank_is in H. apply orb_true_iff in H as [H|H]; apply N.eqb_eq in H; subst; reflexivity.
Qed.
Lemma space_sound x t v : x = c_space \/ x = c_tab \/ x = c_cr -> ws_tail t -> (ends_nl t = false -> ws_more v = false) -> space_then (x :: t) v.
Proof.
  intros Hx [b H|b H|b H] Z.
  - specialize (Z (ends_blank b H)). apply ws_more_is in Z as [Z1 Z2]. now apply sp_blanks.
  - apply (sp_line x b [10]); [assumption|exact H|now left].
  - apply (sp_line x b [13; 10]); [assumption|exact H|now right].
Qed.

Lemma dot_mant c d r m e v : digit d = true -> d :: r = m ++ e ++ v -> tail_then c [101; 69] (dec_more c) e v -> exists m', m = d :: m'.
Proof.
  intros Hd E T. destruct m as [|y m]; [|cbn in E; injection E as -> _; eauto]. exfalso. cbn [app] in E.
  destruct T as [u N|e u P _|e u J S].
  - cbn in E. subst u. apply continued_false in N. unfold dec_more, digit_of in N. rewrite Hd in N. discriminate.
  - destruct P as [m0 sg d0 ds I _ _ _]. cbn [app] in E. injection E as <- _. cbn in I. destruct I as [<-|[<-|[]]]; discriminate.
  - destruct S as [i I|a b I _|a b b' I _ _]; cbn [app] in E; injection E as <- _; destruct I as [->| ->]; discriminate.
Qed.

Lemma braces_turns c l sy : (has_luau c = false -> l_braces l = []) ->
  (sy = SRightBrace -> has_luau c = true -> forall bs, l_braces l <> BInterpolated :: bs) ->
  turns c (stack l) (TSymbol sy) (map conv (braces_after c sy (l_braces l))).
Proof.
  intros H0 HB. unfold stack, braces_after. 
  assert (O : sy <> SLeftBrace -> sy <> SRightBrace -> turns c (map conv (l_braces l)) (TSymbol sy) (map conv (l_braces l))).
  { intros N1 N2. apply tu_other; try congruence. }
  destruct (has_luau c) eqn:HL.
  - destruct sy; try (apply O; discriminate).
    + pose proof (tu_open c (map conv (l_braces l))) as T. rewrite HL in T. exact T.
    + specialize (HB eq_refl eq_refl). destruct (l_braces l) as [|[] bs]; [apply tu_stray|exfalso; now apply (HB bs)|apply tu_close].
  - rewrite (H0 eq_refl) in *. destruct sy; try (apply O; discriminate).
    + pose proof (tu_open c []) as T. rewrite HL in T. exact T.
    + apply tu_stray.
Qed.

Lemma operator_sound c sy u v : is_op sy = true -> cfx53 c -> u = sym_text sy ++ v -> longest c u sy -> (cfx53 c -> sym_enabled c sy = true) ->
  (sy = SLeftBracket -> no_long_open u) -> (sy = SDot -> forall d r, v = d :: r -> is_digit d = false) -> (sy = SMinus -> forall r, v <> ch "-" :: r) ->
  (sy = SSlash -> has_cfxlua c = true -> forall r, v <> ch "*" :: r) -> operator_then c (sym_text sy) v.
Proof.
  intros Ho Hc E L HE H1 H2 H3 H4. subst u. split; [|split; [|split; [|split; [|split]]]].
  - apply (proj1 (sym_table c sy) Ho). auto.
  - intros o v' I Q. apply operator_sym in I as (sy' & <- & En & _). apply (L sy' v' En Q).
  - intros r Q. destruct sy; cbn in Q; try discriminate Q; injection Q as Q; try discriminate Q. apply (H3 eq_refl r Q).
  - intros HC r Q. destruct sy; cbn in Q; try discriminate Q; injection Q as Q; try discriminate Q. apply (H4 eq_refl HC r Q).
  - intros n r Q. destruct sy; cbn in Q; try discriminate Q. apply (H1 eq_refl n r). exact Q.
  - intros d r Hd Q. destruct sy; cbn in Q; try discriminate Q; try (injection Q as Q; subst; discriminate Hd).
    + injection Q as Q. specialize (H2 eq_refl d r Q). change (is_digit d) with (digit d) in H2. congruence.
Qed.

Definition steps_in (c : cfg) (l : lexer) (tt : token_type) (l' : lexer) : Prop :=
  s_rest (l_src l) = spelling tt ++ s_rest (l_src l') /\ token_then c tt (s_rest (l_src l')) /\ turns c (stack l) tt (stack l') /\ l_sent_eof l' = l_sent_eof l.

Lemma section_sound c l1 p k k2 t l2 x r bs : has_luau c = true ->
  s_rest (l_src l1) = r -> l_braces l1 = bs -> read_interpolated_string_section l1 p k k2 = (LOk t, l2) ->
  (k = IBegin /\ k2 = ISimple \/ k = IMiddle /\ k2 = IEnd) -> x = begins k ->
  exists w, (t_type t = TInterpolatedString w k /\ l_braces l2 = BInterpolated :: bs \/ t_type t = TInterpolatedString w k2 /\ l_braces l2 = bs) /\
    x :: r = spelling (t_type t) ++ s_rest (l_src l2) /\ token_then c (t_type t) (s_rest (l_src l2)) /\ l_sent_eof l2 = l_sent_eof l1.
Proof.
  intros HL Hr Hb H K ->. unfold read_interpolated_string_section in H. destruct (read_istr _ _ _ _ _ _) as [[w [b|]] s] eqn:R; [|discriminate].
  apply (istr_sound (List.length (s_rest (l_src l1)))) in R as (t0 & -> & E & S); [|lia|discriminate]. cbn [app sect] in *. rewrite Hr in E.
  destruct b; injection H as <- <-; exists t0; cbn [t_type l_braces l_src l_sent_eof with_src].
  - split; [left; split; [reflexivity|now rewrite Hb]|]. split; [|split; [|reflexivity]].
    + cbn [spelling app]. rewrite E, <- app_assoc. f_equal. f_equal. destruct K as [[-> _]|[-> _]]; reflexivity.
    + apply to_section; [assumption|]. destruct K as [[-> _]|[-> _]]; exact S.
  - split; [right; split; [reflexivity|exact Hb]|]. split; [|split; [|reflexivity]].
    + cbn [spelling app]. rewrite E, <- app_assoc. destruct K as [[-> ->]|[-> ->]]; reflexivity.
    + apply to_section; [assumption|]. destruct K as [[_ ->]|[_ ->]]; exact S.
Qed.

Ltac plain_turns := apply tu_other; intros; discriminate.
Lemma step_sound c l t l' : cfx53 c -> (has_luau c = false -> l_braces l = []) -> process_next c l = Done (Some (LOk t), l') ->
  (s_rest (l_src l) = [] /\ t_type t = TEof) \/ steps_in c l (t_type t) l'.
Proof.
  intros HC HB0 H. pose proof (process_next_cases c l) as HN. rewrite H in HN. cbn [next_ok] in HN. clear H. unfold steps_in.
  remember (Some (LOk t)) as o eqn:Ho.
  destruct HN as [ | He Hs | next w0 s Hid M F Hd | next w0 s Hn M T Z | s M | d r0 res s HR Hx R0 | d r0 res s HR Hx Hv R0
    | d r0 res s HR Hx Hv R0 | d r0 res s HR Hx R0 | r0 res l1 HR Hv R0 | r0 bs res l1 HR Hv Hb R0
    | q r0 qt lit rec s HR Hq Hv R0 | r0 n b s HR R0 | r0 n b s HR R0 | r0 tt rec s HR R0 | r0 tt rec s HR Hv R0
    | sy s Hop M HL HE H1 H2 H3 H4 H5 | d s e M He HN ]; try discriminate; injection Ho as Ho; try (subst t; cbn [t_type l_src with_src]).
  - left. split; [assumption|reflexivity].
  - right. assert (W : is_word (next :: w0)).
    { exists next, w0. split; [reflexivity|]. rewrite <- letter_ident. split; [assumption|]. rewrite <- F. apply forallb_ext_eq. intros x. now rewrite word_part_is. }
    destruct M as [M _]. apply head_not_word in Hd. destruct (sym_from_str c (next :: w0)) as [sy|] eqn:E.
    + destruct (word_not_brace _ _ _ _ Hid E) as [N1 N2]. unfold sym_from_str in E. destruct (find _ all_symbols) as [sy0|] eqn:Ef; [|discriminate].
      destruct (sym_enabled c sy0) eqn:En; [|discriminate]. injection E as <-. apply find_some in Ef as [_ Ef]. apply text_eqb_eq in Ef.
      split; [cbn [spelling]; now rewrite Ef|]. split; [|split; [apply tu_other; congruence|reflexivity]].
      apply to_keyword; [|assumption]. apply (proj2 (sym_table c sy0)); [|assumption]. apply is_op_word. now rewrite Ef.
    + split; [exact M|]. split; [|split; [plain_turns|reflexivity]]. apply to_name; [assumption| |assumption].
      intros I. apply reserved_sym in I as (sy & Et & En & Hw). unfold sym_from_str in E. destruct (find _ all_symbols) as [sy0|] eqn:Ef.
      * apply find_some in Ef as [_ Ef]. apply text_eqb_eq in Ef. rewrite <- Et in Ef. apply sym_text_inj in Ef. subst sy0. rewrite En in E. discriminate.
      * pose proof (find_none _ _ Ef sy (in_all_symbols sy)) as Fn. cbn in Fn. rewrite Et in Fn. now rewrite (proj2 (text_eqb_eq _ _) eq_refl) in Fn.
  - right. split; [apply M|]. split; [|split; [plain_turns|reflexivity]]. apply to_space. now apply space_sound.
  - right. split; [apply M|]. split; [|split; [plain_turns|reflexivity]]. apply to_space. apply sp_line_feed.
  - right. subst res. apply hex_sound in R0 as (m & e & E & Mm & Tl & Et & Ln); [|cbn; lia]. rewrite Et. cbn [negb andb] in Mm.
    split; [cbn [spelling app]; rewrite HR, E, <- app_assoc; reflexivity|]. split; [|split; [plain_turns|reflexivity]]. apply to_number.
    change (number_then c (48 :: d :: m ++ e) (s_rest s)). apply nb_hex; try assumption.
    intros ->. destruct Ln as [Ln|Ln]; [exact Ln|cbn in Ln; lia].
  - right. subst res. apply bin_sound in R0 as (m & e & E & Mm & Tl & Et & Ln); [|cbn; lia]. rewrite Et.
    split; [cbn [spelling app]; rewrite HR, E, <- app_assoc; reflexivity|]. split; [|split; [plain_turns|reflexivity]]. apply to_number.
    change (number_then c (48 :: d :: m ++ e) (s_rest s)). apply nb_bin; try assumption; [now apply orb_true_iff|].
    intros ->. destruct Ln as [Ln|Ln]; [exact Ln|cbn in Ln; lia].
  - right. subst res. apply number_sound in R0 as (m & e & E & Mm & Tl & Et). rewrite Et.
    split; [cbn [spelling app]; rewrite HR, E, <- app_assoc; reflexivity|]. split; [|split; [plain_turns|reflexivity]]. apply to_number.
    cbn [l_src with_src app]. apply nb_dec; try assumption. apply not_radix. rewrite <- E. exact Hv.
  - right. subst res. apply number_sound in R0 as (m & e & E & Mm & Tl & Et). rewrite Et. destruct (dot_mant _ _ _ _ _ _ Hx E Tl) as (m' & ->).
    split; [cbn [spelling app]; rewrite HR, E, <- !app_assoc; reflexivity|]. split; [|split; [plain_turns|reflexivity]]. apply to_number.
    cbn [l_src with_src app]. apply nb_dot; assumption.
  - right. subst res. destruct (section_sound c (with_src l (mkSrc r0 (advance (s_pos (l_src l)) c_backtick))) _ _ _ _ _ 96 r0 (l_braces l) Hv eq_refl eq_refl R0) as (w & B & E & T & Se); [auto|reflexivity|].
    rewrite HR. split; [exact E|]. split; [exact T|]. split; [|exact Se]. unfold stack. destruct B as [[-> ->]|[-> ->]]; [apply tu_begin|apply tu_simple].
  - right. subst res. destruct (section_sound c (mkLexer (mkSrc r0 (advance (s_pos (l_src l)) (ch "}"))) (l_sent_eof l) bs) _ _ _ _ _ 125 r0 bs Hv eq_refl eq_refl R0) as (w & B & E & T & Se); [auto|reflexivity|].
    rewrite HR. split; [exact E|]. split; [exact T|]. split; [|exact Se]. unfold stack. rewrite Hb. destruct B as [[-> ->]|[-> ->]]; [apply tu_middle|apply tu_end].
  - right. unfold create_recovered, recovered_errs in Ho. destruct rec; [discriminate|]. injection Ho as <-. cbn [t_type].
    pose proof (quote_type_char _ _ _ Hq) as Hqc. apply loop_exact in R0 as (b & -> & E & A). cbn [app] in *.
    split; [|split; [|split; [plain_turns|reflexivity]]].
    + rewrite HR, E. assert (Sp : spelling (TStringLiteral b 0 qt) = q :: b ++ [q]) by (destruct qt; cbn in Hqc |- *; try discriminate; injection Hqc as <-; reflexivity).
      rewrite Sp. cbn [app]. rewrite <- app_assoc. reflexivity.
    + apply (to_quoted c b qt q); [assumption| |assumption]. intros ->. injection Hqc as <-. cbn in Hv. rewrite andb_true_r in Hv. split; [exact Hv|].
      cbn in Hq. rewrite andb_true_r in Hq. destruct (f_cfxlua (c_feat c)); [reflexivity|discriminate].
  - right. apply read_multi_line_body_spec in R0 as (n' & <- & full & E & F & _). cbn [s_rest] in E.
    pose proof F as [Ef _]. split; [|split; [|split; [plain_turns|reflexivity]]].
    + cbn [spelling]. rewrite HR, E, Ef, <- !app_assoc. unfold long_bracket_open. cbn [app]. rewrite <- app_assoc. reflexivity.
    + apply to_long. change (closer n) with (long_bracket_close n) in Ef. rewrite <- Ef. exact F.
  - right. unfold create_recovered, recovered_errs in Ho. apply read_comment_spec in R0 as [(n & b & full & -> & -> & E & F & _)|[(n & b & -> & -> & E & F & E2 & _)|(u & -> & -> & [M _] & E & F & G)]];
      [|discriminate|]; injection Ho as <-; cbn [t_type s_rest] in *.
    + pose proof F as [Ef _]. split; [|split; [|split; [plain_turns|reflexivity]]].
      * cbn [spelling]. rewrite HR, E, Ef. rewrite <- !app_assoc. reflexivity.
      * apply to_long_comment. change (closer n) with (long_bracket_close n) in Ef. cbn [l_src with_src]. rewrite <- Ef. exact F.
    + split; [|split; [|split; [plain_turns|reflexivity]]].
      * cbn [spelling]. rewrite HR, M. reflexivity.
      * apply to_comment.
        -- intros I. rewrite forallb_forall in F. apply F in I. discriminate.
        -- cbn [l_src with_src]. destruct (s_rest s) as [|x r]; [now left|right]. cbn in G. apply negb_false_iff, N.eqb_eq in G. subst x. now exists r.
        -- intros n r Q. apply (E n r). rewrite M. exact Q.
  - right. unfold create_recovered, recovered_errs in Ho. apply read_c_style_comment_spec in R0 as [(b & -> & -> & [M _] & F)|(-> & -> & E & [M _] & F)]; [|discriminate].
    injection Ho as <-. cbn [app s_rest t_type] in *. rewrite <- app_assoc in M. split; [|split; [|split; [plain_turns|reflexivity]]].
    + cbn [spelling]. rewrite HR, M. rewrite <- !app_assoc. reflexivity.
    + apply to_c_comment; [assumption|]. intros a b0 Q. apply (F a b0). rewrite M. exact Q.
  - right. destruct M as [M _]. split; [exact M|]. split; [|split; [now apply braces_turns|reflexivity]].
    apply to_operator. eapply operator_sound; eauto.
Qed.
