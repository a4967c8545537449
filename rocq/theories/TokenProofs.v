(** Words, operators, long brackets, strings and numerals of a run. Proof file. *)
From Verif Require Import Lexer LexerFacts LexerFacts2 LexerCases LexerStep LexerStream LexerSpec LexerProofs LexerTheorems LexerTheorems2 LexerTheorems3 TokenSpec.
From Coq Require Import Lia ZifyBool ZifyNat ZifyN.
Local Open Scope N_scope.
Arguments ch a : simpl never.
Arguments advance p c : simpl never.

(** ** Character classes *)
Lemma letter_ident x : is_identifier_start x = letter x.
Proof. unfold is_identifier_start, letter, between, in_range. destruct (97 <=? x), (x <=? 122), (65 <=? x), (x <=? 90), (x =? 95); reflexivity. Qed.
Lemma digit_is x : is_digit x = digit x.
Proof. reflexivity. Qed.
Lemma hexdigit_is x : is_hex_digit x = hexdigit x.
Proof. unfold is_hex_digit, is_digit, hexdigit, digit, between, in_range. destruct (97 <=? x), (x <=? 102), (65 <=? x), (x <=? 70), (48 <=? x), (x <=? 57); reflexivity. Qed.
Lemma word_part_is x : word_char x = word_part x.
Proof. unfold word_char, word_part. now rewrite letter_ident, digit_is. Qed.
Lemma forallb_ext_eq (P Q : char -> bool) t : (forall x, P x = Q x) -> forallb P t = forallb Q t.
Proof. intros H. induction t as [|x t IH]; cbn; [reflexivity|]. now rewrite H, IH. Qed.
Lemma head_not_continued P v : head_not P v <-> not_continued P v.
Proof.
  unfold head_not, not_continued. destruct v as [|x v]; split; auto.
  - intros _ y r E. discriminate.
  - intros H y r E. injection E as -> ->. exact H.
  - intros H. apply (H x v). reflexivity.
Qed.

(** ** Tables *)
Definition mk_c (a b d e f g : bool) : cfg :=
  mkCfg all_features (N.lor (if a then 1 else 0) (N.lor (if b then 2 else 0) (N.lor (if d then 4 else 0)
   (N.lor (if e then 8 else 0) (N.lor (if f then 16 else 0) (if g then 32 else 0)))))).
Definition norm (c : cfg) : cfg := mk_c (has_luau c) (has_lua52 c) (has_lua53 c) (has_lua54 c) (has_luajit c) (has_cfxlua c).
Definition memt (w : text) (l : list text) : bool := existsb (text_eqb w) l.
Lemma memt_in w l : memt w l = true <-> In w l.
Proof.
  unfold memt. rewrite existsb_exists. split.
  - intros (x & H & E). apply text_eqb_eq in E. now subst.
  - intros H. exists w. split; [assumption|]. now apply text_eqb_eq.
Qed.

Lemma norm_has c : has_luau (norm c) = has_luau c /\ has_lua52 (norm c) = has_lua52 c /\ has_lua53 (norm c) = has_lua53 c /\
  has_lua54 (norm c) = has_lua54 c /\ has_luajit (norm c) = has_luajit c /\ has_cfxlua (norm c) = has_cfxlua c.
Proof.
  unfold norm. destruct (has_luau c), (has_lua52 c), (has_lua53 c), (has_lua54 c), (has_luajit c), (has_cfxlua c); vm_compute; auto 10.
Qed.
Lemma norm_enabled c sy : sym_enabled (norm c) sy = sym_enabled c sy.
Proof. destruct (norm_has c) as (E1 & E2 & E3 & E4 & E5 & E6). unfold sym_enabled. now rewrite E1, E2, E3, E5, E6. Qed.
Lemma norm_tables c : reserved_words (norm c) = reserved_words c /\ operators (norm c) = operators c.
Proof. destruct (norm_has c) as (E1 & E2 & E3 & E4 & E5 & E6). unfold reserved_words, operators. now rewrite E1, E2, E3, E5, E6. Qed.

Definition table_ok (c : cfg) : bool :=
  forallb (fun sy => if is_op sy
                     then Bool.eqb (sym_enabled c sy) (memt (sym_text sy) (operators c)) && negb (memt (sym_text sy) (reserved_words c))
                     else Bool.eqb (sym_enabled c sy) (memt (sym_text sy) (reserved_words c)) && negb (memt (sym_text sy) (operators c))) all_symbols &&
  forallb (fun w => existsb (fun sy => text_eqb (sym_text sy) w && sym_enabled c sy && negb (is_op sy)) all_symbols) (reserved_words c) &&
  forallb (fun w => existsb (fun sy => text_eqb (sym_text sy) w && sym_enabled c sy && is_op sy) all_symbols) (operators c).
Definition bools := [true; false].
Lemma tables_all : forallb (fun a => forallb (fun b => forallb (fun d => forallb (fun e => forallb (fun f => forallb (fun g =>
  table_ok (mk_c a b d e f g)) bools) bools) bools) bools) bools) bools = true.
Proof. vm_compute. reflexivity. Qed.
Lemma in_bools b : In b bools.
Proof. destruct b; cbn; auto. Qed.
Lemma table_norm c : table_ok (norm c) = true.
Proof.
  pose proof tables_all as T.
  rewrite forallb_forall in T. specialize (T (has_luau c) (in_bools _)). cbv beta in T.
  rewrite forallb_forall in T. specialize (T (has_lua52 c) (in_bools _)). cbv beta in T.
  rewrite forallb_forall in T. specialize (T (has_lua53 c) (in_bools _)). cbv beta in T.
  rewrite forallb_forall in T. specialize (T (has_lua54 c) (in_bools _)). cbv beta in T.
  rewrite forallb_forall in T. specialize (T (has_luajit c) (in_bools _)). cbv beta in T.
  rewrite forallb_forall in T. specialize (T (has_cfxlua c) (in_bools _)). exact T.
Qed.

Lemma sym_table c sy :
  (is_op sy = true -> (sym_enabled c sy = true <-> In (sym_text sy) (operators c))) /\
  (is_op sy = false -> (sym_enabled c sy = true <-> In (sym_text sy) (reserved_words c))).
Proof.
  pose proof (table_norm c) as T. unfold table_ok in T. rewrite !andb_true_iff in T. destruct T as [[T _] _].
  rewrite forallb_forall in T. specialize (T sy (in_all_symbols sy)). cbv beta in T.
  rewrite norm_enabled in T. destruct (norm_tables c) as [-> ->] in T. rewrite <- !memt_in.
  split; intros E; rewrite E in T; apply andb_true_iff in T as [T _]; apply eqb_prop in T; rewrite T; tauto.
Qed.

Lemma reserved_sym c w : In w (reserved_words c) -> exists sy, sym_text sy = w /\ sym_enabled c sy = true /\ is_op sy = false.
Proof.
  intros H. pose proof (table_norm c) as T. unfold table_ok in T. rewrite !andb_true_iff in T. destruct T as [[_ T] _].
  destruct (norm_tables c) as [E _]. rewrite E in T.
  rewrite forallb_forall in T. specialize (T w H). apply existsb_exists in T as (sy & _ & T).
  rewrite !andb_true_iff in T. destruct T as [[T1 T2] T3]. exists sy. rewrite norm_enabled in T2. apply text_eqb_eq in T1.
  apply negb_true_iff in T3. auto.
Qed.
Lemma operator_sym c w : In w (operators c) -> exists sy, sym_text sy = w /\ sym_enabled c sy = true /\ is_op sy = true.
Proof.
  intros H. pose proof (table_norm c) as T. unfold table_ok in T. rewrite !andb_true_iff in T. destruct T as [_ T].
  destruct (norm_tables c) as [_ E]. rewrite E in T.
  rewrite forallb_forall in T. specialize (T w H). apply existsb_exists in T as (sy & _ & T).
  rewrite !andb_true_iff in T. destruct T as [[T1 T2] T3]. exists sy. rewrite norm_enabled in T2. apply text_eqb_eq in T1. auto.
Qed.

(** ** Versions *)
Lemma built_closed v : built v -> N.testbit v 5 = true -> N.testbit v 2 = true.
Proof.
  induction 1; unfold lv_with_luau, lv_with_lua52, lv_with_lua53, lv_with_lua54, lv_with_luajit, lv_with_cfxlua, lv_or in *;
    try (vm_compute; congruence); rewrite !N.lor_spec, !orb_true_iff; (intros [H'|H']; [left; auto|]); try (right; auto; fail); vm_compute in H'; try discriminate.
Qed.

Lemma has_bit_testbit v k : has_bit v (2 ^ k) = N.testbit v k.
Proof.
  unfold has_bit. destruct (N.testbit v k) eqn:E.
  - apply negb_true_iff, N.eqb_neq. intros H. apply (f_equal (fun x => N.testbit x k)) in H.
    rewrite N.land_spec, E, N.pow2_bits_true in H. discriminate.
  - apply negb_false_iff, N.eqb_eq. apply N.bits_inj_0. intros i. rewrite N.land_spec.
    destruct (N.eq_dec k i) as [<-|Hn]; [now rewrite E|]. rewrite N.pow2_bits_false by assumption. apply andb_false_r.
Qed.

Lemma cfg_ok_cfx53 c : cfg_ok c -> cfx53 c.
Proof.
  intros [F B] H. unfold has_cfxlua, has_lua53 in *. apply andb_true_iff in H as [H1 H2]. apply andb_true_iff. split.
  - unfold features_ok in F. rewrite !andb_true_iff in F. destruct F as [[F1 F2] F3]. rewrite H1 in F3. cbn in F3.
    rewrite F3 in F2. exact F2.
  - change VERSION_CFXLUA with (2 ^ 5) in H2. change VERSION_LUA53 with (2 ^ 2). rewrite has_bit_testbit in *.
    now apply built_closed.
Qed.

(** ** Origin of tokens *)
Lemma token_origin c source rs t : run c source rs -> In t (tokens_of rs) ->
  (exists w, t_type t = TShebang w) \/
  exists u l l' es, source = u ++ s_rest (l_src l) /\ s_pos (l_src l) = pos_of u /\ pstep c l t es l'.
Proof.
  intros R Hi.
  assert (G : forall l rs, stream c l rs -> (exists u, moved (mkSrc source pos0) u (l_src l)) -> In t (tokens_of rs) ->
     exists u l l' es, source = u ++ s_rest (l_src l) /\ s_pos (l_src l) = pos_of u /\ pstep c l t es l').
  { intros l rs0 S (u & M) Ht. unfold tokens_of in Ht. apply in_flat_map in Ht as (r & Hr & Ht). apply in_refs_of in Hr as (x & Hx & Hr).
    destruct (stream_origin _ _ _ S _ _ _ Hx Hr Ht) as (u' & l1 & l2 & es & M' & P & _).
    assert (M2 := moved_app _ _ _ _ _ M M'). apply moved_pos in M2 as [E1 E2]. eauto 8. }
  destruct R as [rs' NS S|line s sb r rs' SB M F HN -> Nl S|line s r rs' SB M F HN Nl S NO].
  - right. eapply G; [eassumption| |eassumption]. exists []. apply moved_nil.
  - change (tokens_of (LOk (add_shebang (mkToken pos0 (s_pos s) (TShebang line)) r) :: rs')) with
      (mkToken pos0 (s_pos s) (TShebang line) :: tokens_of (LOk r :: rs')) in Hi.
    destruct Hi as [<-|Hi]; [left; eexists; reflexivity|]. right. eapply G; [eassumption| |eassumption]. eexists. exact M.
  - apply stream_next in S as (l' & E & S). right. eapply G; [eassumption| |eassumption].
    pose proof (process_next_with_trivia_spec c (mkLexer s false [])) as RS. rewrite E in RS.
    apply ref_step_moved in RS as (v & M2). eexists. eapply moved_app; eassumption.
Qed.

(** ** Words *)
Lemma is_op_word sy : is_op sy = false <-> is_word (sym_text sy).
Proof.
  split.
  - destruct sy; intros H; vm_compute in H; try discriminate H; (eexists; eexists; split; [reflexivity|split; vm_compute; reflexivity]).
  - intros (x & r & E & L & _). unfold is_op. rewrite E. rewrite letter_ident, L. reflexivity.
Qed.

Lemma head_not_word s : head_not word_char s -> not_continued word_part s.
Proof. intros H. apply head_not_continued. unfold head_not in *. destruct s; [exact I|]. now rewrite <- word_part_is. Qed.

(** ** Strings, long brackets, numerals: from the scanner facts to the specification *)
Lemma escaped_string q t : q <> 92 -> forall esc, escaped_from q esc t = true ->
  if esc then exists x t', t = x :: t' /\ string_body q true t' else string_body q true t.
Proof.
  intros Hq. induction t as [|x t IH]; intros esc H; cbn [escaped_from] in H.
  - destruct esc; [discriminate|constructor].
  - destruct esc; [exists x, t; split; [reflexivity|apply (IH false H)]|].
    destruct (x =? c_backslash) eqn:E.
    + apply N.eqb_eq in E. subst. destruct (IH true H) as (y & t' & -> & B). now apply sb_escape.
    + apply N.eqb_neq in E. apply andb_true_iff in H as [H1 H2]. apply negb_true_iff, N.eqb_neq in H1.
      constructor; auto; try discriminate. apply (IH false H2).
Qed.
Lemma escaped_string_nb q t : q <> 92 -> forall esc, escaped_from q esc t = true -> no_break_from esc t = true ->
  if esc then exists x t', t = x :: t' /\ string_body q false t' else string_body q false t.
Proof.
  intros Hq. induction t as [|x t IH]; intros esc H N; cbn [escaped_from no_break_from] in H, N.
  - destruct esc; [discriminate|constructor].
  - destruct esc; [exists x, t; split; [reflexivity|apply (IH false H N)]|].
    destruct (x =? c_backslash) eqn:E.
    + apply N.eqb_eq in E. subst. destruct (IH true H N) as (y & t' & -> & B). now apply sb_escape.
    + apply N.eqb_neq in E. apply andb_true_iff in H as [H1 H2]. apply negb_true_iff, N.eqb_neq in H1.
      apply andb_true_iff in N as [N1 N2]. apply negb_true_iff in N1. unfold is_newline in N1. apply orb_false_iff in N1 as [N3 N4].
      apply N.eqb_neq in N3, N4. constructor; auto. apply (IH false H2 N2).
Qed.
Lemma string_escaped q b t : q <> 92 -> string_body q b t -> escaped_from q false t = true /\ (b = false -> no_break_from false t = true).
Proof.
  intros Hq. induction 1 as [|x t H1 H2 H3 _ [IH1 IH2]|x t _ [IH1 IH2]]; cbn [escaped_from no_break_from].
  - auto.
  - destruct (x =? c_backslash) eqn:E; [apply N.eqb_eq in E; contradiction|].
    destruct (x =? q) eqn:E2; [apply N.eqb_eq in E2; contradiction|]. split; [exact IH1|].
    intros Hb. destruct (H3 Hb) as [H4 H5]. apply N.eqb_neq in H4, H5. unfold is_newline. change c_nl with 10. change c_cr with 13.
    rewrite H4, H5. cbn. auto.
  - rewrite N.eqb_refl. auto.
Qed.

Lemma eqs_is n : eqs n = repeat_eq n.
Proof. reflexivity. Qed.
Lemma long_open_is n : long_bracket_open n = long_open n.
Proof. reflexivity. Qed.
Lemma closer_is n : long_bracket_close n = closer n.
Proof. reflexivity. Qed.
Lemma first_closer_is n full b r : first_closer n full b r <-> closes_first n full b r.
Proof. reflexivity. Qed.
Lemma no_closer_is n full : no_closer n full <-> never_closes n full.
Proof. reflexivity. Qed.

Lemma digits_ext P Q t : (forall x, P x = Q x) -> forallb P t = true -> digits Q t.
Proof. intros H E. unfold digits. rewrite <- E. symmetry. now apply forallb_ext_eq. Qed.
Lemma dec_is c x : dec_char c x = digit_of c x.
Proof. reflexivity. Qed.
Lemma hex_is c x : hex_char c x = hexdigit_of c x.
Proof. unfold hex_char, hexdigit_of. now rewrite hexdigit_is. Qed.
Lemma mantissa_mant P Q d m : (forall x, P x = Q x) -> mantissa P d m -> mant Q d m.
Proof.
  intros H [a Ha|a b Hd Ha Hb]; [apply mn_int|change (ch ".") with 46; apply mn_dot; auto]; eapply digits_ext; eassumption.
Qed.
Lemma is_ci a b x : (x =? a) || (x =? b) = true -> ci a b x.
Proof. intros H. apply orb_true_iff in H as [H|H]; apply N.eqb_eq in H; subst; [left|right]; reflexivity. Qed.
Lemma jit_luajit e : jit_suffix e -> luajit_suffix e.
Proof. intros [i H|a b H1 H2|u a b H1 H2 H3]; constructor; now apply is_ci. Qed.
Lemma jit_dec e : jit_suffix e \/ ~ jit_suffix e.
Proof.
  destruct e as [|a [|b [|d [|? ?]]]].
  - right. intros H. inversion H.
  - destruct (is_ii a) eqn:E; [left; now constructor|right; intros H; inversion H; congruence].
  - destruct (is_ll a) eqn:E, (is_ll b) eqn:E2; try (right; intros H; inversion H; congruence). left; now constructor.
  - destruct (is_ul a) eqn:E1, (is_ll b) eqn:E2, (is_ll d) eqn:E3; try (right; intros H; inversion H; congruence). left; now constructor.
  - right. intros H. inversion H.
Qed.
Lemma num_tail_tail c ms (ok : bool) e : num_tail c ms ok e -> tail c (if ok then ms else []) e.
Proof.
  intros [|m t Ho Hm E|t Hj H]; [constructor| |apply tl_suffix; [assumption|now apply jit_luajit]].
  apply tl_exp. rewrite Ho. destruct E as [d ds H1 H2|sg d ds H1 H2 H3].
  - apply (ep c ms m [] d ds); auto.
  - apply (ep c ms m [sg] d ds); auto. change (ch "+") with 43 in H1. change (ch "-") with 45 in H1. destruct H1 as [->| ->]; auto.
Qed.

(** ** What one step of the lexer can produce, in the vocabulary of the specification *)
Inductive pcase (c : cfg) (l : lexer) (l' : lexer) : token_type -> list tok_error -> Prop :=
| PC_eof : s_rest (l_src l) = [] -> pcase c l l' TEof []
| PC_word w : is_word w -> s_rest (l_src l) = w ++ s_rest (l_src l') -> not_continued word_part (s_rest (l_src l')) ->
    pcase c l l' (match sym_from_str c w with Some sy => TSymbol sy | None => TIdentifier w end) []
| PC_ws w : s_rest (l_src l) = w ++ s_rest (l_src l') -> blank w -> pcase c l l' (TWhitespace w) []
| PC_num w : s_rest (l_src l) = w ++ s_rest (l_src l') -> loose_numeral c w -> pcase c l l' (TNumber w) []
| PC_num_bad w e : s_rest (l_src l) = w ++ s_rest (l_src l') -> te_error e = InvalidNumber -> pcase c l l' (TNumber w) [e]
| PC_istr w k es : pcase c l l' (TInterpolatedString w k) es
| PC_str q qt b : quote_char qt = Some q -> s_rest (l_src l) = q :: b ++ q :: s_rest (l_src l') -> string_body q true b ->
    (has_lua52 c = false -> has_luau c = false -> has_luajit c = false -> string_body q false b) ->
    pcase c l l' (TStringLiteral b O qt) []
| PC_str_bad q qt b e : quote_char qt = Some q -> te_error e = UnclosedString ->
    (s_rest (l_src l) = q :: b /\ s_rest (l_src l') = []) \/
    (exists d, (d = 10 \/ d = 13) /\ s_rest (l_src l) = q :: b ++ d :: s_rest (l_src l') /\ string_body q true b) ->
    pcase c l l' (TStringLiteral b O qt) [e]
| PC_long n full b : s_rest (l_src l) = long_bracket_open n ++ full -> closes_first n full b (s_rest (l_src l')) ->
    pcase c l l' (TStringLiteral b n QBrackets) []
| PC_long_bad n b e : s_rest (l_src l) = long_bracket_open n ++ b -> never_closes n b -> s_rest (l_src l') = [] ->
    te_error e = UnclosedString -> pcase c l l' (TStringLiteral b n QBrackets) [e]
| PC_com n full b : s_rest (l_src l) = str "--" ++ long_bracket_open n ++ full -> closes_first n full b (s_rest (l_src l')) ->
    pcase c l l' (TMultiLineComment n b) []
| PC_com_bad n b e : s_rest (l_src l) = str "--" ++ long_bracket_open n ++ b -> never_closes n b -> s_rest (l_src l') = [] ->
    te_error e = UnclosedComment -> pcase c l l' (TMultiLineComment n b) [e]
| PC_line t : s_rest (l_src l) = str "--" ++ t ++ s_rest (l_src l') -> forallb (fun x => negb (x =? 10)) t = true ->
    not_continued (fun x => negb (x =? 10)) (s_rest (l_src l')) ->
    (forall n v, t ++ s_rest (l_src l') <> long_bracket_open n ++ v) ->
    pcase c l l' (TSingleLineComment t) []
| PC_cc b : s_rest (l_src l) = str "/*" ++ b ++ str "*/" ++ s_rest (l_src l') -> has_cfxlua c = true ->
    (forall u v, b ++ str "*/" ++ s_rest (l_src l') = u ++ str "*/" ++ v -> (List.length b <= List.length u)%nat) ->
    pcase c l l' (TCStyleComment b) []
| PC_cc_bad b e : s_rest (l_src l) = str "/*" ++ b -> has_cfxlua c = true -> (forall u v, b <> u ++ str "*/" ++ v) ->
    s_rest (l_src l') = [] -> te_error e = UnclosedComment -> pcase c l l' (TCStyleComment b) [e]
| PC_sym sy : is_op sy = true -> s_rest (l_src l) = sym_text sy ++ s_rest (l_src l') -> longest c (s_rest (l_src l)) sy ->
    (cfx53 c -> sym_enabled c sy = true) -> pcase c l l' (TSymbol sy) [].

Definition yields (r : lexres token) (t : token) (es : list tok_error) : Prop :=
  (r = LOk t /\ es = []) \/ (r = LRecovered t es /\ es <> []).

Lemma yields_ok x t es : yields (LOk x) t es -> x = t /\ es = [].
Proof. intros [[H ->]|[H _]]; [|discriminate]. injection H; auto. Qed.
Lemma yields_rec x e t es : yields (LRecovered x e) t es -> x = t /\ es = e.
Proof. intros [[H _]|[H _]]; [discriminate|]. injection H; auto. Qed.
Lemma yields_recovered s p A b e t es : yields (create_recovered s p A (recovered_errs b e p s)) t es ->
  t = mkToken p (s_pos s) A /\ es = if b then [mkTokError e (p, s_pos s)] else [].
Proof.
  unfold create_recovered, recovered_errs. destruct b; cbn [lexres_new]; intros H; [apply yields_rec in H as [<- ->]|apply yields_ok in H as [<- ->]]; auto.
Qed.

Lemma istr_type l p k k2 res l2 : read_interpolated_string_section l p k k2 = (res, l2) ->
  exists w k p2 es, res = LOk (mkToken p p2 (TInterpolatedString w k)) \/ (res = LRecovered (mkToken p p2 (TInterpolatedString w k)) es /\ es <> []).
Proof.
  unfold read_interpolated_string_section. destruct (read_istr _ _ _ _ _ _) as [[w' [[]|]] s'];
  intros [= <- _]; eexists; eexists; eexists; eexists; ((left; reflexivity) || (right; split; [reflexivity|discriminate])).
  Unshelve. all: exact [].
Qed.

Lemma ws_tail_blank t : ws_tail t -> blank t.
Proof.
  assert (B : forall b, forallb is_blank b = true -> blank b).
  { intros b H. unfold blank. rewrite forallb_forall in *. intros x Hx. apply H in Hx. apply blank_cases in Hx as [->| ->]; reflexivity. }
  intros [b H|b H|b H]; apply B in H; [exact H| |]; unfold blank in *; rewrite forallb_app; apply andb_true_iff; (split; [exact H|reflexivity]).
Qed.

Lemma pstep_case c l t es l' : pstep c l t es l' -> t_start t = s_pos (l_src l) /\ pcase c l l' (t_type t) es.
Proof.
  intros P. assert (H : exists r, process_next c l = Done (Some r, l') /\ yields r t es)
    by (unfold yields; destruct P as [[P ->]|[P Hn]]; eauto).
  clear P. destruct H as (r & H & Hr).
  pose proof (process_next_cases c l) as HC. rewrite H in HC. cbn [next_ok] in HC. clear H.
  remember (Some r) as o eqn:Ho.
  destruct HC as [ | He Hs | next w0 s Hid M F Hd | next w0 s Hn M T Z | s M | d r0 res s HR Hx R0 | d r0 res s HR Hx Hv R0
    | d r0 res s HR Hx Hv R0 | d r0 res s HR Hx R0 | r0 res l1 HR Hv R0 | r0 bs res l1 HR Hv Hb R0
    | q r0 qt lit rec s HR Hq Hv R0 | r0 n b s HR R0 | r0 n b s HR R0 | r0 tt rec s HR R0 | r0 tt rec s HR Hv R0
    | sy s Hop M HL HE _ _ _ _ _ | d s e M He HN ]; try discriminate; injection Ho as <-.
  - apply yields_ok in Hr as [<- ->]. split; [reflexivity|]. now apply PC_eof.
  - apply yields_ok in Hr as [<- ->]. split; [reflexivity|]. cbn [t_type]. apply PC_word.
    + exists next, w0. split; [reflexivity|]. rewrite <- letter_ident. split; [assumption|].
      rewrite <- F. apply forallb_ext_eq. intros x. now rewrite word_part_is.
    + apply M.
    + now apply head_not_word.
  - apply yields_ok in Hr as [<- ->]. split; [reflexivity|]. apply PC_ws; [apply M|]. apply ws_tail_blank in T. unfold blank in *.
    destruct Hn as [->|[->| ->]]; exact T.
  - apply yields_ok in Hr as [<- ->]. split; [reflexivity|]. apply PC_ws; [apply M|reflexivity].
  - apply read_hex_number_spec in R0 as (u & [M _] & R0); [|cbn; lia].
    assert (E : s_rest (l_src l) = ([ch "0"; d] ++ u) ++ s_rest s) by (rewrite HR; cbn [app]; cbn [s_rest] in M; congruence).
    destruct R0 as [(-> & m & e & -> & Mm & Tl & Ln)| ->].
    + apply yields_ok in Hr as [<- ->]. split; [reflexivity|]. apply PC_num; [exact E|].
      change (loose_numeral c (48 :: d :: m ++ e)). apply ln_hex.
      * destruct Hx as [->| ->]; [left|right]; reflexivity.
      * eapply mantissa_mant; [apply hex_is|exact Mm].
      * apply num_tail_tail in Tl. exact Tl.
      * intros ->. cbn [app List.length] in Ln.
        destruct (has_luajit c); [|lia]. split; [reflexivity|]. destruct (jit_dec e) as [J|J]; [now apply jit_luajit|].
        assert (2 < 2)%nat by auto. lia.
    + apply yields_rec in Hr as [<- ->]. split; [reflexivity|]. now apply PC_num_bad.
  - apply read_binary_number_spec in R0 as (u & [M _] & R0); [|cbn; lia].
    assert (E : s_rest (l_src l) = ([ch "0"; d] ++ u) ++ s_rest s) by (rewrite HR; cbn [app]; cbn [s_rest] in M; congruence).
    destruct R0 as [(-> & m & e & -> & Mm & Tl & Ln)| ->].
    + apply yields_ok in Hr as [<- ->]. split; [reflexivity|]. apply PC_num; [exact E|].
      change (loose_numeral c (48 :: d :: m ++ e)). apply ln_bin.
      * now apply orb_true_iff in Hv.
      * destruct Hx as [->| ->]; [left|right]; reflexivity.
      * exact Mm.
      * apply num_tail_tail in Tl. exact Tl.
      * intros ->. cbn [app List.length] in Ln.
        destruct (has_luajit c); [|lia]. split; [reflexivity|]. destruct (jit_dec e) as [J|J]; [now apply jit_luajit|].
        assert (2 < 2)%nat by auto. lia.
    + apply yields_rec in Hr as [<- ->]. split; [reflexivity|]. now apply PC_num_bad.
  - apply read_number_spec in R0 as (u & [M _] & R0).
    assert (E : s_rest (l_src l) = ([d] ++ u) ++ s_rest s) by (rewrite HR; cbn [app]; cbn [s_rest] in M; congruence).
    destruct R0 as [(-> & m & e & -> & Mm & Tl)| ->].
    + apply yields_ok in Hr as [<- ->]. split; [reflexivity|]. apply PC_num; [exact E|].
      change (loose_numeral c (d :: m ++ e)). apply ln_dec; [assumption| |].
      * eapply mantissa_mant; [apply dec_is|exact Mm].
      * apply num_tail_tail in Tl. exact Tl.
    + apply yields_rec in Hr as [<- ->]. split; [reflexivity|]. now apply PC_num_bad.
  - cbn [read_number] in R0. rewrite Hx in R0. apply read_number_spec in R0 as (u & [M _] & R0). cbn [s_rest] in M.
    assert (E : s_rest (l_src l) = ([ch "."; d] ++ u) ++ s_rest s) by (rewrite HR; cbn [app]; congruence).
    destruct R0 as [(-> & m & e & -> & Mm & Tl)| ->].
    + apply yields_ok in Hr as [<- ->]. split; [reflexivity|]. apply PC_num; [exact E|].
      change (loose_numeral c (46 :: d :: m ++ e)). apply ln_dot; [assumption| |].
      * eapply mantissa_mant; [apply dec_is|]. apply mantissa_cons; [|exact Mm]. unfold dec_char. now rewrite Hx.
      * apply num_tail_tail in Tl. exact Tl.
    + apply yields_rec in Hr as [<- ->]. split; [reflexivity|]. now apply PC_num_bad.
  - apply istr_type in R0 as (w & k & p2 & es2 & [R0|[R0 Hn]]); subst res;
      [apply yields_ok in Hr as [<- ->]|apply yields_rec in Hr as [<- ->]]; (split; [reflexivity|apply PC_istr]).
  - apply istr_type in R0 as (w & k & p2 & es2 & [R0|[R0 Hn]]); subst res;
      [apply yields_ok in Hr as [<- ->]|apply yields_rec in Hr as [<- ->]]; (split; [reflexivity|apply PC_istr]).
  - apply yields_recovered in Hr as [-> ->]. split; [reflexivity|]. cbn [t_type].
    destruct (quote_not_special _ _ _ Hq) as (Q1 & Q2 & Q3).
    assert (Hqc : quote_char qt = Some q).
    { unfold string_quote_type in Hq. destruct (q =? c_dquote) eqn:E1; [injection Hq as <-; apply N.eqb_eq in E1; now subst|].
      destruct (q =? c_squote) eqn:E2; [injection Hq as <-; apply N.eqb_eq in E2; now subst|].
      destruct (q =? c_backtick) eqn:E3; [|rewrite andb_false_r in Hq; discriminate]. rewrite andb_true_r in Hq.
      destruct (f_cfxlua _); [injection Hq as <-; apply N.eqb_eq in E3; now subst|discriminate]. }
    apply read_string_loop_spec in R0 as (b & -> & R0); try assumption. cbn [app]. destruct rec.
    + eapply PC_str_bad; [exact Hqc|reflexivity|]. destruct R0 as [[[M _] E]|(d & Hd & [M _] & Es)]; [left|right].
      * cbn [s_rest] in M. rewrite HR, M, E, app_nil_r. auto.
      * exists d. unfold is_newline in Hd. apply orb_true_iff in Hd. rewrite !N.eqb_eq in Hd.
        cbn [s_rest] in M. rewrite HR, M, <- app_assoc. split; [exact Hd|]. split; [reflexivity|]. now apply (escaped_string q b Q1 false).
    + destruct R0 as ([M _] & E & NB). cbn [s_rest] in M. rewrite <- app_assoc in M. eapply PC_str; [exact Hqc|now rewrite HR, M| |].
      * now apply (escaped_string q b Q1 false).
      * intros H1 H2 H3. apply (escaped_string_nb q b Q1 false); auto.
  - apply yields_ok in Hr as [<- ->]. split; [reflexivity|]. cbn [t_type].
    apply read_multi_line_body_spec in R0 as (n' & <- & full & E & F & _). cbn [s_rest] in E.
    apply (PC_long _ _ _ n full b); [|exact F]. rewrite HR, E. symmetry. apply long_open_app.
  - apply yields_rec in Hr as [<- ->]. split; [reflexivity|]. cbn [t_type].
    apply read_multi_line_body_spec in R0 as (n' & <- & E & F & E2 & _). cbn [s_rest] in E.
    apply PC_long_bad; [|exact F|exact E2|reflexivity]. rewrite HR, E. symmetry. apply long_open_app.
  - apply yields_recovered in Hr as [-> ->]. split; [reflexivity|]. cbn [t_type].
    apply read_comment_spec in R0 as [(n & b & full & -> & -> & E & F & _)|[(n & b & -> & -> & E & F & E2 & _)|(u & -> & -> & [M _] & E & F & G)]];
      cbn [s_rest] in *.
    + apply (PC_com _ _ _ n full b); [|exact F]. rewrite HR, E. reflexivity.
    + apply PC_com_bad; [|exact F|exact E2|reflexivity]. rewrite HR, E. reflexivity.
    + apply PC_line; [|exact F|now apply head_not_continued|].
      * rewrite HR, M. reflexivity.
      * intros n v E3. apply (E n v). rewrite M. exact E3.
  - apply yields_recovered in Hr as [-> ->]. split; [reflexivity|]. cbn [t_type].
    apply read_c_style_comment_spec in R0 as [(b & -> & -> & [M _] & F)|(-> & -> & E & [M _] & F)]; cbn [app s_rest] in *.
    + rewrite <- app_assoc in M. apply PC_cc; [|assumption|].
      * rewrite HR, M. reflexivity.
      * intros u v E. apply (F u v). rewrite M. exact E.
    + apply PC_cc_bad; [|assumption|exact F|exact E|reflexivity]. rewrite HR. reflexivity.
  - apply yields_ok in Hr as [<- ->]. split; [reflexivity|]. apply PC_sym; auto. apply M.
  - exfalso. destruct Hr as [[Hr _]|[Hr _]]; discriminate.
Qed.
