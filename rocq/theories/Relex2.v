(** Reading the text of a token again: every kind of token. Proof file. *)
From Verif Require Import Lexer LexerFacts LexerFacts2 LexerCases LexerStep LexerStream LexerSpec LexerProofs LexerTheorems LexerTheorems2 LexerTheorems3 TokenSpec TokenProofs TokenTheorems Relex.
From Coq Require Import Lia ZifyBool ZifyNat ZifyN.
Local Open Scope N_scope.
Arguments ch a : simpl never.
Arguments advance p c : simpl never.

(** ** Words and blanks *)
Lemma word_reads c w : is_word w -> reads c w (match sym_from_str c w with Some sy => TSymbol sy | None => TIdentifier w end).
Proof.
  intros W l v B E ->. rewrite (process_next_word c l w [] E W); [|intros x r Hx; discriminate].
  do 2 eexists. split; [reflexivity|]. repeat split.
Qed.

Lemma read_whitespace_complete t : ws_tail t -> forall pos ws endp, exists e p, read_whitespace t pos ws endp = (ws ++ t, e, mkSrc [] p).
Proof.
  intros T.
  assert (G : forall b z, forallb is_blank b = true -> (forall pos ws endp, exists e p, read_whitespace z pos ws endp = (ws ++ z, e, mkSrc [] p)) ->
     forall pos ws endp, exists e p, read_whitespace (b ++ z) pos ws endp = (ws ++ b ++ z, e, mkSrc [] p)).
  { induction b as [|x b IH]; intros z F Hz pos ws endp; [apply Hz|]. cbn in F. apply andb_true_iff in F as [F1 F2]. cbn [app read_whitespace].
    fold (is_blank x). rewrite F1. destruct (IH z F2 Hz (advance pos x) (ws ++ [x]) (mkPos (p_bytes endp + len_utf8 x) (p_line endp) (p_char endp + 1))) as (e & p & R).
    rewrite R, <- app_assoc. eauto. }
  destruct T as [b H|b H|b H]; intros pos ws endp.
  - rewrite <- (app_nil_r b). apply G; [assumption|]. intros. cbn. rewrite app_nil_r. eauto.
  - apply G; [assumption|]. intros. cbn. eauto.
  - apply G; [assumption|]. intros. cbn. eauto.
Qed.

Lemma ws_reads c next t : next = c_space \/ next = c_tab \/ next = c_cr -> ws_tail t -> reads c (next :: t) (TWhitespace (next :: t)).
Proof.
  intros Hn T l v B E ->. rewrite app_nil_r in E. cbn [app] in E.
  assert (P : process_next c l = (let endp := mkPos (p_bytes (s_pos (l_src l)) + len_utf8 next) (p_line (s_pos (l_src l))) (p_char (s_pos (l_src l)) + 1) in
        let '(ws, endp, s) := read_whitespace t (advance (s_pos (l_src l)) next) [next] endp in
        yield (LOk (mkToken (s_pos (l_src l)) endp (TWhitespace ws))) (with_src l s))).
  { unfold process_next, src_next. rewrite E. cbn [s_rest s_pos]. destruct Hn as [->|[->| ->]]; reflexivity. }
  rewrite P. cbv zeta. destruct (read_whitespace_complete t T (advance (s_pos (l_src l)) next) [next]
    (mkPos (p_bytes (s_pos (l_src l)) + len_utf8 next) (p_line (s_pos (l_src l))) (p_char (s_pos (l_src l)) + 1))) as (e & p & ->).
  do 2 eexists. split; [reflexivity|]. repeat split.
Qed.

Lemma nl_reads c : reads c [c_nl] (TWhitespace [c_nl]).
Proof. intros l v B E ->. unfold process_next, src_next. rewrite E. do 2 eexists. split; [reflexivity|]. repeat split. Qed.

(** ** Strings *)
Lemma string_local c q rest : forall pos lit esc z w s, q <> c_backslash -> q <> c_nl -> q <> c_cr ->
  read_string_loop c q rest pos lit esc z = (w, false, s) ->
  forall x pos', rest = x ++ s_rest s -> exists p, read_string_loop c q x pos' lit esc z = (w, false, mkSrc [] p).
Proof.
  induction rest as [|d r IH]; intros pos lit esc z w s Q1 Q2 Q3 H x pos' E.
  - cbn in H. discriminate.
  - destruct (read_string_loop_spec _ _ _ _ _ _ _ _ _ _ Q1 Q2 Q3 H) as (t & _ & [M _] & _). cbn [s_rest] in M.
    destruct x as [|d' x]; cbn [app] in E.
    { exfalso. rewrite M in E. apply (f_equal (@List.length char)) in E. rewrite !app_length in E. cbn in E. lia. }
    injection E as <- E. cbn [read_string_loop] in H |- *.
    assert (K : forall lit' esc' z', read_string_loop c q r (advance pos d) lit' esc' z' = (w, false, s) ->
      exists p, read_string_loop c q x (advance pos' d) lit' esc' z' = (w, false, mkSrc [] p)) by eauto.
    destruct esc; [destruct (_ && _); auto|].
    destruct (d =? c_backslash); [auto|].
    destruct ((d =? c_nl) || (d =? c_cr)); [destruct z; [auto|discriminate]|].
    destruct (d =? q); [|auto]. injection H as <- <-. cbn [s_rest] in E.
    assert (x = []) as -> by (apply (f_equal (@List.length char)) in E; rewrite app_length in E; destruct x; [reflexivity|cbn in E; lia]).
    eauto.
Qed.

Lemma istr_shorter rest pos acc esc z u w b s : read_istr rest pos acc esc z u = (w, Some b, s) -> (List.length (s_rest s) < List.length rest)%nat.
Proof.
  intros H. apply read_istr_spec in H as (t & _ & M). assert (exists q, rest = (t ++ [q]) ++ s_rest s) as (q & ->) by (destruct b, M as [M _]; eauto).
  rewrite !app_length. cbn. lia.
Qed.

Lemma istr_local n : forall rest pos acc esc z u w b s, (List.length rest <= n)%nat -> read_istr rest pos acc esc z u = (w, Some b, s) ->
  forall x pos', rest = x ++ s_rest s -> exists p, read_istr x pos' acc esc z u = (w, Some b, mkSrc [] p).
Proof.
  induction n as [|n IH]; intros rest pos acc esc z u w b s Hl H x pos' E.
  { destruct rest; [discriminate|cbn in Hl; lia]. }
  destruct rest as [|c r]; [discriminate|]. pose proof (istr_shorter _ _ _ _ _ _ _ _ _ H) as Sh.
  destruct x as [|c' x]; cbn [app] in E; [rewrite <- E in Sh; cbn in Sh; lia|]. injection E as <- E. cbn [List.length] in Hl.
  assert (K : forall p2 acc' esc' z' u', read_istr r (advance pos c) acc' esc' z' u' = (w, Some b, s) ->
    exists p, read_istr x p2 acc' esc' z' u' = (w, Some b, mkSrc [] p)).
  { intros p2 acc' esc' z' u' HH. eapply IH; [|exact HH|exact E]. lia. }
  cbn [read_istr] in H |- *.
  assert (U : match r with d :: _ => negb (d =? ch "}") | [] => false end = match x with d :: _ => negb (d =? ch "}") | [] => false end \/
     x = [] /\ u && match r with d :: _ => negb (d =? ch "}") | [] => false end = false).
  { destruct x as [|d x]; [|left; rewrite E; reflexivity]. right. split; [reflexivity|].
    destruct (u && _) eqn:Q; [|reflexivity]. exfalso. apply istr_shorter in H. rewrite E in H. cbn in H. lia. }
  assert (U2 : u && match r with d :: _ => negb (d =? ch "}") | [] => false end = u && match x with d :: _ => negb (d =? ch "}") | [] => false end).
  { destruct U as [U|[-> U]]; [now rewrite U|]. rewrite U, andb_false_r. reflexivity. }
  rewrite U2 in H. destruct (u && _); [auto|]. clear U U2.
  destruct (negb esc && negb z && ((c =? c_nl) || (c =? c_cr))); [discriminate|].
  destruct esc; [destruct (c =? ch "z"); auto|].
  destruct (c =? c_backslash).
  { destruct r as [|d r]; [apply istr_shorter in H; cbn in H; lia|]. 
    destruct x as [|d' x]; cbn [app] in E.
    { exfalso. destruct (d =? ch "u"); [|apply istr_shorter in H; rewrite <- E in H; cbn in H; lia].
      destruct r as [|e r]; [|destruct (e =? ch "{")]; apply istr_shorter in H; rewrite <- E in H; cbn in H; lia. }
    injection E as <- E. destruct (d =? ch "u"); [|auto]. cbn [List.length] in Hl.
    assert (K2 : forall p1 p2 acc' esc' z' u', read_istr r p1 acc' esc' z' u' = (w, Some b, s) ->
      exists p, read_istr x p2 acc' esc' z' u' = (w, Some b, mkSrc [] p)).
    { intros p1 p2 acc' esc' z' u' HH. eapply IH; [|exact HH|exact E]. lia. }
    destruct r as [|e r]; [apply istr_shorter in H; cbn in H; lia|].
    destruct x as [|e' x]; cbn [app] in E.
    { exfalso. destruct (e =? ch "{"); apply istr_shorter in H; rewrite <- E in H; cbn in H; lia. }
    injection E as <- E. destruct (e =? ch "{"); [|eauto]. cbn [List.length] in Hl. eapply IH; [|exact H|exact E]. lia. }
  destruct (((c =? c_nl) || (c =? c_cr)) && z); [auto|].
  assert (Z : forall r0 p0, (w, Some b, s) = (acc, Some r0, mkSrc r p0) -> x = []).
  { intros r0 p0 Q. injection Q as _ _ ->. cbn [s_rest] in E. apply (f_equal (@List.length char)) in E. rewrite app_length in E. destruct x; [reflexivity|cbn in E; lia]. }
  destruct (c =? ch "{"). { injection H as <- <- <-. rewrite (Z _ _ eq_refl). eauto. }
  destruct (c =? c_backtick). { injection H as <- <- <-. rewrite (Z _ _ eq_refl). eauto. }
  auto.
Qed.

(** ** Comments *)
Lemma long_closes_alone n full b r : closes_first n full b r -> closes_first n (b ++ long_bracket_close n) b [].
Proof.
  intros [E F]. split; [now rewrite app_nil_r|]. intros u v Q. apply (F u (v ++ r)). rewrite E.
  rewrite app_assoc, Q, <- !app_assoc. reflexivity.
Qed.

Lemma c_closes_alone (b r : text) : (forall u v, b ++ str "*/" ++ r = u ++ str "*/" ++ v -> (List.length b <= List.length u)%nat) ->
  forall u v, b ++ str "*/" = u ++ str "*/" ++ v -> (List.length b <= List.length u)%nat.
Proof. intros F u v Q. apply (F u (v ++ r)). rewrite app_assoc, Q, <- !app_assoc. reflexivity. Qed.

Lemma first_unique (z b r b' r' full : text) : full = b ++ z ++ r -> (forall u v, full = u ++ z ++ v -> (List.length b <= List.length u)%nat) ->
  full = b' ++ z ++ r' -> (forall u v, full = u ++ z ++ v -> (List.length b' <= List.length u)%nat) -> b = b' /\ r = r'.
Proof.
  intros E1 F1 E2 F2. assert (L : List.length b = List.length b') by (pose proof (F1 _ _ E2); pose proof (F2 _ _ E1); lia).
  rewrite E1 in E2. apply app_length_eq in E2 as [-> E2]; [|assumption]. now apply app_inv_head in E2.
Qed.

Lemma c_comment_reads c b r : has_cfxlua c = true -> (forall u v, b ++ str "*/" ++ r = u ++ str "*/" ++ v -> (List.length b <= List.length u)%nat) ->
  reads c (str "/*" ++ b ++ str "*/") (TCStyleComment b).
Proof.
  intros Hc F l v B E ->. rewrite app_nil_r in E. change (str "/*" ++ b ++ str "*/") with (47 :: 42 :: b ++ str "*/") in E.
  assert (P : process_next c l = (let '(t, recovered, s) := read_c_style_comment (b ++ str "*/") (advance (advance (s_pos (l_src l)) 47) 42) [] in
     yield (create_recovered s (s_pos (l_src l)) t (recovered_errs recovered UnclosedComment (s_pos (l_src l)) s)) (with_src l s))).
  { head_step E. rewrite Hc, !orb_true_r. reflexivity. }
  rewrite P. destruct (read_c_style_comment _ _ _) as [[t rc] s] eqn:R. apply read_c_style_comment_spec in R as [(b' & -> & -> & [M _] & F')|(_ & _ & _ & _ & N)].
  - change c_closer with (str "*/") in *. cbn [s_rest] in M. rewrite <- app_assoc in M.
    destruct (first_unique (str "*/") b [] b' (s_rest s) (b ++ str "*/")) as [<- Er]; auto.
    { now apply c_closes_alone with r. }
    do 2 eexists. split; [reflexivity|]. repeat split. cbn. now rewrite <- Er.
  - exfalso. apply (N b []). reflexivity.
Qed.

Lemma dashes_comment c l r : s_rest (l_src l) = 45 :: 45 :: r -> process_next c l =
   (let '(t, recovered, s) := read_comment (mkSrc r (advance (advance (s_pos (l_src l)) 45) 45)) in
     yield (create_recovered s (s_pos (l_src l)) t (recovered_errs recovered UnclosedComment (s_pos (l_src l)) s)) (with_src l s)).
Proof. intros E. head_step E. destruct (has_luau c), (has_cfxlua c); reflexivity. Qed.

Lemma long_comment_reads c n full b r : closes_first n full b r -> reads c (str "--" ++ long_bracket_open n ++ b ++ long_bracket_close n) (TMultiLineComment n b).
Proof.
  intros F l v B E ->. rewrite app_nil_r in E. apply long_closes_alone in F.
  change (s_rest (l_src l) = 45 :: 45 :: long_bracket_open n ++ b ++ long_bracket_close n) in E.
  rewrite (dashes_comment c l _ E). destruct (read_comment _) as [[t rc] s] eqn:R. apply read_comment_spec in R.
  cbn [s_rest] in R. destruct R as [(m & b' & full' & -> & -> & E2 & F2 & _)|[(m & b' & _ & _ & E2 & N & _)|(t0 & _ & _ & _ & N & _)]].
  - apply long_bracket_open_inj in E2 as [<- <-]. destruct (closes_first_unique _ _ _ _ _ _ F F2) as [<- Er].
    do 2 eexists. split; [reflexivity|]. repeat split. cbn. now rewrite <- Er.
  - exfalso. apply long_bracket_open_inj in E2 as [<- <-]. destruct F as [F _]. now apply N in F.
  - exfalso. eapply N. reflexivity.
Qed.

Lemma line_comment_reads c t : forallb (fun x => negb (x =? 10)) t = true -> (forall n v, t <> long_bracket_open n ++ v) ->
  reads c (str "--" ++ t) (TSingleLineComment t).
Proof.
  intros F N l v B E ->. rewrite app_nil_r in E. change (s_rest (l_src l) = 45 :: 45 :: t) in E.
  rewrite (dashes_comment c l _ E). destruct (read_comment _) as [[tt rc] s] eqn:R. apply read_comment_spec in R.
  cbn [s_rest] in R. destruct R as [(m & b' & full' & -> & -> & E2 & F2 & _)|[(m & b' & _ & _ & E2 & _)|(t0 & -> & -> & [M _] & _ & F0 & H)]].
  - exfalso. eapply N. exact E2.
  - exfalso. eapply N. exact E2.
  - cbn [s_rest] in M. assert (Es : s_rest s = []).
    { destruct (s_rest s) as [|x r]; [reflexivity|]. exfalso. rewrite M, forallb_app in F. apply andb_true_iff in F as [_ F]. cbn in F, H.
      change c_nl with 10 in H. now rewrite H in F. }
    rewrite Es, app_nil_r in M. subst t0. do 2 eexists. split; [reflexivity|]. repeat split. exact Es.
Qed.

Lemma long_string_reads c n full b r : closes_first n full b r -> reads c (long_bracket_open n ++ b ++ long_bracket_close n) (TStringLiteral b n QBrackets).
Proof.
  intros F l v B E ->. rewrite app_nil_r in E. apply long_closes_alone in F.
  destruct (proj1 (long_string_step c l n _ E) b [] F) as (t & l' & P & T & R). exists t, l'. repeat split; auto.
  apply process_next_ok in P as (_ & _ & _ & [(E1 & _)|(_ & _ & E1)]); [congruence|exact E1].
Qed.

Lemma string_reads c q qt lit r pos s : string_quote_type c q = Some qt -> has_luau c && (q =? c_backtick) = false ->
  read_string_loop c q r pos [] false false = (lit, false, s) -> reads c (q :: lit ++ [q]) (TStringLiteral lit O qt).
Proof.
  intros Hq Hv R l v B E ->. rewrite app_nil_r in E. destruct (quote_not_special _ _ _ Hq) as (Q1 & Q2 & Q3).
  pose proof R as R0. apply read_string_loop_spec in R0 as (t & -> & [M _] & _); auto. cbn [app s_rest] in M.
  destruct (string_local c q r pos [] false false t s Q1 Q2 Q3 R (t ++ [q]) (advance (s_pos (l_src l)) q) M) as (p & R2).
  assert (P : process_next c l = (let '(literal, recovered, s) := read_string_loop c q (t ++ [q]) (advance (s_pos (l_src l)) q) [] false false in
              yield (create_recovered s (s_pos (l_src l)) (TStringLiteral literal O qt)
                       (recovered_errs recovered UnclosedString (s_pos (l_src l)) s)) (with_src l s))).
  { unfold process_next, src_next. rewrite E. cbn [s_rest s_pos app].
    unfold string_quote_type in Hq |- *.
    destruct (q =? c_dquote) eqn:K1; [apply N.eqb_eq in K1; subst q; injection Hq as <-|
    destruct (q =? c_squote) eqn:K2; [apply N.eqb_eq in K2; subst q; injection Hq as <-|
    destruct (f_cfxlua (c_feat c)) eqn:K4; cbn [andb] in Hq; [|discriminate]; destruct (q =? c_backtick) eqn:K3; [apply N.eqb_eq in K3; subst q; injection Hq as <-|discriminate]]];
    cbn -[read_string_loop yield create_recovered with_src has_luau]; rewrite ?andb_false_r; rewrite ?andb_true_r in *; rewrite ?Hv; try reflexivity. }
  rewrite P, R2. do 2 eexists. split; [reflexivity|]. repeat split.
Qed.

Lemma istr_reads c (b : bool) lit r pos s : has_luau c = true -> read_istr r pos [] false false false = (lit, Some b, s) ->
  reads c (c_backtick :: lit ++ [if b then ch "{" else c_backtick]) (TInterpolatedString lit (if b then IBegin else ISimple)).
Proof.
  intros Hv R l v B E ->. rewrite app_nil_r in E.
  pose proof R as R0. apply read_istr_spec in R0 as (t & -> & M). cbn [app] in *.
  assert (M2 : r = (t ++ [if b then ch "{" else c_backtick]) ++ s_rest s) by (destruct b; destruct M as [M _]; exact M).
  destruct (istr_local _ r pos [] false false false t b s (le_n _) R _ (advance (s_pos (l_src l)) c_backtick) M2) as (p & R2).
  unfold process_next, src_next. rewrite E.
  cbn -[read_interpolated_string_section yield create_recovered with_src has_luau]. rewrite Hv. cbn [andb].
  unfold read_interpolated_string_section. cbn [with_src l_src s_rest s_pos]. change 96 with c_backtick. rewrite R2.
  destruct b; do 2 eexists; (split; [reflexivity|]); repeat split.
Qed.

(** ** Operators *)
Lemma symbol_reads c sy : is_op sy = true -> sym_enabled c sy = true -> cfx53 c -> reads c (sym_text sy) (TSymbol sy).
Proof.
  intros Ho He Hx l v B E ->. rewrite app_nil_r in E.
  assert (G : exists t l', process_next c l = Done (Some (LOk t), l') /\ t_type t = TSymbol sy /\ s_rest (l_src l') = []).
  { destruct sy; try discriminate Ho; cbn [sym_enabled] in He; 
    (match type of E with _ = ?x => let y := eval vm_compute in x in change (s_rest (l_src l) = y) in E end);
    unfold process_next, src_next; rewrite E; rewrite ?B;
    lazy -[has_luau has_luajit has_lua52 has_lua53 has_cfxlua advance l_src l_braces l_sent_eof s_pos]; unfold cfx53 in Hx;
    repeat match goal with
      | |- context[has_luau c] => destruct (has_luau c) eqn:?
      | |- context[has_lua52 c] => destruct (has_lua52 c) eqn:?
      | |- context[has_lua53 c] => destruct (has_lua53 c) eqn:?
      | |- context[has_luajit c] => destruct (has_luajit c) eqn:?
      | |- context[has_cfxlua c] => destruct (has_cfxlua c) eqn:?
    end; try discriminate He; try (specialize (Hx eq_refl); discriminate Hx); try (specialize (Hx He); discriminate Hx);
    rewrite ?B; do 2 eexists; (split; [reflexivity|]); split; reflexivity. }
  destruct G as (t & l' & P & T & R). exists t, l'. repeat split; auto.
  apply process_next_ok in P as (_ & _ & _ & [(E1 & _)|(_ & _ & E1)]); [congruence|exact E1].
Qed.

(** ** Every kind of token *)
Lemma open_text n (b : text) : str "[" ++ repeat_eq n ++ str "[" ++ b ++ str "]" ++ repeat_eq n ++ str "]" = long_bracket_open n ++ b ++ long_bracket_close n.
Proof. unfold long_bracket_open, long_bracket_close. rewrite <- !app_assoc. reflexivity. Qed.

Lemma number_reads c w l l' : pcase c l l' (TNumber w) [] -> reads c w (TNumber w).
Proof.
  intros PC. inversion PC; subst; not_word. intros l0 v B E ->.
  destruct (number_step c l0 w [] ltac:(assumption)) as (t1 & l1 & A1 & A2 & A3 & A4); [intros ? ? ?; discriminate|exact E|]. exists t1, l1. auto.
Qed.

Lemma token_reads c l t l' : cfx53 c -> process_next c l = Done (Some (LOk t), l') -> t_type t <> TEof -> ~ needs_open_brace (t_type t) ->
  reads c (show_token t) (t_type t).
Proof.
  intros Hx P Hne Hnb. pose proof (process_next_cases c l) as HC. rewrite P in HC. cbn [next_ok] in HC.
  assert (PS : pstep c l t [] l') by (left; auto).
  apply pstep_case in PS as [_ PC]. unfold show_token. clear P.
  remember (Some (LOk t)) as o eqn:Ho.
  destruct HC as [ | He Hs | next w s Hid M F Hd | next w s Hn M T Z | s M | d r res s HR Hx0 R | d r res s HR Hx0 Hv R
    | d r res s HR Hx0 Hv R | d r res s HR Hx0 R | r res l1 HR Hv R | r bs res l1 HR Hv Hb R
    | q r qt lit rec s HR Hq Hv R | r n b s HR R | r n b s HR R | r tt rec s HR R | r tt rec s HR Hv R
    | sy s Hop M HL HE _ _ _ _ _ | d s e M He HN ]; try discriminate Ho; injection Ho as Ho; subst; cbn [t_type] in *.
  - congruence.
  - assert (Es : show_type (match sym_from_str c (next :: w) with Some sy => TSymbol sy | None => TIdentifier (next :: w) end) = next :: w).
    { destruct (sym_from_str c (next :: w)) eqn:Es; [|reflexivity]. now apply sym_from_str_text in Es as [Es _]. }
    rewrite Es. apply word_reads. exists next, w. split; [reflexivity|]. rewrite <- letter_ident. split; [assumption|].
    rewrite <- F. apply forallb_ext_eq. intros x. now rewrite word_part_is.
  - now apply ws_reads.
  - apply nl_reads.
  - apply read_hex_number_spec in R as (u & _ & [[E _]|E]); [|discriminate|cbn; lia]. inversion E; subst. eapply number_reads. exact PC.
  - apply read_binary_number_spec in R as (u & _ & [[E _]|E]); [|discriminate|cbn; lia]. inversion E; subst. eapply number_reads. exact PC.
  - apply read_number_spec in R as (u & _ & [[E _]|E]); [|discriminate]. inversion E; subst. eapply number_reads. exact PC.
  - apply read_number_spec in R as (u & _ & [[E _]|E]); [|discriminate]. inversion E; subst. eapply number_reads. exact PC.
  - unfold read_interpolated_string_section in R. cbn [with_src l_src s_rest s_pos] in R.
    destruct (read_istr _ _ _ _ _ _) as [[lit [b|]] s] eqn:RI; [|discriminate R].
    pose proof (istr_reads c b lit _ _ _ Hv RI) as G.
    destruct b; injection R as <- _; exact G.
  - exfalso. unfold read_interpolated_string_section in R. cbn [with_src l_src s_rest s_pos] in R.
    destruct (read_istr _ _ _ _ _ _) as [[lit [[]|]] s] eqn:RI; [| |discriminate R]; injection R as <- _; apply Hnb; eexists; cbn; eauto.
  - apply recovered_ok in Ho as [-> ->]. cbn [t_type] in *. rewrite (show_string_literal _ q _ c) by assumption. eapply string_reads; eassumption.
  - apply read_multi_line_body_spec in R as (m & -> & full & _ & F & _). cbn [show_type]. rewrite open_text. eapply long_string_reads. exact F.
  - apply recovered_ok in Ho as [-> ->]. cbn [t_type] in *.
    apply read_comment_spec in R as [(n & b & full & -> & _ & _ & F & _)|[(n & b & -> & E & _)|(u & -> & _ & [M _] & N & F & H)]].
    + cbn [show_type]. change (str "--[" ++ repeat_eq n ++ str "[" ++ b ++ str "]" ++ repeat_eq n ++ str "]")
        with (str "--" ++ str "[" ++ repeat_eq n ++ str "[" ++ b ++ str "]" ++ repeat_eq n ++ str "]").
      rewrite open_text. eapply long_comment_reads. exact F.
    + discriminate.
    + cbn [show_type]. apply line_comment_reads; [exact F|]. intros n v E. apply (N n (v ++ s_rest s)). rewrite M, E, <- app_assoc. reflexivity.
  - apply recovered_ok in Ho as [-> ->]. cbn [t_type] in *.
    apply read_c_style_comment_spec in R as [(b & -> & _ & [M _] & F)|(_ & E & _)]; [|discriminate].
    cbn [show_type app]. apply (c_comment_reads c b (s_rest s)); [assumption|]. intros a v E. apply (F a v).
    cbn [s_rest] in M. rewrite M, <- app_assoc. exact E.
  - apply symbol_reads; auto.
Qed.

(** ** The whole run over one token's text *)
Lemma eof_stream c s bs : s_rest s = [] -> exists e, stream c (mkLexer s false bs) [LOk (mkRef [] e [])] /\ t_type e = TEof /\
  forall fuel ld es, (0 < fuel)%nat -> exists l', leading_loop fuel c (mkLexer s false bs) ld es = Done (LdToken e ld es, l') /\ ended l' /\
    collect_trailing_trivia (lexer_fuel l') c l' = Done ([], l').
Proof.
  intros E. exists (mkToken (s_pos s) (s_pos s) TEof).
  assert (P : process_next c (mkLexer s false bs) = Done (Some (LOk (mkToken (s_pos s) (s_pos s) TEof)), mkLexer s true bs)).
  { unfold process_next, src_next. cbn [l_src]. rewrite E. reflexivity. }
  assert (T : forall f, collect_trailing_trivia (S f) c (mkLexer s true bs) = Done ([], mkLexer s true bs)).
  { intros f. cbn [collect_trailing_trivia l_src]. unfold src_current. rewrite E. reflexivity. }
  assert (En : ended (mkLexer s true bs)) by (split; [exact E|reflexivity]).
  split; [|split; [reflexivity|]].
  - eapply st_cons; [|apply st_nil; exact En]. unfold process_next_with_trivia, lexer_fuel. cbn [leading_loop]. rewrite P. cbn [t_type is_trivia].
    rewrite T. reflexivity.
  - intros fuel ld es Hf. exists (mkLexer s true bs). destruct fuel; [lia|]. cbn [leading_loop]. rewrite P. cbn [t_type is_trivia].
    split; [reflexivity|]. split; [exact En|]. apply T.
Qed.

Lemma one_token_stream c w tt : reads c w tt -> tt <> TEof ->
  exists rs t e, stream c (new_lazy w) rs /\ clean rs /\ tokens_of rs = [t; e] /\ t_type t = tt /\ t_type e = TEof.
Proof.
  intros R Hne. destruct (R (new_lazy w) [] eq_refl) as (t & l' & P & T & Rs & Se); [cbn; now rewrite app_nil_r|reflexivity|].
  destruct l' as [s b bs]. cbn [l_src l_sent_eof new_lazy] in Rs, Se. subst b.
  destruct (eof_stream c s bs Rs) as (e & ES & Te & L).
  destruct (is_trivia tt) eqn:Tr.
  - exists [LOk (mkRef [t] e [])], t, e. split; [|split; [repeat constructor; eauto|split; [reflexivity|auto]]].
    destruct (L (S (List.length w)) [t] None) as (l2 & L1 & L2 & L3); [lia|].
    eapply st_cons; [|apply st_nil; exact L2]. unfold process_next_with_trivia.
    change (lexer_fuel (new_lazy w)) with (S (S (List.length w))). remember (S (List.length w)) as f. cbn [leading_loop]. rewrite P, T, Tr.
    cbn [app]. rewrite L1, L3. reflexivity.
  - exists [LOk (mkRef [] t []); LOk (mkRef [] e [])], t, e. split; [|split; [repeat constructor; eauto|split; [reflexivity|auto]]].
    eapply st_cons; [|exact ES]. unfold process_next_with_trivia, lexer_fuel. cbn [leading_loop]. rewrite P, T, Tr.
    cbn [collect_trailing_trivia l_src]. unfold src_current. rewrite Rs. reflexivity.
Qed.

Lemma stream_step c l rs : stream c l rs -> exists l', process_next_with_trivia c l = Done (hd_error rs, l') /\ stream c l' (tl rs).
Proof.
  intros [l0 E|l0 r l' rs' E S].
  - exists l0. split; [now apply ended_next_trivia|now apply st_nil].
  - exists l'. auto.
Qed.

Lemma drain_stream c : forall fuel rs l, (List.length rs < fuel)%nat -> stream c l (tl (tl rs)) ->
  drain fuel c (mkLx l (hd_error rs) (hd_error (tl rs))) = Done rs.
Proof.
  induction fuel as [|fuel IH]; intros rs l Hl S; [lia|]. cbn [drain]. unfold lexer_consume. cbn [lx_next lx lx_peek].
  destruct rs as [|r rs]; [reflexivity|]. cbn [hd_error tl] in *. destruct (stream_step _ _ _ S) as (l' & E & S'). rewrite E.
  rewrite IH; [reflexivity|cbn in Hl; lia|exact S'].
Qed.

Lemma stream_tokenize c w rs : ~ shebang w -> stream c (new_lazy w) rs -> tokenize c w = Done rs.
Proof.
  intros NS S. pose proof (run_length c w rs (run_plain c w rs NS S)) as Hl.
  destruct (shebang_test w) as [(r & _ & SB)|[_ PF]]; [contradiction|].
  destruct (stream_step _ _ _ S) as (l1 & E1 & S1). destruct (stream_step _ _ _ S1) as (l2 & E2 & S2).
  unfold tokenize, lexer_new. rewrite PF, E1, E2. apply drain_stream; [lia|exact S2].
Qed.

Lemma op_not_shebang c w tt : reads c w tt -> tt <> TEof -> shebang w -> False.
Proof.
  intros R Hne (r & E). destruct (R (new_lazy w) [] eq_refl) as (t & l' & P & T & Rs & Se); [cbn; now rewrite app_nil_r|reflexivity|].
  unfold process_next, src_next in P. cbn [new_lazy l_src s_rest] in P. rewrite E in P. cbn in P. injection P as <- <-. discriminate Rs.
Qed.

Lemma relex_reads c w tt : reads c w tt -> tt <> TEof ->
  exists rs t e, tokenize c w = Done rs /\ clean rs /\ tokens_of rs = [t; e] /\ t_type t = tt /\ t_type e = TEof.
Proof.
  intros R Hne. destruct (one_token_stream c w tt R Hne) as (rs & t & e & S & H). exists rs, t, e. split; [|exact H].
  apply stream_tokenize; [|exact S]. intros SB. eapply op_not_shebang; eassumption.
Qed.

Lemma relex_eof c : exists rs e, tokenize c [] = Done rs /\ clean rs /\ tokens_of rs = [e] /\ t_type e = TEof.
Proof.
  destruct (eof_stream c (mkSrc [] pos0) [] eq_refl) as (e & S & T & _). exists [LOk (mkRef [] e [])], e.
  split; [apply stream_tokenize; [intros (r & E); discriminate|exact S]|]. split; [repeat constructor; eauto|]. auto.
Qed.

Lemma read_line_all t : forall pos acc, forallb not_nl t = true -> read_line t pos acc = (acc ++ t, mkSrc [] (adv pos t)).
Proof.
  induction t as [|x t IH]; intros pos acc F; cbn [read_line]; [now rewrite app_nil_r|].
  cbn in F. apply andb_true_iff in F as [F1 F2]. unfold not_nl in F1. apply negb_true_iff in F1. rewrite F1, IH by assumption.
  now rewrite <- app_assoc.
Qed.

Lemma relex_shebang c w : shebang w -> forallb not_nl w = true ->
  exists rs t e, tokenize c w = Done rs /\ clean rs /\ tokens_of rs = [t; e] /\ t_type t = TShebang w /\ t_type e = TEof.
Proof.
  intros (r & ->) F. change (str "#!" ++ r) with (ch "#" :: ch "!" :: r) in *.
  assert (F' : forallb not_nl r = true) by (cbn in F; exact F).
  set (s := mkSrc (@nil char) (adv (advance (advance pos0 (ch "#")) (ch "!")) r)).
  destruct (eof_stream c s [] eq_refl) as (e & S & T & _). destruct (stream_step _ _ _ S) as (l1 & E1 & S1). cbn [hd_error tl] in *.
  destruct (stream_step _ _ _ S1) as (l2 & E2 & S2). cbn [hd_error tl] in *.
  set (sb := mkToken pos0 (s_pos s) (TShebang (ch "#" :: ch "!" :: r))).
  exists [LOk (mkRef [sb] e [])], sb, e. split; [|split; [repeat constructor; eauto|split; [reflexivity|split; [reflexivity|exact T]]]].
  unfold tokenize, lexer_new, process_first_with_trivia. cbn [new_lazy l_src s_rest s_pos]. rewrite !N.eqb_refl. cbn [andb].
  rewrite read_line_all by exact F'. change (with_src (new_lazy (ch "#" :: ch "!" :: r)) (mkSrc [] (adv (advance (advance pos0 (ch "#")) (ch "!")) r))) with (mkLexer s false []).
  rewrite E1. cbn [r_leading r_token r_trailing]. rewrite E2.
  change (Some (LOk (mkRef [sb] e []))) with (hd_error [LOk (mkRef [sb] e [])]).
  apply (drain_stream c _ [LOk (mkRef [sb] e [])]); [cbn; lia|exact S2].
Qed.

Lemma relex c source rs t : cfg_ok c -> tokenize c source = Done rs -> In t (tokens_of rs) ->
  (forall e, In e (all_errors rs) -> fst (te_range e) <> t_start t) -> ~ needs_open_brace (t_type t) -> t_type t <> TEof ->
  exists rs' t' e, tokenize c (show_token t) = Done rs' /\ clean rs' /\ tokens_of rs' = [t'; e] /\ t_type t' = t_type t /\ t_type e = TEof.
Proof.
  intros Hc H Hi He Hb Hne. apply tokenize_done in H.
  assert (G : forall l rs0, stream c l rs0 -> In t (tokens_of rs0) -> incl (all_errors rs0) (all_errors rs) ->
    exists rs' t' e, tokenize c (show_token t) = Done rs' /\ clean rs' /\ tokens_of rs' = [t'; e] /\ t_type t' = t_type t /\ t_type e = TEof).
  { intros l rs0 S Ht Hinc. unfold tokens_of in Ht. apply in_flat_map in Ht as (r & Hr & Ht). apply in_refs_of in Hr as (x & Hx & Hr).
    destruct (stream_origin2 _ _ _ S _ _ _ Hx Hr Ht) as (u' & l1 & l2 & es & M' & P & Ei).
    pose proof (pstep_case _ _ _ _ _ P) as [E3 _].
    destruct es as [|e0 es].
    - destruct P as [[P _]|[_ P]]; [|congruence]. apply relex_reads; [|assumption]. eapply token_reads; try eassumption. now apply cfg_ok_cfx53.
    - exfalso. apply (He e0).
      + apply Hinc. unfold all_errors. apply in_flat_map. exists x. split; [assumption|]. apply Ei. now left.
      + rewrite E3. eapply pstep_error_start; [eassumption|now left]. }
  destruct H as [rs' NS S|line s sb r rs' SB M F HN -> Nl S|line s r rs' SB M F HN Nl S NO].
  - eapply G; [eassumption|eassumption|apply incl_refl].
  - change (tokens_of (LOk (add_shebang (mkToken pos0 (s_pos s) (TShebang line)) r) :: rs')) with
      (mkToken pos0 (s_pos s) (TShebang line) :: tokens_of (LOk r :: rs')) in Hi.
    destruct Hi as [<-|Hi]; [|eapply G; [eassumption|eassumption|apply incl_refl]].
    change (show_token (mkToken pos0 (s_pos s) (TShebang line))) with line. cbn [t_type]. apply relex_shebang; [|assumption].
    destruct SB as (z & ->). destruct M as [M _]. cbn [s_rest] in M.
    destruct line as [|x [|y line]]; [congruence| |].
    + exfalso. cbn in M. injection M as <- M. rewrite <- M in HN. discriminate HN.
    + cbn in M. injection M as <- <- M. exists line. reflexivity.
  - apply stream_next in S as (l' & E & S). eapply G; [eassumption|eassumption|apply incl_refl].
Qed.
