(** Case analysis principle for [process_next]. Proof file. *)
From Verif Require Import Lexer LexerFacts LexerFacts2.
From Coq Require Import Lia ZifyBool ZifyNat ZifyN.
Local Open Scope N_scope.
Arguments ch a : simpl never.
Arguments advance p c : simpl never.

(** Symbols that are not words. *)
Definition is_op (s : symbol) : bool :=
  match sym_text s with c :: _ => negb (is_identifier_start c) | [] => false end.

(** [sy] is the longest enabled symbol at the start of [rest]. *)
Definition longest (c : cfg) (rest : text) (sy : symbol) : Prop :=
  forall sy' v, sym_enabled c sy' = true -> rest = sym_text sy' ++ v ->
    (List.length (sym_text sy') <= List.length (sym_text sy))%nat.

(** Brace stack after an operator symbol. *)
Definition braces_after (c : cfg) (sy : symbol) (bs : list brace) : list brace :=
  if has_luau c then
    match sy, bs with
    | SLeftBrace, _ => BNormal :: bs
    | SRightBrace, _ :: bs => bs
    | _, _ => bs
    end
  else bs.

(** The version set is one that [LuaVersion] can hold: cfxlua comes with lua53. *)
Definition cfx53 (c : cfg) : Prop := has_cfxlua c = true -> has_lua53 c = true.

Inductive next_case (c : cfg) (l : lexer) : option (lexres token) -> lexer -> Prop :=
| NC_none : s_rest (l_src l) = [] -> l_sent_eof l = true -> next_case c l None l
| NC_eof : s_rest (l_src l) = [] -> l_sent_eof l = false ->
    next_case c l (Some (LOk (mkToken (s_pos (l_src l)) (s_pos (l_src l)) TEof))) (mkLexer (l_src l) true (l_braces l))
| NC_word next t s :
    is_identifier_start next = true -> moved (l_src l) (next :: t) s -> forallb word_char t = true ->
    head_not word_char (s_rest s) ->
    next_case c l
      (Some (LOk (mkToken (s_pos (l_src l)) (s_pos s)
         (match sym_from_str c (next :: t) with Some sy => TSymbol sy | None => TIdentifier (next :: t) end))))
      (with_src l s)
| NC_ws next t s :
    next = c_space \/ next = c_tab \/ next = c_cr -> moved (l_src l) (next :: t) s -> ws_tail t ->
    (ends_nl t = false -> ws_more (s_rest s) = false) ->
    next_case c l
      (Some (LOk (mkToken (s_pos (l_src l)) (end_pos (s_pos (l_src l)) (next :: t)) (TWhitespace (next :: t)))))
      (with_src l s)
| NC_nl s : moved (l_src l) [c_nl] s ->
    next_case c l (Some (LOk (mkToken (s_pos (l_src l)) (end_pos (s_pos (l_src l)) [c_nl]) (TWhitespace [c_nl])))) (with_src l s)
| NC_hex d r res s :
    s_rest (l_src l) = ch "0" :: d :: r -> d = ch "x" \/ d = ch "X" ->
    read_hex_number c (s_pos (l_src l)) r (advance (advance (s_pos (l_src l)) (ch "0")) d) [ch "0"; d] false = (res, s) ->
    next_case c l (Some res) (with_src l s)
| NC_bin d r res s :
    s_rest (l_src l) = ch "0" :: d :: r -> d = ch "b" \/ d = ch "B" -> has_luau c || has_luajit c = true ->
    read_binary_number c (s_pos (l_src l)) r (advance (advance (s_pos (l_src l)) (ch "0")) d) [ch "0"; d] = (res, s) ->
    next_case c l (Some res) (with_src l s)
| NC_dec d r res s :
    s_rest (l_src l) = d :: r -> is_digit d = true ->
    (d = ch "0" -> forall x r', r = x :: r' -> x <> ch "x" /\ x <> ch "X" /\
       (has_luau c || has_luajit c = true -> x <> ch "b" /\ x <> ch "B")) ->
    read_number c (s_pos (l_src l)) r (advance (s_pos (l_src l)) d) [d] false = (res, s) ->
    next_case c l (Some res) (with_src l s)
| NC_dot d r res s :
    s_rest (l_src l) = ch "." :: d :: r -> is_digit d = true ->
    read_number c (s_pos (l_src l)) (d :: r) (advance (s_pos (l_src l)) (ch ".")) [ch "."] false = (res, s) ->
    next_case c l (Some res) (with_src l s)
| NC_istr_begin r res l' :
    s_rest (l_src l) = c_backtick :: r -> has_luau c = true ->
    read_interpolated_string_section (with_src l (mkSrc r (advance (s_pos (l_src l)) c_backtick))) (s_pos (l_src l)) IBegin ISimple = (res, l') ->
    next_case c l (Some res) l'
| NC_istr_middle r bs res l' :
    s_rest (l_src l) = ch "}" :: r -> has_luau c = true -> l_braces l = BInterpolated :: bs ->
    read_interpolated_string_section (mkLexer (mkSrc r (advance (s_pos (l_src l)) (ch "}"))) (l_sent_eof l) bs)
      (s_pos (l_src l)) IMiddle IEnd = (res, l') ->
    next_case c l (Some res) l'
| NC_str q r qt lit rec s :
    s_rest (l_src l) = q :: r -> string_quote_type c q = Some qt -> has_luau c && (q =? c_backtick) = false ->
    read_string_loop c q r (advance (s_pos (l_src l)) q) [] false false = (lit, rec, s) ->
    next_case c l
      (Some (create_recovered s (s_pos (l_src l)) (TStringLiteral lit O qt) (recovered_errs rec UnclosedString (s_pos (l_src l)) s)))
      (with_src l s)
| NC_long_ok r n b s :
    s_rest (l_src l) = ch "[" :: r ->
    read_multi_line_body (mkSrc r (advance (s_pos (l_src l)) (ch "["))) = (MOk n b, s) ->
    next_case c l (Some (create s (s_pos (l_src l)) (TStringLiteral b n QBrackets))) (with_src l s)
| NC_long_bad r n b s :
    s_rest (l_src l) = ch "[" :: r ->
    read_multi_line_body (mkSrc r (advance (s_pos (l_src l)) (ch "["))) = (MUnclosed n b, s) ->
    next_case c l
      (Some (create_recovered s (s_pos (l_src l)) (TStringLiteral b n QBrackets) [mkTokError UnclosedString (s_pos (l_src l), s_pos s)]))
      (with_src l s)
| NC_comment r tt rec s :
    s_rest (l_src l) = ch "-" :: ch "-" :: r ->
    read_comment (mkSrc r (advance (advance (s_pos (l_src l)) (ch "-")) (ch "-"))) = (tt, rec, s) ->
    next_case c l
      (Some (create_recovered s (s_pos (l_src l)) tt (recovered_errs rec UnclosedComment (s_pos (l_src l)) s)))
      (with_src l s)
| NC_ccomment r tt rec s :
    s_rest (l_src l) = ch "/" :: ch "*" :: r -> has_cfxlua c = true ->
    read_c_style_comment r (advance (advance (s_pos (l_src l)) (ch "/")) (ch "*")) [] = (tt, rec, s) ->
    next_case c l
      (Some (create_recovered s (s_pos (l_src l)) tt (recovered_errs rec UnclosedComment (s_pos (l_src l)) s)))
      (with_src l s)
| NC_symbol sy s :
    is_op sy = true -> moved (l_src l) (sym_text sy) s -> longest c (s_rest (l_src l)) sy ->
    (cfx53 c -> sym_enabled c sy = true) ->
    (sy = SLeftBracket -> no_long_open (s_rest (l_src l))) ->
    (sy = SDot -> forall d r, s_rest s = d :: r -> is_digit d = false) ->
    (sy = SMinus -> forall r, s_rest s <> ch "-" :: r) ->
    (sy = SSlash -> has_cfxlua c = true -> forall r, s_rest s <> ch "*" :: r) ->
    (sy = SRightBrace -> has_luau c = true -> forall bs, l_braces l <> BInterpolated :: bs) ->
    next_case c l (Some (LOk (mkToken (s_pos (l_src l)) (s_pos s) (TSymbol sy))))
      (mkLexer s (l_sent_eof l) (braces_after c sy (l_braces l)))
| NC_fatal d s e :
    moved (l_src l) [d] s -> e = UnexpectedToken d \/ (d = ch "~" /\ e = InvalidSymbol (str "~")) ->
    (forall sy v, sym_enabled c sy = true -> s_rest (l_src l) <> sym_text sy ++ v) ->
    next_case c l (Some (LFatal [mkTokError e (s_pos (l_src l), s_pos s)])) (with_src l s).

(** The only panic: a backtick without Luau and without the cfxlua feature. *)
Definition backtick_panic (c : cfg) (l : lexer) : Prop :=
  (exists r, s_rest (l_src l) = c_backtick :: r) /\ has_luau c = false /\ f_cfxlua (c_feat c) = false.

Definition next_ok (c : cfg) (l : lexer) (r : next_result) : Prop :=
  match r with
  | Done (o, l') => next_case c l o l'
  | Panic => backtick_panic c l
  | OutOfFuel => False
  end.

Lemma on_char_ok {A} (P : A -> Prop) g s x (k : src -> A) d :
  (g = true -> forall s', moved s [x] s' -> P (k s')) ->
  (g = false \/ head_not (fun y => y =? x) (s_rest s) -> P d) ->
  P (on_char g s x k d).
Proof.
  intros H1 H2. unfold on_char. destruct g; [|now apply H2; left].
  unfold src_consume. destruct s as [[|y r] p]; cbn [s_rest s_pos] in *.
  - apply H2. now right.
  - destruct (y =? x) eqn:E.
    + apply N.eqb_eq in E; subst y. apply H1; [reflexivity|]. split; reflexivity.
    + apply H2. right. exact E.
Qed.

(** Symbols starting with a given character. *)
Definition starting (x : char) : list symbol :=
  filter (fun sy => match sym_text sy with y :: _ => y =? x | [] => true end) all_symbols.

Lemma in_all_symbols sy : In sy all_symbols.
Proof. destruct sy; cbn; tauto. Qed.

Lemma in_starting x sy r v : x :: r = sym_text sy ++ v -> In sy (starting x).
Proof.
  intros E. apply filter_In. split; [apply in_all_symbols|]. destruct (sym_text sy) as [|y t]; [reflexivity|].
  cbn in E. injection E as <- _. apply N.eqb_refl.
Qed.

(** Closes [longest] and [no symbol] goals: compare with every symbol that starts alike. *)
Ltac no_sym :=
  repeat match goal with
  | H : moved _ _ _ |- _ => clear H
  | H : s_rest (l_src _) = _ |- _ => clear H
  | H : _ -> next_ok _ _ _ |- _ => clear H
  | H : (N.eqb _ _) = _ |- _ => clear H
  | H : in_range _ _ _ = _ |- _ => clear H
  | H : is_identifier_start _ = _ |- _ => clear H
  end;
  repeat match goal with s : src |- _ => destruct s; cbn [s_rest] in * end;
  let sy' := fresh "sy'" in let v := fresh "v" in let En := fresh "En" in let E := fresh "E" in let I := fresh "I" in
  intros sy' v En E; pose proof (in_starting _ _ _ _ E) as I; vm_compute in I;
  repeat (destruct I as [<-|I]); [..|destruct I];
  cbn in E |- *; try lia; try discriminate E;
  injection E; clear E; intros; subst; cbn in *; try discriminate;
  repeat match goal with H : _ \/ _ |- _ => destruct H; cbn in *; try discriminate end;
  repeat match goal with
  | H : has_luau _ = _ |- _ => rewrite H in *; clear H
  | H : has_cfxlua _ = _ |- _ => rewrite H in *; clear H
  | H : has_lua53 _ = _ |- _ => rewrite H in *; clear H
  | H : has_lua52 _ = _ |- _ => rewrite H in *; clear H
  | H : has_luajit _ = _ |- _ => rewrite H in *; clear H
  end; cbn in *; rewrite ?orb_true_r, ?orb_false_r in *; cbn in *; try discriminate; try congruence;
  try (exfalso; rewrite ?orb_true_iff, ?orb_false_iff in *; intuition congruence).

Lemma symbol_ok c l s sy l1 :
  is_op sy = true -> moved (l_src l) (sym_text sy) s -> longest c (s_rest (l_src l)) sy ->
  (cfx53 c -> sym_enabled c sy = true) ->
  (sy = SLeftBracket -> no_long_open (s_rest (l_src l))) ->
  (sy = SDot -> forall d r, s_rest s = d :: r -> is_digit d = false) ->
  (sy = SMinus -> forall r, s_rest s <> ch "-" :: r) ->
  (sy = SSlash -> has_cfxlua c = true -> forall r, s_rest s <> ch "*" :: r) ->
  (sy = SRightBrace -> has_luau c = true -> forall bs, l_braces l <> BInterpolated :: bs) ->
  l_sent_eof l1 = l_sent_eof l -> l_braces l1 = braces_after c sy (l_braces l) ->
  next_ok c l (yield_symbol l1 (s_pos (l_src l)) s sy).
Proof.
  intros. unfold yield_symbol, yield, next_ok, create, with_src.
  rewrite H8, H9. now apply NC_symbol.
Qed.

Ltac sym_side := 
  first [ reflexivity | assumption | (intro; discriminate)
        | (unfold cfx53 in *; cbn [sym_enabled]; intros; rewrite ?orb_true_iff in *; intuition congruence) ].

(** Solves a [symbol_ok] application once the cursor facts are in the context. *)
Ltac do_sym :=
  apply symbol_ok;
  [ reflexivity
  | repeat match goal with M : moved _ _ _ |- _ => revert M end; intros;
    repeat match goal with
    | M1 : moved ?a ?t ?b, M2 : moved ?b ?u ?d |- _ => pose proof (moved_app _ _ _ _ _ M1 M2); clear M2
    end; eassumption
  | idtac | idtac | idtac | idtac | idtac | idtac | idtac | reflexivity | idtac ].

Lemma process_next_cases c l : next_ok c l (process_next c l).
Proof.
  unfold process_next, src_next.
  destruct (s_rest (l_src l)) as [|x r] eqn:HR.
  { destruct (l_sent_eof l) eqn:HE; unfold next_ok, yield, create; [now apply NC_none|now apply NC_eof]. }
  set (s0 := mkSrc r (advance (s_pos (l_src l)) x)).
  assert (M0 : moved (l_src l) [x] s0) by (split; [exact HR|reflexivity]).
  cbn [s_rest s_pos] in *.
  destruct (is_identifier_start x) eqn:Eid.
  { destruct (read_word _ _ _) as [w s] eqn:R.
    apply read_word_spec in R as (t & -> & M & F & Hd).
    assert (M' : moved (l_src l) (x :: t) s) by (eapply (moved_app _ [x]); [exact M0|exact M]).
    unfold next_ok, yield, create. now apply NC_word. }
  destruct ((x =? c_space) || (x =? c_tab) || (x =? c_cr)) eqn:Ews.
  { rewrite !orb_true_iff, !N.eqb_eq in Ews.
    assert (Hadv : mkPos (p_bytes (s_pos (l_src l)) + len_utf8 x) (p_line (s_pos (l_src l))) (p_char (s_pos (l_src l)) + 1) = adv (s_pos (l_src l)) [x]).
    { destruct Ews as [[->| ->]| ->]; reflexivity. }
    rewrite Hadv.
    destruct (read_whitespace _ _ [x] _) as [[w e] s] eqn:R.
    apply (read_whitespace_spec _ (s_pos (l_src l))) in R; [|reflexivity|reflexivity|destruct Ews as [[->| ->]| ->]; reflexivity].
    destruct R as (t & -> & M & T & -> & Z).
    assert (M' : moved (l_src l) (x :: t) s) by (eapply (moved_app _ [x]); [exact M0|exact M]).
    unfold next_ok, yield. cbn [app]. apply NC_ws; auto. tauto. }
  destruct (x =? ch "0") eqn:E0.
  { apply N.eqb_eq in E0; subst x. change (s_rest s0) with r. change (s_pos s0) with (advance (s_pos (l_src l)) (ch "0")).
    assert (Dec : (forall y r', r = y :: r' -> y <> ch "x" /\ y <> ch "X" /\
       (has_luau c || has_luajit c = true -> y <> ch "b" /\ y <> ch "B")) ->
      next_ok c l (let '(t, s) := read_number c (s_pos (l_src l)) r (advance (s_pos (l_src l)) (ch "0")) [ch "0"] false in yield t (with_src l s))).
    { intros Hn. destruct (read_number _ _ _ _ _ _) as [t s] eqn:R. unfold next_ok, yield.
      eapply NC_dec; [exact HR|reflexivity|auto|exact R]. }
    destruct r as [|d r']; [apply Dec; discriminate|].
    destruct ((d =? ch "x") || (d =? ch "X")) eqn:Ex.
    { destruct (read_hex_number _ _ _ _ _ _) as [t s] eqn:R. unfold next_ok, yield.
      rewrite orb_true_iff, !N.eqb_eq in Ex. eapply NC_hex; [exact HR|exact Ex|exact R]. }
    destruct ((has_luau c || has_luajit c) && ((d =? ch "b") || (d =? ch "B"))) eqn:Eb.
    { destruct (read_binary_number _ _ _ _ _) as [t s] eqn:R. unfold next_ok, yield.
      rewrite andb_true_iff, (orb_true_iff (d =? _)), !N.eqb_eq in Eb. destruct Eb.
      eapply NC_bin; [exact HR|eassumption|assumption|exact R]. }
    apply Dec. intros y r'' [= <- <-].
    change (d <> ch "x" /\ d <> ch "X" /\ (has_luau c || has_luajit c = true -> d <> ch "b" /\ d <> ch "B")). apply orb_false_iff in Ex as [Ex1 Ex2].
    apply N.eqb_neq in Ex1, Ex2. repeat split; auto; try (intros ->; congruence).
    all: intros ->; rewrite H in Eb; discriminate. }
  destruct (in_range 49 57 x) eqn:E9.
  { destruct (read_number _ _ _ _ _ _) as [t s] eqn:R. unfold next_ok, yield.
    eapply NC_dec; [exact HR| |intros ->; discriminate|exact R].
    unfold is_digit, in_range in *. lia. }
  destruct ((x =? c_dquote) || (x =? c_squote) || (x =? c_backtick)) eqn:Eq.
  { destruct (has_luau c && (x =? c_backtick)) eqn:Ei.
    - apply andb_true_iff in Ei as [Ei1 Ei2]. apply N.eqb_eq in Ei2; subst x.
      destruct (read_interpolated_string_section _ _ _ _) as [t l'] eqn:R. unfold next_ok, yield.
      eapply NC_istr_begin; [exact HR|assumption|exact R].
    - destruct (string_quote_type c x) as [q|] eqn:Es.
      + destruct (read_string_loop _ _ _ _ _ _ _) as [[lit rec] s] eqn:R. unfold next_ok, yield.
        eapply NC_str; [exact HR|assumption|assumption|exact R].
      + unfold next_ok. assert (x = c_backtick).
        { unfold string_quote_type in Es. destruct (x =? c_dquote); [discriminate|]. destruct (x =? c_squote); [discriminate|].
          now apply N.eqb_eq. }
        subst x. split; [eauto|]. unfold string_quote_type in Es. cbn in Es, Ei.
        rewrite andb_true_r in Ei, Es. destruct (f_cfxlua (c_feat c)); [discriminate|auto]. }
  rewrite !orb_false_iff in Ews, Eq. destruct Ews as [[Ew1 Ew2] Ew3], Eq as [[Eq1 Eq2] Eq3].
  assert (HS : r = s_rest s0) by reflexivity. clearbody s0. subst r.
  assert (Fall : (forall sy v, sym_enabled c sy = true -> x :: s_rest s0 <> sym_text sy ++ v) ->
    next_ok c l (yield (LFatal [mkTokError (UnexpectedToken x) (s_pos (l_src l), s_pos s0)]) (with_src l s0))).
  { intros Hn. unfold next_ok, yield. eapply NC_fatal; [exact M0|now left|]. now rewrite HR. }
  Ltac braces_side := unfold braces_after; destruct (has_luau _); reflexivity.
  Ltac sym_arm HR :=
    do_sym; try sym_side; try braces_side;
    try (rewrite HR; no_sym).
  Ltac on_first E x := apply N.eqb_eq in E; subst x.
  destruct (x =? ch "=") eqn:E1.
  { on_first E1 x. apply on_char_ok; [intros Hg s1 M1|intros Hg]; sym_arm HR. }
  destruct (x =? ch "~") eqn:E2.
  { on_first E2 x. apply on_char_ok; [intros Hg s1 M1|intros Hg]; [sym_arm HR|].
    destruct (has_lua53 c) eqn:E53; [sym_arm HR|].
    unfold next_ok, yield. eapply NC_fatal; [exact M0|now right|]. rewrite HR. no_sym. }
  destruct (x =? c_nl) eqn:E3.
  { on_first E3 x. unfold next_ok, yield. now apply NC_nl. }
  destruct (x =? ch "(") eqn:E4.
  { on_first E4 x. sym_arm HR. }
  destruct (x =? ch ")") eqn:E5.
  { on_first E5 x. sym_arm HR. }
  destruct (x =? ch "[") eqn:E6.
  { on_first E6 x. assert (A : no_long_open (ch "[" :: s_rest s0) -> next_ok c l (yield_symbol l (s_pos (l_src l)) s0 SLeftBracket)).
    { intros Hn. do_sym; try sym_side; try braces_side; [rewrite HR; clear Hn; no_sym]. }
    unfold src_current. destruct (s_rest s0) as [|d r] eqn:HS.
    { apply A. intros n v E. unfold long_open in E. destruct n; discriminate E. }
    destruct ((d =? ch "[") || (d =? ch "=")) eqn:Ed.
    - assert (E0' : s0 = mkSrc (d :: r) (advance (s_pos (l_src l)) (ch "["))).
      { destruct s0 as [r0 p0]. cbn in HS. destruct M0 as [_ M0]. cbn in M0. congruence. }
      destruct (read_multi_line_body s0) as [[n b|n|n b] s] eqn:R; rewrite E0' in R.
      + unfold next_ok, yield. eapply NC_long_ok; [rewrite HR; reflexivity|exact R].
      + apply A. apply read_multi_line_body_spec in R as (m & -> & [M _] & Hd). cbn [s_rest] in M. rewrite M.
        now apply no_long_open_eq.
      + unfold next_ok, yield. eapply NC_long_bad; [rewrite HR; reflexivity|exact R].
    - apply A. apply (no_long_open_eq 0). cbn. now rewrite orb_comm. }
  destruct (x =? ch "]") eqn:E7.
  { on_first E7 x. sym_arm HR. }
  destruct (x =? ch ":") eqn:E8.
  { on_first E8 x. apply on_char_ok; [intros Hg s1 M1|intros Hg]; sym_arm HR. }
  destruct (x =? ch ",") eqn:E99.
  { on_first E99 x. sym_arm HR. }
  destruct (x =? ch "+") eqn:E10.
  { on_first E10 x. apply on_char_ok; [intros Hg s1 M1|intros Hg]; sym_arm HR. }
  destruct (x =? ch "*") eqn:E11.
  { on_first E11 x. apply on_char_ok; [intros Hg s1 M1|intros Hg]; sym_arm HR. }
  destruct (x =? ch "/") eqn:E12.
  { on_first E12 x. destruct (has_lua53 c || has_luau c || has_cfxlua c) eqn:Ev.
    - apply on_char_ok; [intros Hg s1 M1|intros Hg].
      + apply on_char_ok; [intros Hg2 s2 M2|intros Hg2]; do_sym; try sym_side; try braces_side; rewrite HR.
        * no_sym.
        * destruct M1 as [M1 _]. rewrite M1. cbn [app]. clear M0. no_sym.
      + apply on_char_ok; [intros Hg1 s1 M1|intros Hg1]; [sym_arm HR|].
        apply on_char_ok; [intros Hg2 s2 M2|intros Hg2].
        * destruct (read_c_style_comment _ _ _) as [[tt rec] s] eqn:R. unfold next_ok, yield.
          assert (E0' : mkSrc (s_rest s2) (s_pos s2) = mkSrc (s_rest s2) (advance (advance (s_pos (l_src l)) (ch "/")) (ch "*"))).
          { f_equal. destruct M2 as [_ ->], M0 as [_ ->]. reflexivity. }
          injection E0' as E0'. rewrite E0' in R.
          eapply NC_ccomment; [rewrite HR; destruct M2 as [-> _]; reflexivity|assumption|exact R].
        * do_sym; try sym_side; try braces_side; [rewrite HR; clear Hg2; no_sym|].
          intros _ Hc rr E. rewrite E in Hg2. cbn in Hg2. destruct Hg2; [congruence|discriminate].
    - do_sym; try sym_side; try braces_side; [rewrite HR; no_sym|].
      intros _ Hc. rewrite Hc, orb_true_r in Ev. discriminate. }
  destruct (x =? ch "%") eqn:E13.
  { on_first E13 x. apply on_char_ok; [intros Hg s1 M1|intros Hg]; sym_arm HR. }
  destruct (x =? ch "^") eqn:E14.
  { on_first E14 x. apply on_char_ok; [intros Hg s1 M1|intros Hg]; sym_arm HR. }
  destruct (x =? ch "#") eqn:E15.
  { on_first E15 x. sym_arm HR. }
  destruct (x =? ch "<") eqn:E16.
  { on_first E16 x. apply on_char_ok; [intros Hg s1 M1|intros Hg].
    - apply on_char_ok; [intros Hg2 s2 M2|intros Hg2]; do_sym; try sym_side; try braces_side; rewrite HR.
      + no_sym.
      + destruct M1 as [M1 _]. rewrite M1. cbn [app]. clear M0. no_sym.
    - apply on_char_ok; [intros Hg2 s2 M2|intros Hg2]; sym_arm HR. }
  destruct (x =? ch ">") eqn:E17.
  { on_first E17 x. apply on_char_ok; [intros Hg s1 M1|intros Hg].
    - apply on_char_ok; [intros Hg2 s2 M2|intros Hg2]; do_sym; try sym_side; try braces_side; rewrite HR.
      + no_sym.
      + destruct M1 as [M1 _]. rewrite M1. cbn [app]. clear M0. no_sym.
    - apply on_char_ok; [intros Hg2 s2 M2|intros Hg2]; sym_arm HR. }
  destruct (x =? ch "{") eqn:E18.
  { on_first E18 x. destruct (has_luau c) eqn:Elu; do_sym; try sym_side; try (rewrite HR; no_sym);
      unfold braces_after; now rewrite Elu. }
  destruct (x =? ch "}") eqn:E19.
  { on_first E19 x. destruct (has_luau c) eqn:Elu.
    - destruct (l_braces l) as [|[] bs] eqn:Ebr.
      + do_sym; try sym_side; try (rewrite HR; no_sym); rewrite Ebr; first [discriminate|unfold braces_after; now rewrite Elu].
      + destruct (read_interpolated_string_section _ _ _ _) as [t l'] eqn:R. unfold next_ok, yield.
        assert (E0' : s0 = mkSrc (s_rest s0) (advance (s_pos (l_src l)) (ch "}"))).
        { destruct s0 as [r0 p0]. destruct M0 as [_ M0]. cbn in M0. now subst. }
        rewrite E0' in R. eapply NC_istr_middle; [rewrite HR; reflexivity|assumption|eassumption|exact R].
      + do_sym; try sym_side; try (rewrite HR; no_sym); cbn [l_braces]; rewrite ?Ebr; first [discriminate|unfold braces_after; now rewrite Elu].
    - do_sym; try sym_side; try (rewrite HR; no_sym); unfold braces_after; now rewrite Elu. }
  destruct (x =? ch ".") eqn:E20.
  { on_first E20 x. apply on_char_ok; [intros Hg s1 M1|intros Hg].
    - apply on_char_ok; [intros Hg2 s2 M2|intros Hg2]; [sym_arm HR|].
      apply on_char_ok; [intros Hg3 s3 M3|intros Hg3]; do_sym; try sym_side; try braces_side; rewrite HR.
      + no_sym.
      + destruct M1 as [M1 _]. rewrite M1. cbn [app]. clear M0. no_sym.
    - unfold src_current. destruct (s_rest s0) as [|d r] eqn:HS.
      + do_sym; try sym_side; try braces_side; [rewrite HR; no_sym].
      + destruct (is_digit d) eqn:Ed.
        * destruct (read_number _ _ _ _ _ _) as [t s] eqn:R. unfold next_ok, yield.
          assert (E0' : s_pos s0 = advance (s_pos (l_src l)) (ch ".")) by (destruct M0 as [_ ->]; reflexivity).
          rewrite E0' in R.
          eapply NC_dot; [rewrite HR; reflexivity|assumption|exact R].
        * do_sym; try sym_side; try braces_side; [rewrite HR; no_sym]. }
  destruct (x =? ch "-") eqn:E21.
  { on_first E21 x. apply on_char_ok; [intros Hg s1 M1|intros Hg]; [sym_arm HR|].
    apply on_char_ok; [intros Hg2 s2 M2|intros Hg2]; [sym_arm HR|].
    apply on_char_ok; [intros Hg3 s3 M3|intros Hg3].
    - destruct (read_comment _) as [[tt rec] s] eqn:R. unfold next_ok, yield.
      assert (E0' : s3 = mkSrc (s_rest s3) (advance (advance (s_pos (l_src l)) (ch "-")) (ch "-"))).
      { destruct s3 as [r3 p3]. cbn. f_equal. destruct M3 as [_ M3]. cbn in M3. rewrite M3. destruct M0 as [_ ->]. reflexivity. }
      rewrite E0' in R. eapply NC_comment; [rewrite HR; destruct M3 as [-> _]; reflexivity|exact R].
    - do_sym; try sym_side; try braces_side; [rewrite HR; clear Hg3; no_sym|].
      intros _ rr E. rewrite E in Hg3. cbn in Hg3. destruct Hg3; discriminate. }
  destruct (x =? ch ";") eqn:E22.
  { on_first E22 x. sym_arm HR. }
  cbn zeta.
  assert (Odd : x <> ch "&" -> x <> ch "|" -> x <> ch "?" -> x <> ch "@" ->
    forall sy v, sym_enabled c sy = true -> x :: s_rest s0 <> sym_text sy ++ v).
  { clear - Eid E1 E2 E4 E5 E6 E7 E8 E99 E10 E11 E12 E13 E14 E15 E16 E17 E18 E19 E20 E21 E22.
    intros H1 H2 H3 H4 sy v En E. destruct sy; cbn in E; injection E as E _; subst x;
      first [discriminate | now apply H1 | now apply H2 | now apply H3 | now apply H4]. }
  destruct (x =? ch "&") eqn:E23.
  { on_first E23 x. apply on_char_ok; [intros Hg s1 M1|intros Hg]; [sym_arm HR|].
    destruct (has_lua53 c || has_luau c) eqn:Ev; [sym_arm HR|]. apply Fall. no_sym. }
  destruct (x =? ch "|") eqn:E24.
  { on_first E24 x. apply on_char_ok; [intros Hg s1 M1|intros Hg]; [sym_arm HR|].
    destruct (has_lua53 c || has_luau c) eqn:Ev; [sym_arm HR|]. apply Fall. no_sym. }
  destruct (x =? ch "?") eqn:E25.
  { on_first E25 x. apply on_char_ok; [intros Hg s1 M1|intros Hg]; [sym_arm HR|].
    destruct (has_luau c) eqn:Ev; [sym_arm HR|]. apply Fall. no_sym. }
  destruct (x =? ch "@") eqn:E26.
  { on_first E26 x. destruct (has_luau c) eqn:Ev; [sym_arm HR|]. apply Fall. no_sym. }
  apply Fall. apply N.eqb_neq in E23, E24, E25, E26. auto.
Qed.
