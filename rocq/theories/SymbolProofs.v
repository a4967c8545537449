(** [TokenReference::symbol] accepts exactly the padded symbols. Proof file. *)
From Verif Require Import Lexer LexerFacts LexerFacts2 LexerCases LexerStep LexerStream LexerSpec LexerProofs LexerTheorems LexerTheorems2 LexerTheorems3 TokenSpec TokenProofs TokenTheorems Relex Relex2 SymbolRef.
From Coq Require Import Lia ZifyBool ZifyNat ZifyN.
Local Open Scope N_scope.
Arguments ch a : simpl never.
Arguments advance p c : simpl never.

Lemma ok_pcase c l t l' : process_next c l = Done (Some (LOk t), l') -> pcase c l l' (t_type t) [].
Proof. intros P. apply (pstep_case c l t [] l'). left. auto. Qed.

Lemma ws_blank c l t l' w : process_next c l = Done (Some (LOk t), l') -> t_type t = TWhitespace w -> blank w.
Proof. intros P T. apply ok_pcase in P. rewrite T in P. inversion P; subst; not_word. assumption. Qed.

Definition is_ws (t : token) : Prop := exists w, t_type t = TWhitespace w /\ blank w.

Lemma symbol_trailing_ok fuel c : forall l ld sy tr r, symbol_trailing fuel c l ld sy tr = Done (SymOk r) ->
  exists more, r = mkRef ld sy (tr ++ more) /\ Forall is_ws more /\ s_rest (l_src l) = flat_map show_token more.
Proof.
  induction fuel as [|fuel IH]; intros l ld sy tr r H; [discriminate|]. cbn [symbol_trailing] in H.
  destruct (process_next c l) as [[[[t|es|t es]|] l']| |] eqn:P; try discriminate.
  - pose proof (process_next_ok _ _ _ _ P) as (M & _ & _ & E). destruct (t_type t) eqn:T; try (unfold first_char_error in H; destruct (show_token t); discriminate).
    + injection H as <-. exists []. rewrite app_nil_r. split; [reflexivity|]. split; [constructor|]. destruct E as [(_ & E & _)|(E & _)]; [exact E|congruence].
    + apply IH in H as (more & -> & F & R). exists (t :: more). rewrite <- app_assoc. split; [reflexivity|]. split.
      * constructor; [|assumption]. eexists. split; [eassumption|]. exact (ws_blank _ _ _ _ _ P T).
      * destruct M as [M _]. rewrite M, R. reflexivity.
  - unfold first_error in H. destruct es; discriminate.
  - unfold first_error in H. destruct es; discriminate.
Qed.

Lemma symbol_leading_ok fuel c txt : forall l ld r, symbol_leading fuel c txt l ld = Done (SymOk r) ->
  exists a sy b l1 l2, r = mkRef (ld ++ a) sy b /\ Forall is_ws a /\ Forall is_ws b /\
    s_rest (l_src l) = flat_map show_token a ++ show_token sy ++ flat_map show_token b /\
    process_next c l1 = Done (Some (LOk sy), l2) /\ exists s, t_type sy = TSymbol s.
Proof.
  induction fuel as [|fuel IH]; intros l ld r H; [discriminate|]. cbn [symbol_leading] in H.
  destruct (process_next c l) as [[[[t|es|t es]|] l']| |] eqn:P; try discriminate.
  - pose proof (process_next_ok _ _ _ _ P) as ([M _] & _ & _ & E). destruct (t_type t) eqn:T; try (unfold first_char_error in H; destruct (show_token t); discriminate).
    + apply symbol_trailing_ok in H as (more & -> & F & R). exists [], t, more, l, l'. rewrite app_nil_r.
      repeat (split; [try reflexivity; auto|]); eauto. cbn [flat_map app]. rewrite M, R. reflexivity.
    + apply IH in H as (a & sy & b & l1 & l2 & -> & F1 & F2 & R & P1 & S). exists (t :: a), sy, b, l1, l2. rewrite <- app_assoc.
      split; [reflexivity|]. split; [constructor; [|assumption]; eexists; split; [eassumption|]; exact (ws_blank _ _ _ _ _ P T)|].
      split; [assumption|]. split; [|auto]. cbn [flat_map]. rewrite M, R, <- app_assoc. reflexivity.
  - unfold first_error in H. destruct es; discriminate.
  - unfold first_error in H. destruct es; discriminate.
Qed.

Lemma ws_show a : Forall is_ws a -> blank (flat_map show_token a).
Proof.
  induction 1 as [|t a (w & T & B) F IH]; [reflexivity|]. unfold blank in *. cbn [flat_map]. rewrite forallb_app. apply andb_true_iff.
  split; [|exact IH]. unfold show_token. rewrite T. exact B.
Qed.

Lemma symbol_sound c t r : symbol_specific_lua_version c t = Done (SymOk r) ->
  exists sy, t_type (r_token r) = TSymbol sy /\
    t = flat_map show_token (r_leading r) ++ sym_text sy ++ flat_map show_token (r_trailing r) /\
    blank (flat_map show_token (r_leading r)) /\ blank (flat_map show_token (r_trailing r)) /\
    (cfg_ok c -> In (sym_text sy) (reserved_words c ++ operators c)).
Proof.
  intros H. apply symbol_leading_ok in H as (a & st & b & l1 & l2 & -> & F1 & F2 & R & P & (sy & T)). exists sy. cbn [r_leading r_token r_trailing app].
  split; [assumption|]. cbn [new_lazy l_src s_rest] in R. split; [rewrite R; unfold show_token at 2; rewrite T; reflexivity|].
  split; [now apply ws_show|]. split; [now apply ws_show|]. intros Hc. apply ok_pcase in P. rewrite T in P. apply in_or_app. inversion P; subst.
  - left. destruct (sym_from_str c w) as [s0|] eqn:E; [|discriminate]. injection H as <-. apply sym_from_str_text in E as [E1 E2].
    apply (proj2 (sym_table c s0)); [|assumption]. apply is_op_word. now rewrite E1.
  - right. apply (proj1 (sym_table c sy)); [assumption|]. match goal with K : cfx53 c -> _ |- _ => apply K end. now apply cfg_ok_cfx53.
Qed.

(** ** Padded symbols are accepted *)
Definition wschar (x : char) : bool := (x =? 32) || (x =? 9) || (x =? 10) || (x =? 13).
Lemma wschar_cases x : wschar x = true -> x = 32 \/ x = 9 \/ x = 10 \/ x = 13.
Proof. unfold wschar. rewrite !orb_true_iff, !N.eqb_eq. tauto. Qed.

(** A nonempty run of blanks gives one whitespace token, a nonempty prefix of it. *)
Lemma blank_step c l x w v : s_rest (l_src l) = (x :: w) ++ v -> blank (x :: w) -> (forall y r, v = y :: r -> wschar y = false) ->
  exists t l' k, process_next c l = Done (Some (LOk t), l') /\ (exists ws, t_type t = TWhitespace ws) /\
    s_rest (l_src l') = k ++ v /\ blank k /\ (List.length k <= List.length w)%nat /\ l_sent_eof l' = l_sent_eof l /\ l_braces l' = l_braces l.
Proof.
  intros E B Hv. unfold blank in B. cbn [forallb] in B. apply andb_true_iff in B as [Bx Bw]. fold (wschar x) in Bx. cbn [app] in E.
  assert (P : exists t l', process_next c l = Done (Some (LOk t), l') /\ (exists ws, t_type t = TWhitespace ws) /\ l_sent_eof l' = l_sent_eof l /\ l_braces l' = l_braces l).
  { unfold process_next, src_next. rewrite E. cbn [s_rest s_pos]. apply wschar_cases in Bx as [->|[->|[->| ->]]]; cbn -[read_whitespace];
    [destruct (read_whitespace _ _ _ _) as [[ws e] s]|destruct (read_whitespace _ _ _ _) as [[ws e] s]| |destruct (read_whitespace _ _ _ _) as [[ws e] s]];
    do 2 eexists; (split; [reflexivity|]); (split; [eexists; reflexivity|]); split; reflexivity. }
  destruct P as (t & l' & P & (ws & T) & S1 & S2). exists t, l'.
  pose proof (process_next_ok _ _ _ _ P) as ([M _] & _ & _ & Q). pose proof (ws_blank _ _ _ _ _ P T) as Bws.
  assert (Hs : show_token t = ws) by (unfold show_token; now rewrite T). rewrite Hs in M, Q.
  assert (Nn : ws <> []) by (destruct Q as [(Q & _)|(_ & Q & _)]; [congruence|assumption]).
  rewrite E in M.
  assert (G : forall (a : text) u b, forallb wschar u = true -> a ++ v = u ++ b -> forallb wschar a = true -> exists k, a = u ++ k /\ b = k ++ v).
  { intros a u. revert a. induction u as [|y u IH]; intros a b Fu Ea Fa; [exists a; auto|]. cbn in Fu. apply andb_true_iff in Fu as [Fy Fu].
    destruct a as [|z a].
    - cbn in Ea. rewrite (Hv _ _ Ea) in Fy. discriminate.
    - cbn in Ea. injection Ea as <- Ea. cbn in Fa. apply andb_true_iff in Fa as [_ Fa]. destruct (IH a b Fu Ea Fa) as (k & -> & ->). exists k. auto. }
  destruct (G (x :: w) ws (s_rest (l_src l'))) as (k & Ek & Er); [exact Bws|exact M| |].
  { cbn. now rewrite Bx. }
  exists k. split; [exact P|]. split; [eauto|]. split; [exact Er|]. split; [|split; [|auto]].
  - assert (F : forallb wschar (x :: w) = true) by (cbn; now rewrite Bx). rewrite Ek, forallb_app in F. apply andb_true_iff in F as [_ F]. exact F.
  - apply (f_equal (@List.length char)) in Ek. rewrite app_length in Ek. cbn in Ek. destruct ws; [congruence|cbn in Ek; lia].
Qed.

Lemma keyword_step c l w v : s_rest (l_src l) = w ++ v -> In w (reserved_words c) -> not_continued word_part v ->
  exists t l' sy, process_next c l = Done (Some (LOk t), l') /\ t_type t = TSymbol sy /\ s_rest (l_src l') = v /\ l_sent_eof l' = l_sent_eof l.
Proof.
  intros E Hi Hv. destruct (reserved_sym _ _ Hi) as (sy & Es & _ & Ho). apply is_op_word in Ho. rewrite Es in Ho.
  rewrite (process_next_word c l w v E Ho Hv). destruct (word_is_one_token c l w v E Ho Hv) as (t & l' & P & R & [[_ (s2 & T & _)]|[N _]]); [|contradiction].
  rewrite (process_next_word c l w v E Ho Hv) in P. injection P as <- <-. cbn [t_type] in T.
  do 2 eexists. exists s2. split; [reflexivity|]. auto.
Qed.

Lemma operator_step c l sy v : cfx53 c -> s_rest (l_src l) = sym_text sy ++ v -> is_op sy = true -> sym_enabled c sy = true -> l_braces l = [] ->
  (v = [] \/ exists x r, v = x :: r /\ wschar x = true) ->
  exists t l', process_next c l = Done (Some (LOk t), l') /\ t_type t = TSymbol sy /\ s_rest (l_src l') = v /\ l_sent_eof l' = l_sent_eof l.
Proof.
  intros Hx E Ho He B Hv.
  assert (Hv' : v = [] \/ exists x r, v = x :: r /\ (x = 32 \/ x = 9 \/ x = 10 \/ x = 13)).
  { destruct Hv as [->|(x & r & -> & W)]; [auto|]. right. exists x, r. split; [reflexivity|]. now apply wschar_cases. }
  destruct sy; try discriminate Ho; cbn [sym_enabled] in He;
  (destruct Hv' as [->|(x & r & -> & [->|[->|[->| ->]]])];
  (match type of E with _ = ?x ++ ?r => let y := eval vm_compute in x in change (s_rest (l_src l) = y ++ r) in E end); cbn [app] in E;
    unfold process_next, src_next; rewrite E; rewrite ?B;
    lazy -[has_luau has_luajit has_lua52 has_lua53 has_cfxlua advance l_src l_braces l_sent_eof s_pos]; unfold cfx53 in Hx;
    repeat match goal with
      | |- context[has_luau c] => destruct (has_luau c) eqn:?
      | |- context[has_lua52 c] => destruct (has_lua52 c) eqn:?
      | |- context[has_lua53 c] => destruct (has_lua53 c) eqn:?
      | |- context[has_luajit c] => destruct (has_luajit c) eqn:?
      | |- context[has_cfxlua c] => destruct (has_cfxlua c) eqn:?
    end; try discriminate He; try (specialize (Hx eq_refl); discriminate Hx); try (specialize (Hx He); discriminate Hx);
    do 2 eexists; (split; [reflexivity|]); (split; [reflexivity|]); split; reflexivity).
Qed.

Lemma eof_step c l : s_rest (l_src l) = [] -> l_sent_eof l = false -> exists t l', process_next c l = Done (Some (LOk t), l') /\ t_type t = TEof.
Proof. intros E S. unfold process_next, src_next. rewrite E, S. do 2 eexists. split; reflexivity. Qed.

Lemma symbol_trailing_complete fuel c : forall l ld sy tr, blank (s_rest (l_src l)) -> l_sent_eof l = false ->
  (List.length (s_rest (l_src l)) < fuel)%nat -> exists r, symbol_trailing fuel c l ld sy tr = Done (SymOk r).
Proof.
  induction fuel as [|fuel IH]; intros l ld sy tr B S Hf; [lia|]. cbn [symbol_trailing].
  destruct (s_rest (l_src l)) as [|x w] eqn:E.
  - destruct (eof_step c l E S) as (t & l' & -> & ->). eauto.
  - destruct (blank_step c l x w []) as (t & l' & k & P & (ws & T) & R & Bk & Lk & S' & _); [now rewrite app_nil_r|assumption|discriminate|].
    rewrite P, T. rewrite app_nil_r in R. apply IH; rewrite ?R; [assumption|congruence|cbn in Hf; lia].
Qed.

Lemma symbol_leading_complete fuel c txt w b : cfx53 c -> In w (reserved_words c ++ operators c) -> blank b -> forall a l ld, blank a -> s_rest (l_src l) = a ++ w ++ b ->
  l_sent_eof l = false -> l_braces l = [] -> (List.length (a ++ w ++ b) < fuel)%nat ->
  exists r, symbol_leading fuel c txt l ld = Done (SymOk r).
Proof.
  intros Hx Hw Bb. 
  assert (Wn : exists y r, w = y :: r /\ wschar y = false).
  { apply in_app_or in Hw as [Hw|Hw]; [apply reserved_sym in Hw as (sy & <- & _)|apply operator_sym in Hw as (sy & <- & _)];
    destruct sy; do 2 eexists; (split; [reflexivity|reflexivity]). }
  destruct Wn as (y & wr & Ew & Wy).
  induction fuel as [|fuel IH]; intros a l ld Ba E S Br Hf; [lia|]. cbn [symbol_leading].
  destruct a as [|x a].
  - cbn [app] in E, Hf.
    assert (Hb : b = [] \/ exists x r, b = x :: r /\ wschar x = true).
    { destruct b as [|z b]; [auto|]. right. exists z, b. split; [reflexivity|]. unfold blank in Bb. cbn in Bb. now apply andb_true_iff in Bb as [Bb _]. }
    assert (G : exists t l' sy, process_next c l = Done (Some (LOk t), l') /\ t_type t = TSymbol sy /\ s_rest (l_src l') = b /\ l_sent_eof l' = l_sent_eof l).
    { apply in_app_or in Hw as [Hw|Hw].
      - apply (keyword_step c l w b E Hw). intros z r Ez. destruct Hb as [->|(z' & r' & -> & W)]; [discriminate|]. injection Ez as -> _.
        apply wschar_cases in W as [->|[->|[->| ->]]]; reflexivity.
      - apply operator_sym in Hw as (sy & E1 & E2 & E3). destruct (operator_step c l sy b) as (t & l' & H); auto; [now rewrite E1|]. exists t, l', sy. exact H. }
    destruct G as (t & l' & sy & P & T & R & S'). rewrite P, T. apply symbol_trailing_complete.
    + now rewrite R.
    + congruence.
    + rewrite R. rewrite Ew, app_length in Hf. cbn in Hf. lia.
  - destruct (blank_step c l x a (w ++ b)) as (t & l' & k & P & (ws & T) & R & Bk & Lk & S' & Br'); [exact E|exact Ba| |].
    { intros z r Ez. rewrite Ew in Ez. cbn in Ez. injection Ez as <- _. exact Wy. }
    rewrite P, T. apply (IH k); auto; [congruence|congruence|]. rewrite app_length in *. cbn in Hf. lia.
Qed.

Lemma symbol_complete c a w b : cfg_ok c -> In w (reserved_words c ++ operators c) -> blank a -> blank b ->
  exists r, symbol_specific_lua_version c (a ++ w ++ b) = Done (SymOk r).
Proof.
  intros Hc Hw Ba Bb. unfold symbol_specific_lua_version. apply (symbol_leading_complete _ c _ w b) with (a := a); auto; now apply cfg_ok_cfx53.
Qed.

(** ** It never runs out of fuel and panics only at a backtick *)
Lemma step_shorter c l t l' : process_next c l = Done (Some (LOk t), l') -> t_type t <> TEof ->
  (List.length (s_rest (l_src l')) < List.length (s_rest (l_src l)))%nat /\ l_sent_eof l' = l_sent_eof l /\ show_token t <> [] /\ exists u, moved (l_src l) u (l_src l').
Proof.
  intros P T. apply process_next_ok in P as (M & _ & _ & [(Q & _)|(_ & Q & S)]); [congruence|]. split; [|eauto].
  destruct M as [M _]. rewrite M, app_length. destruct (show_token t); [congruence|cbn; lia].
Qed.

Definition at_backtick (c : cfg) (l : lexer) : Prop := exists u l1, moved (l_src l) u (l_src l1) /\ backtick_panic c l1.

Lemma at_backtick_step c l u l' : moved (l_src l) u (l_src l') -> at_backtick c l' -> at_backtick c l.
Proof. intros M (v & l1 & M2 & B). exists (u ++ v), l1. split; [eapply moved_app; eassumption|assumption]. Qed.

Lemma first_error_total c l r l' : process_next c l = Done (Some r, l') ->
  match r with LOk _ => True | LFatal es => exists x, first_error es = Done x | LRecovered _ es => exists x, first_error es = Done x end.
Proof.
  intros P. destruct r as [t|es|t es]; [exact I| |].
  - apply process_next_fatal in P as (txt & e & _ & _ & _ & ->). cbn. eauto.
  - apply process_next_recovered in P as ((txt & e & _ & _ & _ & ->) & _). cbn. eauto.
Qed.

Lemma process_next_outcome c l : l_sent_eof l = false -> (process_next c l = Panic /\ backtick_panic c l) \/ (exists r l', process_next c l = Done (Some r, l')).
Proof.
  intros S. pose proof (process_next_cases c l) as HC. destruct (process_next c l) as [[[r|] l']| |] eqn:P; cbn [next_ok] in HC; eauto; [|destruct HC].
  inversion HC; congruence.
Qed.

Lemma symbol_trailing_total fuel c : forall l ld sy tr, l_sent_eof l = false -> (List.length (s_rest (l_src l)) < fuel)%nat ->
  (exists x, symbol_trailing fuel c l ld sy tr = Done x) \/ (symbol_trailing fuel c l ld sy tr = Panic /\ at_backtick c l).
Proof.
  induction fuel as [|fuel IH]; intros l ld sy tr S Hf; [lia|]. cbn [symbol_trailing].
  destruct (process_next_outcome c l S) as [[-> B]|(r & l' & P)].
  - right. split; [reflexivity|]. exists [], l. split; [apply moved_nil|assumption].
  - rewrite P. pose proof (first_error_total _ _ _ _ P) as FE. destruct r as [t|es|t es]; [|left; exact FE|left; exact FE].
    destruct (t_type t) eqn:T; try (left; eexists; reflexivity);
    (destruct (step_shorter _ _ _ _ P) as (L1 & L2 & L3 & (u & L4)); [congruence|]);
    try (left; unfold first_char_error; destruct (show_token t); [congruence|eauto]; fail).
    destruct (IH l' ld sy (tr ++ [t])) as [H|[H B]]; [congruence|lia|left; exact H|right; split; [exact H|eapply at_backtick_step; eassumption]].
Qed.

Lemma symbol_leading_total fuel c txt : forall l ld, l_sent_eof l = false -> (List.length (s_rest (l_src l)) < fuel)%nat ->
  (exists x, symbol_leading fuel c txt l ld = Done x) \/ (symbol_leading fuel c txt l ld = Panic /\ at_backtick c l).
Proof.
  induction fuel as [|fuel IH]; intros l ld S Hf; [lia|]. cbn [symbol_leading].
  destruct (process_next_outcome c l S) as [[-> B]|(r & l' & P)].
  - right. split; [reflexivity|]. exists [], l. split; [apply moved_nil|assumption].
  - rewrite P. pose proof (first_error_total _ _ _ _ P) as FE. destruct r as [t|es|t es]; [|left; exact FE|left; exact FE].
    destruct (t_type t) eqn:T; try (left; eexists; reflexivity);
    (destruct (step_shorter _ _ _ _ P) as (L1 & L2 & L3 & (u & L4)); [congruence|]);
    try (left; unfold first_char_error; destruct (show_token t); [congruence|eauto]; fail).
    + destruct (symbol_trailing_total fuel c l' ld t []) as [H|[H B]]; [congruence|lia|left; exact H|right; split; [exact H|eapply at_backtick_step; eassumption]].
    + destruct (IH l' (ld ++ [t])) as [H|[H B]]; [congruence|lia|left; exact H|right; split; [exact H|eapply at_backtick_step; eassumption]].
Qed.

Lemma symbol_total c t : (has_luau c = true \/ f_cfxlua (c_feat c) = true \/ ~ In c_backtick t) -> exists x, symbol_specific_lua_version c t = Done x.
Proof.
  intros H. destruct (symbol_leading_total (S (S (List.length t))) c t (new_lazy t) [] eq_refl) as [G|[_ (u & l1 & [M _] & (r & E) & V1 & V2)]]; [cbn; lia|exact G|].
  exfalso. destruct H as [H|[H|H]]; try congruence. apply H. cbn in M. rewrite M, E. apply in_or_app. right. now left.
Qed.

(** ** The default symbols used by the AST constructors *)
Lemma basic_symbol_complete f a w b : In w (map str ["and"; "break"; "do"; "else"; "elseif"; "end"; "false"; "for"; "function"; "if"; "in"; "local";
    "nil"; "not"; "or"; "repeat"; "return"; "then"; "true"; "until"; "while"; "+"; "-"; "*"; "/"; "%"; "^"; "#"; "=="; "~="; "<="; ">="; "<"; ">"; "="; "("; ")"; "{"; "}"; "[";
           "]"; ";"; ":"; ","; "."; ".."; "..."]%string) -> blank a -> blank b -> exists r, basic_symbol f (a ++ w ++ b) = Done r.
Proof.
  intros Hw Ba Bb. unfold basic_symbol.
  assert (Hr : In w (reserved_words (mkCfg f lv_lua51) ++ operators (mkCfg f lv_lua51))).
  { unfold reserved_words, operators. unfold has_luau, has_lua52, has_lua53, has_luajit, has_cfxlua. cbn [c_ver c_feat].
    change (has_bit lv_lua51) with (fun _ : N => false). 
    cbn [In map app] in Hw |- *. rewrite ?in_app_iff. cbn [In map]. tauto. }
  destruct (symbol_leading_complete (S (S (List.length (a ++ w ++ b)))) (mkCfg f lv_lua51) (a ++ w ++ b) w b) with (a := a) (l := new_lazy (a ++ w ++ b)) (ld := @nil token) as (r & R); auto.
  - intros V. exfalso. unfold has_cfxlua in V. apply andb_true_iff in V as [_ V]. discriminate.
  - unfold symbol_specific_lua_version. rewrite R. eauto.
Qed.

Ltac pad a b :=
  match goal with B : _ |- _ => first
   [ apply (B a "do"%string b); [reflexivity|reflexivity|cbn [In]; tauto|reflexivity] 
   | apply (B a "elseif"%string b); [reflexivity|reflexivity|cbn [In]; tauto|reflexivity]
   | apply (B a "end"%string b); [reflexivity|reflexivity|cbn [In]; tauto|reflexivity]
   | apply (B a "for"%string b); [reflexivity|reflexivity|cbn [In]; tauto|reflexivity]
   | apply (B a "function"%string b); [reflexivity|reflexivity|cbn [In]; tauto|reflexivity]
   | apply (B a "if"%string b); [reflexivity|reflexivity|cbn [In]; tauto|reflexivity]
   | apply (B a "in"%string b); [reflexivity|reflexivity|cbn [In]; tauto|reflexivity]
   | apply (B a "local"%string b); [reflexivity|reflexivity|cbn [In]; tauto|reflexivity]
   | apply (B a "repeat"%string b); [reflexivity|reflexivity|cbn [In]; tauto|reflexivity]
   | apply (B a "return"%string b); [reflexivity|reflexivity|cbn [In]; tauto|reflexivity]
   | apply (B a "then"%string b); [reflexivity|reflexivity|cbn [In]; tauto|reflexivity]
   | apply (B a "until"%string b); [reflexivity|reflexivity|cbn [In]; tauto|reflexivity]
   | apply (B a "while"%string b); [reflexivity|reflexivity|cbn [In]; tauto|reflexivity]
   | apply (B a ">"%string b); [reflexivity|reflexivity|cbn [In]; tauto|reflexivity]
   | apply (B a "="%string b); [reflexivity|reflexivity|cbn [In]; tauto|reflexivity]
   | apply (B a "("%string b); [reflexivity|reflexivity|cbn [In]; tauto|reflexivity]
   | apply (B a ")"%string b); [reflexivity|reflexivity|cbn [In]; tauto|reflexivity]
   | apply (B a "{"%string b); [reflexivity|reflexivity|cbn [In]; tauto|reflexivity]
   | apply (B a "}"%string b); [reflexivity|reflexivity|cbn [In]; tauto|reflexivity]
   | apply (B a "]"%string b); [reflexivity|reflexivity|cbn [In]; tauto|reflexivity]
   | apply (B a ":"%string b); [reflexivity|reflexivity|cbn [In]; tauto|reflexivity]
   | apply (B a ","%string b); [reflexivity|reflexivity|cbn [In]; tauto|reflexivity]
   | apply (B a "..."%string b); [reflexivity|reflexivity|cbn [In]; tauto|reflexivity] ] end.

Lemma default_symbols f w :
  In w (map str [" = "; " in "; " then"; " }"; "("; ")"; ", "; "..."; ":"; "="; ">"; "]"; "do"; "elseif "; "end"; "for ";
                 "function "; "function"; "if "; "local "; "return "; "while "; "{ "; "}"]%string
        ++ map (fun s => str s ++ nl_text) [" do"; " then"; "do"; "end"; "repeat"]%string
        ++ map (fun s => nl_text ++ str s) ["end"; "until "]%string) ->
  exists r, basic_symbol f w = Done r /\ show_ref r = w.
Proof.
  intros H.
  assert (G : exists r, basic_symbol f w = Done r).
  { assert (B : forall a k b, blank a -> blank b -> In k ["do"; "elseif"; "end"; "for"; "function"; "if"; "in"; "local"; "repeat"; "return"; "then"; "until"; "while"; ">"; "="; "("; ")"; "{"; "}"; "]"; ":"; ","; "..."]%string ->
        w = a ++ str k ++ b -> exists r, basic_symbol f w = Done r).
    { intros a k b Ba Bb Hk ->. apply basic_symbol_complete; auto. apply in_map. cbn [In] in Hk |- *. tauto. }
    rewrite !in_app_iff in H. cbn [In map] in H.
    repeat match type of H with _ \/ _ => destruct H as [H|H] end; try (destruct H; fail); subst w;
    first [ pad (@nil char) (@nil char) | pad [32] (@nil char) | pad (@nil char) [32] | pad [32] [32]
          | pad (@nil char) [10] | pad [32] [10] | pad [10] (@nil char) | pad [10] [32] ]. }
  destruct G as (r & R). exists r. split; [assumption|]. unfold basic_symbol in R.
  destruct (symbol_specific_lua_version (mkCfg f lv_lua51) w) as [[r'|e]| |] eqn:E; try discriminate.
  injection R as ->. apply symbol_sound in E as (sy & T & E & _). rewrite E at 1. unfold show_ref, show_token at 2. now rewrite T.
Qed.
