(** Facts about the readers of the lexer model: what they consume. Proof file. *)
From Verif Require Import Lexer.
From Coq Require Import Lia ZifyBool ZifyNat ZifyN.
Local Open Scope N_scope.
Arguments ch a : simpl never.
Arguments advance p c : simpl never.

(** Position reached from [p] by reading the characters of [t] one by one. *)
Definition adv (p : position) (t : text) : position := fold_left advance t p.

(** [s'] is the cursor reached from [s] by reading exactly [t]. *)
Definition moved (s : src) (t : text) (s' : src) : Prop :=
  s_rest s = t ++ s_rest s' /\ s_pos s' = adv (s_pos s) t.

Lemma adv_app p a b : adv p (a ++ b) = adv (adv p a) b.
Proof. apply fold_left_app. Qed.

Lemma moved_nil s : moved s [] s.
Proof. split; reflexivity. Qed.

Lemma moved_cons c r p t s' :
  moved (mkSrc r (advance p c)) t s' -> moved (mkSrc (c :: r) p) (c :: t) s'.
Proof. intros [H1 H2]. cbn in *. subst r. split; cbn; auto. Qed.

Lemma moved_app s t s' u s'' : moved s t s' -> moved s' u s'' -> moved s (t ++ u) s''.
Proof.
  intros [H1 H2] [H3 H4]. split.
  - rewrite H1, H3, app_assoc. reflexivity.
  - rewrite H4, H2, adv_app. reflexivity.
Qed.

Lemma moved_length s t s' : moved s t s' -> List.length (s_rest s) = (List.length t + List.length (s_rest s'))%nat.
Proof. intros [H _]. rewrite H, app_length. reflexivity. Qed.

Lemma src_eta s : mkSrc (s_rest s) (s_pos s) = s.
Proof. destruct s; reflexivity. Qed.

Lemma src_consume_some s c s' : src_consume s c = Some s' -> moved s [c] s'.
Proof.
  unfold src_consume. destruct s as [[|d r] p]; cbn; try discriminate.
  destruct (d =? c) eqn:E; try discriminate. intros [= <-].
  apply N.eqb_eq in E; subst. split; reflexivity.
Qed.

(** ** Words *)

Definition word_char (c : char) : bool := is_identifier_start c || is_digit c.

Definition head_not (P : char -> bool) (t : text) : Prop :=
  match t with c :: _ => P c = false | [] => True end.

Lemma read_word_spec rest : forall pos acc w s,
  read_word rest pos acc = (w, s) ->
  exists t, w = acc ++ t /\ moved (mkSrc rest pos) t s /\ forallb word_char t = true /\ head_not word_char (s_rest s).
Proof.
  induction rest as [|c r IH]; intros pos acc w s H; cbn in H.
  - injection H as <- <-. exists []. rewrite app_nil_r. repeat split.
  - fold (word_char c) in H. destruct (word_char c) eqn:E.
    + apply IH in H as (t & -> & M & F & Hd). exists (c :: t).
      rewrite <- app_assoc. split; [reflexivity|]. split; [now apply moved_cons|]. split; [|assumption].
      cbn. now rewrite E.
    + injection H as <- <-. exists []. rewrite app_nil_r. repeat split. exact E.
Qed.

(** ** Whitespace *)

Definition ends_nl (t : text) : bool := match rev t with c :: _ => c =? c_nl | [] => false end.

(** End position given to a token of text [t] starting at [p]: a final newline only counts in bytes. *)
Definition end_pos (p : position) (t : text) : position :=
  if ends_nl t then
    let q := adv p (removelast t) in mkPos (p_bytes q + 1) (p_line q) (p_char q)
  else adv p t.

Lemma ends_nl_snoc t c : ends_nl (t ++ [c]) = (c =? c_nl).
Proof. unfold ends_nl. rewrite rev_app_distr. reflexivity. Qed.

Lemma end_pos_snoc p t c :
  end_pos p (t ++ [c]) =
  if c =? c_nl then let q := adv p t in mkPos (p_bytes q + 1) (p_line q) (p_char q) else adv p (t ++ [c]).
Proof. unfold end_pos. rewrite ends_nl_snoc, removelast_last. reflexivity. Qed.

Lemma end_pos_no_nl p t : ends_nl t = false -> end_pos p t = adv p t.
Proof. unfold end_pos. intros ->. reflexivity. Qed.

(** Text of a whitespace token after its first character: blanks, then optionally a line break. *)
Definition is_blank (c : char) : bool := (c =? c_space) || (c =? c_tab).
Inductive ws_tail : text -> Prop :=
| wt_blank b : forallb is_blank b = true -> ws_tail b
| wt_nl b : forallb is_blank b = true -> ws_tail (b ++ [c_nl])
| wt_crnl b : forallb is_blank b = true -> ws_tail (b ++ [c_cr; c_nl]).

Definition ws_more (t : text) : bool :=
  match t with
  | c :: r => is_blank c || (c =? c_nl) || ((c =? c_cr) && match r with d :: _ => d =? c_nl | [] => false end)
  | [] => false
  end.

Lemma ws_tail_cons c t : is_blank c = true -> ws_tail t -> ws_tail (c :: t).
Proof.
  intros Hc H; destruct H as [b H|b H|b H].
  - apply wt_blank. cbn. now rewrite Hc.
  - apply (wt_nl (c :: b)). cbn. now rewrite Hc.
  - apply (wt_crnl (c :: b)). cbn. now rewrite Hc.
Qed.

Lemma blank_cases c : is_blank c = true -> c = c_space \/ c = c_tab.
Proof. unfold is_blank. rewrite orb_true_iff, !N.eqb_eq. tauto. Qed.

Lemma read_whitespace_spec rest : forall p0 pos ws endp w e s,
  read_whitespace rest pos ws endp = (w, e, s) ->
  pos = adv p0 ws -> endp = adv p0 ws -> ends_nl ws = false ->
  exists t, w = ws ++ t /\ moved (mkSrc rest pos) t s /\ ws_tail t /\ e = end_pos p0 (ws ++ t) /\
            (ends_nl t = false -> ws_more (s_rest s) = false).
Proof.
  assert (LF : forall p x, adv p [x] = advance p x) by reflexivity.
  induction rest as [|c r IH]; intros p0 pos ws endp w e s H Hp He Hn; cbn in H.
  - injection H as <- <- <-. exists []. rewrite app_nil_r. split; [reflexivity|].
    split; [apply moved_nil|]. split; [now apply wt_blank|]. split; [now rewrite end_pos_no_nl|]. reflexivity.
  - fold (is_blank c) in H. destruct (is_blank c) eqn:Eb.
    + assert (Hc := blank_cases _ Eb).
      assert (Hadv : advance pos c = mkPos (p_bytes pos + len_utf8 c) (p_line pos) (p_char pos + 1))
        by (destruct Hc; subst c; reflexivity).
      apply (IH p0) in H.
      * destruct H as (t & -> & M & T & E & Z). exists (c :: t). rewrite <- app_assoc in *. cbn in *.
        split; [reflexivity|]. split; [now apply moved_cons|]. split; [now apply ws_tail_cons|]. split; [assumption|].
        intros Hz. apply Z. unfold ends_nl in *. cbn in Hz.
        destruct (rev t); [reflexivity|]. cbn in Hz. exact Hz.
      * rewrite adv_app, LF. congruence.
      * rewrite adv_app, LF. rewrite He, <- Hp, Hadv. reflexivity.
      * rewrite ends_nl_snoc. destruct Hc; subst c; reflexivity.
    + destruct (c =? c_nl) eqn:En.
      * apply N.eqb_eq in En; subst c. injection H as <- <- <-.
        exists [c_nl]. split; [reflexivity|]. split; [split; reflexivity|].
        split; [apply (wt_nl []); reflexivity|]. split; [|discriminate].
        rewrite end_pos_snoc. cbn [N.eqb]. change (c_nl =? c_nl) with true. cbn iota.
        rewrite He. reflexivity.
      * destruct (c =? c_cr) eqn:Ec.
        -- destruct r as [|d r'].
           ++ injection H as <- <- <-. exists []. rewrite app_nil_r. split; [reflexivity|].
              split; [apply moved_nil|]. split; [now apply wt_blank|]. split; [now rewrite end_pos_no_nl|].
              intros _. cbn. rewrite Eb, En, Ec. reflexivity.
           ++ destruct (d =? c_nl) eqn:Ed.
              ** apply N.eqb_eq in Ed, Ec; subst c d. injection H as <- <- <-.
                 exists [c_cr; c_nl]. split; [reflexivity|]. split; [split; reflexivity|].
                 split; [apply (wt_crnl []); reflexivity|]. split; [|discriminate].
                 change (ws ++ [c_cr; c_nl]) with (ws ++ [c_cr] ++ [c_nl]). rewrite app_assoc, end_pos_snoc.
                 change (c_nl =? c_nl) with true. cbn iota. rewrite adv_app, LF, He.
                 unfold advance. change (c_cr =? c_nl) with false. cbn. f_equal. lia.
              ** injection H as <- <- <-. exists []. rewrite app_nil_r. split; [reflexivity|].
                 split; [apply moved_nil|]. split; [now apply wt_blank|]. split; [now rewrite end_pos_no_nl|].
                 intros _. cbn. rewrite Eb, En, Ec, Ed. reflexivity.
        -- injection H as <- <- <-. exists []. rewrite app_nil_r. split; [reflexivity|].
           split; [apply moved_nil|]. split; [now apply wt_blank|]. split; [now rewrite end_pos_no_nl|].
           intros _. cbn. rewrite Eb, En, Ec. reflexivity.
Qed.

(** ** Numbers *)

(** Accepted number token. *)
Definition num_ok (start : position) (s : src) (n : text) : lexres token :=
  LOk (mkToken start (s_pos s) (TNumber n)).

(** Rejected number token. *)
Definition num_bad (start : position) (s : src) (n : text) : lexres token :=
  LRecovered (mkToken start (s_pos s) (TNumber n)) [mkTokError InvalidNumber (start, s_pos s)].

Lemma eat_invalid_number_spec start rest : forall pos number res s,
  eat_invalid_number start rest pos number = (res, s) ->
  exists t, moved (mkSrc rest pos) t s /\ res = num_bad start s (number ++ t).
Proof.
  induction rest as [|c r IH]; intros pos number res s H; cbn in H.
  - injection H as <- <-. exists []. rewrite app_nil_r. split; [apply moved_nil|reflexivity].
  - destruct (is_ascii_whitespace c) eqn:E.
    + injection H as <- <-. exists []. rewrite app_nil_r. split; [apply moved_nil|reflexivity].
    + apply IH in H as (t & M & ->). exists (c :: t). rewrite <- app_assoc. split; [now apply moved_cons|reflexivity].
Qed.

Definition dec_char (c : cfg) (d : char) : bool := is_digit d || (has_luau c && (d =? ch "_")).

Lemma read_exp_digits_spec c rest : forall pos number w s,
  read_exp_digits c rest pos number = (w, s) ->
  exists t, w = number ++ t /\ moved (mkSrc rest pos) t s /\ forallb (dec_char c) t = true /\ head_not (dec_char c) (s_rest s).
Proof.
  induction rest as [|d r IH]; intros pos number w s H; cbn in H.
  - injection H as <- <-. exists []. rewrite app_nil_r. repeat split.
  - fold (dec_char c d) in H. destruct (dec_char c d) eqn:E.
    + apply IH in H as (t & -> & M & F & Hd). exists (d :: t). rewrite <- app_assoc.
      split; [reflexivity|]. split; [now apply moved_cons|]. split; [|assumption]. cbn. now rewrite E.
    + injection H as <- <-. exists []. rewrite app_nil_r. repeat split. exact E.
Qed.

(** Text of an exponent with marker [m]. *)
Inductive exponent (c : cfg) (m : char) : text -> Prop :=
| exp_plain d ds : is_digit d = true -> forallb (dec_char c) ds = true -> exponent c m (m :: d :: ds)
| exp_signed sg d ds : sg = ch "+" \/ sg = ch "-" -> is_digit d = true -> forallb (dec_char c) ds = true ->
    exponent c m (m :: sg :: d :: ds).

Lemma read_exponent_part_spec c start m rest pos number res s :
  read_exponent_part c start m rest pos number = (res, s) ->
  exists t, moved (mkSrc (m :: rest) pos) (m :: t) s /\
    ((res = num_ok start s (number ++ m :: t) /\ exponent c m (m :: t) /\ head_not (dec_char c) (s_rest s)) \/
     res = num_bad start s (number ++ m :: t)).
Proof.
  unfold read_exponent_part.
  set (n1 := number ++ [m]). set (p1 := advance pos m).
  assert (G : forall n2 r2 p2 pre,
    n2 = n1 ++ pre -> moved (mkSrc rest p1) pre (mkSrc r2 p2) ->
    (forall d ds, is_digit d = true -> forallb (dec_char c) ds = true -> exponent c m (m :: pre ++ d :: ds)) ->
    match r2 with
    | d :: _ => if is_digit d then let '(number, s) := read_exp_digits c r2 p2 n2 in (create s start (TNumber number), s)
                else eat_invalid_number start r2 p2 n2
    | [] => eat_invalid_number start r2 p2 n2 end = (res, s) ->
    exists t, moved (mkSrc (m :: rest) pos) (m :: t) s /\
    ((res = num_ok start s (number ++ m :: t) /\ exponent c m (m :: t) /\ head_not (dec_char c) (s_rest s)) \/
     res = num_bad start s (number ++ m :: t))).
  { intros n2 r2 p2 pre Hn M Hx H.
    assert (Bad : eat_invalid_number start r2 p2 n2 = (res, s) ->
      exists t, moved (mkSrc (m :: rest) pos) (m :: t) s /\ res = num_bad start s (number ++ m :: t)).
    { intros Hb. apply eat_invalid_number_spec in Hb as (t & Mt & ->). exists (pre ++ t). split.
      - apply moved_cons. eapply moved_app; eassumption.
      - rewrite Hn. unfold n1. rewrite <- !app_assoc. reflexivity. }
    destruct r2 as [|d r2].
    - apply Bad in H as (t & ? & ?). exists t. auto.
    - destruct (is_digit d) eqn:Ed.
      + destruct (read_exp_digits c (d :: r2) p2 n2) as [w s0] eqn:R. injection H as <- <-.
        apply read_exp_digits_spec in R as (t & -> & Mt & F & Hd).
        assert (exists ds, t = d :: ds) as [ds ->].
        { destruct t as [|x ds].
          - destruct Mt as [Mt _]. cbn in Mt. rewrite <- Mt in Hd. cbn in Hd. unfold dec_char in Hd.
            rewrite Ed in Hd. discriminate.
          - destruct Mt as [Mt _]. cbn in Mt. injection Mt as -> _. eauto. }
        exists (pre ++ d :: ds). split.
        * apply moved_cons. eapply moved_app; eassumption.
        * left. split.
          -- unfold create, num_ok. rewrite Hn. unfold n1. rewrite <- !app_assoc. reflexivity.
          -- split; [|assumption]. apply Hx; [assumption|]. cbn in F. apply andb_true_iff in F. tauto.
      + apply Bad in H as (t & ? & ?). exists t. auto. }
  destruct rest as [|d r].
  - apply (G n1 [] p1 []).
    + now rewrite app_nil_r.
    + apply moved_nil.
    + intros. now apply exp_plain.
  - destruct ((d =? ch "+") || (d =? ch "-")) eqn:E.
    + apply (G (n1 ++ [d]) r (advance p1 d) [d]).
      * reflexivity.
      * split; reflexivity.
      * intros. apply exp_signed; auto. apply orb_true_iff in E. rewrite !N.eqb_eq in E. assumption.
    + apply (G n1 (d :: r) p1 []).
      * now rewrite app_nil_r.
      * apply moved_nil.
      * intros. now apply exp_plain.
Qed.

(** LuaJIT suffixes accepted by the reader. *)
Definition is_ul (c : char) : bool := (c =? ch "u") || (c =? ch "U").
Definition is_ll (c : char) : bool := (c =? ch "l") || (c =? ch "L").
Definition is_ii (c : char) : bool := (c =? ch "i") || (c =? ch "I").
Inductive jit_suffix : text -> Prop :=
| js_i i : is_ii i = true -> jit_suffix [i]
| js_ll a b : is_ll a = true -> is_ll b = true -> jit_suffix [a; b]
| js_ull u a b : is_ul u = true -> is_ll a = true -> is_ll b = true -> jit_suffix [u; a; b].

Lemma suffix_disjoint c : (is_ul c = true -> is_ll c = false /\ is_ii c = false) /\ (is_ll c = true -> is_ii c = false /\ is_ul c = false).
Proof.
  unfold is_ul, is_ll, is_ii. change (ch "u") with 117. change (ch "U") with 85.
  change (ch "l") with 108. change (ch "L") with 76. change (ch "i") with 105. change (ch "I") with 73. lia.
Qed.

Ltac bad_number H :=
  apply eat_invalid_number_spec in H;
  let t := fresh "t" in let M := fresh "M" in
  destruct H as (t & M & ->).

Lemma read_luajit_number_suffix_spec start rest pos number res s :
  rest <> [] ->
  read_luajit_number_suffix start rest pos number = (res, s) ->
  exists t, moved (mkSrc rest pos) t s /\
    ((res = num_ok start s (number ++ t) /\ jit_suffix t) \/ res = num_bad start s (number ++ t)).
Proof.
  assert (LL : forall c r pos number, is_ll c = true -> is_ul c = false ->
    read_luajit_number_suffix start (c :: r) pos number = (res, s) ->
    exists t, moved (mkSrc (c :: r) pos) t s /\
      ((res = num_ok start s (number ++ t) /\ exists d, t = [c; d] /\ is_ll d = true) \/ res = num_bad start s (number ++ t))).
  { clear. intros c r pos number Hl Hu H. cbn [read_luajit_number_suffix] in H. fold (is_ul c) (is_ll c) (is_ii c) in H.
    rewrite Hl, Hu in H. destruct r as [|d r'].
    - bad_number H. exists (c :: t). rewrite <- app_assoc. split; [now apply moved_cons|]. now right.
    - fold (is_ll d) in H. destruct (is_ll d) eqn:Ed.
      + injection H as <- <-. exists [c; d]. split; [split; reflexivity|]. left. split; [reflexivity|]. eauto.
      + bad_number H. exists (c :: t). rewrite <- app_assoc. split; [now apply moved_cons|]. now right. }
  intros Hne H. destruct rest as [|c r]; [congruence|].
  destruct (is_ul c) eqn:Eu.
  - cbn [read_luajit_number_suffix] in H. fold (is_ul c) in H. rewrite Eu in H. destruct r as [|d r'].
    + bad_number H. exists (c :: t). rewrite <- app_assoc. split; [now apply moved_cons|]. now right.
    + fold (is_ll d) in H. destruct (is_ll d) eqn:Ed.
      * apply LL in H; [|assumption|now apply suffix_disjoint].
        destruct H as (t & M & [[-> (e & -> & He)]| ->]).
        -- exists [c; d; e]. split; [now apply moved_cons|]. left. rewrite <- app_assoc. split; [reflexivity|]. now apply js_ull.
        -- exists (c :: t). rewrite <- app_assoc. split; [now apply moved_cons|]. now right.
      * bad_number H. exists (c :: t). rewrite <- app_assoc. split; [now apply moved_cons|]. now right.
  - destruct (is_ll c) eqn:El.
    + apply LL in H; auto. destruct H as (t & M & [[-> (e & -> & He)]| ->]).
      * exists [c; e]. split; [assumption|]. left. split; [reflexivity|]. now apply js_ll.
      * exists t. auto.
    + cbn [read_luajit_number_suffix] in H. fold (is_ul c) (is_ll c) (is_ii c) in H. rewrite Eu, El in H. destruct (is_ii c) eqn:Ei.
      * injection H as <- <-. exists [c]. split; [split; reflexivity|]. left. split; [reflexivity|]. now apply js_i.
      * bad_number H. exists t. auto.
Qed.

(** Mantissa text read by [read_number]: digits, at most one dot if none was seen yet. *)
Inductive mantissa (P : char -> bool) (dot_allowed : bool) : text -> Prop :=
| man_plain a : forallb P a = true -> mantissa P dot_allowed a
| man_dot a b : dot_allowed = true -> forallb P a = true -> forallb P b = true -> mantissa P dot_allowed (a ++ ch "." :: b).

Lemma mantissa_cons P d x m : P x = true -> mantissa P d m -> mantissa P d (x :: m).
Proof.
  intros Hx H; destruct H as [a H|a b Hd Ha Hb].
  - apply man_plain. cbn. now rewrite Hx.
  - apply (man_dot P d (x :: a) b); auto. cbn. now rewrite Hx.
Qed.

(** What may follow the mantissa of an accepted numeral. *)
Inductive num_tail (c : cfg) (exp_marks : text) (exp_ok : bool) : text -> Prop :=
| nt_none : num_tail c exp_marks exp_ok []
| nt_exp m t : exp_ok = true -> In m exp_marks -> exponent c m t -> num_tail c exp_marks exp_ok t
| nt_suffix t : has_luajit c = true -> jit_suffix t -> num_tail c exp_marks exp_ok t.

Lemma suffix_char_nonnil d (r : text) : d :: r <> [].
Proof. discriminate. Qed.

Lemma read_number_spec c start rest : forall pos number hd res s,
  read_number c start rest pos number hd = (res, s) ->
  exists t, moved (mkSrc rest pos) t s /\
    ((res = num_ok start s (number ++ t) /\
      exists m e, t = m ++ e /\ mantissa (dec_char c) (negb hd) m /\ num_tail c (str "eE") true e) \/
     res = num_bad start s (number ++ t)).
Proof.
  assert (NM : forall P b, mantissa P b []) by (intros; apply man_plain; reflexivity).
  induction rest as [|d r IH]; intros pos number hd res s H; cbn [read_number] in H.
  - injection H as <- <-. exists []. split; [apply moved_nil|]. left. rewrite app_nil_r. split; [reflexivity|].
    exists [], []. repeat split; auto. constructor.
  - fold (dec_char c d) in H. destruct (dec_char c d) eqn:Ed.
    + apply IH in H as (t & M & R). exists (d :: t). split; [now apply moved_cons|].
      rewrite <- app_assoc in R. destruct R as [[-> (m & e & -> & Hm & He)]| ->]; [left|now right].
      split; [reflexivity|]. exists (d :: m), e. split; [reflexivity|]. split; [now apply mantissa_cons|assumption].
    + destruct (d =? ch ".") eqn:Edot.
      { apply N.eqb_eq in Edot; subst d. destruct hd.
        - bad_number H. exists t. auto.
        - apply IH in H as (t & M & R). exists (ch "." :: t). split; [now apply moved_cons|].
          rewrite <- app_assoc in R. destruct R as [[-> (m & e & -> & Hm & He)]| ->]; [left|now right].
          split; [reflexivity|]. exists (ch "." :: m), e. split; [reflexivity|]. split; [|assumption].
          inversion Hm as [a Ha|a b Hf]; [subst|discriminate].
          apply (man_dot _ _ []); auto. }
      destruct ((d =? ch "e") || (d =? ch "E")) eqn:Ee.
      { apply read_exponent_part_spec in H as (t & M & R). exists (d :: t). split; [assumption|].
        destruct R as [(-> & Hx & _)| ->]; [left|now right]. split; [reflexivity|].
        exists [], (d :: t). split; [reflexivity|]. split; [apply NM|]. apply (nt_exp _ _ _ d); auto.
        apply orb_true_iff in Ee. rewrite !N.eqb_eq in Ee. cbn. intuition. }
      destruct (has_luajit c && is_suffix_char d) eqn:Es.
      { apply read_luajit_number_suffix_spec in H; [|discriminate]. destruct H as (t & M & R).
        exists t. split; [assumption|]. destruct R as [(-> & Hx)| ->]; [left|now right]. split; [reflexivity|].
        exists [], t. split; [reflexivity|]. split; [apply NM|]. apply nt_suffix; auto.
        apply andb_true_iff in Es. tauto. }
      injection H as <- <-. exists []. split; [apply moved_nil|]. left. rewrite app_nil_r. split; [reflexivity|].
      exists [], []. repeat split; auto. constructor.
Qed.

Lemma finish_radix_spec start rest pos number res s :
  finish_radix start rest pos number = (res, s) ->
  exists t, moved (mkSrc rest pos) t s /\
    ((res = num_ok start s (number ++ t) /\ t = [] /\ List.length number <> 2%nat) \/
     res = num_bad start s (number ++ t)).
Proof.
  unfold finish_radix. destruct (Nat.eqb (List.length number) 2) eqn:E; intros H.
  - bad_number H. exists t. auto.
  - injection H as <- <-. exists []. split; [apply moved_nil|]. left. rewrite app_nil_r. repeat split.
    now apply Nat.eqb_neq.
Qed.

Definition hex_char (c : cfg) (d : char) : bool := is_hex_digit d || (has_luau c && (d =? ch "_")).

Lemma read_hex_number_spec c start rest : forall pos number hd res s,
  (2 <= List.length number)%nat ->
  read_hex_number c start rest pos number hd = (res, s) ->
  exists t, moved (mkSrc rest pos) t s /\
    ((res = num_ok start s (number ++ t) /\
      exists m e, t = m ++ e /\ mantissa (hex_char c) (negb hd && has_lua52 c) m /\ num_tail c (str "pP") (has_lua52 c) e /\
                  (has_luajit c = false \/ ~ jit_suffix e -> (2 < List.length (number ++ m))%nat)) \/
     res = num_bad start s (number ++ t)).
Proof.
  assert (NM : forall P b, mantissa P b []) by (intros; apply man_plain; reflexivity).
  induction rest as [|d r IH]; intros pos number hd res s Hlen H; cbn [read_hex_number] in H.
  - apply finish_radix_spec in H as (t & M & [(-> & -> & Hl)| ->]); [|now eauto].
    exists []. split; [assumption|]. left. split; [reflexivity|]. exists [], []. repeat split; auto; [constructor|].
    intros _. rewrite app_nil_r. lia.
  - destruct (is_hex_digit d || (d =? ch "_") && has_luau c) eqn:Ed.
    + assert (H' : read_hex_number c start r (advance pos d) (number ++ [d]) hd = (res, s)).
      { destruct (is_hex_digit d); [assumption|]. cbn in Ed. rewrite Ed in H. assumption. }
      apply IH in H' as (t & M & R); [|rewrite app_length; cbn; lia]. exists (d :: t). split; [now apply moved_cons|].
      rewrite <- app_assoc in R. destruct R as [[-> (m & e & -> & Hm & He & Hl)]| ->]; [left|now right].
      split; [reflexivity|]. exists (d :: m), e. split; [reflexivity|]. split; [|split; [assumption|]].
      * apply mantissa_cons; auto. unfold hex_char. rewrite (andb_comm (has_luau c)). assumption.
      * intros _. rewrite app_length. cbn. lia.
    + apply orb_false_iff in Ed as [E1 E2]. rewrite E1, E2 in H.
      destruct ((d =? ch ".") && has_lua52 c) eqn:Edot.
      { apply andb_true_iff in Edot as [Edot E52]. apply N.eqb_eq in Edot; subst d. destruct hd.
        - bad_number H. exists t. auto.
        - apply IH in H as (t & M & R); [|rewrite app_length; cbn; lia]. exists (ch "." :: t). split; [now apply moved_cons|].
          rewrite <- app_assoc in R. destruct R as [[-> (m & e & -> & Hm & He & Hl)]| ->]; [left|now right].
          split; [reflexivity|]. exists (ch "." :: m), e. split; [reflexivity|]. split; [|split; [assumption|]].
          + inversion Hm as [a Ha|a b Hf]; [subst|discriminate].
            apply (man_dot _ _ []); auto.
          + intros _. rewrite app_length. cbn. lia. }
      destruct (((d =? ch "p") || (d =? ch "P")) && has_lua52 c) eqn:Ee.
      { apply andb_true_iff in Ee as [Ee E52].
        destruct (Nat.eqb (List.length number) 2) eqn:E3.
        { bad_number H. exists t. auto. }
        apply read_exponent_part_spec in H as (t & M & R). exists (d :: t). split; [assumption|].
        destruct R as [(-> & Hx & _)| ->]; [left|now right]. split; [reflexivity|].
        exists [], (d :: t). split; [reflexivity|]. split; [apply NM|]. split.
        - apply (nt_exp _ _ _ d); auto.
          apply orb_true_iff in Ee. rewrite !N.eqb_eq in Ee. cbn. intuition.
        - intros _. apply Nat.eqb_neq in E3. rewrite app_length. cbn. lia. }
      destruct (is_suffix_char d && has_luajit c) eqn:Es.
      { apply read_luajit_number_suffix_spec in H; [|discriminate]. destruct H as (t & M & R).
        exists t. split; [assumption|]. destruct R as [(-> & Hx)| ->]; [left|now right]. split; [reflexivity|].
        apply andb_true_iff in Es as [_ Ej].
        exists [], t. split; [reflexivity|]. split; [apply NM|]. split; [now apply nt_suffix|].
        intros [Hj|Hj]; [congruence|tauto]. }
      apply finish_radix_spec in H as (t & M & [(-> & -> & Hl)| ->]); [|now eauto].
      exists []. split; [assumption|]. left. split; [reflexivity|]. exists [], []. repeat split; auto; [constructor|].
      intros _. rewrite app_nil_r. lia.
Qed.

Definition bin_char (d : char) : bool := (d =? ch "0") || (d =? ch "1") || (d =? ch "_").

Lemma read_binary_number_spec c start rest : forall pos number res s,
  (2 <= List.length number)%nat ->
  read_binary_number c start rest pos number = (res, s) ->
  exists t, moved (mkSrc rest pos) t s /\
    ((res = num_ok start s (number ++ t) /\
      exists m e, t = m ++ e /\ forallb bin_char m = true /\ num_tail c [] false e /\
                  (has_luajit c = false \/ ~ jit_suffix e -> (2 < List.length (number ++ m))%nat)) \/
     res = num_bad start s (number ++ t)).
Proof.
  induction rest as [|d r IH]; intros pos number res s Hlen H; cbn [read_binary_number] in H.
  - apply finish_radix_spec in H as (t & M & [(-> & -> & Hl)| ->]); [|now eauto].
    exists []. split; [assumption|]. left. split; [reflexivity|]. exists [], []. repeat split; auto; [constructor|].
    intros _. rewrite app_nil_r. lia.
  - fold (bin_char d) in H. destruct (bin_char d) eqn:Ed.
    + apply IH in H as (t & M & R); [|rewrite app_length; cbn; lia]. exists (d :: t). split; [now apply moved_cons|].
      rewrite <- app_assoc in R. destruct R as [[-> (m & e & -> & Hm & He & Hl)]| ->]; [left|now right].
      split; [reflexivity|]. exists (d :: m), e. split; [reflexivity|]. split; [|split; [assumption|]].
      * cbn. now rewrite Ed.
      * intros _. rewrite app_length. cbn. lia.
    + destruct (is_suffix_char d && has_luajit c) eqn:Es.
      { apply read_luajit_number_suffix_spec in H; [|discriminate]. destruct H as (t & M & R).
        exists t. split; [assumption|]. destruct R as [(-> & Hx)| ->]; [left|now right]. split; [reflexivity|].
        apply andb_true_iff in Es as [_ Ej].
        exists [], t. split; [reflexivity|]. split; [reflexivity|]. split; [now apply nt_suffix|].
        intros [Hj|Hj]; [congruence|tauto]. }
      apply finish_radix_spec in H as (t & M & [(-> & -> & Hl)| ->]); [|now eauto].
      exists []. split; [assumption|]. left. split; [reflexivity|]. exists [], []. repeat split; auto; [constructor|].
      intros _. rewrite app_nil_r. lia.
Qed.
