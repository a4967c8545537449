(** From single tokens to token references and streams. Proof file. *)
From Verif Require Import Lexer LexerFacts LexerFacts2 LexerCases LexerStep.
From Coq Require Import Lia ZifyBool ZifyNat ZifyN.
Local Open Scope N_scope.
Arguments ch a : simpl never.
Arguments advance p c : simpl never.

(** A rejected step: the error covers exactly the characters read. *)
Definition bad_step (l : lexer) (es : list tok_error) (l' : lexer) : Prop :=
  exists txt e, moved (l_src l) txt (l_src l') /\ txt <> [] /\ l_sent_eof l' = l_sent_eof l /\
    es = [mkTokError e (s_pos (l_src l), s_pos (l_src l'))].

Lemma bad_step_mk l es l' txt s e :
  moved (l_src l) txt s -> txt <> [] -> l_src l' = s -> l_sent_eof l' = l_sent_eof l ->
  es = [mkTokError e (s_pos (l_src l), s_pos s)] -> bad_step l es l'.
Proof. intros M Hn <- Hs ->. exists txt, e. auto. Qed.

Lemma recovered_bad s start tt rec e t es :
  create_recovered s start tt (recovered_errs rec e start s) = LRecovered t es ->
  rec = true /\ t = mkToken start (s_pos s) tt /\ es = [mkTokError e (start, s_pos s)].
Proof. unfold create_recovered, recovered_errs, lexres_new. destruct rec; [|discriminate]. now intros [= <- <-]. Qed.

Lemma app_nonnil {A} (a b : list A) : a <> [] -> a ++ b <> [].
Proof. destruct a; [congruence|discriminate]. Qed.

Lemma process_next_recovered c l t es l' :
  process_next c l = Done (Some (LRecovered t es), l') ->
  bad_step l es l' /\ t_start t = s_pos (l_src l) /\ t_end t = s_pos (l_src l') /\ t_type t <> TEof.
Proof.
  intros H. pose proof (process_next_cases c l) as HC. rewrite H in HC. cbn [next_ok] in HC.
  remember (Some (LRecovered t es)) as o eqn:Ho.
  destruct HC as [ | He Hs | next w s Hid M F Hd | next w s Hn M T Z | s M | d r res s HR Hx R | d r res s HR Hx Hv R
    | d r res s HR Hx Hv R | d r res s HR Hx R | r res l1 HR Hv R | r bs res l1 HR Hv Hb R
    | q r qt lit rec s HR Hq Hv R | r n b s HR R | r n b s HR R | r tt rec s HR R | r tt rec s HR Hv R
    | sy s Hop M HL HE _ _ _ _ _ | d s e M He HN ]; try discriminate.
  - injection Ho as ->. apply read_hex_number_spec in R as (u & M & [[E _]|E]); [discriminate E| |cbn; lia].
    injection E as -> ->. assert (M' := moved_app _ _ _ _ _ (rest_moved2 _ _ _ _ HR) M).
    split; [|repeat split; discriminate]. eapply bad_step_mk; [exact M'|discriminate|reflexivity|reflexivity|reflexivity].
  - injection Ho as ->. apply read_binary_number_spec in R as (u & M & [[E _]|E]); [discriminate E| |cbn; lia].
    injection E as -> ->. assert (M' := moved_app _ _ _ _ _ (rest_moved2 _ _ _ _ HR) M).
    split; [|repeat split; discriminate]. eapply bad_step_mk; [exact M'|discriminate|reflexivity|reflexivity|reflexivity].
  - injection Ho as ->. apply read_number_spec in R as (u & M & [[E _]|E]); [discriminate E|].
    injection E as -> ->. assert (M' := moved_app _ _ _ _ _ (rest_moved _ _ _ HR) M).
    split; [|repeat split; discriminate]. eapply bad_step_mk; [exact M'|discriminate|reflexivity|reflexivity|reflexivity].
  - injection Ho as ->. apply read_number_spec in R as (u & M & [[E _]|E]); [discriminate E|].
    injection E as -> ->. assert (M' := moved_app _ _ _ _ _ (rest_moved _ _ _ HR) M).
    split; [|repeat split; discriminate]. eapply bad_step_mk; [exact M'|discriminate|reflexivity|reflexivity|reflexivity].
  - injection Ho as ->. unfold read_interpolated_string_section in R. cbn [l_src with_src s_rest s_pos] in R.
    destruct (read_istr _ _ _ _ _ _) as [[w e] s] eqn:RR. apply read_istr_spec in RR as (u & -> & M).
    destruct e as [[]|]; try discriminate R; injection R as <- <- <-.
    assert (M' := moved_app _ _ _ _ _ (rest_moved _ _ _ HR) M).
    split; [|repeat split; discriminate]. eapply bad_step_mk; [exact M'|discriminate|reflexivity|reflexivity|reflexivity].
  - injection Ho as ->. unfold read_interpolated_string_section in R. cbn [l_src with_src s_rest s_pos l_sent_eof] in R.
    destruct (read_istr _ _ _ _ _ _) as [[w e] s] eqn:RR. apply read_istr_spec in RR as (u & -> & M).
    destruct e as [[]|]; try discriminate R; injection R as <- <- <-.
    assert (M' := moved_app _ _ _ _ _ (rest_moved _ _ _ HR) M).
    split; [|repeat split; discriminate]. eapply bad_step_mk; [exact M'|discriminate|reflexivity|reflexivity|reflexivity].
  - injection Ho as Ho. apply recovered_bad in Ho as (-> & -> & ->).
    destruct (quote_not_special _ _ _ Hq) as (Q1 & Q2 & Q3).
    apply read_string_loop_spec in R as (u & -> & [[M _]|(d & _ & M & _)]); auto;
    assert (M' := moved_app _ _ _ _ _ (rest_moved _ _ _ HR) M);
    (split; [|repeat split; discriminate]; eapply bad_step_mk; [exact M'|discriminate|reflexivity|reflexivity|reflexivity]).
  - injection Ho as <- <-. apply read_multi_line_body_spec in R as (m & -> & E & NC & E2 & M).
    assert (M' := moved_app _ _ _ _ _ (rest_moved _ _ _ HR) M).
    split; [|repeat split; discriminate]. eapply bad_step_mk; [exact M'|discriminate|reflexivity|reflexivity|reflexivity].
  - injection Ho as Ho. apply recovered_bad in Ho as (-> & -> & ->).
    apply read_comment_spec in R as [(n & b & full & -> & E & _)|[(n & b & -> & _ & E & _ & _ & M)|(u & -> & E & _)]]; try discriminate E.
    assert (M' := moved_app _ _ _ _ _ (rest_moved2 _ _ _ _ HR) M).
    split; [|repeat split; discriminate]. eapply bad_step_mk; [exact M'|discriminate|reflexivity|reflexivity|reflexivity].
  - injection Ho as Ho. apply recovered_bad in Ho as (-> & -> & ->).
    apply read_c_style_comment_spec in R as [(b & _ & E & _)|(-> & _ & _ & M & _)]; [discriminate E|].
    assert (M' := moved_app _ _ _ _ _ (rest_moved2 _ _ _ _ HR) M).
    split; [|repeat split; discriminate]. eapply bad_step_mk; [exact M'|discriminate|reflexivity|reflexivity|reflexivity].
Qed.

Lemma process_next_fatal c l es l' :
  process_next c l = Done (Some (LFatal es), l') -> bad_step l es l'.
Proof.
  intros H. pose proof (process_next_cases c l) as HC. rewrite H in HC. cbn [next_ok] in HC.
  remember (Some (LFatal es)) as o eqn:Ho.
  destruct HC as [ | He Hs | next w s Hid M F Hd | next w s Hn M T Z | s M | d r res s HR Hx R | d r res s HR Hx Hv R
    | d r res s HR Hx Hv R | d r res s HR Hx R | r res l1 HR Hv R | r bs res l1 HR Hv Hb R
    | q r qt lit rec s HR Hq Hv R | r n b s HR R | r n b s HR R | r tt rec s HR R | r tt rec s HR Hv R
    | sy s Hop M HL HE _ _ _ _ _ | d s e M He HN ]; try discriminate.
  - injection Ho as ->. apply read_hex_number_spec in R as (u & M & [[E _]|E]); [discriminate E|discriminate E|cbn; lia].
  - injection Ho as ->. apply read_binary_number_spec in R as (u & M & [[E _]|E]); [discriminate E|discriminate E|cbn; lia].
  - injection Ho as ->. apply read_number_spec in R as (u & M & [[E _]|E]); discriminate E.
  - injection Ho as ->. apply read_number_spec in R as (u & M & [[E _]|E]); discriminate E.
  - injection Ho as ->. unfold read_interpolated_string_section in R.
    destruct (read_istr _ _ _ _ _ _) as [[w [[]|]] s]; discriminate R.
  - injection Ho as ->. unfold read_interpolated_string_section in R.
    destruct (read_istr _ _ _ _ _ _) as [[w [[]|]] s]; discriminate R.
  - injection Ho as Ho. unfold create_recovered, lexres_new, recovered_errs in Ho. destruct rec; discriminate.
  - injection Ho as Ho. unfold create_recovered, lexres_new, recovered_errs in Ho. destruct rec; discriminate.
  - injection Ho as Ho. unfold create_recovered, lexres_new, recovered_errs in Ho. destruct rec; discriminate.
  - injection Ho as <-. eapply bad_step_mk; [exact M|discriminate|reflexivity|reflexivity|reflexivity].
Qed.

Lemma process_next_none c l l' :
  process_next c l = Done (None, l') -> l' = l /\ s_rest (l_src l) = [] /\ l_sent_eof l = true.
Proof.
  intros H. pose proof (process_next_cases c l) as HC. rewrite H in HC. cbn [next_ok] in HC.
  remember None as o eqn:Ho. destruct HC; try discriminate. auto.
Qed.

Lemma process_next_no_fuel c l : process_next c l <> OutOfFuel.
Proof. intros H. pose proof (process_next_cases c l) as HC. rewrite H in HC. exact HC. Qed.

Lemma process_next_panic c l : process_next c l = Panic -> backtick_panic c l.
Proof. intros H. pose proof (process_next_cases c l) as HC. rewrite H in HC. exact HC. Qed.

Lemma backtick_panic_next c l : backtick_panic c l -> process_next c l = Panic.
Proof.
  intros ((r & HR) & H1 & H2). unfold process_next, src_next. rewrite HR.
  change (is_identifier_start c_backtick) with false.
  change ((c_backtick =? c_space) || (c_backtick =? c_tab) || (c_backtick =? c_cr)) with false.
  change (c_backtick =? ch "0") with false. change (in_range 49 57 c_backtick) with false.
  change ((c_backtick =? c_dquote) || (c_backtick =? c_squote) || (c_backtick =? c_backtick)) with true.
  unfold string_quote_type. rewrite H1, H2. reflexivity.
Qed.

(** Reading a character that can start trailing trivia leaves the brace stack alone. *)
Lemma trivia_start_braces c l x r o l' :
  s_rest (l_src l) = x :: r -> starts_trivia x = true -> process_next c l = Done (o, l') -> l_braces l' = l_braces l.
Proof.
  intros HX HT H. pose proof (process_next_cases c l) as HC. rewrite H in HC. cbn [next_ok] in HC.
  destruct HC as [ | He Hs | next w s Hid M F Hd | next w s Hn M T Z | s M | d r0 res s HR Hx R | d r0 res s HR Hx Hv R
    | d r0 res s HR Hx Hv R | d r0 res s HR Hx R | r0 res l1 HR Hv R | r0 bs res l1 HR Hv Hb R
    | q r0 qt lit rec s HR Hq Hv R | r0 n b s HR R | r0 n b s HR R | r0 tt rec s HR R | r0 tt rec s HR Hv R
    | sy s Hop M HL HE _ _ _ _ _ | d s e M He HN ]; try reflexivity.
  - rewrite HX in HR. injection HR as -> _. discriminate HT.
  - rewrite HX in HR. injection HR as -> _. discriminate HT.
  - destruct M as [M _]. rewrite HX in M. cbn [l_braces]. unfold braces_after. destruct (has_luau c); [|reflexivity].
    destruct sy; try reflexivity; cbn in M; injection M as -> _; discriminate HT.
Qed.

(** ** Sequences of steps *)

(** A token produced with the errors [es] attached to it. *)
Definition pstep (c : cfg) (l : lexer) (t : token) (es : list tok_error) (l' : lexer) : Prop :=
  (process_next c l = Done (Some (LOk t), l') /\ es = []) \/
  (process_next c l = Done (Some (LRecovered t es), l') /\ es <> []).

Inductive psteps (c : cfg) : lexer -> list token -> list tok_error -> lexer -> Prop :=
| ps_nil l : psteps c l [] [] l
| ps_cons l t es l1 ts es' l' : pstep c l t es l1 -> psteps c l1 ts es' l' -> psteps c l (t :: ts) (es ++ es') l'.

Lemma psteps_snoc c l ts es l1 t es' l' :
  psteps c l ts es l1 -> pstep c l1 t es' l' -> psteps c l (ts ++ [t]) (es ++ es') l'.
Proof.
  intros H Hp. induction H.
  - cbn [app]. rewrite <- (app_nil_r es'). econstructor; [eassumption|constructor].
  - cbn [app]. rewrite <- app_assoc. econstructor; eauto.
Qed.

Lemma psteps_app c l ts es l1 ts' es' l' :
  psteps c l ts es l1 -> psteps c l1 ts' es' l' -> psteps c l (ts ++ ts') (es ++ es') l'.
Proof.
  intros H Hp. induction H; [assumption|]. cbn [app]. rewrite <- app_assoc. econstructor; eauto.
Qed.

Lemma pstep_moved c l t es l' : pstep c l t es l' ->
  exists txt, moved (l_src l) txt (l_src l') /\ (t_type t <> TEof -> txt <> [] /\ l_sent_eof l' = l_sent_eof l) /\
    (es = [] -> txt = show_token t).
Proof.
  intros [[H ->]|[H Hn]].
  - apply process_next_ok in H as (M & _ & _ & H). exists (show_token t). split; [assumption|]. split; [|reflexivity].
    intros Ht. destruct H as [[? _]|[_ H]]; [contradiction|exact H].
  - apply process_next_recovered in H as ((txt & e & M & Ht & Hs & _) & _). exists txt. split; [assumption|]. split; auto.
    intros ->. contradiction.
Qed.

Lemma psteps_moved c l ts es l' : psteps c l ts es l' -> exists txt, moved (l_src l) txt (l_src l').
Proof.
  induction 1 as [l|l t es l1 ts es' l' Hp _ [txt IH]]; [exists []; apply moved_nil|].
  apply pstep_moved in Hp as (txt' & M & _). exists (txt' ++ txt). eapply moved_app; eassumption.
Qed.

Lemma psteps_sent c l ts es l' : psteps c l ts es l' -> Forall (fun t => is_trivia (t_type t) = true) ts -> l_sent_eof l' = l_sent_eof l.
Proof.
  induction 1 as [l|l t es l1 ts es' l' Hp _ IH]; intros F; [reflexivity|].
  inversion_clear F. rewrite IH by assumption. apply pstep_moved in Hp as (txt' & M & A & _).
  apply A. intros E. rewrite E in H. discriminate.
Qed.

(** ** Trailing trivia *)

(** Whether a token is a whitespace token with a newline. *)
Definition is_newline_ws (t : token) : bool :=
  match t_type t with TWhitespace w => existsb (N.eqb c_nl) w | _ => false end.

(** Trailing trivia: only the last token may be a whitespace with a newline. *)
Definition trailing_ok (ts : list token) : Prop :=
  Forall (fun t => is_trivia (t_type t) = true) ts /\
  forall a t b, ts = a ++ t :: b -> is_newline_ws t = true -> b = [].

(** Why collection stopped. *)
Definition trailing_stop (c : cfg) (ts : list token) (l : lexer) : Prop :=
  (exists a t, ts = a ++ [t] /\ is_newline_ws t = true) \/
  (match s_rest (l_src l) with x :: _ => starts_trivia x = false | [] => True end) \/
  (forall t l', process_next c l = Done (Some (LOk t), l') -> is_trivia (t_type t) = false).

Lemma collect_trailing_trivia_spec c fuel : forall l,
  (List.length (s_rest (l_src l)) < fuel)%nat ->
  match collect_trailing_trivia fuel c l with
  | Done (ts, l') => psteps c l ts [] l' /\ trailing_ok ts /\ trailing_stop c ts l'
  | Panic => False
  | OutOfFuel => False
  end.
Proof.
  induction fuel as [|fuel IH]; intros l Hf; [lia|]. cbn [collect_trailing_trivia].
  assert (Nil : trailing_ok []).
  { split; [constructor|]. intros a t b E. destruct a; discriminate. }
  assert (Eta : forall bs, bs = l_braces l -> mkLexer (l_src l) (l_sent_eof l) bs = l) by (intros bs ->; now destruct l).
  unfold src_current. destruct (s_rest (l_src l)) as [|x r] eqn:HR.
  { rewrite Eta by reflexivity. split; [constructor|]. split; [assumption|]. right; left. now rewrite HR. }
  destruct (starts_trivia x) eqn:HT.
  2: { rewrite Eta by reflexivity. split; [constructor|]. split; [assumption|]. right; left. now rewrite HR. }
  destruct (process_next c l) as [[o l']| |] eqn:HP.
  - assert (HB := trivia_start_braces c l x r o l' HR HT HP).
    assert (Stop : (forall t l', process_next c l = Done (Some (LOk t), l') -> is_trivia (t_type t) = false) ->
      psteps c l [] [] l /\ trailing_ok [] /\ trailing_stop c [] l).
    { intros Hs. split; [constructor|]. split; [assumption|]. right; right. assumption. }
    destruct o as [[t|es|t es]|].
    + destruct (is_trivia (t_type t)) eqn:Et.
      * assert (P : pstep c l t [] l') by (left; auto).
        fold (is_newline_ws t).
        destruct (is_newline_ws t) eqn:En.
        { split; [apply (ps_cons c l t [] l' [] [] l'); [assumption|constructor]|]. split.
          - split; [constructor; [assumption|constructor]|]. intros a t' b E _. destruct a as [|? [|]]; cbn in E; congruence.
          - left. exists [], t. auto. }
        assert (L : (List.length (s_rest (l_src l')) < fuel)%nat).
        { apply pstep_moved in P as (txt & M & A & _). apply moved_length in M. destruct A as [A _].
          - intros E. rewrite E in Et. discriminate.
          - destruct txt; [congruence|]. cbn in M. rewrite HR in M. cbn in M, Hf. lia. }
        specialize (IH l' L). destruct (collect_trailing_trivia fuel c l') as [[ts l'']| |]; [|assumption|assumption].
        destruct IH as (IH1 & [IH2 IH3] & IH4). split; [apply (ps_cons c l t [] l' ts [] l''); assumption|]. split.
        -- split; [constructor; assumption|]. intros a t' b E Hn. destruct a as [|y a]; cbn [app] in E; inversion E; subst.
           ++ congruence.
           ++ eapply IH3; eauto.
        -- destruct IH4 as [(a & t' & -> & Hn)|IH4].
           ++ left. exists (t :: a), t'. auto.
           ++ right. exact IH4.
      * rewrite Eta by assumption. apply Stop. intros t' l'' E. rewrite HP in E. injection E as <- <-. assumption.
    + rewrite Eta by assumption. apply Stop. intros t' l'' E. rewrite HP in E. discriminate E.
    + rewrite Eta by assumption. apply Stop. intros t' l'' E. rewrite HP in E. discriminate E.
    + rewrite Eta by assumption. apply Stop. intros t' l'' E. rewrite HP in E. discriminate E.
  - apply process_next_panic in HP as ((r' & E) & _). rewrite HR in E. injection E as -> _. discriminate HT.
  - now apply process_next_no_fuel in HP.
Qed.

(** ** Leading trivia *)

Definition errs_of (o : option (list tok_error)) : list tok_error := match o with Some e => e | None => [] end.
Definition errs_wf (o : option (list tok_error)) : Prop := match o with Some e => e <> [] | None => True end.

Lemma process_next_recovered_nonnil c l t es l' : process_next c l = Done (Some (LRecovered t es), l') -> es <> [].
Proof. intros H. apply process_next_recovered in H as ((txt & e & _ & _ & _ & ->) & _). discriminate. Qed.

Lemma leading_loop_spec c fuel : forall l leading errors,
  (List.length (s_rest (l_src l)) < fuel)%nat -> errs_wf errors ->
  match leading_loop fuel c l leading errors with
  | Done (LdNone, l') => exists ts es, psteps c l ts es l' /\ Forall (fun t => is_trivia (t_type t) = true) ts /\
      s_rest (l_src l') = [] /\ l_sent_eof l' = true
  | Done (LdFatal e, l') => exists ts es l1, psteps c l ts es l1 /\ Forall (fun t => is_trivia (t_type t) = true) ts /\
      process_next c l1 = Done (Some (LFatal e), l')
  | Done (LdToken t leading' errors', l') => exists ts es l1 es1,
      psteps c l ts es l1 /\ Forall (fun t => is_trivia (t_type t) = true) ts /\ pstep c l1 t es1 l' /\
      is_trivia (t_type t) = false /\ leading' = leading ++ ts /\ errs_of errors' = errs_of errors ++ es ++ es1 /\ errs_wf errors'
  | Panic => exists ts es l1, psteps c l ts es l1 /\ Forall (fun t => is_trivia (t_type t) = true) ts /\ backtick_panic c l1
  | OutOfFuel => False
  end.
Proof.
  induction fuel as [|fuel IH]; intros l leading errors Hf Hw; [lia|]. cbn [leading_loop].
  assert (Step : forall t es1 l' errors1, pstep c l t es1 l' -> is_trivia (t_type t) = true ->
    errs_wf errors1 -> errs_of errors1 = errs_of errors ++ es1 ->
    match leading_loop fuel c l' (leading ++ [t]) errors1 with
    | Done (LdNone, l') => exists ts es, psteps c l ts es l' /\ Forall (fun t => is_trivia (t_type t) = true) ts /\
        s_rest (l_src l') = [] /\ l_sent_eof l' = true
    | Done (LdFatal e, l') => exists ts es l1, psteps c l ts es l1 /\ Forall (fun t => is_trivia (t_type t) = true) ts /\
        process_next c l1 = Done (Some (LFatal e), l')
    | Done (LdToken t leading' errors', l') => exists ts es l1 es1,
        psteps c l ts es l1 /\ Forall (fun t => is_trivia (t_type t) = true) ts /\ pstep c l1 t es1 l' /\
        is_trivia (t_type t) = false /\ leading' = leading ++ ts /\ errs_of errors' = errs_of errors ++ es ++ es1 /\ errs_wf errors'
    | Panic => exists ts es l1, psteps c l ts es l1 /\ Forall (fun t => is_trivia (t_type t) = true) ts /\ backtick_panic c l1
    | OutOfFuel => False
    end).
  { intros t es1 l' errors1 P Et Hw1 HE.
    assert (L : (List.length (s_rest (l_src l')) < fuel)%nat).
    { apply pstep_moved in P as (txt & M & A & _). apply moved_length in M. destruct A as [A _].
      - intros E. rewrite E in Et. discriminate.
      - destruct txt; [congruence|]. cbn in M. lia. }
    specialize (IH l' (leading ++ [t]) errors1 L Hw1).
    destruct (leading_loop fuel c l' (leading ++ [t]) errors1) as [[[|e|t' ld er] l'']| |].
    - destruct IH as (ts & es & P1 & F & R). exists (t :: ts), (es1 ++ es). split; [econstructor; eassumption|]. split; [now constructor|assumption].
    - destruct IH as (ts & es & l1 & P1 & F & R). exists (t :: ts), (es1 ++ es), l1. split; [econstructor; eassumption|]. split; [now constructor|assumption].
    - destruct IH as (ts & es & l1 & es2 & P1 & F & P2 & Nt & -> & E2 & W). exists (t :: ts), (es1 ++ es), l1, es2.
      split; [econstructor; eassumption|]. split; [now constructor|]. split; [assumption|]. split; [assumption|].
      split; [now rewrite <- app_assoc|]. split; [|assumption]. rewrite E2, HE, <- !app_assoc. reflexivity.
    - destruct IH as (ts & es & l1 & P1 & F & R). exists (t :: ts), (es1 ++ es), l1. split; [econstructor; eassumption|]. split; [now constructor|assumption].
    - assumption. }
  destruct (process_next c l) as [[o l']| |] eqn:HP.
  - destruct o as [[t|es|t es]|].
    + assert (P : pstep c l t [] l') by (left; auto).
      destruct (is_trivia (t_type t)) eqn:Et.
      * apply (Step _ [] _ errors); auto. now rewrite app_nil_r.
      * exists [], [], l, []. split; [constructor|]. split; [constructor|]. split; [assumption|]. split; [assumption|].
        rewrite !app_nil_r. auto.
    + exists [], [], l. split; [constructor|]. split; [constructor|]. assumption.
    + assert (Hn := process_next_recovered_nonnil _ _ _ _ _ HP).
      assert (P : pstep c l t es l') by (right; auto).
      set (errors1 := match errors with Some es0 => Some (es0 ++ es) | None => Some es end).
      assert (HE : errs_of errors1 = errs_of errors ++ es) by (destruct errors; reflexivity).
      assert (HW : errs_wf errors1).
      { unfold errors1, errs_wf. destruct errors; [|assumption]. intros E. apply app_eq_nil in E. tauto. }
      destruct (is_trivia (t_type t)) eqn:Et.
      * now apply (Step _ es _ errors1).
      * exists [], [], l, es. split; [constructor|]. split; [constructor|]. split; [assumption|]. split; [assumption|].
        rewrite !app_nil_r. auto.
    + apply process_next_none in HP as (-> & HR & HS). exists [], []. split; [constructor|]. split; [constructor|]. auto.
  - apply process_next_panic in HP. exists [], [], l. split; [constructor|]. split; [constructor|]. assumption.
  - now apply process_next_no_fuel in HP.
Qed.

(** Specification of one token reference. *)
Inductive ref_step (c : cfg) : lexer -> option (lexres tokref) -> lexer -> Prop :=
| rs_none l ts es l' : psteps c l ts es l' -> Forall (fun t => is_trivia (t_type t) = true) ts ->
    s_rest (l_src l') = [] -> l_sent_eof l' = true -> ref_step c l None l'
| rs_fatal l ts es l1 e l' : psteps c l ts es l1 -> Forall (fun t => is_trivia (t_type t) = true) ts ->
    process_next c l1 = Done (Some (LFatal e), l') -> ref_step c l (Some (LFatal e)) l'
| rs_token l ld es l1 t es1 l2 tr l' r :
    psteps c l ld es l1 -> Forall (fun t => is_trivia (t_type t) = true) ld ->
    pstep c l1 t es1 l2 -> is_trivia (t_type t) = false ->
    psteps c l2 tr [] l' -> trailing_ok tr -> trailing_stop c tr l' ->
    r = lexres_new (mkRef ld t tr) (es ++ es1) ->
    ref_step c l (Some r) l'.

Lemma process_next_with_trivia_spec c l :
  match process_next_with_trivia c l with
  | Done (o, l') => ref_step c l o l'
  | Panic => exists ts es l1, psteps c l ts es l1 /\ backtick_panic c l1
  | OutOfFuel => False
  end.
Proof.
  unfold process_next_with_trivia.
  pose proof (leading_loop_spec c (lexer_fuel l) l [] None) as HL.
  assert (F1 : (List.length (s_rest (l_src l)) < lexer_fuel l)%nat) by (unfold lexer_fuel; lia).
  specialize (HL F1 I).
  destruct (leading_loop (lexer_fuel l) c l [] None) as [[[|e|t ld er] l1]| |].
  - destruct HL as (ts & es & P & F & R & S). econstructor; eassumption.
  - destruct HL as (ts & es & l2 & P & F & R). econstructor; eassumption.
  - destruct HL as (ts & es & l2 & es1 & P & F & P2 & Nt & -> & E & W). cbn [app errs_of] in *.
    pose proof (collect_trailing_trivia_spec c (lexer_fuel l1) l1) as HC.
    assert (F2 : (List.length (s_rest (l_src l1)) < lexer_fuel l1)%nat) by (unfold lexer_fuel; lia).
    specialize (HC F2). destruct (collect_trailing_trivia (lexer_fuel l1) c l1) as [[tr l']| |]; try contradiction.
    destruct HC as (P3 & T1 & T2).
    assert (R : ref_step c l (Some (lexres_new (mkRef ts t tr) (es ++ es1))) l') by (econstructor; eauto).
    rewrite <- E in R. destruct er as [er|].
    + cbn [errs_of] in R. cbn in W. destruct er; [congruence|]. exact R.
    + exact R.
  - destruct HL as (ts & es & l2 & P & _ & R). eauto.
  - assumption.
Qed.
