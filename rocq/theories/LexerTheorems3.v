(** The statements of PropertiesLexer1.v. Proof file. *)
From Verif Require Import Lexer LexerFacts LexerFacts2 LexerCases LexerStep LexerStream LexerSpec LexerProofs LexerTheorems LexerTheorems2.
From Coq Require Import Lia ZifyBool ZifyNat ZifyN.
Local Open Scope N_scope.
Arguments ch a : simpl never.
Arguments advance p c : simpl never.

Lemma tokenize_done c source rs : tokenize c source = Done rs -> run c source rs.
Proof. intros H. pose proof (tokenize_run c source) as R. now rewrite H in R. Qed.

Lemma lexing_lossless c source rs : tokenize c source = Done rs -> clean rs -> shebang_kept source rs -> print_refs rs = source.
Proof. intros H C K. rewrite print_refs_tokens. apply tokenize_done in H. now apply (run_clean c). Qed.

Lemma no_shebang_kept source rs : ~ shebang source -> shebang_kept source rs.
Proof. intros H K. contradiction. Qed.

Lemma lexing_lossless_no_shebang c source rs : tokenize c source = Done rs -> clean rs -> ~ shebang source -> print_refs rs = source.
Proof. intros H C K. eapply lexing_lossless; eauto. now apply no_shebang_kept. Qed.

Lemma bytes_end_of u t : p_bytes (end_of u t) = bytes_of u + bytes_of t.
Proof.
  unfold end_of. destruct (rev t) as [|x r] eqn:E.
  - apply (f_equal (@rev _)) in E. rewrite rev_involutive in E. subst. cbn. lia.
  - assert (Et : t = rev r ++ [x]) by (rewrite <- (rev_involutive t), E; reflexivity).
    destruct (x =? c_nl) eqn:Ex; cbn [p_bytes pos_of].
    + apply N.eqb_eq in Ex. subst x t. rewrite !bytes_of_app. cbn. lia.
    + apply bytes_of_app.
Qed.

Lemma clean_eof_last c source rs : run c source rs -> clean rs -> shebang_kept source rs -> exists ts t, tokens_of rs = ts ++ [t] /\ t_type t = TEof.
Proof.
  intros R C K. destruct (run_eof _ _ _ R) as [(rs0 & r & tr & -> & Hr & H1 & H2 & H3)|[SB ->]].
  - exists (tokens_of rs0 ++ r_leading tr), (r_token tr). split; [|now rewrite H1].
    rewrite tokens_of_app. unfold tokens_of at 2. unfold refs_of. cbn [flat_map]. rewrite Hr. cbn [app flat_map].
    unfold ref_tokens. rewrite H2, app_nil_r, <- app_assoc. reflexivity.
  - destruct (K SB) as (t & ts & w & E & _). discriminate E.
Qed.

Lemma byte_ranges_tile c source rs :
  tokenize c source = Done rs -> clean rs -> shebang_kept source rs ->
  (forall t ts, tokens_of rs = t :: ts -> p_bytes (t_start t) = 0) /\
  (forall a t t' b, tokens_of rs = a ++ t :: t' :: b -> p_bytes (t_end t) = p_bytes (t_start t')) /\
  (forall t, In t (tokens_of rs) -> p_bytes (t_end t) = p_bytes (t_start t) + bytes_of (show_token t)) /\
  (exists ts t, tokens_of rs = ts ++ [t] /\ t_type t = TEof /\ p_bytes (t_end t) = bytes_of source).
Proof.
  intros H C K. apply tokenize_done in H. destruct (run_clean _ _ _ H C K) as [P T]. unfold tiled in T. cbn [app] in T.
  split; [|split; [|split]].
  - intros t ts E. destruct (T [] t ts E) as [-> _]. reflexivity.
  - intros a t t' b E. destruct (T a t (t' :: b) E) as [_ ->]. destruct (T (a ++ [t]) t' b) as [-> _]; [now rewrite E, <- app_assoc|].
    rewrite bytes_end_of, print_tokens_app. cbn [pos_of p_bytes]. rewrite bytes_of_app. cbn [print_tokens flat_map]. now rewrite app_nil_r.
  - intros t Hi. apply in_split in Hi as (a & b & E). destruct (T a t b E) as [-> ->]. apply bytes_end_of.
  - destruct (clean_eof_last _ _ _ H C K) as (ts & t & E & Ht). exists ts, t. split; [assumption|]. split; [assumption|].
    destruct (T ts t [] E) as [_ ->]. rewrite bytes_end_of. rewrite <- P, E, print_tokens_app, bytes_of_app.
    cbn [print_tokens flat_map]. now rewrite app_nil_r.
Qed.

Lemma positions_match c source rs :
  tokenize c source = Done rs -> clean rs -> shebang_kept source rs ->
  forall a t b, tokens_of rs = a ++ t :: b ->
    exists rest, source = print_tokens a ++ show_token t ++ rest /\
      t_start t = pos_of (print_tokens a) /\ t_end t = end_of (print_tokens a) (show_token t).
Proof.
  intros H C K a t b E. apply tokenize_done in H. destruct (run_clean _ _ _ H C K) as [P T]. unfold tiled in T. cbn [app] in T.
  exists (print_tokens b). split; [|now apply (T a t b)]. now rewrite <- P, E, print_tokens_app.
Qed.

Lemma one_eof_last c source rs : tokenize c source = Done rs -> ~ shebang source ->
  exists rs0 r tr, rs = rs0 ++ [r] /\ ref_of r = Some tr /\
    r_token tr = mkToken (pos_of source) (pos_of source) TEof /\ r_trailing tr = [] /\
    Forall (fun t => t_type t <> TEof) (tokens_of rs0 ++ r_leading tr).
Proof. intros H NS. apply tokenize_done, run_eof in H. destruct H as [H|[H _]]; [exact H|contradiction]. Qed.

Lemma one_eof_last_shebang c source rs : tokenize c source = Done rs -> shebang source -> rs <> [] ->
  exists rs0 r tr, rs = rs0 ++ [r] /\ ref_of r = Some tr /\
    r_token tr = mkToken (pos_of source) (pos_of source) TEof /\ r_trailing tr = [] /\
    Forall (fun t => t_type t <> TEof) (tokens_of rs0 ++ r_leading tr).
Proof. intros H _ N. apply tokenize_done, run_eof in H. destruct H as [H|[_ H]]; [exact H|contradiction]. Qed.

(** ** The lexer object *)

Lemma lexer_new_wf c source x : lexer_new c source = Done x -> wf x.
Proof.
  unfold lexer_new. intros H.
  destruct (process_first_with_trivia c (new_lazy source)) as [[n l]| |] eqn:E; try discriminate.
  destruct (process_next_with_trivia c l) as [[p l2]| |] eqn:E2; try discriminate. injection H as <-.
  assert (I : inv l /\ (n = None -> ended l)).
  { destruct (shebang_test source) as [(r & Es & SB)|[NS Es]].
    - assert (Ef : process_first_with_trivia c (new_lazy source) =
        let '(line, s) := read_line r (advance (advance pos0 (ch "#")) (ch "!")) (str "#!") in
        match process_next_with_trivia c (mkLexer s false []) with
        | Panic => Panic
        | OutOfFuel => OutOfFuel
        | Done (Some (LOk r), l) => Done (Some (LOk (add_shebang (mkToken pos0 (s_pos s) (TShebang line)) r)), l)
        | Done (_, l) => process_next_with_trivia c l
        end) by (subst source; reflexivity).
      rewrite Ef in E. destruct (read_line r _ _) as [line s].
      destruct (process_next_with_trivia c (mkLexer s false [])) as [[o l1]| |] eqn:E1; try discriminate.
      apply pnwt_inv in E1; [|apply inv_unsent]. destruct E1 as [I1 _].
      assert (G : process_next_with_trivia c l1 = Done (n, l) -> inv l /\ (n = None -> ended l)).
      { intros G. split; [now apply pnwt_inv in G|]. now apply (pnwt_peek_ended c l1). }
      destruct o as [[]|]; auto. injection E as <- <-. split; [assumption|discriminate].
    - rewrite Es in E. split; [apply pnwt_inv in E; [tauto|discriminate]|]. apply (pnwt_peek_ended c (new_lazy source)); [discriminate|assumption]. }
  destruct I as [I In]. split; [apply pnwt_inv in E2; [tauto|assumption]|]. cbn. split; [now apply (pnwt_peek_ended c l)|].
  intros ->. specialize (In eq_refl). rewrite ended_next_trivia in E2 by assumption. congruence.
Qed.

Lemma queue_consume_n c : forall n x rs, queue c x rs ->
  exists y, consume_n c n x = Done (map Some (firstn n rs) ++ repeat None (n - List.length rs), y).
Proof.
  induction n as [|n IH]; intros x rs Q; [cbn; eauto|]. cbn [consume_n]. apply queue_consume in Q as Q'.
  destruct rs as [|r rs].
  - rewrite Q'. destruct (IH x [] Q) as (y & ->). rewrite firstn_nil. cbn. rewrite Nat.sub_0_r. eauto.
  - destruct Q' as (x' & -> & Q'). destruct (IH x' rs Q') as (y & ->). cbn. eauto.
Qed.

Lemma none_forever c source x rs fuel : lexer_new c source = Done x -> drain fuel c x = Done rs ->
  forall n, exists y, consume_n c (List.length rs + n) x = Done (map Some rs ++ repeat None n, y).
Proof.
  intros H D n. apply lexer_new_wf in H. apply drain_is_queue in D; [|assumption].
  destruct (queue_consume_n c (List.length rs + n) x rs D) as (y & E). exists y. rewrite E.
  rewrite firstn_app_2 || rewrite firstn_all2 by lia. do 3 f_equal. f_equal. lia.
Qed.

Lemma lexing_terminates c source : tokenize c source <> OutOfFuel.
Proof. intros H. pose proof (tokenize_run c source) as R. now rewrite H in R. Qed.

Lemma at_most_n_plus_one c source rs : tokenize c source = Done rs -> (List.length rs <= List.length source + 1)%nat.
Proof. intros H. apply tokenize_done, run_length in H. lia. Qed.

Lemma progress_step c l r l' : process_next c l = Done (Some r, l') ->
  (exists p, r = LOk (mkToken p p TEof) /\ s_rest (l_src l) = [] /\ l_sent_eof l = false /\ l_sent_eof l' = true) \/
  (exists u, u <> [] /\ s_rest (l_src l) = u ++ s_rest (l_src l')).
Proof.
  intros H. destruct r as [t|es|t es].
  - apply process_next_ok in H as ([M1 M2] & E1 & E2 & [(Ht & Hr & S1 & S2)|(Ht & Hn & _)]).
    + left. exists (s_pos (l_src l)). repeat split; auto. destruct t as [a b ty]. cbn in *. subst a ty. unfold show_token in E2. cbn in E2. unfold end_pos in E2. cbn in E2. now subst b.
    + right. eauto.
  - apply process_next_fatal in H as (txt & e & [M1 M2] & N & _). eauto.
  - apply process_next_recovered in H as ((txt & e & [M1 M2] & N & _) & _). eauto.
Qed.

Lemma trivia_attachment c source rs tr : tokenize c source = Done rs -> In tr (refs_of rs) ->
  is_trivia (t_type (r_token tr)) = false /\
  Forall (fun t => is_trivia (t_type t) = true) (r_leading tr ++ r_trailing tr) /\
  (forall a t b w, r_trailing tr = a ++ t :: b -> t_type t = TWhitespace w -> In c_nl w -> b = []).
Proof. intros H. apply tokenize_done in H. now apply (run_shape c source). Qed.

(** A whitespace token starts with a character that [collect_trailing_trivia] looks for. *)
Lemma whitespace_first c l t l' w : process_next c l = Done (Some (LOk t), l') -> t_type t = TWhitespace w ->
  exists x r, s_rest (l_src l) = x :: r /\ starts_trivia x = true.
Proof.
  intros H Hw. pose proof (process_next_cases c l) as HC. rewrite H in HC. cbn [next_ok] in HC.
  remember (LOk t) as r eqn:Hr. remember (Some r) as o eqn:Ho.
  assert (R : forall (A : token_type) s p e, r = create_recovered s p A e -> A = TWhitespace w).
  { intros A s p e E. unfold create_recovered, lexres_new in E. destruct e; subst r; try discriminate;
      injection E; intros; subst t; exact Hw. }
  assert (NB : forall s p n, (r = num_ok p s n \/ r = num_bad p s n) -> False).
  { intros s p n [E|E]; subst r; try discriminate; injection E; intros; subst t; discriminate Hw. }
  assert (NL : forall s p P x, ((r = num_ok p s x) /\ P) \/ r = num_bad p s x -> False) by (intros ? ? ? ? [[]|]; eauto).
  assert (I : forall s p k k2 l2, read_interpolated_string_section s p k k2 = (r, l2) -> False).
  { intros s p k k2 l2 E. unfold read_interpolated_string_section in E. destruct (read_istr _ _ _ _ _ _) as [[w' [[]|]] s'];
    injection E as E _; subst r; try discriminate; injection E; intros; subst t; discriminate Hw. }
  destruct HC as [ | He Hs | next w0 s Hid M F Hd | next w0 s Hn M T Z | s M | d r0 res s HR Hx R0 | d r0 res s HR Hx Hv R0
    | d r0 res s HR Hx Hv R0 | d r0 res s HR Hx R0 | r0 res l1 HR Hv R0 | r0 bs res l1 HR Hv Hb R0
    | q r0 qt lit rec s HR Hq Hv R0 | r0 n b s HR R0 | r0 n b s HR R0 | r0 tt rec s HR R0 | r0 tt rec s HR Hv R0
    | sy s Hop M HL HE _ _ _ _ _ | d s e M He HN ]; try discriminate; injection Ho as Ho;
    try (rewrite Hr in Ho; first [discriminate Ho | injection Ho; intros; subst t; cbn in Hw; discriminate]).
  - rewrite Hr in Ho. injection Ho; intros; subst t; cbn in Hw. destruct (sym_from_str _ _); discriminate.
  - destruct M as [M _]. exists next. eexists. split; [exact M|]. destruct Hn as [ -> |[ -> | -> ]]; reflexivity.
  - destruct M as [M _]. exists c_nl. eexists. split; [exact M|]. reflexivity.
  - exfalso. subst res. apply read_hex_number_spec in R0 as (u & M & R0); [eauto|cbn; lia].
  - exfalso. subst res. apply read_binary_number_spec in R0 as (u & M & R0); [eauto|cbn; lia].
  - exfalso. subst res. apply read_number_spec in R0 as (u & M & R0). eauto.
  - exfalso. subst res. apply read_number_spec in R0 as (u & M & R0). eauto.
  - exfalso. subst res. eauto.
  - exfalso. subst res. eauto.
  - pose proof (R _ _ _ _ (eq_sym Ho)). discriminate.
  - pose proof (R _ _ _ _ (eq_sym Ho)) as RR. subst tt.
    apply read_comment_spec in R0 as [(n & b & full & E & _)|[(n & b & E & _)|(u & E & _)]]; discriminate E.
  - pose proof (R _ _ _ _ (eq_sym Ho)) as RR. subst tt.
    apply read_c_style_comment_spec in R0 as [(b & E & _)|(E & _)]; discriminate E.
Qed.

Lemma trivia_first c l t l' : process_next c l = Done (Some (LOk t), l') -> is_trivia (t_type t) = true ->
  (exists x r, s_rest (l_src l) = x :: r /\ starts_trivia x = true) \/ (exists w, t_type t = TCStyleComment w).
Proof.
  intros H HT. pose proof (process_next_ok _ _ _ _ H) as ([M _] & _). unfold show_token in M.
  destruct (t_type t) eqn:E; try discriminate HT; eauto;
    try (left; cbn in M; eexists; eexists; split; [exact M|reflexivity]).
  - exfalso. eapply process_next_not_shebang; eauto.
  - left. eapply whitespace_first; eauto.
Qed.

Definition newline_trailing (r : tokref) : Prop :=
  exists a t w, r_trailing r = a ++ [t] /\ t_type t = TWhitespace w /\ In c_nl w.

Lemma stream_maximal c l rs : stream c l rs -> forall pre x1 r1 r2 t ld post,
  rs = pre ++ x1 :: LOk r2 :: post -> ref_of x1 = Some r1 -> r_leading r2 = t :: ld ->
  newline_trailing r1 \/ (exists w, t_type t = TCStyleComment w).
Proof.
  induction 1 as [l E|l r0 l' rs E S IH]; intros pre x1 r1 r2 t ld post Hrs H1 H2; [destruct pre; discriminate|].
  destruct pre as [|y pre]; cbn [app] in Hrs; [|injection Hrs as -> ->; eapply IH; eauto].
  injection Hrs as -> ->. apply stream_next in S as (l'' & E' & _).
  pose proof (process_next_with_trivia_spec c l) as RS. rewrite E in RS.
  pose proof (process_next_with_trivia_spec c l') as RS'. rewrite E' in RS'. clear E E' IH.
  inversion RS as [|l0 ts es l1 e l2 P F R|l0 ld0 es l1 t0 es1 l3 tr0 l4 r0 P1 F P2 Nt P3 T1 T2 ER]; subst; [discriminate|].
  assert (r1 = mkRef ld0 t0 tr0) by (destruct (es ++ es1); cbn in H1; congruence). subst r1.
  inversion RS' as [|l0 ts es' l1' e l2 P F' R|l0 ld' es' l1' t0' es1' l3' tr0' l4 r0 P1' F' P2' Nt' P3' T1' T2' ER]; subst.
  symmetry in ER. apply lexres_new_ok in ER as [ER0 ER]; subst r2. apply app_eq_nil in ER as [-> ->].
  cbn [r_leading] in H2. subst ld'. inversion_clear F' as [|? ? Ft _].
  inversion P1' as [|? ? es2 l5 ? es3 ? PT PR]; subst. match goal with H : _ ++ _ = [] |- _ => apply app_eq_nil in H as HH end. destruct HH as [-> ->].
  assert (PT' : process_next c l' = Done (Some (LOk t), l5)) by (destruct PT as [[PT _]|[_ PT]]; [exact PT|contradiction]).
  destruct T2 as [(a & t' & -> & Hn)|[Hs|Hs]].
  - left. unfold is_newline_ws in Hn. destruct (t_type t') eqn:Et; try discriminate Hn.
    apply existsb_exists in Hn as (x & Hx & Ex). apply N.eqb_eq in Ex. subst x. unfold newline_trailing. cbn. eauto 6.
  - right. destruct (trivia_first _ _ _ _ PT' Ft) as [(x & r & Ex & Hx)|?]; [|assumption].
    rewrite Ex in Hs. congruence.
  - rewrite (Hs _ _ PT') in Ft. discriminate.
Qed.

Lemma trailing_maximal c source rs pre x1 r1 r2 t ld post :
  tokenize c source = Done rs -> rs = pre ++ x1 :: LOk r2 :: post -> ref_of x1 = Some r1 -> r_leading r2 = t :: ld ->
  (exists a nl w, r_trailing r1 = a ++ [nl] /\ t_type nl = TWhitespace w /\ In c_nl w) \/
  (exists w, t_type t = TCStyleComment w).
Proof.
  intros H E H1 H2. apply tokenize_done in H.
  destruct H as [rs NS S|line s sb r rs SB M F HN -> Nl S|line s r rs SB M F HN Nl S NO].
  - eapply stream_maximal; eauto.
  - destruct pre as [|y pre]; cbn [app] in E.
    + injection E as <- ->. injection H1 as <-. apply (stream_maximal _ _ _ S [] (LOk r) r r2 t ld post); auto.
    + injection E as <- ->. eapply (stream_maximal _ _ _ S (LOk r :: pre)); eauto. reflexivity.
  - apply stream_next in S as (l' & _ & S). eapply stream_maximal; eauto.
Qed.

Lemma stream_no_shebang c l rs t w : stream c l rs -> In t (tokens_of rs) -> t_type t <> TShebang w.
Proof.
  intros S Hi. unfold tokens_of in Hi. apply in_flat_map in Hi as (r & Hr & Ht). apply in_refs_of in Hr as (x & Hx & Hr).
  destruct (stream_origin _ _ _ S _ _ _ Hx Hr Ht) as (u & l1 & l2 & es & _ & P & _). eapply pstep_not_shebang; eassumption.
Qed.

Lemma shebang_only_first c source rs a t b w :
  tokenize c source = Done rs -> tokens_of rs = a ++ t :: b -> t_type t = TShebang w -> a = [] /\ shebang source.
Proof.
  intros H E Ht. apply tokenize_done in H.
  destruct H as [rs NS S|line s sb r rs SB M F HN -> Nl S|line s r rs SB M F HN Nl S NO].
  - exfalso. eapply (stream_no_shebang c _ _ t w S); [|assumption]. rewrite E. apply in_elt.
  - split; [|assumption]. destruct a as [|x a]; [reflexivity|]. exfalso.
    change (tokens_of (LOk (add_shebang (mkToken pos0 (s_pos s) (TShebang line)) r) :: rs)) with
      (mkToken pos0 (s_pos s) (TShebang line) :: tokens_of (LOk r :: rs)) in E. injection E as _ E.
    eapply (stream_no_shebang c _ _ t w S); [|assumption]. rewrite E. apply in_elt.
  - exfalso. apply stream_next in S as (l' & _ & S). eapply (stream_no_shebang c _ _ t w S); [|assumption]. rewrite E. apply in_elt.
Qed.

Lemma never_panics c source :
  has_luau c = true \/ f_cfxlua (c_feat c) = true \/ ~ In c_backtick source -> exists rs, tokenize c source = Done rs.
Proof.
  intros H. pose proof (tokenize_run c source) as R. destruct (tokenize c source) as [rs| |]; [eauto| |contradiction].
  exfalso. destruct R as (u & l1 & [M _] & (r & E) & H1 & H2). destruct H as [H|[H|H]]; [congruence|congruence|].
  apply H. cbn in M. rewrite M, E. apply in_elt.
Qed.

Lemma process_next_panics_iff c l :
  process_next c l = Panic <->
  (exists r, s_rest (l_src l) = c_backtick :: r) /\ has_luau c = false /\ f_cfxlua (c_feat c) = false.
Proof. split; [apply process_next_panic|apply backtick_panic_next]. Qed.

Lemma error_ranges c source rs e : tokenize c source = Done rs -> In e (all_errors rs) ->
  exists a b d, source = a ++ b ++ d /\ b <> [] /\ te_range e = (pos_of a, pos_of (a ++ b)).
Proof. intros H. apply tokenize_done in H. exact (run_errors c source rs H e). Qed.

Lemma len_utf8_pos x : 1 <= len_utf8 x.
Proof. unfold len_utf8. repeat match goal with |- context [if ?b then _ else _] => destruct b end; lia. Qed.

Lemma error_bytes c source rs e : tokenize c source = Done rs -> In e (all_errors rs) ->
  p_bytes (fst (te_range e)) < p_bytes (snd (te_range e)) /\ p_bytes (snd (te_range e)) <= bytes_of source.
Proof.
  intros H Hi. destruct (error_ranges _ _ _ _ H Hi) as (a & b & d & -> & N & ->). cbn [fst snd pos_of p_bytes].
  rewrite !bytes_of_app. destruct b as [|x b]; [congruence|]. rewrite bytes_of_cons. pose proof (len_utf8_pos x). lia.
Qed.

Lemma tokenize_queue c source x rs : lexer_new c source = Done x -> tokenize c source = Done rs -> queue c x rs.
Proof.
  intros H T. unfold tokenize in T. rewrite H in T. eapply drain_is_queue; [|eassumption]. eapply lexer_new_wf; eassumption.
Qed.

Lemma queue_run_ops c : forall ops x rs, queue c x rs -> exists y, run_ops c ops x = Done (queue_ops ops rs, y).
Proof.
  induction ops as [|o ops IH]; intros x rs Q; [cbn; eauto|]. cbn [run_ops queue_ops]. destruct o.
  - rewrite (queue_current _ _ _ Q). destruct (IH x rs Q) as (y & ->). eauto.
  - rewrite (queue_peek _ _ _ Q). destruct (IH x rs Q) as (y & ->). eauto.
  - apply queue_consume in Q as Q'. destruct rs as [|r rs].
    + rewrite Q'. destruct (IH x [] Q) as (y & ->). cbn. eauto.
    + destruct Q' as (x' & -> & Q'). destruct (IH x' rs Q') as (y & ->). cbn. eauto.
Qed.

Lemma lookahead_queue c source x rs : lexer_new c source = Done x -> tokenize c source = Done rs ->
  forall ops, exists y, run_ops c ops x = Done (queue_ops ops rs, y).
Proof. intros H T ops. apply queue_run_ops. eapply tokenize_queue; eassumption. Qed.

(** ** Shebang *)

Lemma shebang_error_dropped :
  exists c source rs rs', shebang source /\ tokenize c source = Done rs /\ clean rs /\
    tokenize c (skipn 3 source) = Done rs' /\ ~ clean rs' /\ print_refs rs <> source.
Proof.
  exists cfg_lua51, (str "#!" ++ nl_text ++ str "$"). do 2 eexists.
  split; [eexists; reflexivity|]. split; [vm_compute; reflexivity|]. split.
  { repeat (constructor; [eexists; reflexivity|]). constructor. }
  split; [vm_compute; reflexivity|]. split; [|discriminate].
  intros H. inversion H as [|? ? [t Ht] _]. discriminate Ht.
Qed.

Lemma read_line_until u : forall rest p acc, forallb not_nl u = true -> (rest = [] \/ exists r, rest = c_nl :: r) ->
  read_line (u ++ rest) p acc = (acc ++ u, mkSrc rest (adv p u)).
Proof.
  induction u as [|x u IH]; intros rest p acc F HR; cbn [app].
  - rewrite app_nil_r. destruct HR as [->|(r & ->)]; [reflexivity|]. cbn [read_line]. reflexivity.
  - cbn [forallb] in F. apply andb_true_iff in F as [F1 F2]. unfold not_nl in F1. apply negb_true_iff in F1.
    cbn [read_line]. rewrite F1, IH by assumption. rewrite <- app_assoc. reflexivity.
Qed.

Lemma not_in_nl u : ~ In c_nl u -> forallb not_nl u = true.
Proof.
  intros H. apply forallb_forall. intros x Hx. unfold not_nl. apply negb_true_iff, N.eqb_neq. intros ->. contradiction.
Qed.

Lemma drain_mono c n : forall x rs m, drain n c x = Done rs -> (n <= m)%nat -> drain m c x = Done rs.
Proof.
  induction n as [|n IH]; intros x rs m H L; [discriminate|]. destruct m; [lia|]. cbn [drain] in *.
  destruct (lexer_consume c x) as [[[r|] y]| |]; auto. destruct (drain n c y) as [rs0| |] eqn:E; try discriminate.
  rewrite (IH y rs0 m E) by lia. assumption.
Qed.

Lemma drain_change_head c n l r r' p rs :
  drain n c (mkLx l (Some r) p) = Done (r :: rs) -> drain n c (mkLx l (Some r') p) = Done (r' :: rs).
Proof.
  destruct n; [discriminate|]. cbn [drain]. unfold lexer_consume. cbn [lx_next lx_peek lx].
  destruct (process_next_with_trivia c l) as [[q l']| |]; try discriminate.
  destruct (drain n c (mkLx l' p q)) as [rs0| |]; try discriminate. intros H. injection H as ->. reflexivity.
Qed.

Lemma drain_head c n x r rs : drain n c x = Done (r :: rs) -> lx_next x = Some r.
Proof.
  destruct n; [discriminate|]. cbn [drain]. unfold lexer_consume. destruct (lx_next x); [|discriminate].
  destruct (process_next_with_trivia c (lx x)) as [[q l']| |]; try discriminate.
  destruct (drain n c _) as [rs0| |]; try discriminate. congruence.
Qed.

Lemma shebang_kept_when_clean c source line rest r rs :
  source = line ++ rest -> shebang source -> ~ In c_nl line -> (rest = [] \/ exists rest', rest = c_nl :: rest') ->
  tokenize_from c (mkLexer (mkSrc rest (pos_of line)) false []) = Done (LOk r :: rs) ->
  tokenize c source =
    Done (LOk (mkRef (mkToken pos0 (pos_of line) (TShebang line) :: r_leading r) (r_token r) (r_trailing r)) :: rs).
Proof.
  intros -> (r0 & SB) NL HR T.
  assert (EL : exists u, line = str "#!" ++ u).
  { destruct line as [|a [|b u]]; cbn [app] in SB.
    - destruct HR as [->|(r' & ->)]; discriminate SB.
    - injection SB as -> SB. destruct HR as [->|(r' & ->)]; discriminate SB.
    - cbn in SB. injection SB as -> -> SB. exists u. reflexivity. }
  destruct EL as (u & ->).
  unfold tokenize, lexer_new, process_first_with_trivia.
  change (s_rest (l_src (new_lazy ((str "#!" ++ u) ++ rest)))) with (ch "#" :: ch "!" :: u ++ rest).
  cbv beta iota. change ((ch "#" =? ch "#") && (ch "!" =? ch "!")) with true. cbv beta iota.
  rewrite read_line_until; [|apply not_in_nl; intros Hi; apply NL; cbn; auto|assumption].
  change (adv (advance (advance (s_pos (l_src (new_lazy ((str "#!" ++ u) ++ rest)))) (ch "#")) (ch "!")) u) with (adv pos0 (str "#!" ++ u)).
  rewrite adv_pos0. set (line := str "#!" ++ u) in *. cbn [s_pos].
  change (with_src (new_lazy (line ++ rest)) (mkSrc rest (pos_of line))) with (mkLexer (mkSrc rest (pos_of line)) false []).
  change (s_pos (l_src (new_lazy (line ++ rest)))) with pos0.
  unfold tokenize_from in T. cbn [l_src s_rest] in T.
  destruct (process_next_with_trivia c (mkLexer (mkSrc rest (pos_of line)) false [])) as [[n l1]| |]; try discriminate.
  destruct (process_next_with_trivia c l1) as [[p l2]| |] eqn:E2; try discriminate.
  assert (En := drain_head _ _ _ _ _ T). cbn in En. subst n. rewrite E2.
  apply drain_mono with (m := S (S (List.length (line ++ rest)))) in T; [|rewrite app_length; lia].
  eapply drain_change_head; eassumption.
Qed.

(** ** collect *)

Lemma collect_queue c : forall rs fuel x ts es, queue c x rs -> (List.length rs < fuel)%nat ->
  collect_loop fuel c x ts es = Done (lexres_new (ts ++ tokens_of rs) (es ++ all_errors rs)).
Proof.
  induction rs as [|r rs IH]; intros fuel x ts es Q Hf; destruct fuel; try (cbn in Hf; lia); cbn [collect_loop]; apply queue_consume in Q.
  - rewrite Q. cbn. now rewrite !app_nil_r.
  - destruct Q as (x' & -> & Q). cbn [List.length] in Hf.
    rewrite tokens_of_cons. unfold all_errors. cbn [flat_map]. fold (all_errors rs).
    destruct r as [t|e|t e]; rewrite (IH fuel x') by (auto; lia); cbn; unfold ref_tokens; rewrite ?app_nil_r, <- ?app_assoc; reflexivity.
Qed.

Lemma queue_length c x rs : wf x -> queue c x rs -> (List.length rs <= bound x)%nat.
Proof.
  intros W Q. destruct (drain (S (bound x)) c x) as [rs'| |] eqn:D.
  - assert (rs' = rs) as -> by (eapply drain_queue; eassumption).
    clear -W D. revert x rs W D. 
    assert (G : forall n x rs, wf x -> drain n c x = Done rs -> (List.length rs <= bound x)%nat).
    { induction n as [|n IH]; intros x rs W D; [discriminate|]. cbn [drain] in D.
      destruct (lexer_consume c x) as [[[r|] y]| |] eqn:E; try discriminate.
      - destruct (drain n c y) as [rs0| |] eqn:D2; try discriminate. injection D as <-.
        destruct (wf_consume _ _ _ _ W E) as [W' B]. specialize (IH y rs0 W' D2). cbn. lia.
      - injection D as <-. cbn. lia. }
    intros x rs W D. eapply G; eassumption.
  - exfalso. assert (E := queue_drain c rs x (S (List.length rs) + S (bound x)) Q ltac:(lia)).
    clear Q. revert D E. generalize (S (bound x)). generalize (S (List.length rs)). intros m k. revert m k x rs W.
    assert (G : forall k m x rs, drain k c x = Panic -> drain (m + k) c x = Done rs -> False).
    { induction k as [|k IH]; intros m x rs H1 H2; [discriminate|]. rewrite Nat.add_succ_r in H2. cbn [drain] in *.
      destruct (lexer_consume c x) as [[[r|] y]| |]; try discriminate.
      destruct (drain k c y) eqn:E1; try discriminate. destruct (drain (m + k) c y) eqn:E2; try discriminate. eauto. }
    intros m k x rs _ H1 H2. eapply G; eassumption.
  - now apply drain_enough in D; [|assumption|lia].
Qed.

Lemma bound_fuel x : (bound x < lexer_fuel (lx x) + 2)%nat.
Proof. unfold bound, lexer_fuel, todo. destruct (lx_next x), (lx_peek x), (l_sent_eof (lx x)); cbn; lia. Qed.

Lemma collect_all c source x rs : lexer_new c source = Done x -> tokenize c source = Done rs ->
  lexer_collect c x = Done (match all_errors rs with [] => LOk (tokens_of rs) | es => LRecovered (tokens_of rs) es end).
Proof.
  intros H T. assert (Q := tokenize_queue _ _ _ _ H T). assert (W := lexer_new_wf _ _ _ H).
  unfold lexer_collect. rewrite (collect_queue c rs); [unfold lexres_new; cbn [app]; destruct (all_errors rs); reflexivity|assumption|].
  pose proof (queue_length _ _ _ W Q). pose proof (bound_fuel x). lia.
Qed.

Lemma stream_nonempty_errors c l rs : stream c l rs -> Forall (fun r => errors_of r = [] -> exists t, r = LOk t) rs.
Proof.
  induction 1 as [l E|l r l' rs E S IH]; constructor; auto.
  pose proof (process_next_with_trivia_spec c l) as RS. rewrite E in RS. inversion RS; subst; intros HE.
  - cbn in HE. subst. match goal with H : process_next _ _ = Done (Some (LFatal []), _) |- _ => apply process_next_fatal in H as (? & ? & _ & _ & _ & H); discriminate H end.
  - destruct (es ++ es1); [eexists; reflexivity|discriminate HE].
Qed.

Lemma run_nonempty_errors c source rs : run c source rs -> Forall (fun r => errors_of r = [] -> exists t, r = LOk t) rs.
Proof.
  intros [rs' NS S|line s sb r rs' SB M F HN -> Nl S|line s r rs' SB M F HN Nl S NO].
  - eapply stream_nonempty_errors; eassumption.
  - apply stream_nonempty_errors in S. inversion_clear S. constructor; [eauto|assumption].
  - apply stream_nonempty_errors in S. now inversion_clear S.
Qed.

Lemma no_errors_clean c source rs : run c source rs -> all_errors rs = [] -> clean rs.
Proof.
  intros R E. apply run_nonempty_errors in R. unfold clean. rewrite Forall_forall in *. intros r Hr. apply R; [assumption|].
  destruct (errors_of r) as [|e es] eqn:Er; [reflexivity|]. exfalso.
  assert (Hi : In e (all_errors rs)) by (apply in_flat_map; exists r; split; [assumption|]; rewrite Er; now left).
  rewrite E in Hi. destruct Hi.
Qed.

Lemma clean_no_errors rs : clean rs -> all_errors rs = [].
Proof. intros C. unfold all_errors. induction C as [|r rs [t ->] C IH]; [reflexivity|]. exact IH. Qed.

Lemma collect_ok c source x tokens : lexer_new c source = Done x -> lexer_collect c x = Done (LOk tokens) ->
  exists rs, tokenize c source = Done rs /\ clean rs /\ tokens = tokens_of rs.
Proof.
  intros H C. assert (W := lexer_new_wf _ _ _ H).
  destruct (tokenize c source) as [rs| |] eqn:T.
  - pose proof (collect_all _ _ _ _ H T) as A. rewrite C in A. exists rs. split; [reflexivity|].
    destruct (all_errors rs) eqn:E; [|discriminate]. injection A as ->. split; [|reflexivity].
    exact (no_errors_clean c source rs (tokenize_done _ _ _ T) E).
  - exfalso. unfold tokenize in T. rewrite H in T. unfold lexer_collect in C. revert C T.
    generalize (@nil token), (@nil tok_error). generalize (S (S (List.length source))). generalize (lexer_fuel (lx x) + 2)%nat.
    clear. intros k m. revert k x. induction m as [|m IH]; intros k x ts es C T; [discriminate|].
    destruct k; [discriminate|]. cbn [drain collect_loop] in *.
    destruct (lexer_consume c x) as [[[r|] y]| |]; try discriminate.
    destruct (drain m c y) eqn:D; try discriminate. destruct r; eauto.
  - now apply lexing_terminates in T.
Qed.

Lemma collect_ok_prints_source c source x tokens : lexer_new c source = Done x -> lexer_collect c x = Done (LOk tokens) ->
  ~ shebang source -> print_tokens tokens = source.
Proof.
  intros H C NS. destruct (collect_ok _ _ _ _ H C) as (rs & T & Cl & ->). rewrite <- print_refs_tokens.
  eapply lexing_lossless_no_shebang; eassumption.
Qed.

(** ** Errors come in source order *)

(** The errors lie between the byte offsets [lo] and [hi], in order. *)
Inductive ordered : N -> list tok_error -> N -> Prop :=
| ord_nil lo hi : lo <= hi -> ordered lo [] hi
| ord_cons lo e es hi : lo <= p_bytes (fst (te_range e)) -> p_bytes (fst (te_range e)) <= p_bytes (snd (te_range e)) ->
    ordered (p_bytes (snd (te_range e))) es hi -> ordered lo (e :: es) hi.

Lemma ordered_le lo es hi : ordered lo es hi -> lo <= hi.
Proof. induction 1; lia. Qed.
Lemma ordered_app lo es mid es' hi : ordered lo es mid -> ordered mid es' hi -> ordered lo (es ++ es') hi.
Proof.
  induction 1 as [lo mid L|lo e es mid L1 L2 O IH]; intros O'; cbn [app].
  - destruct O'; constructor; auto; lia.
  - constructor; auto.
Qed.

Lemma adv_bytes u : forall p, p_bytes (adv p u) = p_bytes p + bytes_of u.
Proof.
  induction u as [|x u IH]; intros p; [cbn; lia|]. change (adv p (x :: u)) with (adv (advance p x) u). rewrite IH.
  rewrite bytes_of_cons. unfold advance. destruct (x =? c_nl); cbn; lia.
Qed.

Definition at_byte (l : lexer) : N := p_bytes (s_pos (l_src l)).

Lemma moved_byte s u s' : moved s u s' -> p_bytes (s_pos s) <= p_bytes (s_pos s').
Proof. intros [_ ->]. rewrite adv_bytes. lia. Qed.

Lemma bad_step_ordered l es l' : bad_step l es l' -> ordered (at_byte l) es (at_byte l').
Proof.
  intros (txt & e & M & _ & _ & ->). apply moved_byte in M. constructor; cbn; [unfold at_byte; lia|assumption|].
  constructor. unfold at_byte. lia.
Qed.
Lemma pstep_ordered c l t es l' : pstep c l t es l' -> ordered (at_byte l) es (at_byte l').
Proof.
  intros P. destruct P as [[P ->]|[P _]].
  - constructor. apply process_next_ok in P as (M & _). eapply moved_byte; eassumption.
  - apply process_next_recovered in P as (B & _). now apply bad_step_ordered.
Qed.
Lemma psteps_ordered c l ts es l' : psteps c l ts es l' -> ordered (at_byte l) es (at_byte l').
Proof.
  induction 1 as [l|l t es l1 ts es' l' P PS IH]; [constructor; lia|]. eapply ordered_app; [|eassumption]. eapply pstep_ordered; eassumption.
Qed.
Lemma ordered_weaken lo lo' es hi : ordered lo es hi -> lo' <= lo -> ordered lo' es hi.
Proof. intros [] L; constructor; auto; lia. Qed.

Lemma ref_step_ordered c l r l' : ref_step c l (Some r) l' -> ordered (at_byte l) (errors_of r) (at_byte l').
Proof.
  intros H. inversion H as [|l0 ts es l1 e0 l2 P F R|l0 ld es l1 t es1 l2 tr l3 r0 P F P2 Nt P3 T1 T2 ER]; subst.
  - apply psteps_ordered in P. apply ordered_le in P. apply process_next_fatal, bad_step_ordered in R.
    eapply ordered_weaken; eassumption.
  - assert (E : errors_of (lexres_new (mkRef ld t tr) (es ++ es1)) = (es ++ es1) ++ []) by (rewrite app_nil_r; destruct (es ++ es1); reflexivity).
    rewrite E, <- app_assoc. eapply ordered_app; [eapply psteps_ordered; eassumption|].
    eapply ordered_app; [eapply pstep_ordered; eassumption|]. eapply psteps_ordered; eassumption.
Qed.

Lemma stream_ordered c l rs : stream c l rs -> exists hi, ordered (at_byte l) (all_errors rs) hi.
Proof.
  induction 1 as [l E|l r l' rs E S [hi IH]]; [exists (at_byte l); constructor; lia|].
  pose proof (process_next_with_trivia_spec c l) as RS. rewrite E in RS. apply ref_step_ordered in RS.
  exists hi. eapply ordered_app; eassumption.
Qed.

Lemma ordered_tail lo e es hi : ordered lo (e :: es) hi -> exists lo', ordered lo' es hi.
Proof. intros H. inversion H; subst. eauto. Qed.

Lemma run_ordered c source rs : run c source rs -> exists lo hi, ordered lo (all_errors rs) hi.
Proof.
  intros [rs' NS S|line s sb r rs' SB M F HN -> Nl S|line s r rs' SB M F HN Nl S NO].
  - apply stream_ordered in S. eauto.
  - apply stream_ordered in S. eauto.
  - apply stream_next in S as (l' & _ & S). apply stream_ordered in S. eauto.
Qed.

Lemma errors_in_source_order c source rs a e b e' d :
  tokenize c source = Done rs -> all_errors rs = a ++ e :: b ++ e' :: d ->
  p_bytes (snd (te_range e)) <= p_bytes (fst (te_range e')).
Proof.
  intros H E. apply tokenize_done, run_ordered in H as (lo & hi & O). rewrite E in O. clear E. revert lo O.
  induction a as [|x a IH]; intros lo O.
  - inversion O as [|? ? ? ? _ _ O']; subst. clear O. revert O'. generalize (p_bytes (snd (te_range e))).
    induction b as [|y b IHb]; intros n O; inversion O as [|? ? ? ? L1 L2 O']; subst; [assumption|].
    apply IHb in O'. lia.
  - apply ordered_tail in O as (lo' & O). eauto.
Qed.
