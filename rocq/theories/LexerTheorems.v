(** Facts about whole runs of the lexer. Proof file. *)
From Verif Require Import Lexer LexerFacts LexerFacts2 LexerCases LexerStep LexerStream LexerSpec LexerProofs.
From Coq Require Import Lia ZifyBool ZifyNat ZifyN.
Local Open Scope N_scope.
Arguments ch a : simpl never.
Arguments advance p c : simpl never.

(** ** Clean runs *)

Lemma print_tokens_app a b : print_tokens (a ++ b) = print_tokens a ++ print_tokens b.
Proof. unfold print_tokens. now rewrite flat_map_app. Qed.

Lemma show_ref_tokens r : show_ref r = print_tokens (ref_tokens r).
Proof. unfold show_ref, print_tokens, ref_tokens. rewrite flat_map_app. reflexivity. Qed.

Lemma print_refs_tokens rs : print_refs rs = print_tokens (tokens_of rs).
Proof.
  unfold print_refs, tokens_of. induction (refs_of rs) as [|r l IH]; [reflexivity|].
  cbn [flat_map]. rewrite IH, print_tokens_app, show_ref_tokens. reflexivity.
Qed.

Lemma psteps_cons_inv c l t ts es l' : psteps c l (t :: ts) es l' ->
  exists es1 es2 l1, es = es1 ++ es2 /\ pstep c l t es1 l1 /\ psteps c l1 ts es2 l'.
Proof. intros H. inversion H; subst. eauto 6. Qed.

Lemma psteps_split c a t b l es l' : psteps c l (a ++ t :: b) es l' ->
  exists e1 e2 e3 l1 l2, es = e1 ++ e2 ++ e3 /\ psteps c l a e1 l1 /\ pstep c l1 t e2 l2 /\ psteps c l2 b e3 l'.
Proof.
  revert l es. induction a as [|x a IH]; intros l es H; apply psteps_cons_inv in H as (es1 & es2 & l1 & -> & P & PS).
  - exists [], es1, es2, l, l1. repeat split; auto. constructor.
  - apply IH in PS as (e1 & e2 & e3 & l2 & l3 & -> & PA & PT & PB). exists (es1 ++ e1), e2, e3, l2, l3.
    rewrite <- app_assoc. repeat split; auto. econstructor; eassumption.
Qed.

Lemma psteps_clean_moved c l ts l' : psteps c l ts [] l' -> moved (l_src l) (print_tokens ts) (l_src l').
Proof.
  revert l. induction ts as [|t ts IH]; intros l H.
  - inversion H; subst. apply moved_nil.
  - apply psteps_cons_inv in H as (es1 & es2 & l1 & E & P & PS). symmetry in E. apply app_eq_nil in E as [-> ->].
    apply pstep_ok_good in P as [M _]. eapply moved_app; [eassumption|]. auto.
Qed.

(** The tokens [ts] printed after the prefix [u] sit exactly where they are printed. *)
Definition tiled (u : text) (ts : list token) : Prop :=
  forall a t b, ts = a ++ t :: b ->
    t_start t = pos_of (u ++ print_tokens a) /\ t_end t = end_of (u ++ print_tokens a) (show_token t).

Lemma psteps_clean_tiled c l ts l' u : s_pos (l_src l) = pos_of u -> psteps c l ts [] l' -> tiled u ts.
Proof.
  intros HP H a t b ->. apply psteps_split in H as (e1 & e2 & e3 & l1 & l2 & E & PA & PT & PB).
  symmetry in E. apply app_eq_nil in E as [-> E]. apply app_eq_nil in E as [-> ->].
  apply psteps_clean_moved in PA as [_ PA]. apply pstep_ok_good in PT as (_ & S & E & _).
  rewrite PA, HP, <- adv_pos0, <- adv_app, adv_pos0 in *. rewrite S, E. split; [reflexivity|]. apply end_pos_of.
Qed.

Lemma lexres_new_ok {A} (a b : A) es : lexres_new a es = LOk b -> a = b /\ es = [].
Proof. destruct es; cbn; intros H; [|discriminate]. now injection H. Qed.

Lemma stream_clean c l rs : stream c l rs -> clean rs -> exists l', psteps c l (tokens_of rs) [] l' /\ ended l'.
Proof.
  induction 1 as [l E|l r l' rs E S IH]; intros C.
  - exists l. split; [constructor|assumption].
  - inversion C as [|? ? [t Ht] C']; subst. destruct (IH C') as (l2 & P & En). exists l2. split; [|assumption].
    pose proof (process_next_with_trivia_spec c l) as RS. rewrite E in RS. inversion RS as [| |l0 ld es l1 t0 es1 l3 tr l4 r0 P1 F P2 Nt P3 T1 T2 ER]; subst.
    match goal with ER : LOk _ = lexres_new _ _ |- _ => symmetry in ER; apply lexres_new_ok in ER as [<- EE] end. apply app_eq_nil in EE as [-> ->].
    change (tokens_of (LOk (mkRef ld t0 tr) :: rs)) with ((ld ++ t0 :: tr) ++ tokens_of rs).
    change (@nil tok_error) with ((@nil tok_error) ++ []). eapply psteps_app; [|exact P].
    change (@nil tok_error) with ((@nil tok_error) ++ []). eapply psteps_app; [exact P1|].
    change (@nil tok_error) with ((@nil tok_error) ++ []). econstructor; eassumption.
Qed.

Lemma ended_whole l l' u : moved (l_src l) u (l_src l') -> ended l' -> s_rest (l_src l) = u.
Proof. intros [M _] [E _]. now rewrite M, E, app_nil_r. Qed.

(** [process_next] never makes a shebang token. *)
Lemma process_next_not_shebang c l r l' t : process_next c l = Done (Some r, l') ->
  r = LOk t \/ (exists es, r = LRecovered t es) -> forall w, t_type t <> TShebang w.
Proof.
  intros H Hr w Hw. pose proof (process_next_cases c l) as HC. rewrite H in HC. cbn [next_ok] in HC.
  remember (Some r) as o eqn:Ho.
  assert (R : forall (A : token_type) s p e, r = create_recovered s p A e -> A = TShebang w).
  { intros A s p e E. unfold create_recovered, lexres_new in E. destruct e; subst r; destruct Hr as [Hr|(es & Hr)]; try discriminate;
      injection Hr; intros; subst t; exact Hw. }
  assert (N : forall s p n, (r = num_ok p s n \/ r = num_bad p s n) -> False).
  { intros s p n [E|E]; subst r; destruct Hr as [Hr|(es & Hr)]; try discriminate; injection Hr; intros; subst t; discriminate Hw. }
  assert (NL : forall s p P x, ((r = num_ok p s x) /\ P) \/ r = num_bad p s x -> False) by (intros ? ? ? ? [[]|]; eauto).
  assert (I : forall s p k k2 l2, read_interpolated_string_section s p k k2 = (r, l2) -> False).
  { intros s p k k2 l2 E. unfold read_interpolated_string_section in E. destruct (read_istr _ _ _ _ _ _) as [[w' [[]|]] s'];
    injection E as <- _; destruct Hr as [Hr|(es & Hr)]; try discriminate; injection Hr; intros; subst t; discriminate Hw. }
  destruct HC as [ | He Hs | next w0 s Hid M F Hd | next w0 s Hn M T Z | s M | d r0 res s HR Hx R0 | d r0 res s HR Hx Hv R0
    | d r0 res s HR Hx Hv R0 | d r0 res s HR Hx R0 | r0 res l1 HR Hv R0 | r0 bs res l1 HR Hv Hb R0
    | q r0 qt lit rec s HR Hq Hv R0 | r0 n b s HR R0 | r0 n b s HR R0 | r0 tt rec s HR R0 | r0 tt rec s HR Hv R0
    | sy s Hop M HL HE _ _ _ _ _ | d s e M He HN ]; try discriminate; injection Ho as Ho; subst; eauto;
    try (destruct Hr as [Hr|(es & Hr)]; try discriminate; injection Hr; intros; subst t; cbn in Hw; try discriminate;
         destruct (sym_from_str _ _); discriminate).
  - apply read_hex_number_spec in R0 as (u & M & R0); [eauto|cbn; lia].
  - apply read_binary_number_spec in R0 as (u & M & R0); [eauto|cbn; lia].
  - apply read_number_spec in R0 as (u & M & R0). eauto.
  - apply read_number_spec in R0 as (u & M & R0). eauto.
  - pose proof (R _ _ _ _ eq_refl). discriminate.
  - pose proof (R _ _ _ _ eq_refl) as RR. subst tt.
    apply read_comment_spec in R0 as [(n & b & full & E & _)|[(n & b & E & _)|(u & E & _)]]; discriminate E.
  - pose proof (R _ _ _ _ eq_refl) as RR. subst tt.
    apply read_c_style_comment_spec in R0 as [(b & E & _)|(E & _)]; discriminate E.
Qed.

Lemma pstep_not_shebang c l t es l' : pstep c l t es l' -> forall w, t_type t <> TShebang w.
Proof. intros [[H _]|[H _]]; eapply process_next_not_shebang; eauto. Qed.

Lemma ref_step_tokens c l r l' t : ref_step c l (Some r) l' -> forall tr, ref_of r = Some tr -> In t (ref_tokens tr) ->
  exists u l1 l2 es, moved (l_src l) u (l_src l1) /\ pstep c l1 t es l2 /\ (r = LOk tr -> es = []) /\
   (exists v, moved (l_src l2) v (l_src l')).
Proof.
  intros H tr Hr Hi. inversion H as [|l0 ts es l1 e l2 P F R|l0 ld es l1 t0 es1 l3 tr0 l4 r0 P1 F P2 Nt P3 T1 T2 ER]; subst; [discriminate|].
  assert (tr = mkRef ld t0 tr0) by (destruct (es ++ es1); cbn in Hr; congruence). subst tr.
  assert (C : lexres_new (mkRef ld t0 tr0) (es ++ es1) = LOk (mkRef ld t0 tr0) -> es = [] /\ es1 = []).
  { intros E. apply lexres_new_ok in E as [_ E]. now apply app_eq_nil in E. }
  unfold ref_tokens in Hi. cbn [r_leading r_token r_trailing] in Hi.
  apply in_app_or in Hi as [Hi|[Hi|Hi]].
  - apply in_split in Hi as (a & b & ->). apply psteps_split in P1 as (e1 & e2 & e3 & l5 & l6 & -> & PA & PT & PB).
    apply psteps_moved in PA as (u & M). exists u, l5, l6, e2. split; [exact M|]. split; [exact PT|]. split.
    + intros E. apply C in E as [E _]. apply app_eq_nil in E as [_ E]. now apply app_eq_nil in E.
    + apply psteps_moved in PB as (v1 & M1). apply pstep_moved in P2 as (v2 & M2 & _). apply psteps_moved in P3 as (v3 & M3).
      eexists. eapply moved_app; [eassumption|]. eapply moved_app; eassumption.
  - subst t0. apply psteps_moved in P1 as (u & M). exists u, l1, l3, es1. split; [exact M|]. split; [exact P2|]. split.
    + intros E. now apply C in E.
    + eapply psteps_moved; eassumption.
  - apply in_split in Hi as (a & b & ->). apply psteps_split in P3 as (e1 & e2 & e3 & l5 & l6 & E & PA & PT & PB).
    symmetry in E. apply app_eq_nil in E as [-> E]. apply app_eq_nil in E as [-> ->].
    apply psteps_moved in P1 as (u1 & M1). apply pstep_moved in P2 as (u2 & M2 & _). apply psteps_moved in PA as (u3 & M3).
    exists (u1 ++ u2 ++ u3), l5, l6, []. split; [|split; [exact PT|split; [reflexivity|]]].
    + eapply moved_app; [eassumption|]. eapply moved_app; eassumption.
    + eapply psteps_moved; eassumption.
Qed.

(** Where the tokens of a stream come from. *)
Lemma stream_origin c l rs : stream c l rs -> forall r tr t, In r rs -> ref_of r = Some tr -> In t (ref_tokens tr) ->
  exists u l1 l2 es, moved (l_src l) u (l_src l1) /\ pstep c l1 t es l2 /\ (r = LOk tr -> es = []).
Proof.
  induction 1 as [l E|l r0 l' rs E S IH]; intros r tr t Hi Hr Ht; [destruct Hi|].
  pose proof (process_next_with_trivia_spec c l) as RS. rewrite E in RS.
  destruct Hi as [->|Hi].
  - destruct (ref_step_tokens _ _ _ _ _ RS tr Hr Ht) as (u & l1 & l2 & es & M & P & C & _). eauto 8.
  - destruct (IH r tr t Hi Hr Ht) as (u & l1 & l2 & es & M & P & C). apply ref_step_moved in RS as (v & Mv).
    exists (v ++ u), l1, l2, es. split; [eapply moved_app; eassumption|]. auto.
Qed.

Lemma in_refs_of r rs : In r (refs_of rs) <-> exists x, In x rs /\ ref_of x = Some r.
Proof.
  unfold refs_of. rewrite in_flat_map. split; intros (x & H1 & H2); exists x; split; auto; destruct (ref_of x); cbn in *; try tauto.
  - destruct H2 as [->|[]]. reflexivity.
  - left. congruence.
  - discriminate.
Qed.

Lemma run_lost_no_shebang c l rs : stream c l rs -> forall t ts w, tokens_of rs = t :: ts -> t_type t <> TShebang w.
Proof.
  intros S t ts w H. assert (Hi : In t (tokens_of rs)) by (rewrite H; now left).
  unfold tokens_of in Hi. apply in_flat_map in Hi as (r & Hr & Ht). apply in_refs_of in Hr as (x & Hx & Hr).
  destruct (stream_origin _ _ _ S _ _ _ Hx Hr Ht) as (u & l1 & l2 & es & _ & P & _). eapply pstep_not_shebang; eassumption.
Qed.

Lemma run_clean c source rs : run c source rs -> clean rs -> shebang_kept source rs ->
  print_tokens (tokens_of rs) = source /\ tiled [] (tokens_of rs).
Proof.
  intros R C K. destruct R as [rs NS S|line s sb r rs SB M F HN -> Nl S|line s r rs SB M F HN Nl S NO].
  - destruct (stream_clean _ _ _ S C) as (l' & P & En). assert (PM := psteps_clean_moved _ _ _ _ P).
    split; [symmetry; now apply (ended_whole (new_lazy source) l')|]. eapply psteps_clean_tiled; [|eassumption]. reflexivity.
  - assert (C' : clean (LOk r :: rs)) by (inversion_clear C; constructor; eauto).
    destruct (stream_clean _ _ _ S C') as (l' & P & En). assert (PM := psteps_clean_moved _ _ _ _ P).
    set (sb := mkToken pos0 (s_pos s) (TShebang line)).
    change (tokens_of (LOk (add_shebang sb r) :: rs)) with (sb :: tokens_of (LOk r :: rs)).
    assert (T := psteps_clean_tiled c (mkLexer s false []) _ _ line (eq_trans (proj2 M) (adv_pos0 line)) P).
    split.
    + change (line ++ print_tokens (tokens_of (LOk r :: rs)) = source). symmetry.
      apply (ended_whole (new_lazy source) l'); [|assumption]. eapply moved_app; eassumption.
    + intros a t b E. destruct a as [|y a]; cbn [app] in E.
      * injection E as <- _. cbn [t_start t_end sb]. split; [reflexivity|].
        change (print_tokens []) with (@nil char). cbn [app]. change (show_token sb) with line.
        rewrite <- end_pos_of, end_pos_no_nl; [apply M|]. apply (ends_nl_forallb not_nl); [|assumption].
        intros x Hx. unfold not_nl in Hx. apply negb_true_iff in Hx. now apply N.eqb_neq.
      * injection E as <- E. apply (T a t b E).
  - destruct (K SB) as (t & ts & w & E & Ht). exfalso.
    apply stream_next in S as (l' & _ & S). now apply (run_lost_no_shebang _ _ _ S t ts w E).
Qed.

(** ** Eof *)

Definition eof_end (p : position) (rs : list (lexres tokref)) : Prop :=
  exists rs0 r tr, rs = rs0 ++ [r] /\ ref_of r = Some tr /\ r_token tr = mkToken p p TEof /\ r_trailing tr = [] /\
    Forall (fun t => t_type t <> TEof) (tokens_of rs0 ++ r_leading tr).

Lemma trivia_not_eof ts : Forall (fun t => is_trivia (t_type t) = true) ts -> Forall (fun t => t_type t <> TEof) ts.
Proof. apply Forall_impl. intros t H E. rewrite E in H. discriminate. Qed.

Lemma refs_of_app a b : refs_of (a ++ b) = refs_of a ++ refs_of b.
Proof. unfold refs_of. apply flat_map_app. Qed.
Lemma tokens_of_app a b : tokens_of (a ++ b) = tokens_of a ++ tokens_of b.
Proof. unfold tokens_of. rewrite refs_of_app. apply flat_map_app. Qed.
Lemma tokens_of_cons a b : tokens_of (a :: b) = tokens_of [a] ++ tokens_of b.
Proof. apply (tokens_of_app [a] b). Qed.

Lemma adv_moved s u s' : moved s u s' -> adv (s_pos s) (s_rest s) = adv (s_pos s') (s_rest s').
Proof. intros [-> ->]. apply adv_app. Qed.

Lemma stream_eof c l rs : stream c l rs -> inv l ->
  (rs = [] /\ ended l) \/ eof_end (adv (s_pos (l_src l)) (s_rest (l_src l))) rs.
Proof.
  induction 1 as [l E|l r l' rs E S IH]; intros I; [auto|]. right.
  apply pnwt_inv in E as [I' RS]; [|assumption]. specialize (IH I').
  destruct (ref_step_moved _ _ _ _ RS) as (u & M). rewrite (adv_moved _ _ _ M). clear M u.
  inversion RS as [|l0 ts es l1 e l2 P F R|l0 ld es l1 t es1 l2 tr l3 r0 P F P2 Nt P3 T1 T2 ER]; subst.
  - destruct IH as [[-> En]|(rs0 & r & tr & -> & H)].
    + exfalso. assert (Hs := psteps_sent _ _ _ _ _ P F). assert (I1 := psteps_inv _ _ _ _ _ I P).
      apply fatal_moved in R as (txt & M & N & S'). destruct En as [E1 E2]. rewrite S' in E2. specialize (I1 E2).
      destruct M as [M _]. rewrite I1 in M. symmetry in M. apply app_eq_nil in M. tauto.
    + exists (LFatal e :: rs0), r, tr. split; [reflexivity|]. exact H.
  - destruct (t_type t) eqn:Et.
    1: { destruct (pstep_eof _ _ _ _ _ P2 Et) as [-> En]. destruct (ended_psteps _ _ _ _ _ En P3) as (-> & _ & ->).
      assert (rs = []) as -> by (destruct IH as [[-> _]|(rs0 & r & tr & -> & _)]; [reflexivity|]; inversion S; subst; [destruct rs0; discriminate|];
        match goal with HH : process_next_with_trivia c l2 = _ |- _ => rewrite ended_next_trivia in HH by assumption; discriminate HH end).
      exists [], (lexres_new (mkRef ld t []) (es ++ [])), (mkRef ld t []). split; [reflexivity|]. split; [destruct (es ++ []); reflexivity|].
      cbn [r_token r_trailing r_leading]. destruct (pstep_ok_good _ _ _ _ P2) as (M & E1 & E2 & _).
      unfold show_token in M, E2. rewrite Et in M, E2. cbn in M, E2. split.
      - destruct En as [Er _]. rewrite Er. destruct M as [_ M]. destruct t as [ts te ty]. cbn in *. subst. unfold end_pos. cbn. rewrite M. reflexivity.
      - split; [reflexivity|]. change (tokens_of []) with (@nil token). now apply trivia_not_eof. }
    all: assert (Nt' : t_type t <> TEof) by (rewrite Et; discriminate);
      (destruct IH as [[-> En]|(rs0 & r & tr' & -> & Hr & H1 & H2 & H3)];
      [ exfalso; assert (Hs1 := psteps_sent _ _ _ _ _ P F); assert (Hs3 := psteps_sent _ _ _ _ _ P3 (proj1 T1));
        apply pstep_moved in P2 as (txt & M & A & _); destruct (A Nt') as [A1 A2];
        assert (Ei : ended l1 -> False) by (intros Ei; destruct M as [M _]; rewrite (proj1 Ei) in M; symmetry in M; apply app_eq_nil in M; tauto);
        apply Ei; assert (I1 := psteps_inv _ _ _ _ _ I P); destruct En as [_ En]; rewrite Hs3, A2 in En; split; [now apply I1|assumption]
      | exists (lexres_new (mkRef ld t tr) (es ++ es1) :: rs0), r, tr'; split; [reflexivity|]; split; [assumption|]; split; [assumption|]; split; [assumption|];
        rewrite tokens_of_cons, <- app_assoc; apply Forall_app; split; [|exact H3];
        assert (Q : tokens_of [lexres_new (mkRef ld t tr) (es ++ es1)] = ld ++ t :: tr)
          by (unfold tokens_of, refs_of; cbn [flat_map]; destruct (es ++ es1); cbn; rewrite ?app_nil_r; reflexivity);
        rewrite Q; apply Forall_app; split; [now apply trivia_not_eof|]; constructor; [assumption|]; now apply trivia_not_eof; apply T1 ]).
    all: try (apply trivia_not_eof; apply T1).
Qed.
