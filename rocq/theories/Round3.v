(** Parsing undoes printing (C48): types. *)
From Verif Require Import LexerSpec PunctuatedProofs.
From Verif Require Export Round2.
From Coq Require Import Lia.
Local Open Scope nat_scope.
Import ListNotations.

Ltac rtype G L := match goal with
  | |- run (p_type _) (_ ++ _) _ => eapply run_gives; [apply (g_type _ _ G L); [eassumption|fot]|]; cbv beta iota; tests
  end.

(** ** Packs *)
Lemma rt_pack_ c p t k : good c p -> has_luau c = true -> pack c t -> follows k (type_end (ends_in_type_name t)) -> gives (parse_type_pack p) (printed t ++ k) (Value t) k.
Proof.
  intros G L H K. inversion H; subst; spell; unfold parse_type_pack; rsteps.
  - rtype G L. rsteps. auto.
  - rsteps. unfold parse_name. rsteps. auto.
Qed.
Lemma no_pack p r l : no_colon (terminal_of r) = true \/ plain_start (terminal_of r) = true \/ type_start (terminal_of r) = true -> (nm r -> follows l (fun x => negb (term_symbol x SEllipsis))) ->
  gives (parse_type_pack p) (r :: l) NotFound (r :: l).
Proof.
  intros H N. unfold parse_type_pack. rsteps. assert (E : is_symbol r SEllipsis = false).
  { destruct (is_symbol r SEllipsis) eqn:E; [|reflexivity]. apply sym_terminal in E. rewrite E in H. destruct H as [|[]]; discriminate. }
  rewrite E. destruct (is_identifier r) eqn:I; rsteps; [|auto]. apply name_terminal in I. destruct (N I) as (u & v & -> & F). rsteps.
  assert (E2 : is_symbol u SEllipsis = false) by (rewrite test_symbol; now apply negb_true_iff). rewrite E2. rsteps. auto.
Qed.
Lemma no_pack_ts p f ts k n : (forall x, f x = true -> type_start x = true) -> lead f no_colon ts -> follows k (type_end n) -> gives (parse_type_pack p) (ts ++ k) NotFound (ts ++ k).
Proof.
  intros I H K. destruct (lead_here f no_colon ts k H) as (r & l & -> & F & N).
  { eapply follows_weaken; [|exact K]. intros [| | |[]|]; cbn; try discriminate; auto. }
  apply no_pack; [auto|]. intros X. eapply follows_weaken; [|exact (N X)]. intros [| | |[]|]; cbn; try discriminate; auto.
Qed.
Lemma plain_type_start x : plain_start x = true -> type_start x = true.
Proof. destruct x as [| | |[]|]; cbn; try discriminate; auto. Qed.

Lemma pack_member_first c t : pack_member c t -> follows (printed t) (fun x => term_symbol x SLeftParen).
Proof. induction 1 as [t H|t q _ IH Q]; [inversion H; subst; spell; apply follows_here; st|]. spell. now apply follows_app. Qed.
Lemma pack_result_first c t : pack_result c t -> follows (printed t) (fun x => term_symbol x SLeftParen).
Proof.
  intros [x H|x d l H D _|x d l H D _]; [now apply pack_member_first with c| |]; spell; apply follows_app; apply pack_member_first with c; [assumption|now apply pm_tuple].
Qed.
Lemma result_no_pack c p t k n : bare_result c t -> follows k (type_end n) -> gives (parse_type_pack p) (printed t ++ k) NotFound (printed t ++ k).
Proof.
  intros [H|[H|H]] K.
  - eapply no_pack_ts; [apply plain_type_start|eapply lead_plain; eassumption|eassumption].
  - inversion H; subst. spell. apply no_pack; [left; st|]. intros X. congruence.
  - destruct (pack_result_first c t H) as (r & l & -> & F). cbn [app]. apply no_pack; [left; revert F; destruct (terminal_of r) as [| | |[]|]; cbn; congruence|]. intros X. rewrite X in F. discriminate.
Qed.
Lemma result_cases c t : result_type c t -> pack c t \/ bare_result c t.
Proof. unfold bare_result. intros []; auto 6 using pr_member, pr_union, pr_intersection. Qed.
Lemma rt_return c p t k : good c p -> has_luau c = true -> result_type c t -> follows k (type_end (ends_in_type_name t)) -> gives (parse_return_type p) (printed t ++ k) (Value t) k.
Proof.
  intros G L H K. unfold parse_return_type. apply run_bind. apply result_cases in H as [H|H].
  - eapply run_gives; [eapply rt_pack_; eassumption|]. rsteps. auto.
  - eapply run_gives; [eapply result_no_pack; eassumption|]. cbv iota. now apply (g_result _ _ G L).
Qed.
Lemma rt_closed_result c p t k : good c p -> has_luau c = true -> closed_result c t -> follows k (simple_end false) -> gives (parse_return_type p) (printed t ++ k) (Value t) k.
Proof.
  intros G L [n d N D|a b l A B T E] K; unfold parse_return_type; apply run_bind; spell.
  - unfold parse_type_pack. rsteps. unfold parse_name. rsteps. auto.
  - eapply run_gives; [apply no_pack; [left; st|intros X; congruence]|]. cbv iota. now apply (g_tuple _ _ G L).
Qed.
Definition result_start (x : terminal) : bool := plain_start x || match x with TSym SEllipsis => true | _ => false end.
Lemma result_first c t : result_type c t -> follows (printed t) result_start.
Proof.
  intros H. apply result_cases in H as [H|[H|[H|H]]]; [inversion H; subst; spell; apply follows_here; st| |inversion H; subst; spell; apply follows_here; st|].
  2:{ eapply follows_weaken; [|eapply pack_result_first; eassumption]. intros [| | |[]|]; cbn; congruence. }
  apply lead_plain, lead_follows in H. eapply follows_weaken; [|exact H]. unfold result_start. intros x ->. reflexivity.
Qed.

(** ** Type arguments *)
Lemma run_result {B} c p (f : pres tree -> M B) t K Q : good c p -> has_luau c = true -> result_type c t -> follows K (type_end (ends_in_type_name t)) -> run (f (Value t)) K Q ->
  run (parse_type_pack p) (printed t ++ K) (fun a ts => run (let! r := match a with NotFound => p_type_or_pack p | r => ret r end in f r) ts Q).
Proof.
  intros G L R F H. apply result_cases in R as [R|R].
  - eapply run_gives; [eapply rt_pack_; eassumption|]. rsteps. assumption.
  - eapply run_gives; [eapply result_no_pack; eassumption|]. apply run_bind. eapply run_gives; [now apply (g_result _ _ G L)|]. assumption.
Qed.
Lemma rt_arguments c p a l b k : good c p -> has_luau c = true -> type_arguments c l -> sy b SGreaterThan ->
  gives (expect_generic_type_params p a) (flat_map printed l ++ b :: k) (Some (between a b, listing l)) k.
Proof.
  intros G L H B. unfold expect_generic_type_params. apply run_bind.
  eapply run_conseq with (P := fun r s => exists g, r = Some g /\ trees g = l /\ s = b :: k).
  - apply (run_loop (fun g ts => exists todo, trees g ++ todo = l /\ (todo = [] \/ several (result_type c) SComma todo) /\ ts = flat_map printed todo ++ b :: k)).
    { exists l. repeat split. inversion H; auto. }
    intros g ts (todo & E & T & ->). destruct T as [->|T].
    + cbn [flat_map app]. rsteps. rewrite app_nil_r in E. eauto.
    + assert (F : follows (flat_map printed todo) result_start).
      { destruct T; cbn [flat_map]; rewrite printed_con; cbn [flat_map]; rewrite <- ?app_assoc; apply follows_app; eapply result_first; eassumption. }
      apply follows_app with (k := b :: k) in F. destruct F as (r & ts & EF & F). rewrite EF. rsteps. rewrite <- EF. clear EF F r ts.
      destruct T as [t R|t d rest R D T]; spell.
      * eapply run_result; [eassumption..|fo|]. rsteps. exists (p_push g (End t)). now rewrite trees_end.
      * eapply run_result; [eassumption..|fo|]. rsteps.
        assert (F : follows (flat_map printed rest) result_start).
        { destruct T; cbn [flat_map]; rewrite printed_con; cbn [flat_map]; rewrite <- ?app_assoc; apply follows_app; eapply result_first; eassumption. }
        apply follows_app with (k := b :: k) in F. destruct F as (r & ts & EF & F). rewrite EF. rsteps. rewrite <- EF. exists rest. rewrite trees_followed, <- app_assoc. auto.
  - intros r s (g & -> & E & ->). rsteps. rewrite trees_puncts, E. auto.
Qed.

(** ** Generic type parameters *)
Lemma generic_list_first c ds pk gv l : generic_list c ds pk gv l -> exists r m, flat_map printed l = r :: m /\ nm r.
Proof.
  assert (X : forall ds pk gv x pk' gv', generic c ds pk gv x pk' gv' -> exists r m, printed x = r :: m /\ nm r).
  { intros ds' pk1 gv1 x pk' gv' H. inversion H; subst; spell; eauto. }
  intros H. inversion H as [? ? ? ? ? ? Y|? ? ? ? ? ? ? ? Y]; subst; destruct (X _ _ _ _ _ _ Y) as (r & m & E & N); cbn [flat_map]; rewrite printed_con; cbn [flat_map]; rewrite E;
    exists r; eexists; (split; [reflexivity|assumption]).
Qed.
Lemma default_cases c t : default_pack c t -> pack c t \/ bare_result c t /\ is_tuple t = true.
Proof.
  unfold bare_result. intros [x P|x T|a b x A B X]; [auto|right; split; [auto|inversion T; reflexivity]|right; split; [|reflexivity]]. left. apply pt_one, lm_member, me_closed, st_parentheses; assumption.
Qed.
Lemma rt_generics c p style g k : good c p -> has_luau c = true -> generics c (with_defaults style) g -> gives (parse_generic_type_list c p style) (printed g ++ k) (Value g) k.
Proof.
  intros G L H. inversion H as [ds a b l A B LI]; subst. spell. unfold parse_generic_type_list. rewrite L. cbn [negb]. rsteps.
  eapply run_conseq with (P := fun r s => exists g, r = Value g /\ trees g = l /\ s = b :: k).
  - apply (run_loop (fun '(g, pk, gv) ts => exists todo, trees g ++ todo = l /\ generic_list c (with_defaults style) pk gv todo /\ ts = flat_map printed todo ++ b :: k)).
    { exists l. auto. }
    intros ((g & pk) & gv) ts (todo & E & T & ->). cbv beta iota.
    assert (F : match todo with Con CPunct _ :: rest => exists r m, flat_map printed rest = r :: m /\ nm r | _ => True end).
    { inversion T; subst; [exact I|]. eapply generic_list_first; eassumption. }
    destruct style; cbn [with_defaults] in *; (inversion T as [? ? ? x pk' gv' X|? ? ? x d rest pk' gv' X D T1]; subst; [clear F|destruct F as (u & m & F & U)]);
    inversion X; subst; spell; rsteps; rewrite ?orb_true_r; rsteps; unfold missing_default; rsteps;
    try (eapply run_gives; [apply (g_type _ _ G L); [eassumption|fo]|]; cbv beta iota; tests; rsteps);
    try match goal with H : default_pack c ?t |- _ => apply default_cases in H as [H|(H & IT)];
      [eapply run_gives; [eapply rt_pack_; [eassumption..|fo]|]; cbv beta iota; tests; rsteps
      |eapply run_gives; [eapply result_no_pack with (n := false); [eassumption|fo]|]; cbv beta iota; tests; rstep;
       (eapply run_gives; [apply (g_result _ _ G L); [eassumption|fo]|]); cbv beta iota; rewrite IT; rsteps] end;
    try (eexists; split; [reflexivity|]; rewrite trees_end; auto; fail);
    try (rewrite F; cbn [app]; rsteps; rewrite <- ?F; eexists; split; [rewrite trees_followed, <- app_assoc; reflexivity|]; split; [eassumption|rewrite F; reflexivity]).
  - intros r s (g & -> & E & ->). rsteps. rewrite trees_puncts, E. auto.
Qed.
