(** Sections of interpolated strings, exactly (C52). Proof file. *)
From Verif Require Import Lexer LexerFacts LexerFacts2 LexerCases LexerStep LexerStream LexerSpec LexerProofs LexerTheorems LexerTheorems2 LexerTheorems3 TokenSpec TokenProofs TokenTheorems StringProofs StringProofs2 Relex.
From Verif Require Export Scan1.
From Coq Require Import Lia ZifyBool ZifyNat ZifyN.
Local Open Scope N_scope.
Arguments ch a : simpl never.
Arguments advance p c : simpl never.


(** What is left of a section in the middle of an escape or of [\u{]. *)
Definition sect (f : char) (v : text) (esc z u : bool) (t : text) : Prop :=
  if u then exists w t', t = w ++ t' /\ ~ In 125 (tl (w ++ firstn 1 (t' ++ [f]))) /\ before_brace (t' ++ f :: v) /\ section_then f v z t'
  else if esc then exists zs x t', t = zs ++ x :: t' /\ forallb (N.eqb 122) zs = true /\ x <> 122 /\ section_then f v true t'
  else section_then f v z t.

Lemma istr_sound n : forall rest pos acc esc z u w b s, (List.length rest <= n)%nat -> (u = true -> esc = false) -> read_istr rest pos acc esc z u = (w, Some b, s) ->
  exists t, w = acc ++ t /\ rest = t ++ fin b :: s_rest s /\ sect (fin b) (s_rest s) esc z u t.
Proof.
  induction n as [|n IH]; intros rest pos acc esc z u w b s Hl Hu H.
  { destruct rest; [discriminate|cbn in Hl; lia]. }
  destruct rest as [|x r]; [discriminate|]. cbn in Hl.
  assert (Cons : forall pos' esc' z' u', (u' = true -> esc' = false) -> read_istr r pos' (acc ++ [x]) esc' z' u' = (w, Some b, s) ->
     (forall t, sect (fin b) (s_rest s) esc' z' u' t -> r = t ++ fin b :: s_rest s -> sect (fin b) (s_rest s) esc z u (x :: t)) ->
     exists t, w = acc ++ t /\ x :: r = t ++ fin b :: s_rest s /\ sect (fin b) (s_rest s) esc z u t).
  { intros pos' esc' z' u' Hu' H' K. apply IH in H' as (t & -> & E & S); [|lia|assumption]. exists (x :: t). rewrite <- app_assoc. repeat split; [cbn; now rewrite E|auto]. }
  cbn [read_istr] in H.
  destruct (u && match r with d :: _ => negb (d =? ch "}") | [] => false end) eqn:Eu.
  { apply andb_true_iff in Eu as [-> Eu]. rewrite (Hu eq_refl) in *. eapply Cons; [|exact H|]; [auto|].
    intros t (w0 & t' & -> & Ni & Bb & S) Er. exists (x :: w0), t'. split; [reflexivity|]. split; [|split; assumption].
    change (tl ((x :: w0) ++ firstn 1 (t' ++ [fin b]))) with (w0 ++ firstn 1 (t' ++ [fin b])). intros I. apply Ni.
    assert (Nh : forall y q, w0 ++ firstn 1 (t' ++ [fin b]) = y :: q -> y <> 125).
    { intros y q Q ->. destruct r as [|d r0]; [discriminate|]. apply negb_true_iff, N.eqb_neq in Eu. apply Eu. clear -Er Q.
        change (ch "}") with 125. destruct w0 as [|y0 w0]; [destruct t' as [|y1 t']|]; cbn in *; congruence. }
    destruct (w0 ++ firstn 1 (t' ++ [fin b])) as [|y q] eqn:Q; [destruct I|]. destruct I as [->|I]; [now destruct (Nh 125 q eq_refl)|exact I]. }
  (* an ordinary character, perhaps the one before the brace *)
  assert (Bb : u = true -> before_brace (x :: r)).
  { intros ->. exists x, r. split; [reflexivity|]. destruct r as [|d r0]; [now left|right]. cbn in Eu. apply negb_false_iff, N.eqb_eq in Eu. subst d. now exists r0. }
  assert (Go : forall K, K = sect (fin b) (s_rest s) esc z false -> (exists t, w = acc ++ t /\ x :: r = t ++ fin b :: s_rest s /\ K t) ->
     exists t, w = acc ++ t /\ x :: r = t ++ fin b :: s_rest s /\ sect (fin b) (s_rest s) esc z u t).
  { intros K -> (t & E1 & E2 & S). exists t. repeat split; try assumption. destruct u; [|exact S]. rewrite (Hu eq_refl) in S. cbn [sect] in S. exists [], t. split; [reflexivity|]. split; [|split; [|exact S]].
    - cbn [app]. destruct (t ++ [fin b]); [auto|]. cbn. auto.
    - rewrite <- E2. auto. }
  apply (Go _ eq_refl). clear Go Bb.
  assert (Cons' : forall pos' esc' z' u', (u' = true -> esc' = false) -> read_istr r pos' (acc ++ [x]) esc' z' u' = (w, Some b, s) ->
     (forall t, sect (fin b) (s_rest s) esc' z' u' t -> r = t ++ fin b :: s_rest s -> sect (fin b) (s_rest s) esc z false (x :: t)) ->
     exists t, w = acc ++ t /\ x :: r = t ++ fin b :: s_rest s /\ sect (fin b) (s_rest s) esc z false t).
  { intros pos' esc' z' u' Hu' H' K. apply IH in H' as (t & -> & E & S); [|lia|assumption]. exists (x :: t). rewrite <- app_assoc. repeat split; [cbn; now rewrite E|auto]. }
  clear Cons. destruct (negb esc && negb z && ((x =? c_nl) || (x =? c_cr))) eqn:Enl; [discriminate|].
  destruct esc.
  { destruct (x =? ch "z") eqn:Ez.
    - apply N.eqb_eq in Ez. subst x. eapply Cons'; [|exact H|]; [discriminate|]. intros t (zs & y & t' & -> & Z & Hy & S) _. exists (122 :: zs), y, t'. repeat split; auto.
    - apply N.eqb_neq in Ez. eapply Cons'; [|exact H|]; [discriminate|]. intros t S _. exists [], x, t. repeat split; auto. }
  cbn [sect]. destruct (x =? c_backslash) eqn:Eb.
  { apply N.eqb_eq in Eb. subst x. destruct r as [|d r']; [discriminate|]. destruct (d =? ch "u") eqn:Ed.
    - apply N.eqb_eq in Ed. subst d. destruct r' as [|e r'']; [discriminate|]. destruct (e =? ch "{") eqn:Ee.
      + apply N.eqb_eq in Ee. subst e. apply IH in H as (t & -> & E & (w0 & t' & -> & Ni & Bb & S)); [|cbn in Hl; lia|auto].
        exists (92 :: 117 :: 123 :: w0 ++ t'). split; [now rewrite <- app_assoc|]. split; [cbn; now rewrite E|]. now apply sx_unicode.
      + apply IH in H as (t & -> & E & S); [|cbn in Hl |- *; lia|auto]. exists (92 :: 117 :: t). split; [now rewrite <- app_assoc|]. split; [cbn; now rewrite E|].
        apply sx_u; [|exact S]. intros y q Q. apply N.eqb_neq. intros <-. apply N.eqb_neq in Ee. apply Ee. change (ch "{") with 123. destruct t; cbn in *; congruence.
    - apply N.eqb_neq in Ed. eapply Cons'; [|exact H|]; [discriminate|]. intros t (zs & y & t' & -> & Z & Hy & S) Er. apply (sx_escape _ _ z zs y t'); auto.
      intros -> ->. apply Ed. change (ch "u") with 117. cbn in Er. congruence. }
  destruct (((x =? c_nl) || (x =? c_cr)) && z) eqn:Ebr.
  { apply andb_true_iff in Ebr as [Ebr ->]. eapply Cons'; [|exact H|]; [discriminate|]. intros t S _. cbn. apply sx_break; [|exact S].
    apply orb_true_iff in Ebr as [Ebr|Ebr]; apply N.eqb_eq in Ebr; subst; [now left|now right]. }
  destruct (x =? ch "{") eqn:Eo.
  { apply N.eqb_eq in Eo. subst x. injection H as <- <- <-. exists []. rewrite app_nil_r. repeat split. constructor. }
  destruct (x =? c_backtick) eqn:Et.
  { apply N.eqb_eq in Et. subst x. injection H as <- <- <-. exists []. rewrite app_nil_r. repeat split. constructor. }
  eapply Cons'; [|exact H|]; [discriminate|]. intros t S _. cbn. apply sx_char; [|exact S]. apply N.eqb_neq in Eb, Eo, Et.
  repeat split; try assumption. intros Q. assert (((x =? c_nl) || (x =? c_cr)) = true) as L by (destruct Q as [->| ->]; reflexivity). rewrite L in *. destruct z; discriminate.
Qed.

Lemma in_u_step x d r pos acc z : d <> 125 -> read_istr (x :: d :: r) pos acc false z true = read_istr (d :: r) (advance pos x) (acc ++ [x]) false z true.
Proof. intros H. cbn [read_istr]. change (ch "}") with 125. apply N.eqb_neq in H. rewrite H. reflexivity. Qed.
Lemma in_u_skip w : forall r pos acc z y q, r = y :: q -> ~ In 125 (tl (w ++ [y])) ->
  exists p, read_istr (w ++ r) pos acc false z true = read_istr r p (acc ++ w) false z true.
Proof.
  induction w as [|x w IH]; intros r pos acc z y q -> Ni; [exists pos; now rewrite app_nil_r|].
  change (tl ((x :: w) ++ [y])) with (w ++ [y]) in Ni.
  assert (N1 : ~ In 125 (tl (w ++ [y]))) by (intros I; apply Ni; destruct (w ++ [y]); [destruct I|now right]).
  destruct (IH (y :: q) (advance pos x) (acc ++ [x]) z y q eq_refl N1) as (p & E). exists p. rewrite <- app_assoc in E. cbn [app] in E. etransitivity; [|exact E].
  destruct w as [|d w]; cbn [app]; apply in_u_step; intros ->; apply Ni; cbn; auto.
Qed.
Lemma in_u_last r pos acc z : before_brace r -> read_istr r pos acc false z true = read_istr r pos acc false z false.
Proof. intros (x & q & -> & [->|(q' & ->)]); reflexivity. Qed.
Lemma escape_skip zs : forall x r pos acc z, forallb (N.eqb 122) zs = true -> x <> 122 ->
  exists p, read_istr (zs ++ x :: r) pos acc true z false = read_istr r p (acc ++ zs ++ [x]) false true false.
Proof.
  induction zs as [|y zs IH]; intros x r pos acc z F Hx.
  - exists (advance pos x). cbn [app read_istr andb negb]. change (x =? ch "z") with (x =? 122). apply N.eqb_neq in Hx. rewrite Hx. reflexivity.
  - cbn [forallb] in F. apply andb_true_iff in F as [F1 F2]. apply N.eqb_eq in F1. subst y. destruct (IH x r (advance pos 122) (acc ++ [122]) true F2 Hx) as (p & E). exists p.
    rewrite <- app_assoc in E. exact E.
Qed.
Lemma istr_complete b v z t : section_then (fin b) v z t -> forall pos acc, exists p, read_istr (t ++ fin b :: v) pos acc false z false = (acc ++ t, Some b, mkSrc v p).
Proof.
  induction 1 as [z|z x t Hx _ IH|x t Hx _ IH|z zs x t Hz Hx Hu _ IH|z t Hn _ IH|z w t Ni Bb _ IH]; intros pos acc.
  - exists (advance pos (fin b)). rewrite app_nil_r. destruct b; cbn; rewrite ?andb_false_r; reflexivity.
  - destruct Hx as (H1 & H2 & H3 & H4). destruct (IH (advance pos x) (acc ++ [x])) as (p & E). exists p. rewrite <- app_assoc in E. cbn [app] in E. etransitivity; [|exact E].
    assert (L : (x =? c_nl) || (x =? c_cr) = false) by (apply orb_false_iff; split; apply N.eqb_neq; intros ->; apply H4; [now left|now right]).
    cbn [app read_istr andb negb]. rewrite L, !andb_false_r. apply N.eqb_neq in H1, H2, H3. change (x =? c_backslash) with (x =? 92). change (x =? ch "{") with (x =? 123).
    change (x =? c_backtick) with (x =? 96). rewrite H1, H2, H3. reflexivity.
  - destruct (IH (advance pos x) (acc ++ [x])) as (p & E). exists p. rewrite <- app_assoc in E. cbn [app] in E. etransitivity; [|exact E]. destruct Hx as [->| ->]; reflexivity.
  - destruct (escape_skip zs x (t ++ fin b :: v) (advance pos 92) (acc ++ [92]) z Hz Hx) as (p & E). destruct (IH p ((acc ++ [92]) ++ zs ++ [x])) as (p' & E').
    exists p'. rewrite E' in E. replace (acc ++ 92 :: zs ++ x :: t) with (((acc ++ [92]) ++ zs ++ [x]) ++ t) by (rewrite <- !app_assoc; reflexivity).
    rewrite <- E. cbn [app]. rewrite <- app_assoc. cbn [app]. cbn [read_istr andb negb]. change (92 =? c_nl) with false. change (92 =? c_cr) with false. change (92 =? c_backslash) with true.
    rewrite andb_false_r. cbv iota. destruct zs as [|y zs]; cbn [app].
    + specialize (Hu eq_refl). apply N.eqb_neq in Hu. change (x =? ch "u") with (x =? 117). rewrite Hu. reflexivity.
    + cbn [forallb] in Hz. apply andb_true_iff in Hz as [Hz _]. apply N.eqb_eq in Hz. subst y. reflexivity.
  - destruct (IH (advance (advance pos 92) 117) (acc ++ [92] ++ [117])) as (p & E). exists p. rewrite <- app_assoc in E. cbn [app] in E. etransitivity; [|exact E].
    cbn [app read_istr andb negb]. change (92 =? c_nl) with false. change (92 =? c_cr) with false. change (92 =? c_backslash) with true. rewrite andb_false_r. cbv iota. change (117 =? ch "u") with true. cbv iota.
    assert (Q : exists y q, t ++ fin b :: v = y :: q /\ y <> 123).
    { destruct t as [|y t]; cbn [app] in *; [exists (fin b), v|exists y, (t ++ fin b :: v)]; (split; [reflexivity|]); intros Q; apply continued_false in Hn; rewrite Q in Hn; discriminate Hn. }
    destruct Q as (y & q & Q & Hy). rewrite Q. apply N.eqb_neq in Hy. change (y =? ch "{") with (y =? 123). rewrite Hy. reflexivity.
  - assert (Q : exists y q, t ++ fin b :: v = y :: q /\ firstn 1 (t ++ [fin b]) = [y]) by (destruct t as [|y t]; cbn; eauto).
    destruct Q as (y & q & Q & F). rewrite F in Ni.
    destruct (in_u_skip w (t ++ fin b :: v) (advance (advance (advance pos 92) 117) 123) (acc ++ [92] ++ [117] ++ [123]) z y q Q Ni) as (p & E).
    rewrite (in_u_last (t ++ fin b :: v)) in E by assumption. destruct (IH p ((acc ++ [92] ++ [117] ++ [123]) ++ w)) as (p' & E'). exists p'. rewrite E' in E. rewrite <- !app_assoc in E. cbn [app] in E.
    etransitivity; [|exact E]. cbn [app]. rewrite <- app_assoc. cbn [read_istr andb negb]. change (92 =? c_nl) with false. change (92 =? c_cr) with false. change (92 =? c_backslash) with true.
    rewrite andb_false_r. reflexivity.
Qed.
