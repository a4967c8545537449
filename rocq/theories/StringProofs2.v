(** Proofs for interpolated strings. Proof file. *)
From Verif Require Import Lexer LexerFacts LexerFacts2 LexerCases LexerStep LexerStream LexerSpec LexerProofs LexerTheorems LexerTheorems2 LexerTheorems3
  TokenSpec TokenProofs TokenTheorems StringSpec StringProofs.
From Coq Require Import Lia ZifyBool ZifyNat ZifyN.
Local Open Scope N_scope.
Arguments ch a : simpl never.
Arguments advance p c : simpl never.

Definition fin (b : bool) : char := if b then 123 else 96.

(** What [read_istr] has consumed, by state. *)
Definition istr_text (esc u : bool) (t : text) : Prop :=
  if esc then exists zs x t', t = zs ++ x :: t' /\ forallb (fun z => z =? 122) zs = true /\ x <> 122 /\ loose_section t'
  else if u then exists v t', t = v ++ t' /\ ~ In 125 (tl v) /\ loose_section t'
  else loose_section t.

Lemma istr_loose n : forall rest pos acc esc z u w b s, (List.length rest <= n)%nat -> (u = true -> esc = false) ->
  read_istr rest pos acc esc z u = (w, Some b, s) ->
  exists t, w = acc ++ t /\ rest = t ++ fin b :: s_rest s /\ istr_text esc u t.
Proof.
  induction n as [|n IH]; intros rest pos acc esc z u w b s Hn Hu H; (destruct rest as [|c r]; cbn [read_istr] in H; [discriminate|]);
  cbn [List.length] in Hn; [lia|].
  destruct (u && _) eqn:Eu.
  { apply andb_true_iff in Eu as [-> Eu]. destruct r as [|d r']; [discriminate|]. specialize (Hu eq_refl). subst esc.
    apply IH in H as (t & -> & E & v & t' & -> & Nv & L); [|lia|auto]. exists (c :: v ++ t'). rewrite <- app_assoc.
    split; [reflexivity|]. split; [cbn [app]; now rewrite E|]. exists (c :: v), t'. split; [reflexivity|]. split; [|exact L].
    cbn [tl]. destruct v as [|y v]; [intros []|]. cbn [tl] in Nv. cbn [app] in E. injection E as -> _. intros [->|Hi]; [|contradiction].
    discriminate Eu. }
  assert (W : esc = false -> forall t, loose_section t -> istr_text esc u t).
  { intros -> t L. unfold istr_text. destruct u; [|exact L]. exists [], t. split; [reflexivity|]. split; [intros []|exact L]. }
  destruct (negb esc && negb z && ((c =? c_nl) || (c =? c_cr))) eqn:E1; [discriminate|].
  destruct esc.
  { destruct (c =? ch "z") eqn:Ez.
    - apply N.eqb_eq in Ez; subst c. apply IH in H as (t & -> & -> & zs & x & t' & -> & Z & X & L); [|lia|discriminate].
      exists (122 :: zs ++ x :: t'). rewrite <- app_assoc. split; [reflexivity|]. split; [reflexivity|].
      exists (122 :: zs), x, t'. cbn [forallb]. rewrite Z. auto.
    - apply IH in H as (t & -> & -> & L); [|lia|discriminate]. exists (c :: t). rewrite <- app_assoc. split; [reflexivity|]. split; [reflexivity|].
      exists [], c, t. split; [reflexivity|]. split; [reflexivity|]. split; [now apply N.eqb_neq in Ez|exact L]. }
  specialize (W eq_refl).
  destruct (c =? c_backslash) eqn:Eb.
  { apply N.eqb_eq in Eb; subst c. destruct r as [|d r']; [destruct n; cbn [read_istr] in H; discriminate|].
    destruct (d =? ch "u") eqn:Ed.
    - apply N.eqb_eq in Ed; subst d. cbn [List.length] in Hn.
      assert (K2 : forall p', read_istr r' p' (acc ++ [c_backslash] ++ [ch "u"]) false z false = (w, Some b, s) -> (forall y r2, r' = y :: r2 -> y <> 123) ->
        exists t, w = acc ++ t /\ c_backslash :: ch "u" :: r' = t ++ fin b :: s_rest s /\ istr_text false u t).
      { intros p' HH Hy. apply IH in HH as (t & -> & -> & L); [|lia|discriminate]. exists (92 :: 117 :: t). rewrite <- !app_assoc.
        split; [reflexivity|]. split; [reflexivity|]. apply W. apply ls_u; [|exact L].
        intros y r2 ->. apply N.eqb_neq. eapply Hy. reflexivity. }
      destruct r' as [|x r'']; [apply K2 in H; [exact H|discriminate]|].
      destruct (x =? ch "{") eqn:Ex.
      + apply N.eqb_eq in Ex; subst x. cbn [List.length] in Hn.
        apply IH in H as (t & -> & -> & v & t' & -> & Nv & L); [|lia|auto]. exists (92 :: 117 :: 123 :: v ++ t'). rewrite <- !app_assoc.
        split; [reflexivity|]. split; [cbn [app]; now rewrite <- app_assoc|]. apply W. now apply ls_unicode.
      + apply K2 in H; [exact H|]. intros y r2 [= <- _]. now apply N.eqb_neq in Ex.
    - apply IH in H as (t & -> & E & zs & x & t' & -> & Z & X & L); [|cbn [List.length] in *; lia|discriminate].
      exists (92 :: zs ++ x :: t'). rewrite <- app_assoc. split; [reflexivity|]. split; [cbn [app]; now rewrite E|].
      apply W. apply ls_escape; auto. intros ->. cbn [app] in E. injection E as -> _. now apply N.eqb_neq in Ed. }
  destruct (((c =? c_nl) || (c =? c_cr)) && z) eqn:E2.
  { apply IH in H as (t & -> & -> & L); [|lia|discriminate]. exists (c :: t). rewrite <- app_assoc. split; [reflexivity|]. split; [reflexivity|].
    apply W. apply andb_true_iff in E2 as [E2 _]. apply break_is in E2. apply ls_char; [| | |exact L]; destruct E2 as [->| ->]; discriminate. }
  destruct (c =? ch "{") eqn:E3.
  { apply N.eqb_eq in E3; subst c. injection H as <- <- <-. exists []. rewrite app_nil_r. split; [reflexivity|]. split; [reflexivity|]. apply W. constructor. }
  destruct (c =? c_backtick) eqn:E4.
  { apply N.eqb_eq in E4; subst c. injection H as <- <- <-. exists []. rewrite app_nil_r. split; [reflexivity|]. split; [reflexivity|]. apply W. constructor. }
  apply IH in H as (t & -> & -> & L); [|lia|discriminate]. exists (c :: t). rewrite <- app_assoc. split; [reflexivity|]. split; [reflexivity|].
  apply W. apply ls_char; [now apply N.eqb_neq in E4|now apply N.eqb_neq in E3|now apply N.eqb_neq in Eb|exact L].
Qed.

(** An unclosed section stops at the end of the text or before a line break. *)
Lemma istr_unclosed n : forall rest pos acc esc z u w s, (List.length rest <= n)%nat ->
  read_istr rest pos acc esc z u = (w, None, s) ->
  exists t, w = acc ++ t /\ rest = t ++ s_rest s /\ (s_rest s = [] \/ exists x r, s_rest s = x :: r /\ line_break x).
Proof.
  induction n as [|n IH]; intros rest pos acc esc z u w s Hn H; (destruct rest as [|c r]; cbn [read_istr] in H;
    [injection H as <- <-; exists []; rewrite app_nil_r; auto|]);
  cbn [List.length] in Hn; [lia|].
  assert (K : forall p' acc' esc' z' u', read_istr r p' acc' esc' z' u' = (w, None, s) -> acc' = acc ++ [c] ->
     exists t, w = acc ++ t /\ c :: r = t ++ s_rest s /\ (s_rest s = [] \/ exists x r, s_rest s = x :: r /\ line_break x)).
  { intros p' acc' esc' z' u' HH ->. apply IH in HH as (t & -> & -> & L); [|lia]. exists (c :: t). rewrite <- app_assoc. auto. }
  destruct (u && _) eqn:Eu; [now apply K in H|].
  destruct (negb esc && negb z && ((c =? c_nl) || (c =? c_cr))) eqn:E1.
  { injection H as <- <-. exists []. rewrite app_nil_r. split; [reflexivity|]. split; [reflexivity|]. right. exists c, r. split; [reflexivity|].
    apply andb_true_iff in E1 as [_ E1]. now apply break_is. }
  destruct esc; [destruct (c =? ch "z") eqn:Ez; [apply N.eqb_eq in Ez; subst c|]; now apply K in H|].
  destruct (c =? c_backslash) eqn:Eb.
  { apply N.eqb_eq in Eb; subst c. destruct r as [|d r']; [now apply K in H|].
    destruct (d =? ch "u") eqn:Ed; [|now apply K in H]. apply N.eqb_eq in Ed; subst d. cbn [List.length] in Hn.
    assert (K2 : forall p' u', read_istr r' p' (acc ++ [c_backslash] ++ [ch "u"]) false z u' = (w, None, s) ->
      exists t, w = acc ++ t /\ c_backslash :: ch "u" :: r' = t ++ s_rest s /\ (s_rest s = [] \/ exists x r, s_rest s = x :: r /\ line_break x)).
    { intros p' u' HH. apply IH in HH as (t & -> & -> & L); [|lia]. exists (c_backslash :: ch "u" :: t). rewrite <- !app_assoc. auto. }
    destruct r' as [|x r'']; [now apply K2 in H|].
    destruct (x =? ch "{") eqn:Ex; [|now apply K2 in H]. apply N.eqb_eq in Ex; subst x. cbn [List.length] in Hn.
    apply IH in H as (t & -> & -> & L); [|lia]. exists (c_backslash :: ch "u" :: ch "{" :: t). rewrite <- !app_assoc. auto. }
  destruct (((c =? c_nl) || (c =? c_cr)) && z) eqn:E2; [now apply K in H|].
  destruct (c =? ch "{"); [discriminate|]. destruct (c =? c_backtick); [discriminate|]. now apply K in H.
Qed.

(** ** Reading a well-formed section *)

Lemma step_plain x r pos acc z : plain_char x ->
  read_istr (x :: r) pos acc false z false = read_istr r (advance pos x) (acc ++ [x]) false z false.
Proof.
  intros (N1 & N2 & N3 & N4). cbn [read_istr andb]. assert (B : (x =? c_nl) || (x =? c_cr) = false).
  { destruct ((x =? c_nl) || (x =? c_cr)) eqn:E; [apply break_is in E; contradiction|reflexivity]. }
  rewrite B, andb_false_r. cbn [andb]. apply N.eqb_neq in N1, N2, N3. change 96 with c_backtick in N1. change 123 with (ch "{") in N2. change 92 with c_backslash in N3.
  now rewrite N1, N2, N3.
Qed.

Lemma step_break x r pos acc : line_break x ->
  read_istr (x :: r) pos acc false true false = read_istr r (advance pos x) (acc ++ [x]) false false false.
Proof.
  intros L. assert (B := L). apply break_is in B. cbn [read_istr andb negb]. rewrite B.
  destruct (x =? c_backslash) eqn:E; [apply N.eqb_eq in E; subst x; destruct L; discriminate|]. reflexivity.
Qed.

Lemma step_escape x r pos acc z : x <> 117 -> x <> 122 ->
  read_istr (92 :: x :: r) pos acc false z false = read_istr r (advance (advance pos 92) x) (acc ++ [92; x]) false true false.
Proof.
  intros N1 N2. cbn [read_istr andb]. change ((92 =? c_nl) || (92 =? c_cr)) with false. rewrite andb_false_r. change (92 =? c_backslash) with true. cbn iota.
  apply N.eqb_neq in N1, N2. change 117 with (ch "u") in N1. change 122 with (ch "z") in N2. rewrite N1. cbn [negb andb]. rewrite N2.
  now rewrite <- app_assoc.
Qed.

Lemma step_z x r pos acc z : x <> 122 ->
  read_istr (92 :: 122 :: x :: r) pos acc false z false = read_istr r (advance (advance (advance pos 92) 122) x) (acc ++ [92; 122; x]) false true false.
Proof.
  intros N. cbn [read_istr andb]. change ((92 =? c_nl) || (92 =? c_cr)) with false. rewrite andb_false_r. change (92 =? c_backslash) with true. cbn iota.
  change (122 =? ch "u") with false. change (122 =? ch "z") with true. cbn [negb andb]. cbn iota.
  apply N.eqb_neq in N. change 122 with (ch "z") in N. rewrite N. now rewrite <- !app_assoc.
Qed.

Lemma step_unicode r pos acc z :
  read_istr (92 :: 117 :: 123 :: r) pos acc false z false = read_istr r (advance (advance (advance pos 92) 117) 123) (acc ++ [92; 117; 123]) false z true.
Proof.
  cbn [read_istr andb]. change ((92 =? c_nl) || (92 =? c_cr)) with false. rewrite andb_false_r. change (92 =? c_backslash) with true. cbn iota.
  change (117 =? ch "u") with true. change (123 =? ch "{") with true. reflexivity.
Qed.

Lemma hex_plain x : hexdigit x = true -> plain_char x /\ x <> 125.
Proof. unfold hexdigit, digit, between, plain_char, line_break. lia. Qed.

Lemma read_hexes w : forall t pos acc z, w <> [] -> forallb hexdigit w = true ->
  exists p, read_istr (w ++ 125 :: t) pos acc false z true = read_istr t p (acc ++ w ++ [125]) false z false.
Proof.
  assert (P125 : plain_char 125) by (unfold plain_char, line_break; repeat split; try discriminate; intros [?|?]; discriminate).
  induction w as [|h w IH]; intros t pos acc z N F; [contradiction|]. cbn [forallb] in F. apply andb_true_iff in F as [Fh F].
  apply hex_plain in Fh as [Ph _]. destruct w as [|h2 w].
  - exists (advance (advance pos h) 125).
    assert (E : read_istr ([h] ++ 125 :: t) pos acc false z true = read_istr (h :: 125 :: t) pos acc false z false) by reflexivity.
    rewrite E, !step_plain by assumption. now rewrite <- app_assoc.
  - destruct (IH t (advance pos h) (acc ++ [h]) z) as (p & E); [discriminate|assumption|]. exists p.
    cbn [forallb] in F. apply andb_true_iff in F as [F2 _]. apply hex_plain in F2 as [_ F2]. apply N.eqb_neq in F2.
    rewrite <- app_assoc in E. cbn [app] in E. change ((h :: h2 :: w) ++ [125]) with ([h] ++ (h2 :: w) ++ [125]). cbn [app]. rewrite <- E.
    cbn [app]. cbn [read_istr]. change 125 with (ch "}") in F2. now rewrite F2.
Qed.

Lemma read_blank w : forall t pos acc z, blank w -> (breaks w <= if z : bool then 1 else 0)%nat ->
  exists p z', read_istr (w ++ t) pos acc false z false = read_istr t p (acc ++ w) false z' false.
Proof.
  induction w as [|x w IH]; intros t pos acc z W K.
  - exists pos, z. now rewrite app_nil_r.
  - unfold blank in W. cbn [forallb] in W. apply andb_true_iff in W as [Wx W]. unfold breaks in K. cbn [filter] in K. cbn [app].
    destruct (is_line_break x) eqn:Ex.
    + cbn [List.length] in K. destruct z; [|lia]. rewrite step_break by (unfold is_line_break in Ex; apply orb_true_iff in Ex; rewrite !N.eqb_eq in Ex; exact Ex).
      destruct (IH t (advance pos x) (acc ++ [x]) false W) as (p & z' & ->); [unfold breaks; lia|]. rewrite <- app_assoc. eauto.
    + rewrite step_plain.
      * destruct (IH t (advance pos x) (acc ++ [x]) z W K) as (p & z' & ->). rewrite <- app_assoc. eauto.
      * unfold is_line_break in Ex. unfold plain_char, line_break. lia.
Qed.

Lemma istr_accepts b k v : section_body false b -> forall pos acc z,
  exists p, read_istr (b ++ fin k :: v) pos acc false z false = (acc ++ b, Some k, mkSrc v p).
Proof.
  induction 1 as [|x t P S IH|x t N1 N2 S IH|x y t N S IH|w t N F S IH|w t W K S IH]; intros pos acc z.
  - cbn [app read_istr andb]. exists (advance pos (fin k)). rewrite app_nil_r. destruct k; cbn [fin];
    [change ((123 =? c_nl) || (123 =? c_cr)) with false|change ((96 =? c_nl) || (96 =? c_cr)) with false]; rewrite andb_false_r; reflexivity.
  - cbn [app]. rewrite step_plain by assumption. destruct (IH (advance pos x) (acc ++ [x]) z) as (p & ->). rewrite <- app_assoc. eauto.
  - cbn [app]. rewrite step_escape by assumption. edestruct IH as (p & ->). rewrite <- app_assoc. eauto.
  - cbn [app]. rewrite step_escape by (destruct N as [[-> _]|[-> _]]; discriminate).
    rewrite step_break by (unfold line_break; destruct N as [[_ ->]|[_ ->]]; auto). edestruct IH as (p & ->). rewrite <- !app_assoc. eauto.
  - cbn [app]. rewrite step_unicode. rewrite <- app_assoc. cbn [app]. edestruct (read_hexes w) as (p1 & ->); [assumption|assumption|].
    edestruct IH as (p & ->). rewrite <- !app_assoc. cbn [app]. rewrite <- ?app_assoc. cbn [app]. eauto.
  - destruct K as [K|[N K]]; [discriminate|]. destruct w as [|x w]; [contradiction|]. cbn [tl] in K. cbn [app].
    unfold blank in W. cbn [forallb] in W. apply andb_true_iff in W as [Wx W]. rewrite step_z by (intros ->; discriminate).
    rewrite <- app_assoc. edestruct (read_blank w) as (p1 & z' & ->); [exact W|exact K|].
    edestruct IH as (p & ->). rewrite <- !app_assoc. eauto.
Qed.

(** ** The tokens *)

Lemma istr_origin c l t es l' b k : pstep c l t es l' -> t_type t = TInterpolatedString b k -> has_luau c = true /\
  ((es = [] /\ s_rest (l_src l) = begins k :: b ++ finishes k :: s_rest (l_src l') /\ loose_section b) \/
   (exists e, es = [e] /\ te_error e = UnclosedString /\ (k = ISimple \/ k = IEnd) /\ s_rest (l_src l) = begins k :: b ++ s_rest (l_src l') /\
      (s_rest (l_src l') = [] \/ exists x r, s_rest (l_src l') = x :: r /\ line_break x))).
Proof.
  intros P Ht. step_case P HC.
  remember (Some r) as o eqn:Ho.
  destruct HC as [ | He Hs | next w0 s Hid M F Hd | next w0 s Hn M T Z | s M | d r0 res s HR Hx R0 | d r0 res s HR Hx Hv R0
    | d r0 res s HR Hx Hv R0 | d r0 res s HR Hx R0 | r0 res l1 HR Hv R0 | r0 bs res l1 HR Hv Hb R0
    | q0 r0 qt0 lit rec s HR Hq0 Hv R0 | r0 n0 b0 s HR R0 | r0 n0 b0 s HR R0 | r0 tt rec s HR R0 | r0 tt rec s HR Hv R0
    | sy s Hop M HL HE _ _ _ _ _ | d s e M He HN ]; try discriminate; injection Ho as <-.
  - apply yields_ok in Hy as [<- ->]. discriminate.
  - apply yields_ok in Hy as [<- ->]. cbn [t_type] in Ht. destruct (sym_from_str c (next :: w0)); discriminate.
  - apply yields_ok in Hy as [<- ->]. discriminate.
  - apply yields_ok in Hy as [<- ->]. discriminate.
  - apply read_hex_number_spec in R0 as (u & _ & [(-> & _)| ->]); [| |cbn; lia];
    [apply yields_ok in Hy as [<- _]|apply yields_rec in Hy as [<- _]]; discriminate.
  - apply read_binary_number_spec in R0 as (u & _ & [(-> & _)| ->]); [| |cbn; lia];
    [apply yields_ok in Hy as [<- _]|apply yields_rec in Hy as [<- _]]; discriminate.
  - destruct (number_result_type _ _ _ _ _ _ _ _ _ _ R0 Hy) as (w & E). congruence.
  - destruct (number_result_type _ _ _ _ _ _ _ _ _ _ R0 Hy) as (w & E). congruence.
  - split; [exact Hv|]. unfold read_interpolated_string_section in R0. cbn [l_src with_src s_rest s_pos] in R0.
    destruct (read_istr _ _ _ _ _ _) as [[chars [[|]|]] s] eqn:RI; injection R0 as <- <-.
    + apply yields_ok in Hy as [<- ->]. cbn [t_type] in Ht. injection Ht as -> <-. left. split; [reflexivity|].
      eapply istr_loose in RI as (t & E & E2 & L); [|apply le_n|discriminate]. cbn [app] in E. subst t. cbn [l_src]. rewrite HR, E2. auto.
    + apply yields_ok in Hy as [<- ->]. cbn [t_type] in Ht. injection Ht as -> <-. left. split; [reflexivity|].
      eapply istr_loose in RI as (t & E & E2 & L); [|apply le_n|discriminate]. cbn [app] in E. subst t. cbn [l_src with_src]. rewrite HR, E2. auto.
    + apply yields_rec in Hy as [<- ->]. cbn [t_type] in Ht. injection Ht as -> <-. right. eexists. split; [reflexivity|]. split; [reflexivity|]. split; [auto|].
      eapply istr_unclosed in RI as (t & E & E2 & L); [|apply le_n]. cbn [app] in E. subst t. cbn [l_src with_src]. rewrite HR, E2. auto.
  - split; [exact Hv|]. unfold read_interpolated_string_section in R0. cbn [l_src with_src s_rest s_pos] in R0.
    destruct (read_istr _ _ _ _ _ _) as [[chars [[|]|]] s] eqn:RI; injection R0 as <- <-.
    + apply yields_ok in Hy as [<- ->]. cbn [t_type] in Ht. injection Ht as -> <-. left. split; [reflexivity|].
      eapply istr_loose in RI as (t & E & E2 & L); [|apply le_n|discriminate]. cbn [app] in E. subst t. cbn [l_src]. rewrite HR, E2. auto.
    + apply yields_ok in Hy as [<- ->]. cbn [t_type] in Ht. injection Ht as -> <-. left. split; [reflexivity|].
      eapply istr_loose in RI as (t & E & E2 & L); [|apply le_n|discriminate]. cbn [app] in E. subst t. cbn [l_src with_src]. rewrite HR, E2. auto.
    + apply yields_rec in Hy as [<- ->]. cbn [t_type] in Ht. injection Ht as -> <-. right. eexists. split; [reflexivity|]. split; [reflexivity|]. split; [auto|].
      eapply istr_unclosed in RI as (t & E & E2 & L); [|apply le_n]. cbn [app] in E. subst t. cbn [l_src with_src]. rewrite HR, E2. auto.
  - apply yields_recovered in Hy as [-> ->]. discriminate.
  - apply yields_ok in Hy as [<- ->]. discriminate.
  - apply yields_rec in Hy as [<- ->]. discriminate.
  - apply yields_recovered in Hy as [-> ->]. cbn [t_type] in Ht. subst tt.
    apply read_comment_spec in R0 as [(n1 & b1 & full & E & _)|[(n1 & b1 & E & _)|(u & E & _)]]; discriminate E.
  - apply yields_recovered in Hy as [-> ->]. cbn [t_type] in Ht. subst tt.
    apply read_c_style_comment_spec in R0 as [(b1 & E & _)|(E & _)]; discriminate E.
  - apply yields_ok in Hy as [<- ->]. discriminate.
  - destruct Hy as [[Hy _]|[Hy _]]; discriminate.
Qed.

Lemma section_texts c source rs t b k : tokenize c source = Done rs -> In t (tokens_of rs) -> t_type t = TInterpolatedString b k ->
  has_luau c = true /\ exists u, t_start t = pos_of u /\
    ((exists v, source = u ++ begins k :: b ++ finishes k :: v /\ loose_section b) \/
     (exists e v, In e (all_errors rs) /\ te_error e = UnclosedString /\ fst (te_range e) = pos_of u /\
        (k = ISimple \/ k = IEnd) /\ source = u ++ begins k :: b ++ v /\ (v = [] \/ exists x r, v = x :: r /\ line_break x))).
Proof.
  intros H Hi Ht. apply tokenize_done in H. destruct (run_step _ _ _ _ H Hi) as [(w & E)|(u & l & l' & es & Hs & Hp & P & Hinc & Hst)]; [congruence|].
  destruct (istr_origin _ _ _ _ _ _ _ P Ht) as [HL [(_ & E & A)|(e & -> & Ke & Kk & E & A)]]; (split; [exact HL|]; exists u; split; [exact Hp|]).
  - left. exists (s_rest (l_src l')). rewrite Hs, E. auto.
  - right. exists e, (s_rest (l_src l')). split; [apply Hinc; now left|]. split; [exact Ke|]. split; [apply Hst; now left|].
    split; [exact Kk|]. split; [now rewrite Hs, E|exact A].
Qed.

Lemma section_step c l b v k : has_luau c = true -> s_rest (l_src l) = begins k :: b ++ finishes k :: v -> section_body false b ->
  (k = IMiddle \/ k = IEnd -> exists bs, l_braces l = BInterpolated :: bs) ->
  exists t l', process_next c l = Done (Some (LOk t), l') /\ t_type t = TInterpolatedString b k /\ s_rest (l_src l') = v.
Proof.
  intros HL E S Hk.
  assert (R : forall f pos, finishes k = fin f -> exists p, read_istr (b ++ finishes k :: v) pos [] false false false = (b, Some f, mkSrc v p)).
  { intros f pos ->. apply (istr_accepts b f v S pos []). }
  unfold process_next, src_next. rewrite E. destruct k; cbn [begins finishes] in *.
  - destruct (R true (advance (s_pos (l_src l)) 96) eq_refl) as (p & RR).
    cbn -[read_istr yield with_src]. rewrite HL. cbn -[read_istr yield with_src]. unfold read_interpolated_string_section. cbn [l_src with_src s_rest s_pos].
    rewrite RR. do 2 eexists. split; [reflexivity|]. split; reflexivity.
  - destruct Hk as (bs & Hb); [auto|]. destruct (R true (advance (s_pos (l_src l)) 125) eq_refl) as (p & RR).
    cbn -[read_istr yield with_src]. rewrite HL, Hb. cbn -[read_istr yield with_src]. unfold read_interpolated_string_section. cbn [l_src with_src s_rest s_pos].
    rewrite RR. do 2 eexists. split; [reflexivity|]. split; reflexivity.
  - destruct Hk as (bs & Hb); [auto|]. destruct (R false (advance (s_pos (l_src l)) 125) eq_refl) as (p & RR).
    cbn -[read_istr yield with_src]. rewrite HL, Hb. cbn -[read_istr yield with_src]. unfold read_interpolated_string_section. cbn [l_src with_src s_rest s_pos].
    rewrite RR. do 2 eexists. split; [reflexivity|]. split; reflexivity.
  - destruct (R false (advance (s_pos (l_src l)) 96) eq_refl) as (p & RR).
    cbn -[read_istr yield with_src]. rewrite HL. cbn -[read_istr yield with_src]. unfold read_interpolated_string_section. cbn [l_src with_src s_rest s_pos].
    rewrite RR. do 2 eexists. split; [reflexivity|]. split; reflexivity.
Qed.

(** ** Nesting *)

Definition conv (b : brace) : opened := match b with BInterpolated => Hole | BNormal => Brace end.
Definition stack (l : lexer) : list opened := map conv (l_braces l).

Lemma word_not_brace c next w0 sy : is_identifier_start next = true -> sym_from_str c (next :: w0) = Some sy -> sy <> SLeftBrace /\ sy <> SRightBrace.
Proof.
  intros Hi E. apply sym_from_str_text in E as [E _]. split; intros ->; cbn in E; injection E as <- _; discriminate Hi.
Qed.

Lemma pstep_nested c l t es l' : has_luau c = true -> pstep c l t es l' -> forall ts, nested (stack l') ts -> nested (stack l) (t :: ts).
Proof.
  intros HL P ts N. step_case P HC.
  remember (Some r) as o eqn:Ho.
  destruct HC as [ | He Hs | next w0 s Hid M F Hd | next w0 s Hn M T Z | s M | d r0 res s HR Hx R0 | d r0 res s HR Hx Hv R0
    | d r0 res s HR Hx Hv R0 | d r0 res s HR Hx R0 | r0 res l1 HR Hv R0 | r0 bs res l1 HR Hv Hb R0
    | q0 r0 qt0 lit rec s HR Hq0 Hv R0 | r0 n0 b0 s HR R0 | r0 n0 b0 s HR R0 | r0 tt rec s HR R0 | r0 tt rec s HR Hv R0
    | sy s Hop M HLg HE _ _ _ _ HB | d s e M He HN ]; try discriminate; injection Ho as <-.
  - apply yields_ok in Hy as [<- ->]. apply ne_other; try (intros; discriminate); exact N.
  - apply yields_ok in Hy as [<- ->]. destruct (sym_from_str c (next :: w0)) as [sy|] eqn:E.
    + destruct (word_not_brace _ _ _ _ Hid E) as [N1 N2]. apply ne_other; cbn [t_type]; try (intros; congruence); exact N.
    + apply ne_other; try (intros; discriminate); exact N.
  - apply yields_ok in Hy as [<- ->]. apply ne_other; try (intros; discriminate); exact N.
  - apply yields_ok in Hy as [<- ->]. apply ne_other; try (intros; discriminate); exact N.
  - apply read_hex_number_spec in R0 as (u & _ & [(-> & _)| ->]); [| |cbn; lia];
    [apply yields_ok in Hy as [<- _]|apply yields_rec in Hy as [<- _]]; (apply ne_other; try (intros; discriminate); exact N).
  - apply read_binary_number_spec in R0 as (u & _ & [(-> & _)| ->]); [| |cbn; lia];
    [apply yields_ok in Hy as [<- _]|apply yields_rec in Hy as [<- _]]; (apply ne_other; try (intros; discriminate); exact N).
  - destruct (number_result_type _ _ _ _ _ _ _ _ _ _ R0 Hy) as (w & E). apply ne_other; rewrite ?E; try (intros; discriminate); exact N.
  - destruct (number_result_type _ _ _ _ _ _ _ _ _ _ R0 Hy) as (w & E). apply ne_other; rewrite ?E; try (intros; discriminate); exact N.
  - unfold read_interpolated_string_section in R0. destruct (read_istr _ _ _ _ _ _) as [[chars [[|]|]] s] eqn:RI; injection R0 as <- <-.
    + apply yields_ok in Hy as [<- ->]. eapply ne_begin; [reflexivity|exact N].
    + apply yields_ok in Hy as [<- ->]. eapply ne_simple; [reflexivity|exact N].
    + apply yields_rec in Hy as [<- ->]. eapply ne_simple; [reflexivity|exact N].
  - unfold read_interpolated_string_section in R0. unfold stack at 1. rewrite Hb. cbn [map conv].
    destruct (read_istr _ _ _ _ _ _) as [[chars [[|]|]] s] eqn:RI; injection R0 as <- <-.
    + apply yields_ok in Hy as [<- ->]. eapply ne_middle; [reflexivity|exact N].
    + apply yields_ok in Hy as [<- ->]. eapply ne_end; [reflexivity|exact N].
    + apply yields_rec in Hy as [<- ->]. eapply ne_end; [reflexivity|exact N].
  - apply yields_recovered in Hy as [-> ->]. apply ne_other; try (intros; discriminate); exact N.
  - apply yields_ok in Hy as [<- ->]. apply ne_other; try (intros; discriminate); exact N.
  - apply yields_rec in Hy as [<- ->]. apply ne_other; try (intros; discriminate); exact N.
  - apply yields_recovered in Hy as [-> ->].
    apply read_comment_spec in R0 as [(n1 & b1 & full & -> & _)|[(n1 & b1 & -> & _)|(u & -> & _)]]; (apply ne_other; try (intros; discriminate); exact N).
  - apply yields_recovered in Hy as [-> ->].
    apply read_c_style_comment_spec in R0 as [(b1 & -> & _)|(-> & _)]; (apply ne_other; try (intros; discriminate); exact N).
  - apply yields_ok in Hy as [<- ->]. unfold stack in N. cbn [l_braces] in N. unfold braces_after in N. rewrite HL in N. unfold stack.
    assert (O : sy <> SLeftBrace -> sy <> SRightBrace -> nested (map conv (l_braces l)) (mkToken (s_pos (l_src l)) (s_pos s) (TSymbol sy) :: ts)).
    { intros N1 N2. apply ne_other; cbn [t_type]; try (intros; congruence). destruct sy; try contradiction; exact N. }
    destruct sy; try (apply O; discriminate).
    + apply ne_brace; [reflexivity|exact N].
    + specialize (HB eq_refl HL). destruct (l_braces l) as [|[] bs]; [apply ne_stray|exfalso; now apply (HB bs)|apply ne_close]; try reflexivity; exact N.
  - destruct Hy as [[Hy _]|[Hy _]]; discriminate.
Qed.

Lemma psteps_nested c l ts es l' : has_luau c = true -> psteps c l ts es l' -> forall us, nested (stack l') us -> nested (stack l) (ts ++ us).
Proof. intros HL. induction 1; intros us N; [exact N|]. cbn [app]. eapply pstep_nested; eauto. Qed.

(** Trivia and errors leave the braces alone. *)
Lemma trivia_stack c l t es l' : has_luau c = true -> pstep c l t es l' -> is_trivia (t_type t) = true -> l_braces l' = l_braces l.
Proof.
  intros HL P T. step_case P HC. remember (Some r) as o eqn:Ho.
  destruct HC as [ | He Hs | next w0 s Hid M F Hd | next w0 s Hn M T0 Z | s M | d r0 res s HR Hx R0 | d r0 res s HR Hx Hv R0
    | d r0 res s HR Hx Hv R0 | d r0 res s HR Hx R0 | r0 res l1 HR Hv R0 | r0 bs res l1 HR Hv Hb R0
    | q0 r0 qt0 lit rec s HR Hq0 Hv R0 | r0 n0 b0 s HR R0 | r0 n0 b0 s HR R0 | r0 tt rec s HR R0 | r0 tt rec s HR Hv R0
    | sy s Hop M HLg HE _ _ _ _ HB | d s e M He HN ]; try discriminate; try reflexivity; injection Ho as <-.
  - apply istr_type in R0 as (w & k & p2 & es2 & [R0|[R0 _]]); subst res;
      [apply yields_ok in Hy as [<- ->]|apply yields_rec in Hy as [<- ->]]; discriminate T.
  - apply istr_type in R0 as (w & k & p2 & es2 & [R0|[R0 _]]); subst res;
      [apply yields_ok in Hy as [<- ->]|apply yields_rec in Hy as [<- ->]]; discriminate T.
  - apply yields_ok in Hy as [<- ->]. discriminate T.
Qed.

Lemma trivias_stack c l ts es l' : has_luau c = true -> psteps c l ts es l' -> Forall (fun t => is_trivia (t_type t) = true) ts -> l_braces l' = l_braces l.
Proof.
  intros HL. induction 1 as [|l t es l1 ts es' l' P PS IH]; intros F; [reflexivity|]. inversion F as [|x y F1 F2]; subst.
  rewrite (IH F2). eapply trivia_stack; eauto.
Qed.

Lemma fatal_stack c l e l' : process_next c l = Done (Some (LFatal e), l') -> l_braces l' = l_braces l.
Proof.
  intros Hp. pose proof (process_next_cases c l) as HC. rewrite Hp in HC. cbn [next_ok] in HC.
  remember (Some (LFatal e)) as o eqn:Ho.
  destruct HC as [ | He Hs | next w0 s Hid M F Hd | next w0 s Hn M T0 Z | s M | d r0 res s HR Hx R0 | d r0 res s HR Hx Hv R0
    | d r0 res s HR Hx Hv R0 | d r0 res s HR Hx R0 | r0 res l1 HR Hv R0 | r0 bs res l1 HR Hv Hb R0
    | q0 r0 qt0 lit rec s HR Hq0 Hv R0 | r0 n0 b0 s HR R0 | r0 n0 b0 s HR R0 | r0 tt rec s HR R0 | r0 tt rec s HR Hv R0
    | sy s Hop M HLg HE _ _ _ _ HB | d s e0 M He HN ]; try discriminate; try reflexivity; injection Ho as ->.
  - apply istr_type in R0 as (w & k & p2 & es2 & [R0|[R0 _]]); discriminate R0.
  - apply istr_type in R0 as (w & k & p2 & es2 & [R0|[R0 _]]); discriminate R0.
Qed.

Lemma stream_nested c l rs : has_luau c = true -> stream c l rs -> nested (stack l) (tokens_of rs).
Proof.
  intros HL. induction 1 as [l E|l r l' rs E S IH]; [constructor|].
  pose proof (process_next_with_trivia_spec c l) as RS. rewrite E in RS.
  inversion RS as [|l0 ts es l1 e l2 P F R|l0 ld es l1 t0 es1 l3 tr0 l4 r0 P1 F P2 Nt P3 T1 T2 ER]; subst.
  - change (tokens_of (LFatal e :: rs)) with (tokens_of rs). unfold stack in *.
    rewrite <- (trivias_stack _ _ _ _ _ HL P F), <- (fatal_stack _ _ _ _ R). exact IH.
  - replace (tokens_of (lexres_new (mkRef ld t0 tr0) (es ++ es1) :: rs)) with (ld ++ [t0] ++ tr0 ++ tokens_of rs).
    + eapply psteps_nested; [exact HL|exact P1|]. cbn [app]. eapply pstep_nested; [exact HL|exact P2|]. eapply psteps_nested; eauto.
    + unfold tokens_of, refs_of. destruct (es ++ es1); cbn [lexres_new flat_map ref_of app]; unfold ref_tokens at 2; cbn [r_leading r_token r_trailing];
      rewrite <- !app_assoc; reflexivity.
Qed.

(** Trivia with an error is an unclosed comment, which reaches the end. *)
Lemma trivia_error_end c l t es l' : pstep c l t es l' -> is_trivia (t_type t) = true -> es <> [] -> s_rest (l_src l') = [].
Proof.
  intros P T N. apply pstep_case in P as [_ PC]. remember (t_type t) as tt. destruct PC; try contradiction; try discriminate T; assumption.
Qed.

Lemma psteps_end c l ts es l' : psteps c l ts es l' -> Forall (fun t => is_trivia (t_type t) = true) ts -> es <> [] -> s_rest (l_src l') = [].
Proof.
  induction 1 as [|l t es l1 ts es' l' P PS IH]; intros F N; [contradiction|]. inversion F as [|x y F1 F2]; subst.
  destruct es' as [|e es'].
  - rewrite app_nil_r in N. assert (E := trivia_error_end _ _ _ _ _ P F1 N). apply psteps_moved in PS as (u & [M _]). rewrite E in M.
    symmetry in M. now apply app_eq_nil in M.
  - apply IH; [exact F2|discriminate].
Qed.

Lemma end_token c l t es l' : pstep c l t es l' -> s_rest (l_src l) = [] -> l_braces l' = l_braces l.
Proof.
  intros P E. assert (Hp : exists r, process_next c l = Done (Some r, l')) by (destruct P as [[P _]|[P _]]; eauto).
  destruct Hp as (r & Hp). unfold process_next, src_next in Hp. rewrite E in Hp. destruct (l_sent_eof l); [discriminate|]. injection Hp as _ <-. reflexivity.
Qed.

Lemma bad_token_stack c l t es l' : has_luau c = true -> pstep c l t es l' -> es <> [] -> l_braces l = [] -> l_braces l' = [].
Proof.
  intros HL P N Hb0. step_case P HC. remember (Some r) as o eqn:Ho.
  destruct HC as [ | He Hs | next w0 s Hid M F Hd | next w0 s Hn M T0 Z | s M | d r0 res s HR Hx R0 | d r0 res s HR Hx Hv R0
    | d r0 res s HR Hx Hv R0 | d r0 res s HR Hx R0 | r0 res l1 HR Hv R0 | r0 bs res l1 HR Hv Hb R0
    | q0 r0 qt0 lit rec s HR Hq0 Hv R0 | r0 n0 b0 s HR R0 | r0 n0 b0 s HR R0 | r0 tt rec s HR R0 | r0 tt rec s HR Hv R0
    | sy s Hop M HLg HE _ _ _ _ HB | d s e M He HN ]; try discriminate; try exact Hb0; injection Ho as <-.
  - unfold read_interpolated_string_section in R0. destruct (read_istr _ _ _ _ _ _) as [[chars [[|]|]] s] eqn:RI; injection R0 as <- <-; try exact Hb0.
    apply yields_ok in Hy as [_ ->]. contradiction.
  - congruence.
  - apply yields_ok in Hy as [_ ->]. contradiction.
Qed.

Lemma not_ok_stack c l r l' : has_luau c = true -> l_braces l = [] -> process_next_with_trivia c l = Done (Some r, l') -> (forall x, r <> LOk x) ->
  l_braces l' = [].
Proof.
  intros HL Hb E N. pose proof (process_next_with_trivia_spec c l) as RS. rewrite E in RS.
  inversion RS as [|l0 ts es l1 e l2 P F R|l0 ld es l1 t0 es1 l3 tr0 l4 r0 P1 F P2 Nt P3 T1 T2 ER]; subst.
  - rewrite (fatal_stack _ _ _ _ R), (trivias_stack _ _ _ _ _ HL P F). exact Hb.
  - assert (B1 := trivias_stack _ _ _ _ _ HL P1 F). rewrite Hb in B1.
    assert (F3 : Forall (fun t => is_trivia (t_type t) = true) tr0) by apply T1.
    rewrite (trivias_stack _ _ _ _ _ HL P3 F3).
    destruct es1 as [|e1 es1].
    + destruct es as [|e es]; [exfalso; eapply N; reflexivity|].
      rewrite (end_token _ _ _ _ _ P2); [exact B1|]. eapply psteps_end; [exact P1|exact F|discriminate].
    + eapply bad_token_stack; [exact HL|exact P2|discriminate|exact B1].
Qed.

Lemma sections_nested c source rs : tokenize c source = Done rs -> has_luau c = true -> nested [] (tokens_of rs).
Proof.
  intros H HL. apply tokenize_done in H.
  destruct H as [rs' NS S|line s sb r rs' SB M F HN -> Nl S|line s r rs' SB M F HN Nl S NO].
  - apply (stream_nested _ _ _ HL) in S. exact S.
  - apply (stream_nested _ _ _ HL) in S.
    change (tokens_of (LOk (add_shebang (mkToken pos0 (s_pos s) (TShebang line)) r) :: rs')) with
      (mkToken pos0 (s_pos s) (TShebang line) :: tokens_of (LOk r :: rs')).
    apply ne_other; try (intros; discriminate). exact S.
  - apply stream_next in S as (l' & E & S). assert (B : l_braces l' = []) by (refine (not_ok_stack _ _ _ _ HL _ E NO); reflexivity).
    apply (stream_nested _ _ _ HL) in S. unfold stack in S. rewrite B in S. exact S.
Qed.

(** ** The remaining statements of PropertiesLexer4.v *)

Lemma manual_accepted c q qt b : quote_char qt = Some q -> quoted_body c q false b -> accepted_body c q false b.
Proof.
  intros Hq B. apply quoted_accepted; [| | |exact B]; destruct qt; try discriminate; injection Hq as <-;
  try discriminate; try reflexivity; intros [|]; discriminate.
Qed.

Lemma plain_section b : loose_section b -> ~ In 92 b -> ~ In 96 b /\ ~ In 123 b.
Proof.
  induction 1 as [|x t N1 N2 N3 L IH|zs x t Z X U L IH|t N L IH|w t N L IH]; intros Nb; try (exfalso; apply Nb; now left).
  - split; intros [].
  - destruct IH as [I1 I2]; [intros Hi; apply Nb; now right|]. split; (intros [->|Hi]; [congruence|contradiction]).
Qed.

Lemma line_end_rejected : exists b rs e, quoted_body cfg_lua51 34 true b /\
  tokenize cfg_lua51 (34 :: b ++ [34]) = Done rs /\ In e (all_errors rs) /\ te_error e = UnclosedString.
Proof.
  exists [92; 13; 10]. eexists. eexists. split; [apply qb_line_end; [left; auto|now left|constructor]|].
  split; [vm_compute; reflexivity|]. split; [vm_compute; left; reflexivity|reflexivity].
Qed.

Lemma z_rejected : exists b rs e, quoted_body cfg_lua54 34 true b /\
  tokenize cfg_lua54 (34 :: b ++ [34]) = Done rs /\ In e (all_errors rs) /\ te_error e = UnclosedString.
Proof.
  exists [92; 122; 13; 10]. eexists. eexists. split; [apply (qb_z cfg_lua54 34 true [13; 10] []); [reflexivity|reflexivity|now left|constructor]|].
  split; [vm_compute; reflexivity|]. split; [vm_compute; left; reflexivity|reflexivity].
Qed.

Lemma section_z_rejected : exists b rs e, section_body true b /\
  tokenize cfg_luau (96 :: b ++ [96]) = Done rs /\ In e (all_errors rs) /\ te_error e = UnclosedString.
Proof.
  exists [92; 122]. eexists. eexists. split; [apply (se_z true [] []); [reflexivity|now left|constructor]|].
  split; [vm_compute; reflexivity|]. split; [vm_compute; left; reflexivity|reflexivity].
Qed.

Lemma hole_swallowed : exists rs t, tokenize cfg_luau (str "`\u{} {x}`") = Done rs /\ clean rs /\ In t (tokens_of rs) /\
  t_type t = TInterpolatedString (str "\u{} {x}") ISimple /\ ~ section_body true (str "\u{} {x}").
Proof.
  eexists. eexists. split; [vm_compute; reflexivity|]. split; [repeat constructor; eexists; reflexivity|].
  split; [vm_compute; left; reflexivity|]. split; [reflexivity|].
  assert (U : forall t, section_body true (92 :: 117 :: 123 :: 125 :: t) -> False); [|exact (U _)].
  intros t H. inversion H as [|x y P S|x y N1 N2 S|x y z N S|w y N F S E|w y W K S]; subst.
  - destruct P as (_ & _ & P & _). contradiction.
  - contradiction.
  - destruct N as [[N _]|[N _]]; discriminate N.
  - destruct w as [|h w]; [contradiction|]. cbn [app] in E. injection E as -> _. discriminate F.
Qed.
