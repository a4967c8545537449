(** C53: references are determined by their tokens and the rule for trivia; trees of the tree grammar printed and parsed. Proofs. *)
From Verif Require Import LexerSpec PunctuatedProofs TokenSpec PrintProofs.
From Verif Require Import ParserTop ParserTheorems ParserAccept Lexer LexerStep LexerStream LexerProofs LexerTheorems LexerTheorems2 LexerTheorems3 TreeFacts ParserComplete4 Round13 Layout4 Scan5 ReprintSpec.
From Coq Require Import Lia.
Local Open Scope nat_scope.
Import ListNotations.

Lemma trivial_is t : trivial t <-> is_trivia t = true.
Proof. destruct t; cbn; split; intros H; try easy; now destruct H. Qed.

(** ** The lexer follows the rule *)
Lemma collect_no_c c fuel : forall l ts l', collect_trailing_trivia fuel c l = Done (ts, l') -> forall t, In t ts -> ~ c_comment (t_type t).
Proof.
  induction fuel as [|fuel IH]; intros l ts l' H t I; [discriminate|]. cbn [collect_trailing_trivia] in H. unfold src_current in H.
  destruct (s_rest (l_src l)) as [|x r] eqn:HR; [injection H as <- _; destruct I|]. destruct (starts_trivia x) eqn:Hx; [|injection H as <- _; destruct I].
  destruct (process_next c l) as [[[[t0| |]|] l1]| |] eqn:HP; try discriminate H; try (injection H as <- _; destruct I).
  assert (N : ~ c_comment (t_type t0)).
  { intros (w & Ew). destruct (process_next_ok _ _ _ _ HP) as ([M _] & _). unfold show_token in M. rewrite Ew, HR in M. injection M as -> _. discriminate Hx. }
  destruct (is_trivia (t_type t0)); [|injection H as <- _; destruct I].
  destruct (match t_type t0 with TWhitespace characters => existsb (N.eqb c_nl) characters | _ => false end).
  - injection H as <- _. destruct I as [<-|[]]. exact N.
  - destruct (collect_trailing_trivia fuel c l1) as [[rest l2]| |] eqn:HC; try discriminate. injection H as <- _. destruct I as [<-|I]; [exact N|eauto].
Qed.
Lemma next_no_c c l r l' : process_next_with_trivia c l = Done (Some (LOk r), l') -> forall t, In t (r_trailing r) -> ~ c_comment (t_type t).
Proof.
  unfold process_next_with_trivia. destruct (leading_loop _ _ _ _ _) as [[[| |t0 ld es] l1]| |]; try discriminate.
  destruct (collect_trailing_trivia _ _ _) as [[tr l2]| |] eqn:HC; try discriminate. destruct es; [discriminate|]. intros H. injection H as <- _. cbn [r_trailing]. eapply collect_no_c. eassumption.
Qed.
Lemma stream_no_c c l rs : stream c l rs -> forall r, In (LOk r) rs -> forall t, In t (r_trailing r) -> ~ c_comment (t_type t).
Proof. induction 1 as [l E|l r0 l' rs E S IH]; intros r []; [subst r0; eapply next_no_c; eassumption|now apply IH]. Qed.
Lemma lexer_no_c c source rs r : tokenize c source = Done rs -> In (LOk r) rs -> forall t, In t (r_trailing r) -> ~ c_comment (t_type t).
Proof.
  intros H I. apply tokenize_done in H. destruct H as [rs NS S|line s sb r0 rs SB M F HN -> Nl S|line s r0 rs SB M F HN Nl S NO].
  - eapply stream_no_c; eauto.
  - destruct I as [I|I]; [|eapply stream_no_c; [exact S|now right]]. injection I as <-. cbn [r_trailing add_shebang]. eapply stream_no_c; [exact S|now left].
  - apply stream_next in S as (l' & _ & S). eapply stream_no_c; eauto.
Qed.
Lemma lexer_attached c source rs : tokenize c source = Done (map LOk rs) -> Forall proper rs /\ attached (fun _ => True) rs.
Proof.
  intros H. assert (RR := refs_of_oks rs). assert (A : forall r, In r rs -> _) by (intros r I; refine (trivia_attachment c source _ r H _); now rewrite RR). split; [|split].
  - apply Forall_forall. intros r I. destruct (A r I) as (A1 & A2 & _). split; [rewrite trivial_is; congruence|]. rewrite Forall_forall in A2. intros t It. apply trivial_is. now apply A2.
  - intros r I _. destruct (A r I) as (_ & _ & A3). split.
    + intros a t b E (w & Ew & Iw). eapply A3; eauto.
    + eapply lexer_no_c; [exact H|]. now apply in_map.
  - intros a r r' b E _ t l El. subst rs. rewrite map_app in H. cbn [map] in H.
    destruct (trailing_maximal c source _ (map LOk a) (LOk r) r r' t l (map LOk b) H eq_refl eq_refl El) as [(a0 & n & w & E1 & E2 & E3)|(w & Ew)]; [right; exists a0, n; split; [assumption|exists w; auto]|left; now exists w].
Qed.

(** ** References with the same tokens *)
Lemma trivia_prefix (u u' : list token_type) m m' v v' : Forall trivial u -> Forall trivial u' -> ~ trivial m -> ~ trivial m' -> u ++ m :: v = u' ++ m' :: v' -> u = u' /\ m = m' /\ v = v'.
Proof.
  revert u'. induction u as [|x u IH]; intros u' F F' N N' E; destruct u' as [|x' u']; cbn in E; injection E as E0 E.
  - subst. auto.
  - subst. now inversion F'.
  - subst. now inversion F.
  - subst x'. inversion F; inversion F'; subst. destruct (IH u') as (-> & -> & ->); auto.
Qed.
Definition leads (r : tokref) := map t_type (r_leading r).
Definition ends (r : tokref) := map t_type (r_trailing r).
Lemma types_cons r rs : types_of (r :: rs) = leads r ++ t_type (r_token r) :: ends r ++ types_of rs.
Proof. unfold types_of, leads, ends. cbn [flat_map]. unfold ref_tokens. rewrite map_app, map_app. cbn [map]. now rewrite <- app_assoc. Qed.
Lemma proper_leads r : proper r -> Forall trivial (leads r) /\ Forall trivial (ends r).
Proof.
  intros [_ P]. split; apply Forall_forall; intros x I; apply in_map_iff in I as (t & <- & I); apply P, in_app_iff; auto.
Qed.
(** Where a run of trivia is cut. *)
Definition cut (tr ld : list token_type) : Prop :=
  (forall a t b, tr = a ++ t :: b -> new_line t -> b = []) /\ Forall (fun t => ~ c_comment t) tr /\
  forall t l, ld = t :: l -> c_comment t \/ exists a n, tr = a ++ [n] /\ new_line n.
Lemma cut_le tr ld tr' ld' : cut tr ld -> cut tr' ld' -> tr ++ ld = tr' ++ ld' -> (List.length tr < List.length tr')%nat -> False.
Proof.
  intros (_ & _ & K3) (K1 & K2 & _) E L.
  assert (exists t q, tr' = tr ++ t :: q /\ exists ld0, ld = t :: ld0) as (t & q & -> & ld0 & ->).
  { clear -E L. revert tr' E L. induction tr as [|x tr IH]; intros tr' E L; destruct tr' as [|x' tr']; cbn in *; try lia.
    - destruct ld as [|t ld]; [discriminate|]. injection E as -> E. exists x', tr'. split; [reflexivity|eauto].
    - injection E as <- E. destruct (IH tr' E) as (t & q & -> & X); [lia|]. exists t, q. auto. }
  destruct (K3 t ld0 eq_refl) as [C|(a & n & -> & Nl)].
  - rewrite Forall_forall in K2. apply (K2 t); [apply in_app_iff; right; now left|exact C].
  - rewrite <- app_assoc in K1. specialize (K1 a n (t :: q) eq_refl Nl). discriminate.
Qed.
Lemma cut_unique tr ld tr' ld' : cut tr ld -> cut tr' ld' -> tr ++ ld = tr' ++ ld' -> tr = tr'.
Proof.
  intros K K' E. destruct (Nat.lt_trichotomy (List.length tr) (List.length tr')) as [L|[L|L]].
  - now destruct (cut_le tr ld tr' ld').
  - clear K K'. revert tr' E L. induction tr as [|x tr IH]; intros [|x' tr'] E L; cbn in *; try lia; [reflexivity|]. injection E as <- E. f_equal. apply IH; [assumption|lia].
  - now destruct (cut_le tr' ld' tr ld).
Qed.
Lemma split_map {A B} (f : A -> B) l a b : map f l = a ++ b -> exists a0 b0, l = a0 ++ b0 /\ map f a0 = a /\ map f b0 = b.
Proof. intros E. exists (firstn (List.length a) l), (skipn (List.length a) l). rewrite firstn_skipn, <- firstn_map, <- skipn_map, E, firstn_app, skipn_app, Nat.sub_diag, firstn_all, skipn_all, firstn_O, app_nil_r. auto. Qed.
Lemma trails_cut r ld : trails r -> (forall t l, ld = t :: l -> c_comment t \/ exists a n, ends r = a ++ [n] /\ new_line n) -> cut (ends r) ld.
Proof.
  intros [T1 T2] F. split; [|split; [|exact F]].
  - intros a t b E Nl. unfold ends in E. apply split_map in E as (a0 & b0 & E & <- & Eb). destruct b0 as [|t0 b0]; [discriminate|]. cbn in Eb. injection Eb as <- <-. now rewrite (T1 a0 t0 b0 E Nl).
  - apply Forall_forall. intros x I. apply in_map_iff in I as (t & <- & I). now apply T2.
Qed.
Lemma follows_cut r r' : trails r -> follows r r' -> cut (ends r) (leads r').
Proof.
  intros T F. apply trails_cut; [exact T|]. intros t l E. unfold leads in E. destruct (r_leading r') as [|t0 l0] eqn:E0; [discriminate|]. cbn in E. injection E as <- <-.
  destruct (F t0 l0 E0) as [C|(a & n & E & Nl)]; [now left|]. right. exists (map t_type a), (t_type n). unfold ends. rewrite E, map_app. auto.
Qed.
Lemma nil_cut r : trails r -> cut (ends r) [].
Proof. intros T. apply trails_cut; [exact T|]. intros t l E. discriminate. Qed.
Lemma attached_tail (P : tokref -> Prop) r rs : attached P (r :: rs) -> attached P rs.
Proof. intros [A B]. split; [intros x I; apply A; now right|]. intros a x x' b ->. apply (B (r :: a) x x' b eq_refl). Qed.
Lemma attached_cut (P : tokref -> Prop) r rs : attached P (r :: rs) -> P r -> cut (ends r) (match rs with r' :: _ => leads r' | [] => [] end).
Proof.
  intros [A B] Pr. assert (T : trails r) by (apply A; [now left|exact Pr]). destruct rs as [|r' rs]; [now apply nil_cut|].
  apply follows_cut; [exact T|]. now apply (B [] r r' rs).
Qed.
(** [P]: the references whose trailing trivia is compared. *)
Definition agree (P : tokref -> Prop) (r r' : tokref) : Prop := same_token r r' /\ (P r -> ends r = ends r').
Lemma align (P : tokref -> Prop) rs : forall rs' u u', Forall proper rs -> Forall proper rs' -> Forall trivial u -> Forall trivial u' ->
  attached P rs -> attached (fun _ => True) rs' -> u ++ types_of rs = u' ++ types_of rs' -> Forall2 (agree P) rs rs' /\ u ++ match rs with r :: _ => leads r | [] => [] end = u' ++ match rs' with r :: _ => leads r | [] => [] end.
Proof.
  induction rs as [|r rs IH]; intros rs' u u' F F' U U' A A' E.
  - destruct rs' as [|r' rs']; [split; [constructor|exact E]|]. exfalso. rewrite types_cons in E. cbn in E. rewrite app_nil_r in E.
    inversion F' as [|? ? [N' _] _]; subst. apply N'. apply Forall_app in U as [_ U]. apply Forall_app in U as [_ U]. now inversion U.
  - destruct rs' as [|r' rs'].
    { exfalso. rewrite types_cons in E. cbn in E. rewrite app_nil_r in E. inversion F as [|? ? [N _] _]; subst. apply N.
      apply Forall_app in U' as [_ U']. apply Forall_app in U' as [_ U']. now inversion U'. }
    rewrite !types_cons, !app_assoc in E. inversion F as [|? ? Pr Fr]; subst. inversion F' as [|? ? Pr' Fr']; subst.
    destruct (proper_leads r Pr) as [L1 L2], (proper_leads r' Pr') as [L1' L2']. destruct Pr as [N _], Pr' as [N' _].
    apply trivia_prefix in E as (E1 & E2 & E3); auto using Forall_app. 2, 3: apply Forall_app; auto.
    destruct (IH rs' (ends r) (ends r') Fr Fr' L2 L2' (attached_tail _ _ _ A) (attached_tail _ _ _ A') E3) as (H1 & H2).
    split; [|exact E1]. constructor; [|exact H1]. split; [exact E2|]. intros Pp. eapply cut_unique; [apply (attached_cut _ _ _ A Pp)|apply (attached_cut _ _ _ A' I)|exact H2].
Qed.
Lemma align_all rs : forall rs', Forall proper rs -> Forall proper rs' -> types_of rs = types_of rs' -> Forall2 (agree (fun _ => True)) rs rs' -> Forall2 same_with_trivia rs rs'.
Proof.
  intros rs' F F' E H. induction H as [|r r' rs rs' [H1 H2] H IH]; [constructor|].
  rewrite !types_cons in E. inversion F as [|? ? Pr Fr]; subst. inversion F' as [|? ? Pr' Fr']; subst.
  destruct (proper_leads r Pr) as [L1 _], (proper_leads r' Pr') as [L1' _]. destruct Pr as [N _], Pr' as [N' _].
  apply trivia_prefix in E as (E1 & E2 & E3); auto. specialize (H2 I). rewrite H2 in E3. apply app_inv_head in E3. constructor; [repeat split; assumption|auto].
Qed.

(** ** Printing and parsing *)
Lemma written_types rs : written (types_of rs) = flat_map show_ref rs.
Proof.
  unfold written, types_of. induction rs as [|r rs IH]; [reflexivity|]. cbn [flat_map]. rewrite map_app, flat_map_app, IH. f_equal.
  unfold ref_tokens, show_ref. rewrite map_app, flat_map_app. cbn [map flat_map]. 
  assert (M : forall l, flat_map spelling (map t_type l) = flat_map show_token l) by (induction l as [|t l IHl]; [reflexivity|]; cbn; rewrite IHl; unfold show_token; now rewrite spelling_show).
  rewrite !M, spelling_show. reflexivity.
Qed.
Lemma agree_same c (P : tokref -> Prop) (HP : forall r, part_of_string r -> P r) r r' : agree P r r' -> same_ref c r r'.
Proof.
  intros [H1 H2]. split.
  - unfold same_token in H1. rewrite H1. apply same_ref_refl.
  - intros w k E. assert (Q : ends r = ends r') by (apply H2, HP; now exists w, k). unfold ends in Q. destruct (r_trailing r), (r_trailing r'); cbn in Q; split; intros X; congruence.
Qed.
Lemma agree_refl P r : agree P r r.
Proof. now split. Qed.
Lemma last_types rs e l : proper e -> types_of (rs ++ [e]) = l ++ [TEof] -> is_eof e = true.
Proof.
  intros [N Tv] E. unfold types_of in E. rewrite flat_map_app, map_app in E. cbn [flat_map] in E. rewrite app_nil_r in E. unfold ref_tokens in E. rewrite map_app, app_assoc in E. cbn [map] in E.
  unfold is_eof. destruct (r_trailing e) as [|t0 tr0] eqn:Et.
  - apply app_inj_tail in E as [_ ->]. reflexivity.
  - exfalso. destruct (exists_last (l := t0 :: tr0)) as (l1 & x & El); [discriminate|]. rewrite El in E, Et. cbn [map] in E. rewrite map_app in E. cbn [map] in E.
    assert (X : trivial (t_type x)) by (apply Tv; rewrite ?Et, ?El, !in_app_iff; right; right; now left).
    change (t_type (r_token e) :: map t_type l1 ++ [t_type x]) with ((t_type (r_token e) :: map t_type l1) ++ [t_type x]) in E. rewrite app_assoc in E. apply app_inj_tail in E as [_ E]. now rewrite E in X.
Qed.
Lemma file_ends c ts s : file c ts s -> exists l, ts = l ++ [TEof].
Proof. intros F. inversion F; subst; [eauto|]. exists (TShebang (str "#!" ++ w) :: ts0). reflexivity. Qed.
Lemma clean_oks rs : clean rs -> exists ts, rs = map LOk ts.
Proof. induction 1 as [|r rs (t & ->) _ (ts & ->)]; [now exists []|]. now exists (t :: ts). Qed.
Lemma agrees_same_result (c : tie) rs rs' : Forall2 (tied c) rs rs' -> Forall2 (same_result (tied c)) (map LOk rs) (map LOk rs').
Proof. induction 1; constructor; [now constructor|assumption]. Qed.
Lemma lexed_as P c t e : cfg_ok c -> Forall proper (printed t ++ [e]) -> attached P (printed t ++ [e]) ->
  file c (types_of (printed t ++ [e])) (display_ast (mkAst t e)) ->
  exists rs, tokenize c (display_ast (mkAst t e)) = Done (map LOk rs) /\ shebang_kept (display_ast (mkAst t e)) (map LOk rs) /\ types_of rs = types_of (printed t ++ [e]) /\ Forall proper rs /\ Forall2 (agree P) (printed t ++ [e]) rs /\ is_eof e = true.
Proof.
  intros C F A Fi. destruct (file_ends _ _ _ Fi) as (l & El). assert (Ee : is_eof e = true).
  { eapply last_types; [|exact El]. rewrite Forall_forall in F. apply F, in_app_iff. right. now left. }
  apply file_exact in Fi as (rs0 & T & Cl & K & M); [|exact C]. destruct (clean_oks _ Cl) as (rs & ->). unfold tokens_of in M. rewrite refs_of_oks in M. fold (types_of rs) in M.
  destruct (lexer_attached _ _ _ T) as (F' & A'). destruct (align P _ rs [] [] F F') as (G & _); auto. exists rs. auto 10.
Qed.
Lemma parsed_by (c : tie) source t e rs : cfg_ok c -> block c t -> is_eof e = true -> tokenize c source = Done (map LOk rs) -> Forall2 (tied c) (printed t ++ [e]) rs ->
  exists t' e', parse c source = Done (inl (mkAst t' e')) /\ alike (tied c) t t' /\ tied c e e'.
Proof.
  intros C B Ee T G.
  pose proof (tw_parse_stream c (mkState (map LOk (printed t ++ [e])) []) (mkState (map LOk rs) [])) as X.
  pose proof (run_stream c t e B Ee []) as R. unfold at_toks in R. pose proof (parsing_terminates c source C) as Tm.
  unfold parse, parse_fallible in Tm |- *. rewrite lex_all_tokenize, T in *.
  assert (Sx : state_twin c (mkState (map LOk (printed t ++ [e])) []) (mkState (map LOk rs) [])) by (split; [now apply agrees_same_result|constructor]).
  specialize (X Sx). destruct (parse_stream c (mkState (map LOk (printed t ++ [e])) [])) as [[a s]| |]; [|contradiction|].
  - destruct (parse_stream c (mkState (map LOk rs) [])) as [[[t' e'] s']| |]; try contradiction. destruct R as (ts' & Es & -> & _). destruct X as (X1 & X2 & X3). cbn [fst snd] in *.
    rewrite Es in X3. cbn in X3. inversion X3 as [Q H|]. inversion X1 as [? ? H3 ? ? H5]; subst.
    exists t', e'. unfold into_result. cbn [ar_errors ar_ast]. auto.
  - destruct (parse_stream c (mkState (map LOk rs) [])) as [[[t' e'] s']| |]; try contradiction. now destruct Tm.
Qed.
Lemma alike_impl (R Q : tokref -> tokref -> Prop) : (forall r r', R r r' -> Q r r') -> forall t t', alike R t t' -> alike Q t t'.
Proof.
  intros I. fix IH 3. intros t t' [r r' H|k cs cs' H|k cs cs' H]; constructor; auto.
  - induction H; constructor; auto.
  - induction H; constructor; auto.
Qed.
(** The printed tokens of two such trees correspond. *)
Fixpoint extent (t : tree) : nat := match t with Tok _ => 1 | Con _ cs | Nd _ cs => S (list_sum (map extent cs)) end.
Lemma extent_sub t x : In x (subs t) -> extent x < extent t.
Proof.
  assert (G : forall cs, In x cs -> extent x <= list_sum (map extent cs)) by (induction cs as [|y cs IH]; [intros []|]; intros [E|E]; change (list_sum (map extent (y :: cs))) with (extent y + list_sum (map extent cs)); [subst; lia|specialize (IH E); lia]).
  destruct t; cbn [subs extent]; intros I; [easy| |]; apply G in I; lia.
Qed.
Lemma alike_subs R t t' : alike R t t' -> Forall2 (alike R) (subs t) (subs t').
Proof. intros [r r' H|k cs cs' H|k cs cs' H]; cbn; auto. Qed.
Lemma forall2_nth {A B} (R : A -> B -> Prop) l l' : Forall2 R l l' -> forall n, match nth_error l n, nth_error l' n with Some x, Some y => R x y | None, None => True | _, _ => False end.
Proof. induction 1; intros [|n]; cbn; auto. apply IHForall2. Qed.
Lemma forall2_flat {A B} (R : A -> B -> Prop) {X} (f : X -> list A) (g : X -> list B) l : (forall x, Forall2 R (f x) (g x)) -> Forall2 R (flat_map f l) (flat_map g l).
Proof. intros H. induction l; cbn; [constructor|]. now apply Forall2_app. Qed.
Lemma at_alike R f n m cs cs' : (forall x y, extent x < m -> alike R x y -> Forall2 R (f x) (f y)) -> Forall (fun x => extent x < m) cs -> Forall2 (alike R) cs cs' -> Forall2 R (at_ f n cs) (at_ f n cs').
Proof.
  intros H B G. unfold at_. pose proof (forall2_nth _ _ _ G n) as Q. destruct (nth_error cs n) eqn:E, (nth_error cs' n); try contradiction; [|constructor].
  apply H; [|exact Q]. rewrite Forall_forall in B. apply B. eapply nth_error_In. eassumption.
Qed.
Lemma subs_small m t : extent t < m -> Forall (fun x => extent x < m) (subs t).
Proof. intros L. apply Forall_forall. intros x I. apply extent_sub in I. lia. Qed.
Lemma subs_at_alike R n m cs cs' : Forall (fun x => extent x < m) cs -> Forall2 (alike R) cs cs' -> Forall (fun x => extent x < m) (subs_at n cs) /\ Forall2 (alike R) (subs_at n cs) (subs_at n cs').
Proof.
  intros B G. unfold subs_at. pose proof (forall2_nth _ _ _ G n) as Q. destruct (nth_error cs n) eqn:E, (nth_error cs' n); try contradiction; [|split; constructor].
  split; [|now apply alike_subs]. apply subs_small. rewrite Forall_forall in B. apply B. eapply nth_error_In. eassumption.
Qed.
Lemma zip_alike R f p m : (forall x y, extent x < m -> alike R x y -> Forall2 R (f x) (f y)) -> forall l l', Forall2 (alike R) l l' -> Forall (fun x => extent x < m) l ->
  forall vs vs', Forall2 (fun v v' => Forall (fun x => extent x < m) v /\ Forall2 (alike R) v v') vs vs' -> Forall2 R (zip_pick f p l vs) (zip_pick f p l' vs').
Proof.
  intros H. induction 1 as [|x x' l l' Hx Hl IH]; intros B vs vs' V; [constructor|]. inversion B as [|? ? B1 B2]; subst. cbn [zip_pick].
  repeat apply Forall2_app.
  - eapply at_alike; [exact H|now apply subs_small|now apply alike_subs].
  - clear -V H. induction V as [|v v' vs vs' [V1 V2] V IH]; cbn; [constructor|]. apply Forall2_app; [|exact IH]. eapply at_alike; eauto.
  - destruct p; [|constructor]. eapply at_alike; [exact H|now apply subs_small|now apply alike_subs].
  - apply IH; [exact B2|]. clear -V. induction V as [|v v' vs vs' [V1 V2] V IH]; cbn; constructor; [|exact IH]. destruct V2; cbn; [auto|]. inversion V1; auto.
Qed.
Lemma pick_alike R f m cs cs' o : (forall x y, extent x < m -> alike R x y -> Forall2 R (f x) (f y)) -> Forall (fun x => extent x < m) cs -> Forall2 (alike R) cs cs' -> Forall2 R (pick f cs o) (pick f cs' o).
Proof.
  intros H B G. destruct o as [n|n|n|n ms p]; cbn [pick].
  - eapply at_alike; eauto.
  - destruct (subs_at_alike R n m cs cs' B G). eapply at_alike; eauto.
  - destruct (subs_at_alike R n m cs cs' B G). eapply at_alike; eauto.
  - destruct (subs_at_alike R n m cs cs' B G). eapply zip_alike; eauto. induction ms as [|i ms IH]; cbn; constructor; [now apply subs_at_alike|exact IH].
Qed.
Lemma alike_leaves R o : forall m t t', extent t < m -> alike R t t' -> Forall2 R (leaves_by o t) (leaves_by o t').
Proof.
  induction m as [|m IH]; intros t t' L A; [lia|]. assert (Sm : Forall (fun x => extent x < m) (subs t)) by (apply Forall_forall; intros x I; apply extent_sub in I; lia).
  destruct A as [r r' H|k cs cs' H|k cs cs' H]; cbn [subs] in Sm.
  - rewrite !leaves_by_tok. now repeat constructor.
  - rewrite !leaves_by_con. clear L. induction H; cbn; [constructor|]. inversion Sm; subst. apply Forall2_app; auto.
  - rewrite !leaves_by_nd. apply forall2_flat. intros x. eapply pick_alike; eauto.
Qed.
Lemma alike_printed R t t' : alike R t t' -> Forall2 R (printed t) (printed t').
Proof. apply (alike_leaves R display_order (S (extent t))). lia. Qed.

(** *** Statements *)
Lemma strings_agree r r' : agree part_of_string r r' -> same_token r r'.
Proof. now intros []. Qed.
Lemma print_parse c t e : cfg_ok c -> block c t -> Forall proper (printed t ++ [e]) -> attached part_of_string (printed t ++ [e]) ->
  file c (types_of (printed t ++ [e])) (display_ast (mkAst t e)) ->
  exists t' e', parse c (display_ast (mkAst t e)) = Done (inl (mkAst t' e')) /\ alike same_token t t' /\ same_token e e'.
Proof.
  intros C B F A Fi. destruct (lexed_as _ _ _ _ C F A Fi) as (rs & T & _ & _ & _ & G & Ee).
  destruct (parsed_by (mkTie c (agree part_of_string) (agree_same c part_of_string (fun r H => H)) (fun r _ => agree_refl part_of_string r)) _ t e rs C B Ee T G) as (t' & e' & P & Al & Q).
  exists t', e'. split; [exact P|]. split; [eapply alike_impl; [apply strings_agree|exact Al]|now apply strings_agree].
Qed.
Lemma with_trivia_same c r r' : same_with_trivia r r' -> same_ref c r r'.
Proof.
  intros (H1 & H2 & H3). apply (agree_same c (fun _ => True)); [auto|]. split; auto.
Qed.
Lemma show_same r r' : same_with_trivia r r' -> show_ref r = show_ref r'.
Proof.
  intros (H1 & H2 & H3). unfold show_ref. 
  assert (M : forall l l', map t_type l = map t_type l' -> flat_map show_token l = flat_map show_token l').
  { induction l as [|t l IH]; intros [|t' l'] E; try discriminate; [reflexivity|]. cbn in E. injection E as E1 E2. cbn. unfold show_token at 1 3. rewrite E1. f_equal. auto. }
  rewrite (M _ _ H2), (M _ _ H3). unfold show_token. now rewrite H1.
Qed.
Lemma print_parse_trivia c t e : cfg_ok c -> block c t -> Forall proper (printed t ++ [e]) -> attached (fun _ => True) (printed t ++ [e]) ->
  file c (types_of (printed t ++ [e])) (display_ast (mkAst t e)) ->
  exists t' e', parse c (display_ast (mkAst t e)) = Done (inl (mkAst t' e')) /\ alike same_with_trivia t t' /\ same_with_trivia e e' /\
    display_ast (mkAst t' e') = display_ast (mkAst t e).
Proof.
  intros C B F A Fi. destruct (lexed_as _ _ _ _ C F A Fi) as (rs & T & _ & Ty & F' & G & Ee). apply align_all in G; auto.
  destruct (parsed_by (mkTie c same_with_trivia (with_trivia_same c) (fun r _ => conj eq_refl (conj eq_refl eq_refl))) _ t e rs C B Ee T G) as (t' & e' & P & Al & Q).
  exists t', e'. split; [exact P|]. split; [exact Al|]. split; [exact Q|]. unfold display_ast, display. cbn [a_nodes a_eof]. rewrite (show_same _ _ Q). f_equal.
  apply alike_printed in Al. clear -Al. induction Al; [reflexivity|]. cbn [flat_map]. now rewrite (show_same _ _ H), IHAl.
Qed.
(** Right positions: the parser gives back the very tree. *)
Definition placed (ts : list token) : Prop := forall x t y, ts = x ++ t :: y -> t_start t = pos_of (print_tokens x) /\ t_end t = end_of (print_tokens x) (show_token t).
Lemma placed_equal ts : forall ts' p p', print_tokens p = print_tokens p' -> map t_type ts = map t_type ts' ->
  (forall x t y, ts = x ++ t :: y -> t_start t = pos_of (print_tokens (p ++ x)) /\ t_end t = end_of (print_tokens (p ++ x)) (show_token t)) ->
  (forall x t y, ts' = x ++ t :: y -> t_start t = pos_of (print_tokens (p' ++ x)) /\ t_end t = end_of (print_tokens (p' ++ x)) (show_token t)) -> ts = ts'.
Proof.
  induction ts as [|t ts IH]; intros [|t' ts'] p p' E M H H'; try discriminate; [reflexivity|]. cbn in M. injection M as M0 M.
  assert (Et : t = t').
  { destruct (H [] t ts eq_refl) as [A1 A2], (H' [] t' ts' eq_refl) as [B1 B2]. rewrite !app_nil_r in *. rewrite E in A1, A2. unfold show_token in *. rewrite M0 in A2.
    destruct t, t'. cbn in *. congruence. }
  subst t'. f_equal. apply (IH ts' (p ++ [t]) (p' ++ [t])); [|exact M| |].
  - unfold print_tokens in *. rewrite !flat_map_app. now rewrite E.
  - intros x u y Q. rewrite <- app_assoc. apply (H (t :: x) u y). cbn. now rewrite Q.
  - intros x u y Q. rewrite <- app_assoc. apply (H' (t :: x) u y). cbn. now rewrite Q.
Qed.
Lemma same_lists rs : forall rs', Forall2 same_with_trivia rs rs' -> flat_map ref_tokens rs = flat_map ref_tokens rs' -> rs = rs'.
Proof.
  intros rs' G. induction G as [|r r' rs rs' (H1 & H2 & H3) G IH]; intros E; [reflexivity|]. cbn [flat_map] in E. unfold ref_tokens in E. rewrite <- !app_assoc in E.
  assert (A : forall (a a' b b' : list token), map t_type a = map t_type a' -> a ++ b = a' ++ b' -> a = a' /\ b = b').
  { clear. intros a a' b b' M. apply (f_equal (@List.length _)) in M. rewrite !map_length in M. revert a' M. induction a as [|x a IH]; intros [|x' a'] M E; cbn in *; try lia; [auto|].
    injection E as <- E. destruct (IH a') as [-> ->]; auto. }
  apply A in E as [E1 E]; [|exact H2]. cbn in E. injection E as E2 E. apply A in E as [E3 E]; [|exact H3]. rewrite (IH E). destruct r, r'. cbn in *. congruence.
Qed.
Lemma print_parse_fixed c t e : cfg_ok c -> block c t -> Forall proper (printed t ++ [e]) -> attached (fun _ => True) (printed t ++ [e]) ->
  file c (types_of (printed t ++ [e])) (display_ast (mkAst t e)) -> placed (flat_map ref_tokens (printed t ++ [e])) ->
  parse c (display_ast (mkAst t e)) = Done (inl (mkAst t e)).
Proof.
  intros C B F A Fi Pl. destruct (lexed_as _ _ _ _ C F A Fi) as (rs & T & K & Ty & F' & G & Ee). apply align_all in G; auto.
  assert (E : printed t ++ [e] = rs).
  { apply same_lists; [exact G|]. apply (placed_equal _ _ [] []); auto.
    - intros x u y Q. cbn [app]. assert (Cl : clean (map LOk rs)) by (apply Forall_forall; intros r I; apply in_map_iff in I as (z & <- & _); now exists z).
      pose proof (positions_match c _ _ T Cl K) as X. unfold tokens_of in X. rewrite refs_of_oks in X. destruct (X x u y Q) as (rest & _ & H1 & H2). auto. }
  subst rs. now apply (round_trip c _ (printed t) e t).
Qed.

(** *** A check of the hypotheses on concrete trees *)
Definition is_new_line (t : token) : bool := match t_type t with TWhitespace w => existsb (N.eqb 10) w | _ => false end.
Definition is_c_comment (t : token) : bool := match t_type t with TCStyleComment _ => true | _ => false end.
Definition check_ref (r : tokref) : bool := negb (is_trivia (t_type (r_token r))) && forallb (fun t => is_trivia (t_type t)) (r_leading r ++ r_trailing r).
Definition check_trailing (l : list token) : bool := forallb (fun t => negb (is_c_comment t)) l && forallb (fun t => negb (is_new_line t)) (removelast l).
Definition check_next (r r' : tokref) : bool := match r_leading r' with [] => true | t :: _ => is_c_comment t || match rev (r_trailing r) with n :: _ => is_new_line n | [] => false end end.
Fixpoint check_attached (rs : list tokref) : bool :=
  match rs with
  | [] => true
  | r :: rs => check_ref r && check_trailing (r_trailing r) && match rs with r' :: _ => check_next r r' | [] => true end && check_attached rs
  end.
Lemma is_new_line_iff t : is_new_line t = true <-> new_line (t_type t).
Proof.
  unfold is_new_line, new_line. destruct (t_type t); split; try discriminate; try (intros (w' & E & _); discriminate).
  - intros E. apply existsb_exists in E as (x & I & E). apply N.eqb_eq in E. subst x. eauto.
  - intros (w' & E & I). injection E as <-. apply existsb_exists. exists 10%N. split; [assumption|reflexivity].
Qed.
Lemma is_c_comment_iff t : is_c_comment t = true <-> c_comment (t_type t).
Proof. unfold is_c_comment, c_comment. destruct (t_type t); split; try discriminate; try (intros (w' & E); discriminate); eauto. Qed.
Lemma check_sound rs : check_attached rs = true -> Forall proper rs /\ attached (fun _ => True) rs.
Proof.
  induction rs as [|r rs IH]; intros H; [split; [constructor|split; [intros r []|intros [|x a] r r' b E; discriminate]]|].
  cbn [check_attached] in H. rewrite !andb_true_iff in H. destruct H as (((H1 & H2) & H3) & H4). destruct (IH H4) as (F & A1 & A2).
  split; [constructor; [|exact F]|split].
  - unfold check_ref in H1. apply andb_true_iff in H1 as [X1 X2]. rewrite forallb_forall in X2. split; [rewrite trivial_is; now destruct (is_trivia _)|]. intros t I. apply trivial_is. auto.
  - intros x [<-|I] _; [|now apply A1]. unfold check_trailing in H2. apply andb_true_iff in H2 as [X1 X2]. rewrite forallb_forall in X1, X2. split.
    + intros a t b E Nl. destruct b as [|y b]; [reflexivity|]. exfalso. rewrite E in X2. specialize (X2 t). rewrite removelast_app in X2 by discriminate.
      apply is_new_line_iff in Nl. rewrite Nl in X2. discriminate X2. apply in_app_iff. right. now left.
    + intros t I Q. apply is_c_comment_iff in Q. specialize (X1 t I). now rewrite Q in X1.
  - intros a x x' b E _. destruct a as [|y a]; cbn in E; injection E as -> E; [|now apply (A2 a x x' b)]. subst rs. unfold check_next in H3. intros t l El. rewrite El in H3.
    apply orb_true_iff in H3 as [X|X]; [left; now apply is_c_comment_iff|right]. destruct (rev (r_trailing x)) as [|n q] eqn:Q; [discriminate|]. apply is_new_line_iff in X.
    exists (rev q), n. split; [|exact X]. rewrite <- (rev_involutive (r_trailing x)), Q. reflexivity.
Qed.
Lemma attached_less (P Q : tokref -> Prop) rs : (forall r, Q r -> P r) -> attached P rs -> attached Q rs.
Proof. intros H [A B]. split; [intros r I q; now apply A, H|]. intros a r r' b E q. apply (B a r r' b E); auto. Qed.
