(** What a successful parse outside Luau gives: every token is in the tree, except those of a second last statement.
    Proofs behind C23, C27, C28, C30, C33, C40 in [PropertiesParser2.v]. *)
From Verif Require Import LexerSpec LexerCases LexerProofs LexerTheorems LexerTheorems3 TokenSpec UpdateProofs RangeProofs PrintProofs VisitTheorems.
From Verif Require Export ParserTheorems ParserClean4.
From Coq Require Import Lia.
Local Open Scope nat_scope.

Lemma clean_map rs : clean rs -> exists ts, rs = map LOk ts.
Proof.
  induction 1 as [|x rs (t & ->) _ (ts & ->)]; [now exists []|]. now exists (t :: ts).
Qed.
Lemma refs_of_oks ts : refs_of (map LOk ts) = ts.
Proof. unfold refs_of. induction ts as [|t ts IH]; [reflexivity|]. cbn in *. now rewrite IH. Qed.
Lemma tokens_of_oks ts : tokens_of (map LOk ts) = flat_map ref_tokens ts.
Proof. unfold tokens_of. now rewrite refs_of_oks. Qed.

Lemma accepted c source a : cfg_ok c -> has_luau c = false -> parse c source = Done (inl a) ->
  exists ts R, tokenize c source = Done (map LOk ts) /\ ts = printed (a_nodes a) ++ R ++ [a_eof a] /\ proper (a_nodes a) /\ leftover c (a_nodes a) R.
Proof.
  intros K L P. pose proof P as P0. unfold parse in P. destruct (parse_fallible c source) as [r| |] eqn:F; try discriminate. injection P as P.
  destruct (into_result_exact r) as [X _]. apply X in P as [E ->]. clear X.
  destruct (stream_consumed _ _ _ K F) as (rs & s' & last & T & Ps & St & Er & _).
  pose proof (ok_is_clean _ _ _ _ K T P0) as C. apply clean_map in C as (ts & ->).
  rewrite E in Er. symmetry in Er. destruct (e_stream c ts L _ _ Ps Er) as (ts' & Es & R & -> & Pr & Eo & Lo).
  rewrite Es in St. destruct ts'; [|discriminate]. exists (printed (a_nodes (ar_ast r)) ++ R ++ [a_eof (ar_ast r)]), R. auto.
Qed.

(** How the leftover tokens begin. *)
Lemma leftover_begins c b R : leftover c b R -> R = [] \/ block_last_stmt b <> None /\ exists t R', R = t :: R' /\ (is_symbol t SReturn || is_symbol t SBreak) = true.
Proof.
  intros [->|(H & t & o & -> & Pr & Sh)]; [now left|]. right. split; [assumption|]. rewrite printed_block. cbn [flat_map app].
  unfold proper in Pr. unfold block_tree in Pr. apply every_nd in Pr as [_ Pr]. apply Forall_inv_tail, Forall_inv in Pr. cbn [opt_tree option_map fst snd] in Pr.
  apply every_con in Pr. apply Forall_inv in Pr. apply every_con in Pr. apply Forall_inv in Pr.
  destruct Sh as [(r & l & ->)|(r & ->)].
  - apply every_nd in Pr as [_ Pr]. apply Forall_inv in Pr. apply every_nd in Pr as [Pr _]. unfold proper_node in Pr. cbn [written all_fit fits_piece one_of existsb] in Pr.
    rewrite orb_false_r, <- !andb_assoc in Pr. apply andb_true_iff in Pr as [Pr _]. rewrite (printed_plain KLastReturn) by reflexivity. cbn [flat_map]. rewrite (printed_plain KReturn) by reflexivity. cbn [flat_map]. rewrite printed_tok. cbn [app]. exists r. eexists. split; [reflexivity|now rewrite Pr].
  - apply every_nd in Pr as [Pr _]. unfold proper_node in Pr. cbn [written all_fit fits_piece one_of existsb] in Pr.
    rewrite orb_false_r, <- !andb_assoc in Pr. apply andb_true_iff in Pr as [Pr _]. rewrite (printed_nd KLastBreak). cbn. exists r. eexists. split; [reflexivity|now rewrite Pr, orb_true_r].
Qed.

Lemma accepted_text c source a : cfg_ok c -> has_luau c = false -> parse c source = Done (inl a) ->
  exists rs R, tokenize c source = Done rs /\ refs_of rs = printed (a_nodes a) ++ R ++ [a_eof a] /\
    (shebang_kept source rs -> source = display (a_nodes a) ++ flat_map show_ref R ++ show_ref (a_eof a)) /\
    (R = [] \/ block_last_stmt (a_nodes a) <> None /\ exists t R', R = t :: R' /\ (is_symbol t SReturn || is_symbol t SBreak) = true).
Proof.
  intros K L P. destruct (accepted c source a K L P) as (ts & R & T & Ets & _ & Lo). exists (map LOk ts), R. rewrite refs_of_oks.
  repeat split; [assumption|assumption| |now apply (leftover_begins c)].
  intros S. rewrite <- (lexing_lossless c source _ T) at 1; [|exact (ok_is_clean _ _ _ _ K T P)|assumption].
  unfold print_refs, display. rewrite refs_of_oks, Ets, !flat_map_app. cbn [flat_map]. now rewrite app_nil_r.
Qed.
Lemma accepted_lossless c source rs a : cfg_ok c -> has_luau c = false -> parse c source = Done (inl a) -> tokenize c source = Done rs -> shebang_kept source rs ->
  block_last_stmt (a_nodes a) = None -> display_ast a = source.
Proof.
  intros K L P T S B. destruct (accepted_text c source a K L P) as (rs' & R & T' & _ & D & [->|[H _]]); [|congruence].
  rewrite T in T'. injection T' as <-. now rewrite (D S).
Qed.

(** ** Positions *)
Lemma accepted_tiles c source rs a : cfg_ok c -> has_luau c = false -> parse c source = Done (inl a) -> tokenize c source = Done rs -> shebang_kept source rs ->
  forall x t y, ast_tokens a = x ++ t :: y -> t_start t = pos_of (print_tokens x) /\ t_end t = end_of (print_tokens x) (show_token t).
Proof.
  intros K L P T S x t y E. destruct (accepted c source a K L P) as (ts & R & T' & Ets & _). rewrite T in T'. injection T' as ->.
  destruct (positions_match c source _ T (ok_is_clean _ _ _ _ K T P) S x t (y ++ flat_map ref_tokens (R ++ [a_eof a]))) as (rest & _ & H); [|exact H].
  rewrite tokens_of_oks, Ets, flat_map_app. unfold ast_tokens in E. now rewrite E, <- app_assoc.
Qed.
Lemma accepted_update c source rs a : cfg_ok c -> has_luau c = false -> parse c source = Done (inl a) -> tokenize c source = Done rs -> shebang_kept source rs ->
  printed (a_nodes (update_positions a)) = printed (a_nodes a) /\ a_eof (update_positions a) = a_eof a /\ (aligned (a_nodes a) = true -> update_positions a = a).
Proof.
  intros K L P T S. pose proof (accepted_tiles c source rs a K L P T S) as Q.
  assert (W : well_typed (a_nodes a)).
  { unfold parse in P. destruct (parse_fallible c source) as [r| |] eqn:F; try discriminate. injection P as P. apply into_result_exact in P as [_ ->].
    exists (YNode NBlock). now apply (parsed_well_typed c source). }
  split; [|split; [apply update_eof|intros Al; now apply update_fixed]].
  rewrite update_printed by assumption. apply retimed_refs_inj. apply (retimed_fixed _ []). exact Q.
Qed.

(** ** Ranges of the nodes of a parsed tree *)
Inductive sub {A} : list A -> list A -> Prop :=
| sub_nil l : sub [] l
| sub_keep x m l : sub m l -> sub (x :: m) (x :: l)
| sub_skip x m l : sub m l -> sub m (x :: l).
Lemma sub_refl {A} (l : list A) : sub l l.
Proof. induction l; now constructor. Qed.
Lemma sub_drop {A} (l : list A) : forall m, sub m l -> forall u, sub m (u ++ l).
Proof. intros m H u. induction u; [assumption|]. now constructor. Qed.
Lemma sub_more {A} (m l : list A) : sub m l -> forall u, sub m (l ++ u).
Proof. induction 1; intros u; [constructor| |]; cbn [app]; constructor; auto. Qed.
Lemma sub_app {A} (a b : list A) : sub a b -> forall c d, sub c d -> sub (a ++ c) (b ++ d).
Proof. induction 1; intros c d H'; cbn [app]; [now apply sub_drop| |]; constructor; auto. Qed.
Lemma sub_trans {A} (b c : list A) : sub b c -> forall a, sub a b -> sub a c.
Proof. induction 1 as [l|x m l H IH|x m l H IH]; intros a H'; [inversion H'; constructor| |constructor; auto]. inversion H'; subst; constructor; auto. Qed.
Lemma sub_in {A} (f : A -> list tokref) x l : In x l -> sub (f x) (flat_map f l).
Proof. intros H. apply in_split in H as (a & b & ->). rewrite flat_map_app. apply sub_drop. cbn [flat_map]. apply sub_more, sub_refl. Qed.
Lemma sub_cons_split {A} (a : A) m l : sub (a :: m) l -> exists u v, l = u ++ a :: v /\ sub m v.
Proof.
  intros H. remember (a :: m) as k eqn:E. induction H as [l|x k' l H IH|x k' l H IH]; [discriminate| |].
  - injection E as -> ->. now exists [], l.
  - destruct (IH E) as (u & v & -> & K). now exists (x :: u), v.
Qed.
Lemma sub_app_split {A} (a m : list A) : forall l, sub (a ++ m) l -> exists u v, l = u ++ v /\ sub m v.
Proof.
  induction a as [|x a IH]; intros l H; [now exists [], l|]. apply sub_cons_split in H as (u & v & -> & H).
  destruct (IH _ H) as (u' & v' & -> & K). exists (u ++ x :: u'), v'. now rewrite <- app_assoc.
Qed.
Lemma sub_ordered m l : sub m l -> in_source_order l -> in_source_order m.
Proof.
  intros H O u a v b w ->. apply sub_app_split in H as (u1 & v1 & -> & H). apply sub_cons_split in H as (u2 & v2 & -> & H).
  apply sub_app_split in H as (u3 & v3 & -> & H). apply sub_cons_split in H as (u4 & v4 & -> & H).
  apply (O (u1 ++ u2) a (u3 ++ u4) b v4). now rewrite <- !app_assoc.
Qed.

Lemma sub_pairs y pairs : Forall (fun t => has_ty t (YPair y)) pairs -> forall vecs, sub (flat_map printed pairs) (zip_pick printed true pairs vecs).
Proof.
  induction 1 as [|x pairs Hx _ IH]; intros vecs; [constructor|]. cbn [flat_map zip_pick]. rewrite (pair_printed _ _ Hx), <- app_assoc.
  apply sub_app; [apply sub_refl|]. apply sub_drop, sub_app; [apply sub_refl|apply IH].
Qed.
Lemma sub_vec pairs : forall vecs v, In v vecs -> List.length v <= List.length pairs -> sub (flat_map printed v) (zip_pick printed true pairs vecs).
Proof.
  induction pairs as [|x pairs IH]; intros vecs v I L; [destruct v; [constructor|cbn in L; lia]|]. cbn [zip_pick]. destruct v as [|z v]; [constructor|].
  cbn [flat_map]. apply sub_drop, sub_app.
  - change (printed z) with (at_ printed 0 (z :: v)). now apply sub_in.
  - apply sub_drop, IH; [|cbn in L; lia]. change v with (tl (z :: v)). now apply in_map.
Qed.

Ltac seek := first [apply sub_refl | apply sub_more, sub_refl | apply sub_more; eapply sub_pairs; eassumption
  | apply sub_more, sub_vec; [cbn; tauto|assumption] | apply sub_drop; seek].
Ltac seek_span := first
  [match goal with |- sub [?a; ?b] ([?a] ++ _) => change [a; b] with ([a] ++ [b]); apply sub_app; [apply sub_refl|seek] end | apply sub_drop; seek_span].
Lemma child_sub k cs y c : has_ty (Nd k cs) y -> fitting_node k cs = true -> In c cs -> sub (printed c) (printed (Nd k cs)).
Proof.
  intros Ty Ft I. apply wt_nd in Ty as [_ Ty]. destruct (encloses k) eqn:En.
  2: { rewrite printed_plain; [now apply sub_in|assumption|]. now apply forall2_length in Ty. }
  destruct k; try discriminate En; cbn [fields] in Ty; fields_inv Ty; spans_inv; rewrite printed_nd; cbn [display_order flat_map pick at_ subs_at subs nth_error map]; rewrite ?printed_tok.
  all: repeat match goal with
       | H : has_ty ?c (YVec _) |- _ => apply ty_vec in H as (? & -> & ?)
       | H : has_ty ?c (YPunctuated _) |- _ => apply ty_punctuated in H as (? & -> & ?)
       end.
  all: unfold fitting_node, count in Ft; cbn [nth_error] in Ft; rewrite ?andb_true_iff, ?Nat.leb_le in Ft; try (match type of Ft with _ /\ _ => destruct Ft as [Ft Ft2] end); cbn [subs].
  all: cbn [In] in I; repeat destruct I as [<-|I]; try contradiction.
  all: rewrite ?(printed_con CSpan), ?(printed_con CVec), ?(printed_con CPunctuated).
  all: solve [match goal with |- sub (flat_map printed [Tok ?a; Tok ?b]) _ => change (flat_map printed [Tok a; Tok b]) with [a; b]; seek_span end | seek].
Qed.
Lemma within_typed u t : within u t -> forall y, has_ty t y -> fitting t = true -> (exists z, has_ty u z) /\ sub (printed u) (printed t).
Proof.
  induction 1 as [|c cs t I W IH|k cs t I W IH]; intros y Ty Ft.
  - split; [eauto|apply sub_refl].
  - apply wt_con in Ty as (ys & _ & Ty). apply every_con in Ft. rewrite Forall_forall in Ft.
    assert (exists z, has_ty t z) as (z & Tz). { clear - Ty I. induction Ty; [destruct I|]. destruct I as [<-|I]; eauto. }
    destruct (IH z Tz (Ft _ I)) as [A B]. split; [assumption|]. rewrite printed_con. eapply sub_trans; [|exact B]. now apply sub_in.
  - pose proof Ty as Ty0. apply wt_nd in Ty as [_ Ty]. pose proof Ft as Ft0. apply every_nd in Ft as [Fk Ft]. rewrite Forall_forall in Ft.
    assert (exists z, has_ty t z) as (z & Tz). { clear - Ty I. induction Ty; [destruct I|]. destruct I as [<-|I]; eauto. }
    destruct (IH z Tz (Ft _ I)) as [A B]. split; [assumption|]. eapply sub_trans; [|exact B]. eapply child_sub; eassumption.
Qed.
Lemma every_within p u t : within u t -> every p t = true -> every p u = true.
Proof.
  induction 1 as [|c cs t I W IH|k cs t I W IH]; intros H; [assumption| |].
  - apply every_con in H. rewrite Forall_forall in H. auto.
  - apply every_nd in H as [_ H]. rewrite Forall_forall in H. auto.
Qed.

Lemma tiles_ordered l : (forall x t y, flat_map ref_tokens l = x ++ t :: y -> t_start t = pos_of (print_tokens x) /\ t_end t = end_of (print_tokens x) (show_token t)) ->
  in_source_order l.
Proof.
  intros H u a v b w ->.
  set (x := flat_map ref_tokens u ++ r_leading a).
  set (m := r_token a :: r_trailing a ++ flat_map ref_tokens v ++ r_leading b).
  assert (Ea : flat_map ref_tokens (u ++ a :: v ++ b :: w) = x ++ r_token a :: (r_trailing a ++ flat_map ref_tokens (v ++ b :: w))).
  { unfold x. rewrite flat_map_app. cbn [flat_map]. unfold ref_tokens at 2. rewrite <- !app_assoc. reflexivity. }
  assert (Eb : flat_map ref_tokens (u ++ a :: v ++ b :: w) = (x ++ m) ++ r_token b :: (r_trailing b ++ flat_map ref_tokens w)).
  { rewrite Ea. unfold m. rewrite flat_map_app. cbn [flat_map]. unfold ref_tokens at 2. cbn [app]. rewrite <- !app_assoc. cbn [app]. rewrite <- !app_assoc. reflexivity. }
  destruct (H _ _ _ Ea) as [Sa Na]. destruct (H _ _ _ Eb) as [Sb Nb]. rewrite Sa, Sb, Na, Nb, !bytes_end_of. cbn [pos_of p_bytes].
  unfold m. cbn [print_tokens flat_map]. unfold print_tokens. rewrite flat_map_app. cbn [flat_map]. rewrite !bytes_of_app. split; lia.
Qed.
Lemma accepted_node c source rs a u : cfg_ok c -> has_luau c = false -> parse c source = Done (inl a) -> tokenize c source = Done rs -> shebang_kept source rs ->
  within u (a_nodes a) -> well_typed u /\ every filled_node u = true /\ fitting u = true /\ in_source_order (printed u).
Proof.
  intros K L P T S W. pose proof (accepted_tiles c source rs a K L P T S) as Q.
  unfold parse in P. destruct (parse_fallible c source) as [r| |] eqn:F; try discriminate. injection P as P. apply into_result_exact in P as [_ ->].
  pose proof (parsed_well_typed _ _ _ K F) as Ty. pose proof (parsed_fitting _ _ _ K F) as Ft. pose proof (parsed_filled _ _ _ K F) as Fi.
  destruct (within_typed _ _ W _ Ty Ft) as [A B]. split; [exact A|]. split; [now apply (every_within _ _ _ W)|]. split; [now apply (every_within _ _ _ W)|].
  apply (sub_ordered _ _ B), tiles_ordered, Q.
Qed.
Lemma accepted_start c source rs a k cs r l : cfg_ok c -> has_luau c = false -> parse c source = Done (inl a) -> tokenize c source = Done rs -> shebang_kept source rs ->
  within (Nd k cs) (a_nodes a) -> printed (Nd k cs) = r :: l -> start_position (Nd k cs) = Some (t_start (r_token r)).
Proof. intros K L P T S W E. destruct (accepted_node _ _ _ _ _ K L P T S W) as (A & B & C & D). now apply (node_start k cs r l). Qed.
Lemma accepted_end c source rs a k cs r l : cfg_ok c -> has_luau c = false -> parse c source = Done (inl a) -> tokenize c source = Done rs -> shebang_kept source rs ->
  within (Nd k cs) (a_nodes a) -> closed (Nd k cs) = true -> printed (Nd k cs) = l ++ [r] -> end_position (Nd k cs) = Some (t_end (r_token r)).
Proof. intros K L P T S W X E. destruct (accepted_node _ _ _ _ _ K L P T S W) as (A & B & C & D). now apply (node_end k cs r l). Qed.
