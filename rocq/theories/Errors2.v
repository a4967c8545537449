(** Errors of the parser point at tokens of the source (C56). Proof file. *)
From Verif Require Import LexerSpec PunctuatedProofs.
From Verif Require Import TokenSpec ErrorSpec Layout4 Errors1 ParserTheorems.
From Verif Require Import LexerFacts LexerFacts2 LexerCases LexerStep LexerStream LexerProofs LexerTheorems LexerTheorems2 LexerTheorems3.
From Coq Require Import Lia.
Local Open Scope N_scope.
Import ListNotations.

(** ** Places of tokens *)
Lemma process_next_end c l t l' : process_next c l = Done (Some (LOk t), l') -> is_trivia (t_type t) = false -> t_end t = s_pos (l_src l').
Proof.
  intros H. pose proof (process_next_cases c l) as HC. rewrite H in HC. cbn [next_ok] in HC.
  remember (Some (LOk t)) as o eqn:Ho.
  destruct HC as [ | He Hs | next w s Hid M F Hd | next w s Hn M T Z | s M | d r res s HR Hx R | d r res s HR Hx Hv R
    | d r res s HR Hx Hv R | d r res s HR Hx R | r res l1 HR Hv R | r bs res l1 HR Hv Hb R
    | q r qt lit rec s HR Hq Hv R | r n b s HR R | r n b s HR R | r tt rec s HR R | r tt rec s HR Hv R
    | sy s Hop M HL HE _ _ _ _ _ | d s e M He HN ]; try discriminate; intros N.
  - now injection Ho as <-.
  - now injection Ho as <-.
  - injection Ho as <-. discriminate N.
  - injection Ho as <-. discriminate N.
  - injection Ho as ->. apply read_hex_number_spec in R as (u & M & [[E _]|E]); [|discriminate E|cbn; lia]. now injection E as ->.
  - injection Ho as ->. apply read_binary_number_spec in R as (u & M & [[E _]|E]); [|discriminate E|cbn; lia]. now injection E as ->.
  - injection Ho as ->. apply read_number_spec in R as (u & M & [[E _]|E]); [|discriminate E]. now injection E as ->.
  - injection Ho as ->. apply read_number_spec in R as (u & M & [[E _]|E]); [|discriminate E]. now injection E as ->.
  - injection Ho as ->. unfold read_interpolated_string_section in R.
    destruct (read_istr _ _ _ _ _ _) as [[w e] s] eqn:RR. destruct e as [[]|]; [| |discriminate R]; now injection R as <- <-.
  - injection Ho as ->. unfold read_interpolated_string_section in R.
    destruct (read_istr _ _ _ _ _ _) as [[w e] s] eqn:RR. destruct e as [[]|]; [| |discriminate R]; now injection R as <- <-.
  - injection Ho as Ho. now apply recovered_ok in Ho as [-> ->].
  - now injection Ho as <-.
  - injection Ho as Ho. now apply recovered_ok in Ho as [-> ->].
  - injection Ho as Ho. now apply recovered_ok in Ho as [-> ->].
  - now injection Ho as <-.
Qed.
Lemma pstep_place c l t es l' : pstep c l t es l' -> is_trivia (t_type t) = false ->
  exists u, moved (l_src l) u (l_src l') /\ t_start t = s_pos (l_src l) /\ t_end t = s_pos (l_src l').
Proof.
  intros [[H ->]|[H _]] N.
  - pose proof (process_next_end _ _ _ _ H N). apply process_next_ok in H as (M & S & _). eauto.
  - apply process_next_recovered in H as ((u & e & M & _) & S & E & _). eauto.
Qed.
Lemma place_of c source u v l t es l' : moved (mkSrc source pos0) u v -> v = l_src l -> pstep c l t es l' -> is_trivia (t_type t) = false -> stretch source (t_start t) (t_end t).
Proof.
  intros M -> P N. destruct (pstep_place _ _ _ _ _ P N) as (w & M' & -> & ->). pose proof (moved_app _ _ _ _ _ M M') as [E X]. destruct M as [_ Y].
  cbn in E, X, Y. rewrite adv_pos0 in X, Y. exists u, w, (s_rest (l_src l')). rewrite app_assoc. auto.
Qed.
Lemma ref_place c source rs r : tokenize c source = Done rs -> In r (refs_of rs) -> stretch source (t_start (r_token r)) (t_end (r_token r)).
Proof.
  intros H I. pose proof (trivia_attachment c source rs r H I) as (N & _). apply tokenize_done in H.
  assert (X : forall l rs0 u, stream c l rs0 -> moved (mkSrc source pos0) u (l_src l) -> forall r, is_trivia (t_type (r_token r)) = false -> In r (refs_of rs0) -> stretch source (t_start (r_token r)) (t_end (r_token r))).
  { clear. intros l rs0 u S M r N I. apply in_refs_of in I as (x & I & E).
    destruct (stream_origin _ _ _ S x r (r_token r) I E) as (w & l1 & l2 & es & M' & P & _).
    { unfold ref_tokens. apply in_or_app. right. now left. }
    eapply place_of; [exact (moved_app _ _ _ _ _ M M')|reflexivity|exact P|exact N]. }
  destruct H as [rs NS S|line s sb r0 rs SB M F HN -> Nl S|line s r0 rs SB M F HN Nl S NO].
  - apply (X (new_lazy source) rs []); auto. apply moved_nil.
  - destruct I as [<-|I].
    + apply (X _ _ _ S M r0); [exact N|]. now left.
    + apply (X _ _ _ S M r); [exact N|]. now right.
  - apply (X _ _ _ S M r); [exact N|]. apply in_refs_of in I as (x & I & E). apply in_refs_of. exists x. split; [now right|assumption].
Qed.

(** ** Errors *)
Definition own (c : cfg) (rs : list (lexres tokref)) (r : tokref) : Prop := In r (refs_of rs) \/ inserted c r.
Lemma own_same c rs r r' : own c rs r /\ r = r' -> same_ref c r r'.
Proof. intros [_ <-]. apply same_ref_refl. Qed.
Lemma own_inserted c rs r : inserted c r -> own c rs r /\ r = r.
Proof. intros I. split; [now right|reflexivity]. Qed.
Definition own_tie c rs : tie := mkTie c (fun r r' => own c rs r /\ r = r') (own_same c rs) (own_inserted c rs).
Lemma same_errors es : Forall2 same_lex_error es es.
Proof. induction es; constructor; [reflexivity|assumption]. Qed.
Lemma owned c rs us vs : rs = vs ++ us -> Forall2 (same_result (fun r r' => own c rs r /\ r = r')) us us.
Proof.
  revert vs. induction us as [|x us IH]; intros vs E; constructor.
  - assert (I : forall r, ref_of x = Some r -> own c rs r). { intros r R. left. apply in_refs_of. exists x. split; [rewrite E; apply in_elt|assumption]. }
    destruct x; constructor; auto using same_errors.
  - apply (IH (vs ++ [x])). now rewrite <- app_assoc.
Qed.
Lemma errors_own c source r rs : tokenize c source = Done rs -> parse_fallible c source = Done r -> Forall (points_at (own c rs)) (ar_errors r).
Proof.
  intros T P. pose proof (tied_twins (own_tie c rs) source source rs rs T T (owned c rs rs [] eq_refl)) as X. cbn [tie_cfg own_tie] in X. rewrite P in X.
  destruct X as (_ & _ & X). revert X. generalize (ar_errors r) at 1 3. generalize (ar_errors r). intros l l' X.
  induction X as [|e e' l l' E X IH]; constructor; [|assumption]. clear - E. cbn [tied own_tie] in E.
  destruct E as [e e' E|x x' msg [X _]|x x' a a' b b' msg [X _] [A _] [B _]]; [constructor|constructor; assumption|constructor; assumption].
Qed.
Lemma error_start c source r rs e : cfg_ok c -> tokenize c source = Done rs -> parse_fallible c source = Done r -> In e (ar_errors r) ->
  (exists a d, source = a ++ d /\ fst (error_range e) = pos_of a) \/ (exists x, inserted c x /\ fst (error_range e) = t_start (r_token x)).
Proof.
  intros K T P I. assert (X : forall x, own c rs x -> (exists a d, source = a ++ d /\ t_start (r_token x) = pos_of a) \/ (exists y, inserted c y /\ t_start (r_token x) = t_start (r_token y))).
  { intros x [R|R]; [left|right; eauto]. destruct (ref_place _ _ _ _ T R) as (a & b & d & E & Y & _). eauto. }
  pose proof (errors_own c source r rs T P) as F. rewrite Forall_forall in F. specialize (F e I). destruct F as [e|x msg R|x msg a b R A B]; cbn [error_range fst]; auto.
  left. destruct (error_ranges c source rs e T) as (a & b & d & E & _ & ->); [|cbn; eauto]. rewrite <- (lexical_exact c source rs r K T P). now apply lexical_in.
Qed.
Lemma error_end c source r rs e : cfg_ok c -> tokenize c source = Done rs -> parse_fallible c source = Done r -> In e (ar_errors r) ->
  (exists a d, source = a ++ d /\ snd (error_range e) = pos_of a) \/ (exists x, inserted c x /\ snd (error_range e) = t_end (r_token x)).
Proof.
  intros K T P I. assert (X : forall x, own c rs x -> (exists a d, source = a ++ d /\ t_end (r_token x) = pos_of a) \/ (exists y, inserted c y /\ t_end (r_token x) = t_end (r_token y))).
  { intros x [R|R]; [left|right; eauto]. destruct (ref_place _ _ _ _ T R) as (a & b & d & E & _ & Y). exists (a ++ b), d. now rewrite <- app_assoc. }
  pose proof (errors_own c source r rs T P) as F. rewrite Forall_forall in F. specialize (F e I). destruct F as [e|x msg R|x msg a b R A B]; cbn [error_range snd]; auto.
  left. destruct (error_ranges c source rs e T) as (a & b & d & E & _ & ->).
  { rewrite <- (lexical_exact c source rs r K T P). now apply lexical_in. }
  exists (a ++ b), d. rewrite <- app_assoc. auto.
Qed.
