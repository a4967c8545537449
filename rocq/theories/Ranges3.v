(** Ranges of errors begin before they end (C56): functions of the parser. Proof file. *)
From Verif Require Import LexerSpec PunctuatedProofs.
From Verif Require Import Order7 ParserTop ParserSafe6.
From Verif Require Export Ranges2.
From Coq Require Import Lia Permutation.
Local Open Scope nat_scope.
Import ListNotations.

(** ** Logic *)
(** [l] are all tokens, [pre] those that are behind the parser. *)
Definition mine (c : cfg) (l : list tokref) (t : tokref) : Prop := inserted c t \/ In t l.
Definition okends (c : cfg) (l : list tokref) (a b : tokref) : Prop := mine c l a /\ mine c l b /\ (a = b \/ inserted c a \/ inserted c b \/ bef l a b).
Definition fine (c : cfg) (l : list tokref) (e : error) : Prop :=
  match e with AstError _ _ (Some (p, q)) => exists a b, p = t_start (r_token a) /\ q = t_end (r_token b) /\ okends c l a b | _ => True end.
Definition next (l pre : list tokref) (t : tokref) : Prop := exists r, l = pre ++ t :: r.
Definition behind (l pre : list tokref) : Prop := exists r, l = pre ++ r.
Definition E (c : cfg) (l pre : list tokref) {A} (m : M A) : Prop := forall s a s', rest_ok c s -> plain_results true (st_toks s) -> l = pre ++ refs_of (st_toks s) ->
  m s = Done (a, s') -> (exists u, st_toks s = u ++ st_toks s') /\ exists es, st_errors s' = st_errors s ++ es /\ Forall (fine c l) es.

Lemma E_same c l pre {A} (m : M A) : (forall s a s', m s = Done (a, s') -> s' = s) -> E c l pre m.
Proof. intros H s a s' _ _ _ X. apply H in X as ->. split; [now exists []|]. exists []. now rewrite app_nil_r. Qed.
Lemma E_ret c l pre {A} (a : A) : E c l pre (ret a).
Proof. apply E_same. now intros s x s' [= <- <-]. Qed.
Lemma E_panic c l pre {A} : E c l pre (@panic A).
Proof. apply E_same. intros s x s' X. discriminate. Qed.
Lemma E_lift c l pre {A} (o : out A) : E c l pre (lift o).
Proof. apply E_same. intros s x s' X. unfold lift in X. destruct o; try discriminate. now injection X as <- <-. Qed.
Lemma E_pure c l pre {A} (m : M A) : pure m -> E c l pre m.
Proof. intros H. apply E_same. exact H. Qed.
(** What [m] guarantees of its result and of the tokens that it consumes. *)
Definition post c l pre {A} (m : M A) (R : A -> list tokref -> Prop) : Prop := forall s a s', rest_ok c s -> plain_results true (st_toks s) -> l = pre ++ refs_of (st_toks s) ->
  m s = Done (a, s') -> exists u, st_toks s = u ++ st_toks s' /\ R a (refs_of u).
Lemma E_step c l pre {A B} (m : M A) (k : A -> M B) R : E c l pre m -> post c l pre m R -> (forall a u, R a u -> E c l (pre ++ u) (k a)) -> E c l pre (bind m k).
Proof.
  intros H P K s b s' I G L X. unfold bind in X. destruct (m s) as [[a s1]| |] eqn:X1; try discriminate.
  destruct (H s a s1 I G L X1) as (_ & es & Es & F). destruct (P s a s1 I G L X1) as (u & T & Y).
  assert (G' : plain_results true (st_toks s1)) by (rewrite T in G; now apply plain_tail in G).
  assert (L' : l = (pre ++ refs_of u) ++ refs_of (st_toks s1)) by (rewrite L, T, refs_app, app_assoc; reflexivity).
  destruct (K a (refs_of u) Y s1 b s' (rest_tail _ _ _ _ I T) G' L' X) as ((v & T') & fs & Fs & F').
  split; [exists (u ++ v); now rewrite T, T', app_assoc|]. exists (es ++ fs). rewrite Fs, Es, app_assoc. split; [reflexivity|]. apply Forall_app. auto.
Qed.
Lemma E_bind c l pre {A B} (m : M A) (k : A -> M B) : E c l pre m -> (forall a u, E c l (pre ++ u) (k a)) -> E c l pre (bind m k).
Proof.
  intros H K. apply (E_step c l pre m k (fun _ _ => True)); auto. intros s a s' I G L X. destruct (H s a s' I G L X) as ((u & T) & _). eauto.
Qed.
Lemma E_bindO c l pre {A B} (m : M A) (k : A -> M B) R : E c l pre m -> O true m R -> (forall a u, R a u -> E c l (pre ++ u) (k a)) -> E c l pre (bind m k).
Proof. intros H P. apply E_step; [assumption|]. intros s a s' I G L X. exact (P s a s' G X). Qed.
Lemma E_bret c l pre {A B} (a : A) (k : A -> M B) : E c l pre (k a) -> E c l pre (bind (ret a) k).
Proof. intros H. exact H. Qed.
Lemma E_loop c l pre {A B} (f : A -> M (A + B)) a : (forall a u, E c l (pre ++ u) (f a)) -> E c l pre (loop f a).
Proof.
  intros H s b s'. unfold loop. generalize (S (List.length (st_toks s))). intros n I G L X.
  assert (Y : forall n a s u, rest_ok c s -> plain_results true (st_toks s) -> l = (pre ++ u) ++ refs_of (st_toks s) -> loop_ n f a s = Done (b, s') ->
    (exists u, st_toks s = u ++ st_toks s') /\ exists es, st_errors s' = st_errors s ++ es /\ Forall (fine c l) es).
  { clear - H. induction n as [|n IH]; intros a s u I G L X; [discriminate|]. cbn [loop_] in X. destruct (f a s) as [[[a1|b1] s1]| |] eqn:X1; try discriminate.
    - destruct (H a u s _ s1 I G L X1) as ((v & T) & es & Es & F). assert (G' : plain_results true (st_toks s1)) by (rewrite T in G; now apply plain_tail in G).
      destruct (IH a1 s1 (u ++ refs_of v) (rest_tail _ _ _ _ I T) G') as ((w & T') & fs & Fs & F'); [rewrite L, T, refs_app, !app_assoc; reflexivity|assumption|].
      split; [exists (v ++ w); now rewrite T, T', app_assoc|]. exists (es ++ fs). rewrite Fs, Es, app_assoc. split; [reflexivity|]. apply Forall_app. auto.
    - injection X as <- <-. exact (H a u s _ s1 I G L X1). }
  apply (Y n a s []); auto. now rewrite app_nil_r.
Qed.
Lemma E_current0 c l pre : E c l pre current.
Proof. apply E_same. intros s a s' X. unfold current in X. destruct (st_toks s) as [|[]]; try discriminate; now injection X as <- <-. Qed.
Lemma E_peek c l pre : E c l pre peek.
Proof. apply E_same. intros s a s' X. unfold peek in X. destruct (st_toks s) as [|? [|[]]]; try discriminate; now injection X as <- <-. Qed.
Lemma E_errors c l pre : E c l pre errors.
Proof. apply E_same. now intros s a s' [= <- <-]. Qed.
Lemma E_lexer_current c l pre : E c l pre lexer_current.
Proof. apply E_same. now intros s a s' [= <- <-]. Qed.
Lemma fine_lexical c l es : Forall (fine c l) (map TokenizerError es).
Proof. induction es; cbn; constructor; cbn; auto. Qed.
Lemma E_consume c l pre : E c l pre consume.
Proof.
  intros s a s' _ _ _. unfold consume. destruct (st_toks s) as [|[t|es|t es] rest] eqn:T; intros [= <- <-]; cbn [st_errors st_toks]; rewrite ?T.
  - split; [now exists []|]. exists []. now rewrite app_nil_r.
  - split; [now exists [LOk t]|]. exists []. now rewrite app_nil_r.
  - split; [now exists [LFatal es]|]. eexists. split; [reflexivity|apply fine_lexical].
  - split; [now exists [LRecovered t es]|]. eexists. split; [reflexivity|apply fine_lexical].
Qed.
Lemma E_error c l pre r msg : E c l pre (token_error r msg).
Proof. intros s a s' _ _ _ [= <- <-]. split; [now exists []|]. eexists. split; [reflexivity|]. repeat constructor. Qed.
Lemma E_ranged c l pre r msg x y : (behind l pre -> okends c l x y) -> E c l pre (token_error_ranged r msg x y).
Proof.
  intros H s a s' _ _ L [= <- <-]. split; [now exists []|]. eexists. split; [reflexivity|]. constructor; [|constructor]. exists x, y. split; [reflexivity|]. split; [reflexivity|]. apply H. eexists. exact L.
Qed.
Lemma E_current c l pre {B} (k : option tokref -> M B) : (forall t, mine c l t -> next l pre t -> E c l pre (k (Some t))) -> E c l pre (k None) -> E c l pre (bind current k).
Proof.
  intros H N s b s' I G L X. unfold bind in X. destruct (current s) as [[o s1]| |] eqn:Y; try discriminate. unfold current in Y. destruct (st_toks s) as [|[t|es|t es] rest] eqn:T; try discriminate; injection Y as <- <-.
  - rewrite <- T in *. eapply H; try eassumption; [right|]; rewrite L, T; [apply in_elt|now exists (refs_of rest)].
  - rewrite <- T in *. eapply N; eassumption.
  - rewrite <- T in *. eapply H; try eassumption; [right|]; rewrite L, T; [apply in_elt|now exists (refs_of rest)].
Qed.
Lemma E_take0 c l pre : E c l pre take.
Proof. unfold take. apply E_bind; [apply E_consume|]. intros a u. unfold unwrap. destruct a; [apply E_ret|apply E_panic|apply E_panic]. Qed.
Lemma mine_behind c l pre t u : l = pre ++ u -> In t u -> mine c l t.
Proof. intros -> I. right. apply in_or_app. now right. Qed.
Lemma post_O c l pre {A} (m : M A) R : O true m R -> post c l pre m (fun a u => behind l (pre ++ u) /\ R a u).
Proof.
  intros H s a s' I G L X. destruct (H s a s' G X) as (u & T & Y). exists u. split; [exact T|]. split; [|exact Y]. exists (refs_of (st_toks s')). now rewrite L, T, refs_app, app_assoc.
Qed.
Lemma mine_last c l pre t : behind l (pre ++ [t]) -> mine c l t.
Proof. intros (r & ->). right. rewrite !in_app_iff. cbn. tauto. Qed.
(** A token that is taken when it is of some kind. *)
Lemma E_opt c l pre {B} (m : M (option tokref)) (k : option tokref -> M B) : E c l pre m -> O true m (fun o u => match o with Some t => u = [t] | None => u = [] end) ->
  (forall t, mine c l t -> E c l (pre ++ [t]) (k (Some t))) -> E c l pre (k None) -> E c l pre (bind m k).
Proof.
  intros H P K N. eapply E_step; [exact H|apply post_O, P|]. intros [t|] u (Bh & ->); [apply K; exact (mine_last _ _ _ _ Bh)|now rewrite app_nil_r].
Qed.
Lemma E_take c l pre {B} (k : tokref -> M B) : (forall t, mine c l t -> E c l (pre ++ [t]) (k t)) -> E c l pre (bind take k).
Proof.
  intros K. eapply E_step; [apply E_take0|apply post_O, (O_take true (fun t u => u = [t])); reflexivity|]. intros t u (Bh & ->). apply K. exact (mine_last _ _ _ _ Bh).
Qed.
Lemma E_basic0 c l pre w : E c l pre (basic c w).
Proof. apply E_lift. Qed.
Lemma E_basic c l pre {B} w (k : tokref -> M B) : (forall t, mine c l t -> E c l pre (k t)) -> E c l pre (bind (basic c w) k).
Proof.
  intros K. eapply E_step; [apply E_basic0|apply post_O, (O_basic c true w (fun t u => u = [] /\ inserted c t)); auto|]. intros t u (_ & -> & T). rewrite app_nil_r. apply K. now left.
Qed.
Ltac e0 := repeat lazymatch goal with
  | |- E _ _ _ (bind current _) => apply E_current; [intros ? ? ?|]
  | |- E _ _ _ (bind take _) => apply E_take; intros ? ?
  | |- E _ _ _ (bind _ _) => apply E_bind; [|intros ? ?]
  | |- E _ _ _ (match ?x with _ => _ end) => destruct x
  | |- E _ _ _ (ret _) => apply E_ret
  | |- E _ _ _ panic => apply E_panic
  | |- E _ _ _ (token_error _ _) => apply E_error
  | |- E _ _ _ (token_error_ranged _ _ _ _) => apply E_ranged; intros ?
  | |- E _ _ _ (lift _) => apply E_lift
  | |- E _ _ _ take => apply E_take0
  end.
Lemma E_consume_if0 c l pre y : E c l pre (consume_if y).
Proof. unfold consume_if. e0. Qed.
Lemma E_consume_if_symbols0 c l pre y : E c l pre (consume_if_symbols y).
Proof. unfold consume_if_symbols. e0. Qed.
Lemma E_require0 c l pre y m : E c l pre (require y m).
Proof. unfold require. e0. Qed.
Lemma E_require_token0 c l pre y m a : E c l pre (require_with_reference_token y m a).
Proof. unfold require_with_reference_token. e0. Qed.
Lemma E_require_range0 c l pre y m a b : (behind l pre -> okends c l a b) -> E c l pre (require_with_reference_range y m a b).
Proof. intros H. unfold require_with_reference_range. e0. now apply H. Qed.

(** ** The ends of nodes *)
Lemma first_in t s e s' : first_token t s = Done (e, s') -> s' = s /\ hd_error (leaves t) = Some e.
Proof.
  unfold first_token, bind, lift. destruct (next_loop_spec (S (items_size (items t))) (items t)) as (i1 & Q & _); [lia|]. unfold tokens_next. rewrite Q, items_leaves.
  destruct (leaves t); cbn; [discriminate|]. now intros [= <- <-].
Qed.
Lemma last_in t s e s' : last_token t s = Done (e, s') -> s' = s /\ In e (leaves t).
Proof.
  unfold last_token, bind, lift. destruct (next_back_loop_spec (S (items_size (items t))) (items t)) as (i1 & Q & _); [lia|]. unfold tokens_next_back. rewrite Q, items_leaves.
  destruct (leaves t) as [|x l _] using rev_ind; [discriminate|]. rewrite rev_app_distr. cbn. intros [= <- <-]. split; [reflexivity|apply in_elt].
Qed.
Lemma ends_in t s e s' : ends_of t s = Done (e, s') -> s' = s /\ hd_error (leaves t) = Some (fst e) /\ In (snd e) (leaves t).
Proof.
  unfold ends_of, bind, lift. destruct (next_loop_spec (S (items_size (items t))) (items t)) as (i1 & Q & Q1); [lia|]. unfold tokens_next. rewrite Q, items_leaves in *.
  destruct (leaves t) as [|x m]; cbn [hd_error fst snd]; [discriminate|]. cbn [tl] in Q1.
  destruct (next_back_loop_spec (S (items_size i1)) i1) as (i2 & P & _); [lia|]. unfold tokens_next_back. rewrite P, Q1. cbn [fst].
  destruct m as [|y m _] using rev_ind; [cbn; now intros [= <- <-]; cbn; auto|]. rewrite rev_app_distr. cbn. intros [= <- <-]. cbn. split; [reflexivity|]. split; [reflexivity|]. right. apply in_elt.
Qed.
Lemma E_known c l pre {A B} (m : M A) (R : A -> Prop) (k : A -> M B) : (forall s a s', m s = Done (a, s') -> s' = s /\ R a) -> (forall a, R a -> E c l pre (k a)) -> E c l pre (bind m k).
Proof.
  intros H K s b s' I G L X. unfold bind in X. destruct (m s) as [[a s1]| |] eqn:X1; try discriminate. apply H in X1 as [-> Ra]. exact (K a Ra s b s' I G L X).
Qed.
Lemma E_first c l pre t : E c l pre (first_token t).
Proof. apply E_same. intros s a s' X. now apply first_in in X. Qed.
Lemma E_last c l pre t : E c l pre (last_token t).
Proof. apply E_same. intros s a s' X. now apply last_in in X. Qed.
Lemma E_ends c l pre t : E c l pre (ends_of t).
Proof. apply E_same. intros s a s' X. now apply ends_in in X. Qed.

(** ** Results *)
Definition nice (c : cfg) (v : tree) (u : list tokref) : Prop :=
  (exists y, has c y v) /\ drawn (inserted c) (printed v) u.
Definition V (c : cfg) (l : list tokref) (m : M (pres tree)) : Prop := forall pre, E c l pre m /\ post c l pre m (fun r u => match r with Value v => nice c v u | _ => True end).
Lemma V_of c l m y : typed c m (has c y) -> O true m (vkept c true printed []) -> (forall pre, E c l pre m) -> V c l m.
Proof.
  intros T P H pre. split; [apply H|]. intros s a s' I G L X. destruct (P s a s' G X) as (u & U & K). exists u. split; [exact U|]. destruct a as [v| |]; auto.
  split; [exists y; exact (T s v s' I X)|]. exact (kept_strict _ _ _ K).
Qed.
Lemma E_value c l pre {B} m (k : pres tree -> M B) : V c l m -> (forall v u, nice c v u -> E c l (pre ++ u) (k (Value v))) -> (forall u, E c l (pre ++ u) (k NotFound)) ->
  (forall u, E c l (pre ++ u) (k LexerMoved)) -> E c l pre (bind m k).
Proof. intros H K1 K2 K3. destruct (H pre) as [X Y]. eapply E_step; [exact X|exact Y|]. intros [v| |] u; auto. Qed.
Lemma nice_in c v u r : nice c v u -> In r (leaves v) -> inserted c r \/ In r u.
Proof. intros ((y & H) & D) I. apply node_leaves in H as [_ H]. eapply drawn_in; [exact D|auto]. Qed.
Lemma nice_ends c v w u a b x z : nice c w u -> printed w = x ++ printed v ++ z -> (exists y, has c y v) -> hd_error (leaves v) = Some a -> In b (leaves v) ->
  (inserted c a \/ In a u) /\ (inserted c b \/ In b u) /\ (a = b \/ inserted c a \/ inserted c b \/ bef u a b).
Proof.
  intros (_ & D) P (y & H) A B. apply node_leaves in H as [H1 H2]. rewrite H1 in A. apply H2 in B. rewrite P in D.
  assert (A' : In a (printed v)) by (destruct (printed v); [discriminate|injection A as ->; now left]).
  split; [eapply drawn_in; [exact D|rewrite !in_app_iff; tauto]|]. split; [eapply drawn_in; [exact D|rewrite !in_app_iff; tauto]|].
  destruct (bef_first (printed v) a b A' (or_intror B) A) as [X|X]; [now left|right]. eapply drawn_bef; [exact D|]. now apply bef_left, bef_right.
Qed.

Definition rgood (c : cfg) (l : list tokref) (p : parsers) : Prop :=
  ogood c true p /\ V c l (p_block p) /\ V c l (p_expression p) /\ (forall pre, E c l pre (p_primary p)) /\ (forall e n pre, E c l pre (p_precedence p e n)) /\
  (has_luau c = true -> V c l (p_type p)) /\ (has_luau c = true -> V c l (p_type_or_pack p)).
Lemma rg_o c l p : rgood c l p -> ogood c true p. Proof. now intros (? & ? & ? & ? & ? & ? & ?). Qed.
Lemma rg_block c l p : rgood c l p -> V c l (p_block p). Proof. now intros (? & ? & ? & ? & ? & ? & ?). Qed.
Lemma rg_expression c l p : rgood c l p -> V c l (p_expression p). Proof. now intros (? & ? & ? & ? & ? & ? & ?). Qed.
Lemma rg_primary c l p pre : rgood c l p -> E c l pre (p_primary p). Proof. intros (? & ? & ? & ? & ? & ? & ?). auto. Qed.
Lemma rg_precedence c l p e n pre : rgood c l p -> E c l pre (p_precedence p e n). Proof. intros (? & ? & ? & ? & ? & ? & ?). auto. Qed.
Lemma rg_type c l p : rgood c l p -> has_luau c = true -> V c l (p_type p). Proof. intros (? & ? & ? & ? & ? & ? & ?). auto. Qed.
Lemma rg_type_or_pack c l p : rgood c l p -> has_luau c = true -> V c l (p_type_or_pack p). Proof. intros (? & ? & ? & ? & ? & ? & ?). auto. Qed.
Lemma V_E c l pre m : V c l m -> E c l pre m. Proof. intros H. exact (proj1 (H pre)). Qed.
Lemma rg_block' c l p pre : rgood c l p -> E c l pre (p_block p). Proof. intros H. apply V_E. now apply rg_block. Qed.
Lemma rg_expression' c l p pre : rgood c l p -> E c l pre (p_expression p). Proof. intros H. apply V_E. now apply rg_expression. Qed.
Lemma rg_type' c l p pre : rgood c l p -> has_luau c = true -> E c l pre (p_type p). Proof. intros H L. apply V_E. now apply rg_type. Qed.
Lemma rg_type_or_pack' c l p pre : rgood c l p -> has_luau c = true -> E c l pre (p_type_or_pack p). Proof. intros H L. apply V_E. now apply rg_type_or_pack. Qed.

Create HintDb rdb discriminated.
#[export] Hint Constants Opaque : rdb.
#[export] Hint Resolve E_ret E_panic E_lift E_current0 E_peek E_errors E_lexer_current E_consume E_error E_take0 E_basic0 E_consume_if0 E_consume_if_symbols0 E_require0 E_require_token0
  E_first E_last E_ends rg_block rg_expression rg_primary rg_precedence rg_type rg_type_or_pack rg_block' rg_expression' rg_type' rg_type_or_pack' : rdb.
Ltac lu := repeat match goal with
  | H : negb _ = false |- _ => apply negb_false_iff in H
  | H : (_ && _)%bool = true |- _ => apply andb_true_iff in H; destruct H
  end; assumption.
Ltac intac := solve [repeat first [rewrite in_app_iff | progress cbn [In]]; tauto].
#[export] Hint Extern 1 (has_luau _ = true) => lu : rdb.
#[export] Hint Extern 1 (In _ _) => intac : rdb.
#[export] Hint Extern 1 (mine _ _ _) => assumption : rdb.
#[export] Hint Extern 1 (rgood _ _ _) => eassumption : rdb.
Ltac osolve := let t := fresh in first
  [ apply O_consume_if; [intros t _ _; reflexivity|reflexivity] | apply O_consume_if_symbols; [intros t; reflexivity|reflexivity]
  | apply O_require; [intros t; reflexivity|reflexivity] | apply O_require_token; [intros t; reflexivity|reflexivity] | apply O_require_range; [intros t; reflexivity|reflexivity] ].
Ltac rstep :=
    intros; cbv beta iota zeta;
    lazymatch goal with
    | |- E _ _ _ (bind current _) => apply E_current; [intros ? ? ?|]
    | |- E _ _ _ (bind take _) => apply E_take; intros ? ?
    | |- E _ _ _ (bind (ret _) _) => apply E_bret
    | |- E _ _ _ (bind (basic _ _) _) => apply E_basic; intros ? ?
    | |- E _ _ _ (bind (consume_if _) _) => apply E_opt; [apply E_consume_if0|osolve|intros ? ?|]
    | |- E _ _ _ (bind (consume_if_symbols _) _) => apply E_opt; [apply E_consume_if_symbols0|osolve|intros ? ?|]
    | |- E _ _ _ (bind (require _ _) _) => apply E_opt; [apply E_require0|osolve|intros ? ?|]
    | |- E _ _ _ (bind (require_with_reference_token _ _ _) _) => apply E_opt; [apply E_require_token0|osolve|intros ? ?|]
    | |- E _ _ _ (bind (require_with_reference_range _ _ _ _) _) => apply E_opt; [apply E_require_range0; intros ?|osolve|intros ? ?|]
    | |- E _ _ _ (bind (p_block _) _) => apply E_value; [solve [auto with rdb nocore]|intros ? ? ?|intros ?|intros ?]
    | |- E _ _ _ (bind (p_expression _) _) => apply E_value; [solve [auto with rdb nocore]|intros ? ? ?|intros ?|intros ?]
    | |- E _ _ _ (bind (p_type _) _) => apply E_value; [solve [auto with rdb nocore]|intros ? ? ?|intros ?|intros ?]
    | |- E _ _ _ (bind (p_type_or_pack _) _) => apply E_value; [solve [auto with rdb nocore]|intros ? ? ?|intros ?|intros ?]
    | |- E _ _ _ (bind (first_token ?t) _) => apply (E_known _ _ _ (first_token t) (fun e => hd_error (leaves t) = Some e)); [exact (first_in t)|intros ? ?]
    | |- E _ _ _ (bind (last_token ?t) _) => apply (E_known _ _ _ (last_token t) (fun e => In e (leaves t))); [exact (last_in t)|intros ? ?]
    | |- E _ _ _ (bind _ _) => apply E_bind; [|intros ? ?]
    | |- E _ _ _ (loop _ _) => apply E_loop; intros ? ?
    | |- E _ _ _ (match ?x with _ => _ end) => destruct x eqn:?
    | |- E _ _ _ (token_error_ranged _ _ _ _) => apply E_ranged; intros ?
    | |- E _ _ _ _ => solve [auto with rdb nocore]
    | |- forall _, _ => intro
    end.
Ltac r_tac := repeat rstep.
Ltac bef_tac := first [assumption | apply bef_both; intac | apply bef_here; intac | apply bef_later; bef_tac | apply bef_left; bef_tac | apply bef_right; bef_tac].
(** The goals about ranges. *)
Ltac rclear := unfold mine in *; lazymatch goal with |- okends _ _ ?a ?b =>
  repeat match goal with H : ?P |- _ => lazymatch P with _ \/ _ => lazymatch P with context [a] => fail | context [b] => fail | _ => clear H end | rgood _ _ _ => clear H | E _ _ _ _ => clear H | @eq bool _ _ => clear H end end end.
Ltac rsolve := rclear; unfold okends, mine in *; repeat match goal with H : _ \/ _ |- _ => destruct H end; rewrite <- ?app_assoc in *; cbn [app] in *;
  (split; [first [tauto|right; intac]|split; [first [tauto|right; intac]|first [tauto|right; right; right; bef_tac]]]).
Ltac rfin :=
  repeat match goal with
  | H : nice ?c ?v ?u, A : hd_error (leaves ?v) = Some ?a, B : In ?b (leaves ?v) |- _ =>
      let X := fresh in pose proof (nice_ends c v v u a b [] [] H ltac:(cbn [app]; now rewrite app_nil_r) (proj1 H) A B) as (? & ? & X); clear A B
  end;
  repeat match goal with
  | H : nice ?c ?v ?u, B : In ?b (leaves ?v) |- _ => pose proof (nice_in c v u b H B); clear B
  end;
  match goal with
  | H : next ?l ?pre _ |- _ => destruct H as [? H]; subst l; solve [rsolve]
  | H : behind ?l _ |- _ => destruct H as [? H]; subst l; solve [rsolve]
  end.
