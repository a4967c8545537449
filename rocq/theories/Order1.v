(** The tokens of trees are drawn from those of the source (C55): logic. *)
From Verif Require Import LexerSpec PunctuatedProofs.
From Verif Require Export OrderSpec ParserClean1.
From Coq Require Import Lia Permutation.
Local Open Scope nat_scope.
Import ListNotations.

(** ** Drawn lists *)
Lemma drawn_none made u : drawn made [] u.
Proof. induction u; constructor; auto. Qed.
Lemma drawn_refl made u : drawn made u u.
Proof. induction u; constructor; auto. Qed.
Lemma drawn_app made l u l' u' : drawn made l u -> drawn made l' u' -> drawn made (l ++ l') (u ++ u').
Proof. induction 1; cbn [app]; intros X; [assumption| | |]; constructor; auto. Qed.
Lemma drawn_trans made l m u : drawn made l m -> drawn made m u -> drawn made l u.
Proof.
  intros X Y. revert l X. induction Y as [|t m u Y IH|t m u Y IH|t m u T Y IH]; intros l X.
  - assumption.
  - remember (t :: m) as tm eqn:E. revert m Y IH E. induction X as [|x l n X IHX|x l n X IHX|x l n M X IHX]; intros m Y IH E.
    + discriminate.
    + injection E as -> ->. apply dr_take. now apply IH.
    + injection E as -> ->. apply dr_skip. now apply IH.
    + apply dr_made; [assumption|]. eapply IHX; eauto.
  - apply dr_skip. now apply IH.
  - remember (t :: m) as tm eqn:E. revert m Y IH E. induction X as [|x l n X IHX|x l n X IHX|x l n M X IHX]; intros m Y IH E.
    + discriminate.
    + injection E as -> ->. apply dr_made; [assumption|]. now apply IH.
    + injection E as -> ->. now apply IH.
    + apply dr_made; [assumption|]. eapply IHX; eauto.
Qed.
Lemma drawn_split made l m u : drawn made l (m ++ u) -> exists a b, l = a ++ b /\ drawn made a m /\ drawn made b u.
Proof.
  revert l. induction m as [|t m IH]; intros l X; cbn [app] in X.
  - exists [], l. repeat split; [constructor|assumption].
  - remember (t :: m ++ u) as n eqn:E. revert E. induction X as [|x l n X IHX|x l n X IHX|x l n M X IHX]; intros E.
    + discriminate.
    + injection E as -> ->. destruct (IH l X) as (a & b & -> & A & B). exists (t :: a), b. repeat split; [now constructor|assumption].
    + injection E as -> ->. destruct (IH l X) as (a & b & -> & A & B). exists a, b. repeat split; [now constructor|assumption].
    + destruct (IHX E) as (a & b & -> & A & B). exists (x :: a), b. repeat split; [now constructor|assumption].
Qed.
Lemma drawn_perm made m m' : Permutation m m' -> forall l, drawn made l m -> exists l', Permutation l' l /\ drawn made l' m'.
Proof.
  induction 1 as [|x m m' P IH|x y m|m n p P IH P' IH']; intros l X.
  - now exists l.
  - apply (drawn_split made l [x] m) in X as (a & b & -> & A & B). destruct (IH b B) as (b' & Pb & B').
    exists (a ++ b'). split; [now apply Permutation_app_head|]. now apply (drawn_app made a [x] b' m').
  - apply (drawn_split made l [y] (x :: m)) in X as (a & b & -> & A & B). apply (drawn_split made b [x] m) in B as (d & e & -> & D & E).
    exists (d ++ a ++ e). split; [|exact (drawn_app made d [x] (a ++ e) (y :: m) D (drawn_app made a [y] e m A E))].
    rewrite !app_assoc. apply Permutation_app_tail, Permutation_app_comm.
  - destruct (IH l X) as (l1 & P1 & X1). destruct (IH' l1 X1) as (l2 & P2 & X2). exists l2. split; [|assumption]. now transitivity l1.
Qed.

(** In order when [b], in any order otherwise. *)
Definition kept (c : cfg) (b : bool) (l u : list tokref) : Prop := exists l', (if b then l' = l else Permutation l' l) /\ drawn (inserted c) l' u.
Lemma kept_drawn c b l u : drawn (inserted c) l u -> kept c b l u.
Proof. intros X. exists l. split; [|assumption]. destruct b; reflexivity. Qed.
Lemma kept_strict c l u : kept c true l u -> drawn (inserted c) l u.
Proof. now intros (l' & -> & X). Qed.
Lemma kept_nil c b u : kept c b [] u.
Proof. apply kept_drawn, drawn_none. Qed.
Lemma kept_refl c b u : kept c b u u.
Proof. apply kept_drawn, drawn_refl. Qed.
Lemma kept_app c b l u l' u' : kept c b l u -> kept c b l' u' -> kept c b (l ++ l') (u ++ u').
Proof.
  intros (m & P & X) (m' & P' & X'). exists (m ++ m'). split; [|now apply drawn_app].
  destruct b; [now subst|now apply Permutation_app].
Qed.
Lemma kept_trans c b l m u : kept c b l m -> kept c b m u -> kept c b l u.
Proof.
  intros (l' & P & X) (m' & P' & X'). destruct b.
  - subst. exists l. split; [reflexivity|]. eapply drawn_trans; eassumption.
  - apply Permutation_sym in P'. destruct (drawn_perm _ _ _ P' _ X) as (l2 & P2 & X2). exists l2. split; [now transitivity l'|]. eapply drawn_trans; eassumption.
Qed.
Lemma kept_perm c l l' u : Permutation l l' -> kept c false l u -> kept c false l' u.
Proof. intros P (m & Q & X). exists m. split; [now transitivity l|assumption]. Qed.
Lemma kept_same c b t l u : kept c b l u -> kept c b (t :: l) (t :: u).
Proof. intros X. apply (kept_app c b [t] [t] l u); [apply kept_refl|assumption]. Qed.
Lemma kept_common c b a l u : kept c b l u -> kept c b (a ++ l) (a ++ u).
Proof. intros X. apply kept_app; [apply kept_refl|assumption]. Qed.
Lemma kept_made c b t l u : inserted c t -> kept c b l u -> kept c b (t :: l) u.
Proof.
  intros T X. apply (kept_app c b [t] [] l u); [|assumption]. apply kept_drawn. apply dr_made; [assumption|constructor].
Qed.
Lemma kept_skip c b t l u : kept c b l u -> kept c b l (t :: u).
Proof. intros X. apply (kept_app c b [] [t] l u); [apply kept_nil|assumption]. Qed.
Lemma kept_drop c b a l u : kept c b l u -> kept c b l (a ++ u).
Proof. intros X. apply (kept_app c b [] a l u); [apply kept_nil|assumption]. Qed.
Lemma kept_step c b x w l u : kept c b x w -> kept c b (w ++ l) u -> kept c b (x ++ l) u.
Proof. intros X Y. eapply kept_trans; [|exact Y]. apply kept_app; [assumption|apply kept_refl]. Qed.

(** ** Runs *)
(** When the order matters, there is no [elseif]. *)
Definition plain (b : bool) (t : tokref) : Prop := b = true -> is_symbol t SElseIf = false.
Definition plain_results (b : bool) (l : list (lexres tokref)) : Prop := Forall (plain b) (refs_of l).
(** If [m] ends, then [R] holds of its result and of the tokens that it has consumed. *)
Definition O (b : bool) {A} (m : M A) (R : A -> list tokref -> Prop) : Prop :=
  forall s a s', plain_results b (st_toks s) -> m s = Done (a, s') -> exists u, st_toks s = u ++ st_toks s' /\ R a (refs_of u).

Lemma refs_app l m : refs_of (l ++ m) = refs_of l ++ refs_of m.
Proof. unfold refs_of. apply flat_map_app. Qed.
Lemma plain_tail b l m : plain_results b (l ++ m) -> plain_results b m.
Proof. unfold plain_results. rewrite refs_app. intros X. now apply Forall_app in X. Qed.
Lemma O_ret b {A} (a : A) (R : A -> list tokref -> Prop) : R a [] -> O b (ret a) R.
Proof. intros H s x s' _ [= <- <-]. now exists []. Qed.
Lemma O_panic b {A} (R : A -> list tokref -> Prop) : O b panic R.
Proof. intros s x s' _ X. discriminate. Qed.
Lemma O_fuel b {A} (R : A -> list tokref -> Prop) : O b (lift OutOfFuel) R.
Proof. intros s x s' _ X. discriminate. Qed.
Lemma O_bind b {A B} (m : M A) (k : A -> M B) R : O b m (fun a u => O b (k a) (fun x v => R x (u ++ v))) -> O b (bind m k) R.
Proof.
  intros H s x s' G X. unfold bind in X. destruct (m s) as [[a s1]| |] eqn:X1; try discriminate.
  destruct (H s a s1 G X1) as (u & T & K). rewrite T in G. destruct (K s1 x s' (plain_tail _ _ _ G) X) as (v & T' & Y).
  exists (u ++ v). rewrite T, T', app_assoc, refs_app. auto.
Qed.
Lemma O_conseq b {A} (m : M A) (P R : A -> list tokref -> Prop) : O b m P -> (forall a u, P a u -> R a u) -> O b m R.
Proof. intros H I s a s' G X. destruct (H s a s' G X) as (u & T & Y). eauto. Qed.
Lemma O_pure b {A} (m : M A) (R : A -> list tokref -> Prop) : pure m -> (forall a, R a []) -> O b m R.
Proof. intros H I s a s' _ X. apply H in X as ->. exists []. auto. Qed.
Lemma O_current b (R : option tokref -> list tokref -> Prop) : (forall t, plain b t -> R (Some t) []) -> R None [] -> O b current R.
Proof.
  intros H N s a s' G X. unfold current in X. destruct (st_toks s) as [|r l] eqn:E; [discriminate|].
  destruct r as [t|es|t es]; injection X as <- <-; exists []; (split; [now rewrite ?E|]); auto; apply H; now inversion G.
Qed.
Lemma O_peek b (R : option tokref -> list tokref -> Prop) : (forall o, R o []) -> O b peek R.
Proof.
  intros H s a s' G X. unfold peek in X. destruct (st_toks s) as [|r [|q l]] eqn:E; try discriminate.
  destruct q as [t|es|t es]; injection X as <- <-; exists []; (split; [now rewrite ?E|]); auto.
Qed.
Lemma O_take b (R : tokref -> list tokref -> Prop) : (forall t, plain b t -> R t [t]) -> O b take R.
Proof.
  intros H s a s' G X. unfold take, bind, consume, unwrap, ret, panic in X. destruct (st_toks s) as [|r l] eqn:E; [discriminate|].
  destruct r as [t|es|t es]; try discriminate; injection X as <- <-.
  - exists [LOk t]. split; [now rewrite ?E|]. apply H. now inversion G.
  - exists [LRecovered t es]. split; [now rewrite ?E|]. apply H. now inversion G.
Qed.
Lemma O_consume b (R : pres tokref -> list tokref -> Prop) : (forall t, R (Value t) [t]) -> R LexerMoved [] -> R NotFound [] -> O b consume R.
Proof.
  intros H1 H2 H3 s a s' G X. unfold consume in X. destruct (st_toks s) as [|r l] eqn:E.
  - injection X as <- <-. exists []. cbn. rewrite ?E. auto.
  - destruct r as [t|es|t es]; injection X as <- <-.
    + exists [LOk t]. split; [now rewrite ?E|apply H1].
    + exists [LFatal es]. split; [now rewrite ?E|exact H2].
    + exists [LRecovered t es]. split; [now rewrite ?E|apply H1].
Qed.
Lemma O_error b r msg (R : unit -> list tokref -> Prop) : R tt [] -> O b (token_error r msg) R.
Proof. intros H s a s' _ [= <- <-]. now exists []. Qed.
Lemma O_error_ranged b r msg x y (R : unit -> list tokref -> Prop) : R tt [] -> O b (token_error_ranged r msg x y) R.
Proof. intros H s a s' _ [= <- <-]. now exists []. Qed.
Lemma O_loop b {A B} (I : A -> list tokref -> Prop) (body : A -> M (A + B)) a (R : B -> list tokref -> Prop) : I a [] ->
  (forall a u, I a u -> O b (body a) (fun r v => match r with inl a' => I a' (u ++ v) | inr x => R x (u ++ v) end)) -> O b (loop body a) R.
Proof.
  intros Ia Hb s x s'. unfold loop. generalize (S (List.length (st_toks s))). intros n G X.
  assert (Y : forall n a s u, I a u -> plain_results b (st_toks s) -> loop_ n body a s = Done (x, s') ->
    exists v, st_toks s = v ++ st_toks s' /\ R x (u ++ refs_of v)).
  { clear - Hb. induction n as [|n IH]; intros a s u Ia G X; [discriminate|]. cbn [loop_] in X.
    destruct (body a s) as [[r s1]| |] eqn:X1; try discriminate. destruct (Hb a u Ia s r s1 G X1) as (v & T & K). destruct r as [a1|y].
    - rewrite T in G. destruct (IH a1 s1 _ K (plain_tail _ _ _ G) X) as (w & T' & Y). exists (v ++ w). rewrite T, T', app_assoc, refs_app, app_assoc. auto.
    - injection X as <- <-. exists v. auto. }
  exact (Y n a s [] Ia G X).
Qed.
Lemma O_consume_if b y (R : option tokref -> list tokref -> Prop) : (forall t, plain b t -> is_symbol t y = true -> R (Some t) [t]) -> R None [] -> O b (consume_if y) R.
Proof.
  intros H N. unfold consume_if. intros s a s' G X. unfold bind, current in X. destruct (st_toks s) as [|r l] eqn:E; [discriminate|].
  destruct r as [t|es|t es].
  - destruct (is_symbol t y) eqn:Y.
    + unfold take, bind, consume, unwrap, ret in X. rewrite E in X. injection X as <- <-. exists [LOk t]. split; [now rewrite ?E|]. apply H; [now inversion G|assumption].
    + injection X as <- <-. exists []. split; [now rewrite ?E|assumption].
  - injection X as <- <-. exists []. split; [now rewrite ?E|assumption].
  - destruct (is_symbol t y) eqn:Y.
    + unfold take, bind, consume, unwrap, ret in X. rewrite E in X. injection X as <- <-. exists [LRecovered t es]. split; [now rewrite ?E|]. apply H; [now inversion G|assumption].
    + injection X as <- <-. exists []. split; [now rewrite ?E|assumption].
Qed.
Lemma O_consume_if_symbols b ys (R : option tokref -> list tokref -> Prop) : (forall t, R (Some t) [t]) -> R None [] -> O b (consume_if_symbols ys) R.
Proof.
  intros H N. unfold consume_if_symbols. apply O_bind, O_current; [intros t _; destruct (existsb (is_symbol t) ys)|now apply O_ret].
  - apply O_bind, O_take. intros t' _. apply O_ret. cbn. auto.
  - now apply O_ret.
Qed.
Lemma O_require b y msg (R : option tokref -> list tokref -> Prop) : (forall t, R (Some t) [t]) -> R None [] -> O b (require y msg) R.
Proof.
  intros H N. unfold require. apply O_bind, O_current; [intros t _; destruct (is_symbol t y)|now apply O_ret].
  - apply O_bind, O_take. intros t' _. apply O_ret. cbn. auto.
  - apply O_bind, O_error. now apply O_ret.
Qed.
Lemma O_require_token b y msg x (R : option tokref -> list tokref -> Prop) : (forall t, R (Some t) [t]) -> R None [] -> O b (require_with_reference_token y msg x) R.
Proof.
  intros H N. unfold require_with_reference_token. apply O_bind, O_current; [intros t _; destruct (is_symbol t y)|now apply O_ret].
  - apply O_bind, O_take. intros t' _. apply O_ret. cbn. auto.
  - apply O_bind, O_error. now apply O_ret.
Qed.
Lemma O_require_range b y msg x z (R : option tokref -> list tokref -> Prop) : (forall t, R (Some t) [t]) -> R None [] -> O b (require_with_reference_range y msg x z) R.
Proof.
  intros H N. unfold require_with_reference_range. apply O_bind, O_current; [intros t _; destruct (is_symbol t y)|now apply O_ret].
  - apply O_bind, O_take. intros t' _. apply O_ret. cbn. auto.
  - apply O_bind, O_error_ranged. now apply O_ret.
Qed.
Lemma O_require_callback b y msg ab (R : option tokref -> list tokref -> Prop) : pure ab -> (forall t, R (Some t) [t]) -> R None [] -> O b (require_with_reference_range_callback y msg ab) R.
Proof.
  intros P H N. unfold require_with_reference_range_callback. apply O_bind, O_current; [intros t _; destruct (is_symbol t y)|now apply O_ret].
  - apply O_bind, O_take. intros t' _. apply O_ret. cbn. auto.
  - apply O_bind, O_pure; [assumption|]. intros x. apply O_bind, O_error_ranged. now apply O_ret.
Qed.
Lemma O_basic c b w (R : tokref -> list tokref -> Prop) : (forall t, inserted c t -> R t []) -> O b (basic c w) R.
Proof.
  intros H s a s' _ X. unfold basic, lift in X. destruct (basic_symbol (c_feat c) w) as [r| |] eqn:E; try discriminate. injection X as <- <-.
  exists []. split; [reflexivity|]. apply H. now apply (in_symbol c w).
Qed.
Lemma O_errors b (R : list error -> list tokref -> Prop) : (forall es, R es []) -> O b errors R.
Proof. intros H s a s' _ [= <- <-]. now exists []. Qed.
Lemma O_lexer_current b (R : option (lexres tokref) -> list tokref -> Prop) : (forall o, R o []) -> O b Parsers.lexer_current R.
Proof. intros H s a s' _ [= <- <-]. now exists []. Qed.
