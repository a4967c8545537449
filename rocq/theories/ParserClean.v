(** A logic for runs of the parser that report no error, on streams without lexical errors. *)
From Verif Require Import LexerSpec PunctuatedProofs.
From Verif Require Export GrammarSpec ParserMono ParserLogic.
From Coq Require Import Lia.
Local Open Scope nat_scope.

Definition at_toks (ts : list tokref) (es : list error) : pstate := mkState (map LOk ts) es.
(** If [m] succeeds without a new error, it ends in front of tokens for which [Q] holds. *)
Definition E {A} (m : M A) (ts : list tokref) (Q : A -> list tokref -> Prop) : Prop :=
  forall es a s', m (at_toks ts es) = Done (a, s') -> st_errors s' = es -> exists ts', s' = at_toks ts' es /\ Q a ts'.

Lemma E_ret {A} (a : A) ts (Q : A -> list tokref -> Prop) : Q a ts -> E (ret a) ts Q.
Proof. intros H es b s' [= <- <-] _. now exists ts. Qed.
Lemma E_panic {A} ts (Q : A -> list tokref -> Prop) : E panic ts Q.
Proof. intros es b s' X. discriminate. Qed.
Lemma E_fuel {A} ts (Q : A -> list tokref -> Prop) : E (lift OutOfFuel) ts Q.
Proof. intros es b s' X. discriminate. Qed.
Lemma grows_eq a b d es : grows a b -> grows b d -> st_errors a = es -> st_errors d = es -> st_errors b = es.
Proof.
  intros [x X] [z Z] Ha Hd. rewrite X, Ha in *. rewrite Z in Hd.
  apply (f_equal (@List.length _)) in Hd. rewrite !app_length in Hd. destruct x; [now rewrite app_nil_r|cbn in Hd; lia].
Qed.
Lemma E_bind {A B} (m : M A) (k : A -> M B) ts Q : mono m -> (forall a, mono (k a)) -> E m ts (fun a ts' => E (k a) ts' Q) -> E (bind m k) ts Q.
Proof.
  intros H1 H2 H es b s' X Y. unfold bind in X. destruct (m (at_toks ts es)) as [[a s1]| |] eqn:X1; try discriminate.
  pose proof (H1 _ _ _ X1) as G1. pose proof (H2 _ _ _ _ X) as G2. pose proof (grows_eq _ _ _ es G1 G2 eq_refl Y) as Z.
  destruct (H es a s1 X1 Z) as (ts1 & -> & K). exact (K es b s' X Y).
Qed.
Lemma E_conseq {A} (m : M A) ts (P Q : A -> list tokref -> Prop) : E m ts P -> (forall a ts', P a ts' -> Q a ts') -> E m ts Q.
Proof. intros H I es a s' X Y. destruct (H es a s' X Y) as (ts' & Z & HP). eauto. Qed.

Lemma E_current ts (Q : option tokref -> list tokref -> Prop) : (forall t r, ts = t :: r -> Q (Some t) (t :: r)) -> E current ts Q.
Proof. intros H es a s' X _. destruct ts as [|t r]; [discriminate|]. injection X as <- <-. eexists. split; [reflexivity|]. now apply H. Qed.
Lemma E_current_cons t r (Q : option tokref -> list tokref -> Prop) : Q (Some t) (t :: r) -> E current (t :: r) Q.
Proof. intros H. apply E_current. now intros ? ? [= <- <-]. Qed.
Lemma E_peek t r (Q : option tokref -> list tokref -> Prop) : (forall u v, r = u :: v -> Q (Some u) (t :: u :: v)) -> E peek (t :: r) Q.
Proof. intros H es a s' X _. destruct r as [|u v]; [discriminate|]. injection X as <- <-. eexists. split; [reflexivity|]. now apply H. Qed.
Lemma E_take t r (Q : tokref -> list tokref -> Prop) : Q t r -> E take (t :: r) Q.
Proof. intros H es a s' X _. injection X as <- <-. now exists r. Qed.
Lemma E_consume t r (Q : pres tokref -> list tokref -> Prop) : Q (Value t) r -> E consume (t :: r) Q.
Proof. intros H es a s' X _. injection X as <- <-. now exists r. Qed.
Lemma longer es (e : error) : es ++ [e] <> es.
Proof. intros X. apply (f_equal (@List.length _)) in X. rewrite app_length in X. cbn in X. lia. Qed.
Lemma E_error r msg ts Q : E (token_error r msg) ts Q.
Proof. intros es a s' [= <- <-] Y. now apply longer in Y. Qed.
Lemma E_error_ranged r msg a b ts Q : E (token_error_ranged r msg a b) ts Q.
Proof. intros es x s' [= <- <-] Y. now apply longer in Y. Qed.

(** Functions that do not change the state. *)
Definition pure {A} (m : M A) : Prop := forall s a s', m s = Done (a, s') -> s' = s.
Lemma E_pure {A} (m : M A) ts (Q : A -> list tokref -> Prop) : pure m -> (forall a, Q a ts) -> E m ts Q.
Proof. intros H I es a s' X _. apply H in X as ->. now exists ts. Qed.
Lemma pure_lift {A} (o : out A) : pure (lift o).
Proof. intros s a s'. unfold lift. destruct o; intros X; try discriminate. now injection X. Qed.
Lemma pure_ret {A} (a : A) : pure (ret a).
Proof. intros s x s' [= _ <-]. reflexivity. Qed.
Lemma pure_panic {A} : pure (@panic A).
Proof. intros s x s' X. discriminate. Qed.
Lemma pure_bind {A B} (m : M A) (k : A -> M B) : pure m -> (forall a, pure (k a)) -> pure (bind m k).
Proof. intros H1 H2 s b s' X. unfold bind in X. destruct (m s) as [[a s1]| |] eqn:X1; try discriminate. apply H1 in X1 as ->. now apply H2 in X. Qed.
Ltac pure_tac := repeat lazymatch goal with
  | |- pure (bind _ _) => apply pure_bind; [|intros ?]
  | |- pure (match ?x with _ => _ end) => destruct x
  | |- pure (ret _) => apply pure_ret
  | |- pure panic => apply pure_panic
  | |- pure (lift _) => apply pure_lift
  end.
Lemma pure_first_token t : pure (first_token t).
Proof. unfold first_token. pure_tac. Qed.
Lemma pure_last_token t : pure (last_token t).
Proof. unfold last_token. pure_tac. Qed.
Lemma pure_ends_of t : pure (ends_of t).
Proof. unfold ends_of. pure_tac. Qed.
Lemma pure_basic c w : pure (basic c w).
Proof. apply pure_lift. Qed.

Lemma E_loop {A B} (I : A -> list tokref -> Prop) (body : A -> M (A + B)) a ts (Q : B -> list tokref -> Prop) :
  (forall a, mono (body a)) -> I a ts ->
  (forall a ts1, I a ts1 -> E (body a) ts1 (fun r ts2 => match r with inl a' => I a' ts2 | inr b => Q b ts2 end)) -> E (loop body a) ts Q.
Proof.
  intros Hm Ia Hb es b s'. unfold loop. generalize (S (List.length (st_toks (at_toks ts es)))). intros n. revert a ts Ia.
  induction n as [|n IH]; intros a ts Ia X Y; [discriminate|]. cbn [loop_] in X.
  destruct (body a (at_toks ts es)) as [[r s1]| |] eqn:X1; try discriminate.
  - assert (Z : st_errors s1 = es).
    { destruct r as [a1|b1]; [|now injection X as _ <-]. eapply grows_eq; [exact (Hm _ _ _ _ X1)| |reflexivity|exact Y].
      assert (L : mono (fun s => loop_ n body a1 s)); [|exact (L _ _ _ X)].
      clear - Hm. revert a1. induction n as [|n IH]; intros a1 s b s' X; [discriminate|]. cbn [loop_] in X.
      destruct (body a1 s) as [[[a2|b1] s1]| |] eqn:X1; try discriminate.
      - eapply grows_trans; [eapply Hm; eassumption|eapply IH; eassumption].
      - injection X as <- <-. eapply Hm; eassumption. }
    destruct (Hb a ts Ia es r s1 X1 Z) as (ts1 & -> & K). destruct r as [a1|b1].
    + exact (IH a1 ts1 K X Y).
    + injection X as <- <-. now exists ts1.
Qed.

Lemma E_consume_if y ts (Q : option tokref -> list tokref -> Prop) :
  (forall t r, ts = t :: r -> is_symbol t y = true -> Q (Some t) r) -> (forall t r, ts = t :: r -> is_symbol t y = false -> Q None (t :: r)) -> E (consume_if y) ts Q.
Proof.
  intros H1 H2. apply E_bind; [apply mono_current|mono_tac|]. apply E_current. intros t r ->. destruct (is_symbol t y) eqn:X.
  - apply E_bind; [apply mono_take|mono_tac|]. apply E_take, E_ret. now apply H1.
  - apply E_ret. now apply H2.
Qed.
Lemma E_consume_if_symbols ys ts (Q : option tokref -> list tokref -> Prop) :
  (forall t r, ts = t :: r -> existsb (is_symbol t) ys = true -> Q (Some t) r) -> (forall t r, ts = t :: r -> Q None (t :: r)) -> E (consume_if_symbols ys) ts Q.
Proof.
  intros H1 H2. apply E_bind; [apply mono_current|mono_tac|]. apply E_current. intros t r ->. destruct (existsb (is_symbol t) ys) eqn:X.
  - apply E_bind; [apply mono_take|mono_tac|]. apply E_take, E_ret. now apply H1.
  - apply E_ret. now apply H2.
Qed.
Ltac erequire H1 H2 := apply E_bind; [apply mono_current|mono_tac|]; apply E_current; intros t r ->;
  match goal with |- context [is_symbol t ?y] => destruct (is_symbol t y) eqn:X end;
  [ apply E_bind; [apply mono_take|mono_tac|]; apply E_take, E_ret; now apply H1
  | first [ apply E_bind; [auto with mono|mono_tac|first [apply E_error|apply E_error_ranged]] ] ].
Lemma E_require y msg ts (Q : option tokref -> list tokref -> Prop) :
  (forall t r, ts = t :: r -> is_symbol t y = true -> Q (Some t) r) -> E (require y msg) ts Q.
Proof. intros H. erequire H H. Qed.
Lemma E_require_token y msg a ts (Q : option tokref -> list tokref -> Prop) :
  (forall t r, ts = t :: r -> is_symbol t y = true -> Q (Some t) r) -> E (require_with_reference_token y msg a) ts Q.
Proof. intros H. erequire H H. Qed.
Lemma E_require_range y msg a b ts (Q : option tokref -> list tokref -> Prop) :
  (forall t r, ts = t :: r -> is_symbol t y = true -> Q (Some t) r) -> E (require_with_reference_range y msg a b) ts Q.
Proof. intros H. erequire H H. Qed.
Lemma E_require_callback y msg ab ts (Q : option tokref -> list tokref -> Prop) : mono ab -> pure ab ->
  (forall t r, ts = t :: r -> is_symbol t y = true -> Q (Some t) r) -> E (require_with_reference_range_callback y msg ab) ts Q.
Proof.
  intros Hm Hp H. unfold require_with_reference_range_callback. apply E_bind; [apply mono_current|mono_tac|]. apply E_current; intros t r ->. destruct (is_symbol t y) eqn:X.
  - apply E_bind; [apply mono_take|mono_tac|]; apply E_take, E_ret; now apply H.
  - apply E_bind; [assumption|mono_tac|]. apply E_pure; [assumption|]. intros x. apply E_bind; [apply mono_error_ranged|mono_tac|]. apply E_error_ranged.
Qed.

(** ** Properness and printing of the parts *)
Lemma proper_nd k cs : proper_node k cs = true -> Forall proper cs -> proper (Nd k cs).
Proof. intros H1 H2. unfold proper. cbn [every]. rewrite H1. apply forallb_forall. now apply Forall_forall. Qed.
Lemma proper_con c cs : Forall proper cs -> proper (Con c cs).
Proof. intros H. unfold proper. cbn [every]. apply forallb_forall. now apply Forall_forall. Qed.
Lemma nd_proper k cs : proper (Nd k cs) -> proper_node k cs = true /\ Forall proper cs.
Proof. unfold proper. cbn [every]. rewrite andb_true_iff, forallb_forall, Forall_forall. auto. Qed.
Lemma con_proper c cs : proper (Con c cs) -> Forall proper cs.
Proof. unfold proper. cbn [every]. rewrite forallb_forall, Forall_forall. auto. Qed.
Lemma proper_tok r : proper (Tok r).
Proof. reflexivity. Qed.

Lemma printed_span a b : printed (span a b) = [a; b].
Proof. reflexivity. Qed.
Lemma printed_opt_tree o : printed (opt_tree o) = match o with Some t => printed t | None => [] end.
Proof. destruct o; cbn [opt_tree]; rewrite printed_con; cbn; now rewrite ?app_nil_r. Qed.
Lemma printed_opt_tok o : printed (opt_tok o) = match o with Some t => [t] | None => [] end.
Proof. destruct o; reflexivity. Qed.
Lemma printed_vec l : printed (vec l) = flat_map printed l.
Proof. apply printed_con. Qed.

(** The tokens of a punctuated sequence, for values with tokens [pr]. *)
Definition pair_toks {A} (pr : A -> list tokref) (x : pair_of A) : list tokref := match x with End v => pr v | Punctuated v d => pr v ++ [d] end.
Definition list_toks {A} (pr : A -> list tokref) (l : punctuated A) : list tokref := flat_map (pair_toks pr) (pairs l).
Lemma printed_punct {A} (f : A -> tree) l : printed (punct f l) = list_toks (fun v => printed (f v)) l.
Proof.
  unfold punct, list_toks. rewrite printed_con. induction (pairs l) as [|x m IH]; [reflexivity|]. cbn [map flat_map]. rewrite IH. f_equal.
  destruct x; cbn [pair_tree pair_toks]; rewrite printed_con; cbn [flat_map]; now rewrite app_nil_r.
Qed.
Lemma printed_puncts l : printed (puncts l) = list_toks printed l.
Proof. apply printed_punct. Qed.
Lemma list_toks_push {A} (pr : A -> list tokref) l x : list_toks pr (p_push l x) = list_toks pr l ++ pair_toks pr x.
Proof. unfold list_toks. cbn. rewrite flat_map_app. cbn. now rewrite app_nil_r. Qed.
Lemma list_toks_new {A} (pr : A -> list tokref) : list_toks pr p_new = [].
Proof. reflexivity. Qed.

(** All pairs but the last have one of these separators; the last has none, or may have one. *)
Fixpoint spaced {A} (ys : list symbol) (trailing : bool) (l : list (pair_of A)) : Prop :=
  match l with
  | [] => True
  | [End _] => True
  | [Punctuated _ d] => trailing = true /\ existsb (is_symbol d) ys = true
  | Punctuated _ d :: l => existsb (is_symbol d) ys = true /\ spaced ys trailing l
  | End _ :: _ => False
  end.
Lemma spaced_cons {A} ys tr (v : A) d l : spaced ys tr (Punctuated v d :: l) <-> (l = [] -> tr = true) /\ existsb (is_symbol d) ys = true /\ spaced ys tr l.
Proof. destruct l; cbn [spaced]; [|intuition congruence]. intuition. Qed.
(** The pairs pushed inside a loop: all of them punctuated. *)
Definition dotted {A} (ys : list symbol) (l : list (pair_of A)) : Prop :=
  Forall (fun x => match x with End _ => False | Punctuated _ d => existsb (is_symbol d) ys = true end) l.
Lemma dotted_nil {A} ys : dotted ys (@nil (pair_of A)).
Proof. constructor. Qed.
Lemma dotted_new {A} ys : dotted ys (pairs (@p_new A)).
Proof. constructor. Qed.
Lemma dotted_push {A} ys (l : punctuated A) v d : dotted ys (pairs l) -> existsb (is_symbol d) ys = true -> dotted ys (pairs (p_push l (Punctuated v d))).
Proof. intros H D. apply Forall_app. split; [assumption|]. constructor; [assumption|constructor]. Qed.
Lemma dotted_end {A} ys tr (l : punctuated A) v : dotted ys (pairs l) -> spaced ys tr (pairs (p_push l (End v))).
Proof.
  unfold dotted. cbn. induction (pairs l) as [|x m IH]; intros H; [exact I|]. inversion_clear H as [|? ? Hx Hm]. destruct x as [|u d]; [contradiction|].
  cbn [app]. apply spaced_cons. repeat split; auto. intros X. now destruct m.
Qed.
Lemma dotted_spaced {A} ys (l : list (pair_of A)) : dotted ys l -> spaced ys true l.
Proof. intros H. induction H as [|x l Hx _ IH]; [exact I|]. destruct x; [contradiction|]. apply spaced_cons. auto. Qed.
Lemma spaced_trailing {A} ys tr (l : list (pair_of A)) : spaced ys false l -> spaced ys tr l.
Proof.
  induction l as [|x l IH]; [trivial|]. destruct x as [v|v d]; [trivial|]. rewrite !spaced_cons. intros (H1 & H2 & H3). repeat split; auto.
  intros X. now apply H1 in X.
Qed.
Lemma spaced_snoc {A} ys (l : list (pair_of A)) v d w : spaced ys false (l ++ [End v]) -> existsb (is_symbol d) ys = true -> spaced ys false ((l ++ [Punctuated v d]) ++ [End w]).
Proof.
  intros H D. induction l as [|x l IH]; cbn [app] in *.
  - repeat split; auto.
  - destruct x as [u|u e]; [now destruct l|]. apply spaced_cons in H as (H1 & H2 & H3). apply spaced_cons. repeat split; auto. intros X. now destruct l.
Qed.
Definition nonempty {A} (l : punctuated A) : Prop := pairs l <> [].
Lemma nonempty_push {A} (l : punctuated A) x : nonempty (p_push l x).
Proof. unfold nonempty. cbn. now destruct (pairs l). Qed.

Lemma separated_cons ys tr names v s x l :
  separated ys tr names (Con CPunct [v; s] :: x :: l) = (negb names || is_name v) && one_of ys s && separated ys tr names (x :: l).
Proof. reflexivity. Qed.
Lemma separated_spaced {A} (f : A -> tree) ys tr names l : spaced ys tr l -> (names = true -> Forall (fun x => is_name (f (pair_value x)) = true) l) ->
  separated ys tr names (map (pair_tree f) l) = true.
Proof.
  induction l as [|x l IH]; intros H N; [reflexivity|].
  assert (Nx : negb names || is_name (f (pair_value x)) = true). { destruct names; [|reflexivity]. specialize (N eq_refl). now inversion_clear N. }
  assert (Nl : names = true -> Forall (fun x => is_name (f (pair_value x)) = true) l). { intros X. specialize (N X). now inversion_clear N. }
  destruct x as [v|v d]; cbn [map pair_tree pair_value] in *.
  - destruct l; [exact Nx|contradiction].
  - apply spaced_cons in H as (H1 & H2 & H3). specialize (IH H3 Nl).
    assert (X : one_of ys (Tok d) = true) by exact H2.
    destruct l; cbn [map].
    + cbn [separated]. now rewrite X, Nx, (H1 eq_refl).
    + cbn [map] in IH. now rewrite separated_cons, X, Nx, IH.
Qed.
Lemma proper_punct {A} (f : A -> tree) (P : A -> Prop) l : (forall v, P v -> proper (f v)) -> each P l -> proper (punct f l).
Proof.
  intros Hf H. apply proper_con, Forall_map. eapply Forall_impl; [|exact H]. intros [v|v d] Hv; cbn in *; apply proper_con; repeat constructor; auto.
Qed.
Lemma proper_each l : each proper l -> proper (puncts l).
Proof. apply proper_punct. trivial. Qed.
Lemma fits_list {A} (f : A -> tree) ys em tr names l : spaced ys tr (pairs l) -> (em = true \/ nonempty l) ->
  (names = true -> each (fun v => is_name (f v) = true) l) -> fits_piece (PList ys em tr names) (punct f l) = true.
Proof.
  intros H1 H2 H3. cbn [fits_piece punct]. rewrite separated_spaced by assumption. rewrite map_length. unfold nonempty in H2.
  destruct em; [reflexivity|]. destruct (pairs l); [|reflexivity]. destruct H2; congruence.
Qed.

(** ** The usual postconditions *)
Definition vok {A} (pr : A -> list tokref) (P : A -> Prop) (ts : list tokref) (r : pres A) (ts' : list tokref) : Prop :=
  match r with Value a => ts = pr a ++ ts' /\ P a | LexerMoved => False | NotFound => ts' = ts end.
Definition ook {A} (pr : A -> list tokref) (P : A -> Prop) (ts : list tokref) (r : option A) (ts' : list tokref) : Prop :=
  match r with Some a => ts = pr a ++ ts' /\ P a | None => False end.

Create HintDb espec.
Ltac enorm := cbv beta iota; cbn [vok ook fst snd is_sym is_ident option_map] in *; repeat match goal with
  | H : _ /\ _ |- _ => destruct H
  | H : ex _ |- _ => destruct H
  | H : False |- _ => destruct H
  | H : _ && _ = true |- _ => apply andb_true_iff in H
  | H : True |- _ => clear H
  | H : ?x = ?x |- _ => clear H
  | H : _ :: _ = _ :: _ |- _ => injection H; clear H; intros; subst
  | H : ?x = _ ++ _ |- _ => is_var x; subst x
  | H : ?x = _ :: _ |- _ => is_var x; subst x
  | H : ?x = ?y |- _ => lazymatch type of x with list tokref => first [is_var x; subst x | is_var y; subst y] | tree => first [is_var x; subst x] | pres _ => first [is_var x; subst x] | option _ => first [is_var x; subst x] | name => first [is_var x; subst x] end
  end.
Ltac edestr x :=
  lazymatch x with
  | match ?y with _ => _ end => edestr y
  | _ => tryif is_var x then destruct x else
         first [ match goal with H : x = _ |- _ => rewrite H end | let X := fresh "X" in destruct x eqn:X ]
  end.
Ltac estep :=
  lazymatch goal with
  | |- E (bind (token_error _ _) _) _ _ => apply E_bind; [apply mono_error|mono_tac|]; apply E_error
  | |- E (bind (token_error_ranged _ _ _ _) _) _ _ => apply E_bind; [apply mono_error_ranged|mono_tac|]; apply E_error_ranged
  | |- E (bind panic _) _ _ => apply E_bind; [apply mono_panic|mono_tac|]; apply E_panic
  | |- E (bind _ _) _ _ => apply E_bind; [solve [mono_tac]|solve [mono_tac]|]
  | |- E (ret _) _ _ => apply E_ret
  | |- E panic _ _ => apply E_panic
  | |- E current (_ :: _) _ => apply E_current_cons
  | |- E current _ _ => let t := fresh "t" in let r := fresh "r" in let Z := fresh "Z" in apply E_current; intros t r Z
  | |- E peek (_ :: _) _ => let t := fresh "t" in let r := fresh "r" in let Z := fresh "Z" in apply E_peek; intros t r Z
  | |- E take (_ :: _) _ => apply E_take
  | |- E consume (_ :: _) _ => apply E_consume
  | |- E (token_error _ _) _ _ => apply E_error
  | |- E (token_error_ranged _ _ _ _) _ _ => apply E_error_ranged
  | |- E (consume_if _) _ _ => let t := fresh "t" in let r := fresh "r" in let Z := fresh "Z" in apply E_consume_if; intros t r Z ?
  | |- E (require _ _) _ _ => let t := fresh "t" in let r := fresh "r" in let Z := fresh "Z" in apply E_require; intros t r Z ?
  | |- E (require_with_reference_token _ _ _) _ _ => let t := fresh "t" in let r := fresh "r" in let Z := fresh "Z" in apply E_require_token; intros t r Z ?
  | |- E (require_with_reference_range _ _ _ _) _ _ => let t := fresh "t" in let r := fresh "r" in let Z := fresh "Z" in apply E_require_range; intros t r Z ?
  | |- E (require_with_reference_range_callback _ _ _) _ _ => let t := fresh "t" in let r := fresh "r" in let Z := fresh "Z" in
      apply E_require_callback; [mono_tac|repeat first [apply pure_bind; [apply pure_last_token|intros ?]|apply pure_ret]|intros t r Z ?]
  | |- E (consume_if_symbols _) _ _ => let t := fresh "t" in let r := fresh "r" in let Z := fresh "Z" in apply E_consume_if_symbols; [intros t r Z ?|intros t r Z]
  | |- E (basic _ _) _ _ => apply E_pure; [apply pure_basic|intros ?]
  | |- E (first_token _) _ _ => apply E_pure; [apply pure_first_token|intros ?]
  | |- E (last_token _) _ _ => apply E_pure; [apply pure_last_token|intros ?]
  | |- E (ends_of _) _ _ => apply E_pure; [apply pure_ends_of|intros ?]
  | |- E (unwrap ?r) _ _ => unfold unwrap
  | |- E (match ?x with _ => _ end) _ _ => edestr x
  | |- E (let _ := _ in _) _ _ => cbv zeta
  | |- E _ _ _ => eapply E_conseq; [solve [eauto with espec]|]; let a := fresh "a" in let r := fresh "r" in let K := fresh "K" in intros a r K
  end.
Ltac ego := repeat (enorm; estep); enorm.

(** Equations between tokens. *)
Ltac eprint :=
  repeat first [ rewrite printed_tok | rewrite printed_span | rewrite printed_opt_tok | rewrite printed_opt_tree | rewrite printed_vec
               | rewrite printed_puncts | rewrite printed_punct
               | match goal with |- context [printed (Nd ?k ?cs)] => rewrite (printed_plain k cs) by reflexivity; cbn [flat_map] end
               | rewrite printed_nd; cbn [display_order flat_map pick at_ subs_at subs nth_error map span vec] | rewrite printed_con; cbn [flat_map] ].
Ltac elist :=
  cbn [map flat_map]; rewrite ?list_toks_push, ?list_toks_new; cbn [pair_toks app]; rewrite ?app_nil_r, <- ?app_assoc; cbn [app]; repeat (progress rewrite <- ?app_assoc; cbn [app]).
Ltac etoks :=
  eprint; elist; repeat match goal with H : ?a :: ?l = _ |- context [?a :: ?l] => rewrite H end; elist;
  first [reflexivity | congruence].
(** Proper trees. *)
Lemma node_intro k cs ps : written k = Some ps -> all_fit ps cs = true -> joint k cs = true -> precedence_node k cs = true -> proper_node k cs = true.
Proof. intros H1 H2 H3 H4. unfold proper_node. now rewrite H1, H2, H3, H4. Qed.
Lemma all_fit_cons p ps t cs : fits_piece p t = true -> all_fit ps cs = true -> all_fit (p :: ps) (t :: cs) = true.
Proof. intros H1 H2. cbn [all_fit]. now rewrite H1. Qed.
Create HintDb efit.
Lemma fit_opt y o : (forall t, o = Some t -> is_symbol t y = true) -> fits_piece (POpt y) (opt_tok o) = true.
Proof. intros H. destruct o as [t|]; [|reflexivity]. cbn. now rewrite (H t eq_refl). Qed.
Lemma fit_new ys tr names : fits_piece (PList ys true tr names) (puncts p_new) = true.
Proof. reflexivity. Qed.
Ltac ebool := rewrite ?orb_false_r; repeat match goal with H : ?b = true |- context [?b] => rewrite H end; cbn [andb orb negb]; rewrite ?orb_true_r, ?andb_true_r; try reflexivity.
Ltac efit :=
  lazymatch goal with
  | |- fits_piece PAny _ = true => reflexivity
  | |- fits_piece (PList _ _ _ _) _ = true => first [apply fit_new | solve [eauto with efit] | idtac]
  | |- fits_piece (POpt _) (opt_tok None) = true => reflexivity
  | |- fits_piece (POpt _) (opt_tok _) = true => try (apply fit_opt; intros; congruence)
  | |- fits_piece _ _ = true => cbn [fits_piece one_of is_name existsb span]; ebool
  end.
Ltac enode := eapply node_intro; [reflexivity|repeat (apply all_fit_cons; [efit|]); try reflexivity|cbn [joint]; ebool|cbn [precedence_node]; ebool].
Ltac eproper :=
  lazymatch goal with
  | |- proper (Tok _) => reflexivity
  | |- proper (pair_value _) => cbn [pair_value]; eproper
  | |- proper (param_ellipsis _) => unfold param_ellipsis; eproper
  | |- proper (param_name _) => unfold param_name; eproper
  | |- proper (opt_tok ?o) => destruct o; reflexivity
  | |- proper (opt_tree None) => reflexivity
  | |- proper (opt_tree (Some _)) => apply proper_con; repeat (apply Forall_cons; [eproper|]); try apply Forall_nil
  | |- proper (opt_tree ?o) => try (destruct o; [apply proper_con; repeat (apply Forall_cons; [eproper|]); try apply Forall_nil|reflexivity])
  | |- proper (span _ _) => reflexivity
  | |- proper (vec []) => reflexivity
  | |- proper (vec _) => apply proper_con; try assumption
  | |- proper (Con _ _) => apply proper_con; repeat (apply Forall_cons; [eproper|]); try apply Forall_nil; try assumption
  | |- proper (puncts p_new) => reflexivity
  | |- proper (puncts _) => first [apply proper_each; assumption | solve [eauto with efit] | idtac]
  | |- proper (Nd _ _) => apply proper_nd; [enode|repeat (apply Forall_cons; [eproper|]); try apply Forall_nil]
  | |- proper _ => try assumption
  end.
