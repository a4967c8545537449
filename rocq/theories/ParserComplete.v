(** A logic for runs on tokens of the grammar, which report no error (C36): rules, tests on tokens, lists. *)
From Verif Require Import LexerSpec PunctuatedProofs.
From Verif Require Export ParserClean GrammarSound GrammarFacts GrammarAccept ClearForms.
From Coq Require Import Lia.
Local Open Scope nat_scope.
Import ListNotations.

(** If [m] ends, it has reported no error and stands in front of tokens for which [Q] holds. *)
Definition ok {A} (m : M A) (ts : list tokref) (Q : A -> list tokref -> Prop) : Prop :=
  forall es a s', m (at_toks ts es) = Done (a, s') -> exists ts', s' = at_toks ts' es /\ Q a ts'.

Lemma ok_ret {A} (a : A) ts (Q : A -> list tokref -> Prop) : Q a ts -> ok (ret a) ts Q.
Proof. intros H es b s' [= <- <-]. now exists ts. Qed.
Lemma ok_panic {A} ts (Q : A -> list tokref -> Prop) : ok panic ts Q.
Proof. intros es b s' X. discriminate. Qed.
Lemma ok_fuel {A} ts (Q : A -> list tokref -> Prop) : ok (lift OutOfFuel) ts Q.
Proof. intros es b s' X. discriminate. Qed.
Lemma ok_bind {A B} (m : M A) (k : A -> M B) ts Q : ok m ts (fun a ts' => ok (k a) ts' Q) -> ok (bind m k) ts Q.
Proof.
  intros H es b s' X. unfold bind in X. destruct (m (at_toks ts es)) as [[a s1]| |] eqn:X1; try discriminate.
  destruct (H es a s1 X1) as (ts1 & -> & K). exact (K es b s' X).
Qed.
Lemma ok_conseq {A} (m : M A) ts (P Q : A -> list tokref -> Prop) : ok m ts P -> (forall a ts', P a ts' -> Q a ts') -> ok m ts Q.
Proof. intros H I es a s' X. destruct (H es a s' X) as (ts' & Z & HP). eauto. Qed.
Lemma ok_current t r (Q : option tokref -> list tokref -> Prop) : Q (Some t) (t :: r) -> ok current (t :: r) Q.
Proof. intros H es a s' [= <- <-]. now exists (t :: r). Qed.
Lemma ok_peek t u r (Q : option tokref -> list tokref -> Prop) : Q (Some u) (t :: u :: r) -> ok peek (t :: u :: r) Q.
Proof. intros H es a s' [= <- <-]. now exists (t :: u :: r). Qed.
Lemma ok_take t r (Q : tokref -> list tokref -> Prop) : Q t r -> ok take (t :: r) Q.
Proof. intros H es a s' [= <- <-]. now exists r. Qed.
Lemma ok_consume t r (Q : pres tokref -> list tokref -> Prop) : Q (Value t) r -> ok consume (t :: r) Q.
Proof. intros H es a s' [= <- <-]. now exists r. Qed.
Lemma ok_pure {A} (m : M A) ts (Q : A -> list tokref -> Prop) : pure m -> (forall a, Q a ts) -> ok m ts Q.
Proof. intros H I es a s' X. apply H in X as ->. now exists ts. Qed.
Lemma ok_loop {A B} (I : A -> list tokref -> Prop) (body : A -> M (A + B)) a ts (Q : B -> list tokref -> Prop) :
  I a ts -> (forall a ts1, I a ts1 -> ok (body a) ts1 (fun r ts2 => match r with inl a' => I a' ts2 | inr b => Q b ts2 end)) -> ok (loop body a) ts Q.
Proof.
  intros Ia Hb es b s'. unfold loop. generalize (S (List.length (st_toks (at_toks ts es)))). intros n. revert a ts Ia.
  induction n as [|n IH]; intros a ts Ia X; [discriminate|]. cbn [loop_] in X.
  destruct (body a (at_toks ts es)) as [[r s1]| |] eqn:X1; try discriminate. destruct (Hb a ts Ia es r s1 X1) as (ts1 & -> & K). destruct r as [a1|b1].
  - exact (IH a1 ts1 K X).
  - injection X as <- <-. now exists ts1.
Qed.
Lemma ok_consume_if y t r (Q : option tokref -> list tokref -> Prop) : (if is_symbol t y then Q (Some t) r else Q None (t :: r)) -> ok (consume_if y) (t :: r) Q.
Proof. intros H. apply ok_bind, ok_current. destruct (is_symbol t y); [now apply ok_bind, ok_take, ok_ret|now apply ok_ret]. Qed.
Lemma ok_consume_if_symbols ys t r (Q : option tokref -> list tokref -> Prop) :
  (if existsb (is_symbol t) ys then Q (Some t) r else Q None (t :: r)) -> ok (consume_if_symbols ys) (t :: r) Q.
Proof. intros H. apply ok_bind, ok_current. destruct (existsb (is_symbol t) ys); [now apply ok_bind, ok_take, ok_ret|now apply ok_ret]. Qed.
Lemma ok_require y msg t r (Q : option tokref -> list tokref -> Prop) : is_symbol t y = true -> Q (Some t) r -> ok (require y msg) (t :: r) Q.
Proof. intros E H. apply ok_bind, ok_current. rewrite E. now apply ok_bind, ok_take, ok_ret. Qed.
Lemma ok_require_token y msg a t r (Q : option tokref -> list tokref -> Prop) : is_symbol t y = true -> Q (Some t) r -> ok (require_with_reference_token y msg a) (t :: r) Q.
Proof. intros E H. apply ok_bind, ok_current. rewrite E. now apply ok_bind, ok_take, ok_ret. Qed.
Lemma ok_require_range y msg a b t r (Q : option tokref -> list tokref -> Prop) : is_symbol t y = true -> Q (Some t) r -> ok (require_with_reference_range y msg a b) (t :: r) Q.
Proof. intros E H. apply ok_bind, ok_current. rewrite E. now apply ok_bind, ok_take, ok_ret. Qed.
Lemma ok_require_callback y msg ab t r (Q : option tokref -> list tokref -> Prop) : is_symbol t y = true -> Q (Some t) r -> ok (require_with_reference_range_callback y msg ab) (t :: r) Q.
Proof. intros E H. apply ok_bind, ok_current. rewrite E. now apply ok_bind, ok_take, ok_ret. Qed.

(** ** Tests on tokens *)
Definition term_symbol (x : terminal) (s : symbol) : bool := match x with TSym z => symbol_eqb z s | _ => false end.
Lemma test_symbol t s : is_symbol t s = term_symbol (terminal_of t) s.
Proof. unfold is_symbol, terminal_of. destruct (t_type (r_token t)); reflexivity. Qed.
Lemma test_identifier t : is_identifier t = match terminal_of t with TName => true | _ => false end.
Proof. unfold is_identifier, terminal_of. now destruct (t_type (r_token t)). Qed.
Lemma test_string t : is_string t = match terminal_of t with TString => true | _ => false end.
Proof. unfold is_string, terminal_of. now destruct (t_type (r_token t)). Qed.
Lemma test_number t : is_number t = match terminal_of t with TNumeral => true | _ => false end.
Proof. unfold is_number, terminal_of. now destruct (t_type (r_token t)). Qed.

(** ** Follow sets *)
Definition follows (k : list tokref) (f : terminal -> bool) : Prop := exists t r, k = t :: r /\ f (terminal_of t) = true.
(** What may follow a statement; a parenthesis only if the statement does not end with a prefix expression. *)
Definition stat_end (o : bool) (x : terminal) : bool :=
  match x with
  | TOther | TName => true
  | TSym s => match s with
              | SEnd | SUntil | SElse | SElseIf | SSemicolon | SDo | SWhile | SRepeat | SIf | SFor | SFunction | SLocal | SReturn | SBreak | SGoto | STwoColons => true
              | SLeftParen => negb o
              | _ => false
              end
  | _ => false
  end.
(** What may follow a list of expressions, and an expression. *)
Definition list_end (o : bool) (x : terminal) : bool := stat_end o x || match x with TSym (SRightParen | SDo) => true | _ => false end.
Definition exp_end (o : bool) (x : terminal) : bool :=
  stat_end o x || match x with TSym (SRightParen | SRightBracket | SRightBrace | SComma | SThen | SDo) => true | _ => false end.
(** What may follow a block. *)
Definition block_end (x : terminal) : bool := match x with TOther | TSym (SEnd | SUntil | SElse | SElseIf) => true | _ => false end.
(** What may follow [return], or a parenthesis, without an expression. *)
Definition no_exp (x : terminal) : bool := match x with TOther | TSym (SEnd | SUntil | SElse | SElseIf | SSemicolon | SRightParen | SReturn | SBreak) => true | _ => false end.

Lemma follows_here t r f : f (terminal_of t) = true -> follows (t :: r) f.
Proof. intros H. now exists t, r. Qed.
Lemma follows_weaken k f g : (forall x, f x = true -> g x = true) -> follows k f -> follows k g.
Proof. intros H (t & r & -> & F). exists t, r. auto. Qed.
Ltac ends := repeat match goal with o : bool |- _ => destruct o end; let x := fresh in intros x; destruct x as [| | |[]|]; cbn; try discriminate; try reflexivity; auto.
Lemma list_exp_end o x : list_end o x = true -> exp_end o x = true.
Proof. revert x. ends. Qed.
Lemma stat_list_end o x : stat_end o x = true -> list_end o x = true.
Proof. revert x. ends. Qed.
Lemma block_stat_end o x : block_end x = true -> stat_end o x = true.
Proof. revert x. ends. Qed.
Lemma block_no_exp x : block_end x = true -> no_exp x = true.
Proof. revert x. ends. Qed.
Lemma exp_end_shut o x : exp_end o x = true -> exp_end false x = true.
Proof. revert x. ends. Qed.

(** ** Splitting tokens along a word *)
Lemma terminals_app_inv ts v w : terminals ts = v ++ w -> exists a b, ts = a ++ b /\ terminals a = v /\ terminals b = w.
Proof. apply map_eq_app. Qed.
Lemma terminals_cons_inv ts x w : terminals ts = x :: w -> exists t b, ts = t :: b /\ terminal_of t = x /\ terminals b = w.
Proof. intros H. apply map_eq_cons in H as (t & b & -> & A & B). eauto. Qed.
Lemma terminals_nil_inv ts : terminals ts = [] -> ts = [].
Proof. apply map_eq_nil. Qed.
Ltac split_ts := repeat match goal with
  | H : terminals ?ts = _ ++ _ |- _ => apply terminals_app_inv in H; destruct H as (? & ? & -> & ? & ?)
  | H : terminals ?ts = _ :: _ |- _ => apply terminals_cons_inv in H; destruct H as (? & ? & -> & ? & ?)
  | H : terminals ?ts = [] |- _ => apply terminals_nil_inv in H; subst ts
  end; cbn [app] in *; repeat (rewrite <- app_assoc; cbn [app]).

(** Computes the tests on a token: its terminal is known, or it is in a follow set. *)
Ltac test_known t x E tst lem := rewrite (lem : tst = _); rewrite E; cbn [term_symbol].
Ltac test1 :=
  match goal with
  | E : terminal_of ?t = ?x |- context [is_symbol ?t ?s] =>
      let b := eval vm_compute in (term_symbol x s) in replace (is_symbol t s) with b by (rewrite test_symbol, E; reflexivity)
  | E : terminal_of ?t = ?x |- context [is_identifier ?t] =>
      let b := eval vm_compute in (match x with TName => true | _ => false end) in replace (is_identifier t) with b by (rewrite test_identifier, E; reflexivity)
  | E : terminal_of ?t = ?x |- context [is_string ?t] =>
      let b := eval vm_compute in (match x with TString => true | _ => false end) in replace (is_string t) with b by (rewrite test_string, E; reflexivity)
  | E : terminal_of ?t = ?x |- context [is_number ?t] =>
      let b := eval vm_compute in (match x with TNumeral => true | _ => false end) in replace (is_number t) with b by (rewrite test_number, E; reflexivity)
  | F : _ (terminal_of ?t) = true |- context [is_symbol ?t ?s] =>
      let Z := fresh in destruct (is_symbol t s) eqn:Z; [exfalso; rewrite (sym_terminal _ _ Z) in F; cbn in F; congruence|]; clear Z
  | F : _ (terminal_of ?t) = true |- context [is_identifier ?t] =>
      let Z := fresh in destruct (is_identifier t) eqn:Z; [exfalso; rewrite (name_terminal _ Z) in F; cbn in F; congruence|]; clear Z
  | F : _ (terminal_of ?t) = true |- context [is_string ?t] =>
      let Z := fresh in destruct (is_string t) eqn:Z; [exfalso; rewrite (string_terminal _ Z) in F; cbn in F; congruence|]; clear Z
  | F : _ (terminal_of ?t) = true |- context [is_number ?t] =>
      let Z := fresh in destruct (is_number t) eqn:Z; [exfalso; rewrite (number_terminal _ Z) in F; cbn in F; congruence|]; clear Z
  end.
Ltac tests := repeat (progress (try test1; cbn [orb andb negb existsb is_sym is_ident fst snd])).
Ltac ofollow := match goal with H : follows ?k _ |- _ => let t := fresh "t" in let r := fresh "r" in let F := fresh "F" in destruct H as (t & r & -> & F) end.

(** One step of a run. *)
Ltac ostep := first
  [ lazymatch goal with
    | |- ok (bind _ _) _ _ => apply ok_bind
    | |- ok current (_ :: _) _ => apply ok_current
    | |- ok peek (_ :: _ :: _) _ => apply ok_peek
    | |- ok take (_ :: _) _ => apply ok_take
    | |- ok (consume_if _) (_ :: _) _ => apply ok_consume_if
    | |- ok (consume_if_symbols _) (_ :: _) _ => apply ok_consume_if_symbols
    | |- ok (require _ _) (_ :: _) _ => apply ok_require; [tests; reflexivity|]
    | |- ok (require_with_reference_token _ _ _) (_ :: _) _ => apply ok_require_token; [tests; reflexivity|]
    | |- ok (require_with_reference_range _ _ _ _) (_ :: _) _ => apply ok_require_range; [tests; reflexivity|]
    | |- ok (require_with_reference_range_callback _ _ _) (_ :: _) _ => apply ok_require_callback; [tests; reflexivity|]
    | |- ok (ret _) _ _ => apply ok_ret
    | |- ok panic _ _ => apply ok_panic
    | |- ok (lift OutOfFuel) _ _ => apply ok_fuel
    | |- ok (basic _ _) _ _ => apply ok_pure; [apply pure_basic|intros ?]
    | |- ok (last_token _) _ _ => apply ok_pure; [apply pure_last_token|intros ?]
    | |- ok (first_token _) _ _ => apply ok_pure; [apply pure_first_token|intros ?]
    | |- ok (ends_of _) _ _ => apply ok_pure; [apply pure_ends_of|intros ?]
    end
  | progress tests ].
Ltac osteps := repeat (ostep; cbv beta iota; tests).

(** The usual postcondition: a value, and the tokens [k] are left. *)
Definition val {A} (k : list tokref) (r : pres A) (ts : list tokref) : Prop := ts = k /\ exists a, r = Value a.
Definition som {A} (k : list tokref) (r : option A) (ts : list tokref) : Prop := ts = k /\ exists a, r = Some a.
Definition here {A} (k : list tokref) (_ : A) (ts : list tokref) : Prop := ts = k.
Lemma val_intro {A} k (a : A) : val k (Value a) k.
Proof. split; [reflexivity|now exists a]. Qed.
Lemma som_intro {A} k (a : A) : som k (Some a) k.
Proof. split; [reflexivity|now exists a]. Qed.
Lemma ok_val {A} (m : M (pres A)) ts k (Q : pres A -> list tokref -> Prop) : ok m ts (val k) -> (forall a, Q (Value a) k) -> ok m ts Q.
Proof. intros H I. eapply ok_conseq; [exact H|]. intros a ts' (-> & x & ->). apply I. Qed.
Lemma ok_som {A} (m : M (option A)) ts k (Q : option A -> list tokref -> Prop) : ok m ts (som k) -> (forall a, Q (Some a) k) -> ok m ts Q.
Proof. intros H I. eapply ok_conseq; [exact H|]. intros a ts' (-> & x & ->). apply I. Qed.
Lemma ok_here {A} (m : M A) ts k (Q : A -> list tokref -> Prop) : ok m ts (here k) -> (forall a, Q a k) -> ok m ts Q.
Proof. intros H I. eapply ok_conseq; [exact H|]. intros a ts' ->. apply I. Qed.

(** ** Lists *)
Lemma pop_push {A} (l : punctuated A) v : p_pop (p_push l (End v)) = (Some (End v), l).
Proof. unfold p_pop, p_push. cbn [pairs]. rewrite pop_snoc. now destruct l. Qed.
Lemma push_not_empty {A} (l : punctuated A) x : p_is_empty (p_push l x) = false.
Proof. unfold p_is_empty, p_push. cbn. now destruct (pairs l). Qed.
