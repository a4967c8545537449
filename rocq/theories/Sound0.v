(** A logic for runs of the parser without an error that may drop tokens. A tree that was parsed from all tokens of the source has
    as many of them as the source; so none of its parts has lost one. *)
From Verif Require Import LexerSpec PunctuatedProofs.
From Verif Require LexerStep.
From Verif Require Import GrammarSound.
From Verif Require Export ParserClean4 RoundSpec.
From Coq Require Import Lia.
Local Open Scope nat_scope.
Import ListNotations.

Lemma at_toks_inj a b es : at_toks a es = at_toks b es -> a = b.
Proof. unfold at_toks. intros X. injection X as X. revert b X. induction a as [|x a IH]; intros [|y b] X; try discriminate; [reflexivity|]. injection X as -> X. f_equal. auto. Qed.
Lemma E_and {A} (m : M A) ts P Q : E m ts P -> E m ts Q -> E m ts (fun a ts' => P a ts' /\ Q a ts').
Proof.
  intros H1 H2 es a s' X Y. destruct (H1 es a s' X Y) as (t1 & -> & K1). destruct (H2 es a _ X Y) as (t2 & Z & K2). apply at_toks_inj in Z as ->. eauto.
Qed.

(** ** Weights: tokens that start the source or were inserted count nothing. *)
Definition wt (r : tokref) : nat := if N.eqb (p_bytes (t_start (hd (r_token r) (r_leading r)))) 0%N then 0 else 1.
Fixpoint w (ts : list tokref) : nat := match ts with [] => 0 | t :: l => wt t + w l end.
Definition reals (ts : list tokref) : Prop := Forall (fun t => wt t = 1) ts.
Fixpoint tw (t : tree) : nat := match t with Tok r => wt r | Con _ cs | Nd _ cs => list_sum (map tw cs) end.
Definition tws (l : list tree) : nat := list_sum (map tw l).
Definition vw {A} (f : A -> nat) (r : pres A) : nat := match r with Value a => f a | _ => 0 end.
Definition ow {A} (f : A -> nat) (r : option A) : nat := match r with Some a => f a | None => 0 end.
Definition pw {A} (f : A -> nat) (x : pair_of A) : nat := match x with End v => f v | Punctuated v d => f v + wt d end.
Definition lw {A} (f : A -> nat) (l : punctuated A) : nat := list_sum (map (pw f) (pairs l)).
Definition nw (n : name) : nat := wt (n_name n) + ow tw (n_attribute n) + ow tw (n_type_specifier n).

Lemma tws_nil : tws [] = 0. Proof. reflexivity. Qed.
Lemma tws_cons t l : tws (t :: l) = tw t + tws l. Proof. reflexivity. Qed.
Lemma tws_app a b : tws (a ++ b) = tws a + tws b. Proof. unfold tws. now rewrite map_app, list_sum_app. Qed.
Lemma tw_nd k cs : tw (Nd k cs) = tws cs. Proof. reflexivity. Qed.
Lemma tw_con k cs : tw (Con k cs) = tws cs. Proof. reflexivity. Qed.
Lemma tw_tok r : tw (Tok r) = wt r. Proof. reflexivity. Qed.
Lemma tw_span a b : tw (span a b) = wt a + wt b. Proof. cbn. lia. Qed.
Lemma tw_opt_tree o : tw (opt_tree o) = ow tw o. Proof. destruct o; cbn; lia. Qed.
Lemma tw_opt_tok o : tw (opt_tok o) = ow wt o. Proof. destruct o; cbn; lia. Qed.
Lemma tw_vec l : tw (vec l) = tws l. Proof. reflexivity. Qed.
Lemma tw_punct {A} (f : A -> tree) l : tw (punct f l) = lw (fun v => tw (f v)) l.
Proof. unfold punct, lw. cbn [tw]. rewrite !map_map. f_equal. apply map_ext. intros [v|v d]; cbn; lia. Qed.
Lemma tw_puncts l : tw (puncts l) = lw tw l. Proof. apply tw_punct. Qed.
Lemma lw_push {A} (f : A -> nat) l x : lw f (p_push l x) = lw f l + pw f x.
Proof. unfold lw. cbn [p_push pairs]. rewrite map_app, list_sum_app. cbn. lia. Qed.
Lemma lw_new {A} (f : A -> nat) : lw f p_new = 0. Proof. reflexivity. Qed.
Lemma pw_end {A} (f : A -> nat) v : pw f (End v) = f v. Proof. reflexivity. Qed.
Lemma pw_more {A} (f : A -> nat) v d : pw f (Punctuated v d) = f v + wt d. Proof. reflexivity. Qed.
Lemma lw_ext {A} (f g : A -> nat) l : (forall v, f v = g v) -> lw f l = lw g l.
Proof. intros H. unfold lw. f_equal. apply map_ext. intros [v|v d]; cbn; now rewrite H. Qed.
Lemma tws_map {A} (f : A -> tree) l : tws (map f l) = list_sum (map (fun a => tw (f a)) l).
Proof. unfold tws. now rewrite map_map. Qed.
Lemma w_nil : w [] = 0. Proof. reflexivity. Qed.
Lemma w_cons t l : w (t :: l) = wt t + w l. Proof. reflexivity. Qed.
Lemma vw_value {A} (f : A -> nat) a : vw f (Value a) = f a. Proof. reflexivity. Qed.
Lemma vw_moved {A} (f : A -> nat) : vw f LexerMoved = 0. Proof. reflexivity. Qed.
Lemma vw_none {A} (f : A -> nat) : vw f NotFound = 0. Proof. reflexivity. Qed.
Lemma ow_some {A} (f : A -> nat) a : ow f (Some a) = f a. Proof. reflexivity. Qed.
Lemma ow_none {A} (f : A -> nat) : ow f None = 0. Proof. reflexivity. Qed.
#[export] Hint Rewrite tws_nil tws_cons tws_app tw_span tw_opt_tree tw_opt_tok tw_vec @tw_punct tw_puncts tw_nd tw_con tw_tok @lw_push @lw_new @pw_end @pw_more w_nil w_cons
  @vw_value @vw_moved @vw_none @ow_some @ow_none : tw.

Lemma reals_nil : reals []. Proof. constructor. Qed.
Lemma reals_cons t l : reals (t :: l) <-> wt t = 1 /\ reals l.
Proof. split; [intros H; now inversion_clear H|intros []; now constructor]. Qed.
Lemma reals_tail l : reals l -> reals (tl l). Proof. destruct l; [trivial|]. now intros H%reals_cons. Qed.

(** ** Inserted tokens count nothing *)
Definition begin0 (leading : list token) (t : token) : Prop := p_bytes (t_start (hd t leading)) = 0%N.
Lemma trailing0 n c l leading t trailing r : begin0 leading t -> symbol_trailing n c l leading t trailing = Done (SymOk r) -> wt r = 0.
Proof.
  intros B. revert l trailing. induction n as [|n IH]; intros l trailing; [discriminate|]. cbn [symbol_trailing].
  destruct (process_next c l) as [[[[x|es|x es]|] l']| |]; try discriminate.
  - destruct (t_type x); unfold first_char_error; try (destruct (show_token x); discriminate); [|apply IH].
    intros [= <-]. unfold wt. cbn. red in B. now rewrite B.
  - unfold first_error. destruct es; discriminate.
  - unfold first_error. destruct es; discriminate.
Qed.
Lemma leading0 n c t0 l leading r : (leading = [] -> p_bytes (s_pos (l_src l)) = 0%N) -> (forall t, leading <> [] -> begin0 leading t) ->
  symbol_leading n c t0 l leading = Done (SymOk r) -> wt r = 0.
Proof.
  revert l leading. induction n as [|n IH]; intros l leading B1 B2; [discriminate|]. cbn [symbol_leading].
  destruct (process_next c l) as [[[[x|es|x es]|] l']| |] eqn:P; try discriminate.
  - assert (S : t_start x = s_pos (l_src l)) by (apply LexerStep.process_next_ok in P as (_ & P & _); exact P).
    assert (B : begin0 leading x). { destruct leading as [|y leading]; [unfold begin0; cbn; rewrite S; auto|]. now apply (B2 x). }
    destruct (t_type x); unfold first_char_error; try discriminate; try (destruct (show_token x); discriminate).
    + now apply trailing0.
    + apply IH; [now destruct leading|]. intros t _. unfold begin0 in *. destruct leading; cbn in *; exact B.
  - unfold first_error. destruct es; discriminate.
  - unfold first_error. destruct es; discriminate.
Qed.
Lemma basic0 f v r : basic_symbol f v = Done r -> wt r = 0.
Proof.
  unfold basic_symbol, symbol_specific_lua_version. destruct (symbol_leading _ _ _ _ _) as [[r'|e]| |] eqn:X; try discriminate. intros [= <-].
  eapply leading0; [| |exact X]; [reflexivity|congruence].
Qed.
Lemma E_basic c v ts (Q : tokref -> list tokref -> Prop) : (forall r, wt r = 0 -> Q r ts) -> E (basic c v) ts Q.
Proof.
  intros H es a s' X _. unfold basic, lift in X. destruct (basic_symbol (c_feat c) v) as [r| |] eqn:B; try discriminate. injection X as <- <-.
  exists ts. split; [reflexivity|]. apply H. eapply basic0; eassumption.
Qed.
Lemma error_token0 : wt error_token = 0. Proof. reflexivity. Qed.

(** ** Postconditions: from [ts] and a value of weight [g]; [P] if nothing was dropped. *)
Definition held {A} (f : A -> nat) (ts : list tokref) (g : nat) (P : A -> list tokref -> Prop) (a : A) (ts' : list tokref) : Prop :=
  reals ts' /\ f a + w ts' <= g + w ts /\ (f a + w ts' = g + w ts -> P a ts').
(** The same where the first token may be the first one of the source. *)
Definition heldo {A} (f : A -> nat) (ts : list tokref) (g : nat) (P : A -> list tokref -> Prop) (a : A) (ts' : list tokref) : Prop :=
  (ts' = ts \/ reals ts') /\ f a + w ts' <= g + w ts /\ (f a + w ts' = g + w ts -> P a ts').

Lemma heldo_held {A} (m : M A) f ts g P : reals ts -> E m ts (heldo f ts g P) -> E m ts (held f ts g P).
Proof. intros R H. eapply E_conseq; [exact H|]. intros a ts' ([->|X] & K); split; auto. Qed.
Lemma held_heldo {A} (m : M A) f ts g P : E m ts (held f ts g P) -> E m ts (heldo f ts g P).
Proof. intros H. eapply E_conseq; [exact H|]. intros a ts' (X & K). split; auto. Qed.

(** The first token. *)
Definition begins (ts : list tokref) (t : tree) : Prop := match ts with x :: _ => hd_error (printed t) = Some x | [] => False end.
Lemma begins_app x r t l : printed t = x :: l -> begins (x :: r) t.
Proof. intros H. cbn. now rewrite H. Qed.


Ltac jbegins := unfold begins; eprint; cbn [app hd_error]; first [reflexivity | assumption].

(** ** What follows *)
Definition next_not (y : symbol) (ts : list tokref) : Prop := match ts with t :: _ => is_symbol t y = false | [] => True end.
(** Nothing that a type goes on with. *)
Definition quiet (ts : list tokref) : Prop := next_not SQuestionMark ts /\ next_not SPipe ts /\ next_not SAmpersand ts.
Definition name_free (t : tree) (ts : list tokref) : Prop := ends_in_type_name t = true -> next_not SLessThan ts.
Definition settled_ (b : bool) (c : cfg) (e : tree) (ts : list tokref) : Prop :=
  (open e = true -> next_not SLeftParen ts) /\ (b = false -> next_not STwoColons ts) /\
  (ends_in_if e = true -> match ts with t :: _ => precedence_of_token c t = None | [] => True end) /\
  (ends_in_type e = true -> next_not SPipe ts /\ next_not SAmpersand ts) /\ name_free e ts.
Definition settled (c : cfg) (e : tree) (ts : list tokref) : Prop := settled_ (casts e) c e ts.

Definition type_post (c : cfg) (ts : list tokref) (r : pres tree) (ts' : list tokref) : Prop :=
  match r with Value t => type c t /\ begins ts t /\ quiet ts' /\ name_free t ts' | _ => True end.
Definition result_post (c : cfg) (r : pres tree) (ts' : list tokref) : Prop :=
  match r with Value t => result_type c t /\ (is_tuple t = true -> default_pack c t) /\ (closed_result c t \/ quiet ts') /\ name_free t ts' | _ => True end.
Definition expression_post (c : cfg) (ts : list tokref) (r : pres tree) (ts' : list tokref) : Prop :=
  match r with Value e => expression c e /\ begins ts e /\ settled c e ts' /\ below c 0 ts' | LexerMoved => False | NotFound => True end.
Definition unit_post (c : cfg) (ts : list tokref) (r : pres tree) (ts' : list tokref) : Prop :=
  match r with
  | Value e => unit_expression c e /\ begins ts e /\ settled c e ts' /\ fits c (head_of e) ts' /\ ~ is_binary (head_of e)
  | LexerMoved => False
  | NotFound => True
  end.
Definition tower_post (c : cfg) (lhs : tree) (q : nat) (ts : list tokref) (r : pres tree) (ts' : list tokref) : Prop :=
  expression c lhs -> fits c (head_of lhs) ts -> settled c lhs ts ->
  match r with
  | Value e => expression c e /\ fits c (head_of e) ts' /\ below c q ts' /\ settled c e ts' /\ (e = lhs \/ exists s, head_of e = Binary s /\ q <= level s) /\
               hd_error (printed e) = hd_error (printed lhs)
  | _ => False
  end.
Definition jblock_post (c : cfg) (r : pres tree) (_ : list tokref) : Prop := match r with Value b => block c b | _ => False end.
Create HintDb jspec.
Create HintDb jw.
#[export] Hint Unfold nw : jw.
Ltac jnorm := cbv beta iota; cbn [fst snd is_sym is_ident option_map n_name n_attribute n_type_specifier force_name type_post result_post expression_post unit_post jblock_post] in *; repeat match goal with
  | H : _ /\ _ |- _ => destruct H
  | H : ex _ |- _ => destruct H
  | H : False |- _ => destruct H
  | H : True |- _ => clear H
  | H : ?x = ?x |- _ => clear H
  | H : held _ _ _ _ _ _ |- _ => unfold held in H
  | H : heldo _ _ _ _ _ _ |- _ => unfold heldo in H
  | H : _ && _ = true |- _ => apply andb_true_iff in H
  | H : reals (_ :: _) |- _ => apply reals_cons in H
  | H : reals [] |- _ => clear H
  | H : _ :: _ = _ :: _ |- _ => injection H; clear H; intros; subst
  | H : ?x = _ :: _ |- _ => is_var x; subst x
  | H : ?x = ?y |- _ => lazymatch type of x with list tokref => first [is_var x; subst x | is_var y; subst y] | tree => first [is_var x; subst x] | pres _ => first [is_var x; subst x] | option _ => first [is_var x; subst x] | name => first [is_var x; subst x] end
  end.
Ltac jstep :=
  lazymatch goal with
  | |- E (bind (token_error _ _) _) _ _ => estep
  | |- E (bind (token_error_ranged _ _ _ _) _) _ _ => estep
  | |- E (bind panic _) _ _ => estep
  | |- E (bind (error_at_current _) _) _ _ => unfold error_at_current
  | |- E (bind _ _) _ _ => apply E_bind; [solve [mono_tac]|solve [mono_tac]|]
  | |- E (basic _ _) _ _ => let r := fresh "r" in let Z := fresh "Z" in apply E_basic; intros r Z
  | |- E (match ?x with _ => _ end) _ _ => edestr x
  | |- E (let _ := _ in _) _ _ => cbv zeta
  | |- E (ret _) _ _ => apply E_ret
  | |- E ?m _ _ => first [ eapply E_conseq; [solve [eauto with jspec]|]; let a := fresh "a" in let r := fresh "r" in let K := fresh "K" in intros a r K | estep ]
  end.
Ltac jgo := repeat (jnorm; jstep); jnorm.
(** Weights of everything in normal form. *)
Ltac wnorm := repeat first [ progress autorewrite with tw in * ].
Ltac nlia := repeat match goal with H : @eq bool _ _ |- _ => clear H | H : _ -> _ |- _ => clear H end; lia.
(** Nothing was dropped: so nothing was dropped in the parts. *)
Ltac fullen := repeat match goal with H : ?a = ?b -> _ |- _ => let X := fresh in assert (X : a = b) by nlia; specialize (H X); clear X end.
Ltac rsolve := first [assumption | repeat (apply reals_cons; split); assumption | apply reals_nil | left; reflexivity | right; assumption | right; repeat (apply reals_cons; split); assumption].
(** The end of a run. *)
Ltac jend := unfold held, heldo; wnorm; autounfold with jw in *; cbn [n_name n_attribute n_type_specifier force_name fst snd] in *; wnorm; cbn [fst snd] in *;
  split; [try rsolve|split; [try nlia|intros ?F; try solve [exfalso; nlia]; fullen; jnorm]].

Definition luau (c : cfg) : Prop := has_luau c = true /\ has_lua52 c = false /\ has_luajit c = false.
Definition jgood (c : cfg) (p : parsers) : Prop :=
  luau c /\ pmono p /\
  (forall ts, reals (tl ts) -> E (p_block p) ts (heldo (vw tw) ts 0 (jblock_post c))) /\
  (forall ts, reals ts -> E (p_expression p) ts (held (vw tw) ts 0 (expression_post c ts))) /\
  (forall ts, reals ts -> E (p_primary p) ts (held (vw tw) ts 0 (unit_post c ts))) /\
  (forall e q ts, reals ts -> E (p_precedence p e q) ts (held (vw tw) ts (tw e) (tower_post c e q ts))) /\
  (forall ts, reals ts -> E (p_type p) ts (held (vw tw) ts 0 (type_post c ts))) /\
  (forall ts, reals ts -> E (p_type_or_pack p) ts (held (vw tw) ts 0 (result_post c))).
Lemma jg_luau c p : jgood c p -> luau c. Proof. now intros (? & ? & ? & ? & ? & ? & ? & ?). Qed.
Lemma jg_mono c p : jgood c p -> pmono p. Proof. now intros (? & ? & ? & ? & ? & ? & ? & ?). Qed.
Lemma jg_block c p ts : jgood c p -> reals (tl ts) -> E (p_block p) ts (heldo (vw tw) ts 0 (jblock_post c)). Proof. intros (? & ? & ? & ? & ? & ? & ? & ?). auto. Qed.
Lemma jg_expression c p ts : jgood c p -> reals ts -> E (p_expression p) ts (held (vw tw) ts 0 (expression_post c ts)). Proof. intros (? & ? & ? & ? & ? & ? & ? & ?). auto. Qed.
Lemma jg_primary c p ts : jgood c p -> reals ts -> E (p_primary p) ts (held (vw tw) ts 0 (unit_post c ts)). Proof. intros (? & ? & ? & ? & ? & ? & ? & ?). auto. Qed.
Lemma jg_precedence c p e q ts : jgood c p -> reals ts -> E (p_precedence p e q) ts (held (vw tw) ts (tw e) (tower_post c e q ts)). Proof. intros (? & ? & ? & ? & ? & ? & ? & ?). auto. Qed.
Lemma jg_type c p ts : jgood c p -> reals ts -> E (p_type p) ts (held (vw tw) ts 0 (type_post c ts)). Proof. intros (? & ? & ? & ? & ? & ? & ? & ?). auto. Qed.
Lemma jg_type_or_pack c p ts : jgood c p -> reals ts -> E (p_type_or_pack p) ts (held (vw tw) ts 0 (result_post c)). Proof. intros (? & ? & ? & ? & ? & ? & ? & ?). auto. Qed.
#[export] Hint Resolve jg_mono : mono.
#[export] Hint Resolve jg_block jg_expression jg_primary jg_precedence jg_type jg_type_or_pack : jspec.
#[export] Hint Extern 1 (reals (_ :: _)) => apply reals_cons; split : jspec.
#[export] Hint Extern 1 (reals []) => exact reals_nil : jspec.
#[export] Hint Extern 1 (reals (tl _)) => cbn [tl] : jspec.
Ltac jbegin := intros; match goal with H : jgood _ _ |- _ => pose proof (jg_mono _ _ H) | _ => idtac end.

Lemma j_parse_name ts : E parse_name ts (fun r ts' => match r with
  | Value n => exists x, n = force_name x /\ is_identifier x = true /\ ts = x :: ts'
  | NotFound => ts' = ts /\ exists x l, ts = x :: l /\ is_identifier x = false
  | LexerMoved => False end).
Proof. unfold parse_name. jgo; eauto 6. Qed.
#[export] Hint Resolve j_parse_name : jspec.

Lemma sym_eq r s : is_symbol r s = true -> sy r s.
Proof. apply sym_terminal. Qed.
Lemma name_eq r : is_identifier r = true -> nm r.
Proof. apply name_terminal. Qed.
Create HintDb jtree.
#[export] Hint Resolve sym_eq name_eq string_terminal number_terminal : jtree.
