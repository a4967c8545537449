(** Specifications of the parser functions: types of Luau. *)
From Verif Require Import PunctuatedProofs.
From Verif Require Export ParserSafe1.
From Coq Require Import Lia ZifyBool ZifyNat ZifyN.
Local Open Scope nat_scope.

Lemma error_at_current_spec c U msg s : has_luau c = true -> W c U (error_at_current msg) s (fun _ s' => len s' = len s /\ hd_tok s' = hd_tok s).
Proof. intros L. unfold error_at_current. go; fin. Qed.
#[export] Hint Resolve error_at_current_spec : spec.

Lemma push_field_spec {B} c U y l x (f : punctuated tree -> B) s : each (has c y) l -> has c y x ->
  W c U (push_field l x f) s (fun r s' => match r with
    | inl m => each (has c y) m /\ p_is_empty m = false /\ len s' < len s
    | inr b => exists m, b = f m /\ each (has c y) m /\ s' = s end).
Proof.
  intros Hl Hx. unfold push_field.
  assert (E : forall x, p_is_empty (p_push l x) = false) by (intros; unfold p_is_empty, p_len, p_push; cbn [pairs]; rewrite app_length, Nat.add_comm; reflexivity).
  go; fin; apply E.
Qed.

Definition table_ok (c : cfg) (s s' : pstate) (r : table_end) : Prop :=
  match r with
  | TableReturn None => True
  | TableReturn (Some t) => has c (YNode NTypeInfo) t /\ no_pack t
  | TableBreak l a => each (has c (YNode NTypeField)) l /\ opt_is (fun x => has c (YNode NTypeInfo) (snd x)) a
  end.

Lemma expect_type_table_spec c U n p q s : good c U n p -> has_luau c = true -> len s <= n ->
  W c U (expect_type_table c p q) s (ov0 (simple c)).
Proof.
  intros G L H. unfold expect_type_table. go.
  loop_post (fun (a : punctuated tree * bool) (_ : pstate) => each (has c (YNode NTypeField)) (fst a)) (fun r s' => table_ok c s s' r); [apply each_new| |].
  - intros [l b] s1 H1 El. cbn [fst] in El.
    repeat (norm; lazymatch goal with
    | |- W _ _ (push_field _ _ _) _ _ => eapply W_conseq; [eapply (push_field_spec c U (YNode NTypeField)); [assumption|typ]|intros ? ? ? ?]
    | |- W _ _ (expect_type_table _ _ _) _ _ => fail
    | |- _ => step end); norm; unfold table_ok; fin.
  - intros r s1 H1 Hr. unfold table_ok in Hr. go; fin.
Qed.
#[export] Hint Resolve expect_type_table_spec : spec.

Lemma parse_simple_type_spec c U n p y s : good c U n p -> has_luau c = true -> len s <= S n ->
  W c U (parse_simple_type c p y) s (pv (simple c) s).
Proof. intros G L H. unfold parse_simple_type. go; fin. Qed.
#[export] Hint Resolve parse_simple_type_spec : spec.

Definition nonempty {A} (l : punctuated A) : Prop := pairs l <> [].
Lemma nonempty_push {A} (l : punctuated A) x : nonempty (p_push l x).
Proof. unfold nonempty. cbn. destruct (pairs l); discriminate. Qed.
Lemma nonempty_puncts l : nonempty l -> exists x m, puncts l = Con CPunctuated (x :: m).
Proof. unfold nonempty, puncts, punct. destruct (pairs l); [contradiction|]. intros _. cbn. eauto. Qed.

Lemma union_has c q l : has_luau c = true -> each (has c (YNode NTypeInfo)) l -> nonempty l ->
  has c (YNode NTypeInfo) (Nd KTypeUnionV [Nd KTypeUnion [opt_tok q; puncts l]]) /\
  has c (YNode NTypeInfo) (Nd KTypeIntersectionV [Nd KTypeIntersection [opt_tok q; puncts l]]).
Proof.
  intros L H N. destruct (nonempty_puncts l N) as (x & m & E). assert (Hp : has c (YPunctuated (YNode NTypeInfo)) (puncts l)) by typ.
  rewrite E in *. split; typ.
Qed.

(** Exactly one of union and intersection is known once a separator has been seen. *)
Definition suffix_ok (q : option tokref) (l : punctuated tree) (u i : bool) : Prop :=
  (u && i = false) /\ (u || i = false -> q = None /\ l = p_new).

Lemma parse_type_suffix_spec c U n p o s : good c U n p -> has_luau c = true -> len s <= S n ->
  opt_is (has c (YNode NTypeInfo)) o ->
  match o with Some _ => True | None => exists t, hd_tok s = Some t /\ is_symbol t SPipe || is_symbol t SAmpersand = true end ->
  W c U (parse_type_suffix c p o) s (fun r s' => match r with
    | Value t => has c (YNode NTypeInfo) t /\ (o = None -> len s' < len s) | _ => True end).
Proof.
  intros G L H Ho Hs. unfold parse_type_suffix. apply W_bind.
  eapply (W_conseq (P := fun '(q, u, i) s' => suffix_ok q p_new u i /\ (o = None -> len s' < len s))).
  { unfold suffix_ok. destruct o as [t|]; norm; go; fin. }
  intros [[q u] i] s1 L1 [Hq P1]. norm. intros _. apply W_bind.
  loop_post (fun '(l, o, u, i) (s : pstate) => each (has c (YNode NTypeInfo)) l /\ opt_is (has c (YNode NTypeInfo)) o /\ suffix_ok q l u i)
     (fun (r : pres tree + punctuated tree * bool * bool) (s' : pstate) => match r with
        | inl (Value t) => has c (YNode NTypeInfo) t
        | inl _ => True
        | inr (l, u, i) => each (has c (YNode NTypeInfo)) l /\ nonempty l /\ (u = true /\ i = false \/ u = false /\ i = true \/ hd_tok s' = None) end).
  - split; [apply each_new|]. split; assumption.
  - intros [[[l o1] u1] i1] s2 L2 (El & Eo & [D1 D2]).
    assert (K : forall t b u i, u && i = false -> suffix_ok q (p_push l (Punctuated t b)) true false /\ suffix_ok q (p_push l (Punctuated t b)) false true).
    { unfold suffix_ok. intros. repeat split; discriminate. }
    unfold suffix_ok. go; fin; try (apply nonempty_push); try discriminate.
    1-2: destruct u1, i1; try discriminate; auto; exfalso; destruct (D2 eq_refl) as [-> ->]; discriminate.
  - intros [[t| |]|[[l u1] i1]] s2 L2 HQ.
    + norm. intros _. step. split; [assumption|]. intros N. specialize (P1 N). arith.
    + go. exact I.
    + go. exact I.
    + destruct HQ as (El & Nl & Hx). intros _. destruct (union_has c q l L El Nl) as [A B].
      destruct u1, i1; try (apply W_ret; split; [assumption|intros N; specialize (P1 N); arith]);
        (apply W_panic; intros I; eapply fatal_unsafe; [exact I|assumption|intuition discriminate]).
Qed.

Lemma parse_type_spec c U n p s : good c U n p -> has_luau c = true -> len s <= S n -> W c U (parse_type c p) s (pv (has c (YNode NTypeInfo)) s).
Proof.
  intros G L H. unfold parse_type. go; try exact I;
    (eapply W_conseq; [eapply parse_type_suffix_spec; eauto; try exact I; arith|]; intros [x| |] s' L' HQ; cbn; try exact I; intuition arith).
Qed.

Lemma parse_type_or_pack_spec c U n p s : good c U n p -> has_luau c = true -> len s <= S n -> W c U (parse_type_or_pack c p) s (pv (has c (YNode NTypeInfo)) s).
Proof.
  intros G L H. unfold parse_type_or_pack. apply W_bind. eapply W_conseq; [eapply parse_simple_type_spec; eauto|].
  intros r s1 L1 HQ _. destruct r as [t| |]; cbn [pv] in *; try (step; exact I). destruct HQ as [[Ht Np] Lt].
  assert (K : W c U (parse_type_suffix c p (Some t)) s1 (pv (has c (YNode NTypeInfo)) s)).
  { eapply W_conseq; [eapply parse_type_suffix_spec; eauto; try exact I; arith|]. intros [x| |] s' L' HQ; cbn; try exact I. split; [apply HQ|arith]. }
  repeat (match goal with |- W _ _ (match ?x with _ => _ end) _ _ => destruct x end; try exact K); try (now destruct Np); step; split; assumption || arith.
Qed.

Lemma expect_type_instantiation_spec c U n p q s : good c U n p -> has_luau c = true -> len s <= S n ->
  W c U (expect_type_instantiation p q) s (ov (has c (YNode NTypeInstantiation)) s).
Proof. intros G L H. unfold expect_type_instantiation. go; fin. Qed.
#[export] Hint Resolve expect_type_instantiation_spec : spec.

Lemma parse_attributes_spec c U s t : has_luau c = true -> hd_tok s = Some t -> is_symbol t SAtSign = true ->
  W c U parse_attributes s (fun r s' => len s' < len s /\ match r with Value l => Forall (has c (YNode NLuauAttribute)) l | NotFound => False | LexerMoved => True end).
Proof.
  intros L E1 E2. unfold parse_attributes. norm. step. step. norm. intros _. rewrite E1. cbn [is_sym]. rewrite E2. cbn [negb].
  eapply (W_loop (fun l s1 => Forall (has c (YNode NLuauAttribute)) l /\ (s1 = s \/ len s1 < len s))).
  { auto. }
  intros l s1 L1 [El Hl]. go; fin.
  - apply Forall_app. split; [assumption|]. apply Forall_cons; [typ|apply Forall_nil].
  - right. arith.
  - destruct Hl as [->|Hl]; [|assumption]. clash.
Qed.
#[export] Hint Resolve parse_attributes_spec : spec.
