(** There is only one tree with a given sequence of operands and operators that respects precedence and associativity.
    Proof: such a tree is the result of precedence climbing, which is deterministic. *)
From Verif Require Import PrintProofs TreeFacts.
From Verif Require Export GrammarSpec.
From Coq Require Import Lia.
Local Open Scope nat_scope.

Definition lbp (s : symbol) : nat := if right_associative s then 2 * level s + 1 else 2 * level s.
Definition rbp (s : symbol) : nat := if right_associative s then 2 * level s else 2 * level s + 1.
Definition opsym (o : tree) : symbol := match o with Nd (KBinOp s) _ => s | _ => SCaret end.
Definition known (s : symbol) : bool := existsb (in_level s) ([SCaret] :: levels).
Definition bin (l o r : tree) : tree := Nd KExprBinary [l; o; r].
Definition un (o e : tree) : tree := Nd KExprUnary [o; e].

(** Precedence climbing: an expression with operators tighter than [q]; and its continuation. *)
Inductive climbs : nat -> list unit_of -> tree -> list unit_of -> Prop :=
| c_operand q e us e' r : extends q e us e' r -> climbs q (UOperand e :: us) e' r
| c_unary q o us e us' e' r : climbs 22 us e us' -> extends q (un o e) us' e' r -> climbs q (UUnary o :: us) e' r
with extends : nat -> tree -> list unit_of -> tree -> list unit_of -> Prop :=
| x_stop q e us : match us with UBinary o :: _ => lbp (opsym o) <= q | _ => True end -> extends q e us e us
| x_more q l o us r us' e' w : q < lbp (opsym o) -> climbs (rbp (opsym o)) us r us' -> extends q (bin l o r) us' e' w -> extends q l (UBinary o :: us) e' w.
Scheme climbs_ind2 := Induction for climbs Sort Prop with extends_ind2 := Induction for extends Sort Prop.
Combined Scheme climbing from climbs_ind2, extends_ind2.

Lemma deterministic :
  (forall q us e r, climbs q us e r -> forall e2 r2, climbs q us e2 r2 -> e2 = e /\ r2 = r) /\
  (forall q l us e r, extends q l us e r -> forall e2 r2, extends q l us e2 r2 -> e2 = e /\ r2 = r).
Proof.
  apply climbing.
  - intros q e us e' r _ IH e2 r2 H. inversion H; subst. auto.
  - intros q o us e us' e' r _ IH1 _ IH2 e2 r2 H. inversion H; subst. match goal with K : climbs 22 us _ _ |- _ => apply IH1 in K as [-> ->] end. auto.
  - intros q e us H e2 r2 K. inversion K; subst; [auto|lia].
  - intros q l o us r us' e' w Hq _ IH1 _ IH2 e2 r2 K. inversion K; subst; [lia|]. match goal with K : climbs _ us _ _ |- _ => apply IH1 in K as [-> ->] end. auto.
Qed.

(** What is an operand. *)
Inductive shape_of : tree -> Prop :=
| so_binary l s ts r : shape_of (bin l (Nd (KBinOp s) ts) r)
| so_unary o e : shape_of (un o e)
| so_operand e : head_of e = Operand -> flatten e = [UOperand e] -> shape_of e.
Lemma shapes e : has_ty e (YNode NExpression) -> shape_of e.
Proof.
  intros H. destruct e as [r|c cs|k cs].
  - now apply so_operand.
  - now apply so_operand.
  - apply wt_nd in H as [E H]. destruct k; try (now apply so_operand); try discriminate E; cbn [fields] in H; fields_inv H.
    + match goal with H : has_ty ?x (YNode NBinOp) |- _ => rename H into Ho; rename x into o end. destruct o as [?|d ? |k cs]; [discriminate Ho|apply wt_con in Ho as (? & X & _); now destruct d|].
      apply wt_nd in Ho as [E1 _]. destruct k; try discriminate E1. apply so_binary.
    + apply so_unary.
Qed.

Definition operators : list symbol := SCaret :: List.concat levels.
Lemma known_in s : known s = true -> In s operators.
Proof.
  unfold known. intros H. apply existsb_exists in H as (l & Hl & H). unfold in_level in H. apply existsb_exists in H as (z & Hz & H).
  unfold symbol_eqb in H. destruct (symbol_eq_dec s z) as [<-|]; [clear H|discriminate]. unfold operators. destruct Hl as [<-|Hl]; [destruct Hz as [<-|[]]; now left|]. right. apply in_concat. now exists l.
Qed.
Definition imp (a b : bool) : bool := negb a || b.
Definition table_ok (s z : symbol) : bool :=
  imp (left_of (Binary z) s) (Nat.leb (lbp s) (lbp z) && Nat.leb (lbp s) (rbp z)) &&
  imp (right_of (Binary z) s) (Nat.ltb (rbp s) (lbp z) && Nat.leb (rbp s) (rbp z)) &&
  imp (under_unary (Binary z)) (Nat.ltb 22 (lbp z) && Nat.leb 22 (rbp z)) &&
  imp (left_of Unary s) (Nat.leb (lbp s) 22) &&
  imp (Nat.leb (lbp z) (rbp s)) (Nat.leb (lbp z) 22) && Nat.ltb 0 (lbp s).
Lemma table_all : forallb (fun s => forallb (table_ok s) operators) operators = true.
Proof. vm_compute. reflexivity. Qed.
Lemma imp_true a b : imp a b = true -> a = true -> b = true.
Proof. destruct a; [trivial|discriminate]. Qed.
Lemma binding s z : known s = true -> known z = true ->
  (left_of (Binary z) s = true -> lbp s <= lbp z /\ lbp s <= rbp z) /\
  (right_of (Binary z) s = true -> rbp s < lbp z /\ rbp s <= rbp z) /\
  (under_unary (Binary z) = true -> 22 < lbp z /\ 22 <= rbp z) /\
  (left_of Unary s = true -> lbp s <= 22) /\
  (lbp z <= rbp s -> lbp z <= 22) /\ 0 < lbp s.
Proof.
  intros Ks Kz. apply known_in in Ks, Kz. pose proof table_all as T. rewrite forallb_forall in T. specialize (T _ Ks). rewrite forallb_forall in T. specialize (T _ Kz).
  unfold table_ok in T. rewrite !andb_true_iff in T. destruct T as (((((T1 & T2) & T3) & T4) & T5) & T6).
  split; [|split; [|split; [|split; [|split]]]].
  - intros H. apply (imp_true _ _ T1) in H. now rewrite andb_true_iff, !Nat.leb_le in H.
  - intros H. apply (imp_true _ _ T2) in H. now rewrite andb_true_iff, Nat.ltb_lt, Nat.leb_le in H.
  - intros H. apply (imp_true _ _ T3) in H. now rewrite andb_true_iff, Nat.ltb_lt, Nat.leb_le in H.
  - intros H. apply (imp_true _ _ T4) in H. now rewrite Nat.leb_le in H.
  - intros H. apply Nat.leb_le in H. apply (imp_true _ _ T5) in H. now rewrite Nat.leb_le in H.
  - now apply Nat.ltb_lt.
Qed.

(** The binary operators at the left edge bind tighter than [q]; those at the right edge do not release [p]. *)
Definition left_edge (q : nat) (h : outer) : Prop := match h with Binary s => q < lbp s | _ => True end.
Definition right_edge (p : nat) (h : outer) : Prop := match h with Binary s => p <= rbp s | Unary => p <= 22 | Operand => True end.
Definition next_op (us : list unit_of) (h : outer) : Prop :=
  match us with UBinary o :: _ => known (opsym o) = true /\ right_edge (lbp (opsym o)) h | _ => True end.

Lemma head_known x z : every known_operator x = true -> head_of x = Binary z -> known z = true.
Proof.
  intros Kx Hx. destruct x as [?|? ?|k cs]; try discriminate. destruct k; try discriminate. destruct cs as [|x0 [|[?|? ?|k1 cs1] [|x2 [|? ?]]]]; try discriminate.
  all: cbn in Hx; destruct k1; try discriminate Hx. injection Hx as <-. apply every_nd in Kx as [_ Kx]. apply Forall_inv_tail, Forall_inv in Kx. now apply every_nd in Kx as [Kx _].
Qed.
Lemma climbs_back : forall e q us e' r, has_ty e (YNode NExpression) -> every precedence_node e = true -> every known_operator e = true ->
  left_edge q (head_of e) -> next_op us (head_of e) -> extends q e us e' r -> climbs q (flatten e ++ us) e' r.
Proof.
  induction e as [r|c cs IH|k cs IH] using tree_ind'; intros q us e' w Ty Pr Kn Le Ne X.
  - now constructor.
  - now constructor.
  - pose proof (shapes _ Ty) as Sh. remember (Nd k cs) as e eqn:Ee. destruct Sh as [l s ts r|o e|e Ho Fl].
    + unfold bin, un in Ee. injection Ee as <- <-. apply wt_nd in Ty as [_ Ty]. cbn [fields] in Ty. fields_inv Ty.
      apply every_nd in Pr as [P0 Pr]. apply every_nd in Kn as [_ Kn]. cbn [precedence_node] in P0. apply andb_true_iff in P0 as [Pl Prr].
      inversion_clear IH as [|? ? IHl IH1]. inversion_clear IH1 as [|? ? _ IH2]. inversion_clear IH2 as [|? ? IHr _].
      inversion_clear Pr as [|? ? Pr1 Pr2]. inversion_clear Pr2 as [|? ? _ Pr3]. inversion_clear Pr3 as [|? ? Pr4 _].
      inversion_clear Kn as [|? ? Kn1 Kn2]. inversion_clear Kn2 as [|? ? Kn3 Kn4]. inversion_clear Kn4 as [|? ? Kn5 _].
      apply every_nd in Kn3 as [Ks _]. cbn [known_operator] in Ks. change (known s = true) in Ks. cbn [head_of bin left_edge] in Le.
      pose proof head_known as Hk.
      cbn [flatten bin]. rewrite <- app_assoc. cbn [app]. apply IHl; try assumption.
      * destruct (head_of l) as [z| |] eqn:Hl; try exact I. cbn. destruct (binding s z Ks (Hk _ _ Kn1 Hl)) as (B & _). destruct (B Pl). lia.
      * cbn [next_op opsym]. split; [assumption|]. destruct (head_of l) as [z| |] eqn:Hl; cbn; [| |exact I].
        -- destruct (binding s z Ks (Hk _ _ Kn1 Hl)) as (B & _). now destruct (B Pl).
        -- destruct (binding s s Ks Ks) as (_ & _ & _ & B & _). now apply B.
      * apply x_more with (r := r) (us' := us); cbn [opsym]; [assumption| |assumption].
        apply IHr; try assumption.
        -- destruct (head_of r) as [z| |] eqn:Hr; try exact I. cbn. destruct (binding s z Ks (Hk _ _ Kn5 Hr)) as (_ & B & _). now destruct (B Prr).
        -- unfold next_op in *. destruct us as [|[?|o|?] us]; try exact I. cbn [head_of bin right_edge] in Ne. destruct Ne as [Ko Ne]. split; [assumption|].
           destruct (head_of r) as [z| |] eqn:Hr; cbn; [| |exact I].
           ++ destruct (binding s z Ks (Hk _ _ Kn5 Hr)) as (_ & B & _). destruct (B Prr). lia.
           ++ destruct (binding s (opsym o) Ks Ko) as (_ & _ & _ & _ & B & _). now apply B.
        -- apply x_stop. destruct us as [|[?|o|?] us]; try exact I. cbn [next_op head_of bin right_edge] in Ne. apply Ne.
    + unfold bin, un in Ee. injection Ee as <- <-. apply wt_nd in Ty as [_ Ty]. cbn [fields] in Ty. fields_inv Ty.
      apply every_nd in Pr as [P0 Pr]. apply every_nd in Kn as [_ Kn]. cbn [precedence_node] in P0.
      inversion_clear IH as [|? ? _ IH1]. inversion_clear IH1 as [|? ? IHe _].
      inversion_clear Pr as [|? ? _ Pr1]. inversion_clear Pr1 as [|? ? Pr2 _].
      inversion_clear Kn as [|? ? _ Kn1]. inversion_clear Kn1 as [|? ? Kn2 _].
      assert (Hk : forall z, head_of e = Binary z -> known z = true) by (intros z; now apply head_known).
      cbn [flatten un app]. apply c_unary with (e := e) (us' := us); [|assumption]. apply IHe; try assumption.
      * destruct (head_of e) as [z| |] eqn:He; try exact I. cbn. destruct (binding z z (Hk _ eq_refl) (Hk _ eq_refl)) as (_ & _ & B & _). now destruct (B P0).
      * unfold next_op in *. destruct us as [|[?|o2|?] us]; try exact I. cbn [head_of un right_edge] in Ne. destruct Ne as [Ko Ne]. split; [assumption|].
        destruct (head_of e) as [z| |] eqn:He; cbn; [|assumption|exact I]. destruct (binding z z (Hk _ eq_refl) (Hk _ eq_refl)) as (_ & _ & B & _). destruct (B P0). lia.
      * apply x_stop. destruct us as [|[?|o2|?] us]; try exact I. cbn [next_op head_of un right_edge] in Ne. apply Ne.
    + rewrite Fl. now constructor.
Qed.

Lemma precedence_unique e1 e2 : wt e1 (YNode NExpression) = true -> wt e2 (YNode NExpression) = true ->
  every precedence_node e1 = true -> every precedence_node e2 = true -> every known_operator e1 = true -> every known_operator e2 = true ->
  flatten e1 = flatten e2 -> e1 = e2.
Proof.
  assert (G : forall e, has_ty e (YNode NExpression) -> every precedence_node e = true -> every known_operator e = true -> climbs 0 (flatten e) e []).
  { intros e Ty Pr Kn. rewrite <- (app_nil_r (flatten e)). apply climbs_back; try assumption; [|exact I|now apply x_stop].
    destruct (head_of e) as [z| |] eqn:Hx; try exact I. cbn. enough (known z = true) as K by now apply (binding z z K K).
    now apply (head_known e). }
  intros T1 T2 P1 P2 K1 K2 E. pose proof (G _ T1 P1 K1) as C1. pose proof (G _ T2 P2 K2) as C2. rewrite E in C1.
  now destruct (proj1 deterministic _ _ _ _ C2 _ _ C1).
Qed.
