(** The tokens of trees are drawn from those of the source (C55): types and function bodies. *)
From Verif Require Import LexerSpec PunctuatedProofs.
From Verif Require Export Order2.
From Coq Require Import Lia Permutation.
Local Open Scope nat_scope.
Import ListNotations.

(** ** Types *)
Definition arg_toks (a : type_argument) : list tokref := printed (arg_tree a).
Lemma arg_list l : printed (punct arg_tree l) = list_toks arg_toks l.
Proof. apply printed_punct. Qed.
Lemma tuple_kept c b l u : kept c b (list_toks arg_toks l) u -> kept c b (list_toks printed (p_from_iter (map (pair_map ta_type) (p_pairs l)))) u.
Proof.
  intros K. eapply kept_trans; [|exact K]. clear K. destruct l as [l]. unfold list_toks. cbn [p_from_iter p_pairs pairs].
  induction l as [|x l IH]; [apply kept_nil|]. cbn [map flat_map]. apply kept_app; [|exact IH].
  assert (X : forall a, kept c b (printed (ta_type a)) (arg_toks a)).
  { intros a. unfold arg_toks, arg_tree. rewrite (printed_plain KTypeArgument) by reflexivity. cbn [flat_map]. rewrite app_nil_r. apply kept_drop, kept_refl. }
  destruct x as [a|a q]; cbn [pair_map pair_toks]; [apply X|]. apply kept_app; [apply X|apply kept_refl].
Qed.
Lemma arg_toks_mk n t : arg_toks (mkArg n t) = match n with Some (x, y) => [x; y] | None => [] end ++ printed t.
Proof. unfold arg_toks, arg_tree. cbn [ta_name ta_type]. destruct n as [[x y]|]; eprint; elist; reflexivity. Qed.
Ltac ktype := rewrite ?arg_list, ?list_toks_push; cbn [pair_toks]; rewrite ?arg_toks_mk; kt.

Tactic Notation "ocut" uconstr(P) := apply O_bind; eapply (O_conseq _ _ P); [|let a := fresh "a" in let u := fresh "u" in let K := fresh "K" in intros a u K].
Lemma o_function_type c b p y : ogood c b p -> O b (expect_function_type c p y) (okept c b printed []).
Proof.
  intros G. unfold expect_function_type. do 2 ostep.
  all: match goal with |- context [is_sym ?o ?y] => generalize (is_sym o y); intros force end; cbv zeta; onorm.
  all: ocut (vkept c b printed []); [auto with ospec|]; destruct a as [g| |]; [|ogo|]; cbv iota zeta; (ostep; ostep; [|ogo]); onorm.
  all: ocut (okept c b (list_toks arg_toks) []);
    [apply (O_loop b (fun l u => kept c b (list_toks arg_toks l) u)); [apply kept_nil|]; intros m v Km; ogo; solve [ktype]|].
  all: destruct a as [l|]; [|ogo]; onorm; (ostep; ostep; [|ogo]); onorm; cbv zeta.
  all: ocut (fun _ u => u = []); [ogo; reflexivity|]; subst; destruct a; [apply O_ret; onorm; eprint; match goal with H : kept _ _ (list_toks arg_toks _) _ |- _ => apply tuple_kept in H end; solve [kt]|].
  all: ogo; rewrite printed_nd; cbn [display_order flat_map pick at_ subs_at subs nth_error map span]; rewrite arg_list; solve [kt].
Qed.
#[export] Hint Resolve o_function_type : ospec.

Lemma o_push_field c b {B} l f (done : punctuated tree -> B) : O b (push_field l f done) (fun r u => exists l', kept c b (list_toks printed l') (list_toks printed l ++ printed f ++ u) /\
  (r = inl l' \/ r = inr (done l'))).
Proof. unfold push_field. ogo; (eexists; split; [|eauto]); kt. Qed.
#[export] Hint Resolve o_push_field : ospec.
Definition table_post c b (h : tokref) (e : table_end) (u : list tokref) : Prop :=
  match e with
  | TableReturn (Some t) => kept c b (printed t) (h :: u)
  | TableReturn None => True
  | TableBreak l None => kept c b (list_toks printed l) u
  | TableBreak _ (Some (a, t)) => kept c b (match a with Some a => [a] | None => [] end ++ printed t) u
  end.
Lemma o_type_table c b p h : ogood c b p -> O b (expect_type_table c p h) (okept c b printed [h]).
Proof.
  intros G. unfold expect_type_table. ocut (table_post c b h).
  - apply (O_loop b (fun '(l, _) u => kept c b (list_toks printed l) u)); [apply kept_nil|]. intros [m i] v Km. cbv zeta. ostep. ostep.
    1: onorm; ocut (fun a u => u = match a with Some a => [a] | None => [] end); [ogo; reflexivity|]. 2: onorm; ocut (fun a u => u = match a with Some a => [a] | None => [] end); [ogo; reflexivity|].
    all: destruct a as [acc|]; subst; ogo.
    all: cbn [table_post]; try solve [kt].
    all: repeat match goal with H : _ \/ _ |- _ => destruct H as [->| ->] end; onorm; cbn [table_post].
    all: match goal with H : kept _ _ (list_toks printed ?l) _ |- kept _ _ (list_toks printed ?l) _ => eapply kept_trans; [exact H|] | _ => idtac end; solve [kt].
  - destruct a as [[t|]|l [[[a|] t]|]]; cbn [table_post app] in K; ogo; kt.
Qed.
#[export] Hint Resolve o_type_table : ospec.

Ltac pairs := repeat match goal with H : (_, _) = (_, _) |- _ => injection H as -> -> end.
Lemma o_simple_type c b p y : ogood c b p -> O b (parse_simple_type c p y) (vkept c b printed []).
Proof.
  intros G. unfold parse_simple_type. ogo; try kt; unfold arrows_of in *; onorm; pairs; kt.
Qed.
#[export] Hint Resolve o_simple_type : ospec.
Definition suffix_post c b h (r : pres tree + punctuated tree * bool * bool) (u : list tokref) : Prop :=
  match r with inl r => vkept c b printed h r u | inr (l, _, _) => kept c b (list_toks printed l) (h ++ u) end.
Lemma o_type_suffix c b p o : ogood c b p -> O b (parse_type_suffix c p o) (vkept c b printed (oprinted o)).
Proof.
  intros G. unfold parse_type_suffix. ocut (fun a u => u = match fst (fst a) with Some t => [t] | None => [] end /\ (o = None \/ fst (fst a) = None)).
  - ogo; auto.
  - destruct a as [[leading un] int]. cbn [fst] in K. destruct K as [-> Ho]. cbv iota zeta. ocut (suffix_post c b (oprinted o)).
    + apply (O_loop b (fun '(l, t, _, _) u => kept c b (list_toks printed l ++ oprinted t) (oprinted o ++ u))).
      * cbn. rewrite app_nil_r. apply kept_refl.
      * intros [[[l t] x] z] v Kl. cbv iota. destruct t as [t|]; ogo; unfold suffix_post; onorm; cbn [pair_new]; try solve [kt];(rewrite app_nil_r; eapply kept_trans; [|exact Kl]; apply kept_drop, kept_refl).
    + destruct leading as [t|]; [destruct Ho as [->|Ho]; [|discriminate]|]. all: destruct a as [r|[[l [|]] [|]]]; cbn [suffix_post] in K; ogo; kt.
Qed.
#[export] Hint Resolve o_type_suffix : ospec.
Lemma o_type c b p : ogood c b p -> O b (parse_type c p) (vkept c b printed []).
Proof. intros G. unfold parse_type. ogo; try kt. Qed.
#[export] Hint Resolve o_type : ospec.
Lemma o_type_or_pack c b p : ogood c b p -> O b (parse_type_or_pack c p) (vkept c b printed []).
Proof. intros G. unfold parse_type_or_pack. ogo; first [now rewrite app_nil_r|kt]. Qed.
#[export] Hint Resolve o_type_or_pack : ospec.
Lemma o_type_instantiation c b p l : ogood c b p -> O b (expect_type_instantiation p l) (okept c b printed [l]).
Proof. intros G. unfold expect_type_instantiation. ogo; unfold arrows_of in *; onorm; pairs; try kt. Qed.
#[export] Hint Resolve o_type_instantiation : ospec.
