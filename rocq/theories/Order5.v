(** The tokens of trees are drawn from those of the source (C55): expressions. *)
From Verif Require Import LexerSpec PunctuatedProofs.
From Verif Require Export Order4.
From Coq Require Import Lia Permutation.
Local Open Scope nat_scope.
Import ListNotations.

Definition prefix_toks (x : prefix) : list tokref := printed (prefix_tree x).
Lemma o_prefix c b p : ogood c b p -> O b (parse_prefix c p) (vkept c b prefix_toks []).
Proof. intros G. unfold parse_prefix, prefix_toks. ogo; cbn [prefix_tree]; kt. Qed.
#[export] Hint Resolve o_prefix : ospec.
Lemma o_arguments c b p : ogood c b p -> O b (parse_arguments c p) (vkept c b printed []).
Proof. intros G. unfold parse_arguments. ogo; kt. Qed.
#[export] Hint Resolve o_arguments : ospec.
Lemma o_dot_suffix c b m : O b (dot_suffix m) (vkept c b printed []).
Proof. unfold dot_suffix. ogo; kt. Qed.
#[export] Hint Resolve o_dot_suffix : ospec.
Lemma o_no_arguments c b : O b (function_args_empty c) (fun t u => u = [] /\ kept c b (printed t) []).
Proof. unfold function_args_empty. ogo. split; [reflexivity|kt]. Qed.
#[export] Hint Resolve o_no_arguments : ospec.
Lemma o_suffix c b p : ogood c b p -> O b (parse_suffix c p) (vkept c b printed []).
Proof. intros G. unfold parse_suffix. ogo; first [eassumption|kt]. Qed.
#[export] Hint Resolve o_suffix : ospec.
Definition chain_toks (x : prefix * list tree) : list tokref := prefix_toks (fst x) ++ vec_toks (snd x).
Lemma o_chain c b p : ogood c b p -> O b (parse_prefix_and_suffixes c p) (vkept c b chain_toks []).
Proof.
  intros G. unfold parse_prefix_and_suffixes. ostep. ostep. destruct a as [x| |]; try (ogo; fail).
  ocut (fun l u => kept c b (vec_toks l) u).
  - apply (O_loop b (fun l u => kept c b (vec_toks l) u)); [apply kept_nil|]. intros l v Kl. ogo; unfold vec_toks in *; rewrite ?flat_map_app; try kt.
  - ogo. unfold chain_toks; cbn [fst snd]. kt.
Qed.
#[export] Hint Resolve o_chain : ospec.

Lemma o_if_else c b p i : ogood c b p -> O b (expect_if_else_expression p i) (okept c b printed [i]).
Proof.
  intros G. unfold expect_if_else_expression. ogo.
  eapply (O_conseq b _ (okept c b vec_toks [])).
  - apply (O_loop b (fun l u => kept c b (vec_toks l) u)); [apply kept_nil|]. intros l v Kl. ogo; unfold vec_toks in *; rewrite ?flat_map_app; kt.
  - intros [l|] v Kl; ogo. destruct l as [|x l]; eprint; unfold vec_toks in *; cbn [flat_map] in *; kt.
Qed.
#[export] Hint Resolve o_if_else : ospec.
Definition pieces_toks (x : list tree * option tokref) : list tokref := vec_toks (fst x) ++ match snd x with Some r => [r] | None => [] end.
Lemma o_interpolated c b p f : ogood c b p -> O b (expect_interpolated_string p f) (fun t u => kept c b (printed t) (f :: u)).
Proof.
  intros G. unfold expect_interpolated_string. ocut (fun x u => kept c b (pieces_toks x) (f :: u)).
  - apply (O_loop b (fun '(l, r) u => kept c b (vec_toks l ++ [r]) (f :: u))); [apply kept_refl|]. intros [l r] v Kl. ogo; unfold pieces_toks, vec_toks in *; cbn [fst snd] in *; rewrite ?flat_map_app; try kt.
    all: assert (K2 : kept c b (flat_map printed l) (f :: v)) by (eapply kept_trans; [|exact Kl]; rewrite <- (app_nil_r (flat_map printed l)) at 1; apply kept_common, kept_nil); clear Kl; kt.
  - assert (I := in_section c). destruct a as [[|x l] [r|]]; unfold pieces_toks in *; cbn [fst snd vec_toks flat_map] in *; ogo; unfold vec_toks, token_new in *; kt.
Qed.
#[export] Hint Resolve o_interpolated : ospec.
Lemma o_unop c b r : O b (unop c r) (fun t u => u = [] /\ printed t = [r]).
Proof. unfold unop. ogo; split; try reflexivity; eprint; reflexivity. Qed.
#[export] Hint Resolve o_unop : ospec.
Lemma o_unary c b p r : ogood c b p -> O b (parse_unary_expression c p r) (vkept c b printed [r]).
Proof. intros G. unfold parse_unary_expression. cbv zeta. ogo. eprint. match goal with H : printed _ = [r] |- _ => rewrite H end. kt. Qed.
#[export] Hint Resolve o_unary : ospec.
Lemma o_anonymous c b p l : ogood c b p -> O b (anonymous_function c p l) (vkept c b printed (vec_toks l)).
Proof. intros G. unfold anonymous_function, vec_toks. ogo. kt. Qed.
#[export] Hint Resolve o_anonymous : ospec.
Lemma o_primary_arm c b p : ogood c b p -> O b (primary_arm c p) (fun x u => vkept c b printed [] (fst x) u).
Proof.
  intros G. unfold primary_arm. cbv zeta. ogo; cbn [fst] in *; try kt.
  1: eapply kept_trans; [eassumption|]; rewrite app_nil_r; eapply kept_app; [eassumption|apply kept_refl].
  all: match goal with H : kept _ _ (chain_toks _) _ |- _ => rewrite app_nil_r; eapply kept_trans; [|exact H] end; unfold chain_toks, prefix_toks; cbn [fst snd prefix_tree]; clear; eprint; elist;
    first [apply kept_same, kept_nil|rewrite <- (app_nil_r (printed _)) at 1; apply kept_common, kept_nil].
Qed.
#[export] Hint Resolve o_primary_arm : ospec.
Lemma o_primary c b p : ogood c b p -> O b (parse_primary_expression c p) (vkept c b printed []).
Proof. intros G. unfold parse_primary_expression. ogo; try kt. Qed.
#[export] Hint Resolve o_primary : ospec.
Lemma o_binop c b : O b (consume_binop c) (fun x u => exists t, u = [t] /\ printed (fst x) = [t]).
Proof. unfold consume_binop. ogo; eexists; (split; [reflexivity|]); cbn [fst]; eprint; reflexivity. Qed.
#[export] Hint Resolve o_binop : ospec.
Lemma o_climb c b p t n e : ogood c b p -> O b (climb_right c p t n e) (okept c b printed (printed e)).
Proof.
  intros G. unfold climb_right. apply (O_loop b (fun e' u => kept c b (printed e') (printed e ++ u))); [rewrite app_nil_r; apply kept_refl|].
  intros e' v K. cbv zeta. ogo; try kt.
Qed.
#[export] Hint Resolve o_climb : ospec.
Lemma o_precedence c b p e n : ogood c b p -> O b (parse_expression_with_precedence c p e n) (vkept c b printed (printed e)).
Proof.
  intros G. unfold parse_expression_with_precedence. apply (O_loop b (fun e' u => kept c b (printed e') (printed e ++ u))); [rewrite app_nil_r; apply kept_refl|].
  intros e' v K. ogo; try kt. eprint. rewrite H0. kt.
Qed.
#[export] Hint Resolve o_precedence : ospec.
Lemma o_expression c b p : ogood c b p -> O b (parse_expression c p) (vkept c b printed []).
Proof. intros G. unfold parse_expression. ogo; try kt. Qed.
