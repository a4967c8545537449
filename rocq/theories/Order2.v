(** The tokens of trees are drawn from those of the source (C55): names, lists, types. *)
From Verif Require Import LexerSpec PunctuatedProofs.
From Verif Require Export Order1.
From Coq Require Import Lia Permutation.
Local Open Scope nat_scope.
Import ListNotations.

(** ** The usual postconditions *)
(** The tokens of the result are drawn from [h] and from the consumed tokens. *)
Definition vkept c b {A} (pr : A -> list tokref) (h : list tokref) (r : pres A) (u : list tokref) : Prop :=
  match r with Value a => kept c b (pr a) (h ++ u) | _ => True end.
Definition okept c b {A} (pr : A -> list tokref) (h : list tokref) (r : option A) (u : list tokref) : Prop :=
  match r with Some a => kept c b (pr a) (h ++ u) | None => True end.
Definition oprinted (o : option tree) : list tokref := match o with Some t => printed t | None => [] end.
(** The tokens of a name with its annotation, and of one with its attribute and annotation. *)
Definition t_toks (n : name) : list tokref := n_name n :: oprinted (n_type_specifier n).
Definition n_toks (n : name) : list tokref := n_name n :: oprinted (n_attribute n) ++ oprinted (n_type_specifier n).

Definition ogood (c : cfg) (b : bool) (p : parsers) : Prop :=
  O b (p_block p) (vkept c b printed []) /\ O b (p_expression p) (vkept c b printed []) /\ O b (p_primary p) (vkept c b printed []) /\
  (forall e q, O b (p_precedence p e q) (vkept c b printed (printed e))) /\
  O b (p_type p) (vkept c b printed []) /\ O b (p_type_or_pack p) (vkept c b printed []).
Lemma og_block c b p : ogood c b p -> O b (p_block p) (vkept c b printed []). Proof. now intros (? & ? & ? & ? & ? & ?). Qed.
Lemma og_expression c b p : ogood c b p -> O b (p_expression p) (vkept c b printed []). Proof. now intros (? & ? & ? & ? & ? & ?). Qed.
Lemma og_primary c b p : ogood c b p -> O b (p_primary p) (vkept c b printed []). Proof. now intros (? & ? & ? & ? & ? & ?). Qed.
Lemma og_precedence c b p e q : ogood c b p -> O b (p_precedence p e q) (vkept c b printed (printed e)). Proof. intros (? & ? & ? & ? & ? & ?). auto. Qed.
Lemma og_type c b p : ogood c b p -> O b (p_type p) (vkept c b printed []). Proof. now intros (? & ? & ? & ? & ? & ?). Qed.
Lemma og_type_or_pack c b p : ogood c b p -> O b (p_type_or_pack p) (vkept c b printed []). Proof. now intros (? & ? & ? & ? & ? & ?). Qed.
Create HintDb ospec.
#[export] Hint Resolve og_block og_expression og_primary og_precedence og_type og_type_or_pack : ospec.

(** ** Steps *)
Ltac onorm := unfold vkept, okept in *; cbv beta iota; cbn [vkept okept oprinted fst snd is_sym is_ident option_map app] in *; repeat match goal with
  | H : _ /\ _ |- _ => destruct H
  | H : ex _ |- _ => destruct H
  | H : False |- _ => destruct H
  | H : match ?x with _ => _ end |- _ => is_var x; destruct x; cbn [vkept okept oprinted fst snd is_sym is_ident option_map app] in *
  | H : True |- _ => clear H
  | H : ?x = ?x |- _ => clear H
  | H : ?x = ?y |- _ => lazymatch type of x with list tokref => first [is_var x; subst x | is_var y; subst y] | name => first [is_var x; subst x] | unit => fail | _ => fail end
  end.
Ltac ostep :=
  lazymatch goal with
  | |- O _ (bind _ _) _ => apply O_bind
  | |- O _ (ret _) _ => apply O_ret
  | |- O _ panic _ => apply O_panic
  | |- O _ current _ => let t := fresh "t" in let P := fresh "P" in apply O_current; [intros t P|]
  | |- O _ peek _ => let o := fresh "o" in apply O_peek; intros o
  | |- O _ take _ => let t := fresh "t" in let P := fresh "P" in apply O_take; intros t P
  | |- O _ consume _ => let t := fresh "t" in apply O_consume; [intros t| |]
  | |- O _ (token_error _ _) _ => apply O_error
  | |- O _ (token_error_ranged _ _ _ _) _ => apply O_error_ranged
  | |- O _ (consume_if _) _ => let t := fresh "t" in let P := fresh "P" in let Y := fresh "Y" in apply O_consume_if; [intros t P Y|]
  | |- O _ (consume_if_symbols _) _ => let t := fresh "t" in apply O_consume_if_symbols; [intros t|]
  | |- O _ (require _ _) _ => let t := fresh "t" in apply O_require; [intros t|]
  | |- O _ (require_with_reference_token _ _ _) _ => let t := fresh "t" in apply O_require_token; [intros t|]
  | |- O _ (require_with_reference_range _ _ _ _) _ => let t := fresh "t" in apply O_require_range; [intros t|]
  | |- O _ (require_with_reference_range_callback _ _ _) _ => let t := fresh "t" in
      apply O_require_callback; [repeat first [apply pure_bind; [apply pure_last_token|intros ?]|apply pure_ret]|intros t|]
  | |- O _ (basic _ _) _ => let t := fresh "t" in let I := fresh "I" in apply O_basic; intros t I
  | |- O _ (first_token _) _ => let t := fresh "t" in apply O_pure; [apply pure_first_token|intros t]
  | |- O _ (last_token _) _ => let t := fresh "t" in apply O_pure; [apply pure_last_token|intros t]
  | |- O _ (ends_of _) _ => let t := fresh "t" in apply O_pure; [apply pure_ends_of|intros t]
  | |- O _ (error_at_current _) _ => unfold error_at_current
  | |- O _ (unwrap ?r) _ => unfold unwrap
  | |- O _ (match ?x with _ => _ end) _ => edestr x
  | |- O _ (let _ := _ in _) _ => cbv zeta
  | |- O _ _ _ => eapply O_conseq; [solve [eauto with ospec]|]; let a := fresh "a" in let u := fresh "u" in let K := fresh "K" in intros a u K
  end.
Ltac ogo := repeat (onorm; try exact I; ostep); onorm; try exact I.

Ltac knorm := rewrite <- ?app_assoc; cbn [app]; repeat (progress rewrite <- ?app_assoc; cbn [app]).
Lemma kept_cut c b x w l g u : kept c b x w -> x ++ l = g -> kept c b (w ++ l) u -> kept c b g u.
Proof. intros H <-. now apply kept_step. Qed.
Ltac kcut :=
  match goal with
  | H : kept ?c ?b ?x ?w |- kept ?c ?b ?g ?u => eapply (kept_cut c b x w _ g u H); [knorm; reflexivity|clear H; knorm]
  end.
Ltac kloop :=
  repeat lazymatch goal with
  | |- kept _ _ [] _ => apply kept_nil
  | |- kept _ _ (?t :: _) (?t :: _) => apply kept_same
  | |- kept _ _ (?x ++ _) (?x ++ _) => apply kept_common
  | |- kept ?c ?b (?x ++ ?l) ?u =>
      first [match goal with H : kept c b x ?w |- _ => apply (kept_step c b x w l u H); clear H; knorm end
            |kcut
            |lazymatch u with _ :: _ => apply kept_skip | _ ++ _ => apply kept_drop end]
  | |- kept ?c ?b (?t :: ?l) ?u =>
      first [match goal with I : inserted c t |- _ => apply (kept_made c b t l u I) end
            |kcut
            |lazymatch u with _ :: _ => apply kept_skip | _ ++ _ => apply kept_drop end]
  end.
Ltac kclose := knorm; lazymatch goal with |- kept _ _ ?l ?u => rewrite <- (app_nil_r l), <- (app_nil_r u) end; knorm; kloop.
Ltac kt := unfold t_toks, n_toks in *; cbn [n_name n_attribute n_type_specifier force_name oprinted] in *; repeat (progress (eprint; elist)); try assumption; solve [kclose].
Ltac oall := ogo; try solve [kt].

(** ** Names and lists *)
Lemma o_parse_name b : O b parse_name (fun r u => match r with Value n => exists t, n = force_name t /\ u = [t] | _ => True end).
Proof. unfold parse_name. ogo. eauto. Qed.
#[export] Hint Resolve o_parse_name : ospec.
Lemma o_type_specifier c b p r : ogood c b p -> O b (expect_type_specifier p r) (okept c b printed [r]).
Proof. intros G. unfold expect_type_specifier. oall. Qed.
#[export] Hint Resolve o_type_specifier : ospec.
Lemma o_force_type c b p r : ogood c b p -> O b (force_name_with_type_specifiers c p r) (fun n u => n_attribute n = None /\ kept c b (t_toks n) (r :: u)).
Proof. intros G. unfold force_name_with_type_specifiers. ogo; (split; [reflexivity|]); kt. Qed.

#[export] Hint Resolve o_force_type : ospec.
Lemma o_force_attributes c b p r : ogood c b p -> O b (force_name_with_attributes c p r) (fun n u => kept c b (n_toks n) (r :: u)).
Proof.
  intros G. unfold force_name_with_attributes. oall.
  - unfold n_toks. rewrite H. exact H0.
  - unfold n_toks. rewrite H. exact H0.
Qed.
#[export] Hint Resolve o_force_attributes : ospec.
Lemma o_name_attributes c b p : ogood c b p -> O b (parse_name_with_attributes c p) (vkept c b n_toks []).
Proof. intros G. unfold parse_name_with_attributes. oall. Qed.
Lemma o_name_type c b p : ogood c b p -> O b (parse_name_with_type_specifiers c p) (vkept c b t_toks []).
Proof. intros G. unfold parse_name_with_type_specifiers. oall. Qed.
#[export] Hint Resolve o_name_attributes o_name_type : ospec.
Lemma pop_list {A} (pr : A -> list tokref) l x rest : p_pop l = (Some x, rest) -> list_toks pr l = list_toks pr rest ++ pair_toks pr x.
Proof.
  destruct l as [l]. destruct l as [|y l _] using rev_ind; [discriminate|]. rewrite (p_pop_snoc _ l y) by reflexivity. intros [= <- <-].
  unfold list_toks. cbn [pairs]. rewrite flat_map_app. cbn [flat_map]. now rewrite app_nil_r.
Qed.
Lemma pop_kept c b {A} (pr : A -> list tokref) l v q rest u : p_pop l = (Some (Punctuated v q), rest) -> kept c b (list_toks pr l) u ->
  kept c b (list_toks pr (p_push rest (End v))) u.
Proof.
  intros P K. eapply kept_trans; [|exact K]. rewrite (pop_list pr _ _ _ P), list_toks_push. cbn [pair_toks]. apply kept_common.
  rewrite <- (app_nil_r (pr v)) at 1. apply kept_common, kept_nil.
Qed.
Lemma o_one_or_more c b {A} (q : M (pres A)) d (pr : A -> list tokref) : O b q (vkept c b pr []) -> O b (one_or_more q d) (vkept c b (list_toks pr) []).
Proof.
  intros Hq. unfold one_or_more. apply O_bind.
  apply (O_loop b (fun l u => kept c b (list_toks pr l) u)); [apply kept_nil|].
  intros l u K. ostep. eapply O_conseq; [exact Hq|]. intros r v V. ogo; first [kt|eapply pop_kept; [eassumption|kt]].
Qed.
Lemma o_name_list c b p : ogood c b p -> O b (parse_name_list c p) (vkept c b (list_toks t_toks) []).
Proof. intros G. apply o_one_or_more. auto with ospec. Qed.
Lemma o_attribute_list c b p : ogood c b p -> O b (one_or_more (parse_name_with_attributes c p) SComma) (vkept c b (list_toks n_toks) []).
Proof. intros G. apply o_one_or_more. auto with ospec. Qed.
Lemma o_expression_list c b p : ogood c b p -> O b (parse_expression_list p) (vkept c b (list_toks printed) []).
Proof. intros G. apply o_one_or_more. auto with ospec. Qed.
#[export] Hint Resolve o_name_list o_attribute_list o_expression_list : ospec.

(** ** Types *)
Lemma o_type_pack c b p : ogood c b p -> O b (parse_type_pack p) (vkept c b printed []).
Proof. intros G. unfold parse_type_pack. oall. Qed.
#[export] Hint Resolve o_type_pack : ospec.
Lemma o_return_type c b p : ogood c b p -> O b (parse_return_type p) (vkept c b printed []).
Proof. intros G. unfold parse_return_type. oall. Qed.
#[export] Hint Resolve o_return_type : ospec.
(** Angle brackets, generics in between. *)
Definition arrows_of (x : tree * tree) (l : tokref) (u : list tokref) c b : Prop :=
  exists r g, x = (span l r, g) /\ kept c b (printed g ++ [r]) u.
Lemma o_generic_params c b p l : ogood c b p -> O b (expect_generic_type_params p l) (fun r u => match r with Some x => arrows_of x l u c b | None => True end).
Proof.
  intros G. unfold expect_generic_type_params. apply O_bind.
  apply (O_loop b (fun l u => kept c b (list_toks printed l) u)); [apply kept_nil|]. intros m u K. unfold arrows_of. ogo; first [kt|do 2 eexists; split; [reflexivity|kt]].
Qed.
#[export] Hint Resolve o_generic_params : ospec.

Lemma o_missing_default b d : O b (missing_default d) (fun _ u => u = []).
Proof. unfold missing_default. ogo; reflexivity. Qed.
#[export] Hint Resolve o_missing_default : ospec.
Lemma error_inserted c : inserted c error_token.
Proof. apply in_name. Qed.
#[export] Hint Resolve error_inserted : ospec.
Lemma o_generic_list c b p y : ogood c b p -> O b (parse_generic_type_list c p y) (vkept c b printed []).
Proof.
  intros G. unfold parse_generic_type_list. pose proof (error_inserted c) as Er. destruct (negb (has_luau c)); [ogo|]. apply O_bind. ostep; [|ogo]. onorm. apply O_bind.
  apply (O_loop b (fun '(l, _, _) u => kept c b (list_toks printed l) u)); [apply kept_nil|]. intros [[m sp] sd] u K. oall.
Qed.
#[export] Hint Resolve o_generic_list : ospec.
