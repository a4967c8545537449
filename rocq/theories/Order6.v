(** The tokens of trees are drawn from those of the source (C55): statements. *)
From Verif Require Import LexerSpec PunctuatedProofs.
From Verif Require Export Order5.
From Coq Require Import Lia Permutation.
Local Open Scope nat_scope.
Import ListNotations.

Lemma printed_block_new : printed block_new = [].
Proof. reflexivity. Qed.
Ltac kb := repeat (progress (eprint; elist; rewrite ?printed_block_new)); cbn [app]; kt.
Lemma o_body_new c b : O b (function_body_new c) (fun t u => u = [] /\ kept c b (printed t) []).
Proof.
  unfold function_body_new. ogo. split; [reflexivity|]. rewrite printed_nd; cbn [display_order flat_map pick at_ subs_at subs nth_error map span vec punct puncts p_new pairs zip_pick].
  kb.
Qed.
Lemma o_if_new c b e o : O b (if_new c e o) (fun t u => u = [] /\ kept c b (printed t) (printed e ++ oprinted o)).
Proof. unfold if_new. ogo. split; [reflexivity|]. destruct o; kb. Qed.
Lemma o_while_new c b e : O b (while_new c e) (fun t u => u = [] /\ kept c b (printed t) (printed e)).
Proof. unfold while_new. ogo. split; [reflexivity|]. kb. Qed.
Lemma o_do c b e : O b (do_with_block c e) (fun t u => u = [] /\ kept c b (printed t) (printed e)).
Proof. unfold do_with_block. ogo. split; [reflexivity|]. kt. Qed.
#[export] Hint Resolve o_body_new o_if_new o_while_new o_do : ospec.
Lemma o_push_punctuated b {A} (l : punctuated A) v q : O b (push_punctuated l v q) (fun m u => u = [] /\ forall pr, list_toks pr m = list_toks pr l ++ q :: pr v).
Proof.
  unfold push_punctuated. destruct l as [l]. unfold p_push_punctuated. cbn [pairs]. destruct l as [|x l _] using rev_ind; [apply O_panic|]. rewrite pop_snoc.
  destruct x as [x|x d]; cbn [pair_punctuation into_value]; [|apply O_panic]. apply O_ret. split; [reflexivity|]. intros pr.
  unfold list_toks. cbn [pairs]. rewrite !flat_map_app. cbn [flat_map pair_toks]. now rewrite !app_nil_r, <- !app_assoc.
Qed.
#[export] Hint Resolve o_push_punctuated : ospec.

(** ** Names of statements *)
Lemma zip_names l : zip_pick printed true (map (pair_tree Tok) (map (pair_map n_name) l)) [map (fun n => opt_tree (n_type_specifier n)) (map pair_value l)] = flat_map (pair_toks t_toks) l.
Proof.
  induction l as [|x l IH]; [reflexivity|]. cbn [map zip_pick flat_map tl]. rewrite IH, app_nil_r. unfold t_toks. destruct x as [n|n d]; cbn [pair_map pair_tree subs at_ nth_error pair_value pair_toks app];
    rewrite ?printed_tok, ?printed_opt_tree; unfold oprinted; destruct (n_type_specifier n); cbn [app]; rewrite <- ?app_assoc; reflexivity.
Qed.
Lemma zip_attributed l : zip_pick printed true (map (pair_tree Tok) (map (pair_map n_name) l))
    [map (fun n => opt_tree (n_attribute n)) (map pair_value l); map (fun n => opt_tree (n_type_specifier n)) (map pair_value l)] = flat_map (pair_toks n_toks) l.
Proof.
  induction l as [|x l IH]; [reflexivity|]. cbn [map zip_pick flat_map tl]. rewrite IH, app_nil_r. unfold n_toks. destruct x as [n|n d]; cbn [pair_map pair_tree subs at_ nth_error pair_value pair_toks app];
    rewrite ?printed_tok, ?printed_opt_tree; unfold oprinted; destruct (n_type_specifier n), (n_attribute n); cbn [app]; rewrite <- ?app_assoc; reflexivity.
Qed.

(** ** Statements *)
Lemma o_function_name c b : O b expect_function_name (vkept c b printed []).
Proof.
  unfold expect_function_name. ogo. apply (O_loop b (fun l u => kept c b (list_toks (fun r => [r]) l) (t0 :: u))); [apply kept_refl|]. intros l v K. ogo.
  - rewrite H0. kt.
  - kt.
  - kt.
Qed.
#[export] Hint Resolve o_function_name : ospec.
Lemma o_function_declaration c b p l f : ogood c b p -> O b (expect_function_declaration c p l f) (okept c b printed (vec_toks l ++ [f])).
Proof. intros G. unfold expect_function_declaration, vec_toks. ocut (vkept c b printed []); [apply o_function_name|]. destruct a; ogo; kt. Qed.
Lemma o_local_function c b p l f g : ogood c b p -> O b (expect_local_function_declaration c p l f g) (okept c b printed (vec_toks l ++ [f; g])).
Proof. intros G. unfold expect_local_function_declaration, vec_toks. ogo; kt. Qed.
#[export] Hint Resolve o_function_declaration o_local_function : ospec.
Lemma o_numeric_for c b p f n : ogood c b p -> O b (expect_numeric_for_stmt c p f n) (okept c b printed (f :: t_toks n)).
Proof. intros G. destruct n as [r at_ [ty|]]; unfold t_toks; cbn [n_name n_type_specifier oprinted]; unfold expect_numeric_for_stmt; ogo; cbn [fst snd]; kb. Qed.
#[export] Hint Resolve o_numeric_for : ospec.
Lemma into_iter_kept c b {A} (pr : A -> list tokref) a n l : p_into_iter a = n :: l -> kept c b (pr n) (list_toks pr a).
Proof.
  rewrite into_iter_eq. destruct a as [[|x m]]; [discriminate|]. unfold list_toks. cbn [map pairs flat_map]. intros [= <- _]. destruct x as [x|x d]; cbn [pair_toks]; rewrite <- (app_nil_r (pr _)) at 1; knorm; apply kept_common, kept_nil.
Qed.
Lemma printed_generic_for f a i e d b n : printed (Nd KStmtGenericFor [Nd KGenericFor [Tok f; punct Tok (p_from_iter (map (pair_map n_name) (p_pairs a))); Tok i; puncts e; Tok d; b; Tok n;
    vec (map (fun n => opt_tree (n_type_specifier n)) (p_into_iter a))]]) = f :: list_toks t_toks a ++ i :: list_toks printed e ++ d :: printed b ++ [n].
Proof.
  rewrite printed_plain by reflexivity. cbn [flat_map]. rewrite (printed_nd KGenericFor). cbn [display_order flat_map pick at_ subs_at subs nth_error map span vec punct puncts p_from_iter pairs].
  unfold p_pairs. rewrite !into_iter_eq. rewrite zip_names. fold (list_toks t_toks a). repeat (progress (eprint; elist)). reflexivity.
Qed.
Lemma printed_local l a q e : printed (Nd KLocalAssignment [Tok l; vec (map (fun n => opt_tree (n_type_specifier n)) (p_into_iter a)); punct Tok (p_from_iter (map (pair_map n_name) (p_pairs a)));
    vec (map (fun n => opt_tree (n_attribute n)) (p_into_iter a)); opt_tok q; puncts e]) = l :: list_toks n_toks a ++ match q with Some q => [q] | None => [] end ++ list_toks printed e.
Proof.
  rewrite (printed_nd KLocalAssignment). cbn [display_order flat_map pick at_ subs_at subs nth_error map span vec punct puncts p_from_iter pairs].
  unfold p_pairs. rewrite !into_iter_eq. rewrite zip_attributed. fold (list_toks n_toks a). repeat (progress (eprint; elist)). destruct q; reflexivity.
Qed.
Lemma o_for c b p f : ogood c b p -> O b (expect_for_stmt c p f) (okept c b printed [f]).
Proof.
  intros G. unfold expect_for_stmt. cbv zeta. ogo; rewrite ?printed_generic_for; cbn [fst snd]; rewrite ?printed_block_new; cbn [app].
  1: rewrite printed_plain by reflexivity; cbn [flat_map]; rewrite !app_nil_r; eapply kept_trans; [eassumption|]; apply kept_same, kept_app; [|apply kept_refl]; eapply kept_trans; [|eassumption]; eapply into_iter_kept; eassumption.
  all: set (X' := list_toks t_toks a) in *; kt.
Qed.
#[export] Hint Resolve o_for : ospec.
Lemma o_local_assignment c b p l : ogood c b p -> O b (expect_local_assignment c p l) (okept c b printed [l]).
Proof.
  intros G. unfold expect_local_assignment. cbv zeta. ogo; rewrite ?printed_local; set (X' := list_toks n_toks a) in *; kt.
Qed.
#[export] Hint Resolve o_local_assignment : ospec.
Lemma o_repeat c b p t : ogood c b p -> O b (expect_repeat_stmt c p t) (okept c b printed [t]).
Proof. intros G. unfold expect_repeat_stmt. ogo; kt. Qed.
Lemma o_while c b p t : ogood c b p -> O b (expect_while_stmt c p t) (okept c b printed [t]).
Proof. intros G. unfold expect_while_stmt. ogo; kt. Qed.
Lemma o_type_declaration c b p t : ogood c b p -> O b (expect_type_declaration c p t) (okept c b printed [t]).
Proof. intros G. unfold expect_type_declaration. ogo; kt. Qed.
Lemma o_type_function c b p t f : ogood c b p -> O b (expect_type_function c p t f) (okept c b printed [t; f]).
Proof. intros G. unfold expect_type_function. ogo; kt. Qed.
#[export] Hint Resolve o_repeat o_while o_type_declaration o_type_function : ospec.

Lemma o_else_ifs l : oprinted (else_if_optional l) = vec_toks l.
Proof. destruct l as [|x l]; [reflexivity|]. cbn [else_if_optional oprinted]. now rewrite printed_vec. Qed.
Lemma printed_else_ifs l : printed (opt_tree (else_if_optional l)) = vec_toks l.
Proof. destruct l as [|x l]; [reflexivity|]. cbn [else_if_optional]. now rewrite printed_opt_tree, printed_vec. Qed.
Lemma o_shadowed c b t t' l e a w u v x : plain b t -> is_symbol t SElseIf = true -> kept c b (printed e) (printed a ++ vec_toks l) -> kept c b (vec_toks l) w -> kept c b (printed a) u ->
  kept c b (printed e) (v ++ w ++ t' :: u ++ x).
Proof.
  intros P Y K1 K2 K3. destruct b; [specialize (P eq_refl); congruence|]. eapply kept_trans; [exact K1|]. apply (kept_perm c (vec_toks l ++ printed a)); [apply Permutation_app_comm|].
  apply kept_drop, kept_app; [assumption|]. apply kept_skip. rewrite <- (app_nil_r (printed a)). apply kept_app; [assumption|apply kept_nil].
Qed.
(** The unfinished [if]: the order of conditions is that of the source when there is no [elseif]. *)
Lemma o_if c b p i : ogood c b p -> O b (expect_if_stmt c p i) (okept c b printed [i]).
Proof.
  intros G. unfold expect_if_stmt. ogo; try kt.
  eapply (O_conseq b _ (fun r w => match r with inl t2 => kept c b (printed t2) (printed a ++ w) | inr l => kept c b (vec_toks l) w end)).
  - apply (O_loop b (fun l w => kept c b (vec_toks l) w)); [apply kept_nil|]. intros l w Kl. ogo; rewrite ?o_else_ifs in *.
    all: try (rewrite app_nil_r; assumption).
    1: unfold vec_toks in *; rewrite flat_map_app; kt.
    1, 2, 3: eapply (o_shadowed c b t0); eassumption.
    all: eapply kept_trans; [eassumption|]; apply kept_common; kt.
  - intros [t2|l] w Kw; ogo; cbn [fst snd].
    1: rewrite app_nil_r; eapply kept_trans; [eassumption|]; apply kept_skip, kept_app; [assumption|]; apply kept_skip, kept_drop, kept_refl.
    all: rewrite (printed_plain KIf) by reflexivity; cbn [flat_map]; rewrite printed_else_ifs; kb.
Qed.

#[export] Hint Resolve o_if : ospec.
Definition stmt_toks (v : stmt_variant) : list tokref := match v with VStmt t => printed t | VLastStmt t => printed t end.
Definition var_toks (v : var) : list tokref := printed (var_tree v).
Lemma var_chain x l : var_toks (VarExpression x l) = chain_toks (x, l).
Proof. unfold var_toks, chain_toks, prefix_toks, vec_toks. cbn [var_tree fst snd]. eprint. now elist. Qed.
Lemma name_chain c b r l : kept c b (var_toks (VarName r)) (chain_toks (PrefixName r, l)).
Proof. unfold var_toks, chain_toks, prefix_toks. cbn [var_tree fst snd prefix_tree]. eprint. elist. apply kept_same, kept_nil. Qed.
Lemma o_compound_op c b r : O b (compound_op c r) (fun t u => u = [] /\ printed t = [r]).
Proof. unfold compound_op. cbv zeta. ogo; split; try reflexivity; eprint; reflexivity. Qed.
#[export] Hint Resolve o_compound_op : ospec.
Lemma o_compound c b p v : ogood c b p -> O b (parse_compound_assignment c p v) (vkept c b stmt_toks (var_toks v)).
Proof. intros G. unfold parse_compound_assignment, var_toks. ogo. cbn [stmt_toks]. eprint. match goal with H : printed _ = [_] |- _ => rewrite H end. kt. Qed.
#[export] Hint Resolve o_compound : ospec.
Lemma o_moved c b k o h u : (forall t, printed (Nd k [t]) = printed t) -> okept c b printed h o u -> vkept c b stmt_toks h (stmt_or_moved k o) u.
Proof. intros H. destruct o as [t|]; cbn [stmt_or_moved vkept stmt_toks]; [now rewrite H|auto]. Qed.
Ltac omove := cbn [stmt_or_moved vkept stmt_toks].
Lemma o_local_stmt c b p : ogood c b p -> O b (local_stmt c p) (vkept c b stmt_toks []).
Proof. intros G. unfold local_stmt. ogo; cbn [stmt_or_moved]; try exact I; cbn [stmt_toks]; kt. Qed.
Lemma o_contextual c b p v : ogood c b p -> O b (contextual_stmt c p v) (okept c b (fun r => match r with Value s => stmt_toks s | _ => [] end) (var_toks v)).
Proof.
  intros G. unfold contextual_stmt. ogo; cbn [stmt_or_moved stmt_toks]; try exact I; unfold var_toks; cbn [var_tree]; first [apply kept_nil|kt].
Qed.
#[export] Hint Resolve o_local_stmt o_contextual : ospec.
Lemma o_var_loop c b p v : ogood c b p -> O b (var_loop c p v) (okept c b (list_toks var_toks) (var_toks v)).
Proof.
  intros G. unfold var_loop. apply (O_loop b (fun l u => kept c b (list_toks var_toks l) (var_toks v ++ u))); [rewrite list_toks_push, list_toks_new, app_nil_r; apply kept_refl|].
  intros l u K. cbv zeta. ogo; try kt.
  all: match goal with H : forall pr, list_toks pr _ = _ |- _ => rewrite H end; rewrite app_nil_r, app_assoc; apply kept_app; [assumption|apply kept_same]; try destruct p0; rewrite ?var_chain;
    first [assumption|eapply kept_trans; [apply name_chain|eassumption]].
Qed.
#[export] Hint Resolve o_var_loop : ospec.
Lemma o_assignment c b p v : ogood c b p -> O b (assignment c p v) (vkept c b stmt_toks (var_toks v)).
Proof.
  intros G. unfold assignment. ogo; cbn [stmt_toks].
  all: rewrite (printed_plain KStmtAssignment) by reflexivity; cbn [flat_map]; rewrite (printed_plain KAssignment) by reflexivity; cbn [flat_map]; rewrite printed_punct; fold var_toks; kt.
Qed.
#[export] Hint Resolve o_assignment : ospec.
Lemma o_expression_stmt c b p : ogood c b p -> O b (expression_stmt c p) (vkept c b stmt_toks []).
Proof.
  intros G. unfold expression_stmt. cbv zeta. ogo; cbn [stmt_toks].
  1: unfold chain_toks, prefix_toks, vec_toks in *; cbn [fst snd] in *; kt.
  all: try match goal with |- match ?r with _ => _ end => destruct r; try exact I end; rewrite ?app_nil_r; (eapply kept_trans; [eassumption|]); (apply kept_app; [|apply kept_refl]);
    rewrite ?var_chain; first [assumption|eapply kept_trans; [apply name_chain|eassumption]].
Qed.
#[export] Hint Resolve o_expression_stmt : ospec.
Lemma o_goto c b : O b (goto_stmt c) (vkept c b stmt_toks []).
Proof. unfold goto_stmt. ogo; cbn [stmt_toks]; kt. Qed.
Lemma o_two_colons c b : O b (two_colons c) (fun t u => u = [] /\ inserted c t).
Proof.
  unfold two_colons. intros s a s' _ X. unfold bind, lift in X. destruct (token_reference_symbol (c_feat c) (str "::")) as [[r|e]| |] eqn:E; try discriminate. injection X as <- <-.
  exists []. repeat split. now apply in_colons.
Qed.
#[export] Hint Resolve o_goto o_two_colons : ospec.
Lemma o_label c b : O b (label_stmt c) (vkept c b stmt_toks []).
Proof. unfold label_stmt. ogo; cbn [stmt_toks]; kt. Qed.
Lemma o_attribute_stmt c b p : ogood c b p -> O b (attribute_stmt c p) (vkept c b stmt_toks []).
Proof.
  intros G. unfold attribute_stmt. ocut (vkept c b vec_toks []); [apply o_attributes|]. ogo; cbn [stmt_or_moved]; try exact I; cbn [stmt_toks]; kt.
Qed.
#[export] Hint Resolve o_label o_attribute_stmt : ospec.
Lemma o_stmt c b p : ogood c b p -> O b (parse_stmt c p) (vkept c b stmt_toks []).
Proof. intros G. unfold parse_stmt. ogo; cbn [stmt_or_moved]; try exact I; cbn [stmt_toks]; first [eassumption|kt|destruct p0; cbn [fst snd stmt_toks] in *; kt]. Qed.
#[export] Hint Resolve o_stmt : ospec.
Definition last_toks (x : tree * option tokref) : list tokref := printed (fst x) ++ match snd x with Some r => [r] | None => [] end.
Lemma o_last_stmt c b p : ogood c b p -> O b (parse_last_stmt p) (vkept c b last_toks []).
Proof. intros G. unfold parse_last_stmt, last_toks. cbv zeta. ogo; cbn [fst snd]; kt. Qed.
#[export] Hint Resolve o_last_stmt : ospec.
Lemma printed_block l o : printed (block_tree l o) = vec_toks l ++ match o with Some x => last_toks x | None => [] end.
Proof.
  unfold block_tree, vec_toks, last_toks. destruct o as [[t [r|]]|]; cbn [option_map fst snd]; unfold stmt_pair; repeat (progress (eprint; elist)); reflexivity.
Qed.
Lemma o_block c b p : ogood c b p -> O b (parse_block c p) (vkept c b printed []).
Proof.
  intros G. unfold parse_block. ocut (fun r u => match r with inl r => vkept c b printed [] r u | inr l => kept c b (vec_toks l) u end).
  - apply (O_loop b (fun l u => kept c b (vec_toks l) u)); [apply kept_nil|]. intros l u K. ogo.
    all: unfold stmt_pair, vec_toks in *; cbn [stmt_toks] in *; rewrite ?printed_block, ?flat_map_app; unfold last_toks, vec_toks; cbn [fst snd]; first [kt|cbn [flat_map] in *; kt].
  - destruct a as [r|l]; ogo; rewrite ?printed_block; kt.
Qed.
#[export] Hint Resolve o_block : ospec.
Lemma o_parsers c b n : ogood c b (parsers_at c n).
Proof.
  induction n as [|n IH]; cbn [parsers_at].
  - unfold no_fuel, ogood; cbn. repeat split; try intros e q; apply O_fuel.
  - unfold parsers_step, ogood; cbn. repeat split; auto using o_block, o_expression, o_primary, o_type, o_type_or_pack. intros e q. now apply o_precedence.
Qed.
