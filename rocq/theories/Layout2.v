(** The parser looks only at the sorts of tokens (C51): values and small functions. *)
From Verif Require Import LexerSpec PunctuatedProofs.
From Verif Require Import TreeFacts LexerStep.
From Verif Require Export Layout1.
From Coq Require Import Lia.
Local Open Scope nat_scope.
Import ListNotations.

(** ** Values *)
Create HintDb twv.
Lemma tv_value {A} `{Twin A} c (a a' : A) : twin c a a' -> twin c (Value a) (Value a'). Proof. apply rt_value. Qed.
Lemma tv_moved {A} `{Twin A} c : twin c (@LexerMoved A) LexerMoved. Proof. apply rt_moved. Qed.
Lemma tv_not_found {A} `{Twin A} c : twin c (@NotFound A) NotFound. Proof. apply rt_not_found. Qed.
Lemma tv_some {A} `{Twin A} c (a a' : A) : twin c a a' -> twin c (Some a) (Some a'). Proof. apply ot_some. Qed.
Lemma tv_none {A} `{Twin A} c : twin c (@None A) None. Proof. apply ot_none. Qed.
Lemma tv_pair {A B} `{Twin A} `{Twin B} c (a a' : A) (b b' : B) : twin c a a' -> twin c b b' -> twin c (a, b) (a', b'). Proof. apply pt_pair. Qed.
Lemma tv_inl {A B} `{Twin A} `{Twin B} c (a a' : A) : twin c a a' -> twin c (inl a : A + B) (inl a'). Proof. apply st_inl. Qed.
Lemma tv_inr {A B} `{Twin A} `{Twin B} c (b b' : B) : twin c b b' -> twin c (inr b : A + B) (inr b'). Proof. apply st_inr. Qed.
Lemma tv_nil {A} `{Twin A} c : twin c (@nil A) nil. Proof. constructor. Qed.
Lemma tv_cons {A} `{Twin A} c (a a' : A) l l' : twin c a a' -> twin c l l' -> twin c (a :: l) (a' :: l'). Proof. now constructor. Qed.
Lemma tv_app {A} `{Twin A} c (l l' m m' : list A) : twin c l l' -> twin c m m' -> twin c (l ++ m) (l' ++ m'). Proof. apply Forall2_app. Qed.
Lemma tv_tok c r r' : twin c r r' -> twin c (Tok r) (Tok r'). Proof. now constructor. Qed.
Lemma tv_con c k cs cs' : twin c cs cs' -> twin c (Con k cs) (Con k cs'). Proof. now constructor. Qed.
Lemma tv_node c k cs cs' : twin c cs cs' -> twin c (Nd k cs) (Nd k cs'). Proof. now constructor. Qed.
Lemma tv_end {A} `{Twin A} c (a a' : A) : twin c a a' -> twin c (End a) (End a'). Proof. now constructor. Qed.
Lemma tv_punctuated {A} `{Twin A} c (a a' : A) p p' : twin c a a' -> twin c p p' -> twin c (Punctuated a p) (Punctuated a' p'). Proof. now constructor. Qed.
Lemma tv_name c r r' a a' t t' : twin c r r' -> twin c a a' -> twin c t t' -> twin c (mkName r a t) (mkName r' a' t'). Proof. now constructor. Qed.
Lemma tv_force_name c r r' : twin c r r' -> twin c (force_name r) (force_name r'). Proof. intros. apply tv_name; auto using @tv_none. Qed.
Lemma tv_arg c n n' t t' : twin c n n' -> twin c t t' -> twin c (mkArg n t) (mkArg n' t'). Proof. now constructor. Qed.
Lemma tv_prefix_expression c e e' : twin c e e' -> twin c (PrefixExpression e) (PrefixExpression e'). Proof. now constructor. Qed.
Lemma tv_prefix_name c e e' : twin c e e' -> twin c (PrefixName e) (PrefixName e'). Proof. now constructor. Qed.
Lemma tv_stmt c e e' : twin c e e' -> twin c (VStmt e) (VStmt e'). Proof. now constructor. Qed.
Lemma tv_last_stmt c e e' : twin c e e' -> twin c (VLastStmt e) (VLastStmt e'). Proof. now constructor. Qed.
Lemma tv_var_expression c x x' l l' : twin c x x' -> twin c l l' -> twin c (VarExpression x l) (VarExpression x' l'). Proof. now constructor. Qed.
Lemma tv_var_name c e e' : twin c e e' -> twin c (VarName e) (VarName e'). Proof. now constructor. Qed.
Lemma tv_table_return c e e' : twin c e e' -> twin c (TableReturn e) (TableReturn e'). Proof. now constructor. Qed.
Lemma tv_table_break c f f' a a' : twin c f f' -> twin c a a' -> twin c (TableBreak f a) (TableBreak f' a'). Proof. now constructor. Qed.
Lemma tv_ast c t t' r r' : twin c t t' -> twin c r r' -> twin c (mkAst t r) (mkAst t' r'). Proof. now constructor. Qed.
Lemma tv_true c : twin c true true. Proof. reflexivity. Qed.
Lemma tv_false c : twin c false false. Proof. reflexivity. Qed.
Lemma tv_tt c : twin c tt tt. Proof. reflexivity. Qed.
Lemma tv_bool c (b : bool) : twin c b b. Proof. reflexivity. Qed.
Lemma tv_error_token c : twin c error_token error_token. Proof. apply tied_inserted, in_name. Qed.
Lemma tv_error_section c : twin c (mkRef [] (token_new (TInterpolatedString [] IEnd)) []) (mkRef [] (token_new (TInterpolatedString [] IEnd)) []).
Proof. apply tied_inserted, in_section. Qed.
Lemma tv_nat c (n : nat) : twin c n n. Proof. reflexivity. Qed.
Lemma tv_suc c (n n' : nat) : twin c n n' -> twin c (S n) (S n'). Proof. now intros [= ->]. Qed.
Lemma tv_and c b b' d d' : twin c b b' -> twin c d d' -> twin c (b && d) (b' && d'). Proof. now intros [= ->] [= ->]. Qed.
Lemma tv_or c b b' d d' : twin c b b' -> twin c d d' -> twin c (b || d) (b' || d'). Proof. now intros [= ->] [= ->]. Qed.
Lemma tv_not c b b' : twin c b b' -> twin c (negb b) (negb b'). Proof. now intros [= ->]. Qed.
Lemma tv_ltb c b b' d d' : twin c b b' -> twin c d d' -> twin c (Nat.ltb b d) (Nat.ltb b' d'). Proof. now intros [= ->] [= ->]. Qed.
Lemma tv_eqb c b b' d d' : twin c b b' -> twin c d d' -> twin c (Nat.eqb b d) (Nat.eqb b' d'). Proof. now intros [= ->] [= ->]. Qed.
Lemma tv_fst {A B} `{Twin A} `{Twin B} c (x x' : A * B) : twin c x x' -> twin c (fst x) (fst x'). Proof. now intros []. Qed.
Lemma tv_snd {A B} `{Twin A} `{Twin B} c (x x' : A * B) : twin c x x' -> twin c (snd x) (snd x'). Proof. now intros []. Qed.
Lemma tv_n_name c n n' : twin c n n' -> twin c (n_name n) (n_name n'). Proof. now intros []. Qed.
Lemma tv_n_attribute c n n' : twin c n n' -> twin c (n_attribute n) (n_attribute n'). Proof. now intros []. Qed.
Lemma tv_n_type c n n' : twin c n n' -> twin c (n_type_specifier n) (n_type_specifier n'). Proof. now intros []. Qed.
Lemma tv_ta_name c n n' : twin c n n' -> twin c (ta_name n) (ta_name n'). Proof. now intros []. Qed.
Lemma tv_ta_type c n n' : twin c n n' -> twin c (ta_type n) (ta_type n'). Proof. now intros []. Qed.
Lemma tv_map {A B} `{Twin A} `{Twin B} c (f f' : A -> B) l l' : (forall a a', twin c a a' -> twin c (f a) (f' a')) -> twin c l l' -> twin c (map f l) (map f' l').
Proof. intros F. induction 1; constructor; auto. Qed.
Lemma tv_existsb {A} `{Twin A} c (f f' : A -> bool) l l' : (forall a a', twin c a a' -> twin c (f a) (f' a')) -> twin c l l' -> twin c (existsb f l) (existsb f' l').
Proof. intros F. induction 1 as [|x x' l l' X L IH]; [reflexivity|]. cbn [existsb]. apply tv_or; [now apply F|exact IH]. Qed.
Lemma tv_option_map {A B} `{Twin A} `{Twin B} c (f f' : A -> B) l l' : (forall a a', twin c a a' -> twin c (f a) (f' a')) -> twin c l l' -> twin c (option_map f l) (option_map f' l').
Proof. intros F. destruct 1; constructor. now apply F. Qed.
Lemma tv_rev {A} `{Twin A} c (l l' : list A) : twin c l l' -> twin c (rev l) (rev l').
Proof. induction 1; cbn; [constructor|]. apply Forall2_app; [assumption|]. constructor; [assumption|constructor]. Qed.
Lemma tv_hd_error {A} `{Twin A} c (l l' : list A) : twin c l l' -> twin c (hd_error l) (hd_error l').
Proof. destruct 1; now constructor. Qed.
Lemma tv_last_of {A} `{Twin A} c (l l' : list A) : twin c l l' -> twin c (last_of l) (last_of l').
Proof. intros. unfold last_of. now apply tv_hd_error, tv_rev. Qed.
Lemma tv_length {A} `{Twin A} c (l l' : list A) : twin c l l' -> twin c (List.length l) (List.length l').
Proof. apply forall2_length. Qed.

#[export] Hint Resolve tv_value tv_moved tv_not_found tv_some tv_none tv_pair tv_inl tv_inr tv_nil tv_cons tv_app tv_tok tv_con tv_node tv_end tv_punctuated tv_name tv_force_name tv_arg tv_prefix_expression tv_prefix_name tv_stmt tv_last_stmt tv_var_expression tv_var_name tv_table_return tv_table_break tv_ast tv_true tv_false tv_tt tv_bool tv_error_token tv_error_section tv_nat tv_suc tv_and tv_or tv_not tv_ltb tv_eqb tv_fst tv_snd tv_n_name tv_n_attribute tv_n_type tv_ta_name tv_ta_type tv_map tv_existsb tv_option_map tv_rev tv_hd_error tv_last_of tv_length tw_is_symbol tw_is_identifier tw_is_string tw_is_eof tw_is_interpolated tw_is_number tw_precedence : twv.
Ltac val := solve [eauto 40 with twv nocore].
Lemma tv_opt_tree c o o' : twin c o o' -> twin c (opt_tree o) (opt_tree o'). Proof. destruct 1; cbn; val. Qed.
#[export] Hint Resolve tv_opt_tree : twv.
Lemma tv_opt_tok c o o' : twin c o o' -> twin c (opt_tok o) (opt_tok o'). Proof. destruct 1; cbn; val. Qed.
#[export] Hint Resolve tv_opt_tok : twv.
Lemma tv_vec c o o' : twin c o o' -> twin c (vec o) (vec o'). Proof. apply tv_con. Qed.
#[export] Hint Resolve tv_vec : twv.
Lemma tv_span c a a' b b' : twin c a a' -> twin c b b' -> twin c (span a b) (span a' b'). Proof. intros. unfold span. val. Qed.
#[export] Hint Resolve tv_span : twv.
Lemma tv_pairs {A} `{Twin A} c (l l' : punctuated A) : twin c l l' -> twin c (pairs l) (pairs l'). Proof. now intros []. Qed.
#[export] Hint Resolve tv_pairs : twv.
Lemma tv_p_pairs {A} `{Twin A} c (l l' : punctuated A) : twin c l l' -> twin c (p_pairs l) (p_pairs l'). Proof. now intros []. Qed.
#[export] Hint Resolve tv_p_pairs : twv.
Lemma tv_mk {A} `{Twin A} c (l l' : list (pair_of A)) : twin c l l' -> twin c (mkPunctuated l) (mkPunctuated l'). Proof. now constructor. Qed.
#[export] Hint Resolve tv_mk : twv.
Lemma tv_punct {A} `{Twin A} c (f f' : A -> tree) l l' : (forall a a', twin c a a' -> twin c (f a) (f' a')) -> twin c l l' -> twin c (punct f l) (punct f' l').
Proof.
  intros F L. apply tv_con. apply tv_map; [|now apply tv_pairs]. intros x x' [a a' T|a a' p p' T P]; cbn; val.
Qed.
#[export] Hint Resolve tv_punct : twv.
Lemma tv_puncts c l l' : twin c l l' -> twin c (puncts l) (puncts l'). Proof. now apply tv_punct. Qed.
#[export] Hint Resolve tv_puncts : twv.
Lemma tv_p_new {A} `{Twin A} c : twin c (@p_new A) p_new. Proof. repeat constructor. Qed.
#[export] Hint Resolve tv_p_new : twv.
Lemma tv_p_len {A} `{Twin A} c (l l' : punctuated A) : twin c l l' -> twin c (p_len l) (p_len l'). Proof. intros []. unfold p_len. cbn. now apply tv_length. Qed.
#[export] Hint Resolve tv_p_len : twv.
Lemma tv_p_is_empty {A} `{Twin A} c (l l' : punctuated A) : twin c l l' -> twin c (p_is_empty l) (p_is_empty l').
Proof. intros T. apply tv_eqb; [now apply tv_p_len|reflexivity]. Qed.
#[export] Hint Resolve tv_p_is_empty : twv.
Lemma tv_p_last {A} `{Twin A} c (l l' : punctuated A) : twin c l l' -> twin c (p_last l) (p_last l').
Proof. intros T. now apply tv_hd_error, tv_rev, tv_pairs. Qed.
#[export] Hint Resolve tv_p_last : twv.
Lemma tv_p_pop {A} `{Twin A} c (l l' : punctuated A) : twin c l l' -> twin c (p_pop l) (p_pop l').
Proof.
  intros T. unfold p_pop, vec_pop. apply tv_pairs, tv_rev in T. destruct T as [|x x' m m' X M]; [repeat constructor|].
  apply tv_pair; [now apply tv_some|]. now apply tv_mk, tv_rev.
Qed.
#[export] Hint Resolve tv_p_pop : twv.
Lemma tv_p_push {A} `{Twin A} c (l l' : punctuated A) x x' : twin c l l' -> twin c x x' -> twin c (p_push l x) (p_push l' x').
Proof. intros T X. apply tv_mk, tv_app; [now apply tv_pairs|]. constructor; [assumption|constructor]. Qed.
#[export] Hint Resolve tv_p_push : twv.
Lemma tv_collect {A} `{Twin A} c g g' n (l l' : list (pair_of A)) : (forall a a', twin c a a' -> twin c (g a) (g' a')) -> twin c l l' -> twin c (iter_collect n g l) (iter_collect n g' l').
Proof.
  intros G. revert l l'. induction n as [|n IH]; intros l l' L; [constructor|]. destruct L as [|x x' l l' X L]; cbn; [constructor|].
  constructor; [now apply G|now apply IH].
Qed.
Lemma tv_pair_value {A} `{Twin A} c (x x' : pair_of A) : twin c x x' -> twin c (pair_value x) (pair_value x'). Proof. now intros []. Qed.
#[export] Hint Resolve tv_pair_value : twv.
Lemma tv_into_value {A} `{Twin A} c (x x' : pair_of A) : twin c x x' -> twin c (into_value x) (into_value x'). Proof. now intros []. Qed.
#[export] Hint Resolve tv_into_value : twv.
Lemma tv_p_iter {A} `{Twin A} c (l l' : punctuated A) : twin c l l' -> twin c (p_iter l) (p_iter l').
Proof. intros T. unfold p_iter. rewrite <- (tv_p_len c l l' T). apply tv_collect; [apply tv_pair_value|now apply tv_pairs]. Qed.
#[export] Hint Resolve tv_p_iter : twv.
Lemma tv_p_into_iter {A} `{Twin A} c (l l' : punctuated A) : twin c l l' -> twin c (p_into_iter l) (p_into_iter l').
Proof. intros T. unfold p_into_iter. rewrite <- (tv_p_len c l l' T). apply tv_collect; [apply tv_into_value|now apply tv_pairs]. Qed.
#[export] Hint Resolve tv_p_into_iter : twv.
Lemma tv_pair_map {A B} `{Twin A} `{Twin B} c (f f' : A -> B) x x' : (forall a a', twin c a a' -> twin c (f a) (f' a')) -> twin c x x' -> twin c (pair_map f x) (pair_map f' x').
Proof. intros F []; constructor; try assumption; now apply F. Qed.
#[export] Hint Resolve tv_pair_map : twv.
Lemma tv_from_iter {A} `{Twin A} c (l l' : list (pair_of A)) : twin c l l' -> twin c (p_from_iter l) (p_from_iter l'). Proof. apply tv_mk. Qed.
#[export] Hint Resolve tv_from_iter : twv.
Lemma tv_pair_new {A} `{Twin A} c (a a' : A) o o' : twin c a a' -> twin c o o' -> twin c (pair_new a o) (pair_new a' o'). Proof. intros T []; now constructor. Qed.
#[export] Hint Resolve tv_pair_new : twv.
Lemma tv_is_sym c o o' y : twin c o o' -> twin c (is_sym o y) (is_sym o' y). Proof. intros []; [reflexivity|now apply tw_is_symbol]. Qed.
#[export] Hint Resolve tv_is_sym : twv.
Lemma tv_is_ident c o o' : twin c o o' -> twin c (is_ident o) (is_ident o'). Proof. intros []; [reflexivity|now apply tw_is_identifier]. Qed.
#[export] Hint Resolve tv_is_ident : twv.
Lemma tv_right c r r' : twin c r r' -> twin c (is_right_associative_token r) (is_right_associative_token r').
Proof. intros T. apply tv_or; now apply tw_is_symbol. Qed.
#[export] Hint Resolve tv_right : twv.
Lemma tv_compound c r r' : twin c r r' -> twin c (is_compound c r) (is_compound c r').
Proof. intros T. unfold is_compound. cbn [existsb]. repeat first [apply tv_or|apply tv_and|reflexivity|now apply tw_is_symbol]. Qed.
#[export] Hint Resolve tv_compound : twv.
Lemma tv_arg_tree c a a' : twin c a a' -> twin c (arg_tree a) (arg_tree a').
Proof.
  intros []. unfold arg_tree. apply tv_node, tv_cons; [|apply tv_cons; [assumption|apply tv_nil]]. apply tv_opt_tree, tv_option_map; [|assumption].
  intros x x' []. cbn. val.
Qed.
#[export] Hint Resolve tv_arg_tree : twv.
Lemma tv_prefix_tree c a a' : twin c a a' -> twin c (prefix_tree a) (prefix_tree a'). Proof. intros []; cbn; val. Qed.
#[export] Hint Resolve tv_prefix_tree : twv.
Lemma tv_var_tree c a a' : twin c a a' -> twin c (var_tree a) (var_tree a').
Proof. intros []; cbn; val. Qed.
#[export] Hint Resolve tv_var_tree : twv.
Lemma tv_stmt_pair c t t' o o' : twin c t t' -> twin c o o' -> twin c (stmt_pair t o) (stmt_pair t' o').
Proof. intros T O. apply tv_con, tv_cons; [assumption|apply tv_cons; [now apply tv_opt_tok|apply tv_nil]]. Qed.
#[export] Hint Resolve tv_stmt_pair : twv.
Lemma tv_block_tree c l l' o o' : twin c l l' -> twin c o o' -> twin c (block_tree l o) (block_tree l' o').
Proof.
  intros L O. apply tv_node, tv_cons; [now apply tv_vec|apply tv_cons; [|apply tv_nil]]. apply tv_opt_tree, tv_option_map; [|assumption].
  intros x x' []. now apply tv_stmt_pair.
Qed.
#[export] Hint Resolve tv_block_tree : twv.
Lemma tv_stmt_or_moved c k o o' : twin c o o' -> twin c (stmt_or_moved k o) (stmt_or_moved k o').
Proof. intros []; [apply tv_moved|]. apply tv_value, tv_stmt, tv_node, tv_cons; [assumption|apply tv_nil]. Qed.
#[export] Hint Resolve tv_stmt_or_moved : twv.

(** ** What is asked of trees *)
Ltac case_twin :=
  lazymatch goal with
  | |- twin _ (match ?x with _ => _ end) (match ?y with _ => _ end) =>
      first [match goal with H : twin _ x y |- _ => destruct H | H : alike _ x y |- _ => destruct H | H : Forall2 _ x y |- _ => destruct H end
            |constr_eq x y; destruct x]
  | |- twin _ (match ?x with _ => _ end) _ => destruct x
  end; cbv beta iota; try solve [assumption|constructor].
Lemma tv_is_tuple c t t' : twin c t t' -> twin c (is_tuple t) (is_tuple t'). Proof. intros []; reflexivity. Qed.
#[export] Hint Resolve tv_is_tuple : twv.
Lemma tv_is_variadic c t t' : twin c t t' -> twin c (is_variadic t) (is_variadic t'). Proof. intros []; reflexivity. Qed.
#[export] Hint Resolve tv_is_variadic : twv.
Lemma tv_is_call c t t' : twin c t t' -> twin c (is_call t) (is_call t'). Proof. intros []; reflexivity. Qed.
#[export] Hint Resolve tv_is_call : twv.
Lemma tv_block_stmts c t t' : twin c t t' -> twin c (block_stmts t) (block_stmts t').
Proof. intros T. unfold block_stmts. repeat case_twin. Qed.
#[export] Hint Resolve tv_block_stmts : twv.
Lemma tv_block_last_of_stmts c t t' : twin c t t' -> twin c (block_last_of_stmts t) (block_last_of_stmts t').
Proof.
  intros T. apply tv_block_stmts, tv_rev in T. unfold block_last_of_stmts. repeat case_twin. now apply tv_some.
Qed.
#[export] Hint Resolve tv_block_last_of_stmts : twv.
Lemma tv_block_last_stmt c t t' : twin c t t' -> twin c (block_last_stmt t) (block_last_stmt t').
Proof. intros T. unfold block_last_stmt. repeat case_twin. now apply tv_some. Qed.
#[export] Hint Resolve tv_block_last_stmt : twv.
Lemma tv_merge_blocks c a a' b b' : twin c a a' -> twin c b b' -> twin c (merge_blocks a b) (merge_blocks a' b').
Proof.
  intros A B. pose proof A as A0. unfold merge_blocks. destruct A as [r r' R|k cs cs' F|k cs cs' F]; try exact A0. destruct k; try exact A0.
  destruct F as [|x x' l l' X F]; try exact A0. destruct X as [|k us us' U|]; try exact A0; destruct k; try exact A0.
  destruct F as [|y y' l l' Y F]; try exact A0. destruct F; try exact A0.
  destruct B as [r r' R|k cs cs' F|k cs cs' F]; try exact A0. destruct k; try exact A0.
  destruct F as [|z z' l l' Z F]; try exact A0. destruct Z as [|k vs vs' V|]; try exact A0; destruct k; try exact A0.
  destruct F as [|w w' l l' W F]; try exact A0. destruct F; try exact A0.
  apply tv_node, tv_cons; [apply tv_con, tv_app; assumption|apply tv_cons; [|apply tv_nil]].
  destruct Y as [|k cs cs' F|]; [now apply tv_tok| |now apply tv_node]. destruct k; first [exact W|now apply tv_con].
Qed.
#[export] Hint Resolve tv_merge_blocks : twv.

(** ** Iterating over the tokens of a tree *)
Inductive item_twin (c : tie) : item -> item -> Prop :=
| it_one r r' : tied c r r' -> item_twin c (One r) (One r')
| it_more t t' : alike (tied c) t t' -> item_twin c (More t) (More t').
#[export] Instance tw_item : Twin item := item_twin.
Lemma tv_items c t t' : twin c t t' -> twin c (items t) (items t').
Proof.
  revert t'. induction t as [r|k cs IH|k cs IH] using tree_ind'; intros t' T; inversion T; subst; cbn [items].
  - apply tv_cons; [now constructor|apply tv_nil].
  - match goal with H : Forall2 _ cs _ |- _ => revert IH; induction H as [|x x' l l' X F IHF]; intros IH; [constructor|] end. inversion IH; subst. cbn [flat_map].
    apply tv_app; [auto|]. apply IHF; [now constructor|assumption].
  - apply (tv_map (A := tree) c); [|assumption]. intros x x' []; cbn; [now apply it_one|apply it_more; now apply tv_con|apply it_more; now apply tv_node].
Qed.
#[export] Hint Resolve tv_items : twv.
Lemma tv_tree_size c t t' : twin c t t' -> tree_size t = tree_size t'.
Proof.
  revert t'. induction t as [r|k cs IH|k cs IH] using tree_ind'; intros t' T; inversion T; subst; cbn [tree_size]; [reflexivity| |]; f_equal;
  match goal with H : Forall2 _ cs _ |- _ => clear T; revert IH; induction H as [|x x' l l' X F IHF]; intros IH; [reflexivity|] end; inversion IH; subst; cbn; f_equal; auto.
Qed.
Lemma tv_items_size c l l' : twin c l l' -> items_size l = items_size l'.
Proof. unfold items_size. induction 1 as [|x x' l l' X F IH]; [reflexivity|]. cbn. f_equal; [|assumption]. destruct X as [|t t' T]; [reflexivity|]. now apply (tv_tree_size c). Qed.
Lemma tv_next c l l' : twin c l l' -> out_twin (twin c) (tokens_next l) (tokens_next l').
Proof.
  intros T. unfold tokens_next. rewrite <- (tv_items_size c l l' T). generalize (S (items_size l)). intros n. revert l l' T.
  induction n as [|n IH]; intros l l' T; [exact I|]. cbn [next_loop]. destruct T as [|x x' l l' X F]; [repeat constructor|]. destruct X.
  - apply tv_pair; [now apply tv_some|assumption].
  - apply IH, tv_app; [now apply tv_items|assumption].
Qed.
Lemma tv_next_back c l l' : twin c l l' -> out_twin (twin c) (tokens_next_back l) (tokens_next_back l').
Proof.
  intros T. unfold tokens_next_back. rewrite <- (tv_items_size c l l' T). generalize (S (items_size l)). intros n. revert l l' T.
  induction n as [|n IH]; intros l l' T; [exact I|]. cbn [next_back_loop]. apply tv_rev in T. destruct T as [|x x' m m' X F]; [repeat constructor|]. destruct X.
  - apply tv_pair; [now apply tv_some|now apply tv_rev].
  - apply IH. apply tv_app; [now apply tv_rev|now apply tv_items].
Qed.
