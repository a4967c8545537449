(** The parser looks only at the sorts of tokens (C51): relational logic. *)
From Verif Require Import LexerSpec PunctuatedProofs.
From Verif Require Import TreeFacts LexerStep.
From Verif Require Export Parsers LayoutSpec.
From Coq Require Import Lia.
Local Open Scope nat_scope.
Import ListNotations.

(** ** Values that correspond *)
(** How tokens correspond: at most as tokens of the same sort do, and the tokens put in for missing ones correspond to themselves. *)
Record tie := mkTie { tie_cfg :> cfg; tied : tokref -> tokref -> Prop; tied_same : forall r r', tied r r' -> same_ref tie_cfg r r';
  tied_inserted : forall r, inserted tie_cfg r -> tied r r }.
Class Twin (A : Type) := twin : tie -> A -> A -> Prop.
#[export] Hint Mode Twin ! : typeclass_instances.
#[export] Instance tw_ref : Twin tokref := tied.
#[export] Instance tw_tree : Twin tree := fun c => alike (tied c).
#[export] Instance tw_bool : Twin bool := fun _ => eq.
#[export] Instance tw_nat : Twin nat := fun _ => eq.
#[export] Instance tw_symbol : Twin symbol := fun _ => eq.
#[export] Instance tw_kind : Twin kind := fun _ => eq.
#[export] Instance tw_unit : Twin unit := fun _ => eq.
#[export] Instance tw_list_style : Twin list_style := fun _ => eq.
#[export] Instance tw_type_style : Twin type_style := fun _ => eq.
#[export] Instance tw_error : Twin error := fun c => same_error (tied c).
#[export] Instance tw_result : Twin (lexres tokref) := fun c => same_result (tied c).
Inductive opt_twin {A} (R : A -> A -> Prop) : option A -> option A -> Prop :=
| ot_none : opt_twin R None None
| ot_some a a' : R a a' -> opt_twin R (Some a) (Some a').
Inductive pres_twin {A} (R : A -> A -> Prop) : pres A -> pres A -> Prop :=
| rt_value a a' : R a a' -> pres_twin R (Value a) (Value a')
| rt_moved : pres_twin R LexerMoved LexerMoved
| rt_not_found : pres_twin R NotFound NotFound.
Inductive prod_twin {A B} (R : A -> A -> Prop) (Q : B -> B -> Prop) : A * B -> A * B -> Prop :=
| pt_pair a a' b b' : R a a' -> Q b b' -> prod_twin R Q (a, b) (a', b').
Inductive sum_twin {A B} (R : A -> A -> Prop) (Q : B -> B -> Prop) : A + B -> A + B -> Prop :=
| st_inl a a' : R a a' -> sum_twin R Q (inl a) (inl a')
| st_inr b b' : Q b b' -> sum_twin R Q (inr b) (inr b').
Inductive pair_twin {A} (c : tie) (R : A -> A -> Prop) : pair_of A -> pair_of A -> Prop :=
| pr_end a a' : R a a' -> pair_twin c R (End a) (End a')
| pr_punctuated a a' p p' : R a a' -> tied c p p' -> pair_twin c R (Punctuated a p) (Punctuated a' p').
Inductive name_twin (c : tie) : name -> name -> Prop :=
| nt_name r r' a a' t t' : tied c r r' -> opt_twin (alike (tied c)) a a' -> opt_twin (alike (tied c)) t t' -> name_twin c (mkName r a t) (mkName r' a' t').
Inductive arg_twin (c : tie) : type_argument -> type_argument -> Prop :=
| at_arg n n' t t' : opt_twin (prod_twin (tied c) (tied c)) n n' -> alike (tied c) t t' -> arg_twin c (mkArg n t) (mkArg n' t').
Inductive prefix_twin (c : tie) : Parsers.prefix -> Parsers.prefix -> Prop :=
| xt_expression e e' : alike (tied c) e e' -> prefix_twin c (PrefixExpression e) (PrefixExpression e')
| xt_name r r' : tied c r r' -> prefix_twin c (PrefixName r) (PrefixName r').
Inductive stmt_twin (c : tie) : stmt_variant -> stmt_variant -> Prop :=
| vt_stmt t t' : alike (tied c) t t' -> stmt_twin c (VStmt t) (VStmt t')
| vt_last t t' : alike (tied c) t t' -> stmt_twin c (VLastStmt t) (VLastStmt t').
Inductive var_twin (c : tie) : var -> var -> Prop :=
| wt_expression x x' l l' : prefix_twin c x x' -> Forall2 (alike (tied c)) l l' -> var_twin c (VarExpression x l) (VarExpression x' l')
| wt_name r r' : tied c r r' -> var_twin c (VarName r) (VarName r').
#[export] Instance tw_option {A} `{Twin A} : Twin (option A) := fun c => opt_twin (twin c).
#[export] Instance tw_pres {A} `{Twin A} : Twin (pres A) := fun c => pres_twin (twin c).
#[export] Instance tw_prod {A B} `{Twin A} `{Twin B} : Twin (A * B) := fun c => prod_twin (twin c) (twin c).
#[export] Instance tw_sum {A B} `{Twin A} `{Twin B} : Twin (A + B) := fun c => sum_twin (twin c) (twin c).
#[export] Instance tw_list {A} `{Twin A} : Twin (list A) := fun c => Forall2 (twin c).
#[export] Instance tw_pair {A} `{Twin A} : Twin (pair_of A) := fun c => pair_twin c (twin c).
Inductive punct_twin {A} (c : tie) (R : A -> A -> Prop) : punctuated A -> punctuated A -> Prop :=
| ut_pairs l l' : Forall2 (pair_twin c R) l l' -> punct_twin c R (mkPunctuated l) (mkPunctuated l').
#[export] Instance tw_punctuated {A} `{Twin A} : Twin (punctuated A) := fun c => punct_twin c (twin c).
#[export] Instance tw_name : Twin name := name_twin.
#[export] Instance tw_arg : Twin type_argument := arg_twin.
#[export] Instance tw_prefix : Twin Parsers.prefix := prefix_twin.
#[export] Instance tw_stmt : Twin stmt_variant := stmt_twin.
#[export] Instance tw_var : Twin var := var_twin.
Inductive end_twin (c : tie) : table_end -> table_end -> Prop :=
| ent_return r r' : twin c r r' -> end_twin c (TableReturn r) (TableReturn r')
| ent_break f f' a a' : twin c f f' -> twin c a a' -> end_twin c (TableBreak f a) (TableBreak f' a').
#[export] Instance tw_end : Twin table_end := end_twin.
Inductive ast_twin (c : tie) : ast -> ast -> Prop :=
| st_ast t t' r r' : alike (tied c) t t' -> tied c r r' -> ast_twin c (mkAst t r) (mkAst t' r').
#[export] Instance tw_ast : Twin ast := ast_twin.

(** ** Parsers that do the same *)
Definition state_twin c (s s' : pstate) : Prop := Forall2 (same_result (tied c)) (st_toks s) (st_toks s') /\ Forall2 (same_error (tied c)) (st_errors s) (st_errors s').
Definition out_twin {A} (R : A -> A -> Prop) (o o' : out A) : Prop :=
  match o, o' with Done a, Done a' => R a a' | Panic, Panic => True | OutOfFuel, OutOfFuel => True | _, _ => False end.
Definition twins c {A} `{Twin A} (m m' : M A) : Prop :=
  forall s s', state_twin c s s' -> out_twin (fun x x' => twin c (fst x) (fst x') /\ state_twin c (snd x) (snd x')) (m s) (m' s').

Lemma twins_ret c {A} `{Twin A} (a a' : A) : twin c a a' -> twins c (ret a) (ret a').
Proof. intros T s s' S. split; assumption. Qed.
Lemma twins_panic c {A} `{Twin A} : twins c (@panic A) panic.
Proof. intros s s' S. exact I. Qed.
Lemma twins_bind c {A B} `{Twin A} `{Twin B} (m m' : M A) (k k' : A -> M B) :
  twins c m m' -> (forall a a', twin c a a' -> twins c (k a) (k' a')) -> twins c (bind m k) (bind m' k').
Proof.
  intros X Y s s' S. unfold bind. specialize (X s s' S). destruct (m s) as [[a t]| |], (m' s') as [[a' t']| |]; try contradiction; try exact I.
  destruct X as [X1 X2]. now apply Y.
Qed.
Lemma twins_lift c {A} `{Twin A} (o o' : out A) : out_twin (twin c) o o' -> twins c (lift o) (lift o').
Proof. intros T s s' S. unfold lift. destruct o, o'; try contradiction; try exact I. split; assumption. Qed.
Lemma twins_loop c {A B} `{Twin A} `{Twin B} (f f' : A -> M (A + B)) a a' :
  (forall a a', twin c a a' -> twins c (f a) (f' a')) -> twin c a a' -> twins c (loop f a) (loop f' a').
Proof.
  intros F T s s' S. unfold loop. rewrite <- (forall2_length _ _ _ (proj1 S)). generalize (Datatypes.S (List.length (st_toks s))). intros n. revert a a' T s s' S.
  induction n as [|n IH]; intros a a' T s s' S; [exact I|]. cbn [loop_]. pose proof (F a a' T s s' S) as X.
  destruct (f a s) as [[x t]| |], (f' a' s') as [[x' t']| |]; try contradiction; try exact I. destruct X as [X1 X2]. cbn in X1, X2.
  destruct X1 as [u u' U|u u' U]; [now apply IH|]. split; assumption.
Qed.
Lemma twins_current c : twins c current current.
Proof.
  intros [l es] [l' es'] [S1 S2]. cbn in S1, S2. unfold current. cbn [st_toks]. destruct S1 as [|r r' l l' R L]; [exact I|].
  destruct R; (split; [cbn; first [apply ot_none|now apply ot_some]|]); split; cbn; auto; constructor; auto; constructor; auto.
Qed.
Lemma twins_peek c : twins c peek peek.
Proof.
  intros [l es] [l' es'] [S1 S2]. cbn in S1, S2. unfold peek. cbn [st_toks]. destruct S1 as [|r r' l l' R L]; [exact I|]. destruct L as [|q q' l l' Q L]; [exact I|].
  destruct Q; (split; [cbn; first [apply ot_none|now apply ot_some]|]); split; cbn; auto; constructor; auto; constructor; auto; constructor; auto.
Qed.
Lemma lex_errors_twin c es es' : Forall2 same_lex_error es es' -> Forall2 (same_error (tied c)) (map TokenizerError es) (map TokenizerError es').
Proof. induction 1; constructor; auto. now constructor. Qed.
Lemma twins_consume c : twins c consume consume.
Proof.
  intros [l es] [l' es'] [S1 S2]. cbn in S1, S2. unfold consume. cbn [st_toks st_errors]. destruct S1 as [|r r' l l' R L]; [|destruct R].
  - split; [apply rt_not_found|]. split; cbn; auto.
  - split; [now apply rt_value|]. split; auto.
  - split; [apply rt_moved|]. split; auto. cbn. apply Forall2_app; auto using lex_errors_twin.
  - split; [now apply rt_value|]. split; auto. cbn. apply Forall2_app; auto using lex_errors_twin.
Qed.
Lemma twins_error c r r' msg : twin c r r' -> twins c (token_error r msg) (token_error r' msg).
Proof.
  intros T s s' [S1 S2]. split; [reflexivity|]. split; [assumption|]. cbn. apply Forall2_app; [assumption|]. constructor; [|constructor]. now constructor.
Qed.
Lemma twins_error_ranged c r r' msg a a' b b' : twin c r r' -> twin c a a' -> twin c b b' -> twins c (token_error_ranged r msg a b) (token_error_ranged r' msg a' b').
Proof.
  intros T Ta Tb s s' [S1 S2]. split; [reflexivity|]. split; [assumption|]. cbn. apply Forall2_app; [assumption|]. constructor; [|constructor]. now constructor.
Qed.
Lemma twins_errors c : twins c errors errors.
Proof. intros s s' [S1 S2]. split; [assumption|split; assumption]. Qed.
Lemma twins_lexer_current c : twins c Parsers.lexer_current Parsers.lexer_current.
Proof.
  intros [l es] [l' es'] [S1 S2]. cbn in S1, S2. unfold Parsers.lexer_current. cbn [st_toks]. split; [|split; auto]. cbn. destruct S1; [apply ot_none|now apply ot_some].
Qed.
Lemma same_sort_refl c t : same_sort c t t.
Proof. destruct t; cbn; auto; intros _ X; now destruct X. Qed.
Lemma same_ref_refl c r : same_ref c r r.
Proof. split; [apply same_sort_refl|]. reflexivity. Qed.
Lemma twins_basic c w : twins c (basic c w) (basic c w).
Proof. apply twins_lift. destruct (basic_symbol (c_feat c) w) eqn:E; [exact (tied_inserted c _ (in_symbol c _ _ E))|exact I|exact I]. Qed.

(** ** What is asked of tokens *)
Lemma tw_is_symbol c r r' y : twin c r r' -> twin c (is_symbol r y) (is_symbol r' y).
Proof. intros T. apply tied_same in T as [T _]. unfold is_symbol. destruct (t_type (r_token r)), (t_type (r_token r')); cbn in T |- *; try discriminate; try reflexivity. now injection T as ->. Qed.
Lemma tw_is_identifier c r r' : twin c r r' -> twin c (is_identifier r) (is_identifier r').
Proof. intros T. apply tied_same in T as [T _]. unfold is_identifier. destruct (t_type (r_token r)), (t_type (r_token r')); cbn in T |- *; try discriminate; reflexivity. Qed.
Lemma tw_is_string c r r' : twin c r r' -> twin c (is_string r) (is_string r').
Proof. intros T. apply tied_same in T as [T _]. unfold is_string. destruct (t_type (r_token r)), (t_type (r_token r')); cbn in T |- *; try discriminate; reflexivity. Qed.
Lemma tw_is_eof c r r' : twin c r r' -> twin c (is_eof r) (is_eof r').
Proof. intros T. apply tied_same in T as [T _]. unfold is_eof. destruct (t_type (r_token r)), (t_type (r_token r')); cbn in T |- *; try discriminate; reflexivity. Qed.
Lemma tw_is_interpolated c r r' : twin c r r' -> twin c (is_interpolated r) (is_interpolated r').
Proof. intros T. apply tied_same in T as [T _]. unfold is_interpolated. destruct (t_type (r_token r)), (t_type (r_token r')); cbn in T |- *; try discriminate; reflexivity. Qed.
Lemma tw_is_number c r r' : twin c r r' -> twin c (match t_type (r_token r) with TNumber _ => true | _ => false end) (match t_type (r_token r') with TNumber _ => true | _ => false end).
Proof. intros T. apply tied_same in T as [T _]. destruct (t_type (r_token r)), (t_type (r_token r')); cbn in T |- *; try discriminate; reflexivity. Qed.
Lemma tw_precedence c r r' : twin c r r' -> twin c (precedence_of_token c r) (precedence_of_token c r').
Proof.
  intros T. apply tied_same in T as [T _]. unfold precedence_of_token. destruct (t_type (r_token r)), (t_type (r_token r')); cbn in T; try discriminate; try apply ot_none. injection T as <-.
  destruct (match sym with SCaret => _ | _ => _ end); [now apply ot_some|apply ot_none].
Qed.
Lemma contextual_same (c : tie) r r' w : has_luau c = true -> In w contextual -> twin c r r' ->
  (match t_type (r_token r) with TIdentifier x => text_eqb x w | _ => false end) = (match t_type (r_token r') with TIdentifier x => text_eqb x w | _ => false end).
Proof.
  intros L I T. apply tied_same in T as [T _]. destruct (t_type (r_token r)) as [|x| | | | | | | | |], (t_type (r_token r')) as [|x'| | | | | | | | |]; cbn in T; try discriminate; try reflexivity.
  destruct (list_eq_dec N.eq_dec x x') as [->|X]; [reflexivity|]. destruct (T L X) as [A B].
  destruct (text_eqb x w) eqn:E; [apply text_eqb_eq in E; now subst|]. destruct (text_eqb x' w) eqn:E'; [apply text_eqb_eq in E'; now subst|]. reflexivity.
Qed.
