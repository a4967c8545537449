(** C54: nodes made by the constructors. Specification vocabulary: ConstructSpec.v (texts side by side), RoundSpec.v (which trees). *)
From Verif Require Import LexerSpec PunctuatedProofs.
From Verif Require Import TokenSpec ParserTheorems ParserAccept ReprintSpec Scan5 Reprint1 PropertiesParser1 PropertiesParser5 PropertiesLexer5 PropertiesParser9 Construct2 Construct3 Construct4 Construct5 Construct6.
From Verif Require Import TreeFacts PrintProofs Scan6 Round13.
From Coq Require Import Lia.
From Verif Require Import RoundSpec ScanSpec ReprintSpec ConstructSpec Construct.
Local Open Scope nat_scope.
Import ListNotations.

(** ** C54. A block that stands (its parts are of the grammar, its text is read as its tokens) is parsed back from its text: the same
    tree, except that the parser has entries [None] for missing types and attributes. *)
Theorem C54_parse : forall c t, cfg_ok c -> stands c soft (block c) t -> ~ shebang (display t) ->
  exists t0 t' e', parse c (display t) = Done (inl (mkAst t' e')) /\ filled t t0 /\ alike ReprintSpec.same_token t0 t'.
Proof. exact stands_parse. Qed.
Print Assumptions C54_parse.

(** *** Which parts stand: single tokens without trivia; any tree with a space after every token. *)
Theorem C54_token : forall c (P : tree -> Prop) t r, P t -> printed t = [r] -> unspaced r -> lone c (t_type (r_token r)) -> stands c soft P t.
Proof. exact unspaced_stands. Qed.
Print Assumptions C54_token.
Theorem C54_spaced : forall c (P : tree -> Prop) t, P t -> (forall r, In r (printed t) -> spaced r /\ lone c (t_type (r_token r))) -> stands c anything P t.
Proof. exact spaced_stands. Qed.
Print Assumptions C54_spaced.
Theorem C54_soft : forall c P t, stands c anything P t -> stands c soft P t.
Proof. exact stands_soft. Qed.
Print Assumptions C54_soft.

(** *** Statements. [do], [while], [repeat]; the block of [while] must end with white space or the like. *)
Theorem C54_do : forall c f b, stands c soft (block c) b -> exists t, do_new f = Done t /\ stands c soft (statement c) (Nd KStmtDo [with_field 1 b t]).
Proof. exact do_stands. Qed.
Print Assumptions C54_do.
Theorem C54_while : forall c f e b, stands c soft (expression c) e -> stands c anything (block c) b ->
  exists t, while_new f e = Done t /\ stands c anything (statement c) (Nd KStmtWhile [with_field 3 b t]).
Proof. exact while_stands. Qed.
Print Assumptions C54_while.
Theorem C54_repeat : forall c f e b, stands c soft (expression c) e -> stands c soft (block c) b ->
  exists t, repeat_new f e = Done t /\ stands c soft (statement c) (Nd KStmtRepeat [with_field 1 b t]).
Proof. exact repeat_stands. Qed.
Print Assumptions C54_repeat.
Theorem C54_numeric_for : forall c f n x y b, stands c soft name_tree (Tok n) -> stands c soft (expression c) x -> stands c soft (expression c) y -> stands c soft (block c) b ->
  exists t, numeric_for_new f n x y = Done t /\ stands c soft (statement c) (Nd KStmtNumericFor [with_field 9 b t]).
Proof. exact numeric_for_stands. Qed.
Print Assumptions C54_numeric_for.
(** A step needs its comma. *)
Theorem C54_numeric_for_step : forall c f n x y z b, stands c soft name_tree (Tok n) -> stands c soft (expression c) x -> stands c soft (expression c) y -> stands c soft (expression c) z -> stands c soft (block c) b ->
  exists t d, numeric_for_new f n x y = Done t /\ basic_token f (str ", ") = Done d /\ stands c soft (statement c) (Nd KStmtNumericFor [with_field 9 b (with_field 7 (some z) (with_field 6 (some d) t))]).
Proof. exact numeric_for_step_stands. Qed.
Print Assumptions C54_numeric_for_step.
Theorem C54_generic_for : forall c f ns es b d, basic_token f (str ", ") = Done (Tok d) -> ns <> [] -> es <> [] -> Forall (stands c soft name_tree) ns -> Forall (stands c soft (expression c)) es -> stands c soft (block c) b ->
  exists t, generic_for_new f (listing (join d ns)) (listing (join d es)) = Done t /\ stands c soft (statement c) (Nd KStmtGenericFor [with_field 5 b t]).
Proof. exact generic_for_stands. Qed.
Print Assumptions C54_generic_for.
(** [if] without a block; with a block, [then] must be given again, with white space after it. *)
Theorem C54_if_empty : forall c f e, stands c soft (expression c) e -> exists t, if_new f e = Done t /\ stands c soft (statement c) (Nd KStmtIf [t]).
Proof. exact if_empty_stands. Qed.
Print Assumptions C54_if_empty.
Theorem C54_if : forall c f e b, stands c soft (expression c) e -> stands c soft (block c) b ->
  exists t h, if_new f e = Done t /\ basic_token f (str " then" ++ nl) = Done h /\ stands c soft (statement c) (Nd KStmtIf [with_field 3 b (with_field 2 h t)]).
Proof. exact if_stands. Qed.
Print Assumptions C54_if.
Theorem C54_else_if : forall c f e b, stands c soft (expression c) e -> stands c anything (block c) b ->
  exists t, else_if_new f e = Done t /\ stands c anything (else_if_block c) (with_field 3 b t).
Proof. exact else_if_stands. Qed.
Print Assumptions C54_else_if.
Theorem C54_else_ifs : forall c l, l <> [] -> Forall (stands c anything (else_if_block c)) l -> stands c anything (else_if_blocks c) (some (vector l)).
Proof. exact else_ifs_stand. Qed.
Print Assumptions C54_else_ifs.
Theorem C54_if_else_if : forall c f e b l, stands c soft (expression c) e -> stands c anything (block c) b -> stands c anything (else_if_blocks c) l ->
  exists t h, if_new f e = Done t /\ basic_token f (str " then" ++ nl) = Done h /\ stands c soft (statement c) (Nd KStmtIf [with_field 4 l (with_field 3 b (with_field 2 h t))]).
Proof. exact if_else_if_stands. Qed.
Print Assumptions C54_if_else_if.
Theorem C54_if_else : forall c f e b l z, stands c soft (expression c) e -> stands c anything (block c) b -> stands c anything (else_if_blocks c) l -> stands c soft (block c) z ->
  exists t h w, if_new f e = Done t /\ basic_token f (str " then" ++ nl) = Done h /\ basic_token f (str "else" ++ nl) = Done w /\
    stands c soft (statement c) (Nd KStmtIf [with_field 6 (some z) (with_field 5 (some w) (with_field 4 l (with_field 3 b (with_field 2 h t))))]).
Proof. exact if_else_stands. Qed.
Print Assumptions C54_if_else.
Theorem C54_assignment : forall c f vs es d, basic_token f (str ", ") = Done (Tok d) -> vs <> [] -> es <> [] -> Forall (stands c soft (variable c)) vs -> Forall (stands c soft (expression c)) es ->
  exists t, assignment_new f (listing (join d vs)) (listing (join d es)) = Done t /\ stands c soft (statement c) (Nd KStmtAssignment [t]).
Proof. exact assignment_stands. Qed.
Print Assumptions C54_assignment.
Theorem C54_local : forall c f ns d, basic_token f (str ", ") = Done (Tok d) -> ns <> [] -> Forall (stands c soft name_tree) ns ->
  exists t, local_assignment_new f (listing (join d ns)) = Done t /\ stands c soft (statement c) (Nd KStmtLocalAssignment [t]).
Proof. exact local_stands. Qed.
Print Assumptions C54_local.
(** Values need their equal sign. *)
Theorem C54_local_values : forall c f ns es d, basic_token f (str ", ") = Done (Tok d) -> ns <> [] -> es <> [] -> Forall (stands c soft name_tree) ns -> Forall (stands c soft (expression c)) es ->
  exists t q, local_assignment_new f (listing (join d ns)) = Done t /\ basic_token f (str " = ") = Done q /\
    stands c soft (statement c) (Nd KStmtLocalAssignment [with_field 5 (listing (join d es)) (with_field 4 (some q) t)]).
Proof. exact local_values_stands. Qed.
Print Assumptions C54_local_values.
Theorem C54_local_function : forall c f n ps b d, basic_token f (str ", ") = Done (Tok d) -> stands c soft name_tree (Tok n) -> parameter_trees ps -> Forall (reads_tree c soft) ps -> stands c soft (block c) b ->
  exists t y, local_function_new f n = Done t /\ function_body_new f = Done y /\
    stands c soft (statement c) (Nd KStmtLocalFunction [with_field 4 (with_field 5 b (with_field 2 (listing (join d ps)) y)) t]).
Proof. exact local_function_stands. Qed.
Print Assumptions C54_local_function.
Theorem C54_function : forall c f n ps b d, basic_token f (str ", ") = Done (Tok d) -> stands c soft function_name n -> parameter_trees ps -> Forall (reads_tree c soft) ps -> stands c soft (block c) b ->
  exists t y, function_declaration_new f n = Done t /\ function_body_new f = Done y /\
    stands c soft (statement c) (Nd KStmtFunctionDeclaration [with_field 3 (with_field 5 b (with_field 2 (listing (join d ps)) y)) t]).
Proof. exact function_stands. Qed.
Print Assumptions C54_function.
(** [goto] must be given again, with a space after it. *)
Theorem C54_goto : forall c n, f_lua52 (c_feat c) || f_luajit (c_feat c) = true -> has_lua52 c = true \/ has_luajit c = true -> stands c soft name_tree (Tok n) ->
  exists t g, goto_new (c_feat c) n = Done t /\ symbol_token (c_feat c) (str "goto ") = Done g /\ stands c soft (statement c) (Nd KStmtGoto [with_field 0 g t]).
Proof. exact goto_stands. Qed.
Print Assumptions C54_goto.
Theorem C54_type : forall c f n t, has_luau c = true -> stands c soft name_tree (Tok n) -> stands c soft (type c) t ->
  exists d, type_declaration_new f n t = Done d /\ stands c soft (statement c) (Nd KStmtTypeDeclaration [d]) /\
    stands c soft (statement c) (Nd KStmtExportedTypeDeclaration [exported_type_declaration_new d]).
Proof. exact type_stands. Qed.
Print Assumptions C54_type.

(** *** Expressions: functions, tables, calls, [if ... then ... else ...]. *)
Theorem C54_anonymous : forall c f ps b d, basic_token f (str ", ") = Done (Tok d) -> parameter_trees ps -> Forall (reads_tree c soft) ps -> stands c soft (block c) b ->
  exists t y, anonymous_function_new f = Done t /\ function_body_new f = Done y /\
    stands c soft (expression c) (Nd KExprFunction [with_field 2 (with_field 5 b (with_field 2 (listing (join d ps)) y)) t]).
Proof. exact anonymous_stands. Qed.
Print Assumptions C54_anonymous.
Theorem C54_table : forall c f vs d, basic_token f (str ", ") = Done (Tok d) -> Forall (stands c soft (field c)) vs ->
  exists t, table_constructor_new f = Done t /\ stands c anything (table c) (with_field 1 (listing (join d vs)) t).
Proof. exact table_stands. Qed.
Print Assumptions C54_table.
Theorem C54_call : forall c f p es d, basic_token f (str ", ") = Done (Tok d) -> stands c soft (prefix_expression c) p -> Forall (stands c soft (expression c)) es ->
  exists a t, function_args_empty f = Done a /\ function_call_new f p = Done t /\
    stands c anything (fun x => statement c (Nd KStmtFunctionCall [x]) /\ expression c (Nd KExprFunctionCall [x]))
      (with_field 1 (vector [Nd KSuffixCall [Nd KCallAnonymous [with_field 1 (listing (join d es)) a]]]) t).
Proof. exact call_stands. Qed.
Print Assumptions C54_call.
Theorem C54_else_if_expression : forall c f e x, stands c soft (expression c) e -> stands c soft (expression c) x ->
  exists t, else_if_expression_new f e x = Done t /\ stands c soft (else_if c) t /\ starts_soft (flat_map show_ref (printed t)).
Proof. exact else_if_expression_stands. Qed.
Print Assumptions C54_else_if_expression.
(** [then] must be given again, with a space after it. *)
Theorem C54_if_expression : forall c f e x l w, has_luau c = true -> stands c soft (expression c) e -> stands c soft (expression c) x -> stands c soft (expression c) w ->
  Forall (fun t => stands c soft (else_if c) t /\ starts_soft (flat_map show_ref (printed t))) l ->
  exists t h, if_expression_new f e x w = Done t /\ symbol_token f (str " then ") = Done h /\
    stands c soft (expression c) (Nd KExprIfExpression [with_field 4 (match l with [] => none | _ => some (vector l) end) (with_field 2 h t)]).
Proof. exact if_expression_stands. Qed.
Print Assumptions C54_if_expression.

(** *** Blocks. *)
Theorem C54_ended : forall c f s d (S L : tree -> Prop), (forall s o, S s -> optional semicolon o -> L (Con CTuple [s; o])) ->
  basic_token f (str ";" ++ nl) = Done (Tok d) -> stands c soft S s -> stands c anything L (ended d s).
Proof. exact ended_stands. Qed.
Print Assumptions C54_ended.
Theorem C54_without : forall c F s (S L : tree -> Prop), (forall s o, S s -> optional semicolon o -> L (Con CTuple [s; o])) -> stands c F S s -> stands c F L (without s).
Proof. exact without_stands. Qed.
Print Assumptions C54_without.
Theorem C54_return : forall c f es d, basic_token f (str ", ") = Done (Tok d) -> Forall (stands c soft (expression c)) es ->
  exists t, return_new f = Done t /\ stands c soft (last_statement c) (Nd KLastReturn [with_field 1 (listing (join d es)) t]).
Proof. exact return_stands. Qed.
Print Assumptions C54_return.
Theorem C54_last : forall c F t, stands c F (RoundSpec.last_line c) t -> stands c F (optional (RoundSpec.last_line c)) (some t).
Proof. exact some_last. Qed.
Print Assumptions C54_last.
Theorem C54_block : forall c F l z, Forall (stands c anything (line c)) l -> apart l -> stands c F (optional (RoundSpec.last_line c)) z ->
  stands c F (block c) (with_field 1 z (with_field 0 (vector l) block_new)).
Proof. exact block_stands. Qed.
Print Assumptions C54_block.

(** *** No constructor panics: the tokens they make up exist under every feature set under which the node exists. *)
Definition made (x : out tree) : Prop := exists t, x = Done t.
Theorem C54_total : forall f, made (return_new f) /\ made (table_constructor_new f) /\ made (function_body_new f) /\ made (anonymous_function_new f) /\ made (function_args_empty f) /\
  made (do_new f) /\ made (generic_declaration_new f) /\ made (type_instantiation_new f) /\
  (forall n x y, made (numeric_for_new f n x y)) /\ (forall x y, made (generic_for_new f x y)) /\ (forall x, made (if_new f x)) /\ (forall x, made (else_if_new f x)) /\
  (forall x, made (while_new f x)) /\ (forall x, made (repeat_new f x)) /\ (forall n x, made (method_call_new f n x)) /\ (forall x y, made (assignment_new f x y)) /\
  (forall n, made (local_function_new f n)) /\ (forall x, made (local_assignment_new f x)) /\ (forall x, made (function_call_new f x)) /\ (forall x, made (function_declaration_new f x)) /\
  (forall n, made (attribute_new f n)) /\ (forall x y, made (type_field_new f x y)) /\ (forall n x, made (type_declaration_new f n x)) /\ (forall x, made (type_specifier_new f x)) /\
  (forall n x, made (type_function_new f n x)) /\ (forall x y z, made (if_expression_new f x y z)) /\ (forall x y, made (else_if_expression_new f x y)) /\
  (f_lua52 f || f_luajit f = true -> forall n, made (goto_new f n) /\ made (label_new f n)) /\
  (f_luau f = true -> forall n x, made (luau_attribute_new f n) /\ made (type_assertion_new f x)).
Proof. exact constructors_total. Qed.
Print Assumptions C54_total.

(** *** Examples *)
Definition plain_token (t : token_type) : tokref := mkRef [] (mkToken pos0 pos0 t) [].
Definition word_token (w : text) : tokref := plain_token (TIdentifier w).
Definition name_expression (w : text) : tree := Nd KExprVar [Nd KVarName [Tok (word_token w)]].
Definition number_expression (w : text) : tree := Nd KExprNumber [Tok (plain_token (TNumber w))].
Definition program (l : list tree) : tree := with_field 0 (vector (map without l)) block_new.
Definition value (x : out tree) : tree := match x with Done t => t | _ => none end.
Ltac words := first [do 2 eexists; split; [vm_compute; reflexivity|split; vm_compute; reflexivity]|intros I; vm_compute in I; intuition discriminate].
Example C54_name : stands cfg_lua51 soft name_tree (Tok (word_token (str "f"))) /\ stands cfg_lua51 soft (expression cfg_lua51) (name_expression (str "f")).
Proof. split; (eapply unspaced_stands; [|reflexivity|now split|apply word_lone; words]); [eexists; split; reflexivity|]. constructor. constructor. now apply at_name. Qed.
Lemma name_expression_stands c w : is_word w -> ~ In w (reserved_words c) -> stands c soft (expression c) (name_expression w).
Proof. intros W R. eapply unspaced_stands; [|reflexivity|now split|now apply word_lone]. constructor. constructor. now apply at_name. Qed.
Lemma name_tree_stands c w : is_word w -> ~ In w (reserved_words c) -> stands c soft name_tree (Tok (word_token w)).
Proof. intros W R. eapply unspaced_stands; [|reflexivity|now split|now apply word_lone]. eexists; split; reflexivity. Qed.
(** A program made of constructors:
    [local function f(a, ...)return a end; while f do f(a, f); end; return { f }], with line ends. *)
Definition basic (w : text) : tokref := match basic_symbol no_features w with Done r => r | _ => end_of_file end.
Definition comma : tokref := basic (str ", ").
Definition semi : tokref := basic (str ";" ++ nl).
Definition parameters_af : list tree := [Nd KParamName [Tok (word_token (str "a"))]; Nd KParamEllipsis [Tok (plain_token (TSymbol SEllipsis))]].
Definition returning (e : tree) : tree := Nd KLastReturn [with_field 1 (listing (join comma [e])) (value (return_new no_features))].
Definition ending_with (l : list tree) (z : tree) : tree := with_field 1 (some (without z)) (with_field 0 (vector l) block_new).
Definition example_function : tree :=
  Nd KStmtLocalFunction [with_field 4 (with_field 5 (ending_with [] (returning (name_expression (str "a")))) (with_field 2 (listing (join comma parameters_af)) (value (function_body_new no_features))))
    (value (local_function_new no_features (word_token (str "f"))))].
Definition example_call : tree :=
  Nd KStmtFunctionCall [with_field 1 (vector [Nd KSuffixCall [Nd KCallAnonymous [with_field 1 (listing (join comma [name_expression (str "a"); name_expression (str "f")])) (value (function_args_empty no_features))]]])
    (value (function_call_new no_features (Nd KPrefixName [Tok (word_token (str "f"))])))].
Definition example_while : tree := Nd KStmtWhile [with_field 3 (with_field 1 none (with_field 0 (vector [ended semi example_call]) block_new)) (value (while_new no_features (name_expression (str "f"))))].
Definition example_table : tree := Nd KExprTableConstructor [with_field 1 (listing (join comma [Nd KFieldNoKey [name_expression (str "f")]])) (value (table_constructor_new no_features))].
Definition example_program : tree := ending_with [ended semi example_function; without example_while] (returning example_table).
Example C54_example_text : display example_program = str "local function f(a, ...)return a" ++ nl ++ str "end;" ++ nl ++ str "while f do" ++ nl ++ str "f(a, f);" ++ nl ++ str "end" ++ nl ++ str "return { f }".
Proof. vm_compute. reflexivity. Qed.
Example C54_example : stands cfg_lua51 soft (block cfg_lua51) example_program /\ ~ shebang (display example_program).
Proof.
  split; [|intros (r & E); vm_compute in E; discriminate E].
  assert (Ec : basic_token no_features (str ", ") = Done (Tok comma)) by (vm_compute; reflexivity). assert (Es : basic_token no_features (str ";" ++ nl) = Done (Tok semi)) by (vm_compute; reflexivity).
  pose proof (name_expression_stands cfg_lua51 (str "a") ltac:(words) ltac:(words)) as A. pose proof (name_expression_stands cfg_lua51 (str "f") ltac:(words) ltac:(words)) as Fe. pose proof (name_tree_stands cfg_lua51 (str "f") ltac:(words) ltac:(words)) as Fn.
  assert (R : forall e, stands cfg_lua51 soft (expression cfg_lua51) e -> forall l, Forall (stands cfg_lua51 anything (line cfg_lua51)) l -> apart l -> stands cfg_lua51 soft (block cfg_lua51) (ending_with l (returning e))).
  { intros e He l Hl Al. apply block_stands; [exact Hl|exact Al|]. apply some_last. eapply (without_stands _ _ _ (last_statement cfg_lua51)); [intros; constructor; assumption|]. destruct (return_stands cfg_lua51 no_features [e] comma Ec) as (t & Et & Ht); [now constructor|]. unfold returning. rewrite Et. exact Ht. }
  apply R.
  - destruct (table_stands cfg_lua51 no_features [Nd KFieldNoKey [name_expression (str "f")]] comma Ec) as (t & Et & Ht).
    + constructor; [|constructor]. eapply (stands_wrap _ _ _ _ KFieldNoKey); [reflexivity| |reflexivity|exact Fe]. intros; now constructor.
    + apply stands_soft. unfold example_table. rewrite Et. eapply (stands_wrap _ _ _ _ KExprTableConstructor); [reflexivity| |reflexivity|exact Ht]. intros; now do 3 constructor.
  - constructor; [|constructor; [|constructor]].
    + eapply (ended_stands _ _ _ _ (statement cfg_lua51)); [intros; constructor; assumption|exact Es|]. destruct (local_function_stands cfg_lua51 no_features (word_token (str "f")) parameters_af (ending_with [] (returning (name_expression (str "a")))) comma Ec Fn) as (t & y & Et & Ey & Ht).
      * constructor; [reflexivity|]. now constructor.
      * constructor; [|constructor; [|constructor]].
        -- exact (proj2 (stands_ok _ _ _ _ (name_tree_stands cfg_lua51 (str "a") ltac:(words) ltac:(words)))).
        -- refine (proj2 (unspaced_ok cfg_lua51 (plain_token (TSymbol SEllipsis)) _ _)); [now split|]. split; [|repeat split; try easy; discriminate]. apply to_operator. split; [vm_compute; tauto|]. rewrite app_nil_r. repeat split; try (intros; discriminate).
           ++ intros o v _ E. rewrite E, app_length. lia.
           ++ intros d r D E. injection E as <- _. discriminate D.
      * apply R; [exact A|constructor|constructor].
      * unfold example_function. rewrite Et, Ey. exact Ht.
    + eapply (without_stands _ _ _ (statement cfg_lua51)); [intros; constructor; assumption|]. destruct (while_stands cfg_lua51 no_features (name_expression (str "f")) (with_field 1 none (with_field 0 (vector [ended semi example_call]) block_new)) Fe) as (t & Et & Ht).
      * apply block_stands; [|constructor|apply no_last]. constructor; [|constructor]. eapply (ended_stands _ _ _ _ (statement cfg_lua51)); [intros; constructor; assumption|exact Es|].
        destruct (call_stands cfg_lua51 no_features (Nd KPrefixName [Tok (word_token (str "f"))]) [name_expression (str "a"); name_expression (str "f")] comma Ec) as (a & t & Ea & Et & Ht).
        -- eapply (stands_wrap _ _ _ _ KPrefixName); [reflexivity| |reflexivity|exact Fn]. intros x (r & -> & N). now constructor.
        -- constructor; [exact A|]. now constructor.
        -- unfold example_call. rewrite Ea, Et. apply stands_soft. eapply (stands_wrap _ _ _ _ KStmtFunctionCall); [reflexivity| |reflexivity|exact Ht]. now intros x [].
      * unfold example_while. rewrite Et. exact Ht.
  - constructor; [|constructor]. cbn. discriminate.
Qed.

(** *** What the constructors make does not always stand. [Goto::new(label)] prints [gotolabel], one word. *)
Theorem C54_goto_refuted : exists t es, goto_new (c_feat cfg_lua54) (word_token (str "l")) = Done t /\ statement cfg_lua54 (Nd KStmtGoto [t]) /\ display t = str "gotol" /\
  parse cfg_lua54 (display (program [Nd KStmtGoto [t]])) = Done (inr es).
Proof. do 2 eexists. split; [vm_compute; reflexivity|]. split; [apply sm_goto; vm_compute; auto|]. split; vm_compute; reflexivity. Qed.
Print Assumptions C54_goto_refuted.
(** [If::new(x).with_block(block)] prints [then] and the block without a space. *)
Definition local_y : tree := Nd KStmtLocalAssignment [value (local_assignment_new no_features (listing [final (Tok (word_token (str "y")))]))].
Theorem C54_if_refuted : exists t es, if_new no_features (name_expression (str "x")) = Done t /\ display (with_field 3 (program [local_y]) t) = str "if x thenlocal y" ++ nl ++ str "end" /\
  parse cfg_lua51 (display (program [Nd KStmtIf [with_field 3 (program [local_y]) t]])) = Done (inr es).
Proof. do 2 eexists. split; [vm_compute; reflexivity|]. split; vm_compute; reflexivity. Qed.
Print Assumptions C54_if_refuted.
(** [If::new(x).with_else_if(Some(vec![ElseIf::new(y)]))] prints [thenelseif]. *)
Theorem C54_else_if_refuted : exists t u es, if_new no_features (name_expression (str "x")) = Done t /\ else_if_new no_features (name_expression (str "y")) = Done u /\
  display (with_field 4 (some (vector [u])) t) = str "if x thenelseif y then" ++ nl ++ nl ++ str "end" /\
  parse cfg_lua51 (display (program [Nd KStmtIf [with_field 4 (some (vector [u])) t]])) = Done (inr es).
Proof. do 3 eexists. split; [vm_compute; reflexivity|]. split; [vm_compute; reflexivity|]. split; vm_compute; reflexivity. Qed.
Print Assumptions C54_else_if_refuted.
(** [While::new(x).with_block(block)] prints the block and [end] without a space: the [end] is lost. *)
Theorem C54_while_refuted : exists t es, while_new no_features (name_expression (str "x")) = Done t /\ display (with_field 3 (program [local_y]) t) = str "while x do" ++ nl ++ str "local yend" ++ nl /\
  parse cfg_lua51 (display (program [Nd KStmtWhile [with_field 3 (program [local_y]) t]])) = Done (inr es).
Proof. do 2 eexists. split; [vm_compute; reflexivity|]. split; vm_compute; reflexivity. Qed.
Print Assumptions C54_while_refuted.
(** [IfExpression::new] prints [then] and the expression without a space. *)
Theorem C54_if_expression_refuted : exists t es, if_expression_new (c_feat cfg_luau) (name_expression (str "a")) (name_expression (str "b")) (name_expression (str "c")) = Done t /\
  expression cfg_luau (Nd KExprIfExpression [t]) /\ display t = str "if a thenb else c" /\ parse cfg_luau (str "return " ++ display t) = Done (inr es).
Proof.
  do 2 eexists. split; [vm_compute; reflexivity|]. split; [|split; vm_compute; reflexivity]. constructor. apply ue_if; try (vm_compute; reflexivity); try (constructor; constructor; now apply at_name).
Qed.
Print Assumptions C54_if_expression_refuted.
(** A part without its token is printed nevertheless. An else block without [else] becomes a part of the block before: the text is
    accepted, and the [if] has no else block. *)
Theorem C54_else_refuted : exists t t' e' b i e h n, if_new no_features (name_expression (str "x")) = Done t /\
  parse cfg_lua51 (display (program [Nd KStmtIf [with_field 6 (some (program [local_y])) (with_field 2 (Tok (basic (str " then" ++ nl))) t)]])) = Done (inl (mkAst t' e')) /\
  t' = Nd KBlock [vector [without (Nd KStmtIf [Nd KIf [i; e; h; b; none; none; none; n]])]; none] /\ display b = str "local y" ++ nl.
Proof. do 8 eexists. split; [vm_compute; reflexivity|]. split; [vm_compute; reflexivity|]. split; [reflexivity|vm_compute; reflexivity]. Qed.
Print Assumptions C54_else_refuted.
(** Values of a local assignment without the equal sign, and a step without a comma, are joined to the token before. *)
Theorem C54_values_refuted : exists t t' e', local_assignment_new no_features (listing [final (Tok (word_token (str "x")))]) = Done t /\
  display (with_field 5 (listing [final (number_expression (str "1"))]) t) = str "local x1" /\
  parse cfg_lua51 (display (program [Nd KStmtLocalAssignment [with_field 5 (listing [final (number_expression (str "1"))]) t]])) = Done (inl (mkAst t' e')) /\
  map (fun r => show_token (r_token r)) (printed t') = [str "local"; str "x1"].
Proof. do 3 eexists. split; [vm_compute; reflexivity|]. split; [vm_compute; reflexivity|]. split; vm_compute; reflexivity. Qed.
Print Assumptions C54_values_refuted.
Theorem C54_step_refuted : exists t t' e', numeric_for_new no_features (word_token (str "i")) (number_expression (str "1")) (number_expression (str "10")) = Done t /\
  parse cfg_lua51 (display (program [Nd KStmtNumericFor [with_field 7 (some (number_expression (str "3"))) t]])) = Done (inl (mkAst t' e')) /\
  map (fun r => show_token (r_token r)) (printed t') = map str ["for"; "i"; "="; "1"; ","; "103"; "do"; "end"]%string.
Proof. do 3 eexists. split; [vm_compute; reflexivity|]. split; vm_compute; reflexivity. Qed.
Print Assumptions C54_step_refuted.
(** The vectors of types and attributes of a new local assignment are empty; those of the parser have an entry for every name. So the
    two are not equal, though both print the same text. *)
Theorem C54_vectors_refuted : exists t t' e' o v l a, local_assignment_new no_features (listing [final (Tok (word_token (str "x")))]) = Done t /\
  parse cfg_lua51 (display (program [Nd KStmtLocalAssignment [t]])) = Done (inl (mkAst t' e')) /\
  t' = program [Nd KStmtLocalAssignment [Nd KLocalAssignment [o; v; l; a; none; listing []]]] /\ v = vector [none] /\ a = vector [none] /\
  ~ alike ReprintSpec.same_token (program [Nd KStmtLocalAssignment [t]]) t'.
Proof.
  do 7 eexists. split; [vm_compute; reflexivity|]. split; [vm_compute; reflexivity|]. split; [reflexivity|]. split; [reflexivity|]. split; [reflexivity|].
  intros A. repeat match goal with H : alike _ _ _ |- _ => inversion H; clear H; subst | H : Forall2 _ _ _ |- _ => inversion H; clear H; subst end.
Qed.
Print Assumptions C54_vectors_refuted.
