(** The getters of the nodes and the functions [with_...] that set what they get: ast/mod.rs, compound.rs, lua52.rs, lua54.rs, luau.rs. *)
From Verif Require Import LexerSpec.
From Verif Require Export Construct Node.
Local Open Scope nat_scope.
Import ListNotations.

(** What a getter returns: the field with the number [n] (fields are numbered as they are declared, Tree.v), or a component of a field
    that is an optional pair, then as an option. References and [Option<&T>] are not told apart from the values; a getter that returns an
    iterator over a field is taken to return the field. *)
Inductive part := Whole (n : nat) | Left (n : nat) | Right (n : nat).
Record accessor := acc { ac_kind : kind; ac_name : text; ac_part : part }.
Definition part_field (p : part) : nat := match p with Whole n | Left n | Right n => n end.
Definition optional_pair (f : tree -> tree -> tree) (t : tree) : option tree :=
  match t with
  | Con CSome [Con CTuple [a; b]] => Some (Con CSome [f a b])
  | Con CNone [] => Some (Con CNone [])
  | _ => None
  end.
Definition part_of (p : part) (t : tree) : option tree :=
  match p with Whole _ => Some t | Left _ => optional_pair (fun a _ => a) t | Right _ => optional_pair (fun _ b => b) t end.
(** [x.name()]. [None] does not happen for nodes of the kind (C62). *)
Definition get (g : accessor) (t : tree) : option tree :=
  match t with Nd _ cs => match nth_error cs (part_field (ac_part g)) with Some x => part_of (ac_part g) x | None => None end | _ => None end.
(** [x.with_name(v)]: [Self { field: v, ..self }]. *)
Definition set (s : accessor) (v t : tree) : tree := with_field (part_field (ac_part s)) v t.

(** The getters with a field of their own, by struct. *)
Definition getters : list accessor :=
  [acc KBlock (str "stmts_with_semicolon") (Whole 0) (* mod.rs:84 *);
   acc KBlock (str "last_stmt_with_semicolon") (Whole 1) (* mod.rs:94 *);
   acc KReturn (str "token") (Whole 0) (* mod.rs:154 *);
   acc KReturn (str "returns") (Whole 1) (* mod.rs:159 *);
   acc KTableConstructor (str "braces") (Whole 0) (* mod.rs:256 *);
   acc KTableConstructor (str "fields") (Whole 1) (* mod.rs:261 *);
   acc KAnonymousFunction (str "attributes") (Whole 0) (* mod.rs:310 *);
   acc KAnonymousFunction (str "function_token") (Whole 1) (* mod.rs:315 *);
   acc KAnonymousFunction (str "body") (Whole 2) (* mod.rs:320 *);
   acc KNumericFor (str "for_token") (Whole 0) (* mod.rs:629 *);
   acc KNumericFor (str "index_variable") (Whole 1) (* mod.rs:634 *);
   acc KNumericFor (str "equal_token") (Whole 2) (* mod.rs:639 *);
   acc KNumericFor (str "start") (Whole 3) (* mod.rs:644 *);
   acc KNumericFor (str "start_end_comma") (Whole 4) (* mod.rs:651 *);
   acc KNumericFor (str "end") (Whole 5) (* mod.rs:656 *);
   acc KNumericFor (str "end_step_comma") (Whole 6) (* mod.rs:663 *);
   acc KNumericFor (str "step") (Whole 7) (* mod.rs:668 *);
   acc KNumericFor (str "do_token") (Whole 8) (* mod.rs:673 *);
   acc KNumericFor (str "block") (Whole 9) (* mod.rs:678 *);
   acc KNumericFor (str "end_token") (Whole 10) (* mod.rs:683 *);
   acc KNumericFor (str "type_specifier") (Whole 11) (* mod.rs:692 *);
   acc KGenericFor (str "for_token") (Whole 0) (* mod.rs:851 *);
   acc KGenericFor (str "names") (Whole 1) (* mod.rs:857 *);
   acc KGenericFor (str "in_token") (Whole 2) (* mod.rs:862 *);
   acc KGenericFor (str "expressions") (Whole 3) (* mod.rs:868 *);
   acc KGenericFor (str "do_token") (Whole 4) (* mod.rs:873 *);
   acc KGenericFor (str "block") (Whole 5) (* mod.rs:878 *);
   acc KGenericFor (str "end_token") (Whole 6) (* mod.rs:883 *);
   acc KGenericFor (str "type_specifiers") (Whole 7) (* mod.rs:892 *);
   acc KIf (str "if_token") (Whole 0) (* mod.rs:1016 *);
   acc KIf (str "condition") (Whole 1) (* mod.rs:1021 *);
   acc KIf (str "then_token") (Whole 2) (* mod.rs:1026 *);
   acc KIf (str "block") (Whole 3) (* mod.rs:1031 *);
   acc KIf (str "else_if") (Whole 4) (* mod.rs:1043 *);
   acc KIf (str "else_token") (Whole 5) (* mod.rs:1036 *);
   acc KIf (str "else_block") (Whole 6) (* mod.rs:1048 *);
   acc KIf (str "end_token") (Whole 7) (* mod.rs:1053 *);
   acc KElseIf (str "else_if_token") (Whole 0) (* mod.rs:1121 *);
   acc KElseIf (str "condition") (Whole 1) (* mod.rs:1126 *);
   acc KElseIf (str "then_token") (Whole 2) (* mod.rs:1131 *);
   acc KElseIf (str "block") (Whole 3) (* mod.rs:1136 *);
   acc KWhile (str "while_token") (Whole 0) (* mod.rs:1189 *);
   acc KWhile (str "condition") (Whole 1) (* mod.rs:1194 *);
   acc KWhile (str "do_token") (Whole 2) (* mod.rs:1199 *);
   acc KWhile (str "block") (Whole 3) (* mod.rs:1204 *);
   acc KWhile (str "end_token") (Whole 4) (* mod.rs:1209 *);
   acc KRepeat (str "repeat_token") (Whole 0) (* mod.rs:1265 *);
   acc KRepeat (str "block") (Whole 1) (* mod.rs:1270 *);
   acc KRepeat (str "until_token") (Whole 2) (* mod.rs:1275 *);
   acc KRepeat (str "until") (Whole 3) (* mod.rs:1280 *);
   acc KMethodCall (str "colon_token") (Whole 0) (* mod.rs:1338 *);
   acc KMethodCall (str "name") (Whole 1) (* mod.rs:1348 *);
   acc KMethodCall (str "type_instantiation") (Whole 2) (* mod.rs:1356 *);
   acc KMethodCall (str "args") (Whole 3) (* mod.rs:1343 *);
   acc KFunctionBody (str "generics") (Whole 0) (* mod.rs:1485 *);
   acc KFunctionBody (str "parameters_parentheses") (Whole 1) (* mod.rs:1462 *);
   acc KFunctionBody (str "parameters") (Whole 2) (* mod.rs:1467 *);
   acc KFunctionBody (str "type_specifiers") (Whole 3) (* mod.rs:1494 *);
   acc KFunctionBody (str "return_type") (Whole 4) (* mod.rs:1501 *);
   acc KFunctionBody (str "block") (Whole 5) (* mod.rs:1472 *);
   acc KFunctionBody (str "end_token") (Whole 6) (* mod.rs:1477 *);
   acc KVarExpression (str "prefix") (Whole 0) (* mod.rs:1639 *);
   acc KVarExpression (str "suffixes") (Whole 1) (* mod.rs:1644 *);
   acc KAssignment (str "variables") (Whole 0) (* mod.rs:1705 *);
   acc KAssignment (str "equal_token") (Whole 1) (* mod.rs:1699 *);
   acc KAssignment (str "expressions") (Whole 2) (* mod.rs:1694 *);
   acc KLocalFunction (str "attributes") (Whole 0) (* mod.rs:1770 *);
   acc KLocalFunction (str "local_token") (Whole 1) (* mod.rs:1775 *);
   acc KLocalFunction (str "function_token") (Whole 2) (* mod.rs:1780 *);
   acc KLocalFunction (str "name") (Whole 3) (* mod.rs:1790 *);
   acc KLocalFunction (str "body") (Whole 4) (* mod.rs:1785 *);
   acc KLocalAssignment (str "local_token") (Whole 0) (* mod.rs:1865 *);
   acc KLocalAssignment (str "type_specifiers") (Whole 1) (* mod.rs:1891 *);
   acc KLocalAssignment (str "names") (Whole 2) (* mod.rs:1882 *);
   acc KLocalAssignment (str "attributes") (Whole 3) (* mod.rs:1900 *);
   acc KLocalAssignment (str "equal_token") (Whole 4) (* mod.rs:1870 *);
   acc KLocalAssignment (str "expressions") (Whole 5) (* mod.rs:1876 *);
   acc KDo (str "do_token") (Whole 0) (* mod.rs:1990 *);
   acc KDo (str "block") (Whole 1) (* mod.rs:1995 *);
   acc KDo (str "end_token") (Whole 2) (* mod.rs:2000 *);
   acc KFunctionCall (str "prefix") (Whole 0) (* mod.rs:2054 *);
   acc KFunctionCall (str "suffixes") (Whole 1) (* mod.rs:2059 *);
   acc KFunctionName (str "names") (Whole 0) (* mod.rs:2109 *);
   acc KFunctionName (str "method_colon") (Left 1) (* mod.rs:2098 *);
   acc KFunctionName (str "method_name") (Right 1) (* mod.rs:2103 *);
   acc KFunctionDeclaration (str "attributes") (Whole 0) (* mod.rs:2159 *);
   acc KFunctionDeclaration (str "function_token") (Whole 1) (* mod.rs:2164 *);
   acc KFunctionDeclaration (str "name") (Whole 2) (* mod.rs:2174 *);
   acc KFunctionDeclaration (str "body") (Whole 3) (* mod.rs:2169 *);
   acc KTypeUnion (str "leading") (Whole 0) (* luau.rs:210 *);
   acc KTypeUnion (str "types") (Whole 1) (* luau.rs:215 *);
   acc KTypeIntersection (str "leading") (Whole 0) (* luau.rs:246 *);
   acc KTypeIntersection (str "types") (Whole 1) (* luau.rs:251 *);
   acc KTypeField (str "access") (Whole 0) (* luau.rs:305 *);
   acc KTypeField (str "key") (Whole 1) (* luau.rs:310 *);
   acc KTypeField (str "colon_token") (Whole 2) (* luau.rs:315 *);
   acc KTypeField (str "value") (Whole 3) (* luau.rs:320 *);
   acc KTypeAssertion (str "assertion_op") (Whole 0) (* luau.rs:387 *);
   acc KTypeAssertion (str "cast_to") (Whole 1) (* luau.rs:392 *);
   acc KTypeDeclaration (str "type_token") (Whole 0) (* luau.rs:448 *);
   acc KTypeDeclaration (str "type_name") (Whole 1) (* luau.rs:453 *);
   acc KTypeDeclaration (str "generics") (Whole 2) (* luau.rs:458 *);
   acc KTypeDeclaration (str "equal_token") (Whole 3) (* luau.rs:463 *);
   acc KTypeDeclaration (str "type_definition") (Whole 4) (* luau.rs:468 *);
   acc KGenericDeclarationParameter (str "parameter") (Whole 0) (* luau.rs:549 *);
   acc KGenericDeclarationParameter (str "equals") (Left 1) (* luau.rs:554 *);
   acc KGenericDeclarationParameter (str "default_type") (Right 1) (* luau.rs:559 *);
   acc KGenericDeclaration (str "arrows") (Whole 0) (* luau.rs:597 *);
   acc KGenericDeclaration (str "generics") (Whole 1) (* luau.rs:602 *);
   acc KTypeSpecifier (str "punctuation") (Whole 0) (* luau.rs:643 *);
   acc KTypeSpecifier (str "type_info") (Whole 1) (* luau.rs:648 *);
   acc KTypeArgument (str "name") (Whole 0) (* luau.rs:684 *);
   acc KTypeArgument (str "type_info") (Whole 1) (* luau.rs:689 *);
   acc KExportedTypeDeclaration (str "export_token") (Whole 0) (* luau.rs:739 *);
   acc KExportedTypeDeclaration (str "type_declaration") (Whole 1) (* luau.rs:744 *);
   acc KTypeFunction (str "type_token") (Whole 0) (* luau.rs:796 *);
   acc KTypeFunction (str "function_token") (Whole 1) (* luau.rs:801 *);
   acc KTypeFunction (str "function_name") (Whole 2) (* luau.rs:806 *);
   acc KTypeFunction (str "function_body") (Whole 3) (* luau.rs:811 *);
   acc KExportedTypeFunction (str "export_token") (Whole 0) (* luau.rs:870 *);
   acc KExportedTypeFunction (str "type_function") (Whole 1) (* luau.rs:875 *);
   acc KIfExpression (str "if_token") (Whole 0) (* luau.rs:954 *);
   acc KIfExpression (str "condition") (Whole 1) (* luau.rs:959 *);
   acc KIfExpression (str "then_token") (Whole 2) (* luau.rs:964 *);
   acc KIfExpression (str "if_expression") (Whole 3) (* luau.rs:969 *);
   acc KIfExpression (str "else_if_expressions") (Whole 4) (* luau.rs:980 *);
   acc KIfExpression (str "else_token") (Whole 5) (* luau.rs:974 *);
   acc KIfExpression (str "else_expression") (Whole 6) (* luau.rs:985 *);
   acc KElseIfExpression (str "else_if_token") (Whole 0) (* luau.rs:1060 *);
   acc KElseIfExpression (str "condition") (Whole 1) (* luau.rs:1065 *);
   acc KElseIfExpression (str "then_token") (Whole 2) (* luau.rs:1070 *);
   acc KElseIfExpression (str "expression") (Whole 3) (* luau.rs:1075 *);
   acc KInterpolatedString (str "segments") (Whole 0) (* luau.rs:1129 *);
   acc KInterpolatedString (str "last_string") (Whole 1) (* luau.rs:1134 *);
   acc KLuauAttribute (str "at_sign") (Whole 0) (* luau.rs:1228 *);
   acc KLuauAttribute (str "name") (Whole 1) (* luau.rs:1233 *);
   acc KTypeInstantiation (str "outer_arrows") (Whole 0) (* luau.rs:1293 *);
   acc KTypeInstantiation (str "inner_arrows") (Whole 1) (* luau.rs:1298 *);
   acc KTypeInstantiation (str "types") (Whole 2) (* luau.rs:1303 *);
   acc KGoto (str "goto_token") (Whole 0) (* lua52.rs:30 *);
   acc KGoto (str "label_name") (Whole 1) (* lua52.rs:35 *);
   acc KLabel (str "left_colons") (Whole 0) (* lua52.rs:71 *);
   acc KLabel (str "name") (Whole 1) (* lua52.rs:76 *);
   acc KLabel (str "right_colons") (Whole 2) (* lua52.rs:81 *);
   acc KAttribute (str "brackets") (Whole 0) (* lua54.rs:40 *);
   acc KAttribute (str "name") (Whole 1) (* lua54.rs:35 *);
   acc KCompoundAssignment (str "lhs") (Whole 0) (* compound.rs:128 *);
   acc KCompoundAssignment (str "compound_operator") (Whole 1) (* compound.rs:133 *);
   acc KCompoundAssignment (str "rhs") (Whole 2) (* compound.rs:138 *)].
(** The functions [with_...]. *)
Definition setters : list accessor :=
  [acc KBlock (str "with_stmts") (Whole 0) (* mod.rs:100 *);
   acc KBlock (str "with_last_stmt") (Whole 1) (* mod.rs:106 *);
   acc KReturn (str "with_token") (Whole 0) (* mod.rs:164 *);
   acc KReturn (str "with_returns") (Whole 1) (* mod.rs:169 *);
   acc KTableConstructor (str "with_braces") (Whole 0) (* mod.rs:266 *);
   acc KTableConstructor (str "with_fields") (Whole 1) (* mod.rs:271 *);
   acc KAnonymousFunction (str "with_attributes") (Whole 0) (* mod.rs:326 *);
   acc KAnonymousFunction (str "with_function_token") (Whole 1) (* mod.rs:331 *);
   acc KAnonymousFunction (str "with_body") (Whole 2) (* mod.rs:339 *);
   acc KNumericFor (str "with_for_token") (Whole 0) (* mod.rs:697 *);
   acc KNumericFor (str "with_index_variable") (Whole 1) (* mod.rs:702 *);
   acc KNumericFor (str "with_equal_token") (Whole 2) (* mod.rs:710 *);
   acc KNumericFor (str "with_start") (Whole 3) (* mod.rs:718 *);
   acc KNumericFor (str "with_start_end_comma") (Whole 4) (* mod.rs:723 *);
   acc KNumericFor (str "with_end") (Whole 5) (* mod.rs:731 *);
   acc KNumericFor (str "with_end_step_comma") (Whole 6) (* mod.rs:736 *);
   acc KNumericFor (str "with_step") (Whole 7) (* mod.rs:744 *);
   acc KNumericFor (str "with_do_token") (Whole 8) (* mod.rs:749 *);
   acc KNumericFor (str "with_block") (Whole 9) (* mod.rs:754 *);
   acc KNumericFor (str "with_end_token") (Whole 10) (* mod.rs:759 *);
   acc KNumericFor (str "with_type_specifier") (Whole 11) (* mod.rs:766 *);
   acc KGenericFor (str "with_for_token") (Whole 0) (* mod.rs:897 *);
   acc KGenericFor (str "with_names") (Whole 1) (* mod.rs:902 *);
   acc KGenericFor (str "with_in_token") (Whole 2) (* mod.rs:907 *);
   acc KGenericFor (str "with_expressions") (Whole 3) (* mod.rs:912 *);
   acc KGenericFor (str "with_do_token") (Whole 4) (* mod.rs:917 *);
   acc KGenericFor (str "with_block") (Whole 5) (* mod.rs:922 *);
   acc KGenericFor (str "with_end_token") (Whole 6) (* mod.rs:927 *);
   acc KGenericFor (str "with_type_specifiers") (Whole 7) (* mod.rs:934 *);
   acc KIf (str "with_if_token") (Whole 0) (* mod.rs:1058 *);
   acc KIf (str "with_condition") (Whole 1) (* mod.rs:1063 *);
   acc KIf (str "with_then_token") (Whole 2) (* mod.rs:1068 *);
   acc KIf (str "with_block") (Whole 3) (* mod.rs:1073 *);
   acc KIf (str "with_else_if") (Whole 4) (* mod.rs:1078 *);
   acc KIf (str "with_else_token") (Whole 5) (* mod.rs:1083 *);
   acc KIf (str "with_else") (Whole 6) (* mod.rs:1088 *);
   acc KIf (str "with_end_token") (Whole 7) (* mod.rs:1093 *);
   acc KElseIf (str "with_else_if_token") (Whole 0) (* mod.rs:1141 *);
   acc KElseIf (str "with_condition") (Whole 1) (* mod.rs:1149 *);
   acc KElseIf (str "with_then_token") (Whole 2) (* mod.rs:1154 *);
   acc KElseIf (str "with_block") (Whole 3) (* mod.rs:1159 *);
   acc KWhile (str "with_while_token") (Whole 0) (* mod.rs:1214 *);
   acc KWhile (str "with_condition") (Whole 1) (* mod.rs:1222 *);
   acc KWhile (str "with_do_token") (Whole 2) (* mod.rs:1227 *);
   acc KWhile (str "with_block") (Whole 3) (* mod.rs:1232 *);
   acc KWhile (str "with_end_token") (Whole 4) (* mod.rs:1237 *);
   acc KRepeat (str "with_repeat_token") (Whole 0) (* mod.rs:1285 *);
   acc KRepeat (str "with_block") (Whole 1) (* mod.rs:1293 *);
   acc KRepeat (str "with_until_token") (Whole 2) (* mod.rs:1298 *);
   acc KRepeat (str "with_until") (Whole 3) (* mod.rs:1306 *);
   acc KMethodCall (str "with_colon_token") (Whole 0) (* mod.rs:1361 *);
   acc KMethodCall (str "with_name") (Whole 1) (* mod.rs:1369 *);
   acc KMethodCall (str "with_type_instanation") (Whole 2) (* mod.rs:1380 *);
   acc KMethodCall (str "with_args") (Whole 3) (* mod.rs:1374 *);
   acc KFunctionBody (str "with_generics") (Whole 0) (* mod.rs:1520 *);
   acc KFunctionBody (str "with_parameters_parentheses") (Whole 1) (* mod.rs:1506 *);
   acc KFunctionBody (str "with_parameters") (Whole 2) (* mod.rs:1514 *);
   acc KFunctionBody (str "with_type_specifiers") (Whole 3) (* mod.rs:1526 *);
   acc KFunctionBody (str "with_return_type") (Whole 4) (* mod.rs:1535 *);
   acc KFunctionBody (str "with_block") (Whole 5) (* mod.rs:1543 *);
   acc KFunctionBody (str "with_end_token") (Whole 6) (* mod.rs:1548 *);
   acc KVarExpression (str "with_prefix") (Whole 0) (* mod.rs:1649 *);
   acc KVarExpression (str "with_suffixes") (Whole 1) (* mod.rs:1654 *);
   acc KAssignment (str "with_variables") (Whole 0) (* mod.rs:1710 *);
   acc KAssignment (str "with_equal_token") (Whole 1) (* mod.rs:1715 *);
   acc KAssignment (str "with_expressions") (Whole 2) (* mod.rs:1723 *);
   acc KLocalFunction (str "with_attributes") (Whole 0) (* mod.rs:1796 *);
   acc KLocalFunction (str "with_local_token") (Whole 1) (* mod.rs:1801 *);
   acc KLocalFunction (str "with_function_token") (Whole 2) (* mod.rs:1809 *);
   acc KLocalFunction (str "with_name") (Whole 3) (* mod.rs:1817 *);
   acc KLocalFunction (str "with_body") (Whole 4) (* mod.rs:1822 *);
   acc KLocalAssignment (str "with_local_token") (Whole 0) (* mod.rs:1905 *);
   acc KLocalAssignment (str "with_type_specifiers") (Whole 1) (* mod.rs:1914 *);
   acc KLocalAssignment (str "with_names") (Whole 2) (* mod.rs:1928 *);
   acc KLocalAssignment (str "with_attributes") (Whole 3) (* mod.rs:1923 *);
   acc KLocalAssignment (str "with_equal_token") (Whole 4) (* mod.rs:1933 *);
   acc KLocalAssignment (str "with_expressions") (Whole 5) (* mod.rs:1941 *);
   acc KDo (str "with_do_token") (Whole 0) (* mod.rs:2005 *);
   acc KDo (str "with_block") (Whole 1) (* mod.rs:2010 *);
   acc KDo (str "with_end_token") (Whole 2) (* mod.rs:2015 *);
   acc KFunctionCall (str "with_prefix") (Whole 0) (* mod.rs:2064 *);
   acc KFunctionCall (str "with_suffixes") (Whole 1) (* mod.rs:2069 *);
   acc KFunctionName (str "with_names") (Whole 0) (* mod.rs:2114 *);
   acc KFunctionName (str "with_method") (Whole 1) (* mod.rs:2120 *);
   acc KFunctionDeclaration (str "with_attributes") (Whole 0) (* mod.rs:2180 *);
   acc KFunctionDeclaration (str "with_function_token") (Whole 1) (* mod.rs:2185 *);
   acc KFunctionDeclaration (str "with_name") (Whole 2) (* mod.rs:2193 *);
   acc KFunctionDeclaration (str "with_body") (Whole 3) (* mod.rs:2198 *);
   acc KTypeUnion (str "with_leading") (Whole 0) (* luau.rs:205 *);
   acc KTypeUnion (str "with_types") (Whole 1) (* luau.rs:200 *);
   acc KTypeIntersection (str "with_leading") (Whole 0) (* luau.rs:241 *);
   acc KTypeIntersection (str "with_types") (Whole 1) (* luau.rs:236 *);
   acc KTypeField (str "with_access") (Whole 0) (* luau.rs:338 *);
   acc KTypeField (str "with_key") (Whole 1) (* luau.rs:325 *);
   acc KTypeField (str "with_colon_token") (Whole 2) (* luau.rs:330 *);
   acc KTypeField (str "with_value") (Whole 3) (* luau.rs:343 *);
   acc KTypeAssertion (str "with_assertion_op") (Whole 0) (* luau.rs:397 *);
   acc KTypeAssertion (str "with_cast_to") (Whole 1) (* luau.rs:405 *);
   acc KTypeDeclaration (str "with_type_token") (Whole 0) (* luau.rs:473 *);
   acc KTypeDeclaration (str "with_type_name") (Whole 1) (* luau.rs:478 *);
   acc KTypeDeclaration (str "with_generics") (Whole 2) (* luau.rs:486 *);
   acc KTypeDeclaration (str "with_equal_token") (Whole 3) (* luau.rs:491 *);
   acc KTypeDeclaration (str "with_type_definition") (Whole 4) (* luau.rs:499 *);
   acc KGenericDeclarationParameter (str "with_parameter") (Whole 0) (* luau.rs:564 *);
   acc KGenericDeclarationParameter (str "with_default") (Whole 1) (* luau.rs:569 *);
   acc KGenericDeclaration (str "with_arrows") (Whole 0) (* luau.rs:607 *);
   acc KGenericDeclaration (str "with_generics") (Whole 1) (* luau.rs:612 *);
   acc KTypeSpecifier (str "with_punctuation") (Whole 0) (* luau.rs:653 *);
   acc KTypeSpecifier (str "with_type_info") (Whole 1) (* luau.rs:661 *);
   acc KTypeArgument (str "with_name") (Whole 0) (* luau.rs:694 *);
   acc KTypeArgument (str "with_type_info") (Whole 1) (* luau.rs:699 *);
   acc KExportedTypeDeclaration (str "with_export_token") (Whole 0) (* luau.rs:749 *);
   acc KExportedTypeDeclaration (str "with_type_declaration") (Whole 1) (* luau.rs:757 *);
   acc KTypeFunction (str "with_type_token") (Whole 0) (* luau.rs:816 *);
   acc KTypeFunction (str "with_function_token") (Whole 1) (* luau.rs:821 *);
   acc KTypeFunction (str "with_function_name") (Whole 2) (* luau.rs:829 *);
   acc KTypeFunction (str "with_function_body") (Whole 3) (* luau.rs:837 *);
   acc KExportedTypeFunction (str "with_export_token") (Whole 0) (* luau.rs:880 *);
   acc KExportedTypeFunction (str "with_type_function") (Whole 1) (* luau.rs:888 *);
   acc KIfExpression (str "with_if_token") (Whole 0) (* luau.rs:990 *);
   acc KIfExpression (str "with_condition") (Whole 1) (* luau.rs:995 *);
   acc KIfExpression (str "with_then_token") (Whole 2) (* luau.rs:1003 *);
   acc KIfExpression (str "with_if_expression") (Whole 3) (* luau.rs:1008 *);
   acc KIfExpression (str "with_else_if") (Whole 4) (* luau.rs:1016 *);
   acc KIfExpression (str "with_else_token") (Whole 5) (* luau.rs:1024 *);
   acc KIfExpression (str "with_else") (Whole 6) (* luau.rs:1029 *);
   acc KElseIfExpression (str "with_else_if_token") (Whole 0) (* luau.rs:1080 *);
   acc KElseIfExpression (str "with_condition") (Whole 1) (* luau.rs:1088 *);
   acc KElseIfExpression (str "with_then_token") (Whole 2) (* luau.rs:1093 *);
   acc KElseIfExpression (str "with_block") (Whole 3) (* luau.rs:1098 *);
   acc KInterpolatedString (str "with_segments") (Whole 0) (* luau.rs:1147 *);
   acc KInterpolatedString (str "with_last_string") (Whole 1) (* luau.rs:1152 *);
   acc KLuauAttribute (str "with_at_sign") (Whole 0) (* luau.rs:1238 *);
   acc KLuauAttribute (str "with_name") (Whole 1) (* luau.rs:1243 *);
   acc KTypeInstantiation (str "with_outer_arrows") (Whole 0) (* luau.rs:1308 *);
   acc KTypeInstantiation (str "with_inner_arrows") (Whole 1) (* luau.rs:1316 *);
   acc KTypeInstantiation (str "with_types") (Whole 2) (* luau.rs:1324 *);
   acc KGoto (str "with_goto_token") (Whole 0) (* lua52.rs:40 *);
   acc KGoto (str "with_label_name") (Whole 1) (* lua52.rs:45 *);
   acc KLabel (str "with_left_colons") (Whole 0) (* lua52.rs:86 *);
   acc KLabel (str "with_name") (Whole 1) (* lua52.rs:94 *);
   acc KLabel (str "with_right_colons") (Whole 2) (* lua52.rs:99 *);
   acc KAttribute (str "with_brackets") (Whole 0) (* lua54.rs:50 *);
   acc KAttribute (str "with_name") (Whole 1) (* lua54.rs:45 *);
   acc KCompoundAssignment (str "with_lhs") (Whole 0) (* compound.rs:143 *);
   acc KCompoundAssignment (str "with_compound_operator") (Whole 1) (* compound.rs:148 *);
   acc KCompoundAssignment (str "with_rhs") (Whole 2) (* compound.rs:156 *)].

(** ** Getters that return a part of the fields *)
(** [Block::stmts], mod.rs:78-80, and [Block::last_stmt], mod.rs:89-91. *)
Definition block_stmts_get (t : tree) : list tree :=
  match t with Nd KBlock (Con CVec l :: _) => flat_map (fun x => match x with Con CTuple (s :: _) => [s] | _ => [] end) l | _ => [] end.
Definition block_last_stmt_get (t : tree) : option tree :=
  match t with Nd KBlock [_; Con CSome [Con CTuple (s :: _)]] => Some s | _ => None end.
(** [ExpressionsIterator], luau.rs:1189-1207: one step from the index [i], and [InterpolatedString::expressions], luau.rs:1139-1144, run to its end. *)
Definition expressions_next (segments : list tree) (i : nat) : option tree * nat :=
  if Nat.leb (List.length segments) i then (None, i)
  else (match nth_error segments i with Some (Nd KInterpolatedStringSegment [_; e]) => Some e | _ => None end, S i).
Fixpoint expressions_run (n : nat) (segments : list tree) (i : nat) : list tree :=
  match n with
  | O => []
  | S n => match expressions_next segments i with (Some e, i) => e :: expressions_run n segments i | (None, _) => [] end
  end.
Definition expressions (t : tree) : list tree :=
  match t with Nd KInterpolatedString (Con CVec l :: _) => expressions_run (S (List.length l)) l 0 | _ => [] end.
(** [BinOp::token], mod.rs:2249-2260 (in the macro), [UnOp::token], mod.rs:2370-2377, [CompoundOp::token], compound.rs:46-66. *)
Definition operator_token (t : tree) : option tokref :=
  match t with Nd (KBinOp _) [Tok r] | Nd (KUnOp _) [Tok r] | Nd (KCompoundOp _) [Tok r] => Some r | _ => None end.
