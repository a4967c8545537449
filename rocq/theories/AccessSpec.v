(** Specification vocabulary of C62: which getter belongs to which function [with_...]. No proofs, and nothing here is used by the model. *)
From Verif Require Import LexerSpec.
From Coq Require Import String.
From Verif Require Import TreeSpec Access.
Local Open Scope list_scope.
Import ListNotations.

(** [with_x] belongs to [x], but for these. *)
Definition renamed : list (kind * text * text) :=
  [(KBlock, str "with_stmts", str "stmts_with_semicolon"); (KBlock, str "with_last_stmt", str "last_stmt_with_semicolon"); (KIf, str "with_else", str "else_block");
   (KMethodCall, str "with_type_instanation", str "type_instantiation"); (KFunctionName, str "with_method", str "method_colon"); (KFunctionName, str "with_method", str "method_name");
   (KGenericDeclarationParameter, str "with_default", str "equals"); (KGenericDeclarationParameter, str "with_default", str "default_type");
   (KIfExpression, str "with_else_if", str "else_if_expressions"); (KIfExpression, str "with_else", str "else_expression"); (KElseIfExpression, str "with_block", str "expression")].
Definition belongs (s g : accessor) : Prop :=
  ac_kind s = ac_kind g /\ (ac_name s = str "with_" ++ ac_name g \/ In (ac_kind s, ac_name s, ac_name g) renamed).
(** A node of the struct of an accessor. *)
Definition of_struct (a : accessor) (t : tree) : Prop := well_typed t /\ exists cs, t = Nd (ac_kind a) cs.
(** What is printed of what a getter returns. *)
Definition shown (t : tree) (g : accessor) : list tokref := match get g t with Some v => printed v | None => [] end.
Definition getters_of (k : kind) : list accessor := filter (fun g => kind_eqb (ac_kind g) k) getters.

(** The fields of the structs as they are declared. *)
Definition declared (k : kind) : list text :=
  match k with
  | KBlock => map str ["stmts"; "last_stmt"] (* mod.rs:59 *)
  | KReturn => map str ["token"; "returns"] (* mod.rs:138 *)
  | KTableConstructor => map str ["braces"; "fields"] (* mod.rs:235 *)
  | KAnonymousFunction => map str ["attributes"; "function_token"; "body"] (* mod.rs:290 *)
  | KNumericFor => map str ["for_token"; "index_variable"; "equal_token"; "start"; "start_end_comma"; "end"; "end_step_comma"; "step"; "do_token"; "block"; "end_token"; "type_specifier"] (* mod.rs:591 *)
  | KGenericFor => map str ["for_token"; "names"; "in_token"; "expr_list"; "do_token"; "block"; "end_token"; "type_specifiers"] (* mod.rs:818 *)
  | KIf => map str ["if_token"; "condition"; "then_token"; "block"; "else_if"; "else_token"; "else"; "end_token"] (* mod.rs:988 *)
  | KElseIf => map str ["else_if_token"; "condition"; "then_token"; "block"] (* mod.rs:1102 *)
  | KWhile => map str ["while_token"; "condition"; "do_token"; "block"; "end_token"] (* mod.rs:1168 *)
  | KRepeat => map str ["repeat_token"; "block"; "until_token"; "until"] (* mod.rs:1246 *)
  | KMethodCall => map str ["colon_token"; "name"; "type_instantiation"; "args"] (* mod.rs:1314 *)
  | KFunctionBody => map str ["generics"; "parameters_parentheses"; "parameters"; "type_specifiers"; "return_type"; "block"; "end_token"] (* mod.rs:1419 *)
  | KVarExpression => map str ["prefix"; "suffixes"] (* mod.rs:1624 *)
  | KAssignment => map str ["var_list"; "equal_token"; "expr_list"] (* mod.rs:1676 *)
  | KLocalFunction => map str ["attributes"; "local_token"; "function_token"; "name"; "body"] (* mod.rs:1746 *)
  | KLocalAssignment => map str ["local_token"; "type_specifiers"; "name_list"; "attributes"; "equal_token"; "expr_list"] (* mod.rs:1830 *)
  | KDo => map str ["do_token"; "block"; "end_token"] (* mod.rs:1973 *)
  | KFunctionCall => map str ["prefix"; "suffixes"] (* mod.rs:2030 *)
  | KFunctionName => map str ["names"; "colon_name"] (* mod.rs:2083 *)
  | KFunctionDeclaration => map str ["attributes"; "function_token"; "name"; "body"] (* mod.rs:2137 *)
  | KTypeUnion => map str ["leading"; "types"] (* luau.rs:188 *)
  | KTypeIntersection => map str ["leading"; "types"] (* luau.rs:224 *)
  | KTypeField => map str ["access"; "key"; "colon"; "value"] (* luau.rs:282 *)
  | KTypeAssertion => map str ["assertion_op"; "cast_to"] (* luau.rs:372 *)
  | KTypeDeclaration => map str ["type_token"; "base"; "generics"; "equal_token"; "declare_as"] (* luau.rs:421 *)
  | KGenericDeclarationParameter => map str ["parameter"; "default"] (* luau.rs:534 *)
  | KGenericDeclaration => map str ["arrows"; "generics"] (* luau.rs:578 *)
  | KTypeSpecifier => map str ["punctuation"; "type_info"] (* luau.rs:627 *)
  | KTypeArgument => map str ["name"; "type_info"] (* luau.rs:669 *)
  | KExportedTypeDeclaration => map str ["export_token"; "type_declaration"] (* luau.rs:718 *)
  | KTypeFunction => map str ["type_token"; "function_token"; "function_name"; "function_body"] (* luau.rs:771 *)
  | KExportedTypeFunction => map str ["export_token"; "type_function"] (* luau.rs:849 *)
  | KIfExpression => map str ["if_token"; "condition"; "then_token"; "if_expression"; "else_if_expressions"; "else_token"; "else_expression"] (* luau.rs:925 *)
  | KElseIfExpression => map str ["else_if_token"; "condition"; "then_token"; "expression"] (* luau.rs:1041 *)
  | KInterpolatedString => map str ["segments"; "last_string"] (* luau.rs:1114 *)
  | KLuauAttribute => map str ["at_sign"; "name"] (* luau.rs:1213 *)
  | KTypeInstantiation => map str ["outer_arrows"; "inner_arrows"; "types"] (* luau.rs:1260 *)
  | KGoto => map str ["goto_token"; "label_name"] (* lua52.rs:15 *)
  | KLabel => map str ["left_colons"; "name"; "right_colons"] (* lua52.rs:54 *)
  | KAttribute => map str ["brackets"; "name"] (* lua54.rs:15 *)
  | KCompoundAssignment => map str ["lhs"; "compound_operator"; "rhs"] (* compound.rs:111 *)
  | _ => []
  end%string.
(** The field that a getter is named for. *)
Definition aliases : list (kind * text * text) :=
  [(KBlock, str "stmts_with_semicolon", str "stmts"); (KBlock, str "last_stmt_with_semicolon", str "last_stmt"); (KGenericFor, str "expressions", str "expr_list"); (KIf, str "else_block", str "else");
   (KAssignment, str "variables", str "var_list"); (KAssignment, str "expressions", str "expr_list"); (KLocalAssignment, str "names", str "name_list"); (KLocalAssignment, str "expressions", str "expr_list");
   (KTypeField, str "colon_token", str "colon"); (KTypeDeclaration, str "type_name", str "base"); (KTypeDeclaration, str "type_definition", str "declare_as");
   (KFunctionName, str "method_colon", str "colon_name"); (KFunctionName, str "method_name", str "colon_name"); (KGenericDeclarationParameter, str "equals", str "default"); (KGenericDeclarationParameter, str "default_type", str "default")].
Definition stands_for (g : accessor) (f : text) : Prop := f = ac_name g \/ In (ac_kind g, ac_name g, f) aliases.
(** The getters of one component of an optional pair: of the first one, of the second one. *)
Definition firsts : list (kind * text) := [(KFunctionName, str "method_colon"); (KGenericDeclarationParameter, str "equals")].
Definition seconds : list (kind * text) := [(KFunctionName, str "method_name"); (KGenericDeclarationParameter, str "default_type")].
Definition first_of_pair (g : accessor) : Prop := In (ac_kind g, ac_name g) firsts.
Definition second_of_pair (g : accessor) : Prop := In (ac_kind g, ac_name g) seconds.
Definition plain (g : accessor) : Prop := ~ first_of_pair g /\ ~ second_of_pair g.
