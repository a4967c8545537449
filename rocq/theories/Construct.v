(** Model of the constructors of syntax tree nodes: the functions [new] in full-moon/src/ast/mod.rs, lua52.rs, lua54.rs, compound.rs and
    luau.rs, and the functions [with_...] next to them.

    A node is [Nd kind fields] with the fields in declaration order (Tree.v). Fields that only exist under a cargo feature are always
    there, as in Tree.v. Positions of the made-up tokens are those that the lexer gives to the literal. *)
From Verif Require Export SymbolRef Tree.
Local Open Scope nat_scope.
Import ListNotations.

(** [TokenReference::basic_symbol(text)], structs.rs:624-626, and [TokenReference::symbol(text).unwrap()], structs.rs:620-622: [unwrap]
    panics on an error. *)
Definition basic_token (f : features) (w : text) : out tree :=
  match basic_symbol f w with Done r => Done (Tok r) | Panic => Panic | OutOfFuel => OutOfFuel end.
Definition symbol_token (f : features) (w : text) : out tree :=
  match token_reference_symbol f w with
  | Done (SymOk r) => Done (Tok r) | Done (SymErr _) => Panic | Panic => Panic | OutOfFuel => OutOfFuel
  end.
(** A struct expression: its fields are evaluated in order. *)
Fixpoint each (l : list (out tree)) : out (list tree) :=
  match l with
  | [] => Done []
  | x :: l =>
      match x with
      | Done t => match each l with Done ts => Done (t :: ts) | Panic => Panic | OutOfFuel => OutOfFuel end
      | Panic => Panic | OutOfFuel => OutOfFuel
      end
  end.
Definition make (k : kind) (l : list (out tree)) : out tree := match each l with Done ts => Done (Nd k ts) | Panic => Panic | OutOfFuel => OutOfFuel end.
(** [ContainedSpan::new], span.rs:29-33. *)
Definition span_new (a b : out tree) : out tree := match each [a; b] with Done ts => Done (Con CSpan ts) | Panic => Panic | OutOfFuel => OutOfFuel end.
(** [None], [Vec::new()] and [Punctuated::new()] (punctuated.rs:46-48). *)
Definition no_value : out tree := Done (Con CNone []).
Definition no_values : out tree := Done (Con CVec []).
Definition no_pairs : out tree := Done (Con CPunctuated []).
(** [Self { field, ..self }] for the field number [n]: the functions [with_...]. *)
Fixpoint replace (n : nat) (x : tree) (cs : list tree) : list tree :=
  match cs with [] => [] | c :: cs => match n with O => x :: cs | S n => c :: replace n x cs end end.
Definition with_field (n : nat) (x : tree) (t : tree) : tree := match t with Nd k cs => Nd k (replace n x cs) | _ => t end.
(** [newline ++ text ++ newline] in literals. *)
Definition nl : text := [10%N].

(** ** mod.rs *)
(** mod.rs:67-72 *)
Definition block_new : tree := Nd KBlock [Con CVec []; Con CNone []].
(** mod.rs:146-151 *)
Definition return_new (f : features) : out tree := make KReturn [basic_token f (str "return "); no_pairs].
(** mod.rs:245-253 *)
Definition table_constructor_new (f : features) : out tree := make KTableConstructor [span_new (basic_token f (str "{ ")) (basic_token f (str " }")); no_pairs].
(** mod.rs:1439-1459 *)
Definition function_body_new (f : features) : out tree :=
  make KFunctionBody [no_value; span_new (basic_token f (str "(")) (basic_token f (str ")")); no_pairs; no_values; no_value; Done block_new; basic_token f (nl ++ str "end")].
(** mod.rs:299-306 *)
Definition anonymous_function_new (f : features) : out tree := make KAnonymousFunction [no_values; basic_token f (str "function"); function_body_new f].
(** mod.rs:576-585 *)
Definition function_args_empty (f : features) : out tree := make KArgsParentheses [span_new (basic_token f (str "(")) (basic_token f (str ")")); no_pairs].
(** mod.rs:610-626 *)
Definition numeric_for_new (f : features) (index_variable : tokref) (start end_ : tree) : out tree :=
  make KNumericFor [basic_token f (str "for "); Done (Tok index_variable); basic_token f (str " = "); Done start; basic_token f (str ", "); Done end_; no_value; no_value;
                    basic_token f (str " do" ++ nl); Done block_new; basic_token f (nl ++ str "end"); no_value].
(** mod.rs:836-848 *)
Definition generic_for_new (f : features) (names expr_list : tree) : out tree :=
  make KGenericFor [basic_token f (str "for "); Done names; basic_token f (str " in "); Done expr_list; basic_token f (str " do" ++ nl); Done block_new;
                    basic_token f (nl ++ str "end"); no_values].
(** mod.rs:1002-1013 *)
Definition if_new (f : features) (condition : tree) : out tree :=
  make KIf [basic_token f (str "if "); Done condition; basic_token f (str " then"); Done block_new; no_value; no_value; no_value; basic_token f (nl ++ str "end")].
(** mod.rs:1111-1118 *)
Definition else_if_new (f : features) (condition : tree) : out tree :=
  make KElseIf [basic_token f (str "elseif "); Done condition; basic_token f (str " then" ++ nl); Done block_new].
(** mod.rs:1178-1186 *)
Definition while_new (f : features) (condition : tree) : out tree :=
  make KWhile [basic_token f (str "while "); Done condition; basic_token f (str " do" ++ nl); Done block_new; basic_token f (str "end" ++ nl)].
(** mod.rs:1255-1262 *)
Definition repeat_new (f : features) (until : tree) : out tree :=
  make KRepeat [basic_token f (str "repeat" ++ nl); Done block_new; basic_token f (nl ++ str "until "); Done until].
(** mod.rs:1327-1335; the field [type_instantiation] is declared before [args] (1317-1322). *)
Definition method_call_new (f : features) (name : tokref) (args : tree) : out tree :=
  make KMethodCall [basic_token f (str ":"); Done (Tok name); no_value; Done args].
(** mod.rs:1631-1636 *)
Definition var_expression_new (prefix : tree) : tree := Nd KVarExpression [prefix; Con CVec []].
(** mod.rs:1684-1690 *)
Definition assignment_new (f : features) (var_list expr_list : tree) : out tree := make KAssignment [Done var_list; basic_token f (str " = "); Done expr_list].
(** mod.rs:1757-1766 *)
Definition local_function_new (f : features) (name : tokref) : out tree :=
  make KLocalFunction [no_values; basic_token f (str "local "); basic_token f (str "function "); Done (Tok name); function_body_new f].
(** mod.rs:1851-1862 *)
Definition local_assignment_new (f : features) (name_list : tree) : out tree :=
  make KLocalAssignment [basic_token f (str "local "); no_values; Done name_list; no_values; no_value; no_pairs].
(** mod.rs:1981-1987 *)
Definition do_new (f : features) : out tree := make KDo [basic_token f (str "do" ++ nl); Done block_new; basic_token f (nl ++ str "end")].
(** mod.rs:2038-2051 *)
Definition function_call_new (f : features) (prefix : tree) : out tree :=
  match function_args_empty f with
  | Done args => Done (Nd KFunctionCall [prefix; Con CVec [Nd KSuffixCall [Nd KCallAnonymous [args]]]])
  | Panic => Panic | OutOfFuel => OutOfFuel
  end.
(** mod.rs:2090-2095 *)
Definition function_name_new (names : tree) : tree := Nd KFunctionName [names; Con CNone []].
(** mod.rs:2147-2155 *)
Definition function_declaration_new (f : features) (name : tree) : out tree :=
  make KFunctionDeclaration [no_values; basic_token f (str "function "); Done name; function_body_new f].

(** ** compound.rs, lua52.rs, lua54.rs *)
(** compound.rs:119-125 *)
Definition compound_assignment_new (lhs operator rhs : tree) : tree := Nd KCompoundAssignment [lhs; operator; rhs].
(** lua52.rs:22-27 *)
Definition goto_new (f : features) (label_name : tokref) : out tree := make KGoto [symbol_token f (str "goto"); Done (Tok label_name)].
(** lua52.rs:62-68 *)
Definition label_new (f : features) (name : tokref) : out tree := make KLabel [symbol_token f (str "::"); Done (Tok name); symbol_token f (str "::")].
(** lua54.rs:24-32 *)
Definition attribute_new (f : features) (name : tokref) : out tree := make KAttribute [span_new (symbol_token f (str "<")) (symbol_token f (str ">")); Done (Tok name)].

(** ** luau.rs *)
(** [Token::new], structs.rs:438-444, makes a token at [Position::default()], which is all zero (structs.rs, derived); [TokenType::spaces(1)], structs.rs:381-385. *)
Definition placeless (t : token_type) : token := mkToken (mkPos 0 0 0) (mkPos 0 0 0) t.
Definition word_and_space (w : text) : tokref := mkRef [] (placeless (TIdentifier w)) [placeless (TWhitespace [32%N])].
(** luau.rs:295-302 *)
Definition type_field_new (f : features) (key value : tree) : out tree := make KTypeField [no_value; Done key; symbol_token f (str ": "); Done value].
(** luau.rs:379-384 *)
Definition type_assertion_new (f : features) (cast_to : tree) : out tree := make KTypeAssertion [symbol_token f (str "::"); Done cast_to].
(** luau.rs:431-445 *)
Definition type_declaration_new (f : features) (type_name : tokref) (type_definition : tree) : out tree :=
  make KTypeDeclaration [Done (Tok (word_and_space (str "type"))); Done (Tok type_name); no_value; symbol_token f (str " = "); Done type_definition].
(** luau.rs:541-546 *)
Definition generic_declaration_parameter_new (parameter : tree) : tree := Nd KGenericDeclarationParameter [parameter; Con CNone []].
(** luau.rs:586-594 *)
Definition generic_declaration_new (f : features) : out tree := make KGenericDeclaration [span_new (symbol_token f (str "<")) (symbol_token f (str ">")); no_pairs].
(** luau.rs:634-639 *)
Definition type_specifier_new (f : features) (type_info : tree) : out tree := make KTypeSpecifier [symbol_token f (str ": "); Done type_info].
(** luau.rs:676-681 *)
Definition type_argument_new (type_info : tree) : tree := Nd KTypeArgument [Con CNone []; type_info].
(** luau.rs:725-736 *)
Definition exported_type_declaration_new (type_declaration : tree) : tree := Nd KExportedTypeDeclaration [Tok (word_and_space (str "export")); type_declaration].
(** luau.rs:780-793 *)
Definition type_function_new (f : features) (function_name : tokref) (function_body : tree) : out tree :=
  make KTypeFunction [Done (Tok (word_and_space (str "type"))); basic_token f (str "function "); Done (Tok function_name); Done function_body].
(** luau.rs:856-867 *)
Definition exported_type_function_new (type_function : tree) : tree := Nd KExportedTypeFunction [Tok (word_and_space (str "export")); type_function].
(** luau.rs:937-951 *)
Definition if_expression_new (f : features) (condition if_expression else_expression : tree) : out tree :=
  make KIfExpression [symbol_token f (str "if "); Done condition; symbol_token f (str " then"); Done if_expression; no_value; symbol_token f (str " else "); Done else_expression].
(** luau.rs:1050-1057 *)
Definition else_if_expression_new (f : features) (condition expression : tree) : out tree :=
  make KElseIfExpression [symbol_token f (str " elseif "); Done condition; symbol_token f (str " then "); Done expression].
(** luau.rs:1121-1126 *)
Definition interpolated_string_new (segments : tree) (last_string : tokref) : tree := Nd KInterpolatedString [segments; Tok last_string].
(** luau.rs:1220-1225 *)
Definition luau_attribute_new (f : features) (name : tokref) : out tree := make KLuauAttribute [symbol_token f (str "@"); Done (Tok name)].
(** luau.rs:1276-1290 *)
Definition type_instantiation_new (f : features) : out tree :=
  make KTypeInstantiation [span_new (symbol_token f (str "<")) (symbol_token f (str ">")); span_new (symbol_token f (str "<")) (symbol_token f (str ">")); no_pairs].
