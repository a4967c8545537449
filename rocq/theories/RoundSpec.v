(** Specification vocabulary of C48: which trees are syntax trees of Lua and Luau programs, written as a grammar over trees. Every
    constructor is one production; it says which node there is, which tokens its fields hold and of which sort its parts are. No
    proofs, and nothing here is used by the model. *)
From Verif Require Import LexerSpec.
From Verif Require Export GrammarSpec.
Local Open Scope nat_scope.

(** ** Tokens and lists *)
Notation sy r s := (terminal_of r = TSym s).
Notation nm r := (terminal_of r = TName).
Notation none := (Con CNone []).
Notation some t := (Con CSome [t]).
Notation vector l := (Con CVec l).
Notation listing l := (Con CPunctuated l).
Notation between a b := (Con CSpan [Tok a; Tok b]).
Notation final t := (Con CEnd [t]).
Notation followed t d := (Con CPunct [t; Tok d]).

(** A name with this text. *)
Definition word (w : text) (r : tokref) : Prop := t_type (r_token r) = TIdentifier w.
(** An interpolated string token of this sort. *)
Definition section (k : istr_kind) (r : tokref) : Prop := exists w, t_type (r_token r) = TInterpolatedString w k.

Inductive optional (P : tree -> Prop) : tree -> Prop :=
| o_none : optional P none
| o_some t : P t -> optional P (some t).
(** One or more, separated by [s]. *)
Inductive several (P : tree -> Prop) (s : symbol) : list tree -> Prop :=
| s_last t : P t -> several P s [final t]
| s_more t d l : P t -> sy d s -> several P s l -> several P s (followed t d :: l).
(** The same, where the last one is of another sort. *)
Inductive ending (P Q : tree -> Prop) (s : symbol) : list tree -> Prop :=
| en_last t : Q t -> ending P Q s [final t]
| en_more t d l : P t -> sy d s -> ending P Q s l -> ending P Q s (followed t d :: l).
(** Zero or more, each but the last followed by a comma or a semicolon, and the last perhaps. *)
Inductive entries (P : tree -> Prop) : list tree -> Prop :=
| e_nil : entries P []
| e_last t : P t -> entries P [final t]
| e_more t d s l : P t -> sy d s -> s = SComma \/ s = SSemicolon -> entries P l -> entries P (followed t d :: l).
(** Names with their attributes and types, in three vectors of the same length. *)
Inductive bindings (P : tree -> tree -> Prop) : list tree -> list tree -> list tree -> Prop :=
| b_last n a t : nm n -> P a t -> bindings P [final (Tok n)] [a] [t]
| b_more n d a t l as_ ts : nm n -> sy d SComma -> P a t -> bindings P l as_ ts -> bindings P (followed (Tok n) d :: l) (a :: as_) (t :: ts).
(** Parameters with their types ([P]); the last one may be [...] with a type of its own ([E]), which has no entry when [e] is false. *)
Inductive parameters (P E : tree -> Prop) (e : bool) : list tree -> list tree -> Prop :=
| p_last n t : nm n -> P t -> parameters P E e [final (Nd KParamName [Tok n])] [t]
| p_dots d t : e = true -> sy d SEllipsis -> E t -> parameters P E e [final (Nd KParamEllipsis [Tok d])] [t]
| p_plain d : e = false -> sy d SEllipsis -> parameters P E e [final (Nd KParamEllipsis [Tok d])] []
| p_more n d t l ts : nm n -> sy d SComma -> P t -> parameters P E e l ts -> parameters P E e (followed (Nd KParamName [Tok n]) d :: l) (t :: ts).

(** ** The right edge *)

(** Kinds that end with their last field, which is an expression or a list of expressions. *)
Definition ends_in_expression (k : kind) : bool :=
  match k with
  | KExprBinary | KExprUnary | KExprIfExpression | KIfExpression | KStmtAssignment | KAssignment | KStmtLocalAssignment | KLocalAssignment
  | KStmtCompoundAssignment | KCompoundAssignment | KStmtRepeat | KRepeat => true
  | _ => false
  end.
(** Does one of the nodes that end where [t] ends have a kind with [p]? *)
Fixpoint on_edge (p : kind -> bool) (t : tree) : bool :=
  let last_one := fix last_one (l : list tree) : bool := match l with [] => false | [x] => on_edge p x | _ :: l => last_one l end in
  match t with
  | Tok _ => false
  | Con (CPunctuated | CEnd) cs => last_one cs
  | Con _ _ => false
  | Nd k cs => p k || (ends_in_expression k && last_one cs)
  end.
(** Arguments written after it would belong to a call of its end. *)
Definition open : tree -> bool := on_edge (fun k => match k with KExprVar | KExprFunctionCall | KExprParentheses | KStmtFunctionCall => true | _ => false end).
(** It ends with a type after [::]. *)
Definition ends_in_type : tree -> bool := on_edge (fun k => match k with KExprTypeAssertion => true | _ => false end).
(** It ends with a name of a type, after which [<] would start arguments. *)
Fixpoint ends_in_type_name (t : tree) : bool :=
  let last_one := fix last_one (l : list tree) : bool := match l with [] => false | [x] => ends_in_type_name x | _ :: l => last_one l end in
  match t with
  | Nd (KTypeBasic | KIndexedBasic) [Tok r] => match terminal_of r with TName => true | _ => false end
  | Nd (KExprTypeAssertion | KTypeAssertion | KTypeModule | KTypeCallback | KTypeVariadic | KTypeUnionV | KTypeUnion | KTypeIntersectionV | KTypeIntersection) cs => last_one cs
  | Nd k cs => ends_in_expression k && last_one cs
  | Con (CPunctuated | CEnd) cs => last_one cs
  | _ => false
  end.
(** It ends with the last part of [if ... then ... else ...]. *)
Definition ends_in_if : tree -> bool := on_edge (fun k => match k with KExprIfExpression => true | _ => false end).

(** The first token. *)
Definition first_of (t : tree) : option terminal := hd_error (terminals (printed t)).
Definition starts_with (s : symbol) (t : tree) : Prop := first_of t = Some (TSym s).

(** A statement that starts with a parenthesis would be read as arguments of the statement before. *)
Definition separate (a b : tree) : Prop :=
  match a with Con CTuple [s; o] => o = none -> starts_with SLeftParen b -> open s = false | _ => False end.
Inductive apart : list tree -> Prop :=
| apart_nil : apart []
| apart_one a : apart [a]
| apart_more a b l : separate a b -> apart (b :: l) -> apart (a :: b :: l).

(** ** Versions *)
Definition binary_in (c : cfg) (s : symbol) : Prop :=
  match s with
  | SCaret | SPercent | SSlash | SStar | SMinus | SPlus | STwoDots | SGreaterThan | SGreaterThanEqual | SLessThan | SLessThanEqual
  | STildeEqual | STwoEqual | SAnd | SOr => True
  | SDoubleSlash => has_luau c = true \/ has_lua53 c = true
  | SDoubleLessThan | SDoubleGreaterThan | SAmpersand | STilde | SPipe => has_lua53 c = true
  | _ => False
  end.
Definition unary_in (c : cfg) (s : symbol) : Prop :=
  match s with SMinus | SNot | SHash => True | STilde => has_lua53 c = true | _ => False end.
Definition compound_in (c : cfg) (s : symbol) : Prop :=
  match s with
  | SPlusEqual | SMinusEqual | SStarEqual | SSlashEqual | SCaretEqual => has_luau c = true \/ has_cfxlua c = true
  | SDoubleSlashEqual | SPercentEqual | STwoDotsEqual => has_luau c = true
  | SDoubleLessThanEqual | SDoubleGreaterThanEqual | SAmpersandEqual | SPipeEqual => has_cfxlua c = true
  | _ => False
  end.
(** [a.b], in cfxlua also [a?.b]; [local a = b], in cfxlua also [local a in b]. The cargo feature is enough, whatever the version
    (C37). *)
Definition dot_in (c : cfg) (s : symbol) : Prop := match s with SDot => True | SQuestionMarkDot => f_cfxlua (c_feat c) = true | _ => False end.
Definition equal_in (c : cfg) (s : symbol) : Prop := match s with SEqual => True | SIn => f_cfxlua (c_feat c) = true | _ => False end.
(** Operators that go on with a type after [::], where [t] ends. *)
Definition goes_on (t : tree) (s : symbol) : bool :=
  match s with SPipe | SAmpersand => ends_in_type t | SLessThan => ends_in_type_name t | _ => false end.

(** Its last operand is a cast. *)
Fixpoint casts (t : tree) : bool :=
  match t with Nd KExprTypeAssertion _ => true | Nd KExprBinary [_; _; r] => casts r | _ => false end.
(** The last operand of [e] is a cast in [-e] and in [if a then b else e]. *)
Definition cast_inside (t : tree) : bool :=
  match t with Nd KExprUnary [_; e] => casts e | Nd KExprIfExpression [Nd KIfExpression [_; _; _; _; _; _; e]] => casts e | _ => false end.
Definition is_call_suffix (t : tree) : bool := match t with Nd KSuffixCall _ => true | _ => false end.
Definition ends_in_call (l : list tree) : bool := match rev l with x :: _ => is_call_suffix x | [] => false end.
(** At most one field [T]: U of a table type, where T is not a string. *)
Definition is_indexer (t : tree) : bool :=
  match t with
  | Con _ (Nd KTypeField [_; Nd KTypeFieldKeyIndexSignature [_; t]; _; _] :: _) => match t with Nd KTypeString _ => false | _ => true end
  | _ => false
  end.
Definition one_indexer (l : list tree) : Prop := List.length (filter is_indexer l) <= 1.
Definition access (r : tokref) : Prop := word (str "read") r \/ word (str "write") r.

(** ** The grammar *)
Inductive argument_name : tree -> Prop :=
| an_none : argument_name none
| an_some n d : nm n -> sy d SColon -> argument_name (some (Con CTuple [Tok n; Tok d])).
Inductive field_access : tree -> Prop :=
| ac_none : field_access none
| ac_some r : access r -> field_access (some (Tok r)).
Inductive semicolon : tree -> Prop :=
| se_intro r : sy r SSemicolon -> semicolon (Tok r).
(* a.b.c and a.b:c *)
Inductive function_name : tree -> Prop :=
| fn_plain l : several (fun t => exists r, t = Tok r /\ nm r) SDot l -> function_name (Nd KFunctionName [listing l; none])
| fn_method l d n : several (fun t => exists r, t = Tok r /\ nm r) SDot l -> sy d SColon -> nm n -> function_name (Nd KFunctionName [listing l; some (Con CTuple [Tok d; Tok n])]).
Inductive type (c : cfg) : tree -> Prop :=
| ty_plain t : plain_type c t -> type c t
(* | A | B and & A & B *)
| ty_union d l : sy d SPipe -> ending (member c) (last_member c) SPipe l -> type c (Nd KTypeUnionV [Nd KTypeUnion [some (Tok d); listing l]])
| ty_intersection d l : sy d SAmpersand -> ending (closed_type c) (simple_type c) SAmpersand l -> type c (Nd KTypeIntersectionV [Nd KTypeIntersection [some (Tok d); listing l]])
(* A, A | B, A & B *)
with plain_type (c : cfg) : tree -> Prop :=
| pt_one t : last_member c t -> plain_type c t
| pt_union x l : ending (member c) (last_member c) SPipe (x :: l) -> l <> [] -> plain_type c (Nd KTypeUnionV [Nd KTypeUnion [none; listing (x :: l)]])
| pt_intersection x l : ending (closed_type c) (simple_type c) SAmpersand (x :: l) -> l <> [] -> plain_type c (Nd KTypeIntersectionV [Nd KTypeIntersection [none; listing (x :: l)]])
(* A, A?, A??; what comes after a function type belongs to its result, if that can go on *)
with member (c : cfg) : tree -> Prop :=
| me_closed t : closed_type c t -> member c t
| me_optional t q : member c t -> sy q SQuestionMark -> member c (Nd KTypeOptional [t; Tok q])
with last_member (c : cfg) : tree -> Prop :=
| lm_member t : member c t -> last_member c t
| lm_function t : function_type c t -> last_member c t
with simple_type (c : cfg) : tree -> Prop :=
| st_closed t : closed_type c t -> simple_type c t
| st_open t : function_type c t -> simple_type c t
with function_type (c : cfg) : tree -> Prop :=
| st_function g a b l w t : optional (generics c false) g -> sy a SLeftParen -> sy b SRightParen -> function_arguments c l -> sy w SThinArrow -> result_type c t ->
    function_type c (Nd KTypeCallback [g; between a b; listing l; Tok w; t])
with closed_type (c : cfg) : tree -> Prop :=
| st_nil r : sy r SNil -> closed_type c (Nd KTypeBasic [Tok r])
| st_name r : nm r -> ~ word (str "typeof") r -> closed_type c (Nd KTypeBasic [Tok r])
| st_boolean r s : s = STrue \/ s = SFalse -> sy r s -> closed_type c (Nd KTypeBoolean [Tok r])
| st_string r : terminal_of r = TString -> closed_type c (Nd KTypeString [Tok r])
| st_typeof n a e b : word (str "typeof") n -> sy a SLeftParen -> expression c e -> sy b SRightParen ->
    closed_type c (Nd KTypeTypeof [Tok n; between a b; e])
| st_module m d n : nm m -> ~ word (str "typeof") m -> sy d SDot -> nm n -> closed_type c (Nd KTypeModule [Tok m; Tok d; Nd KIndexedBasic [Tok n]])
| st_module_generic m d n a b l : nm m -> ~ word (str "typeof") m -> sy d SDot -> nm n -> sy a SLessThan -> sy b SGreaterThan -> type_arguments c l ->
    closed_type c (Nd KTypeModule [Tok m; Tok d; Nd KIndexedGeneric [Tok n; between a b; listing l]])
| st_generic n a b l : nm n -> ~ word (str "typeof") n -> sy a SLessThan -> sy b SGreaterThan -> type_arguments c l ->
    closed_type c (Nd KTypeGeneric [Tok n; between a b; listing l])
| st_table a b l : sy a SLeftBrace -> sy b SRightBrace -> entries (type_field c) l -> one_indexer l -> closed_type c (Nd KTypeTable [between a b; listing l])
| st_array a b t : sy a SLeftBrace -> sy b SRightBrace -> type c t -> (forall r l, printed t = r :: l -> ~ access r) ->
    closed_type c (Nd KTypeArray [between a b; none; t])
| st_array_access a b r t : sy a SLeftBrace -> sy b SRightBrace -> access r -> type c t -> closed_type c (Nd KTypeArray [between a b; some (Tok r); t])
| st_parentheses a b t : sy a SLeftParen -> sy b SRightParen -> type c t -> closed_type c (Nd KTypeTuple [between a b; listing [final t]])
(* a pack in parentheses, which is no type of Luau *)
| st_pack a b n d : sy a SLeftParen -> sy b SRightParen -> nm n -> sy d SEllipsis -> closed_type c (Nd KTypeTuple [between a b; listing [final (Nd KTypeGenericPack [Tok n; Tok d])]])
(* a function type, the result of which cannot go on *)
| st_closed_function g a b l w t : optional (generics c false) g -> sy a SLeftParen -> sy b SRightParen -> function_arguments c l -> sy w SThinArrow -> closed_result c t ->
    closed_type c (Nd KTypeCallback [g; between a b; listing l; Tok w; t])
with closed_result (c : cfg) : tree -> Prop :=
| cr_pack n d : nm n -> sy d SEllipsis -> closed_result c (Nd KTypeGenericPack [Tok n; Tok d])
| cr_tuple a b l : sy a SLeftParen -> sy b SRightParen -> types_then_pack c l -> List.length l <> 1 -> closed_result c (Nd KTypeTuple [between a b; listing l])
(* ...T and T... *)
with pack (c : cfg) : tree -> Prop :=
| pk_variadic d t : sy d SEllipsis -> type c t -> pack c (Nd KTypeVariadic [Tok d; t])
| pk_generic n d : nm n -> sy d SEllipsis -> pack c (Nd KTypeGenericPack [Tok n; Tok d])
(* (), (A, B), (A, ...B), (...A) *)
with tuple (c : cfg) : tree -> Prop :=
| tu_intro a b l : sy a SLeftParen -> sy b SRightParen -> types_then_pack c l -> (forall t, l = [final t] -> pack c t) -> tuple c (Nd KTypeTuple [between a b; listing l])
with types_then_pack (c : cfg) : list tree -> Prop :=
| tp_nil : types_then_pack c []
| tp_some l : types_then_pack1 c l -> types_then_pack c l
with types_then_pack1 (c : cfg) : list tree -> Prop :=
| tp_last t : type c t -> types_then_pack1 c [final t]
| tp_pack t : pack c t -> types_then_pack1 c [final t]
| tp_more t d l : type c t -> sy d SComma -> types_then_pack1 c l -> types_then_pack1 c (followed t d :: l)
with result_type (c : cfg) : tree -> Prop :=
(* without a leading | or & *)
| rt_type t : plain_type c t -> result_type c t
| rt_pack t : pack c t -> result_type c t
| rt_tuple t : tuple c t -> result_type c t
(* (...T), (...T)?, (...T) | U and (...T) & U, of which only the first is Luau *)
| rt_member t : pack_member c t -> result_type c t
| rt_union t d l : pack_member c t -> sy d SPipe -> ending (member c) (last_member c) SPipe l -> result_type c (Nd KTypeUnionV [Nd KTypeUnion [none; listing (followed t d :: l)]])
| rt_intersection t d l : pack_tuple c t -> sy d SAmpersand -> ending (closed_type c) (simple_type c) SAmpersand l ->
    result_type c (Nd KTypeIntersectionV [Nd KTypeIntersection [none; listing (followed t d :: l)]])
with pack_tuple (c : cfg) : tree -> Prop :=
| pu_intro a b d t : sy a SLeftParen -> sy b SRightParen -> sy d SEllipsis -> type c t -> pack_tuple c (Nd KTypeTuple [between a b; listing [final (Nd KTypeVariadic [Tok d; t])]])
with pack_member (c : cfg) : tree -> Prop :=
| pm_tuple t : pack_tuple c t -> pack_member c t
| pm_optional t q : pack_member c t -> sy q SQuestionMark -> pack_member c (Nd KTypeOptional [t; Tok q])
with type_arguments (c : cfg) : list tree -> Prop :=
| ta_nil : type_arguments c []
| ta_some l : several (result_type c) SComma l -> type_arguments c l
(* the arguments of a function type: A, name: A, and a pack at the end *)
with function_arguments (c : cfg) : list tree -> Prop :=
| fa_nil : function_arguments c []
| fa_some l : function_arguments1 c l -> function_arguments c l
with function_arguments1 (c : cfg) : list tree -> Prop :=
| fa_last n t : argument_name n -> type c t -> function_arguments1 c [final (Nd KTypeArgument [n; t])]
| fa_pack t : pack c t -> function_arguments1 c [final (Nd KTypeArgument [none; t])]
| fa_more n t d l : argument_name n -> type c t -> sy d SComma -> function_arguments1 c l -> function_arguments1 c (followed (Nd KTypeArgument [n; t]) d :: l)
with type_field (c : cfg) : tree -> Prop :=
| tf_intro a k d t : field_access a -> type_key c k -> sy d SColon -> type c t -> type_field c (Nd KTypeField [a; k; Tok d; t])
with type_key (c : cfg) : tree -> Prop :=
| tk_name r : nm r -> type_key c (Nd KTypeFieldKeyName [Tok r])
| tk_string a b r : sy a SLeftBracket -> sy b SRightBracket -> terminal_of r = TString -> type_key c (Nd KTypeFieldKeyIndexSignature [between a b; Nd KTypeString [Tok r]])
| tk_type a b t : sy a SLeftBracket -> sy b SRightBracket -> type c t -> first_of t <> Some TString -> type_key c (Nd KTypeFieldKeyIndexSignature [between a b; t])
(* <A, B = T, C...> *)
with generics (c : cfg) : bool -> tree -> Prop :=
| ge_intro defaults a b l : sy a SLessThan -> sy b SGreaterThan -> generic_list c defaults false false l -> generics c defaults (Nd KGenericDeclaration [between a b; listing l])
(* [pack]: there was a pack before; [given]: there was a default before *)
with generic_list (c : cfg) : bool -> bool -> bool -> list tree -> Prop :=
| gl_last defaults pack given p pack' given' : generic c defaults pack given p pack' given' -> generic_list c defaults pack given [final p]
| gl_more defaults pack given p d l pack' given' : generic c defaults pack given p pack' given' -> sy d SComma -> generic_list c defaults pack' given' l ->
    generic_list c defaults pack given (followed p d :: l)
with generic (c : cfg) : bool -> bool -> bool -> tree -> bool -> bool -> Prop :=
| gn_name defaults n : nm n -> generic c defaults false false (Nd KGenericDeclarationParameter [Nd KGenericParamName [Tok n]; none]) false false
| gn_name_default given n e t : nm n -> sy e SEqual -> type c t ->
    generic c true false given (Nd KGenericDeclarationParameter [Nd KGenericParamName [Tok n]; some (Con CTuple [Tok e; t])]) false true
| gn_pack defaults pack n d : nm n -> sy d SEllipsis -> generic c defaults pack false (Nd KGenericDeclarationParameter [Nd KGenericParamVariadic [Tok n; Tok d]; none]) true false
| gn_pack_default pack given n d e t : nm n -> sy d SEllipsis -> sy e SEqual -> default_pack c t ->
    generic c true pack given (Nd KGenericDeclarationParameter [Nd KGenericParamVariadic [Tok n; Tok d]; some (Con CTuple [Tok e; t])]) true true
with default_pack (c : cfg) : tree -> Prop :=
| dp_pack t : pack c t -> default_pack c t
| dp_tuple t : tuple c t -> default_pack c t
| dp_one a b t : sy a SLeftParen -> sy b SRightParen -> type c t -> default_pack c (Nd KTypeTuple [between a b; listing [final t]])

(* : T *)
with specifier (c : cfg) : tree -> Prop :=
| sp_intro d t : has_luau c = true -> sy d SColon -> type c t -> specifier c (Nd KTypeSpecifier [Tok d; t])
with dots_specifier (c : cfg) : tree -> Prop :=
| ds_type d t : sy d SColon -> type c t -> dots_specifier c (Nd KTypeSpecifier [Tok d; t])
| ds_pack d n e : sy d SColon -> nm n -> sy e SEllipsis -> dots_specifier c (Nd KTypeSpecifier [Tok d; Nd KTypeGenericPack [Tok n; Tok e]])
with result_specifier (c : cfg) : tree -> Prop :=
| rs_intro d t : has_luau c = true -> sy d SColon -> result_type c t -> result_specifier c (Nd KTypeSpecifier [Tok d; t])
(* the attribute and the type of a name: at most one of them *)
with bound (c : cfg) : tree -> tree -> Prop :=
| bo_type t : optional (specifier c) t -> bound c none t
| bo_attribute a n b : has_lua54 c = true \/ has_cfxlua c = true -> sy a SLessThan -> nm n -> sy b SGreaterThan ->
    bound c (some (Nd KAttribute [between a b; Tok n])) none
with bound_type (c : cfg) : tree -> tree -> Prop :=
| bt_intro t : optional (specifier c) t -> bound_type c none t
(* << T, U >> *)
with instantiation (c : cfg) : tree -> Prop :=
| in_intro a b d e l : has_luau c = true -> sy a SLessThan -> sy b SLessThan -> type_arguments c l -> sy d SGreaterThan -> sy e SGreaterThan ->
    instantiation c (Nd KTypeInstantiation [between a e; between b d; listing l])

(** *** Expressions *)
with expression (c : cfg) : tree -> Prop :=
| ex_unit e : unit_expression c e -> expression c e
| ex_binary l s o r : expression c l -> binary_in c s -> sy o s -> expression c r -> left_of (head_of l) s = true -> right_of (head_of r) s = true ->
    ends_in_if l = false -> goes_on l s = false -> expression c (Nd KExprBinary [l; Nd (KBinOp s) [Tok o]; r])
with unit_expression (c : cfg) : tree -> Prop :=
| ue_atom e : atom c e -> unit_expression c e
| ue_cast e o t : has_luau c = true -> atom c e -> sy o STwoColons -> type c t -> unit_expression c (Nd KExprTypeAssertion [e; Nd KTypeAssertion [Tok o; t]])
(* -e :: T :: U and if a then b else e :: T :: U, where the first cast is of e *)
| ue_cast_again e o t : has_luau c = true -> unit_expression c e -> cast_inside e = true -> sy o STwoColons -> type c t ->
    unit_expression c (Nd KExprTypeAssertion [e; Nd KTypeAssertion [Tok o; t]])
| ue_unary s o e : unary_in c s -> sy o s -> expression c e -> under_unary (head_of e) = true -> unit_expression c (Nd KExprUnary [Nd (KUnOp s) [Tok o]; e])
| ue_if i e t x l z w : has_luau c = true -> sy i SIf -> expression c e -> sy t SThen -> expression c x -> else_ifs c l -> sy z SElse -> expression c w ->
    unit_expression c (Nd KExprIfExpression [Nd KIfExpression [Tok i; e; Tok t; x; l; Tok z; w]])
with else_ifs (c : cfg) : tree -> Prop :=
| ei_none : else_ifs c none
| ei_some x l : Forall (else_if c) (x :: l) -> else_ifs c (some (vector (x :: l)))
with else_if (c : cfg) : tree -> Prop :=
| el_intro i e t x : sy i SElseIf -> expression c e -> sy t SThen -> expression c x -> else_if c (Nd KElseIfExpression [Tok i; e; Tok t; x])
with atom (c : cfg) : tree -> Prop :=
| at_symbol s r : s = SNil \/ s = STrue \/ s = SFalse \/ s = SEllipsis -> sy r s -> atom c (Nd KExprSymbol [Tok r])
| at_number r : terminal_of r = TNumeral -> atom c (Nd KExprNumber [Tok r])
| at_string r : terminal_of r = TString -> atom c (Nd KExprString [Tok r])
(* here the cargo feature would be enough, but [@] is a token of Luau only *)
| at_function l f b : Forall (attribute c) l -> (l <> [] -> f_luau (c_feat c) = true) -> sy f SFunction -> function_body c b -> atom c (Nd KExprFunction [Nd KAnonymousFunction [vector l; Tok f; b]])
| at_parentheses e : parenthesised c e -> atom c e
| at_name r : nm r -> atom c (Nd KExprVar [Nd KVarName [Tok r]])
| at_var p l : prefix_expression c p -> Forall (suffix c) l -> l <> [] -> ends_in_call l = false -> atom c (Nd KExprVar [Nd KVarExpr [Nd KVarExpression [p; vector l]]])
| at_call p l : prefix_expression c p -> Forall (suffix c) l -> ends_in_call l = true -> atom c (Nd KExprFunctionCall [Nd KFunctionCall [p; vector l]])
| at_table t : table c t -> atom c (Nd KExprTableConstructor [t])
| at_simple r : has_luau c = true -> section ISimple r -> atom c (Nd KExprInterpolatedString [Nd KInterpolatedString [vector []; Tok r]])
| at_interpolated l z : has_luau c = true -> holes c IBegin l -> section IEnd z -> atom c (Nd KExprInterpolatedString [Nd KInterpolatedString [vector l; Tok z]])
(* the parts of an interpolated string before its end, each with an expression; [{{] is not allowed *)
with holes (c : cfg) : istr_kind -> list tree -> Prop :=
| ho_last k r e : section k r -> expression c e -> (r_trailing r = [] -> ~ starts_with SLeftBrace e) -> holes c k [Nd KInterpolatedStringSegment [Tok r; e]]
| ho_more k r e l : section k r -> expression c e -> (r_trailing r = [] -> ~ starts_with SLeftBrace e) -> more_holes c l -> holes c k (Nd KInterpolatedStringSegment [Tok r; e] :: l)
(* the tokens after the first one may be of any sort but the last, which accepts a whole string in a hole *)
with more_holes (c : cfg) : list tree -> Prop :=
| mh_intro k l : k <> IEnd -> holes c k l -> more_holes c l
with parenthesised (c : cfg) : tree -> Prop :=
| pa_intro a b e : sy a SLeftParen -> sy b SRightParen -> expression c e -> parenthesised c (Nd KExprParentheses [between a b; e])
with prefix_expression (c : cfg) : tree -> Prop :=
| pe_name r : nm r -> prefix_expression c (Nd KPrefixName [Tok r])
| pe_parentheses e : parenthesised c e -> prefix_expression c (Nd KPrefixExpression [e])
with suffix (c : cfg) : tree -> Prop :=
| su_dot d s n : sy d s -> dot_in c s -> nm n -> suffix c (Nd KSuffixIndex [Nd KIndexDot [Tok d; Tok n]])
| su_brackets a b e : sy a SLeftBracket -> sy b SRightBracket -> expression c e -> suffix c (Nd KSuffixIndex [Nd KIndexBrackets [between a b; e]])
| su_call a : arguments c a -> suffix c (Nd KSuffixCall [Nd KCallAnonymous [a]])
| su_method d n i a : sy d SColon -> nm n -> optional (instantiation c) i -> arguments c a -> suffix c (Nd KSuffixCall [Nd KCallMethod [Nd KMethodCall [Tok d; Tok n; i; a]]])
| su_types i : instantiation c i -> suffix c (Nd KSuffixTypeInstantiation [i])
with arguments (c : cfg) : tree -> Prop :=
| ar_parentheses a b l : sy a SLeftParen -> sy b SRightParen -> expressions c l -> arguments c (Nd KArgsParentheses [between a b; listing l])
| ar_string r : terminal_of r = TString -> arguments c (Nd KArgsString [Tok r])
| ar_table t : table c t -> arguments c (Nd KArgsTableConstructor [t])
with expressions (c : cfg) : list tree -> Prop :=
| xs_nil : expressions c []
| xs_some l : several (expression c) SComma l -> expressions c l
with table (c : cfg) : tree -> Prop :=
| tb_intro a b l : sy a SLeftBrace -> sy b SRightBrace -> entries (field c) l -> table c (Nd KTableConstructor [between a b; listing l])
with field (c : cfg) : tree -> Prop :=
| fi_expression a e b q v : sy a SLeftBracket -> expression c e -> sy b SRightBracket -> sy q SEqual -> expression c v -> field c (Nd KFieldExpressionKey [between a b; e; Tok q; v])
| fi_name n q v : nm n -> sy q SEqual -> expression c v -> field c (Nd KFieldNameKey [Tok n; Tok q; v])
| fi_set d n : f_cfxlua (c_feat c) = true -> sy d SDot -> nm n -> field c (Nd KFieldSetConstructor [Tok d; Tok n])
| fi_value v : expression c v -> field c (Nd KFieldNoKey [v])
(* @name @name *)
with attributes (c : cfg) : list tree -> Prop :=
| at_none : attributes c []
| at_some x l : has_luau c = true -> Forall (attribute c) (x :: l) -> attributes c (x :: l)
with attribute (c : cfg) : tree -> Prop :=
| at_intro a n : sy a SAtSign -> nm n -> attribute c (Nd KLuauAttribute [Tok a; Tok n])
with body_generics (c : cfg) : tree -> Prop :=
| bg_none : body_generics c none
| bg_some g : has_luau c = true -> generics c false g -> body_generics c (some g)
with body_parameters (c : cfg) : list tree -> list tree -> Prop :=
| bp_none : body_parameters c [] []
| bp_some l ts : parameters (optional (specifier c)) (optional (dots_specifier c)) (has_luau c) l ts -> body_parameters c l ts
with function_body (c : cfg) : tree -> Prop :=
| fb_intro g a l ts b r x e : body_generics c g -> sy a SLeftParen ->
    body_parameters c l ts ->
    sy b SRightParen -> optional (result_specifier c) r -> block c x -> sy e SEnd ->
    function_body c (Nd KFunctionBody [g; between a b; listing l; vector ts; r; x; Tok e])

(** *** Statements *)
with variable (c : cfg) : tree -> Prop :=
| va_name r : nm r -> variable c (Nd KVarName [Tok r])
| va_suffix p l : prefix_expression c p -> Forall (suffix c) l -> l <> [] -> ends_in_call l = false -> variable c (Nd KVarExpr [Nd KVarExpression [p; vector l]])
(* (e) = x, which is no Lua (C45) *)
| va_parentheses e : parenthesised c e -> variable c (Nd KVarExpr [Nd KVarExpression [Nd KPrefixExpression [e]; vector []]])
with block (c : cfg) : tree -> Prop :=
| bl_intro l z : Forall (line c) l -> apart l -> optional (last_line c) z -> block c (Nd KBlock [vector l; z])
with line (c : cfg) : tree -> Prop :=
| it_intro s o : statement c s -> optional semicolon o -> line c (Con CTuple [s; o])
with last_line (c : cfg) : tree -> Prop :=
| li_intro s o : last_statement c s -> optional semicolon o -> last_line c (Con CTuple [s; o])
with last_statement (c : cfg) : tree -> Prop :=
| ls_break r : sy r SBreak -> last_statement c (Nd KLastBreak [Tok r])
| ls_continue r : has_luau c = true -> word (str "continue") r -> last_statement c (Nd KLastContinue [Tok r])
| ls_return r l : sy r SReturn -> expressions c l -> last_statement c (Nd KLastReturn [Nd KReturn [Tok r; listing l]])
with statement (c : cfg) : tree -> Prop :=
| sm_assignment l q m : several (variable c) SComma l -> sy q SEqual -> several (expression c) SComma m ->
    statement c (Nd KStmtAssignment [Nd KAssignment [listing l; Tok q; listing m]])
| sm_compound v s o e : variable c v -> compound_in c s -> sy o s -> expression c e ->
    statement c (Nd KStmtCompoundAssignment [Nd KCompoundAssignment [v; Nd (KCompoundOp s) [Tok o]; e]])
| sm_call p l : prefix_expression c p -> Forall (suffix c) l -> ends_in_call l = true -> statement c (Nd KStmtFunctionCall [Nd KFunctionCall [p; vector l]])
| sm_do a b e : sy a SDo -> block c b -> sy e SEnd -> statement c (Nd KStmtDo [Nd KDo [Tok a; b; Tok e]])
| sm_while w e d b n : sy w SWhile -> expression c e -> sy d SDo -> block c b -> sy n SEnd -> statement c (Nd KStmtWhile [Nd KWhile [Tok w; e; Tok d; b; Tok n]])
| sm_repeat r b u e : sy r SRepeat -> block c b -> sy u SUntil -> expression c e -> statement c (Nd KStmtRepeat [Nd KRepeat [Tok r; b; Tok u; e]])
| sm_if i e t b l n : sy i SIf -> expression c e -> sy t SThen -> block c b -> else_if_blocks c l -> sy n SEnd ->
    statement c (Nd KStmtIf [Nd KIf [Tok i; e; Tok t; b; l; none; none; Tok n]])
| sm_if_else i e t b l w z n : sy i SIf -> expression c e -> sy t SThen -> block c b -> else_if_blocks c l -> sy w SElse -> block c z -> sy n SEnd ->
    statement c (Nd KStmtIf [Nd KIf [Tok i; e; Tok t; b; l; some (Tok w); some z; Tok n]])
| sm_numeric f n t q x d y o b e : sy f SFor -> nm n -> optional (specifier c) t -> sy q SEqual -> expression c x -> sy d SComma -> expression c y -> sy o SDo -> block c b -> sy e SEnd ->
    statement c (Nd KStmtNumericFor [Nd KNumericFor [Tok f; Tok n; Tok q; x; Tok d; y; none; none; Tok o; b; Tok e; t]])
| sm_numeric_step f n t q x d y g z o b e : sy f SFor -> nm n -> optional (specifier c) t -> sy q SEqual -> expression c x -> sy d SComma -> expression c y ->
    sy g SComma -> expression c z -> sy o SDo -> block c b -> sy e SEnd ->
    statement c (Nd KStmtNumericFor [Nd KNumericFor [Tok f; Tok n; Tok q; x; Tok d; y; some (Tok g); some z; Tok o; b; Tok e; t]])
| sm_generic f l ns ts i m o b e : sy f SFor -> bindings (bound_type c) l ns ts -> sy i SIn -> several (expression c) SComma m -> sy o SDo -> block c b -> sy e SEnd ->
    statement c (Nd KStmtGenericFor [Nd KGenericFor [Tok f; listing l; Tok i; listing m; Tok o; b; Tok e; vector ts]])
| sm_function l f n b : attributes c l -> sy f SFunction -> function_name n -> function_body c b ->
    statement c (Nd KStmtFunctionDeclaration [Nd KFunctionDeclaration [vector l; Tok f; n; b]])
| sm_local_function l o f n b : attributes c l -> sy o SLocal -> sy f SFunction -> nm n -> function_body c b ->
    statement c (Nd KStmtLocalFunction [Nd KLocalFunction [vector l; Tok o; Tok f; Tok n; b]])
| sm_local o l as_ ts : sy o SLocal -> bindings (bound c) l as_ ts -> statement c (Nd KStmtLocalAssignment [Nd KLocalAssignment [Tok o; vector ts; listing l; vector as_; none; listing []]])
| sm_local_values o l as_ ts q s m : sy o SLocal -> bindings (bound c) l as_ ts -> sy q s -> equal_in c s -> several (expression c) SComma m ->
    statement c (Nd KStmtLocalAssignment [Nd KLocalAssignment [Tok o; vector ts; listing l; vector as_; some (Tok q); listing m]])
(* Lua 5.2 and LuaJIT *)
| sm_goto g n : has_lua52 c = true \/ has_luajit c = true -> sy g SGoto -> nm n -> statement c (Nd KStmtGoto [Nd KGoto [Tok g; Tok n]])
| sm_label a n b : has_lua52 c = true \/ has_luajit c = true -> has_luau c = false -> sy a STwoColons -> nm n -> sy b STwoColons ->
    statement c (Nd KStmtLabel [Nd KLabel [Tok a; Tok n; Tok b]])
(* Luau *)
| sm_type d : type_declaration c d -> statement c (Nd KStmtTypeDeclaration [d])
| sm_export x d : word (str "export") x -> type_declaration c d -> statement c (Nd KStmtExportedTypeDeclaration [Nd KExportedTypeDeclaration [Tok x; d]])
| sm_type_function d : type_function c d -> statement c (Nd KStmtTypeFunction [d])
| sm_export_function x d : word (str "export") x -> type_function c d -> statement c (Nd KStmtExportedTypeFunction [Nd KExportedTypeFunction [Tok x; d]])
with type_declaration (c : cfg) : tree -> Prop :=
| td_intro y n g q t : has_luau c = true -> word (str "type") y -> nm n -> optional (generics c true) g -> sy q SEqual -> type c t ->
    type_declaration c (Nd KTypeDeclaration [Tok y; Tok n; g; Tok q; t])
with type_function (c : cfg) : tree -> Prop :=
| tn_intro y f n b : has_luau c = true -> word (str "type") y -> sy f SFunction -> nm n -> function_body c b -> type_function c (Nd KTypeFunction [Tok y; Tok f; Tok n; b])
with else_if_blocks (c : cfg) : tree -> Prop :=
| eb_none : else_if_blocks c none
| eb_some x l : Forall (else_if_block c) (x :: l) -> else_if_blocks c (some (vector (x :: l)))
with else_if_block (c : cfg) : tree -> Prop :=
| eb_intro i e t b : sy i SElseIf -> expression c e -> sy t SThen -> block c b -> else_if_block c (Nd KElseIf [Tok i; e; Tok t; b]).
