(** Specification vocabulary for the theorems about the parser. No proofs, and nothing here is used by the model. *)
From Verif Require Import LexerSpec.
From Verif Require Export TreeSpec Parsers.
Local Open Scope nat_scope.

(** ** Dialects *)

(** The version under which a kind of node belongs to the language. The cargo feature alone is enough for the set
    constructor of cfxlua (see C37). *)
Definition kind_allowed (c : cfg) (k : kind) : bool :=
  match k with
  | KGoto | KStmtGoto | KLabel | KStmtLabel => has_lua52 c || has_luajit c
  | KAttribute => has_lua54 c || has_cfxlua c
  | KCompoundAssignment | KStmtCompoundAssignment => has_luau c || has_cfxlua c
  | KCompoundOp y =>
      match y with
      | SPlusEqual | SMinusEqual | SStarEqual | SSlashEqual | SCaretEqual => has_luau c || has_cfxlua c
      | SDoubleSlashEqual | SPercentEqual | STwoDotsEqual => has_luau c
      | SDoubleLessThanEqual | SDoubleGreaterThanEqual | SAmpersandEqual | SPipeEqual => has_cfxlua c
      | _ => false
      end
  | KBinOp y =>
      match y with
      | SDoubleSlash => has_luau c || has_lua53 c
      | SDoubleLessThan | SDoubleGreaterThan | SAmpersand | STilde | SPipe => has_lua53 c
      | SCaret | SPercent | SSlash | SStar | SMinus | SPlus | STwoDots | SGreaterThan | SGreaterThanEqual | SLessThan | SLessThanEqual
      | STildeEqual | STwoEqual | SAnd | SOr => true
      | _ => false
      end
  | KUnOp y => match y with STilde => has_lua53 c | SMinus | SNot | SHash => true | _ => false end
  | KFieldSetConstructor => f_cfxlua (c_feat c)
  | KLastContinue
  | KExprIfExpression | KIfExpression | KElseIfExpression
  | KExprInterpolatedString | KInterpolatedString | KInterpolatedStringSegment
  | KExprTypeAssertion | KTypeAssertion | KTypeSpecifier
  | KStmtTypeDeclaration | KTypeDeclaration | KStmtExportedTypeDeclaration | KExportedTypeDeclaration
  | KStmtTypeFunction | KTypeFunction | KStmtExportedTypeFunction | KExportedTypeFunction
  | KGenericDeclaration | KGenericDeclarationParameter | KGenericParamName | KGenericParamVariadic
  | KTypeArray | KTypeBasic | KTypeString | KTypeBoolean | KTypeCallback | KTypeGeneric | KTypeGenericPack
  | KTypeIntersectionV | KTypeModule | KTypeOptional | KTypeTable | KTypeTypeof | KTypeTuple | KTypeUnionV
  | KTypeVariadic | KTypeVariadicPack | KTypeUnion | KTypeIntersection | KIndexedBasic | KIndexedGeneric
  | KTypeField | KTypeFieldKeyName | KTypeFieldKeyIndexSignature | KTypeArgument
  | KTypeInstantiation | KSuffixTypeInstantiation | KLuauAttribute => has_luau c
  | _ => true
  end.

(** The token of an operator node is the operator. *)
Definition operator_node (k : kind) (cs : list tree) : bool :=
  match k with
  | KBinOp y | KUnOp y | KCompoundOp y => match cs with [Tok r] => is_symbol r y | _ => false end
  | _ => true
  end.

(** [local x in y] and [?.] need the cargo feature cfxlua. *)
Definition feature_node (c : cfg) (k : kind) (cs : list tree) : bool :=
  match k, cs with
  | KLocalAssignment, [_; _; _; _; Con CSome [Tok r]; _] => negb (is_symbol r SIn) || f_cfxlua (c_feat c)
  | KIndexDot, [Tok r; _] => negb (is_symbol r SQuestionMarkDot) || f_cfxlua (c_feat c)
  | _, _ => true
  end.

(** What holds of every node that the parser builds. *)
Definition node_ok (c : cfg) (k : kind) (cs : list tree) : bool :=
  kind_allowed c k && fitting_node k cs && filled_node k cs && operator_node k cs && feature_node c k cs.

(** ** Streams without the causes of panics *)

(** Not empty, no fatal lexical error where Luau is on, and no [&] or [|] where the crate is built with lua53 but the
    version has Luau and not 5.3. *)
Definition quiet (c : cfg) (rs : list (lexres tokref)) : Prop :=
  rs <> [] /\ (has_luau c = true -> forall es, ~ In (LFatal es) rs) /\
  (f_lua53 (c_feat c) = true -> has_lua53 c = false -> forall t, In t (tokens_of rs) -> t_type t <> TSymbol SAmpersand /\ t_type t <> TSymbol SPipe).
