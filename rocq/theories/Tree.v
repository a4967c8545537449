(** Model of the syntax tree types: full-moon/src/ast/mod.rs, span.rs, punctuated.rs, compound.rs, lua52.rs,
    lua54.rs, luau.rs (declarations only).

    Every struct and every enum variant is one [kind]; its value is [Nd kind fields] with the fields in
    declaration order. Tokens are leaves. [Box] and references are transparent. [Option], [Vec], pairs of
    Rust, [Punctuated], [Pair] and [ContainedSpan] are [Con].
    Simplification: a field that only exists under a cargo feature is always present here, and is [None] or
    empty when the feature is off; every generated function treats such a field as if it were absent. *)
From Verif Require Export Token.

Inductive container :=
| CNone | CSome          (* Option *)
| CVec                   (* Vec *)
| CTuple                 (* (A, B) *)
| CPunctuated            (* Punctuated<T>, a vector of pairs, punctuated.rs:36-38 *)
| CEnd | CPunct          (* Pair::End(v), Pair::Punctuated(v, p), punctuated.rs:348-357 *)
| CSpan.                 (* ContainedSpan { tokens: (a, b) }, span.rs:23-25 *)

Inductive kind :=
(* mod.rs *)
| KBlock                                                   (* 59-63 *)
| KLastBreak | KLastContinue | KLastReturn                 (* 123-132 *)
| KReturn                                                  (* 138-141 *)
| KFieldExpressionKey | KFieldNameKey | KFieldSetConstructor | KFieldNoKey  (* 184-229 *)
| KTableConstructor                                        (* 235-240 *)
| KAnonymousFunction                                       (* 290-295 *)
| KExprBinary | KExprParentheses | KExprUnary | KExprFunction | KExprFunctionCall | KExprIfExpression
| KExprInterpolatedString | KExprTableConstructor | KExprNumber | KExprString | KExprSymbol
| KExprTypeAssertion | KExprVar                            (* 354-436 *)
| KStmtAssignment | KStmtDo | KStmtFunctionCall | KStmtFunctionDeclaration | KStmtGenericFor | KStmtIf
| KStmtLocalAssignment | KStmtLocalFunction | KStmtNumericFor | KStmtRepeat | KStmtWhile
| KStmtCompoundAssignment | KStmtExportedTypeDeclaration | KStmtTypeDeclaration | KStmtExportedTypeFunction
| KStmtTypeFunction | KStmtGoto | KStmtLabel               (* 442-507 *)
| KPrefixExpression | KPrefixName                          (* 514-521 *)
| KIndexBrackets | KIndexDot                               (* 528-546 *)
| KArgsParentheses | KArgsString | KArgsTableConstructor   (* 552-573 *)
| KNumericFor                                              (* 592-606 *)
| KGenericFor                                              (* 819-832 *)
| KIf                                                      (* 988-998 *)
| KElseIf                                                  (* 1102-1107 *)
| KWhile                                                   (* 1168-1174 *)
| KRepeat                                                  (* 1246-1251 *)
| KMethodCall                                              (* 1315-1323 *)
| KCallAnonymous | KCallMethod                             (* 1407-1414 *)
| KFunctionBody                                            (* 1420-1435 *)
| KParamEllipsis | KParamName                              (* 1593-1598 *)
| KSuffixCall | KSuffixIndex | KSuffixTypeInstantiation    (* 1605-1618 *)
| KVarExpression                                           (* 1624-1627 *)
| KVarExpr | KVarName                                      (* 1663-1670 *)
| KAssignment                                              (* 1676-1680 *)
| KLocalFunction                                           (* 1745-1753 *)
| KLocalAssignment                                         (* 1831-1847 *)
| KDo                                                      (* 1973-1977 *)
| KFunctionCall                                            (* 2030-2033 *)
| KFunctionName                                            (* 2082-2086 *)
| KFunctionDeclaration                                     (* 2136-2143 *)
| KBinOp (s : symbol)                                      (* 2204-2227, one variant per operator *)
| KUnOp (s : symbol)                                       (* 2360-2366 *)
(* compound.rs *)
| KCompoundOp (s : symbol)                                 (* 11-42 *)
| KCompoundAssignment                                      (* 111-115 *)
(* lua52.rs, lua54.rs *)
| KGoto | KLabel                                           (* lua52.rs:15-18, 54-58 *)
| KAttribute                                               (* lua54.rs:15-20 *)
(* luau.rs *)
| KTypeArray | KTypeBasic | KTypeString | KTypeBoolean | KTypeCallback | KTypeGeneric | KTypeGenericPack
| KTypeIntersectionV | KTypeModule | KTypeOptional | KTypeTable | KTypeTypeof | KTypeTuple | KTypeUnionV
| KTypeVariadic | KTypeVariadicPack                        (* 16-182 *)
| KTypeUnion | KTypeIntersection                           (* 188-191, 224-227 *)
| KIndexedBasic | KIndexedGeneric                          (* 260-275 *)
| KTypeField                                               (* 282-291 *)
| KTypeFieldKeyName | KTypeFieldKeyIndexSignature          (* 352-366 *)
| KTypeAssertion                                           (* 372-375 *)
| KTypeDeclaration                                         (* 421-427 *)
| KGenericParamName | KGenericParamVariadic                (* 511-524 *)
| KGenericDeclarationParameter                             (* 534-537 *)
| KGenericDeclaration                                      (* 578-582 *)
| KTypeSpecifier                                           (* 627-630 *)
| KTypeArgument                                            (* 669-672 *)
| KExportedTypeDeclaration                                 (* 718-721 *)
| KTypeFunction                                            (* 771-776 *)
| KExportedTypeFunction                                    (* 849-852 *)
| KIfExpression                                            (* 925-933 *)
| KElseIfExpression                                        (* 1041-1046 *)
| KInterpolatedString                                      (* 1114-1117 *)
| KInterpolatedStringSegment                               (* 1165-1171 *)
| KLuauAttribute                                           (* 1213-1216 *)
| KTypeInstantiation.                                      (* 1261-1272 *)

Inductive tree :=
| Tok (r : tokref)
| Con (c : container) (cs : list tree)
| Nd (k : kind) (cs : list tree).

(** [Ast { nodes, eof }], mod.rs:2441-2444. *)
Record ast := mkAst { a_nodes : tree; a_eof : tokref }.

(** ** The declared types *)

(** Names of the structs and enums. *)
Inductive nty :=
| NBlock | NLastStmt | NReturn | NField | NTableConstructor | NAnonymousFunction | NExpression | NStmt | NPrefix
| NIndex | NFunctionArgs | NNumericFor | NGenericFor | NIf | NElseIf | NWhile | NRepeat | NMethodCall | NCall
| NFunctionBody | NParameter | NSuffix | NVarExpression | NVar | NAssignment | NLocalFunction | NLocalAssignment
| NDo | NFunctionCall | NFunctionName | NFunctionDeclaration | NBinOp | NUnOp | NCompoundOp | NCompoundAssignment
| NGoto | NLabel | NAttribute | NTypeInfo | NTypeUnion | NTypeIntersection | NIndexedTypeInfo | NTypeField
| NTypeFieldKey | NTypeAssertion | NTypeDeclaration | NGenericParameterInfo | NGenericDeclarationParameter
| NGenericDeclaration | NTypeSpecifier | NTypeArgument | NExportedTypeDeclaration | NTypeFunction
| NExportedTypeFunction | NIfExpression | NElseIfExpression | NInterpolatedString | NInterpolatedStringSegment
| NLuauAttribute | NTypeInstantiation | NContainedSpan.

(** Types of fields. *)
Inductive ty :=
| YTok | YSpan
| YOpt (a : ty) | YVec (a : ty) | YTuple (a b : ty) | YPunctuated (a : ty) | YPair (a : ty)
| YNode (n : nty).

(** The struct or enum that a kind belongs to. *)
Definition kind_type (k : kind) : nty :=
  match k with
  | KBlock => NBlock
  | KLastBreak | KLastContinue | KLastReturn => NLastStmt
  | KReturn => NReturn
  | KFieldExpressionKey | KFieldNameKey | KFieldSetConstructor | KFieldNoKey => NField
  | KTableConstructor => NTableConstructor
  | KAnonymousFunction => NAnonymousFunction
  | KExprBinary | KExprParentheses | KExprUnary | KExprFunction | KExprFunctionCall | KExprIfExpression
  | KExprInterpolatedString | KExprTableConstructor | KExprNumber | KExprString | KExprSymbol
  | KExprTypeAssertion | KExprVar => NExpression
  | KStmtAssignment | KStmtDo | KStmtFunctionCall | KStmtFunctionDeclaration | KStmtGenericFor | KStmtIf
  | KStmtLocalAssignment | KStmtLocalFunction | KStmtNumericFor | KStmtRepeat | KStmtWhile
  | KStmtCompoundAssignment | KStmtExportedTypeDeclaration | KStmtTypeDeclaration | KStmtExportedTypeFunction
  | KStmtTypeFunction | KStmtGoto | KStmtLabel => NStmt
  | KPrefixExpression | KPrefixName => NPrefix
  | KIndexBrackets | KIndexDot => NIndex
  | KArgsParentheses | KArgsString | KArgsTableConstructor => NFunctionArgs
  | KNumericFor => NNumericFor
  | KGenericFor => NGenericFor
  | KIf => NIf
  | KElseIf => NElseIf
  | KWhile => NWhile
  | KRepeat => NRepeat
  | KMethodCall => NMethodCall
  | KCallAnonymous | KCallMethod => NCall
  | KFunctionBody => NFunctionBody
  | KParamEllipsis | KParamName => NParameter
  | KSuffixCall | KSuffixIndex | KSuffixTypeInstantiation => NSuffix
  | KVarExpression => NVarExpression
  | KVarExpr | KVarName => NVar
  | KAssignment => NAssignment
  | KLocalFunction => NLocalFunction
  | KLocalAssignment => NLocalAssignment
  | KDo => NDo
  | KFunctionCall => NFunctionCall
  | KFunctionName => NFunctionName
  | KFunctionDeclaration => NFunctionDeclaration
  | KBinOp _ => NBinOp
  | KUnOp _ => NUnOp
  | KCompoundOp _ => NCompoundOp
  | KCompoundAssignment => NCompoundAssignment
  | KGoto => NGoto
  | KLabel => NLabel
  | KAttribute => NAttribute
  | KTypeArray | KTypeBasic | KTypeString | KTypeBoolean | KTypeCallback | KTypeGeneric | KTypeGenericPack
  | KTypeIntersectionV | KTypeModule | KTypeOptional | KTypeTable | KTypeTypeof | KTypeTuple | KTypeUnionV
  | KTypeVariadic | KTypeVariadicPack => NTypeInfo
  | KTypeUnion => NTypeUnion
  | KTypeIntersection => NTypeIntersection
  | KIndexedBasic | KIndexedGeneric => NIndexedTypeInfo
  | KTypeField => NTypeField
  | KTypeFieldKeyName | KTypeFieldKeyIndexSignature => NTypeFieldKey
  | KTypeAssertion => NTypeAssertion
  | KTypeDeclaration => NTypeDeclaration
  | KGenericParamName | KGenericParamVariadic => NGenericParameterInfo
  | KGenericDeclarationParameter => NGenericDeclarationParameter
  | KGenericDeclaration => NGenericDeclaration
  | KTypeSpecifier => NTypeSpecifier
  | KTypeArgument => NTypeArgument
  | KExportedTypeDeclaration => NExportedTypeDeclaration
  | KTypeFunction => NTypeFunction
  | KExportedTypeFunction => NExportedTypeFunction
  | KIfExpression => NIfExpression
  | KElseIfExpression => NElseIfExpression
  | KInterpolatedString => NInterpolatedString
  | KInterpolatedStringSegment => NInterpolatedStringSegment
  | KLuauAttribute => NLuauAttribute
  | KTypeInstantiation => NTypeInstantiation
  end.

Definition nty_eq_dec (a b : nty) : {a = b} + {a <> b}. Proof. decide equality. Defined.
Definition nty_eqb (a b : nty) : bool := if nty_eq_dec a b then true else false.

(** The fields of a kind in declaration order (line numbers as in [kind]). *)
Definition fields (k : kind) : list ty :=
  match k with
  | KBlock => [YVec (YTuple (YNode NStmt) (YOpt YTok)); YOpt (YTuple (YNode NLastStmt) (YOpt YTok))]
  | KLastBreak | KLastContinue => [YTok]
  | KLastReturn => [YNode NReturn]
  | KReturn => [YTok; YPunctuated (YNode NExpression)]
  | KFieldExpressionKey => [YSpan; YNode NExpression; YTok; YNode NExpression]
  | KFieldNameKey => [YTok; YTok; YNode NExpression]
  | KFieldSetConstructor => [YTok; YTok]
  | KFieldNoKey => [YNode NExpression]
  | KTableConstructor => [YSpan; YPunctuated (YNode NField)]
  | KAnonymousFunction => [YVec (YNode NLuauAttribute); YTok; YNode NFunctionBody]
  | KExprBinary => [YNode NExpression; YNode NBinOp; YNode NExpression]
  | KExprParentheses => [YSpan; YNode NExpression]
  | KExprUnary => [YNode NUnOp; YNode NExpression]
  | KExprFunction => [YNode NAnonymousFunction]
  | KExprFunctionCall => [YNode NFunctionCall]
  | KExprIfExpression => [YNode NIfExpression]
  | KExprInterpolatedString => [YNode NInterpolatedString]
  | KExprTableConstructor => [YNode NTableConstructor]
  | KExprNumber | KExprString | KExprSymbol => [YTok]
  | KExprTypeAssertion => [YNode NExpression; YNode NTypeAssertion]
  | KExprVar => [YNode NVar]
  | KStmtAssignment => [YNode NAssignment]
  | KStmtDo => [YNode NDo]
  | KStmtFunctionCall => [YNode NFunctionCall]
  | KStmtFunctionDeclaration => [YNode NFunctionDeclaration]
  | KStmtGenericFor => [YNode NGenericFor]
  | KStmtIf => [YNode NIf]
  | KStmtLocalAssignment => [YNode NLocalAssignment]
  | KStmtLocalFunction => [YNode NLocalFunction]
  | KStmtNumericFor => [YNode NNumericFor]
  | KStmtRepeat => [YNode NRepeat]
  | KStmtWhile => [YNode NWhile]
  | KStmtCompoundAssignment => [YNode NCompoundAssignment]
  | KStmtExportedTypeDeclaration => [YNode NExportedTypeDeclaration]
  | KStmtTypeDeclaration => [YNode NTypeDeclaration]
  | KStmtExportedTypeFunction => [YNode NExportedTypeFunction]
  | KStmtTypeFunction => [YNode NTypeFunction]
  | KStmtGoto => [YNode NGoto]
  | KStmtLabel => [YNode NLabel]
  | KPrefixExpression => [YNode NExpression]
  | KPrefixName => [YTok]
  | KIndexBrackets => [YSpan; YNode NExpression]
  | KIndexDot => [YTok; YTok]
  | KArgsParentheses => [YSpan; YPunctuated (YNode NExpression)]
  | KArgsString => [YTok]
  | KArgsTableConstructor => [YNode NTableConstructor]
  | KNumericFor => [YTok; YTok; YTok; YNode NExpression; YTok; YNode NExpression; YOpt YTok; YOpt (YNode NExpression); YTok; YNode NBlock; YTok; YOpt (YNode NTypeSpecifier)]
  | KGenericFor => [YTok; YPunctuated YTok; YTok; YPunctuated (YNode NExpression); YTok; YNode NBlock; YTok; YVec (YOpt (YNode NTypeSpecifier))]
  | KIf => [YTok; YNode NExpression; YTok; YNode NBlock; YOpt (YVec (YNode NElseIf)); YOpt YTok; YOpt (YNode NBlock); YTok]
  | KElseIf => [YTok; YNode NExpression; YTok; YNode NBlock]
  | KWhile => [YTok; YNode NExpression; YTok; YNode NBlock; YTok]
  | KRepeat => [YTok; YNode NBlock; YTok; YNode NExpression]
  | KMethodCall => [YTok; YTok; YOpt (YNode NTypeInstantiation); YNode NFunctionArgs]
  | KCallAnonymous => [YNode NFunctionArgs]
  | KCallMethod => [YNode NMethodCall]
  | KFunctionBody => [YOpt (YNode NGenericDeclaration); YSpan; YPunctuated (YNode NParameter); YVec (YOpt (YNode NTypeSpecifier)); YOpt (YNode NTypeSpecifier); YNode NBlock; YTok]
  | KParamEllipsis | KParamName => [YTok]
  | KSuffixCall => [YNode NCall]
  | KSuffixIndex => [YNode NIndex]
  | KSuffixTypeInstantiation => [YNode NTypeInstantiation]
  | KVarExpression => [YNode NPrefix; YVec (YNode NSuffix)]
  | KVarExpr => [YNode NVarExpression]
  | KVarName => [YTok]
  | KAssignment => [YPunctuated (YNode NVar); YTok; YPunctuated (YNode NExpression)]
  | KLocalFunction => [YVec (YNode NLuauAttribute); YTok; YTok; YTok; YNode NFunctionBody]
  | KLocalAssignment => [YTok; YVec (YOpt (YNode NTypeSpecifier)); YPunctuated YTok; YVec (YOpt (YNode NAttribute)); YOpt YTok; YPunctuated (YNode NExpression)]
  | KDo => [YTok; YNode NBlock; YTok]
  | KFunctionCall => [YNode NPrefix; YVec (YNode NSuffix)]
  | KFunctionName => [YPunctuated YTok; YOpt (YTuple YTok YTok)]
  | KFunctionDeclaration => [YVec (YNode NLuauAttribute); YTok; YNode NFunctionName; YNode NFunctionBody]
  | KBinOp _ | KUnOp _ | KCompoundOp _ => [YTok]
  | KCompoundAssignment => [YNode NVar; YNode NCompoundOp; YNode NExpression]
  | KGoto => [YTok; YTok]
  | KLabel => [YTok; YTok; YTok]
  | KAttribute => [YSpan; YTok]
  | KTypeArray => [YSpan; YOpt YTok; YNode NTypeInfo]
  | KTypeBasic | KTypeString | KTypeBoolean => [YTok]
  | KTypeCallback => [YOpt (YNode NGenericDeclaration); YSpan; YPunctuated (YNode NTypeArgument); YTok; YNode NTypeInfo]
  | KTypeGeneric => [YTok; YSpan; YPunctuated (YNode NTypeInfo)]
  | KTypeGenericPack => [YTok; YTok]
  | KTypeIntersectionV => [YNode NTypeIntersection]
  | KTypeModule => [YTok; YTok; YNode NIndexedTypeInfo]
  | KTypeOptional => [YNode NTypeInfo; YTok]
  | KTypeTable => [YSpan; YPunctuated (YNode NTypeField)]
  | KTypeTypeof => [YTok; YSpan; YNode NExpression]
  | KTypeTuple => [YSpan; YPunctuated (YNode NTypeInfo)]
  | KTypeUnionV => [YNode NTypeUnion]
  | KTypeVariadic => [YTok; YNode NTypeInfo]
  | KTypeVariadicPack => [YTok; YTok]
  | KTypeUnion | KTypeIntersection => [YOpt YTok; YPunctuated (YNode NTypeInfo)]
  | KIndexedBasic => [YTok]
  | KIndexedGeneric => [YTok; YSpan; YPunctuated (YNode NTypeInfo)]
  | KTypeField => [YOpt YTok; YNode NTypeFieldKey; YTok; YNode NTypeInfo]
  | KTypeFieldKeyName => [YTok]
  | KTypeFieldKeyIndexSignature => [YSpan; YNode NTypeInfo]
  | KTypeAssertion => [YTok; YNode NTypeInfo]
  | KTypeDeclaration => [YTok; YTok; YOpt (YNode NGenericDeclaration); YTok; YNode NTypeInfo]
  | KGenericParamName => [YTok]
  | KGenericParamVariadic => [YTok; YTok]
  | KGenericDeclarationParameter => [YNode NGenericParameterInfo; YOpt (YTuple YTok (YNode NTypeInfo))]
  | KGenericDeclaration => [YSpan; YPunctuated (YNode NGenericDeclarationParameter)]
  | KTypeSpecifier => [YTok; YNode NTypeInfo]
  | KTypeArgument => [YOpt (YTuple YTok YTok); YNode NTypeInfo]
  | KExportedTypeDeclaration => [YTok; YNode NTypeDeclaration]
  | KTypeFunction => [YTok; YTok; YTok; YNode NFunctionBody]
  | KExportedTypeFunction => [YTok; YNode NTypeFunction]
  | KIfExpression => [YTok; YNode NExpression; YTok; YNode NExpression; YOpt (YVec (YNode NElseIfExpression)); YTok; YNode NExpression]
  | KElseIfExpression => [YTok; YNode NExpression; YTok; YNode NExpression]
  | KInterpolatedString => [YVec (YNode NInterpolatedStringSegment); YTok]
  | KInterpolatedStringSegment => [YTok; YNode NExpression]
  | KLuauAttribute => [YTok; YTok]
  | KTypeInstantiation => [YSpan; YSpan; YPunctuated (YNode NTypeInfo)]
  end.

(** [wt t y]: the tree [t] is a value of the Rust type [y]. *)
Fixpoint wt (t : tree) (y : ty) {struct t} : bool :=
  let each := fix each (cs : list tree) (ys : list ty) {struct cs} : bool :=
    match cs, ys with
    | [], [] => true
    | c :: cs, y :: ys => wt c y && each cs ys
    | _, _ => false
    end in
  let all := fix all (cs : list tree) (y : ty) {struct cs} : bool :=
    match cs with [] => true | c :: cs => wt c y && all cs y end in
  match t with
  | Tok _ => match y with YTok => true | _ => false end
  | Con c cs =>
      match c, y with
      | CNone, YOpt _ => each cs []
      | CSome, YOpt a => each cs [a]
      | CVec, YVec a => all cs a
      | CTuple, YTuple a b => each cs [a; b]
      | CPunctuated, YPunctuated a => all cs (YPair a)
      | CEnd, YPair a => each cs [a]
      | CPunct, YPair a => each cs [a; YTok]
      | CSpan, YSpan => each cs [YTok; YTok]
      | _, _ => false
      end
  | Nd k cs => match y with YNode n => nty_eqb (kind_type k) n && each cs (fields k) | _ => false end
  end.
