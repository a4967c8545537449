(** Specification vocabulary: the reference grammars of Lua 5.1 to 5.4, operator precedence, and which tokens belong into which
    field of a syntax tree node. No proofs, and nothing here is used by the model. *)
From Verif Require Import LexerSpec.
From Verif Require Export TreeSpec ParserState.
Local Open Scope nat_scope.

(** ** Terminals *)
Inductive terminal := TName | TNumeral | TString | TSym (y : symbol) | TOther.
Definition terminal_of (r : tokref) : terminal :=
  match t_type (r_token r) with
  | TIdentifier _ => TName
  | TNumber _ => TNumeral
  | TStringLiteral _ _ _ => TString
  | TSymbol y => TSym y
  | _ => TOther
  end.

(** ** Context-free grammars *)

(** The grammar of the Lua 5.1 reference manual, section 8. The helpers spell out the braces and brackets of the manual. *)
Inductive nonterminal :=
| Chunk | Stat | LastStat | FuncName | VarList | Var | NameList | ExpList | Exp | PrefixExp | FunctionCall | Args
| Function | FuncBody | ParList | TableConstructor | FieldList | Field | FieldSep | BinOp | UnOp
(* helpers *)
| Stats | ElseIfs | DotNames
(* Lua 5.4 *)
| AttNameList | AttName.
Inductive gsym := T (t : terminal) | N (n : nonterminal).
Definition y (s : symbol) : gsym := T (TSym s).

Definition lua51 (n : nonterminal) : list (list gsym) :=
  match n with
  (* chunk ::= {stat [`;´]} [laststat [`;´]] and block ::= chunk *)
  | Chunk => [[N Stats]; [N Stats; N LastStat]; [N Stats; N LastStat; y SSemicolon]]
  | Stats => [[]; [N Stats; N Stat]; [N Stats; N Stat; y SSemicolon]]
  | Stat =>
      [ [N VarList; y SEqual; N ExpList];
        [N FunctionCall];
        [y SDo; N Chunk; y SEnd];
        [y SWhile; N Exp; y SDo; N Chunk; y SEnd];
        [y SRepeat; N Chunk; y SUntil; N Exp];
        [y SIf; N Exp; y SThen; N Chunk; N ElseIfs; y SEnd];
        [y SIf; N Exp; y SThen; N Chunk; N ElseIfs; y SElse; N Chunk; y SEnd];
        [y SFor; T TName; y SEqual; N Exp; y SComma; N Exp; y SDo; N Chunk; y SEnd];
        [y SFor; T TName; y SEqual; N Exp; y SComma; N Exp; y SComma; N Exp; y SDo; N Chunk; y SEnd];
        [y SFor; N NameList; y SIn; N ExpList; y SDo; N Chunk; y SEnd];
        [y SFunction; N FuncName; N FuncBody];
        [y SLocal; y SFunction; T TName; N FuncBody];
        [y SLocal; N NameList];
        [y SLocal; N NameList; y SEqual; N ExpList] ]
  | ElseIfs => [[]; [N ElseIfs; y SElseIf; N Exp; y SThen; N Chunk]]
  | LastStat => [[y SReturn]; [y SReturn; N ExpList]; [y SBreak]]
  (* funcname ::= Name {`.´ Name} [`:´ Name] *)
  | FuncName => [[N DotNames]; [N DotNames; y SColon; T TName]]
  | DotNames => [[T TName]; [N DotNames; y SDot; T TName]]
  | VarList => [[N Var]; [N VarList; y SComma; N Var]]
  | Var => [[T TName]; [N PrefixExp; y SLeftBracket; N Exp; y SRightBracket]; [N PrefixExp; y SDot; T TName]]
  | NameList => [[T TName]; [N NameList; y SComma; T TName]]
  | ExpList => [[N Exp]; [N ExpList; y SComma; N Exp]]
  | Exp =>
      [ [y SNil]; [y SFalse]; [y STrue]; [T TNumeral]; [T TString]; [y SEllipsis]; [N Function]; [N PrefixExp]; [N TableConstructor];
        [N Exp; N BinOp; N Exp]; [N UnOp; N Exp] ]
  | PrefixExp => [[N Var]; [N FunctionCall]; [y SLeftParen; N Exp; y SRightParen]]
  | FunctionCall => [[N PrefixExp; N Args]; [N PrefixExp; y SColon; T TName; N Args]]
  | Args => [[y SLeftParen; y SRightParen]; [y SLeftParen; N ExpList; y SRightParen]; [N TableConstructor]; [T TString]]
  | Function => [[y SFunction; N FuncBody]]
  | FuncBody => [[y SLeftParen; y SRightParen; N Chunk; y SEnd]; [y SLeftParen; N ParList; y SRightParen; N Chunk; y SEnd]]
  | ParList => [[N NameList]; [N NameList; y SComma; y SEllipsis]; [y SEllipsis]]
  (* fieldlist ::= field {fieldsep field} [fieldsep] *)
  | TableConstructor => [[y SLeftBrace; y SRightBrace]; [y SLeftBrace; N FieldList; y SRightBrace]; [y SLeftBrace; N FieldList; N FieldSep; y SRightBrace]]
  | FieldList => [[N Field]; [N FieldList; N FieldSep; N Field]]
  | Field => [[y SLeftBracket; N Exp; y SRightBracket; y SEqual; N Exp]; [T TName; y SEqual; N Exp]; [N Exp]]
  | FieldSep => [[y SComma]; [y SSemicolon]]
  | BinOp => map (fun s => [y s]) [SPlus; SMinus; SStar; SSlash; SCaret; SPercent; STwoDots; SLessThan; SLessThanEqual; SGreaterThan; SGreaterThanEqual;
                                   STwoEqual; STildeEqual; SAnd; SOr]
  | UnOp => [[y SMinus]; [y SNot]; [y SHash]]
  | AttNameList | AttName => []
  end.

Inductive derives (g : nonterminal -> list (list gsym)) : list gsym -> list terminal -> Prop :=
| d_nil : derives g [] []
| d_terminal t ss w : derives g ss w -> derives g (T t :: ss) (t :: w)
| d_rule n rhs ss v w : In rhs (g n) -> derives g rhs v -> derives g ss w -> derives g (N n :: ss) (v ++ w).

(** *** Later versions *)

Definition labels : list (list gsym) := [[y SGoto; T TName]; [y STwoColons; T TName; y STwoColons]].
Definition bit_operators : list symbol := [SDoubleSlash; SAmpersand; STilde; SPipe; SDoubleGreaterThan; SDoubleLessThan].
(** local attnamelist [`=´ explist] of Lua 5.4; a name without an attribute is one of these too. *)
Definition attributed : list (list gsym) := [[y SLocal; N AttNameList]; [y SLocal; N AttNameList; y SEqual; N ExpList]].
(** attnamelist ::= Name attrib {`,´ Name attrib} and attrib ::= [`<´ Name `>´] *)
Definition attribute_rules (n : nonterminal) : list (list gsym) :=
  match n with
  | AttNameList => [[N AttName]; [N AttNameList; y SComma; N AttName]]
  | AttName => [[T TName]; [T TName; y SLessThan; T TName; y SGreaterThan]]
  | _ => []
  end.

(** Lua 5.2 reference manual, section 9, where block ::= {stat} [retstat]: [;] and [break] are statements. *)
Definition lua52 (n : nonterminal) : list (list gsym) :=
  match n with
  | Chunk => [[N Stats]; [N Stats; N LastStat]]
  | Stats => [[]; [N Stats; N Stat]]
  | Stat => lua51 Stat ++ [y SSemicolon] :: [y SBreak] :: labels
  | LastStat => [[y SReturn]; [y SReturn; y SSemicolon]; [y SReturn; N ExpList]; [y SReturn; N ExpList; y SSemicolon]]
  | _ => lua51 n
  end.
(** Lua 5.3 and 5.4 reference manuals, section 9. *)
Definition lua53 (n : nonterminal) : list (list gsym) :=
  match n with
  | BinOp => lua52 BinOp ++ map (fun s => [y s]) bit_operators
  | UnOp => lua52 UnOp ++ [[y STilde]]
  | _ => lua52 n
  end.
Definition lua54 (n : nonterminal) : list (list gsym) :=
  match n with
  | Stat => lua53 Stat ++ attributed
  | AttNameList | AttName => attribute_rules n
  | _ => lua53 n
  end.
(** LuaJIT has no grammar of its own: Lua 5.1 with [goto] and labels. *)
Definition luajit (n : nonterminal) : list (list gsym) := match n with Stat => lua51 Stat ++ labels | _ => lua51 n end.

(** What full-moon reads outside Luau (C45, C46): Lua 5.1 with some of the additions. *)
Class dialect := { d_goto : bool; d_bits : bool; d_attributes : bool }.
Definition full (n : nonterminal) : list (list gsym) :=
  match n with
  | Stat => lua51 Stat ++ labels ++ attributed
  | BinOp => lua51 BinOp ++ map (fun s => [y s]) bit_operators
  | UnOp => lua51 UnOp ++ [[y STilde]]
  | AttNameList | AttName => attribute_rules n
  | _ => lua51 n
  end.
Definition enabled_part (d : dialect) (x : gsym) : bool :=
  match x with
  | T (TSym (SGoto | STwoColons)) => d_goto
  | T (TSym (SDoubleSlash | SAmpersand | STilde | SPipe | SDoubleGreaterThan | SDoubleLessThan)) => d_bits
  | N (AttNameList | AttName) => d_attributes
  | _ => true
  end.
Definition moon {d : dialect} (n : nonterminal) : list (list gsym) := filter (fun rhs => forallb (enabled_part d) (N n :: rhs)) (full n).

(** The terminals of a stream of references, without the end of file. *)
Definition terminals (l : list tokref) : list terminal := map terminal_of l.

(** What full-moon accepts besides the reference grammar (C35): an expression in parentheses in the place of a variable. *)
Definition relaxed (g : nonterminal -> list (list gsym)) (n : nonterminal) : list (list gsym) :=
  match n with Var => [y SLeftParen; N Exp; y SRightParen] :: g Var | _ => g n end.
Definition lua51_relaxed : nonterminal -> list (list gsym) := relaxed lua51.

(** ** Parts of a tree *)
Inductive within (u : tree) : tree -> Prop :=
| w_here : within u u
| w_con c cs t : In t cs -> within u t -> within u (Con c cs)
| w_nd k cs t : In t cs -> within u t -> within u (Nd k cs).

(** ** Operators *)

(** Lua 5.3 reference manual, section 3.4.8, from lower to higher; Lua 5.1 and Luau have fewer operators. *)
Definition levels : list (list symbol) :=
  [ [SOr]; [SAnd]; [SLessThan; SGreaterThan; SLessThanEqual; SGreaterThanEqual; STildeEqual; STwoEqual]; [SPipe]; [STilde]; [SAmpersand];
    [SDoubleLessThan; SDoubleGreaterThan]; [STwoDots]; [SPlus; SMinus]; [SStar; SSlash; SDoubleSlash; SPercent] ].
Definition in_level (s : symbol) (l : list symbol) : bool := existsb (symbol_eqb s) l.
(** Level of a binary operator; the unary operators are between all of these and [^]. *)
Fixpoint level_in (n : nat) (ls : list (list symbol)) (s : symbol) : nat :=
  match ls with [] => S n | l :: ls => if in_level s l then n else level_in (S n) ls s end.
Definition level (s : symbol) : nat := level_in 1 levels s.
Definition unary_level : nat := 11.
Definition right_associative (s : symbol) : bool := symbol_eqb s STwoDots || symbol_eqb s SCaret.

(** What an expression is, from outside. *)
Inductive outer := Binary (s : symbol) | Unary | Operand.
Definition head_of (e : tree) : outer :=
  match e with
  | Nd KExprBinary [_; Nd (KBinOp s) _; _] => Binary s
  | Nd KExprUnary _ => Unary
  | _ => Operand
  end.
(** May [e] be the left operand of [s]? *)
Definition left_of (h : outer) (s : symbol) : bool :=
  match h with
  | Binary z => Nat.ltb (level s) (level z) || (Nat.eqb (level s) (level z) && negb (right_associative s))
  | Unary => Nat.ltb (level s) unary_level
  | Operand => true
  end.
(** The right operand? A unary operator needs no parentheses there. *)
Definition right_of (h : outer) (s : symbol) : bool :=
  match h with
  | Binary z => Nat.ltb (level s) (level z) || (Nat.eqb (level s) (level z) && right_associative s)
  | Unary | Operand => true
  end.
(** The operand of a unary operator? *)
Definition under_unary (h : outer) : bool :=
  match h with Binary z => Nat.ltb unary_level (level z) | Unary | Operand => true end.
Definition precedence_node (k : kind) (cs : list tree) : bool :=
  match k, cs with
  | KExprBinary, [l; Nd (KBinOp s) _; r] => left_of (head_of l) s && right_of (head_of r) s
  | KExprUnary, [_; e] => under_unary (head_of e)
  | _, _ => true
  end.

(** The symbol of a binary operator node has a level. *)
Definition known_operator (k : kind) (_ : list tree) : bool :=
  match k with KBinOp s => existsb (in_level s) ([SCaret] :: levels) | _ => true end.

(** The sequence of operators and operands of an expression, from left to right. *)
Inductive unit_of := UOperand (e : tree) | UBinary (o : tree) | UUnary (o : tree).
Fixpoint flatten (e : tree) : list unit_of :=
  match e with
  | Nd KExprBinary [l; o; r] => flatten l ++ UBinary o :: flatten r
  | Nd KExprUnary [o; e] => UUnary o :: flatten e
  | _ => [UOperand e]
  end.

(** ** Which tokens belong where *)

(** A field of a node. *)
Inductive piece :=
| PSym (ys : list symbol)                 (* one of these symbols *)
| PName | PNumber | PString               (* a token of this sort *)
| PSpan (a b : symbol)                    (* a [ContainedSpan] *)
| POpt (s : symbol)                       (* an optional symbol *)
| POptTwo (s : symbol)                    (* an optional pair of a symbol and a name *)
| PStats                                  (* a vector of statements with optional semicolons *)
| PLast                                   (* an optional last statement with an optional semicolon *)
| PList (ys : list symbol) (empty trailing names : bool)  (* values separated by these symbols *)
| PAny.                                   (* no condition on its tokens here *)

Definition is_number (r : tokref) : bool := match t_type (r_token r) with TNumber _ => true | _ => false end.
Definition one_of (ys : list symbol) (t : tree) : bool := match t with Tok r => existsb (is_symbol r) ys | _ => false end.
Definition opt_symbol (s : symbol) (t : tree) : bool :=
  match t with Con CNone [] => true | Con CSome [x] => one_of [s] x | _ => false end.
Definition with_semicolon (t : tree) : bool := match t with Con CTuple [_; o] => opt_symbol SSemicolon o | _ => false end.
Definition is_name (t : tree) : bool := match t with Tok r => is_identifier r | _ => false end.
Fixpoint separated (ys : list symbol) (trailing names : bool) (l : list tree) : bool :=
  match l with
  | [] => true
  | [Con CEnd [v]] => negb names || is_name v
  | [Con CPunct [v; s]] => trailing && (negb names || is_name v) && one_of ys s
  | Con CPunct [v; s] :: l => (negb names || is_name v) && one_of ys s && separated ys trailing names l
  | _ => false
  end.
Definition fits_piece (p : piece) (t : tree) : bool :=
  match p, t with
  | PSym ys, _ => one_of ys t
  | PName, _ => is_name t
  | PNumber, Tok r => is_number r
  | PString, Tok r => is_string r
  | PSpan a b, Con CSpan [Tok x; Tok z] => is_symbol x a && is_symbol z b
  | POpt s, _ => opt_symbol s t
  | POptTwo s, Con CNone [] => true
  | POptTwo s, Con CSome [Con CTuple [x; n]] => one_of [s] x && is_name n
  | PStats, Con CVec l => forallb with_semicolon l
  | PLast, Con CNone [] => true
  | PLast, Con CSome [x] => with_semicolon x
  | PList ys empty trailing names, Con CPunctuated l => (empty || negb (Nat.eqb (List.length l) 0)) && separated ys trailing names l
  | PAny, _ => true
  | _, _ => false
  end.

(** The fields of the nodes outside Luau, in declaration order. *)
Definition written (k : kind) : option (list piece) :=
  match k with
  | KBlock => Some [PStats; PLast]
  | KLastBreak => Some [PSym [SBreak]]
  | KLastReturn => Some [PAny]
  | KReturn => Some [PSym [SReturn]; PList [SComma] true false false]
  | KFieldExpressionKey => Some [PSpan SLeftBracket SRightBracket; PAny; PSym [SEqual]; PAny]
  | KFieldNameKey => Some [PName; PSym [SEqual]; PAny]
  | KFieldSetConstructor => Some [PSym [SDot]; PName]
  | KFieldNoKey => Some [PAny]
  | KTableConstructor => Some [PSpan SLeftBrace SRightBrace; PList [SComma; SSemicolon] true true false]
  | KAnonymousFunction => Some [PAny; PSym [SFunction]; PAny]
  | KExprBinary => Some [PAny; PAny; PAny]
  | KExprParentheses => Some [PSpan SLeftParen SRightParen; PAny]
  | KExprUnary => Some [PAny; PAny]
  | KExprFunction | KExprFunctionCall | KExprTableConstructor | KExprVar => Some [PAny]
  | KExprNumber => Some [PNumber]
  | KExprString => Some [PString]
  | KExprSymbol => Some [PSym [STrue; SFalse; SNil; SEllipsis]]
  | KStmtAssignment | KStmtDo | KStmtFunctionCall | KStmtFunctionDeclaration | KStmtGenericFor | KStmtIf
  | KStmtLocalAssignment | KStmtLocalFunction | KStmtNumericFor | KStmtRepeat | KStmtWhile
  | KStmtCompoundAssignment | KStmtGoto | KStmtLabel => Some [PAny]
  | KPrefixExpression => Some [PAny]
  | KPrefixName => Some [PName]
  | KIndexBrackets => Some [PSpan SLeftBracket SRightBracket; PAny]
  | KIndexDot => Some [PSym [SDot; SQuestionMarkDot]; PName]
  | KArgsParentheses => Some [PSpan SLeftParen SRightParen; PList [SComma] true false false]
  | KArgsString => Some [PString]
  | KArgsTableConstructor => Some [PAny]
  | KNumericFor => Some [PSym [SFor]; PName; PSym [SEqual]; PAny; PSym [SComma]; PAny; POpt SComma; PAny; PSym [SDo]; PAny; PSym [SEnd]; PAny]
  | KGenericFor => Some [PSym [SFor]; PList [SComma] false false true; PSym [SIn]; PList [SComma] false false false; PSym [SDo]; PAny; PSym [SEnd]; PAny]
  | KIf => Some [PSym [SIf]; PAny; PSym [SThen]; PAny; PAny; POpt SElse; PAny; PSym [SEnd]]
  | KElseIf => Some [PSym [SElseIf]; PAny; PSym [SThen]; PAny]
  | KWhile => Some [PSym [SWhile]; PAny; PSym [SDo]; PAny; PSym [SEnd]]
  | KRepeat => Some [PSym [SRepeat]; PAny; PSym [SUntil]; PAny]
  | KMethodCall => Some [PSym [SColon]; PName; PAny; PAny]
  | KCallAnonymous | KCallMethod => Some [PAny]
  | KFunctionBody => Some [PAny; PSpan SLeftParen SRightParen; PList [SComma] true false false; PAny; PAny; PAny; PSym [SEnd]]
  | KParamEllipsis => Some [PSym [SEllipsis]]
  | KParamName => Some [PName]
  | KSuffixCall | KSuffixIndex => Some [PAny]
  | KVarExpression | KFunctionCall => Some [PAny; PAny]
  | KVarExpr => Some [PAny]
  | KVarName => Some [PName]
  | KAssignment => Some [PList [SComma] false false false; PSym [SEqual]; PList [SComma] false false false]
  | KLocalFunction => Some [PAny; PSym [SLocal]; PSym [SFunction]; PName; PAny]
  | KLocalAssignment => Some [PSym [SLocal]; PAny; PList [SComma] false false true; PAny; PAny; PList [SComma] true false false]
  | KDo => Some [PSym [SDo]; PAny; PSym [SEnd]]
  | KFunctionName => Some [PList [SDot] false false true; POptTwo SColon]
  | KFunctionDeclaration => Some [PAny; PSym [SFunction]; PAny; PAny]
  | KBinOp s | KUnOp s | KCompoundOp s => Some [PSym [s]]
  | KCompoundAssignment => Some [PAny; PAny; PAny]
  | KGoto => Some [PSym [SGoto]; PName]
  | KLabel => Some [PSym [STwoColons]; PName; PSym [STwoColons]]
  | KAttribute => Some [PSpan SLessThan SGreaterThan; PName]
  | KLuauAttribute => Some [PSym [SAtSign]; PName]
  | _ => None
  end.
Fixpoint all_fit (ps : list piece) (cs : list tree) : bool :=
  match ps, cs with
  | [], [] => true
  | p :: ps, t :: cs => fits_piece p t && all_fit ps cs
  | _, _ => false
  end.

(** Conditions between the fields of a node. *)
Definition present (t : tree) : bool := match t with Con CNone _ => false | _ => true end.
Definition some_pairs (t : tree) : bool := match t with Con CPunctuated [] => false | _ => true end.
Definition call_suffix (t : tree) : bool := match t with Nd KSuffixCall _ => true | _ => false end.
Definition last_is_call (t : tree) : option bool :=
  match t with Con CVec l => match rev l with [] => None | x :: _ => Some (call_suffix x) end | _ => None end.
Definition is_parentheses (t : tree) : bool := match t with Nd KExprParentheses _ => true | _ => false end.
(** Only the last parameter may be an ellipsis. *)
Definition param_is_name (t : tree) : bool := match t with Nd KParamName _ => true | _ => false end.
Fixpoint names_then_ellipsis (l : list tree) : bool :=
  match l with
  | [] => true
  | Con _ (v :: _) :: l => (param_is_name v || match l with [] => true | _ => false end) && names_then_ellipsis l
  | _ => false
  end.
Definition joint (k : kind) (cs : list tree) : bool :=
  match k, cs with
  | KNumericFor, [_; _; _; _; _; _; a; b; _; _; _; _] => Bool.eqb (present a) (present b)
  | KIf, [_; _; _; _; _; a; b; _] => Bool.eqb (present a) (present b)
  | KLocalAssignment, [_; _; _; _; a; b] => Bool.eqb (present a) (some_pairs b) && (opt_symbol SEqual a || opt_symbol SIn a)
  | KFunctionBody, [_; _; Con _ ps; _; _; _; _] => names_then_ellipsis ps
  | KFunctionCall, [_; s] => match last_is_call s with Some b => b | None => false end
  | KVarExpression, [x; s] =>
      match last_is_call s with
      | Some b => negb b
      | None => match x with Nd KPrefixExpression _ => true | _ => false end
      end
  | KPrefixExpression, [e] => is_parentheses e
  | _, _ => true
  end.

Definition proper_node (k : kind) (cs : list tree) : bool :=
  match written k with Some ps => all_fit ps cs | None => true end && joint k cs && precedence_node k cs.
(** Every node has the tokens that its syntax demands. *)
Definition proper (t : tree) : Prop := every proper_node t = true.

(** No variable is an expression in parentheses. *)
Definition strict_node (k : kind) (cs : list tree) : bool :=
  match k, cs with KVarExpression, [_; Con CVec []] => false | _, _ => true end.
