(** Specification vocabulary: derivations of a grammar in which no statement that begins with a parenthesis can be
    taken for the arguments of a call (C36, C46). No proofs, and nothing here is used by the model. *)
From Verif Require Import LexerSpec.
From Verif Require Export GrammarSpec.
Local Open Scope nat_scope.

(** Nonterminals that a call can follow. *)
Definition callable (n : nonterminal) : bool := match n with PrefixExp | Var | FunctionCall => true | _ => false end.
Definition begins_with_parenthesis (w : list terminal) : Prop := exists v, w = TSym SLeftParen :: v.

(** [clear_in g ss w o]: [ss] derives [w] as in [derives g], and [o] tells whether the derivation ends with a prefix expression. The
    last condition of [c_rule] is the only restriction: after statements that end with a prefix expression, without a semicolon, no statement
    begins with a parenthesis. Lua 5.1 itself reads such a text as a call, section 2.5.8 of the manual. *)
Inductive clear_in (g : nonterminal -> list (list gsym)) : list gsym -> list terminal -> bool -> Prop :=
| c_nil : clear_in g [] [] false
| c_terminal t ss w o : clear_in g ss w o -> clear_in g (T t :: ss) (t :: w) o
| c_rule n rhs ss v w o o' : In rhs (g n) -> clear_in g rhs v o -> clear_in g ss w o' -> (n = Stats -> o = true -> ~ begins_with_parenthesis w) ->
    clear_in g (N n :: ss) (v ++ w) (match ss with [] => callable n || o | _ => o' end).
Arguments c_nil {g}.
Arguments c_terminal {g}.
Arguments c_rule {g}.

(** The statements of a later version in the blocks of Lua 5.1 (C46): no empty statements, [break] only at the end of a block. *)
Definition lua51_blocks (g : nonterminal -> list (list gsym)) (n : nonterminal) : list (list gsym) :=
  match n with
  | Chunk | Stats | LastStat => lua51 n
  | Stat => filter (fun rhs => match rhs with [T (TSym (SSemicolon | SBreak))] => false | _ => true end) (g Stat)
  | _ => g n
  end.
