(** Specification vocabulary of C51: sources that differ in layout, in names and in literals only, and trees that differ in their
    tokens only. No proofs, and nothing here is used by the model. *)
From Verif Require Import LexerSpec.
From Verif Require Import SymbolRef.
From Verif Require Export ParserState.
Local Open Scope nat_scope.

(** The names that have a meaning of their own in Luau. *)
Definition contextual : list text := [str "typeof"; str "read"; str "write"; str "type"; str "export"; str "continue"].
(** The same token for the grammar: any two names (in Luau, but for those above), any two numbers, any two strings. *)
Definition same_sort (c : cfg) (t t' : token_type) : Prop :=
  match t, t' with
  | TIdentifier w, TIdentifier w' => has_luau c = true -> w <> w' -> ~ In w contextual /\ ~ In w' contextual
  | TNumber _, TNumber _ => True
  | TStringLiteral _ _ _, TStringLiteral _ _ _ => True
  | TInterpolatedString _ k, TInterpolatedString _ k' => k = k'
  | _, _ => t = t'
  end.
(** Tokens with their trivia. After a part of an interpolated string it matters whether there is trivia: [`{{`] is an error. *)
Definition same_ref (c : cfg) (r r' : tokref) : Prop :=
  same_sort c (t_type (r_token r)) (t_type (r_token r')) /\
  (forall w k, t_type (r_token r) = TInterpolatedString w k -> (r_trailing r = [] <-> r_trailing r' = [])).

(** The same errors of the lexer, perhaps at other places. *)
Definition same_lex_error (e e' : tok_error) : Prop := te_error e = te_error e'.

(** The same results of the lexer. *)
Inductive same_result (R : tokref -> tokref -> Prop) : lexres tokref -> lexres tokref -> Prop :=
| sl_ok r r' : R r r' -> same_result R (LOk r) (LOk r')
| sl_fatal es es' : Forall2 same_lex_error es es' -> same_result R (LFatal es) (LFatal es')
| sl_recovered r r' es es' : R r r' -> Forall2 same_lex_error es es' -> same_result R (LRecovered r es) (LRecovered r' es').

(** Tokens that the parser itself puts into a tree, for missing ones: a symbol, a name for a missing generic type, the end of an
    interpolated string. *)
Inductive inserted (c : cfg) : tokref -> Prop :=
| in_symbol w r : basic_symbol (c_feat c) w = Done r -> inserted c r
| in_colons r : token_reference_symbol (c_feat c) (str "::") = Done (SymOk r) -> inserted c r
| in_name : inserted c (mkRef [] (mkToken (mkPos 0%N 0%N 0%N) (mkPos 0%N 0%N 0%N) (TIdentifier (str "%error-id%"))) [])
| in_section : inserted c (mkRef [] (mkToken (mkPos 0%N 0%N 0%N) (mkPos 0%N 0%N 0%N) (TInterpolatedString [] IEnd)) []).

(** Tokens that correspond in two runs of the parser: tokens at the same place of the two sources, or the same token put in by
    the parser in both. *)
Inductive counterpart (c : cfg) (rs rs' : list (lexres tokref)) : tokref -> tokref -> Prop :=
| cp_read i x x' r r' : nth_error rs i = Some x -> nth_error rs' i = Some x' -> ref_of x = Some r -> ref_of x' = Some r' -> same_ref c r r' ->
    counterpart c rs rs' r r'
| cp_inserted r : inserted c r -> counterpart c rs rs' r r.

(** The same nodes, with such tokens at the same places. *)
Inductive alike (R : tokref -> tokref -> Prop) : tree -> tree -> Prop :=
| al_token r r' : R r r' -> alike R (Tok r) (Tok r')
| al_container k cs cs' : Forall2 (alike R) cs cs' -> alike R (Con k cs) (Con k cs')
| al_node k cs cs' : Forall2 (alike R) cs cs' -> alike R (Nd k cs) (Nd k cs').

(** The same errors: the same message for such a token, and a range from such a token to such a token. *)
Inductive same_error (R : tokref -> tokref -> Prop) : error -> error -> Prop :=
| sr_lexer e e' : same_lex_error e e' -> same_error R (TokenizerError e) (TokenizerError e')
| sr_plain r r' msg : R r r' -> same_error R (AstError (r_token r) msg None) (AstError (r_token r') msg None)
| sr_ranged r r' a a' b b' msg : R r r' -> R a a' -> R b b' ->
    same_error R (AstError (r_token r) msg (Some (t_start (r_token a), t_end (r_token b))))
                 (AstError (r_token r') msg (Some (t_start (r_token a'), t_end (r_token b')))).
