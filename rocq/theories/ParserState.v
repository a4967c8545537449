(** Model of [ParserState] and [ParserResult] (full-moon/src/ast/parser_structs.rs:8-242) and of the plumbing that
    the parser functions share.

    Simplification: the lexer inside the parser state is represented by the list of the results that it has not
    delivered yet. [current], [peek] and [consume] of the lexer are then the head, the second element and the tail of
    that list; theorem C17 ([C17_lookahead_queue]) states that this is how the lexer object behaves. *)
From Verif Require Export Node Punctuated SymbolRef.
Local Open Scope nat_scope.

(** [crate::Error], full-moon/src/lib.rs:42-49, and [AstError { token, additional, range }], ast/mod.rs:2392-2402. *)
Inductive error :=
| TokenizerError (e : tok_error)
| AstError (t : token) (additional : text) (range : option (position * position)).

(** [ParserState { errors, lexer, lua_version }], parser_structs.rs:8-14; the version is part of the [cfg] that every
    function takes. *)
Record pstate := mkState { st_toks : list (lexres tokref); st_errors : list error }.

(** [ParserResult], parser_structs.rs:219-229. *)
Inductive pres (A : Type) := Value (a : A) | LexerMoved | NotFound.
Arguments Value {A} a. Arguments LexerMoved {A}. Arguments NotFound {A}.

(** A function that takes [&mut ParserState] and may panic. *)
Definition M (A : Type) := pstate -> out (A * pstate).
Definition ret {A} (a : A) : M A := fun s => Done (a, s).
Definition panic {A} : M A := fun _ => Panic.
Definition bind {A B} (m : M A) (k : A -> M B) : M B := fun s =>
  match m s with
  | Done (a, s) => k a s
  | Panic => Panic
  | OutOfFuel => OutOfFuel
  end.
Definition lift {A} (o : out A) : M A := fun s =>
  match o with Done a => Done (a, s) | Panic => Panic | OutOfFuel => OutOfFuel end.

Notation "'let!' x := m 'in' k" := (bind m (fun x => k)) (at level 200, x name, m at level 100, k at level 200).
Notation "m ;; k" := (bind m (fun _ => k)) (at level 199, k at level 200).

(** [loop { ... }] and [while]: the body continues with [inl] and leaves the loop with [inr]. A loop may run once more than
    there are tokens; [C22] shows that this is never exhausted. *)
Fixpoint loop_ {A B} (fuel : nat) (body : A -> M (A + B)) (a : A) : M B := fun s =>
  match fuel with
  | O => OutOfFuel
  | S fuel =>
      match body a s with
      | Done (inl a, s) => loop_ fuel body a s
      | Done (inr b, s) => Done (b, s)
      | Panic => Panic
      | OutOfFuel => OutOfFuel
      end
  end.
Definition loop {A B} (body : A -> M (A + B)) (a : A) : M B := fun s => loop_ (S (List.length (st_toks s))) body a s.

(** ** Methods of [ParserState] *)

(** [current], parser_structs.rs:31-37: [Err(())] is [None]; past the end of the stream [unreachable!]. *)
Definition current : M (option tokref) := fun s =>
  match st_toks s with
  | LOk t :: _ | LRecovered t _ :: _ => Done (Some t, s)
  | LFatal _ :: _ => Done (None, s)
  | [] => Panic
  end.

(** [peek], parser_structs.rs:39-45. *)
Definition peek : M (option tokref) := fun s =>
  match st_toks s with
  | _ :: LOk t :: _ | _ :: LRecovered t _ :: _ => Done (Some t, s)
  | _ :: LFatal _ :: _ => Done (None, s)
  | _ => Panic
  end.

(** [consume], parser_structs.rs:47-71. *)
Definition consume : M (pres tokref) := fun s =>
  match st_toks s with
  | LOk t :: rest => Done (Value t, mkState rest (st_errors s))
  | LRecovered t es :: rest => Done (Value t, mkState rest (st_errors s ++ map TokenizerError es))
  | LFatal es :: rest => Done (LexerMoved, mkState rest (st_errors s ++ map TokenizerError es))
  | [] => Done (NotFound, s)
  end.

(** [ParserResult::unwrap], parser_structs.rs:231-239. *)
Definition unwrap {A} (r : pres A) : M A := match r with Value a => ret a | _ => panic end.

(** [state.consume().unwrap()]. *)
Definition take : M tokref := let! r := consume in unwrap r.

(** [token_error], parser_structs.rs:178-189. *)
Definition token_error (r : tokref) (msg : text) : M unit := fun s =>
  Done (tt, mkState (st_toks s) (st_errors s ++ [AstError (r_token r) msg None])).

(** [token_error_ranged], parser_structs.rs:192-208. *)
Definition token_error_ranged (r : tokref) (msg : text) (a b : tokref) : M unit := fun s =>
  Done (tt, mkState (st_toks s) (st_errors s ++ [AstError (r_token r) msg (Some (t_start (r_token a), t_end (r_token b)))])).

(** [consume_if], parser_structs.rs:73-85, and [consume_if_symbols], 87-99. *)
Definition consume_if_symbols (ys : list symbol) : M (option tokref) :=
  let! o := current in
  match o with
  | Some t => if existsb (is_symbol t) ys then let! t := take in ret (Some t) else ret None
  | None => ret None
  end.
Definition consume_if (y : symbol) : M (option tokref) :=
  let! o := current in
  match o with
  | Some t => if is_symbol t y then let! t := take in ret (Some t) else ret None
  | None => ret None
  end.

(** [require], parser_structs.rs:101-114; [require_with_reference_token], 116-133. *)
Definition require (y : symbol) (msg : text) : M (option tokref) :=
  let! o := current in
  match o with
  | Some t => if is_symbol t y then let! t := take in ret (Some t) else token_error t msg ;; ret None
  | None => ret None
  end.
Definition require_with_reference_token (y : symbol) (msg : text) (reference : tokref) : M (option tokref) :=
  let! o := current in
  match o with
  | Some t => if is_symbol t y then let! t := take in ret (Some t) else token_error reference msg ;; ret None
  | None => ret None
  end.
(** [require_with_reference_range], parser_structs.rs:135-153, and [..._callback], 155-176: the callback computes the
    two tokens only when they are needed. *)
Definition require_with_reference_range (y : symbol) (msg : text) (a b : tokref) : M (option tokref) :=
  let! o := current in
  match o with
  | Some t => if is_symbol t y then let! t := take in ret (Some t) else token_error_ranged t msg a b ;; ret None
  | None => ret None
  end.
Definition require_with_reference_range_callback (y : symbol) (msg : text) (ab : M (tokref * tokref)) : M (option tokref) :=
  let! o := current in
  match o with
  | Some t => if is_symbol t y then let! t := take in ret (Some t)
              else let! ab := ab in token_error_ranged t msg (fst ab) (snd ab) ;; ret None
  | None => ret None
  end.

(** ** Other calls the parsers make *)

(** [node.tokens().next().unwrap()] and [node.tokens().next_back().unwrap()]. *)
Definition first_token (t : tree) : M tokref := let! o := lift (tokens_next (items t)) in match fst o with Some r => ret r | None => panic end.
Definition last_token (t : tree) : M tokref := let! o := lift (tokens_next_back (items t)) in match fst o with Some r => ret r | None => panic end.

(** [TokenReference::basic_symbol(text)]. *)
Definition basic (c : cfg) (t : text) : M tokref := lift (basic_symbol (c_feat c) t).

(** [Punctuated::push_punctuated], which may panic. *)
Definition push_punctuated {A} (l : punctuated A) (v : A) (p : tokref) : M (punctuated A) :=
  match p_push_punctuated l v p with
  | (Done _, l) => ret l
  | (Panic, _) => panic
  | (OutOfFuel, _) => lift OutOfFuel
  end.

(** ** Building trees *)
Definition opt_tree (o : option tree) : tree := match o with Some t => Con CSome [t] | None => Con CNone [] end.
Definition opt_tok (o : option tokref) : tree := opt_tree (option_map Tok o).
Definition vec (l : list tree) : tree := Con CVec l.
Definition span (a b : tokref) : tree := Con CSpan [Tok a; Tok b].
Definition pair_tree {A} (f : A -> tree) (x : pair_of A) : tree :=
  match x with End v => Con CEnd [f v] | Punctuated v p => Con CPunct [f v; Tok p] end.
Definition punct {A} (f : A -> tree) (l : punctuated A) : tree := Con CPunctuated (map (pair_tree f) (pairs l)).
(** [Punctuated<tree>] *)
Definition puncts (l : punctuated tree) : tree := punct (fun t => t) l.

(** Kinds of tokens that the parser asks for. *)
Definition is_identifier (r : tokref) : bool := match t_type (r_token r) with TIdentifier _ => true | _ => false end.
Definition is_string (r : tokref) : bool := match t_type (r_token r) with TStringLiteral _ _ _ => true | _ => false end.
Definition is_eof (r : tokref) : bool := match t_type (r_token r) with TEof => true | _ => false end.
Definition is_interpolated (r : tokref) : bool := match t_type (r_token r) with TInterpolatedString _ _ => true | _ => false end.
(** [matches!(state.current(), Ok(token) if token.is_symbol(s))] on the answer of [current] or [peek]. *)
Definition is_sym (o : option tokref) (y : symbol) : bool := match o with Some t => is_symbol t y | None => false end.
Definition is_ident (o : option tokref) : bool := match o with Some t => is_identifier t | None => false end.
