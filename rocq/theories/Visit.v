(** Model of the visitors: full-moon/src/visitors.rs, ast/visitors.rs, ast/luau_visitors.rs, the [Visit] derive
    macro (full-moon-derive/src/visit.rs), [Visit]/[VisitMut] for tokens (tokenizer/structs.rs:538-584, 822-848),
    and of [Ast::update_positions] (ast/update_positions.rs). *)
From Verif Require Export Node.
Local Open Scope nat_scope.

(** ** The immutable visitor *)

(** One call of a method of the user's [Visitor]. [VNode n t]: visit_<n>(t); [VNodeEnd n t]: visit_<n>_end(t);
    [VToken t]: visit_token(t); [VKind k t]: visit_identifier(t), visit_number(t), ...; [VEof r]: visit_eof(r).
    [visit_token_reference] has no event: no [Visit] impl calls it. *)
Inductive event :=
| VNode (n : nty) (t : tree) | VNodeEnd (n : nty) (t : tree)
| VToken (t : token) | VKind (k : token_kind) (t : token) | VEof (r : tokref).

(** [Visit for Token], structs.rs:538-560. *)
Definition token_events (t : token) : list event :=
  VToken t ::
  match kind_of (t_type t) with
  | KdEof | KdShebang => []
  | k => [VKind k t]
  end.

(** [Visit for TokenReference], structs.rs:822-834. *)
Definition ref_events (r : tokref) : list event :=
  VToken (r_token r)
  :: (match kind_of (t_type (r_token r)) with KdEof => [VEof r] | _ => [] end)
  ++ flat_map token_events (r_leading r) ++ token_events (r_token r) ++ flat_map token_events (r_trailing r).

(** Order of the fields in [Visit::visit]: derived impls go through the fields in declaration order, with
    [#[visit(contains)]] (mod.rs:237, lua54.rs:17, luau.rs:579) putting the field between the two tokens of the
    span (derive visit.rs:55-97); hand-written impls: visitors.rs:12-48, 93-159, 233-253, 284-306, 336-372,
    438-478, 551-582, 636-657; luau_visitors.rs:11-114, 276-285, 298-307, 320-340, 370-385, 409-419; luau.rs:1173-1178. *)
Definition visit_order (k : kind) : list op :=
  match k with
  | KFieldExpressionKey => [L 0; F 1; R 0; F 2; F 3]
  | KTableConstructor | KAttribute | KGenericDeclaration => [L 0; F 1; R 0]
  | KExprParentheses | KIndexBrackets | KArgsParentheses => [L 0; F 1; R 0]
  | KFunctionBody => [F 0; L 1; Z 2 [3] false; R 1; F 4; F 5; F 6]
  | KLocalAssignment => [F 0; Z 2 [3; 1] false; F 4; F 5]
  | KGenericFor => [F 0; Z 1 [7] false; F 2; F 3; F 4; F 5; F 6]
  | KNumericFor => [F 0; F 1; F 11; F 2; F 3; F 4; F 5; F 6; F 7; F 8; F 9; F 10]
  | KTypeArray => [L 0; F 1; F 2; R 0]
  | KTypeCallback => [F 0; L 1; F 2; R 1; F 3; F 4]
  | KTypeGeneric | KIndexedGeneric | KTypeTypeof => [F 0; L 1; F 2; R 1]
  | KTypeTable | KTypeTuple | KTypeFieldKeyIndexSignature => [L 0; F 1; R 0]
  | KTypeInstantiation => [L 0; L 1; F 2; L 1; R 0]
  | _ => in_order k
  end.

(** Types without [visit_self] calls: BinOp (mod.rs:2293), InterpolatedStringSegment (luau.rs:1173-1178). *)
Definition visits_self (n : nty) : bool := match n with NBinOp | NInterpolatedStringSegment => false | _ => true end.

(** [Visit::visit]: the events of a node; containers: visitors.rs:165-235, punctuated.rs:232-236, 474-484.
    A [ContainedSpan] visited as a field has a derived impl (span.rs:21). *)
Definition visit_node (t : tree) (l : list (atree (list event))) : list event :=
  let wrap n es := if visits_self n then VNode n t :: es ++ [VNodeEnd n t] else es in
  match t with
  | Tok r => ref_events r
  | Con CSpan _ => wrap NContainedSpan (flat_map ann l)
  | Con _ _ => flat_map ann l
  | Nd k _ => wrap (kind_type k) (select_all l (visit_order k))
  end.
Definition visit (t : tree) : list event := ann (annotate visit_node t).

(** [Visitor::visit_ast], visitors.rs:55-58. *)
Definition visit_ast (a : ast) : list event := visit (a_nodes a) ++ ref_events (a_eof a).

(** ** The mutable visitor *)

(** A [VisitorMut] with state [S] that overrides only methods for tokens; the methods for nodes keep their
    default (the identity). *)
Record visitor_mut (S : Type) := mkVisitorMut {
  vm_token_reference : S -> tokref -> S * tokref;
  vm_eof : S -> tokref -> S * tokref;
  vm_token : S -> token -> S * token;
  vm_kind : token_kind -> S -> token -> S * token }.
Arguments mkVisitorMut {S}. Arguments vm_token_reference {S}. Arguments vm_eof {S}. Arguments vm_token {S}. Arguments vm_kind {S}.

(** The default methods, visitors.rs:110-156. *)
Definition default_visitor : visitor_mut unit :=
  mkVisitorMut (fun s r => (s, r)) (fun s r => (s, r)) (fun s t => (s, t)) (fun _ s t => (s, t)).

(** Left-to-right iteration with a state, [into_iter().map(..).collect()]. *)
Fixpoint map_state {S A B} (f : S -> A -> S * B) (s : S) (l : list A) : S * list B :=
  match l with
  | [] => (s, [])
  | x :: l => let '(s, y) := f s x in let '(s, ys) := map_state f s l in (s, y :: ys)
  end.

(** [VisitMut for Token], structs.rs:562-584. *)
Definition visit_mut_token {S} (v : visitor_mut S) (s : S) (t : token) : S * token :=
  let '(s, t) := vm_token v s t in
  match kind_of (t_type t) with
  | KdEof | KdShebang => (s, t)
  | k => vm_kind v k s t
  end.

(** [VisitMut for TokenReference], structs.rs:836-848. *)
Definition visit_mut_ref {S} (v : visitor_mut S) (s : S) (r : tokref) : S * tokref :=
  let '(s, r) := vm_token_reference v s r in
  let '(s, r) := match kind_of (t_type (r_token r)) with KdEof => vm_eof v s r | _ => (s, r) end in
  let '(s, leading) := map_state (visit_mut_token v) s (r_leading r) in
  let '(s, tok) := visit_mut_token v s (r_token r) in
  let '(s, trailing) := map_state (visit_mut_token v) s (r_trailing r) in
  (s, mkRef leading tok trailing).

(** Order of the fields in [VisitMut::visit_mut]: derived as for [Visit]; hand-written: visitors.rs:50-91,
    161-231, 255-282, 308-334, 374-436, 480-549, 584-634, 659-683; luau_visitors.rs:116-274, 287-296, 309-318,
    342-368, 387-406, 421-432; luau.rs:1180-1187. *)
Definition visit_mut_order (k : kind) : list op :=
  match k with
  | KFieldExpressionKey => [L 0; F 1; R 0; F 2; F 3]
  | KTableConstructor | KAttribute | KGenericDeclaration => [L 0; F 1; R 0]
  | KExprParentheses | KIndexBrackets | KArgsParentheses => [L 0; F 1; R 0]
  | KFunctionBody => [F 0; L 1; Z 2 [3] true; R 1; F 4; F 5; F 6]
  | KLocalAssignment => [F 0; Z 2 [3; 1] true; F 4; F 5]
  | KGenericFor => [F 0; Z 1 [7] true; F 2; F 3; F 4; F 5; F 6]
  | KNumericFor => [F 0; F 1; F 11; F 2; F 3; F 4; F 5; F 6; F 7; F 8; F 9; F 10]
  | KTypeArray => [L 0; F 1; F 2; R 0]
  | KTypeCallback => [F 0; L 1; F 2; R 1; F 3; F 4]
  | KTypeGeneric | KIndexedGeneric | KTypeTypeof => [F 0; L 1; F 2; R 1]
  | KTypeTable | KTypeTuple | KTypeFieldKeyIndexSignature => [L 0; F 1; R 0]
  | KTypeInstantiation => [L 0; L 1; F 2; R 1; R 0]
  | _ => in_order k
  end.

(** The visit of a subtree: its old value and what [visit_mut] does to it. *)
Definition rewrite_of (S : Type) : Type := tree * (S -> S * tree).

Definition old_of {S} (x : atree (rewrite_of S)) : tree := fst (ann x).
Definition run_of {S} (x : atree (rewrite_of S)) (s : S) : S * tree := snd (ann x) s.

(** Replace element [n] of a list. *)
Fixpoint set_nth {A} (n : nat) (x : A) (l : list A) : list A :=
  match l, n with
  | [], _ => []
  | _ :: l, O => x :: l
  | y :: l, S n => y :: set_nth n x l
  end.

(** [x = x.visit_mut(visitor)] for the element [n] of [l]; [cur] holds the current fields. *)
Definition run_at {S} (n : nat) (l : list (atree (rewrite_of S))) (s : S) (cur : list tree) : S * list tree :=
  match nth_error l n with
  | Some x => let '(s, t) := run_of x s in (s, set_nth n t cur)
  | None => (s, cur)
  end.

(** The same for the token [m] of the span in field [n]. *)
Definition span_part {S} (n m : nat) (l : list (atree (rewrite_of S))) (s : S) (cur : list tree) : S * list tree :=
  match nth_error cur n with
  | Some (Con CSpan parts) =>
      let '(s, parts) := run_at m (kids_at n l) s parts in (s, set_nth n (Con CSpan parts) cur)
  | _ => (s, cur)
  end.

(** [next().flatten().map(|x| x.visit_mut(visitor))], visitors.rs:402-405, 518-525, 605-608: a missing
    element is [None]. *)
Fixpoint run_heads {S} (vecs : list (list (atree (rewrite_of S)))) (s : S) : S * list tree :=
  match vecs with
  | [] => (s, [])
  | v :: vecs =>
      let '(s, t) := match v with x :: _ => run_of x s | [] => (s, Con CNone []) end in
      let '(s, ts) := run_heads vecs s in (s, t :: ts)
  end.

(** The loops of visitors.rs:396-411, 514-531, 601-613: rebuilds the pairs and the parallel vectors.
    [Pair::new(value, punctuation)] keeps the variant, since the punctuation stays [Some] or [None]. *)
Fixpoint run_zip {S} (pairs : list (atree (rewrite_of S))) (vecs : list (list (atree (rewrite_of S)))) (s : S)
  : S * list tree * list (list tree) :=
  match pairs with
  | [] => (s, [], map (fun _ => []) vecs)
  | x :: pairs =>
      let '(s, value) := match kids x with v :: _ => run_of v s | [] => (s, old_of x) end in
      let '(s, heads) := run_heads vecs s in
      let '(s, pr) := match kids x with
                        | [_; p] => let '(s, p) := run_of p s in (s, Con CPunct [value; p])
                        | _ => (s, Con CEnd [value])
                        end in
      let '(s, ps, vs) := run_zip pairs (map (@tl _) vecs) s in
      (s, pr :: ps, map (fun '(h, v) => h :: v) (combine heads vs))
  end.

Definition set_all (ms : list nat) (vs : list (list tree)) (cur : list tree) : list tree :=
  fold_left (fun cur '(m, v) => set_nth m (Con CVec v) cur) (combine ms vs) cur.

Definition run_op {S} (l : list (atree (rewrite_of S))) (st : S * list tree) (o : op) : S * list tree :=
  let '(s, cur) := st in
  match o with
  | F n => run_at n l s cur
  | L n => span_part n 0 l s cur
  | R n => span_part n 1 l s cur
  | Z n ms _ =>
      let '(s, ps, vs) := run_zip (kids_at n l) (map (fun m => kids_at m l) ms) s in
      (s, set_all ms vs (set_nth n (Con CPunctuated ps) cur))
  end.

(** [VisitMut::visit_mut]; containers: visitors.rs:187-243, punctuated.rs:238-244, 486-495. *)
Definition visit_mut_node {S} (v : visitor_mut S) (t : tree) (l : list (atree (rewrite_of S))) : rewrite_of S :=
  (t, fun s =>
    match t with
    | Tok r => let '(s, r) := visit_mut_ref v s r in (s, Tok r)
    | Con c _ => let '(s, cs) := map_state (fun s x => run_of x s) s l in (s, Con c cs)
    | Nd k cs => let '(s, cs) := fold_left (run_op l) (visit_mut_order k) (s, cs) in (s, Nd k cs)
    end).
Definition visit_mut {S} (v : visitor_mut S) (s : S) (t : tree) : S * tree := run_of (annotate (visit_mut_node v) t) s.

(** [VisitorMut::visit_ast], visitors.rs:98-109. *)
Definition visit_mut_ast {S} (v : visitor_mut S) (s : S) (a : ast) : S * ast :=
  let '(s, nodes) := visit_mut v s (a_nodes a) in
  let '(s, eof) := vm_eof v s (a_eof a) in
  (s, mkAst nodes eof).

(** ** [update_positions] *)

Local Open Scope N_scope.

(** [UpdatePositionsRewriter], update_positions.rs:8-11. *)
Record rewriter := mkRewriter { rw_start : position; rw_next_is_new_line : bool }.

(** The loop of update_positions.rs:20-35. *)
Fixpoint update_loop (t : text) (nl : bool) (e : position) : bool * position :=
  match t with
  | [] => (nl, e)
  | c :: t =>
      let e := if nl then mkPos (p_bytes e) (p_line e + 1) 1 else e in
      let '(nl, e) := if c =? c_nl then (true, e) else (false, mkPos (p_bytes e) (p_line e) (p_char e + 1)) in
      update_loop t nl (mkPos (p_bytes e + len_utf8 c) (p_line e) (p_char e))
  end.

(** [update_token], update_positions.rs:14-52. *)
Definition update_token (w : rewriter) (t : token) : rewriter * token :=
  let '(nl, e) :=
    match kind_of (t_type t) with
    | KdEof => (rw_next_is_new_line w, rw_start w)
    | _ => update_loop (show_token t) (rw_next_is_new_line w) (rw_start w)
    end in
  let result := mkToken (rw_start w) e (t_type t) in
  let e := if nl then mkPos (p_bytes e) (p_line e + 1) 1 else e in
  (mkRewriter e false, result).

(** [visit_token_reference], update_positions.rs:56-68. The arguments of [TokenReference::new] are evaluated in order. *)
Definition update_ref (w : rewriter) (r : tokref) : rewriter * tokref :=
  let '(w, leading) := map_state update_token w (r_leading r) in
  let '(w, tok) := update_token w (r_token r) in
  let '(w, trailing) := map_state update_token w (r_trailing r) in
  (w, mkRef leading tok trailing).

Definition update_visitor : visitor_mut rewriter :=
  mkVisitorMut update_ref (fun s r => (s, r)) (fun s t => (s, t)) (fun _ s t => (s, t)).

(** [Ast::update_positions], update_positions.rs:74-87. *)
Definition update_positions (a : ast) : ast :=
  snd (visit_mut_ast update_visitor (mkRewriter (mkPos 0 1 1) false) a).
