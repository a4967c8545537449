(** C48: parsing undoes printing. A tree of the grammar of RoundSpec.v is what the parser makes of the tree's tokens, in every
    dialect. Specification vocabulary: RoundSpec.v. *)
From Verif Require Import LexerSpec PunctuatedProofs.
From Verif Require Import TokenSpec ParserTheorems ParserAccept Round13 RoundSpec.
Local Open Scope nat_scope.
Import ListNotations.

(** ** C48. *)
Theorem C48_round_trip : forall c source t e, cfg_ok c -> tokenize c source = Done (map LOk (printed t ++ [e])) -> block c t ->
  parse c source = Done (inl (mkAst t e)).
Proof. intros c source t e C T B. exact (round_trip c source (printed t) e t C T B eq_refl). Qed.
Print Assumptions C48_round_trip.
Theorem C48_text : forall c source t e, cfg_ok c -> tokenize c source = Done (map LOk (printed t ++ [e])) -> block c t ->
  shebang_kept source (map LOk (printed t ++ [e])) -> display_ast (mkAst t e) = source.
Proof. exact round_trip_text. Qed.
Print Assumptions C48_text.
(** The grammar is unambiguous: different trees have different tokens. *)
Theorem C48_unambiguous : forall c t1 t2, block c t1 -> block c t2 -> printed t1 = printed t2 ->
  Forall (fun r => is_eof r = false /\ forall s, t_type (r_token r) = TSymbol s -> sym_enabled c s = true) (printed t1) -> t1 = t2.
Proof. exact unambiguous. Qed.
Print Assumptions C48_unambiguous.

(** A concrete tree is in the grammar: try the productions. *)
Ltac tree_in :=
  lazymatch goal with
  | |- terminal_of _ = _ => vm_compute; reflexivity
  | |- word _ _ => vm_compute; reflexivity
  | |- ~ word _ _ => vm_compute; congruence
  | |- section _ _ => eexists; vm_compute; reflexivity
  | |- access _ => (left; tree_in) + (right; tree_in)
  | |- more_holes _ _ => (apply (mh_intro _ IMiddle); [discriminate|tree_in]) + (apply (mh_intro _ ISimple); [discriminate|tree_in])
  | |- _ \/ _ => (left; tree_in) + (right; tree_in)
  | |- binary_in _ _ => exact I + (vm_compute; auto)
  | |- unary_in _ _ => exact I + (vm_compute; auto)
  | |- compound_in _ _ => vm_compute; auto
  | |- dot_in _ _ => exact I + (vm_compute; reflexivity)
  | |- equal_in _ _ => exact I + (vm_compute; reflexivity)
  | |- apart _ => constructor; tree_in
  | |- separate _ _ => vm_compute; congruence
  | |- one_indexer _ => vm_compute; repeat constructor
  | |- _ <> _ => vm_compute; congruence
  | |- exists _, _ => eexists; tree_in
  | |- _ /\ _ => split; tree_in
  | |- _ = _ => (vm_compute; reflexivity)
  | |- forall r l, _ = r :: l -> ~ access _ => intros ? ? [= <- _] [X|X]; vm_compute in X; discriminate X
  | |- forall t, _ = [_] -> _ => let E := fresh in intros ? E; (discriminate E + (injection E as <-; tree_in))
  | |- _ -> _ => vm_compute; congruence
  | |- _ => econstructor; tree_in
  end.
Definition lua_source := str "local a, b = f 'x', {1, y = 2; [z] = 3}
for i = 1, #a do if a[i] > -b ^ 2 .. 'c' then break elseif not b then a.x:m(i) else a.y, a.z = nil end end
repeat local function g(p, ...) return p and ..., function() end end until (a == b)
while true do end;
(f or g)() return a".
Example C48_lua : exists t e, tokenize cfg_lua51 lua_source = Done (map LOk (printed t ++ [e])) /\ block cfg_lua51 t.
Proof.
  let a := eval vm_compute in (match parse cfg_lua51 lua_source with Done (inl a) => a | _ => mkAst none end_of_file end) in
  let t := eval cbn in (a_nodes a) in let e := eval cbn in (a_eof a) in exists t, e.
  split; [vm_compute; reflexivity|]. tree_in.
Qed.
Definition lua54_source := str "local x <const>, y <close> = 1 // 2 ~ 3 << 4, ~z & w | v
goto done do ::done:: end f { } '' () [[s]] .x = 1".
Example C48_lua54 : exists t e, tokenize cfg_lua54 lua54_source = Done (map LOk (printed t ++ [e])) /\ block cfg_lua54 t.
Proof.
  let a := eval vm_compute in (match parse cfg_lua54 lua54_source with Done (inl a) => a | _ => mkAst none end_of_file end) in
  let t := eval cbn in (a_nodes a) in let e := eval cbn in (a_eof a) in exists t, e.
  split; [vm_compute; reflexivity|]. tree_in.
Qed.
Definition luau_source := str "export type T<A, B = (number?) | nil, C... = (A, ...B)> = & { read a: A, [string]: B } & ((x: A, C...) -> <D>(D) -> ...M.N<D, ()>) & (() -> () | C)
type V = { [""k""]: typeof(f(1)), n: { write number } } | 'v'?? | true
@native local function f<X, Y...>(a: X, ...: Y...): (X, Y...)
  for i: number, j in g do continue end
  x.y += if a then b elseif c then `d{e}f{ {} }g` else h :: any
  type function h() return f<<T, U>>:m<<>>(`s`) end
end
local v: number | nil = @a function() end".
Example C48_luau : exists t e, tokenize cfg_luau luau_source = Done (map LOk (printed t ++ [e])) /\ block cfg_luau t.
Proof.
  let a := eval vm_compute in (match parse cfg_luau luau_source with Done (inl a) => a | _ => mkAst none end_of_file end) in
  let t := eval cbn in (a_nodes a) in let e := eval cbn in (a_eof a) in exists t, e.
  split; [vm_compute; reflexivity|]. tree_in.
Qed.
Definition cfx_source := str "local a, b <const> in t?.x {.y, z = 1, .w; 2} a <<= b?.c | 3".
Definition cfg_cfxlua : cfg := mkCfg all_features lv_cfxlua.
Example C48_cfxlua : exists t e, tokenize cfg_cfxlua cfx_source = Done (map LOk (printed t ++ [e])) /\ block cfg_cfxlua t.
Proof.
  let a := eval vm_compute in (match parse cfg_cfxlua cfx_source with Done (inl a) => a | _ => mkAst none end_of_file end) in
  let t := eval cbn in (a_nodes a) in let e := eval cbn in (a_eof a) in exists t, e.
  split; [vm_compute; reflexivity|]. tree_in.
Qed.
