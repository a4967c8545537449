(** Specification vocabulary of C50: versions that have all that others have. No
    proofs, and nothing here is used by the model. *)
From Verif Require Import LexerSpec.
From Verif Require Export RoundSpec.
Local Open Scope nat_scope.

(** What [c] has, [c'] has; both have Luau, or neither. *)
Definition extends (c c' : cfg) : Prop :=
  has_luau c' = has_luau c /\
  (has_lua52 c = true -> has_lua52 c' = true) /\ (has_lua53 c = true -> has_lua53 c' = true) /\ (has_lua54 c = true -> has_lua54 c' = true) /\
  (has_luajit c = true -> has_luajit c' = true) /\ (has_cfxlua c = true -> has_cfxlua c' = true) /\
  (f_cfxlua (c_feat c) = true -> f_cfxlua (c_feat c') = true) /\ (f_luau (c_feat c) = true -> f_luau (c_feat c') = true).
