(** Specification vocabulary of C55: the tokens of a tree drawn from those of a source. No proofs, and nothing here is used by the
    model. *)
From Verif Require Import LexerSpec.
From Verif Require Export LayoutSpec.
Import ListNotations.

(** [l] is [u] with some tokens left out and with some tokens put in for missing ones; the others are in the same order. *)
Inductive drawn (made : tokref -> Prop) : list tokref -> list tokref -> Prop :=
| dr_nil : drawn made [] []
| dr_take t l u : drawn made l u -> drawn made (t :: l) (t :: u)
| dr_skip t l u : drawn made l u -> drawn made l (t :: u)
| dr_made t l u : made t -> drawn made l u -> drawn made (t :: l) u.

(** Two tokens of the source are in the wrong order in [l]. *)
Definition misplaced (rs : list (lexres tokref)) (l : list tokref) : Prop :=
  exists x t y u z, l = x ++ t :: y ++ u :: z /\ In t (refs_of rs) /\ In u (refs_of rs) /\
    N.lt (p_bytes (t_start (r_token u))) (p_bytes (t_start (r_token t))).
