(** Model of the orders of positions and tokens: tokenizer/structs.rs. The equalities of [Position] (structs.rs:850, derived), [Token]
    (structs.rs:428, derived) and [TokenReference] (structs.rs:800-806, token, leading and trailing trivia) compare all fields and are [=]. *)
From Verif Require Import Token.
From Coq Require Import NArith.

(** [impl Ord for Position], structs.rs:877-881: by bytes only. [partial_cmp] (883-887) is the same. *)
Definition compare_position (p q : position) : comparison := N.compare (p_bytes p) (p_bytes q).
(** [impl Ord for Token], structs.rs:526-530: by the beginning. *)
Definition compare_token (t u : token) : comparison := compare_position (t_start t) (t_start u).
(** [impl Ord for TokenReference], structs.rs:810-814: by the token. *)
Definition compare_ref (r s : tokref) : comparison := compare_token (r_token r) (r_token s).
