(** Independent specification of quoted strings with escapes and of interpolated strings. Written from the
    Lua and Luau manuals. Nothing here is used by the model. *)
From Verif Require Export TokenSpec.
Local Open Scope N_scope.

Definition line_break (x : char) : Prop := x = 10 \/ x = 13.
Definition is_line_break (x : char) : bool := (x =? 10) || (x =? 13).
Definition breaks (w : text) : nat := List.length (filter is_line_break w).

(** Versions with the escape [\z], which skips the white space after it. *)
Definition z_version (c : cfg) : bool := has_lua52 c || has_luau c || has_luajit c.

(** ** Quoted strings
    The text between two quotes [q] according to the manuals: plain characters, escapes, an escaped line
    end (which may be two characters), and [\z] with white space. [all = false] leaves out what
    full-moon does not accept: an escaped two-character line end in versions other than 5.2 and Luau, and more than
    one line break character after [\z]. *)
Inductive quoted_body (c : cfg) (q : char) (all : bool) : text -> Prop :=
| qb_nil : quoted_body c q all []
| qb_char x t : x <> q -> x <> 92 -> ~ line_break x -> quoted_body c q all t -> quoted_body c q all (x :: t)
| qb_escape x t : ~ (x = 122 /\ z_version c = true) -> quoted_body c q all t -> quoted_body c q all (92 :: x :: t)
| qb_line_end x y t : (x = 13 /\ y = 10) \/ (x = 10 /\ y = 13) -> all = true \/ has_lua52 c || has_luau c = true ->
    quoted_body c q all t -> quoted_body c q all (92 :: x :: y :: t)
| qb_z w t : z_version c = true -> blank w -> all = true \/ (breaks w <= 1)%nat ->
    quoted_body c q all t -> quoted_body c q all (92 :: 122 :: w ++ t).

(** What full-moon accepts between quotes. The flag says whether one raw line break is allowed at this point:
    any escape allows one in 5.2 and Luau, [\z] also in LuaJIT. *)
Inductive accepted_body (c : cfg) (q : char) : bool -> text -> Prop :=
| ab_nil z : accepted_body c q z []
| ab_char z x t : x <> q -> x <> 92 -> ~ line_break x -> accepted_body c q z t -> accepted_body c q z (x :: t)
| ab_break x t : line_break x -> accepted_body c q false t -> accepted_body c q true (x :: t)
| ab_escape z x t : accepted_body c q (z || has_lua52 c || has_luau c || (has_luajit c && (x =? 122))) t ->
    accepted_body c q z (92 :: x :: t).

(** ** Interpolated strings *)

Definition begins (k : istr_kind) : char := match k with IBegin | ISimple => 96 | IMiddle | IEnd => 125 end.
Definition finishes (k : istr_kind) : char := match k with IBegin | IMiddle => 123 | IEnd | ISimple => 96 end.

(** The text of a section in Luau: plain characters, escapes, [\u{...}], an escaped line end, [\z]. *)
Definition plain_char (x : char) : Prop := x <> 96 /\ x <> 123 /\ x <> 92 /\ ~ line_break x.
Inductive section_body (all : bool) : text -> Prop :=
| se_nil : section_body all []
| se_char x t : plain_char x -> section_body all t -> section_body all (x :: t)
| se_escape x t : x <> 117 -> x <> 122 -> section_body all t -> section_body all (92 :: x :: t)
| se_line_end x y t : (x = 13 /\ y = 10) \/ (x = 10 /\ y = 13) -> section_body all t -> section_body all (92 :: x :: y :: t)
| se_unicode w t : w <> [] -> forallb hexdigit w = true -> section_body all t -> section_body all (92 :: 117 :: 123 :: w ++ 125 :: t)
| se_z w t : blank w -> all = true \/ (w <> [] /\ (breaks (tl w) <= 1)%nat) -> section_body all t -> section_body all (92 :: 122 :: w ++ t).

(** What full-moon can accept as the text of a section. *)
Inductive loose_section : text -> Prop :=
| ls_nil : loose_section []
| ls_char x t : x <> 96 -> x <> 123 -> x <> 92 -> loose_section t -> loose_section (x :: t)
| ls_escape zs x t : forallb (fun z => z =? 122) zs = true -> x <> 122 -> (zs = [] -> x <> 117) -> loose_section t -> loose_section (92 :: zs ++ x :: t)
| ls_u t : not_continued (fun x => x =? 123) t -> loose_section t -> loose_section (92 :: 117 :: t)
| ls_unicode w t : ~ In 125 (tl w) -> loose_section t -> loose_section (92 :: 117 :: 123 :: w ++ t).

(** Nesting of braces and holes. A hole is opened by the brace that ends a section and closed by the brace
    that starts the next section. *)
Inductive opened := Brace | Hole.
Inductive nested : list opened -> list token -> Prop :=
| ne_nil s : nested s []
| ne_brace s t ts : t_type t = TSymbol SLeftBrace -> nested (Brace :: s) ts -> nested s (t :: ts)
| ne_close s t ts : t_type t = TSymbol SRightBrace -> nested s ts -> nested (Brace :: s) (t :: ts)
| ne_stray t ts : t_type t = TSymbol SRightBrace -> nested [] ts -> nested [] (t :: ts)
| ne_simple s t ts w : t_type t = TInterpolatedString w ISimple -> nested s ts -> nested s (t :: ts)
| ne_begin s t ts w : t_type t = TInterpolatedString w IBegin -> nested (Hole :: s) ts -> nested s (t :: ts)
| ne_middle s t ts w : t_type t = TInterpolatedString w IMiddle -> nested (Hole :: s) ts -> nested (Hole :: s) (t :: ts)
| ne_end s t ts w : t_type t = TInterpolatedString w IEnd -> nested s ts -> nested (Hole :: s) (t :: ts)
| ne_other s t ts : t_type t <> TSymbol SLeftBrace -> t_type t <> TSymbol SRightBrace ->
    (forall w k, t_type t <> TInterpolatedString w k) -> nested s ts -> nested s (t :: ts).
