(** Specification vocabulary of C60: what stands beside the tokens that the constructors of Lua 5.2, Lua 5.4 and Luau make up. No proofs,
    and nothing here is used by the model. *)
From Verif Require Import LexerSpec TokenSpec.
From Verif Require Export ConstructSpec.
From Verif Require Import RoundSpec ScanSpec Construct.
Local Open Scope N_scope.
Import ListNotations.

(** What may come next: one of these characters; anything but a letter, digit or underscore; what [soft] allows, or one of these
    characters. *)
Definition next_in (xs : list char) (v : text) : Prop := exists x r, v = x :: r /\ In x xs.
Definition wordless (v : text) : Prop := not_continued word_part v.
Definition soft_or (xs : list char) (v : text) : Prop := soft v \/ next_in xs v.

(** A name without trivia, and a name with a space after it. *)
Definition bare_name (c : cfg) (n : tokref) : Prop := exists w, unspaced n /\ word w n /\ is_word w /\ ~ In w (reserved_words c).
Definition spaced_name (c : cfg) (n : tokref) : Prop := exists w, spaced n /\ word w n /\ is_word w /\ ~ In w (reserved_words c).

(** A name of a local assignment, its attribute and its type, as the constructors make them. *)
Inductive declared (c : cfg) (f : features) : tokref -> tree -> tree -> Prop :=
| dc_plain n : bare_name c n -> declared c f n none none
| dc_typed n t s : bare_name c n -> has_luau c = true -> stands c soft (type c) t -> type_specifier_new f t = Done s -> declared c f n none (some s)
| dc_attribute n m a : bare_name c n -> has_lua54 c = true \/ has_cfxlua c = true -> bare_name c m -> attribute_new f m = Done a -> declared c f n (some a) none.
Inductive declarations (c : cfg) (f : features) : list tokref -> list tree -> list tree -> Prop :=
| ds_nil : declarations c f [] [] []
| ds_cons n a t ns as_ ts : declared c f n a t -> declarations c f ns as_ ts -> declarations c f (n :: ns) (a :: as_) (t :: ts).
(** Parameters and their types. *)
Inductive typed_parameters (c : cfg) (f : features) : list tree -> list tree -> Prop :=
| tq_nil : typed_parameters c f [] []
| tq_dots d : sy d SEllipsis -> reads_tree c soft (Tok d) -> typed_parameters c f [Nd KParamEllipsis [Tok d]] []
| tq_name n ps ts : bare_name c n -> typed_parameters c f ps ts -> typed_parameters c f (Nd KParamName [Tok n] :: ps) (none :: ts)
| tq_typed n t s ps ts : bare_name c n -> has_luau c = true -> stands c soft (type c) t -> type_specifier_new f t = Done s -> typed_parameters c f ps ts ->
    typed_parameters c f (Nd KParamName [Tok n] :: ps) (some s :: ts).
(** Generic names, as parameters of a declaration. *)
Definition generic_names (ns : list tokref) : list tree := map (fun n => generic_declaration_parameter_new (Nd KGenericParamName [Tok n])) ns.
(** The generics of a function body: none, or these names. *)
Definition body_generics_of (d : tokref) (g : tree) (ns : list tokref) : tree := match ns with [] => none | _ => some (with_field 1 (listing (join d (generic_names ns))) g) end.
