(** Characters, text, positions, Lua versions. Model only; no proofs here. *)
From Coq Require Export List Bool Arith NArith String Ascii.
Export ListNotations.
Local Open Scope N_scope.

(** ** Text
    A Rust [char] is modelled by its scalar value, a [&str]/[String]/[ShortString] by the list of its
    characters ([LexerSource::new], full-moon/src/tokenizer/lexer.rs:1438-1443, collects [source.chars()];
    [ShortString], full-moon/src/short_string.rs:12, is an immutable string). *)
Definition char := N.
Definition text := list char.

(** Helper to write ASCII literals in the model and in examples (not modelling any code). *)
Fixpoint str (s : string) : text :=
  match s with
  | EmptyString => []
  | String a s' => N_of_ascii a :: str s'
  end.

Definition char_eqb (a b : char) : bool := N.eqb a b.

Fixpoint text_eqb (a b : text) : bool :=
  match a, b with
  | [], [] => true
  | x :: a', y :: b' => N.eqb x y && text_eqb a' b'
  | _, _ => false
  end.

(** [char::len_utf8] (core library), used by lexer.rs:1459, lexer.rs:301-318 and update_positions.rs:33. *)
Definition len_utf8 (c : char) : N :=
  if c <? 128 then 1 else if c <? 2048 then 2 else if c <? 65536 then 3 else 4.

(** Named characters used by the lexer. *)
Definition c_nl : char := 10.
Definition c_cr : char := 13.
Definition c_tab : char := 9.
Definition c_ff : char := 12.
Definition c_space : char := 32.
Definition c_dquote : char := 34.
Definition c_squote : char := 39.
Definition c_backslash : char := 92.
Definition c_backtick : char := 96.
Definition ch (a : ascii) : char := N_of_ascii a.

(** ** Positions
    [Position { bytes, line, character }], full-moon/src/tokenizer/structs.rs:854-858. *)
Record position := mkPos { p_bytes : N; p_line : N; p_char : N }.

(** [LexerPosition::new], lexer.rs:1490-1499. *)
Definition pos0 : position := mkPos 0 1 1.

(** Position update of [LexerSource::next], lexer.rs:1452-1459. *)
Definition advance (p : position) (c : char) : position :=
  if c =? c_nl
  then mkPos (p_bytes p + len_utf8 c) (p_line p + 1) 1
  else mkPos (p_bytes p + len_utf8 c) (p_line p) (p_char p + 1).

(** ** Lua versions, full-moon/src/ast/versions.rs *)

(** The cargo features (full-moon/Cargo.toml:20-28). *)
Record features := mkFeatures {
  f_luau : bool; f_lua52 : bool; f_lua53 : bool; f_lua54 : bool; f_luajit : bool; f_cfxlua : bool }.

(** Feature implications of full-moon/Cargo.toml:22-28 (lua53 => lua52, lua54 => lua53, cfxlua => lua54). *)
Definition features_ok (f : features) : bool :=
  implb (f_lua53 f) (f_lua52 f) && implb (f_lua54 f) (f_lua53 f) && implb (f_cfxlua f) (f_lua54 f).

(** Bit constants, versions.rs:3-8. *)
Definition VERSION_LUAU : N := 1.
Definition VERSION_LUA52 : N := 2.
Definition VERSION_LUA53 : N := 4.
Definition VERSION_LUA54 : N := 8.
Definition VERSION_LUAJIT : N := 16.
Definition VERSION_CFXLUA : N := 32.

(** [LuaVersion { bitfield: u8 }], versions.rs:14-16. *)
Definition lua_version := N.

(** versions.rs:20-22 and 146-152 ([new] is [default]). *)
Definition lv_new : lua_version :=
  N.lor (N.lor (N.lor (N.lor VERSION_LUAU VERSION_LUA52) VERSION_LUA53) VERSION_LUA54) VERSION_LUAJIT.
(** versions.rs:25-27 *)
Definition lv_lua51 : lua_version := 0.
(** versions.rs:31-35 *)
Definition lv_luau : lua_version := VERSION_LUAU.
(** versions.rs:52-56 *)
Definition lv_lua52 : lua_version := VERSION_LUA52.
(** versions.rs:71-75 *)
Definition lv_lua53 : lua_version := N.lor VERSION_LUA52 VERSION_LUA53.
(** versions.rs:90-94 *)
Definition lv_lua54 : lua_version := N.lor (N.lor VERSION_LUA52 VERSION_LUA53) VERSION_LUA54.
(** versions.rs:109-113 *)
Definition lv_luajit : lua_version := VERSION_LUAJIT.
(** versions.rs:128-132 *)
Definition lv_cfxlua : lua_version :=
  N.lor (N.lor (N.lor VERSION_LUA52 VERSION_LUA53) VERSION_LUA54) VERSION_CFXLUA.

(** [BitOr::bitor], versions.rs:157-161 (and [bitor_assign], 165-167). *)
Definition lv_or (a b : lua_version) : lua_version := N.lor a b.

(** versions.rs:39-43, 60-62, 79-81, 98-100, 117-119, 136-138 *)
Definition lv_with_luau (v : lua_version) : lua_version := N.lor v VERSION_LUAU.
Definition lv_with_lua52 (v : lua_version) : lua_version := lv_or v lv_lua52.
Definition lv_with_lua53 (v : lua_version) : lua_version := lv_or v lv_lua53.
Definition lv_with_lua54 (v : lua_version) : lua_version := lv_or v lv_lua54.
Definition lv_with_luajit (v : lua_version) : lua_version := lv_or v lv_luajit.
Definition lv_with_cfxlua (v : lua_version) : lua_version := lv_or v lv_cfxlua.

(** [self.bitfield & VERSION_X != 0] *)
Definition has_bit (v : lua_version) (b : N) : bool := negb (N.land v b =? 0).

(** A build configuration (cargo features) together with the runtime version of a lexer/parser. *)
Record cfg := mkCfg { c_feat : features; c_ver : lua_version }.

(** [LuaVersion::has_x]: [cfg!(feature = "x") && bit], versions.rs:46-48, 65-67, 84-86, 103-105, 122-124, 141-143 *)
Definition has_luau (c : cfg) : bool := f_luau (c_feat c) && has_bit (c_ver c) VERSION_LUAU.
Definition has_lua52 (c : cfg) : bool := f_lua52 (c_feat c) && has_bit (c_ver c) VERSION_LUA52.
Definition has_lua53 (c : cfg) : bool := f_lua53 (c_feat c) && has_bit (c_ver c) VERSION_LUA53.
Definition has_lua54 (c : cfg) : bool := f_lua54 (c_feat c) && has_bit (c_ver c) VERSION_LUA54.
Definition has_luajit (c : cfg) : bool := f_luajit (c_feat c) && has_bit (c_ver c) VERSION_LUAJIT.
Definition has_cfxlua (c : cfg) : bool := f_cfxlua (c_feat c) && has_bit (c_ver c) VERSION_CFXLUA.

(** Outcome of code that may panic; [OutOfFuel] only marks exhausted recursion fuel of the model. *)
Inductive out (A : Type) : Type :=
| Done (a : A)
| Panic
| OutOfFuel.
Arguments Done {A} a.
Arguments Panic {A}.
Arguments OutOfFuel {A}.

Definition out_bind {A B} (m : out A) (f : A -> out B) : out B :=
  match m with Done a => f a | Panic => Panic | OutOfFuel => OutOfFuel end.
