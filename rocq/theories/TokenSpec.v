(** Independent lexical specification: words, operators, long brackets, quoted strings, numerals.
    Written from the Lua manuals, not from the lexer. Nothing here is used by the model. *)
From Verif Require Export LexerSpec.
Local Open Scope N_scope.

Definition between (a b : N) (x : char) : bool := (a <=? x) && (x <=? b).
Definition letter (x : char) : bool := between 65 90 x || between 97 122 x || (x =? 95).
Definition digit (x : char) : bool := between 48 57 x.
Definition hexdigit (x : char) : bool := digit x || between 65 70 x || between 97 102 x.
Definition word_part (x : char) : bool := letter x || digit x.

(** A name: a letter or underscore followed by letters, digits, underscores. *)
Definition is_word (w : text) : Prop :=
  exists x r, w = x :: r /\ letter x = true /\ forallb word_part r = true.

(** [v] does not begin with a character satisfying [P]. *)
Definition not_continued (P : char -> bool) (v : text) : Prop := forall x r, v = x :: r -> P x = false.

(** Spaces, tabs and line ends. *)
Definition blank (w : text) : Prop := forallb (fun x => (x =? 32) || (x =? 9) || (x =? 10) || (x =? 13)) w = true.

(** Sections of an interpolated string that can only follow an open one. *)
Definition needs_open_brace (tt : token_type) : Prop := exists w, tt = TInterpolatedString w IMiddle \/ tt = TInterpolatedString w IEnd.

(** Reserved words of the version. *)
Definition reserved_words (c : cfg) : list text :=
  map str ["and"; "break"; "do"; "else"; "elseif"; "end"; "false"; "for"; "function"; "if"; "in"; "local";
           "nil"; "not"; "or"; "repeat"; "return"; "then"; "true"; "until"; "while"]%string
  ++ (if has_lua52 c || has_luajit c then [str "goto"] else []).

(** Operators and punctuation of the version. *)
Definition operators (c : cfg) : list text :=
  map str ["+"; "-"; "*"; "/"; "%"; "^"; "#"; "=="; "~="; "<="; ">="; "<"; ">"; "="; "("; ")"; "{"; "}"; "[";
           "]"; ";"; ":"; ","; "."; ".."; "..."]%string
  ++ (if has_luau c || has_lua52 c || has_luajit c then [str "::"] else [])
  ++ (if has_luau c || has_lua53 c then map str ["&"; "|"; "//"]%string else [])
  ++ (if has_lua53 c then map str ["<<"; ">>"; "~"]%string else [])
  ++ (if has_luau c then map str ["->"; "@"; "?"; "//="; "%="; "..="]%string else [])
  ++ (if has_luau c || has_cfxlua c then map str ["+="; "-="; "*="; "/="; "^="]%string else [])
  ++ (if has_cfxlua c then map str ["<<="; ">>="; "&="; "|="; "?."]%string else []).

(** The version values that the public constructors can produce. *)
Inductive built : lua_version -> Prop :=
| b_new : built lv_new | b_51 : built lv_lua51 | b_luau : built lv_luau | b_52 : built lv_lua52
| b_53 : built lv_lua53 | b_54 : built lv_lua54 | b_jit : built lv_luajit | b_cfx : built lv_cfxlua
| b_or a b : built a -> built b -> built (lv_or a b)
| b_wluau a : built a -> built (lv_with_luau a) | b_w52 a : built a -> built (lv_with_lua52 a)
| b_w53 a : built a -> built (lv_with_lua53 a) | b_w54 a : built a -> built (lv_with_lua54 a)
| b_wjit a : built a -> built (lv_with_luajit a) | b_wcfx a : built a -> built (lv_with_cfxlua a).

(** A configuration that can occur: feature implications hold and the version was built by the API. *)
Definition cfg_ok (c : cfg) : Prop := features_ok (c_feat c) = true /\ built (c_ver c).

(** ** Long brackets *)
Definition eqs (n : nat) : text := repeat 61 n.
Definition long_bracket_open (n : nat) : text := [91] ++ eqs n ++ [91].
Definition long_bracket_close (n : nat) : text := [93] ++ eqs n ++ [93].

(** [full] is [body], then the closing bracket, then [rest], and no closing bracket starts earlier. *)
Definition closes_first (n : nat) (full body rest : text) : Prop :=
  full = body ++ long_bracket_close n ++ rest /\
  forall u v, full = u ++ long_bracket_close n ++ v -> (List.length body <= List.length u)%nat.
Definition never_closes (n : nat) (full : text) : Prop := forall u v, full <> u ++ long_bracket_close n ++ v.

(** ** Quoted strings *)

(** The text between the quotes [q]: plain characters other than the quote and the backslash, and
    backslash escapes (a backslash followed by any character). [nl_ok]: may a plain character be a line break? *)
Inductive string_body (q : char) (nl_ok : bool) : text -> Prop :=
| sb_nil : string_body q nl_ok []
| sb_char x t : x <> q -> x <> 92 -> (nl_ok = false -> x <> 10 /\ x <> 13) -> string_body q nl_ok t -> string_body q nl_ok (x :: t)
| sb_escape x t : string_body q nl_ok t -> string_body q nl_ok (92 :: x :: t).

Definition quote_char (qt : quote_type) : option char :=
  match qt with QDouble => Some 34 | QSingle => Some 39 | QBacktick => Some 96 | QBrackets => None end.

(** ** Numerals *)

Definition digits (P : char -> bool) (t : text) : Prop := forallb P t = true.
(** Digits of the version: Luau allows underscores between digits. *)
Definition digit_of (c : cfg) (x : char) : bool := digit x || (has_luau c && (x =? 95)).
Definition hexdigit_of (c : cfg) (x : char) : bool := hexdigit x || (has_luau c && (x =? 95)).
Definition bindigit (x : char) : bool := (x =? 48) || (x =? 49) || (x =? 95).

(** [e], optional sign, at least one digit. *)
Inductive exponent_part (c : cfg) (marks : list char) : text -> Prop :=
| ep m sign d ds : In m marks -> sign = [] \/ sign = [43] \/ sign = [45] -> digit d = true -> digits (digit_of c) ds ->
    exponent_part c marks (m :: sign ++ d :: ds).

(** LuaJIT suffixes: [i], [LL], [ULL] in any case. *)
Definition ci (a b x : char) : Prop := x = a \/ x = b.
Inductive luajit_suffix : text -> Prop :=
| ls_i i : ci 105 73 i -> luajit_suffix [i]
| ls_ll a b : ci 108 76 a -> ci 108 76 b -> luajit_suffix [a; b]
| ls_ull u a b : ci 117 85 u -> ci 108 76 a -> ci 108 76 b -> luajit_suffix [u; a; b].

(** Digits with at most one dot, and at least one real digit. *)
Inductive with_dot (P real : char -> bool) (dot_ok : bool) : text -> Prop :=
| wd_int a : digits P a -> existsb real a = true -> with_dot P real dot_ok a
| wd_dot a b : dot_ok = true -> digits P a -> digits P b -> existsb real (a ++ b) = true -> with_dot P real dot_ok (a ++ 46 :: b).

Inductive tail (c : cfg) (marks : list char) : text -> Prop :=
| tl_none : tail c marks []
| tl_exp t : exponent_part c marks t -> tail c marks t
| tl_suffix t : has_luajit c = true -> luajit_suffix t -> tail c marks t.

(** A decimal numeral starts with a digit, or with a dot and a digit. *)
Definition starts_decimal (m : text) : Prop := exists d r, digit d = true /\ (m = d :: r \/ m = 46 :: d :: r).

(** The numerals of a version. *)
Inductive numeral (c : cfg) : text -> Prop :=
| num_dec m e : with_dot (digit_of c) digit true m -> starts_decimal m -> tail c [101; 69] e -> numeral c (m ++ e)
| num_hex x m e : ci 120 88 x -> with_dot (hexdigit_of c) hexdigit (has_lua52 c) m ->
    tail c (if has_lua52 c then [112; 80] else []) e -> numeral c (48 :: x :: m ++ e)
| num_bin b m e : has_luau c = true \/ has_luajit c = true -> ci 98 66 b -> digits bindigit m ->
    existsb (fun x => (x =? 48) || (x =? 49)) m = true -> tail c [] e -> numeral c (48 :: b :: m ++ e).

(** Digits with at most one dot, possibly empty. *)
Inductive mant (P : char -> bool) (dot_ok : bool) : text -> Prop :=
| mn_int a : digits P a -> mant P dot_ok a
| mn_dot a b : dot_ok = true -> digits P a -> digits P b -> mant P dot_ok (a ++ 46 :: b).

(** What the lexer really accepts: the same shapes, but a numeral that starts with a dot may contain a
    second one, and hexadecimal and binary numerals may lack a digit. *)
Inductive loose_numeral (c : cfg) : text -> Prop :=
| ln_dec d m e : digit d = true -> mant (digit_of c) true m -> tail c [101; 69] e -> loose_numeral c (d :: m ++ e)
| ln_dot d m e : digit d = true -> mant (digit_of c) true (d :: m) -> tail c [101; 69] e -> loose_numeral c (46 :: d :: m ++ e)
| ln_hex x m e : ci 120 88 x -> mant (hexdigit_of c) (has_lua52 c) m ->
    tail c (if has_lua52 c then [112; 80] else []) e -> (m = [] -> has_luajit c = true /\ luajit_suffix e) ->
    loose_numeral c (48 :: x :: m ++ e)
| ln_bin b m e : has_luau c = true \/ has_luajit c = true -> ci 98 66 b -> digits bindigit m -> tail c [] e ->
    (m = [] -> has_luajit c = true /\ luajit_suffix e) -> loose_numeral c (48 :: b :: m ++ e).

(** What follows a numeral does not continue it. *)
Definition number_ends (v : text) : Prop := not_continued (fun x => word_part x || (x =? 46)) v.

(** After a radix prefix there is a digit, after underscores and dots at most. *)
Definition has_radix_digit (w : text) : Prop :=
  forall x r, w = 48 :: x :: r ->
    (ci 120 88 x -> exists a d b, r = a ++ d :: b /\ forallb (fun y => (y =? 95) || (y =? 46)) a = true /\ hexdigit d = true) /\
    (ci 98 66 x -> exists a d b, r = a ++ d :: b /\ forallb (fun y => y =? 95) a = true /\ (d = 48 \/ d = 49)).
Definition at_most_one_dot (w : text) : Prop := (count_occ N.eq_dec w 46%N <= 1)%nat.

(** ** Lua versions as sets of dialects *)
Inductive dialect := Luau | Lua52 | Lua53 | Lua54 | LuaJIT | CfxLua.
Definition dialect_eqb (a b : dialect) : bool :=
  match a, b with
  | Luau, Luau | Lua52, Lua52 | Lua53, Lua53 | Lua54, Lua54 | LuaJIT, LuaJIT | CfxLua, CfxLua => true
  | _, _ => false
  end.
Definition mem (d : dialect) (l : list dialect) : bool := existsb (dialect_eqb d) l.

(** The crate feature of a dialect, and the public test [has_x]. *)
Definition feature (f : features) (d : dialect) : bool :=
  match d with Luau => f_luau f | Lua52 => f_lua52 f | Lua53 => f_lua53 f | Lua54 => f_lua54 f | LuaJIT => f_luajit f | CfxLua => f_cfxlua f end.
Definition has (d : dialect) (f : features) (v : lua_version) : bool :=
  let c := mkCfg f v in
  match d with Luau => has_luau c | Lua52 => has_lua52 c | Lua53 => has_lua53 c | Lua54 => has_lua54 c | LuaJIT => has_luajit c | CfxLua => has_cfxlua c end.

(** The constructor [LuaVersion::x()] and the method [with_x]. *)
Definition version_of (d : dialect) : lua_version :=
  match d with Luau => lv_luau | Lua52 => lv_lua52 | Lua53 => lv_lua53 | Lua54 => lv_lua54 | LuaJIT => lv_luajit | CfxLua => lv_cfxlua end.
Definition with_dialect (d : dialect) (v : lua_version) : lua_version :=
  match d with Luau => lv_with_luau v | Lua52 => lv_with_lua52 v | Lua53 => lv_with_lua53 v | Lua54 => lv_with_lua54 v
             | LuaJIT => lv_with_luajit v | CfxLua => lv_with_cfxlua v end.

(** What [x] stands for: the dialects it includes. *)
Definition includes (d : dialect) : list dialect :=
  match d with Luau => [Luau] | Lua52 => [Lua52] | Lua53 => [Lua52; Lua53] | Lua54 => [Lua52; Lua53; Lua54]
             | LuaJIT => [LuaJIT] | CfxLua => [Lua52; Lua53; Lua54; CfxLua] end.

(** Used by examples: decidable equality of token types. *)
Definition token_type_eq_dec (a b : token_type) : {a = b} + {a <> b}.
Proof. repeat decide equality. Defined.
