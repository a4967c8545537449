(** Specification vocabulary for the lexer theorems. No proofs, and nothing here is used by the model.
    Only the model's data types and its public entry points ([lexer_new], [lexer_consume], Display) occur. *)
From Verif Require Export Lexer.
Local Open Scope N_scope.

(** ** Positions of a text: what a reader would compute with a text editor *)

(** The UTF-8 encoding of a character (RFC 3629, section 3) and the number of bytes of a text. *)
Definition utf8 (c : char) : list N :=
  if c <=? 127 then [c]
  else if c <=? 2047 then [192 + c / 64; 128 + c mod 64]
  else if c <=? 65535 then [224 + c / 4096; 128 + (c / 64) mod 64; 128 + c mod 64]
  else [240 + c / 262144; 128 + (c / 4096) mod 64; 128 + (c / 64) mod 64; 128 + c mod 64].
Definition bytes_of (u : text) : N := N.of_nat (List.length (flat_map utf8 u)).

(** Number of newline characters of a text. *)
Fixpoint newlines (u : text) : N :=
  match u with [] => 0 | c :: u => (if c =? c_nl then 1 else 0) + newlines u end.

(** The characters after the last newline (the whole text when there is none). *)
Fixpoint last_line (u : text) : text :=
  match u with
  | [] => []
  | c :: u => if existsb (N.eqb c_nl) u then last_line u else if c =? c_nl then u else c :: u
  end.

(** The position right after the prefix [u] of a file. *)
Definition pos_of (u : text) : position :=
  mkPos (bytes_of u) (1 + newlines u) (1 + N.of_nat (List.length (last_line u))).

(** The end position of a token printed as [t] that follows the prefix [u]: a final newline is counted
    in bytes only. *)
Definition end_of (u t : text) : position :=
  match rev t with
  | c :: r => if c =? c_nl
              then let q := pos_of (u ++ rev r) in mkPos (p_bytes q + 1) (p_line q) (p_char q)
              else pos_of (u ++ t)
  | [] => pos_of u
  end.

(** ** Running the lexer: call [consume] until it returns [None] *)

Fixpoint drain (fuel : nat) (c : cfg) (x : Lexer) : out (list (lexres tokref)) :=
  match fuel with
  | O => OutOfFuel
  | S fuel =>
      match lexer_consume c x with
      | Done (Some r, x') => match drain fuel c x' with Done rs => Done (r :: rs) | o => o end
      | Done (None, _) => Done []
      | Panic => Panic
      | OutOfFuel => OutOfFuel
      end
  end.

(** All results of [consume] on a new lexer; the number of calls is bounded by the number of
    characters plus two (one for Eof, one for the final [None]). *)
Definition tokenize (c : cfg) (source : text) : out (list (lexres tokref)) :=
  match lexer_new c source with
  | Done x => drain (S (S (List.length source))) c x
  | Panic => Panic
  | OutOfFuel => OutOfFuel
  end.

(** The tokens of a reference, in printed order. *)
Definition ref_tokens (r : tokref) : list token := r_leading r ++ r_token r :: r_trailing r.

Definition ref_of (r : lexres tokref) : option tokref :=
  match r with LOk t => Some t | LRecovered t _ => Some t | LFatal _ => None end.
Definition errors_of (r : lexres tokref) : list tok_error :=
  match r with LOk _ => [] | LRecovered _ es => es | LFatal es => es end.

(** The references / tokens / errors of a whole run. *)
Definition refs_of (rs : list (lexres tokref)) : list tokref :=
  flat_map (fun r => match ref_of r with Some t => [t] | None => [] end) rs.
Definition tokens_of (rs : list (lexres tokref)) : list token := flat_map ref_tokens (refs_of rs).
Definition all_errors (rs : list (lexres tokref)) : list tok_error := flat_map errors_of rs.

(** The printed text of a run. *)
Definition print_refs (rs : list (lexres tokref)) : text := flat_map show_ref (refs_of rs).
Definition print_tokens (ts : list token) : text := flat_map show_token ts.

(** No lexical error was reported. *)
Definition clean (rs : list (lexres tokref)) : Prop := Forall (fun r => exists t, r = LOk t) rs.

(** The source begins with a shebang line. *)
Definition shebang (source : text) : Prop := exists r, source = str "#!" ++ r.

(** The shebang line, if there is one, was kept (see C20 for when it is lost). *)
Definition shebang_kept (source : text) (rs : list (lexres tokref)) : Prop :=
  shebang source -> exists t ts w, tokens_of rs = t :: ts /\ t_type t = TShebang w.

(** ** Configurations used in examples *)
Definition all_features : features := mkFeatures true true true true true true.
Definition no_features : features := mkFeatures false false false false false false.
Definition cfg_lua51 : cfg := mkCfg no_features lv_lua51.
Definition cfg_luau : cfg := mkCfg all_features lv_luau.
Definition cfg_lua54 : cfg := mkCfg all_features lv_lua54.
Definition cfg_all : cfg := mkCfg all_features lv_new.

(** An example source: a UTF-8 string, a long string, comments, blank lines. *)
Definition nl_text : text := [c_nl].
Definition sample : text :=
  str "local x = 0x1F + .5e-3 -- note" ++ nl_text ++ str "--[==[ long" ++ nl_text ++ str " ]] ]==]" ++ nl_text ++
  str "return x ~= " ++ [c_dquote; 233; 8364; 128512; c_dquote] ++ str " and [[a" ++ nl_text ++ str "b]] ... y" ++ nl_text.

(** ** Using the lexer object through its public methods *)

(** Call [consume] [n] times and collect the answers. *)
Fixpoint consume_n (c : cfg) (n : nat) (x : Lexer) : out (list (option (lexres tokref)) * Lexer) :=
  match n with
  | O => Done ([], x)
  | S n =>
      match lexer_consume c x with
      | Done (o, y) => match consume_n c n y with Done (os, z) => Done (o :: os, z) | Panic => Panic | OutOfFuel => OutOfFuel end
      | Panic => Panic
      | OutOfFuel => OutOfFuel
      end
  end.

Inductive op := OpCurrent | OpPeek | OpConsume.

(** The answers of a sequence of calls. *)
Fixpoint run_ops (c : cfg) (ops : list op) (x : Lexer) : out (list (option (lexres tokref)) * Lexer) :=
  match ops with
  | [] => Done ([], x)
  | o :: ops =>
      match (match o with OpCurrent => Done (lexer_current x, x) | OpPeek => Done (lexer_peek x, x) | OpConsume => lexer_consume c x end) with
      | Done (a, y) => match run_ops c ops y with Done (os, z) => Done (a :: os, z) | Panic => Panic | OutOfFuel => OutOfFuel end
      | Panic => Panic
      | OutOfFuel => OutOfFuel
      end
  end.

(** The answers of a plain list used as a queue. *)
Fixpoint queue_ops (ops : list op) (q : list (lexres tokref)) : list (option (lexres tokref)) :=
  match ops with
  | [] => []
  | OpCurrent :: ops => hd_error q :: queue_ops ops q
  | OpPeek :: ops => hd_error (tl q) :: queue_ops ops q
  | OpConsume :: ops => hd_error q :: queue_ops ops (tl q)
  end.

(** Results of a lexer that starts in the middle of a text (state [l]), without the shebang rule. *)
Definition tokenize_from (c : cfg) (l : lexer) : out (list (lexres tokref)) :=
  match process_next_with_trivia c l with
  | Done (n, l1) =>
      match process_next_with_trivia c l1 with
      | Done (p, l2) => drain (S (S (List.length (s_rest (l_src l))))) c (mkLx l2 n p)
      | Panic => Panic
      | OutOfFuel => OutOfFuel
      end
  | Panic => Panic
  | OutOfFuel => OutOfFuel
  end.
