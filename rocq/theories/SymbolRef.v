(** Model of [TokenReference::symbol] and friends, full-moon/src/tokenizer/structs.rs:596-737. *)
From Verif Require Export Lexer.
Local Open Scope N_scope.

(** [Result<TokenReference, TokenizerErrorType>] *)
Inductive sym_result := SymOk (r : tokref) | SymErr (e : tok_error_type).

(** [token.to_string().chars().next().unwrap()], structs.rs:677-679, 710-712 *)
Definition first_char_error (t : token) : out sym_result :=
  match show_token t with x :: _ => Done (SymErr (UnexpectedToken x)) | [] => Panic end.

(** [errors.remove(0).error], structs.rs:682-684, 715-717; [remove(0)] panics on an empty vector. *)
Definition first_error (es : list tok_error) : out sym_result :=
  match es with e :: _ => Done (SymErr (te_error e)) | [] => Panic end.

(** Second loop, structs.rs:691-723. [None] is [unreachable!]. The loop runs on fuel. *)
Fixpoint symbol_trailing (fuel : nat) (c : cfg) (l : lexer) (leading : list token) (symbol : token) (trailing : list token) : out sym_result :=
  match fuel with
  | O => OutOfFuel
  | S fuel =>
      match process_next c l with
      | Panic => Panic
      | OutOfFuel => OutOfFuel
      | Done (None, _) => Panic
      | Done (Some (LOk t), l') =>
          match t_type t with
          | TWhitespace _ => symbol_trailing fuel c l' leading symbol (trailing ++ [t])
          | TEof => Done (SymOk (mkRef leading symbol trailing))
          | _ => first_char_error t
          end
      | Done (Some (LFatal es), _) => first_error es
      | Done (Some (LRecovered _ es), _) => first_error es
      end
  end.

(** First loop, structs.rs:653-689. *)
Fixpoint symbol_leading (fuel : nat) (c : cfg) (text0 : text) (l : lexer) (leading : list token) : out sym_result :=
  match fuel with
  | O => OutOfFuel
  | S fuel =>
      match process_next c l with
      | Panic => Panic
      | OutOfFuel => OutOfFuel
      | Done (None, _) => Panic
      | Done (Some (LOk t), l') =>
          match t_type t with
          | TWhitespace _ => symbol_leading fuel c text0 l' (leading ++ [t])
          | TSymbol _ => symbol_trailing fuel c l' leading t []
          | TEof => Done (SymErr (InvalidSymbol text0))
          | _ => first_char_error t
          end
      | Done (Some (LFatal es), _) => first_error es
      | Done (Some (LRecovered _ es), _) => first_error es
      end
  end.

(** [TokenReference::symbol_specific_lua_version], structs.rs:643-737; the version is part of [c]. *)
Definition symbol_specific_lua_version (c : cfg) (t : text) : out sym_result :=
  symbol_leading (S (S (List.length t))) c t (new_lazy t) [].

(** [TokenReference::symbol], structs.rs:620-622: the version is [LuaVersion::new()]. *)
Definition token_reference_symbol (f : features) (t : text) : out sym_result :=
  symbol_specific_lua_version (mkCfg f lv_new) t.

(** [TokenReference::basic_symbol], structs.rs:624-626: [unwrap] panics on an error. *)
Definition basic_symbol (f : features) (t : text) : out tokref :=
  match symbol_specific_lua_version (mkCfg f lv_lua51) t with
  | Done (SymOk r) => Done r
  | Done (SymErr _) => Panic
  | Panic => Panic
  | OutOfFuel => OutOfFuel
  end.
