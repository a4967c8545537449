(** Completeness properties of the lexer and the symbol constructors: C12, C15, C39, C42. Statements only. *)
From Verif Require Import LexerSpec TokenSpec PropertiesLexer2 Relex Relex2 SymbolRef SymbolProofs.
Local Open Scope N_scope.

(** C39. A token read without an error is read back from its own text, alone, under the same version. *)
Theorem C39_relex : forall c source rs t, cfg_ok c ->
  tokenize c source = Done rs -> In t (tokens_of rs) ->
  (forall e, In e (all_errors rs) -> fst (te_range e) <> t_start t) ->
  ~ needs_open_brace (t_type t) -> t_type t <> TEof ->
  exists rs' t' e, tokenize c (show_token t) = Done rs' /\ clean rs' /\ tokens_of rs' = [t'; e] /\
    t_type t' = t_type t /\ t_type e = TEof.
Proof. exact relex. Qed.
Print Assumptions C39_relex.
Theorem C39_relex_eof : forall c, exists rs e, tokenize c [] = Done rs /\ clean rs /\ tokens_of rs = [e] /\ t_type e = TEof.
Proof. exact relex_eof. Qed.
Print Assumptions C39_relex_eof.

(** The hypotheses hold for every token of this text, although its last token has an error. *)
Example C39_example : cfg_ok cfg_all /\
  exists rs, tokenize cfg_all (str "a ..= [==[x]]]==] -- c" ++ nl_text ++ str "'q") = Done rs /\
    all_errors rs <> [] /\
    List.length (filter (fun t => forallb (fun e => negb (p_bytes (fst (te_range e)) =? p_bytes (t_start t))) (all_errors rs)) (tokens_of rs)) = 9%nat.
Proof.
  split; [split; [reflexivity|constructor]|]. eexists. split; [vm_compute; reflexivity|]. split; [discriminate|reflexivity].
Qed.

(** C15, the converse: every numeral of the version is read as one number token, whatever precedes it. *)
Theorem C15_numerals_accepted : forall c l w v, numeral c w -> number_ends v -> s_rest (l_src l) = w ++ v ->
  exists t l', process_next c l = Done (Some (LOk t), l') /\ t_type t = TNumber w /\ s_rest (l_src l') = v.
Proof. exact numerals_accepted. Qed.
Print Assumptions C15_numerals_accepted.

Example C15_accepted_example : numeral cfg_lua51 (str "3.5e-2") /\ number_ends (str " + 1").
Proof.
  split.
  - apply (num_dec cfg_lua51 (str "3.5") (str "e-2")).
    + apply (wd_dot _ _ _ [51] [53]); reflexivity.
    + exists 51, (str ".5"). split; [reflexivity|now left].
    + apply tl_exp. apply (ep _ _ 101 [45] 50 []); auto; reflexivity || (left; reflexivity).
  - intros x r E. injection E as <- _. reflexivity.
Qed.

(** C12. The symbol constructor accepts exactly the blank-padded symbols of the version, and keeps the text. *)
Theorem C12_symbol_sound : forall c t r, symbol_specific_lua_version c t = Done (SymOk r) ->
  exists sy, t_type (r_token r) = TSymbol sy /\
    t = flat_map show_token (r_leading r) ++ sym_text sy ++ flat_map show_token (r_trailing r) /\
    blank (flat_map show_token (r_leading r)) /\ blank (flat_map show_token (r_trailing r)) /\
    (cfg_ok c -> In (sym_text sy) (reserved_words c ++ operators c)).
Proof. exact symbol_sound. Qed.
Print Assumptions C12_symbol_sound.
Theorem C12_symbol_complete : forall c a w b, cfg_ok c -> In w (reserved_words c ++ operators c) -> blank a -> blank b ->
  exists r, symbol_specific_lua_version c (a ++ w ++ b) = Done (SymOk r).
Proof. exact symbol_complete. Qed.
Print Assumptions C12_symbol_complete.
Theorem C12_symbol_total : forall c t,
  (has_luau c = true \/ f_cfxlua (c_feat c) = true \/ ~ In 96 t) -> exists x, symbol_specific_lua_version c t = Done x.
Proof. exact symbol_total. Qed.
Print Assumptions C12_symbol_total.

Example C12_example : (exists r, symbol_specific_lua_version cfg_luau (nl_text ++ str "  ..=	 ") = Done (SymOk r) /\ r_trailing r <> []) /\
  (exists e, symbol_specific_lua_version cfg_lua51 (str " ..= ") = Done (SymErr e)) /\
  (exists e, symbol_specific_lua_version cfg_luau (str "isnt whitespace") = Done (SymErr e)).
Proof. split; [eexists; split; [vm_compute; reflexivity|discriminate]|]. split; eexists; vm_compute; reflexivity. Qed.

(** C42. The default tokens of the AST constructors and of error recovery can be built under every feature set.
    The list is every literal passed to [basic_symbol] in full-moon/src/ast. *)
Theorem C42_default_symbols : forall f w,
  In w (map str [" = "; " in "; " then"; " }"; "("; ")"; ", "; "..."; ":"; "="; ">"; "]"; "do"; "elseif "; "end"; "for ";
                 "function "; "function"; "if "; "local "; "return "; "while "; "{ "; "}"]%string
        ++ map (fun s => str s ++ nl_text) [" do"; " then"; "do"; "end"; "repeat"]%string
        ++ map (fun s => nl_text ++ str s) ["end"; "until "]%string) ->
  exists r, basic_symbol f w = Done r /\ show_ref r = w.
Proof. exact default_symbols. Qed.
Print Assumptions C42_default_symbols.
Example C42_example : exists r, basic_symbol no_features (nl_text ++ str "until ") = Done r /\ r_leading r <> [] /\ r_trailing r <> [].
Proof. eexists. split; [vm_compute; reflexivity|]. split; discriminate. Qed.
