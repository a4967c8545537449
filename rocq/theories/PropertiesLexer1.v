(** Properties of whole lexer runs: C01-C06, C09, C16, C17, C20, C38. Statements only. *)
From Verif Require Import LexerSpec LexerFacts LexerProofs LexerTheorems LexerTheorems2 LexerTheorems3.
Local Open Scope N_scope.

(** The source [sample] (LexerSpec.v) is tokenized without error under Lua 5.1: the hypotheses of the
    theorems below are met by a text with long brackets, comments, numbers and non-ASCII characters. *)
Example sample_clean : exists rs, tokenize cfg_lua51 sample = Done rs /\ clean rs /\ List.length rs = 15%nat.
Proof.
  eexists. split; [vm_compute; reflexivity|]. split; [|reflexivity].
  unfold clean. repeat (constructor; [eexists; reflexivity|]). constructor.
Qed.

(** A source that starts with a shebang line which is kept. *)
Example shebang_clean : exists rs, tokenize cfg_lua51 (str "#!/bin/lua" ++ nl_text ++ str "return 1") = Done rs /\ clean rs /\
  shebang_kept (str "#!/bin/lua" ++ nl_text ++ str "return 1") rs.
Proof.
  eexists. split; [vm_compute; reflexivity|]. split.
  - unfold clean. repeat (constructor; [eexists; reflexivity|]). constructor.
  - intros _. do 3 eexists. split; reflexivity.
Qed.

(** C01. Printing the references of an error-free run gives back the source. [shebang_kept] only
    restricts sources that begin with [#!]; C20 shows that the line can indeed be lost. *)
Theorem C01_lexing_lossless : forall c source rs,
  tokenize c source = Done rs -> clean rs -> shebang_kept source rs -> print_refs rs = source.
Proof. exact lexing_lossless. Qed.
Print Assumptions C01_lexing_lossless.

Theorem C01_lexing_lossless_no_shebang : forall c source rs,
  tokenize c source = Done rs -> clean rs -> ~ shebang source -> print_refs rs = source.
Proof. exact lexing_lossless_no_shebang. Qed.
Print Assumptions C01_lexing_lossless_no_shebang.

(** C02. Byte ranges tile the source. *)
Theorem C02_byte_ranges_tile : forall c source rs,
  tokenize c source = Done rs -> clean rs -> shebang_kept source rs ->
  (forall t ts, tokens_of rs = t :: ts -> p_bytes (t_start t) = 0) /\
  (forall a t t' b, tokens_of rs = a ++ t :: t' :: b -> p_bytes (t_end t) = p_bytes (t_start t')) /\
  (forall t, In t (tokens_of rs) -> p_bytes (t_end t) = p_bytes (t_start t) + bytes_of (show_token t)) /\
  (exists ts t, tokens_of rs = ts ++ [t] /\ t_type t = TEof /\ p_bytes (t_end t) = bytes_of source).
Proof. exact byte_ranges_tile. Qed.
Print Assumptions C02_byte_ranges_tile.
(** The byte lengths are those of UTF-8: one to four bytes for [a], [é], [€] and an emoji, and the limits of each length. *)
Example C02_utf8 : map (fun c => utf8 c) [97; 233; 8364; 128512] = [[97]; [195; 169]; [226; 130; 172]; [240; 159; 152; 128]] /\
  map (fun c => bytes_of [c]) [0; 127; 128; 2047; 2048; 65535; 65536; 1114111] = [1; 1; 2; 2; 3; 3; 4; 4].
Proof. vm_compute. split; reflexivity. Qed.

(** C03. Line and column numbers are those of the printed prefix. *)
Theorem C03_positions_match : forall c source rs,
  tokenize c source = Done rs -> clean rs -> shebang_kept source rs ->
  forall a t b, tokens_of rs = a ++ t :: b ->
    exists rest, source = print_tokens a ++ show_token t ++ rest /\
      t_start t = pos_of (print_tokens a) /\ t_end t = end_of (print_tokens a) (show_token t).
Proof. exact positions_match. Qed.
Print Assumptions C03_positions_match.

(** C04. Exactly one Eof, last, at the end of the source. Holds also for runs with errors. *)
Theorem C04_one_eof_last : forall c source rs,
  tokenize c source = Done rs -> ~ shebang source ->
  exists rs0 r tr, rs = rs0 ++ [r] /\ ref_of r = Some tr /\
    r_token tr = mkToken (pos_of source) (pos_of source) TEof /\ r_trailing tr = [] /\
    Forall (fun t => t_type t <> TEof) (tokens_of rs0 ++ r_leading tr).
Proof. exact one_eof_last. Qed.
Print Assumptions C04_one_eof_last.

(** With a shebang line the same holds or the stream is completely empty (a finding, see C20). *)
Theorem C04_one_eof_last_shebang : forall c source rs,
  tokenize c source = Done rs -> shebang source -> rs <> [] ->
  exists rs0 r tr, rs = rs0 ++ [r] /\ ref_of r = Some tr /\
    r_token tr = mkToken (pos_of source) (pos_of source) TEof /\ r_trailing tr = [] /\
    Forall (fun t => t_type t <> TEof) (tokens_of rs0 ++ r_leading tr).
Proof. exact one_eof_last_shebang. Qed.
Print Assumptions C04_one_eof_last_shebang.

(** After the last result [consume] returns [None] and stays where it is. *)
Theorem C04_none_forever : forall c source x rs fuel,
  lexer_new c source = Done x -> drain fuel c x = Done rs ->
  forall n, exists y, consume_n c (List.length rs + n) x = Done (map Some rs ++ repeat None n, y).
Proof. exact none_forever. Qed.
Print Assumptions C04_none_forever.

(** C05. Lexing terminates: for every source and configuration the run ends (it never exhausts the
    bound on the number of calls) and has at most n+1 results. *)
Theorem C05_terminates : forall c source, tokenize c source <> OutOfFuel.
Proof. exact lexing_terminates. Qed.
Print Assumptions C05_terminates.

Theorem C05_at_most_n_plus_one : forall c source rs,
  tokenize c source = Done rs -> (List.length rs <= List.length source + 1)%nat.
Proof. exact at_most_n_plus_one. Qed.
Print Assumptions C05_at_most_n_plus_one.

(** Progress of each call of [process_next]. *)
Theorem C05_progress : forall c l r l',
  process_next c l = Done (Some r, l') ->
  (exists p, r = LOk (mkToken p p TEof) /\ s_rest (l_src l) = [] /\ l_sent_eof l = false /\ l_sent_eof l' = true) \/
  (exists u, u <> [] /\ s_rest (l_src l) = u ++ s_rest (l_src l')).
Proof. exact progress_step. Qed.
Print Assumptions C05_progress.

(** C06. Trivia attachment, for every reference of every run (also with errors). *)
Theorem C06_trivia_attachment : forall c source rs tr,
  tokenize c source = Done rs -> In tr (refs_of rs) ->
  is_trivia (t_type (r_token tr)) = false /\
  Forall (fun t => is_trivia (t_type t) = true) (r_leading tr ++ r_trailing tr) /\
  (forall a t b w, r_trailing tr = a ++ t :: b -> t_type t = TWhitespace w -> In c_nl w -> b = []).
Proof. exact trivia_attachment. Qed.
Print Assumptions C06_trivia_attachment.

(** Trailing trivia is maximal: a reference that has leading trivia comes after one whose trailing trivia
    ends with a newline, unless the leading trivia starts with a C comment. (The second reference has no
    error: an unclosed comment is never trailing trivia.) *)
Theorem C06_trailing_maximal : forall c source rs pre x1 r1 r2 t ld post,
  tokenize c source = Done rs -> rs = pre ++ x1 :: LOk r2 :: post -> ref_of x1 = Some r1 -> r_leading r2 = t :: ld ->
  (exists a nl w, r_trailing r1 = a ++ [nl] /\ t_type nl = TWhitespace w /\ In c_nl w) \/
  (exists w, t_type t = TCStyleComment w).
Proof. exact trailing_maximal. Qed.
Print Assumptions C06_trailing_maximal.

(** [a], the newline (trailing), two spaces (leading), [b]; and the C comment that is leading after a space. *)
Example C06_maximal_example :
  (exists x1 r2 post r1 t, tokenize cfg_lua51 (str "a --x" ++ [c_nl] ++ str "  b") = Done ([] ++ x1 :: LOk r2 :: post) /\
     ref_of x1 = Some r1 /\ r_leading r2 = [t] /\ List.length (r_trailing r1) = 3%nat) /\
  (exists x1 r2 post t w, tokenize (mkCfg all_features lv_cfxlua) (str "a /*x*/b") = Done (x1 :: LOk r2 :: post) /\
     r_leading r2 = [t] /\ t_type t = TCStyleComment w).
Proof. split; do 5 eexists; (split; [vm_compute; reflexivity|repeat split]). Qed.

(** A shebang token can only be the very first token of the stream. *)
Theorem C06_shebang_only_first : forall c source rs a t b w,
  tokenize c source = Done rs -> tokens_of rs = a ++ t :: b -> t_type t = TShebang w ->
  a = [] /\ shebang source.
Proof. exact shebang_only_first. Qed.
Print Assumptions C06_shebang_only_first.

(** C09. Lexing can panic ... *)
Theorem C09_lexing_never_panics_refuted : exists c source, tokenize c source = Panic.
Proof. exists cfg_lua51, (str "`"). vm_compute. reflexivity. Qed.
Print Assumptions C09_lexing_never_panics_refuted.

(** ... but only on a backtick when Luau is off and the crate is built without the cfxlua feature. *)
Theorem C09_lexing_never_panics_partial : forall c source,
  has_luau c = true \/ f_cfxlua (c_feat c) = true \/ ~ In c_backtick source ->
  exists rs, tokenize c source = Done rs.
Proof. exact never_panics. Qed.
Print Assumptions C09_lexing_never_panics_partial.

Theorem C09_process_next_panics_iff : forall c l,
  process_next c l = Panic <->
  (exists r, s_rest (l_src l) = c_backtick :: r) /\ has_luau c = false /\ f_cfxlua (c_feat c) = false.
Proof. exact process_next_panics_iff. Qed.
Print Assumptions C09_process_next_panics_iff.

(** C16. Every error covers a non-empty stretch of the source. *)
Theorem C16_error_ranges : forall c source rs e,
  tokenize c source = Done rs -> In e (all_errors rs) ->
  exists a b d, source = a ++ b ++ d /\ b <> [] /\ te_range e = (pos_of a, pos_of (a ++ b)).
Proof. exact error_ranges. Qed.
Print Assumptions C16_error_ranges.

Theorem C16_error_bytes : forall c source rs e,
  tokenize c source = Done rs -> In e (all_errors rs) ->
  p_bytes (fst (te_range e)) < p_bytes (snd (te_range e)) /\ p_bytes (snd (te_range e)) <= bytes_of source.
Proof. exact error_bytes. Qed.
Print Assumptions C16_error_bytes.

Example C16_errors_occur : exists rs, tokenize cfg_lua51 (str "x = 1e+ $ 'q") = Done rs /\ List.length (all_errors rs) = 3%nat.
Proof. eexists. split; [vm_compute; reflexivity|reflexivity]. Qed.

(** C17. The lexer is a queue over its stream: whatever the calls, the answers are those of the list. *)
Theorem C17_lookahead_queue : forall c source x rs,
  lexer_new c source = Done x -> tokenize c source = Done rs ->
  forall ops, exists y, run_ops c ops x = Done (queue_ops ops rs, y).
Proof. exact lookahead_queue. Qed.
Print Assumptions C17_lookahead_queue.

Example C17_nontrivial : queue_ops [OpPeek; OpConsume; OpCurrent; OpConsume; OpConsume; OpPeek] [LFatal []; LFatal []] =
  [Some (LFatal []); Some (LFatal []); Some (LFatal []); Some (LFatal []); None; None].
Proof. reflexivity. Qed.

(** C20. The shebang line is not always kept, and errors after it are dropped. *)
Theorem C20_shebang_error_reported_refuted :
  exists c source rs rs', shebang source /\ tokenize c source = Done rs /\ clean rs /\
    tokenize c (skipn 3 source) = Done rs' /\ ~ clean rs' /\ print_refs rs <> source.
Proof. exact shebang_error_dropped. Qed.
Print Assumptions C20_shebang_error_reported_refuted.

Theorem C20_shebang_stream_empty_refuted :
  exists c source, shebang source /\ tokenize c source = Done [].
Proof. exists cfg_lua51, (str "#!" ++ nl_text ++ str "--[["). split; [eexists; reflexivity|]. vm_compute. reflexivity. Qed.
Print Assumptions C20_shebang_stream_empty_refuted.

(** When the first reference after the shebang line is error-free (lexing the rest of the text from that
    state), the line is kept as leading trivia and everything else is reported as without it. *)
Theorem C20_shebang_kept_partial : forall c source line rest r rs,
  source = line ++ rest -> shebang source -> ~ In c_nl line -> (rest = [] \/ exists rest', rest = c_nl :: rest') ->
  tokenize_from c (mkLexer (mkSrc rest (pos_of line)) false []) = Done (LOk r :: rs) ->
  tokenize c source =
    Done (LOk (mkRef (mkToken pos0 (pos_of line) (TShebang line) :: r_leading r) (r_token r) (r_trailing r)) :: rs).
Proof. exact shebang_kept_when_clean. Qed.
Print Assumptions C20_shebang_kept_partial.

(** C38. [Lexer::collect]. *)
Theorem C38_collect_ok : forall c source x tokens,
  lexer_new c source = Done x -> lexer_collect c x = Done (LOk tokens) ->
  exists rs, tokenize c source = Done rs /\ clean rs /\ tokens = tokens_of rs.
Proof. exact collect_ok. Qed.
Print Assumptions C38_collect_ok.

Theorem C38_collect_ok_prints_source : forall c source x tokens,
  lexer_new c source = Done x -> lexer_collect c x = Done (LOk tokens) -> ~ shebang source ->
  print_tokens tokens = source.
Proof. exact collect_ok_prints_source. Qed.
Print Assumptions C38_collect_ok_prints_source.

Theorem C38_collect_all : forall c source x rs,
  lexer_new c source = Done x -> tokenize c source = Done rs ->
  lexer_collect c x = Done (match all_errors rs with [] => LOk (tokens_of rs) | es => LRecovered (tokens_of rs) es end).
Proof. exact collect_all. Qed.
Print Assumptions C38_collect_all.

(** The errors of a run (hence of [collect]) are in source order. *)
Theorem C38_errors_in_source_order : forall c source rs a e b e' d,
  tokenize c source = Done rs -> all_errors rs = a ++ e :: b ++ e' :: d ->
  p_bytes (snd (te_range e)) <= p_bytes (fst (te_range e')).
Proof. exact errors_in_source_order. Qed.
Print Assumptions C38_errors_in_source_order.
