(** Properties of the parser: panics, termination, errors, dialects, shape of trees. *)
From Coq Require Import Permutation.
From Verif Require Import PunctuatedProofs LexerSpec LexerTheorems3 TokenSpec TokenTheorems.
From Verif Require Import NodeProofs PrintProofs VisitTheorems VisitTyped UpdateProofs VisitEvents RangeProofs PropertiesTree1 PropertiesTree2.
From Verif Require Import ParserTheorems.
Local Open Scope nat_scope.

Definition cfg_all51 : cfg := mkCfg all_features lv_lua51.
(** Built with the features luau, lua52 and lua53 only, running as Luau. *)
Definition cfg_luau_53 : cfg := mkCfg (mkFeatures true true true false false false) lv_luau.
(** Built with the feature luau only, running as Luau. *)
Definition cfg_luau_only : cfg := mkCfg (mkFeatures true false false false false false) lv_luau.
Lemma configurations : cfg_ok cfg_luau_only /\ cfg_ok cfg_lua51 /\ cfg_ok cfg_luau /\ cfg_ok cfg_lua54 /\ cfg_ok cfg_all51 /\ cfg_ok cfg_luau_53.
Proof. repeat split; constructor. Qed.

(** A program with a bit of everything in Lua 5.1. *)
Definition ex_program : text :=
  str "local a, b = 1 + 2 * -x ^ 2, ..." ++ nl_text ++ str "for i = 1, 10 do f(i) { 'x', [1] = 2, y = 3 } end" ++ nl_text ++
  str "if a then return elseif b then c.d[e]:g'h' else repeat until true end" ++ nl_text ++
  str "local function k(l, ...) while true do break end end return k, function() end".
(** A program with many errors. *)
Definition ex_broken : text := str "local x = $ 1 + = ]] f( if ! a, 'b" ++ nl_text ++ str "end for while ) ) x. (y".

Definition errors_count {A} (o : out A) (f : A -> list error) : option nat := match o with Done r => Some (List.length (f r)) | _ => None end.

(** ** C21 *)
Theorem C21_never_panics_refuted : exists c source, cfg_ok c /\ has_luau c = false /\ parse_fallible c source = Panic /\ exists rs, tokenize c source = Done rs.
Proof.
  exists cfg_lua51, (str "#!" ++ nl_text ++ str "--[["). split; [apply configurations|]. split; [reflexivity|]. split; [vm_compute; reflexivity|]. eexists. vm_compute. reflexivity.
Qed.
Print Assumptions C21_never_panics_refuted.
(** In Luau one unknown character or unclosed string is enough. *)
Theorem C21_luau_fatal_refuted : Forall (fun source => parse_fallible cfg_luau source = Panic)
  [str "type A = B $"; str "@$"; str "type A = B.$"; str "type A = { a: $ }"].
Proof. repeat constructor; vm_compute; reflexivity. Qed.
Print Assumptions C21_luau_fatal_refuted.
Theorem C21_features_refuted : parse_fallible cfg_luau_53 (str "return a & b") = Panic /\ parse_fallible cfg_luau_53 (str "return a | b") = Panic.
Proof. split; vm_compute; reflexivity. Qed.
Print Assumptions C21_features_refuted.

(** These are the only causes. Missing for the full claim: streams that are not quiet, all of which can be seen above, and
    texts on which the lexer itself panics (C09). *)
Theorem C21_never_panics_quiet_partial : forall c source rs, cfg_ok c -> tokenize c source = Done rs -> quiet c rs ->
  exists r, parse_fallible c source = Done r.
Proof. exact ParserTheorems.never_panics. Qed.
Print Assumptions C21_never_panics_quiet_partial.
(** Without Luau: every text without shebang (and without backticks if the crate is built without cfxlua). *)
Theorem C21_never_panics_partial : forall c source, cfg_ok c -> has_luau c = false -> ~ shebang source ->
  f_cfxlua (c_feat c) = true \/ ~ In c_backtick source -> exists r, parse_fallible c source = Done r.
Proof. exact never_panics_plain. Qed.
Print Assumptions C21_never_panics_partial.
(** With Luau: every text with no fatal lexical error. *)
Theorem C21_never_panics_luau_partial : forall c source rs, cfg_ok c -> has_luau c = true -> has_lua53 c = true \/ f_lua53 (c_feat c) = false ->
  tokenize c source = Done rs -> rs <> [] -> (forall es, ~ In (LFatal es) rs) -> exists r, parse_fallible c source = Done r.
Proof. exact never_panics_luau. Qed.
Print Assumptions C21_never_panics_luau_partial.
Example C21_example : errors_count (parse_fallible cfg_lua51 ex_program) ar_errors = Some 0 /\
  errors_count (parse_fallible cfg_lua51 ex_broken) ar_errors = Some 17 /\ errors_count (parse_fallible cfg_all51 ex_broken) ar_errors = Some 17.
Proof. vm_compute. auto. Qed.
Example C21_example_luau : exists rs, tokenize cfg_luau_only (str "type A = if ) then 'b") = Done rs /\
  Forall (fun r => match r with LFatal _ => False | _ => True end) rs /\ rs <> [] /\ has_luau cfg_luau_only = true /\ f_lua53 (c_feat cfg_luau_only) = false /\
  all_errors rs <> [].
Proof. eexists. split; [vm_compute; reflexivity|]. split; [repeat constructor|]. repeat split; discriminate. Qed.

(** ** C22. All loops of the model run for at most one round more than there are tokens left ([loop]), and the parsers call
    each other to a depth of at most the number of tokens ([parsers_at]); more would be [OutOfFuel]. *)
Theorem C22_terminates : forall c source, cfg_ok c -> parse_fallible c source <> OutOfFuel /\ parse c source <> OutOfFuel.
Proof. exact parsing_terminates. Qed.
Print Assumptions C22_terminates.
Theorem C22_depth : forall c source rs n, cfg_ok c -> tokenize c source = Done rs -> List.length rs <= n -> rs <> [] ->
  p_block (parsers_at c n) (mkState rs []) <> OutOfFuel.
Proof. exact depth_bounded. Qed.
Print Assumptions C22_depth.
Example C22_example :
  errors_count (parse_fallible cfg_lua51 ex_broken) ar_errors = Some 17 /\
  (exists rs, tokenize cfg_lua51 (str "return ((1))") = Done rs /\ List.length rs = 7 /\ p_block (parsers_at cfg_lua51 2) (mkState rs []) = OutOfFuel).
Proof. split; [vm_compute; reflexivity|]. eexists. split; [vm_compute; reflexivity|]. split; [reflexivity|]. vm_compute. reflexivity. Qed.

(** ** C24 *)
(** An error in the reference after the shebang line is lost by the lexer (C20), so that parsing succeeds. *)
Theorem C24_reported_refuted : exists rest rs a, tokenize cfg_lua51 rest = Done rs /\ ~ clean rs /\ all_errors rs <> [] /\
  parse cfg_lua51 (str "#!" ++ nl_text ++ rest) = Done (inl a).
Proof.
  exists (str "$"). eexists. eexists. split; [vm_compute; reflexivity|]. split; [|split; [vm_compute; congruence|vm_compute; reflexivity]].
  intros H. inversion H as [|? ? [t E] _]. discriminate.
Qed.
Print Assumptions C24_reported_refuted.
(** All other errors are reported. *)
Theorem C24_reported_partial : forall c source rs r e, cfg_ok c -> tokenize c source = Done rs -> parse_fallible c source = Done r ->
  In e (all_errors rs) -> In (TokenizerError e) (ar_errors r).
Proof. exact lexical_errors_reported. Qed.
Print Assumptions C24_reported_partial.
Theorem C24_ok_partial : forall c source rs a, cfg_ok c -> tokenize c source = Done rs -> parse c source = Done (inl a) -> clean rs.
Proof. exact ok_is_clean. Qed.
Print Assumptions C24_ok_partial.
Example C24_example : exists rs r, tokenize cfg_lua51 ex_broken = Done rs /\ List.length (all_errors rs) = 3 /\ parse_fallible cfg_lua51 ex_broken = Done r.
Proof. eexists. eexists. split; [vm_compute; reflexivity|]. split; [reflexivity|]. vm_compute. reflexivity. Qed.

(** ** C25 *)
Theorem C25_into_result : forall r,
  (forall a, into_result r = inl a <-> ar_errors r = [] /\ a = ar_ast r) /\
  (forall es, into_result r = inr es <-> ar_errors r <> [] /\ es = ar_errors r).
Proof. exact into_result_exact. Qed.
Print Assumptions C25_into_result.
Theorem C25_parse : forall c source, parse c source = match parse_fallible c source with
  | Done r => Done (match ar_errors r with [] => inl (ar_ast r) | es => inr es end) | Panic => Panic | OutOfFuel => OutOfFuel end.
Proof. exact parse_is_conversion. Qed.
Print Assumptions C25_parse.
Example C25_example : errors_count (parse cfg_lua51 ex_broken) (fun r => match r with inl _ => [] | inr es => es end) = Some 17 /\
  exists a, parse cfg_lua51 ex_program = Done (inl a) /\ display_ast a = ex_program.
Proof. split; [vm_compute; reflexivity|]. eexists. split; vm_compute; reflexivity. Qed.

(** ** C37 *)
Theorem C37_dialects : forall c source r, cfg_ok c -> parse_fallible c source = Done r ->
  every (fun k _ => kind_allowed c k) (a_nodes (ar_ast r)) = true.
Proof. exact parsed_dialect. Qed.
Print Assumptions C37_dialects.
Theorem C37_operators : forall c source r, cfg_ok c -> parse_fallible c source = Done r -> every operator_node (a_nodes (ar_ast r)) = true.
Proof. exact parsed_operators. Qed.
Print Assumptions C37_operators.
Definition kinds_ok (c : cfg) (o : out ast_result) : option bool :=
  match o with Done r => Some (every (fun k _ => kind_allowed c k) (a_nodes (ar_ast r))) | _ => None end.
(** Luau trees are not Lua 5.1 trees. *)
Definition ex_luau : text := str "type A = { b: number? } x += if a then `{b}` else c // d continue".
Example C37_example : errors_count (parse_fallible cfg_luau ex_luau) ar_errors = Some 0 /\
  kinds_ok cfg_luau (parse_fallible cfg_luau ex_luau) = Some true /\ kinds_ok cfg_lua51 (parse_fallible cfg_luau ex_luau) = Some false /\
  kinds_ok cfg_lua51 (parse_fallible cfg_lua51 ex_program) = Some true /\
  errors_count (parse_fallible cfg_all51 (str "goto x")) ar_errors = Some 2 /\ errors_count (parse_fallible cfg_lua54 (str "goto x")) ar_errors = Some 0.
Proof. vm_compute. auto 10. Qed.

(** ** C43. Two constructs of cfxlua are switched on by the cargo feature alone. *)
Theorem C43_cfxlua_constructs_refuted : exists c s1 s2 a1 a2, cfg_ok c /\ has_cfxlua c = false /\
  parse c s1 = Done (inl a1) /\ every (fun k _ => match k with KFieldSetConstructor => false | _ => true end) (a_nodes a1) = false /\
  parse c s2 = Done (inl a2) /\ map show_token (map r_token (printed (a_nodes a2))) = [str "local"; str "x"; str "in"; str "y"].
Proof.
  exists cfg_all51, (str "a = { .b }"), (str "local x in y"). eexists. eexists. split; [apply configurations|]. repeat match goal with |- _ /\ _ => split end; vm_compute; reflexivity.
Qed.
Print Assumptions C43_cfxlua_constructs_refuted.
Theorem C43_set_constructor_partial : forall c source r, cfg_ok c -> f_cfxlua (c_feat c) = false -> parse_fallible c source = Done r ->
  every (fun k _ => match k with KFieldSetConstructor => false | _ => true end) (a_nodes (ar_ast r)) = true.
Proof. exact no_set_constructor. Qed.
Print Assumptions C43_set_constructor_partial.
Example C43_example : cfg_ok cfg_luau_only /\ f_cfxlua (c_feat cfg_luau_only) = false /\ 0 < match errors_count (parse_fallible cfg_luau_only (str "a = { .b }")) ar_errors with Some n => n | None => 0 end.
Proof. split; [apply configurations|]. vm_compute. auto. Qed.

(** ** C40 *)
Theorem C40_consumed : forall c source r, cfg_ok c -> parse_fallible c source = Done r ->
  exists rs s' last, tokenize c source = Done rs /\ parse_stream c (mkState rs []) = Done (ar_ast r, s') /\ st_toks s' = [] /\
    ar_errors r = st_errors s' /\ hd_error (rev rs) = Some last /\ ref_of last = Some (a_eof (ar_ast r)) /\
    r_token (a_eof (ar_ast r)) = mkToken (pos_of source) (pos_of source) TEof.
Proof. exact stream_consumed. Qed.
Print Assumptions C40_consumed.
Example C40_example : exists r, parse_fallible cfg_lua51 ex_broken = Done r /\ List.length (ar_errors r) = 17 /\ p_line (t_start (r_token (a_eof (ar_ast r)))) = 2%N.
Proof. eexists. split; [vm_compute; reflexivity|]. vm_compute. auto. Qed.
(** Tokens can be dropped with no error. *)
Theorem C40_skipped_refuted : exists c source rs a, cfg_ok c /\ tokenize c source = Done rs /\ clean rs /\ parse c source = Done (inl a) /\
  List.length rs = 3 /\ List.length (printed (a_nodes a) ++ [a_eof a]) = 2.
Proof.
  exists cfg_lua51, (str "return return"). eexists. eexists. split; [apply configurations|]. split; [vm_compute; reflexivity|].
  split; [repeat constructor; eexists; reflexivity|]. split; [vm_compute; reflexivity|]. vm_compute. auto.
Qed.
Print Assumptions C40_skipped_refuted.

(** ** C23 *)
Theorem C23_lossless_refuted : exists c source a, cfg_ok c /\ has_luau c = false /\ ~ shebang source /\ parse c source = Done (inl a) /\
  display_ast a = str "return " /\ source = str "return return".
Proof.
  exists cfg_lua51, (str "return return"). eexists. split; [apply configurations|]. split; [reflexivity|]. split; [intros [x E]; discriminate|].
  split; [vm_compute; reflexivity|]. split; reflexivity.
Qed.
Print Assumptions C23_lossless_refuted.
Definition loses (c : cfg) (source : text) : Prop := exists a, parse c source = Done (inl a) /\ List.length (display_ast a) < List.length source.
Theorem C23_luau_lossless_refuted : Forall (loses cfg_luau)
  [str "return x ::"; str "return if"; str "f(x ::)"; str "f(if)"; str "type A ="; str "type T = { read }"; str "break break"].
Proof. repeat constructor; eexists; (split; [vm_compute; reflexivity|]); apply PeanoNat.Nat.ltb_lt; vm_compute; reflexivity. Qed.
Print Assumptions C23_luau_lossless_refuted.
Theorem C23_shebang_lossless_refuted : loses cfg_lua51 (str "#!" ++ nl_text ++ str "$").
Proof. eexists. split; [vm_compute; reflexivity|]. apply PeanoNat.Nat.ltb_lt; vm_compute; reflexivity. Qed.
Print Assumptions C23_shebang_lossless_refuted.

(** An accepted Luau source can also print words that it does not contain. *)
Theorem C23_luau_invented_refuted : exists a b, parse cfg_luau (str "repeat until if") = Done (inl a) /\ display_ast a = str "do" ++ nl_text ++ nl_text ++ str "end" /\
  parse cfg_luau (str "local x = {if") = Done (inl b) /\ display_ast b = str "local x = {}".
Proof. eexists. eexists. split; [vm_compute; reflexivity|]. split; [vm_compute; reflexivity|]. split; [vm_compute; reflexivity|]. vm_compute; reflexivity. Qed.
Print Assumptions C23_luau_invented_refuted.

(** ** C44. Shape of parsed trees, also of those returned with errors. *)
Theorem C44_well_typed : forall c source r, cfg_ok c -> parse_fallible c source = Done r -> wt (a_nodes (ar_ast r)) (YNode NBlock) = true.
Proof. exact parsed_well_typed. Qed.
Print Assumptions C44_well_typed.
Theorem C44_fitting : forall c source r, cfg_ok c -> parse_fallible c source = Done r -> fitting (a_nodes (ar_ast r)) = true.
Proof. exact parsed_fitting. Qed.
Print Assumptions C44_fitting.
Theorem C44_filled : forall c source r, cfg_ok c -> parse_fallible c source = Done r -> every filled_node (a_nodes (ar_ast r)) = true.
Proof. exact parsed_filled. Qed.
Print Assumptions C44_filled.
Example C44_example : exists r, parse_fallible cfg_lua51 ex_broken = Done r /\ 4 < List.length (printed (a_nodes (ar_ast r))) /\ fitting (a_nodes (ar_ast r)) = true.
Proof. eexists. split; [vm_compute; reflexivity|]. split; [apply PeanoNat.Nat.ltb_lt; vm_compute; reflexivity|reflexivity]. Qed.

(** ** The theorems about trees apply to all parsed trees. *)
(** C26. *)
Theorem C26_parsed_display : forall c source r, cfg_ok c -> parse_fallible c source = Done r ->
  display_ast (update_positions (ar_ast r)) = display_ast (ar_ast r).
Proof. intros c source r K P. apply update_display. exists (YNode NBlock). now apply (parsed_well_typed c source). Qed.
Print Assumptions C26_parsed_display.
(** C30. The parser too builds bodies on which a visitor that changes nothing changes the tree. *)
Theorem C30_parsed_identity_refuted : exists c source a, cfg_ok c /\ parse c source = Done (inl a) /\ snd (visit_mut_ast default_visitor tt a) <> a.
Proof. exists cfg_all51, (str "local function f(...) end"). eexists. split; [apply configurations|]. split; [vm_compute; reflexivity|]. vm_compute. congruence. Qed.
Print Assumptions C30_parsed_identity_refuted.
(** C32. *)
Theorem C32_parsed_tokens_partial : forall c source r, cfg_ok c -> parse_fallible c source = Done r ->
  Permutation (leaves (a_nodes (ar_ast r))) (printed (a_nodes (ar_ast r))).
Proof. intros c source r K P. apply (leaves_printed _ (YNode NBlock)); [now apply (parsed_well_typed c source)|now apply (parsed_fitting c source)]. Qed.
Print Assumptions C32_parsed_tokens_partial.
Theorem C32_parsed_tokens_refuted : exists c source a, cfg_ok c /\ parse c source = Done (inl a) /\ display_ast a = source /\
  map (fun r => show_token (r_token r)) (leaves (a_nodes a)) = [str "return"; str "("; str ")"; str "x"].
Proof. exists cfg_lua51, (str "return (x)"). eexists. split; [apply configurations|]. repeat match goal with |- _ /\ _ => split end; vm_compute; reflexivity. Qed.
Print Assumptions C32_parsed_tokens_refuted.
(** C31. *)
Theorem C31_parsed_visit_refuted : exists c source a, cfg_ok c /\ parse c source = Done (inl a) /\ display_ast a = source /\
  map show_token (seen_by_kind (visit_ast a)) = [str "local"; str " "; str "a"; str "b"].
Proof. exists cfg_lua51, (str "local a,b"). eexists. split; [apply configurations|]. repeat match goal with |- _ /\ _ => split end; vm_compute; reflexivity. Qed.
Print Assumptions C31_parsed_visit_refuted.
(** Each of the four kinds of node that [C31_visit_partial] leaves out is visited wrongly, in a source where no other node is. *)
Definition ex_same_kind (k k' : kind) : bool :=
  match k, k' with
  | KTypeInstantiation, KTypeInstantiation | KGenericFor, KGenericFor | KFunctionBody, KFunctionBody | KLocalAssignment, KLocalAssignment => true
  | _, _ => false
  end.
Theorem C31_parsed_visit_each_refuted : forall k cs, fully_visited k cs = false -> exists source a, parse cfg_luau source = Done (inl a) /\ display_ast a = source /\
  every (fun k' cs' => fully_visited k' cs' || ex_same_kind k k') (a_nodes a) = true /\
  seen_by_kind (visit_ast a) <> filter has_callback (flat_map ref_tokens (printed (a_nodes a) ++ [a_eof a])).
Proof.
  intros k cs F.
  destruct k; try discriminate F;
    [ exists (str "for a,b in c do end") | exists (str "function f(a,b) end") | exists (str "local a,b") | exists (str "f<<a>>()") ];
    eexists; (split; [vm_compute; reflexivity|]); (split; [vm_compute; reflexivity|]); (split; [vm_compute; reflexivity|]); vm_compute; congruence.
Qed.
Print Assumptions C31_parsed_visit_each_refuted.
(** C33. [end_position] of the index in [a[1]] is the end of the number. *)
Theorem C33_parsed_end_refuted : exists c source a, cfg_ok c /\ parse c source = Done (inl a) /\ display_ast a = source /\
  source = str "return a[1]" /\ end_position (a_nodes a) = Some (pos_of (str "return a[1")).
Proof. exists cfg_lua51, (str "return a[1]"). eexists. split; [apply configurations|]. repeat match goal with |- _ /\ _ => split end; vm_compute; reflexivity. Qed.
Print Assumptions C33_parsed_end_refuted.
