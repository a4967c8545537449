(** Properties of quoted strings with escapes (C14, continued) and of interpolated strings (C47). Statements only. *)
From Verif Require Import LexerSpec TokenSpec PropertiesLexer2 StringSpec StringProofs StringProofs2.
Local Open Scope N_scope.

(** C14. Exactly which texts are accepted between quotes. *)
Theorem C14_accepted_only : forall c source rs t b qt q n,
  tokenize c source = Done rs -> In t (tokens_of rs) -> t_type t = TStringLiteral b n qt -> quote_char qt = Some q ->
  exists u, t_start t = pos_of u /\
    ((exists v, source = u ++ q :: b ++ q :: v /\ accepted_body c q false b) \/
     (exists e, In e (all_errors rs) /\ te_error e = UnclosedString /\ fst (te_range e) = pos_of u)).
Proof. exact quoted_exact. Qed.
Print Assumptions C14_accepted_only.

Theorem C14_accepted_step : forall c l q qt b v,
  s_rest (l_src l) = q :: b ++ q :: v -> quote_char qt = Some q -> qt <> QBacktick -> accepted_body c q false b ->
  exists t l', process_next c l = Done (Some (LOk t), l') /\ t_type t = TStringLiteral b O qt /\ s_rest (l_src l') = v.
Proof. exact quoted_step. Qed.
Print Assumptions C14_accepted_step.

(** The strings of the manuals are accepted, apart from the two gaps that [quoted_body c q false] leaves out. *)
Theorem C14_manual_partial : forall c q qt b,
  quote_char qt = Some q -> quoted_body c q false b -> accepted_body c q false b.
Proof. exact manual_accepted. Qed.
Print Assumptions C14_manual_partial.

(** [a], escape [n], escaped quote, [\z] with a line break and a space. *)
Definition sample_body : text := [97; 92; 110; 92; 34; 92; 122; 10; 32; 98].
Example C14_manual_example : quoted_body cfg_lua54 34 false sample_body /\ accepted_body cfg_lua54 34 false sample_body /\
  found cfg_lua54 (str "x = " ++ 34 :: sample_body ++ [34] ++ str " y") (TStringLiteral sample_body 0 QDouble) = true.
Proof.
  assert (Q : quoted_body cfg_lua54 34 false sample_body).
  { apply qb_char; [discriminate|discriminate|intros [|]; discriminate|].
    apply qb_escape; [intros [K _]; discriminate K|]. apply qb_escape; [intros [K _]; discriminate K|].
    apply (qb_z cfg_lua54 34 false [10; 32] [98]); [reflexivity|reflexivity|right; vm_compute; auto|].
    apply qb_char; [discriminate|discriminate|intros [|]; discriminate|constructor]. }
  split; [exact Q|]. split; [apply (C14_manual_partial _ _ QDouble); [reflexivity|exact Q]|vm_compute; reflexivity].
Qed.

(** Findings. In Lua 5.1 a backslash before a two-character line end is a valid escape, but is rejected; from 5.2
    on [\z] may be followed by any number of line breaks, but two line break characters are rejected. *)
Theorem C14_line_end_refuted : exists b rs e, quoted_body cfg_lua51 34 true b /\
  tokenize cfg_lua51 (34 :: b ++ [34]) = Done rs /\ In e (all_errors rs) /\ te_error e = UnclosedString.
Proof. exact line_end_rejected. Qed.
Print Assumptions C14_line_end_refuted.

Theorem C14_z_refuted : exists b rs e, quoted_body cfg_lua54 34 true b /\
  tokenize cfg_lua54 (34 :: b ++ [34]) = Done rs /\ In e (all_errors rs) /\ te_error e = UnclosedString.
Proof. exact z_rejected. Qed.
Print Assumptions C14_z_refuted.

(** C47. Interpolated strings. Each section is the text between its two delimiters, or it is reported. *)
Theorem C47_sections : forall c source rs t b k,
  tokenize c source = Done rs -> In t (tokens_of rs) -> t_type t = TInterpolatedString b k ->
  has_luau c = true /\ exists u, t_start t = pos_of u /\
    ((exists v, source = u ++ begins k :: b ++ finishes k :: v /\ loose_section b) \/
     (exists e v, In e (all_errors rs) /\ te_error e = UnclosedString /\ fst (te_range e) = pos_of u /\
        (k = ISimple \/ k = IEnd) /\ source = u ++ begins k :: b ++ v /\ (v = [] \/ exists x r, v = x :: r /\ line_break x))).
Proof. exact section_texts. Qed.
Print Assumptions C47_sections.

(** A section without escapes ends at the first brace or backtick. *)
Theorem C47_first_delimiter : forall b, loose_section b -> ~ In 92 b -> ~ In 96 b /\ ~ In 123 b.
Proof. exact plain_section. Qed.
Print Assumptions C47_first_delimiter.

(** Holes and braces nest: a brace that closes a hole starts a section, every other closing brace is a symbol. *)
Theorem C47_nesting : forall c source rs,
  tokenize c source = Done rs -> has_luau c = true -> nested [] (tokens_of rs).
Proof. exact sections_nested. Qed.
Print Assumptions C47_nesting.

(** The sections of the Luau grammar are read, apart from the gaps that [section_body false] leaves out. *)
Theorem C47_section_partial : forall c l b v k,
  has_luau c = true -> s_rest (l_src l) = begins k :: b ++ finishes k :: v -> section_body false b ->
  (k = IMiddle \/ k = IEnd -> exists bs, l_braces l = BInterpolated :: bs) ->
  exists t l', process_next c l = Done (Some (LOk t), l') /\ t_type t = TInterpolatedString b k /\ s_rest (l_src l') = v.
Proof. exact section_step. Qed.
Print Assumptions C47_section_partial.

(** A string with two holes, the first of which holds a table. *)
Definition sample_interpolated : text := str "x = `a{ {1, 2} }b\n{y}\u{41}c`".
Example sample_interpolated_clean : exists rs, tokenize cfg_luau sample_interpolated = Done rs /\ clean rs.
Proof. eexists. split; [vm_compute; reflexivity|]. unfold clean. repeat (constructor; [eexists; reflexivity|]). constructor. Qed.
Example C47_example : exists rs, tokenize cfg_luau sample_interpolated = Done rs /\ clean rs /\ nested [] (tokens_of rs) /\
  found cfg_luau sample_interpolated (TInterpolatedString (str "a") IBegin) = true /\
  found cfg_luau sample_interpolated (TInterpolatedString (str "b\n") IMiddle) = true /\
  found cfg_luau sample_interpolated (TInterpolatedString (str "\u{41}c") IEnd) = true /\
  section_body false (str "\u{41}c").
Proof.
  destruct sample_interpolated_clean as (rs & E & K). exists rs. split; [exact E|]. split; [exact K|].
  split; [apply (C47_nesting cfg_luau sample_interpolated); [exact E|reflexivity]|].
  split; [vm_compute; reflexivity|]. split; [vm_compute; reflexivity|]. split; [vm_compute; reflexivity|].
  clear. apply (se_unicode false [52; 49] [99]); [discriminate|reflexivity|]. apply se_char; [|constructor].
  repeat split; try discriminate. intros [|]; discriminate.
Qed.

(** Findings. [\z] right before the closing backtick hides it, so a valid string is rejected; and [\u{}] is scanned past
    its closing brace, so a hole is swallowed and becomes part of the text. *)
Theorem C47_z_refuted : exists b rs e, section_body true b /\
  tokenize cfg_luau (96 :: b ++ [96]) = Done rs /\ In e (all_errors rs) /\ te_error e = UnclosedString.
Proof. exact section_z_rejected. Qed.
Print Assumptions C47_z_refuted.

Theorem C47_unicode_refuted : exists rs t, tokenize cfg_luau (str "`\u{} {x}`") = Done rs /\ clean rs /\ In t (tokens_of rs) /\
  t_type t = TInterpolatedString (str "\u{} {x}") ISimple /\ ~ section_body true (str "\u{} {x}").
Proof. exact hole_swallowed. Qed.
Print Assumptions C47_unicode_refuted.
