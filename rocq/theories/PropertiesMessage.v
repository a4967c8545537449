(** C61: the texts of errors. Specification vocabulary: MessageSpec.v. *)
From Verif Require Import LexerSpec PunctuatedProofs.
From Verif Require Import TokenSpec ParserTheorems ErrorSpec MessageSpec Message Messages1 Messages2 PropertiesParser11.
From Verif Require Import MessageSpec Message.
Local Open Scope nat_scope.
Import ListNotations.

(** ** C61. Errors of any two parses with the same text ([to_string]) are the same for a reader: of the same kind, with the same message,
    about the same text, at the same lines and characters. *)
Theorem C61_text : forall c source r c' source' r' e e', parse_fallible c source = Done r -> parse_fallible c' source' = Done r' ->
  In e (ar_errors r) -> In e' (ar_errors r') -> show_error e = show_error e' -> same_error e e'.
Proof. exact texts_tell. Qed.
Print Assumptions C61_text.
(** The message of every error of the parser is not empty and on one line. *)
Theorem C61_messages : forall c source r, parse_fallible c source = Done r -> Forall sentence (ar_errors r).
Proof. exact messages_plain. Qed.
Print Assumptions C61_messages.
(** Numbers are printed in decimal, each differently. *)
Theorem C61_numbers : forall n m, show_number n = show_number m -> n = m.
Proof. exact show_number_inj. Qed.
Print Assumptions C61_numbers.
(** The message and the range of an error. *)
Theorem C61_message_range : forall e, range_of_error e = error_range e /\
  (forall k, e = TokenizerError k -> show_error e = str "error occurred while tokenizing: " ++ error_message e) /\ (forall t m o, e = AstError t m o -> exists w, show_error e = w ++ error_message e /\ error_message e = m).
Proof. exact message_and_range. Qed.
Print Assumptions C61_message_range.
(** Any two errors of the lexer in one source have different texts (by C57 a parse reports each of them once). *)
Theorem C61_lexical : forall c source rs a e b e' d, tokenize c source = Done rs -> all_errors rs = a ++ e :: b ++ e' :: d -> show_error (TokenizerError e) <> show_error (TokenizerError e').
Proof. exact lexical_texts. Qed.
Print Assumptions C61_lexical.

(** A source with errors of both kinds, and the text of the first one. *)
Example C61_example : exists r e es, parse_fallible cfg_lua51 ex_errors = Done r /\ ar_errors r = e :: es /\ (exists k, In (TokenizerError k) (ar_errors r)) /\
  show_error e = str "error occurred while creating ast: unexpected token `=`. (starting from line 1, character 9 and ending on line 1, character 10)" ++ [c_nl] ++ str "additional information: expected an expression".
Proof. do 3 eexists. split; [vm_compute; reflexivity|]. split; [reflexivity|]. split; [eexists; vm_compute; tauto|vm_compute; reflexivity]. Qed.
Example C61_lexer_example : exists r k, parse_fallible cfg_lua51 (str "x = 1 $") = Done r /\ In (TokenizerError k) (ar_errors r) /\
  show_error (TokenizerError k) = str "error occurred while tokenizing: unexpected character $ (1:7 to 1:8)".
Proof. do 2 eexists. split; [vm_compute; reflexivity|]. split; [vm_compute; tauto|vm_compute; reflexivity]. Qed.

Example C61_lexical_example : exists rs e e', tokenize cfg_lua51 (str "$ x = $ 1") = Done rs /\ all_errors rs = [e; e'] /\ te_error e = te_error e'.
Proof. do 3 eexists. split; [vm_compute; reflexivity|]. split; reflexivity. Qed.

(** ** Two errors of one source can have one text, although they are about two parentheses. *)
Theorem C61_twice_refuted : exists r e e', parse_fallible cfg_lua51 (str "x = ((y") = Done r /\ ar_errors r = [e; e'] /\ e = e'.
Proof. do 3 eexists. split; [vm_compute; reflexivity|]. split; reflexivity. Qed.
Print Assumptions C61_twice_refuted.
(** lib.rs:52: "Returns a human readable error message". For an error of the lexer it has the range in it, for one of the parser it has not. *)
Theorem C61_message_refuted : exists r t m o k, parse_fallible cfg_lua51 (str "x = $") = Done r /\ ar_errors r = [AstError t m o; TokenizerError k] /\
  error_message (AstError t m o) = str "expected values to set to" /\ error_message (TokenizerError k) = str "unexpected character $ (1:5 to 1:6)".
Proof. do 5 eexists. split; [vm_compute; reflexivity|]. split; [reflexivity|]. split; vm_compute; reflexivity. Qed.
Print Assumptions C61_message_refuted.
