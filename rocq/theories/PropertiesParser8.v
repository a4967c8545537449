(** C51: the parser looks only at the sorts of tokens. Specification vocabulary: LayoutSpec.v. *)
From Verif Require Import LexerSpec PunctuatedProofs.
From Verif Require Import TokenSpec ParserTheorems ParserAccept LayoutSpec Layout4 PropertiesParser1 PropertiesParser5.
Local Open Scope nat_scope.
Import ListNotations.

(** ** C51. Sources with results of the same sorts have the same tree and the same errors, with the token of the same place of the
    other source in the place of every token; accepted or not. *)
Theorem C51_layout : forall c s s' rs rs', tokenize c s = Done rs -> tokenize c s' = Done rs' -> Forall2 (same_result (same_ref c)) rs rs' ->
  match parse_fallible c s, parse_fallible c s' with
  | Done r, Done r' => alike (counterpart c rs rs') (a_nodes (ar_ast r)) (a_nodes (ar_ast r')) /\
                       counterpart c rs rs' (a_eof (ar_ast r)) (a_eof (ar_ast r')) /\
                       Forall2 (same_error (counterpart c rs rs')) (ar_errors r) (ar_errors r')
  | Panic, Panic | OutOfFuel, OutOfFuel => True
  | _, _ => False
  end.
Proof. exact fallible_twins. Qed.
Print Assumptions C51_layout.
Theorem C51_accepted : forall c s s' rs rs', tokenize c s = Done rs -> tokenize c s' = Done rs' -> Forall2 (same_result (same_ref c)) rs rs' ->
  ((exists a, parse c s = Done (inl a)) <-> (exists a, parse c s' = Done (inl a))).
Proof. exact accepted_iff. Qed.
Print Assumptions C51_accepted.

(** The results of two sources, compared one by one. *)
Ltac same_results := repeat constructor; cbn; intros; first [reflexivity|discriminate|congruence|exact I].
(** The same in Luau. *)
Ltac same_results' := repeat match goal with |- Forall2 _ _ _ => constructor end; apply sl_ok; split; cbn; intros;
  first [reflexivity|discriminate|exact I|split; cbn; intuition discriminate].
Definition spread := str "local   x --[[ one ]] = 1 -- two
 f (  'a' ) ; return x + 0x10 .. x".
Definition dense := str "local counter=22 print(""b"");return counter+7 ..counter".
Example C51_example : exists rs rs', tokenize cfg_lua51 spread = Done rs /\ tokenize cfg_lua51 dense = Done rs' /\ Forall2 (same_result (same_ref cfg_lua51)) rs rs' /\
  exists a, parse cfg_lua51 spread = Done (inl a).
Proof.
  do 2 eexists. split; [vm_compute; reflexivity|]. split; [vm_compute; reflexivity|]. split; [same_results|]. eexists. vm_compute. reflexivity.
Qed.
(** Two rejected sources with errors at the same tokens. *)
Example C51_rejected : exists rs rs', tokenize cfg_luau (str "local x = = 1 ) f") = Done rs /\ tokenize cfg_luau (str "local longer= =23--[[ y ]])g") = Done rs' /\
  Forall2 (same_result (same_ref cfg_luau)) rs rs' /\ exists es, parse cfg_luau (str "local x = = 1 ) f") = Done (inr es).
Proof. do 2 eexists. split; [vm_compute; reflexivity|]. split; [vm_compute; reflexivity|]. split; [same_results'|]. eexists. vm_compute. reflexivity. Qed.
(** In Luau some names have a meaning, so the names have to be excepted: with another name instead of [type] the source is rejected. *)
Theorem C51_words_refuted : exists s s' rs rs' a es, tokenize cfg_luau s = Done rs /\ tokenize cfg_luau s' = Done rs' /\
  Forall2 (fun r r' => match r, r' with LOk r, LOk r' => same_sort cfg_lua51 (t_type (r_token r)) (t_type (r_token r')) | _, _ => False end) rs rs' /\
  parse cfg_luau s = Done (inl a) /\ parse cfg_luau s' = Done (inr es).
Proof.
  exists (str "type x = number"), (str "kind x = number"). do 4 eexists. split; [vm_compute; reflexivity|]. split; [vm_compute; reflexivity|].
  split; [same_results|]. split; vm_compute; reflexivity.
Qed.
Print Assumptions C51_words_refuted.
(** A space after the brace of an interpolated string decides whether a second brace is an error. *)
Theorem C51_trailing_refuted : exists s s' rs rs' a es, tokenize cfg_luau s = Done rs /\ tokenize cfg_luau s' = Done rs' /\
  Forall2 (fun r r' => match r, r' with LOk r, LOk r' => t_type (r_token r) = t_type (r_token r') | _, _ => False end) rs rs' /\
  parse cfg_luau s = Done (inl a) /\ parse cfg_luau s' = Done (inr es).
Proof.
  exists (str "x = `a{ {} }`"), (str "x = `a{{} }`"). do 4 eexists. split; [vm_compute; reflexivity|]. split; [vm_compute; reflexivity|].
  split; [same_results|]. split; vm_compute; reflexivity.
Qed.
Print Assumptions C51_trailing_refuted.
