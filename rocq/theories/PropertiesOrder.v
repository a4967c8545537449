(** C59: the order of positions and tokens. *)
From Verif Require Import PunctuatedProofs LexerSpec Compare SymbolRef ParserState.
From Verif Require Import NodeProofs PrintProofs VisitTheorems VisitTyped UpdateProofs Compare1.
From Verif Require PropertiesTree2.
Local Open Scope N_scope.
Import ListNotations.

(** ** C59. [cmp] is a total preorder. *)
Theorem C59_total : forall t u v, compare_token t t = Eq /\ compare_token u t = CompOpp (compare_token t u) /\
  (compare_token t u <> Gt -> compare_token u v <> Gt -> compare_token t v <> Gt).
Proof.
  intros t u v. split; [apply token_same|]. split; [apply token_opp|]. unfold compare_token, compare_position. rewrite !N.compare_le_iff. apply N.le_trans.
Qed.
Print Assumptions C59_total.
(** For the places of a file the order by bytes is the order by lines and characters, and equal places are the same. *)
Definition above (p q : position) : Prop := p_line p < p_line q \/ p_line p = p_line q /\ p_char p < p_char q.
Theorem C59_positions : forall source a d a' d', source = a ++ d -> source = a' ++ d' ->
  match compare_position (pos_of a) (pos_of a') with Lt => above (pos_of a) (pos_of a') | Eq => a = a' | Gt => above (pos_of a') (pos_of a) end.
Proof. intros source a d a' d' -> E. exact (positions_compared a d a' d' E). Qed.
Print Assumptions C59_positions.
(** Of two tokens of a source, trivia included, the one that comes first is less, also when the source has errors. *)
Theorem C59_tokens : forall c source rs x t y u z, tokenize c source = Done rs -> tokens_of rs = x ++ t :: y ++ u :: z -> compare_token t u = Lt.
Proof. exact tokens_compared. Qed.
Print Assumptions C59_tokens.
Theorem C59_references : forall c source rs x t y u z, tokenize c source = Done rs -> refs_of rs = x ++ t :: y ++ u :: z -> compare_ref t u = Lt.
Proof. exact refs_compared. Qed.
Print Assumptions C59_references.
(** Hence for the tokens of one source the order agrees with the equality. *)
Theorem C59_equal : forall c source rs, tokenize c source = Done rs ->
  (forall t u, In t (tokens_of rs) -> In u (tokens_of rs) -> (compare_token t u = Eq <-> t = u)) /\
  (forall t u, In t (refs_of rs) -> In u (refs_of rs) -> (compare_ref t u = Eq <-> t = u)).
Proof. intros c source rs T. split; intros t u; [exact (tokens_equal c source rs t u T)|exact (refs_equal c source rs t u T)]. Qed.
Print Assumptions C59_equal.
(** After [update_positions] the tokens of any tree are in the order of [cmp]: a token is less than a later one unless nothing is printed in between. *)
Theorem C59_updated : forall a x t y u z, well_typed (a_nodes a) -> ast_tokens (update_positions a) = x ++ t :: y ++ u :: z ->
  compare_token t u = if existsb (fun t => match show_token t with [] => false | _ => true end) (t :: y) then Lt else Eq.
Proof. exact updated_compared. Qed.
Print Assumptions C59_updated.

Definition ex_ordered : text := str "#!lua" ++ nl_text ++ str "x = 'a" ++ nl_text ++ str "y() --[[ é ]] $ z".
Example C59_example : exists rs, tokenize cfg_lua51 ex_ordered = Done rs /\ List.length (tokens_of rs) = 16%nat /\ all_errors rs <> [].
Proof. eexists. split; [vm_compute; reflexivity|]. split; [vm_compute; reflexivity|vm_compute; discriminate]. Qed.

(** A tree whose tokens have lost their positions. *)
Example C59_updated_example : well_typed (a_nodes PropertiesTree2.ex_lost) /\ (1 < List.length (ast_tokens (update_positions PropertiesTree2.ex_lost)))%nat /\
  forallb (fun r => match compare_ref r (hd r (printed (a_nodes PropertiesTree2.ex_lost))) with Eq => true | _ => false end) (printed (a_nodes PropertiesTree2.ex_lost)) = true.
Proof. split; [exists (YNode NBlock); vm_compute; reflexivity|]. split; [apply Nat.ltb_lt; vm_compute; reflexivity|vm_compute; reflexivity]. Qed.

(** FINDING: for other tokens [cmp] and [==] disagree, which [Ord] does not allow: all tokens that are put together by hand and differ are equal for [cmp],
    so that a [BTreeSet] of them holds one. *)
Theorem C59_built_refuted : exists r s, basic_symbol (c_feat cfg_lua51) (str "and") = Done r /\ basic_symbol (c_feat cfg_lua51) (str "or") = Done s /\
  compare_ref r s = Eq /\ r <> s.
Proof. do 2 eexists. split; [vm_compute; reflexivity|]. split; [vm_compute; reflexivity|]. split; [reflexivity|discriminate]. Qed.
Print Assumptions C59_built_refuted.
(** FINDING: so do positions, also those of one source: a line break ends at another position than the next token begins. *)
Theorem C59_positions_refuted : exists rs t u, tokenize cfg_lua51 (str "x = 1" ++ nl_text ++ str "y()") = Done rs /\ In t (tokens_of rs) /\ In u (tokens_of rs) /\
  compare_position (t_end t) (t_start u) = Eq /\ t_end t <> t_start u.
Proof.
  eexists. exists (mkToken (mkPos 5 1 6) (mkPos 6 1 6) (TWhitespace nl_text)), (mkToken (mkPos 6 2 1) (mkPos 7 2 2) (TIdentifier (str "y"))).
  split; [vm_compute; reflexivity|]. split; [vm_compute; tauto|]. split; [vm_compute; tauto|]. split; [reflexivity|discriminate].
Qed.
Print Assumptions C59_positions_refuted.
