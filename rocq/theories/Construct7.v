(** Constructors of Lua 5.2, Lua 5.4 and Luau, and method calls (C60). Proof file. *)
From Verif Require Export Construct6 ConstructSpec2.
From Verif Require Import Lexer LexerSpec TokenSpec TokenProofs TokenTheorems Scan5 Scan6 PunctuatedProofs Reprint2.
From Verif Require Import TreeFacts PrintProofs Round13.
From Verif Require Import RoundSpec ScanSpec Construct Construct2 Construct3 Construct4 ConstructSpec2.
From Coq Require Import Lia.
Local Open Scope nat_scope.
Import ListNotations.

(** ** Names *)
Lemma word_alone c w : is_word w -> ~ In w (reserved_words c) -> alone c (TIdentifier w).
Proof. intros W R. split; [apply to_name; [exact W|exact R|apply nil_continued]|split; intros; discriminate]. Qed.
Lemma name_reads c w : is_word w -> ~ In w (reserved_words c) -> reads_as c wordless w [TIdentifier w].
Proof.
  intros W R st ts _ N T. apply (token_alone c (TIdentifier w) (written ts)); auto.
  - now apply to_name.
  - now apply word_alone.
  - now intros [E|E].
Qed.
Lemma bare_nm c n : bare_name c n -> nm n.
Proof. intros (w & _ & E & _). unfold word in E. unfold terminal_of. now rewrite E. Qed.
Lemma spaced_nm c n : spaced_name c n -> nm n.
Proof. intros (w & _ & E & _). unfold word in E. unfold terminal_of. now rewrite E. Qed.
Lemma unspaced_show r : unspaced r -> show_ref r = spelling (t_type (r_token r)).
Proof. intros [L T]. unfold show_ref. rewrite L, T. cbn [flat_map app]. rewrite app_nil_r. symmetry. apply spelling_show. Qed.
Lemma bare_text c n : bare_name c n -> exists x r, show_ref n = x :: r /\ letter x = true.
Proof. intros (w & U & E & (x & r & -> & L & _) & _). exists x, r. split; [|exact L]. rewrite unspaced_show by exact U. rewrite E. reflexivity. Qed.
Lemma bare_ok c n : bare_name c n -> ok c wordless [n].
Proof.
  intros (w & U & E & W & R). unfold word in E. split; [intros r' [<-|[]] (v & k & Q); congruence|]. cbn [flat_map]. rewrite app_nil_r, unspaced_show by exact U. unfold main_types. cbn [map]. rewrite E. now apply name_reads.
Qed.
Lemma spaced_name_ok c n : spaced_name c n -> ok c anything [n].
Proof. intros (w & U & E & W & R). apply spaced_ok; [exact U|]. rewrite E. now apply word_lone. Qed.
Lemma soft_wordless v : soft v -> wordless v.
Proof. intros [->|(x & r & -> & S)] y q E; [discriminate|]. injection E as <- <-. apply (soft_numbers x cfg_lua51 S). Qed.
Lemma bare_soft c n : bare_name c n -> ok c soft [n].
Proof. intros H. eapply ok_less; [|apply bare_ok, H]. exact soft_wordless. Qed.
(** A name before a token that begins with no part of a word. *)
Lemma name_then c F n r l : bare_name c n -> ok c F (r :: l) -> (forall v, wordless (show_ref r ++ v)) -> ok c F (n :: r :: l).
Proof. intros N O H. apply (ok_app c wordless F [n] (r :: l)); [now apply bare_ok|exact O|]. intros v _. cbn [flat_map]. rewrite <- app_assoc. apply H. Qed.

(** ** Operators without spaces *)
Definition lettered (v : text) : Prop := exists x r, v = x :: r /\ letter x = true.
Lemma letter_range x : letter x = true -> (65 <= x <= 122)%N /\ x <> 91%N /\ x <> 92%N /\ x <> 93%N /\ x <> 94%N /\ x <> 96%N.
Proof. unfold letter, TokenSpec.between. rewrite !orb_true_iff, !andb_true_iff, !N.leb_le, N.eqb_eq. lia. Qed.
Ltac no_char := match goal with E : _ = _ |- _ => cbn in E; first [discriminate E|injection E; intros; subst; lia] end.
Lemma operator_next c s v : In s [SLessThan; SGreaterThan; SColon; STwoColons; SAtSign; SDot] -> In (sym_text s) (operators c) ->
  (lettered v \/ In s [STwoColons; SAtSign]) -> token_then c (TSymbol s) v.
Proof.
  intros I J V. apply to_operator. split; [exact J|].
  assert (H : In s [STwoColons; SAtSign] \/ exists x r, v = x :: r /\ letter x = true) by (destruct V; auto). clear V. repeat split.
  - intros o v' Io E. apply operator_sym in Io as (y & <- & _). destruct H as [H|(x & r & -> & L)].
    + cbn [In] in H. destruct H as [<-|[<-|[]]]; destruct y; cbn in E; try discriminate E; cbn; lia.
    + apply letter_range in L. cbn [In] in I. repeat (destruct I as [<-|I]; [destruct y; cbn in E; try discriminate E; try (cbn; lia); exfalso; injection E; intros; subst; cbn in L; lia|]). contradiction.
  - intros r E. cbn [In] in I. repeat (destruct I as [<-|I]; [discriminate E|]). contradiction.
  - intros _ r E. cbn [In] in I. repeat (destruct I as [<-|I]; [discriminate E|]). contradiction.
  - intros n r E. cbn [In] in I. repeat (destruct I as [<-|I]; [destruct n; discriminate E|]). contradiction.
  - intros d r D E. cbn [In] in I. assert (s = SDot) as -> by (repeat (destruct I as [<-|I]; [first [reflexivity|discriminate E]|]); contradiction).
    destruct H as [[H|[H|[]]]|(x & q & -> & L)]; try discriminate H. injection E as -> ->. apply letter_range in L. unfold digit, TokenSpec.between in D. apply andb_true_iff in D as [_ D]. apply N.leb_le in D. lia.
Qed.
Lemma single_alone c s : In s [SLessThan; SGreaterThan; SColon; STwoColons; SAtSign; SDot] -> In (sym_text s) (operators c) -> alone c (TSymbol s).
Proof.
  intros J I. split; [|split; intros; discriminate]. apply to_operator. split; [exact I|]. rewrite app_nil_r. split; [|clear I; cbn [In] in J; repeat split].
  - intros o v' _ ->. rewrite app_length. lia.
  - intros r E. destruct s; try discriminate E; intuition discriminate.
  - intros _ r E. destruct s; try discriminate E; intuition discriminate.
  - intros n r E. destruct n; destruct s; try discriminate E; intuition discriminate.
  - intros d r _ E. destruct s; try discriminate E; intuition discriminate.
Qed.
Lemma operator_ok c r s (F : text -> Prop) : In s [SLessThan; SGreaterThan; SColon; STwoColons; SAtSign; SDot] -> show_ref r = sym_text s -> t_type (r_token r) = TSymbol s -> In (sym_text s) (operators c) ->
  (forall v, F v -> token_then c (TSymbol s) v) -> ok c F [r].
Proof.
  intros I E T J H. split; [intros r' [<-|[]] (w & k & Q); congruence|]. cbn [flat_map]. rewrite app_nil_r, E. unfold main_types. cbn [map]. rewrite T.
  intros st ts _ Fv Ti. apply (token_alone c (TSymbol s) (written ts)); auto.
  - now apply single_alone.
  - intros [Q|Q]; injection Q as ->; cbn in I; intuition discriminate.
Qed.

(** ** The tokens that are made up *)
Lemma in_operators c s : In s [SLessThan; SGreaterThan; SColon; SDot] -> In (sym_text s) (operators c).
Proof. cbn [In]. intros I. repeat (destruct I as [<-|I]; [cbn; tauto|]). contradiction. Qed.
Lemma colons_in c : has_lua52 c = true \/ has_luajit c = true \/ has_luau c = true -> In (sym_text STwoColons) (operators c).
Proof. intros H. unfold operators. destruct (has_lua52 c), (has_luajit c), (has_luau c); try (exfalso; intuition discriminate); cbn; repeat rewrite in_app_iff; cbn; tauto. Qed.
Lemma at_in c : has_luau c = true -> In (sym_text SAtSign) (operators c).
Proof. intros H. unfold operators. rewrite H. cbn. repeat rewrite in_app_iff. cbn. tauto. Qed.
Lemma colons_ok c : has_lua52 c = true \/ has_luajit c = true \/ has_luau c = true -> ok c anything [sk (str "::")].
Proof. intros H. apply (operator_ok c _ STwoColons); [cbn; tauto|vm_compute; reflexivity|vm_compute; reflexivity|now apply colons_in|]. intros v _. apply operator_next; [cbn; tauto|now apply colons_in|right; cbn; tauto]. Qed.
Lemma at_ok c : has_luau c = true -> ok c anything [sk (str "@")].
Proof. intros H. apply (operator_ok c _ SAtSign); [cbn; tauto|vm_compute; reflexivity|vm_compute; reflexivity|now apply at_in|]. intros v _. apply operator_next; [cbn; tauto|now apply at_in|right; cbn; tauto]. Qed.
Lemma less_ok c : ok c lettered [sk (str "<")].
Proof. apply (operator_ok c _ SLessThan); [cbn; tauto|vm_compute; reflexivity|vm_compute; reflexivity|apply in_operators; cbn; tauto|]. intros v V. apply operator_next; [cbn; tauto|apply in_operators; cbn; tauto|now left]. Qed.
Lemma colon_ok c : ok c lettered [tk (str ":")].
Proof. apply (operator_ok c _ SColon); [cbn; tauto|vm_compute; reflexivity|vm_compute; reflexivity|apply in_operators; cbn; tauto|]. intros v V. apply operator_next; [cbn; tauto|apply in_operators; cbn; tauto|now left]. Qed.
Lemma greater_ok c : ok c soft [sk (str ">")].
Proof. eapply (made_soft _ _ SGreaterThan []); [vm_compute; reflexivity|vm_compute; reflexivity|now left|apply basic_alone; cbn; tauto|intros [Q|Q]; discriminate Q]. Qed.
Lemma colon_space_ok c : ok c anything [sk (str ": ")].
Proof. made SColon (@nil N) [32%N]. Qed.
Lemma before_name c F a n l : ok c lettered a -> bare_name c n -> ok c F (n :: l) -> ok c F (a ++ n :: l).
Proof. intros A N O. apply (ok_app c lettered F a (n :: l)); [exact A|exact O|]. intros v _. destruct (bare_text _ _ N) as (x & r & E & L). cbn [flat_map]. rewrite E. do 2 eexists. split; [reflexivity|exact L]. Qed.
Ltac no_word := let x := fresh in let q := fresh in let E := fresh in intros ? x q E; first [injection E as <- <-|cbn in E; injection E as <- <-]; reflexivity.

(** ** Lua 5.2: labels *)
Lemma label_stands c n : f_lua52 (c_feat c) || f_luajit (c_feat c) = true -> has_lua52 c = true \/ has_luajit c = true -> has_luau c = false -> bare_name c n ->
  exists t, label_new (c_feat c) n = Done t /\ stands c anything (statement c) (Nd KStmtLabel [t]).
Proof.
  intros Ff V U N. unfold label_new, make, each. rewrite colons_done by (destruct (f_luau (c_feat c)); [reflexivity|exact Ff]). eexists. split; [reflexivity|]. apply stands_intro.
  - eexists. split; [|split; [fills|reflexivity]]. apply sm_label; try assumption; [tok_sy|now apply (bare_nm c)|tok_sy].
  - prints. apply ok_cons; [apply colons_ok; tauto|]. apply name_then; [exact N|apply colons_ok; tauto|no_word].
Qed.
(** ** Lua 5.4: attributes *)
Lemma attribute_ok c n : bare_name c n -> ok c soft [sk (str "<"); n; sk (str ">")].
Proof. intros N. apply (before_name c soft [sk (str "<")]); [apply less_ok|exact N|]. apply name_then; [exact N|apply greater_ok|no_word]. Qed.
Lemma attribute_stands c f n : has_lua54 c = true \/ has_cfxlua c = true -> bare_name c n ->
  exists t, attribute_new f n = Done t /\ stands c soft (fun x => bound c (some x) none) t.
Proof.
  intros V N. unfold attribute_new, make, span_new, each. repeat symbol. eexists. split; [reflexivity|]. apply stands_intro.
  - eexists. split; [|split; [fills|reflexivity]]. apply bo_attribute; [exact V|tok_sy|now apply (bare_nm c)|tok_sy].
  - prints. now apply attribute_ok.
Qed.
(** ** Method calls *)
Lemma method_stands c F f n a : bare_name c n -> stands c F (arguments c) a -> starts_soft (display a) ->
  exists t, method_call_new f n a = Done t /\ stands c F (suffix c) (Nd KSuffixCall [Nd KCallMethod [t]]).
Proof.
  intros N A Sa. parts A. unfold method_call_new, make, each. repeat literal. eexists. split; [reflexivity|]. cbn [no_value]. apply stands_intro.
  - eexists. split; [|split; [fills|prints; now rewrite Q]]. apply su_method; [tok_sy|now apply (bare_nm c)|constructor|exact P].
  - prints. rewrite !app_nil_r. apply (before_name c F [tk (str ":")]); [apply colon_ok|exact N|]. apply (ok_before c F [n]); [now apply bare_soft|exact O|exact Sa].
Qed.
