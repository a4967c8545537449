(** The lexer reads what the lexical grammar describes (C52). Proof file. *)
From Verif Require Import Lexer LexerFacts LexerFacts2 LexerCases LexerStep LexerStream LexerSpec LexerProofs LexerTheorems LexerTheorems2 LexerTheorems3 TokenSpec TokenProofs TokenTheorems StringProofs StringProofs2 Relex Relex2.
From Verif Require Export Scan3.
From Coq Require Import Lia ZifyBool ZifyNat ZifyN.
Local Open Scope N_scope.
Arguments ch a : simpl never.
Arguments advance p c : simpl never.

Definition reads_to (c : cfg) (l : lexer) (tt : token_type) (v : text) : Prop :=
  exists t l', process_next c l = Done (Some (LOk t), l') /\ t_type t = tt /\ s_rest (l_src l') = v.

Lemma read_blanks b : forall z pos ws endp, blanks b -> exists p e, read_whitespace (b ++ z) pos ws endp = read_whitespace z p (ws ++ b) e.
Proof.
  induction b as [|x b IH]; intros z pos ws endp F; [rewrite app_nil_r; eauto|]. unfold blanks in F. cbn [forallb] in F. apply andb_true_iff in F as [F1 F2].
  cbn [app read_whitespace]. change ((x =? c_space) || (x =? c_tab)) with ((x =? 32) || (x =? 9)). rewrite F1.
  destruct (IH z (advance pos x) (ws ++ [x]) (mkPos (p_bytes endp + len_utf8 x) (p_line endp) (p_char endp + 1)) F2) as (p & e & R).
  rewrite <- app_assoc in R. eauto.
Qed.
Lemma no_more_space v pos ws e : ws_more v = false -> read_whitespace v pos ws e = (ws, e, mkSrc v pos).
Proof.
  intros H. destruct v as [|x v]; [reflexivity|]. cbn [ws_more] in H. apply orb_false_iff in H as [H1 H2]. apply orb_false_iff in H1 as [H0 H1].
  cbn [read_whitespace]. unfold is_blank in H0. rewrite H0, H1. destruct (x =? c_cr); [|reflexivity]. destruct v as [|y v]; [reflexivity|]. cbn in H2. rewrite H2. reflexivity.
Qed.
Lemma space_complete c l w v : space_then w v -> s_rest (l_src l) = w ++ v -> reads_to c l (TWhitespace w) v.
Proof.
  assert (G : forall v x t, x = 32 \/ x = 9 \/ x = 13 -> s_rest (l_src l) = x :: t ++ v ->
     (forall pos endp, exists e p, read_whitespace (t ++ v) pos [x] endp = (x :: t, e, mkSrc v p)) -> reads_to c l (TWhitespace (x :: t)) v).
  { clear v. intros v x t Hx E R.
    assert (P : process_next c l = (let endp := mkPos (p_bytes (s_pos (l_src l)) + len_utf8 x) (p_line (s_pos (l_src l))) (p_char (s_pos (l_src l)) + 1) in
        let '(ws, endp, s) := read_whitespace (t ++ v) (advance (s_pos (l_src l)) x) [x] endp in
        yield (LOk (mkToken (s_pos (l_src l)) endp (TWhitespace ws))) (with_src l s))).
    { unfold process_next, src_next. rewrite E. cbn [s_rest s_pos]. destruct Hx as [->|[->| ->]]; reflexivity. }
    cbv zeta in P. match type of P with context [read_whitespace _ ?p _ ?e] => destruct (R p e) as (e' & p' & RR) end. rewrite RR in P.
    do 2 eexists. split; [exact P|]. split; reflexivity. }
  intros [v0|x w0 e v0 Hx Hw He|x w0 v0 Hx Hw N1 N2] E.
  - do 2 eexists. split; [unfold process_next, src_next; rewrite E; reflexivity|]. split; reflexivity.
  - apply G; [assumption|exact E|]. intros pos endp. rewrite <- app_assoc. destruct (read_blanks w0 (e ++ v0) pos [x] endp Hw) as (p & e' & ->).
    destruct He as [->| ->]; cbn; rewrite ?app_assoc; do 2 eexists; reflexivity.
  - apply G; [assumption|exact E|]. intros pos endp. destruct (read_blanks w0 v0 pos [x] endp Hw) as (p & e' & R).
    rewrite (no_more_space v0) in R by (apply ws_more_is; split; assumption). do 2 eexists. exact R.
Qed.

Lemma quoted_complete c l q qt b v : s_rest (l_src l) = q :: b ++ q :: v -> quote_char qt = Some q -> (qt = QBacktick -> has_luau c = false /\ f_cfxlua (c_feat c) = true) ->
  accepted_body c q false b -> reads_to c l (TStringLiteral b O qt) v.
Proof.
  intros E Hq Hb S. assert (D : qt = QBacktick \/ qt <> QBacktick) by (destruct qt; (now left) || (right; discriminate)). destruct D as [D|D]; [|eapply quoted_step; eauto].
  subst qt. injection Hq as <-. destruct (Hb eq_refl) as [H1 H2].
  assert (P : process_next c l = (let '(literal, recovered, s) := read_string_loop c 96 (b ++ 96 :: v) (advance (s_pos (l_src l)) 96) [] false false in
              yield (create_recovered s (s_pos (l_src l)) (TStringLiteral literal O QBacktick)
                       (recovered_errs recovered UnclosedString (s_pos (l_src l)) s)) (with_src l s))).
  { unfold process_next, src_next. rewrite E. cbn -[read_string_loop process_next yield create_recovered with_src has_luau]. rewrite H1, H2. reflexivity. }
  destruct (loop_accepts c 96 b v false) with (pos := advance (s_pos (l_src l)) 96) (lit := @nil char) as (p & R);
    [discriminate|intros [L|L]; discriminate|assumption|].
  rewrite R in P. do 2 eexists. split; [exact P|]. split; reflexivity.
Qed.

Lemma span_unique (P : char -> bool) (w v w' v' : text) : forallb P w = true -> not_continued P v -> forallb P w' = true -> not_continued P v' -> w ++ v = w' ++ v' -> w = w' /\ v = v'.
Proof.
  revert w'. induction w as [|x w IH]; intros [|y w'] F N F' N' E; cbn [app] in E.
  - auto.
  - cbn in F'. apply andb_true_iff in F' as [F' _]. subst v. apply continued_false in N. congruence.
  - cbn in F. apply andb_true_iff in F as [F _]. subst v'. apply continued_false in N'. congruence.
  - injection E as <- E. cbn in F, F'. apply andb_true_iff in F as [_ F], F' as [_ F']. destruct (IH w' F N F' N' E) as [-> ->]. auto.
Qed.

Lemma long_comment_complete c l n b v : closes_first n (b ++ long_bracket_close n ++ v) b v ->
  s_rest (l_src l) = 45 :: 45 :: long_bracket_open n ++ b ++ long_bracket_close n ++ v -> reads_to c l (TMultiLineComment n b) v.
Proof.
  intros F E. unfold reads_to. rewrite (dashes_comment c l _ E). destruct (read_comment _) as [[t rc] s] eqn:R. apply read_comment_spec in R.
  cbn [s_rest] in R. destruct R as [(m & b' & full' & -> & -> & E2 & F2 & _)|[(m & b' & _ & _ & E2 & N & _)|(t0 & _ & _ & _ & N & _)]].
  - apply long_bracket_open_inj in E2 as [<- <-]. destruct (closes_first_unique _ _ _ _ _ _ F F2) as [<- Er].
    do 2 eexists. split; [reflexivity|]. repeat split. cbn. now rewrite <- Er.
  - exfalso. apply long_bracket_open_inj in E2 as [<- <-]. destruct F as [F _]. now apply N in F.
  - exfalso. eapply N. reflexivity.
Qed.
Lemma line_comment_complete c l w v : ~ In 10 w -> (v = [] \/ exists r, v = 10 :: r) -> (forall n r, w ++ v <> long_bracket_open n ++ r) ->
  s_rest (l_src l) = 45 :: 45 :: w ++ v -> reads_to c l (TSingleLineComment w) v.
Proof.
  intros F Hv N E. unfold reads_to. rewrite (dashes_comment c l _ E). destruct (read_comment _) as [[t rc] s] eqn:R. apply read_comment_spec in R.
  cbn [s_rest] in R. destruct R as [(m & b' & full' & -> & -> & E2 & F2 & _)|[(m & b' & _ & _ & E2 & _)|(t0 & -> & -> & [M _] & _ & F0 & H)]].
  - exfalso. eapply N. exact E2.
  - exfalso. eapply N. exact E2.
  - cbn [s_rest] in M. destruct (span_unique (fun x => negb (x =? 10)) w v t0 (s_rest s)) as [-> ->]; [| |exact F0|now apply head_not_continued|exact M|].
    + apply forallb_forall. intros x I. apply negb_true_iff, N.eqb_neq. intros ->. contradiction.
    + intros x r ->. destruct Hv as [Hv|(r' & Hv)]; [discriminate|]. injection Hv as -> _. reflexivity.
    + do 2 eexists. split; [reflexivity|]. split; reflexivity.
Qed.
Lemma c_comment_complete c l b v : has_cfxlua c = true -> (forall x y, b ++ str "*/" ++ v = x ++ str "*/" ++ y -> (List.length b <= List.length x)%nat) ->
  s_rest (l_src l) = 47 :: 42 :: b ++ str "*/" ++ v -> reads_to c l (TCStyleComment b) v.
Proof.
  intros Hc F E.
  assert (P : process_next c l = (let '(t, recovered, s) := read_c_style_comment (b ++ str "*/" ++ v) (advance (advance (s_pos (l_src l)) 47) 42) [] in
     yield (create_recovered s (s_pos (l_src l)) t (recovered_errs recovered UnclosedComment (s_pos (l_src l)) s)) (with_src l s))).
  { head_step E. rewrite Hc, !orb_true_r. reflexivity. }
  unfold reads_to. rewrite P. destruct (read_c_style_comment _ _ _) as [[t rc] s] eqn:R. apply read_c_style_comment_spec in R as [(b' & -> & -> & [M _] & F')|(_ & _ & _ & _ & N)].
  - change c_closer with (str "*/") in *. cbn [s_rest] in M. rewrite <- app_assoc in M.
    destruct (first_unique (str "*/") b v b' (s_rest s) (b ++ str "*/" ++ v)) as [<- Er]; auto.
    do 2 eexists. split; [reflexivity|]. repeat split. cbn. now rewrite <- Er.
  - exfalso. apply (N b v). reflexivity.
Qed.

Lemma section_complete c l b v k : has_luau c = true -> s_rest (l_src l) = begins k :: b ++ finishes k :: v -> section_then (finishes k) v false b ->
  (k = IMiddle \/ k = IEnd -> exists bs, l_braces l = BInterpolated :: bs) -> reads_to c l (TInterpolatedString b k) v.
Proof.
  intros HL E S Hk. unfold reads_to.
  assert (R : forall f pos, finishes k = fin f -> exists p, read_istr (b ++ finishes k :: v) pos [] false false false = (b, Some f, mkSrc v p)).
  { intros f pos Ef. rewrite Ef in *. apply (istr_complete f v false b S pos []). }
  unfold process_next, src_next. rewrite E. destruct k; cbn [begins finishes] in *.
  - destruct (R true (advance (s_pos (l_src l)) 96) eq_refl) as (p & RR).
    cbn -[read_istr yield with_src]. rewrite HL. cbn -[read_istr yield with_src]. unfold read_interpolated_string_section. cbn [l_src with_src s_rest s_pos].
    rewrite RR. do 2 eexists. split; [reflexivity|]. split; reflexivity.
  - destruct Hk as (bs & Hb); [auto|]. destruct (R true (advance (s_pos (l_src l)) 125) eq_refl) as (p & RR).
    cbn -[read_istr yield with_src]. rewrite HL, Hb. cbn -[read_istr yield with_src]. unfold read_interpolated_string_section. cbn [l_src with_src s_rest s_pos].
    rewrite RR. do 2 eexists. split; [reflexivity|]. split; reflexivity.
  - destruct Hk as (bs & Hb); [auto|]. destruct (R false (advance (s_pos (l_src l)) 125) eq_refl) as (p & RR).
    cbn -[read_istr yield with_src]. rewrite HL, Hb. cbn -[read_istr yield with_src]. unfold read_interpolated_string_section. cbn [l_src with_src s_rest s_pos].
    rewrite RR. do 2 eexists. split; [reflexivity|]. split; reflexivity.
  - destruct (R false (advance (s_pos (l_src l)) 96) eq_refl) as (p & RR).
    cbn -[read_istr yield with_src]. rewrite HL. cbn -[read_istr yield with_src]. unfold read_interpolated_string_section. cbn [l_src with_src s_rest s_pos].
    rewrite RR. do 2 eexists. split; [reflexivity|]. split; reflexivity.
Qed.

(** ** Operators *)
Definition op_heads : text := str "+-*/%^#=~<>(){}[];:,.&|@?".
Lemma op_head sy : is_op sy = true -> exists x r, sym_text sy = x :: r /\ In x op_heads /\ (x = 125 -> sy = SRightBrace).
Proof. intros H. destruct sy; try discriminate H; (do 2 eexists; split; [reflexivity|]; split; [vm_compute; tauto|try (intros E; discriminate E); reflexivity]). Qed.
Lemma operator_complete c l sy v : cfx53 c -> operator_then c (sym_text sy) v -> (sy = SRightBrace -> has_luau c = true -> forall bs, l_braces l <> BInterpolated :: bs) ->
  s_rest (l_src l) = sym_text sy ++ v -> reads_to c l (TSymbol sy) v.
Proof.
  intros HC (I & L & N1 & N2 & N3 & N4) HB E. destruct (operator_sym _ _ I) as (sy0 & Es & En & Ho). apply sym_text_inj in Es. subst sy0.
  destruct (op_head sy Ho) as (x & r & Ex & Ix & Hx). rewrite <- E in N1, N2, N3, N4. assert (E' : s_rest (l_src l) = x :: r ++ v) by (rewrite E, Ex; reflexivity).
  pose proof (process_next_cases c l) as HN. unfold reads_to. destruct (process_next c l) as [[o l']| |] eqn:Hp; cbn [next_ok] in HN.
  2: { exfalso. destruct HN as [(r0 & R) _]. rewrite E' in R. injection R as -> _. vm_compute in Ix. repeat (destruct Ix as [Ix|Ix]; [discriminate Ix|]). destruct Ix. }
  2: { destruct HN. }
  assert (No : forall y r0 (P : Prop), s_rest (l_src l) = y :: r0 -> ~ In y op_heads -> P).
  { intros y r0 P R N. exfalso. apply N. rewrite E' in R. injection R as <- _. exact Ix. }
  destruct HN as [ He Hs | He Hs | next w0 s Hid M F Hd | next w0 s Hn M T Z | s M | d r0 res s HR Hx' R0 | d r0 res s HR Hx' Hv R0
    | d r0 res s HR Hx' Hv R0 | d r0 res s HR Hx' R0 | r0 res l1 HR Hv R0 | r0 bs res l1 HR Hv Hb R0
    | q r0 qt lit rec s HR Hq Hv R0 | r0 n b s HR R0 | r0 n b s HR R0 | r0 tt rec s HR R0 | r0 tt rec s HR Hv R0
    | sy' s Hop M HL HE H1 H2 H3 H4 H5 | d s e M He HN ].
  - exfalso. congruence.
  - exfalso. congruence.
  - destruct M as [M _]. apply (No _ _ _ M). intros J. vm_compute in J. repeat (destruct J as [<-|J]; [discriminate Hid|]). destruct J.
  - destruct M as [M _]. apply (No _ _ _ M). intros J. vm_compute in J. destruct Hn as [->|[->| ->]]; repeat (destruct J as [J|J]; [discriminate J|]); destruct J.
  - destruct M as [M _]. apply (No _ _ _ M). intros J. vm_compute in J. repeat (destruct J as [J|J]; [discriminate J|]); destruct J.
  - apply (No _ _ _ HR). intros J. vm_compute in J. repeat (destruct J as [J|J]; [discriminate J|]); destruct J.
  - apply (No _ _ _ HR). intros J. vm_compute in J. repeat (destruct J as [J|J]; [discriminate J|]); destruct J.
  - apply (No _ _ _ HR). intros J. vm_compute in J. repeat (destruct J as [<-|J]; [discriminate Hx'|]); destruct J.
  - exfalso. apply (N4 d r0 Hx' HR).
  - apply (No _ _ _ HR). intros J. vm_compute in J. repeat (destruct J as [J|J]; [discriminate J|]); destruct J.
  - exfalso. rewrite E' in HR. injection HR as -> _. apply (HB (Hx eq_refl) Hv bs Hb).
  - apply (No _ _ _ HR). apply quote_type_char in Hq. intros J. vm_compute in J. destruct qt; cbn in Hq; try discriminate Hq; injection Hq as <-; repeat (destruct J as [J|J]; [discriminate J|]); destruct J.
  - exfalso. apply read_multi_line_body_spec in R0 as (n' & <- & full & Q & _). cbn [s_rest] in Q. apply (N3 n full). rewrite HR, Q. symmetry. apply long_open_app.
  - exfalso. apply read_multi_line_body_spec in R0 as (n' & <- & Q & _). cbn [s_rest] in Q. apply (N3 n b). rewrite HR, Q. symmetry. apply long_open_app.
  - exfalso. now apply (N1 r0).
  - exfalso. now apply (N2 Hv r0).
  - destruct M as [M _]. assert (sym_text sy' = sym_text sy) as Q.
    { assert (L1 : (List.length (sym_text sy) <= List.length (sym_text sy'))%nat) by (apply (HL sy v); assumption).
      assert (L2 : (List.length (sym_text sy') <= List.length (sym_text sy))%nat).
      { apply (L (sym_text sy') (s_rest s)); [|now rewrite <- E]. apply (proj1 (sym_table c sy') Hop). auto. }
      rewrite E in M. apply app_length_eq in M as [M _]; [auto|lia]. }
    apply sym_text_inj in Q. subst sy'. rewrite E in M. apply app_inv_head in M. do 2 eexists. split; [reflexivity|]. split; [reflexivity|]. now cbn.
  - exfalso. now apply (HN sy v En).
Qed.

(** ** All tokens *)
Lemma step_complete c l tt v st : cfx53 c -> token_then c tt v -> turns c (stack l) tt st -> s_rest (l_src l) = spelling tt ++ v -> reads_to c l tt v.
Proof.
  intros HC T U E. destruct T as [w v W NI NC|s v I NC|s v O|w v Nb|w q x v Hq Hb A|w n v F|w v N Hv L|w n v F|w v Hc F|w v Sp|w k v HL Se]; cbn [spelling] in E.
  - destruct (word_is_one_token c l w v E W NC) as (t & l' & P & R & [[I _]|[_ Et]]); [contradiction|]. exists t, l'. auto.
  - destruct (reserved_sym _ _ I) as (sy & Es & _ & Ho). apply sym_text_inj in Es. subst sy. apply is_op_word in Ho.
    destruct (word_is_one_token c l (sym_text s) v E Ho NC) as (t & l' & P & R & [[_ (sy & Et & Es)]|[NI _]]); [|contradiction]. apply sym_text_inj in Es. subst sy. exists t, l'. auto.
  - apply operator_complete; try assumption. intros -> HL bs Hb. unfold stack in U. rewrite Hb in U. cbn in U. inversion U; congruence.
  - destruct (number_then_step c l w v Nb E) as (t & s & P & Et & R). exists t, (with_src l s). auto.
  - eapply quoted_complete; try eassumption. assert (Sq : spelling (TStringLiteral w 0 q) = x :: w ++ [x]) by (destruct q; cbn in Hq |- *; try discriminate; injection Hq as <-; reflexivity).
    cbn [spelling] in Sq. destruct q; try discriminate Hq; rewrite Sq in E; cbn [app] in E; rewrite <- app_assoc in E; exact E.
  - rewrite <- !app_assoc in E. destruct (long_string_step c l n _ E) as [G _]. destruct (G w v F) as (t & l' & P & Et & R). exists t, l'. auto.
  - now apply line_comment_complete.
  - rewrite <- !app_assoc in E. now apply long_comment_complete.
  - rewrite <- !app_assoc in E. now apply c_comment_complete.
  - now apply space_complete.
  - apply section_complete; try assumption.
    + cbn [app] in E. rewrite <- app_assoc in E. exact E.
    + intros K. unfold stack in U. destruct (l_braces l) as [|[] bs]; cbn in U; destruct K as [->| ->]; inversion U; subst; eauto; try congruence.
      all: exfalso; eapply H1; reflexivity.
Qed.
