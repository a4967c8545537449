(** Texts that can be put side by side (C54). Proof file. *)
From Verif Require Export ConstructSpec.
From Verif Require Import Lexer LexerFacts LexerFacts2 LexerCases LexerStep LexerStream LexerSpec LexerProofs LexerTheorems LexerTheorems2 LexerTheorems3 TokenSpec TokenProofs TokenTheorems StringProofs StringProofs2 Relex Relex2.
From Verif Require Import Scan5 Scan6 PunctuatedProofs Reprint2.
From Coq Require Import Lia ZifyBool ZifyNat ZifyN.
Local Open Scope N_scope.
Arguments ch a : simpl never.
Arguments advance p c : simpl never.

Lemma reads_nil c F : reads_as c F [] [].
Proof. intros st ts _ _ T. exists ts. auto. Qed.
Lemma reads_app c (F G : text -> Prop) s1 s2 m1 m2 : reads_as c F s1 m1 -> reads_as c G s2 m2 -> (forall v, G v -> F (s2 ++ v)) -> reads_as c G (s1 ++ s2) (m1 ++ m2).
Proof.
  intros R1 R2 H st ts L N T. destruct (R2 st ts L N T) as (ts2 & T2 & W2 & M2). destruct (R1 st ts2 L) as (ts1 & T1 & W1 & M1); [rewrite W2; auto|exact T2|].
  exists ts1. split; [exact T1|]. rewrite W1, W2, M1, M2, !app_assoc. auto.
Qed.
Lemma reads_any c s1 s2 m1 m2 F : reads_as c anything s1 m1 -> reads_as c F s2 m2 -> reads_as c F (s1 ++ s2) (m1 ++ m2).
Proof. intros R1 R2. eapply reads_app; [exact R1|exact R2|]. now intros. Qed.
Lemma reads_less c (F G : text -> Prop) s m : (forall v, G v -> F v) -> reads_as c F s m -> reads_as c G s m.
Proof. intros H R st ts L N T. apply R; auto. Qed.

(** ** White space *)
Lemma token_head c t v : token_then c t v -> (forall w, t <> TWhitespace w) -> exists x r, spelling t = x :: r /\ x <> 32 /\ x <> 9 /\ x <> 10 /\ x <> 13.
Proof.
  intros T NS.
  assert (D : forall x, digit x = true -> x <> 32 /\ x <> 9 /\ x <> 10 /\ x <> 13) by (intros x; unfold digit, TokenSpec.between; lia).
  assert (Ws : forall s, exists x r, sym_text s = x :: r /\ x <> 32 /\ x <> 9 /\ x <> 10 /\ x <> 13) by (intros s; destruct s; do 2 eexists; (split; [reflexivity|]); repeat split; discriminate).
  inversion T as [w v0 (x & r & -> & Lx & _) Hn NC|s v0 I NC|s v0 O|w v0 Nb|w q y v0 Hq Hb A|w n v0 F|w v0 N Hv L|w n v0 F|w v0 Hc F|w v0 Sp|w k v0 HL Se]; subst; cbn [spelling].
  - exists x, r. split; [reflexivity|]. unfold letter, TokenSpec.between in Lx. lia.
  - apply Ws.
  - apply Ws.
  - inversion Nb; subst; do 2 eexists; (split; [reflexivity|]); auto; repeat split; discriminate.
  - destruct q; try discriminate Hq; do 2 eexists; (split; [reflexivity|]); repeat split; discriminate.
  - do 2 eexists. split; [reflexivity|]. repeat split; discriminate.
  - do 2 eexists. split; [reflexivity|]. repeat split; discriminate.
  - do 2 eexists. split; [reflexivity|]. repeat split; discriminate.
  - do 2 eexists. split; [reflexivity|]. repeat split; discriminate.
  - now destruct (NS w).
  - destruct k; do 2 eexists; (split; [reflexivity|]); repeat split; discriminate.
Qed.
Lemma turns_space c st st' w : turns c st (TWhitespace w) st' -> st' = st.
Proof. intros H. inversion H; auto. Qed.
Lemma space_turns c st w : turns c st (TWhitespace w) st.
Proof. apply tu_other; intros; discriminate. Qed.
Lemma lone_space c st ts : tokens_in c st ts -> space_then [32] (written ts) ->
  exists ts', tokens_in c st ts' /\ written ts' = [32] ++ written ts /\ mains ts' = [] ++ mains ts.
Proof. intros T Sp. exists (TWhitespace [32] :: ts). split; [|auto]. eapply ti_cons; [apply to_space, Sp|apply space_turns|exact T]. Qed.
Lemma merged_space c st w ts : tokens_in c st ts -> space_then (32 :: w) (written ts) ->
  exists ts', tokens_in c st ts' /\ written ts' = [32] ++ w ++ written ts /\ mains ts' = [] ++ mains ts.
Proof. intros T Sp. exists (TWhitespace (32 :: w) :: ts). split; [|auto]. eapply ti_cons; [apply to_space, Sp|apply space_turns|exact T]. Qed.
Lemma blank_cons x w : x = 32 \/ x = 9 -> blanks w -> blanks (x :: w).
Proof. intros H B. unfold blanks in *. cbn. rewrite B. destruct H as [->| ->]; reflexivity. Qed.
Lemma blank_head y w : blanks (y :: w) -> y = 32 \/ y = 9.
Proof. unfold blanks. cbn. lia. Qed.
Lemma reads_space c : reads_as c anything [32] [].
Proof.
  intros st ts _ _ T. destruct ts as [|t ts].
  - apply lone_space; [exact T|]. apply (sp_blanks 32 []); [auto|reflexivity|apply nil_continued|intros e r [->| ->]; discriminate].
  - inversion T as [|? ? st' ? Tt U T']; subst. destruct (match t with TWhitespace _ => true | _ => false end) eqn:Q.
    + assert (exists w, t = TWhitespace w) as (w & ->) by (destruct t; try discriminate Q; eauto). clear Q. apply turns_space in U as ->.
      change (written (TWhitespace w :: ts)) with (w ++ written ts). change (mains (TWhitespace w :: ts)) with (mains ts).
      assert (Apart : w ++ written ts <> [] -> not_continued (fun y => (y =? 32) || (y =? 9)) (w ++ written ts) -> (forall e r, line_end e -> w ++ written ts <> e ++ r) ->
        exists ts', tokens_in c st ts' /\ written ts' = [32] ++ w ++ written ts /\ mains ts' = [] ++ mains ts).
      { intros _ N1 N2. apply (lone_space c st (TWhitespace w :: ts) T). apply (sp_blanks 32 []); [auto|reflexivity|exact N1|exact N2]. }
      inversion Tt as [| | | | | | | | |w0 v0 Sp|]; subst. inversion Sp as [v|x w1 e v Hx B E|x w1 v Hx B N1 N2]; subst.
      * apply (merged_space c st [10] ts T'). apply (sp_line 32 [] [10]); [auto|reflexivity|now left].
      * assert (Hx' : (x = 32 \/ x = 9) \/ x = 13) by tauto. destruct Hx' as [Hx'| ->].
        -- apply (merged_space c st (x :: w1 ++ e) ts T'). apply (sp_line 32 (x :: w1) e); auto. now apply blank_cons.
        -- destruct w1 as [|y w1].
           ++ destruct E as [->| ->].
              ** apply (merged_space c st [13; 10] ts T'). apply (sp_line 32 [] [13; 10]); [auto|reflexivity|now right].
              ** apply Apart; [discriminate|now apply gap_part|]. intros e r [->| ->] W; discriminate W.
           ++ apply Apart; [discriminate|now apply gap_part|]. apply blank_head in B. intros e' r [->| ->] W; [discriminate W|]. cbn in W. injection W as W _. destruct B; congruence.
      * assert (Hx' : (x = 32 \/ x = 9) \/ x = 13) by tauto. destruct Hx' as [Hx'| ->].
        -- apply (merged_space c st (x :: w1) ts T'). apply (sp_blanks 32 (x :: w1)); auto. now apply blank_cons.
        -- apply Apart; [discriminate|now apply gap_part|]. destruct w1 as [|y w1].
           ++ intros e r [->| ->] W; [discriminate W|]. cbn in W. injection W as W. now apply (N2 [10] r (or_introl eq_refl)).
           ++ apply blank_head in B. intros e' r [->| ->] W; [discriminate W|]. cbn in W. injection W as W _. destruct B; congruence.
    + destruct (token_head _ _ _ Tt) as (x & r & E & N1 & N2 & N3 & N4); [intros w ->; discriminate|].
      apply lone_space; [exact T|]. change (written (t :: ts)) with (spelling t ++ written ts). rewrite E.
      apply (sp_blanks 32 []); [auto|reflexivity| |].
      * apply gap_part. apply N.eqb_neq in N1, N2. now rewrite N1, N2.
      * intros e q [->| ->] W; cbn in W; congruence.
Qed.
Lemma reads_line c : reads_as c anything [10] [].
Proof. intros st ts _ _ T. exists (TWhitespace [10] :: ts). split; [|auto]. eapply ti_cons; [apply to_space, sp_line_feed|apply space_turns|exact T]. Qed.

(** ** Tokens before soft characters *)
Lemma soft_numbers x c : soft_char x -> digit_of c x = false /\ hexdigit_of c x = false /\ bindigit x = false /\ word_part x = false /\ (x =? 46) = false.
Proof. unfold soft_char. cbn. intros H. repeat (destruct H as [<-|H]; [unfold digit_of, hexdigit_of; cbn; rewrite ?andb_false_r; auto|]). contradiction. Qed.
Lemma soft_marks x y : soft_char x -> In y [101; 69; 112; 80] -> y <> x.
Proof. unfold soft_char. cbn. intros H I. intuition congruence. Qed.
Lemma soft_suffix c x : soft_char x -> has_luajit c && existsb (N.eqb x) (str "uUlLiI") = false.
Proof. unfold soft_char. cbn. intros H. repeat (destruct H as [<-|H]; [apply andb_false_r|]). contradiction. Qed.
Lemma soft_tail c marks more e x v : soft_char x -> (forall y, In y marks -> y <> x) -> more x = false -> tail_then c marks more e [] -> tail_then c marks more e (x :: v).
Proof.
  intros G Hm Hx T. inversion T as [v0 _|t v0 E N|t v0 J S]; subst.
  - apply tt_none. apply gap_part. rewrite Hx, (soft_suffix c x G), orb_false_r. cbn [orb].
    destruct (existsb (N.eqb x) marks) eqn:Q; [|reflexivity]. apply existsb_exists in Q as (y & I & Q). apply N.eqb_eq in Q. subst y. now destruct (Hm x I).
  - apply tt_exp; [exact E|]. apply gap_part. apply (soft_numbers x c G).
  - now apply tt_suffix.
Qed.
Lemma soft_number c w x v : soft_char x -> number_then c w [] -> number_then c w (x :: v).
Proof.
  intros G Nb. destruct (soft_numbers x c G) as (D1 & D2 & D3 & _ & X46).
  inversion Nb as [d m e v0 Hd Hm Ht Hr|d m e v0 Hd Hm Ht|y m e v0 Hy Hm Ht Hs|b m e v0 Hv Hb Hm Ht Hs]; subst.
  - apply nb_dec; try assumption.
    + apply soft_tail; try assumption; [|now rewrite D1, X46]. intros y I. apply (soft_marks x y G). cbn in *. tauto.
    + intros (y & r & E & R). apply Hr. rewrite app_nil_r. destruct (m ++ e) as [|a q] eqn:Q.
      * rewrite app_assoc, Q in E. cbn in E. injection E as -> <- _. exfalso. unfold ci in R. clear -G R. unfold soft_char in G. cbn in G. intuition congruence.
      * rewrite app_assoc, Q in E. cbn in E. injection E as -> <- _. exists a, q. auto.
  - apply nb_dot; try assumption. apply soft_tail; try assumption; [|now rewrite D1, X46]. intros y I. apply (soft_marks x y G). cbn in *. tauto.
  - apply nb_hex; try assumption. apply soft_tail; try assumption; [|rewrite D2, X46; now destruct (has_lua52 c)]. intros a I. apply (soft_marks x a G). destruct (has_lua52 c); cbn in *; tauto.
  - apply nb_bin; try assumption. apply soft_tail; try assumption. intros a [].
Qed.
Lemma soft_operator x s y r : soft_char x -> sym_text s = y :: r -> ~ In x r.
Proof.
  intros G E I. assert (Q : forallb (fun z => forallb (fun x => negb (x =? z)) [10; 32; 40; 41; 44; 59; 93; 125]) r = true).
  { destruct s; cbn in E; injection E as <- <-; reflexivity. }
  rewrite forallb_forall in Q. specialize (Q x I). rewrite forallb_forall in Q. specialize (Q x G). now rewrite N.eqb_refl in Q.
Qed.
Lemma long_prefix (w o v v' : text) x : w ++ x :: v = o ++ v' -> (List.length w < List.length o)%nat -> exists z, o = w ++ x :: z.
Proof.
  revert o. induction w as [|a w IH]; intros [|b o] E L; cbn in E, L; try lia.
  - injection E as <- _. now exists o.
  - injection E as <- E. destruct (IH o E) as (z & ->); [lia|]. now exists z.
Qed.
Lemma soft_token c t x v : alone c t -> (forall w, t <> TSingleLineComment w) -> soft_char x -> token_then c t (x :: v).
Proof.
  intros (T & NS & NI) NC G. destruct (soft_numbers x c G) as (_ & _ & _ & D4 & D5).
  assert (Sx : forall y, In y [45; 42; 91; 61] -> x <> y) by (intros y I ->; unfold soft_char in G; cbn in G, I; intuition congruence).
  inversion T as [w v0 W Hn HC|s v0 I HC|s v0 O|w v0 Nb|w q y v0 Hq Hb A|w n v0 F|w v0 N Hv L|w n v0 F|w v0 Hc F|w v0 Sp|w k v0 HL Se]; subst.
  - apply to_name; try assumption. now apply gap_part.
  - apply to_keyword; try assumption. now apply gap_part.
  - apply to_operator. destruct O as (I & L & N1 & N2 & N3 & N4). rewrite app_nil_r in *.
    split; [exact I|].
    assert (Short : forall o v', (exists s', sym_text s' = o) -> sym_text s ++ x :: v = o ++ v' -> (List.length o <= List.length (sym_text s))%nat).
    { intros o v' (s' & <-) E. destruct (Nat.le_gt_cases (List.length (sym_text s')) (List.length (sym_text s))) as [Le|Gt]; [exact Le|exfalso].
      destruct (long_prefix _ _ _ _ _ E Gt) as (z & Ez). destruct (sym_text s) as [|a r] eqn:Es; [destruct s; discriminate|].
      apply (soft_operator x s' a (r ++ x :: z) G Ez). apply in_app_iff. right. now left. }
    assert (P : forall z r, (List.length z <= List.length (sym_text s))%nat -> sym_text s ++ x :: v = z ++ r -> exists r', sym_text s = z ++ r').
    { intros z r Le E. exists (skipn (List.length z) (sym_text s)). rewrite <- (firstn_skipn (List.length z) (sym_text s)) at 1. f_equal.
      apply (f_equal (firstn (List.length z))) in E. rewrite !firstn_app, Nat.sub_diag, firstn_all in E. replace (List.length z - List.length (sym_text s))%nat with O in E by lia. cbn in E. now rewrite !app_nil_r in E. }
    assert (P2 : forall a b r, In b [45; 42; 91; 61] -> sym_text s ++ x :: v = a :: b :: r -> exists r', sym_text s = a :: b :: r').
    { intros a b r Ib E. destruct (sym_text s) as [|a' [|b' q]] eqn:Es; [destruct s; discriminate| |].
      - cbn in E. injection E as _ E _. now destruct (Sx b Ib).
      - cbn in E. injection E as -> -> _. now exists q. }
    repeat split.
    + intros o v' Io E. apply (Short o v'); [|exact E]. apply operator_sym in Io as (sy & <- & _). now exists sy.
    + intros r E. destruct (P2 45 45 r) as (r' & Er); [cbn; auto|exact E|]. now apply (N1 r').
    + intros HC r E. destruct (P2 47 42 r) as (r' & Er); [cbn; auto|exact E|]. now apply (N2 HC r').
    + intros n r E. destruct n as [|n]; cbn in E.
      * destruct (P2 91 91 r) as (r' & Er); [cbn; auto|exact E|]. now apply (N3 O r').
      * destruct (P2 91 61 (repeat 61 n ++ [91] ++ r)) as (r' & Er); [cbn; auto| |].
        -- rewrite E. unfold long_bracket_open, eqs. cbn. now rewrite <- ?app_assoc.
        -- clear -Er. destruct s; discriminate.
    + intros d r Hd E. destruct (sym_text s) as [|a' [|b' q]] eqn:Es; [destruct s; discriminate| |].
      * cbn in E. injection E as _ E _. subst d. clear -Hd G. unfold soft_char in G. cbn in G. repeat (destruct G as [<-|G]; [discriminate Hd|]). contradiction.
      * cbn in E. injection E as -> -> _. now apply (N4 d q).
  - apply to_number. now apply soft_number.
  - eapply to_quoted; eassumption.
  - apply to_long. split; [reflexivity|]. destruct F as [_ F]. now apply first_extends.
  - now destruct (NC w).
  - apply to_long_comment. split; [reflexivity|]. destruct F as [_ F]. now apply first_extends.
  - apply to_c_comment; [exact Hc|]. now apply first_extends.
  - now destruct (NS w).
  - now destruct (NI w k).
Qed.
