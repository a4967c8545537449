(** Parsing undoes printing (C48): operators. *)
From Verif Require Import LexerSpec PunctuatedProofs.
From Verif Require Export Round5.
From Coq Require Import Lia.
Local Open Scope nat_scope.
Import ListNotations.

Arguments level : simpl never.

(** ** Follow sets *)
Lemma casts_edges : forall e, casts e = true -> open e = false /\ ends_in_if e = false /\ ends_in_type e = true.
Proof.
  fix IH 1. intros [r|k cs|k cs] H; try discriminate H. destruct k; try discriminate H; [|repeat split].
  destruct cs as [|l [|o [|r [|]]]]; try discriminate H. exact (IH r H).
Qed.
Lemma follow_stop c q e k : follow c q e k -> ends_in_if e = true -> follows k (stop c (open e)).
Proof. intros [k' H|r s u k' _ _ _ E _ _|r k' _ H] X; [assumption|congruence|]. apply casts_edges in H as (_ & H & _). congruence. Qed.
Lemma follow_mono c q q' e e' k : follow c q e k -> q <= q' -> open e' = open e -> ends_in_if e' = ends_in_if e -> (forall s, goes_on e' s = goes_on e s) -> (casts e = true -> casts e' = true) -> follow c q' e' k.
Proof.
  intros [k' H|r s u k' R B L I T U|r k' R H] Q O EI EG EC.
  - apply fo_stop. now rewrite O.
  - eapply fo_op; try eassumption; [lia|congruence|]. now rewrite EG.
  - apply fo_cast; auto.
Qed.
Lemma follow_some c q e k : follow c q e k -> exists r l, k = r :: l.
Proof. intros [k' (r & l & -> & _)| |]; eauto. Qed.

(** ** Tokens of operators *)
Lemma prec_op c r s : sy r s -> binary_in c s -> precedence_of_token c r = Some (level s).
Proof.
  intros R B. unfold precedence_of_token. unfold terminal_of in R. destruct (t_type (r_token r)); try discriminate. injection R as ->.
  unfold binary_in in B. destruct s; try easy; cbn; unfold has_luau, has_lua53 in B;
    try (apply andb_prop in B as (B & _); rewrite B; reflexivity). destruct B as [B|B]; apply andb_prop in B as (B & _); rewrite B, ?orb_true_r; reflexivity.
Qed.
Lemma prec_stop c o r : stop c o (terminal_of r) = true -> precedence_of_token c r = None.
Proof. unfold precedence_of_token, terminal_of. destruct (t_type (r_token r)) as [|?|? ?|?|?|?|? ? ?|y|?|? ?|?]; try reflexivity. destruct y; cbn; intros H; try reflexivity; discriminate. Qed.
Lemma prec_cast c r : sy r STwoColons -> precedence_of_token c r = None.
Proof. unfold precedence_of_token, terminal_of. destruct (t_type (r_token r)) as [|?|? ?|?|?|?|? ? ?|y|?|? ?|?]; try reflexivity. intros [= ->]. reflexivity. Qed.
Lemma run_binop c r s k : sy r s -> binary_in c s -> gives (consume_binop c) (r :: k) (Nd (KBinOp s) [Tok r], r) k.
Proof.
  intros R B. unfold consume_binop. rstep. rstep. cbv iota. rewrite (prec_op c r s R B). unfold terminal_of in R. destruct (t_type (r_token r)); try discriminate. injection R as ->.
  assert (E : binop_enabled c s = true). { unfold binary_in in B. destruct s; try easy; cbn; auto. destruct B as [-> | ->]; auto using orb_true_r. }
  rewrite E. rsteps. auto.
Qed.
Lemma right_assoc_op r s : sy r s -> is_right_associative_token r = right_associative s.
Proof.
  intros R. unfold is_right_associative_token, right_associative. rewrite !test_symbol, R. cbn [term_symbol]. unfold symbol_eqb.
  destruct (symbol_eq_dec s SCaret), (symbol_eq_dec s STwoDots), (symbol_eq_dec SCaret s), (symbol_eq_dec STwoDots s); subst; try easy; congruence.
Qed.
Lemma level_bound c s : binary_in c s -> 1 <= level s <= 12 /\ level s <> 11.
Proof.
  intros B. assert (X : Nat.leb 1 (level s) && Nat.leb (level s) 12 && negb (Nat.eqb (level s) 11) = true) by (destruct s; cbn in B; try contradiction; reflexivity).
  apply andb_prop in X as (X & Z). apply andb_prop in X as (X & Y). apply Nat.leb_le in X, Y. apply negb_true_iff, Nat.eqb_neq in Z. lia.
Qed.
Lemma same_right c s z : binary_in c s -> binary_in c z -> level s = level z -> right_associative s = right_associative z.
Proof.
  assert (X : forall s, binary_in c s -> right_associative s = Nat.eqb (level s) 8 || Nat.eqb (level s) 12) by (intros y Y; destruct y; cbn in Y; try contradiction; reflexivity).
  intros B C E. rewrite !X by assumption. now rewrite E.
Qed.

Lemma level_right c s : binary_in c s -> right_associative s = false -> level s <> 12.
Proof.
  intros B. assert (X : right_associative s = Nat.eqb (level s) 8 || Nat.eqb (level s) 12) by (destruct s; cbn in B; try contradiction; reflexivity).
  rewrite X. intros Y E. rewrite E in Y. discriminate.
Qed.
Local Opaque level.

(** ** Expressions are a unit and then operators *)
Lemma spine_app c q l rest e s o r : spine c q l rest e -> binary_in c s -> sy o s -> expression c r -> q <= level s -> left_of (head_of e) s = true -> right_of (head_of r) s = true ->
  ends_in_if e = false -> goes_on e s = false -> spine c q l (rest ++ o :: printed r) (Nd KExprBinary [e; Nd (KBinOp s) [Tok o]; r]).
Proof.
  intros S B O R Q A D I T. induction S as [e|l s' o' r' rest e B' O' R' Q' A' D' I' T' S IH].
  - cbn [app]. rewrite <- (app_nil_r (printed r)). econstructor; eauto. constructor.
  - cbn [app]. rewrite <- app_assoc. eapply sp_step with (s := s'); eauto.
Qed.
Lemma spine_nil c q l e : spine c q l [] e -> l = e.
Proof. intros H. inversion H. reflexivity. Qed.
Definition at_least (q : nat) (h : outer) : Prop := match h with Binary z => q <= level z | _ => True end.
Lemma unit_head c u : unit_expression c u -> head_of u = Unary \/ head_of u = Operand.
Proof. intros H. inversion H as [? A| | | |]; subst; auto. inversion A as [| | | |? P| | | | | |]; subst; auto. inversion P; subst; auto. Qed.
Fixpoint first_unit (e : tree) : tree := match e with Nd KExprBinary [l; _; _] => first_unit l | _ => e end.
Fixpoint after_unit (e : tree) : list tokref := match e with Nd KExprBinary [l; Nd (KBinOp _) [Tok o]; r] => after_unit l ++ o :: printed r | _ => [] end.
Lemma unit_first c u : unit_expression c u -> first_unit u = u /\ after_unit u = [].
Proof. intros H. inversion H as [? A| | | |]; subst; auto. inversion A as [| | | |? P| | | | | |]; subst; auto. inversion P; subst; auto. Qed.
Lemma decompose c e : expression c e -> unit_expression c (first_unit e) /\ printed e = printed (first_unit e) ++ after_unit e /\
  (forall q, at_least q (head_of e) -> spine c q (first_unit e) (after_unit e) e).
Proof.
  induction 1 as [e U|l s o r L (U & E & S) B O R _ A D I T].
  - destruct (unit_first c e U) as (-> & ->). rewrite app_nil_r. repeat split; auto. intros. constructor.
  - cbn [first_unit after_unit]. repeat split; auto.
    + spell. now rewrite E, <- app_assoc.
    + intros q Q. change (q <= level s) in Q. apply spine_app; auto. apply S. unfold at_least, left_of in *. destruct (head_of l); auto. apply orb_prop in A as [A|A]; [apply Nat.ltb_lt in A; lia|].
      apply andb_prop in A as (A & _). apply Nat.eqb_eq in A. lia.
Qed.
Lemma expression_first c e : expression c e -> exists r l, printed e = r :: l /\ exp_start (terminal_of r) = true.
Proof. intros H. destruct (lead_expression c e H) as (r & l & E & F & _). eauto. Qed.

(** What follows the first part of a spine. [q] is above its first operator. *)
Lemma spine_follow c q q1 l rest e k : spine c q l rest e -> follow c q e k -> q <= q1 \/ rest <> [] -> (forall s, left_of (head_of l) s = true -> binary_in c s -> level s < q1) -> follow c q1 l (rest ++ k).
Proof.
  intros S F Q1 H. destruct S as [e|l s o r rest e B O R Q A D I T S]; cbn [app].
  - eapply follow_mono; [exact F|destruct Q1; [assumption|easy]|reflexivity..|auto].
  - destruct (expression_first c r R) as (u & m & E & FU). rewrite <- app_assoc, E. cbn [app]. eapply fo_op; eauto. intros Z. rewrite Z in FU. discriminate.
Qed.
Lemma unit_above c u s : unit_expression c u -> left_of (head_of u) s = true -> binary_in c s -> level s < unit_level u.
Proof.
  intros U A B. unfold unit_level. apply level_bound in B. destruct (unit_head c u U) as [E|E]; rewrite E in *; [|lia]. now apply Nat.ltb_lt in A.
Qed.

(** The level at which the right operand of [s] ends. *)
Definition right_level (s : symbol) : nat := if right_associative s then level s else S (level s).
Lemma spine_right c q l s o r rest e k : spine c q (Nd KExprBinary [l; Nd (KBinOp s) [Tok o]; r]) rest e -> follow c q e k -> q <= level s -> binary_in c s -> follow c (right_level s) r (rest ++ k).
Proof.
  intros S F Q B. apply (follow_mono c (right_level s) _ (Nd KExprBinary [l; Nd (KBinOp s) [Tok o]; r])); try reflexivity; [|auto].
  eapply spine_follow; [exact S|exact F|left; unfold right_level; destruct (right_associative s); lia|].
  intros z A Z. change (Nat.ltb (level z) (level s) || (Nat.eqb (level z) (level s) && negb (right_associative z)) = true) in A. unfold right_level. apply orb_prop in A as [A|A]; [apply Nat.ltb_lt in A; destruct (right_associative s); lia|].
  apply andb_prop in A as (A & N). apply Nat.eqb_eq in A. rewrite (same_right c s z) by (auto; congruence). apply negb_true_iff in N. rewrite N. lia.
Qed.

(** The inner loop. *)
Lemma rt_climb c p o s r T : good c p -> binary_in c s -> sy o s -> expression c r -> right_of (head_of r) s = true -> follow c (right_level s) r T ->
  gives (climb_right c p o (level s) (first_unit r)) (after_unit r ++ T) (Some r) T.
Proof.
  intros G B O R D F. destruct (decompose c r R) as (U & E & S). unfold climb_right.
  set (P := fun (a : tree) (ts : list tokref) => (ts = T /\ a = r) \/ (exists m, m <> [] /\ spine c (Datatypes.S (level s)) a m r /\ ts = m ++ T) \/
    exists x z w y m, r = Nd KExprBinary [x; Nd (KBinOp z) [Tok w]; y] /\ level z = level s /\ right_associative s = true /\ binary_in c z /\ sy w z /\ expression c y /\
      left_of (head_of x) z = true /\ right_of (head_of y) z = true /\ ends_in_if x = false /\ goes_on x z = false /\
      spine c (Datatypes.S (level s)) a m x /\ ts = m ++ w :: printed y ++ T).
  apply (run_loop P).
  - assert (X : at_least (Datatypes.S (level s)) (head_of r) \/ exists z, head_of r = Binary z /\ level z = level s /\ right_associative s = true).
    { unfold at_least, right_of in *. destruct (head_of r) as [z| |]; auto. apply orb_prop in D as [D|D]; [apply Nat.ltb_lt in D; left; lia|].
      apply andb_prop in D as (D & N). apply Nat.eqb_eq in D. right. exists z. auto. }
    destruct X as [X|(z & EZ & LZ & RA)].
    + apply S in X. destruct (after_unit r) as [|t rest]; [left; split; [reflexivity|now apply spine_nil in X]|]. right. left. exists (t :: rest). repeat split; [easy|assumption].
    + right. right. inversion R as [? U1|x z' w y X BZ W Y A D1 I T1]; subst; [destruct (unit_head _ _ U1); congruence|]. cbn in EZ. injection EZ as ->.
      exists x, z, w, y, (after_unit x). destruct (decompose c x X) as (_ & _ & S').
      assert (AL : at_least (Datatypes.S (level s)) (head_of x)).
      { unfold left_of in A. unfold at_least. destruct (head_of x) as [v| |]; auto. rewrite LZ in A. rewrite (same_right c z s) in A by auto. rewrite RA in A. cbn [negb] in A. rewrite andb_false_r, orb_false_r in A.
        now apply Nat.ltb_lt in A. }
      specialize (S' _ AL). cbn [first_unit after_unit]. rewrite <- app_assoc. repeat split; auto.
  - intros a ts [(-> & ->)|[(m & N & M & ->)|(x & z & w & y & m & -> & LZ & RA & BZ & W & Y & A & D1 & I & T1 & M & ->)]].
    + inversion F as [k' K|w z u k' W BZ L I T1 NU|w k' W CA]; subst.
      * destruct K as (w & k & -> & K). rsteps. rewrite (prec_stop c _ w K). rsteps. auto.
      * rsteps. rewrite (prec_op c w z W BZ). cbv iota zeta. unfold right_level in L. rewrite (right_assoc_op w z W).
        assert (X : Nat.ltb (level s) (level z) = false) by (apply Nat.ltb_ge; destruct (right_associative s); lia). rewrite X.
        assert (Y : right_associative z && Nat.eqb (level z) (level s) = false).
        { destruct (Nat.eqb (level z) (level s)) eqn:EQ; [|apply andb_false_r]. apply Nat.eqb_eq in EQ. rewrite (same_right c z s) by auto. destruct (right_associative s); [lia|reflexivity]. }
        rewrite Y. rsteps. auto.
      * rsteps. rewrite (prec_cast c w W). rsteps. auto.
    + assert (X : exists w z m', m = w :: m' /\ sy w z /\ binary_in c z /\ level s < level z). { destruct M as [|? z w ? ? ? BZ W R1 Q]; [easy|]. eauto 10. }
      destruct X as (w & z & m' & -> & W & BZ & Q). cbn [app]. rsteps. rewrite (prec_op c w z W BZ). cbv iota zeta. apply Nat.ltb_lt in Q. rewrite Q. rsteps.
      eapply run_gives; [apply (g_prec _ _ G _ (w :: m') r); [eassumption|]|].
      * eapply follow_mono; [exact F|unfold right_level; destruct (right_associative s); lia|reflexivity..|auto].
      * rsteps. left. auto.
    + destruct M as [x|a z' w' r' m x BZ' W' R' Q A' D' I' T' M'].
      * cbn [app]. rsteps. rewrite (prec_op c w z W BZ). cbv iota zeta. rewrite LZ, Nat.ltb_irrefl, Nat.eqb_refl, (right_assoc_op w z W), (same_right c z s), RA by auto. cbn [andb]. rsteps.
        change (w :: printed y ++ T) with ((w :: printed y) ++ T). eapply run_gives; [apply (g_prec _ _ G _ _ (Nd KExprBinary [x; Nd (KBinOp z) [Tok w]; y])) |].
        -- rewrite <- (app_nil_r (printed y)). eapply sp_step with (s := z); eauto; [rewrite LZ; constructor|constructor].
        -- eapply follow_mono; [exact F|unfold right_level; rewrite RA; constructor|reflexivity..|auto].
        -- rsteps. left. auto.
      * cbn [app]. rsteps. rewrite (prec_op c w' z' W' BZ'). cbv iota zeta. assert (Q' : Nat.ltb (level s) (level z') = true) by (now apply Nat.ltb_lt). rewrite Q'. rsteps.
        change (w' :: (printed r' ++ m) ++ w :: printed y ++ T) with ((w' :: printed r' ++ m) ++ w :: printed y ++ T). eapply run_gives; [apply (g_prec _ _ G _ _ x) |].
        -- eapply sp_step with (s := z'); eauto.
        -- destruct (expression_first c y Y) as (u & k' & EY & FU). rewrite EY. cbn [app]. eapply fo_op; eauto; [rewrite LZ; constructor|]. intros Z. rewrite Z in FU. discriminate.
        -- rsteps. right. right. exists x, z, w, y, []. repeat split; auto. constructor.
Qed.
Lemma rt_precedence c p l rest e q k : good c p -> spine c q l rest e -> follow c q e k -> gives (parse_expression_with_precedence c p l q) (rest ++ k) (Value e) k.
Proof.
  intros G H F. unfold parse_expression_with_precedence. apply (run_loop (fun l ts => exists rest, spine c q l rest e /\ ts = rest ++ k)); [eauto|]. clear l rest H.
  intros l ts (rest & S & ->). destruct S as [e|l s o r rest e B O R Q A D I T S]; cbn [app].
  - inversion F as [k' K|w z u k' W BZ L I T1 NU|w k' W CA]; subst.
    + destruct K as (w & k' & -> & K). rsteps. rewrite (prec_stop c _ w K). rsteps. auto.
    + rsteps. rewrite (prec_op c w z W BZ). apply Nat.ltb_lt in L. rewrite L. rsteps. auto.
    + rsteps. rewrite (prec_cast c w W). rsteps. auto.
  - rsteps. rewrite (prec_op c o s O B). assert (X : Nat.ltb (level s) q = false) by (now apply Nat.ltb_ge). rewrite X. rstep.
    eapply run_gives; [apply run_binop; eassumption|]. destruct (decompose c r R) as (U & E & S'). pose proof (spine_right c q l s o r rest e k S F Q B) as FR. rstep. rewrite <- app_assoc, E, <- app_assoc.
    eapply run_gives; [apply (g_primary _ _ G); [exact U|]|].
    + assert (Z : spine c 0 (first_unit r) (after_unit r) r) by (apply S'; destruct (head_of r); cbn; lia).
      destruct (after_unit r) as [|t ts] eqn:EA.
      * assert (EU : first_unit r = r) by (now apply spine_nil in Z). rewrite EU in *. cbn [app]. inversion FR as [k' K|w z u k' W BZ L I1 T1 NU|w k' W CA]; subst; [now apply fo_stop| |now apply fo_cast]. eapply fo_op; eauto.
        unfold unit_level. pose proof (level_bound c z BZ) as HZ. pose proof (level_bound c s B) as HS. unfold right_level in L. pose proof (level_right c s B) as X12.
        unfold unary_level. destruct (right_associative s); [|specialize (X12 eq_refl)]; (destruct (head_of r); clear - L HZ HS X12; lia).
      * inversion Z as [|? z w r' m' ? BZ W R' QZ AZ DZ IZ TZ SZ]; subst. cbn [app]. destruct (expression_first c r' R') as (u & m & EU & FU). rewrite EU. cbn [app].
        eapply fo_op; eauto; [now apply unit_above with c|]. intros NU. rewrite NU in FU. discriminate.
    + cbn [fst snd]. rstep. eapply run_gives; [apply rt_climb; eassumption|]. rsteps. exists rest. auto.
Qed.
