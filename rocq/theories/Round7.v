(** Parsing undoes printing (C48): lists, tables, arguments, suffixes, function bodies. *)
From Verif Require Import LexerSpec PunctuatedProofs.
From Verif Require Export Round6.
From Coq Require Import Lia.
Local Open Scope nat_scope.
Import ListNotations.

Ltac rexp G := match goal with
  | |- run (p_expression _) (_ ++ _) _ => eapply run_gives; [apply (g_exp _ _ G); [eassumption|es]|]; cbv beta iota; tests
  end.

(** ** Lists of expressions *)
Lemma edge_last f s ps v : listed s ps -> In (End v) ps -> on_edge f (listing (map (pair_tree (fun t => t)) ps)) = on_edge f v.
Proof.
  induction 1 as [w|w d ps D L IH]; [intros [E|[]]; injection E as ->; reflexivity|]. intros [E|I]; [discriminate|]. specialize (IH I). destruct ps; [destruct I|]. exact IH.
Qed.
Lemma rt_expressions c p l k : good c p -> several (expression c) SComma l -> follows k (stop c (open (listing l))) -> follows k (fun x => negb (term_symbol x SComma)) ->
  exists x, puncts x = listing l /\ gives (parse_expression_list p) (flat_map printed l ++ k) (Value x) k.
Proof.
  intros G H K N. apply several_pairs in H as (ps & -> & L & F). exists (mkPunctuated ps). split; [reflexivity|]. rewrite printed_pairs. rewrite Forall_forall in F.
  unfold parse_expression_list. apply run_one_or_more; auto.
  - intros v d K' I D. apply (g_exp _ _ G); [apply (F _ I)|es].
  - intros v I. apply (g_exp _ _ G); [apply (F _ I)|]. apply fo_stop. unfold open in *. now rewrite (edge_last _ SComma ps v L I) in K.
Qed.
Lemma rt_no_expressions p c r k : good c p -> is_interpolated r = false -> no_exp (terminal_of r) = true -> gives (parse_expression_list p) (r :: k) NotFound (r :: k).
Proof.
  intros G I N. unfold parse_expression_list, one_or_more. apply run_bind.
  apply (run_loop (fun v ts => v = p_new /\ ts = r :: k)); [auto|]. intros v ts (-> & ->). apply run_bind. eapply run_gives; [now apply (g_noexp _ _ G)|]. rsteps. cbn. rsteps. auto.
Qed.

(** ** Tables *)
Definition field_end (x : terminal) : bool := match x with TSym (SComma | SSemicolon | SRightBrace) => true | _ => false end.
Lemma rt_field c p a fs x k : good c p -> field c x -> follows k field_end -> exists r m, printed x ++ k = r :: m /\ is_symbol r SRightBrace = false /\ gives (table_field c p a fs r) (r :: m) (Some x) k.
Proof.
  intros G H (z & k' & -> & K). assert (ST : forall e, follow c 0 e (z :: k')). { intros e. apply fo_stop. apply follows_here. revert K. destruct (terminal_of z) as [| | |[]|]; cbn; congruence. }
  inversion H; subst.
  - spell. eexists _, _. split; [reflexivity|]. split; [tests; reflexivity|]. unfold table_field, expect_expression_key. rsteps. rexp G. rsteps. eapply run_gives; [apply (g_exp _ _ G); [eassumption|apply ST]|]. rsteps. auto.
  - spell. eexists _, _. split; [reflexivity|]. split; [tests; reflexivity|]. unfold table_field. rsteps. eapply run_gives; [apply (g_exp _ _ G); [eassumption|apply ST]|]. rsteps. auto.
  - match goal with X : f_cfxlua _ = true |- _ => rename X into FX end.
    spell. eexists _, _. split; [reflexivity|]. split; [tests; reflexivity|]. unfold table_field. rewrite FX. cbn [andb]. rsteps. auto.
  - destruct (lead_here exp_start no_equal (printed v) (z :: k')) as (r & m & E & F & N); [eapply lead_expression; eassumption| |].
    { apply follows_here. revert K. destruct (terminal_of z) as [| | |[]|]; cbn; congruence. }
    spell. rewrite E. eexists _, _. split; [reflexivity|]. split; [tests; reflexivity|]. unfold table_field. tests. rstep.
    assert (X : run (if is_identifier r then let! q := peek in ret (is_sym q SEqual) else ret false) (r :: m) (fun b s => b = false /\ s = r :: m)).
    { destruct (is_identifier r) eqn:I; rsteps; [|auto]. apply name_terminal in I. destruct (N I) as (u & w & -> & FU). rsteps. auto. }
    eapply run_gives; [exact X|]. cbv iota. tests. rewrite ?andb_false_r. rstep. rewrite <- E. eapply run_gives; [apply (g_exp _ _ G); [eassumption|apply ST]|]. rsteps. auto.
Qed.
Lemma rt_table_constructor c p a b l k : good c p -> entries (field c) l -> sy b SRightBrace ->
  gives (force_table_constructor c p a) (flat_map printed l ++ b :: k) (Nd KTableConstructor [between a b; listing l]) k.
Proof.
  intros G H B. unfold force_table_constructor. apply run_bind.
  eapply run_conseq with (P := fun r s => r = inl (Nd KTableConstructor [between a b; listing l]) /\ s = k \/ exists f, r = inr f /\ trees f = l /\ s = b :: k).
  - apply (run_loop (fun f ts => exists todo, trees f ++ todo = l /\ entries (field c) todo /\ ts = flat_map printed todo ++ b :: k)); [exists l; auto|].
    intros f ts (todo & E & T & ->). destruct T as [|x X|x q s rest X Q S T]; spell.
    + rsteps. left. rewrite trees_puncts. rewrite app_nil_r in E. rewrite E. auto.
    + destruct (rt_field c p a f x (b :: k) G X) as (r & m & EX & RB & R); [fo|]. rewrite EX. rsteps. rewrite RB. rstep. eapply run_gives; [exact R|]. cbv iota. unfold push_field. rsteps.
      right. eexists. split; [reflexivity|]. rewrite trees_end. auto.
    + destruct (rt_field c p a f x (q :: flat_map printed rest ++ b :: k) G X) as (r & m & EX & RB & R); [destruct S; subst; fo|]. rewrite EX. rsteps. rewrite RB. rstep. eapply run_gives; [exact R|]. cbv iota. unfold push_field.
      destruct S; subst s; rsteps; exists rest; rewrite trees_followed, <- app_assoc; auto.
  - intros r s [(-> & ->)|(f & -> & E & ->)]; rsteps; [auto|]. rewrite trees_puncts, E. auto.
Qed.

(** ** Suffixes *)
Lemma rt_call_arguments c p a k : good c p -> arguments c a -> gives (parse_arguments c p) (printed a ++ k) (Value a) k.
Proof.
  intros G H. unfold parse_arguments. inversion H; subst; spell.
  - rsteps. inversion H2; subst; cbn [flat_map app].
    + eapply run_gives; [eapply rt_no_expressions; [eassumption|eapply test_interpolated; [eassumption|discriminate]|st]|]. rsteps. auto.
    + destruct (rt_expressions c p l (b :: k) G H3) as (x & EX & R); [fo..|]. eapply run_gives; [exact R|]. rsteps. rewrite EX. auto.
  - rsteps. auto.
  - inversion H0; subst. spell. rsteps. eapply run_gives; [eapply rt_table_constructor; eassumption|]. rsteps. auto.
Qed.
Definition args_start (x : terminal) : bool := match x with TString | TSym (SLeftParen | SLeftBrace) => true | _ => false end.
Lemma arguments_start c a : arguments c a -> follows (printed a) args_start.
Proof. intros H. inversion H; subst; spell; try fo. inversion H0; subst. spell. fo. Qed.
Lemma rt_one_suffix c p x k : good c p -> suffix c x -> gives (parse_suffix c p) (printed x ++ k) (Value x) k.
Proof.
  intros G H. unfold parse_suffix. inversion H; subst; spell.
  - match goal with D : dot_in _ _ |- _ => apply dot_cases in D as [->|(-> & X)] end.
    + rsteps. rewrite ?andb_false_r. unfold dot_suffix. rsteps. auto.
    + rewrite X. rsteps. unfold dot_suffix. rsteps. auto.
  - rsteps. rewrite ?andb_false_r. rsteps. rexp G. rstep. apply run_last_token; [eapply lead_not_nil, lead_expression; eassumption|]. intros z. rsteps. auto.
  - destruct (arguments_start c a H0) as (r & m & E & F). pose proof (rt_call_arguments c p a k G H0) as R. rewrite E in *. cbn [app] in *. rsteps.
    assert (X4 : is_symbol r SLeftParen || is_symbol r SLeftBrace || is_string r = true).
    { rewrite !test_symbol, test_string. unfold args_start in F. destruct (terminal_of r) as [| | |[]|]; try discriminate F; reflexivity. }
    rewrite X4, ?andb_false_r. rstep. eapply run_gives; [exact R|]. rsteps. auto.
  - rsteps. rewrite ?andb_false_r. cbn [orb andb]. rsteps. destruct (arguments_start c a H3) as (r & m & E & F).
    match goal with I : optional _ _ |- _ => inversion I; subst end; spell.
    + destruct (has_luau c); rsteps; (rewrite E; cbn [app]; rsteps; change (r :: m ++ k) with ((r :: m) ++ k); rewrite <- E) || idtac;
      (eapply run_gives; [eapply rt_call_arguments; eassumption|]); rsteps; auto.
    + destruct (rt_instantiation c p t (printed a ++ k) G H4) as (u & rest & ET & U & R). rewrite ET. assert (L : has_luau c = true) by (inversion H4; assumption). rewrite L. rsteps.
      eapply run_gives; [exact R|]. rsteps. eapply run_gives; [eapply rt_call_arguments; eassumption|]. rsteps. auto.
  - assert (L : has_luau c = true) by (inversion H0; assumption). destruct (rt_instantiation c p i k G H0) as (u & rest & ET & U & R). rewrite ET.
    assert (X : exists v m, rest = v :: m /\ sy v SLessThan) by (revert ET; inversion H0; subst; spell; intros ET; injection ET as -> <-; eauto). destruct X as (v & m & -> & V).
    rsteps. rewrite ?andb_false_r. cbn [orb andb]. rewrite L. rsteps. eapply run_gives; [exact R|]. rsteps. auto.
Qed.

(** Nothing at [k] goes on with a prefix expression. *)
Definition no_suffix (k : list tokref) : Prop :=
  exists r l, k = r :: l /\ (negb (suffix_start (terminal_of r) || term_symbol (terminal_of r) SQuestionMarkDot) = true \/ sy r SLessThan /\ follows l (fun x => negb (term_symbol x SLessThan))).
Lemma rt_no_suffix c p k : no_suffix k -> gives (parse_suffix c p) k NotFound k.
Proof.
  intros (r & l & -> & H). unfold parse_suffix. rsteps. destruct H as [H|(R & u & m & -> & F)].
  - apply negb_true_iff, orb_false_elim in H as (H & Q). rewrite (test_symbol r SQuestionMarkDot), Q, andb_false_r.
    assert (X : is_symbol r SDot = false /\ is_symbol r SLeftBracket = false /\ is_symbol r SLeftParen || is_symbol r SLeftBrace || is_string r = false /\ is_symbol r SLessThan = false /\ is_symbol r SColon = false).
    { rewrite !test_symbol, test_string. unfold suffix_start in H. destruct (terminal_of r) as [| | |[]|]; try discriminate H; repeat split; reflexivity. }
    destruct X as (-> & -> & -> & -> & ->). cbn [andb]. rsteps. auto.
  - rsteps. rewrite ?andb_false_r. cbn [orb andb]. apply negb_true_iff in F. destruct (has_luau c); rsteps; [rewrite test_symbol, F|]; rsteps; auto.
Qed.
Lemma follow_no_suffix c q e k : follow c q e k -> open e = true -> no_suffix k.
Proof.
  intros [k' (r & l & -> & F)|r s u k' R B _ _ _ U|r k' R _] O; [| |exists r, k'; split; [reflexivity|]; left; now rewrite R].
  - exists r, l. split; [reflexivity|]. left. rewrite O in F. destruct (terminal_of r) as [| | |[]|]; try reflexivity; discriminate F.
  - exists r, (u :: k'). split; [reflexivity|]. assert (X : s = SLessThan \/ negb (suffix_start (TSym s) || term_symbol (TSym s) SQuestionMarkDot) = true).
    { destruct s; auto; contradiction B. }
    destruct X as [->|X]; [right|left; now rewrite R]. split; [assumption|]. apply follows_here. destruct (terminal_of u) as [| | |[]|]; try reflexivity; congruence.
Qed.
Lemma cast_no_suffix r k : sy r STwoColons -> no_suffix (r :: k).
Proof. intros R. exists r, k. split; [reflexivity|]. left. now rewrite R. Qed.

Lemma rt_prefix c p x k : good c p -> prefix_expression c x -> exists y, prefix_tree y = x /\ gives (parse_prefix c p) (printed x ++ k) (Value y) k.
Proof.
  intros G H. inversion H; subst; spell.
  - exists (PrefixName r). split; [reflexivity|]. unfold parse_prefix. rsteps. auto.
  - inversion H0; subst. spell. exists (PrefixExpression (Nd KExprParentheses [between a b; e0])). split; [reflexivity|]. unfold parse_prefix. rsteps. rexp G. rsteps. auto.
Qed.
Lemma rt_suffixes c p x l k : good c p -> prefix_expression c x -> Forall (suffix c) l -> no_suffix k ->
  exists y, prefix_tree y = x /\ gives (parse_prefix_and_suffixes c p) (printed x ++ flat_map printed l ++ k) (Value (y, l)) k.
Proof.
  intros G H F K. destruct (rt_prefix c p x (flat_map printed l ++ k) G H) as (y & E & R). exists y. split; [assumption|]. unfold parse_prefix_and_suffixes. apply run_bind.
  eapply run_gives; [exact R|]. cbv iota. apply run_bind. eapply run_conseq with (P := fun m s => m = l /\ s = k); [|intros m s (-> & ->); rsteps; auto].
  apply (run_loop (fun m ts => exists todo, m ++ todo = l /\ Forall (suffix c) todo /\ ts = flat_map printed todo ++ k)); [exists l; auto|].
  intros m ts (todo & EM & T & ->). apply run_bind. destruct T as [|z todo Z T]; cbn [flat_map app].
  - eapply run_gives; [now apply rt_no_suffix|]. rsteps. rewrite app_nil_r in EM. auto.
  - rewrite <- app_assoc. eapply run_gives; [now apply rt_one_suffix|]. rsteps. exists todo. rewrite <- app_assoc. auto.
Qed.
Lemma last_call (l : list tree) : match last_of l with Some x => is_call x = ends_in_call l | None => l = [] end.
Proof. unfold last_of, ends_in_call. destruct (rev l) as [|x r] eqn:E; cbn [hd_error]; [|reflexivity]. rewrite <- (rev_involutive l), E. reflexivity. Qed.

(** ** First tokens of statements *)
Lemma prefix_first c x k : prefix_expression c x -> follows (printed x ++ k) (fun x => match x with TName | TSym SLeftParen => true | _ => false end).
Proof. intros H. inversion H; subst; spell; [fo|]. inversion H0; subst. spell. fo. Qed.
Lemma variable_first c v k : variable c v -> follows (printed v ++ k) (fun x => match x with TName | TSym SLeftParen => true | _ => false end).
Proof. intros H. inversion H; subst; spell; [fo|eapply prefix_first; eassumption|]. inversion H0; subst. spell. fo. Qed.
Lemma starts_stmt c ts : follows ts (fun x => match x with TName | TSym SLeftParen => true | _ => false end) -> follows ts (stmt_start c).
Proof. apply follows_weaken. intros x H. destruct x as [| | |[]|]; try discriminate H; reflexivity. Qed.
Lemma attributes_stmt c l r s k : attributes c l -> sy r s -> s = SFunction \/ s = SLocal -> follows (flat_map printed l ++ r :: k) (stmt_start c).
Proof.
  intros A R S. inversion A; subst; [cbn [flat_map app]; destruct S; subst; fo|]. inversion H0; subst. inversion H3; subst. spell. fo.
Qed.
Lemma statement_first c s : statement c s -> follows (printed s) (stmt_start c).
Proof.
  intros H. inversion H; subst; spell; try fo.
  - apply starts_stmt. inversion H0; subst; spell; [rewrite <- (app_nil_r (printed t)), <- app_assoc|]; eapply variable_first; eassumption.
  - apply starts_stmt. eapply variable_first; eassumption.
  - apply starts_stmt. eapply prefix_first; eassumption.
  - eapply attributes_stmt; eauto.
  - eapply attributes_stmt; eauto.
  - apply follows_here. match goal with H : sy a STwoColons, L : has_luau c = false |- _ => rewrite H; cbn; rewrite L end. reflexivity.
  - inversion H0; subst. spell. apply follows_here. match goal with W : word _ y |- _ => rewrite (word_name _ _ W) end. reflexivity.
  - apply follows_here. match goal with W : word _ x |- _ => rewrite (word_name _ _ W) end. reflexivity.
  - inversion H0; subst. spell. apply follows_here. match goal with W : word _ y |- _ => rewrite (word_name _ _ W) end. reflexivity.
  - apply follows_here. match goal with W : word _ x |- _ => rewrite (word_name _ _ W) end. reflexivity.
Qed.
Lemma follows_not_nil ts f : follows ts f -> ts <> [].
Proof. intros (r & l & -> & _). discriminate. Qed.
Lemma last_statement_not_nil c s : last_statement c s -> printed s <> [].
Proof. intros H. inversion H; subst; spell; discriminate. Qed.
