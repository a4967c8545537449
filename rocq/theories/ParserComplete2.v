(** Completeness (C36, C46): functions, operands and operator chains. *)
From Verif Require Import LexerSpec PunctuatedProofs.
From Verif Require Export ParserComplete1.
From Coq Require Import Lia.
Local Open Scope nat_scope.
Import ListNotations.

(** ** Function bodies *)
Lemma ok_block_end {dia : dialect} c p name st w o ts e k : good p -> clear [N Chunk] w o -> terminals ts = w -> terminal_of e = TSym SEnd ->
  ok (expect_block_with_end c p name st) (ts ++ e :: k) (som k).
Proof.
  intros G C T E. unfold expect_block_with_end. ostep. eapply ok_val; [eapply (g_block _ G); [eassumption|eassumption|fol]|]. intros b. cbv beta iota.
  assert (A : ok (match block_last_stmt b with
                  | Some l => ends_of l
                  | None => match block_last_of_stmts b with Some l => ends_of l | None => ret (st, st) end
                  end) (e :: k) (here (e :: k))).
  { destruct (block_last_stmt b); [|destruct (block_last_of_stmts b)]; osteps; reflexivity. }
  ostep. eapply ok_here; [exact A|]. intros se. osteps. apply som_intro.
Qed.
(** Parameters: names, or names with an ellipsis at the end. *)
Inductive paramsl : list terminal -> Prop :=
| pl_name : paramsl [TName]
| pl_ellipsis : paramsl [TSym SEllipsis]
| pl_cons w : paramsl w -> paramsl (TName :: TSym SComma :: w).
Lemma names_params w o : listw (fun w o => w = [TName] /\ o = false) w o -> paramsl w.
Proof. induction 1 as [v o (-> & _)|v o w o' (-> & _) _ IH]; [constructor|]. now constructor. Qed.
Lemma names_ellipsis w o : listw (fun w o => w = [TName] /\ o = false) w o -> paramsl (w ++ [TSym SComma; TSym SEllipsis]).
Proof. induction 1 as [v o (-> & _)|v o w o' (-> & _) _ IH]; cbn [app] in *; constructor; [constructor|assumption]. Qed.
Lemma parlist_form {dia : dialect} w o : clear [N ParList] w o -> paramsl w.
Proof.
  intros C. inv_clear C; rewrite ?app_nil_r.
  - match goal with X : clear [N NameList] _ _ |- _ => apply list_forms in X; eapply names_params; exact X end.
  - match goal with X : clear [N NameList] _ _ |- _ => apply list_forms in X; eapply names_ellipsis; exact X end.
  - constructor.
Qed.
Definition ended (l : punctuated tree) : Prop := l = p_new \/ exists l' x, l = p_push l' (End x).
Lemma ok_parameters {dia : dialect} c p ts e k : flat c -> (ts = [] \/ paramsl (terminals ts)) -> terminal_of e = TSym SRightParen ->
  ok (parameter_loop c p) (ts ++ e :: k) (fun r s => s = k /\ exists ps tys rp, r = inr (ps, tys, rp) /\ ended ps).
Proof.
  intros L P E. pose proof L as (L1 & _). unfold parameter_loop.
  apply (ok_loop (fun a ts1 => exists ts', ts1 = ts' ++ e :: k /\ ((fst a = p_new /\ ts' = []) \/ paramsl (terminals ts')))).
  - exists ts. split; [reflexivity|]. destruct P as [->|P]; [now left|now right].
  - intros [ps tys] ts1 (ts' & -> & [(Hp & ->)|W]).
    + cbn in Hp. subst. cbn [app]. osteps. split; [reflexivity|]. unfold ended. eauto 8.
    + remember (terminals ts') as w eqn:Ew. symmetry in Ew. rewrite L1. destruct W as [| |w W]; split_ts.
      * osteps. eapply ok_val; [now apply ok_name|]. intros n. cbv beta iota. cbn [unwrap]. osteps. split; [reflexivity|]. unfold ended. eauto 8.
      * osteps. split; [reflexivity|]. unfold ended. eauto 8.
      * osteps. eapply ok_val; [now apply ok_name|]. intros n. cbv beta iota. cbn [unwrap]. osteps. eexists. split; [reflexivity|]. right. congruence.
Qed.
Lemma ok_body {dia : dialect} c p w o ts k : flat c -> good p -> clear [N FuncBody] w o -> terminals ts = w -> ok (parse_function_body c p) (ts ++ k) (val k).
Proof.
  intros L G C. pose proof L as (L1 & _).
  assert (A : forall lp pr rp tb e, terminal_of lp = TSym SLeftParen -> (pr = [] \/ paramsl (terminals pr)) -> terminal_of rp = TSym SRightParen ->
    (exists o, clear [N Chunk] (terminals tb) o) -> terminal_of e = TSym SEnd -> ok (parse_function_body c p) (lp :: pr ++ rp :: tb ++ e :: k) (val k)).
  { intros lp pr rp tb e El Ep Er (ob & Cb) Ee. unfold parse_function_body, body_return_type. rewrite L1. osteps. eapply ok_conseq; [now apply ok_parameters|].
    cbv beta. intros r s (-> & ps & tys & rp' & -> & En). ostep.
    assert (B : ok (match p_pop ps with
                    | (Some (Punctuated v q), rest) => token_error q (str "trailing commas in arguments are not allowed") ;; ret (p_push rest (End v))
                    | _ => ret ps end) (tb ++ e :: k) (here (tb ++ e :: k))).
    { destruct En as [->|(l' & x & ->)]; [now apply ok_ret|]. rewrite pop_push. now apply ok_ret. }
    eapply ok_here; [exact B|]. intros ps'. osteps. eapply ok_som; [eapply ok_block_end; try eassumption; reflexivity|]. intros [b e']. osteps. apply val_intro. }
  inv_clear C; intros T; split_ts.
  - match goal with |- ok _ (?lp :: ?rp :: ?tb ++ ?e :: _) _ => apply (A lp [] rp tb e); try assumption; [now left|] end. subst; eauto.
  - match goal with |- ok _ (?lp :: ?pr ++ ?rp :: ?tb ++ ?e :: _) _ => apply (A lp pr rp tb e); try assumption end; [right; subst; eapply parlist_form; eassumption|subst; eauto].
Qed.

(** ** Operands *)
Lemma restw_inv {dia : dialect} o1 tr o : restw o1 (terminals tr) o ->
  (tr = [] /\ o1 = o) \/ exists t tu tr' o2, tr = t :: tu ++ tr' /\ In (terminal_of t) binary_terminals /\ unitw (terminals tu) o2 /\ restw o2 (terminals tr') o.
Proof.
  intros R. remember (terminals tr) as w eqn:Ew. symmetry in Ew. destruct R as [o|o b u o2 r o' B U R].
  - left. split; [now apply terminals_nil_inv|reflexivity].
  - right. split_ts. subst. eexists _, _, _, _. repeat split; try eassumption; reflexivity.
Qed.
Lemma left_rest_inv {dia : dialect} o k ts : left_rest o k ts ->
  ts = k \/ exists t tu tr o1, ts = t :: tu ++ tr ++ k /\ In (terminal_of t) binary_terminals /\ unitw (terminals tu) o1 /\ restw o1 (terminals tr) o.
Proof.
  intros (tr & o1 & -> & R). apply restw_inv in R as [(-> & _)|(t & tu & tr' & o2 & -> & B & U & R)]; [now left|right]. exists t, tu, tr', o2. cbn [app]. rewrite <- app_assoc. auto.
Qed.
Lemma left_rest_here {dia : dialect} o k : left_rest o k k.
Proof. exists [], o. split; [reflexivity|constructor]. Qed.
Lemma left_rest_intro {dia : dialect} o1 o tr k : restw o1 (terminals tr) o -> left_rest o k (tr ++ k).
Proof. intros R. now exists tr, o1. Qed.
Lemma rest_suffix_end {dia : dialect} o tr k : restw true (terminals tr) o -> follows k (exp_end o) -> follows (tr ++ k) suffix_end.
Proof.
  intros R F. apply restw_inv in R as [(-> & <-)|(t & tu & tr' & o2 & -> & B & _)].
  - eapply follows_weaken; [|exact F]. ends.
  - apply follows_here. apply binary_in in B as [B _]. revert B. generalize (terminal_of t). apply Forall_forall. repeat constructor.
Qed.
Lemma test_number' t : (match t_type (r_token t) with TNumber _ => true | _ => false end) = is_number t.
Proof. reflexivity. Qed.
Ltac arms := rewrite ?andb_false_r, ?test_number'; tests.

Definition value_rest {dia : dialect} (o : bool) (k : list tokref) (r : pres tree) (s : list tokref) : Prop := (exists e, r = Value e) /\ left_rest o k s.
Lemma ok_primary_arm {dia : dialect} c p : flat c -> good p -> forall u o1 o ts tr k, unitw u o1 -> restw o1 (terminals tr) o -> terminals ts = u -> follows k (exp_end o) ->
  ok (primary_arm c p) (ts ++ tr ++ k) (fun x s => exists e, x = (Value e, false) /\ left_rest o k s).
Proof.
  intros L G u o1 o ts tr k U R T F. pose proof L as (L1 & _). unfold primary_arm. rewrite L1.
  destruct U as [w o1 O|x w o1 X U].
  - destruct O as [x X|w o' C|pw sw l P S|w o' C].
    + apply left_rest_intro with (k := k) in R. cbn in X.
      destruct X as [<-|[<-|[<-|[<-|[<-|[<-|[]]]]]]]; split_ts; osteps; arms; osteps; eauto.
    + apply left_rest_intro with (k := k) in R. split_ts. osteps. arms. unfold anonymous_function. osteps. eapply ok_val; [eapply ok_body; eassumption|].
      intros b. osteps. eauto.
    + apply terminals_app_inv in T as (tp & ts' & -> & Tp & Ts). rewrite <- app_assoc.
      assert (A : ok (let! r := parse_prefix_and_suffixes c p in
        match r with
        | LexerMoved => ret (LexerMoved, true)
        | NotFound => panic
        | Value (x, suffixes) =>
            match last_of suffixes with
            | None =>
                match x with
                | PrefixExpression e => ret (Value e, false)
                | PrefixName r => ret (Value (Nd KExprVar [Nd KVarName [Tok r]]), false)
                end
            | Some l =>
                if is_call l then ret (Value (Nd KExprFunctionCall [Nd KFunctionCall [prefix_tree x; vec suffixes]]), false)
                else ret (Value (Nd KExprVar [Nd KVarExpr [Nd KVarExpression [prefix_tree x; vec suffixes]]]), false)
            end
        end) (tp ++ ts' ++ tr ++ k) (fun x s => exists e, x = (Value e, false) /\ left_rest o k s)).
      { ostep. eapply ok_conseq; [eapply ok_suffixed; try eassumption; eapply rest_suffix_end; eassumption|]. apply left_rest_intro with (k := k) in R.
        intros r s (-> & x & ss & -> & _ & _). destruct (last_of ss) as [q|]; [destruct (is_call q)|destruct x]; osteps; eauto. }
      destruct P as [|w o' C]; split_ts; rewrite <- ?app_assoc in A; cbn [app] in A; osteps; arms; exact A.
    + apply left_rest_intro with (k := k) in R. apply table_form in C as (v & -> & Fs). split_ts. osteps. arms. osteps. eapply ok_here; [eapply ok_table; eassumption|]. intros t. osteps. eauto.
  - pose proof L as (_ & _ & _ & _ & _ & L3). apply unary_in in X as [X Xb]. cbn in X.
    assert (Lb : x = TSym STilde -> has_lua53 c = true) by auto. assert (Lf : has_lua53 c = true -> f_lua53 (c_feat c) = true) by (unfold has_lua53; intros Q; now apply andb_true_iff in Q as [Q _]).
    destruct X as [<-|[<-|[<-|[<-|[]]]]]; split_ts; osteps; arms; rewrite ?(Lf (Lb eq_refl)); osteps; unfold parse_unary_expression, unop; rewrite ?(Lb eq_refl); osteps;
    (eapply ok_conseq; [eapply (g_primary _ G); eassumption|]; cbv beta; intros r s ((e & ->) & (tr' & o' & -> & R')); cbv beta iota; osteps;
     eapply ok_conseq; [eapply (g_precedence _ G); eassumption|]; cbv beta; intros r s ((e' & ->) & Lr & _); osteps; eauto).
Qed.
Lemma ok_primary {dia : dialect} c p : flat c -> good p -> primary_spec (parse_primary_expression c p).
Proof.
  intros L G u o1 o ts tr k U R T F. pose proof L as (L1 & _). unfold parse_primary_expression. rewrite L1. ostep. eapply ok_conseq; [eapply ok_primary_arm; eassumption|].
  cbv beta. intros x s (e & -> & Lr). osteps. eauto.
Qed.
Lemma ok_noexp {dia : dialect} c p : flat c -> noexp_spec (parse_expression c p).
Proof.
  intros (L1 & _) k (t & r & -> & F). unfold parse_expression, parse_primary_expression, primary_arm. rewrite L1. osteps. arms. osteps.
  destruct (t_type (r_token t)) eqn:X; osteps; (split; [reflexivity|reflexivity]).
Qed.

(** ** Operator chains *)
Lemma operator_known {dia : dialect} c t : flat c -> In (terminal_of t) binary_terminals -> exists z n, t_type (r_token t) = TSymbol z /\ precedence_of_token c t = Some n /\ binop_enabled c z = true.
Proof.
  intros (_ & _ & _ & _ & _ & L3) B. apply binary_in in B as [B Bb].
  assert (Lb : In (terminal_of t) (map TSym bit_operators) -> has_lua53 c = true) by auto. assert (Lf : has_lua53 c = true -> f_lua53 (c_feat c) = true) by (unfold has_lua53; intros Q; now apply andb_true_iff in Q as [Q _]).
  clear Bb L3. revert B Lb. unfold terminal_of, precedence_of_token. destruct (t_type (r_token t)); try (cbn; intros X; decompose [or] X; (discriminate || contradiction)).
  all: intros X; cbn in X; decompose [or] X; try contradiction; match goal with H : TSym _ = TSym _ |- _ => injection H as <- | H : _ = _ |- _ => discriminate H end; intros Lb.
  all: try (assert (L : has_lua53 c = true) by (apply Lb; cbn; tauto); rewrite ?(Lf L), ?orb_true_r; eexists _, _; repeat split; unfold binop_enabled; rewrite L, ?orb_true_r; reflexivity).
  all: eexists _, _; repeat split.
Qed.
Lemma no_operator c o t : exp_end o (terminal_of t) = true -> precedence_of_token c t = None.
Proof. unfold terminal_of, precedence_of_token. destruct (t_type (r_token t)) as [| | | | | | |z| | |]; try reflexivity. all: destruct z; try reflexivity; intros X; cbn in X; try discriminate X. Qed.
Lemma ok_climb {dia : dialect} c p op q rhs o k ts : flat c -> good p -> left_rest o k ts -> follows k (exp_end o) ->
  ok (climb_right c p op q rhs) ts (fun r s => (exists e, r = Some e) /\ left_rest o k s).
Proof.
  intros L G H F. unfold climb_right. apply (ok_loop (fun _ ts1 => left_rest o k ts1)); [exact H|]. clear rhs ts H. intros rhs ts H.
  pose proof H as H'. apply left_rest_inv in H' as [->|(t & tu & tr & o1 & -> & B & U & R)].
  - destruct F as (t & r & -> & F). ostep. ostep. cbv beta iota. rewrite (no_operator c o t F). osteps. eauto.
  - ostep. ostep. cbv beta iota. destruct (operator_known c t L B) as (z & n & _ & -> & _). cbv zeta.
    assert (A : forall q', ok (let! r := p_precedence p rhs q' in
                match r with
                | Value e => ret (inl e)
                | NotFound => token_error op (str "expected expression after binary operator") ;; ret (inr None)
                | LexerMoved => ret (inr None)
                end) (t :: tu ++ tr ++ k) (fun (r : tree + option tree) s => match r with inl _ => left_rest o k s | inr b => (exists e, b = Some e) /\ left_rest o k s end)).
    { intros q'. destruct H as (tr0 & o0 & -> & R0). ostep. eapply ok_conseq; [eapply (g_precedence _ G); eassumption|]. cbv beta. intros r s ((e & ->) & Lr & _). osteps. exact Lr. }
    destruct (Nat.ltb q n); [apply A|]. destruct (is_right_associative_token t && Nat.eqb n q); [apply A|]. osteps. eauto.
Qed.
Lemma ok_precedence {dia : dialect} c p : flat c -> good p -> precedence_spec (parse_expression_with_precedence c p).
Proof.
  intros L G lhs q o1 o tr k R F. unfold parse_expression_with_precedence. apply (ok_loop (fun _ ts1 => left_rest o k ts1)); [eapply left_rest_intro; eassumption|].
  clear lhs o1 tr R. intros lhs ts H. pose proof H as H'. apply left_rest_inv in H' as [->|(t & tu & tr & o1 & -> & B & U & R)].
  - destruct F as (t & r & -> & F). ostep. ostep. cbv beta iota. rewrite (no_operator c o t F). osteps. eauto.
  - ostep. ostep. cbv beta iota. destruct (operator_known c t L B) as (z & n & Et & Ep & Eb). rewrite Ep. destruct (Nat.ltb n q) eqn:Z.
    + osteps. split; [eauto|]. split; [assumption|]. intros ->. destruct n; discriminate Z.
    + ostep. unfold consume_binop. ostep. ostep. cbv beta iota. rewrite Et, Ep, Eb. osteps. eapply ok_conseq; [eapply (g_primary _ G); try eassumption; reflexivity|].
      cbv beta. intros r s ((e & ->) & Lr). osteps. eapply ok_conseq; [eapply ok_climb; eassumption|]. cbv beta. intros r s' ((e' & ->) & Lr'). osteps. exact Lr'.
Qed.
Lemma ok_expression {dia : dialect} c p : flat c -> good p -> exp_spec (parse_expression c p).
Proof.
  intros L G w o ts k C T F. apply exp_chain in C as (u & r & o1 & -> & U & R). apply terminals_app_inv in T as (tu & tr & -> & Tu & Tr). rewrite <- app_assoc. unfold parse_expression.
  rewrite <- Tr in R. ostep. eapply ok_conseq; [eapply ok_primary; eassumption|]. cbv beta. intros v s ((e & ->) & (tr' & o' & -> & R')). cbv beta iota.
  eapply ok_conseq; [eapply ok_precedence; eassumption|]. cbv beta. intros v s ((e' & ->) & _ & K). rewrite (K eq_refl). apply val_intro.
Qed.
