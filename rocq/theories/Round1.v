(** Parsing undoes printing (C48): a logic for runs that neither report an error nor panic; lists; printed tokens. *)
From Verif Require Import LexerSpec PunctuatedProofs.
From Verif Require Export ParserComplete RoundSpec.
From Coq Require Import Lia.
Local Open Scope nat_scope.
Import ListNotations.

(** [m] does not panic and reports no error, and stands in front of tokens for which [Q] holds (unless it runs out of fuel). *)
Definition run {A} (m : M A) (ts : list tokref) (Q : A -> list tokref -> Prop) : Prop :=
  forall es, match m (at_toks ts es) with Done (a, s') => exists ts', s' = at_toks ts' es /\ Q a ts' | Panic => False | OutOfFuel => True end.
Notation gives m ts a k := (run m ts (fun r s => r = a /\ s = k)).

Lemma run_ret {A} (a : A) ts (Q : A -> list tokref -> Prop) : Q a ts -> run (ret a) ts Q.
Proof. intros H es. now exists ts. Qed.
Lemma run_fuel {A} ts (Q : A -> list tokref -> Prop) : run (lift OutOfFuel) ts Q.
Proof. intros es. exact I. Qed.
Lemma run_bind {A B} (m : M A) (k : A -> M B) ts Q : run m ts (fun a ts' => run (k a) ts' Q) -> run (bind m k) ts Q.
Proof. intros H es. specialize (H es). unfold bind. destruct (m (at_toks ts es)) as [[a s1]| |]; try assumption. destruct H as (ts1 & -> & K). apply K. Qed.
Lemma run_conseq {A} (m : M A) ts (P Q : A -> list tokref -> Prop) : run m ts P -> (forall a ts', P a ts' -> Q a ts') -> run m ts Q.
Proof. intros H I es. specialize (H es). destruct (m (at_toks ts es)) as [[a s1]| |]; try assumption. destruct H as (ts1 & -> & K). eauto. Qed.
Lemma run_gives {A} (m : M A) ts a k (Q : A -> list tokref -> Prop) : gives m ts a k -> Q a k -> run m ts Q.
Proof. intros H I. eapply run_conseq; [exact H|]. now intros ? ? (-> & ->). Qed.
Lemma run_current t r (Q : option tokref -> list tokref -> Prop) : Q (Some t) (t :: r) -> run current (t :: r) Q.
Proof. intros H es. now exists (t :: r). Qed.
Lemma run_peek t u r (Q : option tokref -> list tokref -> Prop) : Q (Some u) (t :: u :: r) -> run peek (t :: u :: r) Q.
Proof. intros H es. now exists (t :: u :: r). Qed.
Lemma run_take t r (Q : tokref -> list tokref -> Prop) : Q t r -> run take (t :: r) Q.
Proof. intros H es. now exists r. Qed.
Lemma run_consume t r (Q : pres tokref -> list tokref -> Prop) : Q (Value t) r -> run consume (t :: r) Q.
Proof. intros H es. now exists r. Qed.
Lemma run_loop {A B} (I : A -> list tokref -> Prop) (body : A -> M (A + B)) a ts (Q : B -> list tokref -> Prop) :
  I a ts -> (forall a ts1, I a ts1 -> run (body a) ts1 (fun r ts2 => match r with inl a' => I a' ts2 | inr b => Q b ts2 end)) -> run (loop body a) ts Q.
Proof.
  intros Ia Hb es. unfold loop. generalize (S (List.length (st_toks (at_toks ts es)))). intros n. revert a ts Ia.
  induction n as [|n IH]; intros a ts Ia; [exact Logic.I|]. cbn [loop_]. specialize (Hb a ts Ia es).
  destruct (body a (at_toks ts es)) as [[[a1|b1] s1]| |]; try assumption; destruct Hb as (ts1 & -> & K); first [exact (IH a1 ts1 K)|now exists ts1].
Qed.
Lemma run_consume_if y t r (Q : option tokref -> list tokref -> Prop) : (if is_symbol t y then Q (Some t) r else Q None (t :: r)) -> run (consume_if y) (t :: r) Q.
Proof. intros H. apply run_bind, run_current. destruct (is_symbol t y); [now apply run_bind, run_take, run_ret|now apply run_ret]. Qed.
Lemma run_consume_if_symbols ys t r (Q : option tokref -> list tokref -> Prop) :
  (if existsb (is_symbol t) ys then Q (Some t) r else Q None (t :: r)) -> run (consume_if_symbols ys) (t :: r) Q.
Proof. intros H. apply run_bind, run_current. destruct (existsb (is_symbol t) ys); [now apply run_bind, run_take, run_ret|now apply run_ret]. Qed.
Lemma run_require y msg t r (Q : option tokref -> list tokref -> Prop) : is_symbol t y = true -> Q (Some t) r -> run (require y msg) (t :: r) Q.
Proof. intros E H. apply run_bind, run_current. rewrite E. now apply run_bind, run_take, run_ret. Qed.
Lemma run_require_token y msg a t r (Q : option tokref -> list tokref -> Prop) : is_symbol t y = true -> Q (Some t) r -> run (require_with_reference_token y msg a) (t :: r) Q.
Proof. intros E H. apply run_bind, run_current. rewrite E. now apply run_bind, run_take, run_ret. Qed.
Lemma run_require_range y msg a b t r (Q : option tokref -> list tokref -> Prop) : is_symbol t y = true -> Q (Some t) r -> run (require_with_reference_range y msg a b) (t :: r) Q.
Proof. intros E H. apply run_bind, run_current. rewrite E. now apply run_bind, run_take, run_ret. Qed.
Lemma run_require_callback y msg ab t r (Q : option tokref -> list tokref -> Prop) : is_symbol t y = true -> Q (Some t) r -> run (require_with_reference_range_callback y msg ab) (t :: r) Q.
Proof. intros E H. apply run_bind, run_current. rewrite E. now apply run_bind, run_take, run_ret. Qed.

(** ** Tokens that are asked for *)
Lemma in_pick r cs o : In r (pick printed cs o) -> (forall t, In t cs -> In r (printed t) -> In r (leaves t)) -> (forall t u, In t cs -> In u (subs t) -> In r (printed u) -> In r (leaves u)) ->
  (forall t u v, In t cs -> In u (subs t) -> In v (subs u) -> In r (printed v) -> In r (leaves v)) -> In r (flat_map leaves cs).
Proof.
  intros H H1 H2 H3. assert (D : forall t, In t cs -> In r (leaves t) -> In r (flat_map leaves cs)) by (intros t A B; apply in_flat_map; eauto).
  assert (S : forall t, leaves t = match t with Tok x => [x] | _ => flat_map leaves (subs t) end) by (intros [| |]; reflexivity).
  assert (D2 : forall t u, In t cs -> In u (subs t) -> In r (leaves u) -> In r (flat_map leaves cs)).
  { intros t u A B C. apply (D t A). rewrite S. destruct t; [destruct B|apply in_flat_map; eauto|apply in_flat_map; eauto]. }
  assert (D3 : forall t u v, In t cs -> In u (subs t) -> In v (subs u) -> In r (leaves v) -> In r (flat_map leaves cs)).
  { intros t u v A B C X. apply (D2 t u A B). rewrite S. destruct u; [destruct C|apply in_flat_map; eauto|apply in_flat_map; eauto]. }
  assert (AT : forall n l, In r (at_ printed n l) -> exists t, In t l /\ In r (printed t)).
  { intros n l X. unfold at_ in X. destruct (nth_error l n) as [t|] eqn:E; [|destruct X]. apply nth_error_In in E. eauto. }
  assert (SA : forall n u, In u (subs_at n cs) -> exists t, In t cs /\ In u (subs t)).
  { intros n u X. unfold subs_at in X. destruct (nth_error cs n) as [t|] eqn:E; [|destruct X]. apply nth_error_In in E. eauto. }
  destruct o as [n|n|n|n ms p]; cbn [pick] in H.
  - apply AT in H as (t & A & B). eauto.
  - apply AT in H as (u & A & B). apply SA in A as (t & A & C). eauto.
  - apply AT in H as (u & A & B). apply SA in A as (t & A & C). eauto.
  - assert (V : forall vs, In vs (map (fun m => subs_at m cs) ms) -> forall u, In u vs -> exists t, In t cs /\ In u (subs t)).
    { intros vs X u Y. apply in_map_iff in X as (m & <- & _). eauto. }
    assert (P : forall u, In u (subs_at n cs) -> exists t, In t cs /\ In u (subs t)) by eauto.
    revert H V P. generalize (subs_at n cs). generalize (map (fun m => subs_at m cs) ms). intros vs ps. revert vs. induction ps as [|x ps IH]; intros vs H V P; [destruct H|].
    cbn [zip_pick] in H. apply in_app_iff in H as [H|H]; [apply AT in H as (v & A & B); destruct (P x (or_introl eq_refl)) as (t & C & E); eauto|].
    apply in_app_iff in H as [H|H]; [apply in_flat_map in H as (w & A & B); apply AT in B as (u & B & C); destruct (V w A u B) as (t & E & F); eauto|].
    apply in_app_iff in H as [H|H].
    + destruct p; [|destruct H]. apply AT in H as (v & A & B); destruct (P x (or_introl eq_refl)) as (t & C & E); eauto.
    + apply (IH _ H); [|intros u X; apply P; now right]. intros w X u Y. apply in_map_iff in X as (w' & <- & X). apply (V w' X). destruct w'; [destruct Y|now right].
Qed.
Lemma sum_in t cs : In t cs -> tree_size t <= list_sum (map tree_size cs).
Proof. induction cs as [|x cs IH]; intros []; cbn; [subst; lia|]. specialize (IH H). unfold list_sum in IH. lia. Qed.
Lemma size_subs t u : In u (subs t) -> tree_size u < tree_size t.
Proof. destruct t as [r|k cs|k cs]; intros H; [destruct H| |]; cbn [subs] in H; apply sum_in in H; cbn [tree_size]; lia. Qed.
Lemma printed_leaf r t : In r (printed t) -> In r (leaves t).
Proof.
  assert (H : forall n t, tree_size t <= n -> In r (printed t) -> In r (leaves t)); [|apply (H (tree_size t)); lia].
  clear t. induction n as [|n IH]; intros t S H; [destruct t; cbn in S; lia|]. destruct t as [x|k cs|k cs]; [exact H| |].
  - rewrite printed_con in H. apply in_flat_map in H as (t & A & B). cbn [leaves]. apply in_flat_map. exists t. split; [assumption|].
    apply IH; [|assumption]. pose proof (size_subs (Con k cs) t A). lia.
  - rewrite printed_nd in H. apply in_flat_map in H as (o & _ & B). cbn [leaves]. eapply in_pick; [exact B| | |].
    + intros t A X. apply IH; [|assumption]. pose proof (size_subs (Nd k cs) t A). lia.
    + intros t u A C X. apply IH; [|assumption]. pose proof (size_subs (Nd k cs) t A). pose proof (size_subs t u C). lia.
    + intros t u v A C D X. apply IH; [|assumption]. pose proof (size_subs (Nd k cs) t A). pose proof (size_subs t u C). pose proof (size_subs u v D). lia.
Qed.
Lemma printed_leaves t : printed t <> [] -> leaves t <> [].
Proof. intros H E. destruct (printed t) as [|r l] eqn:P; [easy|]. pose proof (printed_leaf r t) as X. rewrite P, E in X. destruct X. now left. Qed.

Lemma run_last_token t ts (Q : tokref -> list tokref -> Prop) : printed t <> [] -> (forall r, Q r ts) -> run (last_token t) ts Q.
Proof. intros N H es. destruct (last_token_done t (at_toks ts es) (printed_leaves t N)) as (r & ->). now exists ts. Qed.
Lemma run_first_token t ts (Q : tokref -> list tokref -> Prop) : printed t <> [] -> (forall r, Q r ts) -> run (first_token t) ts Q.
Proof. intros N H es. destruct (first_token_done t (at_toks ts es) (printed_leaves t N)) as (r & ->). now exists ts. Qed.
Lemma run_ends_of t ts (Q : tokref * tokref -> list tokref -> Prop) : printed t <> [] -> (forall r, Q r ts) -> run (ends_of t) ts Q.
Proof. intros N H es. destruct (ends_of_done t (at_toks ts es) (printed_leaves t N)) as (r & ->). now exists ts. Qed.

Ltac rstep := first
  [ lazymatch goal with
    | |- run (bind _ _) _ _ => apply run_bind
    | |- run current (_ :: _) _ => apply run_current
    | |- run peek (_ :: _ :: _) _ => apply run_peek
    | |- run take (_ :: _) _ => apply run_take
    | |- run consume (_ :: _) _ => apply run_consume
    | |- run (consume_if _) (_ :: _) _ => apply run_consume_if
    | |- run (consume_if_symbols _) (_ :: _) _ => apply run_consume_if_symbols
    | |- run (require _ _) (_ :: _) _ => apply run_require; [tests; reflexivity|]
    | |- run (require_with_reference_token _ _ _) (_ :: _) _ => apply run_require_token; [tests; reflexivity|]
    | |- run (require_with_reference_range _ _ _ _) (_ :: _) _ => apply run_require_range; [tests; reflexivity|]
    | |- run (require_with_reference_range_callback _ _ _) (_ :: _) _ => apply run_require_callback; [tests; reflexivity|]
    | |- run (ret _) _ _ => apply run_ret
    | |- run (lift OutOfFuel) _ _ => apply run_fuel
    | |- run (unwrap (Value _)) _ _ => apply run_ret
    end
  | progress tests ].
Ltac rsteps := repeat (rstep; cbv beta iota; tests).

(** Spells out the tokens of a tree whose nodes are known. *)
Ltac spell1 := cbn [display_order in_order fields List.length seq map flat_map pick at_ subs_at subs nth_error app].
Ltac spell := repeat (progress (rewrite ?printed_nd, ?printed_con, ?printed_tok; spell1)); rewrite ?app_nil_r; repeat (progress rewrite <- ?app_assoc; cbn [app]).

(** ** Lists *)
Inductive listed {A} (s : symbol) : list (pair_of A) -> Prop :=
| l_last v : listed s [End v]
| l_more v d ps : sy d s -> listed s ps -> listed s (Punctuated v d :: ps).
Notation ltoks tk ps := (flat_map (pair_toks tk) ps).

Lemma run_one_or_more {A} (parser : M (pres A)) s (tk : A -> list tokref) ps k : listed s ps ->
  (forall v d K, In (Punctuated v d) ps -> sy d s -> gives parser (tk v ++ d :: K) (Value v) (d :: K)) ->
  (forall v, In (End v) ps -> gives parser (tk v ++ k) (Value v) k) -> follows k (fun x => negb (term_symbol x s)) ->
  gives (one_or_more parser s) (ltoks tk ps ++ k) (Value (mkPunctuated ps)) k.
Proof.
  intros L H1 H2 (t & r & -> & F). unfold one_or_more. apply run_bind.
  apply (run_loop (fun values ts => exists todo, pairs values ++ todo = ps /\ listed s todo /\ ts = ltoks tk todo ++ t :: r)).
  - exists ps. repeat split; assumption.
  - intros values ts (todo & E & T & ->). inversion T as [v X|v d rest D T1 X]; subst todo; cbn [flat_map pair_toks app]; rewrite ?app_nil_r, <- ?app_assoc; cbn [app].
    + apply run_bind. eapply run_gives; [apply H2; rewrite <- E; apply in_app_iff; right; now left|]. cbv iota. rstep. apply run_consume_if.
      rewrite test_symbol. apply negb_true_iff in F. rewrite F. rsteps. rewrite push_not_empty, pop_push. apply run_ret. split; [|reflexivity].
      f_equal. unfold p_push. now rewrite E.
    + apply run_bind. eapply run_gives; [apply H1; [rewrite <- E; apply in_app_iff; right; now left|assumption]|]. cbv iota. apply run_bind, run_consume_if.
      rewrite test_symbol, D. cbn [term_symbol]. unfold symbol_eqb. destruct (symbol_eq_dec s s); [|easy]. rsteps. exists rest. unfold p_push. cbn [pairs]. rewrite <- app_assoc. now repeat split.
Qed.
Lemma several_pairs P s l : several P s l -> exists ps, l = map (pair_tree (fun t => t)) ps /\ listed s ps /\ Forall (fun x => P (pair_value x)) ps.
Proof.
  induction 1 as [t H|t d l H D _ (ps & -> & L & F)].
  - exists [End t]. repeat split; repeat constructor. assumption.
  - exists (Punctuated t d :: ps). repeat split; constructor; assumption.
Qed.
Lemma printed_pairs ps : flat_map printed (map (pair_tree (fun t => t)) ps) = ltoks printed ps.
Proof. rewrite flat_map_concat_map, map_map, <- flat_map_concat_map. apply flat_map_ext. intros [v|v d]; cbn [pair_tree pair_toks]; rewrite printed_con; cbn [flat_map]; rewrite ?app_nil_r; reflexivity. Qed.
Definition trees (x : punctuated tree) : list tree := map (pair_tree (fun t => t)) (pairs x).
Lemma trees_puncts x : puncts x = listing (trees x).
Proof. reflexivity. Qed.
Lemma trees_end x v : trees (p_push x (End v)) = trees x ++ [final v].
Proof. unfold trees. cbn. now rewrite map_app. Qed.
Lemma trees_followed x v d : trees (p_push x (Punctuated v d)) = trees x ++ [followed v d].
Proof. unfold trees. cbn. now rewrite map_app. Qed.
