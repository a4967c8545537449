(** Parsing undoes printing (C48): lists of names and variables, statements. *)
From Verif Require Import LexerSpec PunctuatedProofs.
From Verif Require Export Round9.
From Coq Require Import Lia.
Local Open Scope nat_scope.
Import ListNotations.

(** Tokens that end a statement; [o]: the statement is open. *)
Definition after_stmt (c : cfg) (o : bool) (x : terminal) : bool := stop c o x && negb (term_symbol x SComma).
Lemma after_stmt_stop c o k : follows k (after_stmt c o) -> follows k (stop c o).
Proof. apply follows_weaken. intros x H. now apply andb_true_iff in H as [H _]. Qed.
Lemma after_stmt_comma c o k : follows k (after_stmt c o) -> follows k (fun x => negb (term_symbol x SComma)).
Proof. apply follows_weaken. intros x H. now apply andb_true_iff in H as [_ H]. Qed.
Lemma after_stmt_type c o k : follows k (after_stmt c o) -> follows k after_type.
Proof. intros H. apply after_stmt_stop in H. eapply follows_weaken; [|exact H]. intros x. apply stop_after_type. Qed.
Lemma stop_no_suffix c k : follows k (stop c true) -> no_suffix k.
Proof. intros H. apply (follow_no_suffix c 0 (Nd KExprVar [])); [|reflexivity]. now apply fo_stop. Qed.
Lemma symbol_no_suffix r s k : sy r s -> suffix_start (TSym s) = false -> s <> SQuestionMarkDot -> no_suffix (r :: k).
Proof. intros R S Q. exists r, k. split; [reflexivity|]. left. rewrite R, S. destruct s; auto. Qed.
Lemma name_no_suffix r k : nm r -> no_suffix (r :: k).
Proof. intros R. exists r, k. split; [reflexivity|]. left. now rewrite R. Qed.

(** ** Lists *)
Lemma several_as {A} (P : tree -> Prop) (f : A -> tree) s l : (forall t, P t -> exists a, f a = t) -> several P s l ->
  exists ps, l = map (pair_tree f) ps /\ listed s ps /\ Forall (fun x => P (f (pair_value x))) ps.
Proof.
  intros H. induction 1 as [t T|t d l T D _ (ps & -> & L & F)]; destruct (H t T) as (a & <-).
  - exists [End a]. repeat split; repeat constructor. assumption.
  - exists (Punctuated a d :: ps). repeat split; constructor; assumption.
Qed.
Lemma printed_as {A} (f : A -> tree) ps : flat_map printed (map (pair_tree f) ps) = ltoks (fun a => printed (f a)) ps.
Proof. rewrite flat_map_concat_map, map_map, <- flat_map_concat_map. apply flat_map_ext. intros [v|v d]; cbn [pair_tree pair_toks]; rewrite printed_con; cbn [flat_map]; rewrite ?app_nil_r; reflexivity. Qed.
Definition mark {A} (x : pair_of A) : list tokref := match x with End _ => [] | Punctuated _ d => [d] end.
Lemma run_push {A} (l : list (pair_of A)) v w d ts (Q : punctuated A -> list tokref -> Prop) :
  Q (mkPunctuated (l ++ [Punctuated v d; End w])) ts -> run (push_punctuated (mkPunctuated (l ++ [End v])) w d) ts Q.
Proof.
  intros H. unfold push_punctuated, p_push_punctuated. cbn [pairs]. rewrite pop_snoc. cbn [pair_punctuation]. apply run_ret. rewrite <- app_assoc. exact H.
Qed.

Lemma opt_tree_inj a b : opt_tree a = opt_tree b -> a = b.
Proof. destruct a, b; cbn; congruence. Qed.
Lemma optional_opt (P : tree -> Prop) t : optional P t -> exists o, opt_tree o = t.
Proof. intros []; [now exists None|now eexists (Some _)]. Qed.
Definition attr_of (n : name) : tree := opt_tree (n_attribute n).
Definition type_of (n : name) : tree := opt_tree (n_type_specifier n).
Lemma bindings_names (P : tree -> tree -> Prop) l as_ ts : (forall a t, P a t -> exists x o, opt_tree x = a /\ opt_tree o = t) -> bindings P l as_ ts ->
  exists ps, l = map (pair_tree (fun n => Tok (n_name n))) ps /\ as_ = map attr_of (map pair_value ps) /\ ts = map type_of (map pair_value ps) /\ listed SComma ps /\
    Forall (fun x => nm (n_name (pair_value x)) /\ P (attr_of (pair_value x)) (type_of (pair_value x))) ps.
Proof.
  intros H. induction 1 as [n a t N X|n d a t l as_ ts N D X _ (ps & -> & -> & -> & L & F)]; destruct (H a t X) as (x & o & <- & <-).
  - exists [End (mkName n x o)]. repeat split; repeat constructor; assumption.
  - exists (Punctuated (mkName n x o) d :: ps). repeat split; constructor; auto.
Qed.
Lemma printed_bindings ps : zip_pick printed true (map (pair_tree (fun n => Tok (n_name n))) ps) [map attr_of (map pair_value ps); map type_of (map pair_value ps)] =
  ltoks (fun n => n_name n :: printed (attr_of n) ++ printed (type_of n)) ps.
Proof. induction ps as [|[n|n d] ps IH]; [reflexivity|..]; cbn [map pair_tree zip_pick subs at_ nth_error flat_map tl pair_toks pair_value]; rewrite IH; spell; reflexivity. Qed.
Lemma printed_typed ps : zip_pick printed true (map (pair_tree (fun n => Tok (n_name n))) ps) [map type_of (map pair_value ps)] = ltoks (fun n => n_name n :: printed (type_of n)) ps.
Proof. induction ps as [|[n|n d] ps IH]; [reflexivity|..]; cbn [map pair_tree zip_pick subs at_ nth_error flat_map tl pair_toks pair_value]; rewrite IH; spell; reflexivity. Qed.
Lemma punct_names (ps : list (pair_of name)) : punct Tok (p_from_iter (map (pair_map n_name) (p_pairs (mkPunctuated ps)))) = listing (map (pair_tree (fun n => Tok (n_name n))) ps).
Proof. unfold punct, p_from_iter, p_pairs. cbn [pairs]. rewrite map_map. f_equal. apply map_ext. now intros []. Qed.
Lemma into_names {B} (f : name -> B) ps : map f (p_into_iter (mkPunctuated ps)) = map f (map pair_value ps).
Proof. now rewrite into_iter_eq. Qed.

Lemma rt_bound_names c p l as_ ts k : good c p -> bindings (bound c) l as_ ts -> follows k after_type -> follows k (fun x => negb (term_symbol x SComma)) ->
  exists ps, gives (one_or_more (parse_name_with_attributes c p) SComma) (zip_pick printed true l [as_; ts] ++ k) (Value (mkPunctuated ps)) k /\
    l = map (pair_tree (fun n => Tok (n_name n))) ps /\ as_ = map attr_of (map pair_value ps) /\ ts = map type_of (map pair_value ps).
Proof.
  intros G B K C. apply bindings_names in B.
  - destruct B as (ps & -> & -> & -> & L & F). exists ps. rewrite printed_bindings. split; [|auto]. rewrite Forall_forall in F. apply run_one_or_more; [assumption|..|assumption].
    + intros [n x o] d K' I D. destruct (F _ I) as (N & X). cbn [pair_value n_name] in *. destruct (rt_bound_name c p n _ _ (d :: K') G N X) as (x' & o' & EX & EO & R); [fo|].
      apply opt_tree_inj in EX, EO. cbn in EX, EO. subst. cbn [app]. rewrite <- app_assoc. exact R.
    + intros [n x o] I. destruct (F _ I) as (N & X). cbn [pair_value n_name] in *. destruct (rt_bound_name c p n _ _ k G N X) as (x' & o' & EX & EO & R); [assumption|].
      apply opt_tree_inj in EX, EO. cbn in EX, EO. subst. cbn [app]. rewrite <- app_assoc. exact R.
  - intros a t X. inversion X as [y T|]; subst; [|eexists (Some _), None; split; reflexivity]. apply optional_opt in T as (o & <-). exists None, o. auto.
Qed.
Lemma rt_typed_names c p l as_ ts k : good c p -> bindings (bound_type c) l as_ ts -> follows k after_type -> follows k (fun x => negb (term_symbol x SComma)) ->
  exists ps, gives (parse_name_list c p) (zip_pick printed true l [ts] ++ k) (Value (mkPunctuated ps)) k /\ listed SComma ps /\
    l = map (pair_tree (fun n => Tok (n_name n))) ps /\ ts = map type_of (map pair_value ps) /\ Forall (fun x => n_attribute (pair_value x) = None) ps.
Proof.
  intros G B K C. apply bindings_names in B.
  - destruct B as (ps & -> & -> & -> & L & F). exists ps. rewrite printed_typed. split; [|repeat split; auto; eapply Forall_impl; [|exact F]; intros x (_ & X); inversion X as [t T EA ET]; unfold attr_of in EA; now destruct (n_attribute (pair_value x))]. rewrite Forall_forall in F. apply run_one_or_more; [assumption|..|assumption].
    + intros [n x o] d K' I D. destruct (F _ I) as (N & X). cbn [pair_value n_name] in *. inversion X as [t T EA ET]; subst. destruct (rt_typed_name c p n _ (d :: K') G N T) as (o' & EO & R); [fo|].
      apply opt_tree_inj in EO. cbn in EO. subst. destruct x; [discriminate EA|]. exact R.
    + intros [n x o] I. destruct (F _ I) as (N & X). cbn [pair_value n_name] in *. inversion X as [t T EA ET]; subst. destruct (rt_typed_name c p n _ k G N T) as (o' & EO & R); [assumption|].
      apply opt_tree_inj in EO. cbn in EO. subst. destruct x; [discriminate EA|]. exact R.
  - intros a t X. inversion X as [y T]; subst. apply optional_opt in T as (o & <-). exists None, o. auto.
Qed.

(** ** Names of functions *)
Definition no_path (x : terminal) : bool := match x with TSym (SColon | SDot) => false | _ => true end.
Lemma rt_function_name n k : function_name n -> follows k no_path -> gives expect_function_name (printed n ++ k) (Value n) k.
Proof.
  intros H (r & k' & -> & K).
  assert (X : exists l z, n = Nd KFunctionName [listing l; z] /\ several (fun t => exists r, t = Tok r /\ nm r) SDot l /\ (z = none \/ exists d n, z = some (Con CTuple [Tok d; Tok n]) /\ sy d SColon /\ nm n)).
  { inversion H; subst; eexists _, _; repeat split; eauto 6. }
  destruct X as (l & z & -> & S & Z). apply (several_as _ Tok) in S; [|intros t (u & -> & _); eauto]. destruct S as (ps & -> & L & F). rewrite Forall_forall in F.
  assert (N : forall x, In x ps -> nm (pair_value x)). { intros x I. destruct (F x I) as (u & E & U). injection E as ->. exact U. }
  spell. rewrite printed_as. assert (Y : exists q rest, ps = q :: rest) by (inversion L; eauto). destruct Y as (q0 & rest0 & E0).
  unfold expect_function_name. rewrite E0. pose proof (N q0) as N0. rewrite E0 in N0. specialize (N0 (or_introl eq_refl)).
  replace ((ltoks (fun a => printed (Tok a)) (q0 :: rest0)) ++ printed z ++ r :: k') with (pair_value q0 :: mark q0 ++ ltoks (fun a => printed (Tok a)) rest0 ++ printed z ++ r :: k')
    by (cbn [flat_map]; rewrite <- app_assoc; destruct q0; reflexivity).
  rsteps. rewrite <- E0.
  apply (run_loop (fun x s => exists done q rest, ps = done ++ q :: rest /\ x = mkPunctuated (done ++ [End (pair_value q)]) /\ listed SDot (q :: rest) /\
     s = mark q ++ ltoks (fun a => printed (Tok a)) rest ++ printed z ++ r :: k')).
  - exists [], q0, rest0. rewrite E0 in *. auto.
  - intros x s (done & q & rest & E & -> & L' & ->). inversion L' as [v EV|v d m D L1]; subst q rest; cbn [mark flat_map app pair_value].
    + assert (EP : punct Tok (mkPunctuated (done ++ [End v])) = listing (map (pair_tree Tok) ps)) by (now rewrite E).
      destruct Z as [->|(d & n & -> & D & NN)].
      * spell. rsteps. unfold no_path in K. assert (T : is_symbol r SColon || is_symbol r SDot = false) by (rewrite !test_symbol; destruct (terminal_of r) as [| | |[]|]; try discriminate K; reflexivity).
        try rewrite T. rsteps. rewrite EP. auto.
      * spell. rsteps. rewrite EP. auto.
    + assert (Y : exists q rest, m = q :: rest) by (inversion L1; eauto). destruct Y as (q & rest & ->). assert (NQ : nm (pair_value q)) by (apply N; rewrite E; apply in_app_iff; right; right; now left).
      replace ((ltoks (fun a => printed (Tok a)) (q :: rest)) ++ printed z ++ r :: k') with (pair_value q :: mark q ++ ltoks (fun a => printed (Tok a)) rest ++ printed z ++ r :: k')
        by (cbn [flat_map]; rewrite <- app_assoc; destruct q; reflexivity).
      rsteps. apply run_push. rsteps. exists (done ++ [Punctuated v d]), q, rest. rewrite <- !app_assoc. auto.
Qed.

(** ** Variables *)
Lemma rt_var c p t k : good c p -> variable c t -> no_suffix k ->
  exists v y l, var_tree v = t /\ gives (parse_prefix_and_suffixes c p) (printed t ++ k) (Value (y, l)) k /\
    match last_of l with
    | Some z => is_call z = false /\ v = VarExpression y l
    | None => match y with PrefixName r => v = VarName r | PrefixExpression _ => v = VarExpression y l end
    end.
Proof.
  intros G V K. inversion V as [r N|x l X F NN NC|e P]; subst.
  - destruct (rt_suffixes c p (Nd KPrefixName [Tok r]) [] k G) as (y & EY & R); [now constructor|constructor|assumption|]. destruct y as [e|r']; [discriminate EY|]. injection EY as ->.
    exists (VarName r), (PrefixName r), []. split; [reflexivity|]. split; [|cbn; eauto]. revert R. spell. auto.
  - destruct (rt_suffixes c p x l k G X F K) as (y & EY & R). exists (VarExpression y l), y, l. split; [cbn; now rewrite EY|]. split; [revert R; spell; auto|].
    pose proof (last_call l) as LC. destruct (last_of l); [|easy]. rewrite LC. auto.
  - destruct (rt_suffixes c p (Nd KPrefixExpression [e]) [] k G) as (y & EY & R); [now constructor|constructor|assumption|]. destruct y as [e'|r']; [|discriminate EY]. injection EY as ->.
    exists (VarExpression (PrefixExpression e) []), (PrefixExpression e), []. split; [reflexivity|]. split; [|reflexivity]. revert R. spell. auto.
Qed.
