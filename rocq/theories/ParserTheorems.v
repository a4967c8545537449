(** Proofs of the parser properties C21, C22, C24, C25, C37, C40 and of the shape of parsed trees. *)
From Verif Require Import LexerSpec LexerCases LexerProofs LexerTheorems LexerTheorems3 TokenSpec TokenProofs TokenTheorems.
From Verif Require Export ParserTop.
From Coq Require Import Lia.
Local Open Scope nat_scope.

Lemma parse_fallible_done c source r : cfg_ok c -> parse_fallible c source = Done r ->
  exists rs e s', tokenize c source = Done rs /\ rs <> [] /\ one_eof rs e /\ r_token e = mkToken (pos_of source) (pos_of source) TEof /\
    parse_stream c (mkState rs []) = Done (ar_ast r, s') /\ ar_errors r = st_errors s' /\ stream_post c e (mkState rs []) (ar_ast r) s'.
Proof.
  intros K H. pose proof (parse_fallible_spec c source True K (fun _ _ _ => I) (fun _ => I) (fun _ _ => or_introl I)) as P.
  now rewrite H in P.
Qed.

(** ** C21, C22 *)
Lemma not_symbol t y : t_type (r_token t) <> TSymbol y -> is_symbol t y = false.
Proof. intros H. destruct (is_symbol t y) eqn:E; [|reflexivity]. apply is_symbol_type in E. congruence. Qed.
Lemma quiet_safe c rs : quiet c rs -> Forall (safe c) rs.
Proof.
  intros (_ & H1 & H2). apply Forall_forall. intros r Hr. split.
  - intros L E. destruct r as [t|es|t es]; try discriminate. now apply (H1 L es).
  - intros F L t Et. destruct (H2 F L _ (in_tokens _ _ _ Hr Et)). split; now apply not_symbol.
Qed.
Lemma never_panics c source rs : cfg_ok c -> tokenize c source = Done rs -> quiet c rs -> exists r, parse_fallible c source = Done r.
Proof.
  intros K T Q. pose proof (parse_fallible_spec c source False K) as P.
  destruct (parse_fallible c source) as [r| |]; [eauto| |]; exfalso; apply P.
  1,4: intros rs' T' ->; rewrite T in T'; injection T' as ->; now apply Q.
  1,3: rewrite T; discriminate.
  all: intros rs' T'; rewrite T in T'; injection T' as <-; right; now apply quiet_safe.
Qed.

Lemma tokenize_nonempty c source rs : ~ shebang source -> tokenize c source = Done rs -> rs <> [].
Proof. intros S T. destruct (one_eof_last _ _ _ T S) as (rs0 & r & tr & -> & _). now destruct rs0. Qed.

Lemma never_panics_plain c source : cfg_ok c -> has_luau c = false -> ~ shebang source -> f_cfxlua (c_feat c) = true \/ ~ In c_backtick source ->
  exists r, parse_fallible c source = Done r.
Proof.
  intros K L S B. destruct (LexerTheorems3.never_panics c source) as (rs & T); [destruct B; auto|].
  apply (never_panics _ _ rs K T). split; [now apply (tokenize_nonempty c source)|]. split; [congruence|].
  intros F L3 t Ht. pose proof (tokenize_enabled _ _ _ K T) as En. unfold tokens_of in Ht.
  assert (G : forall y, t_type t = TSymbol y -> sym_enabled c y = true).
  { intros y Ey. destruct (sym_table c y) as [S1 S2]. destruct (is_op y) eqn:Eo.
    - apply S1; [reflexivity|]. assert (Nw : ~ is_word (sym_text y)) by (intros Hw; apply is_op_word in Hw; congruence).
      destruct (operators_longest _ _ _ _ _ T Ht Ey Nw) as (u & v & _ & _ & O & _). auto.
    - apply S2; [reflexivity|]. now apply (keywords_are_words _ _ _ _ _ T Ht Ey), is_op_word. }
  split; intros Ey; specialize (G _ Ey); cbn in G; rewrite L, L3 in G; discriminate.
Qed.

Lemma never_panics_luau c source rs : cfg_ok c -> has_luau c = true -> has_lua53 c = true \/ f_lua53 (c_feat c) = false ->
  tokenize c source = Done rs -> rs <> [] -> (forall es, ~ In (LFatal es) rs) -> exists r, parse_fallible c source = Done r.
Proof. intros K L B T N F. apply (never_panics _ _ rs K T). split; [assumption|]. split; [auto|]. intros F3 L3. destruct B; congruence. Qed.

Lemma parsing_terminates c source : cfg_ok c -> parse_fallible c source <> OutOfFuel /\ parse c source <> OutOfFuel.
Proof.
  intros K. pose proof (parse_fallible_spec c source True K (fun _ _ _ => I) (fun _ => I) (fun _ _ => or_introl I)) as P.
  unfold parse. destruct (parse_fallible c source); [|split; discriminate|destruct P]. split; discriminate.
Qed.

Lemma depth_bounded c source rs n : cfg_ok c -> tokenize c source = Done rs -> (List.length rs <= n) -> rs <> [] ->
  p_block (parsers_at c n) (mkState rs []) <> OutOfFuel.
Proof.
  intros K T L N. destruct (tokenize_eof _ _ _ T N) as (e & (pre & x & E & X & Ee & F) & _).
  assert (J : inv c True (mkState rs [])). { split; [exists pre, x, e; auto|]. split; [now apply (tokenize_enabled c source)|now left]. }
  pose proof (block_at c True n (mkState rs []) L J) as W. unfold wp in W. destruct (p_block _ _); [discriminate|discriminate|destruct W].
Qed.

(** ** C24, C25 *)
Lemma lexical_errors_reported c source rs r e : cfg_ok c -> tokenize c source = Done rs -> parse_fallible c source = Done r ->
  In e (all_errors rs) -> In (TokenizerError e) (ar_errors r).
Proof.
  intros K T P He. destruct (parse_fallible_done _ _ _ K P) as (rs' & eo & s' & T' & _ & _ & _ & _ & -> & _ & _ & _ & es & Es & Hs).
  rewrite T in T'. injection T' as <-. cbn in Es. rewrite Es. unfold all_errors in He. apply in_flat_map in He as (x & Hx & He).
  apply (Hs x e Hx). now destruct x.
Qed.
Lemma ok_is_clean c source rs a : cfg_ok c -> tokenize c source = Done rs -> parse c source = Done (inl a) -> clean rs.
Proof.
  intros K T P. unfold parse in P. destruct (parse_fallible c source) as [r| |] eqn:F; try discriminate. injection P as P.
  unfold into_result in P. destruct (ar_errors r) as [|e es] eqn:E; [|discriminate].
  pose proof (run_nonempty_errors c source rs (tokenize_done _ _ _ T)) as N. unfold clean. rewrite Forall_forall in *. intros x Hx. apply (N x Hx).
  destruct (errors_of x) as [|y ys] eqn:Ex; [reflexivity|]. exfalso.
  assert (I : In (TokenizerError y) (ar_errors r)); [|now rewrite E in I].
  apply (lexical_errors_reported c source rs); auto. unfold all_errors. apply in_flat_map. exists x. rewrite Ex. split; [assumption|now left].
Qed.

Lemma into_result_exact r :
  (forall a, into_result r = inl a <-> ar_errors r = [] /\ a = ar_ast r) /\
  (forall es, into_result r = inr es <-> ar_errors r <> [] /\ es = ar_errors r).
Proof.
  unfold into_result. destruct (ar_errors r) as [|e l]; split; intros x; split.
  - intros [= <-]. auto.
  - intros [_ ->]. reflexivity.
  - discriminate.
  - intros [H _]. congruence.
  - discriminate.
  - intros [H _]. discriminate.
  - intros [= <-]. split; [discriminate|reflexivity].
  - intros [_ ->]. reflexivity.
Qed.
Lemma parse_is_conversion c source : parse c source = match parse_fallible c source with
  | Done r => Done (match ar_errors r with [] => inl (ar_ast r) | es => inr es end) | Panic => Panic | OutOfFuel => OutOfFuel end.
Proof. reflexivity. Qed.

(** ** Shape of parsed trees, C37, C40 *)
Lemma every_impl (p q : kind -> list tree -> bool) t : (forall k cs, p k cs = true -> q k cs = true) -> every p t = true -> every q t = true.
Proof.
  intros H. induction t as [r|k cs IH|k cs IH] using tree_ind'; cbn [every]; auto.
  - rewrite !forallb_forall. rewrite Forall_forall in IH. auto.
  - rewrite !andb_true_iff, !forallb_forall. rewrite Forall_forall in IH. intros [Hk Hc]. auto.
Qed.
Lemma parsed_has c source r : cfg_ok c -> parse_fallible c source = Done r -> has c (YNode NBlock) (a_nodes (ar_ast r)).
Proof. intros K P. destruct (parse_fallible_done _ _ _ K P) as (rs' & eo & s' & _ & _ & _ & _ & _ & _ & H & _). exact H. Qed.
Lemma parsed_every (p : kind -> list tree -> bool) c source r : (forall k cs, node_ok c k cs = true -> p k cs = true) ->
  cfg_ok c -> parse_fallible c source = Done r -> every p (a_nodes (ar_ast r)) = true.
Proof. intros H K P. eapply every_impl; [exact H|]. eapply parsed_has; eauto. Qed.

Lemma parsed_well_typed c source r : cfg_ok c -> parse_fallible c source = Done r ->
  wt (a_nodes (ar_ast r)) (YNode NBlock) = true.
Proof. intros K P. destruct (parsed_has _ _ _ K P) as [H _]. exact H. Qed.
Lemma parsed_fitting c source r : cfg_ok c -> parse_fallible c source = Done r -> fitting (a_nodes (ar_ast r)) = true.
Proof. apply parsed_every. unfold node_ok. intros k cs H. rewrite !andb_true_iff in H. tauto. Qed.
Lemma parsed_filled c source r : cfg_ok c -> parse_fallible c source = Done r -> every filled_node (a_nodes (ar_ast r)) = true.
Proof. apply parsed_every. unfold node_ok. intros k cs H. rewrite !andb_true_iff in H. tauto. Qed.
Lemma parsed_operators c source r : cfg_ok c -> parse_fallible c source = Done r -> every operator_node (a_nodes (ar_ast r)) = true.
Proof. apply parsed_every. unfold node_ok. intros k cs H. rewrite !andb_true_iff in H. tauto. Qed.
Lemma parsed_dialect c source r : cfg_ok c -> parse_fallible c source = Done r -> every (fun k _ => kind_allowed c k) (a_nodes (ar_ast r)) = true.
Proof. apply parsed_every. unfold node_ok. intros k cs H. rewrite !andb_true_iff in H. tauto. Qed.

Lemma parsed_features c source r : cfg_ok c -> parse_fallible c source = Done r -> every (feature_node c) (a_nodes (ar_ast r)) = true.
Proof. apply parsed_every. unfold node_ok. intros k cs H. rewrite !andb_true_iff in H. tauto. Qed.

Lemma stream_consumed c source r : cfg_ok c -> parse_fallible c source = Done r ->
  exists rs s' last, tokenize c source = Done rs /\ parse_stream c (mkState rs []) = Done (ar_ast r, s') /\ st_toks s' = [] /\
    ar_errors r = st_errors s' /\ hd_error (rev rs) = Some last /\ ref_of last = Some (a_eof (ar_ast r)) /\
    r_token (a_eof (ar_ast r)) = mkToken (pos_of source) (pos_of source) TEof.
Proof.
  intros K P. destruct (parse_fallible_done _ _ _ K P) as (rs & e & s' & T & _ & (pre & x & -> & X & _) & Pe & Ps & Er & _ & Ea & Tk & _).
  exists (pre ++ [x]), s', x. rewrite rev_unit, ref_of_tok_of, Ea. cbn [hd_error]. auto 10.
Qed.

Lemma no_set_constructor c source r : cfg_ok c -> f_cfxlua (c_feat c) = false -> parse_fallible c source = Done r ->
  every (fun k _ => match k with KFieldSetConstructor => false | _ => true end) (a_nodes (ar_ast r)) = true.
Proof.
  intros K F P. apply (every_impl (fun k _ => kind_allowed c k)); [|now apply (parsed_dialect c source)].
  intros k _ H. destruct k; try reflexivity. cbn in H. congruence.
Qed.
