(** Specifications of the parser functions: blocks, function bodies, expressions. *)
From Verif Require Import PunctuatedProofs.
From Verif Require Export ParserSafe2.
From Coq Require Import Lia ZifyBool ZifyNat ZifyN.
Local Open Scope nat_scope.

(** ** The shapes of typed trees *)
Lemma opt_shape c y t : has c (YOpt y) t -> t = Con CNone [] \/ exists x, t = Con CSome [x] /\ has c y x.
Proof.
  destruct t as [r|k cs|k cs]; intros H.
  - destruct H as [H _]. now apply wt_tok in H.
  - apply con_has in H as (ys & E & H). destruct k; try discriminate; injection E as <-; inversion_clear H as [|? ? ? ? Hx H']; [now left|]. inversion_clear H'. right. eauto.
  - apply nd_has in H as [E _]. discriminate.
Qed.
Lemma vec_shape c y t : has c (YVec y) t -> exists l, t = vec l /\ Forall (has c y) l.
Proof.
  destruct t as [r|k cs|k cs]; intros H.
  - destruct H as [H _]. now apply wt_tok in H.
  - pose proof H as H0. apply con_has in H as (ys & E & H). destruct k; try discriminate. exists cs. split; [reflexivity|]. now apply vec_has.
  - apply nd_has in H as [E _]. discriminate.
Qed.
Lemma tuple_shape c y z t : has c (YTuple y z) t -> exists a b, t = Con CTuple [a; b] /\ has c y a /\ has c z b.
Proof.
  destruct t as [r|k cs|k cs]; intros H.
  - destruct H as [H _]. now apply wt_tok in H.
  - apply con_has in H as (ys & E & H). destruct k; try discriminate. injection E as <-.
    inversion_clear H as [|? ? ? ? Ha H']. inversion_clear H' as [|? ? ? ? Hb H'']. inversion_clear H''. eauto.
  - apply nd_has in H as [E _]. discriminate.
Qed.

(** ** Blocks and function bodies *)
Lemma block_shape c b : has c (YNode NBlock) b -> exists l o, b = Nd KBlock [vec l; o] /\
  Forall (has c (YTuple (YNode NStmt) (YOpt YTok))) l /\ has c (YOpt (YTuple (YNode NLastStmt) (YOpt YTok))) o.
Proof.
  destruct b as [r|k cs|k cs]; intros H.
  - destruct H as [H _]. now apply wt_tok in H.
  - apply con_has in H as (ys & E & H). destruct k; discriminate.
  - apply nd_has in H as (E & _ & H). injection E as E. destruct k; try discriminate. cbn [fields] in H.
    inversion_clear H as [|? ? ? ? Ha H']. inversion_clear H' as [|? ? ? ? Hb H'']. inversion_clear H''.
    apply vec_shape in Ha as (l & -> & Ha). eauto 6.
Qed.
Lemma block_last_stmt_has c b l : has c (YNode NBlock) b -> block_last_stmt b = Some l -> has c (YNode NLastStmt) l.
Proof.
  intros H. apply block_shape in H as (m & o & -> & _ & H). apply opt_shape in H as [->|(x & -> & H)]; [discriminate|].
  apply tuple_shape in H as (a & d & -> & H & _). cbn. now intros [= <-].
Qed.
Lemma block_last_of_stmts_has c b l : has c (YNode NBlock) b -> block_last_of_stmts b = Some l -> has c (YNode NStmt) l.
Proof.
  intros H. apply block_shape in H as (m & o & -> & H & _). unfold block_last_of_stmts, block_stmts, vec.
  destruct m as [|x m] using rev_ind; [discriminate|]. rewrite rev_unit. apply Forall_app in H as [_ H]. inversion_clear H as [|? ? Hx _].
  apply tuple_shape in Hx as (a & d & -> & H & _). now intros [= <-].
Qed.
Lemma block_new_has c : has c (YNode NBlock) block_new.
Proof. unfold block_new. typ. Qed.
#[export] Hint Resolve block_last_stmt_has block_last_of_stmts_has block_new_has : core.

Lemma expect_block_with_end_spec c U n p x r s : good c U n p -> len s <= n ->
  W c U (expect_block_with_end c p x r) s (ov0 (fun y => has c (YNode NBlock) (fst y))).
Proof.
  intros G H. unfold expect_block_with_end. go; fin;
  (eapply W_ends; [solve [eauto]|reflexivity|intros ?]); go; fin.
Qed.
#[export] Hint Resolve expect_block_with_end_spec : spec.

Lemma param_ellipsis_has c r : has c (YNode NParameter) (param_ellipsis r).
Proof. unfold param_ellipsis. typ. Qed.
Lemma param_name_has c r : has c (YNode NParameter) (param_name r).
Proof. unfold param_name. typ. Qed.
#[export] Hint Resolve param_ellipsis_has param_name_has : core.

(** The number of type specifiers fits the number of parameters. *)
Lemma fit_vec {A} (l : list tree) (m : list A) : List.length l <= List.length m -> Nat.leb (List.length l) (List.length m) = true.
Proof. apply Nat.leb_le. Qed.

Lemma body_has c g a b l ts rt blk e :
  opt_is (has c (YNode NGenericDeclaration)) g -> each (has c (YNode NParameter)) l -> Forall (has c (YOpt (YNode NTypeSpecifier))) ts ->
  List.length ts <= p_len l -> opt_is (has c (YNode NTypeSpecifier)) rt -> has c (YNode NBlock) blk ->
  has c (YNode NFunctionBody) (Nd KFunctionBody [opt_tree g; span a b; puncts l; vec ts; opt_tree rt; blk; Tok e]).
Proof.
  intros. apply has_nd; [reflexivity| |cbn [fields]; repeat (apply Forall2_cons; [typ|]); apply Forall2_nil].
  unfold node_ok. cbn [kind_allowed fitting_node filled_node operator_node feature_node andb]. rewrite !andb_true_r.
  unfold count. cbn [nth_error]. unfold puncts, punct, vec. rewrite map_length. now apply Nat.leb_le.
Qed.

Lemma drop_comma {c} {l : punctuated tree} {y} : each (has c y) l ->
  each (has c y) (match p_pop l with (Some (Punctuated v _), rest) => p_push rest (End v) | _ => l end).
Proof.
  intros H. destruct (p_pop l) as [[[v|v q]|] rest] eqn:E; try assumption. destruct (each_pop _ _ _ _ H E) as [H1 H2]. now apply each_push_end.
Qed.

Lemma unfinished_function_body_spec c U a l s : each (has c (YNode NParameter)) l ->
  W c U (unfinished_function_body c a l) s (fun r s' => match r with Value t => has c (YNode NFunctionBody) t | _ => False end).
Proof.
  intros H. unfold unfinished_function_body. pose proof (drop_comma H) as H'. go.
  apply (body_has c None _ _ _ [] None); auto; try exact I. cbn. lia.
Qed.
#[export] Hint Resolve unfinished_function_body_spec : spec.

Lemma ellipsis_specifier_spec c U n p s : good c U n p -> has_luau c = true -> len s <= S n ->
  W c U (ellipsis_specifier p) s (fun r s' => match r with Some (Some t) => has c (YNode NTypeSpecifier) t | _ => True end).
Proof. intros G L H. unfold ellipsis_specifier. go; fin. Qed.
#[export] Hint Resolve ellipsis_specifier_spec : spec.

Lemma parameter_loop_spec c U n p s : good c U n p -> len s <= S n ->
  W c U (parameter_loop c p) s (fun r s' => match r with
    | inl l => each (has c (YNode NParameter)) l
    | inr (l, ts, q) => each (has c (YNode NParameter)) l /\ Forall (has c (YOpt (YNode NTypeSpecifier))) ts /\ List.length ts <= p_len l /\ len s' < len s end).
Proof.
  intros G H. unfold parameter_loop.
  eapply (W_loop (fun '(l, ts) (s1 : pstate) => each (has c (YNode NParameter)) l /\ Forall (has c (YOpt (YNode NTypeSpecifier))) ts /\ List.length ts <= p_len l)).
  { split; [apply each_new|]. split; [constructor|cbn; lia]. }
  intros [l ts] s1 L1 (El & Et & Elen).
  assert (K1 : forall x, each (has c (YNode NParameter)) (p_push l (End (param_ellipsis x)))) by (intros; now apply each_push_end).
  assert (K2 : forall x, each (has c (YNode NParameter)) (p_push l (End (param_name x)))) by (intros; now apply each_push_end).
  assert (K3 : forall x y, each (has c (YNode NParameter)) (p_push l (Punctuated (param_name x) y))) by (intros; now apply each_push).
  assert (K4 : forall x, opt_is (has c (YNode NTypeSpecifier)) x -> Forall (has c (YOpt (YNode NTypeSpecifier))) (ts ++ [opt_tree x])).
  { intros x Hx. apply Forall_app. split; [assumption|]. apply Forall_cons; [now apply has_opt|apply Forall_nil]. }
  assert (K5 : forall x, p_len (p_push l x) = S (p_len l)).
  { intros. unfold p_len, p_push. cbn [pairs]. rewrite app_length. cbn. lia. }
  assert (K6 : forall x, List.length (ts ++ [x]) = S (List.length ts)).
  { intros. rewrite app_length. cbn. lia. }
  unfold name_ok in *.
  go; rewrite ?K5, ?K6; fin; rewrite ?K5, ?K6; try arith; try (apply K4; try assumption; exact I).
  all: unfold name_ok in *; apply K4; tauto.
Qed.
#[export] Hint Resolve parameter_loop_spec : spec.

Lemma body_return_type_spec c U n p s : good c U n p -> len s <= S n ->
  W c U (body_return_type c p) s (fun r s' => match r with Some o => opt_is (has c (YNode NTypeSpecifier)) o | None => True end).
Proof. intros G H. unfold body_return_type. go; fin. Qed.
#[export] Hint Resolve body_return_type_spec : spec.

Lemma pop_length {A} (l : punctuated A) v rest : p_pop l = (Some v, rest) -> p_len l = S (p_len rest).
Proof.
  unfold p_pop, p_len. destruct l as [l]. cbn [pairs]. destruct l as [|x l] using rev_ind; [discriminate|]. rewrite pop_snoc. intros [= <- <-]. cbn. rewrite app_length. cbn. lia.
Qed.

Lemma parse_function_body_spec c U n p s : good c U n p -> len s <= S n -> W c U (parse_function_body c p) s (pv (has c (YNode NFunctionBody)) s).
Proof.
  intros G H. unfold parse_function_body. apply W_bind.
  eapply (W_conseq (P := pv (has c (YNode NGenericDeclaration)) s)); [go; fin|]. intros r s1 L1 Hr _.
  assert (Hg : opt_is (has c (YNode NGenericDeclaration)) (match r with Value g => Some g | _ => None end)) by (destruct r; [apply Hr|exact I|exact I]).
  set (g := match r with Value g => Some g | _ => None end) in *.
  assert (K : W c U (let! o := consume_if SLeftParen in
      match o with
      | None => ret NotFound
      | Some left_parenthesis =>
          let! r := parameter_loop c p in
          match r with
          | inl parameters => unfinished_function_body c left_parenthesis parameters
          | inr (parameters, type_specifiers, right_parenthesis) =>
              let! parameters :=
                (match p_pop parameters with
                 | (Some (Punctuated v q), rest) =>
                     token_error q (str "trailing commas in arguments are not allowed") ;; ret (p_push rest (End v))
                 | _ => ret parameters
                 end) in
              let! rt := body_return_type c p in
              match rt with
              | None => ret LexerMoved
              | Some return_type =>
                  let! r := expect_block_with_end c p (str "function body") right_parenthesis in
                  match r with
                  | None => ret LexerMoved
                  | Some (block, e) =>
                      ret (Value (Nd KFunctionBody [opt_tree g; span left_parenthesis right_parenthesis; puncts parameters;
                                                    vec type_specifiers; opt_tree return_type; block; Tok e]))
                  end
              end
          end
      end) s1 (pv (has c (YNode NFunctionBody)) s)); [clearbody g; clear r Hr|destruct r; try exact K; go; exact I].
  go; fin; try (apply body_has; assumption).
  destruct (each_pop _ _ _ _ H6 E) as [A B]. apply body_has; try assumption; [now apply each_push_end|].
  pose proof (pop_length _ _ _ E) as D. unfold p_len, p_push in *. cbn [pairs]. rewrite app_length. cbn. lia.
Qed.
#[export] Hint Resolve parse_function_body_spec : spec.
