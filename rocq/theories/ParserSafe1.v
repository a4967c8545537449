(** Every parser function keeps the frame, makes progress, panics only on unsafe input, and builds typed trees. *)
From Verif Require Import PunctuatedProofs.
From Verif Require Export ParserLogic.
From Coq Require Import Lia ZifyBool ZifyNat ZifyN.
Local Open Scope nat_scope.

Definition tn (c : cfg) (n : nty) (t : tree) : Prop := has c (YNode n) t.
Definition name_ok (c : cfg) (n : name) : Prop := opt_is (has c (YNode NAttribute)) (n_attribute n) /\ opt_is (has c (YNode NTypeSpecifier)) (n_type_specifier n).

(** What the recursive functions guarantee on streams with at most [n] results. *)
Record good (c : cfg) (U : Prop) (n : nat) (p : parsers) : Prop := mkGood {
  g_block : forall s, len s <= n -> W c U (p_block p) s (fun r s' =>
    match r with Value t => has c (YNode NBlock) t | LexerMoved => len s' < len s | NotFound => False end);
  g_expression : forall s, len s <= n -> W c U (p_expression p) s (pv (has c (YNode NExpression)) s);
  g_primary : forall s, len s <= n -> W c U (p_primary p) s (pv (has c (YNode NExpression)) s);
  g_precedence : forall lhs q s, has c (YNode NExpression) lhs -> len s <= n ->
    W c U (p_precedence p lhs q) s (fun r s' => match r with
      | Value t => has c (YNode NExpression) t /\
                   (forall t k, hd_tok s = Some t -> precedence_of_token c t = Some k -> q <= k -> len s' < len s)
      | _ => True
      end);
  g_type : forall s, has_luau c = true -> len s <= n -> W c U (p_type p) s (pv (has c (YNode NTypeInfo)) s);
  g_type_or_pack : forall s, has_luau c = true -> len s <= n -> W c U (p_type_or_pack p) s (pv (has c (YNode NTypeInfo)) s) }.
#[export] Hint Resolve g_block g_expression g_primary g_precedence g_type g_type_or_pack : spec.

(** ** Names and lists *)
Lemma parse_name_spec c U s : W c U parse_name s (fun r s' => match r with
  | Value n => len s' < len s /\ hd_tok s' = nd_tok s /\ n_attribute n = None /\ n_type_specifier n = None
  | NotFound => s' = s /\ is_ident (hd_tok s) = false
  | LexerMoved => False end).
Proof. unfold parse_name. go; auto. Qed.
#[export] Hint Resolve parse_name_spec : spec.

Lemma expect_type_specifier_spec c U n p q s : good c U n p -> has_luau c = true -> len s <= n ->
  W c U (expect_type_specifier p q) s (fun r _ => opt_is (has c (YNode NTypeSpecifier)) r).
Proof. intros G L H. unfold expect_type_specifier. go; auto. typ. Qed.
#[export] Hint Resolve expect_type_specifier_spec : spec.

Lemma force_name_ts_spec c U n p r s : good c U n p -> len s <= S n ->
  W c U (force_name_with_type_specifiers c p r) s (fun x _ => name_ok c x).
Proof. intros G H. unfold force_name_with_type_specifiers, name_ok. go; fin. Qed.
#[export] Hint Resolve force_name_ts_spec : spec.

Lemma force_name_attr_spec c U n p r s : good c U n p -> len s <= S n ->
  W c U (force_name_with_attributes c p r) s (fun x _ => name_ok c x).
Proof.
  intros G H. unfold force_name_with_attributes. go; try assumption; unfold name_ok; fin;
    apply andb_false_iff in E; destruct E as [E|E]; apply negb_false_iff in E; typ.
Qed.
#[export] Hint Resolve force_name_attr_spec : spec.

Lemma parse_name_attr_spec c U n p s : good c U n p -> len s <= S n ->
  W c U (parse_name_with_attributes c p) s (fun r s' => match r with
    | Value x => name_ok c x /\ len s' < len s
    | NotFound => s' = s /\ is_ident (hd_tok s) = false
    | LexerMoved => False end).
Proof. intros G H. unfold parse_name_with_attributes. go; fin. Qed.
#[export] Hint Resolve parse_name_attr_spec : spec.

Lemma parse_name_ts_spec c U n p s : good c U n p -> len s <= S n ->
  W c U (parse_name_with_type_specifiers c p) s (fun r s' => match r with
    | Value x => name_ok c x /\ len s' < len s
    | NotFound => s' = s /\ is_ident (hd_tok s) = false
    | LexerMoved => False end).
Proof. intros G H. unfold parse_name_with_type_specifiers. go; fin. Qed.
#[export] Hint Resolve parse_name_ts_spec : spec.

(** [one_or_more]: [N] is what a failure of the first call says about the state. *)
Lemma one_or_more_spec {A} c U n (V : A -> Prop) (N : pstate -> Prop) m d s :
  (forall s1, len s1 <= n -> W c U m s1 (fun r s' => match r with Value a => V a /\ len s' < len s1 | _ => N s1 end)) ->
  len s <= n ->
  W c U (one_or_more m d) s (fun r s' => match r with
    | Value l => each V l /\ ends_plain l /\ len s' < len s
    | NotFound => N s
    | LexerMoved => False end).
Proof.
  intros G H. unfold one_or_more. apply W_bind.
  eapply (W_loop (fun l s1 => each V l /\ ((s1 = s /\ l = p_new) \/ (len s1 < len s /\ pairs l <> [])))).
  { split; [apply each_new|now left]. }
  intros l s1 L [El Hl]. apply W_bind. eapply W_conseq; [apply G; lia|]. intros r s2 L2 HQ. cbv beta in HQ.
  assert (K : N s1 -> len s2 <= len s1 -> each V l -> forall s0, s2 = s0 -> W c U (ret (inr (A := punctuated A) l)) s0 (fun r s2 => match r with
     | inl a' => len s2 < len s1 /\ each V a' /\ ((s2 = s /\ a' = p_new) \/ (len s2 < len s /\ pairs a' <> []))
     | inr b => len s2 <= len s -> W c U (if p_is_empty b then ret NotFound
          else match p_pop b with (Some (Punctuated v q), rest) => token_error q (str "trailing commas are not allowed") ;; ret (Value (p_push rest (End v))) | _ => ret (Value b) end) s2
          (fun r s' => match r with Value l => each V l /\ ends_plain l /\ len s' < len s | NotFound => N s | LexerMoved => False end)
     end)).
  { intros N1 L3 E s0 <-. apply W_ret. intros L4. destruct Hl as [[-> ->]|[Hl Hne]].
    - cbn. apply W_ret. exact N1.
    - destruct l as [l]. destruct l as [|x l] using rev_ind; [now elim Hne|]. unfold p_is_empty, p_len, p_pop. cbn [pairs]. rewrite pop_snoc, app_length. cbn.
      rewrite Nat.add_comm. cbn. apply Forall_app in E as [E1 E2]. inversion_clear E2 as [|? ? Ex _]. destruct x as [v|v q]; cbn in Ex.
      + apply W_ret. split; [apply Forall_app; repeat constructor; auto|]. split; [eexists _, _; reflexivity|lia].
      + go. split; [apply each_push_end; assumption|]. split; [apply ends_plain_push|lia]. }
  destruct r as [v| |]; [|intros; now eapply K|intros; now eapply K].
  destruct HQ as [Vv Lv].
  assert (E1 : p_is_empty (p_push l (End v)) = false) by (unfold p_is_empty, p_len, p_push; cbn [pairs]; rewrite app_length, Nat.add_comm; reflexivity).
  assert (E2 : p_pop (p_push l (End v)) = (Some (End v), l)) by (unfold p_pop, p_push; cbn [pairs]; rewrite pop_snoc; now destruct l).
  go.
  - split; [lia|]. split; [auto|]. right. split; [lia|]. cbn. destruct (pairs l); discriminate.
  - split; [now apply each_push_end|]. split; [apply ends_plain_push|lia].
Qed.

Lemma parse_name_list_spec c U n p s : good c U n p -> len s <= S n ->
  W c U (parse_name_list c p) s (fun r s' => match r with
    | Value l => each (name_ok c) l /\ ends_plain l /\ len s' < len s
    | NotFound => is_ident (hd_tok s) = false
    | LexerMoved => False end).
Proof.
  intros G H. apply one_or_more_spec with (n := S n) (N := fun s => is_ident (hd_tok s) = false); [|assumption]. intros s1 H1.
  eapply W_conseq; [eapply parse_name_ts_spec; eassumption|]. intros [x| |] s' L HQ; intuition.
Qed.
Lemma parse_expression_list_spec c U n p s : good c U n p -> len s <= n ->
  W c U (parse_expression_list p) s (fun r s' => match r with
    | Value l => each (has c (YNode NExpression)) l /\ ends_plain l /\ len s' < len s
    | NotFound => True
    | LexerMoved => False end).
Proof.
  intros G H. eapply (one_or_more_spec c U n _ (fun _ => True)); [|eassumption]. intros s1 H1.
  eapply W_conseq; [eapply g_expression; eassumption|]. intros [x| |] s' L HQ; exact HQ.
Qed.
#[export] Hint Resolve parse_name_list_spec parse_expression_list_spec : spec.

(** ** Types *)
Lemma parse_type_pack_spec c U n p s : good c U n p -> has_luau c = true -> len s <= S n ->
  W c U (parse_type_pack p) s (fun r s' => match r with Value t => has c (YNode NTypeInfo) t /\ len s' < len s | NotFound => s' = s | LexerMoved => len s' < len s end).
Proof. intros G L H. unfold parse_type_pack. go; fin. Qed.
#[export] Hint Resolve parse_type_pack_spec : spec.

Lemma parse_return_type_spec c U n p s : good c U n p -> has_luau c = true -> len s <= n -> W c U (parse_return_type p) s (pv (has c (YNode NTypeInfo)) s).
Proof. intros G L H. unfold parse_return_type. go; fin. Qed.
#[export] Hint Resolve parse_return_type_spec : spec.

Lemma expect_generic_type_params_spec c U n p q s : good c U n p -> has_luau c = true -> len s <= n ->
  W c U (expect_generic_type_params p q) s (fun r s' => match r with Some (a, b) => has c YSpan a /\ has c (YPunctuated (YNode NTypeInfo)) b /\ len s' < len s | None => True end).
Proof.
  intros G L H. unfold expect_generic_type_params. apply W_bind.
  eapply (W_loop (fun l _ => each (has c (YNode NTypeInfo)) l)); [auto|]. intros l s1 H1 El. go; fin.
Qed.
#[export] Hint Resolve expect_generic_type_params_spec : spec.

Lemma missing_default_spec c U b s : has_luau c = true -> W c U (missing_default b) s (fun _ s' => len s' = len s /\ hd_tok s' = hd_tok s).
Proof. intros L. unfold missing_default. go; fin. Qed.
#[export] Hint Resolve missing_default_spec : spec.

Lemma parse_generic_type_list_spec c U n p y s : good c U n p -> len s <= S n ->
  W c U (parse_generic_type_list c p y) s (pv (has c (YNode NGenericDeclaration)) s).
Proof.
  intros G H. unfold parse_generic_type_list. destruct (has_luau c) eqn:L; cbn [negb]; [|go; exact I].
  go; [|exact I].
  eapply (W_loop (fun '(l, _, _) _ => each (has c (YNode NGenericDeclarationParameter)) l)); [auto|].
  intros [[l sp] sd] s2 L2 El. go; fin.
Qed.
#[export] Hint Resolve parse_generic_type_list_spec : spec.

Definition arg_ok (c : cfg) (a : type_argument) : Prop := has c (YNode NTypeInfo) (ta_type a).
Lemma arg_has c a : arg_ok c a -> has_luau c = true -> has c (YNode NTypeArgument) (arg_tree a).
Proof. intros H L. unfold arg_ok in H. unfold arg_tree. destruct a as [[[x y]|] t]; cbn [ta_name ta_type arg_tree option_map fst snd] in *; typ. Qed.

Lemma args_has c l : each (arg_ok c) l -> has_luau c = true -> has c (YPunctuated (YNode NTypeArgument)) (punct arg_tree l).
Proof. intros H L. apply has_punct with (P := arg_ok c); [|assumption]. intros v Hv. now apply arg_has. Qed.
Lemma arg_types c l : each (arg_ok c) l -> each (has c (YNode NTypeInfo)) (p_from_iter (map (pair_map ta_type) (p_pairs l))).
Proof. apply each_map. auto. Qed.
#[export] Hint Resolve args_has arg_types : core.

Ltac loop_post I Q := eapply (W_conseq (P := Q)); [eapply (W_loop I)|].

(** A type that is not a pack. *)
Definition no_pack (t : tree) : Prop := match t with Nd KTypeVariadicPack _ | Nd KTypeGenericPack _ => False | _ => True end.
Notation simple c := (fun t : tree => has c (YNode NTypeInfo) t /\ no_pack t).

Lemma expect_function_type_spec c U n p y s t : good c U n p -> has_luau c = true -> len s <= S n ->
  hd_tok s = Some t -> is_symbol t SLeftParen || is_symbol t SLessThan = true ->
  W c U (expect_function_type c p y) s (ov (simple c) s).
Proof.
  intros G L H E0 E1. unfold expect_function_type. go; try exact I.
  all: loop_post (fun l (_ : pstate) => each (arg_ok c) l) (fun (r : option (punctuated type_argument)) (_ : pstate) => opt_is (each (arg_ok c)) r);
    [apply each_new|intros l s4 L4 El|intros r s4 L4 Hr]; go; fin.
  all: apply W_panic; intros _; exfalso; rewrite iter_eq in *; match goal with H : Nat.eqb _ _ = true |- _ => apply Nat.eqb_eq in H; unfold p_len in H end;
    destruct (pairs _); discriminate.
Qed.
#[export] Hint Resolve expect_function_type_spec : spec.
