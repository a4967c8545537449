(** Error-free runs: names, lists, function bodies. *)
From Verif Require Import LexerSpec PunctuatedProofs.
From Verif Require Export ParserClean.
From Coq Require Import Lia.
Local Open Scope nat_scope.

(** The next token is no operator that [e] could be an operand of. *)
Definition fits (c : cfg) (h : outer) (ts : list tokref) : Prop :=
  match ts with
  | t :: _ => forall s, t_type (r_token t) = TSymbol s -> precedence_of_token c t <> None -> left_of h s = true
  | [] => True
  end.
Definition below (c : cfg) (q : nat) (ts : list tokref) : Prop :=
  match ts with t :: _ => forall n, precedence_of_token c t = Some n -> n < q | [] => True end.
Definition is_binary (h : outer) : Prop := match h with Binary _ => True | _ => False end.

(** The tests of [parse_stmt] and [parse_last_stmt]. *)
Definition opens_stmt (c : cfg) (t : tokref) : bool :=
  is_symbol t SLocal || is_symbol t SFor || is_symbol t SDo || is_symbol t SIf || is_symbol t SFunction || is_symbol t SRepeat || is_symbol t SWhile
  || (is_symbol t SLeftParen || is_identifier t)
  || is_symbol t SGoto && (f_lua52 (c_feat c) || f_luajit (c_feat c) || f_cfxlua (c_feat c))
  || is_symbol t STwoColons && (has_lua52 c || has_luajit c).
Definition opens (c : cfg) (ts : list tokref) : bool :=
  match ts with t :: _ => opens_stmt c t || is_symbol t SReturn || is_symbol t SBreak | [] => false end.

Definition last_shape (t : tree) : Prop := (exists r l, t = Nd KLastReturn [Nd KReturn [Tok r; puncts l]]) \/ exists r, t = Nd KLastBreak [Tok r].
Definition block_post (c : cfg) (ts : list tokref) (r : pres tree) (ts' : list tokref) : Prop :=
  match r with
  | Value b => ts = printed b ++ ts' /\ proper b /\ (exists stmts last, b = block_tree stmts last /\ (last = None -> opens c ts' = false) /\ (forall t o, last = Some (t, o) -> last_shape t)) /\
               (opens c ts = false -> b = block_new /\ ts' = ts)
  | _ => False
  end.
Definition primary_post (c : cfg) (ts : list tokref) (r : pres tree) (ts' : list tokref) : Prop :=
  match r with
  | Value e => ts = printed e ++ ts' /\ proper e /\ fits c (head_of e) ts' /\ ~ is_binary (head_of e)
  | NotFound => ts' = ts
  | LexerMoved => False
  end.
Definition climb_post (c : cfg) (lhs : tree) (q : nat) (ts : list tokref) (r : pres tree) (ts' : list tokref) : Prop :=
  match r with
  | Value e => printed lhs ++ ts = printed e ++ ts' /\ proper e /\ fits c (head_of e) ts' /\ below c q ts' /\
               (e = lhs \/ exists s, head_of e = Binary s /\ q <= level s)
  | _ => False
  end.
Definition egood (c : cfg) (p : parsers) : Prop :=
  pmono p /\
  (forall ts, E (p_block p) ts (block_post c ts)) /\
  (forall ts, E (p_expression p) ts (vok printed proper ts)) /\
  (forall ts, E (p_primary p) ts (primary_post c ts)) /\
  (forall e q ts, proper e -> fits c (head_of e) ts -> E (p_precedence p e q) ts (climb_post c e q ts)).
Lemma eg_mono c p : egood c p -> pmono p. Proof. now intros (? & ? & ? & ? & ?). Qed.
Lemma eg_block c p ts : egood c p -> E (p_block p) ts (block_post c ts). Proof. now intros (? & ? & ? & ? & ?). Qed.
Lemma eg_expression c p ts : egood c p -> E (p_expression p) ts (vok printed proper ts). Proof. now intros (? & ? & ? & ? & ?). Qed.
Lemma eg_primary c p ts : egood c p -> E (p_primary p) ts (primary_post c ts). Proof. now intros (? & ? & ? & ? & ?). Qed.
Lemma eg_precedence c p e q ts : egood c p -> proper e -> fits c (head_of e) ts -> E (p_precedence p e q) ts (climb_post c e q ts).
Proof. intros (? & ? & ? & ? & ?). auto. Qed.
#[export] Hint Resolve eg_mono : mono.
#[export] Hint Resolve eg_block eg_expression eg_primary eg_precedence : espec.

(** ** Names *)
Definition name_toks (n : name) : list tokref := n_name n :: match n_attribute n with Some t => printed t | None => [] end.
Definition name_ok (n : name) : Prop :=
  is_identifier (n_name n) = true /\ n_type_specifier n = None /\ match n_attribute n with Some t => proper t | None => True end.
Definition plain_ok (n : name) : Prop := is_identifier (n_name n) = true /\ n_type_specifier n = None /\ n_attribute n = None.

Ltac start := intros; match goal with H : egood _ _ |- _ => pose proof (eg_mono _ _ H) | _ => idtac end.
Ltac plain := match goal with H : plain_ok ?n |- _ =>
  let N1 := fresh "N" in let N2 := fresh "N" in let N3 := fresh "N" in destruct H as (N1 & N2 & N3); unfold name_toks in *; rewrite ?N3, ?N2 in *; cbn [app] in * end; enorm.
Ltac leaf := repeat match goal with |- _ /\ _ => split end; try assumption; try reflexivity; try solve [eproper]; try solve [etoks].

Lemma e_parse_name ts : E parse_name ts (vok name_toks plain_ok ts).
Proof. unfold parse_name. ego; leaf. repeat split; auto. Qed.
Lemma e_force_type c p r ts : has_luau c = false -> E (force_name_with_type_specifiers c p r) ts (fun n ts' => n = force_name r /\ ts' = ts).
Proof. intros L. unfold force_name_with_type_specifiers. rewrite L. ego; leaf. Qed.
#[export] Hint Resolve e_parse_name e_force_type : espec.
Lemma e_force_attributes c p r ts : has_luau c = false -> egood c p -> is_identifier r = true -> E (force_name_with_attributes c p r) ts (fun n ts' => r :: ts = name_toks n ++ ts' /\ name_ok n).
Proof.
  start. unfold force_name_with_attributes. ego; unfold name_toks, name_ok; cbn [n_name n_attribute n_type_specifier force_name]; leaf.
Qed.
#[export] Hint Resolve e_force_attributes : espec.
Lemma e_name_attributes c p ts : has_luau c = false -> egood c p -> E (parse_name_with_attributes c p) ts (vok name_toks name_ok ts).
Proof. start. unfold parse_name_with_attributes. ego; leaf. Qed.
Lemma e_name_type c p ts : has_luau c = false -> egood c p -> E (parse_name_with_type_specifiers c p) ts (vok name_toks plain_ok ts).
Proof. start. unfold parse_name_with_type_specifiers. ego; leaf. repeat split; auto. Qed.
#[export] Hint Resolve e_name_attributes e_name_type : espec.

(** ** Lists *)
Definition list_ok {A} (P : A -> Prop) (ys : list symbol) (l : punctuated A) : Prop := each P l /\ spaced ys false (pairs l) /\ nonempty l.
Lemma p_pop_snoc {A} (l : punctuated A) m x : pairs l = m ++ [x] -> p_pop l = (Some x, mkPunctuated m).
Proof. intros X. unfold p_pop. now rewrite X, pop_snoc. Qed.
Lemma e_one_or_more {A} (q : M (pres A)) d (pr : A -> list tokref) (P : A -> Prop) ts : mono q -> (forall ts, E q ts (vok pr P ts)) ->
  E (one_or_more q d) ts (vok (list_toks pr) (list_ok P [d]) ts).
Proof.
  intros Hm Hq. unfold one_or_more. apply E_bind; [mono_tac|mono_tac|].
  eapply (E_loop (fun l ts1 => ts = list_toks pr l ++ ts1 /\ each P l /\ dotted [d] (pairs l))); [mono_tac|repeat split; auto using each_new, dotted_new|].
  intros l ts1 (T & Hl & D). apply E_bind; [mono_tac|mono_tac|]. eapply E_conseq; [apply Hq|]. intros r ts2 K. destruct r as [v| |]; [|contradiction|]; enorm.
  - estep; estep; enorm.
    + apply E_ret. repeat split; [etoks|apply each_push; [auto|assumption]|]. apply dotted_push; [assumption|]. cbn. match goal with H : is_symbol _ _ = true |- _ => now rewrite H end.
    + apply E_ret. unfold p_is_empty, p_len. cbn [pairs p_push]. rewrite app_length, Nat.add_comm. cbn [Nat.add List.length Nat.eqb].
      rewrite (p_pop_snoc _ (pairs l) (End v)) by reflexivity. apply E_ret. split; [etoks|]. repeat split; [apply each_push; auto|now apply dotted_end|apply nonempty_push].
  - apply E_ret. destruct l as [l]. unfold p_is_empty, p_len. cbn [pairs]. destruct l as [|x l _] using rev_ind.
    + apply E_ret. cbn. now subst.
    + rewrite app_length, Nat.add_comm. cbn [Nat.add List.length Nat.eqb]. rewrite (p_pop_snoc _ l x) by reflexivity.
      cbn [pairs] in D. apply Forall_app in D as [_ D]. inversion_clear D as [|? ? D' _]. destruct x as [|v e]; [contradiction|]. estep.
Qed.
Lemma e_name_list c p ts : has_luau c = false -> egood c p -> E (parse_name_list c p) ts (vok (list_toks name_toks) (list_ok plain_ok [SComma]) ts).
Proof. start. apply e_one_or_more; [auto with mono|auto with espec]. Qed.
Lemma e_attribute_list c p ts : has_luau c = false -> egood c p -> E (one_or_more (parse_name_with_attributes c p) SComma) ts (vok (list_toks name_toks) (list_ok name_ok [SComma]) ts).
Proof. start. apply e_one_or_more; [auto with mono|auto with espec]. Qed.
Lemma e_expression_list c p ts : egood c p -> E (parse_expression_list p) ts (vok (list_toks printed) (list_ok proper [SComma]) ts).
Proof. start. apply e_one_or_more; [auto with mono|eauto with espec]. Qed.
#[export] Hint Resolve e_name_list e_attribute_list e_expression_list : espec.

Lemma fits_puncts ys em tr l : list_ok proper ys l -> fits_piece (PList ys em tr false) (puncts l) = true.
Proof. intros (H1 & H2 & H3). apply fits_list; [now apply spaced_trailing|now right|discriminate]. Qed.
Lemma proper_puncts ys l : list_ok proper ys l -> proper (puncts l).
Proof. intros (H1 & _). eapply proper_punct; [intros ? X; exact X|assumption]. Qed.

#[export] Hint Resolve fits_puncts proper_puncts : efit.

(** ** Attributes *)
Lemma e_attributes ts : E parse_attributes ts (fun r ts' => match r with Value l => ts = flat_map printed l ++ ts' /\ Forall proper l | _ => False end).
Proof.
  unfold parse_attributes. estep. estep. estep; [apply E_panic|].
  eapply (E_loop (fun l ts1 => ts = flat_map printed l ++ ts1 /\ Forall proper l)); [mono_tac|subst; split; [reflexivity|constructor]|].
  intros l ts1 (T & Hl). estep. estep; subst.
  - estep. estep. estep; enorm.
    + estep. plain. split.
      * rewrite flat_map_app. etoks.
      * apply Forall_app. split; [assumption|]. constructor; [|constructor]. eproper.
    + unfold error_at_current. estep. estep. estep. subst. apply E_error.
  - estep. split; auto.
Qed.
#[export] Hint Resolve e_attributes : espec.

(** ** Blocks with an end *)
Lemma e_block_end c p name st ts : egood c p ->
  E (expect_block_with_end c p name st) ts (fun r ts' => match r with Some (b, e) => ts = printed b ++ e :: ts' /\ proper b /\ is_symbol e SEnd = true | None => False end).
Proof.
  start. unfold expect_block_with_end. estep. eapply E_conseq; [eauto with espec|]. intros r ts1 K. destruct r as [b| |]; [|contradiction|apply E_panic].
  destruct K as (T & Hb & _). estep.
  assert (X : forall Q : _ -> _ -> Prop, (forall se, Q se ts1) -> E (match block_last_stmt b with
                  | Some l => ends_of l
                  | None => match block_last_of_stmts b with Some l => ends_of l | None => ret (st, st) end
                  end) ts1 Q).
  { intros Q HQ. destruct (block_last_stmt b); [|destruct (block_last_of_stmts b)]; [apply E_pure; [apply pure_ends_of|auto]| apply E_pure; [apply pure_ends_of|auto]|apply E_ret; auto]. }
  apply X. intros se. ego. auto.
Qed.
#[export] Hint Resolve e_block_end : espec.

(** ** Function bodies *)
Fixpoint params_ok (l : list (pair_of tree)) : bool :=
  match l with
  | [] => true
  | x :: l => (param_is_name (pair_value x) || match l with [] => true | _ => false end) && params_ok l
  end.
Lemma params_names l : names_then_ellipsis (map (pair_tree (fun t : tree => t)) l) = params_ok l.
Proof. induction l as [|x l IH]; [reflexivity|]. destruct x; cbn [map pair_tree names_then_ellipsis params_ok pair_value]; rewrite IH; destruct l; reflexivity. Qed.
Lemma params_snoc l x : Forall (fun x => param_is_name (pair_value x) = true) l -> params_ok (l ++ [x]) = true.
Proof.
  induction 1 as [|y l Hy _ IH]; cbn [app params_ok].
  - now rewrite orb_true_r.
  - now rewrite Hy, IH.
Qed.
Definition params_post (ts : list tokref) (r : punctuated tree + punctuated tree * list tree * tokref) (ts' : list tokref) : Prop :=
  match r with
  | inl _ => False
  | inr (l, specs, e) => ts = list_toks printed l ++ e :: ts' /\ is_symbol e SRightParen = true /\ each proper l /\ Forall (fun t => t = Con CNone []) specs /\
      spaced [SComma] true (pairs l) /\ params_ok (pairs l) = true
  end.
Lemma each_forall {A} (P : A -> Prop) l : each P l -> Forall (fun x => P (pair_value x)) (pairs l).
Proof. trivial. Qed.
Ltac pieces := cbn [params_post]; repeat match goal with |- _ /\ _ => split end; auto; try solve [etoks]; try solve [apply each_push; [auto|first [reflexivity|eproper]]];
  try solve [apply Forall_app; auto]; try solve [now apply dotted_end]; try solve [now apply params_snoc];
  try solve [apply dotted_push; [assumption|cbn; match goal with H : is_symbol _ _ = true |- _ => now rewrite H end]].
Lemma e_parameters c p ts : has_luau c = false -> egood c p -> E (parameter_loop c p) ts (params_post ts).
Proof.
  start. unfold parameter_loop.
  eapply (E_loop (fun '(l, specs) ts1 => ts = list_toks printed l ++ ts1 /\ each proper l /\ Forall (fun t => t = Con CNone []) specs /\
    dotted [SComma] (pairs l) /\ each (fun t => param_is_name t = true) l)); [mono_tac|repeat split; auto using each_new, dotted_new, Forall_nil|].
  intros [l specs] ts1 (T & H2 & H3 & H4 & H5). ego.
  - repeat split; auto.
    + now apply dotted_spaced.
    + apply each_forall in H5. clear - H5. induction H5 as [|x m Hx _ IH]; [reflexivity|]. cbn [params_ok]. now rewrite Hx, IH.
  - pieces.
  - plain. pieces.
  - plain. pieces.
Qed.
#[export] Hint Resolve e_parameters : espec.

Lemma zip_none ps v : Forall (fun t => t = Con CNone []) v -> zip_pick printed true (map (pair_tree (fun t : tree => t)) ps) [v] = flat_map (pair_toks printed) ps.
Proof.
  intros H. revert v H. induction ps as [|x ps IH]; intros v H; [reflexivity|]. cbn [map zip_pick flat_map]. rewrite app_nil_r.
  rewrite IH by (destruct v; [constructor|now inversion H]).
  assert (X : at_ printed 0 v = []). { destruct v as [|t v]; [reflexivity|]. inversion H; subst. reflexivity. }
  rewrite X. destruct x; cbn [pair_tree subs at_ nth_error pair_toks app]; now rewrite <- ?app_assoc.
Qed.

Lemma e_function_body c p ts : has_luau c = false -> egood c p -> E (parse_function_body c p) ts (vok printed proper ts).
Proof.
  start. unfold parse_function_body. rewrite H. estep. estep. cbv iota zeta. estep. estep; enorm; [|now apply E_ret].
  estep. eapply E_conseq; [auto with espec|]. intros [l|[[l specs] e]] ts1 K; [contradiction|]. cbn [params_post] in K. enorm.
  assert (X : E (match p_pop l with
                 | (Some (Punctuated v q), rest) =>
                     token_error q (str "trailing commas in arguments are not allowed") ;; ret (p_push rest (End v))
                 | _ => ret l
                 end) ts1 (fun l' ts' => l' = l /\ ts' = ts1 /\ spaced [SComma] false (pairs l))).
  { destruct l as [l]. destruct l as [|x l _] using rev_ind.
    - apply E_ret. auto.
    - rewrite (p_pop_snoc _ l x) by reflexivity. destruct x as [v|v q]; [|estep]. apply E_ret. repeat split; auto.
      cbn [pairs] in *. clear - H7. induction l as [|x l IH]; [exact I|]. destruct x as [u|u d]; cbn [app] in *; [destruct l; destruct H7|]. apply spaced_cons in H7 as (S1 & S2 & S3).
      apply spaced_cons. repeat split; auto. intros Y. now destruct l. }
  estep. eapply E_conseq; [exact X|]. intros l' ts' (-> & -> & S). clear X. unfold body_return_type. rewrite H. estep. estep. cbv iota. estep. eapply E_conseq; [eauto with espec|].
  intros [[b en]|] ts2 K; [|contradiction]. enorm. estep. split.
  - rewrite printed_nd; cbn [display_order flat_map pick at_ subs_at subs nth_error map span vec punct puncts]. rewrite zip_none by assumption.
    etoks.
  - apply proper_nd; [|repeat (apply Forall_cons; [try eproper|]); try apply Forall_nil].
    + enode; [apply fits_list; [assumption|now left|discriminate]|]. cbn [puncts punct]. now rewrite params_names.
    + eapply Forall_impl; [|eassumption]. intros ? ->. reflexivity.
Qed.
#[export] Hint Resolve e_function_body : espec.
