(** What is parsed without an error in Luau is a tree of the tree grammar: names, lists, function bodies. *)
From Verif Require Import LexerSpec PunctuatedProofs.
From Verif Require Export Sound4.
From Coq Require Import Lia.
Local Open Scope nat_scope.
Import ListNotations.

Lemma stays_below a b : (a = b -> False) -> a <= b -> a < b.
Proof. lia. Qed.
Ltac jnorm ::= cbv beta iota; cbn [fst snd is_sym is_ident option_map n_name n_attribute n_type_specifier force_name type_post result_post expression_post unit_post jblock_post tl] in *; repeat match goal with
  | H : _ /\ _ |- _ => destruct H
  | H : ex _ |- _ => destruct H
  | H : False |- _ => destruct H
  | H : True |- _ => clear H
  | H : ?x = ?x |- _ => clear H
  | H : held _ _ _ _ _ _ |- _ => unfold held in H
  | H : heldo _ _ _ _ _ _ |- _ => unfold heldo in H
  | H : ?a = ?b -> False, H' : ?a <= ?b |- _ => apply (stays_below a b H) in H'; clear H
  | H : _ && _ = true |- _ => apply andb_true_iff in H
  | H : reals (_ :: _) |- _ => apply reals_cons in H
  | H : reals [] |- _ => clear H
  | H : _ :: _ = _ :: _ |- _ => injection H; clear H; intros; subst
  | H : ?x = _ :: _ |- _ => is_var x; subst x
  | H : ?x = ?y |- _ => lazymatch type of x with list tokref => first [is_var x; subst x | is_var y; subst y] | tree => first [is_var x; subst x] | pres _ => first [is_var x; subst x] | option _ => first [is_var x; subst x] | name => first [is_var x; subst x] end
  end.

(** ** Lists *)
Definition listed {A} (P : A -> list tokref -> Prop) (l : punctuated A) (ts : list tokref) : Prop :=
  exists l0 v, l = p_push l0 (End v) /\ so_far (fun v => exists ts, P v ts) l0 /\ P v ts.
Lemma j_one_or_more {A} (q : M (pres A)) (f : A -> nat) (P : A -> list tokref -> Prop) ts : mono q -> reals ts ->
  (forall ts, reals ts -> E q ts (held (vw f) ts 0 (fun r ts' => match r with Value v => P v ts' | LexerMoved => False | NotFound => True end))) ->
  E (one_or_more q SComma) ts (held (vw (lw f)) ts 0 (fun r ts' => match r with Value l => listed P l ts' | LexerMoved => False | NotFound => True end)).
Proof.
  intros Hm R Hq. unfold one_or_more. jstep.
  eapply (E_loop (fun l ts1 => held (lw f) ts 0 (fun l ts1 => so_far (fun v => exists ts, P v ts) l) l ts1 /\ (l = p_new \/ exists l0 v d, l = p_push l0 (Punctuated v d))));
    [mono_tac|split; [jend; apply so_far_new|now left]|].
  intros l ts1 (K & KL). jnorm. jstep. eapply E_conseq; [apply Hq; assumption|]. intros r ts2 K. destruct r as [v| |]; jnorm.
  - jstep; jstep; jnorm; jstep.
    + split; [|eauto]. jend. apply so_far_push; eauto.
    + unfold p_is_empty, p_len. cbn [pairs p_push]. rewrite app_length, Nat.add_comm. cbn [Nat.add List.length Nat.eqb].
      rewrite (p_pop_snoc _ (pairs l) (End v)) by reflexivity. jgo. jend. exists l, v. auto.
  - jstep. destruct KL as [->|(l0 & v & d & ->)].
    + change (p_is_empty (@p_new A)) with true. cbv iota. jstep. jend; try exact I.
    + unfold p_is_empty, p_len. cbn [pairs p_push]. rewrite app_length, Nat.add_comm. cbn [Nat.add List.length Nat.eqb]. rewrite (p_pop_snoc _ (pairs l0) (Punctuated v d)) by reflexivity. jgo.
  - jstep. destruct KL as [->|(l0 & v & d & ->)].
    + change (p_is_empty (@p_new A)) with true. cbv iota. jstep. jend; try exact I.
    + unfold p_is_empty, p_len. cbn [pairs p_push]. rewrite app_length, Nat.add_comm. cbn [Nat.add List.length Nat.eqb]. rewrite (p_pop_snoc _ (pairs l0) (Punctuated v d)) by reflexivity. jgo.
Qed.
Lemma listed_several {A} (f : A -> tree) (Q : tree -> Prop) (P : A -> list tokref -> Prop) l ts : (forall v ts, P v ts -> Q (f v)) -> listed P l ts -> several Q SComma (map (pair_tree f) (pairs l)).
Proof.
  intros H (l0 & v & -> & S & Pv). apply so_far_end; [|eauto]. destruct S as (S1 & S2). split; [|assumption]. unfold each in *. eapply Forall_impl; [|exact S1]. cbn. intros x (t & Hx). eauto.
Qed.
(** An expression and what comes after it. *)
Definition exp_end (c : cfg) (e : tree) (ts : list tokref) : Prop := expression c e /\ settled c e ts.
Lemma j_expression_list c p ts : jgood c p -> reals ts ->
  E (parse_expression_list p) ts (held (vw (lw tw)) ts 0 (fun r ts' => match r with Value l => listed (exp_end c) l ts' | LexerMoved => False | NotFound => True end)).
Proof.
  jbegin. apply j_one_or_more; [auto with mono|assumption|]. intros ts1 R. eapply E_conseq; [eauto with jspec|]. intros [v| |] ts2 K; jnorm; (split; [assumption|split; [assumption|]]); intros F; fullen; jnorm; auto. now split.
Qed.
#[export] Hint Resolve j_expression_list : jspec.

(** ** Names *)
Lemma j_specifier c p d ts : jgood c p -> reals ts -> is_symbol d SColon = true ->
  E (expect_type_specifier p d) ts (held (ow tw) ts (wt d) (fun r _ => match r with Some t => specifier c t | None => False end)).
Proof. jbegin. unfold expect_type_specifier. jgo; jend. destruct (jg_luau _ _ H) as (L & _). apply sp_intro; auto with jtree. Qed.
#[export] Hint Resolve j_specifier : jspec.
Definition typed_name (c : cfg) (n : name) : Prop := nm (n_name n) /\ n_attribute n = None /\ optional (specifier c) (opt_tree (n_type_specifier n)).
Definition bound_name (c : cfg) (n : name) : Prop := nm (n_name n) /\ bound c (opt_tree (n_attribute n)) (opt_tree (n_type_specifier n)).
Lemma j_force_types c p r ts : jgood c p -> reals ts -> is_identifier r = true -> E (force_name_with_type_specifiers c p r) ts (held nw ts (wt r) (fun n _ => typed_name c n)).
Proof.
  jbegin. unfold force_name_with_type_specifiers. destruct (jg_luau _ _ H) as (L & _). rewrite L. jgo; jend.
  - destruct a as [t1|]; [|contradiction]. repeat split; auto with jtree. now constructor.
  - repeat split; auto with jtree. constructor.
Qed.
#[export] Hint Resolve j_force_types : jspec.
Lemma j_force_attributes c p r ts : jgood c p -> reals ts -> is_identifier r = true -> E (force_name_with_attributes c p r) ts (held nw ts (wt r) (fun n _ => bound_name c n)).
Proof.
  jbegin. unfold force_name_with_attributes. destruct (negb (has_lua54 c) && negb (has_cfxlua c)) eqn:V.
  - jgo. jend. match goal with HT : typed_name _ _ |- _ => destruct HT as (N & T & O) end. split; [assumption|]. rewrite T. now constructor.
  - apply andb_false_iff in V. rewrite !negb_false_iff in V. jgo; jend.
    + split; [auto with jtree|]. apply bo_attribute; auto with jtree.
    + match goal with HT : typed_name _ _ |- _ => destruct HT as (N & T & O) end. split; [assumption|]. rewrite T. now constructor.
Qed.
#[export] Hint Resolve j_force_attributes : jspec.
Lemma j_name_types c p ts : jgood c p -> reals ts -> E (parse_name_with_type_specifiers c p) ts (held (vw nw) ts 0 (fun r ts' => match r with Value n => typed_name c n | LexerMoved => False | NotFound => True end)).
Proof. jbegin. unfold parse_name_with_type_specifiers. jgo; jend; auto. Qed.
Lemma j_name_attributes c p ts : jgood c p -> reals ts -> E (parse_name_with_attributes c p) ts (held (vw nw) ts 0 (fun r ts' => match r with Value n => bound_name c n | LexerMoved => False | NotFound => True end)).
Proof. jbegin. unfold parse_name_with_attributes. jgo; jend; auto. Qed.
#[export] Hint Resolve j_name_types j_name_attributes : jspec.
Lemma j_name_list c p ts : jgood c p -> reals ts -> E (parse_name_list c p) ts (held (vw (lw nw)) ts 0 (fun r ts' => match r with Value l => listed (fun n _ => typed_name c n) l ts' | LexerMoved => False | NotFound => True end)).
Proof. jbegin. apply j_one_or_more; [auto with mono|assumption|]. intros. now apply j_name_types. Qed.
Lemma j_attribute_list c p ts : jgood c p -> reals ts ->
  E (one_or_more (parse_name_with_attributes c p) SComma) ts (held (vw (lw nw)) ts 0 (fun r ts' => match r with Value l => listed (fun n _ => bound_name c n) l ts' | LexerMoved => False | NotFound => True end)).
Proof. jbegin. apply j_one_or_more; [auto with mono|assumption|]. intros. now apply j_name_attributes. Qed.
#[export] Hint Resolve j_name_list j_attribute_list : jspec.
Lemma names_bindings (P : tree -> tree -> Prop) (R : name -> Prop) (g h : name -> tree) l ts : (forall n, R n -> nm (n_name n) /\ P (g n) (h n)) -> listed (fun n _ => R n) l ts ->
  bindings P (map (pair_tree Tok) (map (pair_map n_name) (pairs l))) (map g (map pair_value (pairs l))) (map h (map pair_value (pairs l))).
Proof.
  intros HR (l0 & v & -> & (S1 & S2) & Pv). cbn [p_push pairs]. unfold each in S1. induction (pairs l0) as [|x m IH].
  - cbn. apply HR in Pv as [? ?]. now constructor.
  - pose proof (Forall_inv S1) as (ts0 & Sx). apply Forall_inv_tail in S1. inversion_clear S2 as [|? ? Dx D']. destruct x as [u|u d]; [contradiction|]. cbn in *. rewrite orb_false_r in Dx. apply HR in Sx as [? ?]. apply b_more; auto using sym_eq.
Qed.

(** ** Attributes of functions *)
Lemma j_attributes c ts : reals (tl ts) -> E parse_attributes ts (heldo (vw tws) ts 0 (fun r ts' => match r with Value l => Forall (attribute c) l /\ l <> [] /\ hd_error (flat_map printed l) = hd_error ts | _ => False end)).
Proof.
  intros R. unfold parse_attributes. jstep. jstep. jnorm. jstep; [jstep|]. jnorm. rewrite negb_false_iff in X.
  eapply (E_loop (fun l ts1 => heldo tws (t :: r) 0 (fun l _ => Forall (attribute c) l) l ts1 /\ (hd_error (flat_map printed l) = Some t \/ ts1 = t :: r /\ l = []))); [mono_tac|split; [jend; constructor|now right]|].
  intros l ts1 (K & KL). jnorm. assert (R1 : reals (tl ts1)) by (match goal with HR : _ \/ reals ts1 |- _ => destruct HR as [->|?]; [assumption|now apply reals_tail] end). jgo.
  - split; [|left; destruct KL as [KL|(KL & ->)]; [rewrite flat_map_app; destruct (flat_map printed l); [discriminate|exact KL]|injection KL as -> _; reflexivity]]. jend. apply Forall_app. split; [assumption|]. repeat constructor; auto with jtree.
  - jend. split; [assumption|]. destruct KL as [KL|(KL & ->)]; [split; [|exact KL]; now destruct l|]. injection KL as -> ->. congruence.
Qed.
#[export] Hint Resolve j_attributes : jspec.

(** ** Blocks with an end *)
Lemma j_block c p ts : jgood c p -> reals ts -> E (p_block p) ts (held (vw tw) ts 0 (jblock_post c)).
Proof. intros. apply heldo_held; [assumption|]. apply jg_block; auto using reals_tail. Qed.
#[export] Remove Hints jg_block : jspec.
#[export] Hint Resolve j_block : jspec.
Definition endw (x : tree * tokref) : nat := tw (fst x) + wt (snd x).
#[export] Hint Unfold endw : jw.
Lemma j_block_end c p name st ts : jgood c p -> reals ts ->
  E (expect_block_with_end c p name st) ts (held (ow endw) ts 0 (fun r _ => match r with Some x => block c (fst x) /\ sy (snd x) SEnd | None => False end)).
Proof. jbegin. unfold expect_block_with_end. jgo; jend; auto with jtree. Qed.
#[export] Hint Resolve j_block_end : jspec.

(** ** Function bodies *)
Definition given_w (r : option (option tree)) : nat := ow (ow tw) r.
#[export] Hint Unfold given_w : jw.
Lemma j_ellipsis c p ts : jgood c p -> reals ts -> E (ellipsis_specifier p) ts (held given_w ts 0 (fun r _ => match r with Some o => optional (dots_specifier c) (opt_tree o) | None => False end)).
Proof. jbegin. unfold ellipsis_specifier. jgo; jend; constructor; first [apply ds_pack; solve [auto with jtree]|apply ds_type; auto with jtree]. Qed.
#[export] Hint Resolve j_ellipsis : jspec.
Lemma j_result_specifier c p ts : jgood c p -> reals ts -> E (body_return_type c p) ts (held given_w ts 0 (fun r _ => match r with Some o => optional (result_specifier c) (opt_tree o) | None => False end)).
Proof. jbegin. unfold body_return_type. destruct (jg_luau _ _ H) as (L & _). rewrite L. jgo; jend; constructor. constructor; auto with jtree. Qed.
#[export] Hint Resolve j_result_specifier : jspec.
Definition names_so_far (c : cfg) (l : list (pair_of tree)) (specs : list tree) : Prop :=
  Forall2 (fun x t => match x with Punctuated v d => (exists n, v = param_name n /\ nm n) /\ sy d SComma /\ optional (specifier c) t | End _ => False end) l specs.
Lemma names_then c l specs x y : names_so_far c l specs ->
  parameters (optional (specifier c)) (optional (dots_specifier c)) (has_luau c) [x] y ->
  parameters (optional (specifier c)) (optional (dots_specifier c)) (has_luau c) (map (pair_tree (fun t => t)) l ++ [x]) (specs ++ y).
Proof.
  induction 1 as [|a b l specs H _ IH]; intros X; [exact X|]. destruct a as [|v d]; [contradiction|]. destruct H as ((n & -> & N) & D & HO). cbn [map app pair_tree]. apply p_more; auto.
Qed.
Definition params_w (r : punctuated tree + punctuated tree * list tree * tokref) : nat := match r with inl l => lw tw l | inr (l, s, e) => lw tw l + tws s + wt e end.
Lemma params_inl l : params_w (inl l) = lw tw l. Proof. reflexivity. Qed.
Lemma params_inr l s e : params_w (inr (l, s, e)) = lw tw l + tws s + wt e. Proof. reflexivity. Qed.
#[export] Hint Rewrite params_inl params_inr : tw.
Definition jparams (c : cfg) (r : punctuated tree + punctuated tree * list tree * tokref) (_ : list tokref) : Prop :=
  match r with
  | inl _ => False
  | inr (l, specs, e) => sy e SRightParen /\ ((exists m v d, pairs l = m ++ [Punctuated v d]) \/ body_parameters c (map (pair_tree (fun t => t)) (pairs l)) specs)
  end.
Definition loop_w (x : punctuated tree * list tree) : nat := lw tw (fst x) + tws (snd x).
#[export] Hint Unfold loop_w : jw.
Lemma tw_param_name r : tw (param_name r) = wt r. Proof. cbn. lia. Qed.
Lemma tw_param_ellipsis r : tw (param_ellipsis r) = wt r. Proof. cbn. lia. Qed.
#[export] Hint Rewrite tw_param_name tw_param_ellipsis : tw.
Lemma j_parameters c p ts : jgood c p -> reals ts -> E (parameter_loop c p) ts (held params_w ts 0 (jparams c)).
Proof.
  jbegin. unfold parameter_loop. destruct (jg_luau _ _ H) as (L & _). rewrite L.
  eapply (E_loop (held loop_w ts 0 (fun x _ => names_so_far c (pairs (fst x)) (snd x)))); [mono_tac|jend; constructor|].
  intros [l specs] ts1 K. unfold loop_w in K. cbn [fst snd] in K. jgo; jend; cbn [p_push pairs].
  - split; [auto with jtree|]. destruct l as [l]. cbn [pairs] in *. match goal with HN : names_so_far _ _ _ |- _ => rename HN into I end. destruct l as [|x l _] using rev_ind.
    + right. inversion I. constructor.
    + left. apply Forall2_app_inv_l in I as (s1 & s2 & _ & I & _). inversion I as [|? ? ? ? Hx]; subst. destruct x; [contradiction|]. eauto.
  - split; [auto with jtree|]. right. apply bp_some. cbn [p_push pairs]. rewrite map_app. apply names_then; [assumption|]. apply p_dots; auto with jtree.
  - apply Forall2_app; [assumption|]. match goal with HT : typed_name _ _ |- _ => destruct HT as (N & T & O) end. constructor; [|constructor]. split; [eauto|]. split; [auto with jtree|assumption].
  - split; [auto with jtree|]. right. apply bp_some. cbn [p_push pairs]. rewrite map_app. apply names_then; [assumption|]. match goal with HT : typed_name _ _ |- _ => destruct HT as (N & T & O) end. apply p_last; auto with jtree.
Qed.
#[export] Hint Resolve j_parameters : jspec.
Lemma lw_pop (l rest : punctuated tree) x : p_pop l = (Some x, rest) -> lw tw l = lw tw rest + pw tw x.
Proof.
  unfold p_pop. destruct (vec_pop (pairs l)) as [y m] eqn:V. intros [= -> <-]. destruct l as [l]. destruct l as [|z l _] using rev_ind; [discriminate|].
  assert (Y : p_pop (mkPunctuated (l ++ [z])) = (Some z, mkPunctuated l)) by now apply p_pop_snoc. unfold p_pop in Y. cbn [pairs] in *. rewrite V in Y. injection Y as -> ->. unfold lw. cbn [pairs]. rewrite map_app, list_sum_app. cbn. lia.
Qed.
Lemma tw_block_new : tw block_new = 0. Proof. reflexivity. Qed.
#[export] Hint Rewrite tw_block_new : tw.
Lemma j_unfinished c a l ts : E (unfinished_function_body c a l) ts (fun r ts' => ts' = ts /\ vw tw r <= wt a + lw tw l /\ match r with Value _ => True | _ => False end).
Proof.
  unfold unfinished_function_body. destruct (p_pop l) as [[[v|v d]|] rest] eqn:PP; jgo; (split; [reflexivity|split; [|exact I]]); autorewrite with tw; try apply lw_pop in PP; cbn [pw] in *; lia.
Qed.
#[export] Hint Resolve j_unfinished : jspec.
Lemma j_body_generics c p ts : jgood c p -> reals ts ->
  E (parse_generic_type_list c p Plain) ts (held (vw tw) ts 0 (fun r _ => match r with Value g => generics c false g | LexerMoved => False | NotFound => True end)).
Proof.
  jbegin. destruct ts as [|t r].
  - unfold parse_generic_type_list. destruct (jg_luau _ _ H) as (L & _). rewrite L. cbn [negb]. jstep. apply E_consume_if; intros; discriminate.
  - eapply E_conseq; [apply j_generic_list; assumption|]. intros x ts' [K _]. jnorm. split; [assumption|]. split; [assumption|]. intros F. fullen. destruct x; jnorm; auto.
Qed.
Definition body_post (c : cfg) (r : pres tree) (_ : list tokref) : Prop := match r with Value t => function_body c t | LexerMoved => False | NotFound => True end.
Lemma j_function_body c p ts : jgood c p -> reals ts -> E (parse_function_body c p) ts (held (vw tw) ts 0 (body_post c)).
Proof.
  jbegin. unfold parse_function_body. destruct (jg_luau _ _ H) as (L & _). rewrite L. jstep. eapply E_conseq; [apply j_body_generics; assumption|]. intros r1 ts1 K.
  assert (G : r1 = LexerMoved \/ exists gen, gen = match r1 with Value g => Some g | _ => None end /\ r1 <> LexerMoved /\ reals ts1 /\
    ow tw gen + w ts1 <= w ts /\ (ow tw gen + w ts1 = w ts -> body_generics c (opt_tree gen))).
  { destruct r1 as [g| |]; [right|now left|right]; eexists; (split; [reflexivity|]); wnorm; jnorm; wnorm; repeat split; auto; try nlia; try congruence; jnorm.
    - intros F. fullen. apply bg_some; assumption.
    - constructor. }
  destruct G as [->|(gen & EG & NG & R1 & G1 & G2)]; [jstep; jnorm; jend|].
  assert (XE : forall Q (k : M (pres tree)), E k ts1 Q -> E (match r1 with LexerMoved => ret LexerMoved | _ => k end) ts1 Q) by (intros; destruct r1; auto; congruence).
  clear K. apply XE. clear XE. rewrite <- EG. clear r1 EG NG. cbv zeta. jstep. jstep; jnorm; [|jstep; jend; exact I].
  jstep. jstep. destruct a as [l|[[l specs] e]]; cbn [jparams] in *; jnorm.
  - jstep. jnorm. autorewrite with tw in *. destruct a; jnorm. split; [assumption|].
    cbn [jparams] in *. jnorm. wnorm. split; [nlia|]. intros F. exfalso. nlia.
  - jstep. eapply (E_conseq _ _ (fun l' ts' => ts' = r0 /\ l' = l /\ forall m v d, pairs l <> m ++ [Punctuated v d])).
    { destruct l as [l]. destruct l as [|x l _] using rev_ind; [apply E_ret; split; [reflexivity|split; [reflexivity|]]; intros m v d X; now destruct m|]. rewrite (p_pop_snoc _ l x) by reflexivity.
      destruct x as [v|v q]; [apply E_ret; split; [reflexivity|split; [reflexivity|]]; intros m u d X; cbn [pairs] in X; apply app_inj_tail in X as [_ X]; discriminate|estep]. }
    intros l' ts' (-> & -> & NP). jgo; jend; try exact I.
    cbn [jparams] in *. jnorm. match goal with HP : _ \/ body_parameters _ _ _ |- _ => destruct HP as [(m & v & d & HP)|HP]; [now apply NP in HP|] end. constructor; auto with jtree.
Qed.
#[export] Hint Resolve j_function_body : jspec.
