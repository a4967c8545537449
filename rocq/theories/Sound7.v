(** What is parsed without an error in Luau is a tree of the tree grammar: expressions. *)
From Verif Require Import LexerSpec PunctuatedProofs.
From Verif Require Export Sound6.
From Coq Require Import Lia.
Local Open Scope nat_scope.
Import ListNotations.

(** ** if ... then ... else ... *)
Lemma j_if_else c p i ts : jgood c p -> reals ts -> wt i = 1 -> is_symbol i SIf = true ->
  E (expect_if_else_expression p i) ts (held (ow tw) ts 1 (fun r ts' => match r with
    | Some t => unit_expression c (Nd KExprIfExpression [t]) /\ begins (i :: ts) (Nd KExprIfExpression [t]) /\ settled_ (cast_inside (Nd KExprIfExpression [t])) c (Nd KExprIfExpression [t]) ts'
    | None => False end)).
Proof.
  jbegin. destruct (jg_luau _ _ H) as (L & _). unfold expect_if_else_expression. jgo; try solve [jend].
  match goal with |- E _ ?ts0 _ => set (u := ts0) in * end.
  eapply (E_conseq _ _ (held (ow tws) u 0 (fun r _ => match r with Some l => Forall (else_if c) l | None => False end))).
  { eapply (E_loop (held tws u 0 (fun l _ => Forall (else_if c) l))); [mono_tac|jend; constructor|].
    intros l ts1 K. jgo; jend; auto. apply Forall_app. split; [assumption|]. constructor; [|constructor]. constructor; auto with jtree. }
  intros [l|] ts1 K; jgo; try solve [jend].
  assert (W : tw (opt_tree match l with [] => None | _ => Some (vec l) end) = tws l) by (destruct l; wnorm; reflexivity).
  jend. rewrite W in *. all: try nlia. 
  split; [|split; [jbegins|]].
  - apply ue_if; auto with jtree. destruct l as [|x l]; constructor. assumption.
  - match goal with HS : settled c a1 ?ts', HB : below c 0 ?ts' |- _ => destruct HS as (S1 & S2 & S3 & S4 & S5); split; [exact S1|split; [exact S2|split; [|split; [exact S4|exact S5]]]];
      intros _; destruct ts' as [|x ?]; [exact I|]; cbn in HB; destruct (precedence_of_token c x); [specialize (HB _ eq_refl); lia|reflexivity] end.
Qed.
#[export] Hint Resolve j_if_else : jspec.

(** ** Interpolated strings *)
Lemma left_brace_first t r e : begins (t :: r) e -> is_symbol t SLeftBrace = false -> ~ starts_with SLeftBrace e.
Proof.
  unfold begins, starts_with, first_of. destruct (printed e) as [|x l]; [discriminate|]. cbn. intros [= ->] N X. injection X as X.
  unfold terminal_of, is_symbol in *. destruct (t_type (r_token t)); try discriminate. injection X as ->. discriminate N.
Qed.
Definition holes_w (x : list tree * tokref) : nat := tws (fst x) + wt (snd x).
Definition holes_end_w (x : list tree * option tokref) : nat := tws (fst x) + match snd x with Some z => wt z | None => 1 end.
#[export] Hint Unfold holes_w holes_end_w : jw.
Definition holes_before (c : cfg) (x : list tree * tokref) : Prop := exists k, section k (snd x) /\ forall m, holes c k m -> holes c IBegin (fst x ++ m).
Definition string_post (c : cfg) (first : tokref) (ts : list tokref) (t : tree) (_ : list tokref) : Prop :=
  atom c (Nd KExprInterpolatedString [t]) /\ begins (first :: ts) t.
Definition first_kept (first : tokref) (l : list tree) (cur : tokref) : Prop := hd_error (flat_map printed l ++ [cur]) = Some first.
Lemma first_step first l cur e t : first_kept first l cur -> first_kept first (l ++ [Nd KInterpolatedStringSegment [Tok cur; e]]) t.
Proof. unfold first_kept. rewrite flat_map_app. destruct (flat_map printed l); intros X; exact X. Qed.
Lemma j_interpolated c p first ts : jgood c p -> reals ts -> wt first = 1 -> section IBegin first ->
  E (expect_interpolated_string p first) ts (held tw ts 1 (string_post c first ts)).
Proof.
  jbegin. destruct (jg_luau _ _ H) as (L & _). unfold expect_interpolated_string. jstep.
  eapply (E_conseq _ _ (fun r ts' => held holes_end_w ts 1 (fun x _ => match snd x with Some z => holes c IBegin (fst x) /\ section IEnd z /\ first_kept first (fst x) z | None => False end) r ts')).
  { eapply (E_loop (fun x ts1 => held holes_w ts 1 (fun x _ => holes_before c x) x ts1 /\ wt (snd x) = 1 /\ first_kept first (fst x) (snd x))); [mono_tac|split; [jend; exists IBegin; auto|auto]; split; [assumption|reflexivity]|].
    intros [l cur] ts1 (K & W & FK). jstep.
    eapply (E_conseq _ _ (fun b ts' => b = false /\ ts' = ts1 /\ (r_trailing cur = [] -> next_not SLeftBrace ts1))).
    { destruct (r_trailing cur); [|jstep; repeat split; discriminate]. jstep. jstep; jstep; jnorm; try jstep. repeat split. cbn. auto. }
    intros b ts2 (-> & -> & NB).
    assert (NB' : forall e, begins ts1 e -> r_trailing cur = [] -> ~ starts_with SLeftBrace e).
    { intros e B T. specialize (NB T). destruct ts1; [contradiction|]. eapply left_brace_first; eassumption. }
    jgo.
    1,2,4: split; [|split; [assumption|eapply first_step; eassumption]]; jend;
      match goal with X : t_type _ = TInterpolatedString ?z ?k |- _ => exists k; split; [now exists z|] end; intros m Hm; cbn [fst snd] in *;
      match goal with HB : holes_before _ _ |- _ => destruct HB as (k0 & HB1 & HB2) end; rewrite <- app_assoc; apply HB2; apply ho_more; auto; eapply mh_intro; [|eassumption]; discriminate.
    - jend. match goal with HB : holes_before _ _ |- _ => destruct HB as (k0 & HB1 & HB2) end. split; [apply HB2; apply ho_last; auto|]. split; [eexists; eassumption|]. eapply first_step; eassumption.
    - jend. }
  intros [l [z|]] ts1 K; jgo.
  all: jend.
  all: try change (wt (mkRef [] (token_new (TInterpolatedString [] IEnd)) [])) with 0 in *.
  all: try nlia.
  - exfalso. match goal with HH : holes _ _ [] |- _ => inversion HH end.
  - split; [apply at_interpolated; assumption|]. unfold first_kept in *. unfold begins. eprint. cbn [flat_map] in *. rewrite ?app_nil_r. assumption.
Qed.
#[export] Hint Resolve j_interpolated : jspec.

(** ** Operators *)
Lemma binop_in c s n t : precedence_of_token c t = Some n -> t_type (r_token t) = TSymbol s -> binop_enabled c s = true -> binary_in c s.
Proof.
  unfold precedence_of_token. intros H X B. rewrite X in H. destruct s; try discriminate H; try exact I; cbn in B |- *; try assumption. now apply orb_true_iff in B.
Qed.
Lemma j_binop c t r n : precedence_of_token c t = Some n ->
  E (consume_binop c) (t :: r) (fun o ts' => ts' = r /\ exists s, o = (Nd (KBinOp s) [Tok t], t) /\ t_type (r_token t) = TSymbol s /\ binary_in c s).
Proof.
  intros H. unfold consume_binop. estep. estep. rewrite H. destruct (t_type (r_token t)) eqn:X; try apply E_panic.
  estep; [|apply E_panic]. estep. estep. estep. split; [reflexivity|]. eexists. repeat split. eapply binop_in; eassumption.
Qed.
Lemma j_unop c t ts : E (unop c t) ts (fun o ts' => ts' = ts /\ exists s, o = Nd (KUnOp s) [Tok t] /\ unary_in c s /\ is_symbol t s = true).
Proof. unfold unop. repeat (estep; enorm); (split; [reflexivity|]); eexists; repeat split; auto. Qed.
(** What the arms of [parse_primary_expression] give. *)
Definition arm_post (c : cfg) (ts : list tokref) (e : tree) (ts' : list tokref) : Prop :=
  begins ts e /\ fits c (head_of e) ts' /\ ~ is_binary (head_of e) /\
  (atom c e /\ (open e = true -> next_not SLeftParen ts') \/ unit_expression c e /\ settled_ (cast_inside e) c e ts').
Definition armed (c : cfg) (ts : list tokref) (r : pres tree) (ts' : list tokref) : Prop := match r with Value e => arm_post c ts e ts' | LexerMoved => False | NotFound => True end.
Lemma j_unary c p t ts : jgood c p -> reals ts -> wt t = 1 -> E (parse_unary_expression c p t) ts (held (vw tw) ts 1 (armed c (t :: ts))).
Proof.
  jbegin. unfold parse_unary_expression. jstep. eapply E_conseq; [apply j_unop|]. intros o ts1 (-> & s & -> & U & Sy). cbv zeta.
  jgo; try solve [jend].
  all: jend.
  match goal with HT : tower_post _ _ _ _ _ _ |- _ => rename HT into T end. cbn [tower_post] in T. specialize (T (ex_unit _ _ H5) ltac:(assumption) ltac:(assumption)). jnorm. cbn [armed].
  match goal with HH : ?e' = ?e \/ _ |- arm_post _ _ (Nd KExprUnary [_; ?e']) _ => rename HH into Hh end.
  split; [jbegins|]. split; [|split; [intros []|right; split; [|assumption]]].
  - match goal with Hb : below c unop_precedence ?u |- fits c _ ?u => unfold fits, below in *; destruct u as [|x u]; [exact I|]; intros z Hs Hp; cbn [head_of left_of] end.
    destruct (precedence_of_token c x) as [n|] eqn:N; [|congruence]. apply Nat.ltb_lt.
    match goal with Hb : forall n0, Some n = Some n0 -> _ |- _ => specialize (Hb n eq_refl) end. destruct (prec_symbol _ _ _ N) as (s' & X1 & X2 & _). rewrite Hs in X1. injection X1 as <-. subst n. assumption.
  - apply ue_unary; auto with jtree. destruct Hh as [->|(z & -> & Lz)].
    + match goal with HN : ~ is_binary (head_of ?e) |- _ => destruct (head_of e) as [z| |]; cbn in *; [now destruct HN|reflexivity|reflexivity] end.
    + cbn [under_unary]. apply Nat.ltb_lt. unfold unop_precedence, unary_level in *. destruct (Nat.eq_dec (level z) 11) as [Z|Z]; [|nlia].
      exfalso. clear - Z. destruct z; vm_compute in Z; discriminate.
Qed.
#[export] Hint Resolve j_unary : jspec.
Lemma j_anonymous c p ats ts : jgood c p -> reals ts -> (forall t r, ts = t :: r -> is_symbol t SFunction = true) ->
  E (anonymous_function c p ats) ts (held (vw tw) ts (tws ats) (fun r _ => match r with
    | Value e => (Forall (attribute c) ats -> (ats <> [] -> f_luau (c_feat c) = true) -> atom c e) /\ exists f b, e = Nd KExprFunction [Nd KAnonymousFunction [vec ats; Tok f; b]] /\ hd_error ts = Some f
    | _ => False end)).
Proof.
  jbegin. unfold anonymous_function. destruct ts as [|t ts]; [intros es x s' X; discriminate|]. match goal with H : forall t r, _ -> _ |- _ => specialize (H _ _ eq_refl) end.
  jgo; jend; cbn [body_post] in *; jnorm. split; [|eauto]. intros. apply at_function; auto with jtree.
Qed.
Lemma call_last (l : list tree) : match last_of l with Some x => is_call x = ends_in_call l | None => l = [] end.
Proof. unfold last_of, ends_in_call. destruct (rev l) as [|x r] eqn:E; cbn [hd_error]; [|reflexivity]. rewrite <- (rev_involutive l), E. reflexivity. Qed.
Lemma suffixed_in c x l z : prefix_expression c (prefix_tree x) -> Forall (suffix c) l -> last_of l = Some z ->
  atom c (if is_call z then Nd KExprFunctionCall [Nd KFunctionCall [prefix_tree x; vec l]] else Nd KExprVar [Nd KVarExpr [Nd KVarExpression [prefix_tree x; vec l]]]).
Proof.
  intros P L Z. pose proof (call_last l) as CL. rewrite Z in CL. destruct (is_call z).
  - apply at_call; auto.
  - apply at_var; auto. intros ->. discriminate Z.
Qed.
Lemma number_type r : match t_type (r_token r) with TNumber _ => true | _ => false end = true -> terminal_of r = TNumeral.
Proof. unfold terminal_of. now destruct (t_type (r_token r)). Qed.
Lemma symbol_atom c t : is_symbol t STrue || is_symbol t SFalse || is_symbol t SNil || is_symbol t SEllipsis = true -> atom c (Nd KExprSymbol [Tok t]).
Proof. intros X. rewrite !orb_true_iff in X. decompose [or] X; (eapply at_symbol; [|apply sym_eq; eassumption]; auto). Qed.
(** Nothing is on the right edge of an atom but itself. *)
Lemma atom_edge c e : atom c e -> head_of e = Operand /\ ends_in_type e = false /\ ends_in_if e = false /\ ends_in_type_name e = false.
Proof. intros H. inversion H as [| | | |? P| | | | | |]; subst; try inversion P; repeat split; reflexivity. Qed.
Lemma atom_arm c ts e ts' : atom c e -> begins ts e -> (open e = true -> next_not SLeftParen ts') -> arm_post c ts e ts'.
Proof. intros A B O. destruct (atom_edge _ _ A) as (Hd & _). unfold arm_post. rewrite Hd. repeat split; auto with espec. Qed.
Lemma j_arm c p ts : jgood c p -> reals ts ->
  E (primary_arm c p) ts (fun x ts' => held (vw tw) ts 0 (armed c ts) (fst x) ts' /\ (snd x = true -> match fst x with Value _ => False | _ => True end)).
Proof.
  jbegin. destruct (jg_luau _ _ H) as (L & _). unfold primary_arm. cbv zeta. jstep. jstep. jnorm. jstep; jnorm.
  { jstep. eapply E_conseq; [apply (j_attributes c); cbn; assumption|]. intros [l| |] ts1 K; jnorm.
    2,3: jstep; cbn [fst snd]; (split; [|auto]); jend; match goal with HR : _ \/ reals _ |- _ => destruct HR as [->|HR]; [now apply reals_cons|exact HR] end.
    assert (R1 : reals ts1) by (match goal with HR : _ \/ reals ts1 |- _ => destruct HR as [->|HR]; [now apply reals_cons|exact HR] end).
    jstep. jstep. jnorm. jstep; [|jstep]. jstep. eapply E_conseq; [apply (j_anonymous c p); auto; [now apply reals_cons|now intros ? ? [= <- <-]]|]. intros [e| |] ts2 K2; jnorm.
    1: jstep; cbn [fst snd]; (split; [|discriminate]); jend.
    2,3: jstep; cbn [fst snd]; (split; [|auto]); jend.
    apply atom_arm; [auto| |discriminate].
    match goal with HB : hd_error (flat_map printed l) = _ |- _ => unfold begins; eprint; destruct (flat_map printed l); [discriminate HB|exact HB] end. }
  jstep; jnorm.
  { jstep. eapply E_conseq; [apply (j_anonymous c p []); auto; [now apply reals_cons|now intros ? ? [= <- <-]]|]. intros [e| |] ts2 K2; jnorm.
    1: jstep; cbn [fst snd]; (split; [|discriminate]); jend.
    2,3: jstep; cbn [fst snd]; (split; [|auto]); jend.
    apply atom_arm; [|match goal with HH : hd_error (_ :: _) = Some _ |- _ => injection HH as -> end; jbegins|discriminate]. match goal with HA : Forall _ [] -> _ |- _ => apply HA; [constructor|congruence] end. }
  jstep; jnorm.
  { jstep. jstep. jnorm. jstep. split; [|discriminate]. jend. apply atom_arm; [now apply symbol_atom|jbegins|discriminate]. }
  jstep; jnorm.
  { jstep. jstep. jnorm. jstep. split; [|discriminate]. jend. apply atom_arm; [apply at_string; auto with jtree|jbegins|discriminate]. }
  match goal with |- E (if ?b then _ else _) _ _ => destruct b eqn:XN end.
  { jstep. jstep. jnorm. jstep. split; [|discriminate]. jend. apply atom_arm; [now apply at_number, number_type|jbegins|discriminate]. }
  jstep; jnorm.
  { jstep. eapply E_conseq; [apply j_prefix_and_suffixes; [eassumption|cbn; assumption]|]. intros [[x l]| |] ts1 K; jnorm; cbn [moved_or] in *.
    2:{ jstep. split; [jend|cbn; auto]. }
    2:{ jstep. }
    destruct (last_of l) as [z|] eqn:Z.
    - eapply (E_conseq _ _ (fun y ts' => y = (Value (if is_call z then Nd KExprFunctionCall [Nd KFunctionCall [prefix_tree x; vec l]] else Nd KExprVar [Nd KVarExpr [Nd KVarExpression [prefix_tree x; vec l]]]), false) /\ ts' = ts1)).
      { destruct (is_call z); jstep; auto. }
      intros y ts' (-> & ->). cbn [fst snd]. split; [|discriminate]. 
      assert (W : tw (if is_call z then Nd KExprFunctionCall [Nd KFunctionCall [prefix_tree x; vec l]] else Nd KExprVar [Nd KVarExpr [Nd KVarExpression [prefix_tree x; vec l]]]) = prefix_w x + tws l).
      { unfold prefix_w. destruct (is_call z); wnorm; lia. }
      split; [assumption|]. unfold suffixed_w in *. wnorm. cbn [fst snd] in *. rewrite W. split; [nlia|]. intros F. fullen. jnorm.
      match goal with HP : jprefix _ _ _ |- _ => apply prefix_in in HP as [HP HB] end. apply atom_arm; [now apply suffixed_in| |auto].
      unfold begins in *. destruct (is_call z); eprint; destruct (printed (prefix_tree x)); try discriminate; exact HB.
    - apply last_of_none in Z. subst l. destruct x as [e|n]; jstep; (split; [|discriminate]); jend; cbn [jprefix] in *; jnorm.
      + apply atom_arm; [now apply at_parentheses|assumption|auto].
      + apply atom_arm; [apply at_name; auto with jtree| |auto]. unfold begins. eprint. cbn in *. congruence. }
  jstep; jnorm.
  { jgo. split; [|discriminate]. split; [assumption|]. wnorm. split; [nlia|]. intros. fullen. assumption. }
  jstep; jnorm.
  { jgo. split; [|discriminate]. jend. apply atom_arm; [now apply at_table| |discriminate]. unfold begins in *. eprint. rewrite ?app_nil_r. assumption. }
  jstep; jnorm.
  { jgo. cbn [fst snd]. split; [|discriminate]. destruct a as [e|]; jend. unfold armed, arm_post. split; [assumption|]. split; [apply fits_operand|]. split; [auto|]. right. auto. }
  destruct (t_type (r_token t)) as [| | | | | | | | |z k|] eqn:TT; try (jstep; (split; [|discriminate]); jend; exact I).
  rewrite L. jstep. jstep. jnorm. destruct k.
  - assert (SB : section IBegin t) by (eexists; eassumption). jgo. split; [|discriminate]. jend. match goal with HS : string_post _ _ _ _ _ |- _ => destruct HS as [HS HB] end. apply atom_arm; [assumption| |discriminate].
    unfold begins in *. eprint. rewrite ?app_nil_r. assumption.
  - jstep. split; [|discriminate]. jend.
  - jstep. split; [|discriminate]. jend.
  - jstep. split; [|discriminate]. jend. apply atom_arm; [apply at_simple; [assumption|eexists; eassumption]|jbegins|discriminate].
Qed.
Lemma cast_settled c e o t ts : quiet ts -> name_free t ts -> settled c (Nd KExprTypeAssertion [e; Nd KTypeAssertion [Tok o; t]]) ts.
Proof. intros (_ & Q1 & Q2) N. split; [discriminate|]. split; [discriminate|]. split; [discriminate|]. split; [now split|]. exact N. Qed.
Lemma j_primary c p ts : jgood c p -> reals ts -> E (parse_primary_expression c p) ts (held (vw tw) ts 0 (unit_post c ts)).
Proof.
  jbegin. destruct (jg_luau _ _ H) as (L & _). unfold parse_primary_expression. rewrite L. jstep. eapply E_conseq; [apply j_arm; eassumption|]. intros [r1 b] ts1 [K KV]. cbn [fst snd] in *.
  destruct r1 as [e| |].
  2,3: jnorm; destruct b; jstep; jend; cbn [armed] in *; auto.
  destruct b; [destruct (KV eq_refl)|]. clear KV. jnorm. jstep. jstep.
  - jgo; try solve [jend]. jend. cbn [armed] in *. match goal with HA : arm_post _ _ _ _ |- _ => destruct HA as (B & Fi & NB & A) end.
    assert (Bg : begins ts (Nd KExprTypeAssertion [e; Nd KTypeAssertion [Tok t; a]])).
    { unfold begins in *. destruct ts; [assumption|]. eprint. destruct (printed e); [discriminate|]. exact B. }
    split; [|split; [exact Bg|split; [now apply cast_settled|split; [apply fits_operand|auto]]]].
    destruct A as [[A _]|(U & S')]; [apply ue_cast; auto with jtree|]. apply ue_cast_again; auto with jtree.
    destruct S' as (_ & S' & _). destruct (cast_inside e) eqn:T; [reflexivity|]. specialize (S' eq_refl). cbn in S'. congruence.
  - jnorm. jstep. jend. cbn [armed] in *. match goal with HA : arm_post _ _ _ _ |- _ => destruct HA as (B & Fi & NB & A) end.
    destruct A as [[A O]|(U & S')]; (split; [|split; [assumption|split; [|split; assumption]]]); auto using ue_atom.
    2:{ destruct S' as (S1 & _ & S2). split; [exact S1|]. split; [intros _; cbn; assumption|exact S2]. }
    destruct (atom_edge _ _ A) as (_ & A1 & A2 & A3). split; [exact O|]. split; [intros _; cbn; assumption|]. split; [congruence|]. split; [congruence|]. now apply no_word.
Qed.

(** ** Precedence *)
Definition right_post (c : cfg) (s : symbol) (n : nat) (rhs : tree) (ts : list tokref) (r : option tree) (ts' : list tokref) : Prop :=
  expression c rhs -> fits c (head_of rhs) ts -> settled c rhs ts -> right_of (head_of rhs) s = true ->
  match r with Some e => expression c e /\ settled c e ts' /\ right_of (head_of e) s = true /\ climbed c n ts' | None => False end.
Definition right_so_far (c : cfg) (s : symbol) (rhs : tree) (ts : list tokref) (e : tree) (ts1 : list tokref) : Prop :=
  expression c rhs -> fits c (head_of rhs) ts -> settled c rhs ts -> right_of (head_of rhs) s = true ->
  expression c e /\ fits c (head_of e) ts1 /\ settled c e ts1 /\ right_of (head_of e) s = true.
Lemma right_done c s n rhs ts e ts1 : right_so_far c s rhs ts e ts1 -> climbed c n ts1 -> right_post c s n rhs ts (Some e) ts1.
Proof. intros R C I1 I2 I3 I4. destruct (R I1 I2 I3 I4) as (? & ? & ? & ?). auto. Qed.
Lemma right_more c s rhs ts e ts1 q e' ts2 : right_so_far c s rhs ts e ts1 -> tower_post c e q ts1 (Value e') ts2 -> (forall z, q <= level z -> right_of (Binary z) s = true) ->
  right_so_far c s rhs ts e' ts2.
Proof.
  intros R T Q I1 I2 I3 I4. destruct (R I1 I2 I3 I4) as (X1 & X2 & X3 & X4). destruct (T X1 X2 X3) as (Y1 & Y2 & _ & Y4 & Y5 & _). repeat (split; [assumption|]).
  destruct Y5 as [->|(z & -> & Lz)]; auto.
Qed.
Lemma right_never c s n rhs ts e ts1 q ts2 : right_so_far c s rhs ts e ts1 -> tower_post c e q ts1 LexerMoved ts2 -> right_post c s n rhs ts None ts2.
Proof. intros R T I1 I2 I3 I4. destruct (R I1 I2 I3 I4) as (X1 & X2 & X3 & X4). destruct (T X1 X2 X3). Qed.
Lemma j_climb_right c p t n s rhs ts : jgood c p -> reals ts -> precedence_of_token c t = Some n -> t_type (r_token t) = TSymbol s ->
  E (climb_right c p t n rhs) ts (held (ow tw) ts (tw rhs) (right_post c s n rhs ts)).
Proof.
  intros H R N Sy. pose proof (jg_mono _ _ H) as Hm. destruct (prec_symbol _ _ _ N) as (s' & S' & Ln & _ & _). rewrite Sy in S'. injection S' as <-.
  pose proof (right_level _ _ _ _ N Sy) as Ra. unfold climb_right.
  eapply (E_loop (held tw ts (tw rhs) (right_so_far c s rhs ts))); [mono_tac|split; [assumption|split; [lia|]]; intros _ ? ? ? ?; auto|].
  intros e ts1 K. jstep. jstep. jnorm. destruct (precedence_of_token c t0) as [m|] eqn:M.
  2:{ jstep. jend. apply right_done; [assumption|]. intros z Hz X. congruence. }
  destruct (prec_symbol _ _ _ M) as (z & Z & Lm & _ & _). pose proof (right_level _ _ _ _ M Z) as Rz. rewrite (right_token _ _ Z). cbv zeta.
  destruct (Nat.ltb_spec n m) as [Lt|Ge].
  - jstep. eapply E_conseq; [eapply jg_precedence; [eassumption|now apply reals_cons]|]. intros r1 ts2 K. jnorm. destruct r1 as [e'| |]; [| |jstep; jstep]; jstep; jend.
    + eapply right_more; [eassumption|eassumption|]. intros y Ly. cbn [right_of]. apply orb_true_iff. left. apply Nat.ltb_lt. nlia.
    + eapply right_never; eassumption.
  - destruct (right_associative z && Nat.eqb m n) eqn:Q.
    + apply andb_true_iff in Q as [Q1 Q2]. apply Nat.eqb_eq in Q2. subst m.
      jstep. eapply E_conseq; [eapply jg_precedence; [eassumption|now apply reals_cons]|]. intros r1 ts2 K. jnorm. destruct r1 as [e'| |]; [| |jstep; jstep]; jstep; jend.
      * eapply right_more; [eassumption|eassumption|]. intros y Ly. cbn [right_of]. rewrite Ra. rewrite Rz, Q2 in Q1. rewrite Q1, andb_true_r.
        apply orb_true_iff. destruct (Nat.eq_dec (level s) (level y)); [right; now apply Nat.eqb_eq|left; apply Nat.ltb_lt; nlia].
      * eapply right_never; eassumption.
    + jstep. jend. apply right_done; [assumption|]. intros z' Z' _. rewrite Z in Z'. injection Z' as <-. rewrite <- Lm. destruct (Nat.eq_dec m n) as [->|]; [right|left; nlia].
      split; [reflexivity|]. now rewrite Nat.eqb_refl, andb_true_r in Q.
Qed.
Definition tower_so_far (c : cfg) (lhs : tree) (q : nat) (ts : list tokref) (e : tree) (ts1 : list tokref) : Prop :=
  expression c lhs -> fits c (head_of lhs) ts -> settled c lhs ts ->
  expression c e /\ fits c (head_of e) ts1 /\ settled c e ts1 /\ (e = lhs \/ exists s, head_of e = Binary s /\ q <= level s) /\ hd_error (printed e) = hd_error (printed lhs).
Lemma tower_done c lhs q ts e ts1 : tower_so_far c lhs q ts e ts1 -> below c q ts1 -> tower_post c lhs q ts (Value e) ts1.
Proof. intros R C I1 I2 I3. destruct (R I1 I2 I3) as (? & ? & ? & ? & ?). auto 8. Qed.
Scheme expression_min := Minimality for expression Sort Prop with unit_min := Minimality for unit_expression Sort Prop.
Lemma some_left {A} (a b : list A) : a <> [] -> a ++ b <> []. Proof. destruct a; [congruence|discriminate]. Qed.
Lemma some_right {A} (a b : list A) : b <> [] -> a ++ b <> []. Proof. destruct a; [trivial|discriminate]. Qed.
Lemma parenthesised_some c e : parenthesised c e -> printed e <> [].
Proof. intros []. eprint. discriminate. Qed.
Lemma prefix_some c e : prefix_expression c e -> printed e <> [].
Proof. intros [|e' P]; [discriminate|]. eprint. apply some_left. eapply parenthesised_some; eassumption. Qed.
Lemma atom_some c e : atom c e -> printed e <> [].
Proof.
  intros [| | | |? P| |? ? P|? ? P|? P| |? ? ? P]; try discriminate; eprint; rewrite ?app_nil_r; try (apply some_right; discriminate); try (apply some_left; eapply prefix_some; eassumption); eauto using parenthesised_some.
  destruct P. eprint. discriminate.
Qed.
Lemma expression_some c e : expression c e -> printed e <> [].
Proof.
  induction 1 using expression_min with (P0 := fun e => printed e <> []); auto.
  - eprint. now apply some_left.
  - now apply atom_some in H.
  - eprint. apply some_left. now apply atom_some in H0.
  - eprint. now apply some_left.
  - eprint. discriminate.
  - eprint. discriminate.
Qed.
Lemma tower_more c lhs q ts e t r s n rhs r1 e' ts2 : tower_so_far c lhs q ts e (t :: r) -> precedence_of_token c t = Some n -> q <= n -> t_type (r_token t) = TSymbol s -> binary_in c s ->
  unit_expression c rhs -> settled c rhs r1 -> fits c (head_of rhs) r1 -> ~ is_binary (head_of rhs) -> right_post c s n rhs r1 (Some e') ts2 ->
  tower_so_far c lhs q ts (Nd KExprBinary [e; Nd (KBinOp s) [Tok t]; e']) ts2.
Proof.
  intros T N Q Sy B U Se Fi NB R I1 I2 I3. pose proof (expression_some _ _ I1) as NE. destruct (T I1 I2 I3) as (X1 & X2 & X3 & X4 & X5). destruct (prec_symbol _ _ _ N) as (s' & S' & Ln & _ & Y). rewrite Sy in S'. injection S' as <-.
  assert (Ro : right_of (head_of rhs) s = true) by (destruct (head_of rhs); [now destruct NB|reflexivity|reflexivity]).
  destruct (R (ex_unit _ _ U) Fi Se Ro) as (Y1 & Y2 & Y3 & Y4).
  assert (Lo : left_of (head_of e) s = true) by (apply X2; congruence).
  assert (Si : ends_in_if e = false). { destruct X3 as (_ & _ & X3 & _). destruct (ends_in_if e); [|reflexivity]. specialize (X3 eq_refl). cbn in X3. congruence. }
  assert (Go : goes_on e s = false).
  { destruct X3 as (_ & _ & _ & Z1 & Z2). unfold goes_on. destruct s; try reflexivity.
    - destruct (ends_in_type e); [|reflexivity]. destruct (Z1 eq_refl) as [_ Z]. cbn in Z. congruence.
    - destruct (ends_in_type_name e) eqn:Z; [|reflexivity]. specialize (Z2 Z). cbn in Z2. congruence.
    - destruct (ends_in_type e); [|reflexivity]. destruct (Z1 eq_refl) as [Z _]. cbn in Z. congruence. }
  split; [apply ex_binary; auto using sym_eq|]. split; [|split; [exact Y2|split]].
  - cbn [head_of]. destruct ts2 as [|u ts2]; [exact I|]. intros z Z X. cbn [left_of]. apply orb_true_iff. destruct (Y4 z Z X) as [L'|[L' ->]].
    + left. apply Nat.ltb_lt. lia.
    + right. rewrite andb_true_r. apply Nat.eqb_eq. lia.
  - right. exists s. split; [reflexivity|lia].
  - eprint. rewrite <- X5. destruct (printed e); [|reflexivity]. destruct (printed lhs); [congruence|discriminate X5].
Qed.
Lemma j_precedence c p lhs q ts : jgood c p -> reals ts -> E (parse_expression_with_precedence c p lhs q) ts (held (vw tw) ts (tw lhs) (tower_post c lhs q ts)).
Proof.
  intros H R. pose proof (jg_mono _ _ H) as Hm. unfold parse_expression_with_precedence.
  eapply (E_loop (held tw ts (tw lhs) (tower_so_far c lhs q ts))); [mono_tac|split; [assumption|split; [lia|]]; intros _ ? ? ?; auto 6|].
  intros e ts1 K. jstep. jstep. jnorm. destruct (precedence_of_token c t) as [n|] eqn:N.
  2:{ jstep. jend. apply tower_done; [assumption|]. cbn. congruence. }
  destruct (Nat.ltb_spec n q) as [Lt|Ge].
  { jstep. jend. apply tower_done; [assumption|]. cbn. congruence. }
  jstep. eapply E_conseq; [now apply (j_binop c t r n)|]. intros o ts2 (-> & s & -> & Sy & B). cbn [fst snd].
  jstep. jstep. destruct a as [rhs| |]; jnorm; [|jstep; jend|jstep].
  jstep. eapply E_conseq; [eapply j_climb_right; eassumption|]. intros [e'|] ts3 K; jnorm; jstep; jend.
  eapply tower_more; eassumption.
Qed.
Lemma j_expression c p ts : jgood c p -> reals ts -> E (parse_expression c p) ts (held (vw tw) ts 0 (expression_post c ts)).
Proof.
  jbegin. unfold parse_expression. jstep. eapply E_conseq; [apply j_primary; eassumption|]. intros [e| |] ts1 K; jnorm.
  - eapply E_conseq; [apply j_precedence; eassumption|]. intros r1 ts2 K. jnorm. jend. match goal with HT : tower_post _ _ _ _ _ _ |- _ => specialize (HT (ex_unit _ _ H4) ltac:(assumption) ltac:(assumption)) end.
    destruct r1 as [e'| |]; jnorm; auto. repeat (split; try assumption). unfold begins in *. destruct ts; [assumption|]. congruence.
  - jstep. jend.
  - jstep. jend. auto.
Qed.
