(** What is parsed without an error in Luau is a tree of the tree grammar: tables, prefixes and suffixes. *)
From Verif Require Import LexerSpec PunctuatedProofs.
From Verif Require Export Sound5.
From Coq Require Import Lia.
Local Open Scope nat_scope.
Import ListNotations.

(** ** Tables *)
Lemma j_expression_key c p b ts : jgood c p -> reals ts -> wt b = 1 -> is_symbol b SLeftBracket = true ->
  E (expect_expression_key p b) ts (held (ow tw) ts 1 (fun r _ => match r with Some t => field c t | None => False end)).
Proof. jbegin. unfold expect_expression_key. jgo; jend. apply fi_expression; auto with jtree. Qed.
#[export] Hint Resolve j_expression_key : jspec.
Lemma j_table_field c p b fs t r : jgood c p -> reals (t :: r) ->
  E (table_field c p b fs t) (t :: r) (held (ow tw) (t :: r) 0 (fun r _ => match r with Some t => field c t | None => False end)).
Proof.
  jbegin. unfold table_field. jgo; jend; first [assumption|apply fi_name; solve [auto with jtree]|apply fi_set; solve [auto with jtree]|now apply fi_value].
Qed.
#[export] Hint Resolve j_table_field : jspec.
Definition table_res_w (r : tree + punctuated tree) : nat := match r with inl t => tw t | inr l => lw tw l end.
Lemma table_res_inl t : table_res_w (inl t) = tw t. Proof. reflexivity. Qed.
Lemma table_res_inr l : table_res_w (inr l) = lw tw l. Proof. reflexivity. Qed.
#[export] Hint Rewrite table_res_inl table_res_inr : tw.
Lemma j_table c p b ts : jgood c p -> reals ts -> wt b = 1 -> is_symbol b SLeftBrace = true ->
  E (force_table_constructor c p b) ts (held tw ts 1 (fun t _ => table c t /\ begins (b :: ts) t)).
Proof.
  jbegin. unfold force_table_constructor. cbv zeta. jstep.
  eapply (E_conseq _ _ (fun r ts' => match r with
    | inl t => held tw ts 1 (fun t _ => table c t /\ begins (b :: ts) t) t ts'
    | inr l => held (lw tw) ts 0 (fun l _ => entries (field c) (entry_list l)) l ts' end)).
  { eapply (E_loop (held (lw tw) ts 0 (fun l _ => each (field c) l /\ dotted [SComma; SSemicolon] (pairs l)))); [mono_tac|jend; split; auto using each_new, dotted_new|].
    intros l ts1 K. jgo.
    - jend. split; [|jbegins]. constructor; auto with jtree. rewrite <- (app_nil_r (map _ _)). apply dotted_entries; [assumption|assumption|constructor].
    - unfold push_field. jgo; jend.
      + split; [now apply each_push|]. apply dotted_push; [assumption|]. cbn [existsb]. now rewrite orb_false_r.
      + unfold entry_list. cbn [p_push pairs]. rewrite map_app. apply dotted_entries; [assumption|assumption|]. now constructor.
    - jend. }
  intros [t|l] ts1 K; jgo.
  - split; auto.
  - jend. split; [|jbegins]. constructor; auto with jtree.
Qed.
#[export] Hint Resolve j_table : jspec.

(** ** Prefixes and suffixes *)
Definition prefix_w (x : Parsers.prefix) : nat := tw (prefix_tree x).
Lemma prefix_expression_w e : prefix_w (PrefixExpression e) = tw e. Proof. cbn. lia. Qed.
Lemma prefix_name_w r : prefix_w (PrefixName r) = wt r. Proof. cbn. lia. Qed.
#[export] Hint Rewrite prefix_expression_w prefix_name_w : tw.
Definition jprefix (c : cfg) (ts : list tokref) (x : Parsers.prefix) : Prop :=
  match x with PrefixExpression e => parenthesised c e /\ begins ts e | PrefixName r => is_identifier r = true /\ hd_error ts = Some r end.
Lemma prefix_in c ts x : jprefix c ts x -> prefix_expression c (prefix_tree x) /\ begins ts (prefix_tree x).
Proof.
  destruct x; intros [H1 H2]; (split; [constructor; auto with jtree|]); unfold begins in *; destruct ts; try contradiction; try discriminate; cbn [prefix_tree]; eprint; rewrite ?app_nil_r; cbn in *; congruence.
Qed.
Definition moved_or {A} (ts : list tokref) (r : pres A) (ts' : list tokref) : Prop := match r with NotFound => ts' = ts | _ => reals ts' end.
Lemma j_prefix c p ts : jgood c p -> reals (tl ts) ->
  E (parse_prefix c p) ts (fun r ts' => heldo (vw prefix_w) ts 0 (fun r ts' => match r with Value x => jprefix c ts x | NotFound => True | LexerMoved => False end) r ts' /\ moved_or ts r ts').
Proof.
  jbegin. unfold parse_prefix. jgo; (split; [jend; auto|cbn; auto]).
  - split; [|jbegins]. constructor; auto with jtree.
  - split; [assumption|reflexivity].
Qed.
#[export] Hint Resolve j_prefix : jspec.

Lemma j_arguments c p ts : jgood c p -> reals ts -> E (parse_arguments c p) ts (held (vw tw) ts 0 (fun r ts' => match r with Value t => arguments c t | NotFound => True | LexerMoved => False end)).
Proof.
  jbegin. unfold parse_arguments. jgo; jend; auto.
  - apply ar_parentheses; auto with jtree. apply xs_some. eapply listed_several; [|eassumption]. now intros v ts0 [? _].
  - apply ar_parentheses; auto with jtree. constructor.
  - now apply ar_table.
  - apply ar_string; auto with jtree.
Qed.
#[export] Hint Resolve j_arguments : jspec.
Lemma j_dot_suffix c m t r : reals (t :: r) -> is_symbol t SDot = true \/ is_symbol t SQuestionMarkDot = true /\ f_cfxlua (c_feat c) = true ->
  E (dot_suffix m) (t :: r) (held (vw tw) (t :: r) 0 (fun r _ => match r with Value e => suffix c e | _ => False end)).
Proof. jbegin. unfold dot_suffix. jgo. jend. destruct H0 as [H0|(H0 & Z)]; (eapply su_dot; [apply sym_eq; exact H0|exact I || exact Z|auto with jtree]). Qed.
Lemma j_args_empty c ts : E (function_args_empty c) ts (fun t ts' => ts' = ts /\ tw t = 0).
Proof. unfold function_args_empty. jgo. split; [reflexivity|]. wnorm. lia. Qed.
#[export] Hint Resolve j_args_empty : jspec.
Lemma j_suffix c p ts : jgood c p -> reals ts ->
  E (parse_suffix c p) ts (held (vw tw) ts 0 (fun r ts' => match r with Value e => suffix c e | NotFound => next_not SLeftParen ts' | LexerMoved => False end)).
Proof.
  jbegin. unfold parse_suffix. destruct (jg_luau _ _ H) as (L & _). rewrite L. jstep. jstep. jnorm. jstep; jnorm.
  { eapply E_conseq; [apply (j_dot_suffix c); auto; now apply reals_cons|]. intros [a| |] ts' K; jnorm; jend; auto. }
  jstep; jnorm.
  { eapply E_conseq; [apply (j_dot_suffix c); auto; now apply reals_cons|]. intros [a| |] ts' K; jnorm; jend; auto. }
  jgo.
  all: try solve [jend].
  all: try match goal with |- context [match ?a with Some t => Value _ | None => LexerMoved end] => destruct a end.
  all: jend.
  all: try solve [apply su_brackets; auto with jtree | now apply su_call | now apply su_types | apply su_method; auto with jtree; constructor; auto].
  all: cbn [next_not]; match goal with X : _ || _ || _ = false |- _ => apply orb_false_iff in X as [X _]; now apply orb_false_iff in X as [X _] end.
Qed.
#[export] Hint Resolve j_suffix : jspec.
Definition suffixed_w (x : Parsers.prefix * list tree) : nat := prefix_w (fst x) + tws (snd x).
#[export] Hint Unfold suffixed_w : jw.
Lemma j_prefix_and_suffixes c p ts : jgood c p -> reals (tl ts) ->
  E (parse_prefix_and_suffixes c p) ts (fun r ts' => heldo (vw suffixed_w) ts 0 (fun r ts' => match r with
    | Value (x, l) => jprefix c ts x /\ Forall (suffix c) l /\ next_not SLeftParen ts'
    | NotFound => True
    | LexerMoved => False
    end) r ts' /\ moved_or ts r ts').
Proof.
  jbegin. unfold parse_prefix_and_suffixes. jstep. jstep. destruct a as [x| |]; jnorm; cbn [moved_or] in *.
  - jstep. eapply E_conseq; [|intros a r0 K; jstep; exact K].
    eapply (E_loop (held (fun l => prefix_w x + tws l) ts 0 (fun l _ => jprefix c ts x /\ Forall (suffix c) l))); [mono_tac|jend; auto|].
    intros l ts2 K. jgo; wnorm.
    + jend. split; [assumption|]. apply Forall_app. auto.
    + split; [|assumption]. jend. 
    + split; [|assumption]. jend. auto.
  - jstep. split; [|assumption]. jend.
  - jstep. subst r. split; [|reflexivity]. jend. auto.
Qed.
#[export] Hint Resolve j_prefix_and_suffixes : jspec.
