(** What is parsed without an error in Luau is a tree of the tree grammar: types. *)
From Verif Require Import LexerSpec PunctuatedProofs.
From Verif Require Export Sound0.
From Coq Require Import Lia.
Local Open Scope nat_scope.
Import ListNotations.

(** ** Packs *)
Lemma closed_pack c n d : nm n -> sy d SEllipsis -> closed_result c (Nd KTypeGenericPack [Tok n; Tok d]).
Proof. apply cr_pack. Qed.
Lemma no_word t ts : ends_in_type_name t = false -> name_free t ts.
Proof. intros H X. congruence. Qed.
#[export] Hint Resolve no_word : jtree.
Ltac jsplit := repeat match goal with |- _ /\ _ => split end; auto; try solve [jbegins]; try solve [apply no_word; reflexivity]; auto with jtree.
Lemma j_type_pack c p ts : jgood c p -> reals ts -> E (parse_type_pack p) ts (held (vw tw) ts 0 (fun r ts' => match r with
  | Value t => pack c t /\ begins ts t /\ is_tuple t = false /\ (closed_result c t \/ quiet ts') /\ name_free t ts'
  | LexerMoved => False
  | NotFound => ts' = ts /\ next_not SEllipsis ts end)).
Proof.
  jbegin. unfold parse_type_pack. jgo; jend; jsplit.
  - apply pk_variadic; auto with jtree.
  - apply pk_generic; auto with jtree.
  - left. apply cr_pack; auto with jtree.
Qed.
#[export] Hint Resolve j_type_pack : jspec.
Lemma j_return_type c p ts : jgood c p -> reals ts -> E (parse_return_type p) ts (held (vw tw) ts 0 (result_post c)).
Proof.
  jbegin. unfold parse_return_type. jgo; jend; jsplit.
  - now apply rt_pack.
  - congruence.
Qed.
#[export] Hint Resolve j_return_type : jspec.

(** ** Arguments *)
Lemma dotted_several {A} (P : tree -> Prop) s (f : A -> tree) l m : dotted [s] l -> Forall (fun x => P (f (pair_value x))) l -> several P s m -> several P s (map (pair_tree f) l ++ m).
Proof.
  intros D H Hm. induction l as [|x l IH]; [exact Hm|]. apply Forall_inv in H as Hx. apply Forall_inv_tail in H. inversion_clear D as [|? ? Dx D']. destruct x as [u|u d]; [contradiction|].
  cbn [app map pair_tree]. cbn in Dx. rewrite orb_false_r in Dx. apply s_more; auto using sym_eq.
Qed.
Definition pairw (x : tree * tree) : nat := tw (fst x) + tw (snd x).
#[export] Hint Unfold pairw : jw.
Definition arguments_post (c : cfg) (left : tokref) (r : option (tree * tree)) (_ : list tokref) : Prop :=
  match r with Some x => exists b l, x = (span left b, Con CPunctuated l) /\ sy b SGreaterThan /\ type_arguments c l | None => False end.
Definition so_far {A} (P : A -> Prop) (l : punctuated A) : Prop := each P l /\ dotted [SComma] (pairs l).
Lemma so_far_new {A} (P : A -> Prop) : so_far P p_new.
Proof. split; auto using each_new, dotted_new. Qed.
Lemma so_far_push {A} (P : A -> Prop) l v d : so_far P l -> P v -> is_symbol d SComma = true -> so_far P (p_push l (Punctuated v d)).
Proof. intros (H1 & H2) Hv D. split; [now apply each_push|]. apply dotted_push; [assumption|]. cbn. now rewrite D. Qed.
Lemma so_far_end {A} (f : A -> tree) (P : tree -> Prop) l v : so_far (fun v => P (f v)) l -> P (f v) -> several P SComma (map (pair_tree f) (pairs (p_push l (End v)))).
Proof. intros (H1 & H2) Hv. cbn [p_push pairs]. rewrite map_app. apply dotted_several; auto. now constructor. Qed.
Lemma push_new {A} (l : punctuated A) x : p_push l x <> p_new.
Proof. intros X. apply (f_equal (fun l => List.length (pairs l))) in X. cbn in X. rewrite app_length in X. cbn in X. lia. Qed.
Lemma j_generic_params c p left ts : jgood c p -> reals ts -> wt left = 1 -> E (expect_generic_type_params p left) ts (held (ow pairw) ts 1 (arguments_post c left)).
Proof.
  jbegin. unfold expect_generic_type_params. estep.
  eapply (E_loop (held (lw tw) ts 0 (fun l ts1 => so_far (result_type c) l /\ (l = p_new \/ next_not SGreaterThan ts1)))); [mono_tac|jend; auto using so_far_new|].
  intros l ts1 K. jgo; jend.
  - match goal with H : _ \/ next_not _ (?t :: _) |- _ => destruct H as [->|H]; [|cbn in H; congruence] end.
    eexists _, _. split; [reflexivity|]. split; [auto with jtree|]. apply ta_nil.
  - split; [|now right]. apply so_far_push; auto using rt_pack.
  - eexists _, _. split; [reflexivity|]. split; [auto with jtree|]. apply ta_some, (so_far_end (fun t => t)); auto using rt_pack.
  - split; [|now right]. apply so_far_push; auto.
  - eexists _, _. split; [reflexivity|]. split; [auto with jtree|]. apply ta_some, (so_far_end (fun t => t)); auto.
Qed.
#[export] Hint Resolve j_generic_params : jspec.

(** ** Generics *)
Definition item_of (parameter : tree) (default : option (tokref * tree)) : tree :=
  Nd KGenericDeclarationParameter [parameter; opt_tree (option_map (fun d : tokref * tree => Con CTuple [Tok (fst d); snd d]) default)].
Definition def_w (d : option (tokref * tree)) : nat := ow (fun d => wt (fst d) + tw (snd d)) d.
Lemma item_w a d : tw (item_of a d) = tw a + def_w d.
Proof. unfold item_of, def_w. destruct d as [[x t]|]; autorewrite with tw; cbn [option_map fst snd]; autorewrite with tw; cbn [fst snd]; lia. Qed.
(** The generics before, where [pack] and [given] are what was seen so far. *)
Inductive generics_before (c : cfg) (y : bool) : list (pair_of tree) -> bool -> bool -> Prop :=
| gb_nil : generics_before c y [] false false
| gb_more l p d a g a' g' : generics_before c y l a g -> generic c y a g p a' g' -> sy d SComma -> generics_before c y (l ++ [Punctuated p d]) a' g'.
Lemma generics_end c y l a g m : generics_before c y l a g -> generic_list c y a g m -> generic_list c y false false (map (pair_tree (fun t => t)) l ++ m).
Proof.
  intros H. revert m. induction H as [|l p d a g a' g' H IH Hp D]; intros m Hm; [exact Hm|]. rewrite map_app, <- app_assoc. apply IH. cbn. eapply gl_more; eassumption.
Qed.
Definition step_w (r : option (tree * option (tokref * tree) * bool * bool)) : nat := ow (fun '(a, d, _, _) => tw a + def_w d) r.
Definition list_w (x : punctuated tree * bool * bool) : nat := lw tw (fst (fst x)).
#[export] Hint Unfold list_w def_w : jw.
Lemma j_missing b ts : E (missing_default b) ts (fun _ ts' => ts' = ts /\ b = false).
Proof. unfold missing_default. jgo; auto. Qed.
#[export] Hint Resolve j_missing : jspec.
Ltac bools := repeat match goal with
  | H : _ || _ = false |- _ => apply orb_false_iff in H as [? ?]
  | H : ?b = _ |- _ => is_var b; lazymatch type of b with bool => subst b end
  end.
Lemma j_generic_list c p style t r : jgood c p -> reals (t :: r) -> E (parse_generic_type_list c p style) (t :: r) (fun x ts' => held (vw tw) (t :: r) 0 (fun x ts' => match x with
  | Value g => generics c (with_defaults style) g /\ begins (t :: r) g
  | LexerMoved => False
  | NotFound => True end) x ts' /\ match x with Value _ => is_symbol t SLessThan = true | NotFound => is_symbol t SLessThan = false /\ ts' = t :: r | LexerMoved => True end).
Proof.
  jbegin. unfold parse_generic_type_list. destruct (jg_luau _ _ H) as (L & _). rewrite L. cbn [negb]. jstep. jstep; jnorm; jstep; [|split; [jend|]; jsplit].
  eapply (E_loop (held list_w r0 0 (fun x _ => generics_before c (with_defaults style) (pairs (fst (fst x))) (snd (fst x)) (snd x)))); [mono_tac|jend; constructor|].
  intros [[l a] g] ts1 K. unfold list_w in K. destruct style; cbn [with_defaults] in *; jgo; unfold list_w; cbn [fst snd] in *; try (lazymatch goal with |- held _ _ _ _ _ _ /\ _ => split; [|solve [auto]] end); jend; bools; jsplit.
  all: cbn [p_push pairs opt_tree]; lazymatch goal with
    | |- generics_before _ _ _ _ _ => eapply gb_more; [eassumption| |auto with jtree]; constructor; auto using dp_pack with jtree
    | |- generics _ _ _ => constructor; auto with jtree; cbn [puncts punct p_push pairs]; rewrite map_app; cbn [map pair_tree]; eapply generics_end; [eassumption|]; eapply gl_last; constructor; auto using dp_pack with jtree
    end.
Qed.
#[export] Hint Resolve j_generic_list : jspec.

