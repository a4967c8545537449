(** What is parsed without an error in Luau is a tree of the tree grammar: function types, tables and the types themselves. *)
From Verif Require Import LexerSpec PunctuatedProofs.
From Verif Require Export Sound1.
From Coq Require Import Lia.
Local Open Scope nat_scope.
Import ListNotations.

(** ** Function types and tuples *)
Definition argw (a : type_argument) : nat := ow (fun x : tokref * tokref => wt (fst x) + wt (snd x)) (ta_name a) + tw (ta_type a).
Lemma arg_w a : tw (arg_tree a) = argw a.
Proof. destruct a as [[[x y]|] t]; unfold arg_tree, argw; cbn [ta_name ta_type option_map opt_tree fst snd]; autorewrite with tw; cbn [fst snd]; lia. Qed.
Definition plain_arg (c : cfg) (a : type_argument) : Prop :=
  type c (ta_type a) /\ match ta_name a with Some (n, d) => nm n /\ sy d SColon | None => True end.
Definition args_done (c : cfg) (l : punctuated type_argument) : Prop :=
  l = p_new \/ (exists l0 a, l = p_push l0 (End a) /\ so_far (plain_arg c) l0 /\ (plain_arg c a \/ pack c (ta_type a) /\ ta_name a = None)).
Lemma args_function c l : args_done c l -> function_arguments c (map (pair_tree arg_tree) (pairs l)).
Proof.
  intros [->|(l0 & a & -> & (H & D) & Ha)]; [constructor|]. apply fa_some. cbn [p_push pairs]. rewrite map_app. cbn [map pair_tree].
  unfold each in H. cbn [p_push pairs] in *. induction (pairs l0) as [|x m IH]; cbn [map app].
  - destruct a as [n t]. destruct Ha as [(Ht & Hn)|(Ht & Hn)]; cbn [ta_type ta_name] in *.
    + destruct n as [[n d]|]; cbn; constructor; auto; constructor; tauto.
    + subst n. cbn. now apply fa_pack.
  - apply Forall_inv in H as Hx. apply Forall_inv_tail in H. inversion_clear D as [|? ? Dx D']. destruct x as [u|u d]; [contradiction|].
    cbn [pair_tree pair_value] in *. cbn in Dx. rewrite orb_false_r in Dx. destruct Hx as (Hu & Hn). destruct u as [n t]. unfold arg_tree at 1. cbn [ta_type ta_name] in *. apply fa_more; auto using sym_eq.
    destruct n as [[n e]|]; cbn; constructor; tauto.
Qed.
Lemma args_tuple c l : args_done c l -> types_then_pack c (map (pair_tree (fun t => t)) (map (pair_map ta_type) (pairs l))).
Proof.
  intros [->|(l0 & a & -> & (H & D) & Ha)]; [constructor|]. apply tp_some. cbn [p_push pairs]. rewrite !map_app. cbn [map pair_tree pair_map].
  unfold each in H. induction (pairs l0) as [|x m IH]; cbn [map app].
  - destruct Ha as [(Ht & _)|(Ht & _)]; [now apply tp_last|now apply tp_pack].
  - apply Forall_inv in H as Hx. apply Forall_inv_tail in H. inversion_clear D as [|? ? Dx D']. destruct x as [u|u d]; [contradiction|].
    cbn [pair_tree pair_value pair_map] in *. cbn in Dx. rewrite orb_false_r in Dx. destruct Hx as (Hu & _). apply tp_more; auto using sym_eq.
Qed.
Definition simple_post (c : cfg) (ts : list tokref) (y : type_style) (r : pres tree) (ts' : list tokref) : Prop :=
  match r with
  | Value t => begins ts t /\ name_free t ts' /\
      (closed_type c t \/ function_type c t /\ quiet ts' \/
       y = AllowPack /\ (pack_tuple c t \/ tuple c t /\ closed_result c t))
  | _ => True
  end.
Lemma argw_mk n t : argw (mkArg n t) = ow (fun x : tokref * tokref => wt (fst x) + wt (snd x)) n + tw t. Proof. reflexivity. Qed.
Lemma lw_args l : lw (fun v => tw (arg_tree v)) l = lw argw l. Proof. apply lw_ext, arg_w. Qed.
Lemma lw_types (l : punctuated type_argument) : lw tw (p_from_iter (map (pair_map ta_type) (p_pairs l))) = lw (fun v => tw (ta_type v)) l.
Proof. unfold lw, p_from_iter, p_pairs. cbn [pairs]. rewrite map_map. f_equal. apply map_ext. intros [v|v d]; reflexivity. Qed.
Lemma lw_le (l : punctuated type_argument) : lw (fun v => tw (ta_type v)) l <= lw argw l.
Proof.
  unfold lw. induction (pairs l) as [|x m IH]; cbn [map list_sum fold_right] in *; [lia|]. unfold list_sum in IH. enough (pw (fun v => tw (ta_type v)) x <= pw argw x) by lia. destruct x; unfold argw; cbn [pw]; lia.
Qed.
#[export] Hint Rewrite argw_mk lw_args lw_types : tw.
Definition args_w (l : option (punctuated type_argument)) : nat := ow (lw argw) l.
#[export] Hint Unfold args_w : jw.
Lemma callback_post c t r y gen t0 t1 l t2 a ts' : optional (generics c false) (opt_tree gen) -> match gen with Some g => begins (t :: r) g | None => t0 = t end ->
  is_symbol t0 SLeftParen = true -> is_symbol t1 SRightParen = true -> args_done c l -> is_symbol t2 SThinArrow = true -> result_type c a -> closed_result c a \/ quiet ts' -> name_free a ts' ->
  simple_post c (t :: r) y (Value (Nd KTypeCallback [opt_tree gen; span t0 t1; punct arg_tree l; Tok t2; a])) ts'.
Proof.
  intros G B H0 H1 HL H2 HR HC HN. split; [|split; [exact HN|]].
  - unfold begins. eprint. destruct gen as [g|].
    + unfold begins in B. destruct (printed g); [discriminate|]. exact B.
    + now subst t0.
  - destruct HC as [HC|HC]; [left|right; left; split; [|assumption]]; constructor; auto using args_function with jtree.
Qed.
Lemma tuple_post c y t r t1 l ts' : args_done c l -> is_symbol t SLeftParen = true -> is_symbol t1 SRightParen = true ->
  (List.length (pairs l) = 1 -> y = AllowPack \/ forall a m, p_iter l = a :: m -> is_variadic (ta_type a) = false) -> (List.length (pairs l) <> 1 -> y = AllowPack) ->
  simple_post c (t :: r) y (Value (Nd KTypeTuple [span t t1; puncts (p_from_iter (map (pair_map ta_type) (p_pairs l)))])) ts'.
Proof.
  intros HL H0 H1 Hs Hm. split; [jbegins|]. split; [apply no_word; reflexivity|].
  assert (T : types_then_pack c (map (pair_tree (fun t => t)) (map (pair_map ta_type) (pairs l)))) by now apply args_tuple.
  assert (LE : List.length (map (pair_tree (fun t => t)) (map (pair_map ta_type) (pairs l))) = List.length (pairs l)) by now rewrite !map_length.
  cbn [puncts punct p_from_iter pairs p_pairs] in *. destruct (Nat.eq_dec (List.length (pairs l)) 1) as [Z|Z].
  - specialize (Hs Z). clear Hm. destruct HL as [->|(l0 & a & -> & HL & Ha)]; [discriminate Z|]. cbn [p_push pairs] in *. rewrite app_length in Z. cbn [List.length] in Z.
    destruct l0 as [[|? ?]]; cbn [pairs List.length app map pair_map pair_tree] in *; [|lia]. destruct a as [n ty]. cbn [ta_type ta_name] in *. destruct Ha as [(Ht & _)|(Ht & _)].
    + left. apply st_parentheses; auto with jtree.
    + inversion Ht; subst.
      * destruct Hs as [->|Hs]; [|specialize (Hs _ _ eq_refl); discriminate Hs]. right; right. split; [reflexivity|]. left. constructor; auto with jtree.
      * left. apply st_pack; auto with jtree.
  - right; right. split; [auto|]. right. split.
    + constructor; auto with jtree. intros u X. unfold p_pairs in X. cbn [p_from_iter pairs] in X. rewrite X in LE. cbn in LE. lia.
    + constructor; auto with jtree. unfold p_pairs. cbn [p_from_iter pairs]. lia.
Qed.
Lemma j_function_type c p y ts : jgood c p -> reals ts -> E (expect_function_type c p y) ts (held (ow tw) ts 0 (fun r ts' => match r with Some t => simple_post c ts y (Value t) ts' | None => False end)).
Proof.
  jbegin. unfold expect_function_type. jstep. jstep. jnorm. jstep. eapply E_conseq; [eauto with jspec|]. intros r1 ts1 K. jnorm.
  assert (G : r1 = LexerMoved \/ exists gen, gen = match r1 with Value g => Some g | _ => None end /\ r1 <> LexerMoved /\
    ow tw gen + w ts1 <= w (t :: r) /\ (ow tw gen + w ts1 = w (t :: r) -> optional (generics c false) (opt_tree gen) /\ match gen with Some g => begins (t :: r) g | None => True end) /\
    match gen with Some _ => is_symbol t SLessThan = true | None => is_symbol t SLessThan = false /\ ts1 = t :: r end).
  { destruct r1 as [g| |]; [right|now left|right]; eexists; (split; [reflexivity|]); wnorm; jnorm; repeat split; auto; try nlia; try congruence; jnorm.
    - fullen. jnorm. now constructor.
    - fullen. jnorm. assumption.
    - constructor. }
  destruct G as [->|(gen & EG & NG & G1 & G2 & G3)]; [jstep; jend|].
  assert (XE : forall Q (k : M (option tree)), E k ts1 Q -> E (match r1 with LexerMoved => ret None | _ => k end) ts1 Q) by (intros; destruct r1; auto; congruence).
  clear H4 H5 H6. apply XE. clear XE. rewrite <- EG. clear r1 EG NG. cbv zeta.
  jstep. jstep. jnorm. jstep.
  eapply (E_conseq _ _ (held args_w r0 0 (fun o _ => match o with Some l => args_done c l | None => True end))).
  { eapply (E_loop (held (lw argw) r0 0 (fun l ts1 => so_far (plain_arg c) l /\ (l = p_new \/ next_not SRightParen ts1)))); [mono_tac|jend; auto using so_far_new|].
    intros l ts1 K. jgo; jend; auto.
    all: unfold args_done, plain_arg; lazymatch goal with
      | |- so_far _ _ /\ _ => split; [apply so_far_push; auto; split; cbn [ta_type ta_name]; auto with jtree|now right]
      | |- _ = p_new \/ (exists _ _, p_push _ _ = _ /\ _) => right; eexists _, _; split; [reflexivity|]; split; [assumption|]; cbn [ta_type ta_name]; auto 6 with jtree
      | H : _ \/ next_not _ (?t :: _) |- _ => destruct H as [->|H]; [now left|cbn in H; congruence]
      end. }
  intros [l|] ts1 K; [|jstep; jnorm; jend].
  pose proof (lw_le l) as LE. assert (GT : is_symbol t SLessThan = false -> gen = None /\ t0 = t) by (intros; destruct gen; [congruence|]; jnorm; auto).
  assert (GG : match gen with Some g => True | None => t0 = t end) by (destruct gen; jnorm; auto). clear G3.
  jstep. jstep. jnorm. cbv zeta. jstep. jgo; jend; bools; jnorm; try (destruct (GT ltac:(assumption)) as [-> ->]).
  all: lazymatch goal with
    | |- simple_post _ _ _ (Value (Nd KTypeCallback _)) _ => apply callback_post; auto; destruct gen; auto
    | |- simple_post _ _ _ (Value (Nd KTypeTuple _)) _ => apply tuple_post; auto
    end.
  - intros _. apply orb_true_iff in X3 as [X3|X3]; [right|left; now destruct y]. intros a m Y. rewrite X2 in Y. injection Y as <- <-. now apply negb_true_iff.
  - intros Z. apply Nat.eqb_eq in X1. contradiction.
  - intros Z. apply Nat.eqb_neq in X1. contradiction.
  - intros _. now destruct y.
Qed.
#[export] Hint Resolve j_function_type : jspec.
