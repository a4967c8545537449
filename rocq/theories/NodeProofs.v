(** Proofs about [Node]: iteration, surrounding trivia, similarity. *)
From Verif Require Export TreeFacts TreeSpec.
From Coq Require Import Lia Permutation.
Local Open Scope nat_scope.

(** ** Iteration *)
Definition item_leaves (i : item) : list tokref := match i with One r => [r] | More t => leaves t end.
Definition its_leaves (its : list item) : list tokref := flat_map item_leaves its.

Lemma its_leaves_app a b : its_leaves (a ++ b) = its_leaves a ++ its_leaves b.
Proof. apply flat_map_app. Qed.
Lemma items_size_app a b : items_size (a ++ b) = items_size a + items_size b.
Proof. unfold items_size. rewrite map_app. apply list_sum_app. Qed.
Lemma flat_map_flat_map {A B C} (f : B -> list C) (g : A -> list B) l : flat_map f (flat_map g l) = flat_map (fun x => flat_map f (g x)) l.
Proof. induction l as [|x l IH]; cbn; [reflexivity|]. now rewrite flat_map_app, IH. Qed.
Lemma flat_map_ext_forall {A B} (f g : A -> list B) l : Forall (fun x => f x = g x) l -> flat_map f l = flat_map g l.
Proof. induction 1; cbn; congruence. Qed.

Lemma items_leaves t : its_leaves (items t) = leaves t.
Proof.
  induction t as [r|c cs IH|k cs IH] using tree_ind'; [reflexivity| |].
  - cbn [items leaves]. unfold its_leaves in *. rewrite flat_map_flat_map. now apply flat_map_ext_forall.
  - cbn [items leaves]. unfold its_leaves in *. rewrite flat_map_concat_map, map_map, <- flat_map_concat_map.
    apply flat_map_ext_forall. clear. induction cs as [|c cs IH]; constructor; [|assumption]. destruct c; reflexivity.
Qed.
Lemma field_item_size t : item_size (field_item t) <= tree_size t.
Proof. destruct t; cbn; lia. Qed.
Lemma items_smaller t : items_size (items t) < tree_size t.
Proof.
  induction t as [r|c cs IH|k cs IH] using tree_ind'; [cbn; lia| |].
  - cbn [items tree_size]. induction IH as [|x cs H _ IH]; cbn [flat_map map list_sum]; [cbn; lia|].
    rewrite items_size_app. cbn [list_sum fold_right] in *. unfold list_sum in *. cbn [map fold_right] in *. lia.
  - cbn [items tree_size]. clear IH. induction cs as [|x cs IH]; [cbn; lia|].
    unfold items_size, list_sum in *. cbn [map fold_right] in *. pose proof (field_item_size x). lia.
Qed.

Lemma next_loop_spec fuel : forall its, items_size its < fuel ->
  exists its', next_loop fuel its = Done (hd_error (its_leaves its), its') /\ its_leaves its' = tl (its_leaves its).
Proof.
  induction fuel as [|fuel IH]; intros its H; [lia|]. destruct its as [|[t|r] rest]; cbn [next_loop].
  - eexists. split; reflexivity.
  - assert (G : items_size (items t ++ rest) < fuel).
    { rewrite items_size_app. change (items_size (More t :: rest)) with (tree_size t + items_size rest) in H.
      pose proof (items_smaller t). lia. }
    destruct (IH _ G) as (its' & -> & E). exists its'. rewrite its_leaves_app, items_leaves in *. split; [reflexivity|exact E].
  - eexists. split; reflexivity.
Qed.
Lemma next_back_loop_spec fuel : forall its, items_size its < fuel ->
  exists its', next_back_loop fuel its = Done (hd_error (rev (its_leaves its)), its') /\ its_leaves its' = removelast (its_leaves its).
Proof.
  induction fuel as [|fuel IH]; intros its H; [lia|]. cbn [next_back_loop].
  destruct (rev its) as [|[t|r] rest] eqn:E; apply (f_equal (@rev _)) in E; rewrite rev_involutive in E; subst its; cbn [rev] in *.
  - eexists. split; reflexivity.
  - assert (G : items_size (rev rest ++ items t) < fuel).
    { rewrite !items_size_app in *. change (items_size [More t]) with (tree_size t + 0) in H.
      pose proof (items_smaller t). lia. }
    destruct (IH _ G) as (its' & -> & E). exists its'. rewrite !its_leaves_app, items_leaves in *.
    change (its_leaves [More t]) with (leaves t ++ []). rewrite app_nil_r. split; [reflexivity|exact E].
  - exists (rev rest). rewrite its_leaves_app. change (its_leaves [One r]) with [r]. rewrite rev_app_distr, removelast_last. split; reflexivity.
Qed.
Lemma iter_ops_spec ops : forall its, exists os its', iter_ops ops its = Done (os, its') /\
  deque_ops ops (its_leaves its) = (os, its_leaves its').
Proof.
  induction ops as [|[] ops IH]; intros its; cbn [iter_ops deque_ops].
  - eauto.
  - destruct (next_loop_spec (S (items_size its)) its) as (its1 & E & E1); [lia|]. unfold tokens_next. rewrite E.
    destruct (IH its1) as (os & its' & -> & E2). rewrite E1 in E2. rewrite E2. eauto.
  - destruct (next_back_loop_spec (S (items_size its)) its) as (its1 & E & E1); [lia|]. unfold tokens_next_back. rewrite E.
    destruct (IH its1) as (os & its' & -> & E2). rewrite E1 in E2. rewrite E2. eauto.
Qed.

Theorem iteration t ops : exists os its', iter_ops ops (items t) = Done (os, its') /\ fst (deque_ops ops (leaves t)) = os.
Proof.
  destruct (iter_ops_spec ops (items t)) as (os & its' & E & D). rewrite items_leaves in D. exists os, its'. now rewrite D.
Qed.

(** Calling [next] until [None], i.e. collecting the iterator. *)
Lemma deque_front l : forall n, List.length l <= n -> deque_ops (repeat Front n) l = (map Some l ++ repeat None (n - List.length l), []).
Proof.
  induction l as [|x l IH]; intros n H.
  - cbn [map app List.length]. rewrite Nat.sub_0_r. clear H. induction n as [|n IHn]; [reflexivity|]. cbn [repeat deque_ops tl hd_error]. now rewrite IHn.
  - destruct n as [|n]; [cbn in H; lia|]. cbn [repeat deque_ops tl hd_error List.length map app]. rewrite IH by (cbn in H; lia). reflexivity.
Qed.

Lemma deque_partition ops : forall l os m, deque_ops ops l = (os, m) -> l = taken_front ops os ++ m ++ taken_back ops os.
Proof.
  induction ops as [|[] ops IH]; intros l os m; cbn [deque_ops].
  - intros E. injection E as <- <-. now rewrite app_nil_r.
  - destruct (deque_ops ops (tl l)) as [os' m'] eqn:E. intros H. injection H as <- <-. apply IH in E.
    destruct l as [|x l]; cbn [hd_error taken_front taken_back tl] in *; [exact E|]. cbn. now rewrite <- E.
  - destruct (deque_ops ops (removelast l)) as [os' m'] eqn:E. intros H. injection H as <- <-. apply IH in E.
    destruct l as [|x l] using rev_ind; cbn [hd_error taken_front taken_back] in *; [exact E|].
    clear IHl. rewrite rev_app_distr. cbn [rev app hd_error]. rewrite removelast_last in E. rewrite E. now rewrite <- !app_assoc.
Qed.
Theorem iteration_partition t ops os its : iter_ops ops (items t) = Done (os, its) ->
  leaves t = taken_front ops os ++ its_leaves its ++ taken_back ops os.
Proof.
  intros H. destruct (iter_ops_spec ops (items t)) as (os' & its' & E & D). rewrite H in E. injection E as <- <-.
  rewrite items_leaves in D. now apply deque_partition.
Qed.

(** ** Surrounding trivia *)
Theorem surrounding t : surrounding_trivia t =
  Done (match leaves t with r :: _ => r_leading r | [] => [] end,
        match rev (tl (leaves t)) with r :: _ => r_trailing r | [] => [] end).
Proof.
  unfold surrounding_trivia. destruct (next_loop_spec (S (items_size (items t))) (items t)) as (i1 & E & E1); [lia|].
  unfold tokens_next. rewrite E. destruct (next_back_loop_spec (S (items_size i1)) i1) as (i2 & F & _); [lia|].
  unfold tokens_next_back. rewrite F, E1, items_leaves. f_equal. f_equal.
  - destruct (leaves t); reflexivity.
  - destruct (rev (tl (leaves t))); reflexivity.
Qed.
Lemma surrounding_two t a b m : leaves t = a :: m ++ [b] -> surrounding_trivia t = Done (r_leading a, r_trailing b).
Proof. intros E. rewrite surrounding, E. cbn [tl]. now rewrite rev_app_distr. Qed.

(** ** [similar] *)
Definition norm (t : tree) : tree := drop_punctuation (map_tokens bare t).
Lemma kind_eqb_true a b : kind_eqb a b = true <-> a = b.
Proof. unfold kind_eqb. destruct (kind_eq_dec a b); split; congruence. Qed.
Lemma token_type_eqb_true a b : token_type_eqb a b = true <-> a = b.
Proof. unfold token_type_eqb. match goal with |- context [if ?x then _ else _] => destruct x end; split; congruence. Qed.
Lemma container_eqb_true a b : container_eqb a b = true <-> a = b.
Proof. destruct a, b; cbn; split; congruence. Qed.

Definition all_similar : list tree -> list tree -> bool := fix all (cs ds : list tree) {struct cs} : bool :=
    match cs, ds with [], [] => true | c :: cs, d :: ds => similar c d && all cs ds | _, _ => false end.
Lemma all_norm cs : Forall (fun c => forall d, similar c d = true <-> norm c = norm d) cs ->
  forall ds, all_similar cs ds = true <-> map norm cs = map norm ds.
Proof.
  induction 1 as [|c cs H _ IH]; intros [|d ds]; cbn [all_similar map]; try (split; congruence).
  rewrite andb_true_iff, H, IH. split; [intros [-> ->]; reflexivity|intros E; injection E; auto].
Qed.
Lemma norm_nd k cs : norm (Nd k cs) = Nd k (map norm cs).
Proof. unfold norm. cbn. now rewrite map_map. Qed.
Lemma norm_con c cs : norm (Con c cs) =
  match c, cs with (CPunct | CEnd), v :: _ => Con CEnd [norm v] | CPunct, [] => Con CEnd [] | _, _ => Con c (map norm cs) end.
Proof. unfold norm. destruct c, cs; cbn [map_tokens drop_punctuation map]; rewrite ?map_map; reflexivity. Qed.
Theorem similar_norm a : forall b, similar a b = true <-> norm a = norm b.
Proof.
  induction a as [r|c cs IH|k cs IH] using tree_ind'; intros [r'|d ds|l ds].
  - cbn. rewrite token_type_eqb_true. unfold norm, bare. cbn. split; [intros ->; reflexivity|intros E; now injection E].
  - rewrite norm_con. cbn. destruct d, ds; split; discriminate.
  - rewrite norm_nd. cbn. split; discriminate.
  - rewrite norm_con. cbn. destruct c, cs; split; discriminate.
  - destruct c, d; try (cbn [similar container_eqb andb]; rewrite !norm_con; destruct cs, ds; split; discriminate);
      try (match goal with |- _ <-> ?R => change (all_similar cs ds = true <-> R) end;
           rewrite (all_norm _ IH), !norm_con; split; [intros ->; reflexivity|intros E; now injection E]);
      cbn [similar]; rewrite !norm_con; destruct cs as [|x cs]; destruct ds as [|y ds]; try (cbn [map]; split; intros; congruence);
      pose proof (Forall_inv IH) as Hx; cbn beta in Hx; rewrite Hx; (split; [intros ->; reflexivity|intros E; now injection E]).
  - rewrite norm_con, norm_nd. cbn. destruct c, cs; split; discriminate.
  - rewrite norm_nd. cbn. split; discriminate.
  - rewrite norm_con, norm_nd. cbn. destruct d, ds; split; discriminate.
  - rewrite !norm_nd. cbn [similar]. change (kind_eqb k l && all_similar cs ds = true <-> Nd k (map norm cs) = Nd l (map norm ds)).
    rewrite andb_true_iff, kind_eqb_true, (all_norm _ IH). split; [intros [-> ->]; reflexivity|intros E; injection E; auto].
Qed.

Theorem similar_refl t : similar t t = true.
Proof. now apply similar_norm. Qed.
Theorem similar_sym a b : similar a b = similar b a.
Proof. apply eq_true_iff_eq. rewrite !similar_norm. split; congruence. Qed.
Theorem similar_trans a b c : similar a b = true -> similar b c = true -> similar a c = true.
Proof. rewrite !similar_norm. congruence. Qed.

Lemma map_tokens_map f g t : map_tokens f (map_tokens g t) = map_tokens (fun r => f (g r)) t.
Proof.
  induction t as [r|c cs IH|k cs IH] using tree_ind'; cbn; [reflexivity| |]; f_equal; rewrite map_map;
    (induction IH; cbn; [reflexivity|]; f_equal; assumption).
Qed.
Lemma map_tokens_ext f g t : (forall r, f r = g r) -> map_tokens f t = map_tokens g t.
Proof.
  intros E. induction t as [r|c cs IH|k cs IH] using tree_ind'; cbn; [now rewrite E| |]; f_equal;
    (induction IH; cbn; [reflexivity|]; f_equal; assumption).
Qed.
Theorem similar_retoken f t : (forall r, t_type (r_token (f r)) = t_type (r_token r)) -> similar t (map_tokens f t) = true.
Proof.
  intros H. apply similar_norm. unfold norm. f_equal. rewrite map_tokens_map. apply map_tokens_ext. intros r. unfold bare. now rewrite H.
Qed.
Theorem similar_iff a b : similar a b = true <-> drop_punctuation (map_tokens bare a) = drop_punctuation (map_tokens bare b).
Proof. exact (similar_norm a b). Qed.
Theorem iteration_exhausts t n : (List.length (leaves t) <= n)%nat ->
  exists its, iter_ops (repeat Front n) (items t) = Done (map Some (leaves t) ++ repeat None (n - List.length (leaves t)), its).
Proof.
  intros H. destruct (iteration t (repeat Front n)) as (os & its & E & D). rewrite (deque_front _ _ H) in D. cbn in D. subst os. eauto.
Qed.
