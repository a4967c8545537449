(** [Punctuated] refines its specification. *)
From Verif Require Export PunctuatedSpec.
From Coq Require Import Lia.
Local Open Scope nat_scope.

Definition abs {A} (s : punctuated A) : abstract A := mkAbs (map pair_value (pairs s)) (map pair_punctuation (pairs s)).

Lemma final_app {A} (l : list A) x : final (l ++ [x]) = Some x.
Proof. induction l as [|a [|b l] IH]; [reflexivity|reflexivity|exact IH]. Qed.
Lemma tuple_eq {A} (x : pair_of A) : into_tuple x = (pair_value x, pair_punctuation x).
Proof. destruct x; reflexivity. Qed.
Lemma value_new {A} (v : A) p : pair_value (pair_new v p) = v /\ pair_punctuation (pair_new v p) = p.
Proof. destruct p; split; reflexivity. Qed.
Lemma collect {A} (get : pair_of A -> A) l : forall n, List.length l < n -> iter_collect n get l = map get l.
Proof. induction l as [|x l IH]; intros [|n] H; cbn in *; try lia; [reflexivity|]. now rewrite IH by lia. Qed.
Lemma into_value_eq {A} (x : pair_of A) : into_value x = pair_value x.
Proof. destruct x; reflexivity. Qed.

Lemma pop_snoc {A} (l : list A) x : vec_pop (l ++ [x]) = (Some x, l).
Proof. unfold vec_pop. rewrite rev_app_distr. cbn. now rewrite rev_involutive. Qed.

Lemma simulates {A} (s : punctuated A) c : let '(a, s') := actual s c in expected (abs s) c = (a, abs s').
Proof.
  destruct s as [l]. destruct c as [v p|v p| |m|f| | | | | | |]; unfold abs; cbn [actual expected pairs vals puncts p_push p_extend p_iter_mut p_first p_last p_pairs].
  - unfold p_push. cbn [pairs]. rewrite !map_app. cbn [map]. destruct (value_new v p) as [-> ->]. reflexivity.
  - unfold p_push_punctuated. cbn [pairs]. destruct l as [|x l _] using rev_ind; [reflexivity|]. rewrite pop_snoc, !map_app. cbn [map]. rewrite final_app.
    destruct (pair_punctuation x) eqn:E; cbn [pairs]; [rewrite !map_app; cbn [map]; now rewrite E|].
    rewrite !map_app. cbn [map]. rewrite !removelast_app by discriminate. cbn [removelast pair_value pair_punctuation pair_new]. rewrite into_value_eq, !app_nil_r, <- !app_assoc. reflexivity.
  - unfold p_pop. cbn [pairs]. destruct l as [|x l _] using rev_ind; [reflexivity|]. rewrite pop_snoc. cbn [option_map pairs]. rewrite !map_app. cbn [map].
    rewrite !final_app, !removelast_app, tuple_eq by discriminate. cbn [removelast both_of]. now rewrite !app_nil_r.
  - unfold p_extend. cbn [pairs]. rewrite !map_app, !map_map. f_equal. f_equal; f_equal; apply map_ext; intros [v p]; cbn [fst snd]; symmetry; apply value_new.
  - unfold p_iter_mut. cbn [pairs]. rewrite !map_map. f_equal. f_equal; apply map_ext; intros [v|v p]; reflexivity.
  - unfold p_len. cbn [pairs]. now rewrite map_length.
  - unfold p_is_empty, p_len. cbn [pairs]. destruct l; reflexivity.
  - unfold p_first. cbn [pairs]. destruct l as [|x l]; [reflexivity|]. cbn. now rewrite tuple_eq.
  - unfold p_last. cbn [pairs]. destruct l as [|x l _] using rev_ind; [reflexivity|]. rewrite !map_app, rev_app_distr. cbn [map rev app hd_error option_map]. now rewrite !final_app, tuple_eq.
  - unfold p_iter, p_len. cbn [pairs]. rewrite collect by lia. reflexivity.
  - unfold p_into_iter, p_len. cbn [pairs]. rewrite collect by lia. do 2 f_equal. apply map_ext. intros x. symmetry. apply into_value_eq.
  - unfold p_pairs. cbn [pairs]. do 2 f_equal. induction l as [|x l IH]; [reflexivity|]. cbn. now rewrite IH, tuple_eq.
Qed.

Theorem refines {A} (cs : list (call A)) : forall s, history actual s cs = history expected (abs s) cs.
Proof.
  induction cs as [|c cs IH]; intros s; [reflexivity|]. cbn [history]. pose proof (simulates s c) as H. destruct (actual s c) as [a s']. rewrite H. now rewrite IH.
Qed.

Lemma abs_from_iter {A} (l : list (A * option tokref)) : abs (p_from_iter (map (fun x => pair_new (fst x) (snd x)) l)) = mkAbs (map fst l) (map snd l).
Proof. unfold abs, p_from_iter. cbn [pairs]. rewrite !map_map. f_equal; apply map_ext; intros [v p]; apply value_new. Qed.
Lemma abs_new {A} : abs (@p_new A) = mkAbs [] [].
Proof. reflexivity. Qed.

Theorem push_punctuated_panics {A} (s : punctuated A) v p :
  fst (p_push_punctuated s v p) = Panic <-> pairs s = [] \/ exists l w q, pairs s = l ++ [Punctuated w q].
Proof.
  destruct s as [l]. unfold p_push_punctuated. cbn [pairs]. destruct l as [|x l _] using rev_ind; [cbn; tauto|]. rewrite pop_snoc. split.
  - destruct x as [w|w q]; cbn; [discriminate|]. intros _. right. eauto.
  - intros [E|(m & w & q & E)]; [now destruct l|]. apply app_inj_tail in E as [_ ->]. reflexivity.
Qed.
