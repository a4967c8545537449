(** Trees of the tree grammar stay in it when their tokens are changed for others of the same sort, and in versions that have more
    (C50). *)
From Verif Require Import LexerSpec PunctuatedProofs TokenSpec.
From Verif Require Import VisitTheorems.
From Verif Require Export VersionSpec.
From Coq Require Import Lia.
Local Open Scope nat_scope.
Import ListNotations.

(** [g] keeps what the grammar of [c] looks at. *)
Definition steady (c c' : cfg) (g : tokref -> tokref) : Prop :=
  (forall r, terminal_of (g r) = terminal_of r) /\
  (has_luau c = true -> forall r, t_type (r_token (g r)) = t_type (r_token r) /\ (r_trailing (g r) = [] -> r_trailing r = [])) /\ extends c c'.

(** ** What is read off a tree *)
Lemma first_map g t : (forall r, terminal_of (g r) = terminal_of r) -> first_of (map_tokens g t) = first_of t.
Proof. intros G. unfold first_of, terminals. rewrite printed_map_tokens. destruct (printed t); cbn; [reflexivity|now rewrite G]. Qed.
Lemma head_map g e : head_of (map_tokens g e) = head_of e.
Proof. destruct e as [r|k cs|[] cs]; try reflexivity; destruct cs as [|a [|[r|k cs'|[] cs'] [|d [|]]]]; reflexivity. Qed.
Lemma edge_map p g : forall t, on_edge p (map_tokens g t) = on_edge p t.
Proof.
  assert (X : forall cs, Forall (fun t => on_edge p (map_tokens g t) = on_edge p t) cs ->
      (fix last_one l := match l with [] => false | [x] => on_edge p x | _ :: l => last_one l end) (map (map_tokens g) cs)
      = (fix last_one l := match l with [] => false | [x] => on_edge p x | _ :: l => last_one l end) cs).
  { induction 1 as [|x l E F IH]; [reflexivity|]. destruct l as [|y l]; [exact E|exact IH]. }
  induction t as [r|k cs IH|k cs IH] using tree_ind'; [reflexivity| |].
  - destruct k; try reflexivity; now apply X.
  - cbn [map_tokens on_edge]. now rewrite X.
Qed.
Lemma name_map g : (forall r, terminal_of (g r) = terminal_of r) -> forall t, ends_in_type_name (map_tokens g t) = ends_in_type_name t.
Proof.
  intros G. assert (X : forall cs, Forall (fun t => ends_in_type_name (map_tokens g t) = ends_in_type_name t) cs ->
      (fix last_one l := match l with [] => false | [x] => ends_in_type_name x | _ :: l => last_one l end) (map (map_tokens g) cs)
      = (fix last_one l := match l with [] => false | [x] => ends_in_type_name x | _ :: l => last_one l end) cs).
  { induction 1 as [|x l E F IH]; [reflexivity|]. destruct l as [|y l]; [exact E|exact IH]. }
  induction t as [r|k cs IH|k cs IH] using tree_ind'; [reflexivity| |].
  - destruct k; try reflexivity; now apply X.
  - specialize (X cs IH). destruct k; try exact X; try reflexivity; try (cbn [map_tokens ends_in_type_name ends_in_expression andb]; exact X);
      destruct cs as [|[r|k cs'|k cs'] [|]]; cbn; rewrite ?G; reflexivity.
Qed.
Lemma goes_on_map g t s : (forall r, terminal_of (g r) = terminal_of r) -> goes_on (map_tokens g t) s = goes_on t s.
Proof. intros G. unfold goes_on, ends_in_type. now rewrite name_map, edge_map. Qed.
Lemma casts_map g : forall t, casts (map_tokens g t) = casts t.
Proof.
  fix IH 1. intros [r|k cs|k cs]; [reflexivity|destruct k; reflexivity|]. destruct k; try reflexivity. destruct cs as [|a [|b [|d [|]]]]; try reflexivity. exact (IH d).
Qed.
Lemma inside_map g t : cast_inside (map_tokens g t) = cast_inside t.
Proof.
  destruct t as [r|k cs|k cs]; [reflexivity|destruct k; reflexivity|]; destruct k; try reflexivity.
  - destruct cs as [|a [|b [|]]]; try reflexivity. apply casts_map.
  - destruct cs as [|[r|k cs'|k cs'] [|]]; try reflexivity; try solve [destruct k; reflexivity]. destruct k; try reflexivity. do 7 (destruct cs' as [|? cs']; try reflexivity). destruct cs'; [apply casts_map|reflexivity].
    destruct k; try reflexivity. do 8 (destruct cs' as [|? cs']; try reflexivity).
Qed.
Lemma call_map g l : ends_in_call (map (map_tokens g) l) = ends_in_call l.
Proof. unfold ends_in_call. rewrite <- map_rev. destruct (rev l) as [|[r|k cs|[] cs] m]; reflexivity. Qed.
Lemma indexer_map g t : is_indexer (map_tokens g t) = is_indexer t.
Proof.
  destruct t as [r|k [|[r|k' cs|[] cs] l]|k cs]; try reflexivity.
  destruct cs as [|a [|[r|k' ds|[] ds] cs]]; try reflexivity; destruct cs as [|x [|y [|]]]; try reflexivity;
  destruct ds as [|u [|[r|q es|[] es] [|]]]; reflexivity.
Qed.
Lemma one_indexer_map g l : one_indexer l -> one_indexer (map (map_tokens g) l).
Proof.
  unfold one_indexer. intros H. replace (List.length (filter is_indexer (map (map_tokens g) l))) with (List.length (filter is_indexer l)); [assumption|].
  clear H. induction l as [|x l IH]; [reflexivity|]. cbn [map filter]. rewrite indexer_map. destruct (is_indexer x); cbn; congruence.
Qed.
Lemma filled_map g (l : list tree) : l <> [] -> map (map_tokens g) l <> [].
Proof. destruct l; [congruence|discriminate]. Qed.
Lemma separate_map g a b : (forall r, terminal_of (g r) = terminal_of r) -> separate a b -> separate (map_tokens g a) (map_tokens g b).
Proof.
  intros G. destruct a as [r|[] [|s [|o [|]]]|k cs]; cbn; auto. intros H E F. unfold open. rewrite edge_map. apply H.
  - destruct o as [|[] [|]|]; cbn in E; congruence.
  - unfold starts_with in *. now rewrite first_map in F.
Qed.
Lemma apart_map g l : (forall r, terminal_of (g r) = terminal_of r) -> apart l -> apart (map (map_tokens g) l).
Proof. intros G. induction 1; cbn [map]; constructor; auto using separate_map. Qed.
Lemma final_map g l t' : map (map_tokens g) l = [final t'] -> exists t, l = [final t] /\ t' = map_tokens g t.
Proof.
  intros H. destruct l as [|[r|k [|t [|]]|k cs] [|]]; try discriminate. cbn in H. injection H as -> <-. eauto.
Qed.

(** ** Lists *)
Definition optional_up (P Q : tree -> Prop) g (f : forall t, P t -> Q (map_tokens g t)) t (H : optional P t) : optional Q (map_tokens g t) :=
  match H in optional _ t return optional Q (map_tokens g t) with
  | o_none _ => o_none Q
  | o_some _ t p => o_some Q _ (f t p)
  end.
Definition keeps (g : tokref -> tokref) : Prop := forall r, terminal_of (g r) = terminal_of r.
Lemma keeps_at g (G : keeps g) r x : terminal_of r = x -> terminal_of (g r) = x.
Proof. now rewrite G. Qed.
Definition several_up (P Q : tree -> Prop) s g (G : keeps g) (f : forall t, P t -> Q (map_tokens g t)) :=
  fix go l (H : several P s l) {struct H} : several Q s (map (map_tokens g) l) :=
  match H in several _ _ l return several Q s (map (map_tokens g) l) with
  | s_last _ _ t p => s_last Q s _ (f t p)
  | s_more _ _ t d l p D m => s_more Q s _ _ _ (f t p) (keeps_at g G d _ D) (go l m)
  end.
Definition ending_up (P Q P' Q' : tree -> Prop) s g (G : keeps g) (f : forall t, P t -> P' (map_tokens g t)) (f' : forall t, Q t -> Q' (map_tokens g t)) :=
  fix go l (H : ending P Q s l) {struct H} : ending P' Q' s (map (map_tokens g) l) :=
  match H in ending _ _ _ l return ending P' Q' s (map (map_tokens g) l) with
  | en_last _ _ _ t p => en_last P' Q' s _ (f' t p)
  | en_more _ _ _ t d l p D m => en_more P' Q' s _ _ _ (f t p) (keeps_at g G d _ D) (go l m)
  end.
Definition entries_up (P Q : tree -> Prop) g (G : keeps g) (f : forall t, P t -> Q (map_tokens g t)) :=
  fix go l (H : entries P l) {struct H} : entries Q (map (map_tokens g) l) :=
  match H in entries _ l return entries Q (map (map_tokens g) l) with
  | e_nil _ => e_nil Q
  | e_last _ t p => e_last Q _ (f t p)
  | e_more _ t d s l p D D' m => e_more Q _ _ s _ (f t p) (keeps_at g G d _ D) D' (go l m)
  end.
Definition bindings_up (P Q : tree -> tree -> Prop) g (G : keeps g) (f : forall a t, P a t -> Q (map_tokens g a) (map_tokens g t)) :=
  fix go l as_ ts (H : bindings P l as_ ts) {struct H} : bindings Q (map (map_tokens g) l) (map (map_tokens g) as_) (map (map_tokens g) ts) :=
  match H in bindings _ l as_ ts return bindings Q (map (map_tokens g) l) (map (map_tokens g) as_) (map (map_tokens g) ts) with
  | b_last _ n a t X p => b_last Q _ _ _ (keeps_at g G n _ X) (f a t p)
  | b_more _ n d a t l as_ ts X D p m => b_more Q _ _ _ _ _ _ _ (keeps_at g G n _ X) (keeps_at g G d _ D) (f a t p) (go l as_ ts m)
  end.
Definition parameters_up (P E P' E' : tree -> Prop) e e' g (G : keeps g) (Ee : e' = e) (f : forall t, P t -> P' (map_tokens g t)) (f' : e = true -> forall t, E t -> E' (map_tokens g t)) :=
  fix go l ts (H : parameters P E e l ts) {struct H} : parameters P' E' e' (map (map_tokens g) l) (map (map_tokens g) ts) :=
  match H in parameters _ _ _ l ts return parameters P' E' e' (map (map_tokens g) l) (map (map_tokens g) ts) with
  | p_last _ _ _ n t X p => p_last P' E' e' _ _ (keeps_at g G n _ X) (f t p)
  | p_dots _ _ _ d t A D p => p_dots P' E' e' _ _ (eq_trans Ee A) (keeps_at g G d _ D) (f' A t p)
  | p_plain _ _ _ d A D => p_plain P' E' e' _ (eq_trans Ee A) (keeps_at g G d _ D)
  | p_more _ _ _ n d t l ts X D p m => p_more P' E' e' _ _ _ _ _ (keeps_at g G n _ X) (keeps_at g G d _ D) (f t p) (go l ts m)
  end.
Definition forall_up (P Q : tree -> Prop) g (f : forall t, P t -> Q (map_tokens g t)) :=
  fix go l (H : Forall P l) {struct H} : Forall Q (map (map_tokens g) l) :=
  match H in Forall _ l return Forall Q (map (map_tokens g) l) with
  | Forall_nil _ => Forall_nil Q
  | @Forall_cons _ _ t l p m => @Forall_cons _ Q _ _ (f t p) (go l m)
  end.

(** ** Versions and tokens *)
Lemma k_keeps c c' g : steady c c' g -> keeps g.
Proof. now intros (G & _). Qed.
Lemma k_luau c c' g : steady c c' g -> has_luau c' = has_luau c.
Proof. now intros (_ & _ & L & _). Qed.
Lemma k_luau_true c c' g : steady c c' g -> has_luau c = true -> has_luau c' = true.
Proof. intros K. now rewrite (k_luau c c' g K). Qed.
Lemma k_luau_false c c' g : steady c c' g -> has_luau c = false -> has_luau c' = false.
Proof. intros K. now rewrite (k_luau c c' g K). Qed.
Lemma k_type c c' g r : steady c c' g -> has_luau c = true -> t_type (r_token (g r)) = t_type (r_token r).
Proof. intros (_ & T & _) L. now apply (T L r). Qed.
Lemma k_word c c' g w r : steady c c' g -> has_luau c = true -> word w r -> word w (g r).
Proof. intros K L W. unfold word. now rewrite (k_type c c' g r K L). Qed.
Lemma k_no_word c c' g w r : steady c c' g -> has_luau c = true -> ~ word w r -> ~ word w (g r).
Proof. intros K L W X. apply W. unfold word in *. now rewrite (k_type c c' g r K L) in X. Qed.
Lemma k_access c c' g r : steady c c' g -> has_luau c = true -> access r -> access (g r).
Proof. intros K L [W|W]; [left|right]; eapply k_word; eassumption. Qed.
Lemma k_no_access c c' g t : steady c c' g -> has_luau c = true -> (forall r l, printed t = r :: l -> ~ access r) -> forall r l, printed (map_tokens g t) = r :: l -> ~ access r.
Proof.
  intros K L H r l E. rewrite printed_map_tokens in E. destruct (printed t) as [|r0 l0]; [discriminate|]. injection E as <- _. intros A. apply (H r0 l0 eq_refl).
  destruct A as [A|A]; [left|right]; unfold word in *; now rewrite (k_type c c' g r0 K L) in A.
Qed.
Lemma k_section c c' g k r : steady c c' g -> has_luau c = true -> section k r -> section k (g r).
Proof. intros K L (w & W). exists w. now rewrite (k_type c c' g r K L). Qed.
Lemma k_hole c c' g r e : steady c c' g -> has_luau c = true -> (r_trailing r = [] -> ~ starts_with SLeftBrace e) -> r_trailing (g r) = [] -> ~ starts_with SLeftBrace (map_tokens g e).
Proof. intros K L H T. destruct K as (G & U & _). destruct (U L r) as (_ & V). unfold starts_with. rewrite first_map by assumption. now apply H, V. Qed.
Lemma k_binary c c' g s : steady c c' g -> binary_in c s -> binary_in c' s.
Proof. intros (_ & _ & L & _ & V & _). destruct s; cbn; auto. rewrite L. intros [H|H]; auto. Qed.
Lemma k_unary c c' g s : steady c c' g -> unary_in c s -> unary_in c' s.
Proof. intros (_ & _ & _ & _ & V & _). destruct s; cbn; auto. Qed.
Lemma k_compound c c' g s : steady c c' g -> compound_in c s -> compound_in c' s.
Proof. intros (_ & _ & L & _ & _ & _ & _ & V & _). destruct s; cbn; auto; rewrite L; intuition. Qed.
Lemma k_dot c c' g s : steady c c' g -> dot_in c s -> dot_in c' s.
Proof. intros (_ & _ & _ & _ & _ & _ & _ & _ & V & _). destruct s; cbn; auto. Qed.
Lemma k_equal c c' g s : steady c c' g -> equal_in c s -> equal_in c' s.
Proof. intros (_ & _ & _ & _ & _ & _ & _ & _ & V & _). destruct s; cbn; auto. Qed.
Lemma k_fi c c' g : steady c c' g -> f_cfxlua (c_feat c) = true -> f_cfxlua (c_feat c') = true.
Proof. intros (_ & _ & _ & _ & _ & _ & _ & _ & V & _). auto. Qed.
Lemma k_fl c c' g (l : list tree) : steady c c' g -> (l <> [] -> f_luau (c_feat c) = true) -> map (map_tokens g) l <> [] -> f_luau (c_feat c') = true.
Proof. intros (_ & _ & _ & _ & _ & _ & _ & _ & _ & V). intros H N. apply V, H. now destruct l. Qed.
Lemma k_attribute c c' g : steady c c' g -> has_lua54 c = true \/ has_cfxlua c = true -> has_lua54 c' = true \/ has_cfxlua c' = true.
Proof. intros (_ & _ & _ & _ & _ & V & _ & W & _). intuition. Qed.
Lemma k_goto c c' g : steady c c' g -> has_lua52 c = true \/ has_luajit c = true -> has_lua52 c' = true \/ has_luajit c' = true.
Proof. intros (_ & _ & _ & V & _ & _ & W & _). intuition. Qed.
Lemma name_up g (G : keeps g) t : (exists r, t = Tok r /\ nm r) -> exists r, map_tokens g t = Tok r /\ nm r.
Proof. intros (r & -> & N). exists (g r). now rewrite G. Qed.
Lemma up_argument_name g (G : keeps g) t : argument_name t -> argument_name (map_tokens g t).
Proof. intros []; constructor; now rewrite G. Qed.
Lemma up_field_access c c' g t : steady c c' g -> has_luau c = true -> field_access t -> field_access (map_tokens g t).
Proof. intros K L []; constructor. eapply k_access; eassumption. Qed.
Lemma up_semicolon g (G : keeps g) t : semicolon t -> semicolon (map_tokens g t).
Proof. intros []; constructor. now rewrite G. Qed.
Lemma up_function_name g (G : keeps g) t : function_name t -> function_name (map_tokens g t).
Proof.
  intros [l H|l d n H D N]; [apply fn_plain|apply fn_method]; try (now rewrite G); eapply several_up; try eassumption; now apply name_up.
Qed.
Lemma declaration_luau c d : type_declaration c d -> has_luau c = true.
Proof. now intros []. Qed.
Lemma type_function_luau c d : type_function c d -> has_luau c = true.
Proof. now intros []. Qed.

Ltac up_side K :=
  lazymatch goal with
  | |- terminal_of (?g ?r) = _ => apply (keeps_at g (k_keeps _ _ _ K)); eassumption
  | |- has_luau _ = true => first [assumption|eapply k_luau_true; eassumption]
  | |- has_luau _ = false => eapply k_luau_false; eassumption
  | |- word _ _ => first [eapply k_word; eassumption|eapply k_word; [eassumption|first [eapply declaration_luau; eassumption|eapply type_function_luau; eassumption]|eassumption]]
  | |- ~ word _ _ => eapply k_no_word; eassumption
  | |- access _ => eapply k_access; eassumption
  | |- section _ _ => eapply k_section; eassumption
  | |- binary_in _ _ => eapply k_binary; eassumption
  | |- unary_in _ _ => eapply k_unary; eassumption
  | |- compound_in _ _ => eapply k_compound; eassumption
  | |- dot_in _ _ => eapply k_dot; eassumption
  | |- equal_in _ _ => eapply k_equal; eassumption
  | |- has_lua54 _ = true \/ _ => eapply k_attribute; eassumption
  | |- has_lua52 _ = true \/ _ => eapply k_goto; eassumption
  | |- f_cfxlua _ = true => eapply k_fi; eassumption
  | |- map _ ?l <> [] -> f_luau _ = true => eapply k_fl; eassumption
  | |- _ -> ~ starts_with _ _ => eapply k_hole; eassumption
  | |- forall r l, printed _ = _ -> _ => eapply k_no_access; eassumption
  | |- one_indexer _ => apply one_indexer_map; assumption
  | |- apart _ => apply apart_map; [exact (k_keeps _ _ _ K)|assumption]
  | |- argument_name _ => apply (up_argument_name _ (k_keeps _ _ _ K)); assumption
  | |- field_access _ => eapply up_field_access; eassumption
  | |- function_name _ => apply (up_function_name _ (k_keeps _ _ _ K)); assumption
  | |- ends_in_call _ = _ => rewrite call_map; assumption
  | |- map _ _ <> [] => apply filled_map; assumption
  | |- List.length (map _ _) <> _ => rewrite map_length; assumption
  | |- first_of _ <> _ => rewrite (first_map _ _ (k_keeps _ _ _ K)); assumption
  | |- left_of _ _ = true => rewrite head_map; assumption
  | |- right_of _ _ = true => rewrite head_map; assumption
  | |- under_unary _ = true => rewrite head_map; assumption
  | |- ends_in_if _ = false => unfold ends_in_if in *; rewrite edge_map; assumption
  | |- goes_on _ _ = false => rewrite (goes_on_map _ _ _ (k_keeps _ _ _ K)); assumption
  | |- cast_inside _ = true => rewrite inside_map; assumption
  | |- _ <> IEnd => eassumption
  | |- _ \/ _ => eassumption
  | |- _ => idtac
  end.
Ltac get_type := match goal with f : forall c c' g (K : steady c c' g) (x0 : tree), type c x0 -> has_luau c = true -> type c' (map_tokens g x0) |- _ => f end.
Ltac get_plain_type := match goal with f : forall c c' g (K : steady c c' g) (x0 : tree), plain_type c x0 -> has_luau c = true -> plain_type c' (map_tokens g x0) |- _ => f end.
Ltac get_member := match goal with f : forall c c' g (K : steady c c' g) (x0 : tree), member c x0 -> has_luau c = true -> member c' (map_tokens g x0) |- _ => f end.
Ltac get_last_member := match goal with f : forall c c' g (K : steady c c' g) (x0 : tree), last_member c x0 -> has_luau c = true -> last_member c' (map_tokens g x0) |- _ => f end.
Ltac get_simple_type := match goal with f : forall c c' g (K : steady c c' g) (x0 : tree), simple_type c x0 -> has_luau c = true -> simple_type c' (map_tokens g x0) |- _ => f end.
Ltac get_function_type := match goal with f : forall c c' g (K : steady c c' g) (x0 : tree), function_type c x0 -> has_luau c = true -> function_type c' (map_tokens g x0) |- _ => f end.
Ltac get_closed_type := match goal with f : forall c c' g (K : steady c c' g) (x0 : tree), closed_type c x0 -> has_luau c = true -> closed_type c' (map_tokens g x0) |- _ => f end.
Ltac get_closed_result := match goal with f : forall c c' g (K : steady c c' g) (x0 : tree), closed_result c x0 -> has_luau c = true -> closed_result c' (map_tokens g x0) |- _ => f end.
Ltac get_pack := match goal with f : forall c c' g (K : steady c c' g) (x0 : tree), pack c x0 -> has_luau c = true -> pack c' (map_tokens g x0) |- _ => f end.
Ltac get_tuple := match goal with f : forall c c' g (K : steady c c' g) (x0 : tree), tuple c x0 -> has_luau c = true -> tuple c' (map_tokens g x0) |- _ => f end.
Ltac get_types_then_pack := match goal with f : forall c c' g (K : steady c c' g) (x0 : list tree), types_then_pack c x0 -> has_luau c = true -> types_then_pack c' (map (map_tokens g) x0) |- _ => f end.
Ltac get_types_then_pack1 := match goal with f : forall c c' g (K : steady c c' g) (x0 : list tree), types_then_pack1 c x0 -> has_luau c = true -> types_then_pack1 c' (map (map_tokens g) x0) |- _ => f end.
Ltac get_result_type := match goal with f : forall c c' g (K : steady c c' g) (x0 : tree), result_type c x0 -> has_luau c = true -> result_type c' (map_tokens g x0) |- _ => f end.
Ltac get_type_arguments := match goal with f : forall c c' g (K : steady c c' g) (x0 : list tree), type_arguments c x0 -> has_luau c = true -> type_arguments c' (map (map_tokens g) x0) |- _ => f end.
Ltac get_function_arguments := match goal with f : forall c c' g (K : steady c c' g) (x0 : list tree), function_arguments c x0 -> has_luau c = true -> function_arguments c' (map (map_tokens g) x0) |- _ => f end.
Ltac get_function_arguments1 := match goal with f : forall c c' g (K : steady c c' g) (x0 : list tree), function_arguments1 c x0 -> has_luau c = true -> function_arguments1 c' (map (map_tokens g) x0) |- _ => f end.
Ltac get_type_field := match goal with f : forall c c' g (K : steady c c' g) (x0 : tree), type_field c x0 -> has_luau c = true -> type_field c' (map_tokens g x0) |- _ => f end.
Ltac get_type_key := match goal with f : forall c c' g (K : steady c c' g) (x0 : tree), type_key c x0 -> has_luau c = true -> type_key c' (map_tokens g x0) |- _ => f end.
Ltac get_generics := match goal with f : forall c c' g (K : steady c c' g) (x0 : bool) (x1 : tree), generics c x0 x1 -> has_luau c = true -> generics c' x0 (map_tokens g x1) |- _ => f end.
Ltac get_generic_list := match goal with f : forall c c' g (K : steady c c' g) (x0 : bool) (x1 : bool) (x2 : bool) (x3 : list tree), generic_list c x0 x1 x2 x3 -> has_luau c = true -> generic_list c' x0 x1 x2 (map (map_tokens g) x3) |- _ => f end.
Ltac get_generic := match goal with f : forall c c' g (K : steady c c' g) (x0 : bool) (x1 : bool) (x2 : bool) (x3 : tree) (x4 : bool) (x5 : bool), generic c x0 x1 x2 x3 x4 x5 -> has_luau c = true -> generic c' x0 x1 x2 (map_tokens g x3) x4 x5 |- _ => f end.
Ltac get_pack_tuple := match goal with f : forall c c' g (K : steady c c' g) (x0 : tree), pack_tuple c x0 -> has_luau c = true -> pack_tuple c' (map_tokens g x0) |- _ => f end.
Ltac get_pack_member := match goal with f : forall c c' g (K : steady c c' g) (x0 : tree), pack_member c x0 -> has_luau c = true -> pack_member c' (map_tokens g x0) |- _ => f end.
Ltac get_more_holes := match goal with f : forall c c' g (K : steady c c' g) (x0 : list tree), more_holes c x0 -> has_luau c = true -> more_holes c' (map (map_tokens g) x0) |- _ => f end.
Ltac get_default_pack := match goal with f : forall c c' g (K : steady c c' g) (x0 : tree), default_pack c x0 -> has_luau c = true -> default_pack c' (map_tokens g x0) |- _ => f end.
Ltac get_specifier := match goal with f : forall c c' g (K : steady c c' g) (x0 : tree), specifier c x0 -> specifier c' (map_tokens g x0) |- _ => f end.
Ltac get_dots_specifier := match goal with f : forall c c' g (K : steady c c' g) (x0 : tree), dots_specifier c x0 -> has_luau c = true -> dots_specifier c' (map_tokens g x0) |- _ => f end.
Ltac get_result_specifier := match goal with f : forall c c' g (K : steady c c' g) (x0 : tree), result_specifier c x0 -> result_specifier c' (map_tokens g x0) |- _ => f end.
Ltac get_bound := match goal with f : forall c c' g (K : steady c c' g) (x0 : tree) (x1 : tree), bound c x0 x1 -> bound c' (map_tokens g x0) (map_tokens g x1) |- _ => f end.
Ltac get_bound_type := match goal with f : forall c c' g (K : steady c c' g) (x0 : tree) (x1 : tree), bound_type c x0 x1 -> bound_type c' (map_tokens g x0) (map_tokens g x1) |- _ => f end.
Ltac get_instantiation := match goal with f : forall c c' g (K : steady c c' g) (x0 : tree), instantiation c x0 -> instantiation c' (map_tokens g x0) |- _ => f end.
Ltac get_expression := match goal with f : forall c c' g (K : steady c c' g) (x0 : tree), expression c x0 -> expression c' (map_tokens g x0) |- _ => f end.
Ltac get_unit_expression := match goal with f : forall c c' g (K : steady c c' g) (x0 : tree), unit_expression c x0 -> unit_expression c' (map_tokens g x0) |- _ => f end.
Ltac get_else_ifs := match goal with f : forall c c' g (K : steady c c' g) (x0 : tree), else_ifs c x0 -> else_ifs c' (map_tokens g x0) |- _ => f end.
Ltac get_else_if := match goal with f : forall c c' g (K : steady c c' g) (x0 : tree), else_if c x0 -> else_if c' (map_tokens g x0) |- _ => f end.
Ltac get_atom := match goal with f : forall c c' g (K : steady c c' g) (x0 : tree), atom c x0 -> atom c' (map_tokens g x0) |- _ => f end.
Ltac get_holes := match goal with f : forall c c' g (K : steady c c' g) (x0 : istr_kind) (x1 : list tree), holes c x0 x1 -> has_luau c = true -> holes c' x0 (map (map_tokens g) x1) |- _ => f end.
Ltac get_parenthesised := match goal with f : forall c c' g (K : steady c c' g) (x0 : tree), parenthesised c x0 -> parenthesised c' (map_tokens g x0) |- _ => f end.
Ltac get_prefix_expression := match goal with f : forall c c' g (K : steady c c' g) (x0 : tree), prefix_expression c x0 -> prefix_expression c' (map_tokens g x0) |- _ => f end.
Ltac get_suffix := match goal with f : forall c c' g (K : steady c c' g) (x0 : tree), suffix c x0 -> suffix c' (map_tokens g x0) |- _ => f end.
Ltac get_arguments := match goal with f : forall c c' g (K : steady c c' g) (x0 : tree), arguments c x0 -> arguments c' (map_tokens g x0) |- _ => f end.
Ltac get_expressions := match goal with f : forall c c' g (K : steady c c' g) (x0 : list tree), expressions c x0 -> expressions c' (map (map_tokens g) x0) |- _ => f end.
Ltac get_table := match goal with f : forall c c' g (K : steady c c' g) (x0 : tree), table c x0 -> table c' (map_tokens g x0) |- _ => f end.
Ltac get_field := match goal with f : forall c c' g (K : steady c c' g) (x0 : tree), field c x0 -> field c' (map_tokens g x0) |- _ => f end.
Ltac get_attributes := match goal with f : forall c c' g (K : steady c c' g) (x0 : list tree), attributes c x0 -> attributes c' (map (map_tokens g) x0) |- _ => f end.
Ltac get_attribute := match goal with f : forall c c' g (K : steady c c' g) (x0 : tree), attribute c x0 -> attribute c' (map_tokens g x0) |- _ => f end.
Ltac get_body_generics := match goal with f : forall c c' g (K : steady c c' g) (x0 : tree), body_generics c x0 -> body_generics c' (map_tokens g x0) |- _ => f end.
Ltac get_body_parameters := match goal with f : forall c c' g (K : steady c c' g) (x0 : list tree) (x1 : list tree), body_parameters c x0 x1 -> body_parameters c' (map (map_tokens g) x0) (map (map_tokens g) x1) |- _ => f end.
Ltac get_function_body := match goal with f : forall c c' g (K : steady c c' g) (x0 : tree), function_body c x0 -> function_body c' (map_tokens g x0) |- _ => f end.
Ltac get_variable := match goal with f : forall c c' g (K : steady c c' g) (x0 : tree), variable c x0 -> variable c' (map_tokens g x0) |- _ => f end.
Ltac get_block := match goal with f : forall c c' g (K : steady c c' g) (x0 : tree), block c x0 -> block c' (map_tokens g x0) |- _ => f end.
Ltac get_line := match goal with f : forall c c' g (K : steady c c' g) (x0 : tree), line c x0 -> line c' (map_tokens g x0) |- _ => f end.
Ltac get_last_line := match goal with f : forall c c' g (K : steady c c' g) (x0 : tree), last_line c x0 -> last_line c' (map_tokens g x0) |- _ => f end.
Ltac get_last_statement := match goal with f : forall c c' g (K : steady c c' g) (x0 : tree), last_statement c x0 -> last_statement c' (map_tokens g x0) |- _ => f end.
Ltac get_statement := match goal with f : forall c c' g (K : steady c c' g) (x0 : tree), statement c x0 -> statement c' (map_tokens g x0) |- _ => f end.
Ltac get_type_declaration := match goal with f : forall c c' g (K : steady c c' g) (x0 : tree), type_declaration c x0 -> type_declaration c' (map_tokens g x0) |- _ => f end.
Ltac get_type_function := match goal with f : forall c c' g (K : steady c c' g) (x0 : tree), type_function c x0 -> type_function c' (map_tokens g x0) |- _ => f end.
Ltac get_else_if_blocks := match goal with f : forall c c' g (K : steady c c' g) (x0 : tree), else_if_blocks c x0 -> else_if_blocks c' (map_tokens g x0) |- _ => f end.
Ltac get_else_if_block := match goal with f : forall c c' g (K : steady c c' g) (x0 : tree), else_if_block c x0 -> else_if_block c' (map_tokens g x0) |- _ => f end.
Ltac up_rec c c' g K :=
  match goal with
  | |- optional (generics _ ?b) _ => match goal with L : has_luau c = true, H : optional (generics c b) ?t |- _ => let u_generics := get_generics in exact (optional_up (generics c b) (generics c' b) g (fun t h => u_generics c c' g K b t h L) t H) end
  | H : optional (specifier c) ?t |- optional (specifier _) _ => let u_specifier := get_specifier in exact (optional_up (specifier c) (specifier c') g (u_specifier c c' g K) t H)
  | H : optional (result_specifier c) ?t |- optional (result_specifier _) _ => let u_result_specifier := get_result_specifier in exact (optional_up (result_specifier c) (result_specifier c') g (u_result_specifier c c' g K) t H)
  | H : optional (instantiation c) ?t |- optional (instantiation _) _ => let u_instantiation := get_instantiation in exact (optional_up (instantiation c) (instantiation c') g (u_instantiation c c' g K) t H)
  | H : optional (last_line c) ?t |- optional (last_line _) _ => let u_last_line := get_last_line in exact (optional_up (last_line c) (last_line c') g (u_last_line c c' g K) t H)
  | H : optional semicolon ?t |- optional semicolon _ => exact (optional_up semicolon semicolon g (up_semicolon g (k_keeps c c' g K)) t H)
  | H : several (expression c) ?s ?l |- several (expression _) _ _ => let u_expression := get_expression in exact (several_up (expression c) (expression c') s g (k_keeps c c' g K) (u_expression c c' g K) l H)
  | H : several (variable c) ?s ?l |- several (variable _) _ _ => let u_variable := get_variable in exact (several_up (variable c) (variable c') s g (k_keeps c c' g K) (u_variable c c' g K) l H)
  | L : has_luau c = true, H : several (result_type c) ?s ?l |- several (result_type _) _ _ => let u_result_type := get_result_type in exact (several_up (result_type c) (result_type c') s g (k_keeps c c' g K) (fun t h => u_result_type c c' g K t h L) l H)
  | L : has_luau c = true, H : ending (member c) (last_member c) ?s ?l |- ending _ _ _ _ => let u_last_member := get_last_member in let u_member := get_member in exact (ending_up (member c) (last_member c) (member c') (last_member c') s g (k_keeps c c' g K) (fun t h => u_member c c' g K t h L) (fun t h => u_last_member c c' g K t h L) l H)
  | L : has_luau c = true, H : ending (closed_type c) (simple_type c) ?s ?l |- ending _ _ _ _ => let u_closed_type := get_closed_type in let u_simple_type := get_simple_type in exact (ending_up (closed_type c) (simple_type c) (closed_type c') (simple_type c') s g (k_keeps c c' g K) (fun t h => u_closed_type c c' g K t h L) (fun t h => u_simple_type c c' g K t h L) l H)
  | L : has_luau c = true, H : entries (type_field c) ?l |- entries _ _ => let u_type_field := get_type_field in exact (entries_up (type_field c) (type_field c') g (k_keeps c c' g K) (fun t h => u_type_field c c' g K t h L) l H)
  | H : entries (field c) ?l |- entries _ _ => let u_field := get_field in exact (entries_up (field c) (field c') g (k_keeps c c' g K) (u_field c c' g K) l H)
  | H : bindings (bound c) ?l ?n ?t |- bindings _ _ _ _ => let u_bound := get_bound in exact (bindings_up (bound c) (bound c') g (k_keeps c c' g K) (u_bound c c' g K) l n t H)
  | H : bindings (bound_type c) ?l ?n ?t |- bindings _ _ _ ?u => first [let u_bound_type := get_bound_type in exact (bindings_up (bound_type c) (bound_type c') g (k_keeps c c' g K) (u_bound_type c c' g K) l n t H)]
  | H : Forall (else_if c) ?l |- Forall _ _ => let u_else_if := get_else_if in exact (forall_up (else_if c) (else_if c') g (u_else_if c c' g K) l H)
  | H : Forall (attribute c) ?l |- Forall _ _ => let u_attribute := get_attribute in exact (forall_up (attribute c) (attribute c') g (u_attribute c c' g K) l H)
  | H : Forall (suffix c) ?l |- Forall _ _ => let u_suffix := get_suffix in exact (forall_up (suffix c) (suffix c') g (u_suffix c c' g K) l H)
  | H : Forall (line c) ?l |- Forall _ _ => let u_line := get_line in exact (forall_up (line c) (line c') g (u_line c c' g K) l H)
  | H : Forall (else_if_block c) ?l |- Forall _ _ => let u_else_if_block := get_else_if_block in exact (forall_up (else_if_block c) (else_if_block c') g (u_else_if_block c c' g K) l H)
  | H : parameters _ _ _ ?l ?ts |- parameters _ _ _ _ _ => let u_dots_specifier := get_dots_specifier in let u_specifier := get_specifier in exact (parameters_up (optional (specifier c)) (optional (dots_specifier c)) (optional (specifier c')) (optional (dots_specifier c')) (has_luau c) (has_luau c') g (k_keeps c c' g K) (k_luau c c' g K)
      (optional_up (specifier c) (specifier c') g (u_specifier c c' g K)) (fun L => optional_up (dots_specifier c) (dots_specifier c') g (fun t h => u_dots_specifier c c' g K t h L)) l ts H)
  | L : has_luau c = true, H : type c ?y0 |- type _ _ => let u_type := get_type in exact (u_type c c' g K y0 H L)
  | L : has_luau c = true, H : plain_type c ?y0 |- plain_type _ _ => let u_plain_type := get_plain_type in exact (u_plain_type c c' g K y0 H L)
  | L : has_luau c = true, H : member c ?y0 |- member _ _ => let u_member := get_member in exact (u_member c c' g K y0 H L)
  | L : has_luau c = true, H : last_member c ?y0 |- last_member _ _ => let u_last_member := get_last_member in exact (u_last_member c c' g K y0 H L)
  | L : has_luau c = true, H : simple_type c ?y0 |- simple_type _ _ => let u_simple_type := get_simple_type in exact (u_simple_type c c' g K y0 H L)
  | L : has_luau c = true, H : function_type c ?y0 |- function_type _ _ => let u_function_type := get_function_type in exact (u_function_type c c' g K y0 H L)
  | L : has_luau c = true, H : closed_type c ?y0 |- closed_type _ _ => let u_closed_type := get_closed_type in exact (u_closed_type c c' g K y0 H L)
  | L : has_luau c = true, H : closed_result c ?y0 |- closed_result _ _ => let u_closed_result := get_closed_result in exact (u_closed_result c c' g K y0 H L)
  | L : has_luau c = true, H : pack c ?y0 |- pack _ _ => let u_pack := get_pack in exact (u_pack c c' g K y0 H L)
  | L : has_luau c = true, H : tuple c ?y0 |- tuple _ _ => let u_tuple := get_tuple in exact (u_tuple c c' g K y0 H L)
  | L : has_luau c = true, H : types_then_pack c ?y0 |- types_then_pack _ _ => let u_types_then_pack := get_types_then_pack in exact (u_types_then_pack c c' g K y0 H L)
  | L : has_luau c = true, H : types_then_pack1 c ?y0 |- types_then_pack1 _ _ => let u_types_then_pack1 := get_types_then_pack1 in exact (u_types_then_pack1 c c' g K y0 H L)
  | L : has_luau c = true, H : result_type c ?y0 |- result_type _ _ => let u_result_type := get_result_type in exact (u_result_type c c' g K y0 H L)
  | L : has_luau c = true, H : type_arguments c ?y0 |- type_arguments _ _ => let u_type_arguments := get_type_arguments in exact (u_type_arguments c c' g K y0 H L)
  | L : has_luau c = true, H : function_arguments c ?y0 |- function_arguments _ _ => let u_function_arguments := get_function_arguments in exact (u_function_arguments c c' g K y0 H L)
  | L : has_luau c = true, H : function_arguments1 c ?y0 |- function_arguments1 _ _ => let u_function_arguments1 := get_function_arguments1 in exact (u_function_arguments1 c c' g K y0 H L)
  | L : has_luau c = true, H : type_field c ?y0 |- type_field _ _ => let u_type_field := get_type_field in exact (u_type_field c c' g K y0 H L)
  | L : has_luau c = true, H : type_key c ?y0 |- type_key _ _ => let u_type_key := get_type_key in exact (u_type_key c c' g K y0 H L)
  | L : has_luau c = true, H : generics c ?y0 ?y1 |- generics _ _ _ => let u_generics := get_generics in exact (u_generics c c' g K y0 y1 H L)
  | L : has_luau c = true, H : generic_list c ?y0 ?y1 ?y2 ?y3 |- generic_list _ _ _ _ _ => let u_generic_list := get_generic_list in exact (u_generic_list c c' g K y0 y1 y2 y3 H L)
  | L : has_luau c = true, H : generic c ?y0 ?y1 ?y2 ?y3 ?y4 ?y5 |- generic _ _ _ _ _ _ _ => let u_generic := get_generic in exact (u_generic c c' g K y0 y1 y2 y3 y4 y5 H L)
  | L : has_luau c = true, H : pack_tuple c ?y0 |- pack_tuple _ _ => let u_pack_tuple := get_pack_tuple in exact (u_pack_tuple c c' g K y0 H L)
  | L : has_luau c = true, H : pack_member c ?y0 |- pack_member _ _ => let u_pack_member := get_pack_member in exact (u_pack_member c c' g K y0 H L)
  | L : has_luau c = true, H : more_holes c ?y0 |- more_holes _ _ => let u_more_holes := get_more_holes in exact (u_more_holes c c' g K y0 H L)
  | L : has_luau c = true, H : default_pack c ?y0 |- default_pack _ _ => let u_default_pack := get_default_pack in exact (u_default_pack c c' g K y0 H L)
  | H : specifier c ?y0 |- specifier _ _ => let u_specifier := get_specifier in exact (u_specifier c c' g K y0 H)
  | L : has_luau c = true, H : dots_specifier c ?y0 |- dots_specifier _ _ => let u_dots_specifier := get_dots_specifier in exact (u_dots_specifier c c' g K y0 H L)
  | H : result_specifier c ?y0 |- result_specifier _ _ => let u_result_specifier := get_result_specifier in exact (u_result_specifier c c' g K y0 H)
  | H : bound c ?y0 ?y1 |- bound _ _ _ => let u_bound := get_bound in exact (u_bound c c' g K y0 y1 H)
  | H : bound_type c ?y0 ?y1 |- bound_type _ _ _ => let u_bound_type := get_bound_type in exact (u_bound_type c c' g K y0 y1 H)
  | H : instantiation c ?y0 |- instantiation _ _ => let u_instantiation := get_instantiation in exact (u_instantiation c c' g K y0 H)
  | H : expression c ?y0 |- expression _ _ => let u_expression := get_expression in exact (u_expression c c' g K y0 H)
  | H : unit_expression c ?y0 |- unit_expression _ _ => let u_unit_expression := get_unit_expression in exact (u_unit_expression c c' g K y0 H)
  | H : else_ifs c ?y0 |- else_ifs _ _ => let u_else_ifs := get_else_ifs in exact (u_else_ifs c c' g K y0 H)
  | H : else_if c ?y0 |- else_if _ _ => let u_else_if := get_else_if in exact (u_else_if c c' g K y0 H)
  | H : atom c ?y0 |- atom _ _ => let u_atom := get_atom in exact (u_atom c c' g K y0 H)
  | L : has_luau c = true, H : holes c ?y0 ?y1 |- holes _ _ _ => let u_holes := get_holes in exact (u_holes c c' g K y0 y1 H L)
  | H : parenthesised c ?y0 |- parenthesised _ _ => let u_parenthesised := get_parenthesised in exact (u_parenthesised c c' g K y0 H)
  | H : prefix_expression c ?y0 |- prefix_expression _ _ => let u_prefix_expression := get_prefix_expression in exact (u_prefix_expression c c' g K y0 H)
  | H : suffix c ?y0 |- suffix _ _ => let u_suffix := get_suffix in exact (u_suffix c c' g K y0 H)
  | H : arguments c ?y0 |- arguments _ _ => let u_arguments := get_arguments in exact (u_arguments c c' g K y0 H)
  | H : expressions c ?y0 |- expressions _ _ => let u_expressions := get_expressions in exact (u_expressions c c' g K y0 H)
  | H : table c ?y0 |- table _ _ => let u_table := get_table in exact (u_table c c' g K y0 H)
  | H : field c ?y0 |- field _ _ => let u_field := get_field in exact (u_field c c' g K y0 H)
  | H : attributes c ?y0 |- attributes _ _ => let u_attributes := get_attributes in exact (u_attributes c c' g K y0 H)
  | H : attribute c ?y0 |- attribute _ _ => let u_attribute := get_attribute in exact (u_attribute c c' g K y0 H)
  | H : body_generics c ?y0 |- body_generics _ _ => let u_body_generics := get_body_generics in exact (u_body_generics c c' g K y0 H)
  | H : body_parameters c ?y0 ?y1 |- body_parameters _ _ _ => let u_body_parameters := get_body_parameters in exact (u_body_parameters c c' g K y0 y1 H)
  | H : function_body c ?y0 |- function_body _ _ => let u_function_body := get_function_body in exact (u_function_body c c' g K y0 H)
  | H : variable c ?y0 |- variable _ _ => let u_variable := get_variable in exact (u_variable c c' g K y0 H)
  | H : block c ?y0 |- block _ _ => let u_block := get_block in exact (u_block c c' g K y0 H)
  | H : line c ?y0 |- line _ _ => let u_line := get_line in exact (u_line c c' g K y0 H)
  | H : last_line c ?y0 |- last_line _ _ => let u_last_line := get_last_line in exact (u_last_line c c' g K y0 H)
  | H : last_statement c ?y0 |- last_statement _ _ => let u_last_statement := get_last_statement in exact (u_last_statement c c' g K y0 H)
  | H : statement c ?y0 |- statement _ _ => let u_statement := get_statement in exact (u_statement c c' g K y0 H)
  | H : type_declaration c ?y0 |- type_declaration _ _ => let u_type_declaration := get_type_declaration in exact (u_type_declaration c c' g K y0 H)
  | H : type_function c ?y0 |- type_function _ _ => let u_type_function := get_type_function in exact (u_type_function c c' g K y0 H)
  | H : else_if_blocks c ?y0 |- else_if_blocks _ _ => let u_else_if_blocks := get_else_if_blocks in exact (u_else_if_blocks c c' g K y0 H)
  | H : else_if_block c ?y0 |- else_if_block _ _ => let u_else_if_block := get_else_if_block in exact (u_else_if_block c c' g K y0 H)
  end.
Ltac up c c' g K H := destruct H; try intros L; cbn [map_tokens map]; solve [econstructor; first [solve [up_side K]|up_rec c c' g K]].

(** ** The grammar *)
Fixpoint up_type c c' g (K : steady c c' g) (x0 : tree) (H : type c x0) {struct H} : has_luau c = true -> type c' (map_tokens g x0)
with up_plain_type c c' g (K : steady c c' g) (x0 : tree) (H : plain_type c x0) {struct H} : has_luau c = true -> plain_type c' (map_tokens g x0)
with up_member c c' g (K : steady c c' g) (x0 : tree) (H : member c x0) {struct H} : has_luau c = true -> member c' (map_tokens g x0)
with up_last_member c c' g (K : steady c c' g) (x0 : tree) (H : last_member c x0) {struct H} : has_luau c = true -> last_member c' (map_tokens g x0)
with up_simple_type c c' g (K : steady c c' g) (x0 : tree) (H : simple_type c x0) {struct H} : has_luau c = true -> simple_type c' (map_tokens g x0)
with up_function_type c c' g (K : steady c c' g) (x0 : tree) (H : function_type c x0) {struct H} : has_luau c = true -> function_type c' (map_tokens g x0)
with up_closed_type c c' g (K : steady c c' g) (x0 : tree) (H : closed_type c x0) {struct H} : has_luau c = true -> closed_type c' (map_tokens g x0)
with up_closed_result c c' g (K : steady c c' g) (x0 : tree) (H : closed_result c x0) {struct H} : has_luau c = true -> closed_result c' (map_tokens g x0)
with up_pack c c' g (K : steady c c' g) (x0 : tree) (H : pack c x0) {struct H} : has_luau c = true -> pack c' (map_tokens g x0)
with up_tuple c c' g (K : steady c c' g) (x0 : tree) (H : tuple c x0) {struct H} : has_luau c = true -> tuple c' (map_tokens g x0)
with up_types_then_pack c c' g (K : steady c c' g) (x0 : list tree) (H : types_then_pack c x0) {struct H} : has_luau c = true -> types_then_pack c' (map (map_tokens g) x0)
with up_types_then_pack1 c c' g (K : steady c c' g) (x0 : list tree) (H : types_then_pack1 c x0) {struct H} : has_luau c = true -> types_then_pack1 c' (map (map_tokens g) x0)
with up_result_type c c' g (K : steady c c' g) (x0 : tree) (H : result_type c x0) {struct H} : has_luau c = true -> result_type c' (map_tokens g x0)
with up_type_arguments c c' g (K : steady c c' g) (x0 : list tree) (H : type_arguments c x0) {struct H} : has_luau c = true -> type_arguments c' (map (map_tokens g) x0)
with up_function_arguments c c' g (K : steady c c' g) (x0 : list tree) (H : function_arguments c x0) {struct H} : has_luau c = true -> function_arguments c' (map (map_tokens g) x0)
with up_function_arguments1 c c' g (K : steady c c' g) (x0 : list tree) (H : function_arguments1 c x0) {struct H} : has_luau c = true -> function_arguments1 c' (map (map_tokens g) x0)
with up_type_field c c' g (K : steady c c' g) (x0 : tree) (H : type_field c x0) {struct H} : has_luau c = true -> type_field c' (map_tokens g x0)
with up_type_key c c' g (K : steady c c' g) (x0 : tree) (H : type_key c x0) {struct H} : has_luau c = true -> type_key c' (map_tokens g x0)
with up_generics c c' g (K : steady c c' g) (x0 : bool) (x1 : tree) (H : generics c x0 x1) {struct H} : has_luau c = true -> generics c' x0 (map_tokens g x1)
with up_generic_list c c' g (K : steady c c' g) (x0 : bool) (x1 : bool) (x2 : bool) (x3 : list tree) (H : generic_list c x0 x1 x2 x3) {struct H} : has_luau c = true -> generic_list c' x0 x1 x2 (map (map_tokens g) x3)
with up_generic c c' g (K : steady c c' g) (x0 : bool) (x1 : bool) (x2 : bool) (x3 : tree) (x4 : bool) (x5 : bool) (H : generic c x0 x1 x2 x3 x4 x5) {struct H} : has_luau c = true -> generic c' x0 x1 x2 (map_tokens g x3) x4 x5
with up_pack_tuple c c' g (K : steady c c' g) (x0 : tree) (H : pack_tuple c x0) {struct H} : has_luau c = true -> pack_tuple c' (map_tokens g x0)
with up_pack_member c c' g (K : steady c c' g) (x0 : tree) (H : pack_member c x0) {struct H} : has_luau c = true -> pack_member c' (map_tokens g x0)
with up_more_holes c c' g (K : steady c c' g) (x0 : list tree) (H : more_holes c x0) {struct H} : has_luau c = true -> more_holes c' (map (map_tokens g) x0)
with up_default_pack c c' g (K : steady c c' g) (x0 : tree) (H : default_pack c x0) {struct H} : has_luau c = true -> default_pack c' (map_tokens g x0)
with up_specifier c c' g (K : steady c c' g) (x0 : tree) (H : specifier c x0) {struct H} : specifier c' (map_tokens g x0)
with up_dots_specifier c c' g (K : steady c c' g) (x0 : tree) (H : dots_specifier c x0) {struct H} : has_luau c = true -> dots_specifier c' (map_tokens g x0)
with up_result_specifier c c' g (K : steady c c' g) (x0 : tree) (H : result_specifier c x0) {struct H} : result_specifier c' (map_tokens g x0)
with up_bound c c' g (K : steady c c' g) (x0 : tree) (x1 : tree) (H : bound c x0 x1) {struct H} : bound c' (map_tokens g x0) (map_tokens g x1)
with up_bound_type c c' g (K : steady c c' g) (x0 : tree) (x1 : tree) (H : bound_type c x0 x1) {struct H} : bound_type c' (map_tokens g x0) (map_tokens g x1)
with up_instantiation c c' g (K : steady c c' g) (x0 : tree) (H : instantiation c x0) {struct H} : instantiation c' (map_tokens g x0)
with up_expression c c' g (K : steady c c' g) (x0 : tree) (H : expression c x0) {struct H} : expression c' (map_tokens g x0)
with up_unit_expression c c' g (K : steady c c' g) (x0 : tree) (H : unit_expression c x0) {struct H} : unit_expression c' (map_tokens g x0)
with up_else_ifs c c' g (K : steady c c' g) (x0 : tree) (H : else_ifs c x0) {struct H} : else_ifs c' (map_tokens g x0)
with up_else_if c c' g (K : steady c c' g) (x0 : tree) (H : else_if c x0) {struct H} : else_if c' (map_tokens g x0)
with up_atom c c' g (K : steady c c' g) (x0 : tree) (H : atom c x0) {struct H} : atom c' (map_tokens g x0)
with up_holes c c' g (K : steady c c' g) (x0 : istr_kind) (x1 : list tree) (H : holes c x0 x1) {struct H} : has_luau c = true -> holes c' x0 (map (map_tokens g) x1)
with up_parenthesised c c' g (K : steady c c' g) (x0 : tree) (H : parenthesised c x0) {struct H} : parenthesised c' (map_tokens g x0)
with up_prefix_expression c c' g (K : steady c c' g) (x0 : tree) (H : prefix_expression c x0) {struct H} : prefix_expression c' (map_tokens g x0)
with up_suffix c c' g (K : steady c c' g) (x0 : tree) (H : suffix c x0) {struct H} : suffix c' (map_tokens g x0)
with up_arguments c c' g (K : steady c c' g) (x0 : tree) (H : arguments c x0) {struct H} : arguments c' (map_tokens g x0)
with up_expressions c c' g (K : steady c c' g) (x0 : list tree) (H : expressions c x0) {struct H} : expressions c' (map (map_tokens g) x0)
with up_table c c' g (K : steady c c' g) (x0 : tree) (H : table c x0) {struct H} : table c' (map_tokens g x0)
with up_field c c' g (K : steady c c' g) (x0 : tree) (H : field c x0) {struct H} : field c' (map_tokens g x0)
with up_attributes c c' g (K : steady c c' g) (x0 : list tree) (H : attributes c x0) {struct H} : attributes c' (map (map_tokens g) x0)
with up_attribute c c' g (K : steady c c' g) (x0 : tree) (H : attribute c x0) {struct H} : attribute c' (map_tokens g x0)
with up_body_generics c c' g (K : steady c c' g) (x0 : tree) (H : body_generics c x0) {struct H} : body_generics c' (map_tokens g x0)
with up_body_parameters c c' g (K : steady c c' g) (x0 : list tree) (x1 : list tree) (H : body_parameters c x0 x1) {struct H} : body_parameters c' (map (map_tokens g) x0) (map (map_tokens g) x1)
with up_function_body c c' g (K : steady c c' g) (x0 : tree) (H : function_body c x0) {struct H} : function_body c' (map_tokens g x0)
with up_variable c c' g (K : steady c c' g) (x0 : tree) (H : variable c x0) {struct H} : variable c' (map_tokens g x0)
with up_block c c' g (K : steady c c' g) (x0 : tree) (H : block c x0) {struct H} : block c' (map_tokens g x0)
with up_line c c' g (K : steady c c' g) (x0 : tree) (H : line c x0) {struct H} : line c' (map_tokens g x0)
with up_last_line c c' g (K : steady c c' g) (x0 : tree) (H : last_line c x0) {struct H} : last_line c' (map_tokens g x0)
with up_last_statement c c' g (K : steady c c' g) (x0 : tree) (H : last_statement c x0) {struct H} : last_statement c' (map_tokens g x0)
with up_statement c c' g (K : steady c c' g) (x0 : tree) (H : statement c x0) {struct H} : statement c' (map_tokens g x0)
with up_type_declaration c c' g (K : steady c c' g) (x0 : tree) (H : type_declaration c x0) {struct H} : type_declaration c' (map_tokens g x0)
with up_type_function c c' g (K : steady c c' g) (x0 : tree) (H : type_function c x0) {struct H} : type_function c' (map_tokens g x0)
with up_else_if_blocks c c' g (K : steady c c' g) (x0 : tree) (H : else_if_blocks c x0) {struct H} : else_if_blocks c' (map_tokens g x0)
with up_else_if_block c c' g (K : steady c c' g) (x0 : tree) (H : else_if_block c x0) {struct H} : else_if_block c' (map_tokens g x0).
Proof.
  - (* type *) up c c' g K H.
  - (* plain_type *) up c c' g K H.
  - (* member *) up c c' g K H.
  - (* last_member *) up c c' g K H.
  - (* simple_type *) up c c' g K H.
  - (* function_type *) up c c' g K H.
  - (* closed_type *) up c c' g K H.
  - (* closed_result *) up c c' g K H.
  - (* pack *) up c c' g K H.
  - (* tuple *) destruct H as [a b l A B T P]. intros L. cbn [map_tokens map]. constructor; [up_side K..| |]; [up_rec c c' g K|]. intros t' E. destruct (final_map g l t' E) as (t & E' & ->). exact (up_pack c c' g K t (P t E') L).
  - (* types_then_pack *) up c c' g K H.
  - (* types_then_pack1 *) up c c' g K H.
  - (* result_type *) up c c' g K H.
  - (* type_arguments *) up c c' g K H.
  - (* function_arguments *) up c c' g K H.
  - (* function_arguments1 *) up c c' g K H.
  - (* type_field *) up c c' g K H.
  - (* type_key *) up c c' g K H.
  - (* generics *) up c c' g K H.
  - (* generic_list *) up c c' g K H.
  - (* generic *) up c c' g K H.
  - (* pack_tuple *) up c c' g K H.
  - (* pack_member *) up c c' g K H.
  - (* more_holes *) up c c' g K H.
  - (* default_pack *) up c c' g K H.
  - (* specifier *) up c c' g K H.
  - (* dots_specifier *) up c c' g K H.
  - (* result_specifier *) up c c' g K H.
  - (* bound *) up c c' g K H.
  - (* bound_type *) up c c' g K H.
  - (* instantiation *) up c c' g K H.
  - (* expression *) up c c' g K H.
  - (* unit_expression *) up c c' g K H.
  - (* else_ifs *) up c c' g K H.
  - (* else_if *) up c c' g K H.
  - (* atom *) up c c' g K H.
  - (* holes *) up c c' g K H.
  - (* parenthesised *) up c c' g K H.
  - (* prefix_expression *) up c c' g K H.
  - (* suffix *) up c c' g K H.
  - (* arguments *) up c c' g K H.
  - (* expressions *) up c c' g K H.
  - (* table *) up c c' g K H.
  - (* field *) up c c' g K H.
  - (* attributes *) up c c' g K H.
  - (* attribute *) up c c' g K H.
  - (* body_generics *) up c c' g K H.
  - (* body_parameters *) up c c' g K H.
  - (* function_body *) up c c' g K H.
  - (* variable *) up c c' g K H.
  - (* block *) up c c' g K H.
  - (* line *) up c c' g K H.
  - (* last_line *) up c c' g K H.
  - (* last_statement *) up c c' g K H.
  - (* statement *) up c c' g K H.
  - (* type_declaration *) up c c' g K H.
  - (* type_function *) up c c' g K H.
  - (* else_if_blocks *) up c c' g K H.
  - (* else_if_block *) up c c' g K H.
Qed.
