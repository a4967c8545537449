(** Trees of the tree grammar nest their operators by precedence. *)
From Verif Require Import LexerSpec PunctuatedProofs TokenSpec.
From Verif Require Import TreeSpec GrammarSpec Round14.
From Verif Require Import RoundSpec.
From Coq Require Import Lia.
Local Open Scope nat_scope.
Import ListNotations.

Definition prec (t : tree) : Prop := every precedence_node t = true.
Lemma prec_nd k cs : precedence_node k cs = true -> Forall prec cs -> prec (Nd k cs).
Proof. intros H F. unfold prec. cbn [every]. rewrite H. cbn [andb]. apply forallb_forall. rewrite Forall_forall in F. exact F. Qed.
Lemma prec_con k cs : Forall prec cs -> prec (Con k cs).
Proof. intros F. unfold prec. cbn [every]. apply forallb_forall. rewrite Forall_forall in F. exact F. Qed.
Lemma prec_tok r : prec (Tok r).
Proof. reflexivity. Qed.
Lemma prec_binary l s o r : left_of (head_of l) s = true -> right_of (head_of r) s = true -> prec l -> prec r -> prec (Nd KExprBinary [l; Nd (KBinOp s) [Tok o]; r]).
Proof. intros A B L R. apply prec_nd; [cbn [precedence_node]; now rewrite A, B|]. repeat constructor; assumption. Qed.
Lemma prec_unary o e : under_unary (head_of e) = true -> prec o -> prec e -> prec (Nd KExprUnary [o; e]).
Proof. intros A O E. apply prec_nd; [exact A|]. repeat constructor; assumption. Qed.
Lemma prec_final t : prec t -> prec (final t).
Proof. intros H. apply prec_con. now repeat constructor. Qed.
Lemma prec_followed t d : prec t -> prec (followed t d).
Proof. intros H. apply prec_con. now repeat constructor. Qed.
Lemma prec_none : prec none.
Proof. reflexivity. Qed.
Lemma prec_some t : prec t -> prec (some t).
Proof. intros H. apply prec_con. now repeat constructor. Qed.
Definition optional_prec (P : tree -> Prop) (f : forall t, P t -> prec t) t (H : optional P t) : prec t :=
  match H in optional _ t return prec t with o_none _ => prec_none | o_some _ t p => prec_some t (f t p) end.
Definition several_prec (P : tree -> Prop) s (f : forall t, P t -> prec t) :=
  fix go l (H : several P s l) {struct H} : Forall prec l :=
  match H in several _ _ l return Forall prec l with
  | s_last _ _ t p => Forall_cons _ (prec_final t (f t p)) (Forall_nil _)
  | s_more _ _ t d l p _ m => Forall_cons _ (prec_followed t d (f t p)) (go l m)
  end.
Definition ending_prec (P Q : tree -> Prop) s (f : forall t, P t -> prec t) (f' : forall t, Q t -> prec t) :=
  fix go l (H : ending P Q s l) {struct H} : Forall prec l :=
  match H in ending _ _ _ l return Forall prec l with
  | en_last _ _ _ t p => Forall_cons _ (prec_final t (f' t p)) (Forall_nil _)
  | en_more _ _ _ t d l p _ m => Forall_cons _ (prec_followed t d (f t p)) (go l m)
  end.
Definition entries_prec (P : tree -> Prop) (f : forall t, P t -> prec t) :=
  fix go l (H : entries P l) {struct H} : Forall prec l :=
  match H in entries _ l return Forall prec l with
  | e_nil _ => Forall_nil _
  | e_last _ t p => Forall_cons _ (prec_final t (f t p)) (Forall_nil _)
  | e_more _ t d s l p _ _ m => Forall_cons _ (prec_followed t d (f t p)) (go l m)
  end.
Definition bindings_prec (P : tree -> tree -> Prop) (f : forall a t, P a t -> prec a /\ prec t) :=
  fix go l as_ ts (H : bindings P l as_ ts) {struct H} : Forall prec l /\ Forall prec as_ /\ Forall prec ts :=
  match H in bindings _ l as_ ts return Forall prec l /\ Forall prec as_ /\ Forall prec ts with
  | b_last _ n a t _ p => conj (Forall_cons _ (prec_final _ (prec_tok n)) (Forall_nil _)) (conj (Forall_cons _ (proj1 (f a t p)) (Forall_nil _)) (Forall_cons _ (proj2 (f a t p)) (Forall_nil _)))
  | b_more _ n d a t l as_ ts _ _ p m => conj (Forall_cons _ (prec_followed _ d (prec_tok n)) (proj1 (go l as_ ts m)))
      (conj (Forall_cons _ (proj1 (f a t p)) (proj1 (proj2 (go l as_ ts m)))) (Forall_cons _ (proj2 (f a t p)) (proj2 (proj2 (go l as_ ts m)))))
  end.
Lemma prec_param k r : k = KParamName \/ k = KParamEllipsis -> prec (Nd k [Tok r]).
Proof. intros [-> | ->]; reflexivity. Qed.
Definition parameters_prec (P E : tree -> Prop) e (f : forall t, P t -> prec t) (f' : forall t, E t -> prec t) :=
  fix go l ts (H : parameters P E e l ts) {struct H} : Forall prec l /\ Forall prec ts :=
  match H in parameters _ _ _ l ts return Forall prec l /\ Forall prec ts with
  | p_last _ _ _ n t _ p => conj (Forall_cons _ (prec_final _ (prec_param KParamName n (or_introl eq_refl))) (Forall_nil _)) (Forall_cons _ (f t p) (Forall_nil _))
  | p_dots _ _ _ d t _ _ p => conj (Forall_cons _ (prec_final _ (prec_param KParamEllipsis d (or_intror eq_refl))) (Forall_nil _)) (Forall_cons _ (f' t p) (Forall_nil _))
  | p_plain _ _ _ d _ _ => conj (Forall_cons _ (prec_final _ (prec_param KParamEllipsis d (or_intror eq_refl))) (Forall_nil _)) (Forall_nil _)
  | p_more _ _ _ n d t l ts _ _ p m => conj (Forall_cons _ (prec_followed _ d (prec_param KParamName n (or_introl eq_refl))) (proj1 (go l ts m))) (Forall_cons _ (f t p) (proj2 (go l ts m)))
  end.
Definition forall_prec (P : tree -> Prop) (f : forall t, P t -> prec t) :=
  fix go l (H : Forall P l) {struct H} : Forall prec l :=
  match H in Forall _ l return Forall prec l with
  | Forall_nil _ => Forall_nil _
  | @Forall_cons _ _ t l p m => Forall_cons _ (f t p) (go l m)
  end.
Lemma prec_semicolon t : semicolon t -> prec t.
Proof. now intros []. Qed.
Lemma prec_argument_name t : argument_name t -> prec t.
Proof. now intros []. Qed.
Lemma prec_access t : field_access t -> prec t.
Proof. now intros []. Qed.
Lemma prec_function_name t : function_name t -> prec t.
Proof.
  assert (N : forall t, (exists r, t = Tok r /\ nm r) -> prec t) by (intros x (r & -> & _); reflexivity).
  intros [l S|l d n S D M]; (apply prec_nd; [reflexivity|]); repeat (apply Forall_cons || apply Forall_nil); try reflexivity; apply prec_con; exact (several_prec _ _ N l S).
Qed.

Ltac get_type := match goal with f : forall c (x0 : tree), type c x0 -> prec x0 |- _ => f end.
Ltac get_plain_type := match goal with f : forall c (x0 : tree), plain_type c x0 -> prec x0 |- _ => f end.
Ltac get_member := match goal with f : forall c (x0 : tree), member c x0 -> prec x0 |- _ => f end.
Ltac get_last_member := match goal with f : forall c (x0 : tree), last_member c x0 -> prec x0 |- _ => f end.
Ltac get_simple_type := match goal with f : forall c (x0 : tree), simple_type c x0 -> prec x0 |- _ => f end.
Ltac get_function_type := match goal with f : forall c (x0 : tree), function_type c x0 -> prec x0 |- _ => f end.
Ltac get_closed_type := match goal with f : forall c (x0 : tree), closed_type c x0 -> prec x0 |- _ => f end.
Ltac get_closed_result := match goal with f : forall c (x0 : tree), closed_result c x0 -> prec x0 |- _ => f end.
Ltac get_pack := match goal with f : forall c (x0 : tree), pack c x0 -> prec x0 |- _ => f end.
Ltac get_tuple := match goal with f : forall c (x0 : tree), tuple c x0 -> prec x0 |- _ => f end.
Ltac get_types_then_pack := match goal with f : forall c (x0 : list tree), types_then_pack c x0 -> Forall prec x0 |- _ => f end.
Ltac get_types_then_pack1 := match goal with f : forall c (x0 : list tree), types_then_pack1 c x0 -> Forall prec x0 |- _ => f end.
Ltac get_result_type := match goal with f : forall c (x0 : tree), result_type c x0 -> prec x0 |- _ => f end.
Ltac get_type_arguments := match goal with f : forall c (x0 : list tree), type_arguments c x0 -> Forall prec x0 |- _ => f end.
Ltac get_function_arguments := match goal with f : forall c (x0 : list tree), function_arguments c x0 -> Forall prec x0 |- _ => f end.
Ltac get_function_arguments1 := match goal with f : forall c (x0 : list tree), function_arguments1 c x0 -> Forall prec x0 |- _ => f end.
Ltac get_type_field := match goal with f : forall c (x0 : tree), type_field c x0 -> prec x0 |- _ => f end.
Ltac get_type_key := match goal with f : forall c (x0 : tree), type_key c x0 -> prec x0 |- _ => f end.
Ltac get_generics := match goal with f : forall c (x0 : bool) (x1 : tree), generics c x0 x1 -> prec x1 |- _ => f end.
Ltac get_generic_list := match goal with f : forall c (x0 : bool) (x1 : bool) (x2 : bool) (x3 : list tree), generic_list c x0 x1 x2 x3 -> Forall prec x3 |- _ => f end.
Ltac get_generic := match goal with f : forall c (x0 : bool) (x1 : bool) (x2 : bool) (x3 : tree) (x4 : bool) (x5 : bool), generic c x0 x1 x2 x3 x4 x5 -> prec x3 |- _ => f end.
Ltac get_pack_tuple := match goal with f : forall c (x0 : tree), pack_tuple c x0 -> prec x0 |- _ => f end.
Ltac get_pack_member := match goal with f : forall c (x0 : tree), pack_member c x0 -> prec x0 |- _ => f end.
Ltac get_more_holes := match goal with f : forall c (x0 : list tree), more_holes c x0 -> Forall prec x0 |- _ => f end.
Ltac get_default_pack := match goal with f : forall c (x0 : tree), default_pack c x0 -> prec x0 |- _ => f end.
Ltac get_specifier := match goal with f : forall c (x0 : tree), specifier c x0 -> prec x0 |- _ => f end.
Ltac get_dots_specifier := match goal with f : forall c (x0 : tree), dots_specifier c x0 -> prec x0 |- _ => f end.
Ltac get_result_specifier := match goal with f : forall c (x0 : tree), result_specifier c x0 -> prec x0 |- _ => f end.
Ltac get_bound := match goal with f : forall c (x0 : tree) (x1 : tree), bound c x0 x1 -> prec x0 /\ prec x1 |- _ => f end.
Ltac get_bound_type := match goal with f : forall c (x0 : tree) (x1 : tree), bound_type c x0 x1 -> prec x0 /\ prec x1 |- _ => f end.
Ltac get_instantiation := match goal with f : forall c (x0 : tree), instantiation c x0 -> prec x0 |- _ => f end.
Ltac get_expression := match goal with f : forall c (x0 : tree), expression c x0 -> prec x0 |- _ => f end.
Ltac get_unit_expression := match goal with f : forall c (x0 : tree), unit_expression c x0 -> prec x0 |- _ => f end.
Ltac get_else_ifs := match goal with f : forall c (x0 : tree), else_ifs c x0 -> prec x0 |- _ => f end.
Ltac get_else_if := match goal with f : forall c (x0 : tree), else_if c x0 -> prec x0 |- _ => f end.
Ltac get_atom := match goal with f : forall c (x0 : tree), atom c x0 -> prec x0 |- _ => f end.
Ltac get_holes := match goal with f : forall c (x0 : istr_kind) (x1 : list tree), holes c x0 x1 -> Forall prec x1 |- _ => f end.
Ltac get_parenthesised := match goal with f : forall c (x0 : tree), parenthesised c x0 -> prec x0 |- _ => f end.
Ltac get_prefix_expression := match goal with f : forall c (x0 : tree), prefix_expression c x0 -> prec x0 |- _ => f end.
Ltac get_suffix := match goal with f : forall c (x0 : tree), suffix c x0 -> prec x0 |- _ => f end.
Ltac get_arguments := match goal with f : forall c (x0 : tree), arguments c x0 -> prec x0 |- _ => f end.
Ltac get_expressions := match goal with f : forall c (x0 : list tree), expressions c x0 -> Forall prec x0 |- _ => f end.
Ltac get_table := match goal with f : forall c (x0 : tree), table c x0 -> prec x0 |- _ => f end.
Ltac get_field := match goal with f : forall c (x0 : tree), field c x0 -> prec x0 |- _ => f end.
Ltac get_attributes := match goal with f : forall c (x0 : list tree), attributes c x0 -> Forall prec x0 |- _ => f end.
Ltac get_attribute := match goal with f : forall c (x0 : tree), attribute c x0 -> prec x0 |- _ => f end.
Ltac get_body_generics := match goal with f : forall c (x0 : tree), body_generics c x0 -> prec x0 |- _ => f end.
Ltac get_body_parameters := match goal with f : forall c (x0 : list tree) (x1 : list tree), body_parameters c x0 x1 -> Forall prec x0 /\ Forall prec x1 |- _ => f end.
Ltac get_function_body := match goal with f : forall c (x0 : tree), function_body c x0 -> prec x0 |- _ => f end.
Ltac get_variable := match goal with f : forall c (x0 : tree), variable c x0 -> prec x0 |- _ => f end.
Ltac get_block := match goal with f : forall c (x0 : tree), block c x0 -> prec x0 |- _ => f end.
Ltac get_line := match goal with f : forall c (x0 : tree), line c x0 -> prec x0 |- _ => f end.
Ltac get_last_line := match goal with f : forall c (x0 : tree), last_line c x0 -> prec x0 |- _ => f end.
Ltac get_last_statement := match goal with f : forall c (x0 : tree), last_statement c x0 -> prec x0 |- _ => f end.
Ltac get_statement := match goal with f : forall c (x0 : tree), statement c x0 -> prec x0 |- _ => f end.
Ltac get_type_declaration := match goal with f : forall c (x0 : tree), type_declaration c x0 -> prec x0 |- _ => f end.
Ltac get_type_function := match goal with f : forall c (x0 : tree), type_function c x0 -> prec x0 |- _ => f end.
Ltac get_else_if_blocks := match goal with f : forall c (x0 : tree), else_if_blocks c x0 -> prec x0 |- _ => f end.
Ltac get_else_if_block := match goal with f : forall c (x0 : tree), else_if_block c x0 -> prec x0 |- _ => f end.
Ltac pr_rec c :=
  match goal with
  | H : optional (specifier c) ?t |- prec ?t => let u := get_specifier in exact (optional_prec (specifier c) (u c) t H)
  | H : optional (result_specifier c) ?t |- prec ?t => let u := get_result_specifier in exact (optional_prec (result_specifier c) (u c) t H)
  | H : optional (instantiation c) ?t |- prec ?t => let u := get_instantiation in exact (optional_prec (instantiation c) (u c) t H)
  | H : optional (last_line c) ?t |- prec ?t => let u := get_last_line in exact (optional_prec (last_line c) (u c) t H)
  | H : optional (generics c ?b) ?t |- prec ?t => let u := get_generics in exact (optional_prec (generics c b) (u c b) t H)
  | H : optional semicolon ?t |- prec ?t => exact (optional_prec semicolon prec_semicolon t H)
  | H : argument_name ?t |- prec ?t => exact (prec_argument_name t H)
  | H : field_access ?t |- prec ?t => exact (prec_access t H)
  | H : function_name ?t |- prec ?t => exact (prec_function_name t H)
  | H : several (expression c) ?s ?l |- Forall prec ?l => let u := get_expression in exact (several_prec (expression c) s (u c) l H)
  | H : several (variable c) ?s ?l |- Forall prec ?l => let u := get_variable in exact (several_prec (variable c) s (u c) l H)
  | H : several (result_type c) ?s ?l |- Forall prec ?l => let u := get_result_type in exact (several_prec (result_type c) s (u c) l H)
  | H : ending (member c) (last_member c) ?s ?l |- Forall prec ?l => let u := get_member in let v := get_last_member in exact (ending_prec (member c) (last_member c) s (u c) (v c) l H)
  | H : ending (closed_type c) (simple_type c) ?s ?l |- Forall prec ?l => let u := get_closed_type in let v := get_simple_type in exact (ending_prec (closed_type c) (simple_type c) s (u c) (v c) l H)
  | H : entries (type_field c) ?l |- Forall prec ?l => let u := get_type_field in exact (entries_prec (type_field c) (u c) l H)
  | H : entries (field c) ?l |- Forall prec ?l => let u := get_field in exact (entries_prec (field c) (u c) l H)
  | H : bindings (bound c) ?l ?n ?t |- Forall prec ?l => let u := get_bound in exact (proj1 (bindings_prec (bound c) (u c) l n t H))
  | H : bindings (bound c) ?l ?n ?t |- Forall prec ?n => let u := get_bound in exact (proj1 (proj2 (bindings_prec (bound c) (u c) l n t H)))
  | H : bindings (bound c) ?l ?n ?t |- Forall prec ?t => let u := get_bound in exact (proj2 (proj2 (bindings_prec (bound c) (u c) l n t H)))
  | H : bindings (bound_type c) ?l ?n ?t |- Forall prec ?l => let u := get_bound_type in exact (proj1 (bindings_prec (bound_type c) (u c) l n t H))
  | H : bindings (bound_type c) ?l ?n ?t |- Forall prec ?n => let u := get_bound_type in exact (proj1 (proj2 (bindings_prec (bound_type c) (u c) l n t H)))
  | H : bindings (bound_type c) ?l ?n ?t |- Forall prec ?t => let u := get_bound_type in exact (proj2 (proj2 (bindings_prec (bound_type c) (u c) l n t H)))
  | H : Forall (else_if c) ?l |- Forall prec ?l => let u := get_else_if in exact (forall_prec (else_if c) (u c) l H)
  | H : Forall (attribute c) ?l |- Forall prec ?l => let u := get_attribute in exact (forall_prec (attribute c) (u c) l H)
  | H : Forall (suffix c) ?l |- Forall prec ?l => let u := get_suffix in exact (forall_prec (suffix c) (u c) l H)
  | H : Forall (line c) ?l |- Forall prec ?l => let u := get_line in exact (forall_prec (line c) (u c) l H)
  | H : Forall (else_if_block c) ?l |- Forall prec ?l => let u := get_else_if_block in exact (forall_prec (else_if_block c) (u c) l H)
  | H : parameters _ _ ?e ?l ?ts |- Forall prec ?l => let u := get_specifier in let v := get_dots_specifier in exact (proj1 (parameters_prec (optional (specifier c)) (optional (dots_specifier c)) e (optional_prec (specifier c) (u c)) (optional_prec (dots_specifier c) (v c)) l ts H))
  | H : parameters _ _ ?e ?l ?ts |- Forall prec ?ts => let u := get_specifier in let v := get_dots_specifier in exact (proj2 (parameters_prec (optional (specifier c)) (optional (dots_specifier c)) e (optional_prec (specifier c) (u c)) (optional_prec (dots_specifier c) (v c)) l ts H))
  | H : type c ?y0 |- prec ?y0 => let u := get_type in exact (u c y0 H)
  | H : plain_type c ?y0 |- prec ?y0 => let u := get_plain_type in exact (u c y0 H)
  | H : member c ?y0 |- prec ?y0 => let u := get_member in exact (u c y0 H)
  | H : last_member c ?y0 |- prec ?y0 => let u := get_last_member in exact (u c y0 H)
  | H : simple_type c ?y0 |- prec ?y0 => let u := get_simple_type in exact (u c y0 H)
  | H : function_type c ?y0 |- prec ?y0 => let u := get_function_type in exact (u c y0 H)
  | H : closed_type c ?y0 |- prec ?y0 => let u := get_closed_type in exact (u c y0 H)
  | H : closed_result c ?y0 |- prec ?y0 => let u := get_closed_result in exact (u c y0 H)
  | H : pack c ?y0 |- prec ?y0 => let u := get_pack in exact (u c y0 H)
  | H : tuple c ?y0 |- prec ?y0 => let u := get_tuple in exact (u c y0 H)
  | H : types_then_pack c ?y0 |- Forall prec ?y0 => let u := get_types_then_pack in exact (u c y0 H)
  | H : types_then_pack1 c ?y0 |- Forall prec ?y0 => let u := get_types_then_pack1 in exact (u c y0 H)
  | H : result_type c ?y0 |- prec ?y0 => let u := get_result_type in exact (u c y0 H)
  | H : type_arguments c ?y0 |- Forall prec ?y0 => let u := get_type_arguments in exact (u c y0 H)
  | H : function_arguments c ?y0 |- Forall prec ?y0 => let u := get_function_arguments in exact (u c y0 H)
  | H : function_arguments1 c ?y0 |- Forall prec ?y0 => let u := get_function_arguments1 in exact (u c y0 H)
  | H : type_field c ?y0 |- prec ?y0 => let u := get_type_field in exact (u c y0 H)
  | H : type_key c ?y0 |- prec ?y0 => let u := get_type_key in exact (u c y0 H)
  | H : generics c ?y0 ?y1 |- prec ?y1 => let u := get_generics in exact (u c y0 y1 H)
  | H : generic_list c ?y0 ?y1 ?y2 ?y3 |- Forall prec ?y3 => let u := get_generic_list in exact (u c y0 y1 y2 y3 H)
  | H : generic c ?y0 ?y1 ?y2 ?y3 ?y4 ?y5 |- prec ?y3 => let u := get_generic in exact (u c y0 y1 y2 y3 y4 y5 H)
  | H : pack_tuple c ?y0 |- prec ?y0 => let u := get_pack_tuple in exact (u c y0 H)
  | H : pack_member c ?y0 |- prec ?y0 => let u := get_pack_member in exact (u c y0 H)
  | H : more_holes c ?y0 |- Forall prec ?y0 => let u := get_more_holes in exact (u c y0 H)
  | H : default_pack c ?y0 |- prec ?y0 => let u := get_default_pack in exact (u c y0 H)
  | H : specifier c ?y0 |- prec ?y0 => let u := get_specifier in exact (u c y0 H)
  | H : dots_specifier c ?y0 |- prec ?y0 => let u := get_dots_specifier in exact (u c y0 H)
  | H : result_specifier c ?y0 |- prec ?y0 => let u := get_result_specifier in exact (u c y0 H)
  | H : bound c ?y0 ?y1 |- prec ?y0 => let u := get_bound in exact (proj1 (u c y0 y1 H))
  | H : bound c ?y0 ?y1 |- prec ?y1 => let u := get_bound in exact (proj2 (u c y0 y1 H))
  | H : bound_type c ?y0 ?y1 |- prec ?y0 => let u := get_bound_type in exact (proj1 (u c y0 y1 H))
  | H : bound_type c ?y0 ?y1 |- prec ?y1 => let u := get_bound_type in exact (proj2 (u c y0 y1 H))
  | H : instantiation c ?y0 |- prec ?y0 => let u := get_instantiation in exact (u c y0 H)
  | H : expression c ?y0 |- prec ?y0 => let u := get_expression in exact (u c y0 H)
  | H : unit_expression c ?y0 |- prec ?y0 => let u := get_unit_expression in exact (u c y0 H)
  | H : else_ifs c ?y0 |- prec ?y0 => let u := get_else_ifs in exact (u c y0 H)
  | H : else_if c ?y0 |- prec ?y0 => let u := get_else_if in exact (u c y0 H)
  | H : atom c ?y0 |- prec ?y0 => let u := get_atom in exact (u c y0 H)
  | H : holes c ?y0 ?y1 |- Forall prec ?y1 => let u := get_holes in exact (u c y0 y1 H)
  | H : parenthesised c ?y0 |- prec ?y0 => let u := get_parenthesised in exact (u c y0 H)
  | H : prefix_expression c ?y0 |- prec ?y0 => let u := get_prefix_expression in exact (u c y0 H)
  | H : suffix c ?y0 |- prec ?y0 => let u := get_suffix in exact (u c y0 H)
  | H : arguments c ?y0 |- prec ?y0 => let u := get_arguments in exact (u c y0 H)
  | H : expressions c ?y0 |- Forall prec ?y0 => let u := get_expressions in exact (u c y0 H)
  | H : table c ?y0 |- prec ?y0 => let u := get_table in exact (u c y0 H)
  | H : field c ?y0 |- prec ?y0 => let u := get_field in exact (u c y0 H)
  | H : attributes c ?y0 |- Forall prec ?y0 => let u := get_attributes in exact (u c y0 H)
  | H : attribute c ?y0 |- prec ?y0 => let u := get_attribute in exact (u c y0 H)
  | H : body_generics c ?y0 |- prec ?y0 => let u := get_body_generics in exact (u c y0 H)
  | H : body_parameters c ?y0 ?y1 |- Forall prec ?y0 => let u := get_body_parameters in exact (proj1 (u c y0 y1 H))
  | H : body_parameters c ?y0 ?y1 |- Forall prec ?y1 => let u := get_body_parameters in exact (proj2 (u c y0 y1 H))
  | H : function_body c ?y0 |- prec ?y0 => let u := get_function_body in exact (u c y0 H)
  | H : variable c ?y0 |- prec ?y0 => let u := get_variable in exact (u c y0 H)
  | H : block c ?y0 |- prec ?y0 => let u := get_block in exact (u c y0 H)
  | H : line c ?y0 |- prec ?y0 => let u := get_line in exact (u c y0 H)
  | H : last_line c ?y0 |- prec ?y0 => let u := get_last_line in exact (u c y0 H)
  | H : last_statement c ?y0 |- prec ?y0 => let u := get_last_statement in exact (u c y0 H)
  | H : statement c ?y0 |- prec ?y0 => let u := get_statement in exact (u c y0 H)
  | H : type_declaration c ?y0 |- prec ?y0 => let u := get_type_declaration in exact (u c y0 H)
  | H : type_function c ?y0 |- prec ?y0 => let u := get_type_function in exact (u c y0 H)
  | H : else_if_blocks c ?y0 |- prec ?y0 => let u := get_else_if_blocks in exact (u c y0 H)
  | H : else_if_block c ?y0 |- prec ?y0 => let u := get_else_if_block in exact (u c y0 H)
  end.
Ltac pr c :=
  lazymatch goal with
  | |- _ /\ _ => split; pr c
  | |- prec (Tok _) => reflexivity
  | |- prec (Nd KExprBinary _) => apply prec_binary; [assumption|assumption|pr c|pr c]
  | |- prec (Nd KExprUnary _) => apply prec_unary; [assumption|pr c|pr c]
  | |- prec (Nd _ _) => apply prec_nd; [reflexivity|pr c]
  | |- prec (Con _ _) => apply prec_con; pr c
  | |- Forall prec [] => apply Forall_nil
  | |- Forall prec (_ :: _) => first [pr_rec c|apply Forall_cons; pr c]
  | |- _ => pr_rec c
  end.
Fixpoint pr_type c (x0 : tree) (H : type c x0) {struct H} : prec x0
with pr_plain_type c (x0 : tree) (H : plain_type c x0) {struct H} : prec x0
with pr_member c (x0 : tree) (H : member c x0) {struct H} : prec x0
with pr_last_member c (x0 : tree) (H : last_member c x0) {struct H} : prec x0
with pr_simple_type c (x0 : tree) (H : simple_type c x0) {struct H} : prec x0
with pr_function_type c (x0 : tree) (H : function_type c x0) {struct H} : prec x0
with pr_closed_type c (x0 : tree) (H : closed_type c x0) {struct H} : prec x0
with pr_closed_result c (x0 : tree) (H : closed_result c x0) {struct H} : prec x0
with pr_pack c (x0 : tree) (H : pack c x0) {struct H} : prec x0
with pr_tuple c (x0 : tree) (H : tuple c x0) {struct H} : prec x0
with pr_types_then_pack c (x0 : list tree) (H : types_then_pack c x0) {struct H} : Forall prec x0
with pr_types_then_pack1 c (x0 : list tree) (H : types_then_pack1 c x0) {struct H} : Forall prec x0
with pr_result_type c (x0 : tree) (H : result_type c x0) {struct H} : prec x0
with pr_type_arguments c (x0 : list tree) (H : type_arguments c x0) {struct H} : Forall prec x0
with pr_function_arguments c (x0 : list tree) (H : function_arguments c x0) {struct H} : Forall prec x0
with pr_function_arguments1 c (x0 : list tree) (H : function_arguments1 c x0) {struct H} : Forall prec x0
with pr_type_field c (x0 : tree) (H : type_field c x0) {struct H} : prec x0
with pr_type_key c (x0 : tree) (H : type_key c x0) {struct H} : prec x0
with pr_generics c (x0 : bool) (x1 : tree) (H : generics c x0 x1) {struct H} : prec x1
with pr_generic_list c (x0 : bool) (x1 : bool) (x2 : bool) (x3 : list tree) (H : generic_list c x0 x1 x2 x3) {struct H} : Forall prec x3
with pr_generic c (x0 : bool) (x1 : bool) (x2 : bool) (x3 : tree) (x4 : bool) (x5 : bool) (H : generic c x0 x1 x2 x3 x4 x5) {struct H} : prec x3
with pr_pack_tuple c (x0 : tree) (H : pack_tuple c x0) {struct H} : prec x0
with pr_pack_member c (x0 : tree) (H : pack_member c x0) {struct H} : prec x0
with pr_more_holes c (x0 : list tree) (H : more_holes c x0) {struct H} : Forall prec x0
with pr_default_pack c (x0 : tree) (H : default_pack c x0) {struct H} : prec x0
with pr_specifier c (x0 : tree) (H : specifier c x0) {struct H} : prec x0
with pr_dots_specifier c (x0 : tree) (H : dots_specifier c x0) {struct H} : prec x0
with pr_result_specifier c (x0 : tree) (H : result_specifier c x0) {struct H} : prec x0
with pr_bound c (x0 : tree) (x1 : tree) (H : bound c x0 x1) {struct H} : prec x0 /\ prec x1
with pr_bound_type c (x0 : tree) (x1 : tree) (H : bound_type c x0 x1) {struct H} : prec x0 /\ prec x1
with pr_instantiation c (x0 : tree) (H : instantiation c x0) {struct H} : prec x0
with pr_expression c (x0 : tree) (H : expression c x0) {struct H} : prec x0
with pr_unit_expression c (x0 : tree) (H : unit_expression c x0) {struct H} : prec x0
with pr_else_ifs c (x0 : tree) (H : else_ifs c x0) {struct H} : prec x0
with pr_else_if c (x0 : tree) (H : else_if c x0) {struct H} : prec x0
with pr_atom c (x0 : tree) (H : atom c x0) {struct H} : prec x0
with pr_holes c (x0 : istr_kind) (x1 : list tree) (H : holes c x0 x1) {struct H} : Forall prec x1
with pr_parenthesised c (x0 : tree) (H : parenthesised c x0) {struct H} : prec x0
with pr_prefix_expression c (x0 : tree) (H : prefix_expression c x0) {struct H} : prec x0
with pr_suffix c (x0 : tree) (H : suffix c x0) {struct H} : prec x0
with pr_arguments c (x0 : tree) (H : arguments c x0) {struct H} : prec x0
with pr_expressions c (x0 : list tree) (H : expressions c x0) {struct H} : Forall prec x0
with pr_table c (x0 : tree) (H : table c x0) {struct H} : prec x0
with pr_field c (x0 : tree) (H : field c x0) {struct H} : prec x0
with pr_attributes c (x0 : list tree) (H : attributes c x0) {struct H} : Forall prec x0
with pr_attribute c (x0 : tree) (H : attribute c x0) {struct H} : prec x0
with pr_body_generics c (x0 : tree) (H : body_generics c x0) {struct H} : prec x0
with pr_body_parameters c (x0 : list tree) (x1 : list tree) (H : body_parameters c x0 x1) {struct H} : Forall prec x0 /\ Forall prec x1
with pr_function_body c (x0 : tree) (H : function_body c x0) {struct H} : prec x0
with pr_variable c (x0 : tree) (H : variable c x0) {struct H} : prec x0
with pr_block c (x0 : tree) (H : block c x0) {struct H} : prec x0
with pr_line c (x0 : tree) (H : line c x0) {struct H} : prec x0
with pr_last_line c (x0 : tree) (H : last_line c x0) {struct H} : prec x0
with pr_last_statement c (x0 : tree) (H : last_statement c x0) {struct H} : prec x0
with pr_statement c (x0 : tree) (H : statement c x0) {struct H} : prec x0
with pr_type_declaration c (x0 : tree) (H : type_declaration c x0) {struct H} : prec x0
with pr_type_function c (x0 : tree) (H : type_function c x0) {struct H} : prec x0
with pr_else_if_blocks c (x0 : tree) (H : else_if_blocks c x0) {struct H} : prec x0
with pr_else_if_block c (x0 : tree) (H : else_if_block c x0) {struct H} : prec x0.
Proof.
  - (* type *) destruct H; pr c.
  - (* plain_type *) destruct H; pr c.
  - (* member *) destruct H; pr c.
  - (* last_member *) destruct H; pr c.
  - (* simple_type *) destruct H; pr c.
  - (* function_type *) destruct H; pr c.
  - (* closed_type *) destruct H; pr c.
  - (* closed_result *) destruct H; pr c.
  - (* pack *) destruct H; pr c.
  - (* tuple *) destruct H; pr c.
  - (* types_then_pack *) destruct H; pr c.
  - (* types_then_pack1 *) destruct H; pr c.
  - (* result_type *) destruct H; pr c.
  - (* type_arguments *) destruct H; pr c.
  - (* function_arguments *) destruct H; pr c.
  - (* function_arguments1 *) destruct H; pr c.
  - (* type_field *) destruct H; pr c.
  - (* type_key *) destruct H; pr c.
  - (* generics *) destruct H; pr c.
  - (* generic_list *) destruct H; pr c.
  - (* generic *) destruct H; pr c.
  - (* pack_tuple *) destruct H; pr c.
  - (* pack_member *) destruct H; pr c.
  - (* more_holes *) destruct H; pr c.
  - (* default_pack *) destruct H; pr c.
  - (* specifier *) destruct H; pr c.
  - (* dots_specifier *) destruct H; pr c.
  - (* result_specifier *) destruct H; pr c.
  - (* bound *) destruct H; pr c.
  - (* bound_type *) destruct H; pr c.
  - (* instantiation *) destruct H; pr c.
  - (* expression *) destruct H; pr c.
  - (* unit_expression *) destruct H; pr c.
  - (* else_ifs *) destruct H; pr c.
  - (* else_if *) destruct H; pr c.
  - (* atom *) destruct H; pr c.
  - (* holes *) destruct H; pr c.
  - (* parenthesised *) destruct H; pr c.
  - (* prefix_expression *) destruct H; pr c.
  - (* suffix *) destruct H; pr c.
  - (* arguments *) destruct H; pr c.
  - (* expressions *) destruct H; pr c.
  - (* table *) destruct H; pr c.
  - (* field *) destruct H; pr c.
  - (* attributes *) destruct H; pr c.
  - (* attribute *) destruct H; pr c.
  - (* body_generics *) destruct H; pr c.
  - (* body_parameters *) destruct H; pr c.
  - (* function_body *) destruct H; pr c.
  - (* variable *) destruct H; pr c.
  - (* block *) destruct H; pr c.
  - (* line *) destruct H; pr c.
  - (* last_line *) destruct H; pr c.
  - (* last_statement *) destruct H; pr c.
  - (* statement *) destruct H; pr c.
  - (* type_declaration *) destruct H; pr c.
  - (* type_function *) destruct H; pr c.
  - (* else_if_blocks *) destruct H; pr c.
  - (* else_if_block *) destruct H; pr c.
Qed.
