(** More constructors of Luau, and local assignments with attributes and types (C60). Proof file. *)
From Verif Require Export Construct7.
From Verif Require Import Lexer LexerSpec TokenSpec TokenProofs TokenTheorems Scan5 Scan6 PunctuatedProofs Reprint2.
From Verif Require Import TreeFacts PrintProofs Round13.
From Verif Require Import RoundSpec ScanSpec Construct Construct2 Construct3 Construct4 ConstructSpec2.
From Coq Require Import Lia.
Local Open Scope nat_scope.
Import ListNotations.

(** ** Calls of methods *)
Lemma arguments_stand c f es d : basic_token f (str ", ") = Done (Tok d) -> Forall (stands c soft (expression c)) es ->
  exists a, function_args_empty f = Done a /\ stands c anything (arguments c) (with_field 1 (listing (join d es)) a) /\ starts_soft (display (with_field 1 (listing (join d es)) a)).
Proof.
  intros Ed H. use_comma Ed. unfold function_args_empty, make, each, span_new, each. repeat literal. eexists. split; [reflexivity|]. cbn [with_field replace no_pairs].
  assert (V : stands c soft (fun x => exists l, x = listing l /\ expressions c l) (listing (join (tk (str ", ")) es))).
  { destruct es as [|e es].
    - apply stands_intro; [|apply ok_nil]. eexists. split; [exists []; split; [reflexivity|constructor]|]. split; [apply filled_refl|reflexivity].
    - eapply stands_sort; [|apply comma_values; [easy|exact H]]. intros x (l & -> & S). exists l. split; [reflexivity|now constructor]. }
  parts V. destruct P as (l & -> & Pl). split; [apply stands_intro|].
  - eexists. split; [|split; [fills|]]; [apply ar_parentheses; [tok_sy|tok_sy|exact Pl]|]. rewrite printed_con in Q. rewrite printed_con in Q. prints. now rewrite Q.
  - rewrite printed_con in O. prints. chain.
  - unfold display. prints. starts.
Qed.
Lemma method_call_stands c f p n es d : basic_token f (str ", ") = Done (Tok d) -> stands c (next_in [58%N]) (prefix_expression c) p -> bare_name c n -> Forall (stands c soft (expression c)) es ->
  exists a m t, function_args_empty f = Done a /\ method_call_new f n (with_field 1 (listing (join d es)) a) = Done m /\ function_call_new f p = Done t /\
    stands c anything (fun x => statement c (Nd KStmtFunctionCall [x]) /\ expression c (Nd KExprFunctionCall [x])) (with_field 1 (vector [Nd KSuffixCall [Nd KCallMethod [m]]]) t).
Proof.
  intros Ed Hp N H. destruct (arguments_stand c f es d Ed H) as (a & Ea & Sa & Ta). destruct (method_stands c anything f n _ N Sa Ta) as (m & Em & Sm). unfold function_call_new. rewrite Ea. do 3 eexists. split; [reflexivity|]. split; [exact Em|]. split; [reflexivity|]. cbn [with_field replace].
  assert (Tm : exists q, show_ref (tk (str ":")) = 58%N :: q /\ exists l, printed (Nd KSuffixCall [Nd KCallMethod [m]]) = tk (str ":") :: l).
  { exists []. split; [vm_compute; reflexivity|]. unfold method_call_new, make, each in Em. rewrite basic_done in Em by (unfold literals; member). injection Em as <-. prints. eauto. }
  set (s := Nd KSuffixCall _) in *. assert (Es : is_call_suffix s = true) by reflexivity.
  assert (Ef : forall x, filled s x -> is_call_suffix x = true) by (intros x X; subst s; inversion X; subst; reflexivity). clearbody s. parts Hp. parts Sm. apply stands_intro.
  - eexists. split; [|split; [fills|prints; now rewrite Q, Q0]]. split; [apply sm_call|do 3 constructor]; try exact P; try (repeat constructor; exact P0); unfold ends_in_call; cbn [rev app]; now apply Ef.
  - prints. rewrite !app_nil_r. eapply ok_app; [exact O|exact O0|]. intros v _. destruct Tm as (q & Eq & l & El). rewrite El. cbn [flat_map]. rewrite Eq. do 2 eexists. split; [reflexivity|now left].
Qed.

(** ** Variables [p.n] and compound assignments *)
Lemma dot_ok c f d : basic_token f (str ".") = Done (Tok d) -> sy d SDot /\ ok c lettered [d] /\ show_ref d = [46%N].
Proof.
  intros E. assert (basic_token f (str ".") = Done (Tok (tk (str ".")))) as E2 by (destruct f as [[] [] [] [] [] []]; vm_compute; reflexivity). rewrite E2 in E. injection E as <-. split; [tok_sy|]. split; [|vm_compute; reflexivity].
  apply (operator_ok c _ SDot); [cbn; tauto|vm_compute; reflexivity|vm_compute; reflexivity|apply in_operators; cbn; tauto|]. intros v V. apply operator_next; [cbn; tauto|apply in_operators; cbn; tauto|now left].
Qed.
Lemma var_stands c f p n d : basic_token f (str ".") = Done (Tok d) -> stands c (next_in [46%N]) (prefix_expression c) p -> bare_name c n ->
  stands c wordless (variable c) (Nd KVarExpr [with_field 1 (vector [Nd KSuffixIndex [Nd KIndexDot [Tok d; Tok n]]]) (var_expression_new p)]).
Proof.
  intros Ed Hp N. destruct (dot_ok c f d Ed) as (Sd & Od & Td). parts Hp. unfold var_expression_new. cbn [with_field replace]. apply stands_intro.
  - eexists. split; [|split; [fills|prints; now rewrite Q]]. apply va_suffix; [exact P| |discriminate|reflexivity]. constructor; [|constructor]. apply su_dot with SDot; [exact Sd|exact Logic.I|now apply (bare_nm c)].
  - prints. rewrite ?app_nil_r. eapply ok_app; [exact O|apply (before_name c wordless [d]); [exact Od|exact N|now apply bare_ok]|]. intros v _. cbn [flat_map]. rewrite Td. do 2 eexists. split; [reflexivity|now left].
Qed.
Lemma compound_stands c v s o e : compound_in c s -> stands c soft (variable c) v -> stands c anything (fun x => x = Tok o /\ sy o s) (Tok o) -> starts_soft (show_ref o) -> stands c soft (expression c) e ->
  stands c soft (statement c) (Nd KStmtCompoundAssignment [compound_assignment_new v (Nd (KCompoundOp s) [Tok o]) e]).
Proof.
  intros C V So To E. parts V. parts E. pose proof (stands_ok _ _ _ _ So) as Oo. rewrite printed_tok in Oo. destruct So as ((x & (-> & Sy) & _) & _). unfold compound_assignment_new. apply stands_intro.
  - eexists. split; [|split; [fills|prints; now rewrite Q, Q0]]. apply sm_compound; assumption.
  - prints. rewrite !app_nil_r. apply ok_before; [assumption| |now apply first_soft]. now apply ok_cons.
Qed.

(** ** Types *)
Lemma type_field_stands c f k t : stands c (next_in [58%N]) (type_key c) k -> stands c soft (type c) t ->
  exists x, type_field_new f k t = Done x /\ stands c soft (type_field c) x.
Proof.
  intros K T. parts K. parts T. unfold type_field_new, make, each. repeat symbol. eexists. split; [reflexivity|]. cbn [no_value]. apply stands_intro.
  - eexists. split; [|split; [fills|prints; now rewrite Q, Q0]]. apply tf_intro; try assumption; [constructor|tok_sy].
  - prints. rewrite !app_nil_r. eapply ok_app; [exact O|apply ok_cons; [apply colon_space_ok|exact O0]|]. intros v _. do 2 eexists. split; [vm_compute; reflexivity|now left].
Qed.
Lemma cast_stands c e t : f_luau (c_feat c) = true -> has_luau c = true -> stands c (next_in [58%N]) (atom c) e -> stands c soft (type c) t ->
  exists x, type_assertion_new (c_feat c) t = Done x /\ stands c soft (expression c) (Nd KExprTypeAssertion [e; x]).
Proof.
  intros Ff U E T. parts E. parts T. unfold type_assertion_new, make, each. rewrite colons_done by now rewrite Ff. eexists. split; [reflexivity|]. apply stands_intro.
  - eexists. split; [|split; [fills|prints; now rewrite Q, Q0]]. apply ex_unit, ue_cast; try assumption. tok_sy.
  - prints. rewrite !app_nil_r. eapply ok_app; [exact O|apply ok_cons; [apply colons_ok; auto|exact O0]|]. intros v _. do 2 eexists. split; [vm_compute; reflexivity|now left].
Qed.
Lemma specifier_stands c F f t : has_luau c = true -> stands c F (type c) t -> exists x, type_specifier_new f t = Done x /\ stands c F (specifier c) x.
Proof.
  intros U T. parts T. unfold type_specifier_new, make, each. repeat symbol. eexists. split; [reflexivity|]. apply stands_intro.
  - eexists. split; [|split; [fills|prints; now rewrite Q]]. apply sp_intro; [exact U|tok_sy|exact P].
  - prints. rewrite !app_nil_r. apply ok_cons; [apply colon_space_ok|exact O].
Qed.
Lemma argument_stands c F t : stands c F (type c) t -> stands c F (fun x => function_arguments1 c [final x]) (type_argument_new t).
Proof.
  intros T. parts T. unfold type_argument_new. apply stands_intro.
  - eexists. split; [|split; [fills|prints; now rewrite Q]]. apply fa_last; [constructor|exact P].
  - prints. rewrite !app_nil_r. exact O.
Qed.

(** ** Attributes of functions *)
Lemma luau_attribute_stands c n : f_luau (c_feat c) = true -> has_luau c = true -> spaced_name c n ->
  exists t, luau_attribute_new (c_feat c) n = Done t /\ stands c anything (attribute c) t.
Proof.
  intros Ff U N. unfold luau_attribute_new, make, each. rewrite at_done by exact Ff. eexists. split; [reflexivity|]. apply stands_intro.
  - eexists. split; [|split; [fills|reflexivity]]. apply at_intro; [tok_sy|now apply (spaced_nm c)].
  - prints. apply ok_cons; [now apply at_ok|now apply spaced_name_ok].
Qed.

(** ** Lists between angle brackets *)
Lemma join_or c (F : text -> Prop) (P : tree -> Prop) ts : (forall v, soft v -> F v) -> ts <> [] -> Forall (stands c F P) ts -> stands c F (values P) (listing (join (tk (str ", ")) ts)).
Proof.
  intros HF NE. induction ts as [|t ts IH]; [easy|]. intros H. inversion H as [|? ? Ht Hs]; subst. pose proof (stands_ok _ _ _ _ Ht) as Ot. destruct Ht as ((t' & Pt & Ft & Qt) & _). destruct ts as [|t2 ts].
  - apply stands_intro.
    + exists (listing [final t']). split; [eexists; split; [reflexivity|now constructor]|]. split; [repeat constructor; exact Ft|]. cbn [join]. rewrite !printed_con. cbn [flat_map]. rewrite !printed_con. cbn [flat_map]. now rewrite Qt.
    + cbn [join]. rewrite !printed_con. cbn [flat_map]. rewrite !printed_con. cbn [flat_map]. rewrite !app_nil_r. exact Ot.
  - specialize (IH ltac:(easy) Hs). pose proof (stands_ok _ _ _ _ IH) as Ol. destruct IH as ((l' & (m & -> & Sm) & Fl & Ql) & _).
    change (join (tk (str ", ")) (t :: t2 :: ts)) with (followed t (tk (str ", ")) :: join (tk (str ", ")) (t2 :: ts)). apply stands_intro.
    + exists (listing (followed t' (tk (str ", ")) :: m)). split; [eexists; split; [reflexivity|constructor; [exact Pt|tok_sy|exact Sm]]|]. split.
      * inversion Fl; subst. constructor. constructor; [|assumption]. constructor. constructor; [exact Ft|]. constructor; [constructor|constructor].
      * rewrite !printed_con in *. cbn [flat_map]. rewrite !printed_con, Ql. cbn [flat_map]. now rewrite Qt.
    + rewrite printed_con. cbn [flat_map]. rewrite !printed_con in *. cbn [flat_map]. rewrite printed_tok. cbn [app]. rewrite <- app_assoc. apply ok_before; [exact (ok_less _ _ _ _ HF Ot)| |starts].
      now apply (ok_cons c F); [lit|].
Qed.
Lemma greater_next c v : has_lua53 c = false -> has_cfxlua c = false -> next_in [62%N] v -> token_then c (TSymbol SGreaterThan) v.
Proof.
  intros H5 Hx (x & r & -> & [<-|[]]). apply to_operator. split; [apply in_operators; cbn; tauto|]. repeat split.
  - intros o v' Io E. pose proof Io as Io'. apply operator_sym in Io as (y & <- & _). destruct y; cbn in E; try discriminate E; try (cbn; lia); exfalso.
    all: unfold operators in Io'; rewrite ?H5, ?Hx in Io'; repeat rewrite in_app_iff in Io'; cbn in Io'; repeat match goal with H : context [if ?b then _ else _] |- _ => destruct b; cbn in H end; intuition discriminate.
  - intros q E. discriminate E.
  - intros _ q E. discriminate E.
  - intros n q E. destruct n; discriminate E.
  - intros d q _ E. discriminate E.
Qed.
Lemma less_next c v : has_lua53 c = false -> has_cfxlua c = false -> not_continued (N.eqb 61) v -> token_then c (TSymbol SLessThan) v.
Proof.
  intros H5 Hx V. apply to_operator. split; [apply in_operators; cbn; tauto|]. repeat split.
  - intros o v' Io E. pose proof Io as Io'. apply operator_sym in Io as (y & <- & _). destruct y; cbn in E; try discriminate E; try (cbn; lia); exfalso.
    all: try (injection E as ->; now specialize (V _ _ eq_refl)).
    all: unfold operators in Io'; rewrite ?H5, ?Hx in Io'; repeat rewrite in_app_iff in Io'; cbn in Io'; repeat match goal with H : context [if ?b then _ else _] |- _ => destruct b; cbn in H end; intuition discriminate.
  - intros q E. discriminate E.
  - intros _ q E. discriminate E.
  - intros n q E. destruct n; discriminate E.
  - intros d q _ E. discriminate E.
Qed.
Lemma less_any c : has_lua53 c = false -> has_cfxlua c = false -> ok c (not_continued (N.eqb 61)) [sk (str "<")].
Proof. intros H5 Hx. apply (operator_ok c _ SLessThan); [cbn; tauto|vm_compute; reflexivity|vm_compute; reflexivity|apply in_operators; cbn; tauto|]. intros v V. now apply less_next. Qed.
Lemma greater_two c : has_lua53 c = false -> has_cfxlua c = false -> ok c soft [sk (str ">"); sk (str ">")].
Proof.
  intros H5 Hx. apply (ok_app c (next_in [62%N]) soft [sk (str ">")] [sk (str ">")]); [|apply greater_ok|].
  - apply (operator_ok c _ SGreaterThan); [cbn; tauto|vm_compute; reflexivity|vm_compute; reflexivity|apply in_operators; cbn; tauto|]. intros v V. now apply greater_next.
  - intros v _. do 2 eexists. split; [vm_compute; reflexivity|now left].
Qed.
Lemma instantiation_stands c f ts d : basic_token f (str ", ") = Done (Tok d) -> has_luau c = true -> has_lua53 c = false -> has_cfxlua c = false ->
  Forall (stands c (soft_or [62%N]) (result_type c)) ts -> (forall t l, ts = t :: l -> forall v, not_continued (N.eqb 61) (display t ++ v)) ->
  exists t, type_instantiation_new f = Done t /\ stands c soft (instantiation c) (with_field 2 (listing (join d ts)) t).
Proof.
  intros Ed U H5 Hx H T1. use_comma Ed. unfold type_instantiation_new, make, span_new, each. repeat symbol. eexists. split; [reflexivity|]. cbn [with_field replace no_pairs].
  assert (V : stands c (soft_or [62%N]) (fun x => exists l, x = listing l /\ type_arguments c l) (listing (join (tk (str ", ")) ts))).
  { destruct ts as [|t ts].
    - apply stands_intro; [|apply ok_nil]. eexists. split; [exists []; split; [reflexivity|constructor]|]. split; [apply filled_refl|reflexivity].
    - eapply stands_sort; [|apply join_or; [now left|easy|exact H]]. intros x (l & -> & S). exists l. split; [reflexivity|now constructor]. }
  parts V. destruct P as (l & -> & Pl). apply stands_intro.
  - eexists. split; [|split; [fills|]]; [apply in_intro; try tok_sy; assumption|]. rewrite !printed_nd. cbn [display_order flat_map pick at_ subs_at subs nth_error]. now rewrite Q.
  - rewrite printed_nd. cbn [display_order flat_map pick at_ subs_at subs nth_error]. rewrite !printed_tok. cbn [app].
    assert (Oin : ok c soft (printed (listing (join (tk (str ", ")) ts)) ++ [sk (str ">"); sk (str ">")])).
    { eapply ok_app; [exact O|now apply greater_two|]. intros v _. right. do 2 eexists. split; [vm_compute; reflexivity|now left]. }
    apply (ok_app c (not_continued (N.eqb 61)) soft [sk (str "<")]); [now apply less_any| |intros v _; intros x q E; vm_compute in E; injection E as <- _; reflexivity].
    apply (ok_app c (not_continued (N.eqb 61)) soft [sk (str "<")]); [now apply less_any|exact Oin|].
    intros v _. rewrite flat_map_app, <- app_assoc. destruct ts as [|t0 ts]; [cbn [join]; rewrite printed_con; cbn; intros x q E; injection E as <- _; reflexivity|].
    specialize (T1 _ _ eq_refl). rewrite printed_con. destruct ts; cbn [join flat_map]; rewrite printed_con; cbn [flat_map]; rewrite !flat_map_app, <- !app_assoc; apply T1.
Qed.
