(** Blocks, and the text of what constructors make is parsed (C54). Proof file. *)
From Verif Require Export Construct5.
From Verif Require Import Lexer LexerSpec TokenSpec TokenProofs TokenTheorems Scan5 Scan6 PunctuatedProofs ParserTheorems ParserAccept Reprint1 Reprint2.
From Verif Require Import TreeFacts PrintProofs.
From Verif Require Import RoundSpec ScanSpec Construct.
From Coq Require Import Lia.
Local Open Scope nat_scope.
Import ListNotations.

(** ** Lines and blocks *)
Lemma semi_ok c f d : basic_token f (str ";" ++ nl) = Done (Tok d) -> d = tk (str ";" ++ nl) /\ sy d SSemicolon /\ ok c anything [d] /\ starts_soft (show_ref d).
Proof. intros E. rewrite basic_done in E by (unfold literals; member). injection E as <-. split; [reflexivity|]. split; [tok_sy|]. split; [lit|apply lit_starts; unfold soft_literals; member]. Qed.
Lemma ended_stands c f s d (S L : tree -> Prop) : (forall s o, S s -> optional semicolon o -> L (Con CTuple [s; o])) ->
  basic_token f (str ";" ++ nl) = Done (Tok d) -> stands c soft S s -> stands c anything L (ended d s).
Proof.
  intros HL E H. destruct (semi_ok c f d E) as (_ & Sd & Od & Td). parts H. unfold ended. apply stands_intro.
  - eexists. split; [|split; [fills|prints; now rewrite Q]]. apply HL; [exact P|]. constructor. now constructor.
  - prints. rewrite ?app_nil_r. apply ok_before; [exact O|exact Od|now apply first_soft].
Qed.
Lemma without_stands c F s (S L : tree -> Prop) : (forall s o, S s -> optional semicolon o -> L (Con CTuple [s; o])) -> stands c F S s -> stands c F L (without s).
Proof.
  intros HL H. parts H. unfold without. apply stands_intro.
  - eexists. split; [|split; [fills|prints; now rewrite Q]]. apply HL; [exact P|constructor].
  - prints. rewrite ?app_nil_r. exact O.
Qed.

Lemma filled_edge p : forall t t', filled t t' -> on_edge p t = on_edge p t'.
Proof.
  set (last_one := fix last_one (l : list tree) : bool := match l with [] => false | [x] => on_edge p x | _ :: l => last_one l end).
  assert (LL : forall l l', Forall2 (fun x y => on_edge p x = on_edge p y) l l' -> last_one l = last_one l').
  { intros l l' H. induction H as [|x y l l' E H IH]; [reflexivity|]. cbn [last_one]. destruct H; [exact E|exact IH]. }
  assert (Em : forall cs, Forall (fun t => forall t', filled t t' -> on_edge p t = on_edge p t') cs -> forall cs', Forall2 filled cs cs' -> last_one cs = last_one cs').
  { intros cs IH cs' H. apply LL. induction H as [|x y l l' Fx _ IHl]; constructor; inversion IH; subst; auto. }
  induction t as [r|k cs IH|k cs IH] using tree_ind'; intros t' Fl; inversion Fl; subst; try reflexivity.
  - pose proof (Em _ IH _ ltac:(eassumption)) as E. destruct k; try reflexivity; exact E.
  - cbn [on_edge]. fold last_one. f_equal. f_equal. now apply Em.
Qed.
Lemma first_printed t t' : printed t' = printed t -> first_of t' = first_of t.
Proof. unfold first_of. now intros ->. Qed.
Lemma filled_separate a a' b b' : filled a a' -> printed b' = printed b -> separate a b -> separate a' b'.
Proof.
  intros Fa Q. unfold separate, starts_with. rewrite (first_printed _ _ Q). inversion Fa as [|k cs cs' Fc|cs cs' n Fc|]; subst; try easy. destruct k; try easy. inversion Fc as [|s s' l l' Fs Fl]; subst; try easy. inversion Fl as [|o o' m m' Fo Fm]; subst; try easy. inversion Fm; subst; try easy.
  intros H -> Hs. unfold open. rewrite <- (filled_edge _ _ _ Fs). apply H; [|exact Hs]. inversion Fo as [|k cs cs' Fn| |]; subst. inversion Fn; subst. reflexivity.
Qed.
Lemma all_parts c F P l : Forall (stands c F P) l -> exists l', Forall P l' /\ Forall2 filled l l' /\ Forall2 (fun t t' => printed t' = printed t) l l'.
Proof.
  induction 1 as [|t l ((t' & Pt & Ft & Qt) & _) _ (l' & Pl & Fl & Ql)]; [exists []; auto|]. exists (t' :: l'). auto.
Qed.
Lemma filled_apart l : forall l', Forall2 filled l l' -> Forall2 (fun t t' => printed t' = printed t) l l' -> apart l -> apart l'.
Proof.
  induction l as [|a l IH]; intros l' Fl Ql A; inversion Fl as [|? a' ? m' Fa Fm]; subst; [constructor|]. inversion Ql as [|? ? ? ? Qa Qm]; subst.
  inversion A as [|x|x b r Sx Ar]; subst; [inversion Fm; subst; constructor|]. inversion Fm as [|? b' ? r' Fb Fr]; subst. inversion Qm as [|? ? ? ? Qb Qr]; subst. constructor; [eapply filled_separate; eassumption|]. now apply IH.
Qed.
Lemma block_stands c F l z : Forall (stands c anything (line c)) l -> apart l -> stands c F (optional (RoundSpec.last_line c)) z ->
  stands c F (block c) (with_field 1 z (with_field 0 (vector l) block_new)).
Proof.
  intros H A Z. pose proof (ok_all _ _ _ H) as Ol. destruct (all_parts _ _ _ _ H) as (l' & Pl & Fl & Ql). pose proof (filled_apart _ _ Fl Ql A) as A'. parts Z. cbn [with_field replace block_new]. apply stands_intro.
  - eexists. split; [|split; [fills|]]; [now apply bl_intro|]. prints. rewrite Q. f_equal. clear -Ql. induction Ql as [|x y l l' E _ IH]; [reflexivity|]. cbn [flat_map]. now rewrite E, IH.
  - prints. rewrite app_nil_r. now apply ok_any.
Qed.
Lemma no_last c F : stands c F (optional (RoundSpec.last_line c)) none.
Proof. apply stands_intro; [exists none; split; [constructor|split; [apply filled_refl|reflexivity]]|apply ok_nil]. Qed.
Lemma some_last c F t : stands c F (RoundSpec.last_line c) t -> stands c F (optional (RoundSpec.last_line c)) (some t).
Proof.
  intros H. parts H. apply stands_intro; [eexists; split; [|split; [fills|prints; now rewrite Q]]; now constructor|]. prints. rewrite app_nil_r. exact O.
Qed.
Lemma return_stands c f es d : basic_token f (str ", ") = Done (Tok d) -> Forall (stands c soft (expression c)) es ->
  exists t, return_new f = Done t /\ stands c soft (last_statement c) (Nd KLastReturn [with_field 1 (listing (join d es)) t]).
Proof.
  intros Ed H. use_comma Ed. unfold return_new, make, each. repeat literal. eexists. split; [reflexivity|]. cbn [with_field replace no_pairs]. destruct es as [|e es].
  - apply stands_intro.
    + eexists. split; [|split; [apply filled_refl|reflexivity]]. apply ls_return; [tok_sy|constructor].
    + prints. lit.
  - assert (V : stands c soft (values (expression c)) (listing (join (tk (str ", ")) (e :: es)))) by (apply comma_values; [easy|exact H]). parts V. destruct P as (l & -> & Pl). rewrite printed_con in O. rewrite !printed_con in Q. apply stands_intro.
    + eexists. split; [|split; [fills|prints; now rewrite Q]]. apply ls_return; [tok_sy|now constructor].
    + prints. chain.
Qed.

(** ** Lua 5.2 and LuaJIT: goto with a space *)
Lemma goto_stands c n : f_lua52 (c_feat c) || f_luajit (c_feat c) = true -> has_lua52 c = true \/ has_luajit c = true -> stands c soft name_tree (Tok n) ->
  exists t g, goto_new (c_feat c) n = Done t /\ symbol_token (c_feat c) (str "goto ") = Done g /\ stands c soft (statement c) (Nd KStmtGoto [with_field 0 g t]).
Proof.
  intros Ff Fc N. pose proof (stands_ok _ _ _ _ N) as On. apply name_stands in N as (r & [= <-] & Nn). rewrite printed_tok in On. destruct (goto_done _ Ff) as [E1 E2]. unfold goto_new, make, each. rewrite E1, E2. do 2 eexists. split; [reflexivity|]. split; [reflexivity|]. cbn [with_field replace]. apply stands_intro.
  - eexists. split; [|split; [fills|reflexivity]]. apply sm_goto; [exact Fc|tok_sy|exact Nn].
  - prints. apply ok_cons; [|exact On]. eapply (made_after c _ SGoto [] [32%N]); [vm_compute; reflexivity|vm_compute; reflexivity|unfold gap_text; auto|auto|apply keyword_alone|intros [Q|Q]; discriminate Q].
    unfold reserved_words. apply in_or_app. right. destruct Fc as [-> | ->]; rewrite ?orb_true_r; now left.
Qed.

(** ** Luau *)
Definition sk_literals : list text := [str " then "; str " else "; str " elseif "; str " = "].
Lemma sk_any c w : In w sk_literals -> ok c anything [sk w] /\ starts_soft (show_ref (sk w)).
Proof.
  unfold sk_literals. cbn [In]. intros I.
  repeat (destruct I as [<-|I]; [split; [first [made SThen [32%N] [32%N]|made SElse [32%N] [32%N]|made SElseIf [32%N] [32%N]|made SEqual [32%N] [32%N]]|do 2 eexists; split; [vm_compute; reflexivity|unfold soft_char; cbn; tauto]]|]). contradiction.
Qed.
Lemma sk_if c : ok c anything [sk (str "if ")].
Proof. made SIf (@nil N) [32%N]. Qed.
Ltac symbol := rewrite symbol_done by (unfold always; member).
Lemma sk_ok c w : In w sk_literals -> ok c anything [sk w].
Proof. apply sk_any. Qed.
Lemma sk_starts w : In w sk_literals -> starts_soft (show_ref (sk w)).
Proof. apply (sk_any cfg_lua51). Qed.
Ltac sk_lit := first [apply sk_ok; unfold sk_literals; member|apply sk_starts; unfold sk_literals; member].
Lemma else_if_expression_stands c f e x : stands c soft (expression c) e -> stands c soft (expression c) x ->
  exists t, else_if_expression_new f e x = Done t /\ stands c soft (else_if c) t /\ starts_soft (flat_map show_ref (printed t)).
Proof.
  intros E X. parts E. parts X. unfold else_if_expression_new, make, each. repeat symbol. eexists. split; [reflexivity|]. split; [apply stands_intro|].
  - eexists. split; [|split; [fills|prints; now rewrite Q, Q0]]. apply el_intro; try assumption; tok_sy.
  - prints. rewrite app_nil_r. apply ok_cons; [sk_lit|]. apply ok_before; [exact O| |apply first_soft; sk_lit]. apply ok_cons; [sk_lit|exact O0].
  - prints. apply first_soft. sk_lit.
Qed.
Lemma soft_list c P l w : Forall (fun t => stands c soft P t /\ starts_soft (flat_map show_ref (printed t))) l -> ok c soft w -> starts_soft (flat_map show_ref w) ->
  ok c soft (flat_map printed l ++ w) /\ starts_soft (flat_map show_ref (flat_map printed l ++ w)).
Proof.
  induction 1 as [|t l [Ht St] _ IH]; intros W Sw; [auto|]. destruct (IH W Sw) as [A B]. cbn [flat_map]. rewrite <- app_assoc. split.
  - apply ok_before; [now apply stands_ok in Ht|exact A|exact B].
  - rewrite flat_map_app. destruct St as (y & q & -> & Sy). do 2 eexists. split; [reflexivity|exact Sy].
Qed.
Lemma if_expression_stands c f e x l w : has_luau c = true -> stands c soft (expression c) e -> stands c soft (expression c) x -> stands c soft (expression c) w ->
  Forall (fun t => stands c soft (else_if c) t /\ starts_soft (flat_map show_ref (printed t))) l ->
  exists t h, if_expression_new f e x w = Done t /\ symbol_token f (str " then ") = Done h /\
    stands c soft (expression c) (Nd KExprIfExpression [with_field 4 (match l with [] => none | _ => some (vector l) end) (with_field 2 h t)]).
Proof.
  intros U E X W L. parts E. parts X. parts W. unfold if_expression_new, make, each. repeat symbol. do 2 eexists. split; [reflexivity|]. split; [reflexivity|]. cbn [with_field replace no_value].
  assert (Sl : Forall (stands c soft (else_if c)) l) by (eapply Forall_impl; [|exact L]; now intros a []). destruct (stands_all _ _ _ _ Sl) as (l' & Pl & Fl & Ql).
  assert (OW : ok c soft (sk (str " else ") :: printed w)) by (apply ok_cons; [sk_lit|assumption]). destruct (soft_list _ _ _ _ L OW) as [OL SL]; [apply first_soft; sk_lit|].
  apply stands_intro.
  - exists (Nd KExprIfExpression [Nd KIfExpression [Tok (sk (str "if ")); t; Tok (sk (str " then ")); t0; match l' with [] => none | _ => some (vector l') end; Tok (sk (str " else ")); t1]]). split; [|split].
    + constructor. apply ue_if; try assumption; try tok_sy. destruct l'; [constructor|]. now constructor.
    + inversion Fl; subst; fills.
    + replace (printed (Nd KExprIfExpression [Nd KIfExpression [Tok (sk (str "if ")); e; Tok (sk (str " then ")); x; match l with [] => none | _ => some (vector l) end; Tok (sk (str " else ")); w]]))
        with (sk (str "if ") :: printed e ++ sk (str " then ") :: printed x ++ flat_map printed l ++ sk (str " else ") :: printed w) by (destruct l; prints; rewrite ?app_nil_r; reflexivity).
      rewrite <- Ql, <- Q, <- Q0, <- Q1. destruct l'; prints; rewrite ?app_nil_r; reflexivity.
  - replace (printed (Nd KExprIfExpression [Nd KIfExpression [Tok (sk (str "if ")); e; Tok (sk (str " then ")); x; match l with [] => none | _ => some (vector l) end; Tok (sk (str " else ")); w]]))
      with (sk (str "if ") :: printed e ++ sk (str " then ") :: printed x ++ flat_map printed l ++ sk (str " else ") :: printed w) by (destruct l; prints; rewrite ?app_nil_r; reflexivity).
    apply ok_cons; [apply sk_if|]. apply ok_before; [assumption| |apply first_soft; sk_lit]. apply ok_cons; [sk_lit|]. apply ok_before; assumption.
Qed.
Lemma word_any c w : is_word w -> ~ In w (reserved_words c) -> ok c anything [word_and_space w].
Proof. intros W R. apply spaced_ok; [split; reflexivity|]. split; [apply to_name; [exact W|exact R|apply nil_continued]|]. repeat split; try easy; discriminate. Qed.
Lemma type_words c w : w = str "type" \/ w = str "export" -> is_word w /\ ~ In w (reserved_words c).
Proof.
  intros H. split; [destruct H as [-> | ->]; (do 2 eexists; split; [vm_compute; reflexivity|split; vm_compute; reflexivity])|]. unfold reserved_words. intros I. apply in_app_iff in I as [I|I].
  - cbn in I. destruct H as [-> | ->]; intuition discriminate.
  - destruct (has_lua52 c || has_luajit c); cbn in I; destruct H as [-> | ->]; intuition discriminate.
Qed.
Lemma type_stands c f n t : has_luau c = true -> stands c soft name_tree (Tok n) -> stands c soft (type c) t ->
  exists d, type_declaration_new f n t = Done d /\ stands c soft (statement c) (Nd KStmtTypeDeclaration [d]) /\
    stands c soft (statement c) (Nd KStmtExportedTypeDeclaration [exported_type_declaration_new d]).
Proof.
  intros U N T. pose proof (stands_ok _ _ _ _ N) as On. apply name_stands in N as (r & [= <-] & Nn). rewrite printed_tok in On. parts T. unfold type_declaration_new, make, each. repeat symbol. eexists. split; [reflexivity|].
  assert (D : type_declaration c (Nd KTypeDeclaration [Tok (word_and_space (str "type")); Tok n; none; Tok (sk (str " = ")); t0])) by (constructor; try assumption; try tok_sy; try reflexivity; constructor).
  assert (OD : ok c soft (word_and_space (str "type") :: n :: sk (str " = ") :: printed t)).
  { apply ok_cons; [apply word_any; apply type_words; auto|]. apply (ok_before c soft [n]); [exact On| |apply first_soft; sk_lit]. apply ok_cons; [sk_lit|assumption]. }
  split; apply stands_intro.
  - eexists. split; [|split; [fills|prints; now rewrite Q]]. now constructor.
  - prints. rewrite ?app_nil_r. exact OD.
  - eexists. split; [|split; [unfold exported_type_declaration_new; fills|unfold exported_type_declaration_new; prints; now rewrite Q]]. apply sm_export; [reflexivity|exact D].
  - unfold exported_type_declaration_new. prints. rewrite ?app_nil_r. apply ok_cons; [apply word_any; apply type_words; auto|exact OD].
Qed.

(** ** The text is parsed *)
Lemma stands_parse c t : cfg_ok c -> stands c soft (block c) t -> ~ shebang (display t) ->
  exists t0 t' e', parse c (display t) = Done (inl (mkAst t' e')) /\ filled t t0 /\ alike ReprintSpec.same_token t0 t'.
Proof.
  intros C ((t0 & B & Fl & Q) & N & R) Sb. destruct (R [] [] (fun _ => eq_refl)) as (ts & T & W & M); [now left|constructor|]. cbn [ScanSpec.written flat_map] in W. rewrite app_nil_r in W. cbn in M. rewrite app_nil_r in M.
  destruct (tokens_parse c t0 (ts ++ [TEof]) (display t) C B) as (t' & e' & P & Al).
  - now rewrite Q.
  - rewrite <- W. apply fi_plain; [exact T|]. now rewrite W.
  - rewrite Q, mains_app, M. reflexivity.
  - exists t0, t', e'. auto.
Qed.

(** ** No constructor panics *)
Lemma constructors_total f : let made := fun x : out tree => exists t, x = Done t in
  made (return_new f) /\ made (table_constructor_new f) /\ made (function_body_new f) /\ made (anonymous_function_new f) /\ made (function_args_empty f) /\
  made (do_new f) /\ made (generic_declaration_new f) /\ made (type_instantiation_new f) /\
  (forall n x y, made (numeric_for_new f n x y)) /\ (forall x y, made (generic_for_new f x y)) /\ (forall x, made (if_new f x)) /\ (forall x, made (else_if_new f x)) /\
  (forall x, made (while_new f x)) /\ (forall x, made (repeat_new f x)) /\ (forall n x, made (method_call_new f n x)) /\ (forall x y, made (assignment_new f x y)) /\
  (forall n, made (local_function_new f n)) /\ (forall x, made (local_assignment_new f x)) /\ (forall x, made (function_call_new f x)) /\ (forall x, made (function_declaration_new f x)) /\
  (forall n, made (attribute_new f n)) /\ (forall x y, made (type_field_new f x y)) /\ (forall n x, made (type_declaration_new f n x)) /\ (forall x, made (type_specifier_new f x)) /\
  (forall n x, made (type_function_new f n x)) /\ (forall x y z, made (if_expression_new f x y z)) /\ (forall x y, made (else_if_expression_new f x y)) /\
  (f_lua52 f || f_luajit f = true -> forall n, made (goto_new f n) /\ made (label_new f n)) /\
  (f_luau f = true -> forall n x, made (luau_attribute_new f n) /\ made (type_assertion_new f x)).
Proof.
  cbv zeta.
  unfold return_new, table_constructor_new, anonymous_function_new, local_function_new, function_declaration_new, function_body_new, function_call_new, function_args_empty, do_new, generic_declaration_new, type_instantiation_new,
    numeric_for_new, generic_for_new, if_new, else_if_new, while_new, repeat_new, method_call_new, assignment_new, local_assignment_new, attribute_new, type_field_new, type_declaration_new, type_specifier_new,
    type_function_new, if_expression_new, else_if_expression_new, goto_new, label_new, luau_attribute_new, type_assertion_new, span_new, make, each.
  repeat literal. repeat symbol. repeat match goal with |- _ /\ _ => split end; intros; try (eexists; reflexivity).
  - destruct (goto_done f H) as [E _]. rewrite E, colons_done; [split; eexists; reflexivity|]. destruct (f_lua52 f), (f_luajit f), (f_luau f); easy.
  - rewrite at_done, colons_done by (rewrite H; reflexivity). split; eexists; reflexivity.
Qed.

(** ** For the examples *)
Lemma word_lone c w : is_word w -> ~ In w (reserved_words c) -> lone c (TIdentifier w).
Proof. intros W R. split; [apply to_name; [exact W|exact R|apply nil_continued]|]. repeat split; try easy; discriminate. Qed.
Lemma stands_wrap c F (P Q : tree -> Prop) k t : encloses k = false -> (forall x, P x -> Q (Nd k [x])) -> List.length (fields k) = 1 -> stands c F P t -> stands c F Q (Nd k [t]).
Proof.
  intros K H L S. pose proof (stands_ok _ _ _ _ S) as O. destruct S as ((x & Px & Fx & Qx) & _).
  assert (E : forall y, printed (Nd k [y]) = printed y) by (intros y; rewrite printed_nd, display_order_plain by exact K; unfold in_order; rewrite L; cbn; apply app_nil_r).
  apply stands_intro; [exists (Nd k [x]); split; [auto|]; split; [repeat constructor; exact Fx|now rewrite !E]|]. now rewrite E.
Qed.
