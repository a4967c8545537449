(** C60: nodes of Lua 5.2, Lua 5.4 and Luau made by the constructors, and method calls. Specification vocabulary: ConstructSpec.v and
    ConstructSpec2.v (texts side by side), RoundSpec.v (which trees). *)
From Verif Require Import LexerSpec PunctuatedProofs.
From Verif Require Import TokenSpec ParserTheorems ParserAccept ReprintSpec Scan5 Reprint1 PropertiesParser1 PropertiesParser5 PropertiesConstruct Construct9.
From Verif Require Import TreeFacts PrintProofs Scan6.
From Coq Require Import Lia.
From Verif Require Import RoundSpec ScanSpec ReprintSpec ConstructSpec ConstructSpec2 Construct.
Local Open Scope nat_scope.
Import ListNotations.

(** ** C60. Which parts stand before which texts: a name stands before everything that does not go on with it. *)
Theorem C60_name : forall c (P : tree -> Prop) t n, P t -> printed t = [n] -> bare_name c n -> stands c wordless P t.
Proof. exact bare_stands. Qed.
Print Assumptions C60_name.
Theorem C60_less : forall c (F G : text -> Prop) P t, (forall v, G v -> F v) -> stands c F P t -> stands c G P t.
Proof. exact stands_less. Qed.
Print Assumptions C60_less.
Theorem C60_after_word : forall xs v, forallb (fun x => negb (word_part x)) xs = true -> soft_or xs v -> wordless v.
Proof. exact after_word. Qed.
Print Assumptions C60_after_word.

(** *** Lua 5.2 to 5.4: labels, and local names with attributes; in Luau with types. *)
Theorem C60_label : forall c n, f_lua52 (c_feat c) || f_luajit (c_feat c) = true -> has_lua52 c = true \/ has_luajit c = true -> has_luau c = false -> bare_name c n ->
  exists t, label_new (c_feat c) n = Done t /\ stands c anything (statement c) (Nd KStmtLabel [t]).
Proof. exact label_stands. Qed.
Print Assumptions C60_label.
Theorem C60_local : forall c f ns as_ ts d, basic_token f (str ", ") = Done (Tok d) -> ns <> [] -> declarations c f ns as_ ts ->
  exists t, local_assignment_new f (listing (join d (map Tok ns))) = Done t /\ stands c soft (statement c) (Nd KStmtLocalAssignment [with_field 3 (vector as_) (with_field 1 (vector ts) t)]).
Proof. exact declared_stands. Qed.
Print Assumptions C60_local.
Theorem C60_local_values : forall c f ns as_ ts es d, basic_token f (str ", ") = Done (Tok d) -> ns <> [] -> es <> [] -> declarations c f ns as_ ts -> Forall (stands c soft (expression c)) es ->
  exists t q, local_assignment_new f (listing (join d (map Tok ns))) = Done t /\ basic_token f (str " = ") = Done q /\
    stands c soft (statement c) (Nd KStmtLocalAssignment [with_field 5 (listing (join d es)) (with_field 4 (some q) (with_field 3 (vector as_) (with_field 1 (vector ts) t)))]).
Proof. exact declared_values_stands. Qed.
Print Assumptions C60_local_values.
Theorem C60_compound : forall c v s o e, compound_in c s -> stands c soft (variable c) v -> stands c anything (fun x => x = Tok o /\ sy o s) (Tok o) -> starts_soft (show_ref o) -> stands c soft (expression c) e ->
  stands c soft (statement c) (Nd KStmtCompoundAssignment [compound_assignment_new v (Nd (KCompoundOp s) [Tok o]) e]).
Proof. exact compound_stands. Qed.
Print Assumptions C60_compound.

(** *** Variables, methods, casts. *)
Theorem C60_var : forall c f p n d, basic_token f (str ".") = Done (Tok d) -> stands c (next_in [46%N]) (prefix_expression c) p -> bare_name c n ->
  stands c wordless (variable c) (Nd KVarExpr [with_field 1 (vector [Nd KSuffixIndex [Nd KIndexDot [Tok d; Tok n]]]) (var_expression_new p)]).
Proof. exact var_stands. Qed.
Print Assumptions C60_var.
Theorem C60_method : forall c F f n a, bare_name c n -> stands c F (arguments c) a -> starts_soft (display a) ->
  exists t, method_call_new f n a = Done t /\ stands c F (suffix c) (Nd KSuffixCall [Nd KCallMethod [t]]).
Proof. exact method_stands. Qed.
Print Assumptions C60_method.
Theorem C60_method_call : forall c f p n es d, basic_token f (str ", ") = Done (Tok d) -> stands c (next_in [58%N]) (prefix_expression c) p -> bare_name c n -> Forall (stands c soft (expression c)) es ->
  exists a m t, function_args_empty f = Done a /\ method_call_new f n (with_field 1 (listing (join d es)) a) = Done m /\ function_call_new f p = Done t /\
    stands c anything (fun x => statement c (Nd KStmtFunctionCall [x]) /\ expression c (Nd KExprFunctionCall [x])) (with_field 1 (vector [Nd KSuffixCall [Nd KCallMethod [m]]]) t).
Proof. exact method_call_stands. Qed.
Print Assumptions C60_method_call.
Theorem C60_cast : forall c e t, f_luau (c_feat c) = true -> has_luau c = true -> stands c (next_in [58%N]) (atom c) e -> stands c soft (type c) t ->
  exists x, type_assertion_new (c_feat c) t = Done x /\ stands c soft (expression c) (Nd KExprTypeAssertion [e; x]).
Proof. exact cast_stands. Qed.
Print Assumptions C60_cast.

(** *** Types: fields of table types, type specifiers, arguments of function types, type arguments of calls, generic types. *)
Theorem C60_type_field : forall c f k t, stands c (next_in [58%N]) (type_key c) k -> stands c soft (type c) t ->
  exists x, type_field_new f k t = Done x /\ stands c soft (type_field c) x.
Proof. exact type_field_stands. Qed.
Print Assumptions C60_type_field.
Theorem C60_specifier : forall c F f t, has_luau c = true -> stands c F (type c) t -> exists x, type_specifier_new f t = Done x /\ stands c F (specifier c) x.
Proof. exact specifier_stands. Qed.
Print Assumptions C60_specifier.
Theorem C60_type_argument : forall c F t, stands c F (type c) t -> stands c F (fun x => function_arguments1 c [final x]) (type_argument_new t).
Proof. exact argument_stands. Qed.
Print Assumptions C60_type_argument.
(** Where [<<] and [>>] are operators, the two brackets would be one token. *)
Theorem C60_instantiation : forall c f ts d, basic_token f (str ", ") = Done (Tok d) -> has_luau c = true -> has_lua53 c = false -> has_cfxlua c = false ->
  Forall (stands c (soft_or [62%N]) (result_type c)) ts -> (forall t l, ts = t :: l -> forall v, not_continued (N.eqb 61) (display t ++ v)) ->
  exists t, type_instantiation_new f = Done t /\ stands c soft (instantiation c) (with_field 2 (listing (join d ts)) t).
Proof. exact instantiation_stands. Qed.
Print Assumptions C60_instantiation.
Theorem C60_generics : forall c f b ns d, basic_token f (str ", ") = Done (Tok d) -> ns <> [] -> Forall (bare_name c) ns ->
  exists g, generic_declaration_new f = Done g /\ stands c soft (generics c b) (with_field 1 (listing (join d (generic_names ns))) g).
Proof. exact generics_stand. Qed.
Print Assumptions C60_generics.
Theorem C60_generic_type : forall c f n ns t d, basic_token f (str ", ") = Done (Tok d) -> has_luau c = true -> bare_name c n -> ns <> [] -> Forall (bare_name c) ns -> stands c soft (type c) t ->
  exists g x, generic_declaration_new f = Done g /\ type_declaration_new f n t = Done x /\
    stands c soft (statement c) (Nd KStmtTypeDeclaration [with_field 2 (some (with_field 1 (listing (join d (generic_names ns))) g)) x]) /\
    stands c soft (statement c) (Nd KStmtExportedTypeDeclaration [exported_type_declaration_new (with_field 2 (some (with_field 1 (listing (join d (generic_names ns))) g)) x)]).
Proof. exact generic_type_stands. Qed.
Print Assumptions C60_generic_type.

(** *** Functions with generics, types and attributes; the name of an attribute needs a space after it. *)
Theorem C60_result : forall c f t, has_luau c = true -> stands c anything (result_type c) t -> exists s, type_specifier_new f t = Done s /\ stands c anything (optional (result_specifier c)) (some s).
Proof. exact some_result. Qed.
Print Assumptions C60_result.
Theorem C60_body : forall c f ns ps ts r b d, basic_token f (str ", ") = Done (Tok d) -> (ns <> [] -> has_luau c = true) -> Forall (bare_name c) ns -> typed_parameters c f ps ts -> stands c anything (optional (result_specifier c)) r -> stands c soft (block c) b ->
  exists g y, generic_declaration_new f = Done g /\ function_body_new f = Done y /\
    let x := with_field 5 b (with_field 4 r (with_field 3 (vector ts) (with_field 2 (listing (join d ps)) (with_field 0 (body_generics_of d g ns) y)))) in
    stands c soft (function_body c) x /\ next_in [40%N; 60%N] (display x).
Proof. exact function_body_stands. Qed.
Print Assumptions C60_body.
Theorem C60_attribute : forall c n, f_luau (c_feat c) = true -> has_luau c = true -> spaced_name c n ->
  exists t, luau_attribute_new (c_feat c) n = Done t /\ stands c anything (attribute c) t.
Proof. exact luau_attribute_stands. Qed.
Print Assumptions C60_attribute.
Theorem C60_function_name : forall c f ns d, basic_token f (str ".") = Done (Tok d) -> ns <> [] -> Forall (bare_name c) ns -> stands c wordless function_name (function_name_new (listing (join d (map Tok ns)))).
Proof. exact dotted_names. Qed.
Print Assumptions C60_function_name.
Theorem C60_function : forall c f l n y, (l <> [] -> has_luau c = true) -> Forall (stands c anything (attribute c)) l -> stands c wordless function_name n -> stands c soft (function_body c) y -> next_in [40%N; 60%N] (display y) ->
  exists t, function_declaration_new f n = Done t /\ stands c soft (statement c) (Nd KStmtFunctionDeclaration [with_field 0 (vector l) (with_field 3 y t)]).
Proof. exact function_with. Qed.
Print Assumptions C60_function.
Theorem C60_local_function : forall c f l n y, (l <> [] -> has_luau c = true) -> Forall (stands c anything (attribute c)) l -> bare_name c n -> stands c soft (function_body c) y -> next_in [40%N; 60%N] (display y) ->
  exists t, local_function_new f n = Done t /\ stands c soft (statement c) (Nd KStmtLocalFunction [with_field 0 (vector l) (with_field 4 y t)]).
Proof. exact local_function_with. Qed.
Print Assumptions C60_local_function.
Theorem C60_anonymous : forall c f l y, (l <> [] -> has_luau c = true) -> (l <> [] -> f_luau (c_feat c) = true) -> Forall (stands c anything (attribute c)) l -> stands c soft (function_body c) y -> next_in [40%N; 60%N] (display y) ->
  exists t, anonymous_function_new f = Done t /\ stands c soft (expression c) (Nd KExprFunction [with_field 0 (vector l) (with_field 2 y t)]).
Proof. exact anonymous_with. Qed.
Print Assumptions C60_anonymous.
Theorem C60_type_function : forall c f n y, has_luau c = true -> bare_name c n -> stands c soft (function_body c) y -> next_in [40%N; 60%N] (display y) ->
  exists d, type_function_new f n y = Done d /\ stands c soft (statement c) (Nd KStmtTypeFunction [d]) /\ stands c soft (statement c) (Nd KStmtExportedTypeFunction [exported_type_function_new d]).
Proof. exact type_function_stands. Qed.
Print Assumptions C60_type_function.

(** *** Examples *)
Definition spaced_token (t : token_type) : tokref := mkRef [] (mkToken pos0 pos0 t) [mkToken pos0 pos0 (TWhitespace [32%N])].
Ltac bare := eexists; split; [now split|]; split; [reflexivity|]; split; words.
Example C60_names : bare_name cfg_luau (word_token (str "f")) /\ spaced_name cfg_luau (spaced_token (TIdentifier (str "native"))).
Proof. split; bare. Qed.
Definition type_named (w : text) : tree := Nd KTypeBasic [Tok (word_token w)].
Definition luau_features : features := c_feat cfg_luau.
Definition typed (w : text) : tree := value (type_specifier_new luau_features (type_named w)).
(** [@native local function f<T>(a: T, b): T return a end], with a line end before [end]. *)
Definition native : tree := value (luau_attribute_new luau_features (spaced_token (TIdentifier (str "native")))).
Definition type_spaced (w : text) : tree := Nd KTypeBasic [Tok (spaced_token (TIdentifier w))].
Definition example_body : tree :=
  with_field 5 (ending_with [] (returning (name_expression (str "a"))))
    (with_field 4 (some (value (type_specifier_new luau_features (type_spaced (str "T")))))
      (with_field 3 (vector [some (typed (str "T")); none])
        (with_field 2 (listing (join comma [Nd KParamName [Tok (word_token (str "a"))]; Nd KParamName [Tok (word_token (str "b"))]]))
          (with_field 0 (body_generics_of comma (value (generic_declaration_new luau_features)) [word_token (str "T")]) (value (function_body_new luau_features)))))).
Definition example_typed : tree := Nd KStmtLocalFunction [with_field 0 (vector [native]) (with_field 4 example_body (value (local_function_new luau_features (word_token (str "f")))))].
Lemma type_named_stands c (F : text -> Prop) w : is_word w -> ~ In w (reserved_words c) -> w <> str "typeof" -> (forall v, F v -> wordless v) -> stands c F (type c) (type_named w).
Proof.
  intros W R T H. apply (stands_less c wordless F); [exact H|]. eapply bare_stands; [|reflexivity|exists w; repeat split; auto].
  do 4 constructor. apply st_name; [reflexivity|]. intros E; apply T; now injection E.
Qed.
Lemma name_return_stands c w : is_word w -> ~ In w (reserved_words c) -> stands c soft (block c) (ending_with [] (returning (name_expression w))).
Proof.
  intros W R. assert (Ec : basic_token no_features (str ", ") = Done (Tok comma)) by (vm_compute; reflexivity). apply block_stands; [constructor|constructor|]. apply some_last. eapply (without_stands _ _ _ (last_statement c)); [intros; constructor; assumption|].
  destruct (return_stands c no_features [name_expression w] comma Ec) as (t & Et & Ht); [constructor; [now apply name_expression_stands|constructor]|]. unfold returning. rewrite Et. exact Ht.
Qed.
Example C60_example_text : display example_typed = str "@native local function f<T>(a: T, b): T return a" ++ nl ++ str "end".
Proof. vm_compute. reflexivity. Qed.
Example C60_example : stands cfg_luau soft (statement cfg_luau) example_typed.
Proof.
  assert (Ec : basic_token luau_features (str ", ") = Done (Tok comma)) by (vm_compute; reflexivity).
  assert (Ts : stands cfg_luau anything (type cfg_luau) (type_spaced (str "T"))).
  { apply spaced_stands; [do 4 constructor; apply st_name; [reflexivity|discriminate]|]. intros r [<-|[]]. split; [now split|]. apply word_lone; words. }
  destruct (some_result cfg_luau luau_features (type_spaced (str "T")) eq_refl) as (s & Es & Ss).
  { eapply stands_sort; [|exact (spaced_stands cfg_luau (plain_type cfg_luau) (type_spaced (str "T")) ltac:(do 3 constructor; apply st_name; [reflexivity|discriminate]) ltac:(intros r [<-|[]]; split; [now split|]; apply word_lone; words))]. now constructor. }
  destruct (function_body_stands cfg_luau luau_features [word_token (str "T")] [Nd KParamName [Tok (word_token (str "a"))]; Nd KParamName [Tok (word_token (str "b"))]] [some (typed (str "T")); none] (some s) (ending_with [] (returning (name_expression (str "a")))) comma Ec) as (g & y & Eg & Ey & Sy & Ty).
  - reflexivity.
  - constructor; [bare|constructor].
  - eapply tq_typed with (t := type_named (str "T")); [bare|reflexivity| |vm_compute; reflexivity|]; [apply type_named_stands; [words|words|discriminate|exact soft_wordless]|]. apply tq_name; [bare|constructor].
  - exact Ss.
  - apply name_return_stands; words.
  - destruct (luau_attribute_stands cfg_luau (spaced_token (TIdentifier (str "native"))) eq_refl eq_refl) as (a & Ea & Sa); [bare|].
    destruct (local_function_with cfg_luau luau_features [a] (word_token (str "f")) _ ltac:(reflexivity) ltac:(constructor; [exact Sa|constructor]) ltac:(bare) Sy Ty) as (t & Et & St).
    unfold example_typed, example_body, native, luau_features in *. rewrite Ea, Et, Es, Eg, Ey. exact St.
Qed.
(** [local x<const>, y = a] in Lua 5.4 and [local x: T = a] in Luau. *)
Example C60_declarations : (exists a, attribute_new (c_feat cfg_lua54) (word_token (str "const")) = Done a /\ declarations cfg_lua54 (c_feat cfg_lua54) [word_token (str "x"); word_token (str "y")] [some a; none] [none; none]) /\
  declarations cfg_luau luau_features [word_token (str "x")] [none] [some (typed (str "T"))].
Proof.
  split.
  - eexists. split; [vm_compute; reflexivity|]. constructor; [apply dc_attribute with (m := word_token (str "const")); [bare|now left|bare|vm_compute; reflexivity]|]. constructor; [apply dc_plain; bare|constructor].
  - constructor; [|constructor]. apply dc_typed with (t := type_named (str "T")); [bare|reflexivity| |vm_compute; reflexivity]. apply type_named_stands; [words|words|discriminate|exact soft_wordless].
Qed.
Example C60_label_example : exists t, label_new (c_feat cfg_lua54) (word_token (str "l")) = Done t /\ display t = str "::l::" /\ stands cfg_lua54 anything (statement cfg_lua54) (Nd KStmtLabel [t]).
Proof. destruct (label_stands cfg_lua54 (word_token (str "l")) eq_refl (or_introl eq_refl) eq_refl ltac:(bare)) as (t & E & S). exists t. split; [exact E|]. split; [vm_compute in E; injection E as <-; vm_compute; reflexivity|exact S]. Qed.
(** [a:m(b)], [a.m], [a :: T], [f<<T, U>>] and [x += a]. *)
Lemma prefix_stands c xs w : forallb (fun x => negb (word_part x)) xs = true -> is_word w -> ~ In w (reserved_words c) -> stands c (next_in xs) (prefix_expression c) (Nd KPrefixName [Tok (word_token w)]).
Proof. intros H W R. apply (stands_less c wordless); [intros v V; apply (after_word xs); [exact H|now right]|]. eapply bare_stands; [now constructor|reflexivity|exists w; repeat split; auto]. Qed.
Example C60_prefix : stands cfg_lua51 (next_in [58%N]) (prefix_expression cfg_lua51) (Nd KPrefixName [Tok (word_token (str "a"))]) /\ stands cfg_lua51 (next_in [46%N]) (prefix_expression cfg_lua51) (Nd KPrefixName [Tok (word_token (str "a"))]).
Proof. split; (apply prefix_stands; [reflexivity|words|words]). Qed.
Example C60_cast_example : exists x, type_assertion_new luau_features (type_named (str "T")) = Done x /\ display x = str "::T" /\ stands cfg_luau soft (expression cfg_luau) (Nd KExprTypeAssertion [name_expression (str "a"); x]).
Proof.
  destruct (cast_stands cfg_luau (name_expression (str "a")) (type_named (str "T")) eq_refl eq_refl) as (x & E & S).
  - apply (stands_less cfg_luau wordless); [intros v V; apply (after_word [58%N]); [reflexivity|now right]|]. eapply bare_stands; [apply at_name|reflexivity|]; [reflexivity|bare].
  - apply type_named_stands; [words|words|discriminate|exact soft_wordless].
  - exists x. split; [exact E|]. split; [vm_compute in E; injection E as <-; vm_compute; reflexivity|exact S].
Qed.
Example C60_instantiation_example : let ts := [type_named (str "T"); type_named (str "U")] in has_luau cfg_luau = true /\ has_lua53 cfg_luau = false /\ has_cfxlua cfg_luau = false /\
  Forall (stands cfg_luau (soft_or [62%N]) (type cfg_luau)) ts /\ Forall (stands cfg_luau (soft_or [62%N]) (result_type cfg_luau)) ts /\ (forall t l, ts = t :: l -> forall v, not_continued (N.eqb 61) (display t ++ v)) /\
  exists t, type_instantiation_new luau_features = Done t /\ display (with_field 2 (listing (join comma ts)) t) = str "<<T, U>>".
Proof.
  cbv zeta. do 3 (split; [reflexivity|]). split; [|split; [|split]].
  - repeat (constructor; [apply type_named_stands; [words|words|discriminate|intros v; now apply (after_word [62%N])]|]). constructor.
  - assert (H : forall w, is_word w -> ~ In w (reserved_words cfg_luau) -> w <> str "typeof" -> stands cfg_luau (soft_or [62%N]) (result_type cfg_luau) (type_named w)).
    { intros w W R T. apply (stands_less cfg_luau wordless); [intros v; now apply (after_word [62%N])|]. eapply bare_stands; [|reflexivity|exists w; repeat split; auto]. do 4 constructor. apply st_name; [reflexivity|]. intros E; apply T; now injection E. }
    repeat (constructor; [apply H; [words|words|discriminate]|]). constructor.
  - intros t l [= <- _] v x q E. vm_compute in E. injection E as <- _. reflexivity.
  - eexists. split; [vm_compute; reflexivity|]. vm_compute. reflexivity.
Qed.
Example C60_compound_example : exists o, token_reference_symbol luau_features (str " += ") = Done (SymOk o) /\ compound_in cfg_luau SPlusEqual /\ stands cfg_luau anything (fun x => x = Tok o /\ sy o SPlusEqual) (Tok o) /\ starts_soft (show_ref o).
Proof.
  eexists. split; [vm_compute; reflexivity|]. split; [now left|]. split; [|do 2 eexists; split; [vm_compute; reflexivity|cbn; tauto]]. apply stands_intro.
  - eexists. split; [split; reflexivity|]. split; [apply filled_refl|reflexivity].
  - rewrite printed_tok. eapply (made_after _ _ SPlusEqual [32%N] [32%N]); [vm_compute; reflexivity|vm_compute; reflexivity|unfold gap_text; tauto|tauto| |intros [Q|Q]; discriminate Q].
    split; [|split; intros; discriminate]. apply to_operator. split; [vm_compute; tauto|]. rewrite app_nil_r. repeat split; try (intros; discriminate).
    intros o v _ E. rewrite E, app_length. lia.
Qed.

(** *** What does not stand. An attribute without a space after its name is one word with [function]. *)
Theorem C60_attribute_refuted : exists a t es, luau_attribute_new luau_features (word_token (str "native")) = Done a /\ anonymous_function_new luau_features = Done t /\
  expression cfg_luau (Nd KExprFunction [with_field 0 (vector [a]) t]) /\ display (with_field 0 (vector [a]) t) = str "@nativefunction()" ++ nl ++ str "end" /\
  parse cfg_luau (str "return " ++ display (with_field 0 (vector [a]) t)) = Done (inr es).
Proof.
  do 3 eexists. split; [vm_compute; reflexivity|]. split; [vm_compute; reflexivity|]. split; [|split; vm_compute; reflexivity].
  constructor. constructor. apply at_function; [repeat constructor; reflexivity|reflexivity|reflexivity|]. apply fb_intro; try reflexivity; repeat constructor.
Qed.
Print Assumptions C60_attribute_refuted.
(** A new [GenericDeclaration] without names prints [<>], which is not parsed. *)
Theorem C60_generics_refuted : exists g x es, generic_declaration_new luau_features = Done g /\ type_declaration_new luau_features (word_token (str "P")) (type_named (str "T")) = Done x /\
  display (with_field 2 (some g) x) = str "type P<> = T" /\ parse cfg_luau (display (with_field 2 (some g) x)) = Done (inr es).
Proof. do 3 eexists. split; [vm_compute; reflexivity|]. split; [vm_compute; reflexivity|]. split; vm_compute; reflexivity. Qed.
Print Assumptions C60_generics_refuted.
(** A result type before a statement needs a space of its own. *)
Theorem C60_result_refuted : exists y s x es, function_body_new luau_features = Done y /\ type_specifier_new luau_features (type_named (str "T")) = Done s /\
  local_function_new luau_features (word_token (str "f")) = Done x /\
  display (with_field 4 (with_field 5 (program [local_y]) (with_field 4 (some s) y)) x) = str "local function f(): Tlocal y" ++ nl ++ str "end" /\
  parse cfg_luau (display (with_field 4 (with_field 5 (program [local_y]) (with_field 4 (some s) y)) x)) = Done (inr es).
Proof. do 4 eexists. split; [vm_compute; reflexivity|]. split; [vm_compute; reflexivity|]. split; [vm_compute; reflexivity|]. split; vm_compute; reflexivity. Qed.
Print Assumptions C60_result_refuted.
(** With the operators of Lua 5.3, the brackets of type arguments are read as shifts. *)
Definition verdict {A B} (r : out (A + list B)) : option bool := match r with Done (inl _) => Some true | Done (inr _) => Some false | _ => None end.
Theorem C60_instantiation_refuted : exists t, type_instantiation_new luau_features = Done t /\ display (with_field 2 (listing [final (type_named (str "T"))]) t) = str "<<T>>" /\
  verdict (parse cfg_all (str "f<<T>>()")) = Some false /\ verdict (parse cfg_luau (str "f<<T>>()")) = Some true.
Proof. eexists. split; [vm_compute; reflexivity|]. split; [vm_compute; reflexivity|]. split; vm_compute; reflexivity. Qed.
Print Assumptions C60_instantiation_refuted.
