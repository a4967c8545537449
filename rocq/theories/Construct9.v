(** Names with attributes and types, generics, and functions with all of it (C60). Proof file. *)
From Verif Require Export Construct8.
From Verif Require Import Lexer LexerSpec TokenSpec TokenProofs TokenTheorems Scan5 Scan6 PunctuatedProofs Reprint2.
From Verif Require Import TreeFacts PrintProofs Round13.
From Verif Require Import RoundSpec ScanSpec Construct Construct2 Construct3 Construct4 ConstructSpec2.
From Coq Require Import Lia.
Local Open Scope nat_scope.
Import ListNotations.

(** ** Lists printed together with vectors *)
Inductive fits (c : cfg) : list tree -> list (list tree) -> Prop :=
| ft_nil vs : fits c [] vs
| ft_cons p ps vs : ok c soft (printed p ++ flat_map (at_ printed 0) vs) -> fits c ps (map (@tl _) vs) -> fits c (p :: ps) vs.
Lemma zip_ok c ps vs : fits c ps vs -> ok c soft (zip_pick printed true (join (tk (str ", ")) ps) vs).
Proof.
  induction 1 as [vs|p ps vs O H IH]; [apply ok_nil|]. destruct ps as [|q ps].
  - cbn [join zip_pick subs at_ nth_error]. rewrite ?app_nil_r. exact O.
  - change (join (tk (str ", ")) (p :: q :: ps)) with (followed p (tk (str ", ")) :: join (tk (str ", ")) (q :: ps)). cbn [zip_pick]. set (z := zip_pick printed true (join _ (q :: ps)) _) in *. clearbody z.
    cbn [subs at_ nth_error]. rewrite printed_tok. rewrite app_assoc. cbn [app]. apply ok_before; [exact O| |starts]. apply ok_cons; [lit|exact IH].
Qed.
Lemma zip_eq d ps : forall vs vs', Forall2 (Forall2 (fun a b => printed b = printed a)) vs vs' -> zip_pick printed true (join d ps) vs' = zip_pick printed true (join d ps) vs.
Proof.
  assert (A : forall vs vs', Forall2 (Forall2 (fun a b => printed b = printed a)) vs vs' -> flat_map (at_ printed 0) vs' = flat_map (at_ printed 0) vs).
  { induction 1 as [|v v' vs vs' E _ IH]; [reflexivity|]. cbn [flat_map]. rewrite IH. f_equal. destruct E as [|x y l l' Exy _]; [reflexivity|exact Exy]. }
  assert (B : forall vs vs', Forall2 (Forall2 (fun a b => printed b = printed a)) vs vs' -> Forall2 (Forall2 (fun a b => printed b = printed a)) (map (@tl _) vs) (map (@tl _) vs')).
  { induction 1 as [|v v' vs vs' E _ IH]; constructor; [|exact IH]. destruct E; [constructor|assumption]. }
  induction ps as [|p ps IH]; intros vs vs' E; [reflexivity|]. destruct ps as [|q ps].
  - cbn [join zip_pick subs]. now rewrite (A _ _ E).
  - change (join d (p :: q :: ps)) with (followed p d :: join d (q :: ps)). cbn [zip_pick]. rewrite (IH _ _ (B _ _ E)), (A _ _ E). reflexivity.
Qed.
Lemma printed_some t : printed (some t) = printed t.
Proof. rewrite printed_con. cbn [flat_map]. now rewrite app_nil_r. Qed.
Lemma printed_none : printed none = [].
Proof. now rewrite printed_con. Qed.

(** ** Local assignments *)
Definition same_vector (l l' : list tree) : Prop := Forall2 filled l l' /\ Forall2 (fun a b => printed b = printed a) l l'.
Lemma same_cons x y l l' : filled x y -> printed y = printed x -> same_vector l l' -> same_vector (x :: l) (y :: l').
Proof. intros F Q [A B]. split; constructor; auto. Qed.
Lemma specifier_text f t s : type_specifier_new f t = Done s -> exists l, printed s = sk (str ": ") :: l.
Proof. unfold type_specifier_new, make, each. rewrite symbol_done by (unfold always; member). intros [= <-]. prints. eauto. Qed.
Lemma specifier_use c F f t s : has_luau c = true -> stands c F (type c) t -> type_specifier_new f t = Done s -> stands c F (specifier c) s.
Proof. intros U T E. destruct (specifier_stands c F f t U T) as (x & Ex & Sx). rewrite Ex in E. now injection E as <-. Qed.
Lemma declared_ok c f n a t : declared c f n a t -> ok c soft (n :: printed a ++ printed t) /\ nm n /\ exists a' t', bound c a' t' /\ filled a a' /\ filled t t' /\ printed a' = printed a /\ printed t' = printed t.
Proof.
  intros H. destruct H as [n N|n t s N U T E|n m a N V M E].
  - rewrite printed_none. split; [now apply bare_soft|]. split; [now apply (bare_nm c)|]. exists none, none. repeat split; try apply filled_refl. repeat constructor.
  - pose proof (specifier_use _ _ _ _ _ U T E) as S. destruct (specifier_text _ _ _ E) as (l & El). parts S. split; [|split; [now apply (bare_nm c)|]].
    + rewrite printed_none, printed_some. cbn [app]. rewrite El in *. apply name_then; [exact N|exact O|no_word].
    + exists none, (some t0). repeat split; [|apply filled_refl|fills|now rewrite !printed_some]. constructor. now constructor.
  - destruct (attribute_stands c f m V M) as (x & Ex & S). rewrite Ex in E. injection E as <-. assert (El : exists l, printed x = sk (str "<") :: l).
    { unfold attribute_new, make, span_new, each in Ex. repeat (rewrite symbol_done in Ex by (unfold always; member)). injection Ex as <-. prints. eauto. }
    destruct El as (l & El). parts S. split; [|split; [now apply (bare_nm c)|]].
    + rewrite printed_none, printed_some, app_nil_r. rewrite El in *. apply name_then; [exact N|exact O|no_word].
    + exists (some t), none. repeat split; [exact P|fills|apply filled_refl|now rewrite !printed_some].
Qed.
Lemma declarations_ok c f ns as_ ts : declarations c f ns as_ ts -> fits c (map Tok ns) [as_; ts] /\
  (ns <> [] -> exists as' ts', bindings (bound c) (join (tk (str ", ")) (map Tok ns)) as' ts' /\ same_vector as_ as' /\ same_vector ts ts').
Proof.
  induction 1 as [|n a t ns as_ ts D H [IH1 IH2]]; [split; [constructor|easy]|]. destruct (declared_ok _ _ _ _ _ D) as (O & N & a' & t' & B & Fa & Ft & Qa & Qt). split.
  - cbn [map]. constructor; [|exact IH1]. rewrite printed_tok. cbn [flat_map at_ nth_error]. rewrite app_nil_r. exact O.
  - intros _. destruct ns as [|n2 ns].
    + inversion H; subst. exists [a'], [t']. split; [now constructor|]. split; apply same_cons; auto; split; constructor.
    + destruct IH2 as (as' & ts' & Bs & Sa & St); [easy|]. exists (a' :: as'), (t' :: ts'). split; [|split; now apply same_cons].
      cbn [map]. change (join (tk (str ", ")) (Tok n :: Tok n2 :: map Tok ns)) with (followed (Tok n) (tk (str ", ")) :: join (tk (str ", ")) (map Tok (n2 :: ns))). constructor; auto; tok_sy.
Qed.
Lemma filled_listing l : filled (listing l) (listing l).
Proof. apply filled_refl. Qed.
Lemma fill_vector l l' : same_vector l l' -> filled (vector l) (vector l').
Proof. intros [F _]. now constructor. Qed.
Ltac fills2 := repeat first [apply fl_node|apply Forall2_cons|apply Forall2_nil|apply fill_vector; eassumption|eassumption|apply filled_refl].
Lemma zip_two d ps a a' b b' : same_vector a a' -> same_vector b b' -> zip_pick printed true (join d ps) [a'; b'] = zip_pick printed true (join d ps) [a; b].
Proof. intros [_ A] [_ B]. apply zip_eq. now repeat constructor. Qed.
Lemma zip_one d ps a a' : same_vector a a' -> zip_pick printed true (join d ps) [a'] = zip_pick printed true (join d ps) [a].
Proof. intros [_ A]. apply zip_eq. now repeat constructor. Qed.
Lemma declared_stands c f ns as_ ts d : basic_token f (str ", ") = Done (Tok d) -> ns <> [] -> declarations c f ns as_ ts ->
  exists t, local_assignment_new f (listing (join d (map Tok ns))) = Done t /\ stands c soft (statement c) (Nd KStmtLocalAssignment [with_field 3 (vector as_) (with_field 1 (vector ts) t)]).
Proof.
  intros Ed NE D. use_comma Ed. destruct (declarations_ok _ _ _ _ _ D) as [Ft B]. destruct (B NE) as (as' & ts' & Bs & Sa & St). apply zip_ok in Ft. unfold local_assignment_new, make, each. repeat literal. eexists. split; [reflexivity|]. cbn [with_field replace no_value no_values no_pairs]. apply stands_intro.
  - eexists. split; [apply sm_local with (o := tk (str "local ")) (as_ := as') (ts := ts'); [|exact Bs]; tok_sy|]. split; [fills2|]. prints. now rewrite (zip_two _ _ _ _ _ _ Sa St).
  - prints. rewrite ?app_nil_r. apply ok_cons; [lit|exact Ft].
Qed.
Lemma declared_values_stands c f ns as_ ts es d : basic_token f (str ", ") = Done (Tok d) -> ns <> [] -> es <> [] -> declarations c f ns as_ ts -> Forall (stands c soft (expression c)) es ->
  exists t q, local_assignment_new f (listing (join d (map Tok ns))) = Done t /\ basic_token f (str " = ") = Done q /\
    stands c soft (statement c) (Nd KStmtLocalAssignment [with_field 5 (listing (join d es)) (with_field 4 (some q) (with_field 3 (vector as_) (with_field 1 (vector ts) t)))]).
Proof.
  intros Ed NE N2 D E. use_comma Ed. destruct (declarations_ok _ _ _ _ _ D) as [Ft B]. destruct (B NE) as (as' & ts' & Bs & Sa & St). apply zip_ok in Ft.
  pose proof (comma_values _ _ _ N2 E) as V. parts V. destruct P as (l2 & -> & P2). unfold local_assignment_new, make, each. repeat literal. do 2 eexists. split; [reflexivity|]. split; [reflexivity|]. cbn [with_field replace no_value no_values no_pairs]. apply stands_intro.
  - eexists. split; [apply sm_local_values with (o := tk (str "local ")) (as_ := as') (ts := ts') (s := SEqual) (q := tk (str " = ")); [|exact Bs| | |exact P2]; try tok_sy; exact Logic.I|]. split; [fills2|]. rewrite !printed_con in Q. prints. now rewrite (zip_two _ _ _ _ _ _ Sa St), Q.
  - rewrite printed_con in O. prints. rewrite ?app_nil_r. apply ok_cons; [lit|]. apply ok_before; [exact Ft| |starts]. chain.
Qed.

(** ** Parameters with types *)
Lemma typed_ok c f ps ts : typed_parameters c f ps ts -> fits c ps [ts] /\
  (ps <> [] -> exists ts' n, parameters (optional (specifier c)) (optional (dots_specifier c)) (has_luau c) (join (tk (str ", ")) ps) (ts' ++ repeat none n) /\ same_vector ts ts').
Proof.
  induction 1 as [|d Sd R|n ps ts N H [IH1 IH2]|n t s ps ts N U T E H [IH1 IH2]].
  - split; [constructor|easy].
  - split.
    + constructor; [|constructor]. prints. split; [|exact R]. intros r [<-|[]] (w & k & Ew). unfold terminal_of in Sd. rewrite Ew in Sd. discriminate.
    + intros _. cbn [join]. destruct (has_luau c) eqn:L; [exists [], 1; split; [apply p_dots; auto; constructor|]|exists [], 0; split; [now apply p_plain|]]; split; constructor.
  - split.
    + constructor; [|exact IH1]. prints. cbn [flat_map at_ nth_error app]. rewrite ?printed_con. now apply bare_soft.
    + intros _. destruct ps as [|p ps].
      * inversion H; subst. exists [none], 0. split; [apply RoundSpec.p_last; [now apply (bare_nm c)|constructor]|]. apply same_cons; [apply filled_refl|reflexivity|split; constructor].
      * destruct IH2 as (ts' & k & Ps & Sv); [easy|]. exists (none :: ts'), k. split; [|apply same_cons; [apply filled_refl|reflexivity|exact Sv]].
        change (join (tk (str ", ")) (Nd KParamName [Tok n] :: p :: ps)) with (followed (Nd KParamName [Tok n]) (tk (str ", ")) :: join (tk (str ", ")) (p :: ps)). cbn [app]. apply RoundSpec.p_more; [now apply (bare_nm c)|tok_sy|constructor|exact Ps].
  - pose proof (specifier_use _ _ _ _ _ U T E) as S. destruct (specifier_text _ _ _ E) as (l & El). parts S. split.
    + constructor; [|exact IH1]. prints. cbn [flat_map at_ nth_error app]. rewrite ?app_nil_r. rewrite El in *. apply name_then; [exact N|exact O|no_word].
    + intros _. destruct ps as [|p ps].
      * inversion H; subst. exists [some t0], 0. split; [apply RoundSpec.p_last; [now apply (bare_nm c)|now constructor]|]. apply same_cons; [fills|now rewrite !printed_some|split; constructor].
      * destruct IH2 as (ts' & k & Ps & Sv); [easy|]. exists (some t0 :: ts'), k. split; [|apply same_cons; [fills|now rewrite !printed_some|exact Sv]].
        change (join (tk (str ", ")) (Nd KParamName [Tok n] :: p :: ps)) with (followed (Nd KParamName [Tok n]) (tk (str ", ")) :: join (tk (str ", ")) (p :: ps)). cbn [app]. apply RoundSpec.p_more; [now apply (bare_nm c)|tok_sy|now constructor|exact Ps].
Qed.

Lemma zip_pad d ps : forall ts n, zip_pick printed true (join d ps) [ts ++ repeat none n] = zip_pick printed true (join d ps) [ts].
Proof.
  assert (A : forall ts n, at_ printed 0 (ts ++ repeat none n) = at_ printed 0 ts).
  { intros [|t ts] n; [destruct n; [reflexivity|]; cbn [repeat app at_ nth_error]; now rewrite printed_con|reflexivity]. }
  assert (B : forall ts n, exists m, tl (ts ++ repeat none n) = tl ts ++ repeat none m).
  { intros [|t ts] n; [destruct n; [exists 0|exists n]; reflexivity|exists n; reflexivity]. }
  induction ps as [|p ps IH]; intros ts n; [reflexivity|]. destruct ps as [|q ps].
  - cbn [join zip_pick flat_map]. now rewrite A.
  - change (join d (p :: q :: ps)) with (followed p d :: join d (q :: ps)). cbn [zip_pick map]. destruct (B ts n) as (m & ->). rewrite IH. cbn [flat_map]. now rewrite A.
Qed.

(** ** Generic names *)
Lemma generic_names_list c b ns : ns <> [] -> Forall (bare_name c) ns -> generic_list c b false false (join (tk (str ", ")) (generic_names ns)).
Proof.
  intros NE. induction ns as [|n ns IH]; [easy|]. intros H. inversion H as [|? ? N Hs]; subst. destruct ns as [|n2 ns].
  - apply gl_last with false false. apply gn_name. now apply (bare_nm c).
  - specialize (IH ltac:(easy) Hs). cbn [generic_names map] in *. set (x := generic_declaration_parameter_new (Nd KGenericParamName [Tok n2])) in *. set (l := map _ ns) in *.
    change (join (tk (str ", ")) (generic_declaration_parameter_new (Nd KGenericParamName [Tok n]) :: x :: l)) with (followed (generic_declaration_parameter_new (Nd KGenericParamName [Tok n])) (tk (str ", ")) :: join (tk (str ", ")) (x :: l)).
    apply gl_more with false false; [apply gn_name; now apply (bare_nm c)|tok_sy|exact IH].
Qed.
Lemma generic_names_ok c ns : ns <> [] -> Forall (bare_name c) ns -> ok c wordless (flat_map printed (join (tk (str ", ")) (generic_names ns))) /\ exists n l, bare_name c n /\ flat_map printed (join (tk (str ", ")) (generic_names ns)) = n :: l.
Proof.
  intros NE. induction ns as [|n ns IH]; [easy|]. intros H. inversion H as [|? ? N Hs]; subst. destruct ns as [|n2 ns].
  - cbn [generic_names map join flat_map]. unfold generic_declaration_parameter_new. prints. split; [now apply bare_ok|exists n, []; auto].
  - specialize (IH ltac:(easy) Hs). cbn [generic_names map] in *. set (x := generic_declaration_parameter_new (Nd KGenericParamName [Tok n2])) in *. set (l := map _ ns) in *.
    change (join (tk (str ", ")) (generic_declaration_parameter_new (Nd KGenericParamName [Tok n]) :: x :: l)) with (followed (generic_declaration_parameter_new (Nd KGenericParamName [Tok n])) (tk (str ", ")) :: join (tk (str ", ")) (x :: l)).
    set (r := join _ (x :: l)) in *. clearbody r. cbn [flat_map]. unfold generic_declaration_parameter_new. prints. split; [|exists n; eexists; split; [exact N|reflexivity]]. apply name_then; [exact N|apply ok_cons; [lit|apply IH]|no_word].
Qed.
Lemma generics_stand c f b ns d : basic_token f (str ", ") = Done (Tok d) -> ns <> [] -> Forall (bare_name c) ns ->
  exists g, generic_declaration_new f = Done g /\ stands c soft (generics c b) (with_field 1 (listing (join d (generic_names ns))) g).
Proof.
  intros Ed NE H. use_comma Ed. unfold generic_declaration_new, make, span_new, each. repeat symbol. eexists. split; [reflexivity|]. cbn [with_field replace no_pairs]. apply stands_intro.
  - eexists. split; [|split; [apply filled_refl|reflexivity]]. apply ge_intro; [tok_sy|tok_sy|now apply generic_names_list].
  - destruct (generic_names_ok c ns NE H) as (O & n & l & N & E). set (z := join _ (generic_names ns)) in *. clearbody z. prints. rewrite E in *. apply (before_name c soft [sk (str "<")]); [apply less_ok|exact N|]. apply (ok_app c wordless soft (n :: l) [sk (str ">")]); [exact O|apply greater_ok|].
    intros v _ x q Ev. vm_compute in Ev. injection Ev as <- _. reflexivity.
Qed.
Lemma generics_text f ns d g : generic_declaration_new f = Done g -> exists l, printed (with_field 1 (listing (join d (generic_names ns))) g) = sk (str "<") :: l.
Proof. unfold generic_declaration_new, make, span_new, each. repeat symbol. intros [= <-]. cbn [with_field replace]. prints. eauto. Qed.
Lemma generic_type_stands c f n ns t d : basic_token f (str ", ") = Done (Tok d) -> has_luau c = true -> bare_name c n -> ns <> [] -> Forall (bare_name c) ns -> stands c soft (type c) t ->
  exists g x, generic_declaration_new f = Done g /\ type_declaration_new f n t = Done x /\
    stands c soft (statement c) (Nd KStmtTypeDeclaration [with_field 2 (some (with_field 1 (listing (join d (generic_names ns))) g)) x]) /\
    stands c soft (statement c) (Nd KStmtExportedTypeDeclaration [exported_type_declaration_new (with_field 2 (some (with_field 1 (listing (join d (generic_names ns))) g)) x)]).
Proof.
  intros Ed U N NE H T. destruct (generics_stand c f true ns d Ed NE H) as (g & Eg & Sg). destruct (generics_text f ns d g Eg) as (l & El). exists g. set (y := with_field 1 _ g) in *. clearbody y.
  parts Sg. parts T. unfold type_declaration_new, make, each. repeat symbol. eexists. split; [exact Eg|]. split; [reflexivity|]. cbn [with_field replace no_value].
  assert (D : type_declaration c (Nd KTypeDeclaration [Tok (word_and_space (str "type")); Tok n; some t0; Tok (sk (str " = ")); t1])) by (constructor; try assumption; try tok_sy; try reflexivity; [now apply (bare_nm c)|now constructor]).
  assert (OD : ok c soft (word_and_space (str "type") :: n :: printed y ++ sk (str " = ") :: printed t)).
  { apply ok_cons; [apply word_any; apply type_words; auto|]. rewrite El in *. cbn [app]. apply name_then; [exact N| |no_word]. change (ok c soft ((sk (str "<") :: l) ++ sk (str " = ") :: printed t)). apply ok_before; [assumption| |apply first_soft; sk_lit]. apply ok_cons; [sk_lit|assumption]. }
  split; apply stands_intro.
  - eexists. split; [|split; [fills|prints; now rewrite Q, Q0]]. now constructor.
  - prints. rewrite ?app_nil_r. exact OD.
  - eexists. split; [|split; [unfold exported_type_declaration_new; fills|unfold exported_type_declaration_new; prints; now rewrite Q, Q0]]. apply sm_export; [reflexivity|exact D].
  - unfold exported_type_declaration_new. prints. rewrite ?app_nil_r. apply ok_cons; [apply word_any; apply type_words; auto|exact OD].
Qed.

(** ** Function bodies with types *)
Lemma fill_params ts ts' n : same_vector ts ts' -> filled (vector ts) (vector (ts' ++ repeat none n)).
Proof. intros [F _]. now apply fl_vector. Qed.
Lemma typed_body c f g ps ts r b d : basic_token f (str ", ") = Done (Tok d) -> stands c soft (body_generics c) g -> typed_parameters c f ps ts -> stands c anything (optional (result_specifier c)) r -> stands c soft (block c) b ->
  exists y, function_body_new f = Done y /\ stands c soft (function_body c) (with_field 5 b (with_field 4 r (with_field 3 (vector ts) (with_field 2 (listing (join d ps)) (with_field 0 g y))))).
Proof.
  intros Ed G D R B. use_comma Ed. destruct (typed_ok _ _ _ _ D) as [Ft Bp]. apply zip_ok in Ft. parts G. parts R. parts B.
  assert (HP : exists ts' n, body_parameters c (join (tk (str ", ")) ps) (ts' ++ repeat none n) /\ same_vector ts ts').
  { destruct ps as [|p ps]; [inversion D; subst; exists [], 0; split; [constructor|split; constructor]|]. destruct Bp as (ts' & n & Ps & Sv); [easy|]. exists ts', n. split; [now constructor|exact Sv]. }
  destruct HP as (ts' & n & HP & Sv). unfold function_body_new, make, each, span_new, each. repeat literal. eexists. split; [reflexivity|]. cbn [with_field replace no_value no_values no_pairs]. apply stands_intro.
  - exists (Nd KFunctionBody [t; Con CSpan [Tok (tk (str "(")); Tok (tk (str ")"))]; listing (join (tk (str ", ")) ps); vector (ts' ++ repeat none n); t0; t1; Tok (tk (nl ++ str "end"))]).
    split; [apply fb_intro; try assumption; tok_sy|]. split.
    + repeat first [apply fl_node|apply Forall2_cons|apply Forall2_nil|apply fill_params; assumption|eassumption|apply filled_refl].
    + rewrite !printed_nd. cbn [display_order flat_map pick at_ subs_at subs nth_error map]. rewrite !printed_tok. cbn [app]. rewrite zip_pad, (zip_one _ _ _ _ Sv), Q, Q0, Q1. reflexivity.
  - rewrite printed_nd. cbn [display_order flat_map pick at_ subs_at subs nth_error map]. rewrite !printed_tok. cbn [app]. rewrite ?app_nil_r.
    apply ok_before; [assumption| |starts]. apply ok_cons; [lit|]. apply ok_before; [exact Ft| |starts]. apply ok_cons; [lit|]. apply ok_any; [assumption|]. apply ok_before; [assumption|lit|starts].
Qed.
Lemma no_generics c F : stands c F (body_generics c) none.
Proof. apply stands_intro; [exists none; split; [constructor|split; [apply filled_refl|reflexivity]]|apply ok_nil]. Qed.
Lemma no_result c F : stands c F (optional (result_specifier c)) none.
Proof. apply stands_intro; [exists none; split; [constructor|split; [apply filled_refl|reflexivity]]|apply ok_nil]. Qed.
Lemma some_generics c f ns d : basic_token f (str ", ") = Done (Tok d) -> has_luau c = true -> ns <> [] -> Forall (bare_name c) ns ->
  exists g, generic_declaration_new f = Done g /\ stands c soft (body_generics c) (some (with_field 1 (listing (join d (generic_names ns))) g)).
Proof.
  intros Ed U NE H. destruct (generics_stand c f false ns d Ed NE H) as (g & Eg & Sg). exists g. split; [exact Eg|]. parts Sg. apply stands_intro.
  - eexists. split; [|split; [fills|now rewrite !printed_some]]. now constructor.
  - rewrite printed_some. exact O.
Qed.
Lemma some_result c f t : has_luau c = true -> stands c anything (result_type c) t -> exists s, type_specifier_new f t = Done s /\ stands c anything (optional (result_specifier c)) (some s).
Proof.
  intros U T. parts T. unfold type_specifier_new, make, each. repeat symbol. eexists. split; [reflexivity|]. apply stands_intro.
  - eexists. split; [|split; [fills|prints; now rewrite Q]]. constructor. apply rs_intro; [exact U|tok_sy|exact P].
  - prints. rewrite ?app_nil_r. apply ok_cons; [apply colon_space_ok|exact O].
Qed.

Lemma function_body_stands c f ns ps ts r b d : basic_token f (str ", ") = Done (Tok d) -> (ns <> [] -> has_luau c = true) -> Forall (bare_name c) ns -> typed_parameters c f ps ts -> stands c anything (optional (result_specifier c)) r -> stands c soft (block c) b ->
  exists g y, generic_declaration_new f = Done g /\ function_body_new f = Done y /\
    let x := with_field 5 b (with_field 4 r (with_field 3 (vector ts) (with_field 2 (listing (join d ps)) (with_field 0 (body_generics_of d g ns) y)))) in
    stands c soft (function_body c) x /\ next_in [40%N; 60%N] (display x).
Proof.
  intros Ed U Ns D R B. assert (G : exists g, generic_declaration_new f = Done g /\ stands c soft (body_generics c) (body_generics_of d g ns) /\ (ns = [] \/ exists l, printed (body_generics_of d g ns) = sk (str "<") :: l)).
  { destruct ns as [|n ns].
    - unfold generic_declaration_new, make, span_new, each. repeat symbol. eexists. split; [reflexivity|]. split; [apply no_generics|now left].
    - destruct (some_generics c f (n :: ns) d Ed) as (g & Eg & Sg); [apply U; easy|easy|exact Ns|]. exists g. split; [exact Eg|]. split; [exact Sg|]. right. unfold body_generics_of. rewrite printed_some. now apply generics_text with f. }
  destruct G as (g & Eg & Sg & Tg). destruct (typed_body c f _ ps ts r b d Ed Sg D R B) as (y & Ey & Sy). exists g, y. split; [exact Eg|]. split; [exact Ey|]. split; [exact Sy|].
  unfold function_body_new, make, each, span_new, each in Ey. repeat (rewrite basic_done in Ey by (unfold literals; member)). injection Ey as <-. cbn [with_field replace no_value no_values no_pairs]. unfold display. rewrite printed_nd. cbn [display_order flat_map pick at_ subs_at subs nth_error map]. rewrite !printed_tok. destruct Tg as [->|(l & ->)].
  - unfold body_generics_of. rewrite printed_none. cbn [app flat_map]. do 2 eexists. split; [vm_compute; reflexivity|cbn; auto].
  - cbn [app flat_map]. do 2 eexists. split; [vm_compute; reflexivity|cbn; auto].
Qed.

(** ** Functions with attributes; type functions *)
Lemma attributes_stand c l : (l <> [] -> has_luau c = true) -> Forall (stands c anything (attribute c)) l -> exists l', attributes c l' /\ Forall (attribute c) l' /\ Forall2 filled l l' /\ flat_map printed l' = flat_map printed l.
Proof.
  intros U H. destruct (stands_all _ _ _ _ H) as (l' & P & F & Q). exists l'. split; [|auto]. destruct F; [constructor|]. constructor; [apply U; easy|exact P].
Qed.
Lemma opening_wordless w v : next_in [40%N; 60%N] w -> wordless (w ++ v).
Proof. intros (x & r & -> & [<-|[<-|[]]]) y q E; injection E as <- _; reflexivity. Qed.
Lemma function_wordless c : ok c wordless [tk (str "function")].
Proof.
  split; [intros r' [<-|[]] (w & k & Q); discriminate Q|]. cbn [flat_map]. rewrite app_nil_r. unfold main_types. cbn [map]. intros st ts _ N T. apply (token_alone c (TSymbol SFunction) (written ts)); auto.
  - apply to_keyword; [cbn; tauto|exact N].
  - apply keyword_alone. cbn. tauto.
  - now intros [E|E].
Qed.
Lemma function_with c f l n y : (l <> [] -> has_luau c = true) -> Forall (stands c anything (attribute c)) l -> stands c wordless function_name n -> stands c soft (function_body c) y -> next_in [40%N; 60%N] (display y) ->
  exists t, function_declaration_new f n = Done t /\ stands c soft (statement c) (Nd KStmtFunctionDeclaration [with_field 0 (vector l) (with_field 3 y t)]).
Proof.
  intros U L N Y Sy. destruct (attributes_stand c l U L) as (l' & Pl & _ & Fl & Ql). pose proof (ok_all _ _ _ L) as Ol. parts N. parts Y. unfold function_declaration_new, function_body_new, make, span_new, each. repeat literal. eexists. split; [reflexivity|]. cbn [with_field replace no_values]. apply stands_intro.
  - eexists. split; [apply sm_function with (l := l') (f := tk (str "function ")) (n := t) (b := t0); try assumption; tok_sy|]. split; [fills|prints; now rewrite Ql, Q, Q0].
  - prints. rewrite ?app_nil_r. apply ok_any; [exact Ol|]. apply ok_cons; [lit|]. eapply ok_app; [exact O|exact O0|]. intros v _. now apply opening_wordless.
Qed.
Lemma local_function_with c f l n y : (l <> [] -> has_luau c = true) -> Forall (stands c anything (attribute c)) l -> bare_name c n -> stands c soft (function_body c) y -> next_in [40%N; 60%N] (display y) ->
  exists t, local_function_new f n = Done t /\ stands c soft (statement c) (Nd KStmtLocalFunction [with_field 0 (vector l) (with_field 4 y t)]).
Proof.
  intros U L N Y Sy. destruct (attributes_stand c l U L) as (l' & Pl & _ & Fl & Ql). pose proof (ok_all _ _ _ L) as Ol. parts Y. unfold local_function_new, function_body_new, make, span_new, each. repeat literal. eexists. split; [reflexivity|]. cbn [with_field replace no_values]. apply stands_intro.
  - eexists. split; [apply sm_local_function with (l := l') (o := tk (str "local ")) (f := tk (str "function ")) (n := n) (b := t); try assumption; [tok_sy|tok_sy|now apply (bare_nm c)]|]. split; [fills|prints; now rewrite Ql, Q].
  - prints. rewrite ?app_nil_r. apply ok_any; [exact Ol|]. do 2 (apply ok_cons; [lit|]). apply (ok_app c wordless soft [n]); [now apply bare_ok|exact O|]. intros v _. now apply opening_wordless.
Qed.
Lemma anonymous_with c f l y : (l <> [] -> has_luau c = true) -> (l <> [] -> f_luau (c_feat c) = true) -> Forall (stands c anything (attribute c)) l -> stands c soft (function_body c) y -> next_in [40%N; 60%N] (display y) ->
  exists t, anonymous_function_new f = Done t /\ stands c soft (expression c) (Nd KExprFunction [with_field 0 (vector l) (with_field 2 y t)]).
Proof.
  intros U Ff L Y Sy. destruct (attributes_stand c l U L) as (l' & _ & Pl & Fl & Ql). pose proof (ok_all _ _ _ L) as Ol. parts Y. unfold anonymous_function_new, function_body_new, make, span_new, each. repeat literal. eexists. split; [reflexivity|]. cbn [with_field replace no_values]. apply stands_intro.
  - eexists. split; [apply ex_unit, ue_atom, at_function with (l := l') (f := tk (str "function")) (b := t); try assumption; [|tok_sy]|]; [intros NE; apply Ff; intros ->; inversion Fl; subst; easy|]. split; [fills|prints; now rewrite Ql, Q].
  - prints. rewrite ?app_nil_r. apply ok_any; [exact Ol|]. apply (ok_app c wordless soft [tk (str "function")]); [apply function_wordless|assumption|]. intros v _. now apply opening_wordless.
Qed.
Lemma type_function_stands c f n y : has_luau c = true -> bare_name c n -> stands c soft (function_body c) y -> next_in [40%N; 60%N] (display y) ->
  exists d, type_function_new f n y = Done d /\ stands c soft (statement c) (Nd KStmtTypeFunction [d]) /\ stands c soft (statement c) (Nd KStmtExportedTypeFunction [exported_type_function_new d]).
Proof.
  intros U N Y Sy. parts Y. unfold type_function_new, make, each. repeat literal. eexists. split; [reflexivity|].
  assert (D : type_function c (Nd KTypeFunction [Tok (word_and_space (str "type")); Tok (tk (str "function ")); Tok n; t])) by (constructor; try assumption; try tok_sy; try reflexivity; now apply (bare_nm c)).
  assert (OD : ok c soft (word_and_space (str "type") :: tk (str "function ") :: n :: printed y)).
  { apply ok_cons; [apply word_any; apply type_words; auto|]. apply ok_cons; [lit|]. apply (ok_app c wordless soft [n]); [now apply bare_ok|exact O|]. intros v _. now apply opening_wordless. }
  split; apply stands_intro.
  - eexists. split; [|split; [fills|prints; now rewrite Q]]. now constructor.
  - prints. rewrite ?app_nil_r. exact OD.
  - eexists. split; [|split; [unfold exported_type_function_new; fills|unfold exported_type_function_new; prints; now rewrite Q]]. apply sm_export_function; [reflexivity|exact D].
  - unfold exported_type_function_new. prints. rewrite ?app_nil_r. apply ok_cons; [apply word_any; apply type_words; auto|exact OD].
Qed.
(** Function names. *)
Lemma dotted_names c f ns d : basic_token f (str ".") = Done (Tok d) -> ns <> [] -> Forall (bare_name c) ns -> stands c wordless function_name (function_name_new (listing (join d (map Tok ns)))).
Proof.
  intros Ed NE H. destruct (dot_ok c f d Ed) as (Sd & Od & Td). unfold function_name_new.
  assert (K : several (fun t => exists r, t = Tok r /\ nm r) SDot (join d (map Tok ns)) /\ ok c wordless (flat_map printed (join d (map Tok ns))) /\ exists n l, bare_name c n /\ flat_map printed (join d (map Tok ns)) = n :: l).
  { induction ns as [|n ns IH]; [easy|]. inversion H as [|? ? N Hs]; subst. destruct ns as [|n2 ns].
    - cbn [map join]. split; [constructor; eexists; split; [reflexivity|now apply (bare_nm c)]|]. cbn [flat_map]. prints. split; [now apply bare_ok|exists n, []; auto].
    - destruct IH as (S & O & m & l & M & E); [easy|exact Hs|]. change (join d (map Tok (n :: n2 :: ns))) with (followed (Tok n) d :: join d (map Tok (n2 :: ns))). set (r := join d (map Tok (n2 :: ns))) in *. clearbody r. split; [constructor; [eexists; split; [reflexivity|now apply (bare_nm c)]|exact Sd|exact S]|].
      cbn [flat_map]. prints. split; [|exists n; eexists; split; [exact N|reflexivity]]. rewrite E in *. apply name_then; [exact N|apply (before_name c wordless [d]); [exact Od|exact M|exact O]|]. intros v x q Ev. rewrite Td in Ev. injection Ev as <- _. reflexivity. }
  destruct K as (S & O & _). apply stands_intro.
  - eexists. split; [|split; [apply filled_refl|reflexivity]]. now apply fn_plain.
  - prints. rewrite ?app_nil_r. exact O.
Qed.
Lemma bare_stands c (P : tree -> Prop) t n : P t -> printed t = [n] -> bare_name c n -> stands c wordless P t.
Proof. intros H E N. apply stands_intro; [exists t; split; [exact H|]; split; [apply filled_refl|reflexivity]|]. rewrite E. now apply bare_ok. Qed.
Lemma stands_less c (F G : text -> Prop) P t : (forall v, G v -> F v) -> stands c F P t -> stands c G P t.
Proof. intros H (E & N & R). split; [exact E|]. split; [exact N|]. eapply reads_less; [|exact R]. exact H. Qed.
Lemma after_word xs v : forallb (fun x => negb (word_part x)) xs = true -> soft_or xs v -> wordless v.
Proof.
  intros H [S|(x & r & -> & I)]; [now apply soft_wordless|]. intros y q E. injection E as <- _. rewrite forallb_forall in H. specialize (H x I). now destruct (word_part x).
Qed.
