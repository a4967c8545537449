(** More nodes made by constructors (C54): loops, conditionals, functions, blocks. Proof file. *)
From Verif Require Export Construct3.
From Verif Require Import Lexer LexerSpec TokenSpec Scan5 Scan6 PunctuatedProofs Reprint2.
From Verif Require Import TreeFacts PrintProofs.
From Verif Require Import RoundSpec ScanSpec.
From Coq Require Import Lia.
Local Open Scope nat_scope.
Import ListNotations.

Ltac literal := rewrite basic_done by (unfold literals; member).
Ltac use_comma E := rewrite basic_done in E by (unfold literals; member); injection E as <-.

(** ** Loops *)
Lemma numeric_for_stands c f n x y b : stands c soft name_tree (Tok n) -> stands c soft (expression c) x -> stands c soft (expression c) y -> stands c soft (block c) b ->
  exists t, numeric_for_new f n x y = Done t /\ stands c soft (statement c) (Nd KStmtNumericFor [with_field 9 b t]).
Proof.
  intros N X Y B. pose proof (stands_ok _ _ _ _ N) as On. apply name_stands in N as (r & [= <-] & Nn). rewrite printed_tok in On. parts X. parts Y. parts B. unfold numeric_for_new, make, each. repeat literal. eexists. split; [reflexivity|]. cbn [with_field replace no_value]. apply stands_intro.
  - eexists. split; [|split; [fills|prints; now rewrite Q, Q0, Q1]]. apply sm_numeric; try assumption; try tok_sy. constructor.
  - prints. apply ok_cons; [lit|]. apply (ok_before c soft [n]); [exact On| |starts]. chain.
Qed.
Lemma numeric_for_step_stands c f n x y z b : stands c soft name_tree (Tok n) -> stands c soft (expression c) x -> stands c soft (expression c) y -> stands c soft (expression c) z -> stands c soft (block c) b ->
  exists t d, numeric_for_new f n x y = Done t /\ basic_token f (str ", ") = Done d /\ stands c soft (statement c) (Nd KStmtNumericFor [with_field 9 b (with_field 7 (some z) (with_field 6 (some d) t))]).
Proof.
  intros N X Y Z B. pose proof (stands_ok _ _ _ _ N) as On. apply name_stands in N as (r & [= <-] & Nn). rewrite printed_tok in On. parts X. parts Y. parts Z. parts B. unfold numeric_for_new, make, each. repeat literal. do 2 eexists. split; [reflexivity|]. split; [reflexivity|]. cbn [with_field replace no_value]. apply stands_intro.
  - eexists. split; [|split; [fills|prints; now rewrite Q, Q0, Q1, Q2]]. apply sm_numeric_step; try assumption; try tok_sy. constructor.
  - prints. apply ok_cons; [lit|]. apply (ok_before c soft [n]); [exact On| |starts]. chain.
Qed.
Lemma generic_for_stands c f ns es b d : basic_token f (str ", ") = Done (Tok d) -> ns <> [] -> es <> [] -> Forall (stands c soft name_tree) ns -> Forall (stands c soft (expression c)) es -> stands c soft (block c) b ->
  exists t, generic_for_new f (listing (join d ns)) (listing (join d es)) = Done t /\ stands c soft (statement c) (Nd KStmtGenericFor [with_field 5 b t]).
Proof.
  intros Ed NE N2 H E B. use_comma Ed. pose proof (stands_ok _ _ _ _ (comma_values _ _ _ NE H)) as A. apply names_stand in H. rewrite printed_con in A.
  pose proof (comma_values _ _ _ N2 E) as V. parts V. destruct P as (l2 & -> & P2). parts B. unfold generic_for_new, make, each. repeat literal. eexists. split; [reflexivity|]. cbn [with_field replace no_values]. apply stands_intro.
  - exists (Nd KStmtGenericFor [Nd KGenericFor [Tok (tk (str "for ")); listing (join (tk (str ", ")) ns); Tok (tk (str " in ")); listing l2; Tok (tk (str " do" ++ nl)); t; Tok (tk (nl ++ str "end")); vector (repeat none (List.length ns))]]).
    split; [apply sm_generic with (repeat none (List.length ns)); try assumption; try tok_sy; apply names_bound; [repeat constructor|tok_sy|exact NE|exact H]|]. split.
    + repeat first [apply fl_node|apply Forall2_cons|apply Forall2_nil|apply fills_vector|exact F|exact F0|apply filled_refl].
    + rewrite !printed_con in Q. prints. rewrite !zip_blank; [now rewrite Q, Q0|repeat constructor; apply blank_nil|repeat constructor; apply blank_repeat].
  - rewrite printed_con in O. prints. rewrite zip_blank by (repeat constructor; apply blank_nil). chain.
Qed.

(** ** Conditionals *)
Lemma if_stands c f e b : stands c soft (expression c) e -> stands c soft (block c) b ->
  exists t h, if_new f e = Done t /\ basic_token f (str " then" ++ nl) = Done h /\ stands c soft (statement c) (Nd KStmtIf [with_field 3 b (with_field 2 h t)]).
Proof.
  intros E B. parts E. parts B. unfold if_new, make, each. repeat literal. do 2 eexists. split; [reflexivity|]. split; [reflexivity|]. cbn [with_field replace no_value]. apply stands_intro.
  - eexists. split; [|split; [fills|prints; now rewrite Q, Q0]]. apply sm_if; try assumption; try tok_sy. constructor.
  - prints. chain.
Qed.
(** Without a block the constructor's own token will do. *)
Lemma if_empty_stands c f e : stands c soft (expression c) e -> exists t, if_new f e = Done t /\ stands c soft (statement c) (Nd KStmtIf [t]).
Proof.
  intros E. parts E. unfold if_new, make, each. repeat literal. eexists. split; [reflexivity|]. cbn [no_value]. apply stands_intro.
  - eexists. split; [|split; [unfold block_new; fills|unfold block_new; prints; now rewrite Q]]. apply sm_if; try assumption; try tok_sy; repeat constructor.
  - unfold block_new. prints. apply ok_cons; [lit|]. rewrite app_nil_r. apply ok_before; [exact O| |starts]. apply (ok_before c soft [tk (str " then")]); [lit|lit|starts].
Qed.
Lemma else_if_stands c f e b : stands c soft (expression c) e -> stands c anything (block c) b ->
  exists t, else_if_new f e = Done t /\ stands c anything (else_if_block c) (with_field 3 b t).
Proof.
  intros E B. parts E. parts B. unfold else_if_new, make, each. repeat literal. eexists. split; [reflexivity|]. cbn [with_field replace no_value]. apply stands_intro.
  - eexists. split; [|split; [fills|prints; now rewrite Q, Q0]]. apply eb_intro; try assumption; try tok_sy.
  - prints. chain.
Qed.
Lemma else_ifs_stand c l : l <> [] -> Forall (stands c anything (else_if_block c)) l -> stands c anything (else_if_blocks c) (some (vector l)).
Proof.
  intros NE H. pose proof (ok_all _ _ _ H) as O. destruct (stands_all _ _ _ _ H) as (l' & P & F & Q). apply stands_intro.
  - exists (some (vector l')). split; [|split].
    + inversion F as [E|x x' m m' ? ? E]; subst; [easy|]. now constructor.
    + repeat constructor. exact F.
    + prints. now rewrite Q.
  - prints. chain.
Qed.
Lemma no_else_ifs c : stands c anything (else_if_blocks c) none.
Proof. apply stands_intro; [exists none; split; [constructor|split; [apply filled_refl|reflexivity]]|apply ok_nil]. Qed.
Lemma if_else_if_stands c f e b l : stands c soft (expression c) e -> stands c anything (block c) b -> stands c anything (else_if_blocks c) l ->
  exists t h, if_new f e = Done t /\ basic_token f (str " then" ++ nl) = Done h /\ stands c soft (statement c) (Nd KStmtIf [with_field 4 l (with_field 3 b (with_field 2 h t))]).
Proof.
  intros E B L. parts E. parts B. parts L. unfold if_new, make, each. repeat literal. do 2 eexists. split; [reflexivity|]. split; [reflexivity|]. cbn [with_field replace no_value]. apply stands_intro.
  - eexists. split; [|split; [fills|prints; now rewrite Q, Q0, Q1]]. apply sm_if; try assumption; try tok_sy.
  - prints. chain.
Qed.
Lemma if_else_stands c f e b l z : stands c soft (expression c) e -> stands c anything (block c) b -> stands c anything (else_if_blocks c) l -> stands c soft (block c) z ->
  exists t h w, if_new f e = Done t /\ basic_token f (str " then" ++ nl) = Done h /\ basic_token f (str "else" ++ nl) = Done w /\
    stands c soft (statement c) (Nd KStmtIf [with_field 6 (some z) (with_field 5 (some w) (with_field 4 l (with_field 3 b (with_field 2 h t))))]).
Proof.
  intros E B L Z. parts E. parts B. parts L. parts Z. unfold if_new, make, each. repeat literal. do 3 eexists. split; [reflexivity|]. split; [reflexivity|]. split; [reflexivity|]. cbn [with_field replace no_value]. apply stands_intro.
  - eexists. split; [|split; [fills|prints; now rewrite Q, Q0, Q1, Q2]]. apply sm_if_else; try assumption; try tok_sy.
  - prints. chain.
Qed.

(** ** Functions *)
Lemma params_ok c b d ps : sy d SComma -> ps <> [] -> parameter_trees ps -> (b = has_luau c) ->
  exists n, parameters (optional (specifier c)) (optional (dots_specifier c)) b (join d ps) (repeat none n).
Proof.
  intros Sd NE H ->. induction H as [|e Se|r ps N H IH]; [easy| |].
  - destruct (has_luau c) eqn:L; [exists 1; apply p_dots; auto; constructor|exists 0; now apply p_plain].
  - destruct ps as [|p ps]; [exists 1; apply p_last; [exact N|constructor]|]. destruct IH as (n & IH); [easy|]. exists (S n).
    change (join d (Nd KParamName [Tok r] :: p :: ps)) with (followed (Nd KParamName [Tok r]) d :: join d (p :: ps)). cbn [repeat]. constructor; auto. constructor.
Qed.
Lemma params_all c d ps : sy d SComma -> parameter_trees ps -> exists n, body_parameters c (join d ps) (repeat none n).
Proof.
  intros Sd H. destruct ps as [|p ps]; [exists 0; constructor|]. destruct (params_ok c (has_luau c) d (p :: ps)) as (n & E); auto; [easy|]. exists n. now constructor.
Qed.
Lemma params_sort ps : parameter_trees ps -> Forall (fun t => exists r, printed t = [r] /\ ~ part_of_string r) ps.
Proof.
  induction 1 as [|d Sd|r ps N _ IH]; repeat constructor; auto.
  - exists d. split; [reflexivity|]. intros (w & k & E). unfold terminal_of in Sd. rewrite E in Sd. discriminate.
  - exists r. split; [reflexivity|]. intros (w & k & E). unfold terminal_of in N. rewrite E in N. discriminate.
Qed.
Lemma body_stands c f ps b d : basic_token f (str ", ") = Done (Tok d) -> parameter_trees ps -> Forall (reads_tree c soft) ps -> stands c soft (block c) b ->
  exists t, function_body_new f = Done t /\ stands c soft (function_body c) (with_field 5 b (with_field 2 (listing (join d ps)) t)).
Proof.
  intros Ed H Hr B. use_comma Ed. parts B. destruct (params_all c (tk (str ", ")) ps ltac:(tok_sy) H) as (n & Pn).
  assert (OP : ok c soft (flat_map printed (join (tk (str ", ")) ps))).
  { destruct ps as [|p ps]; [apply ok_nil|]. rewrite <- (printed_con CPunctuated). apply (stands_ok c soft (values (fun _ => True))). apply comma_values; [easy|]. apply params_sort in H.
    rewrite Forall_forall in *. intros t0 I. destruct (H t0 I) as (r & E & Nr). split; [exists t0; split; [exact Logic.I|split; [apply filled_refl|reflexivity]]|]. split; [|now apply Hr]. rewrite E. intros r' [<-|[]]. exact Nr. }
  unfold function_body_new, make, each, span_new, each. repeat literal. eexists. split; [reflexivity|]. cbn [with_field replace no_value no_values no_pairs]. apply stands_intro.
  - exists (Nd KFunctionBody [none; Con CSpan [Tok (tk (str "(")); Tok (tk (str ")"))]; listing (join (tk (str ", ")) ps); vector (repeat none n); none; t; Tok (tk (nl ++ str "end"))]).
    split; [apply fb_intro; try assumption; try tok_sy; constructor|]. split.
    + repeat first [apply fl_node|apply Forall2_cons|apply Forall2_nil|apply fills_vector|exact F|apply filled_refl].
    + prints. rewrite !zip_blank; [now rewrite Q|repeat constructor; apply blank_nil|repeat constructor; apply blank_repeat].
  - prints. rewrite zip_blank by (repeat constructor; apply blank_nil). chain.
Qed.
Lemma body_starts f t ps b d : function_body_new f = Done t -> basic_token f (str ", ") = Done (Tok d) -> starts_soft (flat_map show_ref (printed (with_field 5 b (with_field 2 (listing (join d ps)) t)))).
Proof.
  intros E Ed. use_comma Ed. unfold function_body_new, make, each, span_new, each in E. repeat (rewrite basic_done in E by (unfold literals; member)). injection E as <-. cbn [with_field replace no_value no_values no_pairs]. prints. starts.
Qed.
Lemma local_function_stands c f n ps b d : basic_token f (str ", ") = Done (Tok d) -> stands c soft name_tree (Tok n) -> parameter_trees ps -> Forall (reads_tree c soft) ps -> stands c soft (block c) b ->
  exists t y, local_function_new f n = Done t /\ function_body_new f = Done y /\
    stands c soft (statement c) (Nd KStmtLocalFunction [with_field 4 (with_field 5 b (with_field 2 (listing (join d ps)) y)) t]).
Proof.
  intros Ed N H Hr B. destruct (body_stands c f ps b d Ed H Hr B) as (y & Ey & Y). pose proof (body_starts f y ps b d Ey Ed) as Sy. pose proof (stands_ok _ _ _ _ N) as On. apply name_stands in N as (r & [= <-] & Nn). rewrite printed_tok in On.
  unfold local_function_new, make, each. rewrite Ey. repeat literal. do 2 eexists. split; [reflexivity|]. split; [reflexivity|]. set (x := with_field 5 b _) in *. clearbody x. parts Y. cbn [with_field replace no_values]. apply stands_intro.
  - eexists. split; [|split; [fills|prints; now rewrite Q]]. apply sm_local_function; try assumption; try tok_sy. constructor.
  - prints. do 2 (apply ok_cons; [lit|]). rewrite !app_nil_r. apply (ok_before c soft [n]); assumption.
Qed.
Lemma function_stands c f n ps b d : basic_token f (str ", ") = Done (Tok d) -> stands c soft function_name n -> parameter_trees ps -> Forall (reads_tree c soft) ps -> stands c soft (block c) b ->
  exists t y, function_declaration_new f n = Done t /\ function_body_new f = Done y /\
    stands c soft (statement c) (Nd KStmtFunctionDeclaration [with_field 3 (with_field 5 b (with_field 2 (listing (join d ps)) y)) t]).
Proof.
  intros Ed N H Hr B. destruct (body_stands c f ps b d Ed H Hr B) as (y & Ey & Y). pose proof (body_starts f y ps b d Ey Ed) as Sy. parts N.
  unfold function_declaration_new, make, each. rewrite Ey. repeat literal. do 2 eexists. split; [reflexivity|]. split; [reflexivity|]. set (x := with_field 5 b _) in *. clearbody x. parts Y. cbn [with_field replace no_values]. apply stands_intro.
  - eexists. split; [|split; [fills|prints; now rewrite Q, Q0]]. apply sm_function; try assumption; try tok_sy. constructor.
  - prints. apply ok_cons; [lit|]. rewrite !app_nil_r. apply ok_before; assumption.
Qed.
Lemma anonymous_stands c f ps b d : basic_token f (str ", ") = Done (Tok d) -> parameter_trees ps -> Forall (reads_tree c soft) ps -> stands c soft (block c) b ->
  exists t y, anonymous_function_new f = Done t /\ function_body_new f = Done y /\
    stands c soft (expression c) (Nd KExprFunction [with_field 2 (with_field 5 b (with_field 2 (listing (join d ps)) y)) t]).
Proof.
  intros Ed H Hr B. destruct (body_stands c f ps b d Ed H Hr B) as (y & Ey & Y). pose proof (body_starts f y ps b d Ey Ed) as Sy.
  unfold anonymous_function_new, make, each. rewrite Ey. repeat literal. do 2 eexists. split; [reflexivity|]. split; [reflexivity|]. set (x := with_field 5 b _) in *. clearbody x. parts Y. cbn [with_field replace no_values]. apply stands_intro.
  - eexists. split; [|split; [fills|prints; now rewrite Q]]. do 3 constructor; try assumption; try tok_sy; try constructor. easy.
  - prints. rewrite !app_nil_r. apply (ok_before c soft [tk (str "function")]); [lit|assumption|exact Sy].
Qed.
