(** Flat forms of clear derivations: sequences of statements, operator chains, suffixed expressions (C36). *)
From Verif Require Import LexerSpec.
From Verif Require Export GrammarClear.
From Coq Require Import Lia.
Local Open Scope nat_scope.
Import ListNotations.

(** Clear derivations of the dialect that is around. *)
Notation clear := (clear_in moon).

(** A right-hand side with a property of the parts. *)
Inductive parts {d : dialect} (M : nonterminal -> list terminal -> bool -> Prop) : list gsym -> list terminal -> bool -> Prop :=
| p_nil : parts M [] [] false
| p_terminal t ss w o : parts M ss w o -> parts M (T t :: ss) (t :: w) o
| p_part n ss v w o o' : clear [N n] v o -> M n v o -> parts M ss w o' -> (n = Stats -> o = true -> ~ begins_with_parenthesis w) ->
    parts M (N n :: ss) (v ++ w) (match ss with [] => o | _ => o' end).
Definition any : nonterminal -> list terminal -> bool -> Prop := fun _ _ _ => True.

Lemma clear_one {d : dialect} n rhs v o : In rhs (moon n) -> clear rhs v o -> clear [N n] v (callable n || o).
Proof.
  intros I C. rewrite <- (app_nil_r v). apply (c_rule n rhs [] v [] o false); [assumption|assumption|constructor|]. intros _ _ (x & X). discriminate.
Qed.
Lemma clear_ind_parts {d : dialect} M : (forall n rhs v o, In rhs (moon n) -> parts M rhs v o -> M n v (callable n || o)) ->
  forall ss w o, clear ss w o -> parts M ss w o.
Proof.
  intros H ss w o C. induction C as [|t ss w o C IH|n rhs ss v w o o' I C1 IH1 C2 IH2 Hp]; [constructor|now constructor|].
  pose proof (p_part M n ss v w (callable n || o) o' (clear_one _ _ _ _ I C1) (H _ _ _ _ I IH1) IH2) as Q.
  apply Q. intros -> Ho. apply Hp; [reflexivity|exact Ho].
Qed.
Lemma parts_one {d : dialect} M n v o : parts M [N n] v o -> M n v o /\ clear [N n] v o.
Proof. intros P. inversion P; subst. match goal with X : parts M [] _ _ |- _ => inversion X; subst end. rewrite app_nil_r. now split. Qed.
Lemma clear_induct {d : dialect} M : (forall n rhs v o, In rhs (moon n) -> parts M rhs v o -> M n v (callable n || o)) ->
  forall n v o, clear [N n] v o -> M n v o.
Proof. intros H n v o C. now apply (clear_ind_parts M H), parts_one in C. Qed.
Lemma clear_inv {d : dialect} n v o : clear [N n] v o -> exists rhs o', In rhs (moon n) /\ parts any rhs v o' /\ o = callable n || o'.
Proof.
  apply (clear_induct (fun n v o => exists rhs o', In rhs (moon n) /\ parts any rhs v o' /\ o = callable n || o')). clear. intros n rhs v o I P. exists rhs, o.
  split; [assumption|]. split; [|reflexivity].
  assert (G : forall M rhs v o, parts M rhs v o -> parts any rhs v o); [|now apply G in P].
  clear. intros M rhs v o P. induction P; constructor; auto. exact Logic.I.
Qed.

Lemma moon_full {d : dialect} n rhs : In rhs (moon n) -> In rhs (full n) /\ forallb (enabled_part d) (N n :: rhs) = true.
Proof. intros I. now apply filter_In in I. Qed.
(** The productions of a nonterminal. *)
Ltac rules I :=
  let En := fresh "En" in
  apply moon_full in I as [I En]; cbn [full lua51 labels attributed attribute_rules bit_operators map app In] in I;
  repeat match type of I with _ \/ _ => destruct I as [I|I] end; try contradiction; match type of I with _ = ?r => subst r end;
  cbn [forallb enabled_part andb y] in En; rewrite ?andb_true_r, ?andb_diag in En.

(** Taking a right-hand side apart. *)
Ltac inv_parts :=
  repeat match goal with
  | P : parts _ [] _ _ |- _ => inversion P; subst; clear P
  | P : parts _ (T _ :: _) _ _ |- _ => inversion P; subst; clear P
  | P : parts _ (N _ :: _) _ _ |- _ => inversion P; subst; clear P
  | P : parts _ (y _ :: _) _ _ |- _ => unfold y in P
  end.
Ltac inv_clear C :=
  let rhs := fresh "rhs" in let o' := fresh "o'" in let I := fresh "I" in let P := fresh "P" in let Eo := fresh "Eo" in
  apply clear_inv in C as (rhs & o' & I & P & Eo); rules I; cbn [callable orb] in Eo; subst; inv_parts.

(** ** Prefixes and suffixes *)
Inductive prefixw {d : dialect} : list terminal -> Prop :=
| pw_name : prefixw [TName]
| pw_paren w o : clear [N Exp] w o -> prefixw (TSym SLeftParen :: w ++ [TSym SRightParen]).
Inductive suffixw {d : dialect} : bool -> list terminal -> Prop :=
| sw_bracket w o : clear [N Exp] w o -> suffixw false (TSym SLeftBracket :: w ++ [TSym SRightBracket])
| sw_dot : suffixw false [TSym SDot; TName]
| sw_args w o : clear [N Args] w o -> suffixw true w
| sw_method w o : clear [N Args] w o -> suffixw true (TSym SColon :: TName :: w).
(** The index tells whether there is a suffix and whether the last one is a call. *)
Inductive suffixesw {d : dialect} : option bool -> list terminal -> Prop :=
| ss_nil : suffixesw None []
| ss_cons b v l w : suffixw b v -> suffixesw l w -> suffixesw (match l with None => Some b | _ => l end) (v ++ w).
Lemma suffixes_snoc {d : dialect} l w b v : suffixesw l w -> suffixw b v -> suffixesw (Some b) (w ++ v).
Proof.
  intros L V. induction L as [|b' v' l w V' L IH].
  - pose proof (ss_cons b v None [] V ss_nil) as X. now rewrite app_nil_r in X.
  - rewrite <- app_assoc. exact (ss_cons b' v' (Some b) (w ++ v) V' IH).
Qed.
Definition suffixed {d : dialect} (ok : list terminal -> option bool -> Prop) (w : list terminal) : Prop :=
  exists p s l, w = p ++ s /\ prefixw p /\ suffixesw l s /\ ok p l.
Definition var_form (p : list terminal) (l : option bool) : Prop := (p = [TName] /\ l = None) \/ l = Some false.
Definition prefix_form {d : dialect} (n : nonterminal) (v : list terminal) (_ : bool) : Prop :=
  match n with
  | PrefixExp => suffixed (fun _ _ => True) v
  | Var => suffixed var_form v
  | FunctionCall => suffixed (fun _ l => l = Some true) v
  | _ => True
  end.
Lemma suffixed_more {d : dialect} ok w b v : suffixed ok w -> suffixw b v -> suffixed (fun _ l => l = Some b) (w ++ v).
Proof.
  intros (p & s & l & -> & Hp & Hs & _) V. exists p, (s ++ v), (Some b). rewrite app_assoc. repeat split; try assumption. now apply suffixes_snoc with l.
Qed.
Lemma suffixed_weaken {d : dialect} (ok ok' : list terminal -> option bool -> Prop) w : (forall p l, ok p l -> ok' p l) -> suffixed ok w -> suffixed ok' w.
Proof. intros H (p & s & l & -> & Hp & Hs & O). exists p, s, l. auto. Qed.
Lemma prefix_forms {d : dialect} : forall n v o, clear [N n] v o -> prefix_form n v o.
Proof.
  apply clear_induct. intros n rhs v o I P. destruct n; try exact Logic.I; rules I; inv_parts; cbn [prefix_form] in *; rewrite ?app_nil_r in *.
  - exists [TName], [], None. repeat split; [constructor|constructor|left; now split].
  - eapply suffixed_weaken; [|eapply suffixed_more; [eassumption|econstructor; eassumption]]. cbn. intros p l ->. now right.
  - eapply suffixed_weaken; [|eapply suffixed_more; [eassumption|constructor]]. cbn. intros p l ->. now right.
  - eapply suffixed_weaken; [|eassumption]. auto.
  - eapply suffixed_weaken; [|eassumption]. auto.
  - eexists _, [], None. rewrite app_nil_r. repeat split; [|constructor]. econstructor. eassumption.
  - eapply suffixed_more; [eassumption|econstructor; eassumption].
  - eapply suffixed_more; [eassumption|]. eapply sw_method; eassumption.
Qed.

(** ** Operator chains *)
Definition constants : list terminal := [TSym SNil; TSym SFalse; TSym STrue; TNumeral; TString; TSym SEllipsis].
Definition unary_terminals {d : dialect} : list terminal := [TSym SMinus; TSym SNot; TSym SHash] ++ if d_bits then [TSym STilde] else [].
Definition binary_terminals {d : dialect} : list terminal :=
  map TSym [SPlus; SMinus; SStar; SSlash; SCaret; SPercent; STwoDots; SLessThan; SLessThanEqual; SGreaterThan; SGreaterThanEqual; STwoEqual; STildeEqual; SAnd; SOr] ++
  if d_bits then map TSym bit_operators else [].
Lemma unary_in {d : dialect} x : In x unary_terminals -> In x [TSym SMinus; TSym SNot; TSym SHash; TSym STilde] /\ (x = TSym STilde -> d_bits = true).
Proof. unfold unary_terminals. destruct d_bits; cbn; intuition (subst; auto; discriminate). Qed.
Lemma binary_in {d : dialect} x : In x binary_terminals ->
  In x (map TSym ([SPlus; SMinus; SStar; SSlash; SCaret; SPercent; STwoDots; SLessThan; SLessThanEqual; SGreaterThan; SGreaterThanEqual; STwoEqual; STildeEqual; SAnd; SOr] ++ bit_operators)) /\
  (In x (map TSym bit_operators) -> d_bits = true).
Proof. unfold binary_terminals. rewrite map_app. destruct d_bits; [split; auto|rewrite app_nil_r; intros H; split; [apply in_app_iff; auto|]]. clear d. cbn in *. intuition (subst; discriminate). Qed.
Inductive operandw {d : dialect} : list terminal -> bool -> Prop :=
| ow_constant x : In x constants -> operandw [x] false
| ow_function w o : clear [N FuncBody] w o -> operandw (TSym SFunction :: w) false
| ow_prefix p s l : prefixw p -> suffixesw l s -> operandw (p ++ s) true
| ow_table w o : clear [N TableConstructor] w o -> operandw w false.
Inductive unitw {d : dialect} : list terminal -> bool -> Prop :=
| uw_operand w o : operandw w o -> unitw w o
| uw_unary x w o : In x unary_terminals -> unitw w o -> unitw (x :: w) o.
(** [restw o r o']: operators and operands after something that ends with a prefix expression if [o]. *)
Inductive restw {d : dialect} : bool -> list terminal -> bool -> Prop :=
| rw_nil o : restw o [] o
| rw_cons o b u o1 r o' : In b binary_terminals -> unitw u o1 -> restw o1 r o' -> restw o (b :: u ++ r) o'.
Definition chain {d : dialect} (w : list terminal) (o : bool) : Prop := exists u r o1, w = u ++ r /\ unitw u o1 /\ restw o1 r o.
Lemma rest_app {d : dialect} o1 r1 o2 : restw o1 r1 o2 -> forall r2 o3, restw o2 r2 o3 -> restw o1 (r1 ++ r2) o3.
Proof.
  induction 1 as [o|o b u o1 r o' B U R IH]; intros r2 o3 R2; [assumption|]. cbn [app]. rewrite <- app_assoc. econstructor; eauto.
Qed.
Lemma table_shut {d : dialect} w o : clear [N TableConstructor] w o -> o = false.
Proof. intros C. inv_clear C; reflexivity. Qed.
Lemma body_shut {d : dialect} w o : clear [N FuncBody] w o -> o = false.
Proof. intros C. inv_clear C; reflexivity. Qed.
Lemma function_form {d : dialect} w o : clear [N Function] w o -> exists v o', w = TSym SFunction :: v /\ clear [N FuncBody] v o' /\ o = false.
Proof. intros C. inv_clear C. match goal with X : clear [N FuncBody] _ _ |- _ => pose proof (body_shut _ _ X); subst end. rewrite app_nil_r. eauto. Qed.
Lemma binop_form {d : dialect} w o : clear [N BinOp] w o -> exists b, w = [b] /\ In b binary_terminals.
Proof. intros C. inv_clear C; (eexists; split; [reflexivity|]; unfold binary_terminals, unary_terminals; rewrite ?En; cbn; tauto). Qed.
Lemma unop_form {d : dialect} w o : clear [N UnOp] w o -> exists b, w = [b] /\ In b unary_terminals.
Proof. intros C. inv_clear C; (eexists; split; [reflexivity|]; unfold binary_terminals, unary_terminals; rewrite ?En; cbn; tauto). Qed.
Lemma prefix_open {d : dialect} n w o : callable n = true -> clear [N n] w o -> o = true.
Proof. intros H C. apply clear_inv in C as (rhs & o' & _ & _ & ->). now rewrite H. Qed.
Definition exp_form {d : dialect} (n : nonterminal) (v : list terminal) (o : bool) : Prop := n = Exp -> chain v o.
Lemma exp_chain {d : dialect} w o : clear [N Exp] w o -> chain w o.
Proof.
  enough (G : forall n v o, clear [N n] v o -> exp_form n v o) by (intros C; now apply (G _ _ _ C)).
  clear. apply clear_induct. intros n rhs v o1 I P ->. cbn [callable orb]. unfold exp_form in P. rules I; inv_parts; rewrite ?app_nil_r in *.
  1-6: (eexists [_], [], false; split; [reflexivity|]; split; [|constructor]; constructor; constructor; cbn; tauto).
  - match goal with X : clear [N Function] _ _ |- _ => apply function_form in X as (w' & o2 & -> & C & ->) end. exists (TSym SFunction :: w'), [], false.
    rewrite app_nil_r. split; [reflexivity|]. split; [|constructor]. constructor. econstructor. eassumption.
  - match goal with X : clear [N PrefixExp] _ _ |- _ => pose proof (prefix_open PrefixExp _ _ eq_refl X); subst; apply prefix_forms in X; destruct X as (p & s & l & -> & Hp & Hs & _) end.
    exists (p ++ s), [], true. rewrite app_nil_r. split; [reflexivity|]. split; [|constructor]. constructor. econstructor; eassumption.
  - match goal with X : clear [N TableConstructor] _ _ |- _ => pose proof (table_shut _ _ X); subst end. eexists _, [], false. rewrite app_nil_r. split; [reflexivity|]. split; [|constructor].
    constructor. eapply ow_table; eassumption.
  - match goal with X : clear [N BinOp] _ _ |- _ => apply binop_form in X as (b & -> & B) end.
    repeat match goal with X : Exp = Exp -> _ |- _ => specialize (X eq_refl); destruct X as (? & ? & ? & -> & ? & ?) end.
    eexists _, (_ ++ _), _. split; [rewrite <- app_assoc; reflexivity|]. split; [eassumption|]. eapply rest_app; [eassumption|]. cbn [app]. econstructor; eassumption.
  - match goal with X : clear [N UnOp] _ _ |- _ => apply unop_form in X as (b & -> & B) end.
    match goal with X : Exp = Exp -> _ |- _ => specialize (X eq_refl); destruct X as (u & r & o2 & -> & ? & ?) end.
    exists (b :: u), r, o2. split; [reflexivity|]. split; [|assumption]. now constructor.
Qed.

(** ** Lists *)
Inductive listw (elem : list terminal -> bool -> Prop) : list terminal -> bool -> Prop :=
| lw_one v o : elem v o -> listw elem v o
| lw_cons v o w o' : elem v o -> listw elem w o' -> listw elem (v ++ TSym SComma :: w) o'.
Lemma listw_snoc elem w o v o' : listw elem w o -> elem v o' -> listw elem (w ++ TSym SComma :: v) o'.
Proof. induction 1 as [u o E|u o w o2 E L IH]; intros V; [eapply lw_cons; [eassumption|now constructor]|]. rewrite <- app_assoc. cbn [app]. eapply lw_cons; eauto. Qed.
Definition list_form {d : dialect} (n : nonterminal) (v : list terminal) (o : bool) : Prop :=
  match n with
  | ExpList => listw (fun w o => clear [N Exp] w o) v o
  | VarList => listw (fun w o => clear [N Var] w o) v o
  | NameList => listw (fun w o => w = [TName] /\ o = false) v o
  | AttNameList => listw (fun w o => clear [N AttName] w o) v o
  | _ => True
  end.
Lemma list_forms {d : dialect} : forall n v o, clear [N n] v o -> list_form n v o.
Proof.
  apply clear_induct. intros n rhs v o I P. destruct n; try exact Logic.I; rules I; inv_parts; cbn [list_form callable orb] in *; rewrite ?app_nil_r in *.
  all: first [eapply listw_snoc; [eassumption|] | apply lw_one]; auto.
Qed.

(** ** Statements *)
Definition separator (semi : bool) : list terminal := if semi then [TSym SSemicolon] else [].
(** [statsw o w o']: statements after something that ends with a prefix expression if [o]. *)
Inductive statsw {d : dialect} : bool -> list terminal -> bool -> Prop :=
| stw_nil o : statsw o [] o
| stw_cons o v ov semi w o' : (o = true -> ~ begins_with_parenthesis v) -> clear [N Stat] v ov -> statsw (ov && negb semi) w o' ->
    statsw o (v ++ separator semi ++ w) o'.
Lemma stats_app {d : dialect} o1 w1 o2 : statsw o1 w1 o2 -> forall w2 o3, statsw o2 w2 o3 -> statsw o1 (w1 ++ w2) o3.
Proof. induction 1 as [o|o v ov semi w o' H C S IH]; intros w2 o3 S2; [assumption|]. rewrite <- !app_assoc. econstructor; eauto. Qed.
Definition stats_form {d : dialect} (n : nonterminal) (v : list terminal) (o : bool) : Prop := n = Stats -> statsw false v o.
Lemma begins_app v w : begins_with_parenthesis v -> begins_with_parenthesis (v ++ w).
Proof. intros [x ->]. now exists (x ++ w). Qed.
Lemma stats_forms {d : dialect} w o : clear [N Stats] w o -> statsw false w o.
Proof.
  enough (G : forall n v o, clear [N n] v o -> stats_form n v o) by (intros C; now apply (G _ _ _ C)).
  clear. apply clear_induct. intros n rhs v o1 I P ->. cbn [callable orb]. unfold stats_form in P. rules I; inv_parts; rewrite ?app_nil_r in *.
  - constructor.
  - eapply stats_app; [eauto|].
    match goal with X : clear [N Stat] ?v ?ov, Z : Stats = Stats -> ?o = true -> _ |- _ =>
      assert (A : o = true -> ~ begins_with_parenthesis v) by (intros O; exact (Z eq_refl O)); pose proof (stw_cons o v ov false [] _ A X (stw_nil _)) as G end.
    cbn [separator app negb] in G. rewrite app_nil_r, andb_true_r in G. exact G.
  - eapply stats_app; [eauto|].
    match goal with X : clear [N Stat] ?v ?ov, Z : Stats = Stats -> ?o = true -> _ |- _ =>
      assert (A : o = true -> ~ begins_with_parenthesis v) by (intros O B; exact (Z eq_refl O (begins_app _ _ B))); pose proof (stw_cons o v ov true [] _ A X (stw_nil _)) as G end.
    cbn [separator app negb] in G. rewrite andb_false_r in G. exact G.
Qed.

Inductive elseifsw {d : dialect} : list terminal -> Prop :=
| ew_nil : elseifsw []
| ew_cons e o b o' w : clear [N Exp] e o -> clear [N Chunk] b o' -> elseifsw w -> elseifsw (TSym SElseIf :: e ++ TSym SThen :: b ++ w).
Lemma elseifs_app {d : dialect} v w : elseifsw v -> elseifsw w -> elseifsw (v ++ w).
Proof. induction 1; intros; [assumption|]. cbn [app]. rewrite <- app_assoc. cbn [app]. rewrite <- app_assoc. econstructor; eauto. Qed.
Inductive dotsw : list terminal -> Prop :=
| dw_nil : dotsw []
| dw_cons w : dotsw w -> dotsw (TSym SDot :: TName :: w).
Lemma dots_snoc w : dotsw w -> dotsw (w ++ [TSym SDot; TName]).
Proof. induction 1; cbn [app]; repeat (constructor; try assumption). Qed.
(** [fieldsw w]: fields, each but the last with a separator, the last perhaps. *)
Inductive fieldsw {d : dialect} : list terminal -> Prop :=
| fw_nil : fieldsw []
| fw_one v o : clear [N Field] v o -> fieldsw v
| fw_cons v o x w : clear [N Field] v o -> In x [TSym SComma; TSym SSemicolon] -> fieldsw w -> fieldsw (v ++ x :: w).
Inductive fieldsl {d : dialect} : list terminal -> Prop :=
| fl_one v o : clear [N Field] v o -> fieldsl v
| fl_cons v o x w : clear [N Field] v o -> In x [TSym SComma; TSym SSemicolon] -> fieldsl w -> fieldsl (v ++ x :: w).
Lemma fieldsl_more {d : dialect} w : fieldsl w -> forall x v, In x [TSym SComma; TSym SSemicolon] -> fieldsl v -> fieldsl (w ++ x :: v).
Proof.
  induction 1 as [u o C|u o z w C Z L IH]; intros x v X V; [eapply fl_cons; eassumption|]. rewrite <- app_assoc. cbn [app]. eapply fl_cons; eauto.
Qed.
Lemma fieldsl_end {d : dialect} w x : fieldsl w -> In x [TSym SComma; TSym SSemicolon] -> fieldsw (w ++ [x]).
Proof.
  induction 1 as [u o C|u o z w C Z L IH]; intros X; [eapply fw_cons; try eassumption; constructor|]. rewrite <- app_assoc. cbn [app]. eapply fw_cons; eauto.
Qed.
Lemma fieldsl_fields {d : dialect} w : fieldsl w -> fieldsw w.
Proof. induction 1; [eapply fw_one; eassumption|eapply fw_cons; eauto]. Qed.
Definition rep_form {d : dialect} (n : nonterminal) (v : list terminal) (_ : bool) : Prop :=
  match n with
  | ElseIfs => elseifsw v
  | DotNames => exists w, v = TName :: w /\ dotsw w
  | FieldSep => exists x, v = [x] /\ In x [TSym SComma; TSym SSemicolon]
  | FieldList => fieldsl v
  | _ => True
  end.
Lemma rep_forms {d : dialect} : forall n v o, clear [N n] v o -> rep_form n v o.
Proof.
  apply clear_induct. intros n rhs v o I P. destruct n; try exact Logic.I; rules I; inv_parts; cbn [rep_form callable orb] in *; rewrite ?app_nil_r in *;
    repeat match goal with H : ex _ |- _ => destruct H | H : _ /\ _ |- _ => destruct H end; subst.
  - eapply fl_one; eassumption.
  - eapply fieldsl_more; try eassumption. eapply fl_one; eassumption.
  - eexists. split; [reflexivity|]. cbn. tauto.
  - eexists. split; [reflexivity|]. cbn. tauto.
  - constructor.
  - apply elseifs_app; [assumption|]. match goal with |- elseifsw (_ :: ?e ++ _ :: ?b) => rewrite <- (app_nil_r b) end. econstructor; try eassumption. constructor.
  - eexists. split; [reflexivity|]. constructor.
  - eexists. split; [reflexivity|]. now apply dots_snoc.
Qed.
Lemma table_form {d : dialect} w o : clear [N TableConstructor] w o -> exists v, w = TSym SLeftBrace :: v ++ [TSym SRightBrace] /\ fieldsw v.
Proof.
  intros C. inv_clear C.
  - exists []. split; [reflexivity|constructor].
  - match goal with X : clear [N FieldList] _ _ |- _ => apply rep_forms in X; cbn in X; apply fieldsl_fields in X end. eauto.
  - repeat match goal with X : clear [N FieldList] _ _ |- _ => apply rep_forms in X; cbn [rep_form] in X | X : clear [N FieldSep] _ _ |- _ => apply rep_forms in X as (x & -> & X) end.
    eexists (_ ++ [x]). rewrite <- app_assoc. cbn [app]. split; [reflexivity|]. now apply fieldsl_end.
Qed.

(** ** First terminals *)
Definition exp_start (x : terminal) : bool :=
  match x with
  | TName | TNumeral | TString | TSym (SNil | SFalse | STrue | SEllipsis | SFunction | SLeftParen | SLeftBrace | SMinus | SNot | SHash | STilde) => true
  | _ => false
  end.
Definition var_start (x : terminal) : bool := match x with TName | TSym SLeftParen => true | _ => false end.
Definition stat_start (x : terminal) : bool :=
  match x with TName | TSym (SLeftParen | SDo | SWhile | SRepeat | SIf | SFor | SFunction | SLocal | SGoto | STwoColons) => true | _ => false end.
Definition last_start (x : terminal) : bool := match x with TSym (SReturn | SBreak) => true | _ => false end.
Definition begins (n : nonterminal) (x : terminal) : bool :=
  match n with
  | Exp | ExpList => exp_start x
  | Function => match x with TSym SFunction => true | _ => false end
  | TableConstructor => match x with TSym SLeftBrace => true | _ => false end
  | UnOp => match x with TSym (SMinus | SNot | SHash | STilde) => true | _ => false end
  | Var | VarList | PrefixExp | FunctionCall => var_start x
  | Stat | Stats => stat_start x
  | LastStat => last_start x
  | Chunk => stat_start x || last_start x
  | ElseIfs => match x with TSym SElseIf => true | _ => false end
  | Args => match x with TString | TSym (SLeftParen | SLeftBrace) => true | _ => false end
  | Field => exp_start x || match x with TSym SLeftBracket => true | _ => false end
  | _ => true
  end.
Definition nullable (n : nonterminal) : bool := match n with Chunk | Stats | ElseIfs => true | _ => false end.
Definition first_form (n : nonterminal) (v : list terminal) (_ : bool) : Prop :=
  match v with [] => nullable n = true | x :: _ => begins n x = true end.
Lemma stat_vars x : var_start x = true -> stat_start x = true.
Proof. now destruct x as [| | |[]|]. Qed.
Lemma exp_vars x : var_start x = true -> exp_start x = true.
Proof. now destruct x as [| | |[]|]. Qed.
Lemma first_forms {d : dialect} : forall n v o, clear [N n] v o -> first_form n v o.
Proof.
  apply clear_induct. intros n rhs v o I P. destruct n; rules I; inv_parts;
    repeat match goal with H : first_form _ ?v _ |- _ => unfold first_form in H; destruct v; cbn [nullable] in H; try discriminate H end;
    cbn [app]; unfold first_form; cbn [begins nullable] in *; try reflexivity; auto using stat_vars, exp_vars.
  all: repeat match goal with t : terminal |- _ => destruct t as [| | |[]|]; try discriminate; try reflexivity end.
Qed.
