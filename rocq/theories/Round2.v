(** Parsing undoes printing (C48): what may follow a part, operators and their operands, first tokens. *)
From Verif Require Import LexerSpec PunctuatedProofs.
From Verif Require Export Round1.
From Coq Require Import Lia.
Local Open Scope nat_scope.
Import ListNotations.

(** ** What follows *)

(** Tokens that end an expression; [o]: the expression is open. *)
Definition stop (c : cfg) (o : bool) (x : terminal) : bool :=
  match x with
  | TOther | TName => true
  | TSym s => match s with
              | SEnd | SUntil | SElse | SElseIf | SSemicolon | SDo | SWhile | SRepeat | SIf | SFor | SFunction | SLocal | SReturn | SBreak | SGoto | SAtSign
              | SRightParen | SRightBracket | SRightBrace | SComma | SThen => true
              | SLeftParen => negb o
              | STwoColons => negb (has_luau c)
              | _ => false
              end
  | _ => false
  end.
Definition after_type (x : terminal) : bool :=
  match x with TSym (SQuestionMark | SPipe | SAmpersand | SDot | SLessThan | SThinArrow | SEllipsis | SColon) => false | _ => true end.
Definition after_simple (x : terminal) : bool := match x with TSym (SDot | SLessThan | SThinArrow) => false | _ => true end.
(** The same, where [<] may follow if no name comes before ([n]). *)
Definition type_end (n : bool) (x : terminal) : bool :=
  match x with TSym (SQuestionMark | SPipe | SAmpersand | SDot | SThinArrow | SEllipsis | SColon) => false | TSym SLessThan => negb n | _ => true end.
Definition simple_end (n : bool) (x : terminal) : bool := match x with TSym (SDot | SThinArrow) => false | TSym SLessThan => negb n | _ => true end.
(** The result of a function but [...T] and [T...]. *)
Inductive pack_result (c : cfg) : tree -> Prop :=
| pr_member t : pack_member c t -> pack_result c t
| pr_union t d l : pack_member c t -> sy d SPipe -> ending (member c) (last_member c) SPipe l -> pack_result c (Nd KTypeUnionV [Nd KTypeUnion [none; listing (followed t d :: l)]])
| pr_intersection t d l : pack_tuple c t -> sy d SAmpersand -> ending (closed_type c) (simple_type c) SAmpersand l ->
    pack_result c (Nd KTypeIntersectionV [Nd KTypeIntersection [none; listing (followed t d :: l)]]).
Definition bare_result (c : cfg) (t : tree) : Prop := plain_type c t \/ tuple c t \/ pack_result c t.
(** The end of a block. *)
Definition ended (k : list tokref) : Prop := exists r l, k = r :: l /\ block_end (terminal_of r) = true /\ is_interpolated r = false.

Inductive follow (c : cfg) (q : nat) (e : tree) : list tokref -> Prop :=
| fo_stop k : follows k (stop c (open e)) -> follow c q e k
| fo_op r s u k : sy r s -> binary_in c s -> level s < q -> ends_in_if e = false -> goes_on e s = false ->
    terminal_of u <> TSym SLessThan -> follow c q e (r :: u :: k)
| fo_cast r k : sy r STwoColons -> casts e = true -> follow c q e (r :: k).
(** The tokens [rest] after [l] make [l] the left part of [e], with operators of level [q] at least. *)
Inductive spine (c : cfg) (q : nat) : tree -> list tokref -> tree -> Prop :=
| sp_here e : spine c q e [] e
| sp_step l s o r rest e : binary_in c s -> sy o s -> expression c r -> q <= level s -> left_of (head_of l) s = true -> right_of (head_of r) s = true ->
    ends_in_if l = false -> goes_on l s = false ->
    spine c q (Nd KExprBinary [l; Nd (KBinOp s) [Tok o]; r]) rest e -> spine c q l (o :: printed r ++ rest) e.
Definition unit_level (u : tree) : nat := match head_of u with Unary => unary_level | _ => 13 end.

Record good (c : cfg) (p : parsers) : Prop := {
  g_block : forall b k, block c b -> ended k -> gives (p_block p) (printed b ++ k) (Value b) k;
  g_exp : forall e k, expression c e -> follow c 0 e k -> gives (p_expression p) (printed e ++ k) (Value e) k;
  g_noexp : forall r k, is_interpolated r = false -> no_exp (terminal_of r) = true -> gives (p_expression p) (r :: k) NotFound (r :: k);
  g_primary : forall u k, unit_expression c u -> follow c (unit_level u) u k -> gives (p_primary p) (printed u ++ k) (Value u) k;
  g_prec : forall l rest e q k, spine c q l rest e -> follow c q e k -> gives (p_precedence p l q) (rest ++ k) (Value e) k;
  g_type : has_luau c = true -> forall t k, type c t -> follows k (type_end (ends_in_type_name t)) -> gives (p_type p) (printed t ++ k) (Value t) k;
  g_result : has_luau c = true -> forall t k, bare_result c t -> follows k (type_end (ends_in_type_name t)) -> gives (p_type_or_pack p) (printed t ++ k) (Value t) k;
  g_tuple : has_luau c = true -> forall a b l k, sy a SLeftParen -> sy b SRightParen -> types_then_pack c l -> List.length l <> 1 -> follows k (simple_end false) ->
    gives (p_type_or_pack p) (a :: flat_map printed l ++ b :: k) (Value (Nd KTypeTuple [between a b; listing l])) k }.
Lemma good_no_fuel c : good c no_fuel.
Proof. constructor; intros; apply run_fuel. Qed.

Lemma follows_app ts k f : follows ts f -> follows (ts ++ k) f.
Proof. intros (t & r & -> & F). now exists t, (r ++ k). Qed.

Lemma stop_after_type c o x : stop c o x = true -> after_type x = true.
Proof. destruct x as [| | |[]|]; cbn; try discriminate; auto. Qed.
Lemma after_type_end n x : after_type x = true -> type_end n x = true.
Proof. destruct x as [| | |[]|]; cbn; try discriminate; auto. Qed.
Lemma type_end_simple n x : type_end n x = true -> simple_end n x = true.
Proof. destruct x as [| | |[]|]; cbn; try discriminate; auto. Qed.
Lemma type_end_false n x : type_end n x = true -> type_end false x = true.
Proof. destruct x as [| | |[]|]; cbn; try discriminate; auto. Qed.
Lemma simple_end_false n x : simple_end n x = true -> simple_end false x = true.
Proof. destruct x as [| | |[]|]; cbn; try discriminate; auto. Qed.
Lemma after_end n k : follows k after_type -> follows k (type_end n).
Proof. apply follows_weaken, after_type_end. Qed.
Lemma end_simple n k : follows k (type_end n) -> follows k (simple_end n).
Proof. apply follows_weaken, type_end_simple. Qed.
Lemma end_false n k : follows k (simple_end n) -> follows k (simple_end false).
Proof. apply follows_weaken, simple_end_false. Qed.
Lemma stop_shut c o x : stop c o x = true -> stop c false x = true.
Proof. destruct x as [| | |[]|]; cbn; try discriminate; auto. Qed.
Lemma ended_follows k : ended k -> follows k block_end.
Proof. intros (r & l & -> & H & _). now apply follows_here. Qed.
Lemma block_stop c o x : block_end x = true -> stop c o x = true.
Proof. destruct x as [| | |[]|]; cbn; try discriminate; auto. Qed.
Ltac st := first [assumption | match goal with H : terminal_of ?r = _ |- _ (terminal_of ?r) = true => rewrite H; cbn; first [reflexivity | assumption] end
  | match goal with H : terminal_of ?r = _ |- context [terminal_of ?r] => rewrite H; cbn; first [reflexivity | assumption] end].
Ltac fo := first [eassumption | apply follows_here; st].
Ltac fot := first [fo | apply after_end; eassumption].
Ltac es := first [assumption | apply fo_stop; fo].

(** ** First and second tokens *)
Definition exp_start (x : terminal) : bool :=
  match x with
  | TSym (SNil | STrue | SFalse | SEllipsis | SFunction | SAtSign | SLeftParen | SMinus | SNot | SHash | STilde | SLeftBrace | SIf) => true
  | TSym _ => false
  | _ => true
  end.
Definition suffix_start (x : terminal) : bool := match x with TString | TSym (SDot | SQuestionMarkDot | SLeftBracket | SLeftParen | SLeftBrace | SColon | SLessThan) => true | _ => false end.
Definition type_start (x : terminal) : bool :=
  match x with TName | TString | TSym (SNil | STrue | SFalse | SLeftBrace | SLeftParen | SLessThan | SPipe | SAmpersand) => true | _ => false end.
Definition plain_start (x : terminal) : bool :=
  match x with TName | TString | TSym (SNil | STrue | SFalse | SLeftBrace | SLeftParen | SLessThan) => true | _ => false end.
Definition stmt_start (c : cfg) (x : terminal) : bool :=
  match x with
  | TName => true
  | TSym s => match s with
              | SLeftParen | SLocal | SFor | SDo | SIf | SFunction | SRepeat | SWhile | SGoto | SAtSign => true
              | STwoColons => negb (has_luau c)
              | _ => false
              end
  | _ => false
  end.
(** A name is not followed by one of these. *)
Definition no_equal (x : terminal) : bool := match x with TSym SEqual => false | _ => true end.
Definition no_colon (x : terminal) : bool := match x with TSym (SColon | SEllipsis) => false | _ => true end.

(** The tokens [ts] start in [f]; if with a name, then nothing comes after it, or a token in [g]. *)
Definition lead (f g : terminal -> bool) (ts : list tokref) : Prop :=
  exists r l, ts = r :: l /\ f (terminal_of r) = true /\ (nm r -> l = [] \/ follows l g).
Lemma lead_app f g ts k : lead f g ts -> follows k g -> lead f g (ts ++ k).
Proof. intros (r & l & -> & F & N) K. exists r, (l ++ k). repeat split; auto. intros X. right. destruct (N X) as [->|Y]; [assumption|now apply follows_app]. Qed.
Lemma lead_follows f g ts : lead f g ts -> follows ts f.
Proof. intros (r & l & -> & F & _). now apply follows_here. Qed.
Lemma lead_more f f' g ts : (forall x, f x = true -> f' x = true) -> lead f g ts -> lead f' g ts.
Proof. intros H (r & l & -> & F & N). exists r, l. auto. Qed.
Lemma lead_symbol f g r s l : sy r s -> f (TSym s) = true -> lead f g (r :: l).
Proof. intros H F. exists r, l. rewrite H. repeat split; [assumption|discriminate]. Qed.
Lemma lead_other f g r x l : terminal_of r = x -> x <> TName -> f x = true -> lead f g (r :: l).
Proof. intros H N F. exists r, l. rewrite H. now repeat split. Qed.
Lemma lead_name f g r : nm r -> f TName = true -> lead f g [r].
Proof. intros H F. exists r, []. rewrite H. repeat split; [assumption|now left]. Qed.
Lemma lead_name2 f g r l : nm r -> f TName = true -> follows l g -> lead f g (r :: l).
Proof. intros H F L. exists r, l. rewrite H. repeat split; [assumption|now right]. Qed.
Ltac lead1 := first [ eapply lead_symbol; [eassumption|reflexivity] | eapply lead_other; [eassumption|discriminate|reflexivity] | eapply lead_name; [eassumption|reflexivity]
  | eapply lead_name2; [eassumption|reflexivity|apply follows_here; st] ].

Lemma word_name w r : word w r -> nm r.
Proof. unfold word, terminal_of. now intros ->. Qed.
Lemma section_other k r : section k r -> terminal_of r = TOther.
Proof. unfold section, terminal_of. now intros (w & ->). Qed.

Lemma lead_closed c t : closed_type c t -> lead plain_start no_colon (printed t).
Proof.
  intros H. inversion H; subst; spell; try lead1.
  - destruct H0; subst; lead1.
  - eapply lead_name2; [eapply word_name; eassumption|reflexivity|apply follows_here; st].
  - inversion H0; subst; spell; [lead1|]. inversion H6; subst. spell. lead1.
Qed.
Lemma lead_function c t : function_type c t -> lead plain_start no_colon (printed t).
Proof. intros H. inversion H; subst; spell. inversion H0; subst; spell; [lead1|]. inversion H6; subst. spell. lead1. Qed.
Lemma lead_simple c t : simple_type c t -> lead plain_start no_colon (printed t).
Proof. intros []; [eapply lead_closed|eapply lead_function]; eassumption. Qed.
Lemma lead_member c t : member c t -> lead plain_start no_colon (printed t).
Proof. induction 1; [now apply lead_closed with c|]. spell. apply lead_app; [assumption|]. apply follows_here. st. Qed.
Lemma lead_last c t : last_member c t -> lead plain_start no_colon (printed t).
Proof. intros []; [eapply lead_member|eapply lead_function]; eassumption. Qed.
Lemma lead_ending (P Q : tree -> Prop) f g s l : (forall t, P t -> lead f g (printed t)) -> (forall t, Q t -> lead f g (printed t)) -> g (TSym s) = true ->
  ending P Q s l -> lead f g (flat_map printed l).
Proof.
  intros H1 H2 G S. destruct S as [t T|t d l T D _]; spell; [auto|]. apply lead_app; [auto|]. apply follows_here. now rewrite D.
Qed.
Lemma lead_plain c t : plain_type c t -> lead plain_start no_colon (printed t).
Proof.
  intros H. inversion H; subst; [now apply lead_last with c| |]; spell; change (printed x ++ flat_map printed l) with (flat_map printed (x :: l)).
  - eapply lead_ending with (s := SPipe); [apply lead_member|apply lead_last|reflexivity|eassumption].
  - eapply lead_ending with (s := SAmpersand); [apply lead_closed|apply lead_simple|reflexivity|eassumption].
Qed.
Lemma lead_type c t : type c t -> lead type_start no_colon (printed t).
Proof.
  intros H. inversion H; subst; [eapply lead_more; [|eapply lead_plain; eassumption]; intros [| | |[]|]; cbn; try discriminate; auto| |]; spell; lead1.
Qed.

Lemma dot_cases c s : dot_in c s -> s = SDot \/ s = SQuestionMarkDot /\ f_cfxlua (c_feat c) = true.
Proof. destruct s; try (intros []); auto. Qed.
Lemma equal_cases c s : equal_in c s -> s = SEqual \/ s = SIn /\ f_cfxlua (c_feat c) = true.
Proof. destruct s; try (intros []); auto. Qed.
Lemma suffix_first c t : suffix c t -> follows (printed t) suffix_start.
Proof.
  intros H. inversion H; subst; spell; try (apply follows_here; st).
  - match goal with D : dot_in _ _ |- _ => apply dot_cases in D as [->|(-> & _)] end; apply follows_here; st.
  - inversion H0; subst; spell; try (apply follows_here; st). inversion H1; subst. spell. apply follows_here. st.
  - inversion H0; subst; spell. apply follows_here. st.
Qed.
Lemma suffixes_first c l : Forall (suffix c) l -> l <> [] -> follows (flat_map printed l) suffix_start.
Proof. intros F N. destruct F as [|x l X _]; [easy|]. cbn [flat_map]. apply follows_app. now apply suffix_first with c. Qed.
Lemma lead_prefix c x l : prefix_expression c x -> Forall (suffix c) l -> l <> [] -> lead exp_start no_equal (printed x ++ flat_map printed l).
Proof.
  intros X F N. pose proof (suffixes_first c l F N) as S. inversion X; subst; spell.
  - eapply lead_name2; [eassumption|reflexivity|]. eapply follows_weaken; [|exact S]. intros [| | |[]|]; cbn; try discriminate; auto.
  - inversion H; subst. spell. lead1.
Qed.
Lemma call_not_nil l : ends_in_call l = true -> l <> [].
Proof. intros H ->. discriminate. Qed.
Lemma attributes_first c l f k : Forall (attribute c) l -> sy f SFunction -> lead exp_start no_equal (flat_map printed l ++ f :: k).
Proof.
  intros H F. inversion H; subst; cbn [flat_map app]; [lead1|]. inversion H0; subst. spell. lead1.
Qed.
Lemma lead_atom c e : atom c e -> lead exp_start no_equal (printed e).
Proof.
  intros H. inversion H; subst; spell; try lead1.
  - decompose [or] H0; subst; lead1.
  - eapply attributes_first; eassumption.
  - inversion H0; subst. spell. lead1.
  - eapply lead_prefix; eassumption.
  - eapply lead_prefix; [eassumption..|]. now apply call_not_nil.
  - inversion H0; subst. spell. lead1.
  - apply section_other in H1. lead1.
  - inversion H1; subst; spell; match goal with S : section _ _ |- _ => apply section_other in S end; lead1.
Qed.
Lemma inside_cases c e : unit_expression c e -> cast_inside e = true -> (exists s o x, unary_in c s /\ sy o s /\ expression c x /\ under_unary (head_of x) = true /\ e = Nd KExprUnary [Nd (KUnOp s) [Tok o]; x] /\ casts x = true) \/
  exists i x t y l z w, has_luau c = true /\ sy i SIf /\ expression c x /\ sy t SThen /\ expression c y /\ else_ifs c l /\ sy z SElse /\ expression c w /\
    e = Nd KExprIfExpression [Nd KIfExpression [Tok i; x; Tok t; y; l; Tok z; w]] /\ casts w = true.
Proof.
  intros H I. inversion H as [? A| | |s o x S O X U|i x t y l z w L Si X T Y EI Z W]; subst; try discriminate I; [|left; exists s, o, x; auto 10|right; exists i, x, t, y, l, z, w; auto 15].
  exfalso. inversion A; subst; try discriminate I. match goal with P : parenthesised _ _ |- _ => inversion P; subst; discriminate I end.
Qed.
Lemma lead_unit c e : unit_expression c e -> lead exp_start no_equal (printed e).
Proof.
  assert (X : forall s o k, unary_in c s -> sy o s -> lead exp_start no_equal (o :: k)) by (intros s o k U O; destruct s; cbn in U; try easy; lead1).
  intros H. inversion H as [? A|? ? ? ? A|? ? ? ? U I| |]; subst; [now apply lead_atom with c| | | |]; spell.
  - apply lead_app; [now apply lead_atom with c|]. apply follows_here. st.
  - destruct (inside_cases _ _ U I) as [(s & y & x & U1 & U2 & _ & _ & -> & _)|(i & x & y & z & l & v & w & _ & Y & _ & _ & _ & _ & _ & _ & -> & _)]; spell; [eapply X; eassumption|lead1].
  - eapply X; eassumption.
  - lead1.
Qed.
Lemma binary_no_equal c s : binary_in c s -> no_equal (TSym s) = true.
Proof. now destruct s. Qed.
Lemma lead_expression c e : expression c e -> lead exp_start no_equal (printed e).
Proof.
  induction 1; [now apply lead_unit with c|]. spell. apply lead_app; [assumption|]. apply follows_here. rewrite H1. eapply binary_no_equal; eassumption.
Qed.

Lemma lead_not_nil f g t : lead f g (printed t) -> printed t <> [].
Proof. intros (r & l & E & _). now rewrite E. Qed.

Lemma lead_here f g ts k : lead f g ts -> follows k g -> exists r l, ts ++ k = r :: l /\ f (terminal_of r) = true /\ (nm r -> follows l g).
Proof.
  intros (r & l & -> & F & N) K. exists r, (l ++ k). repeat split; [assumption|]. intros X. destruct (N X) as [->|Y]; [assumption|now apply follows_app].
Qed.
