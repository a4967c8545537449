(** Trees with the right tokens are derivations: what a parse without errors accepts outside Luau is in the grammar of the dialect
    (C35, C45). *)
From Verif Require Import LexerSpec PrintProofs TreeFacts ParserLogic.
From Verif Require Export ParserSpec.
From Verif Require Export GrammarSpec.
From Coq Require Import Lia.
Local Open Scope nat_scope.
Import ListNotations.

(** Neither Luau nor CfxLua. *)
Definition plain (c : cfg) : Prop := has_luau c = false /\ has_cfxlua c = false /\ f_cfxlua (c_feat c) = false.
Definition dialect_of (c : cfg) : dialect := {| d_goto := has_lua52 c || has_luajit c; d_bits := has_lua53 c; d_attributes := has_lua54 c |}.

(** Nodes of the dialect, without or with ([rx]) variables in parentheses. *)
Definition node_in (c : cfg) (rx : bool) (k : kind) (cs : list tree) : bool :=
  proper_node k cs && kind_allowed c k && feature_node c k cs && (rx || strict_node k cs).

Definition paren : list gsym := [y SLeftParen; N Exp; y SRightParen].
Definition extends (d : dialect) (g : nonterminal -> list (list gsym)) (rx : bool) : Prop :=
  (forall n rhs, In rhs (moon n) -> In rhs (g n)) /\ (rx = true -> In paren (g Var)).

(** ** Derivations *)
Lemma dN g n ss v w : derives g [N n] v -> derives g ss w -> derives g (N n :: ss) (v ++ w).
Proof.
  intros H K. inversion H as [| |n' rhs ss' v' w' I D E]; subst. inversion E; subst. rewrite app_nil_r. now apply d_rule with rhs.
Qed.
Lemma dT g t ss u w : u = t -> derives g ss w -> derives g (T t :: ss) (u :: w).
Proof. intros ->. apply d_terminal. Qed.
Lemma dX g x ss v w : derives g [x] v -> derives g ss w -> derives g (x :: ss) (v ++ w).
Proof. destruct x as [t|n]; [|apply dN]. intros H K. inversion H as [|t' ss' w' D|]; subst. inversion D; subst. cbn. now apply d_terminal. Qed.
Lemma d1 g n rhs w : In rhs (g n) -> derives g rhs w -> derives g [N n] w.
Proof. intros I D. rewrite <- (app_nil_r w). apply d_rule with rhs; [assumption|assumption|constructor]. Qed.
Lemma d_end g ss w : derives g ss (w ++ []) -> derives g ss w.
Proof. now rewrite app_nil_r. Qed.

Lemma sym_terminal r s : is_symbol r s = true -> terminal_of r = TSym s.
Proof.
  unfold is_symbol, terminal_of. destruct (t_type (r_token r)) as [| | | | | | | |z| |] eqn:E; try discriminate. unfold symbol_eqb. now destruct (symbol_eq_dec _ _) as [<-|].
Qed.
Lemma name_terminal r : is_identifier r = true -> terminal_of r = TName.
Proof. unfold is_identifier, terminal_of. now destruct (t_type (r_token r)). Qed.
Lemma number_terminal r : is_number r = true -> terminal_of r = TNumeral.
Proof. unfold is_number, terminal_of. now destruct (t_type (r_token r)). Qed.
Lemma string_terminal r : is_string r = true -> terminal_of r = TString.
Proof. unfold is_string, terminal_of. now destruct (t_type (r_token r)). Qed.

Definition word (t : tree) : list terminal := terminals (printed t).
Lemma terminals_app a b : terminals (a ++ b) = terminals a ++ terminals b.
Proof. apply map_app. Qed.
Lemma word_tok r : word (Tok r) = [terminal_of r].
Proof. reflexivity. Qed.
Lemma word_con k cs : word (Con k cs) = flat_map word cs.
Proof. unfold word. rewrite printed_con. induction cs as [|t cs IH]; [reflexivity|]. cbn [flat_map]. now rewrite terminals_app, IH. Qed.
Lemma words_flat cs : terminals (flat_map printed cs) = flat_map word cs.
Proof. induction cs as [|t cs IH]; [reflexivity|]. cbn [flat_map]. now rewrite terminals_app, IH. Qed.
Lemma word_plain k cs : encloses k = false -> List.length cs = List.length (fields k) -> word (Nd k cs) = flat_map word cs.
Proof. intros E L. unfold word. rewrite printed_plain by assumption. apply words_flat. Qed.

(** ** What the parts of a tree derive *)
Definition D (g : nonterminal -> list (list gsym)) (n : nonterminal) (t : tree) : Prop := derives g [N n] (word t).
(** After an expression that may be a prefix. *)
Definition after (g : nonterminal -> list (list gsym)) (n : nonterminal) (t : tree) : Prop := forall w, derives g [N PrefixExp] w -> derives g [N n] (w ++ word t).

(** The grammar has attributes. *)
Definition has_attributes (g : nonterminal -> list (list gsym)) : Prop := forall n rhs, In rhs (attribute_rules n) \/ n = Stat /\ In rhs attributed -> In rhs (g n).
Definition node_claim (g : nonterminal -> list (list gsym)) (n : nty) (t : tree) : Prop :=
  match n with
  | NBlock => D g Chunk t
  | NLastStmt | NReturn => D g LastStat t
  | NField => D g Field t
  | NTableConstructor => D g TableConstructor t
  | NAnonymousFunction => D g Function t
  | NExpression => D g Exp t /\ (is_parentheses t = true -> derives g paren (word t))
  | NStmt | NGoto | NLabel | NNumericFor | NGenericFor | NIf | NWhile | NRepeat | NAssignment | NLocalFunction | NLocalAssignment | NDo | NFunctionDeclaration => D g Stat t
  | NPrefix => D g PrefixExp t /\ (match t with Nd KPrefixExpression _ => True | _ => False end -> derives g paren (word t))
  | NIndex => after g Var t
  | NFunctionArgs => D g Args t
  | NMethodCall | NCall => after g FunctionCall t
  | NSuffix => after g (if call_suffix t then FunctionCall else Var) t
  | NFunctionCall => D g FunctionCall t
  | NElseIf => derives g [y SElseIf; N Exp; y SThen; N Chunk] (word t)
  | NFunctionBody => D g FuncBody t
  | NParameter => word t = [if param_is_name t then TName else TSym SEllipsis]
  | NVarExpression | NVar => D g Var t
  | NFunctionName => D g FuncName t
  | NBinOp => D g BinOp t
  | NUnOp => D g UnOp t
  | NAttribute => word t = [TSym SLessThan; TName; TSym SGreaterThan] /\ has_attributes g
  | _ => False
  end.
Fixpoint claim (g : nonterminal -> list (list gsym)) (t : tree) (z : ty) {struct z} : Prop :=
  match z with
  | YNode n => node_claim g n t
  | YTok => exists r, t = Tok r
  | YSpan => exists a b, t = Con CSpan [Tok a; Tok b]
  | YOpt a => t = Con CNone [] \/ exists x, t = Con CSome [x] /\ claim g x a
  | YVec a => exists l, t = Con CVec l /\ Forall (fun x => claim g x a) l
  | YTuple a b => exists u v, t = Con CTuple [u; v] /\ claim g u a /\ claim g v b
  | YPunctuated a => exists l, t = Con CPunctuated l /\ Forall (fun p => exists v, claim g v a /\ (p = Con CEnd [v] \/ exists r, p = Con CPunct [v; Tok r])) l
  | YPair a => exists v, claim g v a /\ (t = Con CEnd [v] \/ exists r, t = Con CPunct [v; Tok r])
  end.

(** ** Lists *)
Definition element (g : nonterminal -> list (list gsym)) (x : gsym) (p : tree) : Prop :=
  exists v, derives g [x] (word v) /\ (p = Con CEnd [v] \/ exists r, p = Con CPunct [v; Tok r]).
Lemma list_derives g L x sep ys tr nm :
  In [x] (g L) -> In [N L; sep; x] (g L) -> (forall r, existsb (is_symbol r) ys = true -> derives g [sep] [terminal_of r]) ->
  forall l, l <> [] -> separated ys tr nm l = true -> Forall (element g x) l ->
  exists w, derives g [N L] w /\ (flat_map word l = w \/ tr = true /\ exists r, existsb (is_symbol r) ys = true /\ flat_map word l = w ++ [terminal_of r]).
Proof.
  intros R1 R2 Hs.
  assert (G : forall l u, (forall w, derives g [x] w -> derives g [N L] (u ++ w)) -> l <> [] -> separated ys tr nm l = true -> Forall (element g x) l ->
    exists w, derives g [N L] w /\ (u ++ flat_map word l = w \/ tr = true /\ exists r, existsb (is_symbol r) ys = true /\ u ++ flat_map word l = w ++ [terminal_of r])).
  { induction l as [|p l IH]; intros u Hu Nl S F; [congruence|]. inversion_clear F as [|? ? (v & Dv & P) F']. destruct P as [->|(r & ->)].
    - destruct l as [|? ?]; [|discriminate S]. exists (u ++ word v). split; [auto|]. left. cbn [flat_map]. rewrite word_con. cbn [flat_map]. now rewrite !app_nil_r.
    - destruct l as [|p' l].
      + cbn [separated one_of] in S. rewrite !andb_true_iff in S. destruct S as [[St _] Sr]. exists (u ++ word v). split; [auto|]. right. split; [assumption|].
        exists r. split; [assumption|]. cbn [flat_map]. rewrite word_con. cbn [flat_map]. rewrite word_tok, !app_nil_r, app_assoc. reflexivity.
      + assert (S' : existsb (is_symbol r) ys = true /\ separated ys tr nm (p' :: l) = true).
        { change ((negb nm || is_name v) && one_of ys (Tok r) && separated ys tr nm (p' :: l) = true) in S. rewrite !andb_true_iff in S. tauto. }
        destruct S' as [Sr S'].
        destruct (IH (u ++ word v ++ [terminal_of r])) as (w & Dw & E); [|discriminate|assumption|assumption|].
        * intros w Dw. apply d1 with [N L; sep; x]; [assumption|]. rewrite <- !app_assoc, app_assoc. apply dN; [auto|]. apply dX; [auto|]. apply d_end. now apply dX; [|constructor].
        * exists w. split; [assumption|]. change (flat_map word (Con CPunct [v; Tok r] :: p' :: l)) with (word (Con CPunct [v; Tok r]) ++ flat_map word (p' :: l)).
          rewrite word_con. cbn [flat_map] in *. rewrite word_tok in *. rewrite <- !app_assoc in *. cbn [app] in *. assumption. }
  intros l Nl S F. destruct (G l [] ltac:(intros w Dw; apply d1 with [x]; assumption) Nl S F) as (w & Dw & E). exists w. split; assumption.
Qed.
Lemma list_plain g L x ys nm :
  In [x] (g L) -> In [N L; T (TSym ys); x] (g L) -> forall l, l <> [] -> separated [ys] false nm l = true -> Forall (element g x) l -> derives g [N L] (flat_map word l).
Proof.
  intros R1 R2 l Nl S F. destruct (list_derives g L x (T (TSym ys)) [ys] false nm R1 R2) with (l := l) as (w & Dw & [->|[X _]]); try assumption; [|discriminate].
  intros r H. cbn in H. rewrite orb_false_r in H. rewrite (sym_terminal _ _ H). repeat constructor.
Qed.
(** Lists of names carry their names in the condition. *)
Lemma names_elements g ys tr l : separated ys tr true l = true -> Forall (fun p => exists v, claim g v YTok /\ (p = Con CEnd [v] \/ exists r, p = Con CPunct [v; Tok r])) l ->
  Forall (element g (T TName)) l.
Proof.
  intros S F. revert S. induction F as [|p l (v & (r0 & ->) & P) F IH]; intros S; [constructor|].
  assert (H : is_identifier r0 = true /\ separated ys tr true l = true).
  { destruct P as [->|(r & ->)]; [destruct l; [now split|discriminate]|]. destruct l as [|p' l].
    - cbn [separated negb orb is_name] in S. rewrite !andb_true_iff in S. now split.
    - change ((negb true || is_name (Tok r0)) && one_of ys (Tok r) && separated ys tr true (p' :: l) = true) in S. cbn [negb orb is_name] in S. rewrite !andb_true_iff in S. tauto. }
  destruct H as [Hn S']. constructor; [|auto]. exists (Tok r0). split; [|assumption]. rewrite word_tok, (name_terminal _ Hn). repeat constructor.
Qed.
Lemma node_elements g n x l : (forall v, node_claim g n v -> derives g [x] (word v)) ->
  Forall (fun p => exists v, claim g v (YNode n) /\ (p = Con CEnd [v] \/ exists r, p = Con CPunct [v; Tok r])) l -> Forall (element g x) l.
Proof. intros H F. eapply Forall_impl; [|exact F]. intros p (v & C & P). exists v. split; [now apply H|assumption]. Qed.

(** ** Nodes *)
Ltac split_ands := repeat match goal with H : _ && _ = true |- _ => apply andb_true_iff in H; destruct H end.
Ltac syms := solve [apply sym_terminal; assumption | apply name_terminal; assumption | apply number_terminal; assumption | apply string_terminal; assumption].
Ltac der := repeat (cbn [app flat_map]; first
  [ apply d_nil | apply dT; [syms|] | apply dN; [assumption|] ]).
Lemma in_moon d n rhs : In rhs (full n) -> forallb (enabled_part d) (N n :: rhs) = true -> In rhs (moon n).
Proof. intros H E. apply filter_In. now split. Qed.
Ltac in_moon := apply in_moon; [cbn [full lua51 labels attributed attribute_rules bit_operators map app In]; repeat (first [left; reflexivity|right])|
  cbn [forallb y enabled_part andb d_goto d_bits d_attributes dialect_of]; rewrite ?andb_true_r; first [reflexivity|assumption|repeat (apply andb_true_iff; split); assumption]].
Ltac rule r := match goal with E1 : forall n rhs, In rhs (moon n) -> In rhs (?g n) |- derives ?g [N ?n] _ =>
  apply (d1 g n r); [apply E1; in_moon|] end.
Ltac claims H :=
  lazymatch type of H with
  | Forall2 _ _ [] => inversion H; subst; clear H
  | Forall2 _ _ (_ :: _) =>
      let t := fresh "t" in let l := fresh "l" in let C := fresh "C" in let Hl := fresh "Hl" in
      inversion H as [|t ? l ? C Hl]; subst; clear H; claims Hl
  end.
Ltac parts :=
  repeat match goal with
  | H : claim _ _ YTok |- _ => destruct H as (? & ->)
  | H : claim _ _ YSpan |- _ => destruct H as (? & ? & ->)
  | H : claim _ _ (YPunctuated _) |- _ => destruct H as (? & -> & ?)
  | H : claim _ _ (YVec _) |- _ => destruct H as (? & -> & ?)
  | H : claim _ _ (YNode _) |- _ => cbn [claim node_claim] in H
  | H : D _ _ _ /\ _ |- _ => destruct H
  end.
Ltac plain_word := unfold D, after in *; rewrite word_plain by reflexivity; cbn [flat_map]; rewrite ?word_tok.
Ltac fits H := cbn [written all_fit fits_piece one_of existsb is_name] in H; rewrite ?orb_false_r, ?andb_true_r in H; split_ands.

Lemma stats_sound {d : dialect} g l : (forall n rhs, In rhs (moon n) -> In rhs (g n)) -> forallb with_semicolon l = true ->
  Forall (fun x => claim g x (YTuple (YNode NStmt) (YOpt YTok))) l -> derives g [N Stats] (flat_map word l).
Proof.
  intros E1 S F. assert (G : forall u, derives g [N Stats] u -> derives g [N Stats] (u ++ flat_map word l)); [|apply (G []); rule (@nil gsym); constructor].
  revert S. induction F as [|x l (s & o & -> & Cs & Co) F IH]; intros S u Du; [now rewrite app_nil_r|].
  cbn [forallb with_semicolon] in S. apply andb_true_iff in S as [So S]. cbn [flat_map]. rewrite app_assoc. apply (IH S). rewrite word_con. cbn [flat_map].
  cbn [claim node_claim] in Cs. unfold D in Cs. destruct Co as [->|(z & -> & (r & ->))].
  - rewrite word_con. rule [N Stats; N Stat]. der.
  - cbn [opt_symbol one_of existsb] in So. rewrite orb_false_r in So. rewrite word_con. cbn [flat_map]. rewrite word_tok. rule [N Stats; N Stat; y SSemicolon]. der.
Qed.
Lemma elseifs_sound {d : dialect} g l : (forall n rhs, In rhs (moon n) -> In rhs (g n)) -> Forall (fun x => claim g x (YNode NElseIf)) l -> derives g [N ElseIfs] (flat_map word l).
Proof.
  intros E1 F. assert (G : forall u, derives g [N ElseIfs] u -> derives g [N ElseIfs] (u ++ flat_map word l)); [|apply (G []); rule (@nil gsym); constructor].
  induction F as [|x l C F IH]; intros u Du; [now rewrite app_nil_r|]. cbn [flat_map]. rewrite app_assoc. apply IH. rule [N ElseIfs; y SElseIf; N Exp; y SThen; N Chunk].
  apply dN; [assumption|exact C].
Qed.
Lemma suffixes_sound {d : dialect} g u l : (forall n rhs, In rhs (moon n) -> In rhs (g n)) -> derives g [N PrefixExp] u -> Forall (fun x => claim g x (YNode NSuffix)) l ->
  derives g [N PrefixExp] (u ++ flat_map word l) /\
  match rev l with [] => True | x :: _ => derives g [N (if call_suffix x then FunctionCall else Var)] (u ++ flat_map word l) end.
Proof.
  intros E1 Du. induction l as [|x l IH] using rev_ind; intros F; [cbn; now rewrite app_nil_r|].
  apply Forall_app in F as [F C]. inversion_clear C as [|? ? Cx _]. cbn [claim node_claim] in Cx. destruct (IH F) as [Dl _].
  rewrite rev_unit, flat_map_app, app_assoc. cbn [flat_map]. rewrite app_nil_r. specialize (Cx _ Dl). split; [|assumption].
  destruct (call_suffix x); [rule [N FunctionCall]|rule [N Var]]; apply d_end, dN; [assumption|constructor|assumption|constructor].
Qed.
Lemma params_sound {d : dialect} g : (forall n rhs, In rhs (moon n) -> In rhs (g n)) -> forall l u,
  (u = [] \/ exists w, u = w ++ [TSym SComma] /\ derives g [N NameList] w) -> l <> [] -> separated [SComma] false false l = true -> names_then_ellipsis l = true ->
  Forall (fun p => exists v, claim g v (YNode NParameter) /\ (p = Con CEnd [v] \/ exists r, p = Con CPunct [v; Tok r])) l -> derives g [N ParList] (u ++ flat_map word l).
Proof.
  intros E1. induction l as [|p l IH]; intros u Hu Nl S Ne F; [congruence|]. inversion_clear F as [|? ? (v & Cv & P) F']. cbn [claim node_claim] in Cv.
  assert (Na : derives g [N NameList] (u ++ [TName])).
  { destruct Hu as [->|(w & -> & Dw)]; [rule [T TName]; repeat constructor|]. rule [N NameList; y SComma; T TName]. rewrite <- app_assoc. apply dN; [assumption|]. repeat constructor. }
  destruct P as [->|(r & ->)].
  - destruct l; [|discriminate S]. cbn [flat_map]. rewrite word_con. cbn [flat_map]. rewrite !app_nil_r, Cv. destruct (param_is_name v).
    + rule [N NameList]. apply d_end, dN; [assumption|constructor].
    + destruct Hu as [->|(w & -> & Dw)]; [rule [y SEllipsis]; repeat constructor|]. rule [N NameList; y SComma; y SEllipsis]. rewrite <- app_assoc. apply dN; [assumption|]. repeat constructor.
  - destruct l as [|p' l]; [discriminate S|].
    change ((negb false || is_name v) && one_of [SComma] (Tok r) && separated [SComma] false false (p' :: l) = true) in S. cbn [negb orb one_of existsb] in S. rewrite orb_false_r in S.
    apply andb_true_iff in S as [Sr S]. cbn [names_then_ellipsis] in Ne. apply andb_true_iff in Ne as [Nv Ne]. rewrite orb_false_r in Nv. rewrite Nv in Cv.
    change (flat_map word (Con CPunct [v; Tok r] :: p' :: l)) with (word (Con CPunct [v; Tok r]) ++ flat_map word (p' :: l)). rewrite word_con. cbn [flat_map]. rewrite word_tok, Cv, (sym_terminal _ _ Sr).
    rewrite app_assoc. apply IH; [|discriminate|assumption|assumption|assumption]. right. exists (u ++ [TName]). split; [|assumption]. now rewrite <- app_assoc.
Qed.
Lemma word_span k a b m : display_order k = [L 0; F 1; R 0] -> word (Nd k [Con CSpan [Tok a; Tok b]; m]) = terminal_of a :: word m ++ [terminal_of b].
Proof. intros E. unfold word. rewrite printed_nd, E. cbn [flat_map pick at_ subs_at subs nth_error]. rewrite !terminals_app. reflexivity. Qed.
Lemma nones_print l : Forall (fun x : tree => x = Con CNone [] \/ exists z, x = Con CSome [z] /\ False) l -> Forall (fun x => printed x = []) l.
Proof. intros F. eapply Forall_impl; [|exact F]. intros x [->|(z & _ & [])]. reflexivity. Qed.

Lemma zip_claim (P : tree -> Prop) pairs : Forall (fun p => exists v, P v /\ (p = Con CEnd [v] \/ exists r, p = Con CPunct [v; Tok r])) pairs ->
  forall vecs, Forall (Forall (fun x => printed x = [])) vecs -> zip_pick printed true pairs vecs = flat_map printed pairs.
Proof.
  induction 1 as [|x pairs (v & _ & Hx) _ IH]; intros vecs Hv; [reflexivity|]. cbn [zip_pick flat_map]. rewrite IH.
  - assert (Z : flat_map (at_ printed 0) vecs = []).
    { clear -Hv. induction Hv as [|w vecs H _ IH]; [reflexivity|]. cbn [flat_map]. rewrite IH. destruct H as [|z w Hz _]; [reflexivity|]. unfold at_. cbn [nth_error]. now rewrite Hz. }
    rewrite Z. cbn [app]. rewrite app_assoc. f_equal. destruct Hx as [->|(r & ->)]; cbn [subs]; rewrite printed_con; unfold at_; cbn [nth_error flat_map]; now rewrite ?app_nil_r.
  - apply Forall_map. eapply Forall_impl; [|exact Hv]. intros w H. destruct H; [constructor|assumption].
Qed.
(** Names with attributes. *)
Ltac att r := match goal with A : has_attributes ?g |- derives ?g [N ?n] _ =>
  apply (d1 g n r); [apply A; first [left; cbn; repeat (first [left; reflexivity|right]); fail|right; split; [reflexivity|cbn; repeat (first [left; reflexivity|right]); fail]]|] end.
Lemma no_attributes g vs : Forall (fun x => claim g x (YOpt (YNode NAttribute))) vs -> Forall (fun x => printed x = []) vs \/ has_attributes g.
Proof. induction 1 as [|x vs [->|(t & -> & _ & A)] _ IH]; [left; constructor| |right; exact A]. destruct IH as [IH|IH]; [left; constructor; [reflexivity|assumption]|now right]. Qed.
Lemma attributes_sound g : has_attributes g -> forall pairs vs ts u,
  (u = [] \/ exists w, u = w ++ [TSym SComma] /\ derives g [N AttNameList] w) -> pairs <> [] -> separated [SComma] false true pairs = true ->
  Forall (fun p => exists v, claim g v YTok /\ (p = Con CEnd [v] \/ exists r, p = Con CPunct [v; Tok r])) pairs ->
  Forall (fun x => claim g x (YOpt (YNode NAttribute))) vs -> Forall (fun x => printed x = []) ts ->
  derives g [N AttNameList] (u ++ terminals (zip_pick printed true pairs [vs; ts])).
Proof.
  intros A. induction pairs as [|p l IH]; intros vs ts u Hu Nl S F V Z; [congruence|]. inversion_clear F as [|? ? (v & (r0 & ->) & P) F'].
  cbn [zip_pick]. set (a := flat_map (at_ printed 0) [vs; ts]).
  assert (Ha : terminals a = [] \/ terminals a = [TSym SLessThan; TName; TSym SGreaterThan]).
  { unfold a. cbn [flat_map]. assert (X : at_ printed 0 ts = []) by (destruct Z as [|z w Hz _]; [reflexivity|exact Hz]). rewrite X, !app_nil_r.
    destruct V as [|z w [->|(t & -> & Ht)] _]; [now left|now left|right]. unfold at_. cbn [nth_error]. rewrite printed_con. cbn [flat_map]. rewrite app_nil_r. exact (proj1 Ht). }
  assert (Na : is_identifier r0 = true -> derives g [N AttNameList] (u ++ TName :: terminals a)).
  { intros Hr. assert (B : derives g [N AttName] (TName :: terminals a)).
    { destruct Ha as [-> | ->]; [att [T TName]|att [T TName; y SLessThan; T TName; y SGreaterThan]]; repeat constructor. }
    destruct Hu as [->|(w & -> & Dw)]; [cbn [app]; att [N AttName]; apply d_end, dN; [assumption|constructor]|].
    att [N AttNameList; y SComma; N AttName]. rewrite <- app_assoc. apply dN; [assumption|]. cbn [app]. apply d_terminal. apply d_end, dN; [assumption|constructor]. }
  destruct P as [->|(r & ->)].
  - destruct l; [|discriminate S]. cbn [separated negb orb is_name] in S. cbn [subs at_ nth_error zip_pick]. rewrite !terminals_app, !app_nil_r.
    change (terminals (printed (Tok r0))) with [terminal_of r0]. rewrite (name_terminal _ S). now apply Na.
  - destruct l as [|p' l]; [discriminate S|].
    change ((negb true || is_name (Tok r0)) && one_of [SComma] (Tok r) && separated [SComma] false true (p' :: l) = true) in S. cbn [negb orb one_of existsb is_name] in S.
    rewrite orb_false_r in S. apply andb_true_iff in S as [Sr S]. apply andb_true_iff in Sr as [Sn Sr]. cbn [subs at_ nth_error]. rewrite !terminals_app.
    cbn [map]. rewrite !app_assoc. apply IH; [|discriminate|assumption|assumption| |].
    + right. exists (u ++ TName :: terminals a). split; [|now apply Na]. change (terminals (printed (Tok r0))) with [terminal_of r0]. change (terminals (printed (Tok r))) with [terminal_of r]. rewrite (name_terminal _ Sn), (sym_terminal _ _ Sr). rewrite <- !app_assoc. reflexivity.
    + destruct V; [constructor|assumption].
    + destruct Z; [constructor|assumption].
Qed.
Lemma nonempty {A} (l : list A) : false || negb (Nat.eqb (List.length l) 0) = true -> l <> [].
Proof. now destruct l. Qed.
Lemma exps_sound {d : dialect} g l : (forall n rhs, In rhs (moon n) -> In rhs (g n)) -> l <> [] -> separated [SComma] false false l = true ->
  Forall (fun p => exists v, claim g v (YNode NExpression) /\ (p = Con CEnd [v] \/ exists r, p = Con CPunct [v; Tok r])) l -> derives g [N ExpList] (flat_map word l).
Proof.
  intros E1 Nl S F. apply (list_plain g ExpList (N Exp) SComma false); [apply E1; in_moon|apply E1; in_moon|assumption|assumption|].
  eapply node_elements; [|exact F]. cbn [node_claim]. intros v [H _]. exact H.
Qed.
Lemma vars_sound {d : dialect} g l : (forall n rhs, In rhs (moon n) -> In rhs (g n)) -> l <> [] -> separated [SComma] false false l = true ->
  Forall (fun p => exists v, claim g v (YNode NVar) /\ (p = Con CEnd [v] \/ exists r, p = Con CPunct [v; Tok r])) l -> derives g [N VarList] (flat_map word l).
Proof.
  intros E1 Nl S F. apply (list_plain g VarList (N Var) SComma false); [apply E1; in_moon|apply E1; in_moon|assumption|assumption|].
  eapply node_elements; [|exact F]. cbn [node_claim]. intros v H. exact H.
Qed.
Lemma names_sound g L s l : In [T TName] (g L) -> In [N L; y s; T TName] (g L) -> l <> [] -> separated [s] false true l = true ->
  Forall (fun p => exists v, claim g v YTok /\ (p = Con CEnd [v] \/ exists r, p = Con CPunct [v; Tok r])) l -> derives g [N L] (flat_map word l).
Proof. intros R1 R2 Nl S F. apply (list_plain g L (T TName) s true); [assumption|assumption|assumption|assumption|]. eapply names_elements; [exact S|exact F]. Qed.
Lemma fields_sound {d : dialect} g l : (forall n rhs, In rhs (moon n) -> In rhs (g n)) -> l <> [] -> separated [SComma; SSemicolon] true false l = true ->
  Forall (fun p => exists v, claim g v (YNode NField) /\ (p = Con CEnd [v] \/ exists r, p = Con CPunct [v; Tok r])) l ->
  exists w, derives g [N FieldList] w /\ (flat_map word l = w \/ exists v, derives g [N FieldSep] [v] /\ flat_map word l = w ++ [v]).
Proof.
  intros E1 Nl S F.
  assert (Se : forall r, existsb (is_symbol r) [SComma; SSemicolon] = true -> derives g [N FieldSep] [terminal_of r]).
  { intros r H. cbn [existsb] in H. rewrite orb_false_r in H. apply orb_true_iff in H as [H|H]; rewrite (sym_terminal _ _ H); [rule [y SComma]|rule [y SSemicolon]]; repeat constructor. }
  destruct (list_derives g FieldList (N Field) (N FieldSep) [SComma; SSemicolon] true false ltac:(apply E1; in_moon) ltac:(apply E1; in_moon) Se l Nl S) as (w & Dw & H).
  - eapply node_elements; [|exact F]. cbn [node_claim]. intros v H. exact H.
  - exists w. split; [assumption|]. destruct H as [H|(_ & r & Hr & H)]; [now left|]. right. exists (terminal_of r). split; [now apply Se|assumption].
Qed.
Ltac none C := destruct C as [->|(? & -> & [])].
Ltac words := rewrite ?word_con; cbn [flat_map]; rewrite ?word_tok; cbn [app]; rewrite ?app_nil_r.
Ltac syms2 := apply dT; [syms|].
Ltac printing := unfold D, word in |- *; rewrite printed_nd; cbn [display_order flat_map pick at_ subs_at subs nth_error map].
Ltac to_words := rewrite ?terminals_app, ?words_flat; repeat match goal with |- context [terminals (printed ?t)] => change (terminals (printed t)) with (word t) end; words.

Lemma node_sound c g rx k cs : plain c -> extends (dialect_of c) g rx -> node_in c rx k cs = true -> Forall2 (claim g) cs (fields k) -> node_claim g (kind_type k) (Nd k cs).
Proof.
  intros (L & X & Xf) (E1 & E2) N F. pose (dc := dialect_of c). unfold node_in, proper_node in N. rewrite !andb_true_iff in N. destruct N as [[[[[Ft Jt] _] Ka] Fe] Rx].
  destruct k; cbn [kind_allowed] in Ka; rewrite ?L, ?X, ?Xf, ?orb_false_r in Ka; try discriminate Ka; cbn [fields kind_type node_claim] in *; claims F; parts; fits Ft.
  all: try solve [plain_word; der].
  all: try solve [plain_word; match goal with H : derives _ [N ?n] _ |- _ => rule [N n]; der end].
  all: try solve [split; [|discriminate]; plain_word; match goal with H : derives _ [N ?n] _ |- _ => rule [N n]; der end].
  all: try match goal with H : Forall (fun x => claim ?g x (YNode NLuauAttribute)) ?l |- _ => destruct l as [|? ?]; [|exfalso; exact (Forall_inv H)] end.
  - (* block *)
    plain_word. rewrite word_con, app_nil_r. pose proof (stats_sound g _ E1 H0 H) as Ds.
    destruct C0 as [->|(z & -> & (u & o & -> & Cu & Co))]; [rewrite word_con; rule [N Stats]; der|].
    cbn [claim node_claim] in Cu. unfold D in Cu. words. destruct Co as [->|(w & -> & (r & ->))]; words.
    + rule [N Stats; N LastStat]. apply dN; [assumption|]. apply d_end. der.
    + cbn [with_semicolon opt_symbol one_of existsb] in H1. rewrite orb_false_r in H1. rule [N Stats; N LastStat; y SSemicolon]. der.
  - (* break *) plain_word. rule [y SBreak]. der.
  - (* return *)
    plain_word. words. destruct x0 as [|p l]; [rule [y SReturn]; cbn [flat_map]; der|]. rule [y SReturn; N ExpList]. syms2. apply d_end, dN; [|constructor].
    now apply exps_sound.
  - (* [a] = b *)
    printing. rewrite !terminals_app. rule [y SLeftBracket; N Exp; y SRightBracket; y SEqual; N Exp]. cbn [terminals map app].
    syms2. apply dN; [exact H1|]. syms2. syms2. apply dN; [exact H|constructor].
  - (* a = b *) plain_word. rule [T TName; y SEqual; N Exp]. der.
  - (* table *)
    unfold D. rewrite word_span by reflexivity. words. destruct x1 as [|p l]; [cbn [flat_map app]; rule [y SLeftBrace; y SRightBrace]; der|].
    destruct (fields_sound g (p :: l) E1 ltac:(discriminate) H2 H) as (w & Dw & [->|(v & Dv & ->)]).
    + rule [y SLeftBrace; N FieldList; y SRightBrace]. der.
    + rule [y SLeftBrace; N FieldList; N FieldSep; y SRightBrace]. rewrite <- app_assoc. syms2. apply dN; [assumption|]. apply dN; [assumption|]. der.
  - (* function *) plain_word. rewrite word_con. rule [y SFunction; N FuncBody]. der.
  - (* binary *) split; [|discriminate]. plain_word. rule [N Exp; N BinOp; N Exp]. der.
  - (* parentheses *)
    assert (P : derives g paren (word (Nd KExprParentheses [Con CSpan [Tok x; Tok x0]; t0]))).
    { rewrite word_span by reflexivity. unfold paren. unfold D in H. der. }
    split; [|intros _; exact P]. unfold D. rule [N PrefixExp]. apply d_end, dN; [|constructor]. rule paren. exact P.
  - (* unary *) split; [|discriminate]. plain_word. rule [N UnOp; N Exp]. der.
  - (* call *) split; [|discriminate]. plain_word. rewrite app_nil_r. rule [N PrefixExp]. apply d_end, dN; [|constructor]. rule [N FunctionCall]. apply d_end, dN; [assumption|constructor].
  - split; [|discriminate]. plain_word. rule [T TNumeral]. der.
  - split; [|discriminate]. plain_word. rule [T TString]. der.
  - split; [|discriminate]. plain_word. rewrite !orb_true_iff in Ft. destruct Ft as [H|[H|[H|H]]]; [rule [y STrue]|rule [y SFalse]|rule [y SNil]|rule [y SEllipsis]]; der.
  - (* variable *) split; [|discriminate]. plain_word. rewrite app_nil_r. rule [N PrefixExp]. apply d_end, dN; [|constructor]. rule [N Var]. apply d_end, dN; [assumption|constructor].
  - (* prefix in parentheses *)
    cbn [joint] in Jt. assert (P : derives g paren (word (Nd KPrefixExpression [t]))) by (plain_word; rewrite app_nil_r; auto).
    split; [|intros _; exact P]. unfold D. rule paren. exact P.
  - (* prefix that is a name *) split; [|contradiction]. plain_word. rule [N Var]. apply d_end, dN; [|constructor]. rule [T TName]. der.
  - (* [e] *) unfold after. intros w Dw. rewrite word_span by reflexivity. unfold D in H. rule [N PrefixExp; y SLeftBracket; N Exp; y SRightBracket]. der.
  - (* .name *)
    unfold after. intros w Dw. rewrite word_plain by reflexivity. words. rule [N PrefixExp; y SDot; T TName]. cbn in Fe. rewrite Xf, orb_false_r in Fe.
    assert (Q : is_symbol x0 SDot = true). { destruct (is_symbol x0 SQuestionMarkDot); [discriminate Fe|]. now rewrite orb_false_r in H. } der.
  - (* arguments *)
    unfold D. rewrite word_span by reflexivity. words. destruct x1 as [|p l]; [cbn [flat_map app]; rule [y SLeftParen; y SRightParen]; der|].
    rule [y SLeftParen; N ExpList; y SRightParen]. syms2. apply dN; [now apply exps_sound|]. der.
  - plain_word. rule [T TString]. der.
  - (* numeric for *)
    none C10. unfold D in *. printing. to_words. cbn [joint] in Jt.
    destruct C5 as [->|(u & -> & (r & ->))], C6 as [->|(v & -> & Cv)]; try discriminate Jt; words.
    + rule [y SFor; T TName; y SEqual; N Exp; y SComma; N Exp; y SDo; N Chunk; y SEnd]. der.
    + cbn [claim node_claim] in Cv. destruct Cv as [Cv _]. unfold D in Cv. cbn [opt_symbol one_of existsb] in H9. rewrite orb_false_r in H9.
      rule [y SFor; T TName; y SEqual; N Exp; y SComma; N Exp; y SComma; N Exp; y SDo; N Chunk; y SEnd]. der.
  - (* generic for *)
    unfold D in *. printing. rewrite (zip_claim _ _ H0) by (repeat constructor; now apply nones_print). to_words.
    rule [y SFor; N NameList; y SIn; N ExpList; y SDo; N Chunk; y SEnd]. syms2.
    apply dN; [apply names_sound with SComma; [apply E1; in_moon|apply E1; in_moon|now apply nonempty|assumption|assumption]|]. syms2. apply dN; [apply exps_sound; auto; now apply nonempty|]. der.
  - (* if *)
    plain_word. cbn [joint] in Jt. assert (De : derives g [N ElseIfs] (word t3)).
    { destruct C3 as [->|(u & -> & (l & -> & Fl))]; words; [rule (@nil gsym); apply d_nil|rewrite word_con; now apply elseifs_sound]. }
    destruct C4 as [->|(u & -> & (r & ->))], C5 as [->|(v & -> & Cv)]; try discriminate Jt; words.
    + rule [y SIf; N Exp; y SThen; N Chunk; N ElseIfs; y SEnd]. der.
    + cbn [claim node_claim] in Cv. unfold D in Cv. cbn [opt_symbol one_of existsb] in H6. rewrite orb_false_r in H6. rule [y SIf; N Exp; y SThen; N Chunk; N ElseIfs; y SElse; N Chunk; y SEnd]. der.
  - plain_word. rule [y SWhile; N Exp; y SDo; N Chunk; y SEnd]. der.
  - plain_word. rule [y SRepeat; N Chunk; y SUntil; N Exp]. der.
  - (* method call *) none C1. unfold after. intros w Dw. rewrite word_plain by reflexivity. words. unfold D in C2. rule [N PrefixExp; y SColon; T TName; N Args]. apply dN; [assumption|]. apply d_end. der.
  - (* call *) unfold after. intros w Dw. rewrite word_plain by reflexivity. words. unfold D in C. rule [N PrefixExp; N Args]. apply dN; [assumption|]. apply d_end. der.
  - unfold after in *. intros w Dw. rewrite word_plain by reflexivity. words. auto.
  - (* function body *)
    none C. none C3. unfold D in *. printing. rewrite (zip_claim _ _ H) by (repeat constructor; now apply nones_print). to_words. cbn [joint] in Jt.
    destruct x2 as [|p l]; [cbn [flat_map app]; rule [y SLeftParen; y SRightParen; N Chunk; y SEnd]; der|].
    rule [y SLeftParen; N ParList; y SRightParen; N Chunk; y SEnd]. syms2. apply dN; [apply (params_sound g E1 (p :: l) []); auto; discriminate|]. der.
  - rewrite word_plain by reflexivity. words. cbn. f_equal. syms.
  - rewrite word_plain by reflexivity. words. cbn. f_equal. syms.
  - cbn [call_suffix]. unfold after in *. intros w Dw. rewrite word_plain by reflexivity. words. auto.
  - cbn [call_suffix]. unfold after in *. intros w Dw. rewrite word_plain by reflexivity. words. auto.
  - (* variable with suffixes *)
    plain_word. words. cbn [joint last_is_call] in Jt. pose proof (suffixes_sound g (word t) x E1 H0 H) as [_ Q]. destruct (rev x) as [|z l] eqn:Ex.
    + assert (x = []) as -> by (rewrite <- (rev_involutive x), Ex; reflexivity). cbn [flat_map]. rewrite app_nil_r. destruct rx; [|discriminate Rx].
      apply d1 with paren; [auto|]. apply H1. destruct t as [|? ?|k ?]; try discriminate Jt. destruct k; try discriminate Jt. exact I.
    + apply negb_true_iff in Jt. rewrite Jt in Q. exact Q.
  - plain_word. rule [T TName]. der.
  - (* assignment *)
    plain_word. words. rule [N VarList; y SEqual; N ExpList]. apply dN; [apply vars_sound; auto; now apply nonempty|]. syms2. apply d_end, dN; [|constructor]. apply exps_sound; auto. now apply nonempty.
  - plain_word. words. rule [y SLocal; y SFunction; T TName; N FuncBody]. repeat syms2. apply d_end. der.
  - (* local assignment *)
    unfold D in *. cbn [joint] in Jt. apply andb_true_iff in Jt as [J1 J2]. apply nones_print in H2.
    assert (Q : derives g [N NameList] (terminals (zip_pick printed true x1 [x2; x3])) \/ has_attributes g /\ derives g [N AttNameList] (terminals (zip_pick printed true x1 [x2; x3]))).
    { destruct (no_attributes g x2 H1) as [No|At].
      - left. rewrite (zip_claim _ _ H0) by (repeat constructor; assumption). rewrite words_flat.
        apply names_sound with SComma; [apply E1; in_moon|apply E1; in_moon|now apply nonempty|assumption|assumption].
      - right. split; [assumption|]. apply (attributes_sound g At x1 x2 x3 []); auto. now apply nonempty. }
    printing. rewrite !terminals_app. set (w := terminals (zip_pick printed true x1 [x2; x3])) in *. to_words.
    destruct C3 as [->|(u & -> & (r & ->))]; words.
    + destruct x0; [|discriminate J1]. cbn [flat_map app]. rewrite ?app_nil_r.
      destruct Q as [Q|[A Q]]; [rule [y SLocal; N NameList]|att [y SLocal; N AttNameList]]; syms2; apply d_end; der.
    + destruct x0 as [|p l]; [discriminate J1|]. cbn [opt_symbol one_of existsb] in J2. cbn in Fe. rewrite Xf, orb_false_r in Fe. rewrite !orb_false_r in J2.
      assert (Qr : is_symbol r SEqual = true) by (destruct (is_symbol r SIn); [discriminate Fe|]; now rewrite orb_false_r in J2).
      destruct Q as [Q|[A Q]]; [rule [y SLocal; N NameList; y SEqual; N ExpList]|att [y SLocal; N AttNameList; y SEqual; N ExpList]];
        (syms2; apply dN; [assumption|]; syms2; apply d_end, dN; [|constructor]; now apply exps_sound).
  - plain_word. rule [y SDo; N Chunk; y SEnd]. der.
  - (* function call *)
    plain_word. words. cbn [joint last_is_call] in Jt. pose proof (suffixes_sound g (word t) x E1 H0 H) as [_ Q]. destruct (rev x) as [|z l] eqn:Ex; [discriminate Jt|]. rewrite Jt in Q. exact Q.
  - (* function name *)
    plain_word. words.
    assert (Dn : derives g [N DotNames] (flat_map word x)) by (apply names_sound with SDot; [apply E1; in_moon|apply E1; in_moon|now apply nonempty|assumption|assumption]).
    destruct C0 as [->|(u & -> & (a & b & -> & (r & ->) & (r' & ->)))]; words.
    + rule [N DotNames]. apply d_end. der.
    + cbn [one_of existsb is_name] in H1. rewrite orb_false_r in H1. split_ands. rule [N DotNames; y SColon; T TName]. der.
  - plain_word. words. rule [y SFunction; N FuncName; N FuncBody]. syms2. apply dN; [assumption|]. apply d_end. der.
  - plain_word. words. rewrite (sym_terminal _ _ Ft). destruct s; try discriminate Ka; match goal with |- derives _ _ [TSym ?z] => rule [y z] end; repeat constructor.
  - plain_word. words. rewrite (sym_terminal _ _ Ft). destruct s; try discriminate Ka; match goal with |- derives _ _ [TSym ?z] => rule [y z] end; repeat constructor.
  - destruct s; discriminate Ka.
  - plain_word. rule [y SGoto; T TName]. der.
  - plain_word. rule [y STwoColons; T TName; y STwoColons]. der.
  - (* attribute *)
    rewrite word_span by reflexivity. words. rewrite (sym_terminal _ _ H), (sym_terminal _ _ H1), (name_terminal _ H0). split; [reflexivity|].
    intros n rhs Q. apply E1. destruct Q as [Q|[-> Q]].
    + apply in_moon; [destruct n; try contradiction; exact Q|]. destruct n; try contradiction; cbn in Q; decompose [or] Q; try contradiction; subst rhs; cbn; now rewrite ?Ka.
    + apply in_moon; [unfold full; apply in_app_iff; right; apply in_app_iff; now right|]. cbn in Q; decompose [or] Q; try contradiction; subst rhs; cbn; now rewrite ?Ka.
Qed.

(** ** Trees *)
Lemma claims2 g (p : tree -> bool) cs ys : Forall (fun t => forall z, has_ty t z -> p t = true -> claim g t z) cs -> Forall (fun t => p t = true) cs -> Forall2 has_ty cs ys ->
  Forall2 (claim g) cs ys.
Proof.
  intros I E H. induction H as [|t z cs ys Ht H IH]; [constructor|]. inversion_clear I. inversion_clear E. constructor; auto.
Qed.
Lemma repeats g z cs : Forall2 (claim g) cs (repeat z (List.length cs)) -> Forall (fun t => claim g t z) cs.
Proof. induction cs as [|t cs IH]; intros H; [constructor|]. cbn in H. inversion_clear H. constructor; auto. Qed.
Lemma tree_sound c g rx : plain c -> extends (dialect_of c) g rx -> forall t z, has_ty t z -> every (node_in c rx) t = true -> claim g t z.
Proof.
  intros Pl G. induction t as [r|cn cs IH|k cs IH] using tree_ind'; intros z Ty Ev.
  - apply wt_tok in Ty as ->. now exists r.
  - apply every_con in Ev. apply wt_con in Ty as (ys & Ec & Ty). pose proof (claims2 g (every (node_in c rx)) cs ys IH Ev Ty) as C. clear IH Ev Ty.
    destruct cn, z; try discriminate Ec; cbn [con_tys] in Ec; injection Ec as <-;
      try (apply repeats in C; cbn [claim]; eauto; fail); claims C; cbn [claim] in *; eauto 7.
    all: repeat match goal with H : exists r, _ = Tok r |- _ => destruct H as (? & ->) end; eauto 7.
  - apply every_nd in Ev as [Ek Ev]. apply wt_nd in Ty as [-> Ty]. cbn [claim]. apply (node_sound c g rx); [assumption|assumption|assumption|]. now apply (claims2 g (every (node_in c rx))).
Qed.
Lemma block_sound c g rx b : plain c -> extends (dialect_of c) g rx -> wt b (YNode NBlock) = true -> every (node_in c rx) b = true -> derives g [N Chunk] (terminals (printed b)).
Proof. intros Pl G Ty Ev. exact (tree_sound c g rx Pl G b (YNode NBlock) Ty Ev). Qed.

Lemma extends_moon (d : dialect) : extends d moon false.
Proof. split; [auto|discriminate]. Qed.
Lemma extends_relaxed (d : dialect) : extends d (relaxed moon) true.
Proof. split; [|intros _; now left]. intros n rhs H. destruct n; try exact H. now right. Qed.
