(** Words that the grammars do not derive: a pair of terminals that never stand next to each other. *)
From Verif Require Import LexerSpec.
From Verif Require Export GrammarSpec.
From Coq Require Import Lia.
Local Open Scope nat_scope.
Import ListNotations.

Definition terminal_eqb (a b : terminal) : bool :=
  match a, b with
  | TName, TName | TNumeral, TNumeral | TString, TString | TOther, TOther => true
  | TSym s, TSym z => symbol_eqb s z
  | _, _ => false
  end.
Lemma terminal_eqb_refl a : terminal_eqb a a = true.
Proof. destruct a; try reflexivity. cbn. unfold symbol_eqb. now destruct (symbol_eq_dec _ _). Qed.

(** Does [a] followed by [b] occur? *)
Fixpoint adjacent (a b : terminal) (w : list terminal) : bool :=
  match w with
  | [] => false
  | x :: w => match w with z :: _ => terminal_eqb a x && terminal_eqb b z | [] => false end || adjacent a b w
  end.
Definition starts (b : terminal) (w : list terminal) : bool := match w with x :: _ => terminal_eqb b x | [] => false end.
Fixpoint stops (a : terminal) (w : list terminal) : bool := match w with [] => false | [x] => terminal_eqb a x | _ :: w => stops a w end.
Lemma adjacent_app a b v w : adjacent a b (v ++ w) = adjacent a b v || (stops a v && starts b w) || adjacent a b w.
Proof.
  induction v as [|x v IH]; [reflexivity|]. destruct v as [|z v].
  - destruct w as [|z w]; cbn [app adjacent stops starts]; [now rewrite andb_false_r|reflexivity].
  - change (adjacent a b ((x :: z :: v) ++ w)) with ((terminal_eqb a x && terminal_eqb b z) || adjacent a b ((z :: v) ++ w)). rewrite IH.
    change (adjacent a b (x :: z :: v)) with ((terminal_eqb a x && terminal_eqb b z) || adjacent a b (z :: v)). change (stops a (x :: z :: v)) with (stops a (z :: v)).
    now rewrite !orb_assoc.
Qed.
Lemma starts_app b v w : starts b (v ++ w) = starts b v || (match v with [] => starts b w | _ => false end).
Proof. destruct v; cbn; [reflexivity|now rewrite orb_false_r]. Qed.
Lemma stops_app a v w : stops a (v ++ w) = match w with [] => stops a v | _ => stops a w end.
Proof.
  induction v as [|x v IH]; [now destruct w|]. destruct v as [|z v]; [destruct w; reflexivity|].
  change (stops a ((x :: z :: v) ++ w)) with (stops a ((z :: v) ++ w)). rewrite IH. now destruct w.
Qed.

(** Nonterminals that derive the empty word, that begin with [b] and that end with [a]. *)
Record view := mkView { vw_empty : nonterminal -> bool; vw_starts : nonterminal -> bool; vw_stops : nonterminal -> bool }.
Definition sym_empty (v : view) (s : gsym) : bool := match s with T _ => false | N n => vw_empty v n end.
Definition sym_starts (v : view) (b : terminal) (s : gsym) : bool := match s with T t => terminal_eqb b t | N n => vw_starts v n end.
Definition sym_stops (v : view) (a : terminal) (s : gsym) : bool := match s with T t => terminal_eqb a t | N n => vw_stops v n end.
Fixpoint word_starts (v : view) (b : terminal) (ss : list gsym) : bool :=
  match ss with [] => false | s :: ss => sym_starts v b s || (sym_empty v s && word_starts v b ss) end.
Fixpoint word_stops (v : view) (a : terminal) (ss : list gsym) : bool :=
  match ss with [] => false | s :: ss => word_stops v a ss || (forallb (sym_empty v) ss && sym_stops v a s) end.
Fixpoint apart (v : view) (a b : terminal) (ss : list gsym) : bool :=
  match ss with [] => true | s :: ss => negb (sym_stops v a s && word_starts v b ss) && apart v a b ss end.
Definition rule_ok (v : view) (a b : terminal) (n : nonterminal) (rhs : list gsym) : bool :=
  implb (forallb (sym_empty v) rhs) (vw_empty v n) && implb (word_starts v b rhs) (vw_starts v n) && implb (word_stops v a rhs) (vw_stops v n) && apart v a b rhs.
Definition all_nonterminals : list nonterminal :=
  [Chunk; Stat; LastStat; FuncName; VarList; Var; NameList; ExpList; Exp; PrefixExp; FunctionCall; Args; Function; FuncBody; ParList; TableConstructor;
   FieldList; Field; FieldSep; BinOp; UnOp; Stats; ElseIfs; DotNames; AttNameList; AttName].
Definition grammar_ok (v : view) (a b : terminal) (g : nonterminal -> list (list gsym)) : bool :=
  forallb (fun n => forallb (rule_ok v a b n) (g n)) all_nonterminals.

Lemma impl_use p q : implb p q = true -> p = true -> q = true.
Proof. destruct p; [auto|discriminate]. Qed.
Lemma never_adjacent v a b g : grammar_ok v a b g = true -> forall ss w, derives g ss w -> apart v a b ss = true ->
  adjacent a b w = false /\ (w = [] -> forallb (sym_empty v) ss = true) /\ (starts b w = true -> word_starts v b ss = true) /\ (stops a w = true -> word_stops v a ss = true).
Proof.
  intros G. assert (Gn : forall n rhs, In rhs (g n) -> rule_ok v a b n rhs = true).
  { unfold grammar_ok in G. rewrite forallb_forall in G. intros n rhs I. assert (In n all_nonterminals) as In' by (destruct n; cbn; tauto).
    specialize (G n In'). cbn beta in G. rewrite forallb_forall in G. auto. }
  induction 1 as [|t ss w D IH|n rhs ss x w I D1 IH1 D2 IH2]; intros Ap.
  - repeat split; cbn; auto; discriminate.
  - cbn [apart] in Ap. apply andb_true_iff in Ap as [A1 A2]. destruct (IH A2) as (I1 & I2 & I3 & I4). apply negb_true_iff in A1. cbn [sym_stops] in A1.
    change (t :: w) with ([t] ++ w). rewrite adjacent_app, starts_app, stops_app, I1. cbn [adjacent stops starts orb forallb sym_empty word_starts word_stops sym_starts sym_stops].
    repeat split.
    + rewrite orb_false_r. destruct (terminal_eqb a t); [|reflexivity]. destruct (starts b w); [|reflexivity]. cbn [andb] in *. now rewrite I3 in A1.
    + discriminate.
    + rewrite orb_false_r. intros ->. reflexivity.
    + destruct w as [|z w]; [|intros H; now rewrite (I4 H)]. intros ->. rewrite (I2 eq_refl). cbn. now rewrite orb_true_r.
  - cbn [apart] in Ap. apply andb_true_iff in Ap as [A1 A2]. destruct (IH2 A2) as (I1 & I2 & I3 & I4). apply negb_true_iff in A1. cbn [sym_stops] in A1.
    specialize (Gn n rhs I). unfold rule_ok in Gn. rewrite !andb_true_iff in Gn. destruct Gn as (((G1 & G2) & G3) & G4). destruct (IH1 G4) as (J1 & J2 & J3 & J4).
    rewrite adjacent_app, starts_app, stops_app, I1, J1. cbn [orb forallb word_starts word_stops sym_empty sym_starts sym_stops].
    repeat split.
    + rewrite orb_false_r. destruct (stops a x) eqn:S1; [|reflexivity]. destruct (starts b w) eqn:S2; [|reflexivity]. rewrite (impl_use _ _ G3 (J4 eq_refl)), (I3 eq_refl) in A1. discriminate.
    + intros E. apply app_eq_nil in E as [-> ->]. rewrite (impl_use _ _ G1 (J2 eq_refl)), (I2 eq_refl). reflexivity.
    + intros H. apply orb_true_iff in H as [H|H]; [now rewrite (impl_use _ _ G2 (J3 H))|]. destruct x; [|discriminate]. rewrite (impl_use _ _ G1 (J2 eq_refl)), (I3 H). apply orb_true_r.
    + destruct w as [|z w]; [|intros H; now rewrite (I4 H)]. intros H. rewrite (I2 eq_refl), (impl_use _ _ G3 (J4 H)). apply orb_true_r.
Qed.

Definition chunk_empty (n : nonterminal) : bool := match n with Chunk | Stats | ElseIfs => true | _ => false end.
(** [)] is never followed by [=] in Lua 5.1, nor [return] by [return]. *)
Definition view_call : view := mkView chunk_empty (fun _ => false)
  (fun n => match n with Args | FunctionCall | PrefixExp | Exp | ExpList | Stat | Stats | Chunk | LastStat | ElseIfs | Field | FieldList => true | _ => false end).
Definition view_return : view := mkView chunk_empty (fun n => match n with LastStat | Chunk => true | _ => false end)
  (fun n => match n with LastStat | Chunk | ElseIfs => true | _ => false end).
Lemma no_call_assigned w : derives lua51 [N Chunk] w -> adjacent (TSym SRightParen) (TSym SEqual) w = false.
Proof. intros D. now apply (never_adjacent view_call (TSym SRightParen) (TSym SEqual) lua51 ltac:(vm_compute; reflexivity) [N Chunk] w D). Qed.
Lemma no_two_returns w : derives lua51_relaxed [N Chunk] w -> adjacent (TSym SReturn) (TSym SReturn) w = false.
Proof. intros D. now apply (never_adjacent view_return (TSym SReturn) (TSym SReturn) lua51_relaxed ltac:(vm_compute; reflexivity) [N Chunk] w D). Qed.
(** Nor [{] by [.]. *)
Lemma no_set_constructor w : derives lua51_relaxed [N Chunk] w -> adjacent (TSym SLeftBrace) (TSym SDot) w = false.
Proof.
  intros D. now apply (never_adjacent (mkView chunk_empty (fun _ => false) (fun _ => false)) (TSym SLeftBrace) (TSym SDot) lua51_relaxed ltac:(vm_compute; reflexivity) [N Chunk] w D).
Qed.
