(** Sources that parse without errors outside Luau are in the reference grammar of the version, up to two deviations (C35, C45). *)
From Verif Require Import LexerSpec TokenSpec TreeFacts PrintProofs ParserAccept Precedence.
From Verif Require Export GrammarSound.
Local Open Scope nat_scope.

(** Parsing as Lua 5.1 with a build that has no [cfxlua] feature (C35). *)
Definition as_lua51 (c : cfg) : Prop := c_ver c = lv_lua51 /\ f_cfxlua (c_feat c) = false.

Lemma lua51_has c : as_lua51 c -> has_luau c = false /\ has_lua52 c = false /\ has_lua53 c = false /\ has_lua54 c = false /\ has_luajit c = false /\ has_cfxlua c = false.
Proof.
  intros [V _]. unfold has_luau, has_lua52, has_lua53, has_lua54, has_luajit, has_cfxlua. rewrite V.
  repeat match goal with |- _ /\ _ => split end; apply andb_false_r.
Qed.
Lemma every_and (p q : kind -> list tree -> bool) t : every p t = true -> every q t = true -> every (fun k cs => p k cs && q k cs) t = true.
Proof.
  induction t as [r|c cs IH|k cs IH] using tree_ind'; intros P Q; [reflexivity| |].
  - apply every_con in P, Q. cbn [every]. apply forallb_forall. rewrite Forall_forall in *. auto.
  - apply every_nd in P as [Pk P], Q as [Qk Q]. cbn [every]. rewrite Pk, Qk. apply forallb_forall. rewrite Forall_forall in *. auto.
Qed.

Definition leftover (a : ast) (R : list tokref) : Prop :=
  R = [] \/ block_last_stmt (a_nodes a) <> None /\ exists t R', R = t :: R' /\ (is_symbol t SReturn || is_symbol t SBreak) = true.
Lemma accepted_plain c source a : cfg_ok c -> plain c -> parse c source = Done (inl a) ->
  exists rs R, tokenize c source = Done rs /\ refs_of rs = printed (a_nodes a) ++ R ++ [a_eof a] /\
    derives (relaxed (@moon (dialect_of c))) [N Chunk] (terminals (printed (a_nodes a))) /\
    (every strict_node (a_nodes a) = true -> derives (@moon (dialect_of c)) [N Chunk] (terminals (printed (a_nodes a)))) /\ leftover a R.
Proof.
  intros K V P. pose proof V as (L & _). destruct (accepted c source a K L P) as (ts & R & T & Ets & Pr & Lo). exists (map LOk ts), R. rewrite refs_of_oks.
  pose proof P as P0. unfold parse in P. destruct (parse_fallible c source) as [r| |] eqn:F; try discriminate. injection P as P.
  destruct (into_result_exact r) as [X _]. apply X in P as [_ ->]. clear X.
  pose proof (parsed_well_typed _ _ _ K F) as Ty. pose proof (parsed_dialect _ _ _ K F) as Ka. pose proof (parsed_features _ _ _ K F) as Fe.
  assert (Base : every (fun k cs => proper_node k cs && kind_allowed c k && feature_node c k cs) (a_nodes (ar_ast r)) = true).
  { apply every_and; [apply every_and; [exact Pr|exact Ka]|exact Fe]. }
  split; [assumption|]. split; [assumption|]. split; [|split].
  - apply (block_sound c _ true); [assumption|apply extends_relaxed|assumption|]. eapply every_impl; [|exact Base]. intros k cs H. unfold node_in. cbn [orb]. now rewrite andb_true_r.
  - intros S. apply (block_sound c _ false); [assumption|apply extends_moon|assumption|]. exact (every_and _ _ _ Base S).
  - now apply (leftover_begins c).
Qed.

(** *** Lua 5.1 *)
Lemma derives_mono g g' ss w : (forall n rhs, In rhs (g n) -> In rhs (g' n)) -> derives g ss w -> derives g' ss w.
Proof. intros H D. induction D; [constructor|now constructor|]. econstructor; eauto. Qed.
Lemma relaxed_mono g g' : (forall n rhs, In rhs (g n) -> In rhs (g' n)) -> forall n rhs, In rhs (relaxed g n) -> In rhs (relaxed g' n).
Proof. intros H n rhs. destruct n; cbn; auto. intros [<-|I]; auto. Qed.
Lemma lua51_plain c : as_lua51 c -> plain c /\ dialect_of c = {| d_goto := false; d_bits := false; d_attributes := false |}.
Proof. intros H. destruct (lua51_has c H) as (A & B & C & D & E & F). destruct H as [_ H]. unfold plain, dialect_of. rewrite B, C, D, E. auto. Qed.
Lemma moon_lua51 n : @moon {| d_goto := false; d_bits := false; d_attributes := false |} n = lua51 n.
Proof. destruct n; reflexivity. Qed.
Lemma accepted_lua51 c source a : cfg_ok c -> as_lua51 c -> parse c source = Done (inl a) ->
  exists rs R, tokenize c source = Done rs /\ refs_of rs = printed (a_nodes a) ++ R ++ [a_eof a] /\
    derives lua51_relaxed [N Chunk] (terminals (printed (a_nodes a))) /\
    (every strict_node (a_nodes a) = true -> derives lua51 [N Chunk] (terminals (printed (a_nodes a)))) /\
    (R = [] \/ block_last_stmt (a_nodes a) <> None /\ exists t R', R = t :: R' /\ (is_symbol t SReturn || is_symbol t SBreak) = true).
Proof.
  intros K V P. destruct (lua51_plain c V) as [V' E]. destruct (accepted_plain c source a K V' P) as (rs & R & T & Ets & D1 & D2 & Lo). exists rs, R. rewrite E in *.
  assert (M : forall n rhs, In rhs (@moon {| d_goto := false; d_bits := false; d_attributes := false |} n) -> In rhs (lua51 n)) by (intros n rhs; now rewrite moon_lua51).
  split; [assumption|]. split; [assumption|]. split; [|split; [|exact Lo]].
  - eapply derives_mono; [|exact D1]. now apply relaxed_mono.
  - intros S. eapply derives_mono; [|exact (D2 S)]. exact M.
Qed.

(** *** Lua 5.2 and later: [break] and [;] are statements *)
Inductive dparts (g : nonterminal -> list (list gsym)) (M : nonterminal -> list terminal -> Prop) : list gsym -> list terminal -> Prop :=
| dp_nil : dparts g M [] []
| dp_terminal t ss w : dparts g M ss w -> dparts g M (T t :: ss) (t :: w)
| dp_part n ss v w : M n v -> dparts g M ss w -> dparts g M (N n :: ss) (v ++ w).
Lemma derives_induct g M : (forall n rhs v, In rhs (g n) -> dparts g M rhs v -> M n v) -> forall n v, derives g [N n] v -> M n v.
Proof.
  intros H. assert (G : forall ss w, derives g ss w -> dparts g M ss w) by (induction 1; econstructor; eauto).
  intros n v D. apply G in D. inversion D as [| |n' ss v' w Hm D']; subst. inversion D'; subst. now rewrite app_nil_r.
Qed.
Ltac inv_dparts := repeat match goal with
  | P : dparts _ _ (y _ :: _) _ |- _ => unfold y in P
  | P : dparts _ _ [] _ |- _ => inversion P; subst; clear P
  | P : dparts _ _ (_ :: _) _ |- _ => inversion P; subst; clear P
  end.
(** [g] has the blocks of Lua 5.1, [g'] those of Lua 5.2, and otherwise [g'] has the rules of [g]. *)
Definition block_rule (n : nonterminal) : bool := match n with Chunk | Stats | LastStat => true | _ => false end.
Definition last_part (x : gsym) : bool := match x with N LastStat => true | _ => false end.
Definition modernises (g g' : nonterminal -> list (list gsym)) : Prop :=
  (forall n rhs, block_rule n = false -> In rhs (g n) -> In rhs (g' n) /\ existsb last_part rhs = false) /\
  (forall n rhs, block_rule n = true -> In rhs (g n) -> In rhs (lua51 n)) /\
  (forall n rhs, block_rule n = true -> In rhs (lua52 n) -> In rhs (g' n)) /\ In [y SSemicolon] (g' Stat) /\ In [y SBreak] (g' Stat).
Definition lastw (g' : nonterminal -> list (list gsym)) (v : list terminal) : Prop :=
  v = [TSym SBreak] \/ exists x, v = TSym SReturn :: x /\ (x = [] \/ derives g' [N ExpList] x).
Lemma modern g g' : modernises g g' -> forall w, derives g [N Chunk] w -> derives g' [N Chunk] w.
Proof.
  intros (H1 & H2 & H3 & Hs & Hb).
  enough (G : forall n w, derives g [N n] w -> match n with LastStat => lastw g' w | _ => derives g' [N n] w end) by (intros w D; exact (G Chunk w D)).
  apply (derives_induct g (fun n w => match n with LastStat => lastw g' w | _ => derives g' [N n] w end)). intros n rhs v I P.
  assert (St : forall v w, derives g' [N Stats] v -> derives g' [N Stat] w -> derives g' [N Stats] (v ++ w)).
  { intros a b A B. apply d1 with [N Stats; N Stat]; [apply H3; [reflexivity|cbn; auto]|]. apply dN; [assumption|]. exact B. }
  assert (Se : derives g' [N Stat] [TSym SSemicolon]) by (apply d1 with [y SSemicolon]; [assumption|repeat constructor]).
  assert (Br : derives g' [N Stat] [TSym SBreak]) by (apply d1 with [y SBreak]; [assumption|repeat constructor]).
  assert (Ch : forall v, derives g' [N Stats] v -> derives g' [N Chunk] v).
  { intros a A. apply d1 with [N Stats]; [apply H3; [reflexivity|cbn; auto]|]. apply d_end, dN; [assumption|constructor]. }
  assert (La : forall x s rhs, In rhs (lua52 LastStat) -> derives g' rhs (TSym SReturn :: x ++ s) -> forall v, derives g' [N Stats] v -> derives g' [N Chunk] (v ++ (TSym SReturn :: x) ++ s)).
  { intros x s r Ir Dr a A. apply d1 with [N Stats; N LastStat]; [apply H3; [reflexivity|cbn; auto]|]. apply dN; [assumption|]. apply d1 with r; [apply H3; [reflexivity|assumption]|exact Dr]. }
  destruct (block_rule n) eqn:B.
  - apply H2 in I; [|assumption]. destruct n; try discriminate B; cbn [lua51 In] in I; decompose [or] I; try contradiction; subst rhs; inv_dparts; rewrite ?app_nil_r in *.
    + auto.
    + match goal with L : lastw g' _ |- _ => destruct L as [->|(x & -> & [->|X])] end; [apply Ch; auto| |].
      * rewrite <- (app_nil_r [TSym SReturn]). apply La with [y SReturn]; [cbn; auto|repeat constructor|assumption].
      * rewrite <- (app_nil_r (TSym SReturn :: x)). apply La with [y SReturn; N ExpList]; [cbn; auto|apply d_terminal; apply dN; [assumption|constructor]|assumption].
    + match goal with L : lastw g' _ |- _ => destruct L as [->|(x & -> & [->|X])] end.
      * apply Ch. cbn [app]. change [TSym SBreak; TSym SSemicolon] with ([TSym SBreak] ++ [TSym SSemicolon]). rewrite app_assoc. auto.
      * apply La with [y SReturn; y SSemicolon]; [cbn; auto|repeat constructor|assumption].
      * apply La with [y SReturn; N ExpList; y SSemicolon]; [cbn; auto|apply d_terminal; apply dN; [assumption|repeat constructor]|assumption].
    + right. exists []. auto.
    + right. eexists. split; [reflexivity|auto].
    + now left.
    + apply d1 with []; [apply H3; [reflexivity|cbn; auto]|constructor].
    + auto.
    + rewrite app_assoc. auto.
  - destruct (H1 n rhs B I) as [I' L].
    assert (G : derives g' rhs v).
    { clear -P L. induction P as [|t ss w P IH|n ss v w Hm P IH]; [constructor| |]; cbn [existsb last_part orb] in L; [constructor; auto|].
      destruct n; try discriminate L; (apply dN; [exact Hm|auto]). }
    destruct n; try discriminate B; (eapply d1; [exact I'|exact G]).
Qed.
Ltac pick_rule := cbn; repeat (first [left; reflexivity|right]).
Ltac modern_rules :=
  split; [let n := fresh in let r := fresh in let B := fresh in let I := fresh in
          intros n r B I; destruct n; try discriminate B; cbn in I; repeat match type of I with _ \/ _ => destruct I as [I|I] end; try contradiction; subst r; (split; [pick_rule|reflexivity])|];
  split; [let n := fresh in let r := fresh in let B := fresh in let I := fresh in intros n r B I; destruct n; try discriminate B; exact I|];
  split; [let n := fresh in let r := fresh in let B := fresh in let I := fresh in intros n r B I; destruct n; try discriminate B; exact I|split; pick_rule].
Definition d52 : dialect := {| d_goto := true; d_bits := false; d_attributes := false |}.
Definition d53 : dialect := {| d_goto := true; d_bits := true; d_attributes := false |}.
Definition d54 : dialect := {| d_goto := true; d_bits := true; d_attributes := true |}.
Lemma modern52 : modernises (@moon d52) lua52.
Proof. modern_rules. Qed.
Lemma modern53 : modernises (@moon d53) lua53.
Proof. modern_rules. Qed.
Lemma modern54 : modernises (@moon d54) lua54.
Proof. modern_rules. Qed.
Lemma modern_relaxed g g' : modernises g g' -> modernises (relaxed g) (relaxed g').
Proof.
  intros (H1 & H2 & H3 & Hs & Hb). split; [|split; [|split; [|split]]]; try assumption.
  - intros n rhs B I. destruct n; try exact (H1 _ _ B I). cbn in I |- *. destruct I as [<-|I]; [split; [now left|reflexivity]|]. destruct (H1 Var rhs B I) as [I' E]. split; [now right|assumption].
  - intros n rhs B. destruct n; try discriminate B; exact (H2 _ _ B).
  - intros n rhs B. destruct n; try discriminate B; exact (H3 _ _ B).
Qed.

(** A build with the version, and without the [cfxlua] feature, that parses as this version. *)
Inductive version := V52 | V53 | V54.
Definition as_version (v : version) (c : cfg) : Prop :=
  f_cfxlua (c_feat c) = false /\
  match v with
  | V52 => c_ver c = lv_lua52 /\ f_lua52 (c_feat c) = true
  | V53 => c_ver c = lv_lua53 /\ f_lua53 (c_feat c) = true
  | V54 => c_ver c = lv_lua54 /\ f_lua54 (c_feat c) = true
  end.
Definition reference (v : version) : nonterminal -> list (list gsym) := match v with V52 => lua52 | V53 => lua53 | V54 => lua54 end.
Definition as_luajit (c : cfg) : Prop := f_cfxlua (c_feat c) = false /\ c_ver c = lv_luajit /\ f_luajit (c_feat c) = true.
Definition dialect_in (v : version) : dialect := match v with V52 => d52 | V53 => d53 | V54 => d54 end.
Lemma version_plain v c : cfg_ok c -> as_version v c -> plain c /\ dialect_of c = dialect_in v.
Proof.
  intros [K _] [F H]. unfold plain, dialect_of. assert (H' : f_lua54 (c_feat c) = true -> f_lua53 (c_feat c) = true) by (unfold features_ok in K; destruct (f_lua54 (c_feat c)), (f_lua53 (c_feat c)); cbn in K; auto; now rewrite andb_false_r in K).
  assert (H'' : f_lua53 (c_feat c) = true -> f_lua52 (c_feat c) = true) by (unfold features_ok in K; destruct (f_lua53 (c_feat c)), (f_lua52 (c_feat c)); cbn in K; auto).
  unfold has_luau, has_lua52, has_lua53, has_lua54, has_luajit, has_cfxlua. destruct v, H as [-> Q];
    [|rewrite (H'' Q)|rewrite (H'' (H' Q)), (H' Q)]; rewrite ?Q, ?F; cbn; rewrite ?andb_false_r; auto.
Qed.
Lemma luajit_plain c : as_luajit c -> plain c /\ dialect_of c = d52.
Proof. intros (F & V & Q). unfold plain, dialect_of, has_luau, has_lua52, has_lua53, has_lua54, has_luajit, has_cfxlua. rewrite V, Q, F. cbn. rewrite !andb_false_r. auto. Qed.
Lemma modern_version v : modernises (@moon (dialect_in v)) (reference v).
Proof. destruct v; [exact modern52|exact modern53|exact modern54]. Qed.

Lemma accepted_version v c source a : cfg_ok c -> as_version v c -> parse c source = Done (inl a) ->
  exists rs R, tokenize c source = Done rs /\ refs_of rs = printed (a_nodes a) ++ R ++ [a_eof a] /\
    derives (relaxed (reference v)) [N Chunk] (terminals (printed (a_nodes a))) /\
    (every strict_node (a_nodes a) = true -> derives (reference v) [N Chunk] (terminals (printed (a_nodes a)))) /\ leftover a R.
Proof.
  intros K V P. destruct (version_plain v c K V) as [V' E]. destruct (accepted_plain c source a K V' P) as (rs & R & T & Ets & D1 & D2 & Lo). exists rs, R. rewrite E in *.
  split; [assumption|]. split; [assumption|]. split; [|split; [|exact Lo]].
  - exact (modern _ _ (modern_relaxed _ _ (modern_version v)) _ D1).
  - intros S. exact (modern _ _ (modern_version v) _ (D2 S)).
Qed.
Lemma accepted_luajit c source a : cfg_ok c -> as_luajit c -> parse c source = Done (inl a) ->
  exists rs R, tokenize c source = Done rs /\ refs_of rs = printed (a_nodes a) ++ R ++ [a_eof a] /\
    derives (relaxed luajit) [N Chunk] (terminals (printed (a_nodes a))) /\
    (every strict_node (a_nodes a) = true -> derives luajit [N Chunk] (terminals (printed (a_nodes a)))) /\ leftover a R.
Proof.
  intros K V P. destruct (luajit_plain c V) as [V' E]. destruct (accepted_plain c source a K V' P) as (rs & R & T & Ets & D1 & D2 & Lo). exists rs, R. rewrite E in *.
  assert (M : forall n rhs, In rhs (@moon d52 n) -> In rhs (luajit n)) by (intros n rhs; destruct n; intros I; try contradiction I; exact I).
  split; [assumption|]. split; [assumption|]. split; [|split; [|exact Lo]].
  - eapply derives_mono; [|exact D1]. now apply relaxed_mono.
  - intros S. eapply derives_mono; [|exact (D2 S)]. exact M.
Qed.

(** ** Operators (C28) *)
Lemma accepted_precedence c source a : cfg_ok c -> has_luau c = false -> parse c source = Done (inl a) ->
  every precedence_node (a_nodes a) = true /\ every known_operator (a_nodes a) = true.
Proof.
  intros K L P. destruct (accepted c source a K L P) as (ts & R & T & Ets & Pr & Lo). split.
  - eapply every_impl; [|exact Pr]. unfold proper_node. intros k cs H. rewrite !andb_true_iff in H. tauto.
  - unfold parse in P. destruct (parse_fallible c source) as [r| |] eqn:F; try discriminate. injection P as P. apply into_result_exact in P as [_ ->].
    eapply every_impl; [|exact (parsed_dialect _ _ _ K F)]. cbn. intros k cs H. destruct k; try reflexivity. destruct s; try discriminate H; reflexivity.
Qed.
Lemma accepted_unique c source a e e' : cfg_ok c -> has_luau c = false -> parse c source = Done (inl a) -> within e (a_nodes a) ->
  wt e (YNode NExpression) = true -> wt e' (YNode NExpression) = true -> every precedence_node e' = true -> every known_operator e' = true -> flatten e' = flatten e -> e' = e.
Proof.
  intros K L P W T1 T2 Pr Kn E. destruct (accepted_precedence c source a K L P) as [A B]. apply precedence_unique; try assumption; eapply every_within; eassumption.
Qed.
