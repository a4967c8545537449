(** A weakest-precondition calculus for the parser monad: frame, progress, panics, typing. *)
From Verif Require Import LexerSpec LexerProofs SymbolProofs PunctuatedProofs.
From Verif Require Export TreeFacts NodeProofs PrintProofs ParserSpec.
From Coq Require Import Lia ZifyBool ZifyNat ZifyN.
Local Open Scope nat_scope.

Definition tok_of (r : lexres tokref) : option tokref := match r with LOk t | LRecovered t _ => Some t | LFatal _ => None end.
Definition errs_of (r : lexres tokref) : list tok_error := match r with LOk _ => [] | LRecovered _ es | LFatal es => es end.
Definition hd_tok (s : pstate) : option tokref := match st_toks s with r :: _ => tok_of r | [] => None end.
Definition nd_tok (s : pstate) : option tokref := match st_toks s with _ :: r :: _ => tok_of r | _ => None end.
Definition len (s : pstate) : nat := List.length (st_toks s).
Definition not_eof (r : lexres tokref) : Prop := match tok_of r with Some t => is_eof t = false | None => True end.

(** [s'] is reached from [s] by consuming results other than the end of file and by adding errors, among them all
    errors of the consumed results. *)
Definition ext (s s' : pstate) : Prop := exists u es,
  st_toks s = u ++ st_toks s' /\ st_errors s' = st_errors s ++ es /\ Forall not_eof u /\
  forall r e, In r u -> In e (errs_of r) -> In (TokenizerError e) es.

Definition enabled (c : cfg) (r : lexres tokref) : Prop :=
  match tok_of r with
  | Some t => match t_type (r_token t) with TSymbol y => sym_enabled c y = true | _ => True end
  | None => True
  end.
(** Results on which no parser function panics. *)
Definition safe (c : cfg) (r : lexres tokref) : Prop :=
  (has_luau c = true -> tok_of r <> None) /\
  (f_lua53 (c_feat c) = true -> has_lua53 c = false -> forall t, tok_of r = Some t -> is_symbol t SAmpersand = false /\ is_symbol t SPipe = false).

Definition inv (c : cfg) (U : Prop) (s : pstate) : Prop :=
  (exists pre x t, st_toks s = pre ++ [x] /\ tok_of x = Some t /\ is_eof t = true) /\
  Forall (enabled c) (st_toks s) /\ (U \/ Forall (safe c) (st_toks s)).

Lemma ext_refl s : ext s s.
Proof. exists [], []. rewrite app_nil_r. repeat split; auto; try (intros r e []). Qed.
Lemma ext_trans a b d : ext a b -> ext b d -> ext a d.
Proof.
  intros (u & es & T & E & N & L) (v & fs & T' & E' & N' & L'). exists (u ++ v), (es ++ fs).
  rewrite T, T', E', E, !app_assoc. repeat split; auto. apply Forall_app. auto.
  intros r e I J. apply in_app_iff in I as [I|I]; apply in_app_iff; eauto.
Qed.
Lemma ext_len s s' : ext s s' -> len s' <= len s.
Proof. intros (u & es & T & _). unfold len. rewrite T, app_length. lia. Qed.

Lemma split_last {A} (u v pre : list A) x : u ++ v = pre ++ [x] -> ~ In x u -> exists w, v = w ++ [x].
Proof.
  intros E N. destruct v as [|y v] using rev_ind.
  - rewrite app_nil_r in E. subst u. exfalso. apply N, in_app_iff. right. now left.
  - rewrite app_assoc in E. apply app_inj_tail in E as [_ ->]. eauto.
Qed.
Lemma ext_inv c U s s' : inv c U s -> ext s s' -> inv c U s'.
Proof.
  intros ((pre & x & t & T & X & Eof) & En & Sf) (u & es & T' & _ & N & _).
  assert (Nx : ~ In x u). { intros I. rewrite Forall_forall in N. specialize (N x I). unfold not_eof in N. rewrite X in N. congruence. }
  rewrite T' in *. destruct (split_last _ _ _ _ T Nx) as (w & Ew).
  split; [exists w, x, t; auto|]. split; [now apply Forall_app in En|]. destruct Sf as [Sf|Sf]; [now left|right; now apply Forall_app in Sf].
Qed.

Definition wp {A} (U F : Prop) (m : M A) (s : pstate) (Q : A -> pstate -> Prop) : Prop :=
  match m s with Done (a, s') => Q a s' | Panic => U | OutOfFuel => F end.

(** The judgement used below: from a state with the invariant, [m] does not run out of fuel, panics only when [U], and
    ends in an extension of the state where [Q] holds. *)
Definition W (c : cfg) (U : Prop) {A} (m : M A) (s : pstate) (Q : A -> pstate -> Prop) : Prop :=
  inv c U s -> wp U False m s (fun a s' => ext s s' /\ Q a s').

Lemma W_inv {c U A} {m : M A} {s Q} : (inv c U s -> W c U m s Q) -> W c U m s Q.
Proof. intros H I. exact (H I I). Qed.
Lemma W_ret {c U A} {a : A} {s} {Q : A -> pstate -> Prop} : Q a s -> W c U (ret a) s Q.
Proof. intros H I. cbn. split; [apply ext_refl|assumption]. Qed.
Lemma W_panic {c U A} {s} {Q : A -> pstate -> Prop} : (inv c U s -> U) -> W c U panic s Q.
Proof. intros H I. cbn. auto. Qed.
Lemma W_bind {c U A B} {m : M A} {k : A -> M B} {s Q} :
  W c U m s (fun a s1 => len s1 <= len s -> W c U (k a) s1 Q) -> W c U (bind m k) s Q.
Proof.
  intros H I. specialize (H I). unfold wp, bind in *. destruct (m s) as [[a s1]| |]; [|assumption|assumption].
  destruct H as [E H]. specialize (H (ext_len _ _ E) (ext_inv _ _ _ _ I E)). unfold wp in H.
  destruct (k a s1) as [[b s2]| |]; try assumption. destruct H as [E' H]. split; [now apply (ext_trans _ _ _ E)|assumption].
Qed.
Lemma W_conseq {c U A} {m : M A} {s} {P Q : A -> pstate -> Prop} :
  W c U m s P -> (forall a s1, len s1 <= len s -> P a s1 -> Q a s1) -> W c U m s Q.
Proof.
  intros H HQ I. specialize (H I). unfold wp in *. destruct (m s) as [[a s1]| |]; try assumption.
  destruct H as [E H]. split; [assumption|]. apply HQ; [now apply ext_len|assumption].
Qed.

Lemma inv_head c U s : inv c U s -> exists r rest, st_toks s = r :: rest.
Proof. intros ((pre & x & t & T & _) & _). destruct pre; cbn in T; rewrite T; eauto. Qed.
Lemma W_current {c U s} {Q : option tokref -> pstate -> Prop} : Q (hd_tok s) s -> W c U current s Q.
Proof.
  intros H I. destruct (inv_head _ _ _ I) as (r & rest & T). unfold wp, current, hd_tok in *. rewrite T in *.
  destruct r; cbn in *; (split; [apply ext_refl|assumption]).
Qed.

Lemma inv_tail c U s t : inv c U s -> hd_tok s = Some t -> is_eof t = false -> exists r x rest, st_toks s = r :: x :: rest /\ tok_of r = Some t.
Proof.
  intros ((pre & x & te & T & X & E) & _) H N. unfold hd_tok in H. destruct pre as [|y pre]; cbn in T; rewrite T in *.
  - rewrite X in H. congruence.
  - destruct pre as [|z pre]; cbn; eauto.
Qed.
Lemma W_peek {c U s t} {Q : option tokref -> pstate -> Prop} : hd_tok s = Some t -> is_eof t = false -> Q (nd_tok s) s -> W c U peek s Q.
Proof.
  intros H N HQ I. destruct (inv_tail _ _ _ _ I H N) as (r & x & rest & T & _). unfold wp, peek, nd_tok in *. rewrite T in *.
  destruct r, x; cbn in *; (split; [apply ext_refl|assumption]).
Qed.
Lemma W_take {c U s t} {Q : tokref -> pstate -> Prop} : hd_tok s = Some t -> is_eof t = false ->
  (forall s1, len s1 < len s -> hd_tok s1 = nd_tok s -> Q t s1) -> W c U take s Q.
Proof.
  intros H N HQ I. destruct (inv_tail _ _ _ _ I H N) as (r & x & rest & T & R). unfold wp, take, bind, consume, unwrap, ret. rewrite T.
  unfold hd_tok, nd_tok, len in *. rewrite T in *. destruct r as [t'|es|t' es]; cbn in R; try discriminate; injection R as ->.
  - split; [|apply HQ; cbn; auto; lia]. exists [LOk t], []. cbn. rewrite T, app_nil_r. split; [reflexivity|]. split; [reflexivity|]. split; [constructor; [exact N|constructor]|].
    intros r e [<-|[]] [].
  - split; [|apply HQ; cbn; auto; lia]. exists [LRecovered t es], (map TokenizerError es). cbn. rewrite T. split; [reflexivity|]. split; [reflexivity|]. split; [constructor; [exact N|constructor]|].
    intros r e [<-|[]] J. cbn in J. now apply in_map.
Qed.
Lemma W_consume {c U s t} {Q : pres tokref -> pstate -> Prop} : hd_tok s = Some t -> is_eof t = false ->
  (forall s1, len s1 < len s -> hd_tok s1 = nd_tok s -> Q (Value t) s1) -> W c U consume s Q.
Proof.
  intros H N HQ I. destruct (inv_tail _ _ _ _ I H N) as (r & x & rest & T & R). unfold wp, consume. rewrite T.
  unfold hd_tok, nd_tok, len in *. rewrite T in *. destruct r as [t'|es|t' es]; cbn in R; try discriminate; injection R as ->.
  - split; [|apply HQ; cbn; auto; lia]. exists [LOk t], []. cbn. rewrite T, app_nil_r. split; [reflexivity|]. split; [reflexivity|]. split; [constructor; [exact N|constructor]|].
    intros r e [<-|[]] [].
  - split; [|apply HQ; cbn; auto; lia]. exists [LRecovered t es], (map TokenizerError es). cbn. rewrite T. split; [reflexivity|]. split; [reflexivity|]. split; [constructor; [exact N|constructor]|].
    intros r e [<-|[]] J. cbn in J. now apply in_map.
Qed.
Lemma W_consume_fatal {c U s} {Q : pres tokref -> pstate -> Prop} : hd_tok s = None ->
  (forall s1, len s1 < len s -> Q LexerMoved s1) -> W c U consume s Q.
Proof.
  intros H HQ I. destruct (inv_head _ _ _ I) as (r & rest & T). unfold wp, consume, hd_tok, len in *. rewrite T in *.
  destruct r as [t|es|t es]; cbn in H; try discriminate. split; [|apply HQ; cbn; lia].
  exists [LFatal es], (map TokenizerError es). cbn. rewrite T. split; [reflexivity|]. split; [reflexivity|]. split; [constructor; [exact Logic.I|constructor]|].
  intros r e [<-|[]] J. cbn in J. now apply in_map.
Qed.
Lemma W_consume_any {c U s} {Q : pres tokref -> pstate -> Prop} : (match hd_tok s with Some t => is_eof t = false | None => True end) ->
  (forall r s1, len s1 < len s -> r <> NotFound -> Q r s1) -> W c U consume s Q.
Proof.
  intros H HQ. destruct (hd_tok s) as [t|] eqn:E.
  - eapply W_consume; eauto. intros. apply HQ; [assumption|discriminate].
  - eapply W_consume_fatal; eauto. intros. apply HQ; [assumption|discriminate].
Qed.

Lemma ext_error s e : ext s (mkState (st_toks s) (st_errors s ++ [e])).
Proof. exists [], [e]. cbn. repeat split; auto; try (intros r x []). Qed.
Lemma W_error {c U s r msg} {Q : unit -> pstate -> Prop} :
  (forall s1, len s1 = len s -> hd_tok s1 = hd_tok s -> Q tt s1) -> W c U (token_error r msg) s Q.
Proof. intros H I. cbn. split; [apply ext_error|]. now apply H. Qed.
Lemma W_error_ranged {c U s r msg a b} {Q : unit -> pstate -> Prop} :
  (forall s1, len s1 = len s -> hd_tok s1 = hd_tok s -> Q tt s1) -> W c U (token_error_ranged r msg a b) s Q.
Proof. intros H I. cbn. split; [apply ext_error|]. now apply H. Qed.

Lemma symbol_not_eof t y : is_symbol t y = true -> is_eof t = false.
Proof. unfold is_symbol, is_eof. now destruct (t_type (r_token t)). Qed.
Lemma identifier_not_eof t : is_identifier t = true -> is_eof t = false.
Proof. unfold is_identifier, is_eof. now destruct (t_type (r_token t)). Qed.
Lemma string_not_eof t : is_string t = true -> is_eof t = false.
Proof. unfold is_string, is_eof. now destruct (t_type (r_token t)). Qed.
Lemma interpolated_not_eof t : is_interpolated t = true -> is_eof t = false.
Proof. unfold is_interpolated, is_eof. now destruct (t_type (r_token t)). Qed.

(** The three outcomes of a test on the next token. *)
Definition on_symbol (y : symbol) (s : pstate) (Q : option tokref -> pstate -> Prop) : Prop :=
  forall t s1, hd_tok s = Some t -> is_symbol t y = true -> len s1 < len s -> hd_tok s1 = nd_tok s -> Q (Some t) s1.

Lemma W_consume_if {c U y s} {Q : option tokref -> pstate -> Prop} :
  on_symbol y s Q -> (is_sym (hd_tok s) y = false -> Q None s) -> W c U (consume_if y) s Q.
Proof.
  intros H1 H2. apply W_bind, W_current. intros _. unfold on_symbol in *. destruct (hd_tok s) as [t|] eqn:E.
  - cbn in H2. destruct (is_symbol t y) eqn:Ey.
    + apply W_bind. eapply W_take; eauto using symbol_not_eof. intros s1 L N _. apply W_ret. apply H1; auto.
    + apply W_ret. auto.
  - apply W_ret. auto.
Qed.
Lemma W_consume_if_symbols {c U ys s} {Q : option tokref -> pstate -> Prop} :
  (forall t s1, hd_tok s = Some t -> existsb (is_symbol t) ys = true -> len s1 < len s -> hd_tok s1 = nd_tok s -> Q (Some t) s1) ->
  Q None s -> W c U (consume_if_symbols ys) s Q.
Proof.
  intros H1 H2. apply W_bind, W_current. intros _. destruct (hd_tok s) as [t|] eqn:E.
  - destruct (existsb (is_symbol t) ys) eqn:Ey.
    + apply W_bind. eapply W_take; eauto. { apply existsb_exists in Ey as (y & _ & Ey). eapply symbol_not_eof; eauto. }
      intros s1 L N _. apply W_ret. apply H1; auto.
    + now apply W_ret.
  - now apply W_ret.
Qed.

Definition off_symbol (y : symbol) (s : pstate) (Q : option tokref -> pstate -> Prop) : Prop :=
  forall s1, is_sym (hd_tok s) y = false -> len s1 = len s -> hd_tok s1 = hd_tok s -> Q None s1.
Ltac require_tac :=
  let t := fresh "t" in let E := fresh "E" in
  intros H1 H2; apply W_bind, W_current; intros _; unfold on_symbol, off_symbol in *;
  match goal with |- context [hd_tok ?s] => destruct (hd_tok s) as [t|] eqn:E end;
  [ cbn in H2; match goal with |- context [is_symbol t ?y] => let Ey := fresh in destruct (is_symbol t y) eqn:Ey end;
    [ apply W_bind; eapply W_take; eauto using symbol_not_eof; intros ? ? ? _; apply W_ret; apply H1; auto
    | apply W_bind; first [apply W_error|apply W_error_ranged]; intros ? ? ? _; apply W_ret; apply H2; auto; congruence ]
  | apply W_ret; apply H2; auto ].
Lemma W_require {c U y msg s} {Q : option tokref -> pstate -> Prop} :
  on_symbol y s Q -> off_symbol y s Q -> W c U (require y msg) s Q.
Proof. require_tac. Qed.
Lemma W_require_token {c U y msg a s} {Q : option tokref -> pstate -> Prop} :
  on_symbol y s Q -> off_symbol y s Q -> W c U (require_with_reference_token y msg a) s Q.
Proof. require_tac. Qed.
Lemma W_require_range {c U y msg a b s} {Q : option tokref -> pstate -> Prop} :
  on_symbol y s Q -> off_symbol y s Q -> W c U (require_with_reference_range y msg a b) s Q.
Proof. require_tac. Qed.
Lemma W_require_range_callback {c U y msg ab s} {Q : option tokref -> pstate -> Prop} :
  W c U ab s (fun _ s1 => s1 = s) ->
  on_symbol y s Q -> off_symbol y s Q -> W c U (require_with_reference_range_callback y msg ab) s Q.
Proof.
  intros H0 H1 H2; apply W_bind, W_current; intros _; unfold on_symbol, off_symbol in *. destruct (hd_tok s) as [t|] eqn:E.
  - cbn in H2. destruct (is_symbol t y) eqn:Ey.
    + apply W_bind; eapply W_take; eauto using symbol_not_eof; intros ? ? ? _; apply W_ret; apply H1; auto.
    + apply W_bind. eapply W_conseq; [exact H0|]. intros [a b] s1 _ -> _. apply W_bind, W_error_ranged. intros s2 L2 N2 _. apply W_ret. apply H2; auto; congruence.
  - apply W_ret. apply H2; auto.
Qed.

Lemma loop_S {A B} (body : A -> M (A + B)) a s : loop body a s = loop_ (S (len s)) body a s.
Proof. reflexivity. Qed.
Lemma W_loop {c U A B} (I : A -> pstate -> Prop) (body : A -> M (A + B)) a s (Q : B -> pstate -> Prop) :
  I a s ->
  (forall a s1, len s1 <= len s -> I a s1 ->
     W c U (body a) s1 (fun r s2 => match r with inl a' => len s2 < len s1 /\ I a' s2 | inr b => Q b s2 end)) ->
  W c U (loop body a) s Q.
Proof.
  intros Ia Hb Hs. unfold wp. rewrite loop_S.
  assert (G : forall n a s1, len s1 < n -> len s1 <= len s -> inv c U s1 -> I a s1 ->
     match loop_ n body a s1 with Done (b, s') => ext s1 s' /\ Q b s' | Panic => U | OutOfFuel => False end).
  { induction n as [|n IH]; intros a1 s1 L Ls Is Ia1; [lia|]. cbn [loop_]. specialize (Hb a1 s1 Ls Ia1 Is). unfold wp in Hb.
    destruct (body a1 s1) as [[[a'|b] s2]| |]; try assumption. destruct Hb as [E [L2 I2]].
    specialize (IH a' s2). destruct (loop_ n body a' s2) as [[b s3]| |].
    - destruct IH as [E' HQ]; [lia|lia|now apply (ext_inv _ _ _ _ Is E)|assumption|]. split; [now apply (ext_trans _ _ _ E)|assumption].
    - apply IH; [lia|lia|now apply (ext_inv _ _ _ _ Is E)|assumption].
    - apply IH; [lia|lia|now apply (ext_inv _ _ _ _ Is E)|assumption]. }
  apply G; auto.
Qed.

(** ** Typing *)
Definition has (c : cfg) (y : ty) (t : tree) : Prop := has_ty t y /\ every (node_ok c) t = true.

Lemma has_tok c r : has c YTok (Tok r).
Proof. split; reflexivity. Qed.
Lemma has_list c ys cs : Forall2 (has c) ys cs -> Forall2 has_ty cs ys /\ forallb (every (node_ok c)) cs = true.
Proof. induction 1 as [|y t ys cs [H E] _ [IH1 IH2]]; [now split|]. split; [now constructor|]. cbn [forallb]. now rewrite E, IH2. Qed.
Lemma list_has c ys cs : Forall2 has_ty cs ys -> forallb (every (node_ok c)) cs = true -> Forall2 (has c) ys cs.
Proof. induction 1 as [|t y cs ys H _ IH]; intros E; constructor; cbn [forallb] in E; apply andb_true_iff in E as [E1 E2]; [now split|auto]. Qed.
Lemma has_nd c k cs n : kind_type k = n -> node_ok c k cs = true -> Forall2 (has c) (fields k) cs -> has c (YNode n) (Nd k cs).
Proof.
  intros <- N H. apply has_list in H as [H1 H2]. split; [now apply wt_nd|]. cbn [every]. now rewrite N, H2.
Qed.
Lemma nd_has c k cs y : has c y (Nd k cs) -> y = YNode (kind_type k) /\ node_ok c k cs = true /\ Forall2 (has c) (fields k) cs.
Proof.
  intros [H E]. apply wt_nd in H as [-> H]. cbn [every] in E. apply andb_true_iff in E as [E1 E2]. repeat split; auto. now apply list_has.
Qed.
Lemma has_con c k cs y ys : con_tys k y (List.length cs) = Some ys -> Forall2 (has c) ys cs -> has c y (Con k cs).
Proof. intros E H. apply has_list in H as [H1 H2]. split; [apply wt_con; eauto|exact H2]. Qed.
Lemma con_has c k cs y : has c y (Con k cs) -> exists ys, con_tys k y (List.length cs) = Some ys /\ Forall2 (has c) ys cs.
Proof. intros [H E]. apply wt_con in H as (ys & E' & H). exists ys. split; [assumption|]. now apply list_has. Qed.

Lemma has_none c y : has c (YOpt y) (Con CNone []).
Proof. eapply has_con; [reflexivity|constructor]. Qed.
Lemma has_some c y t : has c y t -> has c (YOpt y) (Con CSome [t]).
Proof. intros H. eapply has_con; [reflexivity|repeat (apply Forall2_cons; [assumption|]); apply Forall2_nil]. Qed.
Definition opt_is {A} (P : A -> Prop) (o : option A) : Prop := match o with Some a => P a | None => True end.
Lemma has_opt c y o : opt_is (has c y) o -> has c (YOpt y) (opt_tree o).
Proof. destruct o; [apply has_some|intros _; apply has_none]. Qed.
Lemma has_opt_tok c o : has c (YOpt YTok) (opt_tok o).
Proof. apply has_opt. destruct o; [apply has_tok|exact I]. Qed.
Lemma has_tuple c y z a b : has c y a -> has c z b -> has c (YTuple y z) (Con CTuple [a; b]).
Proof. intros. eapply has_con; [reflexivity|repeat (apply Forall2_cons; [assumption|]); apply Forall2_nil]. Qed.
Lemma has_span c a b : has c YSpan (span a b).
Proof. eapply has_con; [reflexivity|repeat (apply Forall2_cons; [apply has_tok|]); apply Forall2_nil]. Qed.
Lemma forall2_repeat {A B} (R : A -> B -> Prop) a l : Forall (R a) l -> Forall2 R (repeat a (List.length l)) l.
Proof. induction 1; constructor; auto. Qed.
Lemma repeat_forall2 {A B} (R : A -> B -> Prop) a l n : Forall2 R (repeat a n) l -> Forall (R a) l.
Proof. revert l. induction n as [|n IH]; intros l H; inversion_clear H; constructor; auto. Qed.
Lemma has_vec c y l : Forall (has c y) l -> has c (YVec y) (vec l).
Proof. intros H. eapply has_con; [reflexivity|]. now apply forall2_repeat. Qed.
Lemma vec_has c y l : has c (YVec y) (Con CVec l) -> Forall (has c y) l.
Proof. intros H. apply con_has in H as (ys & E & H). injection E as <-. now apply repeat_forall2 in H. Qed.

(** Every value of a punctuated sequence. *)
Definition each {A} (P : A -> Prop) (l : punctuated A) : Prop := Forall (fun x => P (pair_value x)) (pairs l).
Lemma has_punct {A} c y (f : A -> tree) (P : A -> Prop) l : (forall v, P v -> has c y (f v)) -> each P l -> has c (YPunctuated y) (punct f l).
Proof.
  intros Hf H. eapply has_con; [reflexivity|]. apply forall2_repeat, Forall_map. eapply Forall_impl; [|exact H].
  intros [v|v p] Hv; cbn in *; (eapply has_con; [reflexivity|]); repeat (apply Forall2_cons; [auto using has_tok|]); apply Forall2_nil.
Qed.
Lemma has_puncts c y l : each (has c y) l -> has c (YPunctuated y) (puncts l).
Proof. apply has_punct. auto. Qed.
Lemma has_puncts_tok c l : has c (YPunctuated YTok) (punct Tok l).
Proof. apply has_punct with (P := fun _ => True); [intros; apply has_tok|]. apply Forall_forall. auto. Qed.
Lemma each_new {A} (P : A -> Prop) : each P p_new.
Proof. constructor. Qed.
Lemma each_push {A} (P : A -> Prop) l x : each P l -> P (pair_value x) -> each P (p_push l x).
Proof. intros H Hx. apply Forall_app. auto. Qed.
Lemma each_push_end {A} (P : A -> Prop) l v : each P l -> P v -> each P (p_push l (End v)).
Proof. intros. now apply each_push. Qed.
Lemma each_push_punctuated {A} (P : A -> Prop) l v q : each P l -> P v -> each P (p_push l (Punctuated v q)).
Proof. intros. now apply each_push. Qed.
Lemma each_pop {A} (P : A -> Prop) l x m : each P l -> p_pop l = (x, m) -> each P m /\ opt_is (fun p => P (pair_value p)) x.
Proof.
  unfold p_pop, each. intros H. destruct l as [l]. cbn [pairs] in *. destruct l as [|y l] using rev_ind.
  - cbn. intros [= <- <-]. split; [constructor|exact I].
  - rewrite pop_snoc. intros [= <- <-]. apply Forall_app in H as [H1 H2]. inversion_clear H2. split; assumption.
Qed.
Lemma each_map {A B} (P : A -> Prop) (R : B -> Prop) (f : A -> B) l : (forall a, P a -> R (f a)) -> each P l -> each R (p_from_iter (map (pair_map f) (p_pairs l))).
Proof. intros Hf H. unfold each. cbn. apply Forall_map. eapply Forall_impl; [|exact H]. intros [v|v p] Hv; cbn in *; auto. Qed.
Lemma each_impl {A} (P R : A -> Prop) l : (forall a, P a -> R a) -> each P l -> each R l.
Proof. intros Hi H. eapply Forall_impl; [|exact H]. intros x. apply Hi. Qed.
Lemma into_iter_eq {A} (l : punctuated A) : p_into_iter l = map pair_value (pairs l).
Proof. unfold p_into_iter, p_len. rewrite collect by lia. apply map_ext. intros x. apply into_value_eq. Qed.
Lemma iter_eq {A} (l : punctuated A) : p_iter l = map pair_value (pairs l).
Proof. unfold p_iter, p_len. now rewrite collect by lia. Qed.
Lemma each_into_iter {A} (P : A -> Prop) l : each P l -> Forall P (p_into_iter l).
Proof. intros H. rewrite into_iter_eq. now apply Forall_map. Qed.
Lemma into_iter_length {A} (l : punctuated A) : List.length (p_into_iter l) = List.length (pairs l).
Proof. now rewrite into_iter_eq, map_length. Qed.

(** The last pair has no punctuation; then [push_punctuated] does not panic. *)
Definition ends_plain {A} (l : punctuated A) : Prop := exists m v, pairs l = m ++ [End v].
Lemma ends_plain_push {A} (l : punctuated A) v : ends_plain (p_push l (End v)).
Proof. exists (pairs l), v. reflexivity. Qed.
Lemma W_push_punctuated {c U A} (l : punctuated A) v q s (P : A -> Prop) (Q : punctuated A -> pstate -> Prop) :
  ends_plain l -> each P l -> P v -> (forall m, ends_plain m -> each P m -> p_len m = S (p_len l) -> Q m s) -> W c U (push_punctuated l v q) s Q.
Proof.
  intros (m & w & E) Hl Hv H. unfold push_punctuated, p_push_punctuated. rewrite E, pop_snoc. cbn. apply W_ret, H.
  - eexists _, v. reflexivity.
  - unfold each in *. cbn. rewrite E in Hl. apply Forall_app in Hl as [H1 H2]. inversion_clear H2. repeat (apply Forall_app; split); auto.
  - unfold p_len. cbn. rewrite E, !app_length. cbn. lia.
Qed.

(** ** Tokens of nodes *)
Fixpoint tight (y : ty) : bool :=
  match y with
  | YTok | YSpan => true
  | YOpt _ | YVec _ | YPunctuated _ => false
  | YTuple a b => tight a || tight b
  | YPair a => tight a
  | YNode n => negb (nty_eqb n NBlock)
  end.
Lemma tight_fields k : k <> KBlock -> existsb tight (fields k) = true \/ k = KFunctionName \/ k = KTypeUnion \/ k = KTypeIntersection.
Proof. destruct k; intros H; auto; congruence. Qed.

Definition solid_at (c : cfg) (t : tree) : Prop := forall y, has c y t ->
  (tight y = true -> leaves t <> []) /\ (forall z, y = YPunctuated z -> tight z = true -> subs t <> [] -> leaves t <> []).
Lemma leaves_some c ys cs : Forall (solid_at c) cs -> Forall2 (has c) ys cs -> existsb tight ys = true -> flat_map leaves cs <> [].
Proof.
  intros IH H T. revert IH T. induction H as [|y t ys cs Ht H IH']; intros IH T; [discriminate|].
  inversion_clear IH as [|? ? I1 I2]. cbn in *. apply orb_true_iff in T as [T|T]; intros E; apply app_eq_nil in E as [E1 E2].
  - now apply (I1 y).
  - now apply IH'.
Qed.
Lemma filled_leaves c t : solid_at c t -> forall y, has c (YPunctuated y) t -> tight y = true -> negb (Nat.eqb (match t with Con _ l => List.length l | _ => 0 end) 0) = true -> leaves t <> [].
Proof.
  intros S y H T N. destruct (S _ H) as [_ S']. apply (S' y eq_refl T). destruct t as [r|k l|k l]; cbn in *; try discriminate. now destruct l.
Qed.
Lemma solid_all c t : solid_at c t.
Proof.
  induction t as [r|k cs IH|k cs IH] using tree_ind'; intros y H; (split; [intros T|intros z -> T N]).
  - discriminate.
  - destruct H as [H _]. discriminate H.
  - cbn [leaves]. apply con_has in H as (ys & E & H). destruct k, y; try discriminate; cbn in E; injection E as <-; apply (leaves_some c _ _ IH H); cbn in *; rewrite ?T, ?orb_true_r; auto.
    apply orb_true_iff in T as [->| ->]; cbn; now rewrite ?orb_true_r.
  - cbn [leaves subs] in *. apply con_has in H as (ys & E & H). destruct k; try discriminate. injection E as <-.
    apply (leaves_some c _ _ IH H). destruct cs; [congruence|]. cbn [repeat List.length existsb]. cbn [tight]. now rewrite T.
  - cbn [leaves]. apply nd_has in H as (-> & N & H). cbn [tight] in T.
    assert (K : k <> KBlock) by (intros ->; discriminate).
    destruct (tight_fields k K) as [X|X]; [now apply (leaves_some c _ _ IH H)|].
    unfold node_ok in N. rewrite !andb_true_iff in N. destruct N as [[[_ N] _] _].
    destruct X as [->|[->| ->]]; cbn [fields filled_node] in *.
    + inversion H as [|? a ? cs1 Ha H1]; subst. inversion_clear IH as [|? ? Ia _]. cbn [flat_map]. intros E. apply app_eq_nil in E as [E _].
      revert E. now apply (filled_leaves c a Ia YTok).
    + inversion H as [|? a ? cs1 Ha H1]; subst. inversion H1 as [|? b ? cs2 Hb H2]; subst. inversion_clear IH as [|? ? _ Ib']. inversion_clear Ib' as [|? ? Ib _].
      cbn [flat_map]. intros E. apply app_eq_nil in E as [_ E]. apply app_eq_nil in E as [E _]. revert E. now apply (filled_leaves c b Ib (YNode NTypeInfo)).
    + inversion H as [|? a ? cs1 Ha H1]; subst. inversion H1 as [|? b ? cs2 Hb H2]; subst. inversion_clear IH as [|? ? _ Ib']. inversion_clear Ib' as [|? ? Ib _].
      cbn [flat_map]. intros E. apply app_eq_nil in E as [_ E]. apply app_eq_nil in E as [E _]. revert E. now apply (filled_leaves c b Ib (YNode NTypeInfo)).
  - destruct H as [H _]. apply wt_nd in H as [H _]. discriminate.
Qed.
Lemma leaves_tight c y t : has c y t -> tight y = true -> leaves t <> [].
Proof. intros H. now apply (solid_all c t y H). Qed.

Lemma first_token_done t s : leaves t <> [] -> exists r, first_token t s = Done (r, s).
Proof.
  intros H. unfold first_token, bind, lift. destruct (next_loop_spec (S (items_size (items t))) (items t)) as (i1 & E & E1); [lia|].
  unfold tokens_next. rewrite E, items_leaves. destruct (leaves t); [congruence|]. cbn. eexists; reflexivity.
Qed.
Lemma last_token_done t s : leaves t <> [] -> exists r, last_token t s = Done (r, s).
Proof.
  intros H. unfold last_token, bind, lift. destruct (next_back_loop_spec (S (items_size (items t))) (items t)) as (i1 & E & E1); [lia|].
  unfold tokens_next_back. rewrite E, items_leaves. destruct (leaves t) as [|x l] using rev_ind; [congruence|]. rewrite rev_app_distr. cbn. eexists; reflexivity.
Qed.
Lemma ends_of_done t s : leaves t <> [] -> exists r, ends_of t s = Done (r, s).
Proof.
  intros H. unfold ends_of, bind, lift. destruct (next_loop_spec (S (items_size (items t))) (items t)) as (i1 & E & E1); [lia|].
  unfold tokens_next. rewrite E, items_leaves. destruct (leaves t); [congruence|]. cbn [fst snd hd_error].
  destruct (next_back_loop_spec (S (items_size i1)) i1) as (i2 & F & _); [lia|]. unfold tokens_next_back. rewrite F. cbn. eexists; reflexivity.
Qed.
Lemma W_done {c U A} {m : M A} {s} {Q : A -> pstate -> Prop} : (exists r, m s = Done (r, s)) -> (forall r, Q r s) -> W c U m s Q.
Proof. intros (r & E) H I. unfold wp. rewrite E. split; [apply ext_refl|apply H]. Qed.
Lemma W_first {c U s} {y t} {Q : tokref -> pstate -> Prop} : has c y t -> tight y = true -> (forall r, Q r s) -> W c U (first_token t) s Q.
Proof. intros H T. apply W_done, first_token_done. eapply leaves_tight; eauto. Qed.
Lemma W_last {c U s} {y t} {Q : tokref -> pstate -> Prop} : has c y t -> tight y = true -> (forall r, Q r s) -> W c U (last_token t) s Q.
Proof. intros H T. apply W_done, last_token_done. eapply leaves_tight; eauto. Qed.
Lemma W_ends {c U s} {y t} {Q : tokref * tokref -> pstate -> Prop} : has c y t -> tight y = true -> (forall r, Q r s) -> W c U (ends_of t) s Q.
Proof. intros H T. apply W_done, ends_of_done. eapply leaves_tight; eauto. Qed.

Definition literals : list text := [str "("; str ")"; str "]"; str "}"; str ">"; str "="; str "..."; str "end"; str "do"; str "if "; str " then"; str "while ";
  c_nl :: str "end"; str "end" ++ [c_nl]; str "do" ++ [c_nl]; str " do" ++ [c_nl]].
Lemma W_basic {c U s w} {Q : tokref -> pstate -> Prop} : In w literals -> (forall r, Q r s) -> W c U (basic c w) s Q.
Proof.
  intros H. apply W_done. assert (G : exists r, basic_symbol (c_feat c) w = Done r).
  { destruct (default_symbols (c_feat c) w) as (r & R & _); [|eauto]. rewrite !in_app_iff. cbn [In map]. unfold nl_text. cbn [In literals] in H.
    repeat match type of H with _ \/ _ => destruct H as [<-|H] | False => destruct H end; cbn; tauto. }
  destruct G as (r & R). exists r. unfold basic, lift. now rewrite R.
Qed.

(** ** What the invariant says about the next token *)
Lemma fatal_unsafe c U s : inv c U s -> has_luau c = true -> hd_tok s = None -> U.
Proof.
  intros I L H. destruct (inv_head _ _ _ I) as (r & rest & T). destruct I as (_ & _ & [I|I]); [assumption|]. exfalso.
  unfold hd_tok in H. rewrite T in *. inversion_clear I as [|? ? [S _] _]. now apply (S L).
Qed.
Lemma bitop_unsafe c U s t : inv c U s -> hd_tok s = Some t -> f_lua53 (c_feat c) = true -> has_lua53 c = false ->
  is_symbol t SAmpersand = true \/ is_symbol t SPipe = true -> U.
Proof.
  intros I H F L S. destruct (inv_head _ _ _ I) as (r & rest & T). destruct I as (_ & _ & [I|I]); [assumption|]. exfalso.
  unfold hd_tok in H. rewrite T in *. inversion_clear I as [|? ? [_ S'] _]. destruct (S' F L t H). destruct S; congruence.
Qed.
Lemma head_enabled c U s t y : inv c U s -> hd_tok s = Some t -> is_symbol t y = true -> sym_enabled c y = true.
Proof.
  intros I H S. destruct (inv_head _ _ _ I) as (r & rest & T). destruct I as (_ & I & _).
  unfold hd_tok in H. rewrite T in *. inversion_clear I as [|? ? E _]. unfold enabled in E. rewrite H in E. unfold is_symbol in S.
  destruct (t_type (r_token t)); try discriminate. unfold symbol_eqb in S. destruct (symbol_eq_dec _ _) in S; [congruence|discriminate].
Qed.

(** ** Tactics *)
#[export] Hint Resolve has_tok has_none has_span has_opt_tok each_new each_push_end each_push_punctuated has_puncts_tok : core.
Global Arguments has_luau : simpl never. Global Arguments has_lua52 : simpl never. Global Arguments has_lua53 : simpl never.
Global Arguments has_lua54 : simpl never. Global Arguments has_luajit : simpl never. Global Arguments has_cfxlua : simpl never.
Global Arguments len : simpl never. Global Arguments hd_tok : simpl never. Global Arguments nd_tok : simpl never.
Global Arguments bind : simpl never. Global Arguments ret : simpl never. Global Arguments loop : simpl never. Global Arguments panic : simpl never.

Ltac split_bools :=
  repeat match goal with
  | H : (_ || _) = true |- _ => apply orb_true_iff in H; destruct H
  | H : (_ && _) = true |- _ => apply andb_true_iff in H; destruct H
  end.
Ltac noeof :=
  solve [ eauto using symbol_not_eof, identifier_not_eof, string_not_eof, interpolated_not_eof
        | split_bools; eauto using symbol_not_eof, identifier_not_eof, string_not_eof, interpolated_not_eof
        | unfold is_symbol, is_identifier, is_string, is_interpolated, is_eof in *;
          match goal with |- context [t_type (r_token ?t)] => destruct (t_type (r_token t)); try discriminate; reflexivity end ].

Lemma is_symbol_other t a b : is_symbol t a = true -> a <> b -> is_symbol t b = false.
Proof.
  unfold is_symbol. destruct (t_type (r_token t)); try discriminate. unfold symbol_eqb. intros H N. destruct (symbol_eq_dec _ a) as [E|] in H; [|discriminate].
  destruct (symbol_eq_dec _ b) as [E'|]; [|reflexivity]. congruence.
Qed.

(** Type a tree. *)
Ltac nok := unfold node_ok; cbn [kind_allowed fitting_node filled_node operator_node feature_node andb];
  repeat match goal with H : ?b = true |- context [?b] => rewrite H end; cbn; rewrite ?orb_true_r;
  repeat match goal with H : ?b = true |- context [?b] => rewrite H end; try reflexivity.
Ltac typ :=
  lazymatch goal with
  | |- each _ (p_push _ _) => apply each_push; [typ|cbn [pair_value]; typ]
  | |- each _ p_new => apply each_new
  | |- each _ _ => try first [assumption | solve [eauto]]
  | |- has _ YTok (Tok _) => apply has_tok
  | |- has _ _ (Nd ?k _) => apply has_nd; [reflexivity|nok|cbn [fields]; repeat (apply Forall2_cons; [typ|]); try apply Forall2_nil]
  | |- has _ YSpan (span _ _) => apply has_span
  | |- has _ (YOpt YTok) (opt_tok _) => apply has_opt_tok
  | |- has _ (YOpt _) (opt_tree None) => apply has_none
  | |- has _ (YOpt _) (opt_tree (Some _)) => apply has_some; typ
  | |- has _ (YOpt _) (opt_tree _) => apply has_opt; try assumption
  | |- has _ (YOpt _) (Con CNone []) => apply has_none
  | |- has _ (YOpt _) (Con CSome [_]) => apply has_some; typ
  | |- has _ (YTuple _ _) (Con CTuple [_; _]) => apply has_tuple; typ
  | |- has _ (YVec _) (vec []) => apply has_vec, Forall_nil
  | |- has _ (YVec _) (vec _) => apply has_vec; try assumption
  | |- has _ (YPunctuated YTok) (punct Tok _) => apply has_puncts_tok
  | |- has _ (YPunctuated _) (puncts _) => apply has_puncts; typ
  | |- has _ _ _ => try first [assumption | solve [eauto]]
  end.

(** The usual postcondition. *)
Definition pv {A} (V : A -> Prop) (s : pstate) (r : pres A) (s' : pstate) : Prop :=
  match r with Value a => V a /\ len s' < len s | _ => True end.
Definition ov {A} (V : A -> Prop) (s : pstate) (r : option A) (s' : pstate) : Prop :=
  match r with Some a => V a /\ len s' < len s | None => True end.
(** ... without progress. *)
Definition ov0 {A} (V : A -> Prop) (r : option A) (s' : pstate) : Prop := match r with Some a => V a | None => True end.

(** [lia] without the booleans. *)
Ltac arith :=
  lazymatch goal with |- @eq nat _ _ => idtac | |- _ <= _ => idtac | |- _ < _ => idtac end;
  repeat match goal with
  | H : ?P |- _ => lazymatch type of P with Prop => idtac end; lazymatch P with @eq nat _ _ => fail | _ <= _ => fail | _ < _ => fail | _ => clear H end
  end; lia.
Lemma is_sym_some o y : is_sym o y = true -> exists t, o = Some t /\ is_symbol t y = true.
Proof. destruct o as [t|]; [|discriminate]. intros H. now exists t. Qed.
Lemma is_ident_some o : is_ident o = true -> exists t, o = Some t /\ is_identifier t = true.
Proof. destruct o as [t|]; [|discriminate]. intros H. now exists t. Qed.

Create HintDb spec.
#[export] Hint Extern 1 (_ <= _) => arith : spec.
#[export] Hint Extern 1 (_ < _) => arith : spec.
#[export] Hint Extern 1 (has _ _ _) => typ : spec.

Ltac use L := eapply W_conseq; [eapply L|].
Ltac norm := cbv beta iota; cbn [pv ov ov0 opt_is fst snd is_sym is_ident option_map] in *; repeat match goal with H : len ?x <= len ?x |- _ => clear H end; repeat match goal with
  | H : _ /\ _ |- _ => destruct H
  | H : ex _ |- _ => destruct H
  | H : False |- _ => destruct H
  | H : _ && _ = true |- _ => apply andb_true_iff in H
  | H : is_sym _ _ = true |- _ => apply is_sym_some in H
  | H : match ?x with Some _ => _ | None => false end = true |- _ => let E := fresh "E" in destruct x eqn:E; [|discriminate H]
  | H : hd_tok _ = hd_tok ?b, K : hd_tok ?b = _ |- _ => rewrite K in H
  | H : hd_tok _ = nd_tok ?b, K : nd_tok ?b = _ |- _ => rewrite K in H
  | H : hd_tok ?s = Some ?a, K : hd_tok ?s = Some ?b |- _ =>
      lazymatch a with b => clear K | _ => rewrite H in K; injection K as K; subst end
  | H : hd_tok ?s = Some ?a, K : hd_tok ?s = None |- _ => exfalso; rewrite H in K; discriminate K
  | H : is_ident _ = true |- _ => apply is_ident_some in H
  end.
Ltac destr x :=
  lazymatch x with
  | match ?y with _ => _ end => destr y
  | hd_tok ?s => first [ match goal with H : hd_tok s = _ |- _ => rewrite H end | let E := fresh "E" in destruct x eqn:E ]
  | nd_tok ?s => first [ match goal with H : nd_tok s = _ |- _ => rewrite H end | let E := fresh "E" in destruct x eqn:E ]
  | _ => tryif is_var x then destruct x else
         first [ match goal with H : x = _ |- _ => rewrite H end | let E := fresh "E" in destruct x eqn:E ]
  end.
Ltac step :=
  lazymatch goal with
  | |- len _ <= len _ -> _ => intros ?
  | |- W _ _ (bind _ _) _ _ => apply W_bind
  | |- W _ _ (ret _) _ _ => apply W_ret
  | |- W _ _ current _ _ => apply W_current
  | |- W _ _ peek _ _ => eapply W_peek; [eassumption|noeof|]
  | |- W _ _ take _ _ => eapply W_take; [eassumption|noeof|]; intros ? ? ?
  | |- W _ _ (token_error _ _) _ _ => apply W_error; intros ? ? ?
  | |- W _ _ (token_error_ranged _ _ _ _) _ _ => apply W_error_ranged; intros ? ? ?
  | |- W _ _ (consume_if _) _ _ => apply W_consume_if; [intros ? ? ? ? ? ?|intros ?]
  | |- W _ _ (require _ _) _ _ => apply W_require; [intros ? ? ? ? ? ?|intros ? ? ? ?]
  | |- W _ _ (require_with_reference_token _ _ _) _ _ => apply W_require_token; [intros ? ? ? ? ? ?|intros ? ? ? ?]
  | |- W _ _ (require_with_reference_range _ _ _ _) _ _ => apply W_require_range; [intros ? ? ? ? ? ?|intros ? ? ? ?]
  | |- W _ _ (require_with_reference_range_callback _ _ _) _ _ => apply W_require_range_callback; [|intros ? ? ? ? ? ?|intros ? ? ? ?]
  | |- W _ _ (consume_if_symbols _) _ _ => apply W_consume_if_symbols; [intros ? ? ? ? ? ?|]
  | |- W _ _ consume _ _ => eapply W_consume; [eassumption|noeof|]; intros ? ? ?
  | |- W _ _ (basic _ _) _ _ => apply W_basic; [cbn [In literals]; tauto|intros ?]
  | |- W _ _ (unwrap ?r) _ _ => unfold unwrap
  | |- W _ _ (first_token _) _ _ => eapply W_first; [eassumption|reflexivity|intros ?]
  | |- W _ _ (last_token _) _ _ => eapply W_last; [eassumption|reflexivity|intros ?]
  | |- W _ _ (ends_of _) _ _ => eapply W_ends; [eassumption|reflexivity|intros ?]
  | |- W _ _ (match ?x with _ => _ end) _ _ => destr x
  | |- W _ _ (let _ := _ in _) _ _ => cbv zeta
  | |- W _ _ _ _ _ => eapply W_conseq; [solve [eauto with spec]|]; intros ? ? ? ?
  end.
Ltac go := repeat (norm; step); norm.
(** Contradictions about the current and the next token. *)
Ltac clash := exfalso; subst;
  repeat match goal with
  | H : hd_tok ?s = hd_tok _ |- _ => rewrite H in *; clear H
  | H : hd_tok ?s = nd_tok _ |- _ => rewrite H in *; clear H
  | H : hd_tok ?s = _, K : context [hd_tok ?s] |- _ => lazymatch K with H => fail | _ => rewrite H in K end
  | H : nd_tok ?s = _, K : context [nd_tok ?s] |- _ => lazymatch K with H => fail | _ => rewrite H in K end
  end; unfold is_sym, is_ident in *; cbv beta iota in *; first [congruence | discriminate | split_bools; congruence].
(** Close the leaves of the symbolic execution. *)
Ltac fin1 := cbn [opt_is n_attribute n_type_specifier force_name]; repeat match goal with |- _ /\ _ => split end; try arith; try solve [typ]; try assumption; try solve [eauto]; try discriminate; try exact I;
  try congruence;
  try lazymatch goal with
  | |- W _ _ panic _ _ => solve [apply W_panic; intros; eapply fatal_unsafe; [eassumption|assumption|congruence] | clash]
  | |- W _ _ _ _ _ => idtac
  | |- _ => solve [clash]
  end.
Ltac fin :=
  repeat match goal with
  | |- pv _ _ ?a _ => tryif is_var a then destruct a else fail; norm
  | |- ov _ _ ?a _ => tryif is_var a then destruct a else fail; norm
  | |- ov0 _ ?a _ => tryif is_var a then destruct a else fail; norm
  | |- W _ _ _ _ _ => fail 1
  | |- context [match ?a with _ => _ end] => is_var a; destruct a; norm; subst
  end; subst; fin1.
