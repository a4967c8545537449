(** Nodes made by constructors (C54). Proof file. *)
From Verif Require Export Construct2.
From Verif Require Import Lexer LexerSpec TokenSpec Scan5 Scan6 PunctuatedProofs Reprint2.
From Verif Require Import TreeFacts PrintProofs.
From Verif Require Import RoundSpec ScanSpec.
From Coq Require Import Lia.
Local Open Scope nat_scope.
Import ListNotations.

(** ** Printing *)
Ltac prints := repeat (first [rewrite printed_nd|rewrite printed_con|rewrite printed_tok]; cbn [display_order in_order fields List.length seq map flat_map pick at_ subs_at subs nth_error zip_pick app]).
Ltac prints_in H := repeat (first [rewrite printed_nd in H|rewrite printed_con in H|rewrite printed_tok in H]; cbn [display_order in_order fields List.length seq map flat_map pick at_ subs_at subs nth_error zip_pick app] in H).
Lemma no_print n : flat_map printed (repeat none n) = [].
Proof. induction n; cbn [repeat flat_map]; [reflexivity|]. now rewrite IHn, printed_con. Qed.
Definition blank (v : list tree) : Prop := exists n, v = repeat none n.
Lemma blank_at vs : Forall blank vs -> flat_map (at_ printed 0) vs = [].
Proof.
  induction 1 as [|v vs [n ->] _ IH]; [reflexivity|]. cbn [flat_map]. rewrite IH. destruct n; [reflexivity|]. cbn [repeat at_ nth_error]. now rewrite printed_con.
Qed.
Lemma blank_tl vs : Forall blank vs -> Forall blank (map (@tl _) vs).
Proof. induction 1 as [|v vs [n ->] _ IH]; constructor; [|exact IH]. destruct n; [exists O|exists n]; reflexivity. Qed.
Lemma zip_blank d ts : forall vs, Forall blank vs -> zip_pick printed true (join d ts) vs = flat_map printed (join d ts).
Proof.
  induction ts as [|t ts IH]; intros vs B; [reflexivity|]. destruct ts as [|t2 ts].
  - cbn [join zip_pick subs at_ nth_error flat_map]. rewrite blank_at by exact B. rewrite printed_con. cbn [flat_map]. now rewrite !app_nil_r.
  - change (join d (t :: t2 :: ts)) with (followed t d :: join d (t2 :: ts)). cbn [zip_pick flat_map]. rewrite blank_at by exact B. rewrite IH by now apply blank_tl.
    cbn [subs at_ nth_error]. rewrite printed_con. cbn [flat_map app]. rewrite app_nil_r, <- app_assoc. reflexivity.
Qed.
Lemma blank_nil : blank [].
Proof. now exists O. Qed.
Lemma blank_repeat n : blank (repeat none n).
Proof. now exists n. Qed.

(** ** Tactics for the proofs below: parts, and the tokens in between *)
Ltac parts H := let t := fresh "t" in let P := fresh "P" in let F := fresh "F" in let Q := fresh "Q" in let O := fresh "O" in pose proof (stands_ok _ _ _ _ H) as O; destruct H as ((t & P & F & Q) & _).
Ltac lit := first [apply lit_any; unfold before_anything; member|apply ok_soft, lit_any; unfold before_anything; member|apply lit_soft; unfold before_soft; member].
Ltac starts := apply first_soft, lit_starts; unfold soft_literals; member.
(** Tokens before anything and parts before soft texts, from left to right. *)
Ltac chain := rewrite ?app_nil_r; repeat first
  [ assumption | apply ok_nil | apply ok_soft; assumption | lit
  | apply ok_cons; [solve [lit]|]
  | apply ok_any; [assumption|]
  | apply ok_before; [solve [assumption|apply ok_soft; assumption]| |solve [starts]]
  | rewrite <- app_assoc | rewrite app_nil_r ].
Ltac tok_sy := vm_compute; reflexivity.
Lemma filled_tok r : filled (Tok r) (Tok r).
Proof. constructor. Qed.
Ltac fills := repeat first [eassumption|apply filled_tok|apply Forall2_nil|apply Forall2_cons|apply fl_node|apply fl_container].

(** ** Do, while, repeat *)
Lemma do_stands c f b : stands c soft (block c) b -> exists t, do_new f = Done t /\ stands c soft (statement c) (Nd KStmtDo [with_field 1 b t]).
Proof.
  intros B. parts B. unfold do_new, make, each. rewrite !basic_done by (unfold literals; member). eexists. split; [reflexivity|]. cbn [with_field replace]. apply stands_intro.
  - eexists. split; [|split; [fills|prints; now rewrite Q]]. apply sm_do; [tok_sy|exact P|tok_sy].
  - prints. chain.
Qed.
Lemma while_stands c f e b : stands c soft (expression c) e -> stands c anything (block c) b ->
  exists t, while_new f e = Done t /\ stands c anything (statement c) (Nd KStmtWhile [with_field 3 b t]).
Proof.
  intros E B. parts E. parts B. unfold while_new, make, each. rewrite !basic_done by (unfold literals; member). eexists. split; [reflexivity|]. cbn [with_field replace]. apply stands_intro.
  - eexists. split; [|split; [fills|prints; now rewrite Q, Q0]]. apply sm_while; [tok_sy|exact P|tok_sy|exact P0|tok_sy].
  - prints. chain.
Qed.
Lemma repeat_stands c f e b : stands c soft (expression c) e -> stands c soft (block c) b ->
  exists t, repeat_new f e = Done t /\ stands c soft (statement c) (Nd KStmtRepeat [with_field 1 b t]).
Proof.
  intros E B. parts E. parts B. unfold repeat_new, make, each. rewrite !basic_done by (unfold literals; member). eexists. split; [reflexivity|]. cbn [with_field replace]. apply stands_intro.
  - eexists. split; [|split; [fills|prints; now rewrite Q, Q0]]. apply sm_repeat; [tok_sy|exact P0|tok_sy|exact P].
  - prints. chain.
Qed.

(** ** Lists of parts *)
Lemma stands_all c F P l : Forall (stands c F P) l -> exists l', Forall P l' /\ Forall2 filled l l' /\ flat_map printed l' = flat_map printed l.
Proof.
  induction 1 as [|t l ((t' & Pt & Ft & Qt) & _) _ (l' & Pl & Fl & Ql)]; [exists []; auto|]. exists (t' :: l'). split; [auto|]. split; [auto|]. cbn [flat_map]. now rewrite Qt, Ql.
Qed.
Lemma ok_all c P l : Forall (stands c anything P) l -> ok c anything (flat_map printed l).
Proof. induction 1 as [|t l H _ IH]; [apply ok_nil|]. cbn [flat_map]. apply ok_any; [now apply stands_ok in H|exact IH]. Qed.
Lemma filled_to_tok t r : filled t (Tok r) -> t = Tok r.
Proof. now inversion 1. Qed.
Lemma name_stands c F t : stands c F name_tree t -> exists r, t = Tok r /\ nm r.
Proof. intros ((x & (r & -> & N) & Fl & _) & _). apply filled_to_tok in Fl. eauto. Qed.
Lemma names_stand c F ns : Forall (stands c F name_tree) ns -> Forall name_tree ns.
Proof. intros H. eapply Forall_impl; [|exact H]. intros t Ht. now apply name_stands in Ht. Qed.
Lemma names_bound (B : tree -> tree -> Prop) d ns : B none none -> sy d SComma -> ns <> [] -> Forall name_tree ns -> bindings B (join d ns) (repeat none (List.length ns)) (repeat none (List.length ns)).
Proof.
  intros HB Sd. induction ns as [|t ns IH]; [easy|]. intros _ H. inversion H as [|? ? (r & -> & N) Hs]; subst. destruct ns as [|t2 ns]; [now constructor|].
  change (join d (Tok r :: t2 :: ns)) with (followed (Tok r) d :: join d (t2 :: ns)). cbn [List.length repeat]. constructor; auto. now apply IH.
Qed.
Lemma fills_vector n : filled (vector []) (vector (repeat none n)).
Proof. apply (fl_vector [] [] n). constructor. Qed.

(** The comma of the literal [", "]. *)
Lemma comma_ok c : ok c anything [tk (str ", ")].
Proof. lit. Qed.
Lemma comma_starts : starts_soft (show_ref (tk (str ", "))).
Proof. apply lit_starts. unfold soft_literals. member. Qed.
Lemma comma_values c (P : tree -> Prop) ts : ts <> [] -> Forall (stands c soft P) ts -> stands c soft (values P) (listing (join (tk (str ", ")) ts)).
Proof. intros NE H. apply join_values; [exact NE|tok_sy|apply comma_ok|apply comma_starts|exact H]. Qed.

(** ** Assignments *)
Lemma assignment_stands c f vs es d : basic_token f (str ", ") = Done (Tok d) -> vs <> [] -> es <> [] -> Forall (stands c soft (variable c)) vs -> Forall (stands c soft (expression c)) es ->
  exists t, assignment_new f (listing (join d vs)) (listing (join d es)) = Done t /\ stands c soft (statement c) (Nd KStmtAssignment [t]).
Proof.
  intros Ed N1 N2 V E. rewrite basic_done in Ed by (unfold literals; member). injection Ed as <-. pose proof (comma_values _ _ _ N1 V) as A. pose proof (comma_values _ _ _ N2 E) as B. parts A. parts B.
  destruct P as (l1 & -> & P1). destruct P0 as (l2 & -> & P2). unfold assignment_new, make, each. rewrite !basic_done by (unfold literals; member). eexists. split; [reflexivity|]. apply stands_intro.
  - eexists. split; [|split; [fills|prints; rewrite !printed_con in *; now rewrite Q, Q0]]. apply sm_assignment; [exact P1|tok_sy|exact P2].
  - rewrite printed_nd; cbn [display_order in_order fields List.length seq map flat_map pick at_ subs_at subs nth_error]. rewrite printed_nd; cbn [display_order in_order fields List.length seq map flat_map pick at_ subs_at subs nth_error]. rewrite printed_tok. cbn [app]. chain.
Qed.
Lemma local_stands c f ns d : basic_token f (str ", ") = Done (Tok d) -> ns <> [] -> Forall (stands c soft name_tree) ns ->
  exists t, local_assignment_new f (listing (join d ns)) = Done t /\ stands c soft (statement c) (Nd KStmtLocalAssignment [t]).
Proof.
  intros Ed NE H. rewrite basic_done in Ed by (unfold literals; member). injection Ed as <-. pose proof (stands_ok _ _ _ _ (comma_values _ _ _ NE H)) as A. apply names_stand in H. rewrite printed_con in A.
  unfold local_assignment_new, make, each. rewrite !basic_done by (unfold literals; member). eexists. split; [reflexivity|]. apply stands_intro.
  - exists (Nd KStmtLocalAssignment [Nd KLocalAssignment [Tok (tk (str "local ")); vector (repeat none (List.length ns)); listing (join (tk (str ", ")) ns); vector (repeat none (List.length ns)); none; listing []]]).
    split; [apply sm_local; [tok_sy|apply names_bound; [repeat constructor|tok_sy|exact NE|exact H]]|]. split.
    + repeat first [apply fl_node|apply Forall2_cons|apply Forall2_nil|apply fills_vector|apply filled_refl].
    + prints. rewrite !zip_blank; [reflexivity|repeat constructor; apply blank_nil|repeat constructor; apply blank_repeat].
  - prints. rewrite zip_blank by (repeat constructor; apply blank_nil). chain.
Qed.
Lemma local_values_stands c f ns es d : basic_token f (str ", ") = Done (Tok d) -> ns <> [] -> es <> [] -> Forall (stands c soft name_tree) ns -> Forall (stands c soft (expression c)) es ->
  exists t q, local_assignment_new f (listing (join d ns)) = Done t /\ basic_token f (str " = ") = Done q /\
    stands c soft (statement c) (Nd KStmtLocalAssignment [with_field 5 (listing (join d es)) (with_field 4 (some q) t)]).
Proof.
  intros Ed NE N2 H E. rewrite basic_done in Ed by (unfold literals; member). injection Ed as <-. pose proof (stands_ok _ _ _ _ (comma_values _ _ _ NE H)) as A. apply names_stand in H. rewrite printed_con in A.
  pose proof (comma_values _ _ _ N2 E) as B. parts B. destruct P as (l2 & -> & P2).
  unfold local_assignment_new, make, each. rewrite !basic_done by (unfold literals; member). do 2 eexists. split; [reflexivity|]. split; [reflexivity|]. cbn [with_field replace]. apply stands_intro.
  - exists (Nd KStmtLocalAssignment [Nd KLocalAssignment [Tok (tk (str "local ")); vector (repeat none (List.length ns)); listing (join (tk (str ", ")) ns); vector (repeat none (List.length ns)); some (Tok (tk (str " = "))); listing l2]]).
    split; [apply sm_local_values with SEqual; [tok_sy|apply names_bound; [repeat constructor|tok_sy|exact NE|exact H]|tok_sy|exact I|exact P2]|]. split.
    + repeat first [apply fl_node|apply Forall2_cons|apply Forall2_nil|apply fills_vector|exact F|apply filled_refl].
    + rewrite !printed_con in Q. prints. rewrite !zip_blank; [now rewrite Q|repeat constructor; apply blank_nil|repeat constructor; apply blank_repeat].
  - rewrite printed_con in O. prints. rewrite zip_blank by (repeat constructor; apply blank_nil). chain.
Qed.
