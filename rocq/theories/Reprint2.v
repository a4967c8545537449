(** A text with the tokens of a tree is parsed to that tree, whatever its trivia (C53). Proof file. *)
From Verif Require Import LexerSpec PunctuatedProofs.
From Verif Require Import TokenSpec ParserTheorems ParserAccept RoundSpec Round13 ReprintSpec Scan5 Layout4.
From Verif Require Export Reprint1.
Local Open Scope nat_scope.
Import ListNotations.

Lemma mains_app a b : mains (a ++ b) = mains a ++ mains b.
Proof. apply filter_app. Qed.
Lemma mains_trivial l : Forall trivial l -> mains l = [].
Proof. induction 1 as [|t l T _ IH]; [reflexivity|]. destruct t; try contradiction; exact IH. Qed.
Lemma mains_main t : ~ trivial t -> mains [t] = [t].
Proof. destruct t; try reflexivity; now intros []. Qed.
Lemma mains_types rs : Forall proper rs -> mains (types_of rs) = main_types rs.
Proof.
  induction 1 as [|r rs [P Q] _ IH]; [reflexivity|]. rewrite types_cons. change (t_type (r_token r) :: ends r ++ types_of rs) with ([t_type (r_token r)] ++ ends r ++ types_of rs).
  rewrite !mains_app, IH, (mains_main _ P). destruct (proper_leads r (conj P Q)) as (L1 & L2). now rewrite (mains_trivial _ L1), (mains_trivial _ L2).
Qed.
Definition near (r r' : tokref) : Prop := same_token r r' /\ (part_of_string r -> (r_trailing r = [] <-> r_trailing r' = [])).
Lemma near_same c r r' : near r r' -> same_ref c r r'.
Proof. intros [H1 H2]. split; [unfold same_token in H1; rewrite H1; apply same_ref_refl|]. intros w k E. apply H2. now exists w, k. Qed.
Lemma near_refl r : near r r.
Proof. split; [reflexivity|tauto]. Qed.
Lemma mains_near rs rs' : main_types rs = main_types rs' -> (forall r, In r rs -> ~ part_of_string r) -> Forall2 near rs rs'.
Proof.
  revert rs'. induction rs as [|r rs IH]; intros [|r' rs'] E N; try discriminate; constructor; cbn in E; injection E as E1 E2.
  - split; [exact E1|]. intros P. now destruct (N r (or_introl eq_refl)).
  - apply IH; [exact E2|]. intros x I. apply N. now right.
Qed.
Lemma tokens_parse c t ts source : cfg_ok c -> block c t -> (forall r, In r (printed t) -> ~ part_of_string r) ->
  file c ts source -> mains ts = main_types (printed t) ++ [TEof] ->
  exists t' e', parse c source = Done (inl (mkAst t' e')) /\ alike same_token t t'.
Proof.
  intros C B N Fi M. apply file_exact in Fi as (rs0 & T & Cl & K & Ty); [|exact C]. destruct (clean_oks _ Cl) as (rs & ->). unfold tokens_of in Ty. rewrite refs_of_oks in Ty. fold (types_of rs) in Ty.
  destruct (lexer_attached _ _ _ T) as (F' & A'). subst ts. rewrite mains_types in M by exact F'.
  assert (G : Forall2 near (printed t ++ [end_of_file]) rs).
  { apply mains_near; [unfold main_types in *; rewrite map_app, M; reflexivity|]. intros r I. apply in_app_iff in I as [I|[<-|[]]]; [auto|]. intros (w & k & E). discriminate E. }
  destruct (parsed_by (mkTie c near (near_same c) (fun r _ => near_refl r)) _ t end_of_file rs C B eq_refl T G) as (t' & e' & P & Al & Q).
  exists t', e'. split; [exact P|]. eapply alike_impl; [|exact Al]; now intros r r' [].
Qed.
