(** What is parsed without an error in Luau is a tree of the tree grammar: table types and the types themselves. *)
From Verif Require Import LexerSpec PunctuatedProofs.
From Verif Require LexerStep.
From Verif Require Export Sound2.
From Coq Require Import Lia.
Local Open Scope nat_scope.
Import ListNotations.

(** ** Table types *)
Definition table_w (e : table_end) : nat :=
  match e with TableReturn r => ow tw r | TableBreak fields array => 1 + lw tw fields + ow (fun x : option tokref * tree => ow wt (fst x) + tw (snd x)) array end.
Lemma table_w_return r : table_w (TableReturn r) = ow tw r. Proof. reflexivity. Qed.
Lemma table_w_break l a : table_w (TableBreak l a) = 1 + lw tw l + ow (fun x : option tokref * tree => ow wt (fst x) + tw (snd x)) a. Proof. reflexivity. Qed.
#[export] Hint Rewrite table_w_return table_w_break : tw.
Definition fields_w (x : punctuated tree * bool) : nat := lw tw (fst x).
#[export] Hint Unfold fields_w : jw.
Definition entry_list (l : punctuated tree) : list tree := map (pair_tree (fun t => t)) (pairs l).
Definition indexers (l : punctuated tree) : nat := List.length (filter is_indexer (entry_list l)).
Definition fields_ok (c : cfg) (x : punctuated tree * bool) : Prop :=
  each (type_field c) (fst x) /\ dotted [SComma; SSemicolon] (pairs (fst x)) /\ indexers (fst x) <= (if snd x then 1 else 0).
Definition table_post (c : cfg) (left : tokref) (e : table_end) : Prop :=
  match e with
  | TableReturn (Some t) => exists b l, t = Nd KTypeTable [span left b; Con CPunctuated l] /\ sy b SRightBrace /\ entries (type_field c) l /\ one_indexer l
  | TableReturn None => False
  | TableBreak l None => entries (type_field c) (entry_list l) /\ one_indexer (entry_list l)
  | TableBreak l (Some (Some r, t)) => access r /\ type c t
  | TableBreak l (Some (None, t)) => type c t /\ (forall r l, printed t = r :: l -> ~ access r)
  end.
Lemma table_access r : access r -> is_identifier r = true /\ is_access r = true.
Proof. unfold access, word, is_identifier, is_access. intros [->| ->]; auto. Qed.
Lemma access_table r : is_identifier r = true -> is_access r = true -> access r.
Proof.
  unfold access, word, is_identifier, is_access. destruct (t_type (r_token r)); try discriminate. intros _ X. apply orb_true_iff in X as [X|X]; apply LexerStep.text_eqb_eq in X as ->; auto.
Qed.
Lemma indexers_push l x : indexers (p_push l x) = indexers l + (if is_indexer (pair_tree (fun t => t) x) then 1 else 0).
Proof. unfold indexers, entry_list. cbn [p_push pairs]. rewrite map_app, filter_app, app_length. cbn [map filter]. destruct (is_indexer _); reflexivity. Qed.
Lemma dotted_entries (P : tree -> Prop) l m : dotted [SComma; SSemicolon] l -> Forall (fun x => P (pair_value x)) l -> entries P m -> entries P (map (pair_tree (fun t : tree => t)) l ++ m).
Proof.
  intros D H Hm. induction l as [|x l IH]; [exact Hm|]. apply Forall_inv in H as Hx. apply Forall_inv_tail in H. inversion_clear D as [|? ? Dx D']. destruct x as [u|u d]; [contradiction|].
  cbn [app map pair_tree]. cbn in Dx. rewrite orb_false_r in Dx. apply orb_true_iff in Dx as [Dx|Dx]; (eapply e_more; [exact Hx|apply sym_eq; exact Dx|auto|auto]).
Qed.
Lemma fields_push c l b v d (b' : bool) : fields_ok c (l, b) -> type_field c v -> is_symbol d SComma || is_symbol d SSemicolon = true ->
  indexers (p_push l (Punctuated v d)) <= (if b' then 1 else 0) -> fields_ok c (p_push l (Punctuated v d), b').
Proof. intros (H1 & H2 & H3) Hv D I. split; [now apply each_push|]. split; [|exact I]. apply dotted_push; [assumption|]. cbn. now rewrite orb_false_r. Qed.
Lemma fields_done c l b m : fields_ok c (l, b) -> entries (type_field c) m -> entries (type_field c) (entry_list l ++ m).
Proof. intros (H1 & H2 & H3) Hm. now apply dotted_entries. Qed.
Lemma fields_end c left l b v : fields_ok c (l, b) -> type_field c v -> indexers (p_push l (End v)) <= 1 -> table_post c left (TableBreak (p_push l (End v)) None).
Proof.
  intros H Hv I. split; [|exact I]. unfold entry_list. cbn [p_push pairs]. rewrite map_app. eapply fields_done; [eassumption|]. now constructor.
Qed.
Lemma fields_close c left l b : fields_ok c (l, b) -> table_post c left (TableBreak l None).
Proof.
  intros H. split; [rewrite <- (app_nil_r (entry_list l)); eapply fields_done; [eassumption|constructor]|]. destruct H as (_ & _ & H). cbn [fst snd] in H. unfold one_indexer, indexers in *. destruct b; lia.
Qed.
Lemma not_string u r t : begins (u :: r) t -> is_string u = false -> first_of t <> Some TString.
Proof.
  unfold begins, first_of. destruct (printed t) as [|x l]; [discriminate|]. cbn. intros [= ->] S X. injection X as X. unfold terminal_of, is_string in *. destruct (t_type (r_token u)); discriminate.
Qed.
Lemma not_access u r t : begins (u :: r) t -> is_identifier u && is_access u = false -> forall x l, printed t = x :: l -> ~ access x.
Proof. unfold begins. intros B X x l P. rewrite P in B. injection B as ->. intros A. apply table_access in A as [A1 A2]. rewrite A1, A2 in X. discriminate. Qed.
Lemma string_here r : is_string r = true -> terminal_of r = TString.
Proof. unfold is_string, terminal_of. now destruct (t_type (r_token r)). Qed.
Lemma fa_none : field_access (opt_tok None). Proof. constructor. Qed.
Lemma fa_some r : is_identifier r = true -> is_access r = true -> field_access (opt_tok (Some r)).
Proof. intros. apply ac_some. now apply access_table. Qed.
Ltac jkey :=
  lazymatch goal with
  | |- type_key _ (Nd KTypeFieldKeyName _) => apply tk_name; solve [auto with jtree]
  | |- type_key _ (Nd _ [_; Nd KTypeString [Tok _]]) => apply tk_string; solve [auto using string_here with jtree]
  | |- type_key _ _ => apply tk_type; [auto with jtree|auto with jtree|assumption|solve [eapply not_string; eassumption]]
  end.
Ltac jfield := apply tf_intro; [first [apply fa_none|apply fa_some; assumption]|jkey|solve [auto with jtree]|assumption].
Ltac jindex := rewrite indexers_push; cbn [pair_tree is_indexer]; match goal with HI : indexers _ <= _ |- _ => clear -HI end; repeat match goal with |- context [match ?b with _ => _ end] => destruct b end; repeat match goal with HI : context [if ?b then _ else _] |- _ => destruct b end; lia.
Lemma j_table_type c p left ts : jgood c p -> reals ts -> wt left = 1 -> is_symbol left SLeftBrace = true ->
  E (expect_type_table c p left) ts (held (ow tw) ts 1 (fun r ts' => match r with Some t => closed_type c t /\ begins (left :: ts) t /\ name_free t ts' | None => False end)).
Proof.
  jbegin. unfold expect_type_table. jstep.
  eapply (E_conseq _ _ (held table_w ts 1 (fun e _ => table_post c left e))).
  { eapply (E_loop (held fields_w ts 0 (fun x _ => fields_ok c x))); [mono_tac|jend; split; [apply each_new|split; [apply dotted_new|cbn; lia]]|].
    intros [l b] ts1 K. jgo; try solve [jend].
    all: unfold push_field; jgo; jend.
    all: try match goal with H : fields_ok _ (_, ?b) |- _ => pose proof H as (_ & _ & HI); cbn [fst snd] in HI end.
    all: lazymatch goal with
      | |- table_post _ _ (TableReturn (Some _)) => eexists _, _; split; [reflexivity|]; split; [auto with jtree|]; eapply (fields_close _ error_token); eassumption
      | |- table_post _ _ (TableBreak (p_push _ _) None) => eapply fields_end; [eassumption|jfield|jindex]
      | |- table_post _ _ (TableBreak _ None) => eapply fields_close; eassumption
      | |- table_post _ _ (TableBreak _ (Some (Some _, _))) => split; [apply access_table; assumption|assumption]
      | |- table_post _ _ (TableBreak _ (Some (None, _))) => split; [assumption|eapply not_access; [eassumption|]]
      | |- fields_ok _ _ => eapply fields_push; [eassumption|jfield|cbn; assumption|jindex]
      | _ => idtac end.
    all: first [assumption|match goal with X : ?b = true, Y : negb ?b = true |- _ => rewrite X in Y; discriminate end|match goal with X : ?b = false |- ?b && _ = false => rewrite X; reflexivity | X : ?b = false |- _ && ?b = false => rewrite X; apply andb_false_r end|idtac].
    match goal with X : is_identifier ?t = true |- is_identifier ?t && _ = false => rewrite X; assumption end.
}
  intros [r|l a] ts1 K; jgo; jend.
  - destruct r as [t|]; [|assumption]. destruct H6 as (b & l & -> & Hb & Hl & Hi). split; [apply st_table; auto with jtree|]. split; [jbegins|apply no_word; reflexivity].
  - destruct o as [r0|]; match goal with H : table_post _ _ _ |- _ => destruct H end; (split; [|split; [jbegins|apply no_word; reflexivity]]); [apply st_array_access|apply st_array]; try assumption; auto with jtree.
  - match goal with H : table_post _ _ _ |- _ => destruct H end. split; [apply st_table; auto with jtree|]. split; [jbegins|apply no_word; reflexivity].
Qed.
#[export] Hint Resolve j_table_type : jspec.

