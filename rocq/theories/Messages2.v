(** What can be read off the text of an error (C61). Proof file. *)
From Coq Require Import Decimal DecimalN Lia.
From Verif Require Import LexerSpec MessageSpec Message.
Local Open Scope N_scope.
Import ListNotations.

Definition is_decimal (x : char) : bool := (48 <=? x) && (x <=? 57).
Lemma digits_decimal d : forallb is_decimal (digits d) = true.
Proof. induction d; cbn; auto. Qed.
Lemma digits_inj d : forall e, digits d = digits e -> d = e.
Proof. induction d; intros [] H; cbn in H; try discriminate; try reflexivity; f_equal; apply IHd; congruence. Qed.
Lemma show_number_inj n m : show_number n = show_number m -> n = m.
Proof. intros H. apply Unsigned.to_uint_inj. now apply digits_inj. Qed.

(** The last character of a kind splits a text in one way. *)
Lemma split_last_rev (P : char -> bool) x y : P x = false -> P y = false -> forall d e a b, forallb P d = true -> forallb P e = true -> d ++ x :: a = e ++ y :: b -> d = e /\ x = y /\ a = b.
Proof.
  intros X Y. induction d as [|z d IH]; intros [|w e] a b D E H; cbn in *.
  - injection H as -> ->. auto.
  - injection H as -> _. apply andb_true_iff in E. destruct E as [E _]. congruence.
  - injection H as -> _. apply andb_true_iff in D. destruct D as [D _]. congruence.
  - injection H as -> H. apply andb_true_iff in D, E. destruct (IH e a b (proj2 D) (proj2 E) H) as (-> & -> & ->). auto.
Qed.
Lemma forallb_rev {A} (P : A -> bool) l : forallb P (rev l) = forallb P l.
Proof. induction l as [|x l IH]; cbn; [reflexivity|]. rewrite forallb_app, IH. cbn. rewrite andb_true_r. apply andb_comm. Qed.
Lemma split_last (P : char -> bool) a b x y d e : P x = false -> P y = false -> forallb P d = true -> forallb P e = true -> a ++ x :: d = b ++ y :: e -> a = b /\ x = y /\ d = e.
Proof.
  intros X Y D E H. apply (f_equal (@rev _)) in H. rewrite !rev_app_distr in H. cbn in H. rewrite <- !app_assoc in H. cbn in H.
  destruct (split_last_rev P x y X Y (rev d) (rev e) (rev a) (rev b)) as (Q & -> & R); [now rewrite forallb_rev|now rewrite forallb_rev|exact H|].
  apply (f_equal (@rev _)) in Q, R. rewrite !rev_involutive in Q, R. auto.
Qed.
(** A number at the end, after something that is no digit. *)
Lemma number_last w x a b n m : is_decimal x = false -> a ++ (w ++ [x]) ++ show_number n = b ++ (w ++ [x]) ++ show_number m -> a = b /\ n = m.
Proof.
  intros X H. rewrite <- !app_assoc in H. cbn [app] in H. rewrite !app_assoc in H.
  destruct (split_last is_decimal _ _ x x _ _ X X (digits_decimal _) (digits_decimal _) H) as (Q & _ & R). apply app_inv_tail in Q. split; [exact Q|now apply show_number_inj].
Qed.

Lemma tokenizer_error_inj e e' : show_tokenizer_error e = show_tokenizer_error e' -> te_error e = te_error e' /\ same_range (te_range e) (te_range e').
Proof.
  destruct e as [k [p q]], e' as [k' [p' q']]. unfold show_tokenizer_error. cbn [te_error te_range fst snd]. intros H.
  rewrite !app_assoc in H. apply app_inv_tail in H. rewrite <- (app_assoc _ (str ":") (show_number (p_char q))), <- (app_assoc _ (str ":") (show_number (p_char q'))) in H.
  destruct (number_last [] 58 _ _ _ _ eq_refl H) as [H1 C2]. rewrite <- (app_assoc _ (str " to ") (show_number (p_line q))), <- (app_assoc _ (str " to ") (show_number (p_line q'))) in H1.
  destruct (number_last (str " to") 32 _ _ _ _ eq_refl H1) as [H2 L2]. rewrite <- (app_assoc _ (str ":") (show_number (p_char p))), <- (app_assoc _ (str ":") (show_number (p_char p'))) in H2.
  destruct (number_last [] 58 _ _ _ _ eq_refl H2) as [H3 C1]. rewrite <- (app_assoc _ (str " (") (show_number (p_line p))), <- (app_assoc _ (str " (") (show_number (p_line p'))) in H3.
  destruct (number_last (str " ") 40 _ _ _ _ eq_refl H3) as [H4 L1].
  split; [|repeat split; assumption]. destruct k, k'; try reflexivity; try (vm_compute in H4; discriminate H4).
  - apply app_inv_head in H4. congruence.
  - apply app_inv_head in H4. congruence.
Qed.

(** The same text, grouped from the left. *)
Lemma ast_error_grouped t m o : show_ast_error t m o =
  let p := fst (place t o) in let q := snd (place t o) in
  ((((((str "unexpected token `" ++ show_token t ++ str "`. ") ++ (str "(starting from line" ++ [32]) ++ show_number (p_line p)) ++ (str ", character" ++ [32]) ++ show_number (p_char p)) ++
    (str " and ending on line" ++ [32]) ++ show_number (p_line q)) ++ (str ", character" ++ [32]) ++ show_number (p_char q)) ++ str ")") ++ c_nl :: (str "additional information: " ++ m).
Proof. unfold show_ast_error. change (ast_error_range t o) with (place t o). cbv zeta. rewrite <- !app_assoc. reflexivity. Qed.
Lemma ast_error_inj t m o t' m' o' : on_one_line m -> on_one_line m' -> show_ast_error t m o = show_ast_error t' m' o' -> show_token t = show_token t' /\ m = m' /\ same_range (place t o) (place t' o').
Proof.
  intros M M'. rewrite !ast_error_grouped. cbv zeta. set (u := str "additional information: ").
  assert (L : forall m, on_one_line m -> forallb (fun x => negb (x =? 10)) (u ++ m) = true).
  { intros w W. rewrite forallb_app. apply andb_true_intro. split; [reflexivity|]. apply forallb_forall. intros x I. destruct (x =? 10) eqn:X; [|reflexivity]. apply N.eqb_eq in X. subst x. now destruct W. }
  intros H. apply (split_last (fun x => negb (x =? 10))) in H; [|reflexivity|reflexivity|now apply L|now apply L]. destruct H as (H & _ & Hm). apply app_inv_head in Hm. apply app_inv_tail in H.
  apply number_last in H; [|reflexivity]. destruct H as [H C2]. apply number_last in H; [|reflexivity]. destruct H as [H L2]. apply number_last in H; [|reflexivity]. destruct H as [H C1]. apply number_last in H; [|reflexivity]. destruct H as [H L1].
  apply app_inv_head in H. apply app_inv_tail in H. repeat split; assumption.
Qed.

Lemma error_text_inj e e' : sentence e -> sentence e' -> show_error e = show_error e' -> same_error e e'.
Proof.
  intros [k|t m o _ M] [k'|t' m' o' _ M'] H; cbn [show_error] in H.
  - apply app_inv_head, tokenizer_error_inj in H. now constructor.
  - vm_compute in H. discriminate H.
  - vm_compute in H. discriminate H.
  - apply app_inv_head in H. apply ast_error_inj in H; [|assumption|assumption]. destruct H as (T & <- & R). now constructor.
Qed.
From Verif Require Import ErrorSpec Messages1.
From Verif Require Import MessageSpec Message.
Lemma texts_tell c source r c' source' r' e e' : parse_fallible c source = Done r -> parse_fallible c' source' = Done r' ->
  In e (ar_errors r) -> In e' (ar_errors r') -> show_error e = show_error e' -> same_error e e'.
Proof.
  intros P P' I I'. apply error_text_inj.
  - pose proof (messages_plain _ _ _ P) as F. rewrite Forall_forall in F. auto.
  - pose proof (messages_plain _ _ _ P') as F. rewrite Forall_forall in F. auto.
Qed.
Lemma message_and_range e : range_of_error e = error_range e /\
  (forall k, e = TokenizerError k -> show_error e = str "error occurred while tokenizing: " ++ error_message e) /\ (forall t m o, e = AstError t m o -> exists w, show_error e = w ++ error_message e /\ error_message e = m).
Proof.
  split; [now destruct e|]. split; [intros k ->; reflexivity|]. intros t m o ->. eexists. split; [|reflexivity]. cbn [show_error error_message]. unfold show_ast_error. cbv zeta. rewrite !app_assoc. reflexivity.
Qed.
From Verif Require Import LexerTheorems3 Compare Compare1.
From Verif Require Import MessageSpec Message.
Lemma lexical_texts c source rs a e b e' d : tokenize c source = Done rs -> all_errors rs = a ++ e :: b ++ e' :: d -> show_error (TokenizerError e) <> show_error (TokenizerError e').
Proof.
  intros T E H. cbn [show_error] in H. apply app_inv_head, tokenizer_error_inj in H. destruct H as (_ & [[L C] _]).
  pose proof (errors_in_source_order _ _ _ _ _ _ _ _ T E) as O.
  assert (I : In e (all_errors rs)) by (rewrite E; apply in_elt). assert (I' : In e' (all_errors rs)) by (rewrite E, app_comm_cons, app_assoc; apply in_elt).
  destruct (error_bytes _ _ _ _ T I) as [B _]. destruct (error_ranges _ _ _ _ T I) as (x & y & z & -> & _ & R). destruct (error_ranges _ _ _ _ T I') as (x' & y' & z' & S & _ & R'). rewrite R, R' in *. cbn [fst snd] in *.
  pose proof (positions_compared x (y ++ z) x' (y' ++ z') S) as P. destruct (compare_position (pos_of x) (pos_of x')).
  - subst x'. lia.
  - unfold above in P. lia.
  - unfold above in P. lia.
Qed.
