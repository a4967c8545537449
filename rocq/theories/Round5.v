(** Parsing undoes printing (C48): simple types, unions and intersections. *)
From Verif Require Import LexerSpec LexerStep PunctuatedProofs.
From Verif Require Export Round4.
From Coq Require Import Lia.
Local Open Scope nat_scope.
Import ListNotations.

(** ** Simple types *)
Lemma typeof_test r : word (str "typeof") r -> text_eqb (show_token (r_token r)) (str "typeof") = true.
Proof. unfold word, show_token. intros ->. reflexivity. Qed.
Lemma not_typeof r : nm r -> ~ word (str "typeof") r -> text_eqb (show_token (r_token r)) (str "typeof") = false.
Proof.
  intros N H. destruct (text_eqb _ _) eqn:E; [|reflexivity]. exfalso. apply H. unfold word. apply text_eqb_eq in E. unfold show_token, terminal_of in *.
  destruct (t_type (r_token r)); try discriminate. cbn in E. now rewrite E.
Qed.
Lemma test_interpolated x r : terminal_of r = x -> x <> TOther -> is_interpolated r = false.
Proof. unfold terminal_of, is_interpolated. intros <-. destruct (t_type (r_token r)); congruence. Qed.
Ltac noint := repeat match goal with |- context [is_interpolated ?r] => replace (is_interpolated r) with false by (symmetry; eapply test_interpolated; [eassumption|discriminate]) end.
Lemma rt_by_function c p style t k : gives (expect_function_type c p style) (printed t ++ k) (Some t) k -> (exists r l, printed t = r :: l /\ (sy r SLeftParen \/ sy r SLessThan)) ->
  gives (parse_simple_type c p style) (printed t ++ k) (Value t) k.
Proof. intros X (r & l & E & R). unfold parse_simple_type. rewrite E in *. cbn [app] in *. destruct R as [R|R]; rsteps; noint; rsteps; (eapply run_gives; [exact X|]); rsteps; auto. Qed.
Lemma callback_first c g a b l w u : optional (generics c false) g -> sy a SLeftParen ->
  exists r m, printed (Nd KTypeCallback [g; between a b; listing l; Tok w; u]) = r :: m /\ (sy r SLeftParen \/ sy r SLessThan).
Proof. intros [|y O] A; spell; [eauto|]. inversion O; subst. spell. eauto. Qed.
Lemma rt_closed c p style t k : good c p -> has_luau c = true -> closed_type c t -> follows k (simple_end (ends_in_type_name t)) -> gives (parse_simple_type c p style) (printed t ++ k) (Value t) k.
Proof.
  intros G L H (r0 & k0 & -> & K). inversion H; subst;
    try (match goal with |- context [KTypeCallback] => idtac end; apply rt_by_function; [apply rt_closed_function; try assumption; eapply end_false; apply follows_here; exact K|now apply (callback_first c)]).
  all: cbn [ends_in_type_name ends_in_expression andb] in K; repeat match goal with N : nm ?r |- _ => rewrite N in K; revert N end; intros.
  all: try match goal with S : _ \/ _ |- _ => destruct S; subst end; spell; unfold parse_simple_type; rsteps; noint; rsteps.
  - auto.
  - rewrite not_typeof by assumption. rsteps. auto.
  - auto.
  - auto.
  - auto.
  - match goal with W : word _ _ |- _ => pose proof (word_name _ _ W) end. rsteps. noint. rsteps. rewrite typeof_test by assumption. rsteps.
    eapply run_gives; [apply (g_exp _ _ G); [eassumption|es]|]. rsteps. auto.
  - rewrite not_typeof by assumption. rsteps. unfold parse_name. rsteps. auto.
  - rewrite not_typeof by assumption. rsteps. unfold parse_name. rsteps. eapply run_gives; [eapply rt_arguments; eassumption|]. rsteps. auto.
  - rewrite not_typeof by assumption. rsteps. eapply run_gives; [eapply rt_arguments; eassumption|]. rsteps. auto.
  - eapply run_gives; [eapply rt_table; eassumption|]. rsteps. auto.
  - eapply run_gives; [apply (rt_array c p a none t0 b (r0 :: k0) G L); [assumption..|left; split; [reflexivity|assumption]]|]. rsteps. auto.
  - eapply run_gives; [apply (rt_array c p a (some (Tok r)) t0 b (r0 :: k0) G L); [assumption..|right; exists r; split; [reflexivity|assumption]]|]. rsteps. auto.
  - pose proof (rt_tuple c p style a [final t0] b (r0 :: k0) G L H0 (tp_some c _ (tp_last c _ H2)) H1 (or_intror (ex_intro _ t0 (conj eq_refl (type_not_variadic c t0 H2)))) ltac:(fo)) as X.
    revert X. spell. intros X. eapply run_gives; [exact X|]. rsteps. auto.
  - pose proof (rt_tuple c p style a [final (Nd KTypeGenericPack [Tok n; Tok d])] b (r0 :: k0) G L H0 (tp_some c _ (tp_pack c _ (pk_generic c n d H2 H3))) H1 (or_intror (ex_intro _ _ (conj eq_refl eq_refl))) ltac:(fo)) as X.
    revert X. spell. intros X. eapply run_gives; [exact X|]. rsteps. auto.
Qed.

Lemma rt_simple c p style t k : good c p -> has_luau c = true -> function_type c t -> follows k (type_end (ends_in_type_name t)) ->
  gives (parse_simple_type c p style) (printed t ++ k) (Value t) k.
Proof.
  intros G L H K. apply rt_by_function; [now apply rt_function|]. inversion H; subst. now apply (callback_first c).
Qed.
Lemma rt_simple_tuple c p t k : good c p -> has_luau c = true -> tuple c t -> follows k (simple_end false) -> gives (parse_simple_type c p AllowPack) (printed t ++ k) (Value t) k.
Proof.
  intros G L H K. inversion H; subst. apply rt_by_function; [|spell; eauto]. spell. apply rt_tuple; auto.
Qed.

(** ** Unions and intersections *)

(** [rest] is question marks; together with [x] they are [t]. *)
Inductive wrapped : tree -> list tokref -> tree -> Prop :=
| wr_here t : wrapped t [] t
| wr_more x q rest t : sy q SQuestionMark -> wrapped (Nd KTypeOptional [x; Tok q]) rest t -> wrapped x (q :: rest) t.
Lemma wrapped_app x rest t q : wrapped x rest t -> sy q SQuestionMark -> wrapped x (rest ++ [q]) (Nd KTypeOptional [t; Tok q]).
Proof. intros W Q. induction W; cbn [app]; constructor; auto. constructor. Qed.
Lemma member_wrapped c t : member c t -> exists x rest, closed_type c x /\ wrapped x rest t /\ printed t = printed x ++ rest.
Proof.
  induction 1 as [t H|t q M (x & rest & C & W & E) Q].
  - exists t, []. repeat split; [assumption|constructor|now rewrite app_nil_r].
  - exists x, (rest ++ [q]). repeat split; [assumption|now apply wrapped_app|]. spell. now rewrite E, <- app_assoc.
Qed.
Definition part (c : cfg) (u : bool) (t : tree) : Prop :=
  exists x rest, closed_type c x /\ wrapped x rest t /\ printed t = printed x ++ rest /\ (u = false -> rest = []).
Definition sep_of (u : bool) : symbol := if u then SPipe else SAmpersand.
Lemma ending_weaken (P P' Q Q' : tree -> Prop) s l : (forall t, P t -> P' t) -> (forall t, Q t -> Q' t) -> ending P Q s l -> ending P' Q' s l.
Proof. intros A B. induction 1; constructor; auto. Qed.
Lemma union_parts c l : ending (member c) (last_member c) SPipe l -> ending (part c true) (fun t => part c true t \/ function_type c t) SPipe l.
Proof.
  assert (X : forall t, member c t -> part c true t). { intros t H. apply member_wrapped in H as (x & rest & A & B & E). exists x, rest. repeat split; auto. discriminate. }
  apply ending_weaken; [assumption|]. intros t []; auto.
Qed.
Lemma intersection_parts c l : ending (closed_type c) (simple_type c) SAmpersand l -> ending (part c false) (fun t => part c false t \/ function_type c t) SAmpersand l.
Proof.
  assert (X : forall t, closed_type c t -> part c false t). { intros t H. exists t, []. repeat split; auto; [constructor|now rewrite app_nil_r]. }
  apply ending_weaken; [assumption|]. intros t []; auto.
Qed.

Definition suffix_loop (c : cfg) (p : parsers) (leading : option tokref) :=
  loop (A := punctuated tree * option tree * bool * bool) (B := pres tree + (punctuated tree * bool * bool)) (fun '(types, current_type, is_union, is_intersection) =>
    let! r := match current_type with Some t => ret (Value t) | None => parse_simple_type c p Default end in
    match r with
    | Value type_info =>
        let! o := current in
        match o with
        | None => ret (inr (inr (p_push types (End type_info), is_union, is_intersection)))
        | Some t =>
            if is_symbol t SQuestionMark then
              if is_intersection then
                token_error t (str "cannot mix union and intersection types") ;; ret (inr (inl LexerMoved))
              else
                let! question_mark := take in
                ret (inl (types, Some (Nd KTypeOptional [type_info; Tok question_mark]), true, is_intersection))
            else if is_symbol t SPipe then
              if is_intersection then
                token_error t (str "cannot mix union and intersection types") ;; ret (inr (inl LexerMoved))
              else
                let! pipe := take in
                ret (inl (p_push types (pair_new type_info (Some pipe)), None, true, is_intersection))
            else if is_symbol t SAmpersand then
              if is_union then
                token_error t (str "cannot mix union and intersection types") ;; ret (inr (inl LexerMoved))
              else
                let! ampersand := take in
                ret (inl (p_push types (pair_new type_info (Some ampersand)), None, is_union, true))
            else if p_is_empty types && (match leading with None => true | Some _ => false end) then ret (inr (inl (Value type_info)))
            else ret (inr (inr (p_push types (End type_info), is_union, is_intersection)))
        end
    | _ => ret (inr (inl LexerMoved))
    end).
Definition parts (c : cfg) (u : bool) : list tree -> Prop := ending (part c u) (fun t => part c u t \/ function_type c t) (sep_of u).
(** [todo] starts with [t], and [tail] is what comes after it. *)
Definition goes_with (c : cfg) (u : bool) (k : list tokref) (t : tree) (todo : list tree) (tail : list tokref) : Prop :=
  todo = [final t] /\ tail = k \/ exists d l, todo = followed t d :: l /\ sy d (sep_of u) /\ parts c u l /\ tail = d :: flat_map printed l ++ k.
Definition suffix_state (c : cfg) (u : bool) (leading : option tokref) (L : list tree) (k : list tokref) : punctuated tree * option tree * bool * bool -> list tokref -> Prop :=
  fun '(types, cur, iu, ii) ts => exists todo, trees types ++ todo = L /\ ends_in_type_name (listing todo) = ends_in_type_name (listing L) /\
    (iu = u /\ ii = negb u \/ iu = false /\ ii = false /\ trees types = [] /\ leading = None) /\
    (cur = None /\ parts c u todo /\ ts = flat_map printed todo ++ k \/
     exists x rest t tail, cur = Some x /\ wrapped x rest t /\ (u = false -> rest = []) /\ ts = rest ++ tail /\ goes_with c u k t todo tail).
Lemma parts_goes c u l k : parts c u l -> follows k (type_end (ends_in_type_name (listing l))) ->
  exists t tail, flat_map printed l ++ k = printed t ++ tail /\ (part c u t \/ function_type c t /\ follows tail (type_end (ends_in_type_name t))) /\ follows tail (fun x => term_symbol x (sep_of u) || type_end (ends_in_type_name t) x) /\
    goes_with c u k t l tail.
Proof.
  intros T K. destruct T as [t T|t d l T D T1].
  - exists t, k. split; [spell; reflexivity|]. change (follows k (type_end (ends_in_type_name t))) in K. split; [destruct T; auto|]. split; [|now left]. eapply follows_weaken; [|exact K]. intros x ->. apply orb_true_r.
  - exists t, (d :: flat_map printed l ++ k). split; [spell; reflexivity|]. split; [auto|]. split; [|right; eauto 6]. apply follows_here. rewrite D. cbn [term_symbol]. unfold symbol_eqb. now destruct (symbol_eq_dec (sep_of u) (sep_of u)).
Qed.
Lemma sep_simple u n x : term_symbol x (sep_of u) || type_end n x = true -> simple_end n x = true.
Proof. intros H. apply orb_true_iff in H as [H|H]; [|now apply type_end_simple]. destruct u, x as [| | |[]|]; cbn in *; congruence. Qed.
Lemma goes_rest c u x l : parts c u l -> ends_in_type_name (listing (x :: l)) = ends_in_type_name (listing l).
Proof. now destruct 1. Qed.
Lemma run_suffix_loop c p u leading L k st ts : good c p -> has_luau c = true -> follows k (type_end (ends_in_type_name (listing L))) -> suffix_state c u leading L k st ts ->
  run (suffix_loop c p leading st) ts (fun r s => s = k /\
    ((exists t, leading = None /\ L = [final t] /\ r = inl (Value t)) \/
     (exists types, (leading = None -> forall t, L <> [final t]) /\ r = inr (types, u, negb u) /\ trees types = L))).
Proof.
  intros G LU K H. apply (run_loop (suffix_state c u leading L k)); [assumption|]. clear H st ts.
  intros (((types & cur) & iu) & ii) ts (todo & E & EN & FL & S). cbv beta iota.
  (* after the first part is read *)
  match goal with |- run (bind _ ?f) _ ?Q =>
    assert (X : forall x rest t tail, wrapped x rest t -> (u = false -> rest = []) -> goes_with c u k t todo tail ->
      run (f (Value x)) (rest ++ tail) Q) end.
  { intros x rest t tail W U TL. cbv iota. destruct W as [t|x q rest t Q W]; cbn [app].
    - destruct TL as [(-> & ->)|(d & l & -> & D & T1 & ->)].
      + destruct K as (r & k' & -> & K). rsteps. unfold p_is_empty, p_len. destruct (pairs types) as [|y ys] eqn:EP; cbn [List.length Nat.eqb andb].
        * unfold trees in E, FL. rewrite EP in E, FL. cbn [map app] in E, FL. destruct leading as [d|]; rsteps; (split; [reflexivity|]).
          -- right. eexists. split; [easy|]. destruct FL as [(-> & ->)|(_ & _ & _ & Z)]; [|discriminate]. split; [reflexivity|]. rewrite trees_end. unfold trees. rewrite EP. assumption.
          -- left. eauto.
        * rsteps. split; [reflexivity|]. right. eexists. unfold trees in E, FL. rewrite EP in E, FL. destruct FL as [(-> & ->)|(_ & _ & Z & _)]; [|discriminate]. split; [|split; [reflexivity|]].
          -- intros _ t0. rewrite <- E. cbn [map app]. intros Z. injection Z as _ Z. destruct (map _ ys); discriminate.
          -- rewrite trees_end. unfold trees. now rewrite EP.
      + rewrite (goes_rest c u _ l T1) in EN. destruct u; cbn [sep_of negb] in *; rsteps.
        * assert (EI : ii = false) by (destruct FL as [(_ & ->)|(_ & -> & _)]; reflexivity). rewrite EI. rsteps. exists l. cbn [pair_new]. rewrite trees_followed, <- app_assoc. repeat split; auto.
        * assert (EI : iu = false) by (destruct FL as [(-> & _)|(-> & _ & _)]; reflexivity). rewrite EI. rsteps. exists l. cbn [pair_new]. rewrite trees_followed, <- app_assoc. repeat split; auto.
    - destruct u; [|discriminate (U eq_refl)]. rsteps. assert (EI : ii = false) by (destruct FL as [(_ & ->)|(_ & -> & _)]; reflexivity). rewrite EI. rsteps.
      exists todo. repeat split; auto. right. exists (Nd KTypeOptional [x; Tok q]), rest, t, tail. repeat split; auto. discriminate. }
  destruct S as [(-> & T & ->)|(x & rest & t & tail & -> & W & U & -> & TL)]; [|rstep; rstep; now apply X with t].
  apply run_bind. rewrite <- EN in K. destruct (parts_goes c u todo k T K) as (t & tail & -> & P & R & TL). destruct P as [(x & rest & C & W & -> & U)|(FT & FK)].
  - rewrite <- app_assoc. eapply run_gives; [apply rt_closed; [eassumption..|]|now apply X with t]. destruct W as [t|x q rest t Q W]; cbn [app].
    + eapply follows_weaken; [|exact R]. intros y. apply sep_simple.
    + fo.
  - eapply run_gives; [apply rt_simple; eassumption|]. change tail with ([] ++ tail). apply X with t; auto. constructor.
Qed.

Definition whole (u : bool) (o : tree) (l : list tree) : tree :=
  if u then Nd KTypeUnionV [Nd KTypeUnion [o; listing l]] else Nd KTypeIntersectionV [Nd KTypeIntersection [o; listing l]].
Lemma suffix_unfold c p o : parse_type_suffix c p o =
  (let! start :=
    (match o with
     | Some _ => ret (None, false, false)
     | None =>
         let! o := current in
         match o with
         | None => panic
         | Some t =>
             if is_symbol t SPipe then let! t := take in ret (Some t, true, false)
             else if is_symbol t SAmpersand then let! t := take in ret (Some t, false, true)
             else panic
         end
     end) in
  let '(leading, is_union, is_intersection) := start in
  let! r := suffix_loop c p leading (p_new, o, is_union, is_intersection) in
  match r with
  | inl r => ret r
  | inr (types, true, false) => ret (Value (Nd KTypeUnionV [Nd KTypeUnion [opt_tok leading; puncts types]]))
  | inr (types, false, true) => ret (Value (Nd KTypeIntersectionV [Nd KTypeIntersection [opt_tok leading; puncts types]]))
  | inr _ => panic
  end).
Proof. reflexivity. Qed.
Definition joined (u : bool) (l : list tree) : tree := match l with [Con CEnd [t]] => t | _ => whole u none l end.
Lemma rt_suffix_from c p u x rest t tail l k : good c p -> has_luau c = true -> wrapped x rest t -> (u = false -> rest = []) -> goes_with c u k t l tail ->
  follows k (type_end (ends_in_type_name (listing l))) -> gives (parse_type_suffix c p (Some x)) (rest ++ tail) (Value (joined u l)) k.
Proof.
  intros G L W U TL K. rewrite suffix_unfold. rsteps. eapply run_conseq; [apply (run_suffix_loop c p u None l k); try eassumption|].
  - exists l. cbn [trees p_new pairs map app]. repeat split; auto. right. exists x, rest, t, tail. auto.
  - intros r0 s (-> & [(t0 & _ & -> & ->)|(types & N & -> & E)]); cbv beta iota; [rsteps; auto|].
    assert (EL2 : joined u l = whole u none l).
    { destruct l as [|y l]; [reflexivity|]. destruct y as [|cc cs|]; try reflexivity. destruct cc; try reflexivity. destruct cs as [|z [|]]; try reflexivity. destruct l; [|reflexivity]. exfalso. now apply (N eq_refl z). }
    rewrite EL2. unfold whole. destruct u; cbn [negb]; apply run_ret; rewrite trees_puncts, E; auto.
Qed.
Lemma rt_suffix c p u l k : good c p -> has_luau c = true -> parts c u l -> follows k (type_end (ends_in_type_name (listing l))) ->
  exists x S, flat_map printed l ++ k = printed x ++ S /\ (closed_type c x /\ follows S (simple_end (ends_in_type_name x)) \/ function_type c x /\ follows S (type_end (ends_in_type_name x))) /\
    gives (parse_type_suffix c p (Some x)) S (Value (joined u l)) k.
Proof.
  intros G L H K. destruct (parts_goes c u l k H K) as (t & tail & -> & P & R & TL).
  destruct P as [(x & rest & C & W & E & U)|(FT & FK)].
  - exists x, (rest ++ tail). rewrite E, <- app_assoc. split; [reflexivity|]. split; [|now apply rt_suffix_from with t]. left. split; [assumption|]. destruct W as [t|x q rest t Q W]; cbn [app]; [|fo].
    eapply follows_weaken; [|exact R]. intros y. apply sep_simple.
  - exists t, tail. split; [reflexivity|]. split; [auto|]. change tail with ([] ++ tail). apply rt_suffix_from with t; auto. constructor.
Qed.
Lemma rt_leading c p u d l k : good c p -> has_luau c = true -> sy d (sep_of u) -> parts c u l -> follows k (type_end (ends_in_type_name (listing l))) ->
  gives (parse_type_suffix c p None) (d :: flat_map printed l ++ k) (Value (whole u (some (Tok d)) l)) k.
Proof.
  intros G L D H K. rewrite suffix_unfold. destruct u; cbn [sep_of] in D; rsteps.
  - eapply run_conseq; [apply (run_suffix_loop c p true (Some d) l k); try eassumption|].
    + exists l. cbn [trees p_new pairs map app]. repeat split; auto.
    + intros r s (-> & [(t & Z & _)|(types & _ & -> & E)]); [discriminate|]. rsteps. rewrite trees_puncts, E. auto.
  - eapply run_conseq; [apply (run_suffix_loop c p false (Some d) l k); try eassumption|].
    + exists l. cbn [trees p_new pairs map app]. repeat split; auto.
    + intros r s (-> & [(t & Z & _)|(types & _ & -> & E)]); [discriminate|]. rsteps. rewrite trees_puncts, E. auto.
Qed.
Lemma plain_parts c t : plain_type c t -> exists u l, parts c u l /\ t = joined u l /\ printed t = flat_map printed l /\ ends_in_type_name t = ends_in_type_name (listing l).
Proof.
  intros [x H|x l H N|x l H N].
  - exists true, [final x]. split; [|split; [reflexivity|split; [spell; reflexivity|reflexivity]]]. apply union_parts. now constructor.
  - exists true, (x :: l). split; [now apply union_parts|]. split; [|split; [spell; reflexivity|reflexivity]]. destruct l; [easy|]. destruct x as [|cc cs|]; try reflexivity. destruct cc; try reflexivity. destruct cs as [|? [|]]; reflexivity.
  - exists false, (x :: l). split; [now apply intersection_parts|]. split; [|split; [spell; reflexivity|reflexivity]]. destruct l; [easy|]. destruct x as [|cc cs|]; try reflexivity. destruct cc; try reflexivity. destruct cs as [|? [|]]; reflexivity.
Qed.
(** A type without a leading separator. *)
Lemma rt_plain c p style t k : good c p -> has_luau c = true -> plain_type c t -> follows k (type_end (ends_in_type_name t)) ->
  exists x S, gives (parse_simple_type c p style) (printed t ++ k) (Value x) S /\ gives (parse_type_suffix c p (Some x)) S (Value t) k /\ (closed_type c x \/ function_type c x).
Proof.
  intros G L H K. apply plain_parts in H as (u & l & H & -> & -> & EN). rewrite EN in K. destruct (rt_suffix c p u l k G L H K) as (x & S & -> & X & R). exists x, S. split; [|split; [assumption|tauto]].
  destruct X as [(C & F)|(C & F)]; [now apply rt_closed|]. apply rt_simple; auto.
Qed.
Lemma rt_parse_type c p t k : good c p -> has_luau c = true -> type c t -> follows k (type_end (ends_in_type_name t)) -> gives (parse_type c p) (printed t ++ k) (Value t) k.
Proof.
  intros G L H K. unfold parse_type. destruct H as [t H|d l D H|d l D H].
  - destruct (rt_plain c p Default t k G L H K) as (x & S & A & B & _). pose proof (lead_plain c t H) as (r & m & E & F & _). rewrite E in *. cbn [app] in *. rsteps.
    eapply run_gives; [exact A|]. exact B.
  - spell. rsteps. apply (rt_leading c p true); auto. now apply union_parts.
  - spell. rsteps. apply (rt_leading c p false); auto. now apply intersection_parts.
Qed.
Lemma pack_tuple_tuple c t : pack_tuple c t -> tuple c t.
Proof. intros [a b d x A B D X]. constructor; auto; [apply tp_some, tp_pack; now constructor|]. intros y [= <-]. now constructor. Qed.
Lemma pack_wrapped c t : pack_member c t -> exists x rest, pack_tuple c x /\ wrapped x rest t /\ printed t = printed x ++ rest.
Proof.
  induction 1 as [t H|t q M (x & rest & C & W & E) Q].
  - exists t, []. repeat split; [assumption|constructor|now rewrite app_nil_r].
  - exists x, (rest ++ [q]). repeat split; [assumption|now apply wrapped_app|]. spell. now rewrite E, <- app_assoc.
Qed.
Lemma pack_result_parts c t k : pack_result c t -> follows k (type_end (ends_in_type_name t)) -> exists u l x rest y tail, t = joined u l /\ pack_tuple c x /\ wrapped x rest y /\ (u = false -> rest = []) /\ goes_with c u k y l tail /\
  printed t ++ k = printed x ++ rest ++ tail /\ follows (rest ++ tail) (simple_end false) /\ follows k (type_end (ends_in_type_name (listing l))).
Proof.
  intros H K. assert (Z : follows k (simple_end false)) by (eapply end_false, end_simple; exact K).
  assert (Y : forall x rest y tail, wrapped x rest y -> follows tail (simple_end false) -> follows (rest ++ tail) (simple_end false)).
  { intros x rest y tail W F. destruct W; [exact F|]. cbn [app]. fo. }
  destruct H as [y M|y d l M D P|y d l M D P].
  - destruct (pack_wrapped c y M) as (x & rest & C & W & E). exists true, [final y], x, rest, y, k. split; [reflexivity|]. split; [assumption|]. split; [assumption|]. split; [discriminate|]. split; [now left|].
    split; [now rewrite E, <- app_assoc|]. split; [eapply Y; eassumption|exact K].
  - destruct (pack_wrapped c y M) as (x & rest & C & W & E). exists true, (followed y d :: l), x, rest, y, (d :: flat_map printed l ++ k). split; [reflexivity|]. split; [assumption|]. split; [assumption|]. split; [discriminate|].
    split; [right; exists d, l; repeat split; auto; now apply union_parts|]. split; [spell; now rewrite E, <- ?app_assoc|]. split; [eapply Y; [eassumption|fo]|exact K].
  - exists false, (followed y d :: l), y, [], y, (d :: flat_map printed l ++ k). split; [reflexivity|]. split; [assumption|]. split; [constructor|]. split; [reflexivity|].
    split; [right; exists d, l; repeat split; auto; now apply intersection_parts|]. split; [spell; now rewrite <- ?app_assoc|]. split; [cbn [app]; fo|exact K].
Qed.
Lemma rt_type_or_pack c p t k : good c p -> has_luau c = true -> bare_result c t -> follows k (type_end (ends_in_type_name t)) -> gives (parse_type_or_pack c p) (printed t ++ k) (Value t) k.
Proof.
  intros G L H K. unfold parse_type_or_pack. apply run_bind. destruct H as [H|[H|H]].
  - destruct (rt_plain c p AllowPack t k G L H K) as (x & S & A & B & C). eapply run_gives; [exact A|]. cbv iota. destruct C as [C|C]; inversion C; subst; exact B.
  - eapply run_gives; [apply rt_simple_tuple; auto; eapply end_false, end_simple; exact K|]. cbv iota. inversion H as [a b l A B T P]; subst. destruct (Nat.eqb (List.length l) 1); cbn [negb]; [|apply run_ret; auto].
    rewrite suffix_unfold. rsteps. unfold suffix_loop.
    eapply run_conseq with (P := fun r s => r = inl (Value (Nd KTypeTuple [between a b; listing l])) /\ s = k).
    + apply (run_loop (fun x s => x = (p_new, Some (Nd KTypeTuple [between a b; listing l]), false, false) /\ s = k)); [auto|]. intros x s (-> & ->). cbv beta iota.
      destruct K as (r & k' & -> & K). rsteps. cbn. rsteps. auto.
    + intros r s (-> & ->). rsteps. auto.
  - destruct (pack_result_parts c t k H K) as (u & l & x & rest & y & tail & -> & C & W & U & TL & -> & F & K'). eapply run_gives; [apply rt_simple_tuple; auto; now apply pack_tuple_tuple|]. cbv iota.
    inversion C; subst. cbn [List.length Nat.eqb negb]. eapply rt_suffix_from; eassumption.
Qed.
Lemma rt_long_tuple c p a b l k : good c p -> has_luau c = true -> sy a SLeftParen -> sy b SRightParen -> types_then_pack c l -> List.length l <> 1 -> follows k (simple_end false) ->
  gives (parse_type_or_pack c p) (a :: flat_map printed l ++ b :: k) (Value (Nd KTypeTuple [between a b; listing l])) k.
Proof.
  intros G L A B T N K. unfold parse_type_or_pack. apply run_bind.
  assert (E : a :: flat_map printed l ++ b :: k = printed (Nd KTypeTuple [between a b; listing l]) ++ k) by (spell; reflexivity). rewrite E.
  eapply run_gives; [apply rt_by_function; [rewrite <- E; apply (rt_tuple c); auto|spell; eauto]|]. cbv iota. apply Nat.eqb_neq in N. rewrite N. apply run_ret. auto.
Qed.
Lemma rt_instantiation c p i k : good c p -> instantiation c i -> exists a rest, printed i ++ k = a :: rest /\ sy a SLessThan /\ gives (expect_type_instantiation p a) rest (Some i) k.
Proof.
  intros G H. inversion H; subst. spell. eexists _, _. split; [reflexivity|]. split; [assumption|]. unfold expect_type_instantiation. rsteps.
  eapply run_gives; [eapply rt_arguments; eassumption|]. rsteps. auto.
Qed.
