(** What is parsed without an error in Luau is a tree of the tree grammar: the types themselves. *)
From Verif Require Import LexerSpec PunctuatedProofs.
From Verif Require LexerStep.
From Verif Require Export Sound3.
From Coq Require Import Lia.
Local Open Scope nat_scope.
Import ListNotations.

(** ** Simple types *)
Lemma typeof_word r : is_identifier r = true -> text_eqb (show_token (r_token r)) (str "typeof") = true -> word (str "typeof") r.
Proof. unfold is_identifier, word, show_token. destruct (t_type (r_token r)); try discriminate. intros _ X. apply LexerStep.text_eqb_eq in X. cbn in X. now rewrite X. Qed.
Lemma not_typeof r : text_eqb (show_token (r_token r)) (str "typeof") = false -> ~ word (str "typeof") r.
Proof. unfold word, show_token. intros X Y. rewrite Y in X. discriminate. Qed.
Lemma simple_closed c ts y t ts' : closed_type c t -> begins ts t -> name_free t ts' -> simple_post c ts y (Value t) ts'.
Proof. intros. split; [|split]; auto. Qed.
Lemma j_simple_type c p y ts : jgood c p -> reals ts -> E (parse_simple_type c p y) ts (held (vw tw) ts 0 (simple_post c ts y)).
Proof.
  jbegin. unfold parse_simple_type. jgo; try match goal with |- context [match ?a with Some _ => Value _ | None => _ end] => destruct a end; jend; try exact I; bools; try assumption.
  - apply simple_closed; [apply st_nil; auto with jtree|jbegins|]. apply no_word. cbn. now rewrite (sym_eq _ _ X).
  - apply simple_closed; [|jbegins|apply no_word; reflexivity]. apply orb_true_iff in X0 as [X0|X0]; [apply (st_boolean c t STrue)|apply (st_boolean c t SFalse)]; auto with jtree.
  - apply simple_closed; [|jbegins|apply no_word; reflexivity]. apply st_string; auto with jtree.
  - apply simple_closed; [|jbegins|apply no_word; reflexivity]. apply st_typeof; auto using typeof_word with jtree.
  - match goal with H : arguments_post _ _ _ _ |- _ => destruct H as (? & ? & H & ? & ?); injection H as -> -> end.
    apply simple_closed; [|jbegins|apply no_word; reflexivity]. apply st_module_generic; auto using not_typeof with jtree.
  - apply simple_closed; [|jbegins|]. { apply st_module; auto using not_typeof with jtree. } intros _. assumption.
  - match goal with H : arguments_post _ _ _ _ |- _ => destruct H as (? & ? & H & ? & ?); injection H as -> -> end.
    apply simple_closed; [|jbegins|apply no_word; reflexivity]. apply st_generic; auto using not_typeof with jtree.
  - apply simple_closed; [|jbegins|]. { apply st_name; auto using not_typeof with jtree. } intros _. assumption.
  - now apply simple_closed.
Qed.
#[export] Hint Resolve j_simple_type : jspec.

(** ** Unions and intersections *)
Definition first_item (y : type_style) (leading : option tokref) (l : list (pair_of tree)) : Prop := y = AllowPack /\ leading = None /\ l = [].
Definition simple_item (c : cfg) (y : type_style) (leading : option tokref) (l : list (pair_of tree)) (t : tree) (ts : list tokref) : Prop :=
  name_free t ts /\ (closed_type c t \/ function_type c t /\ quiet ts \/ first_item y leading l /\ pack_tuple c t).
Definition union_item (c : cfg) (y : type_style) (leading : option tokref) (l : list (pair_of tree)) (t : tree) (ts : list tokref) : Prop :=
  name_free t ts /\ (member c t \/ function_type c t /\ quiet ts \/ first_item y leading l /\ pack_member c t).
(** What was parsed before: [F] for the first one of a list without a leading symbol, [P] for all others. *)
Inductive chained (y : type_style) (s : symbol) (F P : tree -> Prop) : option tokref -> list (pair_of tree) -> Prop :=
| ch_leading d : sy d s -> chained y s F P (Some d) []
| ch_none : chained y s F P None []
| ch_first t d : y = AllowPack -> F t -> sy d s -> chained y s F P None [Punctuated t d]
| ch_more x l t d : chained y s F P x l -> P t -> sy d s -> chained y s F P x (l ++ [Punctuated t d]).
Lemma chained_ending y s F P (Q : tree -> Prop) x l t : chained y s F P x l -> Q t ->
  ending P Q s (map (pair_tree (fun t => t)) l ++ [final t]) \/
  (x = None /\ y = AllowPack /\ exists u d m, F u /\ sy d s /\ ending P Q s m /\ map (pair_tree (fun t => t)) l ++ [final t] = followed u d :: m).
Proof.
  intros H. revert t. enough (X : forall m, ending P Q s m -> ending P Q s (map (pair_tree (fun t => t)) l ++ m) \/
    (x = None /\ y = AllowPack /\ exists u d m', F u /\ sy d s /\ ending P Q s m' /\ map (pair_tree (fun t => t)) l ++ m = followed u d :: m')) by (intros t Ht; apply X; now constructor).
  induction H as [d D| |t d Y HF D|x l t d H IH HP D]; intros m Hm; [now left|now left| |].
  - right. split; [reflexivity|]. split; [assumption|]. exists t, d, m. auto.
  - rewrite map_app, <- app_assoc. apply IH. cbn. now apply en_more.
Qed.
Lemma chained_leading y s F P x l d : chained y s F P x l -> x = Some d -> sy d s.
Proof. intros H. induction H; try discriminate; [now intros [= <-]|auto]. Qed.
Lemma name_free_list k k' x l t ts : (k, k') = (KTypeUnionV, KTypeUnion) \/ (k, k') = (KTypeIntersectionV, KTypeIntersection) -> name_free t ts ->
  name_free (Nd k [Nd k' [x; Con CPunctuated (map (pair_tree (fun t => t)) (l ++ [End t]))]]) ts.
Proof.
  intros K H X. apply H. clear H. rewrite map_app in X. cbn [map pair_tree] in X.
  assert (Y : forall m, (fix last_one (l : list tree) : bool := match l with [] => false | [x] => ends_in_type_name x | _ :: l => last_one l end) (m ++ [Con CEnd [t]]) = ends_in_type_name t).
  { intros m. induction m as [|y m IH]; [reflexivity|]. cbn [app]. destruct (m ++ [Con CEnd [t]]) eqn:Z; [now destruct m|]. exact IH. }
  rewrite <- (Y (map (pair_tree (fun t => t)) l)). destruct K as [K|K]; injection K as -> ->; exact X.
Qed.

Definition suffix_state : Type := punctuated tree * option tree * bool * bool.
Definition state_w (leading : option tokref) (x : suffix_state) : nat := ow wt leading + lw tw (fst (fst (fst x))) + ow tw (snd (fst (fst x))).
Definition state_ok (c : cfg) (y : type_style) (leading : option tokref) (x : suffix_state) (ts : list tokref) : Prop :=
  let '(types, cur, u, i) := x in
  match u, i with
  | false, false => leading = None /\ pairs types = [] /\ exists t, cur = Some t /\ simple_item c y leading (pairs types) t ts
  | true, false => chained y SPipe (pack_member c) (member c) leading (pairs types) /\ match cur with Some t => union_item c y leading (pairs types) t ts | None => True end
  | false, true => chained y SAmpersand (pack_tuple c) (closed_type c) leading (pairs types) /\ cur = None
  | true, true => False
  end.
(** The tokens that were read so far. *)
Definition state_tokens (leading : option tokref) (x : suffix_state) : list tokref :=
  match leading with Some d => [d] | None => [] end ++ printed (puncts (fst (fst (fst x)))) ++ match snd (fst (fst x)) with Some t => printed t | None => [] end.
Definition end_w (leading : option tokref) (r : pres tree + punctuated tree * bool * bool) : nat :=
  match r with inl r => vw tw r | inr (types, _, _) => ow wt leading + lw tw types end.
Definition full_post (c : cfg) (y : type_style) (x : option tokref) (r : pres tree) (ts : list tokref) : Prop :=
  match r with
  | Value t => (type c t \/ y = AllowPack /\ result_type c t) /\ (y = AllowPack -> result_type c t) /\ (is_tuple t = true -> default_pack c t) /\ hd_error (printed t) = x /\ quiet ts /\ name_free t ts
  | _ => True
  end.

Definition start_ok (c : cfg) (y : type_style) (simple : option tree) (ts : list tokref) : Prop :=
  match simple with Some t => simple_item c y None [] t ts /\ printed t <> [] | None => y = Default end.
Definition start_first (simple : option tree) (ts : list tokref) : option tokref := match simple with Some t => hd_error (printed t) | None => hd_error ts end.
Definition item_ok (c : cfg) (y : type_style) (leading : option tokref) (types : punctuated tree) (u i : bool) (t : tree) (ts : list tokref) : Prop :=
  match u, i with
  | false, false => leading = None /\ pairs types = [] /\ simple_item c y leading (pairs types) t ts
  | true, false => chained y SPipe (pack_member c) (member c) leading (pairs types) /\ union_item c y leading (pairs types) t ts
  | false, true => chained y SAmpersand (pack_tuple c) (closed_type c) leading (pairs types) /\ name_free t ts /\ (closed_type c t \/ function_type c t /\ quiet ts)
  | true, true => False
  end.
Lemma not_empty (types : punctuated tree) : p_is_empty types = true -> pairs types = [].
Proof. unfold p_is_empty, p_len. destruct (pairs types); [reflexivity|discriminate]. Qed.
Lemma item_union c y leading types u t ts : item_ok c y leading types u false t ts ->
  chained y SPipe (pack_member c) (member c) leading (pairs types) /\ name_free t ts /\ (member c t \/ function_type c t /\ quiet ts \/ first_item y leading (pairs types) /\ pack_member c t).
Proof.
  destruct u; cbn; [auto|]. intros (-> & E & N & H). rewrite E in *. split; [constructor|]. split; [assumption|]. destruct H as [H|[H|[H1 H2]]]; auto 6 using me_closed, pm_tuple.
Qed.
Lemma item_question c y leading types u t q r : item_ok c y leading types u false t (q :: r) -> is_symbol q SQuestionMark = true ->
  state_ok c y leading (types, Some (Nd KTypeOptional [t; Tok q]), true, false) r.
Proof.
  intros (C & N & H)%item_union Q. split; [assumption|]. split; [apply no_word; reflexivity|]. destruct H as [H|[[_ (H & _)]|[H1 H2]]].
  - left. apply me_optional; auto with jtree.
  - cbn in H. congruence.
  - right; right. split; [assumption|]. apply pm_optional; auto with jtree.
Qed.
Lemma item_pipe c y leading types u t q r : item_ok c y leading types u false t (q :: r) -> is_symbol q SPipe = true ->
  state_ok c y leading (p_push types (Punctuated t q), None, true, false) r.
Proof.
  intros (C & N & H)%item_union Q. split; [|exact I]. cbn [p_push pairs]. destruct H as [H|[[_ (_ & H & _)]|[(H1 & H2 & H3) H4]]].
  - apply ch_more; auto with jtree.
  - cbn in H. congruence.
  - rewrite H3, H2. cbn. apply ch_first; auto with jtree.
Qed.
Lemma item_ampersand c y leading types i t q r : item_ok c y leading types false i t (q :: r) -> is_symbol q SAmpersand = true ->
  state_ok c y leading (p_push types (Punctuated t q), None, false, true) r.
Proof.
  intros H Q. split; [|reflexivity]. cbn [p_push pairs]. destruct i; cbn in H.
  - destruct H as (C & N & [H|[_ (_ & _ & H)]]); [apply ch_more; auto with jtree|cbn in H; congruence].
  - destruct H as (-> & E & N & H). rewrite E. destruct H as [H|[[_ (_ & _ & H)]|[(H1 & H2 & H3) H4]]].
    + cbn. apply (ch_more _ _ _ _ None []); auto with jtree. constructor.
    + cbn in H. congruence.
    + cbn. apply ch_first; auto with jtree.
Qed.
Lemma tuple_default c t : last_member c t \/ pack_member c t -> is_tuple t = true -> default_pack c t.
Proof.
  intros [H'|H] X; [inversion H' as [? H|? H]; subst; [|inversion H; subst; discriminate X]|].
  - inversion H as [? C|]; subst; [|discriminate X]. inversion C; subst; try discriminate X; [now apply dp_one|].
    apply dp_tuple. constructor; auto; [apply tp_some, tp_pack; now constructor|]. intros u [= <-]. now constructor.
  - inversion H as [? P|]; subst; [|discriminate X]. inversion P; subst. apply dp_tuple. constructor; auto; [apply tp_some, tp_pack; now constructor|]. intros u [= <-]. now constructor.
Qed.
Lemma item_alone c y types u i t ts x : item_ok c y None types u i t ts -> pairs types = [] -> quiet ts -> hd_error (printed t) = x -> full_post c y x (Value t) ts.
Proof.
  intros H E Q X. assert (Y : name_free t ts /\ (last_member c t \/ y = AllowPack /\ pack_member c t)).
  { destruct i; [destruct u; [contradiction|]; destruct H as (_ & N & [H|[H _]]); auto using lm_member, me_closed, lm_function|].
    apply item_union in H as (_ & N & H). split; [assumption|]. destruct H as [H|[[H _]|[(H & _) H']]]; auto using lm_member, lm_function. }
  destruct Y as [N Y].
  split; [|split; [|split; [|auto]]].
  - destruct Y as [Y|(Y & Z)]; [left; apply ty_plain, pt_one, Y|right; split; [assumption|apply rt_member, Z]].
  - intros _. destruct Y as [Y|(Y & Z)]; [apply rt_type, pt_one, Y|apply rt_member, Z].
  - apply tuple_default. tauto.
Qed.
Lemma item_last c y leading types u i t ts : item_ok c y leading types u i t ts -> (pairs types = [] -> leading <> None) ->
  state_ok c y leading (types, None, u, i) ts /\ name_free t ts /\ (u = true -> i = false -> last_member c t) /\ (u = false -> i = true -> simple_type c t).
Proof.
  destruct u, i; cbn; intros H L; try contradiction.
  - destruct H as (C & N & H). repeat split; auto; try discriminate. intros _ _. destruct H as [H|[[H _]|[(H1 & H2 & H3) _]]]; auto using lm_member, lm_function. specialize (L H3). contradiction.
  - destruct H as (C & N & H). repeat split; auto; try discriminate. intros _ _. destruct H as [H|[H _]]; auto using st_closed, st_open.
  - destruct H as (-> & E & _). destruct (L E eq_refl).
Qed.
Definition before (leading : option tokref) (types : punctuated tree) : list tokref := match leading with Some d => [d] | None => [] end ++ printed (puncts types).
Lemma tokens_before leading types cur u i : state_tokens leading (types, cur, u, i) = before leading types ++ match cur with Some t => printed t | None => [] end.
Proof. unfold state_tokens, before. cbn [fst snd]. now rewrite app_assoc. Qed.
Lemma before_push leading types x : before leading (p_push types x) = before leading types ++ printed (pair_tree (fun t => t) x).
Proof. unfold before. rewrite <- app_assoc. f_equal. unfold puncts, punct. cbn [p_push pairs]. rewrite map_app. cbn [map]. rewrite !printed_con, flat_map_app. cbn. now rewrite app_nil_r. Qed.
Lemma hd_more {A} (a b : list A) x : hd_error a = x -> a <> [] -> hd_error (a ++ b) = x.
Proof. destruct a; [congruence|auto]. Qed.
Lemma app_some {A} (a b : list A) : a <> [] -> a ++ b <> [].
Proof. destruct a; [congruence|discriminate]. Qed.
Lemma suffix_loop c p y simple ts0 (leading : option tokref) (u i : bool) ts g : jgood c p -> reals ts -> g = ow wt leading + ow tw simple ->
  (start_ok c y simple ts0 -> state_ok c y leading (p_new, simple, u, i) ts /\ hd_error (state_tokens leading (p_new, simple, u, i)) = start_first simple ts0 /\ state_tokens leading (p_new, simple, u, i) <> []) ->
  E (loop (A := punctuated tree * option tree * bool * bool) (fun '(types, current_type, is_union, is_intersection) =>
    let! r := match current_type with Some t => ret (Value t) | None => parse_simple_type c p Default end in
    match r with
    | Value type_info =>
        let! o := current in
        match o with
        | None => ret (inr (inr (p_push types (End type_info), is_union, is_intersection)))
        | Some t =>
            if is_symbol t SQuestionMark then
              if is_intersection then
                token_error t (str "cannot mix union and intersection types") ;; ret (inr (inl LexerMoved))
              else
                let! question_mark := take in
                ret (inl (types, Some (Nd KTypeOptional [type_info; Tok question_mark]), true, is_intersection))
            else if is_symbol t SPipe then
              if is_intersection then
                token_error t (str "cannot mix union and intersection types") ;; ret (inr (inl LexerMoved))
              else
                let! pipe := take in
                ret (inl (p_push types (pair_new type_info (Some pipe)), None, true, is_intersection))
            else if is_symbol t SAmpersand then
              if is_union then
                token_error t (str "cannot mix union and intersection types") ;; ret (inr (inl LexerMoved))
              else
                let! ampersand := take in
                ret (inl (p_push types (pair_new type_info (Some ampersand)), None, is_union, true))
            else if p_is_empty types && (match leading with None => true | Some _ => false end) then ret (inr (inl (Value type_info)))
            else ret (inr (inr (p_push types (End type_info), is_union, is_intersection)))
        end
    | _ => ret (inr (inl LexerMoved))
    end) (p_new, simple, u, i)) ts (held (end_w leading) ts g (fun r ts' => start_ok c y simple ts0 -> match r with
      | inl r => full_post c y (start_first simple ts0) r ts'
      | inr (types, u, i) => exists types0 t, types = p_push types0 (End t) /\ state_ok c y leading (types0, None, u, i) ts' /\ quiet ts' /\ name_free t ts' /\
          (u = true -> i = false -> last_member c t) /\ (u = false -> i = true -> simple_type c t) /\ (pairs types0 = [] -> leading <> None) /\
          hd_error (match leading with Some d => [d] | None => [] end ++ printed (puncts types)) = start_first simple ts0 end)).
Proof.
  jbegin. eapply (E_loop (held (state_w leading) ts g (fun x ts' => start_ok c y simple ts0 -> state_ok c y leading x ts' /\ hd_error (state_tokens leading x) = start_first simple ts0 /\ state_tokens leading x <> [])));
    [mono_tac|subst g; split; [assumption|split; [unfold state_w; cbn [fst snd]; wnorm; nlia|auto]]|].
  intros [[[types cur] u0] i0] ts1 (R1 & K1 & K2). unfold state_w in K1, K2. cbn [fst snd] in K1, K2. jstep.
  eapply (E_conseq _ _ (held (fun r => ow wt leading + lw tw types + vw tw r) ts g (fun r ts' => start_ok c y simple ts0 -> match r with
    | Value t => item_ok c y leading types u0 i0 t ts' /\ hd_error (before leading types ++ printed t) = start_first simple ts0 /\ before leading types ++ printed t <> [] | _ => True end))).
  { clear H2. destruct cur as [t|]; jgo; unfold held; wnorm.
    - split; [assumption|split; [nlia|intros F S; specialize (K2 F S)]]. rewrite tokens_before in K2. destruct K2 as (K2 & K3 & K4). split; [|auto].
      unfold state_ok in K2. unfold item_ok. destruct u0, i0; try assumption.
      + destruct K2; discriminate.
      + destruct K2 as (? & ? & ? & [= <-] & ?). auto.
    - split; [assumption|]. split; [nlia|]. intros F S. fullen. specialize (K2 S). rewrite tokens_before, app_nil_r in K2. destruct K2 as (K2 & K3 & K4). destruct a as [t| |]; [|trivial|trivial].
      split; [|auto using hd_more, app_some]. unfold state_ok in K2. unfold item_ok. match goal with H : simple_post _ _ _ _ _ |- _ => destruct H as (_ & N & HS) end. destruct u0, i0; try contradiction.
      + destruct K2 as [K2 _]. split; [assumption|]. split; [assumption|]. destruct HS as [HS|[HS|[HS _]]]; [left; now constructor|auto|discriminate].
      + destruct K2 as [K2 _]. split; [assumption|]. split; [assumption|]. destruct HS as [HS|[HS|[HS _]]]; [auto|auto|discriminate].
      + destruct K2 as (_ & _ & ? & X & _). discriminate. }
  clear K1 K2 R1. intros r ts2 (R2 & K1 & K2). destruct r as [t| |]; cbn [vw] in *; [|jstep; split; [assumption|split; [cbn [end_w vw]; nlia|intros; exact I]]..].
  jgo; unfold held, state_w, end_w; wnorm; cbn [fst snd pair_new] in *; wnorm; (split; [try rsolve|split; [nlia|]]; intros F S); fullen; specialize (K2 S); destruct K2 as (K2 & K3 & K4).
  - split; [eapply item_question; eassumption|]. rewrite !tokens_before. eprint. rewrite app_assoc. auto using @hd_more, @app_some.
  - split; [eapply item_pipe; eassumption|]. rewrite !tokens_before, before_push. cbn [pair_tree]. eprint. rewrite app_nil_r, app_assoc. auto using hd_more, app_some.
  - split; [eapply item_ampersand; eassumption|]. rewrite !tokens_before, before_push. cbn [pair_tree]. eprint. rewrite app_nil_r, app_assoc. auto using hd_more, app_some.
  - destruct leading; [congruence|].
    assert (Z : pairs types = []) by now apply not_empty.
    eapply item_alone; try eassumption; [repeat split; assumption|]. unfold before in K3. cbn [app] in K3. unfold puncts, punct in K3. rewrite Z in K3. exact K3.
  - assert (Z : pairs types = [] -> leading <> None).
    { intros Z ->. match goal with H : p_is_empty types && _ = false |- _ => clear -H Z; unfold p_is_empty, p_len in H; rewrite Z in H; cbn in H; discriminate H end. }
    exists types, t. split; [reflexivity|]. destruct (item_last _ _ _ _ _ _ _ _ K2 Z) as (? & ? & ? & ?). repeat (split; [first [assumption|repeat split; assumption]|]).
    change (hd_error (before leading (p_push types (End t))) = start_first simple ts0). rewrite before_push. cbn [pair_tree]. eprint. rewrite app_nil_r. assumption.
Qed.
Lemma union_done c y leading types t : chained y SPipe (pack_member c) (member c) leading (pairs types) -> last_member c t -> (pairs types = [] -> leading <> None) -> (leading <> None -> y = Default) ->
  (type c (Nd KTypeUnionV [Nd KTypeUnion [opt_tok leading; puncts (p_push types (End t))]]) \/ y = AllowPack /\ result_type c (Nd KTypeUnionV [Nd KTypeUnion [opt_tok leading; puncts (p_push types (End t))]])) /\
  (y = AllowPack -> result_type c (Nd KTypeUnionV [Nd KTypeUnion [opt_tok leading; puncts (p_push types (End t))]])).
Proof.
  intros C L Z D. pose proof (chained_ending _ _ _ _ _ _ _ _ C L) as X. unfold puncts, punct. cbn [p_push pairs]. rewrite map_app. cbn [map pair_tree].
  destruct leading as [d|].
  - destruct X as [X|(X & _)]; [|discriminate]. rewrite (D ltac:(discriminate)). split; [left|discriminate]. apply ty_union; [|exact X]. eapply chained_leading; [exact C|reflexivity].
  - destruct X as [X|(_ & Y & u & d & m & HF & HD & HE & X)].
    + destruct (pairs types) as [|z l] eqn:P; [now destruct (Z eq_refl)|]. cbn [map app] in *.
      assert (PT : plain_type c (Nd KTypeUnionV [Nd KTypeUnion [none; listing (pair_tree (fun t => t) z :: map (pair_tree (fun t => t)) l ++ [final t])]])) by (apply pt_union; [exact X|now destruct l]).
      split; [left; now apply ty_plain|intros _; now apply rt_type].
    + rewrite X. assert (R : result_type c (Nd KTypeUnionV [Nd KTypeUnion [none; listing (followed u d :: m)]])) by now apply rt_union. split; auto.
Qed.
Lemma intersection_done c y leading types t : chained y SAmpersand (pack_tuple c) (closed_type c) leading (pairs types) -> simple_type c t -> (pairs types = [] -> leading <> None) -> (leading <> None -> y = Default) ->
  (type c (Nd KTypeIntersectionV [Nd KTypeIntersection [opt_tok leading; puncts (p_push types (End t))]]) \/ y = AllowPack /\ result_type c (Nd KTypeIntersectionV [Nd KTypeIntersection [opt_tok leading; puncts (p_push types (End t))]])) /\
  (y = AllowPack -> result_type c (Nd KTypeIntersectionV [Nd KTypeIntersection [opt_tok leading; puncts (p_push types (End t))]])).
Proof.
  intros C L Z D. pose proof (chained_ending _ _ _ _ _ _ _ _ C L) as X. unfold puncts, punct. cbn [p_push pairs]. rewrite map_app. cbn [map pair_tree].
  destruct leading as [d|].
  - destruct X as [X|(X & _)]; [|discriminate]. rewrite (D ltac:(discriminate)). split; [left|discriminate]. apply ty_intersection; [|exact X]. eapply chained_leading; [exact C|reflexivity].
  - destruct X as [X|(_ & Y & u & d & m & HF & HD & HE & X)].
    + destruct (pairs types) as [|z l] eqn:P; [now destruct (Z eq_refl)|]. cbn [map app] in *.
      assert (PT : plain_type c (Nd KTypeIntersectionV [Nd KTypeIntersection [none; listing (pair_tree (fun t => t) z :: map (pair_tree (fun t => t)) l ++ [final t])]])) by (apply pt_intersection; [exact X|now destruct l]).
      split; [left; now apply ty_plain|intros _; now apply rt_type].
    + rewrite X. assert (R : result_type c (Nd KTypeIntersectionV [Nd KTypeIntersection [none; listing (followed u d :: m)]])) by now apply rt_intersection. split; auto.
Qed.
Lemma j_type_suffix c p y simple ts : jgood c p -> reals ts -> (simple = None -> match ts with t :: _ => is_symbol t SPipe || is_symbol t SAmpersand = true | [] => True end) ->
  E (parse_type_suffix c p simple) ts (held (vw tw) ts (ow tw simple) (fun r ts' => start_ok c y simple ts -> full_post c y (start_first simple ts) r ts')).
Proof.
  jbegin. unfold parse_type_suffix. jstep.
  eapply (E_conseq _ _ (fun x ts1 => let '(leading, u, i) := x in reals ts1 /\ ow wt leading + w ts1 = w ts /\ (start_ok c y simple ts -> leading <> None -> y = Default) /\
    (start_ok c y simple ts -> state_ok c y leading (p_new, simple, u, i) ts1 /\ hd_error (state_tokens leading (p_new, simple, u, i)) = start_first simple ts /\ state_tokens leading (p_new, simple, u, i) <> []))).
  { destruct simple as [t|]; jgo.
    - split; [assumption|]. split; [reflexivity|]. split; [congruence|]. intros (S1 & S2). split; [cbn; eauto|]. rewrite tokens_before. auto.
    - split; [assumption|]. wnorm. split; [reflexivity|]. split; [auto|]. intros ->. repeat split; try discriminate. cbn. constructor. auto with jtree.
    - split; [assumption|]. wnorm. split; [reflexivity|]. split; [auto|]. intros ->. repeat split; try discriminate. cbn. constructor. auto with jtree. }
  intros [[leading u] i] ts1 (R1 & W1 & D & S1). jstep. eapply E_conseq; [apply (suffix_loop c p y simple ts leading u i ts1 (ow wt leading + ow tw simple)); auto|].
  clear S1. intros x ts2 (R2 & K1 & K2). destruct x as [r|[[types u1] i1]]; cbn [end_w] in *.
  - jstep. split; [assumption|]. split; [nlia|]. intros F S. fullen. auto.
  - destruct u1, i1; jgo; (split; [assumption|split; [wnorm; nlia|]]; intros F S; wnorm; fullen; specialize (K2 S); specialize (D S); destruct K2 as (types0 & t & -> & C & Q & N & M1 & M2 & Z & HD));
      cbn in C; destruct C as (C & _).
    + destruct (union_done c y leading types0 t C (M1 eq_refl eq_refl) Z D) as (U1 & U2). unfold full_post. repeat (split; [first [assumption|discriminate]|]).
      split; [|split; [assumption|apply name_free_list; auto]]. rewrite <- HD. eprint. rewrite !app_nil_r. reflexivity.
    + destruct (intersection_done c y leading types0 t C (M2 eq_refl eq_refl) Z D) as (U1 & U2). unfold full_post. repeat (split; [first [assumption|discriminate]|]).
      split; [|split; [assumption|apply name_free_list; auto]]. rewrite <- HD. eprint. rewrite !app_nil_r. reflexivity.
Qed.
Lemma simple_start c y ts t ts' : simple_post c ts y (Value t) ts' -> (y = AllowPack -> tuple c t -> closed_result c t -> False) -> start_ok c y (Some t) ts'.
Proof.
  intros (B & N & H) Z. split.
  - split; [assumption|]. unfold first_item. destruct H as [H|[H|[H1 [H2|[H2 H3]]]]]; auto 7. destruct Z; assumption.
  - unfold begins in B. destruct ts; [contradiction|]. now destruct (printed t).
Qed.
Lemma j_type c p ts : jgood c p -> reals ts -> E (parse_type c p) ts (held (vw tw) ts 0 (type_post c ts)).
Proof.
  jbegin. unfold parse_type. jgo.
  - eapply E_conseq; [apply (j_type_suffix c p Default None); auto with jspec|]. intros r1 ts1 K. jnorm. jend. match goal with H : start_ok _ _ _ _ -> _ |- _ => specialize (H eq_refl); rename H into FP end. destruct r1 as [t1| |]; cbn in *; auto.
    destruct FP as ([A|[A _]] & _ & _ & B & Q & N); [|discriminate]. auto.
  - eapply E_conseq; [apply (j_type_suffix c p Default (Some a)); auto with jspec; discriminate|]. intros r1 ts1 K. jnorm. jend.
    match goal with H : start_ok _ _ _ _ -> _, S : simple_post _ _ _ _ _ |- _ => pose proof (simple_start _ _ _ _ _ S ltac:(discriminate)) as SO; specialize (H SO); rename H into FP; destruct S as (B0 & _) end.
    destruct r1 as [t1| |]; cbn in *; auto. destruct FP as ([A|[A _]] & _ & _ & B & Q & N); [|discriminate]. rewrite B. auto.
  - jend. exact I.
  - jend. exact I.
Qed.
Lemma j_type_or_pack c p ts : jgood c p -> reals ts -> E (parse_type_or_pack c p) ts (held (vw tw) ts 0 (result_post c)).
Proof.
  jbegin. unfold parse_type_or_pack. jstep. jstep. destruct a as [t| |]; [|jstep; jnorm; jend; exact I..].
  assert (XE : (exists a l, t = Nd KTypeTuple [a; Con CPunctuated l] /\ List.length l <> 1) \/ (forall a l, t = Nd KTypeTuple [a; Con CPunctuated l] -> List.length l = 1)).
  { destruct t as [| |k cs]; [right; discriminate..|]. destruct k; try (right; discriminate). destruct cs as [|a [|l [|]]]; try (right; discriminate). destruct l as [|k l|]; try (right; discriminate). destruct k; try (right; discriminate).
    destruct (Nat.eq_dec (List.length l) 1); [right; intros ? ? [= <- <-]; assumption|left; eauto]. }
  destruct XE as [(a & l & -> & L)|XE].
  - apply Nat.eqb_neq in L. rewrite L. cbn [negb]. jstep. jnorm. jend. match goal with HS : simple_post _ _ _ _ _ |- _ => destruct HS as (B & N & HS'); clear HS || idtac; rename HS' into HS0 end. apply Nat.eqb_neq in L. destruct HS0 as [HS0|[[HS0 _]|[_ [HS0|[HS0 HS1]]]]].
    + inversion HS0; subst; now destruct L.
    + inversion HS0.
    + inversion HS0; subst; now destruct L.
    + split; [now apply rt_tuple|]. split; [intros _; now apply dp_tuple|]. auto.
  - match goal with |- E _ ?ts1 ?Q => enough (HE : E (parse_type_suffix c p (Some t)) ts1 Q) end.
    { destruct t as [| |k cs]; try exact HE. destruct k; try exact HE; try solve [jstep]. destruct cs as [|a [|l [|]]]; try exact HE; destruct l as [|k l|]; try exact HE; destruct k; try exact HE.
      rewrite (XE _ _ eq_refl). exact HE. }
    eapply E_conseq; [apply (j_type_suffix c p AllowPack (Some t)); [assumption|jnorm; assumption|discriminate]|]. intros r1 ts1 K1. jnorm. jend.
    match goal with HF : start_ok _ _ _ _ -> _, HS : simple_post _ _ _ _ _ |- _ => rename HF into FP; rename HS into HS0 end.
    assert (SO : start_ok c AllowPack (Some t) r).
    { eapply simple_start; [eassumption|]. intros _ T C. inversion T; subst. specialize (XE _ _ eq_refl). inversion C; subst. contradiction. }
    specialize (FP SO). destruct r1 as [t1| |]; cbn in *; auto. destruct FP as (_ & A & B & _ & Q & N). auto 6.
Qed.
#[export] Hint Resolve j_type j_type_or_pack : jspec.

Lemma j_instantiation c p a ts : jgood c p -> reals ts -> wt a = 1 -> is_symbol a SLessThan = true ->
  E (expect_type_instantiation p a) ts (held (ow tw) ts 1 (fun r _ => match r with Some t => instantiation c t | None => False end)).
Proof.
  jbegin. unfold expect_type_instantiation. jgo; jend.
  - match goal with HA : arguments_post _ _ _ _ |- _ => destruct HA as (? & ? & HA & ? & ?); injection HA as -> -> end. destruct (jg_luau _ _ H) as (L & _). constructor; auto with jtree.
Qed.
#[export] Hint Resolve j_instantiation : jspec.
