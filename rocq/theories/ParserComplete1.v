(** Completeness (C36, C46): lists and expressions. *)
From Verif Require Import LexerSpec PunctuatedProofs.
From Verif Require Export ParserComplete.
From Coq Require Import Lia.
Local Open Scope nat_scope.
Import ListNotations.

(** Nothing beyond the dialect, which is at most Lua 5.4. *)
Definition flat {dia : dialect} (c : cfg) : Prop := has_luau c = false /\ has_lua54 c = d_attributes /\ has_cfxlua c = false /\ f_cfxlua (c_feat c) = false /\
  (d_goto = true -> has_lua52 c || has_luajit c = true) /\ (d_bits = true -> has_lua53 c = true).

(** What the recursive functions do on words of the grammar. *)
Definition exp_spec {dia : dialect} (m : M (pres tree)) : Prop := forall w o ts k, clear [N Exp] w o -> terminals ts = w -> follows k (exp_end o) -> ok m (ts ++ k) (val k).
Definition noexp_spec (m : M (pres tree)) : Prop := forall k, follows k no_exp -> ok m k (fun r ts => ts = k /\ r = NotFound).
Definition left_rest {dia : dialect} (o : bool) (k ts : list tokref) : Prop := exists tr o', ts = tr ++ k /\ restw o' (terminals tr) o.
Definition primary_spec {dia : dialect} (m : M (pres tree)) : Prop := forall u o1 o ts tr k, unitw u o1 -> restw o1 (terminals tr) o -> terminals ts = u -> follows k (exp_end o) ->
  ok m (ts ++ tr ++ k) (fun r s => (exists e, r = Value e) /\ left_rest o k s).
Definition precedence_spec {dia : dialect} (m : tree -> nat -> M (pres tree)) : Prop := forall lhs q o1 o tr k, restw o1 (terminals tr) o -> follows k (exp_end o) ->
  ok (m lhs q) (tr ++ k) (fun r s => (exists e, r = Value e) /\ left_rest o k s /\ (q = 0 -> s = k)).
Definition block_spec {dia : dialect} (m : M (pres tree)) : Prop := forall w o ts k, clear [N Chunk] w o -> terminals ts = w -> follows k block_end -> ok m (ts ++ k) (val k).
Record good {dia : dialect} (p : parsers) : Prop := {
  g_exp : exp_spec (p_expression p);
  g_noexp : noexp_spec (p_expression p);
  g_primary : primary_spec (p_primary p);
  g_precedence : precedence_spec (p_precedence p);
  g_block : block_spec (p_block p) }.

(** ** [one_or_more] *)
Lemma listw_inv elem w o : listw elem w o -> elem w o \/ exists v ov w', w = v ++ TSym SComma :: w' /\ elem v ov /\ listw elem w' o.
Proof. intros [v ov E|v ov w' o' E L]; [now left|right]. eauto 6. Qed.
Definition comma (x : terminal) : bool := match x with TSym SComma => true | _ => false end.
Lemma ok_one_or_more {A} (parser : M (pres A)) (elem : list terminal -> bool -> Prop) (fol : bool -> terminal -> bool) w o ts k :
  (forall v o ts k, elem v o -> terminals ts = v -> follows k (fun x => fol o x || comma x) -> ok parser (ts ++ k) (val k)) ->
  fol o (TSym SComma) = false -> listw elem w o -> terminals ts = w -> follows k (fol o) -> ok (one_or_more parser SComma) (ts ++ k) (val k).
Proof.
  intros Hp Hc Hl Ht Hk. unfold one_or_more. apply ok_bind.
  apply (ok_loop (fun _ ts1 => exists ts', ts1 = ts' ++ k /\ listw elem (terminals ts') o)).
  - exists ts. split; [reflexivity|now rewrite Ht].
  - intros vs ts1 (ts' & -> & L). destruct (listw_inv _ _ _ L) as [E|(v & ov & w2 & Ew & E & L2)].
    + apply ok_bind. apply ok_val with k; [apply (Hp _ _ _ _ E eq_refl)|].
      { eapply follows_weaken; [|exact Hk]. intros x ->. reflexivity. }
      intros a. destruct Hk as (t & r & -> & F). ostep. apply ok_consume_if. cbv beta.
      destruct (is_symbol t SComma) eqn:Z; [rewrite (sym_terminal _ _ Z) in F; congruence|]. apply ok_ret.
      rewrite push_not_empty, pop_push. apply ok_ret, val_intro.
    + split_ts. apply ok_bind. eapply ok_val; [eapply Hp; [eassumption|eassumption|apply follows_here; match goal with X : terminal_of _ = TSym SComma |- _ => rewrite X end; apply orb_true_r]|].
      intros a. osteps. eexists. split; [reflexivity|congruence].
Qed.
Lemma ok_one {A} (parser : M (pres A)) ts k (F : terminal -> bool) : F (TSym SComma) = false -> ok parser (ts ++ k) (val k) -> follows k F ->
  ok (one_or_more parser SComma) (ts ++ k) (fun r s => s = k /\ exists a, r = Value (p_push p_new (End a))).
Proof.
  intros Hc Hp Hk. unfold one_or_more. apply ok_bind. apply (ok_loop (fun vs ts1 => vs = p_new /\ ts1 = ts ++ k)); [now split|].
  intros vs ts1 (-> & ->). apply ok_bind. apply ok_val with k; [assumption|]. intros a. destruct Hk as (t & r & -> & X). ostep. apply ok_consume_if. cbv beta.
  destruct (is_symbol t SComma) eqn:Z; [rewrite (sym_terminal _ _ Z) in X; congruence|]. apply ok_ret. rewrite push_not_empty, pop_push. apply ok_ret. eauto.
Qed.
Lemma ok_explist {dia : dialect} p w o ts k : good p -> clear [N ExpList] w o -> terminals ts = w -> follows k (list_end o) -> ok (parse_expression_list p) (ts ++ k) (val k).
Proof.
  intros G C T F. apply list_forms in C. unfold parse_expression_list. eapply ok_one_or_more with (elem := fun w o => clear [N Exp] w o) (fol := list_end); try eassumption; [|reflexivity].
  intros v ov us l Cv Tv Fv. apply (g_exp p G v ov us l Cv Tv). eapply follows_weaken; [|exact Fv]. ends.
Qed.
Lemma ok_noexplist {dia : dialect} p k : good p -> follows k no_exp -> ok (parse_expression_list p) k (fun r ts => ts = k /\ r = NotFound).
Proof.
  intros G F. unfold parse_expression_list, one_or_more. apply ok_bind. apply (ok_loop (fun vs ts1 => vs = p_new /\ ts1 = k)); [now split|].
  intros vs ts1 (-> & ->). apply ok_bind. eapply ok_conseq; [exact (g_noexp p G k F)|]. intros r ts (-> & ->). apply ok_ret. cbn. apply ok_ret. now split.
Qed.
Lemma ok_name {dia : dialect} c p t k : flat c -> terminal_of t = TName -> ok (parse_name_with_type_specifiers c p) (t :: k) (val k).
Proof. intros (L & _) E. unfold parse_name_with_type_specifiers, force_name_with_type_specifiers. rewrite L. osteps. apply val_intro. Qed.
Definition no_less (x : terminal) : bool := negb (match x with TSym SLessThan => true | _ => false end).
Lemma ok_name_attributes {dia : dialect} c p t k : flat c -> terminal_of t = TName -> follows k no_less ->
  ok (parse_name_with_attributes c p) (t :: k) (val k).
Proof.
  intros (L & L4 & Lc & _) E (u & r & -> & F). unfold parse_name_with_attributes, force_name_with_attributes, force_name_with_type_specifiers. rewrite L, Lc. destruct (has_lua54 c); cbn [negb andb]; osteps; apply val_intro.
Qed.
Lemma ok_attribute {dia : dialect} c p t b u e k : flat c -> has_lua54 c = true -> terminal_of t = TName -> terminal_of b = TSym SLessThan -> terminal_of u = TName -> terminal_of e = TSym SGreaterThan ->
  ok (parse_name_with_attributes c p) (t :: b :: u :: e :: k) (val k).
Proof.
  intros (L & _ & Lc & _) L4 E B U D. unfold parse_name_with_attributes, force_name_with_attributes, force_name_with_type_specifiers. rewrite L, Lc, L4. cbn [negb andb]. osteps. apply val_intro.
Qed.
Definition name_end (o : bool) (x : terminal) : bool := negb (comma x).
Lemma ok_namelist {dia : dialect} c p w o ts k : flat c -> clear [N NameList] w o -> terminals ts = w -> follows k (name_end o) -> ok (parse_name_list c p) (ts ++ k) (val k).
Proof.
  intros L C T F. apply list_forms in C. unfold parse_name_list. eapply ok_one_or_more with (elem := fun w o => w = [TName] /\ o = false) (fol := name_end); try eassumption; [|reflexivity].
  intros v ov us l (-> & ->) Tv _. split_ts. now apply ok_name.
Qed.
Definition att_end (o : bool) (x : terminal) : bool := negb (comma x) && no_less x.
Lemma ok_attributes {dia : dialect} c p w o ts k : flat c -> clear [N NameList] w o -> terminals ts = w -> follows k (att_end o) -> ok (one_or_more (parse_name_with_attributes c p) SComma) (ts ++ k) (val k).
Proof.
  intros L C T F. apply list_forms in C. eapply ok_one_or_more with (elem := fun w o => w = [TName] /\ o = false) (fol := att_end); try eassumption; [|reflexivity].
  intros v ov us l (-> & ->) Tv Fl. split_ts. apply ok_name_attributes; try assumption. eapply follows_weaken; [|exact Fl]. ends.
Qed.
Lemma ok_attributed {dia : dialect} c p w o ts k : flat c -> clear [N AttNameList] w o -> terminals ts = w -> follows k (att_end o) -> ok (one_or_more (parse_name_with_attributes c p) SComma) (ts ++ k) (val k).
Proof.
  intros L C T F. apply list_forms in C. eapply ok_one_or_more with (elem := fun w o => clear [N AttName] w o) (fol := att_end); try eassumption; [|reflexivity].
  intros v ov us l Cv Tv Fl. pose proof L as (_ & L4 & _). revert Tv. inv_clear Cv; intros Tv; split_ts.
  - apply ok_name_attributes; try assumption. eapply follows_weaken; [|exact Fl]. ends.
  - apply ok_attribute; try assumption. congruence.
Qed.

(** ** Tables *)
Lemma suffix_first {dia : dialect} b v : suffixw b v -> exists x w, v = x :: w /\ (match x with TString | TSym (SLeftBracket | SDot | SColon | SLeftParen | SLeftBrace) => true | _ => false end) = true.
Proof.
  intros H. inversion H; subst; try (eexists _, _; split; [reflexivity|reflexivity]).
  match goal with X : clear [N Args] _ _ |- _ => apply first_forms in X; unfold first_form in X end. destruct v as [|x w]; [discriminate|]. exists x, w. split; [reflexivity|].
  cbn in *. destruct x as [| | |[]|]; try discriminate; reflexivity.
Qed.
Lemma unit_name {dia : dialect} w o : unitw (TName :: w) o -> exists l, suffixesw l w.
Proof.
  intros U. inversion U as [w' o' O|x w' o' X]; subst; [|apply unary_in in X as [X _]; cbn in X; intuition discriminate]. inversion O; subst.
  - match goal with X : In _ constants |- _ => cbn in X; intuition discriminate end.
  - match goal with X : prefixw _ |- _ => inversion X; subst end; cbn [app] in *; [|discriminate].
    match goal with X : _ :: _ = TName :: _ |- _ => injection X as <- end. eauto.
  - match goal with X : clear [N TableConstructor] _ _ |- _ => apply first_forms in X; discriminate X end.
Qed.
(** After a name, an expression does not go on with an equal sign. *)
Lemma exp_second {dia : dialect} w o : clear [N Exp] (TName :: w) o -> starts (TSym SEqual) w = false.
Proof.
  intros C. apply exp_chain in C as (u & r & o1 & E & U & R). destruct u as [|x u].
  - inversion U as [w' o' O|]; subst. inversion O; subst; [match goal with X : prefixw _ |- _ => inversion X; subst; discriminate end|].
    match goal with X : clear [N TableConstructor] _ _ |- _ => apply first_forms in X; discriminate X end.
  - cbn [app] in E. injection E as <- ->. apply unit_name in U as (l & S). destruct S as [|b v l s V S].
    + inversion R as [|? b ? ? ? ? B]; subst; [reflexivity|]. apply binary_in in B as [B _]. cbn in B |- *. intuition (subst; reflexivity).
    + apply suffix_first in V as (x & v' & -> & X). cbn. destruct x as [| | |[]|]; try discriminate X; reflexivity.
Qed.
Lemma follows_exp_end t r o : exp_end o (terminal_of t) = true -> follows (t :: r) (exp_end o).
Proof. apply follows_here. Qed.
Ltac fol := first [eassumption
  | match goal with E : terminal_of ?t = _ |- follows (?t :: _) _ => apply follows_here; rewrite E; reflexivity end
  | match goal with F : _ (terminal_of ?t) = true |- follows (?t :: _) _ => apply follows_here; revert F; generalize (terminal_of t); ends end
  | match goal with F : follows ?k _ |- follows ?k _ => eapply follows_weaken; [|exact F]; solve [ends] end ].
(** Runs an expression, whose word is derived by [C]. *)
Ltac oexp G := match goal with
  | T : terminals ?ts = ?v, C : clear [N Exp] ?v ?o |- ok (p_expression _) (?ts ++ ?k) _ => apply (ok_val _ _ k); [apply (g_exp _ G v o ts k C T); fol|intros ?]
  end.

Definition field_end (x : terminal) : bool := match x with TSym (SComma | SSemicolon | SRightBrace) => true | _ => false end.
Lemma ok_field {dia : dialect} c p v o ts k lb fs : flat c -> good p -> clear [N Field] v o -> terminals ts = v -> follows k field_end ->
  exists t r, ts = t :: r /\ is_symbol t SRightBrace = false /\ ok (table_field c p lb fs t) (ts ++ k) (som k).
Proof.
  intros L G C. destruct L as (_ & _ & _ & Lc & _). inv_clear C; rewrite ?app_nil_r; intros T F.
  - split_ts. eexists _, _. split; [reflexivity|]. split; [tests; reflexivity|]. unfold table_field, expect_expression_key. osteps. oexp G. osteps. oexp G. osteps. apply som_intro.
  - split_ts. eexists _, _. split; [reflexivity|]. split; [tests; reflexivity|]. unfold table_field. osteps. oexp G. osteps. apply som_intro.
  - match goal with X : clear [N Exp] _ _ |- _ => rename X into C end. pose proof (first_forms _ _ _ C) as S. destruct ts as [|t r]; [subst; discriminate S|].
    exists t, r. split; [reflexivity|]. cbn in T. rewrite <- T in S. cbn [first_form begins] in S. split; [now tests|]. unfold table_field. tests.
    ostep. assert (Fe : forall o, follows k (exp_end o)) by (intros oo; eapply follows_weaken; [|exact F]; ends).
    assert (A : ok (if is_identifier t then let! q := peek in ret (is_sym q SEqual) else ret false) ((t :: r) ++ k) (fun b s => b = false /\ s = (t :: r) ++ k)).
    { destruct (is_identifier t) eqn:Z; [|now apply ok_ret]. rewrite <- T, (name_terminal _ Z) in C. apply exp_second in C. destruct r as [|t2 r].
      - destruct F as (t2 & r & -> & F). cbn [app]. ostep. ostep. ostep. cbn [is_sym]. split; [now tests|reflexivity].
      - cbn [app]. ostep. ostep. ostep. cbn [is_sym]. split; [|reflexivity]. cbn in C. destruct (is_symbol t2 SEqual) eqn:Y; [|reflexivity]. rewrite (sym_terminal _ _ Y) in C. discriminate C. }
    eapply ok_conseq; [exact A|]. cbv beta. intros b s (-> & ->). rewrite Lc. cbn [andb]. ostep. apply ok_val with k; [now apply (g_exp _ G _ _ _ _ C)|]. intros e. osteps. apply som_intro.
Qed.
Lemma ok_table {dia : dialect} c p lb v ts b k : flat c -> good p -> fieldsw v -> terminals ts = v -> terminal_of b = TSym SRightBrace ->
  ok (force_table_constructor c p lb) (ts ++ b :: k) (here k).
Proof.
  intros L G Fs T B. unfold force_table_constructor. apply ok_bind.
  apply (ok_loop (fun _ ts1 => exists ts', ts1 = ts' ++ b :: k /\ fieldsw (terminals ts'))).
  - exists ts. split; [reflexivity|now rewrite T].
  - intros fs ts1 (ts' & -> & W). remember (terminals ts') as w eqn:Ew. symmetry in Ew. destruct W as [|v' o' C|v' o' x w C X W].
    + split_ts. osteps. reflexivity.
    + destruct (ok_field c p v' o' ts' (b :: k) lb fs L G C Ew ltac:(fol)) as (t & r & -> & Zt & K). cbn [app] in *. ostep. ostep. cbv beta iota. rewrite Zt. ostep.
      eapply ok_som; [exact K|]. intros f. cbv beta iota. unfold push_field. osteps. reflexivity.
    + apply terminals_app_inv in Ew as (ta & tb & -> & Ta & Tb). apply terminals_cons_inv in Tb as (q & tr & -> & Eq & Tr).
      destruct (ok_field c p v' o' ta (q :: tr ++ b :: k) lb fs L G C Ta) as (t & r & -> & Zt & K); [apply follows_here; rewrite Eq; clear -X; cbn in X; intuition (subst; reflexivity)|].
      rewrite <- app_assoc.
      cbn [app] in *. ostep. ostep. cbv beta iota. rewrite Zt. ostep.
      eapply ok_som; [exact K|]. intros f. cbv beta iota. unfold push_field. cbn in X. destruct X as [<-|[<-|[]]]; osteps; (eexists; split; [reflexivity|congruence]).
Qed.

(** ** Arguments, prefixes and suffixes *)
Lemma ok_args {dia : dialect} c p w o ts k : flat c -> good p -> clear [N Args] w o -> terminals ts = w -> ok (parse_arguments c p) (ts ++ k) (val k).
Proof.
  intros L G C. inv_clear C; rewrite ?app_nil_r; intros T; unfold parse_arguments.
  - split_ts. osteps. eapply ok_conseq; [apply ok_noexplist; [assumption|fol]|]. cbv beta. intros r s (-> & ->). osteps. apply val_intro.
  - split_ts. osteps. eapply ok_val; [eapply ok_explist; try eassumption; fol|]. intros l. osteps. apply val_intro.
  - match goal with X : clear [N TableConstructor] _ _ |- _ => apply table_form in X as (vv & -> & Fs) end. split_ts. osteps. eapply ok_here; [eapply ok_table; eassumption|].
    intros t. osteps. apply val_intro.
  - split_ts. osteps. apply val_intro.
Qed.
Lemma ok_prefix {dia : dialect} c p w ts k : good p -> prefixw w -> terminals ts = w ->
  ok (parse_prefix c p) (ts ++ k) (fun r s => s = k /\ exists x, r = Value x /\ (w = [TName] -> exists t, x = PrefixName t)).
Proof.
  intros G W T. unfold parse_prefix. destruct W as [|w o C].
  - split_ts. osteps. eauto 6.
  - split_ts. osteps. oexp G. osteps. split; [reflexivity|]. eexists. split; [reflexivity|]. discriminate.
Qed.
Definition suffix_val (k : list tokref) (b : bool) (r : pres tree) (s : list tokref) : Prop := s = k /\ exists x, r = Value x /\ is_call x = b.
Lemma ok_suffix {dia : dialect} c p b w ts k : flat c -> good p -> suffixw b w -> terminals ts = w -> ok (parse_suffix c p) (ts ++ k) (suffix_val k b).
Proof.
  intros L G W T. pose proof L as (L1 & _ & _ & Lc & _). unfold parse_suffix. rewrite L1, Lc. cbn [andb]. destruct W as [w o C| |w o C|w o C].
  - split_ts. osteps. oexp G. osteps. split; [reflexivity|eauto].
  - split_ts. osteps. unfold dot_suffix. osteps. split; [reflexivity|eauto].
  - pose proof (first_forms _ _ _ C) as S. destruct ts as [|t r]; [subst; discriminate S|]. pose proof T as T'. cbn in T'. rewrite <- T' in S. cbn [first_form begins] in S.
    assert (A : ok (let! r0 := parse_arguments c p in match r0 with Value arguments => ret (Value (Nd KSuffixCall [Nd KCallAnonymous [arguments]])) | LexerMoved => ret LexerMoved | NotFound => panic end)
                  ((t :: r) ++ k) (suffix_val k true)).
    { ostep. eapply ok_val; [eapply ok_args; eassumption|]. intros a. osteps. split; [reflexivity|eauto]. }
    cbn [app]. ostep. ostep. cbv beta iota.
    destruct (terminal_of t) as [| | |s|] eqn:Et; try discriminate S; [tests; exact A|]. destruct s; try discriminate S; tests; exact A.
  - split_ts. osteps. eapply ok_val; [eapply ok_args; eassumption|]. intros a. osteps. split; [reflexivity|eauto].
Qed.
Definition suffix_end (x : terminal) : bool := match x with TString | TNumeral => false | TSym (SLeftBracket | SDot | SColon | SLeftBrace | SLeftParen) => false | _ => true end.
Lemma ok_nosuffix {dia : dialect} c p k : flat c -> follows k suffix_end -> ok (parse_suffix c p) k (fun r s => s = k /\ r = NotFound).
Proof.
  intros (L1 & _ & _ & Lc & _) (t & r & -> & F). unfold parse_suffix. rewrite L1, Lc. cbn [andb]. osteps. rewrite andb_false_r. osteps. now split.
Qed.
Definition suffixed_val (k : list tokref) (w : list terminal) (l : option bool) (r : pres (Parsers.prefix * list tree)) (s : list tokref) : Prop :=
  s = k /\ exists x ss, r = Value (x, ss) /\ option_map is_call (last_of ss) = l /\ (w = [TName] -> exists t, x = PrefixName t).
Lemma last_of_snoc {A} (l : list A) x : last_of (l ++ [x]) = Some x.
Proof. unfold last_of. now rewrite rev_app_distr. Qed.
Lemma ok_suffixed {dia : dialect} c p w l v tp ts k : flat c -> good p -> prefixw w -> suffixesw l v -> terminals tp = w -> terminals ts = v -> follows k suffix_end ->
  ok (parse_prefix_and_suffixes c p) (tp ++ ts ++ k) (suffixed_val k w l).
Proof.
  intros L G W S Tp Ts F. unfold parse_prefix_and_suffixes. ostep. eapply ok_conseq; [eapply ok_prefix; eassumption|]. cbv beta. intros r s (-> & x & -> & Hx).
  ostep. apply (ok_loop (fun ss ts1 => exists ts' l', ts1 = ts' ++ k /\ suffixesw l' (terminals ts') /\ l = match l' with None => option_map is_call (last_of ss) | _ => l' end)).
  - exists ts, l. rewrite Ts. repeat split; try assumption. now destruct l.
  - intros ss ts1 (ts' & l' & -> & S' & ->). remember (terminals ts') as w' eqn:Ew. symmetry in Ew. destruct S' as [|b u l' w' U S'].
    + split_ts. ostep. eapply ok_conseq; [apply ok_nosuffix; assumption|]. cbv beta. intros r s (-> & ->). osteps. split; [reflexivity|]. eauto 6.
    + split_ts. ostep. eapply ok_conseq; [eapply ok_suffix; eassumption|]. cbv beta. intros r s (-> & y & -> & Y). osteps. eexists _, l'. split; [reflexivity|]. split; [congruence|].
      destruct l'; [reflexivity|]. rewrite last_of_snoc. cbn. now rewrite Y.
Qed.
