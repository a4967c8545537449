(** Parsing undoes printing (C48): function types, table types, unions. *)
From Verif Require Import LexerSpec LexerStep PunctuatedProofs.
From Verif Require Export Round3.
From Coq Require Import Lia.
Local Open Scope nat_scope.
Import ListNotations.

(** ** The arguments of a function type, or the parts of a tuple *)
Definition args_of (x : punctuated type_argument) : list tree := map (pair_tree arg_tree) (pairs x).
Lemma args_end x v : args_of (p_push x (End v)) = args_of x ++ [final (arg_tree v)].
Proof. unfold args_of. cbn. now rewrite map_app. Qed.
Lemma args_followed x v d : args_of (p_push x (Punctuated v d)) = args_of x ++ [followed (arg_tree v) d].
Proof. unfold args_of. cbn. now rewrite map_app. Qed.

Lemma pack_first c t : pack c t -> exists r l, printed t = r :: l /\ terminal_of r <> TSym SRightParen.
Proof. intros H. inversion H; subst; spell; repeat eexists; congruence. Qed.
Lemma arguments_first c l k : function_arguments1 c l -> exists r m, flat_map printed l ++ k = r :: m /\ is_symbol r SRightParen = false.
Proof.
  assert (Z : forall r, terminal_of r <> TSym SRightParen -> is_symbol r SRightParen = false).
  { intros r H. destruct (is_symbol r SRightParen) eqn:E; [|reflexivity]. now apply sym_terminal in E. }
  assert (X : forall n t K, argument_name n -> type c t -> exists r m, printed n ++ printed t ++ K = r :: m /\ is_symbol r SRightParen = false).
  { intros n t K N T. destruct N; spell; [|repeat eexists; tests; reflexivity]. apply lead_type in T as (r & l' & -> & F & _). repeat eexists. tests. reflexivity. }
  intros H. inversion H; subst; spell; [apply X; assumption|edestruct pack_first as (r & m & -> & N); [eassumption|]; repeat eexists; auto|apply X; assumption].
Qed.
(** One argument, with or without a name. *)
Lemma run_argument {B} c p n t r K (f : option (tokref * tokref) -> tree -> M B) (other : M B) Q : good c p -> has_luau c = true ->
  argument_name n -> type c t -> terminal_of r = TSym SComma \/ terminal_of r = TSym SRightParen ->
  (forall o, opt_tree (option_map (fun n : tokref * tokref => Con CTuple [Tok (fst n); Tok (snd n)]) o) = n -> run (f o t) (r :: K) Q) ->
  run (let! o := current in
       match o with
       | None => other
       | Some t =>
         let! named := (if is_identifier t then let! q := peek in ret (is_sym q SColon) else ret false) in
         let! name := (if named then let! a := take in let! b := take in ret (Some (a, b)) else ret None) in
         let! r := p_type p in
         match r with Value ty => f name ty | _ => other end
       end) (printed n ++ printed t ++ r :: K) Q.
Proof.
  intros G L N T1 R HQ. assert (FR : forall n, follows (r :: K) (type_end n)) by (intros n'; apply follows_here; destruct R as [-> | ->]; reflexivity).
  destruct N as [|n d N D].
  - rewrite printed_con. cbn [flat_map app]. destruct (lead_here _ no_colon _ (r :: K) (lead_type _ _ T1)) as (u & m & E1 & F1 & N1).
    { apply follows_here. destruct R as [-> | ->]; reflexivity. }
    rewrite E1. rsteps. destruct (is_identifier u) eqn:I; rsteps.
    + apply name_terminal in I. destruct (N1 I) as (v & w & -> & F2). rsteps. rewrite <- E1. eapply run_gives; [apply (g_type _ _ G L); [eassumption|apply FR]|]. cbv iota. now apply HQ.
    + rewrite <- E1. eapply run_gives; [apply (g_type _ _ G L); [eassumption|apply FR]|]. cbv iota. now apply HQ.
  - spell. rsteps. eapply run_gives; [apply (g_type _ _ G L); [eassumption|apply FR]|]. cbv iota. now apply HQ.
Qed.
Lemma rt_function_arguments c p l b k : good c p -> has_luau c = true -> function_arguments c l -> sy b SRightParen ->
  run (loop (fun arguments =>
            let! o := current in
            if is_sym o SRightParen then ret (inr (Some arguments))
            else
              let! r := parse_type_pack p in
              match r with
              | Value ty => ret (inr (Some (p_push arguments (End (mkArg None ty)))))
              | LexerMoved => ret (inr None)
              | NotFound =>
                  let! o := current in
                  match o with
                  | None => ret (inr None)
                  | Some t =>
                      let! named := (if is_identifier t then let! q := peek in ret (is_sym q SColon) else ret false) in
                      let! name := (if named then let! a := take in let! b := take in ret (Some (a, b)) else ret None) in
                      let! r := p_type p in
                      match r with
                      | Value ty =>
                          let argument := mkArg name ty in
                          let! o := current in
                          if is_sym o SComma then
                            let! punctuation := take in
                            let arguments := p_push arguments (Punctuated argument punctuation) in
                            let! o := current in
                            match o with
                            | Some t =>
                                if is_symbol t SRightParen then
                                  token_error t (str "expected type after `,` but got `)` instead") ;;
                                  ret (inr (Some arguments))
                                else ret (inl arguments)
                            | None => ret (inl arguments)
                            end
                          else ret (inr (Some (p_push arguments (End argument))))
                      | _ => ret (inr None)
                      end
                  end
              end) p_new) (flat_map printed l ++ b :: k) (fun r s => exists x, r = Some x /\ args_of x = l /\ s = b :: k).
Proof.
  intros G L H B.
  apply (run_loop (fun x ts => exists todo, args_of x ++ todo = l /\ (todo = [] \/ function_arguments1 c todo) /\ ts = flat_map printed todo ++ b :: k)).
  { exists l. repeat split. inversion H; auto. }
  intros x ts (todo & E & T & ->). destruct T as [->|T].
  { cbn [flat_map app]. rsteps. rewrite app_nil_r in E. eauto. }
  destruct (arguments_first c todo (b :: k) T) as (r0 & m0 & E0 & F0). rewrite E0. rstep. rstep. cbn [is_sym]. rewrite F0. rewrite <- E0. clear E0 F0 r0 m0.
  apply run_bind.
  assert (X : forall n t r K, argument_name n -> type c t -> terminal_of r = TSym SComma \/ terminal_of r = TSym SRightParen ->
    gives (parse_type_pack p) (printed n ++ printed t ++ r :: K) NotFound (printed n ++ printed t ++ r :: K)).
  { intros n t r K N T1 R. destruct N as [|n d N D]; spell.
    - eapply no_pack_ts with (n := false); [|eapply lead_type; eassumption|apply follows_here; destruct R as [-> | ->]; reflexivity]. auto.
    - apply no_pack; [left; st|]. intros _. apply follows_here. now rewrite D. }
  destruct T as [n t N T|t P|n t d rest N T D T1]; spell.
  - eapply run_gives; [apply X; auto|]. cbv iota. eapply run_argument; [eassumption..|auto|]. intros o EO. cbv beta zeta. rsteps.
    eexists. split; [reflexivity|]. rewrite args_end. unfold arg_tree at 1. cbn [ta_name ta_type]. rewrite EO. auto.
  - eapply run_gives; [eapply rt_pack_; [eassumption..|fo]|]. rsteps. eexists. split; [reflexivity|]. rewrite args_end. auto.
  - eapply run_gives; [apply X; auto|]. cbv iota. eapply run_argument; [eassumption..|auto|]. intros o EO. cbv beta zeta. rsteps.
    destruct (arguments_first c rest (b :: k) T1) as (r0 & m0 & E0 & F0). rewrite E0. rstep. cbv iota. rewrite F0. rewrite <- E0. rsteps.
    exists rest. rewrite args_followed. unfold arg_tree at 1. cbn [ta_name ta_type]. rewrite EO, <- app_assoc. auto.
Qed.

(** ** Function types and types in parentheses *)
Lemma no_generics c p style r k : negb (term_symbol (terminal_of r) SLessThan) = true -> gives (parse_generic_type_list c p style) (r :: k) NotFound (r :: k).
Proof.
  intros H. unfold parse_generic_type_list. destruct (has_luau c); cbn [negb]; rsteps; [|auto]. rewrite test_symbol. apply negb_true_iff in H. rewrite H. rsteps. auto.
Qed.
Lemma rt_callback c p style g a b l w u k : good c p -> has_luau c = true -> optional (generics c false) g -> sy a SLeftParen -> sy b SRightParen -> function_arguments c l ->
  sy w SThinArrow -> gives (parse_return_type p) (printed u ++ k) (Value u) k ->
  gives (expect_function_type c p style) (printed (Nd KTypeCallback [g; between a b; listing l; Tok w; u]) ++ k) (Some (Nd KTypeCallback [g; between a b; listing l; Tok w; u])) k.
Proof.
  intros G L O A B F W R. unfold expect_function_type.
  assert (X : forall (f : pres tree -> M (option tree)) Q, (forall x, match x with Value y => Some y | _ => None end = None /\ g = none \/ (exists y, x = Value y /\ g = some y) -> x <> LexerMoved ->
     run (f x) (a :: flat_map printed l ++ b :: w :: printed u ++ k) Q) -> run (parse_generic_type_list c p Plain) (printed (Nd KTypeCallback [g; between a b; listing l; Tok w; u]) ++ k) (fun x s => run (f x) s Q)).
  { intros f Q HX. destruct O as [|g O]; spell.
    - eapply run_gives; [apply no_generics; st|]. apply HX; [auto|easy].
    - eapply run_gives; [apply rt_generics; eassumption|]. apply HX; [right; eauto|easy]. }
  destruct (printed (Nd KTypeCallback [g; between a b; listing l; Tok w; u]) ++ k) as [|r0 l0] eqn:E0.
  { exfalso. destruct O as [|y O]; revert E0; spell; [discriminate|]. inversion O; subst. spell. discriminate. }
  rstep. rstep. rstep. apply X. intros x HX NM. assert (EG : opt_tree (match x with Value y => Some y | _ => None end) = g).
  { destruct HX as [(-> & ->)|(y & -> & ->)]; reflexivity. }
  destruct x as [y| |]; [|easy|]; rsteps; (eapply run_conseq; [eapply rt_function_arguments; eassumption|]); intros r s (args & -> & <- & ->); rsteps;
  (match goal with |- run (if ?f then _ else _) _ _ => destruct f end); rsteps; (eapply run_gives; [exact R|]); rsteps; now rewrite <- EG.
Qed.
Lemma rt_function c p style t k : good c p -> has_luau c = true -> function_type c t -> follows k (type_end (ends_in_type_name t)) ->
  gives (expect_function_type c p style) (printed t ++ k) (Some t) k.
Proof. intros G L H K. inversion H; subst. apply rt_callback; try assumption. now apply (rt_return c). Qed.
Lemma rt_closed_function c p style g a b l w u k : good c p -> has_luau c = true -> optional (generics c false) g -> sy a SLeftParen -> sy b SRightParen -> function_arguments c l ->
  sy w SThinArrow -> closed_result c u -> follows k (simple_end false) ->
  gives (expect_function_type c p style) (printed (Nd KTypeCallback [g; between a b; listing l; Tok w; u]) ++ k) (Some (Nd KTypeCallback [g; between a b; listing l; Tok w; u])) k.
Proof. intros. apply rt_callback; try assumption. now apply (rt_closed_result c). Qed.

(** The arguments of a function type from the parts of a tuple. *)
Definition as_argument (t : tree) : tree :=
  match t with Con CEnd [t] => final (Nd KTypeArgument [none; t]) | Con CPunct [t; d] => Con CPunct [Nd KTypeArgument [none; t]; d] | _ => t end.
Lemma as_arguments c l : types_then_pack1 c l -> function_arguments1 c (map as_argument l) /\ flat_map printed (map as_argument l) = flat_map printed l.
Proof.
  induction 1 as [t T|t P|t d l T D _ (I & E)]; cbn [map as_argument].
  - split; [apply fa_last; [constructor|assumption]|]. spell. reflexivity.
  - split; [now apply fa_pack|]. spell. reflexivity.
  - split; [apply fa_more; [constructor|assumption..]|]. spell. now rewrite E.
Qed.
Definition is_item (t : tree) : Prop := match t with Con CEnd [_] | Con CPunct [_; Tok _] => True | _ => False end.
Lemma types_items c l : types_then_pack c l -> Forall is_item l.
Proof. intros [|m H]; [constructor|]. induction H; repeat constructor; auto. Qed.
Lemma args_types x l : Forall is_item l -> args_of x = map as_argument l ->
  existsb (fun a => match ta_name a with Some _ => true | None => false end) (p_iter x) = false /\ map (pair_tree (fun t => t)) (map (pair_map ta_type) (pairs x)) = l.
Proof.
  rewrite iter_eq. destruct x as [ps]. unfold args_of. cbn [pairs]. revert l. induction ps as [|y ps IH]; intros l F E; (destruct F as [|t l T F]; [|]); try discriminate; [auto|].
  cbn [map] in E. injection E as E1 E2. destruct (IH _ F E2) as (I & J). cbn [map existsb]. rewrite I, J.
  destruct y as [[n v]|[n v] d]; cbn [pair_tree arg_tree ta_name ta_type pair_value pair_map] in *; destruct t as [|cc cs|]; try easy; destruct cc; try easy;
    repeat (destruct cs as [|? cs]; try easy); cbn in E1; try (destruct t0; try easy); injection E1; intros; subst; destruct n; try discriminate; auto.
Qed.
Lemma type_not_variadic c t : type c t -> is_variadic t = false.
Proof.
  assert (X : forall t, member c t -> is_variadic t = false) by (intros x H; destruct H as [x H|]; [inversion H|]; reflexivity).
  intros []; try reflexivity. destruct H; try reflexivity. destruct H; [auto|inversion H; reflexivity].
Qed.
Lemma rt_tuple c p style a l b k : good c p -> has_luau c = true -> sy a SLeftParen -> types_then_pack c l -> sy b SRightParen ->
  style = AllowPack \/ (exists t, l = [final t] /\ is_variadic t = false) -> follows k (simple_end false) ->
  gives (expect_function_type c p style) (a :: flat_map printed l ++ b :: k) (Some (Nd KTypeTuple [between a b; listing l])) k.
Proof.
  intros G L A T B S (r & k' & -> & K). assert (F : function_arguments c (map as_argument l) /\ flat_map printed (map as_argument l) = flat_map printed l).
  { destruct T as [|m T]; [split; [constructor|reflexivity]|]. apply as_arguments in T as (T & E). split; [now constructor|assumption]. }
  destruct F as (F & EF). unfold expect_function_type. rsteps. eapply run_gives; [apply no_generics; st|]. cbv iota zeta. rsteps. rewrite <- EF.
  eapply run_conseq; [eapply rt_function_arguments; eassumption|]. intros o s (args & -> & E & ->). rsteps.
  destruct (args_types args l (types_items _ _ T) E) as (N & V). rewrite N. cbn [orb]. rsteps.
  assert (X : run (if Nat.eqb (p_len args) 1 then match p_iter args with [] => panic | a0 :: _ => ret (negb (is_variadic (ta_type a0))) end else ret false) (r :: k')
    (fun x s => x || allow_pack style = true /\ s = r :: k')).
  { unfold p_len. rewrite iter_eq. destruct S as [->|(t & -> & Y)].
    - destruct (pairs args) as [|y [|]]; cbn [List.length Nat.eqb map]; apply run_ret; cbn [allow_pack]; rewrite ?orb_true_r; auto.
    - destruct (pairs args) as [|y [|]]; try discriminate. cbn in V. injection V as V. destruct y as [y|]; try discriminate. cbn in V. injection V as V.
      cbn [List.length Nat.eqb map pair_value]. apply run_ret. rewrite V. rewrite Y. auto. }
  eapply run_conseq; [exact X|]. intros x s (EX & ->). cbv beta. apply run_ret. rewrite EX. apply run_ret.
  unfold puncts, punct, p_from_iter, p_pairs. cbn [pairs]. rewrite V. auto.
Qed.


(** ** Table types *)
Lemma access_test r : access r <-> is_access r = true.
Proof.
  unfold access, word, is_access. split.
  - intros [->| ->]; reflexivity.
  - destruct (t_type (r_token r)); try discriminate. intros H. apply orb_prop in H as [H|H]; apply LexerStep.text_eqb_eq in H; subst; auto.
Qed.
Lemma access_name r : access r -> nm r.
Proof. intros []; eapply word_name; eassumption. Qed.
Lemma key_first c ky d K : type_key c ky -> exists r m, printed ky ++ d :: K = r :: m /\ (nm r /\ m = d :: K \/ sy r SLeftBracket).
Proof. intros []; spell; eauto 6. Qed.
Lemma run_access {B} c (f : option tokref -> M B) a ky d K Q : field_access a -> type_key c ky -> sy d SColon ->
  (forall o, opt_tok o = a -> run (f o) (printed ky ++ d :: K) Q) ->
  run (let! o := current in
       let! access :=
         (if (match o with Some t => is_identifier t && is_access t | None => false end) then
            let! q := peek in
            if is_sym q SColon then ret None else let! t := take in ret (Some t)
          else ret None) in f access) (printed a ++ printed ky ++ d :: K) Q.
Proof.
  intros A Y D H. destruct (key_first c ky d K Y) as (r & m & E & R). destruct A as [|w A]; spell.
  - rewrite E in *. rsteps. destruct R as [(N & ->)|R]; rsteps; [|now apply H]. destruct (is_access r); rsteps; now apply H.
  - pose proof (access_name w A) as N. apply access_test in A. rewrite E in *. rsteps. rewrite A. rsteps. destruct R as [(R & ->)|R]; rsteps; now apply H.
Qed.
Lemma not_string_type c t : type c t -> first_of t <> Some TString -> match t with Nd KTypeString _ => false | _ => true end = true.
Proof.
  intros H N. destruct t as [| |k]; try reflexivity. destruct k; try reflexivity. exfalso. inversion H; subst. inversion H0; subst. inversion H1; subst; [|inversion H2].
  inversion H2; subst. inversion H3; subst. apply N. unfold first_of. spell. cbn. congruence.
Qed.
Lemma one_before l x r : one_indexer (l ++ x :: r) -> is_indexer x = true -> existsb is_indexer l = false.
Proof.
  unfold one_indexer. rewrite filter_app, app_length. intros H X. destruct (existsb is_indexer l) eqn:E; [|reflexivity]. exfalso.
  apply existsb_exists in E as (y & I & Y). cbn [filter] in H. rewrite X in H. cbn [List.length] in H.
  assert (Z : In y (filter is_indexer l)) by (now apply filter_In). destruct (filter is_indexer l); [destruct Z|]. cbn in H. lia.
Qed.
Lemma rt_table c p a l b k : good c p -> has_luau c = true -> sy b SRightBrace -> entries (type_field c) l -> one_indexer l ->
  gives (expect_type_table c p a) (flat_map printed l ++ b :: k) (Some (Nd KTypeTable [between a b; listing l])) k.
Proof.
  intros G L B H O. unfold expect_type_table. apply run_bind.
  eapply run_conseq with (P := fun r s => r = TableReturn (Some (Nd KTypeTable [between a b; listing l])) /\ s = k \/ exists f, r = TableBreak f None /\ trees f = l /\ s = b :: k).
  - apply (run_loop (fun '(f, i) ts => exists todo, trees f ++ todo = l /\ entries (type_field c) todo /\ i = existsb is_indexer (trees f) /\ ts = flat_map printed todo ++ b :: k)).
    { exists l. auto. }
    intros (f & i) ts (todo & E & T & EI & ->). match goal with |- run _ _ ?Q => set (QQ := Q) end. cbv beta iota zeta.
    assert (X : todo = [] \/ exists x rest tail, todo = x :: rest /\ (exists A K D Y, type_field c (Nd KTypeField [A; K; Tok D; Y]) /\ field_access A /\ type_key c K /\ sy D SColon /\ type c Y /\
       flat_map printed todo ++ b :: k = printed A ++ printed K ++ D :: printed Y ++ tail /\ 
       ((x = final (Nd KTypeField [A; K; Tok D; Y]) /\ rest = [] /\ tail = b :: k) \/
        exists q, x = followed (Nd KTypeField [A; K; Tok D; Y]) q /\ (sy q SComma \/ sy q SSemicolon) /\ tail = q :: flat_map printed rest ++ b :: k /\ entries (type_field c) rest))).
    { destruct T as [|t T|t q s rest T Q S T1]; [auto|right..]; inversion T; subst.
      - do 2 eexists. exists (b :: k). split; [reflexivity|]. do 4 eexists. split; [eassumption|]. do 4 (split; [eassumption|]). split; [spell; reflexivity|]. left. auto.
      - do 2 eexists. exists (q :: flat_map printed rest ++ b :: k). split; [reflexivity|]. do 4 eexists. split; [eassumption|]. do 4 (split; [eassumption|]). split; [spell; reflexivity|]. right. exists q. destruct S; subst; auto. }
    destruct X as [->|(x & rest & tail & -> & A & K & D & Y & TF & FA & TK & FD & TY & EP & TL)].
    { cbn [flat_map app]. rsteps. unfold QQ. left. rewrite trees_puncts. rewrite app_nil_r in E. rewrite E. auto. }
    rewrite EP. eapply run_access; [eassumption..|]. intros o EO.
    assert (FT : follows tail after_type /\ exists r, hd_error tail = Some r /\ (sy r SComma \/ sy r SSemicolon \/ sy r SRightBrace)).
    { destruct TL as [(_ & _ & ->)|(q & _ & [Q|Q] & -> & _)]; split; try fo; eexists; (split; [reflexivity|auto]). }
    destruct FT as (FT & _).
    assert (PU : forall i', i' = existsb is_indexer (trees f) || is_indexer x -> run (let! r := push_field f (Nd KTypeField [opt_tok o; K; Tok D; Y]) (fun fields => TableBreak fields None) in ret (match r with inl fields => inl (fields, i') | inr e => inr e end)) tail
      QQ).
    { intros i' EI'. unfold push_field, QQ. rewrite EO. destruct TL as [(-> & -> & ->)|(q & -> & Q & -> & TR)].
      - rsteps. right. eexists. split; [reflexivity|]. rewrite trees_end. auto.
      - destruct Q as [Q|Q]; rsteps; exists rest; rewrite trees_followed, <- app_assoc; repeat split; auto; rewrite existsb_app; cbn [existsb]; now rewrite orb_false_r. }
    assert (IX : is_indexer x = match K with Nd KTypeFieldKeyIndexSignature [_; t] => match t with Nd KTypeString _ => false | _ => true end | _ => false end).
    { destruct TL as [(-> & _ & _)|(q & -> & _)]; reflexivity. }
    destruct TK as [r N|u v r U V N|u v t U V N NS]; spell; rsteps.
    + destruct (p_is_empty f && negb i); rsteps; unfold parse_name; rsteps; rtype G L; cbn [n_name force_name]; apply PU; now rewrite IX, orb_false_r.
    + rtype G L; cbn [n_name force_name]; apply PU; now rewrite IX, orb_false_r.
    + destruct (printed t) as [|z zs] eqn:EZ; [now apply lead_type in N; destruct N as (? & ? & Z & _); congruence|]. cbn [app]. rsteps.
      assert (SZ : is_string z = false). { rewrite test_string. unfold first_of in NS. rewrite EZ in NS. cbn in NS. destruct (terminal_of z); congruence. }
      rewrite SZ. rsteps. change (z :: zs ++ v :: D :: printed Y ++ tail) with ((z :: zs) ++ v :: D :: printed Y ++ tail). rewrite <- EZ. rtype G L. rsteps. rtype G L.
      assert (IT : is_indexer x = true) by (rewrite IX; eapply not_string_type; eassumption).
      assert (IF : i = false). { rewrite EI. eapply one_before; [rewrite E; exact O|exact IT]. }
      rewrite IF. rstep. apply run_ret. apply PU. now rewrite IT, orb_true_r.
  - intros r s [(-> & ->)|(f & -> & E & ->)]; rsteps; [auto|]. rewrite trees_puncts, E. auto.
Qed.
Lemma rt_array c p a o t b k : good c p -> has_luau c = true -> sy b SRightBrace -> type c t ->
  o = none /\ (forall r l, printed t = r :: l -> ~ access r) \/ (exists r, o = some (Tok r) /\ access r) ->
  gives (expect_type_table c p a) (printed o ++ printed t ++ b :: k) (Some (Nd KTypeArray [between a b; o; t])) k.
Proof.
  intros G L B T O. unfold expect_type_table. apply run_bind.
  assert (X : exists r m, printed t ++ b :: k = r :: m /\ type_start (terminal_of r) = true /\ (nm r -> follows m no_colon)).
  { apply lead_here; [eapply lead_type; eassumption|fo]. }
  destruct X as (r & m & E & F & N).
  eapply run_conseq with (P := fun r s => exists w, opt_tok w = o /\ r = TableBreak p_new (Some (w, t)) /\ s = b :: k).
  - apply (run_loop (fun x ts => x = (p_new, false) /\ ts = printed o ++ printed t ++ b :: k)); [auto|]. intros x ts (-> & ->). cbv beta iota zeta. 
    destruct O as [(-> & NA)|(w & -> & A)]; spell.
    + rewrite E in *. assert (IA : is_access r = false).
      { destruct (is_access r) eqn:IA; [|reflexivity]. apply access_test in IA. destruct (printed t) as [|u us] eqn:EU; [apply lead_type in T as (? & ? & Z & _); congruence|].
        injection E as -> _. exact (False_ind _ (NA _ _ eq_refl IA)). }
      rsteps. rewrite IA, andb_false_r. rsteps. cbn [p_is_empty p_len pairs p_new List.length Nat.eqb andb negb].
      assert (Z : run (if is_identifier r then let! q := peek in ret (negb (is_sym q SColon)) else ret true) (r :: m) (fun x s => x = true /\ s = r :: m)).
      { destruct (is_identifier r) eqn:I; rsteps; [|auto]. apply name_terminal in I. destruct (N I) as (u & v & -> & FU). rsteps. auto. }
      eapply run_gives; [exact Z|]. cbv iota. rewrite <- E. rstep. rtype G L. rsteps. exists None. auto.
    + pose proof (access_name w A) as NW. apply access_test in A. rewrite E. rsteps. rewrite A. rsteps. cbn [is_sym].
      cbn [p_is_empty p_len pairs p_new List.length Nat.eqb andb negb].
      assert (Z : run (if is_identifier r then let! q := peek in ret (negb (is_sym q SColon)) else ret true) (r :: m) (fun x s => x = true /\ s = r :: m)).
      { destruct (is_identifier r) eqn:I; rsteps; [|auto]. apply name_terminal in I. destruct (N I) as (u & v & -> & FU). rsteps. auto. }
      eapply run_gives; [exact Z|]. cbv iota. rewrite <- E. rstep. rtype G L. rsteps. exists (Some w). auto.
  - intros x s (w & <- & -> & ->). rsteps. auto.
Qed.
