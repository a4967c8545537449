(** Parsing undoes printing (C48): names with types and attributes, function bodies. *)
From Verif Require Import LexerSpec PunctuatedProofs.
From Verif Require Export Round7.
From Coq Require Import Lia.
Local Open Scope nat_scope.
Import ListNotations.

(** ** Names with types or attributes *)
Lemma rt_force_type c p n t k : good c p -> optional (specifier c) t -> follows k after_type ->
  exists o, opt_tree o = t /\ gives (force_name_with_type_specifiers c p n) (printed t ++ k) (mkName n None o) k.
Proof.
  intros G H K0. pose proof K0 as (r & k' & -> & K). unfold force_name_with_type_specifiers. inversion H as [|x X]; subst; spell.
  - exists None. split; [reflexivity|]. destruct (has_luau c); rsteps; auto.
  - inversion X as [d y L D Y]; subst. spell. exists (Some (Nd KTypeSpecifier [Tok d; y])). split; [reflexivity|]. rewrite L. rsteps. unfold expect_type_specifier. rsteps. rtype G L. rsteps. auto.
Qed.
Lemma rt_typed_name c p n t k : good c p -> nm n -> optional (specifier c) t -> follows k after_type ->
  exists o, opt_tree o = t /\ gives (parse_name_with_type_specifiers c p) (n :: printed t ++ k) (Value (mkName n None o)) k.
Proof.
  intros G N H K. destruct (rt_force_type c p n t k G H K) as (o & E & R). exists o. split; [assumption|]. unfold parse_name_with_type_specifiers. rsteps. eapply run_gives; [exact R|]. rsteps. auto.
Qed.
Lemma rt_bound_name c p n a t k : good c p -> nm n -> bound c a t -> follows k after_type ->
  exists x o, opt_tree x = a /\ opt_tree o = t /\ gives (parse_name_with_attributes c p) (n :: printed a ++ printed t ++ k) (Value (mkName n x o)) k.
Proof.
  intros G N H K. unfold parse_name_with_attributes, force_name_with_attributes. inversion H as [y T|l m r V LA M R]; subst.
  - destruct (rt_force_type c p n t k G T K) as (o & E & R). exists None, o. split; [reflexivity|]. split; [assumption|]. rewrite (printed_con CNone). cbn [flat_map app]. rsteps.
    destruct (negb (has_lua54 c) && negb (has_cfxlua c)); [eapply run_gives; [exact R|]; rsteps; auto|].
    assert (X : exists u m, printed t ++ k = u :: m /\ is_symbol u SLessThan = false).
    { destruct T as [|t T]; spell; [|inversion T; subst; spell; eexists _, _; split; [reflexivity|tests; reflexivity]]. destruct K as (u & m & -> & F). eexists _, _. split; [reflexivity|tests; reflexivity]. }
    destruct X as (u & m & EX & XF). rewrite EX in *. rsteps. rewrite XF. eapply run_gives; [exact R|]. rsteps. auto.
  - exists (Some (Nd KAttribute [between l r; Tok m])), None. split; [reflexivity|]. split; [reflexivity|]. spell. rsteps.
    assert (X : negb (has_lua54 c) && negb (has_cfxlua c) = false) by (destruct V as [-> | ->]; rewrite ?andb_false_r; reflexivity). rewrite X. rsteps. auto.
Qed.

(** ** Function bodies *)
Lemma statement_ends {A} c s (f : tokref * tokref -> M A) ts Q : statement c s -> (forall x, run (f x) ts Q) -> run (ends_of s) ts (fun a s => run (f a) s Q).
Proof. intros S H. apply run_ends_of; [eapply follows_not_nil, statement_first; eassumption|]. intros x. apply H. Qed.
Lemma rt_block_end c p name start b e k : good c p -> block c b -> sy e SEnd -> gives (expect_block_with_end c p name start) (printed b ++ e :: k) (Some (b, e)) k.
Proof.
  intros G H E. unfold expect_block_with_end. apply run_bind. eapply run_gives; [apply (g_block _ _ G); [assumption|]|].
  { exists e, k. split; [reflexivity|]. rewrite E. split; [reflexivity|]. eapply test_interpolated; [eassumption|discriminate]. }
  cbv iota. apply run_bind. inversion H as [l z L A Z]; subst. cbn [block_last_stmt].
  assert (X : forall r, run (let! o := require_with_reference_range SEnd (str "expected `end` to close " ++ name ++ str " block") (fst r) (snd r) in
                    let! end_token := match o with Some e => ret e | None => basic c (str "end") end in ret (Some (Nd KBlock [vector l; z], end_token))) (e :: k) (fun r s => r = Some (Nd KBlock [vector l; z], e) /\ s = k)).
  { intros r. rsteps. auto. }
  destruct Z as [|z Z].
  - unfold block_last_of_stmts. cbn [block_stmts]. destruct (rev l) as [|x m] eqn:ER; [apply run_ret, X|].
    assert (LX : line c x) by (rewrite Forall_forall in L; apply L, in_rev; rewrite ER; now left). inversion LX; subst. eapply statement_ends; eauto.
  - inversion Z; subst. apply run_ends_of; [eapply last_statement_not_nil; eassumption|]. exact X.
Qed.

Lemma rt_dots c p t k : good c p -> has_luau c = true -> optional (dots_specifier c) t -> follows k after_type ->
  exists o, opt_tree o = t /\ gives (ellipsis_specifier p) (printed t ++ k) (Some o) k.
Proof.
  intros G L H K0. pose proof K0 as (r & k' & -> & K). unfold ellipsis_specifier. inversion H as [|x X]; subst; spell.
  - exists None. split; [reflexivity|]. rsteps. auto.
  - inversion X as [d y D Y|d n e D N E]; subst; spell.
    + exists (Some (Nd KTypeSpecifier [Tok d; y])). split; [reflexivity|]. rsteps.
      destruct (lead_here _ _ _ (r :: k') (lead_type c y Y)) as (u & m & EU & FU & NU).
      { apply follows_here. revert K. destruct (terminal_of r) as [| | |[]|]; cbn; congruence. }
      rewrite EU. rsteps. cbn [is_ident].
      assert (Z : gives (if is_identifier u then let! q := peek in ret (is_sym q SEllipsis) else ret false) (u :: m) false (u :: m)).
      { destruct (is_identifier u) eqn:I; rsteps; [|auto]. apply name_terminal in I. destruct (NU I) as (v & w & -> & FV). rsteps. auto. }
      eapply run_gives; [exact Z|]. cbv iota. rewrite <- EU. rstep. rtype G L. rsteps. auto.
    + eexists (Some _). split; [reflexivity|]. rsteps. cbn [is_ident]. rsteps. unfold parse_name. rsteps. auto.
Qed.
Definition ptoks (l ts : list tree) : list tokref := zip_pick printed true l [ts].
Lemma rt_parameters c p l ts b k : good c p -> body_parameters c l ts -> sy b SRightParen ->
  run (parameter_loop c p) (ptoks l ts ++ b :: k) (fun r s => s = k /\ exists x, r = inr (x, ts, b) /\ trees x = l /\ (forall v q rest, p_pop x <> (Some (Punctuated v q), rest))).
Proof.
  intros G H B. unfold parameter_loop.
  apply (run_loop (fun '(x, y) s => exists todo tt, trees x ++ todo = l /\ y ++ tt = ts /\ s = ptoks todo tt ++ b :: k /\
     (todo = [] /\ tt = [] /\ x = p_new \/ parameters (optional (specifier c)) (optional (dots_specifier c)) (has_luau c) todo tt))).
  - exists l, ts. repeat split. inversion H; auto.
  - intros (x & y) s (todo & tt & E & ET & -> & T). cbv beta iota. destruct T as [(-> & -> & ->)|T].
    + cbn [ptoks zip_pick app]. rsteps. split; [reflexivity|]. rewrite app_nil_r in ET. exists p_new. rewrite ET. rewrite app_nil_r in E. repeat split; auto. discriminate.
    + assert (PE : forall v w q rest, p_pop (p_push x (End v)) <> (Some (Punctuated w q), rest)).
      { intros v w q rest. rewrite pop_push. discriminate. }
      unfold ptoks. inversion T as [n t N TT|d t L D TT|d L D|n d t todo' tt' N D TT T1]; subst todo tt; cbn [zip_pick subs at_ nth_error flat_map map tl]; spell.
      * destruct (rt_typed_name c p n t (b :: k) G N TT) as (o & EO & R); [fo|]. rsteps. eapply run_gives; [exact R|]. rsteps. split; [reflexivity|].
        eexists. cbn [n_type_specifier n_name]. rewrite EO, ET. split; [reflexivity|]. rewrite trees_end. auto.
      * rsteps. rewrite L. rstep. destruct (rt_dots c p t (b :: k) G L TT) as (o & EO & R); [fo|]. try rstep. eapply run_gives; [exact R|]. rsteps. split; [reflexivity|].
        eexists. rewrite EO, ET. split; [reflexivity|]. rewrite trees_end. auto.
      * rsteps. rewrite L. rsteps. split; [reflexivity|]. rewrite app_nil_r in ET. eexists. rewrite ET. split; [reflexivity|]. rewrite trees_end. auto.
      * destruct (rt_typed_name c p n t (d :: zip_pick printed true todo' [tt'] ++ b :: k) G N TT) as (o & EO & R); [fo|]. rsteps. eapply run_gives; [exact R|]. rsteps.
        exists todo', tt'. rewrite trees_followed, <- !app_assoc. cbn [n_type_specifier n_name]. rewrite EO. auto.
Qed.
Lemma printed_body g a b l ts r x e : printed (Nd KFunctionBody [g; between a b; listing l; vector ts; r; x; Tok e]) = printed g ++ a :: ptoks l ts ++ b :: printed r ++ printed x ++ [e].
Proof. unfold ptoks. spell. reflexivity. Qed.
Lemma block_first c b k : block c b -> follows k after_type -> follows (printed b ++ k) after_type.
Proof.
  intros H K. inversion H as [l z L A Z]; subst. spell. destruct L as [|x l X L]; cbn [flat_map app].
  - destruct Z as [|z Z]; spell; [assumption|]. inversion Z as [s o S O]; subst. inversion S; subst; spell; try fo.
    apply follows_here. match goal with W : word _ _ |- _ => rewrite (word_name _ _ W) end. reflexivity.
  - inversion X as [s o S O]; subst. spell. apply follows_app. eapply follows_weaken; [|eapply statement_first; eassumption]. intros y. destruct y as [| | |[]|]; cbn; congruence.
Qed.
Lemma rt_return_type c p r k : good c p -> optional (result_specifier c) r -> follows k after_type -> exists o, opt_tree o = r /\ gives (body_return_type c p) (printed r ++ k) (Some o) k.
Proof.
  intros G H K. unfold body_return_type. inversion H as [|x X]; subst; spell.
  - exists None. split; [reflexivity|]. destruct K as (r & k' & -> & K). destruct (has_luau c); rsteps; auto.
  - inversion X as [d y L D Y]; subst. spell. exists (Some (Nd KTypeSpecifier [Tok d; y])). split; [reflexivity|]. rewrite L. rsteps. eapply run_gives; [eapply rt_return; try eassumption; now apply after_end|]. rsteps. auto.
Qed.
Lemma rt_body c p b k : good c p -> function_body c b -> gives (parse_function_body c p) (printed b ++ k) (Value b) k.
Proof.
  intros G H. inversion H as [g a l ts z r x e BG A BP B R X E]; subst. rewrite printed_body. unfold parse_function_body. apply run_bind.
  assert (Y : exists o, opt_tree o = g /\ run (if has_luau c then parse_generic_type_list c p Plain else ret NotFound) ((printed g ++ a :: ptoks l ts ++ z :: printed r ++ printed x ++ [e]) ++ k)
     (fun y s => y <> LexerMoved /\ match y with Value g => Some g | _ => None end = o /\ s = a :: ptoks l ts ++ z :: printed r ++ printed x ++ e :: k)).
  { inversion BG as [|g' L GG]; subst; spell.
    - exists None. split; [reflexivity|]. destruct (has_luau c); [eapply run_gives; [apply no_generics; st|]|apply run_ret]; repeat split; discriminate.
    - eexists (Some _). split; [reflexivity|]. rewrite L. eapply run_gives; [apply (rt_generics c p Plain g' _ G L GG)|]. repeat split; discriminate. }
  destruct Y as (o & EO & Y). eapply run_conseq; [exact Y|]. intros y s (NL & EY & ->).
  assert (W : gives (let! o0 := consume_if SLeftParen in
     match o0 with
     | Some left_parenthesis =>
         let! r := parameter_loop c p in
         match r with
         | inl parameters => unfinished_function_body c left_parenthesis parameters
         | inr (parameters, type_specifiers, right_parenthesis) =>
              let! parameters :=
                (match p_pop parameters with
                 | (Some (Punctuated v q), rest) =>
                     token_error q (str "trailing commas in arguments are not allowed") ;; ret (p_push rest (End v))
                 | _ => ret parameters
                 end) in
              let! rt := body_return_type c p in
              match rt with
              | None => ret LexerMoved
              | Some return_type =>
                  let! r := expect_block_with_end c p (str "function body") right_parenthesis in
                  match r with
                  | None => ret LexerMoved
                  | Some (block, e) =>
                      ret (Value (Nd KFunctionBody [opt_tree o; span left_parenthesis right_parenthesis; puncts parameters;
                                                    vec type_specifiers; opt_tree return_type; block; Tok e]))
                  end
              end
         end
     | None => ret NotFound
     end) (a :: ptoks l ts ++ z :: printed r ++ printed x ++ e :: k) (Value (Nd KFunctionBody [g; between a z; listing l; vector ts; r; x; Tok e])) k).
  { rsteps. eapply run_conseq; [apply rt_parameters; eassumption|]. intros q s (-> & w & -> & EW & PW). cbv iota. rstep.
    assert (V : gives (match p_pop w with
                 | (Some (Punctuated v q), rest) =>
                     token_error q (str "trailing commas in arguments are not allowed") ;; ret (p_push rest (End v))
                 | _ => ret w
                 end) (printed r ++ printed x ++ e :: k) w (printed r ++ printed x ++ e :: k)).
    { destruct (p_pop w) as ([[v|v q]|] & rest) eqn:EP; try (apply run_ret; auto). exfalso. now apply (PW v q rest). }
    eapply run_gives; [exact V|]. destruct (rt_return_type c p r (printed x ++ e :: k) G R) as (u & EU & RU); [eapply block_first; [eassumption|fo]|].
    rstep. eapply run_gives; [exact RU|]. cbv iota. rstep. eapply run_gives; [eapply rt_block_end; eassumption|]. cbv iota. apply run_ret. rewrite EO, EU, trees_puncts, EW. auto. }
  rewrite <- EY in W. destruct y as [y| |]; [exact W|easy|exact W].
Qed.
