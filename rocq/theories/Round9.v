(** Parsing undoes printing (C48): attributes, interpolated strings, operands, expressions. *)
From Verif Require Import LexerSpec PunctuatedProofs.
From Verif Require Export Round8.
From Coq Require Import Lia.
Local Open Scope nat_scope.
Import ListNotations.

(** ** Attributes *)
Lemma rt_attributes c l r k : Forall (attribute c) l -> l <> [] -> is_symbol r SAtSign = false -> gives parse_attributes (flat_map printed l ++ r :: k) (Value l) (r :: k).
Proof.
  intros F N R. unfold parse_attributes.
  assert (X : exists a m, flat_map printed l ++ r :: k = a :: m /\ sy a SAtSign).
  { destruct F as [|x l X F]; [easy|]. inversion X; subst. spell. eauto. }
  destruct X as (a & m & E & A). rewrite E. rsteps. rewrite <- E.
  apply (run_loop (fun x s => exists todo, x ++ todo = l /\ s = flat_map printed todo ++ r :: k)); [exists l; auto|].
  intros x s (todo & EX & ->). rewrite <- EX in F. apply Forall_app in F as (_ & F). destruct F as [|y todo Y F]; cbn [flat_map app].
  - rewrite app_nil_r in EX. subst x. rsteps. rewrite R. rsteps. auto.
  - inversion Y; subst. spell. unfold parse_name. rsteps. exists todo. rewrite <- app_assoc. auto.
Qed.

(** ** Interpolated strings *)
Lemma section_type k r : section k r -> exists w, t_type (r_token r) = TInterpolatedString w k.
Proof. auto. Qed.
Lemma rt_no_brace c r e k : expression c e -> (r_trailing r = [] -> ~ starts_with SLeftBrace e) ->
  gives (match r_trailing r with
       | [] =>
           let! o := consume_if SLeftBrace in
           match o with
           | Some double_brace =>
               token_error double_brace (str "unexpected double brace, try \{ if you meant to escape") ;; ret true
           | None => ret false
           end
       | _ => ret false
       end) (printed e ++ k) false (printed e ++ k).
Proof.
  intros E H. destruct (r_trailing r); [|now apply run_ret]. destruct (expression_first c e E) as (u & m & EU & _).
  assert (X : is_symbol u SLeftBrace = false).
  { rewrite test_symbol. destruct (term_symbol (terminal_of u) SLeftBrace) eqn:T; [|reflexivity]. exfalso. apply (H eq_refl). unfold starts_with, first_of. rewrite EU. cbn. f_equal.
    destruct (terminal_of u) as [| | |[]|]; try discriminate T; reflexivity. }
  rewrite EU. cbn [app]. rsteps. rewrite X. rsteps. auto.
Qed.
Lemma rt_holes c p l z k : good c p -> holes c IBegin l -> section IEnd z ->
  exists r m, flat_map printed l ++ z :: k = r :: m /\ section IBegin r /\ gives (expect_interpolated_string p r) m (Nd KInterpolatedString [vector l; Tok z]) k.
Proof.
  intros G H Z. assert (X : exists r m, flat_map printed l ++ z :: k = r :: m /\ section IBegin r) by (inversion H; subst; spell; eauto).
  destruct X as (r & m & E & R). exists r, m. repeat split; [assumption..|]. unfold expect_interpolated_string. apply run_bind.
  eapply run_conseq with (P := fun x s => x = (l, Some z) /\ s = k); [|intros x s (-> & ->); destruct l; rsteps; auto].
  apply (run_loop (fun '(x, u) s => exists q todo, x ++ todo = l /\ holes c q todo /\ u :: s = flat_map printed todo ++ z :: k)); [exists IBegin, l; auto|].
  intros (x & u) s (q & todo & EX & T & ES). cbv beta iota. apply run_bind.
  assert (Y : exists e todo', todo = Nd KInterpolatedStringSegment [Tok u; e] :: todo' /\ expression c e /\ (r_trailing u = [] -> ~ starts_with SLeftBrace e) /\ s = printed e ++ flat_map printed todo' ++ z :: k /\ (todo' = [] \/ exists q', q' <> IEnd /\ holes c q' todo')).
  { inversion T as [? ? ? ? ? ?|? ? ? ? ? ? ? MH]; subst; [|inversion MH; subst]; cbn [flat_map app] in ES; revert ES; spell; intros ES; injection ES as -> ->; eexists _, _; repeat split; eauto. }
  destruct Y as (e & todo' & -> & EE & ET & -> & T'). eapply run_gives; [eapply rt_no_brace; eassumption|]. apply run_bind.
  assert (Y : exists v y w q', flat_map printed todo' ++ z :: k = v :: y /\ t_type (r_token v) = TInterpolatedString w q' /\ (todo' = [] /\ q' = IEnd \/ todo' <> [] /\ q' <> IEnd /\ holes c q' todo')).
  { destruct T' as [->|(q' & NQ & T')]; [destruct Z as (w & Z); cbn; eauto 10|]. pose proof T' as T0. inversion T'; subst; match goal with S : section _ _ |- _ => destruct S as (w & S) end; spell; eexists _, _, w, q'; (split; [reflexivity|]); (split; [eassumption|]); right; repeat split; auto; discriminate. }
  destruct Y as (v & y & w & q' & EV & V & QQ). rewrite EV. eapply run_gives; [apply (g_exp _ _ G); [assumption|]|].
  { apply fo_stop, follows_here. unfold terminal_of. now rewrite V. }
  cbv iota. rsteps. rewrite V. destruct QQ as [(-> & ->)|(NT & NQ & TQ)].
  - cbn [flat_map app] in EV. injection EV as <- <-. rsteps. rewrite EX. auto.
  - destruct q'; try easy; rsteps; eexists _, todo'; rewrite <- app_assoc; eauto.
Qed.

(** ** Operands *)
Lemma test_number_type r : terminal_of r = TNumeral -> (match t_type (r_token r) with TNumber _ => true | _ => false end) = true.
Proof. unfold terminal_of. now destruct (t_type (r_token r)). Qed.
Lemma test_no_number x r : terminal_of r = x -> x <> TNumeral -> (match t_type (r_token r) with TNumber _ => true | _ => false end) = false.
Proof. intros <-. unfold terminal_of. now destruct (t_type (r_token r)). Qed.
Lemma rt_anonymous c p l f b k : good c p -> sy f SFunction -> function_body c b ->
  gives (anonymous_function c p l) (f :: printed b ++ k) (Value (Nd KExprFunction [Nd KAnonymousFunction [vector l; Tok f; b]])) k.
Proof. intros G F B. unfold anonymous_function. rsteps. eapply run_gives; [now apply rt_body|]. rsteps. auto. Qed.

Ltac nonum := first [rewrite test_number_type by assumption | erewrite test_no_number by first [eassumption | discriminate]].
Lemma rt_variable_arm c p x l k r m : good c p -> prefix_expression c x -> Forall (suffix c) l -> no_suffix k -> printed x ++ flat_map printed l ++ k = r :: m ->
  gives (primary_arm c p) (r :: m) (Value (match l with
     | [] => match x with Nd KPrefixExpression [e] => e | Nd KPrefixName [Tok r] => Nd KExprVar [Nd KVarName [Tok r]] | _ => x end
     | _ => if ends_in_call l then Nd KExprFunctionCall [Nd KFunctionCall [x; vector l]] else Nd KExprVar [Nd KVarExpr [Nd KVarExpression [x; vector l]]] end), false) k.
Proof.
  intros G X F K E. destruct (rt_suffixes c p x l k G X F K) as (y & EY & R). rewrite E in R. pose proof (last_call l) as LC.
  assert (S : terminal_of r = TName \/ sy r SLeftParen).
  { pose proof (prefix_first c x (flat_map printed l ++ k) X) as (r' & m' & E' & F'). rewrite E in E'. injection E' as <- <-. destruct (terminal_of r) as [| | |[]|]; try discriminate F'; auto. }
  assert (W : gives (let! r := parse_prefix_and_suffixes c p in
        match r with
        | LexerMoved => ret (LexerMoved, true)
        | NotFound => panic
        | Value (x, suffixes) =>
            match last_of suffixes with
            | None =>
                match x with
                | PrefixExpression e => ret (Value e, false)
                | PrefixName r => ret (Value (Nd KExprVar [Nd KVarName [Tok r]]), false)
                end
            | Some l =>
                if is_call l then ret (Value (Nd KExprFunctionCall [Nd KFunctionCall [prefix_tree x; vec suffixes]]), false)
                else ret (Value (Nd KExprVar [Nd KVarExpr [Nd KVarExpression [prefix_tree x; vec suffixes]]]), false)
            end
        end) (r :: m) (Value (match l with
     | [] => match x with Nd KPrefixExpression [e] => e | Nd KPrefixName [Tok r] => Nd KExprVar [Nd KVarName [Tok r]] | _ => x end
     | _ => if ends_in_call l then Nd KExprFunctionCall [Nd KFunctionCall [x; vector l]] else Nd KExprVar [Nd KVarExpr [Nd KVarExpression [x; vector l]]] end), false) k).
  { apply run_bind. eapply run_gives; [exact R|]. cbv iota. destruct (last_of l) as [z|] eqn:EL.
    - rewrite LC, EY. destruct l as [|x0 l]; [discriminate EL|]. destruct (ends_in_call (x0 :: l)); apply run_ret; auto.
    - subst l. destruct y; subst x; apply run_ret; auto. }
  unfold primary_arm. apply run_bind, run_current. cbv iota. destruct S as [S|S]; tests; rewrite ?andb_false_r; cbn [orb]; nonum; exact W.
Qed.
Lemma rt_arm c p e k : good c p -> atom c e -> (open e = true -> no_suffix k) -> gives (primary_arm c p) (printed e ++ k) (Value e, false) k.
Proof.
  intros G H K. inversion H as [s r S R|r R|r R|l f b FA LF F B|e' P|r N|x l P F NN NC|x l P F C|t T|r L S|l z L HO Z]; subst.
  - spell. unfold primary_arm. decompose [or] S; subst; rsteps; rewrite ?andb_false_r; cbn [orb]; rsteps; auto.
  - spell. unfold primary_arm. rsteps. rewrite ?andb_false_r; cbn [orb]. nonum. rsteps. auto.
  - spell. unfold primary_arm. rsteps. rewrite ?andb_false_r; cbn [orb]. rsteps. auto.
  - spell. destruct l as [|x' l'].
    + cbn [flat_map app]. unfold primary_arm. rsteps. rewrite ?andb_false_r; cbn [orb]. rsteps. eapply run_gives; [now apply rt_anonymous|]. rsteps. auto.
    + inversion FA as [|x0 l0 X0 F0]; subst. inversion X0 as [a n AT N]; subst. specialize (LF ltac:(discriminate)).
      spell. unfold primary_arm. rsteps. rewrite LF. rsteps.
      assert (Y : gives parse_attributes (a :: n :: flat_map printed l' ++ f :: printed b ++ k) (Value (Nd KLuauAttribute [Tok a; Tok n] :: l')) (f :: printed b ++ k)).
      { pose proof (rt_attributes c _ f (printed b ++ k) FA) as Y. revert Y. spell. intros Y. apply Y; [discriminate|tests; reflexivity]. }
      eapply run_gives; [exact Y|]. rsteps. eapply run_gives; [now apply rt_anonymous|]. rsteps. auto.
  - inversion P; subst. pose proof (rt_variable_arm c p (Nd KPrefixExpression [Nd KExprParentheses [between a b; e0]]) [] k) as Y. revert Y. spell. intros Y. eapply Y; [assumption|now constructor|constructor|now apply K|reflexivity].
  - pose proof (rt_variable_arm c p (Nd KPrefixName [Tok r]) [] k) as Y. revert Y. spell. intros Y. eapply Y; [assumption|now constructor|constructor|now apply K|reflexivity].
  - destruct l as [|x0 l]; [easy|]. pose proof (rt_variable_arm c p x (x0 :: l) k) as Y. rewrite NC in Y. spell. destruct (prefix_first c x (flat_map printed (x0 :: l) ++ k) P) as (r & m & E & _).
    cbn [flat_map] in E. rewrite <- app_assoc in E. rewrite E. apply Y; auto. cbn [flat_map]. now rewrite <- app_assoc.
  - destruct l as [|x0 l]; [discriminate C|]. pose proof (rt_variable_arm c p x (x0 :: l) k) as Y. rewrite C in Y. spell. destruct (prefix_first c x (flat_map printed (x0 :: l) ++ k) P) as (r & m & E & _).
    cbn [flat_map] in E. rewrite <- app_assoc in E. rewrite E. apply Y; auto. cbn [flat_map]. now rewrite <- app_assoc.
  - inversion T; subst. spell. unfold primary_arm. rsteps. rewrite ?andb_false_r; cbn [orb]. nonum. rsteps. eapply run_gives; [now apply rt_table_constructor|]. rsteps. auto.
  - spell. pose proof (section_other _ _ S) as O. destruct S as (w & S). unfold primary_arm. rsteps. rewrite ?andb_false_r; cbn [orb]. rewrite S, L. cbv iota. rsteps. auto.
  - spell. destruct (rt_holes c p l z k G HO Z) as (r & m & E & R & Y). rewrite E. pose proof (section_other _ _ R) as O. destruct R as (w & R). unfold primary_arm. rsteps. rewrite ?andb_false_r; cbn [orb]. rewrite R, L. cbv iota. rsteps.
    eapply run_gives; [exact Y|]. rsteps. auto.
Qed.

Lemma atom_edges c e : atom c e -> ends_in_if e = false /\ ends_in_type e = false /\ casts e = false.
Proof. intros H. inversion H; subst; auto. match goal with P : parenthesised _ _ |- _ => inversion P; subst end. auto. Qed.
Lemma follow_after_type c q e k : follow c q e k -> ends_in_type e = true -> follows k (type_end (ends_in_type_name e)).
Proof.
  intros [k' F|r s u k' R B _ _ T _|r k' R _] E.
  - eapply follows_weaken; [|exact F]. intros x X. eapply after_type_end, stop_after_type, X.
  - apply follows_here. rewrite R. unfold goes_on in T. rewrite E in T. destruct s; try discriminate T; try easy; try reflexivity. cbn. now rewrite T.
  - apply follows_here. now rewrite R.
Qed.
Lemma follow_no_cast c q e k : follow c q e k -> casts e = false -> has_luau c = true -> exists r l, k = r :: l /\ is_symbol r STwoColons = false.
Proof.
  intros [k' (r & l & -> & F)|r s u k' R B _ _ _ _|r k' _ C] N L; [| |congruence].
  - exists r, l. split; [reflexivity|]. rewrite test_symbol. destruct (terminal_of r) as [| | |[]|]; try reflexivity; cbn in F; rewrite L in F; discriminate F.
  - exists r, (u :: k'). split; [reflexivity|]. rewrite test_symbol, R. destruct s; try easy; reflexivity.
Qed.
(** The end of [parse_primary_expression] where no type follows. *)
Lemma rt_no_cast c p e k q : casts e = false -> has_luau c = false \/ follow c q e k ->
  gives (if has_luau c then
        let! o := consume_if STwoColons in
        match o with
        | Some assertion_op =>
            let! r := p_type p in
            match r with
            | Value cast_to => ret (Value (Nd KExprTypeAssertion [e; Nd KTypeAssertion [Tok assertion_op; cast_to]]))
            | _ => ret LexerMoved
            end
        | None => ret (Value e)
        end
      else ret (Value e)) k (Value e) k.
Proof.
  intros N H. destruct (has_luau c) eqn:L; [|now apply run_ret]. destruct H as [H|H]; [discriminate|]. destruct (follow_no_cast c q e k H N L) as (r & l & -> & F). rsteps. rewrite F. rsteps. auto.
Qed.
Lemma unary_edges s o e f : (forall k, k = KExprUnary -> f k = false) -> on_edge f (Nd KExprUnary [Nd (KUnOp s) [Tok o]; e]) = on_edge f e.
Proof. intros H. cbn. now rewrite H. Qed.
Lemma rt_else_ifs c p l r k : good c p -> else_ifs c l -> sy r SElse ->
  run (loop (fun else_ifs =>
                let! o := consume_if SElseIf in
                match o with
                | None => ret (inr (Some else_ifs))
                | Some else_if_token =>
                    let! r := p_expression p in
                    match r with
                    | Value condition =>
                        let! o := require SThen (str "expected `then` after condition") in
                        match o with
                        | None => ret (inr None)
                        | Some then_token =>
                            let! r := p_expression p in
                            match r with
                            | Value expression =>
                                ret (inl (else_ifs ++ [Nd KElseIfExpression [Tok else_if_token; condition; Tok then_token; expression]]))
                            | _ => ret (inr None)
                            end
                        end
                    | _ => ret (inr None)
                    end
                end) []) (printed l ++ r :: k) (fun x s => exists m, x = Some m /\ opt_tree (match m with [] => None | _ => Some (vec m) end) = l /\ s = r :: k).
Proof.
  intros G H R. assert (X : exists m, Forall (else_if c) m /\ opt_tree (match m with [] => None | _ => Some (vec m) end) = l /\ printed l = flat_map printed m).
  { inversion H as [|x m F]; subst; [exists []; auto|]. exists (x :: m). repeat split; [assumption|]. spell. reflexivity. }
  destruct X as (m & F & EM & ->).
  apply (run_loop (fun x s => exists todo, x ++ todo = m /\ s = flat_map printed todo ++ r :: k)); [exists m; auto|].
  intros x s (todo & EX & ->). rewrite <- EX in F. apply Forall_app in F as (_ & F). destruct F as [|y todo Y F]; cbn [flat_map app].
  - rewrite app_nil_r in EX. subst x. rsteps. eauto.
  - inversion Y; subst. spell. rsteps. rexp G. rsteps.
    assert (Z : exists v w, flat_map printed todo ++ r :: k = v :: w /\ (sy v SElse \/ sy v SElseIf)).
    { destruct F as [|y todo Y' F]; [cbn; eauto|]. inversion Y'; subst. spell. eauto 6. }
    destruct Z as (v & w & E & V). rewrite E. eapply run_gives; [apply (g_exp _ _ G); [assumption|destruct V; es]|]. cbv iota. apply run_ret. exists todo. rewrite <- app_assoc, E. auto.
Qed.
Lemma rt_if c p i e t x l z w k : good c p -> expression c e -> sy t SThen -> expression c x -> else_ifs c l -> sy z SElse -> expression c w -> follow c 0 w k ->
  gives (expect_if_else_expression p i) (printed e ++ t :: printed x ++ printed l ++ z :: printed w ++ k) (Some (Nd KIfExpression [Tok i; e; Tok t; x; l; Tok z; w])) k.
Proof.
  intros G E T X L Z W K. unfold expect_if_else_expression. rsteps. rexp G. rsteps.
  assert (Y : exists v w', printed l ++ z :: printed w ++ k = v :: w' /\ (sy v SElse \/ sy v SElseIf)).
  { destruct L as [|y m F]; spell; [eauto|]. inversion F as [|? ? Y _]; subst. inversion Y; subst. spell. eauto 6. }
  destruct Y as (v & w' & EV & V). rewrite EV. eapply run_gives; [apply (g_exp _ _ G); [assumption|destruct V; es]|]. cbv iota. rewrite <- EV. apply run_bind.
  eapply run_conseq; [eapply rt_else_ifs; eassumption|]. intros y s (m & -> & EM & ->). cbv iota. rsteps. eapply run_gives; [apply (g_exp _ _ G); eassumption|]. cbv iota. apply run_ret. rewrite EM. auto.
Qed.

Lemma rt_unary_arm c p s o e k : good c p -> unary_in c s -> sy o s -> expression c e -> under_unary (head_of e) = true -> follow c unop_precedence e k ->
  gives (primary_arm c p) (o :: printed e ++ k) (Value (Nd KExprUnary [Nd (KUnOp s) [Tok o]; e]), false) k.
Proof.
  intros G U O E UU KE. destruct (decompose c e E) as (UE & PE & SE).
  assert (SP : spine c unop_precedence (first_unit e) (after_unit e) e).
  { apply SE. destruct (head_of e) as [s'| |]; cbn [under_unary at_least] in UU |- *; auto. apply Nat.ltb_lt in UU. now apply Nat.lt_le_incl. }
  assert (FU : follow c (unit_level (first_unit e)) (first_unit e) (after_unit e ++ k)).
  { eapply spine_follow; [exact SP|exact KE|left|intros s'; now apply unit_above].
    unfold unit_level, unop_precedence, unary_level. destruct (head_of (first_unit e)); repeat constructor. }
  rewrite PE, <- app_assoc.
  assert (Y : gives (parse_unary_expression c p o) (printed (first_unit e) ++ after_unit e ++ k) (Value (Nd KExprUnary [Nd (KUnOp s) [Tok o]; e])) k).
  { unfold parse_unary_expression. apply run_bind.
    assert (V : gives (unop c o) (printed (first_unit e) ++ after_unit e ++ k) (Nd (KUnOp s) [Tok o]) (printed (first_unit e) ++ after_unit e ++ k)).
    { unfold unop. destruct s; try easy; tests; cbn in U; rewrite ?U; apply run_ret; auto. }
    eapply run_gives; [exact V|]. apply run_bind. eapply run_gives; [apply (g_primary _ _ G); assumption|]. cbv iota. apply run_bind. eapply run_gives; [apply (g_prec _ _ G); eassumption|]. rsteps. auto. }
  unfold primary_arm. destruct s; try easy; rsteps; rewrite ?andb_false_r; cbn [orb]; nonum; rsteps; try (eapply run_gives; [exact Y|]; rsteps; auto).
  assert (F3 : f_lua53 (c_feat c) = true) by (revert U; cbn; unfold has_lua53; destruct (f_lua53 (c_feat c)); auto).
  rewrite F3. rsteps. eapply run_gives; [exact Y|]; rsteps; auto.
Qed.
Lemma rt_if_arm c p i e t x l z w k : good c p -> has_luau c = true -> sy i SIf -> expression c e -> sy t SThen -> expression c x -> else_ifs c l -> sy z SElse -> expression c w -> follow c 0 w k ->
  gives (primary_arm c p) (i :: printed e ++ t :: printed x ++ printed l ++ z :: printed w ++ k) (Value (Nd KExprIfExpression [Nd KIfExpression [Tok i; e; Tok t; x; l; Tok z; w]]), false) k.
Proof.
  intros G L I E T X EI Z W FW. unfold primary_arm. rsteps; rewrite ?andb_false_r; cbn [orb]; nonum. rewrite L. rsteps. eapply run_gives; [eapply rt_if; eassumption|]. rsteps. auto.
Qed.
Lemma rt_primary c p u k : good c p -> unit_expression c u -> follow c (unit_level u) u k -> gives (parse_primary_expression c p) (printed u ++ k) (Value u) k.
Proof.
  intros G H K. unfold parse_primary_expression. apply run_bind. inversion H as [e A|e o t L A O T|e o t L UE IN O T|s o e U O E UU|i e t x l z w L I E T X EI Z W]; subst.
  - eapply run_gives; [apply rt_arm; [assumption..|]; intros OE; eapply follow_no_suffix; eassumption|]. cbv iota. eapply rt_no_cast; [now apply atom_edges in A as (_ & _ & A)|]. right. exact K.
  - spell. eapply run_gives; [apply rt_arm; [assumption..|]; intros OE; now apply cast_no_suffix|]. cbv iota. rewrite L. rsteps. eapply run_gives; [apply (g_type _ _ G L); [assumption|exact (follow_after_type _ _ _ _ K eq_refl)]|]. rsteps. auto.
  - destruct (inside_cases _ _ UE IN) as [(s & y & x & U1 & U2 & U3 & U4 & -> & U5)|(i & x & y & z & l & v & w & _ & I & X & Y & Z & EI & V & W & -> & U5)]; spell.
    + eapply run_gives; [eapply rt_unary_arm; [eassumption..|now apply fo_cast]|]. cbv iota. rewrite L. rsteps. eapply run_gives; [apply (g_type _ _ G L); [assumption|exact (follow_after_type _ _ _ _ K eq_refl)]|]. rsteps. auto.
    + eapply run_gives; [eapply rt_if_arm; [eassumption..|now apply fo_cast]|]. cbv iota. rewrite L. rsteps. eapply run_gives; [apply (g_type _ _ G L); [assumption|exact (follow_after_type _ _ _ _ K eq_refl)]|]. rsteps. auto.
  - spell. assert (KE : follow c unop_precedence e k).
    { eapply follow_mono; [exact K|apply le_n|reflexivity..|discriminate]. }
    eapply run_gives; [eapply rt_unary_arm; eassumption|]. cbv iota. eapply rt_no_cast; [reflexivity|]. right. exact K.
  - spell.
    assert (FW : follow c 0 w k).
    { apply fo_stop. apply follow_stop in K; [|reflexivity]. exact K. }
    eapply run_gives; [eapply rt_if_arm; eassumption|]. cbv iota. eapply rt_no_cast; [reflexivity|]. right. exact K.
Qed.

Lemma rt_expression c p e k : good c p -> expression c e -> follow c 0 e k -> gives (parse_expression c p) (printed e ++ k) (Value e) k.
Proof.
  intros G E K. unfold parse_expression. destruct (decompose c e E) as (UE & PE & SE).
  assert (SP : spine c 0 (first_unit e) (after_unit e) e). { apply SE. destruct (head_of e); cbn; auto. apply Nat.le_0_l. }
  rewrite PE, <- app_assoc. apply run_bind. eapply run_gives; [apply rt_primary; [assumption..|]|].
  - eapply spine_follow; [exact SP|exact K|left; apply Nat.le_0_l|intros s; now apply unit_above].
  - cbv iota. now apply rt_precedence.
Qed.
Lemma rt_no_expression c p r k : is_interpolated r = false -> no_exp (terminal_of r) = true -> gives (parse_expression c p) (r :: k) NotFound (r :: k).
Proof.
  intros I N. unfold parse_expression, parse_primary_expression, primary_arm. apply run_bind, run_bind, run_bind, run_current. cbv iota. revert I N.
  unfold is_interpolated, terminal_of, is_symbol, is_identifier, is_string. destruct (t_type (r_token r)); intros I N; try discriminate I; try discriminate N;
    try (match goal with s : symbol |- _ => destruct s end; try discriminate N); cbn; rewrite ?andb_false_r; apply run_ret, run_ret, run_ret; auto.
Qed.

