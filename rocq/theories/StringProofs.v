(** Proofs for quoted and interpolated strings. Proof file. *)
From Verif Require Import Lexer LexerFacts LexerFacts2 LexerCases LexerStep LexerStream LexerSpec LexerProofs LexerTheorems LexerTheorems2 LexerTheorems3
  TokenSpec TokenProofs TokenTheorems StringSpec.
From Coq Require Import Lia ZifyBool ZifyNat ZifyN.
Local Open Scope N_scope.
Arguments ch a : simpl never.
Arguments advance p c : simpl never.

(** ** Quoted strings *)

Lemma break_is x : (x =? c_nl) || (x =? c_cr) = true <-> line_break x.
Proof. unfold line_break. rewrite orb_true_iff, !N.eqb_eq. reflexivity. Qed.

Lemma loop_exact c q rest : forall pos lit esc z w s,
  read_string_loop c q rest pos lit esc z = (w, false, s) ->
  exists b, w = lit ++ b /\ rest = b ++ q :: s_rest s /\
    if esc then exists x t, b = x :: t /\ accepted_body c q (z || has_lua52 c || has_luau c || (has_luajit c && (x =? 122))) t
    else accepted_body c q z b.
Proof.
  induction rest as [|d r IH]; intros pos lit esc z w s H; cbn [read_string_loop] in H; [discriminate|].
  destruct esc.
  - destruct (d =? ch "z") eqn:Ez.
    + apply N.eqb_eq in Ez; subst d. change (ch "z") with 122 in *. destruct (has_lua52 c) eqn:E1, (has_luau c) eqn:E2, (has_luajit c) eqn:E3; cbn [orb andb] in H;
      apply IH in H as (b & -> & -> & A); exists (122 :: b); rewrite <- app_assoc; (split; [reflexivity|split; [reflexivity|]]); exists 122, b;
      (split; [reflexivity|]); rewrite ?E1, ?E2, ?E3; cbn [N.eqb Pos.eqb andb]; rewrite ?orb_true_r, ?orb_false_r; exact A.
    + cbn [andb] in H. apply IH in H as (b & -> & -> & A). exists (d :: b). rewrite <- app_assoc. split; [reflexivity|]. split; [reflexivity|].
      exists d, b. split; [reflexivity|]. change (ch "z") with 122 in Ez. rewrite Ez, andb_false_r.
      destruct (has_lua52 c), (has_luau c); cbn [orb] in A; rewrite ?orb_true_r, ?orb_false_r; exact A.
  - destruct (d =? c_backslash) eqn:Eb.
    + apply N.eqb_eq in Eb; subst d. apply IH in H as (b & -> & -> & x & t & -> & A). exists (92 :: x :: t). rewrite <- app_assoc.
      split; [reflexivity|]. split; [reflexivity|]. now apply ab_escape.
    + destruct ((d =? c_nl) || (d =? c_cr)) eqn:En.
      * destruct z; [|discriminate]. apply IH in H as (b & -> & -> & A). exists (d :: b). rewrite <- app_assoc.
        split; [reflexivity|]. split; [reflexivity|]. apply ab_break; [now apply break_is|exact A].
      * destruct (d =? q) eqn:Eq.
        -- apply N.eqb_eq in Eq; subst d. injection H as <- <-. exists []. rewrite app_nil_r. split; [reflexivity|]. split; [reflexivity|constructor].
        -- apply IH in H as (b & -> & -> & A). exists (d :: b). rewrite <- app_assoc. split; [reflexivity|]. split; [reflexivity|].
           apply ab_char; [now apply N.eqb_neq in Eq|now apply N.eqb_neq in Eb|rewrite <- break_is; congruence|exact A].
Qed.

Lemma loop_accepts c q b v z : q <> 92 -> ~ line_break q -> accepted_body c q z b -> forall pos lit,
  exists p, read_string_loop c q (b ++ q :: v) pos lit false z = (lit ++ b, false, mkSrc v p).
Proof.
  intros Q1 Q2. induction 1 as [z|z x t N1 N2 N3 A IH|x t L A IH|z x t A IH]; intros pos lit; cbn [app].
  - cbn [read_string_loop]. apply N.eqb_neq in Q1. change 92 with c_backslash in Q1. rewrite Q1.
    destruct ((q =? c_nl) || (q =? c_cr)) eqn:E; [apply break_is in E; contradiction|]. rewrite N.eqb_refl, app_nil_r. eauto.
  - cbn [read_string_loop]. apply N.eqb_neq in N1, N2. change 92 with c_backslash in N2. rewrite N2.
    destruct ((x =? c_nl) || (x =? c_cr)) eqn:E; [apply break_is in E; contradiction|]. rewrite N1.
    destruct (IH (advance pos x) (lit ++ [x])) as (p & ->). rewrite <- app_assoc. eauto.
  - cbn [read_string_loop]. destruct (x =? c_backslash) eqn:E; [apply N.eqb_eq in E; subst x; destruct L; discriminate|].
    apply break_is in L. rewrite L. destruct (IH (advance pos x) (lit ++ [x])) as (p & ->). rewrite <- app_assoc. eauto.
  - cbn [read_string_loop]. change (92 =? c_backslash) with true. cbn iota. change c_backslash with 92.
    change (ch "z") with 122 in *.
    assert (G : forall z', z' = z || has_lua52 c || has_luau c || (has_luajit c && (x =? 122)) ->
      exists p, read_string_loop c q (t ++ q :: v) (advance (advance pos 92) x) ((lit ++ [92]) ++ [x]) false z' = (lit ++ 92 :: x :: t, false, mkSrc v p)).
    { intros z' ->. destruct (IH (advance (advance pos 92) x) ((lit ++ [92]) ++ [x])) as (p & ->). rewrite <- !app_assoc. eauto. }
    destruct (x =? 122) eqn:Ez.
    + apply N.eqb_eq in Ez. subst x. destruct (has_lua52 c), (has_luau c), (has_luajit c); cbn [orb andb]; apply G; destruct z; reflexivity.
    + cbn [andb]. apply G. destruct (has_lua52 c), (has_luau c), z, (has_luajit c); reflexivity.
Qed.

(** Where a token of a run comes from. *)
Lemma run_step c source rs t : run c source rs -> In t (tokens_of rs) -> (exists w, t_type t = TShebang w) \/
  exists u l l' es, source = u ++ s_rest (l_src l) /\ t_start t = pos_of u /\ pstep c l t es l' /\ incl es (all_errors rs) /\
    (forall e, In e es -> fst (te_range e) = pos_of u).
Proof.
  intros R Hi.
  assert (G : forall l rs0, stream c l rs0 -> (exists u, moved (mkSrc source pos0) u (l_src l)) -> In t (tokens_of rs0) ->
     incl (all_errors rs0) (all_errors rs) -> exists u l l' es, source = u ++ s_rest (l_src l) /\ t_start t = pos_of u /\ pstep c l t es l' /\
       incl es (all_errors rs) /\ (forall e, In e es -> fst (te_range e) = pos_of u)).
  { intros l rs0 S (u & M) Ht Hinc. unfold tokens_of in Ht. apply in_flat_map in Ht as (r & Hr & Ht). apply in_refs_of in Hr as (x & Hx & Hr).
    destruct (stream_origin2 _ _ _ S _ _ _ Hx Hr Ht) as (u' & l1 & l2 & es & M' & P & Ei).
    assert (M2 := moved_app _ _ _ _ _ M M'). apply moved_pos in M2 as [E1 E2].
    destruct (pstep_case _ _ _ _ _ P) as [E3 PC].
    exists (u ++ u'), l1, l2, es. split; [exact E1|]. split; [congruence|]. split; [exact P|]. split.
    - intros e He. apply Hinc. unfold all_errors. apply in_flat_map. exists x. auto.
    - intros e He. rewrite <- E2. eapply pstep_error_start; eassumption. }
  destruct R as [rs' NS S|line s sb r rs' SB M F HN -> Nl S|line s r rs' SB M F HN Nl S NO].
  - right. eapply G; [eassumption| |eassumption|apply incl_refl]. exists []. apply moved_nil.
  - change (tokens_of (LOk (add_shebang (mkToken pos0 (s_pos s) (TShebang line)) r) :: rs')) with
      (mkToken pos0 (s_pos s) (TShebang line) :: tokens_of (LOk r :: rs')) in Hi.
    destruct Hi as [<-|Hi]; [left; eexists; reflexivity|]. right. eapply G; [eassumption| |eassumption|apply incl_refl]. eexists. exact M.
  - apply stream_next in S as (l' & E & S). right. eapply G; [eassumption| |eassumption|apply incl_refl].
    pose proof (process_next_with_trivia_spec c (mkLexer s false [])) as RS. rewrite E in RS.
    apply ref_step_moved in RS as (v & M2). eexists. eapply moved_app; eassumption.
Qed.

Lemma quote_type_char c q qt : string_quote_type c q = Some qt -> quote_char qt = Some q.
Proof.
  intros Hq. unfold string_quote_type in Hq. destruct (q =? c_dquote) eqn:E1; [injection Hq as <-; apply N.eqb_eq in E1; now subst|].
  destruct (q =? c_squote) eqn:E2; [injection Hq as <-; apply N.eqb_eq in E2; now subst|].
  destruct (q =? c_backtick) eqn:E3; [|rewrite andb_false_r in Hq; discriminate]. rewrite andb_true_r in Hq.
  destruct (f_cfxlua _); [injection Hq as <-; apply N.eqb_eq in E3; now subst|discriminate].
Qed.

Ltac step_case H HC := let K := fresh "K" in
  match type of H with pstep ?c ?l ?t ?es ?l' =>
    assert (K : exists r, process_next c l = Done (Some r, l') /\ yields r t es) by (unfold yields; destruct H as [[H ->]|[H ?]]; eauto);
    destruct K as (r & Hp & Hy); pose proof (process_next_cases c l) as HC; rewrite Hp in HC; cbn [next_ok] in HC
  end.

Lemma number_result_type c start rest pos number dot r s t es : read_number c start rest pos number dot = (r, s) -> yields r t es ->
  exists w, t_type t = TNumber w.
Proof.
  intros R0 Hr. apply read_number_spec in R0 as (u & _ & [(-> & _)| ->]);
  [apply yields_ok in Hr as [<- _]|apply yields_rec in Hr as [<- _]]; eexists; reflexivity.
Qed.

Lemma string_origin c l t es l' b n qt q : pstep c l t es l' -> t_type t = TStringLiteral b n qt -> quote_char qt = Some q ->
  (es = [] /\ s_rest (l_src l) = q :: b ++ q :: s_rest (l_src l') /\ accepted_body c q false b) \/ (exists e, es = [e] /\ te_error e = UnclosedString).
Proof.
  intros P Ht Hq. pose proof P as P0. step_case P HC.
  remember (Some r) as o eqn:Ho.
  destruct HC as [ | He Hs | next w0 s Hid M F Hd | next w0 s Hn M T Z | s M | d r0 res s HR Hx R0 | d r0 res s HR Hx Hv R0
    | d r0 res s HR Hx Hv R0 | d r0 res s HR Hx R0 | r0 res l1 HR Hv R0 | r0 bs res l1 HR Hv Hb R0
    | q0 r0 qt0 lit rec s HR Hq0 Hv R0 | r0 n0 b0 s HR R0 | r0 n0 b0 s HR R0 | r0 tt rec s HR R0 | r0 tt rec s HR Hv R0
    | sy s Hop M HL HE _ _ _ _ _ | d s e M He HN ]; try discriminate; injection Ho as <-.
  - apply yields_ok in Hy as [<- ->]. discriminate.
  - apply yields_ok in Hy as [<- ->]. cbn [t_type] in Ht. destruct (sym_from_str c (next :: w0)); discriminate.
  - apply yields_ok in Hy as [<- ->]. discriminate.
  - apply yields_ok in Hy as [<- ->]. discriminate.
  - apply read_hex_number_spec in R0 as (u & _ & [(-> & _)| ->]); [| |cbn; lia];
    [apply yields_ok in Hy as [<- _]|apply yields_rec in Hy as [<- _]]; discriminate.
  - apply read_binary_number_spec in R0 as (u & _ & [(-> & _)| ->]); [| |cbn; lia];
    [apply yields_ok in Hy as [<- _]|apply yields_rec in Hy as [<- _]]; discriminate.
  - destruct (number_result_type _ _ _ _ _ _ _ _ _ _ R0 Hy) as (w & E). congruence.
  - destruct (number_result_type _ _ _ _ _ _ _ _ _ _ R0 Hy) as (w & E). congruence.
  - apply istr_type in R0 as (w & k & p2 & es2 & [R0|[R0 _]]); subst res;
      [apply yields_ok in Hy as [<- ->]|apply yields_rec in Hy as [<- ->]]; discriminate.
  - apply istr_type in R0 as (w & k & p2 & es2 & [R0|[R0 _]]); subst res;
      [apply yields_ok in Hy as [<- ->]|apply yields_rec in Hy as [<- ->]]; discriminate.
  - apply yields_recovered in Hy as [-> ->]. cbn [t_type] in Ht. injection Ht as -> _ ->.
    apply quote_type_char in Hq0. assert (q0 = q) by congruence. subst q0. destruct rec; [right; eexists; split; reflexivity|left].
    apply loop_exact in R0 as (b1 & E & E2 & A). cbn [app] in E. subst b1. split; [reflexivity|]. cbn [l_src with_src]. rewrite HR, E2. auto.
  - apply yields_ok in Hy as [<- ->]. cbn [t_type] in Ht. injection Ht as <- <- <-. discriminate Hq.
  - apply yields_rec in Hy as [<- ->]. cbn [t_type] in Ht. injection Ht as <- <- <-. discriminate Hq.
  - apply yields_recovered in Hy as [-> ->]. cbn [t_type] in Ht. subst tt.
    apply read_comment_spec in R0 as [(n1 & b1 & full & E & _)|[(n1 & b1 & E & _)|(u & E & _)]]; discriminate E.
  - apply yields_recovered in Hy as [-> ->]. cbn [t_type] in Ht. subst tt.
    apply read_c_style_comment_spec in R0 as [(b1 & E & _)|(E & _)]; discriminate E.
  - apply yields_ok in Hy as [<- ->]. discriminate.
  - destruct Hy as [[Hy _]|[Hy _]]; discriminate.
Qed.

Lemma quoted_exact c source rs t b qt q n : tokenize c source = Done rs -> In t (tokens_of rs) ->
  t_type t = TStringLiteral b n qt -> quote_char qt = Some q ->
  exists u, t_start t = pos_of u /\
    ((exists v, source = u ++ q :: b ++ q :: v /\ accepted_body c q false b) \/
     (exists e, In e (all_errors rs) /\ te_error e = UnclosedString /\ fst (te_range e) = pos_of u)).
Proof.
  intros H Hi Ht Hq. apply tokenize_done in H. destruct (run_step _ _ _ _ H Hi) as [(w & E)|(u & l & l' & es & Hs & Hp & P & Hinc & Hst)]; [congruence|].
  exists u. split; [exact Hp|]. destruct (string_origin _ _ _ _ _ _ _ _ _ P Ht Hq) as [(_ & E & A)|(e & -> & Ke)].
  - left. exists (s_rest (l_src l')). rewrite Hs, E. auto.
  - right. exists e. split; [apply Hinc; now left|]. split; [exact Ke|]. apply Hst. now left.
Qed.

Lemma quoted_step c l q qt b v : s_rest (l_src l) = q :: b ++ q :: v -> quote_char qt = Some q -> qt <> QBacktick -> accepted_body c q false b ->
  exists t l', process_next c l = Done (Some (LOk t), l') /\ t_type t = TStringLiteral b O qt /\ s_rest (l_src l') = v.
Proof.
  intros E Hq Hb S. assert (Q : q = 34 /\ qt = QDouble \/ q = 39 /\ qt = QSingle).
  { destruct qt; try discriminate; [left|right|contradiction]; injection Hq as <-; auto. }
  assert (P : process_next c l = (let '(literal, recovered, s) := read_string_loop c q (b ++ q :: v) (advance (s_pos (l_src l)) q) [] false false in
              yield (create_recovered s (s_pos (l_src l)) (TStringLiteral literal O qt)
                       (recovered_errs recovered UnclosedString (s_pos (l_src l)) s)) (with_src l s))).
  { unfold process_next, src_next. rewrite E. cbn [s_rest s_pos]. destruct Q as [[-> ->]|[-> ->]];
    cbn -[read_string_loop process_next yield create_recovered with_src]; rewrite ?andb_false_r; cbn iota; reflexivity. }
  assert (R : exists p, read_string_loop c q (b ++ q :: v) (advance (s_pos (l_src l)) q) [] false false = (b, false, mkSrc v p)).
  { apply (loop_accepts c q b v false); [| |assumption]; destruct Q as [[-> _]|[-> _]]; try discriminate; intros [L|L]; discriminate. }
  destruct R as (p & R).
  rewrite P, R. cbn [app]. do 2 eexists. split; [reflexivity|]. split; reflexivity.
Qed.

Lemma accepted_weaken c q z b : accepted_body c q z b -> accepted_body c q true b.
Proof.
  induction 1 as [z|z x t N1 N2 N3 A IH|x t L A IH|z x t A IH].
  - constructor.
  - now apply ab_char.
  - now apply ab_break.
  - apply ab_escape. exact IH.
Qed.

Lemma quoted_accepted c q b : q <> 92 -> ~ line_break q -> forallb (fun x => negb ((x =? 32) || (x =? 9))) [q] = true ->
  quoted_body c q false b -> forall z, accepted_body c q z b.
Proof.
  intros Q1 Q2 Q3. induction 1 as [|x t N1 N2 N3 B IH|x t N B IH|x y t N V B IH|w t V W K B IH]; intros z.
  - constructor.
  - now apply ab_char.
  - apply ab_escape. apply IH.
  - destruct V as [V|V]; [discriminate|]. apply ab_escape.
    replace (z || has_lua52 c || has_luau c || (has_luajit c && (x =? 122))) with true
      by (apply orb_true_iff in V as [-> | ->]; rewrite ?orb_true_r; reflexivity).
    apply ab_break; [unfold line_break; destruct N as [[_ ->]|[_ ->]]; auto|]. apply IH.
  - destruct K as [K|K]; [discriminate|]. apply ab_escape.
    replace (z || has_lua52 c || has_luau c || (has_luajit c && (122 =? 122))) with true
      by (unfold z_version in V; cbn [N.eqb Pos.eqb]; destruct z, (has_lua52 c), (has_luau c), (has_luajit c); auto).
    clear V B z. assert (G : forall z, (breaks w <= if z : bool then 1 else 0)%nat -> accepted_body c q z (w ++ t)); [|now apply (G true)].
    clear K. induction w as [|x w IHw]; intros z K; [apply IH|]. unfold blank in W. cbn [forallb] in W. apply andb_true_iff in W as [Wx W].
    specialize (IHw W). cbn [app]. unfold breaks in *. cbn [filter] in K. destruct (is_line_break x) eqn:Ex.
    + cbn [List.length] in K. destruct z; [|lia]. apply ab_break; [unfold is_line_break in Ex; apply orb_true_iff in Ex; rewrite !N.eqb_eq in Ex; exact Ex|].
      apply IHw. lia.
    + cbn [forallb] in Q3. rewrite andb_true_r in Q3. apply ab_char.
      * intros ->. rewrite negb_true_iff, orb_false_iff in Q3. destruct Q3 as [A1 A2]. rewrite A1, A2 in Wx. cbn [orb] in Wx. unfold is_line_break in Ex. congruence.
      * intros ->. discriminate.
      * unfold is_line_break in Ex. rewrite orb_false_iff in Ex. rewrite !N.eqb_neq in Ex. unfold line_break. tauto.
      * now apply IHw.
Qed.
