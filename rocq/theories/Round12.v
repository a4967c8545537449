(** Parsing undoes printing (C48): the other statements, blocks, all parsers. *)
From Verif Require Import LexerSpec PunctuatedProofs.
From Verif Require Export Round11.
From Coq Require Import Lia.
Local Open Scope nat_scope.
Import ListNotations.

Lemma ended_here r s k : sy r s -> block_end (TSym s) = true -> ended (r :: k).
Proof. intros R B. exists r, k. rewrite R. repeat split; [assumption|]. eapply test_interpolated; [eassumption|discriminate]. Qed.
Ltac rblock G := match goal with
  | |- run (p_block _) (_ ++ _ :: _) _ => eapply run_gives; [apply (g_block _ _ G); [eassumption|eapply ended_here; [eassumption|reflexivity]]|]; cbv beta iota; tests
  | |- run (expect_block_with_end _ _ _ _) (_ ++ _ :: _) _ => eapply run_gives; [eapply rt_block_end; eassumption|]; cbv beta iota; tests
  end.

Lemma rt_do c p a b e k : good c p -> sy a SDo -> block c b -> sy e SEnd -> gives (parse_stmt c p) (a :: printed b ++ e :: k) (Value (VStmt (Nd KStmtDo [Nd KDo [Tok a; b; Tok e]]))) k.
Proof. intros G A B E. unfold parse_stmt. rsteps. rblock G. rsteps. auto. Qed.
Lemma rt_while c p w e d b n k : good c p -> sy w SWhile -> expression c e -> sy d SDo -> block c b -> sy n SEnd ->
  gives (parse_stmt c p) (w :: printed e ++ d :: printed b ++ n :: k) (Value (VStmt (Nd KStmtWhile [Nd KWhile [Tok w; e; Tok d; b; Tok n]]))) k.
Proof. intros G W E D B N. unfold parse_stmt, expect_while_stmt. rsteps. rexp G. rsteps. rblock G. rsteps. auto. Qed.
Lemma rt_repeat c p r b u e k : good c p -> sy r SRepeat -> block c b -> sy u SUntil -> expression c e -> follow c 0 e k ->
  gives (parse_stmt c p) (r :: printed b ++ u :: printed e ++ k) (Value (VStmt (Nd KStmtRepeat [Nd KRepeat [Tok r; b; Tok u; e]]))) k.
Proof. intros G R B U E K. unfold parse_stmt, expect_repeat_stmt. rsteps. rblock G. rsteps. eapply run_gives; [apply (g_exp _ _ G); eassumption|]. rsteps. auto. Qed.

(** ** [if] *)
Definition if_next (x : terminal) : bool := match x with TSym (SElse | SElseIf | SEnd) => true | _ => false end.
Lemma if_next_ended ts : follows ts if_next -> ended ts.
Proof.
  intros (r & k & -> & F). exists r, k. split; [reflexivity|]. split; [destruct (terminal_of r) as [| | |[]|]; try discriminate F; reflexivity|].
  eapply test_interpolated; [reflexivity|]. intros E. rewrite E in F. discriminate.
Qed.
Lemma else_ifs_first c l k : Forall (else_if_block c) l -> follows k if_next -> follows (flat_map printed l ++ k) if_next.
Proof. intros F K. destruct F as [|x l X F]; [assumption|]. inversion X; subst. spell. fo. Qed.
Lemma else_list c l : else_if_blocks c l -> exists m, Forall (else_if_block c) m /\ opt_tree (else_if_optional m) = l /\ printed l = flat_map printed m.
Proof. intros H. inversion H as [|x m F]; subst; [exists []; auto|]. exists (x :: m). repeat split; [assumption|]. spell. reflexivity. Qed.
Definition else_loop (c : cfg) (p : parsers) (condition : tree) : M (tree + list tree) :=
  loop (fun else_if =>
                let unfinished_if (condition : tree) : M (list tree + (tree + list tree)) :=
                  (let! t := if_new c condition (else_if_optional else_if) in ret (inr (inl t))) in
                let! o := current in
                match o with
                | None => unfinished_if condition
                | Some t =>
                    if is_symbol t SElseIf then
                      let! else_if_token := take in
                      let! r := p_expression p in
                      match r with
                      | NotFound => token_error else_if_token (str "expected condition after `elseif`") ;; unfinished_if condition
                      | LexerMoved => unfinished_if condition
                      | Value condition =>
                          let! o := require SThen (str "expected `then` after condition") in
                          match o with
                          | None => unfinished_if condition
                          | Some then_token =>
                              let! r := p_block p in
                              match r with
                              | NotFound => token_error then_token (str "expected block after `then`") ;; unfinished_if condition
                              | LexerMoved => unfinished_if condition
                              | Value block => ret (inl (else_if ++ [Nd KElseIf [Tok else_if_token; condition; Tok then_token; block]]))
                              end
                          end
                      end
                    else ret (inr (inr else_if))
                end) [].
Lemma rt_else_loop c p e l k : good c p -> Forall (else_if_block c) l -> follows k (fun x => if_next x && negb (term_symbol x SElseIf)) -> gives (else_loop c p e) (flat_map printed l ++ k) (inr l) k.
Proof.
  intros G F (r & k' & -> & K). apply andb_true_iff in K as (K & KN). unfold else_loop.
  apply (run_loop (fun x s => exists todo, x ++ todo = l /\ s = flat_map printed todo ++ r :: k')); [exists l; auto|].
  intros x s (todo & EX & ->). rewrite <- EX in F. apply Forall_app in F as (_ & F). destruct F as [|y todo Y F]; cbn [flat_map app].
  - rewrite app_nil_r in EX. subst x. apply run_bind, run_current. cbv iota. apply negb_true_iff in KN. rewrite test_symbol, KN. apply run_ret. auto.
  - inversion Y; subst. spell. rsteps. rexp G. rsteps. eapply run_gives; [apply (g_block _ _ G); [assumption|apply if_next_ended, else_ifs_first with c; [assumption|now apply follows_here]]|].
    cbv iota. apply run_ret. exists todo. rewrite <- app_assoc. auto.
Qed.
Lemma rt_if_stmt c p i e t b l n k : good c p -> sy i SIf -> expression c e -> sy t SThen -> block c b -> else_if_blocks c l -> sy n SEnd ->
  gives (parse_stmt c p) (i :: printed e ++ t :: printed b ++ printed l ++ n :: k) (Value (VStmt (Nd KStmtIf [Nd KIf [Tok i; e; Tok t; b; l; none; none; Tok n]]))) k.
Proof.
  intros G I E T B L N. apply else_list in L as (m & F & EM & ->). unfold parse_stmt, expect_if_stmt. rsteps. rexp G. rsteps.
  eapply run_gives; [apply (g_block _ _ G); [assumption|apply if_next_ended, else_ifs_first with c; [assumption|fo]]|]. cbv iota. rstep. fold (else_loop c p e).
  eapply run_gives; [apply (rt_else_loop c p e m (n :: k)); [assumption..|fo]|]. cbv iota. rsteps. rewrite EM. auto.
Qed.
Lemma rt_if_else_stmt c p i e t b l w z n k : good c p -> sy i SIf -> expression c e -> sy t SThen -> block c b -> else_if_blocks c l -> sy w SElse -> block c z -> sy n SEnd ->
  gives (parse_stmt c p) (i :: printed e ++ t :: printed b ++ printed l ++ w :: printed z ++ n :: k) (Value (VStmt (Nd KStmtIf [Nd KIf [Tok i; e; Tok t; b; l; some (Tok w); some z; Tok n]]))) k.
Proof.
  intros G I E T B L W Z N. apply else_list in L as (m & F & EM & ->). unfold parse_stmt, expect_if_stmt. rsteps. rexp G. rsteps.
  eapply run_gives; [apply (g_block _ _ G); [assumption|apply if_next_ended, else_ifs_first with c; [assumption|fo]]|]. cbv iota. rstep. fold (else_loop c p e).
  eapply run_gives; [apply (rt_else_loop c p e m (w :: printed z ++ n :: k)); [assumption..|fo]|]. cbv iota. rsteps. rblock G. rsteps. rewrite EM. auto.
Qed.

(** ** [for] *)
Lemma one_name c p n t q k : good c p -> nm n -> optional (specifier c) t -> sy q SEqual -> exists o, opt_tree o = t /\
  gives (parse_name_list c p) (n :: printed t ++ q :: k) (Value (mkPunctuated [End (mkName n None o)])) (q :: k).
Proof.
  intros G N T Q. assert (B : bindings (bound_type c) [final (Tok n)] [none] [t]) by (repeat constructor; assumption).
  destruct (rt_typed_names c p _ _ _ (q :: k) G B) as (ps & R & L & E & ET & A); [fo..|].
  destruct ps as [|[v|v d] ps]; cbn in E; try discriminate E. injection E as EN EP. destruct ps; [|discriminate EP].
  destruct v as [n' a o]. cbn in EN, ET. injection ET as ET. subst n'. unfold type_of in ET. cbn in ET. inversion A as [|? ? A1 _]; subst. cbn in A1. subst a.
  exists o. split; [reflexivity|]. revert R. cbn [zip_pick subs at_ nth_error flat_map map tl]. spell. intros R. exact R.
Qed.
Lemma rt_numeric c p f n t q x d y o b e k : good c p -> sy f SFor -> nm n -> optional (specifier c) t -> sy q SEqual -> expression c x -> sy d SComma -> expression c y -> sy o SDo -> block c b -> sy e SEnd ->
  gives (parse_stmt c p) (f :: n :: printed t ++ q :: printed x ++ d :: printed y ++ o :: printed b ++ e :: k)
    (Value (VStmt (Nd KStmtNumericFor [Nd KNumericFor [Tok f; Tok n; Tok q; x; Tok d; y; none; none; Tok o; b; Tok e; t]]))) k.
Proof.
  intros G F N T Q X D Y O B E. destruct (one_name c p n t q (printed x ++ d :: printed y ++ o :: printed b ++ e :: k) G N T Q) as (s & ES & R).
  unfold parse_stmt, expect_for_stmt. rsteps. eapply run_gives; [exact R|]. cbv iota. rsteps. rewrite into_iter_eq. cbn [p_is_empty p_len pairs List.length Nat.eqb andb map pair_value]. unfold expect_numeric_for_stmt. rsteps. rexp G. rsteps. rexp G. rsteps. rblock G. rsteps.
  cbn [n_type_specifier n_name option_map]. rewrite ES. auto.
Qed.
Lemma rt_numeric_step c p f n t q x d y g z o b e k : good c p -> sy f SFor -> nm n -> optional (specifier c) t -> sy q SEqual -> expression c x -> sy d SComma -> expression c y ->
  sy g SComma -> expression c z -> sy o SDo -> block c b -> sy e SEnd ->
  gives (parse_stmt c p) (f :: n :: printed t ++ q :: printed x ++ d :: printed y ++ g :: printed z ++ o :: printed b ++ e :: k)
    (Value (VStmt (Nd KStmtNumericFor [Nd KNumericFor [Tok f; Tok n; Tok q; x; Tok d; y; some (Tok g); some z; Tok o; b; Tok e; t]]))) k.
Proof.
  intros G F N T Q X D Y GG Z O B E. destruct (one_name c p n t q (printed x ++ d :: printed y ++ g :: printed z ++ o :: printed b ++ e :: k) G N T Q) as (s & ES & R).
  unfold parse_stmt, expect_for_stmt. rsteps. eapply run_gives; [exact R|]. cbv iota. rsteps. rewrite into_iter_eq. cbn [p_is_empty p_len pairs List.length Nat.eqb andb map pair_value]. unfold expect_numeric_for_stmt. rsteps. rexp G. rsteps. rexp G. rsteps. rexp G. rsteps. rblock G. rsteps.
  cbn [n_type_specifier n_name option_map]. rewrite ES. auto.
Qed.
Lemma rt_generic c p f l ns ts i m o b e k : good c p -> sy f SFor -> bindings (bound_type c) l ns ts -> sy i SIn -> several (expression c) SComma m -> sy o SDo -> block c b -> sy e SEnd ->
  gives (parse_stmt c p) (f :: zip_pick printed true l [ts] ++ i :: flat_map printed m ++ o :: printed b ++ e :: k)
    (Value (VStmt (Nd KStmtGenericFor [Nd KGenericFor [Tok f; listing l; Tok i; listing m; Tok o; b; Tok e; vector ts]]))) k.
Proof.
  intros G F B I M O BB E. destruct (rt_typed_names c p l ns ts (i :: flat_map printed m ++ o :: printed b ++ e :: k) G B) as (ps & R & L & -> & -> & _); [fo..|].
  destruct (rt_expressions c p m (o :: printed b ++ e :: k) G M) as (x & EX & RX); [fo..|].
  unfold parse_stmt, expect_for_stmt. rsteps. eapply run_gives; [exact R|]. cbv iota. rsteps.
  assert (NE : p_is_empty (mkPunctuated ps) = false) by (inversion L; reflexivity). rewrite NE, andb_false_r. rsteps. eapply run_gives; [exact RX|]. cbv iota. rsteps. rblock G. rsteps.
  rewrite punct_names, into_names, EX. auto.
Qed.

(** ** Functions *)
Lemma body_first c b k : function_body c b -> follows (printed b ++ k) no_path.
Proof.
  intros H. inversion H as [g a l ts z r x e BG A BP B R X E]; subst. rewrite printed_body. inversion BG as [|g' L GG]; subst; spell; [fo|]. inversion GG; subst. spell. fo.
Qed.
Lemma rt_declaration c p l f n b k : good c p -> function_name n -> function_body c b ->
  gives (expect_function_declaration c p l f) (printed n ++ printed b ++ k) (Some (Nd KFunctionDeclaration [vector l; Tok f; n; b])) k.
Proof.
  intros G N B. unfold expect_function_declaration. apply run_bind. eapply run_gives; [apply rt_function_name; [assumption|eapply body_first; eassumption]|]. cbv iota. apply run_bind.
  eapply run_gives; [now apply rt_body|]. rsteps. auto.
Qed.
Lemma rt_local_declaration c p l o f n b k : good c p -> nm n -> function_body c b ->
  gives (expect_local_function_declaration c p l o f) (n :: printed b ++ k) (Some (Nd KLocalFunction [vector l; Tok o; Tok f; Tok n; b])) k.
Proof. intros G N B. unfold expect_local_function_declaration. rsteps. eapply run_gives; [now apply rt_body|]. rsteps. auto. Qed.
Lemma rt_function_stmt c p l f n b k : good c p -> attributes c l -> sy f SFunction -> function_name n -> function_body c b ->
  gives (parse_stmt c p) (flat_map printed l ++ f :: printed n ++ printed b ++ k) (Value (VStmt (Nd KStmtFunctionDeclaration [Nd KFunctionDeclaration [vector l; Tok f; n; b]]))) k.
Proof.
  intros G A F N B. inversion A as [|x l' L FA]; subst; cbn [flat_map app].
  - unfold parse_stmt. rsteps. eapply run_gives; [now apply rt_declaration|]. rsteps. auto.
  - inversion FA as [|? ? X F0]; subst. inversion X as [a m AT M]; subst. spell. unfold parse_stmt. rsteps. rewrite L. rsteps. unfold attribute_stmt. apply run_bind.
    pose proof (rt_attributes c _ f (printed n ++ printed b ++ k) FA) as Y. revert Y. spell. intros Y. eapply run_gives; [apply Y; [discriminate|tests; reflexivity]|].
    rsteps. eapply run_gives; [now apply rt_declaration|]. rsteps. auto.
Qed.
Lemma rt_local_function_stmt c p l o f n b k : good c p -> attributes c l -> sy o SLocal -> sy f SFunction -> nm n -> function_body c b ->
  gives (parse_stmt c p) (flat_map printed l ++ o :: f :: n :: printed b ++ k) (Value (VStmt (Nd KStmtLocalFunction [Nd KLocalFunction [vector l; Tok o; Tok f; Tok n; b]]))) k.
Proof.
  intros G A O F N B. inversion A as [|x l' L FA]; subst; cbn [flat_map app].
  - unfold parse_stmt, local_stmt. rsteps. eapply run_gives; [now apply rt_local_declaration|]. rsteps. auto.
  - inversion FA as [|? ? X F0]; subst. inversion X as [a m AT M]; subst. spell. unfold parse_stmt. rsteps. rewrite L. rsteps. unfold attribute_stmt. apply run_bind.
    pose proof (rt_attributes c _ o (f :: n :: printed b ++ k) FA) as Y. revert Y. spell. intros Y. eapply run_gives; [apply Y; [discriminate|tests; reflexivity]|].
    rsteps. eapply run_gives; [now apply rt_local_declaration|]. rsteps. auto.
Qed.

(** ** [local] *)
Lemma bindings_first (P : tree -> tree -> Prop) l as_ ts k : bindings P l as_ ts -> exists n m, zip_pick printed true l [as_; ts] ++ k = n :: m /\ nm n.
Proof. intros H. inversion H; subst; cbn [zip_pick subs at_ nth_error flat_map map tl]; spell; eauto. Qed.
Lemma stop_no_equal c o r : stop c o (terminal_of r) = true -> is_symbol r SEqual = false /\ is_symbol r SIn = false.
Proof. rewrite !test_symbol. destruct (terminal_of r) as [| | |s|]; auto. destruct s; auto; discriminate. Qed.
Lemma rt_local c p o l as_ ts k : good c p -> sy o SLocal -> bindings (bound c) l as_ ts -> follows k (after_stmt c false) ->
  gives (parse_stmt c p) (o :: zip_pick printed true l [as_; ts] ++ k) (Value (VStmt (Nd KStmtLocalAssignment [Nd KLocalAssignment [Tok o; vector ts; listing l; vector as_; none; listing []]]))) k.
Proof.
  intros G O B K. destruct (bindings_first _ _ _ _ k B) as (n & m & E & N).
  destruct (rt_bound_names c p l as_ ts k G B) as (ps & R & -> & -> & ->); [eapply after_stmt_type; eassumption|eapply after_stmt_comma; eassumption|]. rewrite E in *.
  unfold parse_stmt, local_stmt. rsteps. unfold expect_local_assignment. rsteps. eapply run_gives; [exact R|]. cbv iota. rsteps.
  apply after_stmt_stop in K. destruct K as (r & k' & -> & K). destruct (stop_no_equal c _ r K) as (K1 & K2). rsteps.
  destruct (f_cfxlua (c_feat c)); cbn [existsb]; rewrite K1, ?K2; cbn [orb]; rsteps; rewrite punct_names, !into_names; auto.
Qed.
Lemma rt_local_values c p o l as_ ts q s m k : good c p -> sy o SLocal -> bindings (bound c) l as_ ts -> sy q s -> equal_in c s -> several (expression c) SComma m -> follows k (after_stmt c (open (listing m))) ->
  gives (parse_stmt c p) (o :: zip_pick printed true l [as_; ts] ++ q :: flat_map printed m ++ k)
    (Value (VStmt (Nd KStmtLocalAssignment [Nd KLocalAssignment [Tok o; vector ts; listing l; vector as_; some (Tok q); listing m]]))) k.
Proof.
  intros G O B Q QI M K. apply equal_cases in QI. destruct (bindings_first _ _ _ _ (q :: flat_map printed m ++ k) B) as (n & m' & E & N).
  destruct (rt_bound_names c p l as_ ts (q :: flat_map printed m ++ k) G B) as (ps & R & -> & -> & ->); [destruct QI as [->|(-> & _)]; fo..|]. rewrite E in *.
  destruct (rt_expressions c p m k G M) as (x & EX & RX); [now apply after_stmt_stop|eapply after_stmt_comma; eassumption|].
  unfold parse_stmt, local_stmt. rsteps. unfold expect_local_assignment. rsteps. eapply run_gives; [exact R|]. cbv iota. rsteps.
  assert (T : existsb (is_symbol q) (if f_cfxlua (c_feat c) then [SEqual; SIn] else [SEqual]) = true).
  { destruct QI as [->|(-> & X)]; [destruct (f_cfxlua (c_feat c))|rewrite X]; cbn [existsb]; tests; reflexivity. }
  rewrite T. rsteps; (eapply run_gives; [exact RX|]); cbv iota; rsteps; rewrite punct_names, !into_names, EX; auto.
Qed.

(** ** All statements *)
Lemma rt_statement c p s k : good c p -> statement c s -> follows k (after_stmt c (open s)) -> gives (parse_stmt c p) (printed s ++ k) (Value (VStmt s)) k.
Proof.
  intros G H K. pose proof (after_stmt_stop _ _ _ K) as KS. pose proof (after_stmt_type _ _ _ K) as KT. inversion H; subst; spell.
  - now apply rt_assignment.
  - apply rt_compound; auto. now apply fo_stop.
  - now apply rt_call.
  - now apply rt_do.
  - now apply rt_while.
  - apply rt_repeat; auto. now apply fo_stop.
  - now apply rt_if_stmt.
  - now apply rt_if_else_stmt.
  - now apply rt_numeric.
  - now apply rt_numeric_step.
  - now apply rt_generic with ns.
  - now apply rt_function_stmt.
  - now apply rt_local_function_stmt.
  - now apply rt_local.
  - now apply rt_local_values with s0.
  - unfold parse_stmt. rsteps. assert (X : has_lua52 c || has_luajit c = true) by (destruct H0 as [-> | ->]; rewrite ?orb_true_r; reflexivity).
    assert (Y : f_lua52 (c_feat c) || f_luajit (c_feat c) || f_cfxlua (c_feat c) = true).
    { revert X. unfold has_lua52, has_luajit. destruct (f_lua52 (c_feat c)), (f_luajit (c_feat c)); cbn; auto; discriminate. }
    rewrite Y. unfold goto_stmt. rewrite X. rsteps. auto.
  - unfold parse_stmt. rsteps. rewrite ?andb_false_l. assert (X : has_lua52 c || has_luajit c = true) by (destruct H0 as [-> | ->]; rewrite ?orb_true_r; reflexivity).
    rewrite X. unfold label_stmt. rsteps. auto.
  - now apply rt_type_stmt.
  - now apply rt_export_stmt.
  - now apply rt_type_function_stmt.
  - now apply rt_export_function_stmt.
Qed.

(** ** Blocks *)
Lemma last_first c z k : last_line c z -> exists r l, printed z ++ k = r :: l /\ (sy r SBreak \/ sy r SReturn \/ nm r).
Proof.
  intros H. inversion H as [s o S O]; subst. inversion S; subst; spell; eauto 6. eexists _, _. split; [reflexivity|]. right. right. eapply word_name; eassumption.
Qed.
Lemma lines_stop c s l z k : Forall (line c) l -> apart (Con CTuple [s; none] :: l) -> optional (last_line c) z -> ended k -> follows (flat_map printed l ++ printed z ++ k) (after_stmt c (open s)).
Proof.
  intros L A Z K. destruct L as [|x l X L]; cbn [flat_map app].
  - destruct Z as [|z Z]; spell.
    + apply ended_follows in K. eapply follows_weaken; [|exact K]. intros [| | |[]|]; cbn; try discriminate; auto.
    + destruct (last_first c z k Z) as (r & m & E & R). rewrite E. apply follows_here. destruct R as [R|[R|R]]; rewrite R; reflexivity.
  - inversion X as [s' o S O]; subst. rewrite <- app_assoc. destruct (statement_first c s' S) as (r & m & E & F). spell. rewrite E. cbn [app]. apply follows_here. inversion A as [| |a b l' SE A']; subst. cbn in SE.
    specialize (SE eq_refl). unfold starts_with, first_of in SE. revert SE. spell. rewrite E. cbn [app terminals map hd_error]. intros SE.
    destruct (terminal_of r) as [| | |y|]; try discriminate F; [reflexivity|]. destruct y; try discriminate F; try reflexivity.
    + unfold after_stmt. cbn in F |- *. rewrite F. reflexivity.
    + unfold after_stmt. cbn. rewrite (SE eq_refl). reflexivity.
Qed.
Lemma apart_tail a l : apart (a :: l) -> apart l.
Proof. intros H. inversion H; [constructor|assumption]. Qed.
Lemma apart_drop l m : apart (l ++ m) -> apart m.
Proof. induction l; [auto|]. cbn [app]. intros H. apply IHl. eapply apart_tail, H. Qed.
Lemma rt_not_stmt c p r k : (sy r SBreak \/ sy r SReturn \/ block_end (terminal_of r) = true) -> gives (parse_stmt c p) (r :: k) NotFound (r :: k).
Proof.
  intros H. assert (X : match terminal_of r with TOther | TSym (SBreak | SReturn | SEnd | SUntil | SElse | SElseIf) => true | _ => false end = true).
  { destruct H as [H|[H|H]]; [now rewrite H..|]. destruct (terminal_of r) as [| | |[]|]; try discriminate H; reflexivity. }
  unfold parse_stmt. apply run_bind, run_current. cbv iota. rewrite !test_symbol, test_identifier. destruct (terminal_of r) as [| | |s|]; try discriminate X; [|cbn; apply run_ret; auto]. destruct s; try discriminate X; cbn; apply run_ret; auto.
Qed.
Lemma opt_semicolon o k : optional semicolon o -> follows k (fun x => negb (term_symbol x SSemicolon)) -> exists x, opt_tok x = o /\ gives (consume_if SSemicolon) (printed o ++ k) x k.
Proof.
  intros H (r & k' & -> & K). inversion H as [|t T]; subst; spell.
  - exists None. split; [reflexivity|]. rsteps. rewrite test_symbol. apply negb_true_iff in K. rewrite K. auto.
  - inversion T as [u U]; subst. spell. exists (Some u). split; [reflexivity|]. rsteps. auto.
Qed.
Lemma after_not_semicolon c l z k : Forall (line c) l -> optional (last_line c) z -> ended k -> follows (flat_map printed l ++ printed z ++ k) (fun x => negb (term_symbol x SSemicolon)).
Proof.
  intros L Z K. destruct L as [|x l X L]; cbn [flat_map app].
  - destruct Z as [|z Z]; spell.
    + apply ended_follows in K. eapply follows_weaken; [|exact K]. intros [| | |[]|]; cbn; try discriminate; auto.
    + destruct (last_first c z k Z) as (r & m & E & R). rewrite E. apply follows_here. destruct R as [R|[R|R]]; rewrite R; reflexivity.
  - inversion X as [s' o S O]; subst. rewrite <- app_assoc. destruct (statement_first c s' S) as (r & m & E & F). spell. rewrite E. cbn [app]. apply follows_here.
    destruct (terminal_of r) as [| | |y|]; try discriminate F; [reflexivity|]. destruct y; try discriminate F; reflexivity.
Qed.
Lemma rt_block c p b k : good c p -> block c b -> ended k -> gives (parse_block c p) (printed b ++ k) (Value b) k.
Proof.
  intros G H K. inversion H as [l z L A Z]; subst. unfold parse_block. apply run_bind.
  set (R := if match z with Con CSome [Con CTuple (Nd KLastContinue _ :: _)] => true | _ => false end then @inl (pres tree) (list tree) (Value (Nd KBlock [vector l; z])) else inr l).
  eapply run_conseq with (P := fun x s => x = R /\ s = (match R with inl _ => k | inr _ => printed z ++ k end)).
  - apply (run_loop (fun x s => exists todo, x ++ todo = l /\ s = flat_map printed todo ++ printed z ++ k)); [exists l; spell; auto|].
    intros x s (todo & EX & ->). pose proof L as F. rewrite <- EX in F, A. apply Forall_app in F as (_ & F). apply apart_drop in A. destruct F as [|y todo Y F]; cbn [flat_map app].
    + rewrite app_nil_r in EX. subst x. destruct Z as [|z Z].
      * spell. destruct K as (r & k' & -> & KE & KI). apply run_bind. eapply run_gives; [apply rt_not_stmt; auto|]. cbv iota. apply run_ret. auto.
      * inversion Z as [s o S O]; subst. inversion S as [r B|r LU W|r m B M]; subst; spell.
        -- apply run_bind. eapply run_gives; [apply rt_not_stmt; auto|]. cbv iota. apply run_ret. split; [reflexivity|]. subst R. cbn. spell. reflexivity.
        -- apply run_bind. assert (NK : follows k (fun x => negb (term_symbol x SSemicolon))) by (exact (after_not_semicolon c [] none k (Forall_nil _) (o_none _) K)).
           destruct (opt_semicolon o k O NK) as (u & EU & RU). eapply run_gives; [apply rt_continue; auto|].
           { inversion O as [|t T]; subst; spell; [|inversion T; subst; spell; fo]. apply ended_follows in K. eapply follows_weaken; [|exact K]. intros [| | |[]|]; cbn; try discriminate; auto. }
           cbv iota. apply run_bind. eapply run_gives; [exact RU|]. apply run_ret. subst R. cbn. unfold block_tree, stmt_pair. cbn. rewrite EU. auto.
        -- apply run_bind. eapply run_gives; [apply rt_not_stmt; auto|]. cbv iota. apply run_ret. split; [reflexivity|]. subst R. cbn. spell. reflexivity.
    + inversion Y as [s o S O]; subst. spell. destruct (opt_semicolon o (flat_map printed todo ++ printed z ++ k) O) as (u & EU & RU); [now apply after_not_semicolon with c|].
      apply run_bind. eapply run_gives; [apply rt_statement; [assumption..|]|].
      { clear EU RU. inversion O as [|t T]; subst; spell; [now apply lines_stop|]. inversion T; subst; spell. fo. }
      cbv iota. apply run_bind. eapply run_gives; [exact RU|]. apply run_ret. exists todo. unfold stmt_pair. rewrite EU, <- app_assoc. auto.
  - intros x s (-> & ->). subst R. destruct Z as [|z Z].
    + cbn. spell. destruct K as (r & k' & -> & KE & KI). unfold parse_last_stmt. apply run_bind, run_bind, run_current. cbv iota.
      assert (X : is_symbol r SReturn = false /\ is_symbol r SBreak = false) by (rewrite !test_symbol; destruct (terminal_of r) as [| | |[]|]; try discriminate KE; auto).
      destruct X as (-> & ->). rsteps. auto.
    + inversion Z as [s o S O]; subst. assert (NK : follows k (fun x => negb (term_symbol x SSemicolon))) by (exact (after_not_semicolon c [] none k (Forall_nil _) (o_none _) K)).
      assert (KO : follows (printed o ++ k) (fun x => block_end x || term_symbol x SSemicolon)).
      { inversion O as [|t T]; subst; spell; [|inversion T; subst; spell; fo]. apply ended_follows in K. eapply follows_weaken; [|exact K]. intros x ->. reflexivity. }
      assert (KI : exists r k', printed o ++ k = r :: k' /\ is_interpolated r = false /\ no_exp (terminal_of r) = true).
      { inversion O as [|t T]; subst; spell; [destruct K as (w & k' & -> & KE & KI); exists w, k'; repeat split; auto; now apply block_no_exp|]. inversion T; subst; spell. eexists _, _. split; [reflexivity|]. split; [eapply test_interpolated; [eassumption|discriminate]|st]. }
      destruct (opt_semicolon o k O NK) as (u & EU & RU). inversion S as [r B|r LU W|r m B M]; subst; cbv beta iota; spell.
      * unfold parse_last_stmt. rsteps. eapply run_gives; [exact RU|]. rsteps. unfold block_tree, stmt_pair. cbn. auto.
      * apply run_ret. auto.
      * unfold parse_last_stmt. rsteps.
        inversion M as [|m' M']; subst; cbn [flat_map app].
        -- destruct KI as (w & k' & E & KI & KN). rewrite E. eapply run_gives; [eapply rt_no_expressions; eassumption|]. rewrite <- E. rsteps. eapply run_gives; [exact RU|]. rsteps. auto.
        -- destruct (rt_expressions c p m (printed (opt_tok u) ++ k) G M') as (x & EX & RX); [eapply follows_weaken; [|exact KO]; intros [| | |[]|]; cbn; try discriminate; auto..|].
           eapply run_gives; [exact RX|]. rsteps. eapply run_gives; [exact RU|]. rsteps. unfold block_tree, stmt_pair. cbn. rewrite EX. auto.
Qed.

(** ** All parsers *)
Lemma good_step c p : good c p -> good c (parsers_step c p).
Proof.
  intros G. constructor.
  - intros. now apply rt_block.
  - intros. now apply rt_expression.
  - intros. now apply rt_no_expression.
  - intros. now apply rt_primary.
  - intros. now apply rt_precedence.
  - intros. now apply rt_parse_type.
  - intros. now apply rt_type_or_pack.
  - intros. now apply rt_long_tuple.
Qed.
Lemma good_at c n : good c (parsers_at c n).
Proof. induction n; [apply good_no_fuel|now apply good_step]. Qed.
