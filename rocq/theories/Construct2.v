(** The tokens that constructors make up, and what stands side by side in the nodes they make (C54). Proof file. *)
From Verif Require Export ConstructSpec.
From Verif Require Import Lexer LexerSpec TokenSpec TokenProofs TokenTheorems Scan5 Scan6 PunctuatedProofs Reprint2.
From Verif Require Import TreeFacts PrintProofs Round13.
From Verif Require Export Construct Construct1.
From Verif Require Import RoundSpec ScanSpec.
From Coq Require Import Lia.
Local Open Scope N_scope.
Import ListNotations.

(** ** Made-up tokens *)
Definition tk (w : text) : tokref := match basic_symbol no_features w with Done r => r | _ => end_of_file end.
Definition literals : list text :=
  [str "if "; str " then"; nl ++ str "end"; str " then" ++ nl; str "elseif "; str "while "; str " do" ++ nl; str "end" ++ nl; str "repeat" ++ nl; nl ++ str "until "; str "for "; str " = ";
   str ", "; str " in "; str "("; str ")"; str "{ "; str " }"; str "return "; str "function"; str "function "; str "local "; str "do" ++ nl; str ":"; str ";" ++ nl; str "else" ++ nl].
Lemma basic_done f w : In w literals -> basic_token f w = Done (Tok (tk w)).
Proof. unfold literals. cbn [In]. intros H. destruct f as [[] [] [] [] [] []]; repeat (destruct H as [<-|H]; [vm_compute; reflexivity|]); contradiction. Qed.

Definition all_on : features := mkFeatures true true true true true true.
Definition sk (w : text) : tokref := match token_reference_symbol all_on w with Done (SymOk r) => r | _ => end_of_file end.
Definition always : list text := [str "<"; str ">"; str ": "; str " = "; str "if "; str " then"; str " then "; str " else "; str " elseif "].
Lemma symbol_done f w : In w always -> symbol_token f w = Done (Tok (sk w)).
Proof. unfold always. cbn [In]. intros H. destruct f as [[] [] [] [] [] []]; repeat (destruct H as [<-|H]; [vm_compute; reflexivity|]); contradiction. Qed.
Lemma colons_done f : f_luau f || f_lua52 f || f_luajit f = true -> symbol_token f (str "::") = Done (Tok (sk (str "::"))).
Proof. destruct f as [[] [] [] [] [] []]; try discriminate; intros _; vm_compute; reflexivity. Qed.
Lemma goto_done f : f_lua52 f || f_luajit f = true -> symbol_token f (str "goto") = Done (Tok (sk (str "goto"))) /\ symbol_token f (str "goto ") = Done (Tok (sk (str "goto "))).
Proof. destruct f as [[] [] [] [] [] []]; try discriminate; intros _; split; vm_compute; reflexivity. Qed.
Lemma at_done f : f_luau f = true -> symbol_token f (str "@") = Done (Tok (sk (str "@"))).
Proof. destruct f as [[] [] [] [] [] []]; try discriminate; intros _; vm_compute; reflexivity. Qed.

(** ** Lists of token references *)
Definition ok (c : cfg) (F : text -> Prop) (l : list tokref) : Prop := (forall r, In r l -> ~ part_of_string r) /\ reads_as c F (flat_map show_ref l) (main_types l).
Lemma ok_nil c F : ok c F [].
Proof. split; [now intros r []|apply reads_nil]. Qed.
Lemma ok_app c (F G : text -> Prop) a b : ok c F a -> ok c G b -> (forall v, G v -> F (flat_map show_ref b ++ v)) -> ok c G (a ++ b).
Proof.
  intros [N1 R1] [N2 R2] H. split; [intros r I; apply in_app_iff in I as [I|I]; auto|]. unfold main_types in *. rewrite flat_map_app, map_app. eapply reads_app; eassumption.
Qed.
Lemma ok_any c F a b : ok c anything a -> ok c F b -> ok c F (a ++ b).
Proof. intros A B. eapply ok_app; [exact A|exact B|]. now intros. Qed.
Lemma ok_cons c F r l : ok c anything [r] -> ok c F l -> ok c F (r :: l).
Proof. apply (ok_any c F [r]). Qed.
Lemma soft_start w v : starts_soft w -> soft (w ++ v).
Proof. intros (x & q & -> & S). right. exists x, (q ++ v). auto. Qed.
Lemma ok_before c F a b : ok c soft a -> ok c F b -> starts_soft (flat_map show_ref b) -> ok c F (a ++ b).
Proof. intros A B S. eapply ok_app; [exact A|exact B|]. intros. now apply soft_start. Qed.
Lemma ok_last c a b : ok c soft a -> ok c soft b -> starts_soft (flat_map show_ref b) \/ flat_map show_ref b = [] -> ok c soft (a ++ b).
Proof. intros A B S. eapply ok_app; [exact A|exact B|]. intros v V. destruct S as [S| ->]; [now apply soft_start|exact V]. Qed.
Lemma ok_less c (F G : text -> Prop) l : (forall v, G v -> F v) -> ok c F l -> ok c G l.
Proof. intros H [N R]. split; [exact N|]. eapply reads_less; eassumption. Qed.
Lemma ok_soft c l : ok c anything l -> ok c soft l.
Proof. apply ok_less. now intros. Qed.
Lemma first_soft r l : starts_soft (show_ref r) -> starts_soft (flat_map show_ref (r :: l)).
Proof. intros (x & q & E & S). exists x, (q ++ flat_map show_ref l). split; [|exact S]. cbn [flat_map]. now rewrite E. Qed.

(** ** Single tokens *)
Definition is_brace (t : token_type) : Prop := t = TSymbol SLeftBrace \/ t = TSymbol SRightBrace.
Lemma alone_turns c t st : alone c t -> ~ is_brace t -> turns c st t st.
Proof. intros (_ & _ & NI) B. apply tu_other; [intros ->; apply B; now left|intros ->; apply B; now right|exact NI]. Qed.
Lemma token_alone c t v : ~ trivial t -> token_then c t v -> alone c t -> forall st ts, ~ is_brace t -> written ts = v -> tokens_in c st ts -> exists ts', tokens_in c st ts' /\ written ts' = spelling t ++ v /\ mains ts' = [t] ++ mains ts.
Proof.
  intros NT T A st ts B E Ti. exists (t :: ts). split; [|split].
  - eapply ti_cons; [now rewrite E|now apply alone_turns|exact Ti].
  - change (written (t :: ts)) with (spelling t ++ written ts). now rewrite E.
  - change (t :: ts) with ([t] ++ ts). rewrite mains_app. f_equal. now apply mains_main.
Qed.
Lemma reads_alone c t : alone c t -> ~ trivial t -> ~ is_brace t -> reads_as c soft (spelling t) [t].
Proof.
  intros A NT B st ts _ N T. eapply token_alone; eauto. destruct N as [N|(x & r & N & Sx)].
  - rewrite N. apply A.
  - rewrite N. apply soft_token; [exact A| |exact Sx]. intros w ->. now apply NT.
Qed.
Lemma not_trivial_symbol s : ~ trivial (TSymbol s).
Proof. now intros []. Qed.

Lemma keyword_alone c s : In (sym_text s) (reserved_words c) -> alone c (TSymbol s).
Proof. intros I. split; [|split; intros; discriminate]. apply to_keyword; [exact I|apply nil_continued]. Qed.
Lemma operator_alone c s : In (sym_text s) (operators c) -> In s [SEqual; SComma; SColon; SSemicolon; SLeftParen; SRightParen; SLeftBrace; SRightBrace; SLessThan; SGreaterThan; STwoColons; SAtSign] -> alone c (TSymbol s).
Proof.
  intros I J. split; [|split; intros; discriminate]. apply to_operator. split; [exact I|]. rewrite app_nil_r. split.
  - intros o v' _ ->. rewrite app_length. lia.
  - clear I. cbn [In] in J. repeat split.
    + intros r E. destruct s; try discriminate E; intuition discriminate.
    + intros _ r E. destruct s; try discriminate E; intuition discriminate.
    + intros n r E. destruct n; destruct s; try discriminate E; intuition discriminate.
    + intros d r _ E. destruct s; try discriminate E; intuition discriminate.
Qed.
Definition basic_words : list symbol := [SIf; SThen; SElse; SElseIf; SWhile; SDo; SEnd; SRepeat; SUntil; SFor; SIn; SReturn; SFunction; SLocal].
Lemma basic_alone c s : In s (basic_words ++ [SEqual; SComma; SColon; SSemicolon; SLeftParen; SRightParen; SLessThan; SGreaterThan]) -> alone c (TSymbol s) /\ ~ is_brace (TSymbol s).
Proof.
  intros I. split; [|intros [E|E]; injection E as ->; cbn in I; intuition discriminate]. unfold basic_words in I. cbn [app In] in I.
  repeat (destruct I as [<-|I]; [first [apply keyword_alone; cbn; tauto|apply operator_alone; cbn; tauto]|]). contradiction.
Qed.

(** A made-up token with white space around it. *)
Definition gap_text (w : text) : Prop := w = [] \/ w = [32] \/ w = [10].
Lemma reads_gap c w : gap_text w -> reads_as c anything w [].
Proof. intros [->|[->| ->]]; [apply reads_nil|apply reads_space|apply reads_line]. Qed.
Lemma made_after c r s a b : show_ref r = a ++ sym_text s ++ b -> t_type (r_token r) = TSymbol s -> gap_text a -> b = [32] \/ b = [10] -> alone c (TSymbol s) -> ~ is_brace (TSymbol s) -> ok c anything [r].
Proof.
  intros E T A B Al Br. split; [intros r' [<-|[]] (w & k & Q); congruence|]. cbn [flat_map]. rewrite app_nil_r, E. unfold main_types. cbn [map]. rewrite T.
  apply (reads_any c a (sym_text s ++ b) [] [TSymbol s]); [now apply reads_gap|]. apply (reads_app c soft anything (sym_text s) b [TSymbol s] []).
  - now apply (reads_alone c (TSymbol s)).
  - apply reads_gap. unfold gap_text. tauto.
  - intros v _. apply soft_start. destruct B as [->| ->]; (do 2 eexists; split; [reflexivity|]); unfold soft_char; cbn; auto.
Qed.
Lemma made_soft c r s a : show_ref r = a ++ sym_text s -> t_type (r_token r) = TSymbol s -> gap_text a -> alone c (TSymbol s) -> ~ is_brace (TSymbol s) -> ok c soft [r].
Proof.
  intros E T A Al Br. split; [intros r' [<-|[]] (w & k & Q); congruence|]. cbn [flat_map]. rewrite app_nil_r, E. unfold main_types. cbn [map]. rewrite T.
  apply (reads_any c a (sym_text s) [] [TSymbol s]); [now apply reads_gap|]. now apply (reads_alone c (TSymbol s)).
Qed.
Lemma paren_any c s v : s = SLeftParen \/ s = SRightParen -> token_then c (TSymbol s) v.
Proof.
  intros H. apply to_operator. split; [destruct H as [->| ->]; cbn; tauto|]. repeat split.
  - intros o v' I E. apply operator_sym in I as (sy & <- & _). destruct H as [->| ->]; destruct sy; cbn in E; try discriminate E; cbn; lia.
  - intros r E. destruct H as [->| ->]; discriminate E.
  - intros _ r E. destruct H as [->| ->]; discriminate E.
  - intros [|n] r E; destruct H as [->| ->]; discriminate E.
  - intros d r _ E. destruct H as [->| ->]; discriminate E.
Qed.
Lemma made_paren c r s : s = SLeftParen \/ s = SRightParen -> show_ref r = sym_text s -> t_type (r_token r) = TSymbol s -> ok c anything [r].
Proof.
  intros H E T. split; [intros r' [<-|[]] (w & k & Q); congruence|]. cbn [flat_map]. rewrite app_nil_r, E. unfold main_types. cbn [map]. rewrite T.
  intros st ts _ _ Ti. apply (token_alone c (TSymbol s) (written ts)); auto.
  - now apply paren_any.
  - split; [now apply paren_any|]. split; intros; discriminate.
  - intros [Q|Q]; injection Q as ->; destruct H; discriminate.
Qed.

(** Literals that can stand before anything, and literals that cannot. *)
Definition before_anything : list text :=
  [str "if "; str " then" ++ nl; str "elseif "; str "while "; str " do" ++ nl; str "end" ++ nl; str "repeat" ++ nl; nl ++ str "until "; str "for "; str " = ";
   str ", "; str " in "; str "("; str ")"; str "return "; str "function "; str "local "; str "do" ++ nl; str ";" ++ nl; str "else" ++ nl].
Definition before_soft : list text := [str " then"; nl ++ str "end"; str "function"].
Ltac member := solve [cbn [In]; repeat (first [left; reflexivity|right])].
Ltac made s a b := eapply (made_after _ _ s a b); [vm_compute; reflexivity|vm_compute; reflexivity|unfold gap_text; tauto|tauto|apply basic_alone; unfold basic_words; cbn; tauto|intros [Q|Q]; discriminate Q].
Lemma lit_any c w : In w before_anything -> ok c anything [tk w].
Proof.
  unfold before_anything. cbn [In]. intros I.
  repeat (destruct I as [<-|I]; [first
    [made SIf (@nil N) [32]|made SThen [32] [10]|made SElseIf (@nil N) [32]|made SWhile (@nil N) [32]|made SDo [32] [10]|made SEnd (@nil N) [10]|made SRepeat (@nil N) [10]|made SUntil [10] [32]
    |made SFor (@nil N) [32]|made SEqual [32] [32]|made SComma (@nil N) [32]|made SIn [32] [32]|eapply (made_paren _ _ SLeftParen); [tauto|vm_compute; reflexivity|vm_compute; reflexivity]|eapply (made_paren _ _ SRightParen); [tauto|vm_compute; reflexivity|vm_compute; reflexivity]
    |made SReturn (@nil N) [32]|made SFunction (@nil N) [32]|made SLocal (@nil N) [32]|made SDo (@nil N) [10]|made SSemicolon (@nil N) [10]|made SElse (@nil N) [10]]|]).
  contradiction.
Qed.
Ltac made_ s a := eapply (made_soft _ _ s a); [vm_compute; reflexivity|vm_compute; reflexivity|unfold gap_text; tauto|apply basic_alone; unfold basic_words; cbn; tauto|intros [Q|Q]; discriminate Q].
Lemma lit_soft c w : In w before_soft -> ok c soft [tk w].
Proof.
  unfold before_soft. cbn [In]. intros I. repeat (destruct I as [<-|I]; [first [made_ SThen [32]|made_ SEnd [10]|made_ SFunction (@nil N)]|]). contradiction.
Qed.
Definition soft_literals : list text := [str " then" ++ nl; str " then"; str " do" ++ nl; nl ++ str "until "; nl ++ str "end"; str " = "; str ", "; str " in "; str "("; str ")"; str " }"; str ";" ++ nl].
Lemma lit_starts w : In w soft_literals -> starts_soft (show_ref (tk w)).
Proof. unfold soft_literals. cbn [In]. intros I. repeat (destruct I as [<-|I]; [do 2 eexists; split; [vm_compute; reflexivity|unfold soft_char; cbn; tauto]|]). contradiction. Qed.

(** ** Parts of nodes *)
Lemma stands_ok c F P t : stands c F P t -> ok c F (printed t).
Proof. now intros (_ & N & R). Qed.
Lemma stands_intro c F (P : tree -> Prop) t : (exists t', P t' /\ filled t t' /\ printed t' = printed t) -> ok c F (printed t) -> stands c F P t.
Proof. intros E [N R]. split; [exact E|]. split; assumption. Qed.
Lemma stands_soft c P t : stands c anything P t -> stands c soft P t.
Proof. intros (E & N & R). split; [exact E|]. split; [exact N|]. eapply reads_less; [|exact R]. now intros. Qed.
Lemma stands_sort c F (P Q : tree -> Prop) t : (forall x, P x -> Q x) -> stands c F P t -> stands c F Q t.
Proof. intros H ((x & Px & E) & N). split; [exists x; auto|exact N]. Qed.
Lemma filled_refl t : filled t t.
Proof.
  induction t as [r|k cs IH|k cs IH] using tree_ind'; constructor; induction IH; constructor; auto.
Qed.

(** Lists of values. *)
Lemma join_values c (P : tree -> Prop) d ts : ts <> [] -> sy d SComma -> ok c anything [d] -> starts_soft (show_ref d) -> Forall (stands c soft P) ts ->
  stands c soft (values P) (listing (join d ts)).
Proof.
  intros NE Sd Od Td. induction ts as [|t ts IH]; [easy|]. intros H. inversion H as [|? ? Ht Hs]; subst. pose proof (stands_ok _ _ _ _ Ht) as Ot. destruct Ht as ((t' & Pt & Ft & Qt) & _). destruct ts as [|t2 ts].
  - apply stands_intro.
    + exists (listing [final t']). split; [eexists; split; [reflexivity|now constructor]|]. split; [repeat constructor; exact Ft|]. cbn [join]. rewrite !printed_con. cbn [flat_map]. rewrite !printed_con. cbn [flat_map]. now rewrite Qt.
    + cbn [join]. rewrite !printed_con. cbn [flat_map]. rewrite !printed_con. cbn [flat_map]. rewrite !app_nil_r. exact Ot.
  - specialize (IH ltac:(easy) Hs). pose proof (stands_ok _ _ _ _ IH) as Ol. destruct IH as ((l' & (m & -> & Sm) & Fl & Ql) & _).
    change (join d (t :: t2 :: ts)) with (followed t d :: join d (t2 :: ts)). apply stands_intro.
    + exists (listing (followed t' d :: m)). split; [eexists; split; [reflexivity|now constructor]|]. split.
      * inversion Fl; subst. constructor. constructor; [|assumption]. constructor. constructor; [exact Ft|]. constructor; [constructor|constructor].
      * rewrite !printed_con in *. cbn [flat_map]. rewrite !printed_con, Ql. cbn [flat_map]. now rewrite Qt.
    + rewrite printed_con. cbn [flat_map]. rewrite !printed_con in *. cbn [flat_map]. rewrite printed_tok. cbn [app]. rewrite <- app_assoc. apply ok_before; [exact Ot| |now apply first_soft].
      now apply (ok_cons c soft d).
Qed.
