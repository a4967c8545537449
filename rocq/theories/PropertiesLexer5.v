(** The lexical grammar, exactly (C52). Statements only. *)
From Verif Require Import LexerSpec TokenSpec ScanSpec Scan5 Scan6 ParserTheorems PropertiesParser1.
From Verif Require Export ScanSpec.
Local Open Scope N_scope.

(** C52. The sources that lex without an error are exactly the files of the lexical grammar, and the tokens, trivia included, are those of the grammar. *)
Theorem C52_exact : forall c source ts, cfg_ok c ->
  (exists rs, tokenize c source = Done rs /\ clean rs /\ shebang_kept source rs /\ map t_type (tokens_of rs) = ts) <-> file c ts source.
Proof. exact file_exact. Qed.
Print Assumptions C52_exact.

(** No text can be cut into tokens in two ways. *)
Theorem C52_unambiguous : forall c source ts ts', cfg_ok c -> file c ts source -> file c ts' source -> ts = ts'.
Proof. exact file_unambiguous. Qed.
Print Assumptions C52_unambiguous.

(** A file is the concatenation of the spellings of its tokens. *)
Theorem C52_written : forall c source ts, file c ts source -> written ts = source.
Proof. exact file_written. Qed.
Print Assumptions C52_written.

(** Tokens that can stand alone in a file can be put side by side with a space or a line end after each. *)
Theorem C52_separated : forall c l,
  Forall (fun p => file c [fst p; TEof] (spelling (fst p)) /\
    (forall w, fst p <> TWhitespace w) /\ (forall w k, fst p <> TInterpolatedString w k) /\ (forall w, fst p <> TShebang w) /\ separates (fst p) (snd p)) l ->
  balanced c [] (map fst l) -> file c (separated l ++ [TEof]) (written (separated l)).
Proof. exact separated_files. Qed.
Print Assumptions C52_separated.

(** *** Examples *)
Definition lexed (c : cfg) (s : text) : option (list token_type) :=
  match tokenize c s with
  | Done rs => if forallb (fun r => match r with LOk _ => true | _ => false end) rs then Some (map t_type (tokens_of rs)) else None
  | _ => None
  end.
Lemma lexed_clean c s ts : lexed c s = Some ts -> exists rs, tokenize c s = Done rs /\ clean rs /\ map t_type (tokens_of rs) = ts.
Proof.
  unfold lexed. destruct (tokenize c s) as [rs| |]; try discriminate. destruct (forallb _ rs) eqn:F; [|discriminate]. intros E. injection E as <-.
  exists rs. split; [reflexivity|]. split; [|reflexivity]. apply Forall_forall. intros r I. rewrite forallb_forall in F. specialize (F r I). destruct r; try discriminate. eauto.
Qed.
(** A Luau source with numbers, an interpolated string with a table in its hole, a comment and a long string. *)
Example C52_luau : let s := str "x = 0x_fF + `a{ {1} }b` --[[ c ]] .. [==[ ]] ]==]" in
  exists ts, List.length ts = 22%nat /\ file cfg_luau ts s /\ In (TInterpolatedString (str "a") IBegin) ts /\ In (TNumber (str "0x_fF")) ts /\ In (TStringLiteral (str " ]] ") 2 QBrackets) ts.
Proof.
  intros s. destruct (lexed cfg_luau s) as [ts|] eqn:E; [|vm_compute in E; discriminate E]. exists ts.
  assert (F : file cfg_luau ts s).
  { apply file_exact; [apply configurations|]. destruct (lexed_clean _ _ _ E) as (rs & H1 & H2 & H3). exists rs. repeat split; auto. intros (r & K). vm_compute in K. discriminate K. }
  revert E F. vm_compute. intros E. injection E as <-. intros F. repeat split; auto 30.
Qed.
(** A derivation by hand: [a<b], in two of its readings with other versions of the follow-up. *)
Example C52_derivation : file cfg_lua51 [TIdentifier (str "a"); TSymbol SLessThan; TIdentifier (str "b"); TEof] (str "a<b") /\
  ~ file cfg_lua51 [TSymbol SLessThan; TSymbol SEqual; TEof] (str "<=").
Proof.
  split.
  - change (file cfg_lua51 ([TIdentifier (str "a"); TSymbol SLessThan; TIdentifier (str "b")] ++ [TEof]) (written [TIdentifier (str "a"); TSymbol SLessThan; TIdentifier (str "b")])).
    apply fi_plain; [|intros (r & K); vm_compute in K; discriminate K].
    apply (ti_cons _ _ _ []); [| |apply (ti_cons _ _ _ []); [| |apply (ti_cons _ _ _ []); [| |constructor]]]; try (apply tu_other; intros; discriminate).
    + apply to_name; [exists 97, []; repeat split|vm_compute; intros I; repeat (destruct I as [I|I]; [discriminate I|]); exact I|intros x r K; injection K as <- _; reflexivity].
    + apply to_operator. split; [vm_compute; auto 60|]. repeat split.
      * intros o v' I E. vm_compute in I, E. repeat (destruct I as [<-|I]; [first [discriminate E|cbn; repeat constructor]|]). destruct I.
      * intros r K. vm_compute in K. discriminate K.
      * intros K. vm_compute in K. discriminate K.
      * intros n r K. vm_compute in K. discriminate K.
      * intros d r _ K. vm_compute in K. discriminate K.
    + apply to_name; [exists 98, []; repeat split|vm_compute; intros I; repeat (destruct I as [I|I]; [discriminate I|]); exact I|intros x r K; discriminate K].
  - intros F. apply file_exact in F; [|apply configurations]. destruct F as (rs & H & _ & _ & E). vm_compute in H. injection H as <-. vm_compute in E. discriminate E.
Qed.
(** Not a file: an unfinished string. *)
Example C52_not_lexed : forall ts, ~ file cfg_lua51 ts (str "x = 'a").
Proof.
  intros ts F. apply file_exact in F; [|apply configurations]. destruct F as (rs & H & C & _ & _).
  assert (Q : forallb (fun r => match r with LOk _ => true | _ => false end) rs = true).
  { apply forallb_forall. intros r I. unfold clean in C. rewrite Forall_forall in C. destruct (C r I) as [t ->]. reflexivity. }
  vm_compute in H. injection H as <-. vm_compute in Q. discriminate Q.
Qed.
Lemma lexed_file c s ts : cfg_ok c -> lexed c s = Some ts -> not_continued (N.eqb 35) s -> file c ts s.
Proof.
  intros HC L N. destruct (lexed_clean _ _ _ L) as (rs & H1 & H2 & H3). apply file_exact; [exact HC|]. exists rs. repeat split; auto.
  intros (r & ->). specialize (N 35 (33 :: r) eq_refl). discriminate N.
Qed.
Definition words : list (token_type * char) :=
  [(TIdentifier (str "a"), 32); (TSymbol STwoDots, 10); (TNumber (str "4"), 32); (TSingleLineComment (str "x"), 10); (TSymbol SMinus, 32); (TStringLiteral (str "b") 0 QBrackets, 32)].
Example C52_separated_example : written (separated words) = str "a " ++ str ".." ++ [10] ++ str "4 --x" ++ [10] ++ str "- [[b]] " /\
  file cfg_lua51 (separated words ++ [TEof]) (written (separated words)).
Proof.
  split; [reflexivity|]. apply C52_separated.
  - assert (M : forall x, x = 10 \/ x = 32 -> forall t, (forall w, t <> TSingleLineComment w) -> separates t x) by (intros x [->| ->] t N; [now left|now right]).
    repeat (apply Forall_cons; [cbn [fst snd]; split; [apply lexed_file; [apply configurations|vm_compute; reflexivity|intros x r K; vm_compute in K; injection K as <- _; reflexivity]|];
      repeat (split; [intros; discriminate|]); first [apply M; [auto|intros; discriminate]|now left]|]). constructor.
  - cbn [map fst words]. repeat (eapply ba_cons; [apply tu_other; intros; discriminate|]). constructor.
Qed.
(** Finding. A number ends before a letter that cannot continue it, so that [3y] is a number and a name: the source below
    is accepted, and has two assignments. The reference implementations read the longest run of letters, digits and dots and reject it. *)
Theorem C52_number_then_name : file cfg_lua51 [TNumber (str "3"); TIdentifier (str "y"); TEof] (str "3y") /\
  exists a, parse cfg_lua51 (str "x = 3y = 4") = Done (inl a).
Proof.
  split; [|eexists; vm_compute; reflexivity].
  apply file_exact; [apply configurations|]. destruct (lexed_clean cfg_lua51 (str "3y") [TNumber (str "3"); TIdentifier (str "y"); TEof]) as (rs & H1 & H2 & H3); [vm_compute; reflexivity|].
  exists rs. repeat split; auto. intros (r & K). vm_compute in K. discriminate K.
Qed.
Print Assumptions C52_number_then_name.
