(** Blocks, tables, calls and single tokens; the text of what constructors make is parsed (C54). Proof file. *)
From Verif Require Export Construct4.
From Verif Require Import Lexer LexerSpec TokenSpec TokenProofs TokenTheorems Scan5 Scan6 PunctuatedProofs ParserTheorems Reprint2.
From Verif Require Import TreeFacts PrintProofs.
From Verif Require Import RoundSpec ScanSpec Construct.
From Coq Require Import Lia.
Local Open Scope nat_scope.
Import ListNotations.

(** ** Single tokens *)
Lemma lone_alone c t : lone c t -> alone c t /\ ~ trivial t /\ ~ is_brace t.
Proof.
  intros (T & N & A & B & I). split; [split; [exact T|split; [|exact I]]|split; [exact N|now intros [E|E]]]. intros w ->. now apply N.
Qed.
Lemma not_part_lone c r : lone c (t_type (r_token r)) -> ~ part_of_string r.
Proof. intros (_ & _ & _ & _ & I) (w & k & E). now apply (I w k). Qed.
Lemma unspaced_ok c r : unspaced r -> lone c (t_type (r_token r)) -> ok c soft [r].
Proof.
  intros [L T] H. split; [intros r' [<-|[]]; eapply not_part_lone; exact H|]. destruct (lone_alone _ _ H) as (A & N & B).
  cbn [flat_map]. rewrite app_nil_r. replace (show_ref r) with (spelling (t_type (r_token r))); [unfold main_types; cbn [map]; now apply reads_alone|].
  unfold show_ref. rewrite L, T. cbn [flat_map app]. rewrite app_nil_r. apply spelling_show.
Qed.
Lemma spaced_ok c r : spaced r -> lone c (t_type (r_token r)) -> ok c anything [r].
Proof.
  intros [L T] H. split; [intros r' [<-|[]]; eapply not_part_lone; exact H|]. destruct (lone_alone _ _ H) as (A & N & B).
  destruct (r_trailing r) as [|x [|y q]] eqn:Er; try discriminate. cbn in T. injection T as T.
  cbn [flat_map]. rewrite app_nil_r. replace (show_ref r) with (spelling (t_type (r_token r)) ++ [32%N]).
  - unfold main_types. cbn [map]. apply (reads_app c soft anything _ _ [t_type (r_token r)] []); [now apply reads_alone|apply reads_space|]. intros v _. right. do 2 eexists. split; [reflexivity|]. unfold soft_char. cbn. auto.
  - unfold show_ref. rewrite L, Er. cbn [flat_map app]. rewrite app_nil_r. f_equal; [apply spelling_show|]. unfold show_token. now rewrite T.
Qed.
Lemma spaced_stands c (P : tree -> Prop) t : P t -> (forall r, In r (printed t) -> spaced r /\ lone c (t_type (r_token r))) -> stands c anything P t.
Proof.
  intros H A. apply stands_intro; [exists t; split; [exact H|]; split; [apply filled_refl|reflexivity]|]. induction (printed t) as [|r l IH]; [apply ok_nil|]. apply ok_cons.
  - apply spaced_ok; now apply (A r (or_introl eq_refl)).
  - apply IH. intros r' I. apply A. now right.
Qed.
Lemma unspaced_stands c (P : tree -> Prop) t r : P t -> printed t = [r] -> unspaced r -> lone c (t_type (r_token r)) -> stands c soft P t.
Proof. intros H E B L. apply stands_intro; [exists t; split; [exact H|]; split; [apply filled_refl|reflexivity]|]. rewrite E. now apply unspaced_ok. Qed.

(** ** Tables *)
Lemma brace_any c s v : s = SLeftBrace \/ s = SRightBrace -> token_then c (TSymbol s) v.
Proof.
  intros H. apply to_operator. split; [destruct H as [->| ->]; cbn; tauto|]. repeat split.
  - intros o v' I E. apply operator_sym in I as (sy & <- & _). destruct H as [->| ->]; destruct sy; cbn in E; try discriminate E; cbn; lia.
  - intros r E. destruct H as [->| ->]; discriminate E.
  - intros _ r E. destruct H as [->| ->]; discriminate E.
  - intros [|n] r E; destruct H as [->| ->]; discriminate E.
  - intros d r _ E. destruct H as [->| ->]; discriminate E.
Qed.
Lemma braces_read c (F : text -> Prop) s ms : (forall v, F (32%N :: v)) -> reads_as c F s ms -> reads_as c anything (str "{ " ++ s ++ str " }") (TSymbol SLeftBrace :: ms ++ [TSymbol SRightBrace]).
Proof.
  intros HF R st ts L _ T. set (st1 := if has_luau c then Brace :: st else st). assert (L1 : has_luau c = false -> st1 = []) by (unfold st1; intros E; rewrite E; auto).
  assert (T1 : tokens_in c st1 (TSymbol SRightBrace :: ts)).
  { eapply ti_cons; [apply brace_any; auto| |exact T]. unfold st1. destruct (has_luau c); [constructor|]. rewrite L by reflexivity. constructor. }
  destruct (reads_space c st1 _ L1 I T1) as (ts2 & T2 & W2 & M2). destruct (R st1 ts2 L1) as (ts3 & T3 & W3 & M3); [rewrite W2; apply HF|exact T2|].
  destruct (reads_space c st1 _ L1 I T3) as (ts4 & T4 & W4 & M4). exists (TSymbol SLeftBrace :: ts4). split; [|split].
  - eapply ti_cons; [apply brace_any; auto|apply tu_open|exact T4].
  - change (written (TSymbol SLeftBrace :: ts4)) with ([123%N] ++ written ts4). rewrite W4, W3, W2. change (written (TSymbol SRightBrace :: ts)) with ([125%N] ++ written ts). rewrite <- !app_assoc. reflexivity.
  - change (TSymbol SLeftBrace :: ts4) with ([TSymbol SLeftBrace] ++ ts4). rewrite mains_app, M4, M3, M2. change (TSymbol SRightBrace :: ts) with ([TSymbol SRightBrace] ++ ts). rewrite mains_app, !mains_main by auto. cbn [app]. now rewrite <- app_assoc.
Qed.
Lemma braces_ok c l : ok c soft l -> ok c anything (tk (str "{ ") :: l ++ [tk (str " }")]).
Proof.
  intros [N R]. split.
  - intros r [<-|I]; [intros (w & k & E); discriminate E|]. apply in_app_iff in I as [I|[<-|[]]]; [auto|]. intros (w & k & E); discriminate E.
  - cbn [flat_map]. rewrite flat_map_app. unfold main_types in *. cbn [map]. rewrite map_app. apply (braces_read c soft); [|exact R]. intros v. right. do 2 eexists. split; [reflexivity|]. unfold soft_char. cbn. auto.
Qed.
Lemma several_entries P l : several P SComma l -> entries P l.
Proof. induction 1; [now constructor|]. eapply e_more; eauto. Qed.
Lemma table_stands c f vs d : basic_token f (str ", ") = Done (Tok d) -> Forall (stands c soft (field c)) vs ->
  exists t, table_constructor_new f = Done t /\ stands c anything (table c) (with_field 1 (listing (join d vs)) t).
Proof.
  intros Ed H. use_comma Ed. unfold table_constructor_new, make, each, span_new, each. repeat literal. eexists. split; [reflexivity|]. cbn [with_field replace no_pairs].
  destruct vs as [|v vs].
  - apply stands_intro.
    + eexists. split; [|split; [apply filled_refl|reflexivity]]. apply tb_intro; [tok_sy|tok_sy|constructor].
    + prints. apply (braces_ok c []). apply ok_nil.
  - assert (V : stands c soft (values (field c)) (listing (join (tk (str ", ")) (v :: vs)))) by (apply comma_values; [easy|exact H]). parts V. destruct P as (l & -> & Pl). apply stands_intro.
    + eexists. split; [|split; [fills|rewrite !printed_nd; cbn [display_order flat_map pick at_ subs_at subs nth_error]; now rewrite Q]]. apply tb_intro; [tok_sy|tok_sy|now apply several_entries].
    + rewrite printed_nd. cbn [display_order flat_map pick at_ subs_at subs nth_error]. rewrite !printed_tok. cbn [app]. now apply braces_ok.
Qed.

(** ** Calls *)
Lemma call_stands c f p es d : basic_token f (str ", ") = Done (Tok d) -> stands c soft (prefix_expression c) p -> Forall (stands c soft (expression c)) es ->
  exists a t, function_args_empty f = Done a /\ function_call_new f p = Done t /\
    stands c anything (fun x => statement c (Nd KStmtFunctionCall [x]) /\ expression c (Nd KExprFunctionCall [x]))
      (with_field 1 (vector [Nd KSuffixCall [Nd KCallAnonymous [with_field 1 (listing (join d es)) a]]]) t).
Proof.
  intros Ed Hp H. use_comma Ed. parts Hp. unfold function_call_new, function_args_empty, make, each, span_new, each. repeat literal. do 2 eexists. split; [reflexivity|]. split; [reflexivity|]. cbn [with_field replace no_pairs].
  assert (V : stands c soft (fun x => exists l, x = listing l /\ expressions c l) (listing (join (tk (str ", ")) es))).
  { destruct es as [|e es].
    - apply stands_intro; [|apply ok_nil]. eexists. split; [exists []; split; [reflexivity|constructor]|]. split; [apply filled_refl|reflexivity].
    - eapply stands_sort; [|apply comma_values; [easy|exact H]]. intros x (l & -> & S). exists l. split; [reflexivity|now constructor]. }
  parts V. destruct P0 as (l & -> & Pl). apply stands_intro.
  - eexists. split; [|split; [fills|]].
    + assert (Sx : Forall (suffix c) [Nd KSuffixCall [Nd KCallAnonymous [Nd KArgsParentheses [Con CSpan [Tok (tk (str "(")); Tok (tk (str ")"))]; listing l]]]]).
      { constructor; [|constructor]. apply su_call, ar_parentheses; [tok_sy|tok_sy|exact Pl]. }
      split; [apply sm_call|do 3 constructor]; try exact P; try exact Sx; reflexivity.
    + rewrite printed_con in Q0. rewrite printed_con in Q0. prints. now rewrite Q, Q0.
  - rewrite printed_con in O0. prints. rewrite !app_nil_r. apply ok_before; [exact O| |starts]. chain.
Qed.
