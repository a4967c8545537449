(** Only the first token of a source starts at its first byte. *)
From Verif Require Import Lexer LexerFacts LexerFacts2 LexerCases LexerStep LexerStream LexerSpec LexerProofs LexerTheorems LexerTheorems2 LexerTheorems3.
From Coq Require Import Lia ZifyBool ZifyNat ZifyN.
Local Open Scope N_scope.

Definition first_start (r : tokref) : N := p_bytes (t_start (hd (r_token r) (r_leading r))).
Lemma bytes_some u : u <> [] -> 0 < bytes_of u.
Proof. destruct u as [|x u]; [congruence|]. intros _. rewrite bytes_of_cons. unfold len_utf8. repeat (destruct (_ <? _)); lia. Qed.
Lemma stream_starts c l ts : stream c l (map LOk ts) -> Forall (fun r => p_bytes (s_pos (l_src l)) <= first_start r) ts.
Proof.
  intros S. apply Forall_forall. intros r I.
  destruct (stream_origin _ _ _ S (LOk r) r (hd (r_token r) (r_leading r))) as (u & l1 & l2 & es & (_ & M) & P & E); [now apply in_map|reflexivity|unfold ref_tokens; destruct (r_leading r); cbn; auto|].
  specialize (E eq_refl). subst es. destruct P as [[P _]|[_ P]]; [|congruence]. apply process_next_ok in P as (_ & P & _). unfold first_start. rewrite P, M, adv_bytes. lia.
Qed.
Lemma stream_later c l r ts : inv l -> stream c l (map LOk (r :: ts)) -> Forall (fun r => 0 < first_start r) ts.
Proof.
  intros I H. cbn [map] in H. apply stream_next in H as (l' & E & S). apply pnwt_inv in E as [I' RS]; [|assumption]. pose proof (ref_step_moved _ _ _ _ RS) as (v & M). apply ref_step_progress in RS as [Ln|En]; [| |assumption].
  - eapply Forall_impl; [|exact (stream_starts _ _ _ S)]. intros x Hx. cbv beta in *. destruct M as [M1 M2]. rewrite M2, adv_bytes in Hx. assert (0 < bytes_of v); [|lia]. apply bytes_some. intros ->. cbn in M1. rewrite M1 in Ln. lia.
  - destruct ts; [constructor|]. apply stream_next in S as (l2 & E2 & _). rewrite (ended_next_trivia _ _ En) in E2. discriminate.
Qed.
Lemma later_tokens c source ts : tokenize c source = Done (map LOk ts) -> Forall (fun r => 0 < first_start r) (tl ts).
Proof.
  intros T. apply tokenize_done in T. inversion T as [rs NS S|line s sb r rs SB M F HN Es Nl S Er|line s r rs SB M F HN Nl S NO]; subst.
  - destruct ts as [|r ts]; [constructor|]. eapply stream_later; [|exact S]. discriminate.
  - destruct ts as [|r' ts]; [discriminate|]. cbn [map] in Er. injection Er as _ ->. eapply (stream_later _ _ r); [|exact S]. discriminate.
  - assert (A : Forall (fun r => 0 < first_start r) ts).
    { apply stream_next in S as (l' & E & S). apply pnwt_inv in E as [_ RS]; [|discriminate]. pose proof (ref_step_moved _ _ _ _ RS) as (v & M').
      eapply Forall_impl; [|exact (stream_starts _ _ _ S)]. intros x Hx. cbv beta in *. destruct M as [_ M2], M' as [_ M3]. cbn [l_src] in M3. rewrite M3, M2, !adv_bytes in Hx. pose proof (bytes_some line Nl). cbn in Hx. lia. }
    destruct ts; [constructor|]. now inversion A.
Qed.
