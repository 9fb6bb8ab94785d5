(** The reader with size limit, between the literals of a message. *)
From Coq Require Import List NArith Bool PeanoNat Lia ZifyBool ZifyNat ZifyN.
From Verif Require Import Base Types Codec Receive SpecFraming ReceiveProofs ClientRecv.
Import ListNotations.

Lemma limit_within : forall mx b,
  limit mx (length (within mx b)) = true ->
  exists m r, mx = Some m /\ b = within mx b ++ r /\ N.of_nat (length (within mx b)) = m.
Proof.
  intros [m|] b H; [|discriminate]. cbn [limit] in H. apply N.eqb_eq in H.
  exists m. unfold within in *. destruct (N.leb _ m).
  - exists []. rewrite app_nil_r. auto.
  - exists (skipn (N.to_nat m) b). rewrite firstn_skipn. auto.
Qed.

Section Pos.
  Variable relaxed : bool.

  (** The reader has seen [pre]; [need] bytes of literal and then a line come next. *)
  Definition rpos (mx : option N) (s : rstate) (pre : bytes) (need : N) (rest : bytes) : Prop :=
    rs_relaxed s = relaxed /\ rs_max s = mx /\ rs_buf s = pre ++ rest /\
    ((rs_frag s = NfLiteral need /\ rinv s pre rest) \/
     (exists k d u, rs_frag s = NfLine k /\ rest = d ++ u /\ N.of_nat (length d) = need /\
        rinv s (pre ++ d) u)).

  Lemma rpos_fresh : forall mx b, rpos mx (fresh relaxed mx b) [] 0 b.
  Proof.
    intros. repeat split. right. exists 0, [], b. repeat split; simpl; auto; try lia;
      destruct mx; simpl; auto; lia.
  Qed.

  Lemma rpos_fits : forall mx s pre need rest, rpos mx s pre need rest -> fits mx (length pre).
  Proof.
    intros mx s pre need rest (_ & Hm & _ & [(_ & _ & _ & H & _)|(k & d & u & _ & _ & _ & _ & _ & H & _)]);
      rewrite Hm in H; auto.
    eapply fits_le; [|exact H]. rewrite app_length. lia.
  Qed.

  Lemma rpos_add : forall mx s pre need rest x,
    rpos mx s pre need rest -> rpos mx (rs_enqueue_input s x) pre need (rest ++ x).
  Proof.
    intros mx s pre need rest x (Hr & Hm & Hb & H). repeat split; auto.
    - cbn. rewrite Hb. now rewrite app_assoc.
    - destruct H as [(Hf & H)|(k & d & u & Hf & -> & Hd & H)].
      + left. split; [exact Hf|]. now apply rinv_add.
      + right. exists k, d, (u ++ x). rewrite <- app_assoc. repeat split; auto;
        apply (rinv_add _ _ _ x) in H; destruct H as (H1 & H2 & H3 & H4); auto.
  Qed.

End Pos.

Section Opened.
  Context {M L : Type}.
  Variable dec : bytes -> dec_result M L.
  Variable relaxed : bool.
  Variable accept : L -> option N.
  Notation rpos := (rpos relaxed).

  Lemma rpos_next : forall mx s pre need rest,
    rpos mx s pre need rest ->
    (exists w l rest', rest = w ++ rest' /\ frag_line (NfLiteral need) w l /\
       fits mx (length (pre ++ w)) /\
       rs_next dec s = (RState relaxed mx (NfLine 0) (length (pre ++ w)) ((pre ++ w) ++ rest'),
                        line_verdict dec relaxed (pre ++ w) l))
    \/
    (no_line (NfLiteral need) rest /\ within mx (pre ++ rest) = pre ++ rest /\
     limit mx (length (pre ++ rest)) = false /\
     exists s', rs_next dec s = (s', RcvNeedMore) /\ rpos mx s' pre need rest)
    \/
    (no_line (NfLiteral need) (view mx pre rest) /\
     limit mx (length (within mx (pre ++ rest))) = true /\
     exists f', rs_next dec s =
       (RState relaxed mx f' (length (within mx (pre ++ rest))) (pre ++ rest), RcvTooLong)).
  Proof.
    intros mx s pre need rest Hpos.
    pose proof (rpos_fits _ _ _ _ _ _ Hpos) as Hfp.
    destruct Hpos as (Hr & Hm & Hb & [(Hf & Hinv)|(k & d & u & Hf & -> & Hd & Hinv)]).
    - destruct (rs_next_cases dec s pre rest Hinv)
        as [(w & l & u' & Hu & Hfl & Hfit & E)
           |[(Hno & Hw & Hlim & d & u' & f' & Hu & E & Hinv1 & Hcase)
            |(Hno & Hlim & f' & E)]];
        rewrite Hf, Hm, Hr in *.
      + left. exists w, l, u'. unfold rafter in E. rewrite Hr, Hm in E. auto.
      + right. left. repeat split; auto. eexists. split; [exact E|].
        repeat split. destruct Hcase as [(-> & [->|(k & k' & Hk & ->)])|(k & Hk & ->)].
        * left. split; [reflexivity|]. rewrite app_nil_r in *. now rewrite Hu.
        * discriminate.
        * right. exists k, d, u'. injection Hk as Hk. repeat split; auto;
            destruct Hinv1 as (H1 & H2 & H3 & H4); auto; apply H4.
      + right. right. repeat split; auto. eauto.
    - destruct (rs_next_cases dec s (pre ++ d) u Hinv)
        as [(w & l & u' & Hu & Hfl & Hfit & E)
           |[(Hno & Hw & Hlim & d' & u' & f' & Hu & E & Hinv1 & Hcase)
            |(Hno & Hlim & f' & E)]];
        rewrite Hf, Hm, Hr in *.
      + left. remember (NfLine k) as fk eqn:Ek in Hfl.
        destruct Hfl as [k0 l Hl|]; [|discriminate].
        exists (d ++ l), l, u'. unfold rafter in E. rewrite Hr, Hm in E.
        repeat split.
        * rewrite Hu. now rewrite app_assoc.
        * now constructor.
        * now rewrite app_assoc.
        * rewrite E. now rewrite !app_assoc.
      + right. left. rewrite <- app_assoc in Hw, Hlim. split.
        { intros w l r H Eq. remember (NfLiteral need) as fk eqn:Ek.
          destruct H as [|n0 d0 l0 Hd0 Hl0]; [discriminate|]. injection Ek as ->.
          rewrite <- app_assoc in Eq. apply app_inv_length in Eq as [_ Eq]; [|lia].
          apply (Hno l0 l0 r); [now constructor|exact Eq]. }
        repeat split; auto. eexists. split; [exact E|].
        repeat split; [cbn; now rewrite <- app_assoc|].
        right. destruct Hcase as [(-> & [->|(k1 & k' & Hk & ->)])|(k1 & Hk & ->)].
        * exists k, d, u'. rewrite app_nil_r in Hinv1, E. simpl in Hu. subst u'.
          rewrite app_nil_r. repeat split; auto; destruct Hinv1 as (H1 & H2 & H3 & H4); auto; apply H4.
        * exists k', d, u'. rewrite app_nil_r in Hinv1, E. simpl in Hu. subst u'.
          rewrite app_nil_r. repeat split; auto; destruct Hinv1 as (H1 & H2 & H3 & H4); auto; apply H4.
        * discriminate.
      + right. right. rewrite <- app_assoc in Hlim, E. split.
        { assert (Hfd : fits mx (length (pre ++ d))) by (rewrite <- Hm; apply Hinv).
          assert (E2 : pre ++ view mx pre (d ++ u) = pre ++ d ++ view mx (pre ++ d) u).
          { rewrite <- within_view by exact Hfp. rewrite app_assoc.
            rewrite within_view by exact Hfd. now rewrite app_assoc. }
          apply app_inv_head in E2. rewrite E2.
          intros w l r H Eq. remember (NfLiteral need) as fk eqn:Ek.
          destruct H as [|n0 d0 l0 Hd0 Hl0]; [discriminate|]. injection Ek as ->.
          rewrite <- app_assoc in Eq. apply app_inv_length in Eq as [_ Eq]; [|lia].
          apply (Hno l0 l0 r); [now constructor|exact Eq]. }
        split; auto. eauto.
  Qed.

  Lemma opened_sem : forall pre ls need, opened dec relaxed accept pre ls need ->
    sem_inv dec relaxed accept pre (NfLiteral need) ls.
  Proof.
    induction 1 as [|p ls n d l i m H IH Hd Hl Hok Hdec Ha].
    - split.
      + intros w ls o (d & w2 & -> & Hd & H). destruct d; [exact H|discriminate].
      + intros w' ls' o r x H E. exists w', ls'. repeat split. exists [], w'. auto.
    - eapply sem_lit; eauto. now constructor.
  Qed.

  Lemma opened_line : forall pre ls need w l i n,
    opened dec relaxed accept pre ls need -> frag_line (NfLiteral need) w l ->
    line_ok relaxed l -> dec (pre ++ w) = DecLit i -> accept i = Some n ->
    opened dec relaxed accept (pre ++ w) (ls ++ [i]) n.
  Proof.
    intros pre ls need w l i n Ho Hfl Hok Hd Ha.
    remember (NfLiteral need) as fk eqn:Ek. destruct Hfl as [|n0 d l Hd0 Hl]; [discriminate|].
    injection Ek as ->. econstructor; eauto.
  Qed.

  Lemma opened_frame : forall pre ls need w l o,
    opened dec relaxed accept pre ls need -> frag_line (NfLiteral need) w l ->
    verdict dec relaxed accept (pre ++ w) l o ->
    framed dec relaxed accept (pre ++ w) ls o.
  Proof. intros. eapply sem_done; eauto. now apply opened_sem. Qed.

  Lemma opened_no_message : forall pre ls need v,
    opened dec relaxed accept pre ls need -> no_line (NfLiteral need) v ->
    ~ has_message dec relaxed accept (pre ++ v).
  Proof. intros. eapply sem_no_message; eauto. eapply opened_sem; eauto. Qed.

  (** A frame that starts at the beginning of the buffer continues what was opened. *)
  Lemma opened_continues : forall pre ls need raw ls' o r x,
    opened dec relaxed accept pre ls need -> framed dec relaxed accept raw ls' o ->
    raw ++ r = pre ++ x ->
    exists w ls2, raw = pre ++ w /\ ls' = ls ++ ls2 /\
      scan_from dec relaxed accept (NfLiteral need) pre w ls2 o.
  Proof.
    intros pre ls need raw ls' o r x Ho Hfr E.
    destruct (opened_sem _ _ _ Ho) as [_ HB]. eapply HB; eauto.
  Qed.
End Opened.
