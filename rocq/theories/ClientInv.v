(** Invariants of client logs. *)
From Coq Require Import List NArith Bool PeanoNat Lia ZifyBool ZifyNat ZifyN.
From Verif Require Import Base Types Codec Handle Receive ClientSend Client SpecFraming
  ReceiveProofs ClientRecv ClientAbs SpecClient.
Import ListNotations.

(** ** Log functions and concatenation *)

Ltac log_app :=
  let l := fresh "l" in let x := fresh "x" in let IH := fresh "IH" in
  intro l; induction l as [|x l IH]; intros; cbn; auto;
  try (destruct x as [| | ? [|] | [|] | | [[]| | | | | |]|]; cbn; rewrite ?IH; auto; try apply app_assoc).

Lemma enqueued_app : forall l1 l2, enqueued (l1 ++ l2) = enqueued l1 ++ enqueued l2.
Proof. log_app. Qed.
Lemma inputs_app : forall l1 l2, inputs (l1 ++ l2) = inputs l1 ++ inputs l2.
Proof. log_app. Qed.
Lemma taken_app : forall l1 l2, taken (l1 ++ l2) = taken l1 ++ taken l2.
Proof. log_app. Qed.
Lemma events_app : forall l1 l2, events (l1 ++ l2) = events l1 ++ events l2.
Proof. log_app. Qed.
Lemma outputs_app : forall l1 l2, outputs (l1 ++ l2) = outputs l1 ++ outputs l2.
Proof. log_app. Qed.
Lemma exchange_app : forall l1 l2, exchange (l1 ++ l2) = exchange l1 ++ exchange l2.
Proof. log_app. Qed.
Lemma terminals_app : forall l1 l2, terminals (l1 ++ l2) = terminals l1 ++ terminals l2.
Proof. intros. unfold terminals. now rewrite events_app, filter_app. Qed.

Lemma terminals_cons : forall e l,
  terminals (e :: l) =
  match e with ClNext (IEvent ev) => if is_terminal ev then [ev] else [] | _ => [] end
  ++ terminals l.
Proof. intros e l. destruct e as [| | | | | [[]| | | | | |]|]; reflexivity. Qed.

Lemma terminals_length_cons : forall e l,
  length (terminals (e :: l)) = (if ends_segment e then 1 else 0) + length (terminals l).
Proof. intros e l. destruct e as [| | | | | [[]| | | | | |]|]; reflexivity. Qed.

Lemma segment_app : forall l1 l2 k,
  segment k (l1 ++ l2) =
  if k <? length (terminals l1) then segment k l1
  else (if k =? length (terminals l1) then segment k l1 else [])
       ++ segment (k - length (terminals l1)) l2.
Proof.
  induction l1 as [|e l1 IH]; intros l2 k.
  - cbn. rewrite Nat.sub_0_r. destruct k; reflexivity.
  - rewrite terminals_length_cons. cbn [segment app].
    destruct (ends_segment e) eqn:E.
    + destruct k as [|k]; [reflexivity|]. rewrite IH. cbn [Nat.add Nat.sub].
      change (S k <? S (length (terminals l1))) with (k <? length (terminals l1)).
      change (S k =? S (length (terminals l1))) with (k =? length (terminals l1)).
      reflexivity.
    + cbn [Nat.add]. destruct k as [|k]; rewrite IH; [|reflexivity].
      destruct (0 <? length (terminals l1)) eqn:E1; [reflexivity|].
      destruct (0 =? length (terminals l1)) eqn:E2; [reflexivity|].
      apply Nat.ltb_ge in E1. apply Nat.eqb_neq in E2. lia.
Qed.

Lemma silent_cons : forall e l,
  silent (e :: l) =
  match e with
  | ClRx (Crx _ (CvResponse (RCcr _))) => if reports l then 0 else 1
  | _ => 0
  end + silent l.
Proof. intros e l. destruct e as [| | | |[raw [|[]| |]]| |]; reflexivity. Qed.

Lemma silent_app : forall l1 l2, reports l2 = false -> silent (l1 ++ l2) = silent l1 + silent l2.
Proof.
  induction l1 as [|e l1 IH]; intros l2 H; [reflexivity|].
  cbn [app]. rewrite !silent_cons, IH by assumption.
  assert (E : match l1 with [] => true | _ => false end = false ->
              reports (l1 ++ l2) = reports l1) by (destruct l1; [discriminate|reflexivity]).
  destruct e as [| | | |[raw [|[]| |]]| |]; try reflexivity.
  destruct l1 as [|e1 l1].
  - cbn [app]. rewrite H. cbn. lia.
  - rewrite E by reflexivity. lia.
Qed.

(** Log entries that concern nobody. *)
Definition quiet (x : list clog) : Prop :=
  outputs x = [] /\ exchange x = [] /\ silent x = 0 /\ reports x = false.

Ltac quiet := repeat split; reflexivity.

Lemma nsync_app : forall a b, nsync (a ++ b) = nsync a + nsync b.
Proof.
  induction a as [|f a IH]; intro b; [reflexivity|].
  destruct f as [d|d [|]]; cbn; rewrite ?IH; reflexivity.
Qed.

Definition no_end (l : list clog) : Prop := Forall (fun e => ends_segment e = false) l.

Lemma no_end_terminals : forall l, no_end l -> terminals l = [].
Proof.
  induction 1 as [|e l He Hl IH]; [reflexivity|]. rewrite terminals_cons, IH.
  destruct e as [| | | | | [[]| | | | | |]|]; try reflexivity; discriminate.
Qed.

Lemma no_end_segment : forall l, no_end l -> segment 0 l = l.
Proof.
  induction 1 as [|e l He Hl IH]; [reflexivity|]. cbn. rewrite He. now rewrite IH.
Qed.

Lemma no_end_segment_S : forall l k, no_end l -> segment (S k) l = [].
Proof. intros l k H. induction H as [|e l He Hl IH]; [reflexivity|]. cbn. now rewrite He. Qed.

Lemma segment_ge : forall l k, length (terminals l) < k -> segment k l = [].
Proof.
  induction l as [|e l IH]; intros k H; [reflexivity|].
  rewrite terminals_length_cons in H. cbn. destruct (ends_segment e); cbn in H.
  - destruct k; [lia|]. apply IH. lia.
  - destruct k; [lia|]. apply IH. lia.
Qed.

Lemma cur_seg_app : forall l l1, no_end l1 -> cur_seg (l ++ l1) = cur_seg l ++ l1.
Proof.
  intros l l1 H. unfold cur_seg. rewrite terminals_app, (no_end_terminals l1 H), app_nil_r.
  rewrite segment_app, Nat.ltb_irrefl, Nat.eqb_refl, Nat.sub_diag.
  now rewrite no_end_segment.
Qed.

Lemma segment_old : forall l l1 k, k < length (terminals l) -> segment k (l ++ l1) = segment k l.
Proof.
  intros l l1 k H. rewrite segment_app. now rewrite (proj2 (Nat.ltb_lt _ _) H).
Qed.

Lemma segment_end : forall l l1 t, no_end l1 -> is_terminal t = true ->
  let l' := l ++ l1 ++ [ClNext (IEvent t)] in
  terminals l' = terminals l ++ [t] /\
  segment (length (terminals l)) l' = cur_seg l ++ l1 ++ [ClNext (IEvent t)] /\
  cur_seg l' = [].
Proof.
  intros l l1 t H Ht l'.
  assert (T : terminals l' = terminals l ++ [t]).
  { unfold l'. rewrite !terminals_app, (no_end_terminals l1 H).
    rewrite terminals_cons, Ht. reflexivity. }
  assert (S0 : segment 0 (l1 ++ [ClNext (IEvent t)]) = l1 ++ [ClNext (IEvent t)]).
  { rewrite segment_app, (no_end_terminals l1 H). cbn. rewrite no_end_segment by exact H.
    now rewrite Ht. }
  split; [exact T|]. split.
  - unfold l', cur_seg. rewrite segment_app, Nat.ltb_irrefl, Nat.eqb_refl, Nat.sub_diag.
    now rewrite S0.
  - unfold cur_seg. rewrite T, app_length. cbn. unfold l'. rewrite app_assoc.
    rewrite segment_app.
    rewrite terminals_app, (no_end_terminals l1 H), app_nil_r.
    replace (length (terminals l) + 1 <? length (terminals l)) with false
      by (symmetry; apply Nat.ltb_ge; lia).
    replace (length (terminals l) + 1 =? length (terminals l)) with false
      by (symmetry; apply Nat.eqb_neq; lia).
    replace (length (terminals l) + 1 - length (terminals l)) with 1 by lia.
    cbn. now rewrite Ht.
Qed.

(** ** Fragments *)

Definition lit_of (o : option bytes) : list fragment :=
  match o with Some d => [FLiteral d LSync] | None => [] end.

Definition not_sync (f : fragment) : Prop := forall d, f <> FLiteral d LSync.

Lemma frags_bytes_app : forall a b, frags_bytes (a ++ b) = frags_bytes a ++ frags_bytes b.
Proof. intros. unfold frags_bytes. now rewrite map_app, concat_app. Qed.

Lemma not_sync_nsync : forall fs, Forall not_sync fs -> nsync fs = 0.
Proof.
  induction 1 as [|f fs Hf H IH]; [reflexivity|]. destruct f as [d|d [|]]; auto.
  exfalso. now apply (Hf d).
Qed.

Lemma push_fragments_spec : forall fs out limbo rest,
  push_fragments fs = (out, limbo, rest) ->
  exists pushed, fs = pushed ++ lit_of limbo ++ rest /\ out = frags_bytes pushed /\
    Forall not_sync pushed /\ (limbo = None -> rest = []).
Proof.
  induction fs as [|f fs IH]; intros out limbo rest H; cbn in H.
  - injection H as <- <- <-. exists []. repeat split; auto.
  - destruct f as [d|d [|]].
    + destruct (push_fragments fs) as [[o l] r]. injection H as <- <- <-.
      destruct (IH _ _ _ eq_refl) as (p & -> & -> & Hp & Hr).
      exists (FLine d :: p). repeat split; auto. constructor; auto. discriminate.
    + injection H as <- <- <-. exists []. repeat split; auto. discriminate.
    + destruct (push_fragments fs) as [[o l] r]. injection H as <- <- <-.
      destruct (IH _ _ _ eq_refl) as (p & -> & -> & Hp & Hr).
      exists (FLiteral d LNonSync :: p). repeat split; auto. constructor; auto. discriminate.
Qed.

Section Inv.
  Variable K : Codecs.
  Variable relaxed : bool.

  Notation asteps := (asteps K relaxed).
  Notation astep := (astep K relaxed).

  (** *** Input *)

  Definition raws (l : list clog) : bytes := concat (map crx_raw (taken l)).

  Lemma raws_app : forall l1 l2, raws (l1 ++ l2) = raws l1 ++ raws l2.
  Proof. intros. unfold raws. now rewrite taken_app, map_app, concat_app. Qed.

  Lemma astep_partition : forall a l a', astep a l a' ->
    a_buf a ++ inputs l = raws l ++ a_buf a'.
  Proof.
    intros a l a' H. destruct H; unfold raws; cbn; rewrite ?app_nil_r; auto.
  Qed.

  Lemma asteps_partition : forall a l a', asteps a l a' ->
    a_buf a ++ inputs l = raws l ++ a_buf a'.
  Proof.
    induction 1 as [a|a l a1 l1 a2 H IH H1].
    - cbn. now rewrite app_nil_r.
    - rewrite inputs_app, raws_app, app_assoc, IH, <- app_assoc.
      rewrite (astep_partition _ _ _ H1). now rewrite app_assoc.
  Qed.

  (** *** The greeting *)

  Definition greeting_inv (a : astate) (l : list clog) : Prop :=
    if a_greeted a
    then exists g evs, events l = CeGreetingReceived g :: evs /\
           Forall (fun e => forall g', e <> CeGreetingReceived g') evs
    else events l = [] /\ outputs l = [].

  Lemma handle_response_event : forall c m c' e,
    client_handle_response c m = (c', IEvent e) ->
    reported e = Some m /\ forall g, e <> CeGreetingReceived g.
  Proof.
    intros c m c' e H. unfold client_handle_response in H. destruct m as [st|d|q].
    - destruct (cs_maybe_terminate (c_send c) st) as [s1 [t|]];
        [destruct t|]; injection H as <- <-; split; try reflexivity; discriminate.
    - injection H as <- <-. split; [reflexivity|discriminate].
    - destruct (cs_literal_continue (c_send c)) as [s1 [|]]; [discriminate|].
      destruct (cs_authenticate_continue s1) as [s2 [h|]].
      + injection H as <- <-. split; [reflexivity|discriminate].
      + destruct (cs_idle_continue s2) as [s3 [h|]]; injection H as <- <-;
          split; try reflexivity; discriminate.
  Qed.

  Lemma asteps_greeting : forall g l a, asteps (astate_new g) l a -> greeting_inv a l.
  Proof.
    intros g l a H. remember (astate_new g) as a00 eqn:E0.
    induction H as [a0|a0 l a1 l1 a2 H IH H1].
    - subst. split; reflexivity.
    - specialize (IH E0). unfold greeting_inv in *.
      rewrite events_app, outputs_app.
      assert (G : forall x, events x = [] -> outputs x = [] ->
                (if a_greeted a1 then exists g evs, events l = CeGreetingReceived g :: evs /\
                   Forall (fun e => forall g', e <> CeGreetingReceived g') evs
                 else events l = [] /\ outputs l = []) ->
                if a_greeted a1 then exists g evs, events l ++ events x = CeGreetingReceived g :: evs /\
                   Forall (fun e => forall g', e <> CeGreetingReceived g') evs
                 else events l ++ events x = [] /\ outputs l ++ outputs x = []).
      { intros x -> -> ?. now rewrite !app_nil_r. }
      assert (G2 : forall e, a_greeted a1 = true -> (forall g', e <> CeGreetingReceived g') ->
                (if a_greeted a1 then exists g evs, events l = CeGreetingReceived g :: evs /\
                   Forall (fun e => forall g', e <> CeGreetingReceived g') evs
                 else events l = [] /\ outputs l = []) ->
                exists g evs, events l ++ [e] = CeGreetingReceived g :: evs /\
                   Forall (fun e => forall g', e <> CeGreetingReceived g') evs).
      { intros e -> He (g0 & evs & -> & Hevs). exists g0, (evs ++ [e]). split; [reflexivity|].
        apply Forall_app. auto. }
      destruct H1 as [a cmd g0 h Hg|a x|a d s r Hs|a s r Hs|a s Hgr Hs|a s e Hgr Hs|a s b Hgr Hs
        |a Hst Hno|a raw rest ls g0 Hgr Hb Hf|a raw rest ls q s Hgr Hst Hb Hf Hl
        |a raw rest ls m c' e Hgr Hst Hb Hf Hh|a raw rest v e Hst Hb Hbad];
        cbn [a_greeted a_set_buf a_set_send];
        try (apply G; [reflexivity|reflexivity|exact IH]).
      + rewrite Hgr. apply (G2 (cs_event_ev e)); auto. intros g'. destruct e; discriminate.
      + rewrite Hgr in *. cbn. destruct IH as (g0 & evs & -> & Hevs).
        exists g0, evs. rewrite app_nil_r. auto.
      + rewrite Hgr in *. destruct IH as [-> _]. exists g0, []. auto.
      + rewrite Hgr in *. apply G; [reflexivity|reflexivity|exact IH].
      + apply (G2 e); auto. eapply handle_response_event; eauto.
  Qed.

  (** *** Conversations *)

  Definition act_limbo (act : command_activity) : list fragment :=
    match act with
    | CaPushingFragments o | CaWaitingForFragmentsSent o => lit_of o
    | CaWaitingForLiteralAccepted d => lit_of (Some d)
    end.

  (** The synchronizing literals among the first [n] fragments were agreed to. *)
  Definition agreed (c : command) (seg : list clog) (n : nat) : Prop :=
    forall pre d post, enc_command K c = pre ++ FLiteral d LSync :: post ->
      length pre < n -> agreed_after seg (frags_bytes pre).

  Definition auth_rounds (h : handle) (line : bytes) (seg : list clog) (tl : list exch) : Prop :=
    exists xs ds lines, rounds h xs ds /\
      map (enc_authdata K) ds = map (fun x => [FLine x]) lines /\
      outputs seg = line ++ concat lines /\ exchange seg = XStarted h :: xs ++ tl.

  Definition cur_ok (cur : option current_message) (seg : list clog) : Prop :=
    match cur with
    | None => outputs seg = [] /\ exchange seg = [] /\ silent seg = 0
    | Some (CmCommand h c fs act) =>
        regular c /\ exchange seg = [] /\
        exists pre, outputs seg = frags_bytes pre /\
          enc_command K c = pre ++ act_limbo act ++ fs /\
          silent seg = nsync pre + match act with CaPushingFragments (Some _) => 1 | _ => 0 end /\
          match act with
          | CaPushingFragments (Some _) => agreed c seg (S (length pre))
          | CaWaitingForFragmentsSent None => fs = [] /\ agreed c seg (length pre)
          | _ => agreed c seg (length pre)
          end
    | Some (CmAuthenticate h ca act) =>
        silent seg = 0 /\
        exists line, enc_command K (command_of_authenticate ca) = [FLine line] /\
          match act with
          | AaPushingAuthenticate x => x = line /\ outputs seg = [] /\ exchange seg = []
          | AaWaitingForAuthenticateSent => outputs seg = line /\ exchange seg = []
          | AaWaitingForAuthenticateResponse | AaWaitingForAuthenticateDataSent =>
              auth_rounds h line seg []
          | AaWaitingForAuthenticateDataSet => exists q, auth_rounds h line seg [XCont h q]
          | AaPushingAuthenticateData x =>
              exists q d, enc_authdata K d = [FLine x] /\
                auth_rounds h line seg [XCont h q; XData h d]
          end
    | Some (CmIdle h t act) =>
        silent seg = 0 /\
        exists line, enc_command K {| ctag := t; cbody := BIdle |} = [FLine line] /\
          match act with
          | IaPushingIdle x => x = line /\ outputs seg = [] /\ exchange seg = []
          | IaWaitingForIdleSent => outputs seg = line /\ exchange seg = []
          | IaWaitingForIdleResponse => outputs seg = line /\ exchange seg = [XIdle h]
          | IaWaitingForIdleDoneSet =>
              outputs seg = line /\ exists q, exchange seg = [XIdle h; XAccepted h q]
          | IaPushingIdleDone x =>
              enc_idledone K = [FLine x] /\ outputs seg = line /\
              exists q, exchange seg = [XIdle h; XAccepted h q; XDone h]
          | IaWaitingForIdleDoneSent =>
              exists dn q, enc_idledone K = [FLine dn] /\ outputs seg = line ++ dn /\
                exchange seg = [XIdle h; XAccepted h q; XDone h]
          end
    end.

  Definition cur_cmd (cur : option current_message) : list (handle * command) :=
    match cur with
    | None => []
    | Some (CmCommand h c _ _) => [(h, c)]
    | Some (CmAuthenticate h ca _) => [(h, command_of_authenticate ca)]
    | Some (CmIdle h t _) => [(h, {| ctag := t; cbody := BIdle |})]
    end.

  Lemma agreed_mono : forall c seg x n, agreed c seg n -> agreed c (seg ++ x) n.
  Proof.
    intros c seg x n H pre d post E Hl.
    destruct (H pre d post E Hl) as (s1 & raw & q & s2 & -> & Ho).
    exists s1, raw, q, (s2 ++ x). rewrite <- app_assoc. auto.
  Qed.

  Lemma agreed_le : forall c seg n m, m <= n -> agreed c seg n -> agreed c seg m.
  Proof. intros c seg n m Hle H pre d post E Hl. apply (H pre d post E). lia. Qed.

  Lemma auth_rounds_ext : forall h line seg x tl, outputs x = [] -> exchange x = [] ->
    auth_rounds h line seg tl -> auth_rounds h line (seg ++ x) tl.
  Proof.
    intros h line seg x tl Ho Hx (xs & ds & lines & H1 & H2 & H3 & H4).
    exists xs, ds, lines. rewrite outputs_app, exchange_app, Ho, Hx, !app_nil_r. auto.
  Qed.

  Lemma cur_ok_ext : forall cur seg x, quiet x ->
    cur_ok cur seg -> cur_ok cur (seg ++ x).
  Proof.
    intros cur seg x (Ho & Hx & Hsx & Hrx) H. unfold cur_ok in *.
    assert (Eo : outputs (seg ++ x) = outputs seg) by (rewrite outputs_app, Ho; apply app_nil_r).
    assert (Ex : exchange (seg ++ x) = exchange seg)
      by (rewrite exchange_app, Hx; apply app_nil_r).
    assert (Es : silent (seg ++ x) = silent seg)
      by (rewrite silent_app, Hsx by assumption; apply Nat.add_0_r).
    destruct cur as [[h c fs act|h ca act|h t act]|]; rewrite ?Eo, ?Ex, ?Es.
    - destruct H as (Hr & He & pre & Hp & Hc & Hs & Ha). repeat split; auto.
      exists pre. repeat split; auto.
      destruct act as [[|]|[|]|]; try (now apply agreed_mono).
      destruct Ha as [-> Ha]. split; [reflexivity|]. now apply agreed_mono.
    - destruct H as (Hs & line & Hl & H). split; [assumption|].
      exists line. split; [assumption|].
      destruct act; auto.
      + now apply auth_rounds_ext.
      + destruct H as (q & H). exists q. now apply auth_rounds_ext.
      + destruct H as (q & d & Hd & H). exists q, d. split; auto. now apply auth_rounds_ext.
      + now apply auth_rounds_ext.
    - destruct H as (Hs & line & Hl & H). split; [assumption|]. exists line. split; auto.
    - auto.
  Qed.

  (** Adding an output. *)
  Lemma cur_ok_push : forall m seg out m1,
    cm_push_to_buffer m = (out, m1) -> cur_ok (Some m) seg ->
    forall x, outputs x = out -> exchange x = [] -> silent x = 0 -> reports x = false ->
    cur_ok (Some m1) (seg ++ x).
  Proof.
    intros m seg out m1 H Hok x Ho Hx Hsx Hrx.
    assert (Eo : outputs (seg ++ x) = outputs seg ++ out) by (rewrite outputs_app; now rewrite Ho).
    assert (Ex : exchange (seg ++ x) = exchange seg)
      by (rewrite exchange_app, Hx; apply app_nil_r).
    assert (Es : silent (seg ++ x) = silent seg)
      by (rewrite silent_app, Hsx by assumption; apply Nat.add_0_r).
    assert (Nop : out = [] -> m1 = m -> cur_ok (Some m1) (seg ++ x)).
    { intros -> ->. apply cur_ok_ext; [repeat split|]; auto. }
    destruct m as [h c fs act|h ca act|h t act].
    - destruct act as [acc|limbo|lit]; cbn in H; try (injection H as <- <-; now apply Nop).
      destruct (push_fragments fs) as [[o limbo] rest] eqn:Ep. injection H as <- <-.
      destruct (push_fragments_spec _ _ _ _ Ep) as (pushed & -> & -> & Hns & Hrest).
      cbn in Hok. destruct Hok as (Hr & He & pre & Hp & Hc & Hs & Ha).
      cbn. rewrite Ex, Eo, Es. repeat split; auto.
      exists (pre ++ lit_of acc ++ pushed).
      assert (Hb : outputs seg ++ opt_bytes acc ++ frags_bytes pushed
                   = frags_bytes (pre ++ lit_of acc ++ pushed)).
      { rewrite Hp, !frags_bytes_app. f_equal. f_equal.
        destruct acc; cbn; rewrite ?app_nil_r; reflexivity. }
      assert (Hfr : enc_command K c = (pre ++ lit_of acc ++ pushed) ++ lit_of limbo ++ rest).
      { rewrite Hc. cbn. now rewrite <- !app_assoc. }
      assert (Hag : agreed c (seg ++ x) (length (pre ++ lit_of acc ++ pushed))).
      { apply agreed_mono.
        assert (Ha' : agreed c seg (length (pre ++ lit_of acc))).
        { rewrite app_length. destruct acc as [d|]; cbn.
          - now replace (length pre + 1) with (S (length pre)) by lia.
          - now rewrite Nat.add_0_r. }
        clear Ha. intros pre0 d0 post0 E Hl.
        destruct (Nat.lt_ge_cases (length pre0) (length (pre ++ lit_of acc))) as [Hlt|Hge].
        - eapply Ha'; eauto.
        - exfalso. rewrite Hfr, <- !app_assoc in E. rewrite app_assoc in E.
          apply app_prefix_cases in E as [[e [E1 E2]]|[e [E1 E2]]].
          + destruct pushed as [|f pushed].
            * rewrite app_nil_r in Hl. lia.
            * rewrite E1 in Hl, Hge. rewrite !app_length in *. cbn in Hl.
              assert (Hin : In (FLiteral d0 LSync) (f :: pushed)).
              { clear -E2 Hl.
                assert (length e < length (f :: pushed)) by (cbn; lia).
                apply (nth_error_In _ (length e)).
                assert (N1 : nth_error ((f :: pushed) ++ lit_of limbo ++ rest) (length e)
                             = Some (FLiteral d0 LSync)).
                { rewrite E2. rewrite nth_error_app2 by lia. now rewrite Nat.sub_diag. }
                rewrite nth_error_app1 in N1 by lia. exact N1. }
              rewrite Forall_forall in Hns. apply (Hns _ Hin d0). reflexivity.
          + assert (e = []).
            { destruct e; auto. rewrite E1, app_length in Hge. cbn in Hge. lia. }
            subst e. rewrite app_nil_r in E1. cbn in E2.
            destruct pushed as [|f pushed].
            * rewrite E1, !app_length in *. cbn in Hl.
              rewrite <- E1 in Hl. rewrite app_length in Hl. lia.
            * cbn in E2. injection E2 as E2 _. inversion Hns; subst.
              match goal with H : not_sync _ |- _ => apply (H d0) end. auto. }
      assert (Hsy : silent seg = nsync (pre ++ lit_of acc ++ pushed) + 0).
      { rewrite !nsync_app, (not_sync_nsync pushed Hns), Hs. destruct acc; cbn; lia. }
      repeat split; auto.
      destruct limbo; auto.
    - destruct act; cbn in H; try (injection H as <- <-; now apply Nop).
      + injection H as <- <-. cbn in *. destruct Hok as (Hs & line & Hl & -> & Hout & Hex).
        split; [lia|].
        exists line. split; [assumption|]. rewrite Eo, Ex, Hout. auto.
      + injection H as <- <-. cbn in *.
        destruct Hok as (Hs & line & Hl & q & d & Hd & xs & ds & lines & H1 & H2 & H3 & H4).
        split; [lia|].
        exists line. split; [assumption|].
        exists (xs ++ [XCont h q; XData h d]), (ds ++ [d]), (lines ++ [authenticate_data]).
        repeat split.
        * now constructor.
        * rewrite !map_app, H2. cbn. now rewrite Hd.
        * rewrite Eo, H3, concat_app. cbn. now rewrite app_nil_r, app_assoc.
        * rewrite Ex, H4. now rewrite app_nil_r.
    - destruct act; cbn in H; try (injection H as <- <-; now apply Nop).
      + injection H as <- <-. cbn in *. destruct Hok as (Hs & line & Hl & -> & Hout & Hex).
        split; [lia|].
        exists line. split; [assumption|]. rewrite Eo, Ex, Hout. auto.
      + injection H as <- <-. cbn in *. destruct Hok as (Hs & line & Hl & Hd & Hout & q & Hex).
        split; [lia|].
        exists line. split; [assumption|]. exists idle_done, q. rewrite Eo, Ex, Hout. auto.
  Qed.

  (** Completing a step of a message; its segment so far is [seg]. *)
  Notation all_agreed := (all_agreed K).

  Definition ended (h : handle) (c : command) (seg : list clog) (t : cevent) : Prop :=
    conversation K h c (outputs seg) (exchange seg) (silent seg) t /\
    (regular c -> all_agreed c seg).

  Lemma agreed_all : forall c seg pre post,
    enc_command K c = pre ++ post -> outputs seg = frags_bytes pre ->
    agreed c seg (length pre) -> all_agreed c seg.
  Proof.
    intros c seg pre post Hc Ho Ha pre0 d0 post0 E Hl.
    apply (Ha pre0 d0 post0 E).
    destruct (Nat.lt_ge_cases (length pre0) (length pre)) as [H|H]; [assumption|].
    exfalso. rewrite Ho in Hl. rewrite Hc in E.
    apply app_prefix_cases in E as [[e [E1 E2]]|[e [E1 E2]]].
    - rewrite E1, frags_bytes_app, app_length in Hl. lia.
    - assert (e = []) by (destruct e; auto; rewrite E1, app_length in H; cbn in H; lia).
      subst e. rewrite app_nil_r in E1. subst. lia.
  Qed.

  Lemma conversation_terminal : forall h c b x n t,
    conversation K h c b x n t -> is_terminal t = true.
  Proof. intros h c b x n t H. destruct H; reflexivity. Qed.

  Lemma cur_ok_finish : forall m seg m2 ev,
    cm_finish_sending m = (m2, ev) -> cur_ok (Some m) seg ->
    match ev with
    | None => cur_ok m2 seg /\ cur_cmd m2 = cur_cmd (Some m)
    | Some e =>
        if is_terminal (cs_event_ev e)
        then m2 = None /\ exists h c, cur_cmd (Some m) = [(h, c)] /\ ended h c seg (cs_event_ev e)
        else cur_ok m2 (seg ++ [ClNext (IEvent (cs_event_ev e))]) /\
             cur_cmd m2 = cur_cmd (Some m)
    end.
  Proof.
    intros m seg m2 ev H Hok.
    destruct m as [h c fs act|h ca act|h t act].
    - destruct act as [acc|[lit|]|lit]; cbn in H; injection H as <- <-; auto.
      cbn. split; [reflexivity|]. exists h, c. split; [reflexivity|].
      cbn in Hok. destruct Hok as (Hr & He & pre & Hp & Hc & Hs & -> & Ha).
      cbn in Hc. rewrite app_nil_r in Hc. rewrite Nat.add_0_r in Hs. split.
      + rewrite He, Hp, Hs, <- Hc. now constructor.
      + intros _. eapply agreed_all with (post := []); eauto. now rewrite app_nil_r.
    - destruct act; cbn in H; injection H as <- <-; auto.
      cbn in Hok. destruct Hok as (Hs & line & Hl & Ho & Hx).
      cbn. split; [|reflexivity]. split; [now rewrite silent_app, Hs|].
      exists line. split; [assumption|].
      exists [], [], []. rewrite outputs_app, exchange_app, Ho, Hx. cbn.
      repeat split; try constructor.
    - destruct act; cbn in H; injection H as <- <-; auto.
      + cbn in Hok. destruct Hok as (Hs & line & Hl & Ho & Hx).
        cbn. split; [|reflexivity]. split; [now rewrite silent_app, Hs|]. exists line.
        rewrite outputs_app, exchange_app, Ho, Hx. cbn. rewrite app_nil_r. auto.
      + cbn. split; [reflexivity|].
        exists h, {| ctag := t; cbody := BIdle |}. split; [reflexivity|].
        cbn in Hok. destruct Hok as (Hs & line & Hl & dn & q & Hd & Ho & Hx). split.
        * rewrite Ho, Hx, Hs. now constructor.
        * intros [p Hp]. discriminate.
  Qed.

  (** What one step of the send side does to the current message. *)
  Lemma cs_progress_ok : forall q m seg s r,
    cs_progress q m = (s, r) -> cur_ok (Some m) seg ->
    cs_queue s = q /\
    match r with
    | CsOk None => cur_ok (cs_current s) seg /\ cur_cmd (cs_current s) = cur_cmd (Some m)
    | CsOk (Some e) =>
        if is_terminal (cs_event_ev e)
        then cs_current s = None /\
             exists h c, cur_cmd (Some m) = [(h, c)] /\ ended h c seg (cs_event_ev e)
        else cur_ok (cs_current s) (seg ++ [ClNext (IEvent (cs_event_ev e))]) /\
             cur_cmd (cs_current s) = cur_cmd (Some m)
    | CsOutput b => cur_ok (cs_current s) (seg ++ [ClNext (IOutput b)]) /\
                    cur_cmd (cs_current s) = cur_cmd (Some m)
    | CsPanic => False
    end.
  Proof.
    intros q m seg s r H Hok. unfold cs_progress in H.
    destruct (cm_push_to_buffer m) as [out m1] eqn:Ep.
    assert (Hcmd : cur_cmd (Some m1) = cur_cmd (Some m)).
    { destruct m as [h c fs act|h ca act|h t act]; destruct act; cbn in Ep;
        repeat match type of Ep with context [push_fragments ?f] =>
          destruct (push_fragments f) as [[? ?] ?] end;
        injection Ep as <- <-; reflexivity. }
    destruct out as [|b out].
    - pose proof (cur_ok_push m seg [] m1 Ep Hok [] eq_refl eq_refl eq_refl eq_refl) as H1.
      rewrite app_nil_r in H1.
      destruct (cm_finish_sending m1) as [m2 ev] eqn:Ef. injection H as <- <-.
      pose proof (cur_ok_finish m1 seg m2 ev Ef H1) as H2. cbn [cs_queue cs_current].
      rewrite Hcmd in H2. split; [reflexivity|]. destruct ev; exact H2.
    - injection H as <- <-. cbn [cs_queue cs_current]. split; [reflexivity|].
      split; [|assumption].
      eapply cur_ok_push; eauto. cbn. now rewrite app_nil_r.
  Qed.

  Lemma queued_start_ok : forall h c m seg,
    queued_start K h c = Val m -> outputs seg = [] -> exchange seg = [] -> silent seg = 0 ->
    cur_ok (Some m) seg /\ cur_cmd (Some m) = [(h, c)].
  Proof.
    intros h c m seg H Ho Hx Hs. unfold queued_start in H. destruct c as [t body].
    destruct body as [mech ir| |p]; cbn [cbody ctag] in H.
    - destruct (single_line _) as [line|] eqn:E; [|discriminate]. cbn in H.
      injection H as <-. split; [|reflexivity]. cbn. split; [assumption|]. exists line. split; [|auto].
      unfold single_line in E.
      destruct (enc_command K _) as [|[d|] [|]] eqn:E2; try discriminate.
      injection E as ->. reflexivity.
    - destruct (single_line _) as [line|] eqn:E; [|discriminate]. cbn in H.
      injection H as <-. split; [|reflexivity]. cbn. split; [assumption|]. exists line. split; [|auto].
      unfold single_line in E.
      destruct (enc_command K _) as [|[d|] [|]] eqn:E2; try discriminate.
      injection E as ->. reflexivity.
    - injection H as <-. split; [|reflexivity]. cbn. split; [exists p; reflexivity|].
      split; [assumption|]. exists []. repeat split; auto.
      intros pre d post _ Hl. cbn in Hl. lia.
  Qed.

  (** What one step of the send side does to the queue. [todo]: commands not resolved. *)
  Lemma cs_next_ok : forall s seg s' r,
    cs_next K s = (s', r) -> cur_ok (cs_current s) seg -> r <> CsPanic ->
    let todo := cur_cmd (cs_current s) ++ cs_queue s in
    let todo' := cur_cmd (cs_current s') ++ cs_queue s' in
    match r with
    | CsOk None => cur_ok (cs_current s') seg /\ todo' = todo
    | CsOk (Some e) =>
        if is_terminal (cs_event_ev e)
        then cs_current s' = None /\
             exists h c, todo = (h, c) :: todo' /\ ended h c seg (cs_event_ev e)
        else cur_ok (cs_current s') (seg ++ [ClNext (IEvent (cs_event_ev e))]) /\ todo' = todo
    | CsOutput b => cur_ok (cs_current s') (seg ++ [ClNext (IOutput b)]) /\ todo' = todo
    | CsPanic => False
    end.
  Proof.
    intros [q cur] seg s' r H Hok Hr todo todo'. unfold cs_next in H.
    cbn [cs_current cs_queue] in *.
    assert (P : forall q m, cs_progress q m = (s', r) -> cur_ok (Some m) seg ->
      todo = cur_cmd (Some m) ++ q ->
    match r with
    | CsOk None => cur_ok (cs_current s') seg /\ todo' = todo
    | CsOk (Some e) =>
        if is_terminal (cs_event_ev e)
        then cs_current s' = None /\
             exists h c, todo = (h, c) :: todo' /\ ended h c seg (cs_event_ev e)
        else cur_ok (cs_current s') (seg ++ [ClNext (IEvent (cs_event_ev e))]) /\ todo' = todo
    | CsOutput b => cur_ok (cs_current s') (seg ++ [ClNext (IOutput b)]) /\ todo' = todo
    | CsPanic => False
    end).
    { intros q0 m0 E0 Hok0 Et.
      destruct (cs_progress_ok q0 m0 seg s' r E0 Hok0) as [Hq D]. unfold todo'.
      rewrite Et. destruct r as [[e|]|b|]; auto.
      - destruct (is_terminal (cs_event_ev e)).
        + destruct D as (Hc & h & c & Ec & He). split; [assumption|].
          exists h, c. rewrite Hc, Hq, Ec. auto.
        + destruct D as [D1 D2]. rewrite D2, Hq. auto.
      - destruct D as [D1 D2]. rewrite D2, Hq. auto.
      - destruct D as [D1 D2]. rewrite D2, Hq. auto. }
    destruct cur as [m|].
    - eapply P; eauto.
    - destruct q as [|[h c] q].
      + injection H as <- <-. auto.
      + destruct (queued_start K h c) as [m|] eqn:Es; [|injection H as <- <-; congruence].
        destruct Hok as (Ho & Hx & Hs).
        destruct (queued_start_ok h c m seg Es Ho Hx Hs) as [Hm Hcm].
        apply (P q m H Hm). rewrite Hcm. reflexivity.
  Qed.

  (** States in which the client waits. *)
  Definition waiting (s : csend) : Prop :=
    match cs_current s with
    | None => cs_queue s = []
    | Some (CmCommand _ _ _ (CaWaitingForLiteralAccepted _)) => True
    | Some (CmAuthenticate _ _ AaWaitingForAuthenticateResponse) => True
    | Some (CmAuthenticate _ _ AaWaitingForAuthenticateDataSet) => True
    | Some (CmIdle _ _ IaWaitingForIdleResponse) => True
    | Some (CmIdle _ _ IaWaitingForIdleDoneSet) => True
    | _ => False
    end.

  Lemma settled_waiting : forall s, cs_next K s = (s, CsOk None) -> waiting s.
  Proof.
    intros [q cur] H. unfold cs_next in H. cbn [cs_current cs_queue] in H.
    assert (P : forall q m s', cs_progress q m = (s', CsOk None) -> waiting s').
    { clear. intros q m s' H. unfold cs_progress in *.
      destruct (cm_push_to_buffer m) as [out m1] eqn:E.
      destruct out as [|b out]; [|discriminate].
      destruct (cm_finish_sending m1) as [m2 ev] eqn:E2. injection H as <- ->.
      destruct m as [h c fs act|h ca act|h t act]; destruct act; cbn in E;
        repeat match type of E with context [push_fragments ?f] =>
          destruct (push_fragments f) as [[? [?|]] ?] end;
        inversion E; subst; cbn in E2;
        repeat match type of E2 with context [match ?o with Some _ => _ | None => _ end] =>
          destruct o end;
        inversion E2; subst; exact I. }
    destruct cur as [m|].
    - eapply P; eauto.
    - destruct q as [|[h c] q]; [reflexivity|].
      destruct (queued_start K h c); [|discriminate]. eapply P; eauto.
  Qed.

  (** What a received response does to the current message. *)
  Lemma handle_response_ok : forall c m c' e seg raw,
    client_handle_response c m = (c', IEvent e) -> waiting (c_send c) ->
    cur_ok (cs_current (c_send c)) seg ->
    let x := [ClRx (Crx raw (CvResponse m)); ClNext (IEvent e)] in
    let s := c_send c in let s' := c_send c' in
    cs_queue s' = cs_queue s /\
    if is_terminal e
    then cs_current s' = None /\
         exists h c0, cur_cmd (cs_current s) = [(h, c0)] /\ ended h c0 seg e
    else cur_ok (cs_current s') (seg ++ x) /\ cur_cmd (cs_current s') = cur_cmd (cs_current s).
  Proof.
    intros c m c' e seg raw H Hw Hok x s s'.
    assert (Hnop : c_send c' = c_send c -> quiet x -> is_terminal e = false ->
      cs_queue s' = cs_queue s /\
      if is_terminal e
      then cs_current s' = None /\
         exists h c0, cur_cmd (cs_current s) = [(h, c0)] /\ ended h c0 seg e
      else cur_ok (cs_current s') (seg ++ x) /\ cur_cmd (cs_current s') = cur_cmd (cs_current s)).
    { intros E Ex ->. unfold s', s. rewrite E. repeat split; auto.
      apply cur_ok_ext; [auto|auto]. }
    unfold client_handle_response in H. destruct m as [st|d|q].
    - (* status *)
      unfold cs_maybe_terminate in H. unfold s, s' in *. clear s s'.
      destruct (cs_current (c_send c)) as [[h c0 fs act|h ca act|h t act]|] eqn:Ecur.
      + destruct st as [t b|b|cd tx]; try (injection H as <- <-; apply Hnop; [reflexivity|quiet|reflexivity]).
        destruct (status_kind_is_bad (sb_kind b) && bytes_eqb t (ctag c0)) eqn:Ec;
          injection H as <- <-; [|apply Hnop; [reflexivity|quiet|reflexivity]].
        apply andb_true_iff in Ec as [E1 E2]. apply bytes_eqb_eq in E2. subst t.
        unfold waiting in Hw. rewrite Ecur in Hw. destruct act as [|?|lit]; try contradiction.
        cbn. split; [reflexivity|]. split; [reflexivity|]. exists h, c0. split; [reflexivity|].
        cbn in Hok. destruct Hok as (Hr & He & pre & Hp & Hc & Hs & Ha).
        rewrite Nat.add_0_r in Hs. split.
        * rewrite He, Hp, Hs. econstructor; eauto. exists b. split; [reflexivity|].
          destruct (sb_kind b); try discriminate. reflexivity.
        * intros _. eapply agreed_all; eauto.
      + destruct st as [t b|b|cd tx]; try (injection H as <- <-; apply Hnop; [reflexivity|quiet|reflexivity]).
        destruct (bytes_eqb t (ca_tag ca)) eqn:Ec; [|injection H as <- <-; apply Hnop; [reflexivity|quiet|reflexivity]].
        apply bytes_eqb_eq in Ec. subst t.
        assert (D : c_send c' = cs_set_current (c_send c) None /\
                    e = CeAuthenticateStatusReceived h ca (StTagged (ca_tag ca) b)).
        { destruct (sb_kind b); injection H as <- <-; auto. }
        destruct D as [-> ->]. cbn. split; [reflexivity|]. split; [reflexivity|].
        exists h, (command_of_authenticate ca). split; [reflexivity|]. split.
        2:{ intros [p Hp]. discriminate. }
        unfold waiting in Hw. rewrite Ecur in Hw. cbn in Hok.
        destruct Hok as (Hs & line & Hl & Hok). rewrite Hs.
        assert (Hts : tagged_status (ctag (command_of_authenticate ca)) (StTagged (ca_tag ca) b)).
        { exists b. reflexivity. }
        destruct act; try contradiction.
        * destruct Hok as (xs & ds & lines & H1 & H2 & H3 & H4). rewrite H3, H4.
          econstructor; eauto.
        * destruct Hok as (q & xs & ds & lines & H1 & H2 & H3 & H4). rewrite H3, H4.
          econstructor; eauto.
      + destruct st as [t' b|b|cd tx]; try (injection H as <- <-; apply Hnop; [reflexivity|quiet|reflexivity]).
        destruct (bytes_eqb t' t) eqn:Ec; injection H as <- <-; [|apply Hnop; [reflexivity|quiet|reflexivity]].
        apply bytes_eqb_eq in Ec. subst t'.
        cbn. split; [reflexivity|]. split; [reflexivity|].
        exists h, {| ctag := t; cbody := BIdle |}. split; [reflexivity|]. split.
        2:{ intros [p Hp]. discriminate. }
        unfold waiting in Hw. rewrite Ecur in Hw. cbn in Hok.
        destruct Hok as (Hs & line & Hl & Hok). rewrite Hs.
        assert (Hts : tagged_status t (StTagged t b)).
        { exists b. reflexivity. }
        destruct act; try contradiction.
        * destruct Hok as (Ho & Hx). rewrite Ho, Hx. econstructor; eauto.
        * destruct Hok as (Ho & q & Hx). rewrite Ho, Hx. econstructor; eauto.
      + injection H as <- <-. apply Hnop; [reflexivity|quiet|reflexivity].
    - injection H as <- <-. apply Hnop; [reflexivity|quiet|reflexivity].
    - (* continuation request *)
      unfold cs_literal_continue in H. unfold s, s' in *. clear s s'.
      destruct (cs_current (c_send c)) as [[h c0 fs act|h ca act|h t act]|] eqn:Ecur.
      + unfold waiting in Hw. rewrite Ecur in Hw. destruct act; try contradiction. discriminate.
      + unfold waiting in Hw. rewrite Ecur in Hw.
        destruct act; try contradiction;
          unfold cs_authenticate_continue in H; rewrite Ecur in H.
        * injection H as <- <-. cbn. split; [reflexivity|]. split; [|reflexivity].
          cbn in Hok. destruct Hok as (Hs & line & Hl & xs & ds & lines & H1 & H2 & H3 & H4).
          split; [unfold x; rewrite silent_app, Hs; reflexivity|].
          exists line. split; [assumption|]. exists q, xs, ds, lines.
          rewrite outputs_app, exchange_app, H3, H4. cbn. rewrite !app_nil_r. auto.
        * unfold cs_idle_continue in H. rewrite Ecur in H.
          injection H as <- <-. apply Hnop; [reflexivity|quiet|reflexivity].
      + unfold waiting in Hw. rewrite Ecur in Hw.
        unfold cs_authenticate_continue in H. rewrite Ecur in H.
        unfold cs_idle_continue in H. rewrite Ecur in H.
        destruct act; try contradiction; injection H as <- <-; [|apply Hnop; [reflexivity|quiet|reflexivity]].
        cbn. split; [reflexivity|]. split; [|reflexivity].
        cbn in Hok. destruct Hok as (Hs & line & Hl & Ho & Hx).
        split; [unfold x; rewrite silent_app, Hs; reflexivity|].
        exists line. split; [assumption|].
        rewrite outputs_app, exchange_app, Ho, Hx. cbn. rewrite app_nil_r. eauto.
      + unfold cs_authenticate_continue in H. rewrite Ecur in H.
        unfold cs_idle_continue in H. rewrite Ecur in H.
        injection H as <- <-. apply Hnop; [reflexivity|quiet|reflexivity].
  Qed.

  (** Releasing a literal. *)
  Lemma release_ok : forall s s' seg raw q,
    cs_literal_continue s = (s', true) -> cur_ok (cs_current s) seg ->
    cs_queue s' = cs_queue s /\ cur_cmd (cs_current s') = cur_cmd (cs_current s) /\
    cur_ok (cs_current s') (seg ++ [ClRx (Crx raw (CvResponse (RCcr q)))]) /\
    exists h c pre d post, cur_cmd (cs_current s) = [(h, c)] /\ regular c /\
      enc_command K c = pre ++ FLiteral d LSync :: post /\ outputs seg = frags_bytes pre.
  Proof.
    intros s s' seg raw q H Hok. unfold cs_literal_continue in H.
    destruct (cs_current s) as [[h c fs act|h ca act|h t act]|]; try discriminate.
    destruct act as [?|?|lit]; try discriminate. injection H as <-.
    cbn in Hok. destruct Hok as (Hr & He & pre & Hp & Hc & Hs & Ha).
    cbn. split; [reflexivity|]. split; [reflexivity|]. split.
    - rewrite outputs_app, exchange_app, silent_app, He, Hp, Hs by reflexivity.
      split; [assumption|]. split; [reflexivity|].
      exists pre. cbn. rewrite app_nil_r. split; [reflexivity|]. split; [assumption|].
      split; [lia|].
      intros pre0 d0 post0 E Hl.
      destruct (Nat.lt_ge_cases (length pre0) (length pre)) as [H|H].
      + destruct (Ha pre0 d0 post0 E H) as (s1 & raw1 & q1 & s2 & -> & Ho).
        exists s1, raw1, q1, (s2 ++ [ClRx (Crx raw (CvResponse (RCcr q)))]).
        rewrite <- app_assoc. auto.
      + assert (Hpre : pre0 = pre).
        { rewrite Hc in E. cbn in E.
          apply app_inv_length in E as [E _]; [auto|lia]. }
        subst pre0. exists seg, raw, q, []. auto.
    - exists h, c, pre, lit, fs. auto.
  Qed.

  (** The invariant. [dn]: commands whose handle is resolved. *)
  Definition resolved (l : list clog) (dn : list (handle * command)) : Prop :=
    length dn = length (terminals l) /\
    forall k h c, nth_error dn k = Some (h, c) ->
      exists t seg x, nth_error (terminals l) k = Some t /\
        segment k l = seg ++ x /\ x <> [] /\
        quiet x /\ ended h c seg t.

  Definition conv_inv (a : astate) (l : list clog) : Prop :=
    exists dn, enqueued l = dn ++ cur_cmd (cs_current (a_send a)) ++ cs_queue (a_send a) /\
      resolved l dn /\ cur_ok (cs_current (a_send a)) (cur_seg l).

  Lemma resolved_old : forall l l1 dn, no_end l1 -> resolved l dn -> resolved (l ++ l1) dn.
  Proof.
    intros l l1 dn H [Hl Hr]. unfold resolved.
    rewrite terminals_app, (no_end_terminals l1 H), app_nil_r. split; [assumption|].
    intros k h c Hk. destruct (Hr k h c Hk) as (t & seg & x & Ht & Hs & Hrest).
    exists t, seg, x. split; [assumption|]. split; [|assumption].
    rewrite segment_old; [assumption|]. rewrite <- Hl. apply nth_error_Some. congruence.
  Qed.

  Lemma resolved_new : forall l l1 t dn h c,
    no_end l1 -> is_terminal t = true -> quiet (l1 ++ [ClNext (IEvent t)]) ->
    resolved l dn -> ended h c (cur_seg l) t ->
    resolved (l ++ l1 ++ [ClNext (IEvent t)]) (dn ++ [(h, c)]).
  Proof.
    intros l l1 t dn h c Hne Ht Hq [Hl Hr] He.
    destruct (segment_end l l1 t Hne Ht) as (T & S0 & _). unfold resolved.
    rewrite T, !app_length. cbn. split; [lia|].
    intros k h0 c0 Hk.
    destruct (Nat.lt_ge_cases k (length dn)) as [Hlt|Hge].
    - rewrite nth_error_app1 in Hk by assumption.
      destruct (Hr k h0 c0 Hk) as (t0 & seg & x & Ht0 & Hs & Hrest).
      exists t0, seg, x. split.
      { rewrite nth_error_app1 by lia. assumption. }
      split; [|assumption]. rewrite segment_old by lia. assumption.
    - rewrite nth_error_app2 in Hk by assumption.
      destruct (k - length dn) as [|n] eqn:En; [|destruct n; discriminate].
      cbn in Hk. injection Hk as <- <-.
      assert (k = length (terminals l)) by lia. subst k.
      exists t, (cur_seg l), (l1 ++ [ClNext (IEvent t)]). split.
      { rewrite nth_error_app2, Nat.sub_diag by lia. reflexivity. }
      split; [assumption|]. split; [destruct l1; discriminate|].
      auto.
  Qed.

  Lemma asteps_conv : forall g l a, asteps (astate_new g) l a -> conv_inv a l.
  Proof.
    intros g l a H. remember (astate_new g) as a00 eqn:E0.
    induction H as [a0|a0 l a1 l1 a2 H IH H1].
    - subst. exists []. cbn. repeat split; auto. intros k h c Hk. destruct k; discriminate.
    - specialize (IH E0). destruct IH as (dn & Henq & Hres & Hcur).
      (* a step that changes nothing but the log *)
      assert (Nop : forall cur q x,
        a_send a2 = {| cs_queue := q; cs_current := cur |} -> l1 = x -> no_end x ->
        enqueued x = [] -> cur_ok cur (cur_seg l ++ x) ->
        cur_cmd cur ++ q = cur_cmd (cs_current (a_send a1)) ++ cs_queue (a_send a1) ->
        conv_inv a2 (l ++ l1)).
      { intros cur q x Es -> Hne He Hok Eq. exists dn. rewrite Es. cbn [cs_current cs_queue].
        rewrite enqueued_app, He, app_nil_r, Eq. split; [assumption|].
        split; [now apply resolved_old|]. rewrite cur_seg_app by assumption. assumption. }
      assert (Term : forall x t q h c,
        a_send a2 = {| cs_queue := q; cs_current := None |} ->
        l1 = x ++ [ClNext (IEvent t)] -> no_end x -> is_terminal t = true ->
        enqueued x = [] -> quiet (x ++ [ClNext (IEvent t)]) ->
        cur_cmd (cs_current (a_send a1)) ++ cs_queue (a_send a1) = (h, c) :: q ->
        ended h c (cur_seg l) t -> conv_inv a2 (l ++ l1)).
      { intros x t q h c Es -> Hne Ht He Hq Eq Hend. exists (dn ++ [(h, c)]). rewrite Es.
        cbn [cs_current cs_queue cur_cmd]. rewrite !enqueued_app, He. cbn.
        rewrite app_nil_r, Henq, Eq, <- app_assoc. split; [reflexivity|]. split.
        - apply resolved_new; auto.
        - destruct (segment_end l x t Hne Ht) as (_ & _ & ->). repeat split. }
      destruct H1 as [a cmd g0 h Hg|a x|a d s r H0|a s r H0|a s H0 H1|a s e H0 H1|a s b H0 H1
        |a H0 H1|a raw rest ls g0 H0 H1 H2|a raw rest ls q s H0 H1 H2 H3 H4
        |a raw rest ls m c' e H0 H1 H2 H3 H4|a raw rest v e H0 H1 H2].
      + (* enqueue *)
        exists dn. cbn. rewrite enqueued_app, Henq. cbn. split.
        * now rewrite <- !app_assoc.
        * split; [apply resolved_old; auto; repeat constructor|].
          rewrite cur_seg_app by (repeat constructor). apply cur_ok_ext; [quiet|assumption].
      + eapply (Nop (cs_current (a_send a)) (cs_queue (a_send a)) _); [|reflexivity|repeat constructor|reflexivity| |reflexivity].
        * cbn. now destruct (a_send a).
        * apply cur_ok_ext; [quiet|assumption].
      + (* set_authenticate_data *)
        unfold cs_set_authenticate_data in H0.
        assert (Nop' : s = a_send a -> r = inr d -> conv_inv (a_set_send a s) (l ++ [ClSetAuth d r])).
        { intros -> ->.
          eapply (Nop (cs_current (a_send a)) (cs_queue (a_send a)) _); [|reflexivity|repeat constructor|reflexivity| |reflexivity].
          * cbn. now destruct (a_send a).
          * apply cur_ok_ext; [quiet|assumption]. }
        destruct (cs_current (a_send a)) as [[h c0 fs act|h ca act|h t act]|] eqn:Ecur;
          try (injection H0 as <- <-; now apply Nop').
        destruct act; try (injection H0 as <- <-; now apply Nop').
        unfold single_line in H0.
        destruct (enc_authdata K d) as [|[line|] [|]] eqn:Ed; try discriminate.
        cbn in H0. injection H0 as <- <-.
        eapply (Nop _ _ _ eq_refl eq_refl); [repeat constructor|reflexivity| |reflexivity].
        cbn in Hcur. destruct Hcur as (Hs & ln & Hl & q & xs & ds & lines & H1 & H2 & H3 & H4).
        split; [now rewrite silent_app, Hs|]. exists ln. split; [assumption|]. exists q, d. split; [assumption|].
        exists xs, ds, lines. rewrite outputs_app, exchange_app, H3, H4. cbn.
        rewrite app_nil_r, <- app_assoc. auto.
      + (* set_idle_done *)
        unfold cs_set_idle_done in H0.
        assert (Nop' : s = a_send a -> r = None -> conv_inv (a_set_send a s) (l ++ [ClSetDone r])).
        { intros -> ->.
          eapply (Nop (cs_current (a_send a)) (cs_queue (a_send a)) _); [|reflexivity|repeat constructor|reflexivity| |reflexivity].
          * cbn. now destruct (a_send a).
          * apply cur_ok_ext; [quiet|assumption]. }
        destruct (cs_current (a_send a)) as [[h c0 fs act|h ca act|h t act]|] eqn:Ecur;
          try (injection H0 as <- <-; now apply Nop').
        destruct act; try (injection H0 as <- <-; now apply Nop').
        unfold single_line in H0.
        destruct (enc_idledone K) as [|[line|] [|]] eqn:Ed; try discriminate.
        cbn in H0. injection H0 as <- <-.
        eapply (Nop _ _ _ eq_refl eq_refl); [repeat constructor|reflexivity| |reflexivity].
        cbn in Hcur. destruct Hcur as (Hs & ln & Hl & Ho & q & Hx).
        split; [now rewrite silent_app, Hs|]. exists ln. split; [assumption|]. split; [assumption|].
        rewrite outputs_app, exchange_app, Ho, Hx. cbn. rewrite app_nil_r. eauto.
      + (* silent *)
        destruct (cs_next_ok _ _ _ _ H1 Hcur ltac:(discriminate)) as [D1 D2].
        eapply (Nop (cs_current s) (cs_queue s) []); [cbn; now destruct s|reflexivity|constructor|reflexivity| |assumption].
        now rewrite app_nil_r.
      + (* event *)
        pose proof (cs_next_ok _ _ _ _ H1 Hcur ltac:(discriminate)) as D. cbv beta iota zeta in D.
        destruct (is_terminal (cs_event_ev e)) eqn:Et.
        * destruct D as (D1 & h & c & D2 & D3).
          eapply (Term [] _ (cs_queue s) h c); [|reflexivity|constructor|assumption|reflexivity| | |exact D3].
          -- cbn. destruct s as [q cur]. cbn in *. now subst.
          -- destruct e; try discriminate; quiet.
          -- rewrite D1 in D2. exact D2.
        * destruct D as [D1 D2].
          eapply (Nop (cs_current s) (cs_queue s) _); [cbn; now destruct s|reflexivity| |reflexivity|exact D1|exact D2].
          constructor; [exact Et|constructor].
      + (* output *)
        destruct (cs_next_ok _ _ _ _ H1 Hcur ltac:(discriminate)) as [D1 D2].
        eapply (Nop (cs_current s) (cs_queue s) _); [cbn; now destruct s|reflexivity|repeat constructor|reflexivity|exact D1|assumption].
      + eapply (Nop (cs_current (a_send a)) (cs_queue (a_send a)) _); [|reflexivity|repeat constructor|reflexivity| |reflexivity].
        * now destruct (a_send a).
        * apply cur_ok_ext; [quiet|assumption].
      + eapply (Nop (cs_current (a_send a)) (cs_queue (a_send a)) _); [|reflexivity|repeat constructor|reflexivity| |reflexivity].
        * cbn. now destruct (a_send a).
        * apply cur_ok_ext; [quiet|assumption].
      + (* release *)
        destruct (release_ok _ _ _ raw q H4 Hcur) as (D1 & D2 & D3 & _).
        eapply (Nop (cs_current s) (cs_queue s) _); [cbn; now destruct s|reflexivity|repeat constructor|reflexivity|exact D3|].
        now rewrite D1, D2.
      + (* response *)
        pose proof (settled_waiting _ (H1 H0)) as Hw.
        destruct (handle_response_ok _ _ _ _ (cur_seg l) raw H4 Hw Hcur) as [D1 D2].
        cbn [c_send] in D1, D2.
        destruct (is_terminal e) eqn:Et.
        * destruct D2 as (D2 & h & c0 & D3 & D4).
          eapply (Term [_] _ (cs_queue (c_send c')) h c0); [|reflexivity|repeat constructor|assumption|reflexivity| | |exact D4].
          -- cbn. destruct (c_send c') as [q cur]. cbn in *. now subst.
          -- apply handle_response_event in H4 as [H4 _].
             destruct e; try discriminate; cbn in H4; injection H4 as <-; quiet.
          -- rewrite D3, D1. reflexivity.
        * destruct D2 as [D2 D3].
          eapply (Nop (cs_current (c_send c')) (cs_queue (c_send c')) _); [cbn; now destruct (c_send c')|reflexivity| |reflexivity|exact D2|].
          -- constructor; [reflexivity|]. constructor; [exact Et|constructor].
          -- now rewrite D1, D3.
      + eapply (Nop (cs_current (a_send a)) (cs_queue (a_send a)) _); [|reflexivity|repeat constructor|reflexivity| |reflexivity].
        * cbn. now destruct (a_send a).
        * apply cur_ok_ext; [|assumption]. destruct H2 as [(-> & _)|(-> & _)]; quiet.
  Qed.
End Inv.
