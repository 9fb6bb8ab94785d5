(** Where the server is in the requests that the client sends. *)
From Coq Require Import List NArith Bool PeanoNat Lia ZifyBool ZifyNat ZifyN.
From Verif Require Import Base Types Codec Handle Receive ServerSend ClientSend Client Server
  SpecFraming SpecClient SpecServer ReceiveProofs ClientRecv ServerRecv ServerAbs
  System SpecSystem.
From Verif Require Import ClientInv.
From Verif Require ServerInv.
Import ListNotations.

(** A frame that has only the literals already accepted ends with the next line. *)
Lemma frame_line : forall {M L} (dec : bytes -> dec_result M L) relaxed acc pre ls need rest0 raw rest q,
  opened dec relaxed acc pre ls need -> pre ++ rest0 = raw ++ rest -> framed dec relaxed acc raw ls q ->
  exists w l, raw = pre ++ w /\ rest0 = w ++ rest /\ frag_line (NfLiteral need) w l /\
    verdict dec relaxed acc (pre ++ w) l q.
Proof.
  intros M L dec relaxed acc pre ls need rest0 raw rest q Ho E Hf.
  destruct (opened_continues dec relaxed acc _ _ _ _ _ _ _ _ Ho Hf (eq_sym E)) as (w & ls2 & -> & El & Hs).
  assert (ls2 = []).
  { rewrite <- (app_nil_r ls) in El at 1. now apply app_inv_head in El. }
  subst ls2. destruct Hs as (d & w2 & -> & Hd & Hs).
  inversion Hs as [p l o0 Hl Hv|]; subst.
  exists (d ++ w2), w2. split; [reflexivity|]. split.
  - rewrite <- app_assoc in E. now apply app_inv_head in E.
  - split; [now constructor|]. rewrite app_assoc. exact Hv.
Qed.

Section Pos.
  Variable K : Codecs.
  Variable o : soptions.

  Notation relaxed := (so_crlf_relaxed o).

  Definition rq_frags (q : request) : list fragment :=
    match q with
    | RqCommand c => enc_command K c
    | RqData d => enc_authdata K d
    | RqDone => enc_idledone K
    end.

  Definition rq_ok (q : request) : Prop :=
    match q with
    | RqCommand c => cmd_roundtrips K c /\ cmd_fits K o c
    | RqData d => line_roundtrips (dec_authdata K) (enc_authdata K d) d /\ line_fits o (enc_authdata K d)
    | RqDone => line_roundtrips (dec_idledone K) (enc_idledone K) tt /\ line_fits o (enc_idledone K)
    end.

  Definition item_frags (rs : list request) : list fragment := concat (map rq_frags rs).

  Lemma item_frags_app : forall a b, item_frags (a ++ b) = item_frags a ++ item_frags b.
  Proof. intros. unfold item_frags. now rewrite map_app, concat_app. Qed.

  (** Requests begin with a line. *)
  Lemma rq_frags_line : forall q, rq_ok q -> exists x fs, rq_frags q = FLine x :: fs /\ is_line x.
  Proof.
    intros [c|d|] [H _]; cbn.
    - unfold cmd_roundtrips in H. inversion H; eauto.
    - destruct H as (x & -> & Hx & _). eauto.
    - destruct H as (x & -> & Hx & _). eauto.
  Qed.

  (** The server has read [pre1] of the first request. *)
  Definition head_pos (x : xstate) (pre1 : list fragment) (items : list request) : Prop :=
    (pre1 = [] /\ x_need x = 0%N) \/
    (exists c its d m post, items = RqCommand c :: its /\
       enc_command K c = pre1 ++ FLiteral d m :: post /\
       x_need x = N.of_nat (length d) /\ lits_fit o (pre1 ++ [FLiteral d m]) /\
       enc_ok K c (frags_bytes pre1 ++ d) post /\ pre1 <> []).

  Definition flow_ok (pre1 G : list fragment) : Prop :=
    match G with
    | [] => True
    | f :: G' => Forall not_sync G' /\ (pre1 = [] -> not_sync f)
    end.

  (** [items]: requests that the server has not read completely; [G]: what is under way;
      [R]: what the client has not yet output. *)
  Record pos (x : xstate) (toS : bytes) (items : list request) (pre1 G R : list fragment)
    : Prop := Pos {
    po_eq : item_frags items = pre1 ++ G ++ R;
    po_pre : x_pre x = frags_bytes pre1;
    po_rest : x_rest x ++ toS = frags_bytes G;
    po_head : head_pos x pre1 items;
    po_flow : flow_ok pre1 G
  }.

  (** What the next line is. *)
  Definition line_meaning (q : request) (pre1 dl : list fragment) (ln : bytes) (post : list fragment)
    : Prop :=
    let b := frags_bytes (pre1 ++ dl) ++ ln in
    match q with
    | RqCommand c =>
        (post = [] /\ dec_command K b = DecOk [] c) \/
        (exists d m post', post = FLiteral d m :: post' /\
           dec_command K b = DecLit (CmdLit (ctag c) (N.of_nat (length d)) m) /\
           enc_ok K c (b ++ d) post')
    | RqData d => pre1 = [] /\ dl = [] /\ post = [] /\ dec_authdata K ln = DecOk [] d
    | RqDone => pre1 = [] /\ dl = [] /\ post = [] /\ dec_idledone K ln = DecOk [] tt
    end.

  Record next_line (x : xstate) (q : request) (pre1 dl : list fragment) (ln : bytes)
      (post : list fragment) : Prop := NextLine {
    nl_eq : rq_frags q = pre1 ++ dl ++ FLine ln :: post;
    nl_need : x_need x = N.of_nat (length (frags_bytes dl));
    nl_line : is_line ln;
    nl_crlf : ends_crlf ln;
    nl_lits : lits_fit o (pre1 ++ dl);
    nl_size : (N.of_nat (length (frags_bytes (pre1 ++ dl) ++ ln)) <= so_max_command_size o)%N;
    nl_dl : (pre1 = [] /\ dl = []) \/ (exists d m, dl = [FLiteral d m] /\ pre1 <> []);
    nl_meaning : line_meaning q pre1 dl ln post
  }.

  Lemma enc_ok_step : forall c p fs, enc_ok K c p fs ->
    exists x post, fs = FLine x :: post /\ is_line x /\ ends_crlf x /\
      ((post = [] /\ dec_command K (p ++ x) = DecOk [] c) \/
       (exists d m post', post = FLiteral d m :: post' /\
          dec_command K (p ++ x) = DecLit (CmdLit (ctag c) (N.of_nat (length d)) m) /\
          enc_ok K c ((p ++ x) ++ d) post')).
  Proof.
    intros c p fs H. destruct H as [p x H1 H2 H3|p x d m fs H1 H2 H3 H4].
    - exists x, []. auto 6.
    - exists x, (FLiteral d m :: fs). repeat split; auto. right. exists d, m, fs.
      rewrite <- app_assoc. auto.
  Qed.

  Lemma next_line_exists : forall x toS q its pre1 G R,
    rq_ok q -> pos x toS (q :: its) pre1 G R ->
    exists dl ln post, next_line x q pre1 dl ln post.
  Proof.
    intros x toS q its pre1 G R Hq [E Hpre Hrest Hh Hfl].
    destruct Hh as [[-> Hn]|(c & its' & d & m & post0 & Ei & Ec & Hn & Hlits & Hok & Hne)].
    - destruct q as [c|d|].
      + destruct Hq as [Hr Hf]. unfold cmd_roundtrips in Hr.
        destruct (enc_ok_step _ _ _ Hr) as (ln & post & E1 & Hl & Hc & Hm).
        exists [], ln, post. constructor; auto.
        * constructor.
        * pose proof (proj2 Hf [] ln post E1 ltac:(constructor)) as S1.
          unfold frags_bytes in S1. cbn in S1. rewrite app_nil_r in S1. exact S1.
      + destruct Hq as [(ln & E1 & Hl & Hc & Hd) Hf]. exists [], ln, []. constructor; cbn; auto.
        * constructor.
        * unfold line_fits in Hf. rewrite E1 in Hf. cbn in Hf. rewrite app_nil_r in Hf. lia.
      + destruct Hq as [(ln & E1 & Hl & Hc & Hd) Hf]. exists [], ln, []. constructor; cbn; auto.
        * constructor.
        * unfold line_fits in Hf. rewrite E1 in Hf. cbn in Hf. rewrite app_nil_r in Hf. lia.
    - injection Ei as -> ->. destruct Hq as [Hr Hf].
      destruct (enc_ok_step _ _ _ Hok) as (ln & post & E1 & Hl & Hc & Hm).
      exists [FLiteral d m], ln, post. subst post0.
      assert (Eb : frags_bytes (pre1 ++ [FLiteral d m]) = frags_bytes pre1 ++ d).
      { rewrite frags_bytes_app. unfold frags_bytes at 2. cbn. now rewrite app_nil_r. }
      constructor; auto.
      + unfold frags_bytes. cbn. now rewrite app_nil_r.
      + pose proof (proj2 Hf (pre1 ++ [FLiteral d m]) ln post) as S1.
        rewrite (frags_bytes_app (pre1 ++ [FLiteral d m])) in S1.
        unfold frags_bytes at 2 in S1. cbn in S1. rewrite app_nil_r in S1.
        apply S1; [|exact Hlits]. rewrite <- app_assoc. exact Ec.
      + right. eauto.
      + cbn. rewrite Eb. exact Hm.
  Qed.

  Lemma is_line_len : forall l, is_line l -> 1 <= length l.
  Proof. intros l (l0 & -> & _). rewrite app_length. cbn. lia. Qed.

  (** A line whose bytes have been sent. *)
  Lemma line_in_flow : forall G R dl ln rest,
    G ++ R = dl ++ FLine ln :: rest -> is_line ln ->
    length (frags_bytes dl ++ ln) <= length (frags_bytes G) ->
    exists G', G = dl ++ FLine ln :: G' /\ rest = G' ++ R.
  Proof.
    intros G R dl ln rest E Hl Hlen.
    assert (E' : G ++ R = (dl ++ [FLine ln]) ++ rest) by (rewrite <- app_assoc; exact E).
    destruct (app_prefix_cases _ _ _ _ E') as [(e & E1 & E2)|(e & E1 & E2)].
    - exists []. destruct e as [|f e].
      + rewrite app_nil_r in E1. cbn in E2. subst rest. now rewrite E1.
      + exfalso. destruct (exists_last (l := f :: e) ltac:(discriminate)) as (e0 & f0 & Ee).
        rewrite Ee, app_assoc in E1. apply app_inj_tail in E1 as [E1 <-].
        rewrite E1, frags_bytes_app in Hlen. rewrite !app_length in Hlen.
        apply is_line_len in Hl. lia.
    - exists e. split; [|exact E2]. rewrite E1, <- app_assoc. reflexivity.
  Qed.

  (** The line that the server finds is the next one. *)
  Lemma line_found : forall x toS q its pre1 G R dl ln post w l rest,
    pos x toS (q :: its) pre1 G R -> next_line x q pre1 dl ln post ->
    x_rest x = w ++ rest -> frag_line (NfLiteral (x_need x)) w l ->
    w = frags_bytes dl ++ ln /\ l = ln /\
    exists G', G = dl ++ FLine ln :: G' /\ rest ++ toS = frags_bytes G' /\
      post ++ item_frags its = G' ++ R.
  Proof.
    intros x toS q its pre1 G R dl ln post w l rest [E Hpre Hrest Hh Hfl]
      [N1 N2 N3 N4 N5 N6 N7 N8] Hr Hf.
    assert (EG : G ++ R = dl ++ FLine ln :: (post ++ item_frags its)).
    { apply (app_inv_head pre1). rewrite <- E. unfold item_frags. cbn [map concat].
      rewrite N1, <- !app_assoc. reflexivity. }
    assert (Hf' : frag_line (NfLiteral (x_need x)) (frags_bytes dl ++ ln) ln).
    { rewrite N2. now constructor. }
    assert (EB : w ++ (rest ++ toS ++ frags_bytes R) =
                 (frags_bytes dl ++ ln) ++ frags_bytes (post ++ item_frags its)).
    { transitivity (frags_bytes (G ++ R)).
      - rewrite frags_bytes_app, <- Hrest, Hr, <- !app_assoc. reflexivity.
      - rewrite EG, frags_bytes_app. unfold frags_bytes at 2. cbn [map concat frag_data].
        fold (frags_bytes (post ++ item_frags its)). now rewrite <- app_assoc. }
    destruct (frag_line_unique _ _ _ _ _ _ _ Hf Hf' EB) as (-> & -> & ER).
    split; [reflexivity|]. split; [reflexivity|].
    destruct (line_in_flow G R dl ln _ EG N3) as (G' & EG' & EP).
    { rewrite <- Hrest, Hr, !app_length. lia. }
    exists G'. split; [exact EG'|]. split; [|exact EP].
    rewrite EG', frags_bytes_app in Hrest. rewrite Hr, <- !app_assoc in Hrest.
    apply app_inv_head in Hrest. unfold frags_bytes in Hrest. cbn in Hrest.
    now apply app_inv_head in Hrest.
  Qed.

  (** Frames are not too long. *)
  Lemma never_too_long : forall x toS q its pre1 G R raw rest,
    rq_ok q -> pos x toS (q :: its) pre1 G R ->
    xwf K o x ->
    no_line (NfLiteral (x_need x)) (view (Some (so_max_command_size o)) (x_pre x) (x_rest x)) ->
    x_buf x = raw ++ rest -> N.of_nat (length raw) = so_max_command_size o -> False.
  Proof.
    intros x toS q its pre1 G R raw rest Hq Hp [Hw _] Hno Hb Hraw.
    destruct (next_line_exists _ _ _ _ _ _ _ Hq Hp) as (dl & ln & post & [N1 N2 N3 N4 N5 N6 N7 N8]).
    destruct Hp as [E Hpre Hrest Hh Hfl].
    assert (Ef : fits (Some (so_max_command_size o)) (length (x_pre x))) by (cbn; lia).
    assert (Er : raw = x_pre x ++ view (Some (so_max_command_size o)) (x_pre x) (x_rest x)).
    { rewrite <- within_view by exact Ef. fold (x_buf x). rewrite Hb. unfold within.
      destruct (N.leb _ _) eqn:El.
      - rewrite app_length in El. destruct rest; [now rewrite app_nil_r|].
        cbn [length] in El. lia.
      - rewrite <- Hraw, Nnat.Nat2N.id. now rewrite firstn_app_exact. }
    assert (EG : G ++ R = dl ++ FLine ln :: (post ++ item_frags its)).
    { apply (app_inv_head pre1). rewrite <- E. unfold item_frags. cbn [map concat].
      rewrite N1, <- !app_assoc. reflexivity. }
    set (v := view (Some (so_max_command_size o)) (x_pre x) (x_rest x)) in *.
    assert (EB : v ++ (rest ++ toS ++ frags_bytes R) =
                 (frags_bytes dl ++ ln) ++ frags_bytes (post ++ item_frags its)).
    { transitivity (frags_bytes (G ++ R)).
      - rewrite frags_bytes_app, <- Hrest.
        unfold x_buf in Hb. rewrite Er, <- app_assoc in Hb. apply app_inv_head in Hb.
        rewrite Hb, <- !app_assoc. reflexivity.
      - rewrite EG, frags_bytes_app. unfold frags_bytes at 2. cbn [map concat frag_data].
        fold (frags_bytes (post ++ item_frags its)). now rewrite <- app_assoc. }
    destruct (app_prefix_cases _ _ _ _ EB) as [(e & E1 & E2)|(e & E1 & E2)].
    - assert (e = []).
      { destruct e as [|b e]; [reflexivity|]. exfalso.
        assert (length (frags_bytes dl ++ ln) = length (v ++ b :: e)) by now rewrite E1.
        rewrite !app_length in *. cbn [length] in *.
        rewrite Er, app_length, Hpre in Hraw. rewrite frags_bytes_app, app_length in N6. lia. }
      subst e. rewrite app_nil_r in E1.
      apply (Hno (frags_bytes dl ++ ln) ln []); [rewrite N2; now constructor|].
      now rewrite app_nil_r.
    - apply (Hno (frags_bytes dl ++ ln) ln e); [rewrite N2; now constructor|]. exact E1.
  Qed.
End Pos.
