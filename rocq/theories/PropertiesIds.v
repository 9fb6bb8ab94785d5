(** Uniqueness of handles and tags (C26, C27, C41). Vocabulary: HandleProc.v, TagGen.v: a
    process that creates generators and uses them, in any interleaving. *)
From Coq Require Import List NArith PeanoNat.
From Coq Require String.
Import (notations) String.
From Verif Require Import Base Types Codec Handle Client Server SpecClient SpecServer HandleProc
  TagGen IdProofs HandleRuns ToyCodec ClientExamples ServerExamples.
Import ListNotations.
Open Scope list_scope.
Open Scope nat_scope.

(** ** C26 *)

(** All handles generated in a process differ. *)
Theorem C26_handles_unique : forall sts,
  (N.of_nat (news sts) <= 2 ^ 64)%N -> (forall k, (N.of_nat (asked k sts) <= 2 ^ 64)%N) ->
  NoDup (snd (hproc_run hproc_new sts)).
Proof. exact handles_unique. Qed.
Print Assumptions C26_handles_unique.

(** The bound is sharp: after 2^64 handles the same ones are generated again. *)
Theorem C26_handles_wrap : forall g, (hg_next g < 2 ^ 64)%N ->
  let g' := nat_rect (fun _ => hgen) g (fun _ g => fst (hgen_generate g)) (N.to_nat (2 ^ 64)) in
  snd (hgen_generate g') = snd (hgen_generate g).
Proof. exact handles_wrap. Qed.
Print Assumptions C26_handles_wrap.

(** The handles that a client returns differ from each other and carry the identity of its
    generator; so they differ from those of all other clients. *)
Theorem C26_client_handles : forall K relaxed g ops c l,
  ran K relaxed g ops c l ->
  (hg_next g < 2 ^ 64)%N -> (N.of_nat (length (enqueued l)) <= 2 ^ 64)%N ->
  NoDup (map fst (enqueued l)) /\ forall h cm, In (h, cm) (enqueued l) -> h_gen h = hg_id g.
Proof. exact client_handles. Qed.
Print Assumptions C26_client_handles.

Theorem C26_server_handles : forall K g o gr ops s l,
  sran K g o gr ops s l ->
  (hg_next g < 2 ^ 64)%N -> (N.of_nat (length (sgiven l)) <= 2 ^ 64)%N ->
  NoDup (sgiven l) /\ forall h, In h (sgiven l) -> h_gen h = hg_id g.
Proof. exact server_handles. Qed.
Print Assumptions C26_server_handles.

Example C26_example :
  snd (hproc_run hproc_new [HsNew; HsHandle 0; HsNew; HsHandle 1; HsHandle 0; HsHandle 5; HsHandle 1]) =
    [Handle 0 0; Handle 1 0; Handle 0 1; Handle 1 1] /\
  map fst (enqueued (ex_log false ops_login)) = [Handle 3 0; Handle 3 1] /\
  sgiven (sx_log ex_opts sops_flow) = [Handle 3 0; Handle 3 1; Handle 3 2].
Proof. vm_compute. auto. Qed.

(** ** C27 *)

(** All tags generated in a process differ, with or without random tokens, whatever these
    are. *)
Theorem C27_tags_unique : forall sts,
  (N.of_nat (tnews sts) <= 2 ^ 64)%N -> (forall k, (N.of_nat (tasked k sts) <= 2 ^ 64)%N) ->
  NoDup (snd (tproc_run tproc_new sts)).
Proof. exact tags_unique. Qed.
Print Assumptions C27_tags_unique.

Example C27_example :
  snd (tproc_run tproc_new
    [TsNew; TsNew; TsTag 1 None; TsTag 0 (Some (B "1.0")); TsTag 1 (Some (B "abcdefgh")); TsTag 7 None]) =
    [B "1.0"; B "0.0.1.0"; B "1.1.abcdefgh"] /\
  decimal 18446744073709551615 = B "18446744073709551615".
Proof. vm_compute. auto. Qed.

(** ** C41 *)

(** Generated tags are tags in the sense of the protocol, although
    [Tag::unvalidated] does not check it. *)
Theorem C41_tags_valid : forall sts,
  (forall t, In (Some t) (tokens sts) -> Forall alphanumeric t) ->
  Forall valid_tag (snd (tproc_run tproc_new sts)).
Proof. exact tags_valid. Qed.
Print Assumptions C41_tags_valid.

Example C41_example :
  Forall alphanumeric (B "aZ09bcde") /\ ~ valid_tag (B "a b") /\ ~ valid_tag (B "1+").
Proof.
  split; [|split].
  - repeat (constructor; [unfold alphanumeric; vm_compute; intuition discriminate|]). constructor.
  - intros [_ H]. inversion H as [|? ? ? H1]; subst. inversion H1 as [|? ? [[H2 _] _] _]; subst.
    vm_compute in H2. now apply H2.
  - intros [_ H]. inversion H as [|? ? ? H1]; subst. inversion H1 as [|? ? [_ H2] _]; subst.
    apply H2. vm_compute. auto 10.
Qed.
