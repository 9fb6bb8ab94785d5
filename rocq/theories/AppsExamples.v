(** The example programs, run with the toy codec: client.rs against server.rs, and so on. *)
From Coq Require Import String List NArith Bool PeanoNat Lia.
From Verif Require Import Base Types Codec Handle Receive ServerSend ClientSend Client Server
  SpecFraming SpecClient SpecServer ToyCodec ToyLaws ClientExamples ServerExamples
  System SpecSystem SystemExamples
  Stream StreamMachine SpecStream ToyTls Net SpecNet NetProofs NetExamples Apps SpecApps.
Import ListNotations.
Open Scope list_scope.

(** ** Checking a log against a program *)
Section Check.
Context {M : machine} (P : program M).
Inductive psteps_from : pstate P -> list (xlog M) -> pstate P -> Prop :=
| pf_nil : forall st, psteps_from st [] st
| pf_cons : forall st e st1 l st2, pstep P st e st1 -> psteps_from st1 l st2 -> psteps_from st (e :: l) st2.
Lemma psteps_more : forall st l st', psteps_from st l st' -> forall l0, psteps P l0 st -> psteps P (l0 ++ l) st'.
Proof.
  intros st l st' H. induction H as [st|st e st1 l st2 S _ IH]; intros l0 H0; [now rewrite app_nil_r|].
  replace (l0 ++ e :: l) with ((l0 ++ [e]) ++ l) by now rewrite <- app_assoc.
  apply IH. econstructor; eauto.
Qed.
Lemma psteps_check : forall l st, psteps_from (PAt (pr_start P)) l st -> psteps P l st.
Proof. intros l st H. apply (psteps_more _ _ _ H []). constructor. Qed.

(** The state of the program after a log; [lines]: what is typed. *)
Context (same : forall a b : m_op M, {a = b} + {a <> b}) (coin : m_ev M -> bool).
Fixpoint follow_log (lines : list bytes) (st : pstate P) (l : list (xlog M)) : option (pstate P) :=
  match l with
  | [] => Some st
  | e :: l' =>
      match st, e with
      | PAt p, XRet (RetEvent x) => follow_log lines (resume (pr_event P p (coin x) x)) l'
      | PAt p, XCancel =>
          match lines with
          | [] => None
          | x :: lines' =>
              match pr_line P p x with Some b => follow_log lines' (resume b) l' | None => None end
          end
      | PAt p, e => if inside e then follow_log lines st l' else None
      | PIn o k, XCall o' r => if same o o' then follow_log lines (resume (k r)) l' else None
      | _, _ => None
      end
  end.
Lemma follow_from : forall l lines st st', follow_log lines st l = Some st' -> psteps_from st l st'.
Proof.
  induction l as [|e l IH]; intros lines st st' H.
  - injection H as <-. constructor.
  - cbn [follow_log] in H. destruct st as [p|o k|h]; [| |discriminate].
    + destruct e as [o r|b|r|b|b| | |r| | |]; cbn [inside] in H; try discriminate;
        try (econstructor; [apply ps_inside; reflexivity|eapply IH; exact H]).
      * destruct r; try discriminate. econstructor; [eapply ps_event|eapply IH; exact H].
      * destruct lines as [|x lines]; [discriminate|]. destruct (pr_line P p x) as [b|] eqn:E; [|discriminate].
        econstructor; [eapply ps_line; exact E|eapply IH; exact H].
    + destruct e as [o' r|b|r|b|b| | |r| | |]; try discriminate.
      destruct (same o o') as [<-|]; [|discriminate].
      econstructor; [apply ps_call|eapply IH; exact H].
Qed.
Lemma follow_steps : forall lines l st, follow_log lines (PAt (pr_start P)) l = Some st -> psteps P l st.
Proof. intros lines l st H. apply psteps_check. eapply follow_from. exact H. Qed.
End Check.

(** ** A scheduler that runs two programs *)
Section Drive.
Context (PC : program CM) (PS : program SM) (coin : sevent -> bool).

Definition follow {M} (P : program M) (coin : m_ev M -> bool) (line : bytes) (st : pstate P) (e : xlog M)
  : pstate P :=
  match st, e with
  | PAt p, XRet (RetEvent x) => resume (pr_event P p (coin x) x)
  | PAt p, XCancel => match pr_line P p line with Some b => resume b | None => st end
  | PIn _ k, XCall _ r => resume (k r)
  | _, _ => st
  end.

Definition todo {M} {P : program M} (st : pstate P) (x : xstate TL M) : option (act M) :=
  match st with
  | PIn o _ => Some (ACall o)
  | PAt _ => side_act x
  | PEnd _ => None
  end.

(** A line typed at the client or at the server; when nothing else can happen. *)
Fixpoint run_both (n : nat) (z : nst) (stc : pstate PC) (sts : pstate PS) (lines : list (bytes + bytes))
  : list nac :=
  match n with
  | O => []
  | S n' =>
      let go a line lines' :=
        let '(z', l) := nstep z a in
        a :: run_both n' z' (fold_left (follow PC (fun _ => false) line) (lefts l) stc)
               (fold_left (follow PS (coin : m_ev SM -> bool) line) (rights l) sts) lines' in
      match todo stc (n_l z), todo sts (n_r z) with
      | Some a, _ => go (NLeft a) [] lines
      | _, Some a => go (NRight a) [] lines
      | None, None =>
          match n_right z, n_left z, stc, lines with
          | _ :: _, _, _, _ => go (NToRight 9) [] lines
          | _, _ :: _, PAt _, _ => go (NToLeft 9) [] lines
          | _, _, _, inl x :: lines' => go (NLeft ACancel) x lines'
          | _, _, _, inr x :: lines' => go (NRight ACancel) x lines'
          | _, _, _, [] => []
          end
      end
  end.
Definition both_acts (lines : list (bytes + bytes)) : list nac :=
  run_both 400 n_plain (PAt (pr_start PC)) (PAt (pr_start PS)) lines.
Definition both_run (lines : list (bytes + bytes)) := net_run TL TL CM SM x_fuel n_plain (both_acts lines).
End Drive.

Definition no_coin (e : sevent) : bool := false.
Definition ex_coin (e : sevent) : bool :=
  match e with
  | SeCommandAuthenticateReceived _ => true
  | SeAuthenticateDataReceived (ADContinue d) => bytes_eqb d (B "alice")
  | _ => false
  end.
Definition ex_expunge : bytes := B "1 EXPUNGE".
Definition ex_login_arg : bytes := B "LOGIN alice secret".

Definition login_run := both_run (client_rs toy ex_login_arg) (server_rs toy) no_coin [].
Definition auth_run := both_run (client_authenticate_rs toy (B "T1")) (server_authenticate_rs toy) ex_coin [].
Definition idle_run := both_run (client_idle_rs toy) (server_idle_rs toy ex_expunge) no_coin
  [inr (B "ok"); inr (B "expunge"); inl (B "")].
Definition hang_run := both_run (client_idle_rs toy) (server_idle_rs toy ex_expunge) no_coin [inr (B "no")].


Definition bytes_same : forall a b : bytes, {a = b} + {a <> b} := list_eq_dec Byte.byte_eq_dec.
Ltac same := repeat first [exact bytes_same | apply bytes_same | decide equality].
Definition capp_same : forall a b : capp, {a = b} + {a <> b}.
Proof. same. Defined.
Definition sapp_same : forall a b : sapp, {a = b} + {a <> b}.
Proof. same. Defined.

(** The logs are logs of the programs. *)
Notation at_ P p := (@PAt _ P p).
Ltac follows M same coin lines :=
  apply (@follow_steps M _ same coin lines);
  match goal with |- _ = ?st => vm_cast_no_check (eq_refl st) end.
Definition c_coin (e : m_ev CM) : bool := false.

Lemma login_client : psteps (client_rs toy ex_login_arg) (lefts (snd login_run))
  (at_ (client_rs toy ex_login_arg) (CpMain (hd_ 0))).
Proof. follows (client_machine toy) capp_same c_coin (@nil bytes). Qed.
Lemma login_server : psteps (server_rs toy) (rights (snd login_run)) (at_ (server_rs toy) (SpMain [])).
Proof. follows (server_machine toy) sapp_same no_coin (@nil bytes). Qed.
Lemma auth_client : psteps (client_authenticate_rs toy (B "T1")) (lefts (snd auth_run)) (PEnd EndReturned).
Proof. follows (client_machine toy) capp_same c_coin (@nil bytes). Qed.
Lemma auth_server : psteps (server_authenticate_rs toy) (rights (snd auth_run))
  (at_ (server_authenticate_rs toy) (SapMain None)).
Proof. follows (server_machine toy) sapp_same ex_coin (@nil bytes). Qed.
Lemma idle_client : psteps (client_idle_rs toy) (lefts (snd idle_run)) (PEnd EndReturned).
Proof. follows (client_machine toy) capp_same c_coin [B ""]. Qed.
Lemma idle_server : psteps (server_idle_rs toy ex_expunge) (rights (snd idle_run))
  (at_ (server_idle_rs toy ex_expunge) (SipMain None)).
Proof. follows (server_machine toy) sapp_same no_coin [B "ok"; B "expunge"]. Qed.
Lemma hang_client : psteps (client_idle_rs toy) (lefts (snd hang_run)) (at_ (client_idle_rs toy) IpStatus).
Proof. follows (client_machine toy) capp_same c_coin (@nil bytes). Qed.
Lemma hang_server : psteps (server_idle_rs toy ex_expunge) (rights (snd hang_run))
  (at_ (server_idle_rs toy ex_expunge) (SipMain (Some (B "A1")))).
Proof. follows (server_machine toy) sapp_same no_coin [B "no"]. Qed.

Lemma both_talk : forall PC PS coin lines,
  talk false y_opts ex_gen ygen_s ex_greeting TL TL (fst (both_run PC PS coin lines)) (snd (both_run PC PS coin lines)).
Proof.
  intros. eapply (talk_plain _ _ _ _ _ _ _ _ _ x_fuel (both_acts PC PS coin lines)).
  unfold both_run. now destruct (net_run _ _ _ _ _ _ _).
Qed.

(** server.rs receives IDLE from client_idle.rs: it stalls. *)
Definition stuck_run := both_run (client_idle_rs toy) (server_rs toy) no_coin [].
Lemma stuck_client : psteps (client_idle_rs toy) (lefts (snd stuck_run)) (at_ (client_idle_rs toy) IpIdle).
Proof. follows (client_machine toy) capp_same c_coin (@nil bytes). Qed.
Lemma stuck_server : psteps (server_rs toy) (rights (snd stuck_run)) (at_ (server_rs toy) (SpMain [])).
Proof. follows (server_machine toy) sapp_same no_coin (@nil bytes). Qed.

(** client_std.rs, up to LOGIN; then the server closes the connection. *)
Definition std_log : list (xlog CM) :=
  [@XNext CM MNeedMore; XRead (ln "* OK hi"); XGive (ln "* OK hi");
   @XNext CM (MEvent (CeGreetingReceived (Greeting GkOk None (B "hi"))));
   @XCall CM (CaEnqueueCommand (client_command ex_login_arg))
     (ClEnqueue (client_command ex_login_arg) (hd_ 0));
   @XNext CM (MOutput (ln "A1 LOGIN alice secret")); XWrote (ln "A1 LOGIN alice secret");
   @XNext CM (MEvent (CeCommandSent (hd_ 0) (client_command ex_login_arg)));
   @XNext CM MNeedMore].

Section StdCheck.
Notation ststeps := (ststeps toy ex_login_arg).
Inductive std_from : ststate toy -> list (xlog CM) -> ststate toy -> Prop :=
| sf_nil : forall st, std_from st [] st
| sf_cons : forall st e st1 l st2, ststep toy ex_login_arg st e st1 -> std_from st1 l st2 -> std_from st (e :: l) st2.
Lemma std_more : forall st l st', std_from st l st' -> forall l0, ststeps l0 st -> ststeps (l0 ++ l) st'.
Proof.
  intros st l st' H. induction H as [st|st e st1 l st2 S _ IH]; intros l0 H0; [now rewrite app_nil_r|].
  replace (l0 ++ e :: l) with ((l0 ++ [e]) ++ l) by now rewrite <- app_assoc.
  apply IH. econstructor; eauto.
Qed.
Lemma std_steps : ststeps std_log (StRead (CpMain (hd_ 0))).
Proof.
  refine (std_more (StNext CpGreeting) std_log _ _ [] _); [|constructor]. unfold std_log.
  eapply sf_cons; [apply sts_need_more|].
  eapply sf_cons; [apply sts_read; vm_compute; repeat constructor|].
  eapply sf_cons; [apply sts_give|].
  eapply sf_cons; [apply sts_event|]. cbn [client_event st_resume].
  eapply sf_cons; [apply sts_call|]. cbn [st_resume].
  eapply sf_cons; [apply sts_output|]. cbn iota.
  eapply sf_cons; [apply sts_wrote|].
  eapply sf_cons; [apply sts_event|]. cbn.
  eapply sf_cons; [apply sts_need_more|]. apply sf_nil.
Qed.
End StdCheck.
