(** Vocabulary for statements about a client and a server whose applications are passive. *)
From Coq Require Import List NArith Bool PeanoNat.
From Verif Require Import Base Types Codec Handle ServerSend Client Server
  SpecClient SpecServer System SpecSystem.
Import ListNotations.

(** Actions that need no decision of the applications: call [next], deliver bytes. *)
Definition auto (a : yact) : Prop :=
  match a with
  | YClient CopNext | YServer SopNext | YToServer _ | YToClient _ => True
  | _ => False
  end.

(** Entries for actions without effect: [next] asks for input, no bytes are delivered. *)
Definition idle_entry (e : ylog) : Prop :=
  match e with
  | YC (ClNext INeedMore) | YS (SlNext INeedMore) => True
  | YC (ClInput []) | YS (SlInput []) => True
  | _ => False
  end.

(** [y'] is reached from [y] by such actions, and something happens on the way. *)
Definition progress (K : Codecs) (y' y : sys) : Prop :=
  exists acts l, Forall auto acts /\ sys_run K y acts = (Some y', l) /\
    exists e, In e l /\ ~ idle_entry e.

(** The decoder reads back the responses by which the server itself accepts literals, and
    rejects those of the commands that were enqueued. *)
Definition own_roundtrips (K : Codecs) (relaxed : bool) (o : soptions) (l : list ylog) : Prop :=
  msg_roundtrips K relaxed (SmResponse None (RCcr (CcrBasic None (so_accept_text o)))) /\
  forall h c, In (h, c) (enqueued (clogs l)) ->
    msg_roundtrips K relaxed
      (SmResponse None (RStatus (StTagged (ctag c) (StatusBody SkBad None (so_reject_text o))))).
