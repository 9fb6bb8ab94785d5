(** Model of proxy/src/util.rs: the filters for capabilities. Logging is not modelled; the
    replacement under [if *capabilities != filtered] is modelled as an unconditional
    replacement, which is the same. *)
From Coq Require Import List.
From Verif Require Import Base Types.
Import ListNotations.

(** proxy/src/util.rs:120-131 [is_auth_mechanism_proxyable]. *)
Definition is_auth_mechanism_proxyable (m : auth_mech) : bool :=
  match m with
  | AMPlain | AMLogin | AMXOAuth2 => true
  | AMScramSha1 | AMScramSha256 => true
  | AMScramSha1Plus | AMScramSha256Plus => false
  | AMOther _ => false
  end.

(** proxy/src/util.rs:103-114: the closure given to [filter]. *)
Definition keep_capability (c : capability) : bool :=
  match c with
  | CapImap4Rev1 => true
  | CapAuth m => is_auth_mechanism_proxyable m
  | CapSaslIr => true
  | CapQuota | CapQuotaRes _ | CapQuotaSet => true
  | CapMove => true
  | CapLiteralPlus | CapLiteralMinus => true
  | CapUnselect => true
  | CapId => true
  | CapIdle => true
  | CapOther _ => false
  end.

(** proxy/src/util.rs:100-118 [filter_capabilities]. *)
Definition filter_capabilities (v : vec1 capability) : vec1 capability :=
  match filter keep_capability (v1_list v) with
  | [] => Vec1 CapImap4Rev1 []
  | c :: l => Vec1 c l
  end.

(** The [Code::Capability] arm that all functions below share. *)
Definition filter_code (c : option code) : option code :=
  match c with
  | Some (CodeCapability v) => Some (CodeCapability (filter_capabilities v))
  | _ => c
  end.

(** proxy/src/util.rs:21-34 [filter_capabilities_in_greeting]. *)
Definition filter_greeting (g : greeting) : greeting :=
  Greeting (g_kind g) (filter_code (g_code g)) (g_text g).

(** proxy/src/util.rs:37-50 [filter_capabilities_in_data]. *)
Definition filter_data (d : data) : data :=
  match d with
  | DCapability v => DCapability (filter_capabilities v)
  | DOther _ => d
  end.

(** proxy/src/util.rs:53-82 [filter_capabilities_in_status]. *)
Definition filter_status (s : status) : status :=
  match s with
  | StTagged t b => StTagged t (StatusBody (sb_kind b) (filter_code (sb_code b)) (sb_text b))
  | StUntagged b => StUntagged (StatusBody (sb_kind b) (filter_code (sb_code b)) (sb_text b))
  | StBye c t => StBye (filter_code c) t
  end.

(** proxy/src/util.rs:85-97 [filter_capabilities_in_continuation]. The [unwrap] cannot fail:
    [CommandContinuationRequestBasic::new] refuses only texts without a code. *)
Definition filter_continuation (q : ccr) : ccr :=
  match q with
  | CcrBasic c t => CcrBasic (filter_code c) t
  | CcrBase64 _ => q
  end.
