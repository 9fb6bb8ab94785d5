(** A small executable codec with a readable wire format, used for examples: commands
    "TAG BODY" with literals announced as "{n}" or "{n+}", responses "TAG OK text",
    "* text", "+ text", and so on. Opaque payload is the wire image itself. *)
From Coq Require Import List NArith Bool String.
From Verif Require Import Base Types Codec.
Import ListNotations.
Open Scope list_scope.

Definition B (s : string) : bytes := list_byte_of_string s.
Arguments B s%string_scope.
Definition crlf : bytes := [CR; LF].
Definition SP : byte := x20.

(** Line up to and including the first line feed. *)
Fixpoint cut_line (l : bytes) : option (bytes * bytes) :=
  match l with
  | [] => None
  | b :: l' =>
      if is_lf b then Some ([b], l')
      else match cut_line l' with
           | Some (a, r) => Some (b :: a, r)
           | None => None
           end
  end.

(** Removes the line end. *)
Definition chomp (l : bytes) : bytes :=
  match rev l with
  | x0a :: x0d :: r => rev r
  | x0a :: r => rev r
  | _ => l
  end.

Definition digit (b : byte) : option N :=
  let n := Byte.to_N b in
  if N.leb 48 n && N.leb n 57 then Some (n - 48)%N else None.

Fixpoint span_digits (l : bytes) : list N * bytes :=
  match l with
  | [] => ([], [])
  | b :: l' =>
      match digit b with
      | Some d => let '(ds, r) := span_digits l' in (d :: ds, r)
      | None => ([], l)
      end
  end.

(** Value of digits, last digit first. *)
Fixpoint num (ds : list N) : N :=
  match ds with
  | [] => 0
  | d :: ds' => d + 10 * num ds'
  end%N.

(** The literal announced at the end of a line. *)
Definition announce (l : bytes) : option (N * lit_mode) :=
  match rev (chomp l) with
  | x7d :: r =>
      let '(mode, r1) := match r with x2b :: r' => (LNonSync, r') | _ => (LSync, r) end in
      match span_digits r1 with
      | (d :: ds, x7b :: _) => Some (num (d :: ds), mode)
      | _ => None
      end
  | _ => None
  end.

Inductive wres : Type :=
| WDone (fs : list fragment) (rest : bytes)
| WLit (n : N) (m : lit_mode)
| WFail.

(** Cuts wire bytes into lines and literals. *)
Fixpoint walk (fuel : nat) (w : bytes) : wres :=
  match fuel with
  | O => WFail
  | S fuel' =>
      match cut_line w with
      | None => WFail
      | Some (l, r) =>
          match announce l with
          | None => WDone [FLine l] r
          | Some (n, m) =>
              match r with
              | [] => WLit n m
              | _ :: _ =>
                  if N.leb n (N.of_nat (List.length r)) then
                    match walk fuel' (skipn (N.to_nat n) r) with
                    | WDone fs rest =>
                        WDone (FLine l :: FLiteral (firstn (N.to_nat n) r) m :: fs) rest
                    | x => x
                    end
                  else WFail
              end
          end
      end
  end.

Definition walk_all (w : bytes) : wres := walk (S (List.length w)) w.

(** Bytes before and after the first space. *)
Fixpoint split_sp (l : bytes) : option (bytes * bytes) :=
  match l with
  | [] => None
  | b :: l' =>
      if Byte.eqb b SP then Some ([], l')
      else match split_sp l' with
           | Some (a, r) => Some (b :: a, r)
           | None => None
           end
  end.

Fixpoint strip (p l : bytes) : option bytes :=
  match p, l with
  | [], _ => Some l
  | a :: p', b :: l' => if Byte.eqb a b then strip p' l' else None
  | _ :: _, [] => None
  end.

Definition mech_of (w : bytes) : auth_mech :=
  if bytes_eqb w (B "PLAIN") then AMPlain
  else if bytes_eqb w (B "LOGIN") then AMLogin
  else if bytes_eqb w (B "SCRAM-SHA-256-PLUS") then AMScramSha256Plus
  else AMOther w.

Definition parse_body (b : bytes) : option cmd_body :=
  if bytes_eqb b (B "IDLE") then Some BIdle
  else match strip (B "AUTHENTICATE ") b with
       | Some r =>
           match split_sp r with
           | Some (m, ir) => Some (BAuthenticate (mech_of m) (Some ir))
           | None => Some (BAuthenticate (mech_of r) None)
           end
       | None => match b with [] => None | _ => Some (BOther b) end
       end.

Definition t_dec_command (w : bytes) : dec_result command cmd_lit :=
  match walk_all w with
  | WFail => DecIncomplete
  | WLit n m =>
      match split_sp w with
      | Some (t, _) => DecLit (CmdLit t n m)
      | None => DecFailed
      end
  | WDone fs rest =>
      match split_sp (chomp (frags_bytes fs)) with
      | Some (t, b) =>
          match parse_body b with
          | Some x => DecOk rest (Command t x)
          | None => DecFailed
          end
      | None => DecFailed
      end
  end.

Definition mech_name (m : auth_mech) : bytes :=
  match m with AMOther n => n | AMPlain => B "PLAIN" | AMLogin => B "LOGIN" | _ => B "X" end.

Definition t_enc_command (c : command) : list fragment :=
  match cbody c with
  | BIdle => [FLine (ctag c ++ SP :: B "IDLE" ++ crlf)]
  | BAuthenticate m ir =>
      [FLine (ctag c ++ SP :: B "AUTHENTICATE " ++ mech_name m ++
              match ir with Some x => SP :: x | None => [] end ++ crlf)]
  | BOther p =>
      match walk_all (ctag c ++ SP :: p ++ crlf) with
      | WDone fs [] => fs
      | _ => [FLine (ctag c ++ SP :: p ++ crlf)]
      end
  end.

(** Words separated by single spaces. *)
Fixpoint words (l : bytes) : list bytes :=
  match l with
  | [] => [[]]
  | b :: l' =>
      if Byte.eqb b SP then [] :: words l'
      else match words l' with
           | w :: ws => (b :: w) :: ws
           | [] => [[b]]
           end
  end.

Definition cap_of (w : bytes) : capability :=
  if bytes_eqb w (B "IMAP4REV1") then CapImap4Rev1
  else if bytes_eqb w (B "SASL-IR") then CapSaslIr
  else if bytes_eqb w (B "MOVE") then CapMove
  else if bytes_eqb w (B "IDLE") then CapIdle
  else if bytes_eqb w (B "ID") then CapId
  else match strip (B "AUTH=") w with
       | Some m => CapAuth (mech_of m)
       | None => CapOther w
       end.

Definition cap_name (c : capability) : bytes :=
  match c with
  | CapImap4Rev1 => B "IMAP4REV1"
  | CapSaslIr => B "SASL-IR"
  | CapMove => B "MOVE"
  | CapIdle => B "IDLE"
  | CapId => B "ID"
  | CapAuth AMScramSha256Plus => B "AUTH=SCRAM-SHA-256-PLUS"
  | CapAuth m => B "AUTH=" ++ mech_name m
  | CapOther w => w
  | _ => B "X"
  end.

Definition caps_of (l : bytes) : vec1 capability :=
  match words l with
  | w :: ws => Vec1 (cap_of w) (map cap_of ws)
  | [] => Vec1 (CapOther []) []
  end.

Definition caps_wire (v : vec1 capability) : bytes :=
  cap_name (v1_hd v) ++ List.concat (map (fun c => SP :: cap_name c) (v1_tl v)).

(** Bytes before and after the first "] ". *)
Fixpoint split_code (l : bytes) : option (bytes * bytes) :=
  match l with
  | x5d :: x20 :: l' => Some ([], l')
  | b :: l' => match split_code l' with Some (c, t) => Some (b :: c, t) | None => None end
  | [] => None
  end.

(** Text, with a code in brackets before it. *)
Definition parse_code (l : bytes) : option code * bytes :=
  match strip (B "[") l with
  | Some r =>
      match split_code r with
      | Some (c, t) =>
          match strip (B "CAPABILITY ") c with
          | Some w => (Some (CodeCapability (caps_of w)), t)
          | None => if bytes_eqb c (B "ALERT") then (Some CodeAlert, t) else (Some (CodeOther c), t)
          end
      | None => (None, l)
      end
  | None => (None, l)
  end.

Definition code_wire (c : option code) : bytes :=
  match c with
  | None => []
  | Some (CodeCapability v) => B "[CAPABILITY " ++ caps_wire v ++ B "] "
  | Some CodeAlert => B "[ALERT] "
  | Some (CodeOther c) => B "[" ++ c ++ B "] "
  end.

Definition body_of (k : status_kind) (l : bytes) : status_body :=
  let '(c, t) := parse_code l in StatusBody k c t.

(** Status: kind, code and text. *)
Definition parse_kind (b : bytes) : option status_body :=
  match strip (B "OK ") b, strip (B "NO ") b, strip (B "BAD ") b with
  | Some t, _, _ => Some (body_of SkOk t)
  | _, Some t, _ => Some (body_of SkNo t)
  | _, _, Some t => Some (body_of SkBad t)
  | _, _, _ => None
  end.

Definition kind_name (k : status_kind) : bytes :=
  match k with SkOk => B "OK " | SkNo => B "NO " | SkBad => B "BAD " end.

Definition parse_response (w : bytes) : option response :=
  match strip (B "+ ") w with
  | Some r => match strip (B "=") r with
              | Some d => Some (RCcr (CcrBase64 d))
              | None => let '(c, t) := parse_code r in Some (RCcr (CcrBasic c t))
              end
  | None =>
      match strip (B "* ") w with
      | Some r =>
          match parse_kind r with
          | Some b => Some (RStatus (StUntagged b))
          | None => match strip (B "BYE ") r with
                    | Some t => let '(c, t) := parse_code t in Some (RStatus (StBye c t))
                    | None =>
                        match strip (B "CAPABILITY ") r with
                        | Some v => Some (RData (DCapability (caps_of v)))
                        | None => Some (RData (DOther r))
                        end
                    end
          end
      | None =>
          match split_sp w with
          | Some (t, r) => match parse_kind r with
                           | Some b => Some (RStatus (StTagged t b))
                           | None => None
                           end
          | None => None
          end
      end
  end.

Definition t_dec_response (w : bytes) : dec_result response N :=
  match walk_all w with
  | WFail => DecIncomplete
  | WLit n _ => DecLit n
  | WDone fs rest =>
      match parse_response (chomp (frags_bytes fs)) with
      | Some r => DecOk rest r
      | None => DecFailed
      end
  end.

Definition response_wire (r : response) : bytes :=
  match r with
  | RCcr (CcrBasic c t) => B "+ " ++ code_wire c ++ t
  | RCcr (CcrBase64 d) => B "+ =" ++ d
  | RData (DOther p) => B "* " ++ p
  | RData (DCapability v) => B "* CAPABILITY " ++ caps_wire v
  | RStatus (StTagged t b) =>
      t ++ SP :: kind_name (sb_kind b) ++ code_wire (sb_code b) ++ sb_text b
  | RStatus (StUntagged b) => B "* " ++ kind_name (sb_kind b) ++ code_wire (sb_code b) ++ sb_text b
  | RStatus (StBye c t) => B "* BYE " ++ code_wire c ++ t
  end.

Definition t_enc_response (r : response) : list fragment :=
  match walk_all (response_wire r ++ crlf) with
  | WDone fs [] => fs
  | _ => [FLine (response_wire r ++ crlf)]
  end.

Definition gk_name (k : greeting_kind) : bytes :=
  match k with GkOk => B "OK " | GkPreAuth => B "PREAUTH " | GkBye => B "BYE " end.

Definition greeting_of (k : greeting_kind) (l : bytes) : greeting :=
  let '(c, t) := parse_code l in Greeting k c t.

Definition t_dec_greeting (w : bytes) : dec_result greeting Empty_set :=
  match cut_line w with
  | None => DecIncomplete
  | Some (l, rest) =>
      match strip (B "* ") (chomp l) with
      | None => DecFailed
      | Some r =>
          match strip (B "OK ") r, strip (B "PREAUTH ") r, strip (B "BYE ") r with
          | Some t, _, _ => DecOk rest (greeting_of GkOk t)
          | _, Some t, _ => DecOk rest (greeting_of GkPreAuth t)
          | _, _, Some t => DecOk rest (greeting_of GkBye t)
          | _, _, _ => DecFailed
          end
      end
  end.

Definition t_enc_greeting (g : greeting) : list fragment :=
  [FLine (B "* " ++ gk_name (g_kind g) ++ code_wire (g_code g) ++ g_text g ++ crlf)].

Definition t_dec_authdata (w : bytes) : dec_result auth_data Empty_set :=
  match cut_line w with
  | None => DecIncomplete
  | Some (l, rest) =>
      if bytes_eqb (chomp l) (B "*") then DecOk rest ADCancel
      else DecOk rest (ADContinue (chomp l))
  end.

Definition t_enc_authdata (d : auth_data) : list fragment :=
  match d with
  | ADContinue x => [FLine (x ++ crlf)]
  | ADCancel => [FLine (B "*" ++ crlf)]
  end.

Definition t_dec_idledone (w : bytes) : dec_result unit Empty_set :=
  match cut_line w with
  | None => DecIncomplete
  | Some (l, rest) => if bytes_eqb (chomp l) (B "DONE") then DecOk rest tt else DecFailed
  end.

Definition toy : Codecs := {|
  dec_greeting := t_dec_greeting;
  dec_response := t_dec_response;
  dec_command := t_dec_command;
  dec_authdata := t_dec_authdata;
  dec_idledone := t_dec_idledone;
  enc_greeting := t_enc_greeting;
  enc_response := t_enc_response;
  enc_command := t_enc_command;
  enc_authdata := t_enc_authdata;
  enc_idledone := [FLine (B "DONE" ++ crlf)]
|}.

(** Wire format helper: a line. *)
Definition ln (s : string) : bytes := B s ++ crlf.
Arguments ln s%string_scope.
Definition cmd (t b : string) : command :=
  Command (B t) match parse_body (B b) with Some x => x | None => BOther [] end.
Arguments cmd (t b)%string_scope.
