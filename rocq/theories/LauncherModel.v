(** The packets exchanged with the process launcher: src/lib/corelib/tools/launcherpackets.{h,cpp}, and the two
    receive loops in launchersocket.cpp (the qbs side) and libexec/qbs_processlauncher/launchersockethandler.cpp
    (the launcher side).

    QDataStream is Qt's; its documented big-endian format is written down here because the round trip
    of packets depends on it.  Reading past the end is the outcome [None]. *)
From Coq Require Import List Bool Arith NArith ZArith.
From Verif Require Import Str.
Import ListNotations.

(** ** QDataStream *)

(** Unsigned numbers of [k] bytes, most significant byte first. *)
Fixpoint be (k : nat) (n : N) : str :=
  match k with O => [] | S k => be k (n / 256)%N ++ [(n mod 256)%N] end.
Definition unbe (s : str) : N := fold_left (fun a c => 256 * a + c)%N s 0%N.

Definition reader (A : Type) := str -> option (A * str).

Definition take (k : nat) : reader str :=
  fun s => if length s <? k then None else Some (firstn k s, skipn k s).
Definition bind {A B} (r : reader A) (f : A -> reader B) : reader B :=
  fun s => match r s with Some (a, s') => f a s' | None => None end.
Definition ret {A} (a : A) : reader A := fun s => Some (a, s).

(** quint8, qint32, quint32, quint64 (quintptr on a 64 bit machine). *)
Definition wU8 (n : N) : str := be 1 n.
Definition rU8 : reader N := bind (take 1) (fun s => ret (unbe s)).
Definition two32 : N := 4294967296%N.
Definition wU32 (n : N) : str := be 4 n.
Definition rU32 : reader N := bind (take 4) (fun s => ret (unbe s)).
Definition wI32 (z : Z) : str := be 4 (Z.to_N (z mod 4294967296)).
Definition to_signed (n : N) : Z := if (n <? 2147483648)%N then Z.of_N n else (Z.of_N n - 4294967296)%Z.
Definition rI32 : reader Z := bind (take 4) (fun s => ret (to_signed (unbe s))).
Definition wU64 (n : N) : str := be 8 n.
Definition rU64 : reader N := bind (take 8) (fun s => ret (unbe s)).

(** QByteArray: the length and the bytes; the length 2^32 - 1 stands for the null byte array. *)
Definition null_mark : N := 4294967295%N.
Definition qbytes := option str.
Definition wBytes (b : qbytes) : str :=
  match b with None => wU32 null_mark | Some s => wU32 (N.of_nat (length s)) ++ s end.
Definition rBytes : reader qbytes :=
  bind rU32 (fun n => if (n =? null_mark)%N then ret None
                      else bind (take (N.to_nat n)) (fun s => ret (Some s))).

(** QString: the length in bytes and the UTF-16 code units; null as for byte arrays.  An odd length is
    an error. *)
Definition qstr := option str.
Definition wUnits (s : str) : str := concat (map (be 2) s).
Definition wString (s : qstr) : str :=
  match s with None => wU32 null_mark | Some u => wU32 (2 * N.of_nat (length u)) ++ wUnits u end.
Fixpoint rUnits (n : nat) : reader str :=
  match n with
  | O => ret []
  | S n => bind (take 2) (fun u => bind (rUnits n) (fun us => ret (unbe u :: us)))
  end.
Definition rString : reader qstr :=
  bind rU32 (fun n => if (n =? null_mark)%N then ret None
                      else if N.odd n then (fun _ => None)
                      else bind (rUnits (N.to_nat (n / 2))) (fun s => ret (Some s))).

(** QStringList: the number of elements and the elements. *)
Definition wList (l : list qstr) : str := wU32 (N.of_nat (length l)) ++ concat (map wString l).
Fixpoint rItems (n : nat) : reader (list qstr) :=
  match n with
  | O => ret []
  | S n => bind rString (fun s => bind (rItems n) (fun l => ret (s :: l)))
  end.
Definition rList : reader (list qstr) := bind rU32 (fun n => rItems (N.to_nat n)).

(** ** Packets *)

(** launcherpackets.h 54-56: the packet types, in the order of the enumeration. *)
Definition tShutdown : N := 0%N.
Definition tStart : N := 1%N.
Definition tStop : N := 2%N.
Definition tError : N := 3%N.
Definition tFinished : N := 4%N.

(** launcherpackets.h 105-176: the fields of the packet classes. *)
Inductive packet :=
| Shutdown
| StartProcess (command : qstr) (arguments : list qstr) (workingDir : qstr) (env : list qstr)
| StopProcess
| ProcessError (error : N) (errorString : qstr)
| ProcessFinished (errorString : qstr) (stdOut stdErr : qbytes) (exitStatus error : N) (exitCode : Z).

Definition type_of (p : packet) : N :=
  match p with
  | Shutdown => tShutdown | StartProcess _ _ _ _ => tStart | StopProcess => tStop
  | ProcessError _ _ => tError | ProcessFinished _ _ _ _ _ _ => tFinished
  end.

(** launcherpackets.cpp 73-76, 89-92, 105-108, 124-129, 143: doSerialize. *)
Definition do_serialize (p : packet) : str :=
  match p with
  | Shutdown => []
  | StartProcess c a w e => wString c ++ wList a ++ wString w ++ wList e
  | StopProcess => []
  | ProcessError e s => wU8 e ++ wString s
  | ProcessFinished s o e st er c => wString s ++ wBytes o ++ wBytes e ++ wU8 st ++ wU8 er ++ wI32 c
  end.

(** launcherpackets.cpp 50-59: serialize.  The size written first is that of everything after it. *)
Definition serialize (token : N) (p : packet) : str :=
  let rest := wU8 (type_of p) ++ wU64 token ++ do_serialize p in
  wI32 (Z.of_nat (length rest)) ++ rest.

(** launcherpackets.cpp 61-65 and 78-81, 94-97, 110-116, 131-140, 144: deserialize, by packet type. *)
Definition deserialize (ty : N) (data : str) : option packet :=
  let run (r : reader packet) := option_map fst (r data) in
  if (ty =? tShutdown)%N then Some Shutdown
  else if (ty =? tStart)%N then
    run (bind rString (fun c => bind rList (fun a => bind rString (fun w => bind rList (fun e =>
         ret (StartProcess c a w e))))))
  else if (ty =? tStop)%N then Some StopProcess
  else if (ty =? tError)%N then
    run (bind rU8 (fun e => bind rString (fun s => ret (ProcessError e s))))
  else if (ty =? tFinished)%N then
    run (bind rString (fun s => bind rBytes (fun o => bind rBytes (fun e => bind rU8 (fun st =>
         bind rU8 (fun er => bind rI32 (fun c => ret (ProcessFinished s o e st er c))))))))
  else None.

(** ** PacketParser, launcherpackets.cpp 152-171 *)

(** m_sizeOfNextPacket (-1 is [None]) and the bytes the device has available. *)
Record parser := { p_size : option nat; p_data : str }.

(** What one packet looks like to the receiver: type, token, payload. *)
Record raw := { r_type : N; r_token : N; r_data : str }.

Inductive outcome := NeedMore (p : parser) | BadSize (size : Z) | Got (r : raw) (p : parser).

Definition common_size : nat := 9.     (* 1 + sizeof(quintptr), line 154 *)

(** Lines 162-171. *)
Definition parse_body (n : nat) (s : str) : outcome :=
  if length s <? n then NeedMore {| p_size := Some n; p_data := s |}
  else
    match rU8 s with
    | None => NeedMore {| p_size := Some n; p_data := s |}
    | Some (ty, s1) =>
        match rU64 s1 with
        | None => NeedMore {| p_size := Some n; p_data := s |}
        | Some (tok, s2) =>
            Got {| r_type := ty; r_token := tok; r_data := firstn (n - common_size) s2 |}
                {| p_size := None; p_data := skipn (n - common_size) s2 |}
        end
    end.

(** Lines 152-171. *)
Definition parse (p : parser) : outcome :=
  match p_size p with
  | Some n => parse_body n (p_data p)
  | None =>
      match rI32 (p_data p) with
      | None => NeedMore p
      | Some (size, s) =>
          if (size <? Z.of_nat common_size)%Z then BadSize size else parse_body (Z.to_nat size) s
      end
  end.

(** ** The receive loops *)

(** What the receiver does with a packet, by type: launchersocket.cpp 110-120 and
    launchersockethandler.cpp 136-151. *)
Inductive verdict := Handle | HandleLast | Refuse.
Definition qbs_side (ty : N) : verdict :=
  if ((ty =? tError) || (ty =? tFinished))%N then Handle else Refuse.
Definition launcher_side (ty : N) : verdict :=
  if ((ty =? tStart) || (ty =? tStop))%N then Handle
  else if (ty =? tShutdown)%N then HandleLast
  else Refuse.

(** A delivered packet, or a protocol error. *)
Inductive event := Packet (r : raw) | SizeError (size : Z) | TypeError (ty : N).

(** [closed] after an error or a shutdown request: nothing is read from the socket any more.  (After an
    error the launcher side only prints a warning; what it does with data arriving later is not modelled.) *)
Record receiver := { rc_parser : parser; rc_closed : bool }.
Definition start : receiver := {| rc_parser := {| p_size := None; p_data := [] |}; rc_closed := false |}.

(** handleSocketDataAvailable, handleSocketData: they call themselves until parse() returns false.  Every
    packet takes at least nine bytes, so the amount of data bounds the number of calls. *)
Fixpoint loop (side : N -> verdict) (fuel : nat) (p : parser) : list event * receiver :=
  match fuel with
  | O => ([], {| rc_parser := p; rc_closed := false |})
  | S fuel =>
      match parse p with
      | NeedMore p' => ([], {| rc_parser := p'; rc_closed := false |})
      | BadSize z => ([SizeError z], {| rc_parser := p; rc_closed := true |})
      | Got r p' =>
          match side (r_type r) with
          | Refuse => ([TypeError (r_type r)], {| rc_parser := p'; rc_closed := true |})
          | HandleLast => ([Packet r], {| rc_parser := p'; rc_closed := true |})
          | Handle => let (es, rc) := loop side fuel p' in (Packet r :: es, rc)
          end
      end
  end.

(** readyRead: more bytes are available. *)
Definition feed (side : N -> verdict) (rc : receiver) (data : str) : list event * receiver :=
  if rc_closed rc then ([], rc)
  else
    let d := p_data (rc_parser rc) ++ data in
    loop side (S (length d)) {| p_size := p_size (rc_parser rc); p_data := d |}.

Fixpoint feed_all (side : N -> verdict) (rc : receiver) (chunks : list str) : list event * receiver :=
  match chunks with
  | [] => ([], rc)
  | c :: cs =>
      let (es, r1) := feed side rc c in
      let (es', r2) := feed_all side r1 cs in
      (es ++ es', r2)
  end.
