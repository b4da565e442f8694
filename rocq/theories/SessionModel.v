(** The packet framing of the session protocol: src/app/qbs/sessionpacket.cpp and sessionpacketreader.cpp.

    A packet is the marker "qbsmsg:", the payload length in decimal, a newline and the payload (the Base64
    form of a JSON object; Base64 and JSON are Qt's and are not modelled, payloads are byte strings here). *)
From Coq Require Import List Bool Arith NArith ZArith.
From Verif Require Import Str Bytes.
Import ListNotations.

(** sessionpacket.cpp 54: packetStart = "qbsmsg:". *)
Definition packet_start : str := [113; 98; 115; 109; 115; 103; 58]%N.
Definition newline : N := 10%N.

(** sessionpacket.h 66-67: m_payload, m_expectedPayloadLength (-1 is [None]). *)
Record packet := { expected : option nat; payload : str }.
Definition fresh : packet := {| expected := None; payload := [] |}.

(** sessionpacket.h: enum class Status.  [Broken] is a failed QBS_ASSERT (line 73). *)
Inductive status := Incomplete | Complete | Invalid | Broken.

(** sessionpacket.cpp 71-79: the part of parseInput after the header is known. *)
Definition parse_payload (n : nat) (p : packet) (input : str) : status * packet * str :=
  if n <? length (payload p) then (Broken, p, input)
  else
    let to_add := n - length (payload p) in
    let p' := {| expected := Some n; payload := payload p ++ firstn to_add input |} in
    ((if length (payload p') =? n then Complete else Incomplete), p', skipn to_add input).

(** sessionpacket.cpp 56-80: SessionPacket::parseInput. *)
Definition parse_input (p : packet) (input : str) : status * packet * str :=
  match expected p with
  | Some n => parse_payload n p input
  | None =>
      match index_of packet_start input with
      | None => (Incomplete, p, input)
      | Some i =>
          let off := i + length packet_start in
          match index_of [newline] (skipn off input) with
          | None => (Incomplete, p, input)
          | Some j =>
              match to_int (firstn j (skipn off input)) with
              | None => (Invalid, p, input)
              | Some len =>
                  if (len <? 0)%Z then (Invalid, p, input)
                  else
                    let n := Z.to_nat len in
                    parse_payload n {| expected := Some n; payload := payload p |}
                                  (skipn (off + j + 1) input)
              end
          end
      end
  end.

(** What the reader tells its client: sessionpacketreader.cpp 79-87. *)
Inductive event := Received (payload : str) | Error | AssertFailed.

(** SessionPacketReader::Private: incomingData and currentPacket; [r_dead] after an error: the session
    leaves its event loop (session.cpp 225-229). *)
Record reader := { r_data : str; r_packet : packet; r_dead : bool }.
Definition start : reader := {| r_data := []; r_packet := fresh; r_dead := false |}.

(** sessionpacketreader.cpp 78-91: the loop over the buffered data.  retrievePacket (sessionpacket.cpp 82-89)
    hands out the payload and resets the packet.  Every iteration that does not leave the loop consumes
    input, so the length of the input bounds the number of iterations. *)
Fixpoint loop (fuel : nat) (r : reader) : list event * reader :=
  match fuel with
  | O => ([], r)
  | S fuel =>
      match r_data r with
      | [] => ([], r)
      | _ =>
          match parse_input (r_packet r) (r_data r) with
          | (Invalid, p, d) => ([Error], {| r_data := d; r_packet := p; r_dead := true |})
          | (Broken, p, d) => ([AssertFailed], {| r_data := d; r_packet := p; r_dead := true |})
          | (Incomplete, p, d) => ([], {| r_data := d; r_packet := p; r_dead := false |})
          | (Complete, p, d) =>
              let (es, r') := loop fuel {| r_data := d; r_packet := fresh; r_dead := false |} in
              (Received (payload p) :: es, r')
          end
      end
  end.

(** sessionpacketreader.cpp 72-91: dataAvailable. *)
Definition feed (r : reader) (data : str) : list event * reader :=
  if r_dead r then ([], r)
  else
    let d := r_data r ++ data in
    loop (S (length d)) {| r_data := d; r_packet := r_packet r; r_dead := false |}.

(** A sequence of arriving chunks. *)
Fixpoint feed_all (r : reader) (chunks : list str) : list event * reader :=
  match chunks with
  | [] => ([], r)
  | c :: cs =>
      let (es, r1) := feed r c in
      let (es', r2) := feed_all r1 cs in
      (es ++ es', r2)
  end.

(** sessionpacket.cpp 91-96: createPacket, after the JSON object has been turned into [body]. *)
Definition create_packet (body : str) : str :=
  packet_start ++ dec (N.of_nat (length body)) ++ [newline] ++ body.
