(** Writing files so that an interruption does no harm: the build graph file
    (src/lib/corelib/tools/persistence.cpp 67-139) and FileSaver (src/lib/corelib/tools/filesaver.cpp).

    A file is absent or a string of bytes.  Operations on it are the operating system's; how they turn out is an input. *)
From Coq Require Import List Bool Arith NArith.
From Verif Require Import Str LauncherModel.
Import ListNotations.

Definition file := option str.

(** ** The build graph file *)

(** persistence.cpp 51: QBS_PERSISTENCE_MAGIC, QBSPERSISTENCE-147. *)
Definition magic : str := [81; 66; 83; 80; 69; 82; 83; 73; 83; 84; 69; 78; 67; 69; 45; 49; 52; 55]%N.
Definition blank : str := repeat 0%N (length magic).

(** The outcome of writing some bytes: all of them, only the first [k] with an error reported, or the process is
    killed (power fails, ...) after the first [k]. *)
Inductive outcome := Full | Short (k : nat) | Killed (k : nat).

(** Writing at a position, overwriting what is there and extending the file. *)
Definition overwrite (content : str) (pos : nat) (bytes : str) : str :=
  firstn pos content ++ bytes ++ skipn (pos + length bytes) content.

Inductive progress := Going | Bad | Dead.    (* QDataStream::status() ok; not ok; process killed *)

(** QDataStream << ...: once the status is not ok, nothing more is written. *)
Definition write_chunk (content : str) (pos : nat) (bytes : str) (o : outcome) : str * progress :=
  match o with
  | Full => (overwrite content pos bytes, Going)
  | Short k => (overwrite content pos (firstn k bytes), if k <? length bytes then Bad else Going)
  | Killed k => (overwrite content pos (firstn k bytes), Dead)
  end.

(** The chunks one after the other from position [pos]; outcomes beyond the end of the list are [Full]. *)
Fixpoint write_chunks (content : str) (pos : nat) (chunks : list str) (os : list outcome) : str * progress * list outcome :=
  match chunks with
  | [] => (content, Going, os)
  | c :: chunks =>
      let (o, os) := match os with [] => (Full, []) | o :: os => (o, os) end in
      match write_chunk content pos c o with
      | (content, Going) => write_chunks content (pos + length c) chunks os
      | (content, p) => (content, p, os)
      end
  end.

(** How the other operations turn out: removing the old file, opening the new one, flushing at the end, removing
    the file after a failed flush; [kill_before n] is the process being killed before the n-th of the steps. *)
Record oracle := {
  o_remove : bool;
  o_open : bool;
  o_chunks : list outcome;
  o_flush : bool;
  o_cleanup : bool;
  o_kill : option nat      (* 0: before the old file is removed, 1: before the new one is opened, 2: before the magic
                              is written, 3: before the flush, 4: before the clean-up after a failed flush *)
}.
Definition killed_at (o : oracle) (n : nat) : bool := match o_kill o with Some m => m =? n | None => false end.

Inductive save_result := Saved | Failed | Crashed.

(** 97-123 setupWriteStream, the writing of the graph, 125-139 finalizeWriteStream.  [head] is the project
    configuration as written by QDataStream, [body] what the pool writes, cut into chunks in any way.
    Not modelled: creating the directory. *)
Definition save (old : file) (head : str) (body : list str) (o : oracle) : file * save_result :=
  if killed_at o 0 then (old, Crashed)
  else if (match old with Some _ => negb (o_remove o) | None => false end) then (old, Failed)
  else if killed_at o 1 then (None, Crashed)
  else if negb (o_open o) then (None, Failed)
  else
    match write_chunks [] 0 (wBytes (Some blank) :: head :: body) (o_chunks o) with
    | (content, Dead, _) => (Some content, Crashed)
    | (content, Bad, _) => (Some content, Failed)                            (* 127-128 *)
    | (content, Going, os) =>
        if killed_at o 2 then (Some content, Crashed)
        else
          match write_chunks content 0 [wBytes (Some magic)] os with         (* 129-130: seek(0) and write *)
          | (content, Dead, _) => (Some content, Crashed)
          | (content, Bad, _) => (Some content, Failed)                      (* 131-132 *)
          | (content, Going, _) =>
              if killed_at o 3 then (Some content, Crashed)
              else if o_flush o then (Some content, Saved)
              else if killed_at o 4 then (Some content, Crashed)
              else (if o_cleanup o then None else Some content, Failed)      (* 134-138 *)
          end
    end.

(** 67-95 load: the rest of the file after the magic, or an error. *)
Definition open_graph (f : file) : option str :=
  match f with
  | None => None
  | Some content =>
      match rBytes content with
      | Some (Some m, rest) => if str_eqb m magic then Some rest else None
      | _ => None
      end
  end.

(** ** FileSaver *)

(** The file to be saved and the temporary file with a tilde appended to the name. *)
Record world := mkW { target : file; temp : file }.

(** How the operations of commit() turn out. *)
Inductive rename_result := Renamed | Exists | Refused.     (* 0, EEXIST, another error *)
Record saver_oracle := {
  v_open : bool;               (* the temporary file can be opened *)
  v_written : nat;             (* so many bytes of it are written *)
  v_close : bool;              (* and close() finds nothing wrong, provided that was all *)
  v_rename : rename_result;
  v_unlink : bool;
  v_rename2 : bool
}.

(** All states that the files pass through while the temporary file is written. *)
Definition writing (w : world) (bytes : str) (n : nat) : list world :=
  map (fun k => mkW (target w) (Some (firstn k bytes))) (seq 0 (S n)).

(** filesaver.cpp 61-75 open: the contents to compare with. *)
Definition old_contents (overwrite_unchanged : bool) (f : file) : str :=
  if overwrite_unchanged then [] else match f with Some s => s | None => [] end.

(** filesaver.cpp 77-107 commit, with the states in between; any of them can be the last if the process is killed. *)
Definition commit (overwrite_unchanged : bool) (old : str) (w : world) (new : str) (o : saver_oracle) : list world * world * bool :=
  if negb overwrite_unchanged && str_eqb old new then ([], w, true)
  else if negb (v_open o) then ([], w, false)
  else
    let n := Nat.min (v_written o) (length new) in
    let trace := writing w new n in
    let w1 := mkW (target w) (Some (firstn n new)) in
    if (n <? length new) || negb (v_close o) then (trace, w1, false)
    else
      match v_rename o with
      | Renamed => (trace, mkW (temp w1) None, true)
      | Refused => (trace, w1, false)
      | Exists =>
          if negb (v_unlink o) then (trace, w1, false)
          else
            let w2 := mkW None (temp w1) in
            if v_rename2 o then (trace ++ [w2], mkW (temp w1) None, true) else (trace ++ [w2], w2, false)
      end.
