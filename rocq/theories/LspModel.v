(** Base messages of the language server protocol: src/shared/lsp/basemessage.cpp, and the receive loop of
    src/app/qbs/lspserver.cpp.

    What the content means (JSON), the MIME type and the text codec do not influence the framing and are left out, except
    that an unknown character set is an error. *)
From Coq Require Import List Bool Arith NArith ZArith.
From Verif Require Import Str Bytes.
Import ListNotations.

(** basemessage.cpp 15-20, the constants: ": ", "charset", "Content-Length", "\r\n", "Content-Type". *)
Definition field_separator : str := [58; 32]%N.
Definition charset_name : str := [99; 104; 97; 114; 115; 101; 116]%N.
Definition length_name : str := [67; 111; 110; 116; 101; 110; 116; 45; 76; 101; 110; 103; 116; 104]%N.
Definition type_name : str := [67; 111; 110; 116; 101; 110; 116; 45; 84; 121; 112; 101]%N.
Definition crlf : str := [13; 10]%N.

(** The members of BaseMessage that matter here; a content length of -1 says that there is no message. *)
Record message := { m_length : Z; m_content : str }.
Definition no_message : message := {| m_length := (-1)%Z; m_content := [] |}.

(** basemessage.cpp, isValid and isComplete. *)
Definition is_valid (m : message) : bool := (0 <=? m_length m)%Z.
Definition is_complete (m : message) : bool :=
  is_valid m && (Z.of_nat (length (m_content m)) =? m_length m)%Z.

(** splitHeaderFieldLine; both parts are empty if there is no separator. *)
Definition split_line (line : str) : str * str :=
  match index_of field_separator line with
  | Some i => (firstn i line, skipn (i + length field_separator) line)
  | None => ([], [])
  end.

(** QByteArray::split at a character. *)
Fixpoint split (c : N) (s : str) : list str :=
  match s with
  | [] => [[]]
  | x :: r => if (x =? c)%N then [] :: split c r
              else match split c r with [] => [[x]] | h :: t => (x :: h) :: t end
  end.

Section Codecs.
  (** QTextCodec::codecForName: whether the name is known. *)
  Variable known : str -> bool.

  (** parseContentType: whether it reports an error.  [codec] says whether a codec has been found already. *)
  Fixpoint charset_error (elements : list str) (codec : bool) : bool :=
    match elements with
    | [] => false
    | e :: es =>
        let e := trimmed e in
        if starts_with charset_name e then
          let '(charset, codec) :=
            match index_of [61%N] e with
            | Some (S i) => let cs := skipn (S (S i)) e in (cs, known cs)
            | Some 0 => (skipn 1 e, codec)
            | None => (e, codec)
            end in
          negb codec || charset_error es codec
        else charset_error es codec
    end.
  Definition ends_with_quote (s : str) : bool := match rev s with 34%N :: _ => true | _ => false end.
  Definition starts_with_quote (s : str) : bool := match s with 34%N :: _ => true | _ => false end.
  Definition type_error (value : str) : bool :=
    let v := if starts_with_quote value && ends_with_quote value
             then firstn (length value - 2) (skipn 1 value) else value in
    match split 59%N v with [] => false | _ :: es => charset_error es false end.

  (** One header field line; the second component says whether a parse error has been reported so far.
      parseContentLength stores the result of toInt, which is 0 if there was no number. *)
  Definition header_line (m : message) (err : bool) (line : str) : message * bool :=
    let (n, v) := split_line line in
    let name := trimmed n in
    let value := trimmed v in
    if str_eqb name [] then (m, err)
    else if str_eqb name length_name then
      match to_int value with
      | Some z => ({| m_length := z; m_content := m_content m |}, err)
      | None => ({| m_length := 0; m_content := m_content m |}, true)
      end
    else if str_eqb name type_name then (m, err || type_error value)
    else (m, err).

  (** QIODevice::readLine: up to and including the next newline, or everything. *)
  Fixpoint read_line (s : str) : str * str :=
    match s with
    | [] => ([], [])
    | c :: r => if (c =? 10)%N then ([c], r) else let (a, b) := read_line r in (c :: a, b)
    end.

  (** The loop over the header lines. *)
  Inductive scan_result :=
  | Separator (m : message) (err : bool) (rest : str)    (* the empty line was found *)
  | AtEnd (err : bool).                                  (* the data ended before it *)
  Fixpoint scan (fuel : nat) (m : message) (err : bool) (s : str) : scan_result :=
    match fuel with
    | O => AtEnd err
    | S fuel =>
        match s with
        | [] => AtEnd err
        | _ =>
            let (line, rest) := read_line s in
            if str_eqb line crlf then Separator m err rest
            else let (m', err') := header_line m err line in scan fuel m' err' rest
        end
    end.

  (** BaseMessage::parse on the unread bytes: the message, whether there was a parse error, the bytes left. *)
  Definition parse (m : message) (s : str) : message * bool * str :=
    if is_valid m then
      let k := Z.to_nat (m_length m) - length (m_content m) in
      ({| m_length := m_length m; m_content := m_content m ++ firstn k s |}, false, skipn k s)
    else
      match scan (S (length s)) m false s with
      | AtEnd err => (no_message, err, s)
      | Separator m' err rest =>
          if is_valid m' then
            let k := Z.to_nat (m_length m') in
            ({| m_length := m_length m'; m_content := firstn k rest |}, err, skipn k rest)
          else (m', err, rest)
      end.

  (** What the server does: it handles a message, or answers with a parse error. *)
  Inductive event := Message (content : str) | ParseError.

  (** incomingData from its current position on, and currentMessage. *)
  Record server := { s_unread : str; s_message : message }.
  Definition start : server := {| s_unread := []; s_message := no_message |}.

  (** handleIncomingData (lspserver.cpp 240-258) after the new data has been appended; it calls itself after every
      complete message.  [fuel] bounds the calls: all but the first two consume data. *)
  Fixpoint handle (fuel : nat) (s : server) : list event * server :=
    match fuel with
    | O => ([], s)
    | S fuel =>
        match parse (s_message s) (s_unread s) with
        | (m, err, rest) =>
            if err then ([ParseError], {| s_unread := rest; s_message := m |})
            else if is_complete m then
              let (es, s') := handle fuel {| s_unread := rest; s_message := no_message |} in
              (Message (m_content m) :: es, s')
            else ([], {| s_unread := rest; s_message := m |})
        end
    end.
  Definition feed (s : server) (data : str) : list event * server :=
    let d := s_unread s ++ data in
    handle (S (S (length d))) {| s_unread := d; s_message := s_message s |}.

  Fixpoint feed_all (s : server) (chunks : list str) : list event * server :=
    match chunks with
    | [] => ([], s)
    | c :: cs =>
        let (es, s1) := feed s c in
        let (es', s2) := feed_all s1 cs in
        (es ++ es', s2)
    end.
End Codecs.

(** The sending side: BaseMessage::header, lengthHeader, typeHeader and the content.  [ct] is the value of the
    Content-Type field, which is only written if it is not the default. *)
Definition length_header (content : str) : str :=
  length_name ++ field_separator ++ dec (N.of_nat (length content)) ++ crlf.
Definition header (ct : option str) (content : str) : str :=
  length_header content
  ++ match ct with Some v => type_name ++ field_separator ++ v ++ crlf | None => [] end
  ++ crlf.
Definition encode (ct : option str) (content : str) : str := header ct content ++ content.
