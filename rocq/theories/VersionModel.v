(** Model of src/lib/corelib/tools/version.h and version.cpp. *)
From Coq Require Import List Bool NArith ZArith.
From Verif Require Import Str.
Import ListNotations.
Local Open Scope Z_scope.

(** version.h 56-92.  Components are [int]s; no arithmetic is done on them, so overflow can only
    happen in [toInt]. *)
Record version := { v_major : Z; v_minor : Z; v_patch : Z; v_build : Z }.

(** version.h 59-65: default arguments. *)
Definition invalid_version : version := {| v_major := 0; v_minor := 0; v_patch := 0; v_build := 0 |}.

(** version.h 67. *)
Definition is_valid (v : version) : bool :=
  negb (v_major v =? 0) || negb (v_minor v =? 0) || negb (v_patch v =? 0) || negb (v_build v =? 0).

(** version.h 109-128. *)
Definition compare (l r : version) : Z :=
  if v_major l <? v_major r then -1
  else if v_major r <? v_major l then 1
  else if v_minor l <? v_minor r then -1
  else if v_minor r <? v_minor l then 1
  else if v_patch l <? v_patch r then -1
  else if v_patch r <? v_patch l then 1
  else if v_build l <? v_build r then -1
  else if v_build r <? v_build l then 1
  else 0.

(** version.h 130-153. *)
Definition eqv (l r : version) : bool := compare l r =? 0.
Definition ltv (l r : version) : bool := compare l r <? 0.
Definition gtv (l r : version) : bool := 0 <? compare l r.
Definition lev (l r : version) : bool := negb (gtv l r).
Definition gev (l r : version) : bool := negb (ltv l r).

(** QString::toInt on a string of ASCII digits: 0 if the value does not fit into an [int]. *)
Definition int_max : Z := 2147483647.
Definition to_int (s : str) : Z :=
  let z := Z.of_N (undec s) in if z <=? int_max then z else 0.

Definition dot : N := 46%N.
Definition dash : N := 45%N.

(** A digit sequence of at least one digit, [\d+], taken greedily.  No backtracking is ever needed:
    what may follow a number in the pattern never starts with a digit. *)
Definition number (s : str) : option (str * str) :=
  match span is_digit s with
  | ([], _) => None
  | (d, rest) => Some (d, rest)
  end.

(** [(?:\.(\d+))?]: the captured digits (empty if the group did not take part) and the rest. *)
Definition opt_group (seps : list N) (s : str) : str * str :=
  match s with
  | c :: r => if memN c seps then match number r with Some (d, rest) => (d, rest) | None => ([], s) end
              else ([], s)
  | [] => ([], s)
  end.

(** Version::fromString, version.cpp 47-63.  A group that did not take part captures the null
    string, whose [toInt] is 0. *)
Definition from_string (s : str) (build_allowed : bool) : version :=
  match number s with
  | None => invalid_version
  | Some (d1, s1) =>
      let (d2, s2) := opt_group [dot] s1 in
      let (d3, s3) := match d2 with [] => ([], s2) | _ => opt_group [dot] s2 end in
      let (d4, s4) := if build_allowed then opt_group [dash; dot] s3 else ([], s3) in
      match s4 with
      | [] => {| v_major := to_int d1; v_minor := to_int d2; v_patch := to_int d3; v_build := to_int d4 |}
      | _ => invalid_version
      end
  end.

(** QString::number. *)
Definition number_string (z : Z) : str :=
  if z <? 0 then dash :: dec (Z.to_N (- z)) else dec (Z.to_N z).

(** Version::toString, version.cpp 65-76.  The arguments are substituted in one go
    (QString::arg with several arguments). *)
Definition to_string (v : version) (sep bsep : N) : str :=
  number_string (v_major v) ++ [sep] ++ number_string (v_minor v) ++ [sep] ++ number_string (v_patch v)
  ++ (if v_build v =? 0 then [] else bsep :: number_string (v_build v)).

(** version.h 94-107 and version.cpp 78-85. *)
Record range := { r_min : version; r_max : version }.
Definition narrow_down (a other : range) : range :=
  {| r_min := if gtv (r_min other) (r_min a) then r_min other else r_min a;
     r_max := if is_valid (r_max other) && ltv (r_max other) (r_max a) then r_max other else r_max a |}.

(** loader/productresolver.cpp 321-345: does a module of version [v] pass the check for the range? *)
Definition range_ok (r : range) (v : version) : bool :=
  if is_valid (r_min r) || is_valid (r_max r) then
    if is_valid (r_max r) && gev (r_min r) (r_max r) then false
    else if ltv v (r_min r) then false
    else if is_valid (r_max r) && gev v (r_max r) then false
    else true
  else true.

(** loader/moduleloader.cpp 206-219: the same check when there are several candidates. *)
Definition candidate_ok (r : range) (v : version) : bool :=
  if is_valid (r_min r) || is_valid (r_max r) then
    (negb (is_valid (r_min r)) || gev v (r_min r)) && (negb (is_valid (r_max r)) || ltv v (r_max r))
  else true.
