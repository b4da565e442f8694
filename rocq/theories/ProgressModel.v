(** The progress bar of the command line tool: ConsoleProgressObserver in
    src/app/qbs/consoleprogressobserver.cpp, and the sums over several jobs in
    src/app/qbs/commandlinefrontend.cpp, 280-318.

    Characters are numbers; what is written is one list. Numbers are unbounded here: in the
    code 100 * m_value overflows for efforts above 21 million. *)
From Coq Require Import List ZArith NArith Bool.
Import ListNotations.
Local Open Scope Z_scope.

(** Members of ConsoleProgressObserver, and what was written to std::cout. *)
Record obs := { omax : Z; oval : Z; opct : Z; ohash : Z; out : list N }.

(** QString::arg for the numbers that occur as percentage. *)
Definition digits (p : Z) : list N :=
  let d k := (48 + Z.to_N k)%N in
  if p <? 10 then [d p]
  else if p <? 100 then [d (p / 10); d (p mod 10)]
  else [d (p / 100); d ((p / 10) mod 10); d (p mod 10)].

Definition write (l : list N) (o : obs) : obs :=
  {| omax := omax o; oval := oval o; opct := opct o; ohash := ohash o; out := out o ++ l |}.

(** eraseCurrentPercentageString, 87-100: backspace is 8, a blank 32. *)
Definition erase (o : obs) : obs :=
  let k := if opct o =? 0 then 2%nat else if opct o <? 10 then 3%nat else 4%nat in
  write (repeat 8%N k ++ repeat 32%N k ++ repeat 8%N k) o.

(** updateProgressBarIfNecessary, 102-110: the hash sign is 35. *)
Definition update_bar (o : obs) : obs :=
  let need := (opct o * 50) / 100 in
  if ohash o <? need then
    {| omax := omax o; oval := oval o; opct := opct o; ohash := need;
       out := out o ++ repeat 35%N (Z.to_nat (need - ohash o)) |}
  else o.

(** writePercentageString, 112-115. *)
Definition write_percentage (o : obs) : obs := write ([32%N] ++ digits (opct o) ++ [37%N]) o.

Definition set_pct (p : Z) (o : obs) : obs :=
  {| omax := omax o; oval := oval o; opct := p; ohash := ohash o; out := out o |}.

(** setMaximum, 58-67. *)
Definition set_maximum (m : Z) (o : obs) : obs :=
  let o1 := {| omax := m; oval := oval o; opct := opct o; ohash := ohash o; out := out o |} in
  if m =? 0 then write [10%N] (write_percentage (update_bar (set_pct 100 o1))) else o1.

(** initialize, 48-56: a colon is 58. *)
Definition initialize (task : list N) (m : Z) (o : obs) : obs :=
  set_maximum m {| omax := m; oval := 0; opct := 0; ohash := 0;
                   out := out o ++ task ++ [58; 32; 48; 37]%N |}.

(** setProgressValue, 69-85. *)
Definition set_value (v : Z) (o : obs) : obs :=
  if (omax o <? v) || (v <=? oval o) then o
  else
    let o1 := {| omax := omax o; oval := v; opct := opct o; ohash := ohash o; out := out o |} in
    let p := (100 * v) / omax o in
    if p =? opct o then o1
    else
      let o2 := write_percentage (update_bar (set_pct p (erase o1))) in
      if v =? omax o then write [10%N] o2 else o2.

(** The members of CommandLineFrontend: m_totalBuildEffort, m_currentBuildEffort,
    m_buildEffortsRetrieved, m_buildEfforts, and the observer. *)
Record front := { total : Z; current : Z; retrieved : nat; efforts : list (N * Z); observer : obs }.

Definition effort (j : N) (l : list (N * Z)) : Z :=
  match find (fun e => N.eqb (fst e) j) l with Some e => snd e | None => 0 end.

Inductive event :=
| NewTask (effort : Z)
| Progress (job : N) (value : Z).

(** handleNewTaskStarted, 288-294, and handleTaskProgress, 309-314, while building with a
    progress bar. [needed] is m_buildEffortsNeeded, the number of jobs, [task] the word
    Building. *)
Definition handle (task : list N) (needed : nat) (s : front) (e : event) : front :=
  match e with
  | NewTask t =>
      let tot := total s + t in
      let o :=
        if Nat.eqb (S (retrieved s)) needed then
          let o1 := initialize task tot (observer s) in
          if 0 <? current s then set_value (current s) o1 else o1
        else observer s in
      {| total := tot; current := current s; retrieved := S (retrieved s);
         efforts := efforts s; observer := o |}
  | Progress j v =>
      let cur := current s + (v - effort j (efforts s)) in
      {| total := total s; current := cur; retrieved := retrieved s;
         efforts := (j, v) :: efforts s;
         observer := if Nat.eqb (retrieved s) needed then set_value cur (observer s)
                     else observer s |}
  end.

Definition no_output : obs := {| omax := 0; oval := 0; opct := 0; ohash := 0; out := [] |}.

Definition run (task : list N) (needed : nat) (l : list event) : front :=
  fold_left (handle task needed) l
    {| total := 0; current := 0; retrieved := 0; efforts := []; observer := no_output |}.
