(** The command line of the tool: commands, options, grouped short options,
    assignments of properties, and the build configurations that they make.

    Code: src/app/qbs/parser/commandlineparser.cpp,
    src/app/qbs/parser/parsercommand.cpp,
    src/app/qbs/parser/commandlineoption.{h,cpp}.

    Simplified: which arguments an option accepts is given by a function;
    digits are the ASCII ones (QChar::isDigit knows more); texts of errors are
    left out, and so are the values that are made of the texts of properties
    (representationToVariant). *)

From Coq Require Import List Bool NArith.
From Verif Require Import Str.
Import ListNotations.
Open Scope list_scope.
Open Scope N_scope.

Definition dash : N := 45.
Definition colon : N := 58.
Definition dot : N := 46.

(** commandtype.h 42-50. *)
Inductive command :=
| Resolve | Build | Clean | Run | Shell | Status | UpdateTimestamps | Install
| DumpNodesTree | ListProducts | HelpCmd | Generate | VersionCmd | Session.

(** commandlineoption.h 55-85. *)
Inductive opt :=
| File | BuildDirectory | LogLevel | Verbose | Quiet | Jobs | KeepGoing | DryRun
| ForceProbes | ShowProgress | ChangedFiles | Products | Tags | NoInstall
| InstallRoot | RemoveFirst | NoBuild | ForceTimestampCheck | ForceOutputCheck
| BuildNonDefault | LogTime | CommandEchoMode | SettingsDir | JobLimits
| RespectProjectJobLimits | Generator | WaitLock | RunEnvConfig | DeprecationWarnings.

Definition opt_dec (a b : opt) : {a = b} + {a <> b}.
Proof. decide equality. Defined.

(** commandlineoption.cpp: shortRepresentation. *)
Definition short (o : opt) : option N :=
  match o with
  | File => Some 102 | BuildDirectory => Some 100 | Verbose => Some 118
  | Quiet => Some 113 | Jobs => Some 106 | KeepGoing => Some 107
  | DryRun => Some 110 | Products => Some 112 | LogTime => Some 116
  | Generator => Some 103
  | _ => None
  end.

(** commandlineoption.cpp: longRepresentation, without the leading dashes. *)
Definition long (o : opt) : str :=
  match o with
  | File => [102;105;108;101]
  | BuildDirectory => [98;117;105;108;100;45;100;105;114;101;99;116;111;114;121]
  | LogLevel => [108;111;103;45;108;101;118;101;108]
  | Verbose => [109;111;114;101;45;118;101;114;98;111;115;101]
  | Quiet => [108;101;115;115;45;118;101;114;98;111;115;101]
  | Jobs => [106;111;98;115]
  | KeepGoing => [107;101;101;112;45;103;111;105;110;103]
  | DryRun => [100;114;121;45;114;117;110]
  | ForceProbes => [102;111;114;99;101;45;112;114;111;98;101;45;101;120;101;99;117;116;105;111;110]
  | ShowProgress => [115;104;111;119;45;112;114;111;103;114;101;115;115]
  | ChangedFiles => [99;104;97;110;103;101;100;45;102;105;108;101;115]
  | Products => [112;114;111;100;117;99;116;115]
  | Tags => [116;97;103;115]
  | NoInstall => [110;111;45;105;110;115;116;97;108;108]
  | InstallRoot => [105;110;115;116;97;108;108;45;114;111;111;116]
  | RemoveFirst => [99;108;101;97;110;45;105;110;115;116;97;108;108;45;114;111;111;116]
  | NoBuild => [110;111;45;98;117;105;108;100]
  | ForceTimestampCheck => [99;104;101;99;107;45;116;105;109;101;115;116;97;109;112;115]
  | ForceOutputCheck => [99;104;101;99;107;45;111;117;116;112;117;116;115]
  | BuildNonDefault => [97;108;108;45;112;114;111;100;117;99;116;115]
  | LogTime => [108;111;103;45;116;105;109;101]
  | CommandEchoMode => [99;111;109;109;97;110;100;45;101;99;104;111;45;109;111;100;101]
  | SettingsDir => [115;101;116;116;105;110;103;115;45;100;105;114]
  | JobLimits => [106;111;98;45;108;105;109;105;116;115]
  | RespectProjectJobLimits => [101;110;102;111;114;99;101;45;112;114;111;106;101;99;116;45;106;111;98;45;108;105;109;105;116;115]
  | Generator => [103;101;110;101;114;97;116;111;114]
  | WaitLock => [119;97;105;116;45;108;111;99;107]
  | RunEnvConfig => [115;101;116;117;112;45;114;117;110;45;101;110;118;45;99;111;110;102;105;103]
  | DeprecationWarnings => [100;101;112;114;101;99;97;116;105;111;110;45;119;97;114;110;105;110;103;115]
  end.

(** commandlineoption.{h,cpp}: doParse, whether an argument is taken. *)
Definition takes_argument (o : opt) : bool :=
  match o with
  | File | BuildDirectory | LogLevel | Jobs | ChangedFiles | Products | Tags
  | InstallRoot | CommandEchoMode | SettingsDir | JobLimits | Generator
  | RunEnvConfig | DeprecationWarnings => true
  | _ => false
  end.

(** commandlineoption.h 91 and 162. *)
Definition repeatable (o : opt) : bool :=
  match o with Verbose | Quiet => true | _ => false end.

(** parsercommand.cpp 200-214 and 274-289 and 350-357. *)
Definition resolve_options : list opt :=
  [File; BuildDirectory; LogLevel; Verbose; Quiet; ShowProgress; DryRun; ForceProbes;
   LogTime; DeprecationWarnings; Jobs].

Definition build_options : list opt :=
  resolve_options ++
  [KeepGoing; Products; ChangedFiles; ForceTimestampCheck; ForceOutputCheck;
   BuildNonDefault; CommandEchoMode; NoInstall; RemoveFirst; JobLimits;
   RespectProjectJobLimits; WaitLock].

Definition install_options : list opt :=
  filter (fun o => if opt_dec o NoInstall then false else true)
    (build_options ++ [InstallRoot; NoBuild]).

(** parsercommand.cpp: supportedOptions of the commands. *)
Definition supported_options (c : command) : list opt :=
  match c with
  | Resolve => resolve_options
  | Generate => [File; BuildDirectory; LogLevel; Verbose; Quiet; ShowProgress; InstallRoot;
                 LogTime; Generator]
  | Build => build_options
  | Clean => [BuildDirectory; DryRun; KeepGoing; LogTime; Products; Quiet; SettingsDir;
              ShowProgress; Verbose]
  | Install => install_options
  | Run => install_options ++ [RunEnvConfig]
  | Shell => [File; BuildDirectory; Products]
  | Status => [BuildDirectory]
  | UpdateTimestamps => [BuildDirectory; LogLevel; Verbose; Quiet; Products]
  | DumpNodesTree => [BuildDirectory; Products]
  | ListProducts => [File; BuildDirectory; Tags]
  | HelpCmd | VersionCmd | Session => []
  end.

Definition is_help (c : command) : bool := match c with HelpCmd => true | _ => false end.

(** parsercommand.cpp 92-98. *)
Definition actual_options (c : command) : list opt :=
  supported_options c ++ (if is_help c then [] else [SettingsDir]).

(** parsercommand.cpp 64-67. *)
Definition can_resolve (c : command) : bool :=
  existsb (fun o => if opt_dec o File then true else false) (supported_options c).

Definition is_digit (c : N) : bool := (48 <=? c) && (c <=? 57).

(** parsercommand.cpp 108-126: a group of short options, from the end to the
    start; first part: the digits that wait for their option. *)
Fixpoint split_group (cs : str) : str * list str :=
  match cs with
  | [] => ([], [])
  | c :: r =>
      let '(p, out) := split_group r in
      if is_digit c then (c :: p, out)
      else ([], [dash; c] :: match p with [] => out | _ => p :: out end)
  end.

Definition short_is (o : opt) (s : str) : bool :=
  match short o with Some c => str_eqb [dash; c] s | None => false end.

Definition is_option (o : opt) (s : str) : bool :=
  short_is o s || str_eqb (dash :: dash :: long o) s.

Fixpoint find_option (l : list opt) (s : str) : option opt :=
  match l with
  | [] => None
  | o :: r => if is_option o s then Some o else find_option r s
  end.

(** What is known after some arguments: the options with their arguments and
    the assignments, both in order, and the parameters for the program to
    run. *)
Record parsed := Parsed {
  options : list (opt * option str);
  assignments : list str;
  target : list str }.

Inductive error :=
| EmptyOption | UnknownOption | NumericOption | Repeated | MissingArgument | BadArgument
| NoAssignment | EmptyKey | NoAssignmentsHere | TooMany | TakesNothing.

Inductive result (A : Type) := Ok (a : A) | Err (e : error) | Out.
Arguments Ok {A} a.
Arguments Err {A} e.
Arguments Out {A}.

Definition used (o : opt) (p : parsed) : bool :=
  existsb (fun e => if opt_dec o (fst e) then true else false) (options p).

Definition add_option (p : parsed) (o : opt) (a : option str) : parsed :=
  Parsed (options p ++ [(o, a)]) (assignments p) (target p).

(** parsercommand.cpp 128-144. *)
Definition use_option (acc : opt -> str -> bool) (c : command) (s : str) (rest : list str)
  (p : parsed) : result (parsed * list str) :=
  match find_option (actual_options c) s with
  | None => Err UnknownOption
  | Some o =>
      if used o p && negb (repeatable o) then Err Repeated
      else if takes_argument o
           then match rest with
                | [] => Err MissingArgument
                | a :: rest' =>
                    if acc o a then Ok (add_option p o (Some a), rest') else Err BadArgument
                end
           else Ok (add_option p o None, rest)
  end.

(** parsercommand.cpp 108-109. *)
Definition is_group (s : str) : bool :=
  match s with
  | d :: x :: _ :: _ => (d =? dash) && negb (x =? dash)
  | _ => false
  end.

(** parsercommand.cpp 100-145. *)
Definition parse_option (acc : opt -> str -> bool) (c : command) (s : str) (rest : list str)
  (p : parsed) : result (parsed * list str) :=
  match s with
  | [_] => Err EmptyOption
  | _ =>
      if is_group s
      then match split_group (tl s) with
           | ([], out) => Ok (p, out ++ rest)
           | _ => Err NumericOption
           end
      else use_option acc c s rest p
  end.

(** The position of the first colon, as what is before and behind it. *)
Fixpoint cut (s : str) : option (str * str) :=
  match s with
  | [] => None
  | c :: r => if c =? colon then Some ([], r)
              else match cut r with Some (k, v) => Some (c :: k, v) | None => None end
  end.

Definition config_key : str := [99;111;110;102;105;103].

(** parsercommand.cpp 69-90. *)
Definition parse_assignment (c : command) (s : str) (p : parsed) : result parsed :=
  match cut s with
  | None => Err NoAssignment
  | Some ([], _) => Err EmptyKey
  | Some (k, _) =>
      if negb (can_resolve c) && negb (starts_with (config_key ++ [colon]) s)
      then Err NoAssignmentsHere
      else Ok (Parsed (options p) (assignments p ++ [s]) (target p))
  end.

Definition starts_dash (s : str) : bool :=
  match s with x :: _ => x =? dash | [] => false end.

Definition is_run (c : command) : bool := match c with Run => true | _ => false end.

(** parsercommand.cpp 147-154; 393-403 for the run command. *)
Definition parse_next (acc : opt -> str -> bool) (c : command) (s : str) (rest : list str)
  (p : parsed) : result (parsed * list str) :=
  if is_run c && str_eqb s [dash; dash]
  then Ok (Parsed (options p) (assignments p) rest, [])
  else if starts_dash s then parse_option acc c s rest p
  else match parse_assignment c s p with
       | Ok p' => Ok (p', rest)
       | Err e => Err e
       | Out => Out
       end.

(** parsercommand.cpp 58-62. *)
Fixpoint parse_loop (acc : opt -> str -> bool) (c : command) (fuel : nat) (input : list str)
  (p : parsed) : result parsed :=
  match input with
  | [] => Ok p
  | s :: rest =>
      match fuel with
      | O => Out
      | S n =>
          match parse_next acc c s rest p with
          | Ok (p', rest') => parse_loop acc c n rest' p'
          | Err e => Err e
          | Out => Out
          end
      end
  end.

(** A bound for the number of rounds: groups are split up. *)
Definition weight (l : list str) : nat :=
  fold_right (fun s n => ((if is_group s then length s else 1) + n)%nat) O l.

Definition parse_command (acc : opt -> str -> bool) (c : command) (input : list str)
  : result parsed :=
  parse_loop acc c (weight input) input (Parsed [] [] []).

(** commandlineparser.cpp 381-407 with the representations of
    parsercommand.cpp. *)
Definition name (c : command) : str :=
  match c with
  | Resolve => [114;101;115;111;108;118;101]
  | Build => [98;117;105;108;100]
  | Clean => [99;108;101;97;110]
  | Run => [114;117;110]
  | Shell => [115;104;101;108;108]
  | Status => [115;116;97;116;117;115]
  | UpdateTimestamps => [117;112;100;97;116;101;45;116;105;109;101;115;116;97;109;112;115]
  | Install => [105;110;115;116;97;108;108]
  | DumpNodesTree => [100;117;109;112;45;110;111;100;101;115;45;116;114;101;101]
  | ListProducts => [108;105;115;116;45;112;114;111;100;117;99;116;115]
  | HelpCmd => [104;101;108;112]
  | Generate => [103;101;110;101;114;97;116;101]
  | VersionCmd => [115;104;111;119;45;118;101;114;115;105;111;110]
  | Session => [115;101;115;115;105;111;110]
  end.

Definition all_commands : list command :=
  [Generate; Resolve; Build; Clean; Run; Shell; Status; UpdateTimestamps; Install;
   DumpNodesTree; ListProducts; VersionCmd; Session; HelpCmd].

Definition command_from (s : str) : option command :=
  find (fun c => str_eqb (name c) s) all_commands.

Definition help_switches : list str := [[dash; 104]; [dash; dash; 104; 101; 108; 112]].
Definition version_switches : list str :=
  [[dash; 86]; [dash; dash; 118; 101; 114; 115; 105; 111; 110]].

Definition one_of (l : list str) (s : str) : bool := existsb (str_eqb s) l.

Inductive action :=
| ShowHelp (about : list str)
| ShowVersion
| Perform (c : command) (p : parsed).

(** The parsing of a command: 393-403, 560-568, 591-595, 614-618 of
    parsercommand.cpp for the special ones. *)
Definition perform (acc : opt -> str -> bool) (c : command) (args : list str) : result action :=
  match c with
  | HelpCmd => match args with
               | [] | [_] => Ok (ShowHelp args)
               | _ => Err TooMany
               end
  | VersionCmd => match args with [] => Ok ShowVersion | _ => Err TakesNothing end
  | Session => match args with [] => Ok (Perform Session (Parsed [] [] []))
                             | _ => Err TakesNothing end
  | _ => match parse_command acc c args with
         | Ok p => Ok (Perform c p)
         | Err e => Err e
         | Out => Out
         end
  end.

(** commandlineparser.cpp 334-379, doParse. *)
Definition parse_line (acc : opt -> str -> bool) (args : list str) : result action :=
  match args with
  | [] => perform acc Build []
  | a :: rest =>
      match command_from a with
      | Some c =>
          if existsb (one_of help_switches) rest
          then perform acc HelpCmd [a]
          else perform acc c rest
      | None =>
          if one_of help_switches a then perform acc HelpCmd rest
          else if one_of version_switches a then perform acc VersionCmd rest
          else perform acc Build args
      end
  end.

(** ** Build configurations *)

Definition props := list (str * str).

Fixpoint insert (k v : str) (m : props) : props :=
  match m with
  | [] => [(k, v)]
  | (k', v') :: r => if str_eqb k k' then (k, v) :: r else (k', v') :: insert k v r
  end.

Fixpoint value (k : str) (m : props) : option str :=
  match m with
  | [] => None
  | (k', v) :: r => if str_eqb k k' then Some v else value k r
  end.

(** qbs.configurationName *)
Definition qbs_dot : str := [113; 98; 115; 46].
Definition name_key : str :=
  qbs_dot ++ [99;111;110;102;105;103;117;114;97;116;105;111;110;78;97;109;101].
Definition default_name : str := [100;101;102;97;117;108;116].

(** commandlineparser.cpp 602-608. *)
Definition property_name (k : str) : str :=
  if memN dot k then k else qbs_dot ++ k.

(** commandlineparser.cpp 499-518: all sections, the first one for the
    properties in front of the first configuration. *)
Fixpoint sections (l : list str) (cur : str) (m : props) : list (str * props) :=
  match l with
  | [] => [(cur, m)]
  | a :: r =>
      match cut a with
      | None => sections r cur m
      | Some (k, v) =>
          if str_eqb k config_key || str_eqb k name_key
          then (cur, m) :: sections r v []
          else sections r cur (insert (property_name k) v m)
      end
  end.

(** commandlineparser.cpp 526-532. *)
Definition with_global (g m : props) : props :=
  fold_left (fun m e => match value (fst e) m with
                        | Some _ => m
                        | None => insert (fst e) (snd e) m end) g m.

(** commandlineparser.cpp 525-543. *)
Fixpoint configs (g : props) (l : list (str * props)) (done : list props) : list props :=
  match l with
  | [] => done
  | (n, m) :: r =>
      if existsb (fun c => match value name_key c with
                           | Some n' => str_eqb n n' | None => str_eqb n [] end) done
      then configs g r done
      else configs g r (done ++ [insert name_key n (with_global g m)])
  end.

(** commandlineparser.cpp 492-546, setupBuildConfigurations. *)
Definition build_configurations (l : list str) : list props :=
  match sections l [] [] with
  | [] => []
  | [(_, g)] => configs g [(default_name, [])] []
  | (_, g) :: r => configs g r []
  end.
