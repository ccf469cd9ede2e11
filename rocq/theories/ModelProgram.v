(* main.cpp with the files: the log file is removed and opened by getArguments
   and written by the whole run. *)
From Coq Require Import String ZArith List Bool.
From Verif Require Import Base ModelNumTools ModelEigen ModelMesh ModelReactor ModelText ModelOutput ModelCalculation ModelInput ModelLog ModelEcho ModelMain.
Import ListNotations.
Local Open Scope string_scope.
Local Open Scope Z_scope.

(* the disk: None for a file that cannot be opened. Every file has one name.
   Read at Input.cpp:54-77, written through Output.cpp:102-106 *)
Definition disk : Type := string -> option string.
(* Output.cpp:102-114: removal of the old file and a new one with that text *)
Definition write (p text : string) (fs : disk) : disk := fun q => if String.eqb q p then Some text else fs q.
(* The separator of std::getline at Input.cpp:66 *)
Definition lineBreak : string := String (Ascii.ascii_of_nat 10) "".
(* spdlog ends every message with a line break;
   Output.cpp:131-422 through basic_logger_mt (Output.cpp:104) *)
Definition fileText (lines : list string) : string := fold_right (fun l s => l ++ lineBreak ++ s) "" lines.

Section Program.
Context {T : Type} {N : Num T}.
Variable mpi : T.
Variable stod_opt : string -> option T.
(* the numerical libraries, as in ModelCalculation *)
Variable solver : mat T -> vec T -> vec T.
Variable sort : list (T * vec T) -> list (T * vec T).
Variable eig : mat T -> mat T -> vec (T * T) * mat (T * T).
Variable croots : list T -> list (T * T).
Variables (expint3 bickley3f nexp nsqrt : T -> T).
Variable to_unsigned : T -> res Z.
(* how numbers are written *)
Variables (fmt : T -> string) (zfmt : Z -> string).
(* get_version_all of version.h, and what the logger puts before the texts when
   the pattern has a time: the first argument tells the moments apart *)
Variable version : string.
Variable stamp : Z -> string.

(* Output.cpp:58-65, in the pattern the logger starts with; the logger starts
   at the level info, so the three critical messages are shown *)
Definition levelLines (level : string) : list string :=
  if existsb (String.eqb level) ["CRITICAL"; "ERR"; "WARN"; "INFO"; "DEBUG"; "TRACE"] then []
  else [stamp 0 ++ "Trace Level not recognized";
        stamp 1 ++ "Please use capital letters: CRITICAL, ERR, WARN, INFO, DEBUG or TRACE";
        stamp 2 ++ "Trace Level defaulted to CRITICAL "; ""].

(* Output.cpp:12-18 and Input.cpp:48-52 *)
Definition startLines (o : output) : list string :=
  [stamp 3 ++ "Start simulation"; stamp 4 ++ "ALMOST Version: " ++ version ++ " "; "";
   "Input file: " ++ o_inputPath o ++ "/" ++ o_inputName o; "Output file: " ++ o_outputName o ++ " "; ""].

(* Output.cpp:20-24 *)
Definition endLines : list string := [stamp 5 ++ "End simulation"].

(* main.cpp:14-17: the arguments, and what is in the log file before the input
   file is opened. Output.cpp:99, 102-114: an old file of that name is removed
   and the new one is opened, which is assumed to succeed. Output.cpp:105: all
   that is written before the reading is flushed. *)
Definition starting (fs : disk) (args : list string) : res (string * output * list string * disk) :=
  ' (path, o) <- getArguments args newOutput ;;
  let head := (levelLines (nth 2 args "") ++ startLines o)%list in
  Ok (path, o, head, write (o_fullName o) (fileText head) fs).

(* main.cpp:8-22: the results and the files after the run. The plots are in the
   results. A program that stops leaves the log up to there: not modelled. *)
Definition program (fs : disk) (args : list string) : res (outcome T * disk) :=
  ' (path, o, head, fs) <- starting fs args ;;
  ' (inp, reading) <- readDataLog mpi stod_opt fmt (fs path) ;;
  oc <- problemSolve mpi solver sort eig croots expint3 bickley3f nexp nsqrt to_unsigned
          o (in_plots inp) (in_solvers inp) (in_rx inp) ;;
  let level := match o_level o with Some l => l | None => INFO end in
  Ok (oc, write (o_fullName o) (fileText (head ++ reading ++ logLines fmt zfmt level (oc_log oc) ++ endLines)%list) fs).

End Program.
