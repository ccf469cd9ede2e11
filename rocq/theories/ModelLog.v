(* The lines of the log file: Output::print and the functions of
   Utilities/additionalPrintFuncs that print matrices and vectors. *)
From Coq Require Import String ZArith List Bool.
From Verif Require Import Base ModelOutput.
Import ListNotations.
Local Open Scope string_scope.
Local Open Scope Z_scope.

(* the order of spdlog's levels, from Output.h:63-68 *)
Definition severity (l : TraceLevel) : Z :=
  match l with TRACE => 0 | DEBUG => 1 | INFO => 2 | WARN => 3 | ERR => 4 | CRITICAL => 5 end.

(* Output.cpp:131-147: the message goes to the method of its level, and spdlog
   drops what is below the level of the logger, set at Output.cpp:26-66 *)
Definition shown (threshold level : TraceLevel) : bool := severity threshold <=? severity level.

Section Lines.
Context {T : Type}.
(* the formats "%7.6e" and {:7.6e}, and {} of an integer *)
Variable fmt : T -> string.
Variable zfmt : Z -> string.

(* the values of a row, each followed by a blank; additionalPrintFuncs.cpp:117 and 183 *)
Definition rowText (l : list T) : string := fold_left (fun msg x => msg ++ fmt x ++ " ") l "".

(* additionalPrintFuncs.cpp:76-152 *)
Definition printMatrix (A : mat T) (asVector : bool) : list string :=
  ((if asVector
    then flat_map (fun i => map (fun j => fmt (mat_at A i j)) (zrange 0 (mcols A))) (zrange 0 (mrows A))
    else map (fun i => rowText (map (fun j => mat_at A i j) (zrange 0 (mcols A)))) (zrange 0 (mrows A)))
   ++ [" "])%list.

(* additionalPrintFuncs.cpp:154-216 and 275-325 *)
Definition printVector (v : vec T) (isVertical endline : bool) : list string :=
  if isVertical
  then (map fmt (list_of_vec v) ++ (if endline then [" "] else []))%list
  else [rowText (list_of_vec v)].

(* additionalPrintFuncs.cpp:9-74: the row index runs over the second dimension
   and the column index over the first *)
Definition printTensor (A : ten3 T) (str : string) : res (list string) :=
  l <- zfor 0 (td2 A) (fun h l =>
    zfor 0 (td1 A) (fun i l =>
      msg <- zfor 0 (td0 A) (fun j msg => x <- t3get A i j h ;; Ok (msg ++ fmt x ++ " ")) "" ;;
      Ok (l ++ [msg])%list) (l ++ [(str ++ ": " ++ zfmt (h + 1))%string])%list) [] ;;
  Ok (l ++ [" "])%list.

(* What print and the functions above write for an item. Matrices and vectors
   are the ones of the results, printed one value per line. Line breaks around
   the text, the number before an eigenvalue and the unit after the number of a
   mode are left out. Output.cpp:131-422 and additionalPrintFuncs.cpp:76-260 *)
Definition itemLines (i : item T) : list string :=
  match i with
  | IText s => [s]
  | ICount s z => [s ++ " " ++ zfmt z]
  | INumber s x => [s ++ ": " ++ fmt x]
  | IVector v => printVector v true true
  | IMatrix m => printMatrix m true
  end.

(* the lines of the file for a log, when the level of the logger is threshold;
   Output.cpp:26-66 sets that level *)
Definition logLines (threshold : TraceLevel) (l : log T) : list string :=
  flat_map (fun p => if shown threshold (fst p) then itemLines (snd p) else []) l.

End Lines.
