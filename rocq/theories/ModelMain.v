(* main.cpp *)
From Coq Require Import String ZArith List Bool.
From Verif Require Import Base ModelNumTools ModelEigen ModelMesh ModelReactor ModelOutput ModelCalculation ModelInput.
Import ListNotations.
Local Open Scope string_scope.
Local Open Scope Z_scope.

Section Main.
Context {T : Type} {N : Num T}.
Variable mpi : T.
Variable stod_opt : string -> option T.
(* the numerical libraries, as in ModelCalculation *)
Variable solver : mat T -> vec T -> vec T.
Variable sort : list (T * vec T) -> list (T * vec T).
Variable eig : mat T -> mat T -> vec (T * T) * mat (T * T).
Variable croots : list T -> list (T * T).
Variables (expint3 bickley3f nexp nsqrt : T -> T).
Variable to_unsigned : T -> res Z.

(* main.cpp:8-22. fs is the file system: None for a file that cannot be opened.
   The output object is the global out. printStart, printData and printEnd only
   write to the log and are left out. *)
Definition main (fs : string -> option string) (args : list string) : res (outcome T) :=
  ' (path, o) <- getArguments args newOutput ;;
  inp <- readData mpi stod_opt (fs path) ;;
  problemSolve mpi solver sort eig croots expint3 bickley3f nexp nsqrt to_unsigned
    o (in_plots inp) (in_solvers inp) (in_rx inp).

End Main.
