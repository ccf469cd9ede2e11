(* Backbone/IO/Output, Utilities/additionalPrintFuncs (the vector dump),
   Utilities/plot and AbstractSolver::plots. *)
From Coq Require Import String Ascii ZArith List Bool.
From Verif Require Import Base ModelText ModelNumTools ModelMesh ModelReactor.
Import ListNotations.
Local Open Scope string_scope.
Local Open Scope Z_scope.

(* TraceLevel.h:4 *)
Inductive TraceLevel := CRITICAL | ERR | WARN | INFO | DEBUG | TRACE.

(* Output.h:10-13, 34-40, without the logger *)
Record output := mkOutput {
  o_outputPath : string;
  o_outputName : string;
  o_inputPath : string;
  o_inputName : string;
  o_fullName : string;
  o_level : option TraceLevel
}.
(* Output.h:11-12; m_logLevel is left uninitialised there *)
Definition newOutput : output := mkOutput "" "" "" "" "" None.

(* the set "/\\" of Output.cpp:78 and 89 *)
Definition is_separator (c : ascii) : bool := (Ascii.eqb c "/" || Ascii.eqb c "\")%bool.

(* Output.cpp:76-85 *)
Definition setInputPath (path : string) (o : output) : output :=
  match find_last_of is_separator path with
  | Some found =>
      mkOutput (o_outputPath o) (o_outputName o) (substring 0 found path) (substr_from (found + 1) path)
        (o_fullName o) (o_level o)
  | None => o
  end.

(* Output.cpp:87-100; the removal of an old file is left out *)
Definition setOutputPath (path : string) (o : output) : output :=
  let o :=
    match find_last_of is_separator path with
    | Some found =>
        mkOutput (substring 0 found path) (substr_from (found + 1) path) (o_inputPath o) (o_inputName o)
          (o_fullName o) (o_level o)
    | None => o
    end in
  mkOutput (o_outputPath o) (o_outputName o) (o_inputPath o) (o_inputName o) path (o_level o).

(* Output.cpp:26-66; spdlog's level is the same one *)
Definition setLevel (level : string) (o : output) : output :=
  let l :=
    if String.eqb level "CRITICAL" then CRITICAL
    else if String.eqb level "ERR" then ERR
    else if String.eqb level "WARN" then WARN
    else if String.eqb level "INFO" then INFO
    else if String.eqb level "DEBUG" then DEBUG
    else if String.eqb level "TRACE" then TRACE
    else CRITICAL in
  mkOutput (o_outputPath o) (o_outputName o) (o_inputPath o) (o_inputName o) (o_fullName o) (Some l).

(* Output.cpp:116-129; the set is ".\\" *)
Definition getInputNameNoExt (o : output) : string :=
  match find_last_of (fun c => (Ascii.eqb c "." || Ascii.eqb c "\")%bool) (o_inputName o) with
  | Some found => substring 0 found (o_inputName o)
  | None => ""
  end.

(* Input.cpp:22-46: the arguments after the program name; the input path kept
   by Input and the output object. createLogger is left out. *)
Definition getArguments (args : list string) (o : output) : res (string * output) :=
  let argc := zlen args + 1 in
  if argc <? 3 then Exit "Missing input arguments!"
  else match args with
       | [a; b; c] => Ok (a, setLevel c (setOutputPath b (setInputPath a o)))
       | _ => Exit "Too many input arguments!"
       end.

(* lo, lo + 1, ..., hi - 1; The values of the counter of a for loop such as plot.cpp:57-87 *)
Definition zrange (lo hi : Z) : list Z := map (fun k => lo + Z.of_nat k) (seq 0 (Z.to_nat (hi - lo))).

(* What is written to the log: the text and, apart, the values.
   Output.cpp:131-422 and the printing functions of additionalPrintFuncs.cpp:30-260 *)
Inductive item (T : Type) :=
| IText (s : string)
| ICount (s : string) (z : Z)
| INumber (s : string) (x : T)
| IVector (v : vec T)
| IMatrix (m : mat T).
Arguments IText {T}. Arguments ICount {T}. Arguments INumber {T}. Arguments IVector {T}. Arguments IMatrix {T}.
(* The calls of Output.cpp:131-422 in the order they are made *)
Definition log (T : Type) := list (TraceLevel * item T).

Section Dump.
Context {T : Type}.
(* stringFormat(double, format), additionalPrintFuncs.cpp:327-334 *)
Variable fmt : T -> string.

(* additionalPrintFuncs.cpp:423-452: the loop, at index i with the row being
   built, the rows finished and the counter *)
Fixpoint dumpLoop (l : list T) (i counter : Z) (str : string) (result : list string)
    : string * list string :=
  match l with
  | [] => (str, result)
  | x :: l' =>
      let str := if i =? 0 then "std::vector<double> ref {" else str in
      let str := str ++ fmt x ++ ", " in
      if i <? 2 then dumpLoop l' (i + 1) counter str result
      else if i =? 2 then dumpLoop l' (i + 1) counter "" (result ++ [str])%list
      else if counter mod 5 =? 0
           then dumpLoop l' (i + 1) (counter + 1) "" (result ++ [str])%list
           else dumpLoop l' (i + 1) (counter + 1) str result
  end.

(* additionalPrintFuncs.cpp:462 *)
Definition dumpRow (l : list T) : string := fold_right (fun x s => fmt x ++ ", " ++ s) "" l.

(* s.pop_back(); additionalPrintFuncs.cpp:470-472 *)
Definition pop_back (s : string) : res string :=
  match s with "" => UB "pop_back of empty string" | _ => Ok (substring 0 (String.length s - 1) s) end.

(* additionalPrintFuncs.cpp:417-482, without the copy on the standard output.
   size_t arithmetic is modulo 2^64; the index of the last loop is an unsigned
   int, so for fewer than three values it starts past the end. *)
Definition createCppVector (l : list T) : res (list string) :=
  let result := snd (dumpLoop l 0 1 "" []) in
  let size := zlen l in
  let remaining := ((size - 3) mod 2 ^ 64) mod 5 in
  let start := (size - remaining) mod 2 ^ 32 in
  let result := if 0 <? remaining then (result ++ [dumpRow (skipn (Z.to_nat start) l)])%list else result in
  match rev result with
  | [] => UB "back() of empty vector"
  | last :: before =>
      s <- pop_back last ;;
      s <- pop_back s ;;
      Ok (rev before ++ [(s ++ "};")%string])%list
  end.

End Dump.

(* PlotKind.h:6-7 *)
Inductive PlotKind := PlotUNDEFINED | NEUTRONFLUX | ADJOINTFLUX | TOTALFLUX | TEMPERATURE | POWERDENSITY.
(* operator== on PlotKind.h:6-7 *)
Definition plot_eqb (a b : PlotKind) : bool :=
  match a, b with
  | PlotUNDEFINED, PlotUNDEFINED | NEUTRONFLUX, NEUTRONFLUX | ADJOINTFLUX, ADJOINTFLUX
  | TOTALFLUX, TOTALFLUX | TEMPERATURE, TEMPERATURE | POWERDENSITY, POWERDENSITY => true
  | _, _ => false
  end.
(* PlotKind.h:24-36 *)
Definition get_plot_name (k : PlotKind) : string :=
  match k with
  | PlotUNDEFINED => "UNDEFINED"
  | NEUTRONFLUX => "neutronflux"
  | ADJOINTFLUX => "adjointflux"
  | TOTALFLUX => "totalflux"
  | TEMPERATURE => "temperature"
  | POWERDENSITY => "powerdensity"
  end.

Section Plots.
Context {T : Type} {N : Num T}.
Variable o : output.

(* one saved file: name, label of the y axis, abscissae, labelled curves;
   plot.cpp:36-54, 69-85 and 101-129 *)
Record plotFile := mkPlot {
  pl_name : string;
  pl_ylabel : string;
  pl_x : vec T;
  pl_curves : list (string * vec T)
}.

(* Eigen's minCoeff and maxCoeff: an assertion on empty arguments; plot.cpp:30 and 60 *)
Definition minCoeff (l : list T) : res T :=
  match l with
  | [] => UB "Eigen assertion"
  | x :: l' => Ok (fold_left (fun m y => if y [<] m then y else m) l' x)
  end.
(* BaseCalculation.cpp:50 and 56 *)
Definition maxCoeff (l : list T) : res T :=
  match l with
  | [] => UB "Eigen assertion"
  | x :: l' => Ok (fold_left (fun m y => if m [<] y then y else m) l' x)
  end.
(* the coefficients in Eigen's column major order; For mat.minCoeff() of plot.cpp:60 *)
Definition list_of_mat (m : mat T) : list T :=
  flat_map (fun j => map (fun i => mat_at m i j) (zrange 0 (mrows m))) (zrange 0 (mcols m)).

(* plot.cpp:53, 84 and 128 *)
Definition plotName (kind : PlotKind) : string := getInputNameNoExt o ++ "_" ++ get_plot_name kind.

(* plot.cpp:27-55 *)
Definition plotEigenVectorXd (xx v : vec T) (kind : PlotKind) : res (list plotFile) :=
  m <- minCoeff (list_of_vec v) ;;
  if is_equal m n0 then Ok []
  else
    let ylabel := match kind with
                  | TEMPERATURE => "Temperature [C]"
                  | POWERDENSITY => "Thermal Power Density [W/m3]"
                  | _ => ""
                  end in
    Ok [mkPlot (plotName kind ++ ".pdf") ylabel xx [("", v)]].

(* plot.cpp:57-87 *)
Definition plotEigenMatrixXd (xx : vec T) (a : mat T) (kind : PlotKind) : res (list plotFile) :=
  m <- minCoeff (list_of_mat a) ;;
  if is_equal m n0 then Ok []
  else Ok (map (fun e =>
         mkPlot (plotName kind ++ "_" ++ to_string (e + 1) ++ ".pdf") "Total Flux [1/cm2/s]" xx
           [("", mkvec (mcols a) (fun m => mat_at a e m))]) (zrange 0 (mrows a))).

(* plot.cpp:89-131; nModes is always given (AbstractSolver.cpp:72, 79) *)
Definition plot3DEigenTensor (xx : vec T) (t : ten3 T) (kind : PlotKind) (nModes : Z) : list plotFile :=
  if td2 t =? 0 then []
  else
    let ylabel := match kind with
                  | NEUTRONFLUX => "Neutron Flux [1/cm2/s]"
                  | ADJOINTFLUX => "Adjoint Flux [arbitrary]"
                  | _ => ""
                  end in
    let modesLimit := if td2 t <? nModes then td2 t else nModes in
    map (fun e =>
      mkPlot (plotName kind ++ "_" ++ to_string (e + 1) ++ ".pdf") ylabel xx
        (map (fun n => (if n =? 0 then "fundamental" else to_string (n + 1),
                        mkvec (td1 t) (fun m => t3_at t e m n))) (zrange 0 modesLimit)))
      (zrange 0 (td0 t)).

(* plot.cpp:133-139 *)
Definition plotsContain (l : list PlotKind) (k : PlotKind) : bool := existsb (plot_eqb k) l.

(* AbstractSolver.cpp:45-81 *)
Definition plots (l : list PlotKind) (ms : mesh T) : res (list plotFile) :=
  a <- (if plotsContain l TEMPERATURE
        then x <- getMeshMiddlePoints ms ;; v <- getTemperatures ms "C" ;; plotEigenVectorXd x v TEMPERATURE
        else Ok []) ;;
  b <- (if plotsContain l POWERDENSITY
        then x <- getMeshMiddlePoints ms ;; v <- getHeatSources ms ;; plotEigenVectorXd x v POWERDENSITY
        else Ok []) ;;
  c <- (if plotsContain l TOTALFLUX
        then x <- getMeshMiddlePoints ms ;; f <- getTotalFluxes ms ;; plotEigenMatrixXd x f TOTALFLUX
        else Ok []) ;;
  d <- (if plotsContain l NEUTRONFLUX
        then x <- getMeshMiddlePoints ms ;; t <- getNeutronFluxes ms ;; Ok (plot3DEigenTensor x t NEUTRONFLUX 5)
        else Ok []) ;;
  e <- (if plotsContain l ADJOINTFLUX
        then x <- getMeshMiddlePoints ms ;; t <- getAdjointFluxes ms ;; Ok (plot3DEigenTensor x t ADJOINTFLUX 5)
        else Ok []) ;;
  Ok (a ++ b ++ c ++ d ++ e)%list.

End Plots.
Arguments plotFile : clear implicits.
