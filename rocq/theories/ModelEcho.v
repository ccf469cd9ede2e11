(* What the reader of the input prints while it reads: the lines of the log file
   written by setSolvers, setGeometryKind, setMesh, setSolverProperties, setXS,
   setMatrixXS, setMaterialProperties, setThermalPower, setManyParameters and
   setKineticsParameters of Input.cpp, and by the whole reading. All
   of them are critical messages, so every level shows them. Line breaks before
   and after a text are left out. *)
From Coq Require Import String ZArith List Bool.
From Verif Require Import Base ModelEigen ModelMesh ModelReactor ModelCalculation ModelText ModelInput ModelLog.
Import ListNotations.
Local Open Scope string_scope.
Local Open Scope Z_scope.

Section Echo.
Context {T : Type} {N : Num T}.
Variable mpi : T.
Variable stod_opt : string -> option T.
Variable fmt : T -> string.
Notation stod := (stod stod_opt).

(* additionalPrintFuncs.cpp:338-348 *)
Definition wordText (s : string) : res string := if isString s then Ok s else x <- stod s ;; Ok (fmt x).
(* additionalPrintFuncs.cpp:245-266, the words on one line *)
Definition wordsLine (l : list string) : res string :=
  foreach l (fun s msg => t <- wordText s ;; Ok (msg ++ t ++ " ")) "".
(* additionalPrintFuncs.cpp:154-178 and 284-325 *)
Definition valueLines (l : list T) : list string := (map fmt l ++ [" "])%list.

(* Input.cpp:300-324 *)
Definition geometryEcho (lines : list string) : res (list string) :=
  g <- readOneParameter lines "geometry" ;;
  if String.eqb g "cylinder" then Ok ["Geometry: Cylindrical "]
  else if String.eqb g "sphere" then Ok ["Geometry: Spherical "]
  else if String.eqb g "slab" then Ok ["Geometry: Cartesian "]
  else Exit ("Geometry: " ++ g ++ " not recognized!").

(* Input.cpp:334-399 *)
Definition meshEcho (inp : input T) : res (list string) :=
  values <- readManyParameters (in_lines inp) "mesh" false ;;
  ' (ns, xs, mts) <- regions stod_opt values ;;
  let regionNumber := 0 :: ns in
  let regionDistance := n0 :: xs in
  boundaries <- ramp eigen_zero regionNumber regionDistance ;;
  let ms := setBoundaries boundaries (in_mesh inp) in
  volumes <- getVolumes mpi ms "m" ;;
  names <- zfor 1 (zlen regionNumber) (fun i names =>
      n <- lget regionNumber i ;;
      zfor 0 n (fun _ names => m <- lget mts (i - 1) ;; Ok (names ++ [m])%list) names) (in_map inp) ;;
  ms <- createMaterials names ms ;;
  w <- wordsLine names ;;
  mid <- getMeshMiddlePoints ms ;;
  Ok ("Input boundaries [m]:" :: valueLines (list_of_vec boundaries) ++
      "Input volumes [m3]:" :: valueLines (list_of_vec volumes) ++
      "Input meshes:" :: w :: "Mesh middle points [m]:" :: valueLines (list_of_vec mid))%list.

(* Input.cpp:326-332: the word, not the number, is formatted *)
Definition powerEcho (lines : list string) : res (list string) :=
  w <- readOneParameter lines "thermal_power" ;;
  stod w ;;;
  t <- wordText w ;;
  Ok ["Input thermal power [W]: " ++ t ++ " "].

(* Input.cpp:656-671, 747-748 *)
Definition manyEcho (lines : list string) (name outputName : string) : res (list string) :=
  l <- setManyParameters stod_opt lines name ;;
  Ok ((outputName ++ ":")%string :: valueLines l)%list.

(* Input.cpp:626-644 *)
Definition kineticsEcho (lines : list string) : res (list string) :=
  a <- readOneParameter lines "generation_time" ;; alpha <- stod a ;;
  p <- readOneParameter lines "initial_power" ;; power <- stod p ;;
  lambda <- manyEcho lines "delayed_constants" "Input delayed neutrons group decay constants [1/s]" ;;
  beta <- manyEcho lines "delayed_fractions" "Input delayed neutrons group fractions" ;;
  times <- manyEcho lines "times" "Input times [s]" ;;
  reactivities <- manyEcho lines "reactivities" "Input reactivities" ;;
  Ok (("Mean generation time of the reactor [s]: " ++ fmt alpha ++ " ")%string ::
      ("Initial power [W]: " ++ fmt alpha ++ " ")%string ::
      lambda ++ beta ++ times ++ reactivities)%list.

(* the loops of Input.cpp:437-472, 495-577: what is printed for each cell, material by material *)
Definition materialsEcho (inp : input T) (body : Z * Z -> res (list string)) : res (list string) :=
  foreach (in_list inp) (fun item l =>
    readOneParameter (in_lines inp) ("material " ++ item) ;;;
    let block := findBlock (in_lines inp) "material" item in
    zfor 0 (ms_cells (in_mesh inp)) (fun m l =>
      nm <- lget (in_map inp) m ;;
      if String.eqb nm item then e <- body block ;; Ok (l ++ e)%list else Ok l) l) [].

(* The words printed in the loops of Input.cpp:495-578, for one law *)
Definition lawLine (lines : list string) (block : Z * Z) (key : string) (skip : nat) : res string :=
  l <- findKeyword lines key (fst block) (snd block) false ;;
  numberVec <- words_from skip (splitLine l) ;;
  wordsLine numberVec.

(* Input.cpp:437-473 with Input.cpp:475-493 *)
Definition conductivityEcho (inp : input T) : res (list string) :=
  e <- materialsEcho inp (fun block => t <- lawLine (in_lines inp) block "thermal_conductivity" 1 ;; Ok [t]) ;;
  Ok ("Input thermal conductivity [W/(m*K)]:" :: e).

(* Input.cpp:495-542 *)
Definition xsEcho (name outputName : string) (inp : input T) : res (list string) :=
  e <- materialsEcho inp (fun block =>
    e <- zfor 1 (ms_groups (in_mesh inp) + 1) (fun i e =>
      t <- lawLine (in_lines inp) block (name ++ "(" ++ to_string i ++ ")") 1 ;; Ok (e ++ [t])%list) [] ;;
    Ok (e ++ [" "])%list) ;;
  Ok (outputName :: e).

(* Input.cpp:544-580 *)
Definition matrixEcho (name outputName : string) (inp : input T) : res (list string) :=
  e <- materialsEcho inp (fun block =>
    zfor 1 (ms_groups (in_mesh inp) + 1) (fun i e =>
      e <- zfor 1 (ms_groups (in_mesh inp) + 1) (fun j e =>
        t <- lawLine (in_lines inp) block (name ++ "(" ++ to_string i ++ ", " ++ to_string j ++ ")") 2 ;; Ok (e ++ [t])%list) e ;;
      Ok (e ++ [" "])%list) []) ;;
  Ok (outputName :: e).

(* ---------- the whole reading ---------- *)

(* Input.cpp:244-287 *)
Definition solversEcho (lines : list string) : res (list string) :=
  values <- readManyParameters lines "solvers" false ;;
  t <- foreach values (fun w t => solver_of_word (N:=N) w ;;; Ok (t ++ w ++ " ")) "" ;;
  Ok ["Solvers: " ++ t].

(* Input.cpp:782-789, 880-882, 900-902, 934-937, 954-958: the line for the words of
   a property of a solver *)
Definition propertyEcho (k : SolverKind) (values : list string) : res (list string) :=
  let line key t := Ok [get_solver_name k ++ " solver " ++ key ++ ": " ++ t] in
  match values with
  | [] => UB "values[0] of an empty vector"
  | [key; a] => line key a
  | [key; a; b] => line key (a ++ " " ++ b)
  | [key; a; b; c] => line key (a ++ " " ++ b ++ " " ++ c)
  | [key; a; b; c; d; e; f] => line key (a ++ " " ++ b ++ " " ++ c ++ " " ++ d ++ " " ++ e ++ " " ++ f)
  | key :: _ => Exit (key ++ " number of parameters exceeded!")
  end.
(* Input.cpp:767-780 *)
Definition propertiesEcho (name : string) (k : SolverKind) (inp : input T) : res (list string) :=
  foreach (in_solvers inp) (fun s l =>
    if (kind_eqb k SolUNDEFINED || kind_eqb (sd_kind s) k)%bool
    then values <- propertyWords (in_lines inp) name (sd_kind s) ;; e <- propertyEcho (sd_kind s) values ;; Ok (l ++ e)%list
    else Ok l) [].

(* a function of the reading together with what it prints;
   It pairs a function of Input.cpp:79-150 with its calls of out.print *)
Definition noting (e : input T -> res (list string)) (f : input T -> res (input T)) (st : input T * list string)
    : res (input T * list string) :=
  let '(inp, log) := st in
  l <- e inp ;; inp' <- f inp ;; Ok (inp', (log ++ l)%list).

Notation both := (input T * list string)%type.
(* Input.cpp:495-542 with its output *)
Definition notingXS (name title : string) : both -> res both := noting (xsEcho name title) (setXS stod_opt name).
(* Input.cpp:544-578 with its output *)
Definition notingMatrix (name title : string) : both -> res both := noting (matrixEcho name title) (setMatrixXS stod_opt name).
(* Input.cpp:767-960 with its output *)
Definition notingProperties (name : string) (k : SolverKind) : both -> res both :=
  noting (propertiesEcho name k) (setSolverProperties stod_opt name k).

(* Input.cpp:408-435 *)
Definition materialsLog (k : SolverKind) (st : both) : res both :=
  match k with
  | TRANSPORT =>
      st <- notingXS "ni" "Input ni:" st ;; st <- notingXS "chi" "Input chi:" st ;;
      st <- notingXS "fission" "Input fission XS [1/cm]:" st ;; st <- notingXS "total" "Input total XS [1/cm]:" st ;;
      notingMatrix "scattMatrix" "Input scattering matrix [1/cm]:" st
  | DIFFUSION | ADS =>
      st <- notingXS "ni" "Input ni:" st ;; st <- notingXS "chi" "Input chi:" st ;;
      st <- notingXS "fission" "Input fission XS [1/cm]:" st ;; st <- notingXS "total" "Input total XS [1/cm]:" st ;;
      st <- notingXS "diffCoeff" "Input diffusion coefficients [cm]:" st ;;
      notingMatrix "scattMatrix" "Input scattering matrix [1/cm]:" st
  | HEAT => noting conductivityEcho (setMaterialProperties stod_opt) st
  | _ => Ok st
  end.

(* Input.cpp:117-147, with Input.cpp:753-765 *)
Definition readSolverLog (k : SolverKind) (st : both) : res both :=
  let here := isElementHere (in_solvers (fst st)) in
  match k with
  | TRANSPORT | DIFFUSION | ADS | COUPLED => materialsLog k st
  | KINETICS => noting (fun inp => kineticsEcho (in_lines inp)) (setKineticsParameters stod_opt) st
  | HEAT =>
      st <- (if here TRANSPORT || here DIFFUSION
             then noting (fun inp => powerEcho (in_lines inp)) (setThermalPower stod_opt) st
             else noting (fun inp => manyEcho (in_lines inp) "heat_sources" "Input heat_source densities [W/m3]")
                    (setHeatSources stod_opt) st)%bool ;;
      st <- materialsLog HEAT st ;;
      noting (fun inp => manyEcho (in_lines inp) "temperatures" "Input temperatures [C]") (setTemperatures stod_opt) st
  | SolUNDEFINED => Ok st
  end.

(* Input.cpp:79-150 after storeInput *)
Definition readLinesLog (st : both) : res both :=
  st <- noting (fun inp => solversEcho (in_lines inp)) setSolvers st ;;
  let here := isElementHere (in_solvers (fst st)) in
  st <- (if here TRANSPORT || here DIFFUSION || here ADS || here HEAT
         then st <- noting (fun inp => geometryEcho (in_lines inp)) setGeometryKind st ;;
              noting meshEcho (setMesh mpi stod_opt) st
         else Ok st)%bool ;;
  st <- notingProperties "accuracy" SolUNDEFINED st ;;
  st <- notingProperties "max_iteration_number" SolUNDEFINED st ;;
  st <- notingProperties "albedo" TRANSPORT st ;;
  st <- notingProperties "albedo" DIFFUSION st ;;
  st <- notingProperties "albedo" ADS st ;;
  st <- notingProperties "heat_boundary_conditions" HEAT st ;;
  st <- notingProperties "energies" TRANSPORT st ;;
  st <- notingProperties "energies" DIFFUSION st ;;
  st <- notingProperties "energies" ADS st ;;
  st <- notingProperties "direction" DIFFUSION st ;;
  st <- notingProperties "eigenmodes" TRANSPORT st ;;
  st <- notingProperties "eigenmodes" DIFFUSION st ;;
  st <- notingProperties "ext_source" ADS st ;;
  st <- (if (here TRANSPORT || here DIFFUSION) && here HEAT && here COUPLED
         then notingProperties "relaxation_parameter" COUPLED st
         else Ok st)%bool ;;
  st <- foreach (in_solvers (fst st)) (fun s st => readSolverLog (sd_kind s) st) st ;;
  noting (fun _ => Ok []) setPlots st.

(* Input.cpp:79-150: the data and the lines of the log *)
Definition readDataLog (file : option string) : res both :=
  lines <- storeInput file ;;
  readLinesLog (mkInput lines newReactor [] [] [] [], []).

End Echo.
