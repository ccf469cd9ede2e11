(* Backbone/IO/Input.cpp, the word classification of
   Utilities/additionalPrintFuncs.cpp and main.cpp.
   Left out: what is echoed to the log while reading, except the conversions
   inside printVector, which can throw. std::stod is the parameter stod_opt:
   None when it throws. Line counters are unbounded here and unsigned in the
   code, so the model is for files below 2^32 lines. *)
From Coq Require Import String Ascii ZArith List Bool.
From Verif Require Import Base ModelNumTools ModelEigen ModelMesh ModelReactor
  ModelText ModelOutput ModelCalculation.
Import ListNotations.
Local Open Scope string_scope.
Local Open Scope Z_scope.

(* ---------- C++ integers and conversions ---------- *)

(* conversion to unsigned and to int;
   Input.cpp:347, 688 and 718 push the int into a vector of unsigned *)
Definition to_u32 (z : Z) : Z := z mod 4294967296.
(* Input.cpp:358, 693 and 726 sum into an int *)
Definition to_i32 (z : Z) : Z := (z + 2147483648) mod 4294967296 - 2147483648.
(* std::numeric_limits<unsigned>::max(); Input.cpp:177 and 607 *)
Definition umax : Z := 4294967295.
(* std::accumulate(v.begin(), v.end(), 0) over unsigned values; Input.cpp:358, 693 and 726 *)
Definition accumulate (l : list Z) : Z := fold_left (fun acc n => to_i32 (acc + n)) l 0.

(* For the std::stoi of Input.cpp:347 *)
Fixpoint digits_value (acc : Z) (s : string) : Z :=
  match s with
  | "" => acc
  | String c s' => if isdigit c then digits_value (10 * acc + Z.of_nat (code c - 48)) s' else acc
  end.
(* For the std::stoi of Input.cpp:347 *)
Fixpoint skip_blanks (s : string) : string :=
  match s with
  | "" => ""
  | String c s' => if isspace c then skip_blanks s' else s
  end.
(* std::stoi(s): the longest prefix that is a decimal number;
   Input.cpp:347, 688, 718, 794, 799, 800 and 922 *)
Definition stoi (s : string) : res Z :=
  let s := skip_blanks s in
  let '(neg, s) := match s with
                   | String "-" s' => (true, s')
                   | String "+" s' => (false, s')
                   | _ => (false, s)
                   end in
  if isdigit (front s)
  then let v := digits_value 0 s in
       let z := if neg then - v else v in
       if (-2147483648 <=? z) && (z <=? 2147483647) then Ok z else Throw "std::out_of_range"
  else Throw "std::invalid_argument".

(* ---------- additionalPrintFuncs.cpp ---------- *)

(* additionalPrintFuncs.cpp:363-366 *)
Definition isDigitLambda (c : ascii) : bool :=
  (isdigit c || Ascii.eqb c "E" || Ascii.eqb c "e" || Ascii.eqb c "+" || Ascii.eqb c "-")%bool.
(* additionalPrintFuncs.cpp:350-379: the range from dotFound + 2 is invalid
   when the dot is the last character *)
Definition isFloat (s : string) : res bool :=
  if String.eqb s "" then Ok false
  else match index 0 "." s with
       | None => Ok false
       | Some d =>
           if (d + 2 <=? String.length s)%nat
           then Ok (all_of isDigitLambda (substring 0 d s) && all_of isDigitLambda (substr_from (d + 2) s))%bool
           else UB "iterator past the end"
       end.
(* additionalPrintFuncs.cpp:381-398 *)
Definition isInteger (s : string) : bool :=
  if String.eqb s "" then false else all_of isdigit s.
(* additionalPrintFuncs.cpp:400-417 *)
Definition isString (s : string) : bool :=
  if String.eqb s "" then false else isalpha (front s).

(* ---------- lines and words ---------- *)

(* std::getline until it fails; Input.cpp:66 *)
Fixpoint getlines_acc (w : string) (s : string) : list string :=
  match s with
  | "" => match w with "" => [] | _ => [w] end
  | String c s' => if Nat.eqb (code c) 10 then w :: getlines_acc "" s'
                   else getlines_acc (w ++ String c "") s'
  end.
(* Input.cpp:66 *)
Definition getlines (s : string) : list string := getlines_acc "" s.

(* Input.cpp:68-70 *)
Fixpoint erase_leading (s : string) : string :=
  match s with
  | String " " s' => erase_leading s'
  | _ => s
  end.
(* Input.cpp:152-158: unique_copy compares each character with the last one
   it has kept *)
Fixpoint unique_from (kept : ascii) (s : string) : string :=
  match s with
  | "" => ""
  | String c s' => if (isspace kept && isspace c)%bool then unique_from kept s'
                   else String c (unique_from c s')
  end.
(* Input.cpp:152-158 *)
Definition removeExtraSpaces (s : string) : string :=
  match s with "" => "" | String c s' => String c (unique_from c s') end.
(* Input.cpp:54-77; None when the file cannot be opened *)
Definition storeInput (file : option string) : res (list string) :=
  match file with
  | None => Exit "Unable to open file"
  | Some text => Ok (map (fun l => removeExtraSpaces (erase_leading l)) (getlines text))
  end.

(* itemLine.front() == '%'; Input.cpp:168 and 201 *)
Definition is_comment (l : string) : bool := Ascii.eqb (front l) "%".

(* Input.cpp:160-190; the keys are lowercased before the loop instead of at
   each line *)
Fixpoint findBlock_loop (k1 k2 : string) (lines : list string) (n start stop : Z) : Z * Z :=
  match lines with
  | [] => (start, stop)
  | l :: rest =>
      if is_comment l then findBlock_loop k1 k2 rest n start stop
      else
        let l := lower l in
        let stop := if contains k1 l then (if start =? 0 then umax else n) else stop in
        let start := if contains (k1 ++ " " ++ k2) l then n else start in
        findBlock_loop k1 k2 rest (n + 1) start stop
  end.
(* Input.cpp:160-190 *)
Definition findBlock (lines : list string) (keyOne keyTwo : string) : Z * Z :=
  findBlock_loop (lower keyOne) (lower keyTwo) lines 0 0 0.

(* Input.cpp:192-224; the key is lowercased before the loop *)
Fixpoint findKeyword_loop (key : string) (low top : Z) (lines : list string) (counter : Z) : option string :=
  match lines with
  | [] => None
  | l :: rest =>
      if is_comment l then findKeyword_loop key low top rest counter
      else
        let l := lower l in
        if contains key l && (low <=? counter) && (counter <=? top) then Some l
        else findKeyword_loop key low top rest (counter + 1)
  end.
(* Input.cpp:192-224 *)
Definition findKeyword (lines : list string) (toSearch : string) (low top : Z) (optional : bool) : res string :=
  match findKeyword_loop (lower toSearch) low top lines 0 with
  | Some l => Ok l
  | None => if optional then Ok "" else Exit (lower toSearch ++ " is missing from the input!")
  end.

(* line.substr(0, line.find("%")); Input.cpp:229-233 *)
Fixpoint before_percent (s : string) : string :=
  match s with
  | "" => ""
  | String c s' => if Ascii.eqb c "%" then "" else String c (before_percent s')
  end.
(* Input.cpp:226-240 *)
Definition splitLine (line : string) : list string := words (before_percent line).

(* Input.cpp:580-601 *)
Definition readOneParameter (lines : list string) (name : string) : res string :=
  l <- findKeyword lines name 0 umax false ;;
  match splitLine l with
  | [] => UB "words[0] of an empty vector"
  | [w] => Exit (w ++ " is missing its parameters!")
  | [_; v] => Ok v
  | w :: _ => Exit (w ++ "  has too many parameters!")
  end.
(* Input.cpp:603-624 *)
Definition readManyParameters (lines : list string) (name : string) (optional : bool) : res (list string) :=
  l <- findKeyword lines name 0 umax optional ;;
  match splitLine l with
  | [] => Ok [""]
  | [w] => Exit (w ++ " is missing its parameters!")
  | _ :: vs => Ok vs
  end.

(* SolverKind.h:23-36 *)
Definition get_solver_name (k : SolverKind) : string :=
  match k with
  | SolUNDEFINED => "UNDEFINED"
  | COUPLED => "COUPLED"
  | TRANSPORT => "TRANSPORT"
  | KINETICS => "KINETICS"
  | HEAT => "HEAT"
  | DIFFUSION => "DIFFUSION"
  | ADS => "ADS"
  end.

(* std::sort and std::unique of Input.cpp:401-403 *)
Fixpoint insert_string (s : string) (l : list string) : list string :=
  match l with
  | [] => [s]
  | x :: l' => if String.leb s x then s :: l else x :: insert_string s l'
  end.
(* Input.cpp:401 *)
Definition sort_strings (l : list string) : list string := fold_right insert_string [] l.
(* Input.cpp:402-403 *)
Fixpoint unique_strings (l : list string) : list string :=
  match l with
  | x :: ((y :: _) as l') => if String.eqb x y then unique_strings l' else x :: unique_strings l'
  | _ => l
  end.

Section Input.
Context {T : Type} {N : Num T}.
Variable mpi : T.
Variable stod_opt : string -> option T.

(* Input.cpp:329, 350, 628, 631, 792 and others *)
Definition stod (s : string) : res T :=
  match stod_opt s with Some x => Ok x | None => Throw "std::stod" end.
(* std::transform(v.begin(), v.end(), ..., stod); Input.cpp:666-668 *)
Fixpoint stods (l : list string) : res (list T) :=
  match l with
  | [] => Ok []
  | s :: l' => x <- stod s ;; xs <- stods l' ;; Ok (x :: xs)
  end.

(* additionalPrintFuncs.cpp:338-348 and 245-266: printing words converts
   those that do not start with a letter *)
Definition printStrings (l : list string) : res unit :=
  foreach l (fun s _ => if isString s then Ok tt else stod s ;;; Ok tt) tt.

(* Input.h: what Input holds. in_rx is m_reactor, its mesh m_mesh. *)
Record input := mkInput {
  in_lines : list string;
  in_rx : reactor T;
  in_solvers : list (solverData T);
  in_map : list string;
  in_list : list string;
  in_plots : list PlotKind
}.

(* m_mesh of Input.h:19 and 65 *)
Definition in_mesh (inp : input) : mesh T := rx_mesh (in_rx inp).
(* Assignment through m_reactor (Input.h:64) *)
Definition with_rx (r : reactor T) (inp : input) : input :=
  mkInput (in_lines inp) r (in_solvers inp) (in_map inp) (in_list inp) (in_plots inp).
(* Assignment through m_mesh (Input.h:65) *)
Definition put_mesh (ms : mesh T) (inp : input) : input := with_rx (with_mesh ms (in_rx inp)) inp.
(* Assignment to m_solvers (Input.h:70) *)
Definition with_solvers (l : list (solverData T)) (inp : input) : input :=
  mkInput (in_lines inp) (in_rx inp) l (in_map inp) (in_list inp) (in_plots inp).

(* Input.cpp:242-298 *)
Definition solver_of_word (w : string) : res (solverData T) :=
  if String.eqb w "transport" then Ok (newSolverData TRANSPORT)
  else if String.eqb w "kinetics" then Ok (newSolverData KINETICS)
  else if String.eqb w "heat" then Ok (newSolverData HEAT)
  else if String.eqb w "diffusion" then Ok (newSolverData DIFFUSION)
  else if String.eqb w "ads" then Ok (newSolverData ADS)
  else Exit (w ++ " solver kind not recognized!").
(* Input.cpp:242-298 *)
Definition setSolvers (inp : input) : res input :=
  values <- readManyParameters (in_lines inp) "solvers" false ;;
  solvers <- foreach values (fun w acc => s <- solver_of_word w ;; Ok (acc ++ [s])%list) [] ;;
  Ok (with_solvers (if 2 <=? zlen solvers then solvers ++ [newSolverData COUPLED] else solvers)%list inp).

(* Mesh.cpp:10-14 *)
Definition setMeshKind (k : GeomKind) (ms : mesh T) : mesh T :=
  mkMesh (ms_bounds ms) k (ms_cells ms) (ms_groups ms) (ms_mats ms) (ms_nfwd ms) (ms_nadj ms).
(* Input.cpp:300-324 *)
Definition setGeometryKind (inp : input) : res input :=
  g <- readOneParameter (in_lines inp) "geometry" ;;
  if String.eqb g "cylinder" then Ok (put_mesh (setMeshKind CYLINDER (in_mesh inp)) inp)
  else if String.eqb g "sphere" then Ok (put_mesh (setMeshKind SPHERE (in_mesh inp)) inp)
  else if String.eqb g "slab" then Ok (put_mesh (setMeshKind SLAB (in_mesh inp)) inp)
  else Exit ("Geometry: " ++ g ++ " not recognized!").

(* Reactor.h:29 *)
Definition with_power (p : T) (r : reactor T) : reactor T :=
  mkReactor (rx_mesh r) p (rx_fwd r) (rx_adj r) (rx_kin r) (rx_ext r).
(* Input.cpp:326-332 *)
Definition setThermalPower (inp : input) : res input :=
  w <- readOneParameter (in_lines inp) "thermal_power" ;;
  p <- stod w ;;
  Ok (with_rx (with_power p (in_rx inp)) inp).

(* VectorXd::Zero(n) and result.resize(n) of an all zero vector; Input.cpp:359 *)
Definition eigen_zero (n : Z) : res (vec T) := if n <? 0 then UB "negative size" else Ok (vzeros n).
(* Input.cpp:695 and 728 *)
Definition resize_zero (n : Z) : res (vec T) := if n <? 0 then Throw "std::length_error" else Ok (vzeros n).

(* Input.cpp:358-375 and 726-744: the same text, on a VectorXd and on a
   std::vector<double> *)
Definition ramp (alloc : Z -> res (vec T)) (counts : list Z) (spans : list T) : res (vec T) :=
  let tot := accumulate counts in
  if tot =? 2147483647 then UB "signed overflow" else
  b <- alloc (tot + 1) ;;
  ' (b, _, _) <- zfor 1 (zlen counts) (fun i st =>
      let '(b, idx, sum) := st in
      n <- lget counts i ;;
      let last := if i =? zlen counts - 1 then 1 else 0 in
      ' (b, idx) <- zfor 0 (n + last) (fun j st =>
          let '(b, idx) := st in
          d <- lget spans i ;;
          b <- vset b idx (nofZ j [*] d [/] nofZ n [+] sum) ;;
          Ok (b, idx + 1)) (b, idx) ;;
      d <- lget spans i ;;
      Ok (b, idx, sum [+] d)) (b, 0, n0) ;;
  Ok b.

(* Input.cpp:342-356 *)
Fixpoint regions (l : list string) : res (list Z * list T * list string) :=
  match l with
  | [] => Ok ([], [], [])
  | [c] => n <- stoi c ;; Ok ([to_u32 n], [], [])
  | [c; d] => n <- stoi c ;; x <- stod d ;; Ok ([to_u32 n], [x], [])
  | c :: d :: m :: l' =>
      n <- stoi c ;; x <- stod d ;;
      ' (ns, xs, mts) <- regions l' ;;
      Ok (to_u32 n :: ns, x :: xs, m :: mts)
  end.

(* Input.cpp:334-406 *)
Definition setMesh (inp : input) : res input :=
  values <- readManyParameters (in_lines inp) "mesh" false ;;
  ' (ns, xs, mts) <- regions values ;;
  let regionNumber := 0 :: ns in
  let regionDistance := n0 :: xs in
  boundaries <- ramp eigen_zero regionNumber regionDistance ;;
  let ms := setBoundaries boundaries (in_mesh inp) in
  getVolumes mpi ms "m" ;;;
  names <- zfor 1 (zlen regionNumber) (fun i names =>
      n <- lget regionNumber i ;;
      zfor 0 n (fun _ names => m <- lget mts (i - 1) ;; Ok (names ++ [m])%list) names) (in_map inp) ;;
  ms <- createMaterials names ms ;;
  printStrings names ;;;
  getMeshMiddlePoints ms ;;;
  Ok (mkInput (in_lines inp) (with_mesh ms (in_rx inp)) (in_solvers inp) names
        (unique_strings (sort_strings mts)) (in_plots inp)).

(* Material.cpp:23-75: push_back of a law *)
Definition push_law (name : string) (c : list T) (m : material T) : material T :=
  let keep tot fis dif sca ni chi :=
    mkMaterial (mt_name m) (mt_energies m) (mt_temp m) (mt_heat m) (mt_flux m) (mt_adj m)
      (mt_totflux m) (mt_cond m) tot fis dif sca ni chi in
  let t := mt_totXS m in let f := mt_fisXS m in let d := mt_diff m in
  let s := mt_scatt m in let n := mt_ni m in let x := mt_chi m in
  if String.eqb name "total" then keep (t ++ [c])%list f d s n x
  else if String.eqb name "fission" then keep t (f ++ [c])%list d s n x
  else if String.eqb name "diffCoeff" then keep t f (d ++ [c])%list s n x
  else if String.eqb name "scattMatrix" then keep t f d (s ++ [c])%list n x
  else if String.eqb name "ni" then keep t f d s (n ++ [c])%list x
  else if String.eqb name "chi" then keep t f d s n (x ++ [c])%list
  else m.

(* std::vector<std::string>(values.begin() + k, values.end()); Input.cpp:484, 513, 564 and 620 *)
Fixpoint words_from (k : nat) (l : list string) : res (list string) :=
  match k, l with
  | O, _ => Ok l
  | S k', _ :: l' => words_from k' l'
  | S _, [] => UB "iterator past the end"
  end.

(* Input.cpp:511-536 and 562-571: one entry of cell m *)
Definition readLaw (lines : list string) (block : Z * Z) (name key : string) (skip : nat) (m : Z)
    (ms : mesh T) : res (mesh T) :=
  l <- findKeyword lines key (fst block) (snd block) false ;;
  numberVec <- words_from skip (splitLine l) ;;
  mt <- lget (ms_mats ms) m ;;
  c <- stods numberVec ;;
  mats <- lset (ms_mats ms) m (push_law name c mt) ;;
  printStrings numberVec ;;;
  Ok (with_mats ms mats).

(* The loop over materials and cells of Input.cpp:449-472, 499-541, 548-577 *)
Definition forMaterials (inp : input) (body : Z * Z -> Z -> mesh T -> res (mesh T)) : res input :=
  let lines := in_lines inp in
  let cells := ms_cells (in_mesh inp) in
  ms <- foreach (in_list inp) (fun item ms =>
      readOneParameter lines ("material " ++ item) ;;;
      let block := findBlock lines "material" item in
      zfor 0 cells (fun m ms =>
        nm <- lget (in_map inp) m ;;
        if String.eqb nm item then body block m ms else Ok ms) ms) (in_mesh inp) ;;
  Ok (put_mesh ms inp).

(* Input.cpp:495-542 *)
Definition setXS (name : string) (inp : input) : res input :=
  let energies := ms_groups (in_mesh inp) in
  forMaterials inp (fun block m ms =>
    zfor 1 (energies + 1) (fun i ms =>
      readLaw (in_lines inp) block name (name ++ "(" ++ to_string i ++ ")") 1 m ms) ms).

(* Input.cpp:544-578 *)
Definition setMatrixXS (name : string) (inp : input) : res input :=
  let energies := ms_groups (in_mesh inp) in
  forMaterials inp (fun block m ms =>
    zfor 1 (energies + 1) (fun i ms =>
      zfor 1 (energies + 1) (fun j ms =>
        readLaw (in_lines inp) block name
          (name ++ "(" ++ to_string i ++ ", " ++ to_string j ++ ")") 2 m ms) ms) ms).

(* Input.cpp:475-493 and Mesh.cpp:182-185 *)
Definition setThermalConductivity (values : list string) (index : Z) (ms : mesh T) : res (mesh T) :=
  match values with
  | [] => UB "values[0] of an empty vector"
  | [w] => Exit (w ++ " has no parameters!")
  | w :: numberVec =>
      if zlen values <? 5
      then mt <- lget (ms_mats ms) index ;;
           c <- stods numberVec ;;
           mats <- lset (ms_mats ms) index (set_cond c mt) ;;
           printStrings numberVec ;;;
           Ok (with_mats ms mats)
      else Exit (w ++ " number of parameters exceeded!")
  end.

(* Input.cpp:437-473, called with "thermal_conductivity" only *)
Definition setMaterialProperties (inp : input) : res input :=
  forMaterials inp (fun block m ms =>
    l <- findKeyword (in_lines inp) "thermal_conductivity" (fst block) (snd block) false ;;
    setThermalConductivity (splitLine l) m ms).

(* Input.cpp:408-435 *)
Definition setMaterials (k : SolverKind) (inp : input) : res input :=
  match k with
  | TRANSPORT =>
      inp <- setXS "ni" inp ;; inp <- setXS "chi" inp ;; inp <- setXS "fission" inp ;;
      inp <- setXS "total" inp ;; setMatrixXS "scattMatrix" inp
  | DIFFUSION | ADS =>
      inp <- setXS "ni" inp ;; inp <- setXS "chi" inp ;; inp <- setXS "fission" inp ;;
      inp <- setXS "total" inp ;; inp <- setXS "diffCoeff" inp ;; setMatrixXS "scattMatrix" inp
  | HEAT => setMaterialProperties inp
  | _ => Ok inp
  end.

(* std::all_of(values.begin(), values.end(), isFloat) stops at the first no; Input.cpp:664-665 *)
Fixpoint all_floats (l : list string) : res bool :=
  match l with
  | [] => Ok true
  | s :: l' => b <- isFloat s ;; if b then all_floats l' else Ok false
  end.

(* Input.cpp:680-691 *)
Fixpoint values_counts (l : list string) : res (list T * list Z) :=
  match l with
  | [] => Ok ([], [])
  | [v] => x <- stod v ;; Ok ([x], [])
  | v :: c :: l' =>
      x <- stod v ;; n <- stoi c ;;
      ' (xs, ns) <- values_counts l' ;;
      Ok (x :: xs, to_u32 n :: ns)
  end.
(* Input.cpp:713-724 *)
Fixpoint counts_spans (l : list string) : res (list Z * list T) :=
  match l with
  | [] => Ok ([], [])
  | [c] => n <- stoi c ;; Ok ([to_u32 n], [])
  | c :: v :: l' =>
      n <- stoi c ;; x <- stod v ;;
      ' (ns, xs) <- counts_spans l' ;;
      Ok (to_u32 n :: ns, x :: xs)
  end.

(* Input.cpp:693-706 *)
Definition repeated (xs : list T) (ns : list Z) : res (vec T) :=
  r <- resize_zero (accumulate ns) ;;
  ' (r, _) <- zfor 0 (zlen ns) (fun i st =>
      n <- lget ns i ;;
      zfor 0 n (fun _ st =>
        let '(r, idx) := st in
        x <- lget xs i ;; r <- vset r idx x ;; Ok (r, idx + 1)) st) (r, 0) ;;
  Ok r.

(* Input.cpp:660-750, on the words readManyParameters returns *)
Definition expand (values : list string) : res (list T) :=
  floats <- all_floats values ;;
  if floats then stods values
  else match values with
       | [] => UB "front() of an empty vector"
       | w :: _ =>
           f <- isFloat w ;;
           if f
           then ' (xs, ns) <- values_counts values ;; v <- repeated xs ns ;; Ok (list_of_vec v)
           else ' (ns, xs) <- counts_spans values ;;
                v <- ramp resize_zero (0 :: ns) (n0 :: xs) ;; Ok (list_of_vec v)
       end.
(* Input.cpp:656-751 *)
Definition setManyParameters (lines : list string) (name : string) : res (list T) :=
  values <- readManyParameters lines name false ;;
  expand values.

(* Input.cpp:753-758 *)
Definition setTemperatures (inp : input) : res input :=
  ts <- setManyParameters (in_lines inp) "temperatures" ;;
  ms <- ModelMesh.setTemperatures (vec_of_list n0 ts) (in_mesh inp) ;;
  Ok (put_mesh ms inp).
(* Input.cpp:760-765 *)
Definition setHeatSources (inp : input) : res input :=
  qs <- setManyParameters (in_lines inp) "heat_sources" ;;
  ms <- ModelMesh.setHeatSources (vec_of_list n0 qs) (in_mesh inp) ;;
  Ok (put_mesh ms inp).

(* Reactor.h:17-18 *)
Definition with_kin (k : kineticsSet T) (r : reactor T) : reactor T :=
  mkReactor (rx_mesh r) (rx_power r) (rx_fwd r) (rx_adj r) k (rx_ext r).
(* Reactor.h:42 *)
Definition with_ext (e : T * Z * Z) (r : reactor T) : reactor T :=
  mkReactor (rx_mesh r) (rx_power r) (rx_fwd r) (rx_adj r) (rx_kin r) e.

(* Input.cpp:626-654 *)
Definition setKineticsParameters (inp : input) : res input :=
  let lines := in_lines inp in
  a <- readOneParameter lines "generation_time" ;; alpha <- stod a ;;
  p <- readOneParameter lines "initial_power" ;; power <- stod p ;;
  lambda <- setManyParameters lines "delayed_constants" ;;
  beta <- setManyParameters lines "delayed_fractions" ;;
  times <- setManyParameters lines "times" ;;
  reactivities <- setManyParameters lines "reactivities" ;;
  if zlen times =? zlen reactivities
  then Ok (with_rx (with_kin (mkKinetics alpha power lambda beta reactivities times) (in_rx inp)) inp)
  else Exit "times and reactivities must have equal sizes!".

(* SolverData.h:18-37 *)
Definition set_acc (x : T) (s : solverData T) : solverData T :=
  mkSolverData (sd_kind s) x (sd_max s) (sd_relax s) (sd_albedo s) (sd_heatbc s) (sd_energies s) (sd_dir s) (sd_eig s).
(* SolverData.h:22 *)
Definition set_max (x : Z) (s : solverData T) : solverData T :=
  mkSolverData (sd_kind s) (sd_acc s) x (sd_relax s) (sd_albedo s) (sd_heatbc s) (sd_energies s) (sd_dir s) (sd_eig s).
(* SolverData.h:24 *)
Definition set_relax (x : T) (s : solverData T) : solverData T :=
  mkSolverData (sd_kind s) (sd_acc s) (sd_max s) x (sd_albedo s) (sd_heatbc s) (sd_energies s) (sd_dir s) (sd_eig s).
(* SolverData.h:26 *)
Definition set_albedo (x : list T) (s : solverData T) : solverData T :=
  mkSolverData (sd_kind s) (sd_acc s) (sd_max s) (sd_relax s) x (sd_heatbc s) (sd_energies s) (sd_dir s) (sd_eig s).
(* SolverData.h:28 *)
Definition set_heatbc (x : list T) (s : solverData T) : solverData T :=
  mkSolverData (sd_kind s) (sd_acc s) (sd_max s) (sd_relax s) (sd_albedo s) x (sd_energies s) (sd_dir s) (sd_eig s).
(* SolverData.h:30 *)
Definition set_nenergies (x : Z) (s : solverData T) : solverData T :=
  mkSolverData (sd_kind s) (sd_acc s) (sd_max s) (sd_relax s) (sd_albedo s) (sd_heatbc s) x (sd_dir s) (sd_eig s).
(* SolverData.h:32 *)
Definition set_dir (x : DirectionKind) (s : solverData T) : solverData T :=
  mkSolverData (sd_kind s) (sd_acc s) (sd_max s) (sd_relax s) (sd_albedo s) (sd_heatbc s) (sd_energies s) x (sd_eig s).
(* SolverData.h:34 *)
Definition set_eig (x : EigenmodesKind) (s : solverData T) : solverData T :=
  mkSolverData (sd_kind s) (sd_acc s) (sd_max s) (sd_relax s) (sd_albedo s) (sd_heatbc s) (sd_energies s) (sd_dir s) x.

(* operator== on GeomKind.h, as in Input.cpp:811, 887, 906 and 941 *)
Definition geom_eqb (a b : GeomKind) : bool :=
  match a, b with
  | GeomUNDEFINED, GeomUNDEFINED | SLAB, SLAB | CYLINDER, CYLINDER | SPHERE, SPHERE => true
  | _, _ => false
  end.

(* Input.cpp:787-958: what the words of the line do to the solver and the
   reactor; k is inputSolver. SolverData.cpp:8-14 for the heat conditions. *)
Definition applyProperty (k : SolverKind) (values : list string) (s : solverData T) (r : reactor T)
    : res (solverData T * reactor T) :=
  let slab := geom_eqb (ms_geom (rx_mesh r)) SLAB in
  let error key := Exit ("Error setting " ++ key ++ " for " ++ get_solver_name (sd_kind s) ++ " solver!") in
  match values with
  | [] => UB "values[0] of an empty vector"
  | [key; a] =>
      if String.eqb key "accuracy" then x <- stod a ;; Ok (set_acc x s, r)
      else if String.eqb key "max_iteration_number" then n <- stoi a ;; Ok (set_max n s, r)
      else if String.eqb key "relaxation_parameter" then x <- stod a ;; Ok (set_relax x s, r)
      else if String.eqb key "energies" then
        n <- stoi a ;;
        ms <- setEnergyGroupsNumber (to_u32 n) (rx_mesh r) ;;
        Ok (set_nenergies n s, with_mesh ms r)
      else if String.eqb key "albedo" then
        match k with
        | TRANSPORT => x <- stod a ;; Ok (set_albedo [x] s, r)
        | DIFFUSION | ADS => if slab then error key else x <- stod a ;; Ok (set_albedo [x] s, r)
        | _ => error key
        end
      else if String.eqb key "direction" then
        match k with
        | DIFFUSION => if String.eqb a "forward" then Ok (set_dir FORWARD s, r)
                       else if String.eqb a "adjoint" then Ok (set_dir ADJOINT s, r)
                       else error key
        | _ => error key
        end
      else if String.eqb key "eigenmodes" then
        match k with
        | DIFFUSION | TRANSPORT =>
            if String.eqb a "fundamental" then Ok (set_eig FUNDAMENTAL s, r)
            else if String.eqb a "all" then Ok (set_eig EigALL s, r)
            else error key
        | _ => error key
        end
      else Ok (s, r)
  | [key; a; b] =>
      if String.eqb key "albedo" then
        match k with
        | DIFFUSION | ADS => if slab then x <- stod a ;; y <- stod b ;; Ok (set_albedo [x; y] s, r)
                             else error key
        | _ => error key
        end
      else Ok (s, r)
  | [key; a; b; c] =>
      if String.eqb key "heat_boundary_conditions" then
        match k with
        | HEAT => if slab then error key else xs <- stods [a; b; c] ;; Ok (set_heatbc xs s, r)
        | _ => error key
        end
      else if String.eqb key "ext_source" then
        match k with
        | ADS => x <- stod a ;; n <- stoi b ;; m <- stoi c ;;
                 Ok (s, with_ext (x, to_u32 n, to_u32 m) r)
        | _ => error key
        end
      else Ok (s, r)
  | [key; a; b; c; d; e; f] =>
      if String.eqb key "heat_boundary_conditions" then
        match k with
        | HEAT => if slab then xs <- stods [a; b; c; d; e; f] ;; Ok (set_heatbc xs s, r) else error key
        | _ => error key
        end
      else Ok (s, r)
  | key :: _ => Exit (key ++ " number of parameters exceeded!")
  end.

(* Input.cpp:777-780: the words of the line of a property of a solver *)
Definition propertyWords (lines : list string) (name : string) (k : SolverKind) : res (list string) :=
  readOneParameter lines ("solver " ++ get_solver_name k) ;;;
  let block := findBlock lines "solver" (get_solver_name k) in
  l <- findKeyword lines name (fst block) (snd block) false ;;
  Ok (splitLine l).

(* Input.cpp:767-960; k is SolUNDEFINED when the property is for every solver *)
Definition setSolverProperties (name : string) (k : SolverKind) (inp : input) : res input :=
  ' (l, r) <- foreach (in_solvers inp) (fun s st =>
      let '(l, r) := st in
      if (kind_eqb k SolUNDEFINED || kind_eqb (sd_kind s) k)%bool
      then values <- propertyWords (in_lines inp) name (sd_kind s) ;;
           ' (s, r) <- applyProperty k values s r ;;
           Ok (l ++ [s], r)%list
      else Ok (l ++ [s], r)%list) ([], in_rx inp) ;;
  Ok (with_rx r (with_solvers l inp)).

(* Input.cpp:962-983 *)
Definition plot_of_word (w : string) : list PlotKind :=
  if String.eqb w "neutronflux" then [NEUTRONFLUX]
  else if String.eqb w "adjointflux" then [ADJOINTFLUX]
  else if String.eqb w "totalflux" then [TOTALFLUX]
  else if String.eqb w "temperature" then [TEMPERATURE]
  else if String.eqb w "powerdensity" then [POWERDENSITY]
  else [].
(* Input.cpp:962-983 *)
Definition setPlots (inp : input) : res input :=
  values <- readManyParameters (in_lines inp) "plots" true ;;
  Ok (mkInput (in_lines inp) (in_rx inp) (in_solvers inp) (in_map inp) (in_list inp)
        (in_plots inp ++ flat_map plot_of_word values)%list).

(* helper_tools.h:20-31 *)
Definition isElementHere (l : list (solverData T)) (k : SolverKind) : bool :=
  existsb (fun s => kind_eqb (sd_kind s) k) l.

(* Input.cpp:117-147: one turn of the loop over the solvers *)
Definition readSolverInput (inp : input) (k : SolverKind) : res input :=
  let here := isElementHere (in_solvers inp) in
  match k with
  | TRANSPORT | DIFFUSION | ADS | COUPLED => setMaterials k inp
  | KINETICS => setKineticsParameters inp
  | HEAT =>
      inp <- (if here TRANSPORT || here DIFFUSION then setThermalPower inp else setHeatSources inp)%bool ;;
      inp <- setMaterials HEAT inp ;;
      setTemperatures inp
  | SolUNDEFINED => Ok inp
  end.

(* Input.cpp:79-150 after storeInput *)
Definition readLines (inp : input) : res input :=
  inp <- setSolvers inp ;;
  let here := isElementHere (in_solvers inp) in
  inp <- (if here TRANSPORT || here DIFFUSION || here ADS || here HEAT
          then inp <- setGeometryKind inp ;; setMesh inp
          else Ok inp)%bool ;;
  inp <- setSolverProperties "accuracy" SolUNDEFINED inp ;;
  inp <- setSolverProperties "max_iteration_number" SolUNDEFINED inp ;;
  inp <- setSolverProperties "albedo" TRANSPORT inp ;;
  inp <- setSolverProperties "albedo" DIFFUSION inp ;;
  inp <- setSolverProperties "albedo" ADS inp ;;
  inp <- setSolverProperties "heat_boundary_conditions" HEAT inp ;;
  inp <- setSolverProperties "energies" TRANSPORT inp ;;
  inp <- setSolverProperties "energies" DIFFUSION inp ;;
  inp <- setSolverProperties "energies" ADS inp ;;
  inp <- setSolverProperties "direction" DIFFUSION inp ;;
  inp <- setSolverProperties "eigenmodes" TRANSPORT inp ;;
  inp <- setSolverProperties "eigenmodes" DIFFUSION inp ;;
  inp <- setSolverProperties "ext_source" ADS inp ;;
  inp <- (if (here TRANSPORT || here DIFFUSION) && here HEAT && here COUPLED
          then setSolverProperties "relaxation_parameter" COUPLED inp
          else Ok inp)%bool ;;
  inp <- foreach (in_solvers inp) (fun s inp => readSolverInput inp (sd_kind s)) inp ;;
  setPlots inp.

(* Input.cpp:79-150 on a fresh Reactor, Input.h *)
Definition readData (file : option string) : res input :=
  lines <- storeInput file ;;
  readLines (mkInput lines newReactor [] [] [] []).

End Input.
Arguments input : clear implicits.
