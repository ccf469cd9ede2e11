(* Backbone/Datamodel: AbstractSolver, CoupledSolver, ADSSolver, BaseCalculation,
   SingleCalculation, DoubleCalculation, ADSCalculation and Problem. The text
   printed inside the solvers' solve functions is left out, but for the powers
   of the kinetics solver, which are its only result. *)
From Coq Require Import String ZArith List Bool.
From Verif Require Import Base ModelNumTools ModelEigen ModelMesh ModelReactor ModelDiffusion ModelHeat
  ModelSpectrum ModelKinetics ModelOutput.
Import ListNotations.
Local Open Scope Z_scope.

(* operator== on SolverKind.h:6, as in BaseCalculation.cpp:16 and Input.cpp:774 *)
Definition kind_eqb (a b : SolverKind) : bool :=
  match a, b with
  | SolUNDEFINED, SolUNDEFINED | COUPLED, COUPLED | TRANSPORT, TRANSPORT | KINETICS, KINETICS
  | HEAT, HEAT | DIFFUSION, DIFFUSION | ADS, ADS => true
  | _, _ => false
  end.

Section Calculation.
Context {T : Type} {N : Num T}.
Variable mpi : T.

(* the numerical libraries: linear solver, std::sort, generalised eigenvalues,
   polynomial roots, expint(3, .), bickley3f, exp, sqrt *)
Variable solver : mat T -> vec T -> vec T.
Variable sort : list (T * vec T) -> list (T * vec T).
Variable eig : mat T -> mat T -> vec (T * T) * mat (T * T).
Variable croots : list T -> list (T * T).
Variables (expint3 bickley3f nexp nsqrt : T -> T).
(* double to unsigned conversion: undefined outside the range of unsigned *)
Variable to_unsigned : T -> res Z.

(* std::variant<double, VectorXd, MatrixXd>; BaseCalculation.cpp:38-39, AbstractSolver.h:24 *)
Inductive param := PDouble (x : T) | PVector (v : vec T) | PMatrix (m : mat T).

(* AbstractSolver.cpp:12-43 with the solve() of each class: HeatSolver.cpp:10,
   DiffusionSolver.cpp:11, SpectrumSolver.cpp:8, KineticsSolver.cpp:5 (whose
   results are only printed), CoupledSolver.h:14 and ADSSolver.h:14. The first
   component is the member kept for the relaxation. An undefined kind gives a
   null pointer. *)
Definition solve1 (sd : solverData T) (r : reactor T) : res (vec T * reactor T) :=
  match sd_kind sd with
  | COUPLED | ADS => Ok (vzeros 0, r)
  | TRANSPORT => spectrumSolve mpi expint3 bickley3f nexp nsqrt solver sort eig sd r
  | KINETICS => _ <- kineticsSolve nexp croots r ;; Ok (vzeros 0, r)
  | HEAT => heatSolve mpi solver sd r
  | DIFFUSION => diffusionSolve mpi solver sort eig sd r
  | SolUNDEFINED => UB "null pointer"
  end.

(* what solve() prints at the highest level: Kinetics.cpp:101-102. The kinetics
   solver does not change the reactor, so the powers are found again. *)
Definition solveLog (sd : solverData T) (r : reactor T) : res (log T) :=
  match sd_kind sd with
  | KINETICS =>
      p <- kineticsSolve nexp croots r ;;
      Ok [(CRITICAL, IText "Output power [W]: "); (CRITICAL, IVector (vec_of_list n0 p))]
  | _ => Ok []
  end.

(* relaxResults of each class: HeatSolver.cpp:57, DiffusionSolver.cpp:45,
   SpectrumSolver.cpp:36, empty in KineticsSolver.h, CoupledSolver.h:19 and ADSSolver.h:19 *)
Definition relaxResults (sd : solverData T) (par : T) (old : vec T) (r : reactor T) : res (reactor T) :=
  match sd_kind sd with
  | COUPLED | ADS | KINETICS => Ok r
  | TRANSPORT | DIFFUSION => relaxPowers par old r
  | HEAT => relaxTemperatures par old r
  | SolUNDEFINED => UB "null pointer"
  end.

(* getMainParameter of each class: HeatSolver.h, DiffusionSolver.h,
   SpectrumSolver.h, KineticsSolver.h, CoupledSolver.h:16, ADSSolver.h:16 *)
Definition mainParameter (sd : solverData T) (r : reactor T) : res param :=
  match sd_kind sd with
  | COUPLED | ADS => Ok (PDouble n0)
  | KINETICS => Ok (PDouble (nopp n1))
  | TRANSPORT | DIFFUSION => k <- getKFactor r ;; Ok (PDouble k)
  | HEAT => v <- getTemperatures (rx_mesh r) "C" ;; Ok (PVector v)
  | SolUNDEFINED => UB "null pointer"
  end.

(* DiffusionSolver.cpp:74-80, SpectrumSolver.cpp:55-61 *)
Definition printPower (level : TraceLevel) (r : reactor T) : res (log T) :=
  p <- getHeatSources (rx_mesh r) ;;
  m <- maxCoeff (list_of_vec p) ;;
  if is_greater m n0
  then Ok [(level, IText "Thermal power density [W/m3]:"); (level, IVector p)]
  else Ok [].

(* DiffusionSolver.cpp:62-64, SpectrumSolver.cpp:51-53 *)
Definition printForward (level : TraceLevel) (r : reactor T) : res (log T) :=
  k <- getKFactor r ;;
  f <- getFundamentalNeutronFluxes (rx_mesh r) ;;
  Ok [(level, INumber "Fundamental K-factor" k);
      (level, IText "Fundamental Neutron Flux [1/(cm2*s)]:"); (level, IMatrix f)].

(* printResults of each class: HeatSolver.cpp:70, DiffusionSolver.cpp:58,
   SpectrumSolver.cpp:49, empty in the others *)
Definition printResults (sd : solverData T) (level : TraceLevel) (r : reactor T) : res (log T) :=
  match sd_kind sd with
  | COUPLED | ADS | KINETICS => Ok []
  | HEAT =>
      t <- getTemperatures (rx_mesh r) "C" ;;
      Ok [(level, IText "Final temperatures [C]:"); (level, IVector t)]
  | TRANSPORT =>
      a <- printForward level r ;; b <- printPower level r ;; Ok (a ++ b)
  | DIFFUSION =>
      a <- match sd_dir sd with
           | FORWARD => printForward level r
           | ADJOINT =>
               k <- getAdjointKFactor r ;;
               f <- getFundamentalAdjointFluxes (rx_mesh r) ;;
               Ok [(level, INumber "Fundamental K-factor" k);
                   (level, IText "Fundamental Adjoint Flux [arbitrary]:"); (level, IMatrix f)]
           | DirUNDEFINED => Ok []
           end ;;
      b <- printPower level r ;; Ok (a ++ b)
  | SolUNDEFINED => UB "null pointer"
  end.

(* the modes printed at DiffusionSolver.cpp:102-119 and SpectrumSolver.cpp:74-83:
   fromTensor2dToMatrixXd(modes.chip(n, 2)) *)
Definition printModes (level : TraceLevel) (what : string) (t : ten3 T) (ev : list T) : res (log T) :=
  zfor 0 (td2 t) (fun n l =>
    k <- lget ev n ;;
    Ok (l ++ [(level, INumber "Eigenvalue" k); (level, ICount what (n + 1));
              (level, IMatrix (mkmat (td0 t) (td1 t) (fun i j => t3_at t i j n)))])) [].

(* printEigenmodesResults: DiffusionSolver.cpp:83-121, SpectrumSolver.cpp:64-84,
   AbstractSolver.h:30 for the others *)
Definition printEigenmodesResults (sd : solverData T) (level : TraceLevel) (r : reactor T) : res (log T) :=
  match sd_kind sd with
  | COUPLED | ADS | KINETICS | HEAT => Ok []
  | TRANSPORT =>
      t <- getNeutronFluxes (rx_mesh r) ;;
      if td2 t <=? 1 then Ok [] else printModes level "Neutron Flux" t (rx_fwd r)
  | DIFFUSION =>
      ' (t, ev) <-
        match sd_dir sd with
        | FORWARD => t <- getNeutronFluxes (rx_mesh r) ;; Ok (t, rx_fwd r)
        | ADJOINT => t <- getAdjointFluxes (rx_mesh r) ;; Ok (t, rx_adj r)
        | DirUNDEFINED => Ok (t3const 0 0 0 n0, [])
        end ;;
      if 1 <? zlen ev
      then printModes level (match sd_dir sd with ADJOINT => "Adjoint Flux" | _ => "Neutron Flux" end) t ev
      else Ok []
  | SolUNDEFINED => UB "null pointer"
  end.

(* BaseCalculation.cpp:38-58. The quotients of lines 49 and 55 are computed and
   thrown away. Sizes must agree; std::get of another alternative throws. *)
Definition getDifference (New Old : param) : res T :=
  match New, Old with
  | PDouble a, PDouble b => Ok (nabs ((a [-] b) [/] a))
  | PVector a, PVector b =>
      if vlen a =? vlen b then maxCoeff (list_of_vec (mkvec (vlen a) (fun i => nabs (vat a i [-] vat b i))))
      else UB "Eigen size mismatch"
  | PMatrix a, PMatrix b =>
      if (mrows a =? mrows b) && (mcols a =? mcols b)
      then maxCoeff (list_of_mat (mkmat (mrows a) (mcols a) (fun i j => nabs (mat_at a i j [-] mat_at b i j))))
      else UB "Eigen size mismatch"
  | _, _ => Throw "std::bad_variant_access"
  end.

(* what a calculation leaves behind: reactor, log and plot files;
   Gathers what SingleCalculation.cpp, DoubleCalculation.cpp and ADSCalculation.cpp:10-87 change *)
Record outcome := mkOutcome {
  oc_reactor : reactor T;
  oc_log : log T;
  oc_plots : list (plotFile T)
}.

(* SingleCalculation.cpp:4-12 *)
Definition singleCalculation (o : output) (pk : list PlotKind) (sd : solverData T) (r : reactor T) : res outcome :=
  ' (_, r') <- solve1 sd r ;;
  k <- solveLog sd r ;;
  a <- printEigenmodesResults sd CRITICAL r' ;;
  b <- printResults sd CRITICAL r' ;;
  p <- plots o pk (rx_mesh r') ;;
  Ok (mkOutcome r' (k ++ a ++ b) p).

(* DoubleCalculation.cpp:69-85 *)
Definition getCoupledSolver (solvers : list (solverData T)) : res (solverData T) :=
  match find (fun s => kind_eqb (sd_kind s) COUPLED) solvers with
  | Some s => Ok s
  | None => Exit "coupled solver is empty!"
  end.

(* DoubleCalculation.cpp:31-34 and 36-39: one solver inside iteration iter *)
Definition coupledHalf (sd : solverData T) (relaxing : bool) (par : T) (r : reactor T)
    : res (param * reactor T * log T) :=
  ' (old, r') <- solve1 sd r ;;
  k <- solveLog sd r ;;
  l <- printResults sd INFO r' ;;
  p <- mainParameter sd r' ;;
  if relaxing then r'' <- relaxResults sd par old r' ;; Ok (p, r'', k ++ l) else Ok (p, r', k ++ l).

(* DoubleCalculation.cpp:27-52: k more iterations; prev holds firstParamOld and
   secondParamOld, None before the first iteration, when the differences are
   their initial 1.0. The result is the iteration that met the exit condition. *)
Fixpoint doubleLoop (s1 s2 : solverData T) (acc par : T) (k : nat) (iter : Z)
    (prev : option (param * param)) (r : reactor T) (l : log T) : res (option (Z * reactor T * log T)) :=
  match k with
  | O => Ok None
  | S k' =>
      let l := l ++ [(INFO, ICount "Coupled iteration" (iter + 1))] in
      ' (p1, r, l1) <- coupledHalf s1 (negb (iter =? 0)) par r ;;
      ' (p2, r, l2) <- coupledHalf s2 (negb (iter =? 0)) par r ;;
      ' (d1, d2) <- match prev with
                    | None => Ok (n1, n1)
                    | Some (q1, q2) => d1 <- getDifference p1 q1 ;; d2 <- getDifference p2 q2 ;; Ok (d1, d2)
                    end ;;
      let l := l ++ l1 ++ l2 in
      if (d1 [<=] acc) && (d2 [<=] acc) then Ok (Some (iter, r, l))
      else doubleLoop s1 s2 acc par k' (iter + 1) (Some (p1, p2)) r l
  end.

(* DoubleCalculation.cpp:7-67. m_solvers[0] and m_solvers[1] exist: the object
   is only built for three solvers. *)
Definition doubleCalculation (o : output) (pk : list PlotKind) (solvers : list (solverData T)) (r : reactor T)
    : res outcome :=
  s1 <- lget solvers 0 ;;
  s2 <- lget solvers 1 ;;
  cs <- getCoupledSolver solvers ;;
  x <- doubleLoop s1 s2 (sd_acc cs) (sd_relax cs) (Z.to_nat (sd_max cs)) 0 None r [] ;;
  match x with
  | None => Exit "The coupled calculation did not converge!"
  | Some (iter, r, l) =>
      a <- printResults s1 CRITICAL r ;;
      b <- printResults s2 CRITICAL r ;;
      pa <- plots o pk (rx_mesh r) ;;
      pb <- plots o pk (rx_mesh r) ;;
      Ok (mkOutcome r (l ++ [(CRITICAL, ICount "Number of coupled iteration" (iter + 1))] ++ a ++ b) (pa ++ pb))
  end.

(* SolverData.h:18, 32 and 34, as used in ADSCalculation.cpp:12-22 *)
Definition with_kind (k : SolverKind) (d : DirectionKind) (e : EigenmodesKind) (sd : solverData T) : solverData T :=
  mkSolverData k (sd_acc sd) (sd_max sd) (sd_relax sd) (sd_albedo sd) (sd_heatbc sd) (sd_energies sd) d e.

(* ADSCalculation.cpp:32-61: <adjoint, q> and <adjoint, P forward>, mode by mode,
   from the stored modes. The positions are unsigned, so position 0 becomes
   2^32 - 1. chip of an index out of range is an assertion. *)
Definition adsWeights (r : reactor T) : res (vec T * vec T) :=
  let ms := rx_mesh r in
  let '(strength, position, energy) := rx_ext r in
  sourceStrength <- to_unsigned strength ;;
  let sourcePosition := (position - 1) mod 2 ^ 32 in
  let sourceEnergy := (energy - 1) mod 2 ^ 32 in
  volumes <- getVolumes mpi ms "cm" ;;
  adjointModes <- getAdjointFluxes ms ;;
  if negb (inb sourceEnergy (td0 adjointModes)) then UB "Eigen chip index"
  else if negb (inb sourcePosition (td1 adjointModes)) then UB "Eigen chip index"
  else
    v <- vget volumes sourcePosition ;;
    let adjoint_q := mkvec (td2 adjointModes) (fun n =>
          (nofZ sourceStrength [*] v) [*] t3_at adjointModes sourceEnergy sourcePosition n) in
    forwardModes <- getNeutronFluxes ms ;;
    P <- getProductionOperator ms ;;
    adjoint_P_forward <-
      zfor 0 (td2 forwardModes) (fun n a => zfor 0 (td1 forwardModes) (fun m a => zfor 0 (td0 forwardModes) (fun e a =>
        x <- vget a n ;;
        y <- t3get adjointModes e m n ;; p <- mget P e m ;; z <- t3get forwardModes e m n ;; w <- vget volumes m ;;
        vset a n (x [+] y [*] p [*] z [*] w)) a) a) (vzeros (vlen adjoint_q)) ;;
    Ok (adjoint_q, adjoint_P_forward).

(* ADSCalculation.cpp:66 *)
Definition adsRatio (adjoint_q adjoint_P_forward : vec T) : vec T :=
  mkvec (vlen adjoint_q) (fun n => vat adjoint_q n [/] vat adjoint_P_forward n).

(* ADSCalculation.cpp:71-80: the flux; the modes are read a second time *)
Definition adsFlux (r : reactor T) : res (mat T) :=
  ' (adjoint_q, adjoint_P_forward) <- adsWeights r ;;
  let ratio := adsRatio adjoint_q adjoint_P_forward in
  forwardModes <- getNeutronFluxes (rx_mesh r) ;;
  zfor 0 (td0 forwardModes) (fun e f => zfor 0 (td1 forwardModes) (fun m f => zfor 0 (td2 forwardModes) (fun n f =>
    x <- mget f e m ;; k <- lget (rx_fwd r) n ;; q <- vget ratio n ;; z <- t3get forwardModes e m n ;;
    mset f e m (x [+] (k [/] (n1 [-] k)) [*] q [*] z)) f) f)
    (mzeros (td0 forwardModes) (td1 forwardModes)).

(* ADSCalculation.cpp:10-87; no plot is made *)
Definition adsCalculation (sd : solverData T) (r : reactor T) : res outcome :=
  let sdF := with_kind DIFFUSION FORWARD EigALL sd in
  let sdA := with_kind DIFFUSION ADJOINT EigALL sd in
  ' (_, r) <- solve1 sdF r ;;
  a <- printEigenmodesResults sdF CRITICAL r ;;
  ' (_, r) <- solve1 sdA r ;;
  b <- printEigenmodesResults sdA CRITICAL r ;;
  ' (q, w) <- adsWeights r ;;
  f <- adsFlux r ;;
  ms <- setTotalFluxes f (rx_mesh r) ;;
  Ok (mkOutcome (with_mesh ms r)
    (a ++ b ++ [(CRITICAL, IText "adjoint_q:"); (CRITICAL, IVector q);
                (CRITICAL, IText "adjoint_P_forward:"); (CRITICAL, IVector w);
                (CRITICAL, IText "ratio:"); (CRITICAL, IVector (adsRatio q w));
                (CRITICAL, IText "Total Flux:"); (CRITICAL, IMatrix f)]) []).

(* BaseCalculation.cpp:10-36 and Problem.cpp:6-10 *)
Definition problemSolve (o : output) (pk : list PlotKind) (solvers : list (solverData T)) (r : reactor T)
    : res outcome :=
  match solvers with
  | [s] => match sd_kind s with
           | ADS => adsCalculation s r
           | _ => singleCalculation o pk s r
           end
  | [_; _; _] => doubleCalculation o pk solvers r
  | _ => Exit "Not ready to couple more than two calculations!"
  end.

End Calculation.
Arguments outcome : clear implicits.
Arguments param : clear implicits.
