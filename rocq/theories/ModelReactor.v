(* Backbone/Datamodel: SolverData, KineticsSet, Reactor. *)
From Coq Require Import String ZArith List Bool.
From Verif Require Import Base ModelNumTools ModelEigen ModelMesh.
Import ListNotations.
Local Open Scope Z_scope.

(* SolverKind.h:6 *)
Inductive SolverKind := SolUNDEFINED | COUPLED | TRANSPORT | KINETICS | HEAT | DIFFUSION | ADS.

Section Reactor.
Context {T : Type} {N : Num T}.

(* SolverData.h:11-48. The vector of heat boundary conditions holds the
   numbers after the first word of the line. *)
Record solverData := mkSolverData {
  sd_kind : SolverKind;
  sd_acc : T;
  sd_max : Z;
  sd_relax : T;
  sd_albedo : list T;
  sd_heatbc : list T;
  sd_energies : Z;
  sd_dir : DirectionKind;
  sd_eig : EigenmodesKind
}.

(* SolverData.h:14-16 *)
Definition newSolverData (k : SolverKind) : solverData :=
  mkSolverData k n0 0 n0 [n0] [] 0 DirUNDEFINED EigUNDEFINED.

(* SolverData.cpp:16-47 *)
Definition getHeatBoundaryConditions (sd : solverData) : res ((T * T * T) * (T * T * T)) :=
  match sd_heatbc sd with
  | [a; b; c] => Ok ((n0, n1, n0), (a, b, c))
  | [a; b; c; d; e; f] => Ok ((a, b, c), (d, e, f))
  | _ => Exit "Error with getHeatBoundaryConditions()"
  end.

(* KineticsSet.h:6-32 *)
Record kineticsSet := mkKinetics {
  ks_alpha : T;
  ks_power : T;
  ks_lambda : list T;
  ks_beta : list T;
  ks_reacts : list T;
  ks_times : list T
}.

(* Reactor.h:12-58, without the solver list, trace level and unused members.
   m_kineticsSet's numbers are uninitialised until set; 0 here. *)
Record reactor := mkReactor {
  rx_mesh : mesh T;
  rx_power : T;
  rx_fwd : list T;
  rx_adj : list T;
  rx_kin : kineticsSet;
  rx_ext : T * Z * Z
}.

(* Reactor.h:15 *)
Definition newReactor : reactor :=
  mkReactor (mkMesh (vzeros 0) GeomUNDEFINED 0 0 [] 0 0) (nopp n1) [] []
    (mkKinetics n0 n0 [] [] [] []) (n0, 0, 0).

(* Reactor.h:32, through the reference *)
Definition with_mesh (ms : mesh T) (r : reactor) : reactor :=
  mkReactor ms (rx_power r) (rx_fwd r) (rx_adj r) (rx_kin r) (rx_ext r).
(* Reactor.h:22 *)
Definition with_fwd (l : list T) (r : reactor) : reactor :=
  mkReactor (rx_mesh r) (rx_power r) l (rx_adj r) (rx_kin r) (rx_ext r).
(* Reactor.h:23 *)
Definition with_adj (l : list T) (r : reactor) : reactor :=
  mkReactor (rx_mesh r) (rx_power r) (rx_fwd r) l (rx_kin r) (rx_ext r).

(* Reactor.h:26-27 *)
Definition getKFactor (r : reactor) : res T :=
  match rx_fwd r with [] => UB "front() of empty vector" | k :: _ => Ok k end.
(* Reactor.h:27 *)
Definition getAdjointKFactor (r : reactor) : res T :=
  match rx_adj r with [] => UB "front() of empty vector" | k :: _ => Ok k end.

(* DiffusionSolver.cpp:45-56, SpectrumSolver.cpp:36-47, HeatSolver.cpp:57-68:
   new * par + old * (1.0 - par), an Eigen assertion when sizes differ *)
Definition relax (par : T) (new old : vec T) : res (vec T) :=
  if vlen new =? vlen old
  then Ok (mkvec (vlen new) (fun i => vat new i [*] par [+] vat old i [*] (n1 [-] par)))
  else UB "Eigen size mismatch".

(* DiffusionSolver.cpp:45-56 and SpectrumSolver.cpp:36-47 *)
Definition relaxPowers (par : T) (old : vec T) (r : reactor) : res reactor :=
  new <- getHeatSources (rx_mesh r) ;;
  v <- relax par new old ;;
  ms <- setHeatSources v (rx_mesh r) ;;
  Ok (with_mesh ms r).

(* HeatSolver.cpp:57-68 *)
Definition relaxTemperatures (par : T) (old : vec T) (r : reactor) : res reactor :=
  new <- getTemperatures (rx_mesh r) "C" ;;
  v <- relax par new old ;;
  ms <- setTemperatures v (rx_mesh r) ;;
  Ok (with_mesh ms r).

(* BaseDiffusionCode.cpp:7-26 and BaseSpectrumCode.cpp:147-166 (same text).
   volumes is m_volumes. *)
Definition calcFissionPowerDistribution (volumes : vec T) (cells : Z) (r : reactor) : res (vec T) :=
  flux <- getFundamentalNeutronFluxes (rx_mesh r) ;;
  fiss <- getFissionXSs (rx_mesh r) ;;
  if negb ((mrows flux =? mrows fiss) && (mcols flux =? mcols fiss) && (mcols flux =? vlen volumes))
  then UB "Eigen size mismatch"
  else
    let powers := mkvec (vlen volumes) (fun m =>
        nsum 0 (mrows flux) (fun e => mat_at flux e m [*] mat_at fiss e m) [*] vat volumes m) in
    zfor 0 cells (fun i p =>
      x <- vget powers i ;; vset p i ((rx_power r [*] x) [/] vsum powers)) (vzeros cells).

(* The tensor filled at BaseDiffusionCode.cpp:31-37, 53-59 and
   BaseSpectrumCode.cpp:172-178, 194-200 *)
Definition modes_tensor (energies cells : Z) (modes : list (T * vec T)) : res (ten3 T) :=
  zfor 0 (zlen modes) (fun n t =>
    zfor 0 cells (fun i t => zfor 0 energies (fun j t =>
      md <- lget modes n ;; x <- vget (snd md) (i + j * cells) ;; t3set t j i n x) t) t)
    (t3const energies cells (zlen modes) n0).

(* BaseDiffusionCode.cpp:28-48 and BaseSpectrumCode.cpp:169-189 (same text) *)
Definition setNewHeatSource (mpi : T) (volumes : vec T) (energies cells : Z)
    (result : eigenmodesResults T) (r : reactor) : res reactor :=
  t <- modes_tensor energies cells (er_modes result) ;;
  ms <- setNeutronFluxes t (rx_mesh r) ;;
  let r := with_fwd (er_eigenvalues result) (with_mesh ms r) in
  let r := with_mesh (setForwardEigenmodesNumber (zlen (er_modes result)) (rx_mesh r)) r in
  p <- calcFissionPowerDistribution volumes cells r ;;
  vm <- getVolumes mpi (rx_mesh r) "m" ;;
  if negb (vlen p =? vlen vm) then UB "Eigen size mismatch"
  else
    ms <- setHeatSources (mkvec (vlen p) (fun i => vat p i [/] vat vm i)) (rx_mesh r) ;;
    Ok (with_mesh ms r).

(* BaseDiffusionCode.cpp:50-64 and BaseSpectrumCode.cpp:191-205 (same text) *)
Definition setAdjointModes (energies cells : Z) (result : eigenmodesResults T) (r : reactor)
    : res reactor :=
  t <- modes_tensor energies cells (er_modes result) ;;
  ms <- setAdjointFluxes t (rx_mesh r) ;;
  let r := with_adj (er_eigenvalues result) (with_mesh ms r) in
  Ok (with_mesh (setAdjointEigenmodesNumber (zlen (er_modes result)) (rx_mesh r)) r).

(* DiffusionSolver.cpp:21-31 and SpectrumSolver.cpp:21-32: an eigenmodesResults
   that is never assigned holds no mode. solver, sort and eig are the library
   routines. *)
Definition solveEigen (solver : mat T -> vec T -> vec T)
    (sort : list (T * vec T) -> list (T * vec T))
    (eig : mat T -> mat T -> vec (T * T) * mat (T * T))
    (M F : mat T) (sd : solverData) : res (eigenmodesResults T) :=
  match sd_eig sd with
  | FUNDAMENTAL =>
      x <- sourceIteration solver M F (sd_max sd) (sd_acc sd) (sd_dir sd) ;; Ok (snd x)
  | EigALL => GeneralizedEigenSolver sort eig M F (sd_dir sd)
  | EigUNDEFINED => Ok (mkER (vzeros 0) n0 [] DirUNDEFINED)
  end.

End Reactor.
Arguments solverData : clear implicits.
Arguments kineticsSet : clear implicits.
Arguments reactor : clear implicits.
