(* Heat: BaseHeatCode and HeatSolver. *)
From Coq Require Import String ZArith List Bool.
From Verif Require Import Base ModelNumTools ModelEigen ModelMesh ModelReactor.
Import ListNotations.
Local Open Scope Z_scope.

Section Heat.
Context {T : Type} {N : Num T}.
(* M_PI *)
Variable mpi : T.

(* BaseHeatCode.h:14-19 and 32-41: the members computed by the constructor *)
Record heatCode := mkHeatCode {
  hc_radii : vec T;
  hc_volumes : vec T;
  hc_cells : Z;
  hc_surfaces : vec T
}.
(* BaseHeatCode.h:14-19 *)
Definition newHeatCode (ms : mesh T) : res heatCode :=
  let radii := getBoundaries ms "m" in
  vol <- getVolumes mpi ms "m" ;;
  sur <- getSurfaces mpi ms "m" ;;
  Ok (mkHeatCode radii vol (ms_cells ms) sur).

(* BaseHeatCode.cpp:7-18 *)
Definition getInterfaceCellSizes (hc : heatCode) (ms : mesh T) : res (vec T) :=
  inter <- getCellSizes ms "m" ;;
  sizes <- getCellSizes ms "m" ;;
  zfor 1 (hc_cells hc - 1) (fun i v =>
    x <- vget sizes i ;; y <- vget sizes (i - 1) ;;
    vset v i (nlit 1 2 [*] (x [+] y))) inter.

(* v(i) *= x; BaseHeatCode.cpp:21-42 *)
Definition vmul_at (v : vec T) (i : Z) (x : T) : res (vec T) :=
  y <- vget v i ;; vset v i (y [*] x).

(* BaseHeatCode.cpp:21-42 *)
Definition getInterfaceThermalConductivities (hc : heatCode) (ms : mesh T) : res (vec T) :=
  mat <- getThermalConductivities ms ;;
  inter <- getThermalConductivities ms ;;
  sizes <- getCellSizes ms "m" ;;
  s0 <- vget (hc_surfaces hc) 0 ;;
  inter <- vmul_at inter 0 s0 ;;
  inter <- zfor 1 (hc_cells hc - 1) (fun i v =>
    x <- vget sizes (i - 1) ;; y <- vget sizes i ;;
    let f := x [/] (y [+] x) in
    l <- vget mat (i - 1) ;; l' <- vget mat i ;;
    v <- vset v i (n1 [/] ((n1 [-] f) [/] l [+] f [/] l')) ;;
    s <- vget (hc_surfaces hc) i ;;
    vmul_at v i s) inter ;;
  s <- vget (hc_surfaces hc) (hc_cells hc - 1) ;;
  vmul_at inter (hc_cells hc - 1) s.

(* BaseHeatCode.cpp:51-85; m_temperatures is only stored *)
Definition setupSystem (hc : heatCode) (ms : mesh T) : res (mat T) :=
  let n := hc_cells hc in
  lambda <- getInterfaceThermalConductivities hc ms ;;
  sizes <- getInterfaceCellSizes hc ms ;;
  zfor 0 n (fun i A =>
    if i =? 0 then
      l <- vget lambda (i + 1) ;; s <- vget sizes (i + 1) ;;
      A <- mset A i i (l [/] s) ;;
      mset A i (i + 1) (nopp l [/] s)
    else if i =? n - 1 then
      l <- vget lambda i ;; s <- vget sizes (i - 1) ;;
      A <- mset A i i (l [/] s) ;;
      mset A i (i - 1) (nopp l [/] s)
    else
      l <- vget lambda i ;; s <- vget sizes i ;;
      l' <- vget lambda (i + 1) ;; s' <- vget sizes (i + 1) ;;
      A <- mset A i i (l [/] s [+] l' [/] s') ;;
      A <- mset A i (i - 1) (nopp l [/] s) ;;
      mset A i (i + 1) (nopp l' [/] s'))
    (mzeros n n).

(* BaseHeatCode.cpp:87-144 *)
Definition applyHeatBoundary (hc : heatCode) (sd : solverData T) (ms : mesh T) (A : mat T)
    : res (mat T * vec T) :=
  let n := hc_cells hc in
  ' ((aL, bL, cL), (aR, bR, cR)) <- getHeatBoundaryConditions sd ;;
  lambda <- getInterfaceThermalConductivities hc ms ;;
  q <- getHeatSources ms ;;
  q <- zfor 0 n (fun i q => v <- vget (hc_volumes hc) i ;; vmul_at q i v) q ;;
  ' (A, q) <-
    match ms_geom ms with
    | SLAB =>
        r1 <- vget (hc_radii hc) 1 ;; r0 <- vget (hc_radii hc) 0 ;;
        let dx := r1 [-] r0 in
        l <- vget lambda 0 ;;
        let den := (dx [/] (nofZ 2 [*] l)) [*] aL [+] bL in
        let alpha := aL [/] den in
        let beta := nopp cL [/] den in
        t <- mget A 0 0 ;; A <- mset A 0 0 (t [+] alpha) ;;
        x <- vget q 0 ;; q <- vset q 0 (x [-] beta) ;;
        Ok (A, q)
    | _ => Ok (A, q)
    end ;;
  rn <- vget (hc_radii hc) n ;; rm <- vget (hc_radii hc) (n - 1) ;;
  let dx := rn [-] rm in
  sn <- vget (hc_surfaces hc) n ;; l <- vget lambda (n - 1) ;; sm <- vget (hc_surfaces hc) (n - 1) ;;
  let den := (dx [/] (nofZ 2 [*] sn [*] l [/] sm)) [*] aR [+] bR [/] sn in
  let alpha := aR [/] den in
  let beta := nopp cR [/] den in
  t <- mget A (n - 1) (n - 1) ;; A <- mset A (n - 1) (n - 1) (t [+] alpha) ;;
  x <- vget q (n - 1) ;; q <- vset q (n - 1) (x [-] beta) ;;
  Ok (A, q).

(* HeatSolver.cpp:23-25 with BaseHeatCode.cpp:44-49: one iteration. solver is
   colPivHouseholderQr().solve. *)
Definition heatSystem (sd : solverData T) (ms : mesh T) : res (mat T * vec T) :=
  hc <- newHeatCode ms ;;
  A <- setupSystem hc ms ;;
  applyHeatBoundary hc sd ms A.
(* HeatSolver.cpp:23-25 with BaseHeatCode.cpp:44-49 *)
Definition heatStep (solver : mat T -> vec T -> vec T) (sd : solverData T) (ms : mesh T) : res (mesh T) :=
  ' (A, q) <- heatSystem sd ms ;;
  setTemperatures (solver A q) ms.

(* HeatSolver.cpp:33-39 *)
Definition maxDifference (new old : vec T) : res T :=
  zfor 0 (vlen new) (fun i m =>
    x <- vget new i ;; y <- vget old i ;;
    let d := nabs (x [-] y) in
    Ok (if m [<] d then d else m)) n0.

(* HeatSolver.cpp:21-45: at most k more iterations; None when none of them
   met the exit condition. The heat code object is created once in the C++;
   its members only depend on the geometry, which setTemperatures leaves
   alone, so it is rebuilt here. *)
Fixpoint heatLoop (solver : mat T -> vec T -> vec T) (sd : solverData T) (k : nat)
    (ms : mesh T) (old : vec T) : res (option (mesh T)) :=
  match k with
  | O => Ok None
  | S k' =>
      ms <- heatStep solver sd ms ;;
      new <- getTemperatures ms "C" ;;
      mv <- maxDifference new old ;;
      if mv [<] sd_acc sd then Ok (Some ms) else heatLoop solver sd k' ms new
  end.

(* HeatSolver.cpp:10-55: m_oldTemperatures and the new reactor *)
Definition heatSolve (solver : mat T -> vec T -> vec T) (sd : solverData T) (r : reactor T)
    : res (vec T * reactor T) :=
  hc <- newHeatCode (rx_mesh r) ;;
  old <- getTemperatures (rx_mesh r) "C" ;;
  o <- heatLoop solver sd (Z.to_nat (sd_max sd)) (rx_mesh r) (vones (ms_cells (rx_mesh r))) ;;
  match o with
  | None => Exit "The heat calculation did not converge!"
  | Some ms => Ok (old, with_mesh ms r)
  end.

End Heat.
Arguments heatCode : clear implicits.
