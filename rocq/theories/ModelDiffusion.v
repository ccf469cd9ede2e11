(* Diffusion/: BaseDiffusionCode, ForwardDiffusionCode, AdjointDiffusionCode,
   DiffusionSolver. *)
From Coq Require Import String ZArith List Bool.
From Verif Require Import Base ModelNumTools ModelEigen ModelMesh ModelReactor.
Import ListNotations.
Local Open Scope Z_scope.

Section Diffusion.
Context {T : Type} {N : Num T}.
Variable mpi : T.

(* BaseDiffusionCode.h:15-21, 35-41: the members used by the functions below.
   The mesh cannot change between construction and use of the object. *)
Record diffCode := mkDiffCode {
  dc_mesh : mesh T;
  dc_albedo : list T;
  dc_vol : vec T;
  dc_cells : Z;
  dc_en : Z
}.
(* BaseDiffusionCode.h:14-19 *)
Definition newDiffCode (ms : mesh T) (sd : solverData T) : res diffCode :=
  v <- getVolumes mpi ms "cm" ;;
  Ok (mkDiffCode ms (sd_albedo sd) v (ms_cells ms) (sd_energies sd)).

(* BaseDiffusionCode.cpp:66-84 *)
Definition getInterfaceDiff (dc : diffCode) : res (mat T) :=
  sizes <- getCellSizes (dc_mesh dc) "cm" ;;
  D <- getDiffusionConstantss (dc_mesh dc) ;;
  surf <- getSurfaces mpi (dc_mesh dc) "cm" ;;
  zfor 0 (dc_en dc) (fun e r => zfor 0 (dc_cells dc - 1) (fun m r =>
    d0 <- mget D e m ;; d1 <- mget D e (m + 1) ;; s <- vget surf (m + 1) ;;
    x1 <- vget sizes (m + 1) ;; x0 <- vget sizes m ;;
    mset r e m ((d0 [*] d1 [*] s) [/] (x1 [*] d0 [+] x0 [*] d1))) r)
    (mzeros (dc_en dc) (dc_cells dc)).

(* BaseDiffusionCode.cpp:86-107, printing left out *)
Definition calcDiffOperatorMatrix (dc : diffCode) : res (mat T) :=
  let n := dc_cells dc in
  tot <- getTotalXSs (dc_mesh dc) ;;
  di <- getInterfaceDiff dc ;;
  zfor 0 (dc_en dc) (fun e M => zfor 1 (n - 1) (fun m M =>
    a <- mget di e (m - 1) ;; b <- mget di e m ;; t <- mget tot e m ;; v <- vget (dc_vol dc) m ;;
    M <- mset M (m + e * n) (m - 1 + e * n) (nopp (nofZ 2) [*] a) ;;
    M <- mset M (m + e * n) (m + 1 + e * n) (nopp (nofZ 2) [*] b) ;;
    mset M (m + e * n) (m + e * n) (nofZ 2 [*] (b [+] a [+] nlit 1 2 [*] t [*] v))) M)
    (mzeros (n * dc_en dc) (n * dc_en dc)).

(* The boundary coefficient of BaseDiffusionCode.cpp:139, 144 *)
Definition bcoef (d a s x : T) : T :=
  (d [*] (n1 [-] a) [*] s) [/] (nofZ 4 [*] d [*] (n1 [+] a) [+] x [*] (n1 [-] a)).

(* BaseDiffusionCode.cpp:119-128 *)
Definition getAlbedos (dc : diffCode) : res (T * T) :=
  match ms_geom (dc_mesh dc) with
  | SLAB => l <- lget (dc_albedo dc) 0 ;; r <- lget (dc_albedo dc) 1 ;; Ok (l, r)
  | _ => r <- lget (dc_albedo dc) 0 ;; Ok (n1, r)
  end.

(* BaseDiffusionCode.cpp:109-170, printing left out *)
Definition applyBoundaryConditions (dc : diffCode) (M : mat T) : res (mat T) :=
  let n := dc_cells dc in
  D <- getDiffusionConstantss (dc_mesh dc) ;;
  tot <- getTotalXSs (dc_mesh dc) ;;
  sizes <- getCellSizes (dc_mesh dc) "cm" ;;
  surf <- getSurfaces mpi (dc_mesh dc) "cm" ;;
  di <- getInterfaceDiff dc ;;
  ' (aL, aR) <- getAlbedos dc ;;
  let l := n - 1 in
  if negb (is_equal aL (nofZ 2) && is_equal aR (nofZ 2)) then
    zfor 0 (dc_en dc) (fun e M =>
      d <- mget D e 0 ;; s <- vget surf 0 ;; x <- vget sizes 0 ;;
      let B := bcoef d aL s x in
      i0 <- mget di e 0 ;; t <- mget tot e 0 ;; v <- vget (dc_vol dc) 0 ;;
      M <- mset M (e * n) (1 + e * n) (nopp (nofZ 2) [*] i0) ;;
      M <- mset M (e * n) (e * n) (nofZ 2 [*] (i0 [+] B [+] nlit 1 2 [*] t [*] v)) ;;
      d <- mget D e l ;; s <- vget surf (l + 1) ;; x <- vget sizes l ;;
      let B := bcoef d aR s x in
      i1 <- mget di e (l - 1) ;; t <- mget tot e l ;; v <- vget (dc_vol dc) l ;;
      M <- mset M (l + e * n) (l - 1 + e * n) (nopp (nofZ 2) [*] i1) ;;
      mset M (l + e * n) (l + e * n) (nofZ 2 [*] (B [+] i1 [+] nlit 1 2 [*] t [*] v))) M
  else
    zfor 0 (dc_en dc) (fun e M =>
      i0 <- mget di e 0 ;; i1 <- mget di e (l - 1) ;;
      t0 <- mget tot e 0 ;; v0 <- vget (dc_vol dc) 0 ;;
      t1 <- mget tot e l ;; v1 <- vget (dc_vol dc) l ;;
      M <- mset M (e * n) (1 + e * n) (nopp (nofZ 2) [*] i0) ;;
      M <- mset M (e * n) (e * n) (nofZ 2 [*] (i0 [+] i1 [+] nlit 1 2 [*] t0 [*] v0)) ;;
      M <- mset M (l + e * n) (l - 1 + e * n) (nopp (nofZ 2) [*] i1) ;;
      M <- mset M (l + e * n) (l + e * n) (nofZ 2 [*] (i0 [+] i1 [+] nlit 1 2 [*] t1 [*] v1)) ;;
      x <- mget M (l - 1 + e * n) (l + e * n) ;;
      M <- mset M (e * n) (l + e * n) x ;;
      y <- mget M (e * n) (1 + e * n) ;;
      mset M (l + e * n) (e * n) y) M.

(* Eigen matrix subtraction; ForwardDiffusionCode.cpp:27 and AdjointDiffusionCode.cpp:27 *)
Definition msub (a b : mat T) : res (mat T) :=
  if (mrows a =? mrows b) && (mcols a =? mcols b)
  then Ok (mkmat (mrows a) (mcols a) (fun i j => mat_at a i j [-] mat_at b i j))
  else UB "Eigen size mismatch".

(* ForwardDiffusionCode.cpp:7-33; int % is Z.rem, non-negative here *)
Definition fwdMMatrix (dc : diffCode) (diffM : mat T) : res (mat T) :=
  let n := dc_cells dc in let en := dc_en dc in
  sc <- getScattMatrices (dc_mesh dc) ;;
  M <- zfor 0 en (fun i M => zfor 0 en (fun j M => zfor 0 n (fun k M =>
         s <- t3get sc (Z.rem j en) (Z.rem (i + j) en) k ;; v <- vget (dc_vol dc) k ;;
         mset M (k + Z.rem (i + j) en * n) (k + j * n) (s [*] v)) M) M)
       (mzeros (n * en) (n * en)) ;;
  msub diffM M.

(* AdjointDiffusionCode.cpp:7-33 *)
Definition adjMMatrix (dc : diffCode) (diffM : mat T) : res (mat T) :=
  let n := dc_cells dc in let en := dc_en dc in
  sc <- getScattMatrices (dc_mesh dc) ;;
  M <- zfor 0 en (fun i M => zfor 0 en (fun j M => zfor 0 n (fun k M =>
         s <- t3get sc (Z.rem (i + j) en) (Z.rem j en) k ;; v <- vget (dc_vol dc) k ;;
         mset M (k + Z.rem (i + j) en * n) (k + j * n) (s [*] v)) M) M)
       (mzeros (n * en) (n * en)) ;;
  msub diffM M.

(* ForwardDiffusionCode.cpp:35-53 and AdjointDiffusionCode.cpp:35-53 (same text) *)
Definition fissDiagonal (dc : diffCode) : res (mat T * vec T) :=
  let n := dc_cells dc in let en := dc_en dc in
  fis <- getFissionXSs (dc_mesh dc) ;;
  chi <- getChis (dc_mesh dc) ;;
  ni <- getNis (dc_mesh dc) ;;
  zfor 0 en (fun j s => zfor 0 n (fun i s =>
    let '(F, c) := s in
    f <- mget fis j i ;; x <- mget ni j i ;; v <- vget (dc_vol dc) i ;;
    F <- mset F (i + j * n) (i + j * n) (f [*] x [*] v) ;;
    y <- mget chi j i ;;
    c <- vset c (i + j * n) y ;;
    Ok (F, c)) s)
    (mzeros (n * en) (n * en), vzeros (n * en)).

(* ForwardDiffusionCode.cpp:35-81 *)
Definition fwdFMatrix (dc : diffCode) : res (mat T) :=
  let n := dc_cells dc in let en := dc_en dc in
  ' (F, c) <- fissDiagonal dc ;;
  F <- zfor 0 en (fun g F => zfor 0 en (fun k F =>
         zfor (k * n) ((k + 1) * n) (fun i F => zfor (g * n) ((g + 1) * n) (fun j F =>
           x <- mget F (i + (g - k) * n) j ;; mset F i j x) F) F) F) F ;;
  zfor 0 (n * en) (fun i F => zfor 0 (n * en) (fun j F =>
    x <- mget F i j ;; y <- vget c i ;; mset F i j (x [*] y)) F) F.

(* AdjointDiffusionCode.cpp:35-81 *)
Definition adjFMatrix (dc : diffCode) : res (mat T) :=
  let n := dc_cells dc in let en := dc_en dc in
  ' (F, c) <- fissDiagonal dc ;;
  F <- zfor 0 en (fun g F => zfor 0 en (fun k F =>
         zfor (k * n) ((k + 1) * n) (fun i F => zfor (g * n) ((g + 1) * n) (fun j F =>
           x <- mget F i (j + (k - g) * n) ;; mset F i j x) F) F) F) F ;;
  zfor 0 (n * en) (fun i F => zfor 0 (n * en) (fun j F =>
    x <- mget F i j ;; y <- vget c j ;; mset F i j (x [*] y)) F) F.

(* DiffusionSolver.cpp:16-19 with the code object chosen by
   DiffusionCodeFactory.cpp:5-19; the loss and production matrices *)
Definition diffusionSystem (ms : mesh T) (sd : solverData T) : res (mat T * mat T) :=
  match sd_dir sd with
  | DirUNDEFINED => UB "null pointer"
  | FORWARD =>
      dc <- newDiffCode ms sd ;;
      d <- calcDiffOperatorMatrix dc ;;
      d <- applyBoundaryConditions dc d ;;
      m <- fwdMMatrix dc d ;;
      f <- fwdFMatrix dc ;;
      Ok (m, f)
  | ADJOINT =>
      dc <- newDiffCode ms sd ;;
      d <- calcDiffOperatorMatrix dc ;;
      d <- applyBoundaryConditions dc d ;;
      m <- adjMMatrix dc d ;;
      f <- adjFMatrix dc ;;
      Ok (m, f)
  end.

(* DiffusionSolver.cpp:11-43: the new reactor and m_oldPowerDensities *)
Definition diffusionSolve (solver : mat T -> vec T -> vec T)
    (sort : list (T * vec T) -> list (T * vec T))
    (eig : mat T -> mat T -> vec (T * T) * mat (T * T))
    (sd : solverData T) (r : reactor T) : res (vec T * reactor T) :=
  old <- getHeatSources (rx_mesh r) ;;
  vol <- getVolumes mpi (rx_mesh r) "cm" ;;
  ' (M, F) <- diffusionSystem (rx_mesh r) sd ;;
  result <- solveEigen solver sort eig M F sd ;;
  match sd_dir sd with
  | FORWARD =>
      r <- setNewHeatSource mpi vol (sd_energies sd) (ms_cells (rx_mesh r)) result r ;; Ok (old, r)
  | ADJOINT =>
      r <- setAdjointModes (sd_energies sd) (ms_cells (rx_mesh r)) result r ;; Ok (old, r)
  | DirUNDEFINED => Ok (old, r)
  end.

End Diffusion.
Arguments diffCode : clear implicits.
