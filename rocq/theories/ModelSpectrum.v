(* CPM/: BaseSpectrumCode, SlabSpectrumCode, CylSpectrumCode, SphSpectrumCode,
   SpectrumCodeFactory, SpectrumSolver. Printing is left out. *)
From Coq Require Import String ZArith List Bool.
From Verif Require Import Base ModelNumTools ModelEigen ModelMesh ModelReactor.
Import ListNotations.
Local Open Scope Z_scope.

(* Numerics::Tensor4d (numeric_tools.h), with checked element access *)
Record ten4 (T : Type) := mkten4 { t4d0 : Z; t4d1 : Z; t4d2 : Z; t4d3 : Z; t4_at : Z -> Z -> Z -> Z -> T }.
Arguments mkten4 {T}. Arguments t4d0 {T}. Arguments t4d1 {T}. Arguments t4d2 {T}. Arguments t4d3 {T}. Arguments t4_at {T}.
(* Bounds of the Tensor4d of numeric_tools.h:26 *)
Definition t4in {T} (t : ten4 T) (i j k h : Z) : bool :=
  inb i (t4d0 t) && inb j (t4d1 t) && inb k (t4d2 t) && inb h (t4d3 t).
(* tau(i, j, k, h), e.g. CylSpectrumCode.cpp:91-93 *)
Definition t4get {T} (t : ten4 T) (i j k h : Z) : res T :=
  if t4in t i j k h then Ok (t4_at t i j k h) else UB "tensor index".
(* tau(i, j, k, h) = x, e.g. CylSpectrumCode.cpp:29-50 *)
Definition t4set {T} (t : ten4 T) (i j k h : Z) (x : T) : res (ten4 T) :=
  if t4in t i j k h
  then Ok (mkten4 (t4d0 t) (t4d1 t) (t4d2 t) (t4d3 t)
         (fun a b c d => if (a =? i) && (b =? j) && (c =? k) && (d =? h) then x else t4_at t a b c d))
  else UB "tensor index".
(* Tensor4d(a, b, c, d) and setZero(), e.g. CylSpectrumCode.cpp:7-18 *)
Definition t4const {T} (a b c d : Z) (x : T) : ten4 T := mkten4 a b c d (fun _ _ _ _ => x).

Section Spectrum.
Context {T : Type} {N : Num T}.
Variable mpi : T.

(* Library functions: boost::math::expint(3, x), Numerics::bickley3f (a
   quadrature, numeric_tools.cpp:12-17), exp and sqrt. *)
Variables (expint3 bickley3f nexp nsqrt : T -> T).

(* BaseSpectrumCode.cpp:11-13 *)
Definition abscissa : list T :=
  map (fun z => nofZ z [/] nofZ 10000000000)
    [446339553; 1443662570; 2868247571; 4548133152; 6280678354; 7856915206; 9086763921; 9822200849].
(* BaseSpectrumCode.cpp:15-17 *)
Definition weights : list T :=
  map (fun z => nofZ z [/] nofZ 10000000000)
    [32951914; 178429027; 454393195; 791995995; 1060473594; 1125057995; 911190236; 445508044].
(* BaseSpectrumCode.h:24 *)
Definition m_rays : Z := 8.

(* The members of the three codes (SlabSpectrumCode.h:10-20,
   CylSpectrumCode.h:10-20, SphSpectrumCode.h:10-20). *)
Record specCode := mkSpecCode {
  sc_mesh : mesh T;
  sc_albedo : list T;
  sc_radii : vec T;
  sc_vol : vec T;
  sc_tot : mat T;
  sc_cells : Z;
  sc_en : Z;
  sc_surface : T
}.
(* BaseSpectrumCode.h:15-23 and SphSpectrumCode.h:10-20 *)
Definition newSpecCode (ms : mesh T) (sd : solverData T) : res specCode :=
  v <- getVolumes mpi ms "cm" ;;
  t <- getTotalXSs ms ;;
  s <- getExternalSurface mpi ms "cm" ;;
  Ok (mkSpecCode ms (sd_albedo sd) (getBoundaries ms "cm") v t (ms_cells ms) (sd_energies sd) s).

(* SlabSpectrumCode.cpp:13-56, tau only: zz stays zero and is not used *)
Definition slabDelta (sc : specCode) : res (vec T) :=
  let l := vlen (sc_radii sc) - 1 in
  zfor 0 l (fun i d => a <- vget (sc_radii sc) (i + 1) ;; b <- vget (sc_radii sc) i ;;
    vset d i (a [-] b)) (vzeros l).
(* SlabSpectrumCode.cpp:13-56 *)
Definition slabTracks (sc : specCode) : res (ten4 T) :=
  let n := sc_cells sc in let en := sc_en sc in
  delta <- slabDelta sc ;;
  tau <- zfor 0 en (fun h tau => zfor 0 n (fun i tau => zfor i n (fun j tau =>
      if i =? j then
        d <- vget delta i ;; s <- mget (sc_tot sc) h i ;; t4set tau i j 0 h (d [*] s)
      else if i =? 0 then
        d <- vget delta j ;; s <- mget (sc_tot sc) h j ;; t <- t4get tau 0 (j - 1) 0 h ;;
        t4set tau i j 0 h (d [*] s [+] t)
      else
        d <- vget delta j ;; s <- mget (sc_tot sc) h j ;; t <- t4get tau 0 (j - 1) 0 h ;;
        u <- t4get tau 0 (i - 1) 0 h ;;
        t4set tau i j 0 h (d [*] s [+] t [-] u)) tau) tau)
    (t4const n n m_rays en n0) ;;
  zfor 0 en (fun h tau => zfor 0 n (fun i tau => zfor i n (fun j tau =>
      tau <- (if i =? j then Ok tau else
        t <- t4get tau i j 0 h ;;
        d <- vget delta j ;; s <- mget (sc_tot sc) h j ;;
        d' <- vget delta i ;; s' <- mget (sc_tot sc) h i ;;
        t4set tau i j 0 h (t [-] (d [*] s [+] d' [*] s'))) ;;
      t <- t4get tau i j 0 h ;;
      if t [<] n0 then t4set tau i j 0 h n0 else Ok tau) tau) tau) tau.

(* SlabSpectrumCode.cpp:58-96 *)
Definition slabCPs (sc : specCode) (tau : ten4 T) : res (ten3 T) :=
  let n := sc_cells sc in let en := sc_en sc in
  ' (_, g) <- zfor 0 en (fun h Pg =>
    let '(P, g) := Pg in
    P <- zfor 0 n (fun i P => zfor i n (fun j P =>
        tii <- t4get tau i i 0 h ;;
        if j =? i then
          mset P i j (n1 [-] (n1 [/] (nofZ 2 [*] tii)) [*] (n1 [-] nofZ 2 [*] expint3 tii))
        else
          tij <- t4get tau i j 0 h ;; tjj <- t4get tau j j 0 h ;;
          mset P i j ((n1 [/] (nofZ 2 [*] tii)) [*]
            (expint3 tij [-] expint3 (tij [+] tii) [-] expint3 (tij [+] tjj) [+] expint3 (tij [+] tjj [+] tii)))) P) P ;;
    P <- zfor 0 n (fun i P => zfor (i + 1) n (fun j P =>
        p <- mget P i j ;; si <- mget (sc_tot sc) h i ;; sj <- mget (sc_tot sc) h j ;;
        vi <- vget (sc_vol sc) i ;; vj <- vget (sc_vol sc) j ;;
        mset P j i (p [*] (si [/] sj) [*] (vi [/] vj))) P) P ;;
    g <- zfor 0 n (fun i g => zfor 0 n (fun j g =>
        p <- mget P i j ;; t3set g i j h p) g) g ;;
    Ok (P, g)) (mzeros n n, t3const n n en n0) ;;
  Ok g.

(* CylSpectrumCode.cpp:7-53 and SphSpectrumCode.cpp:11-58 (same text) *)
Definition curvedTracks (sc : specCode) : res (ten3 T * ten4 T) :=
  let n := sc_cells sc in let en := sc_en sc in
  ' (zz, tr) <- zfor 0 n (fun k st => zfor k n (fun j st => zfor 0 m_rays (fun i st =>
      let '(zz, tr) := st in
      r1 <- vget (sc_radii sc) (k + 1) ;; r0 <- vget (sc_radii sc) k ;; a <- lget abscissa i ;;
      zz <- t3set zz k j i (r1 [-] (r1 [-] r0) [*] npow a 2) ;;
      z <- t3get zz k j i ;; rj <- vget (sc_radii sc) (j + 1) ;;
      tr <- t3set tr k j i (nsqrt (npow rj 2 [-] npow z 2)) ;;
      Ok (zz, tr)) st) st) (t3const n n m_rays n0, t3const n n m_rays n0) ;;
  tau <- zfor 0 en (fun h tau => zfor 0 n (fun k tau => zfor 0 m_rays (fun i tau => zfor k n (fun j tau =>
      x <- t3get tr k j i ;; s <- mget (sc_tot sc) h j ;;
      if j =? k then t4set tau k j i h (x [*] s)
      else
        y <- t3get tr k (j - 1) i ;; t <- t4get tau k (j - 1) i h ;;
        t4set tau k j i h ((x [-] y) [*] s [+] t)) tau) tau) tau)
    (t4const n n m_rays en n0) ;;
  Ok (zz, tau).

(* The functions that differ between CylSpectrumCode::calcCPs and
   SphSpectrumCode::calcCPs: the kernel, the weight of a ray and the factor
   4/(V Sigma) or M_PI*4/(V Sigma).
   CylSpectrumCode.cpp:107-115 and the same place of SphSpectrumCode.cpp:60-171 *)
Definition kernel (sph : bool) (t : T) : T := if sph then nexp (nopp t) else bickley3f t.
(* CylSpectrumCode.cpp:110 and 115 and the same places of SphSpectrumCode.cpp:60-171 *)
Definition rayWeight (sph : bool) (x w dr z : T) : T :=
  if sph then x [*] w [*] dr [*] z else x [*] w [*] dr.
(* CylSpectrumCode.cpp:118-119 and the same place of SphSpectrumCode.cpp:60-171 *)
Definition cpFactor (sph : bool) (vs : T) : T :=
  if sph then mpi [*] nofZ 4 [/] vs else nofZ 4 [/] vs.

(* CylSpectrumCode.cpp:55-168 and SphSpectrumCode.cpp:60-171. The locals taumb
   etc. are assigned before use in every iteration. *)
Definition rayStep (sph : bool) (sc : specCode) (zz : ten3 T) (tau : ten4 T) (h m i j k : Z)
    (st : ten3 T * ten3 T) : res (ten3 T * ten3 T) :=
  let K := kernel sph in
  let '(c1, c2) := st in
  ' (taumb, taupb, taupbb) <-
    (if m <? i then
       tj <- t4get tau m j k h ;; ti1 <- t4get tau m (i - 1) k h ;; tj1 <- t4get tau m (j - 1) k h ;;
       let taumb := tj [-] ti1 in
       Ok (taumb, taumb [+] nofZ 2 [*] ti1, tj1 [-] ti1 [+] nofZ 2 [*] ti1)
     else Ok (n0, n0, n0)) ;;
  tj <- t4get tau m j k h ;; ti <- t4get tau m i k h ;;
  let taum := tj [-] ti in
  let taup := taum [+] nofZ 2 [*] ti in
  w <- lget weights k ;; r1 <- vget (sc_radii sc) (m + 1) ;; r0 <- vget (sc_radii sc) m ;;
  z <- (if sph then t3get zz m j k else Ok n0) ;;
  c2 <- (if j =? i then
           y <- t3get c2 m i j ;;
           t3set c2 m i j (rayWeight sph
             (nofZ 2 [*] K taupb [+] nofZ 2 [*] (K taum [-] K taumb) [-] K taup [-] K taupbb)
             w (r1 [-] r0) z [+] y)
         else Ok c2) ;;
  y <- t3get c1 m i j ;;
  c1 <- t3set c1 m i j (rayWeight sph (K taupb [-] K taup [+] K taum [-] K taumb) w (r1 [-] r0) z [+] y) ;;
  Ok (c1, c2).
(* CylSpectrumCode.cpp:81-123 and SphSpectrumCode.cpp:87-127 *)
Definition cpSets (sph : bool) (sc : specCode) (zz : ten3 T) (tau : ten4 T) (h : Z)
    : res (ten3 T * ten3 T) :=
  let n := sc_cells sc in
  zfor 0 n (fun m st => zfor m n (fun i st => zfor i n (fun j st =>
    ' (c1, c2) <- zfor 0 m_rays (rayStep sph sc zz tau h m i j) st ;;
    v <- vget (sc_vol sc) i ;; s <- mget (sc_tot sc) h i ;;
    x <- t3get c1 m i j ;; c1 <- t3set c1 m i j (x [*] cpFactor sph (v [*] s)) ;;
    x <- t3get c2 m i j ;; c2 <- t3set c2 m i j (x [*] cpFactor sph (v [*] s)) ;;
    Ok (c1, c2)) st) st) (t3const n n n n0, t3const n n n n0).
(* CylSpectrumCode.cpp:125-136 and SphSpectrumCode.cpp:129-140 *)
Definition cpSums (sc : specCode) (c1 c2 : ten3 T) : res (mat T * mat T) :=
  let n := sc_cells sc in
  zfor 0 n (fun i st => zfor 0 (i + 1) (fun m st =>
    let '(C1, C2) := st in
    x <- t3get c2 m i i ;; C2 <- madd_at C2 i i x ;;
    C1 <- zfor i n (fun j C1 => x <- t3get c1 m i j ;; madd_at C1 i j x) C1 ;;
    Ok (C1, C2)) st) (mzeros n n, mzeros n n).
(* CylSpectrumCode.cpp:76-161 and SphSpectrumCode.cpp:82-164 *)
Definition curvedGroup (sph : bool) (sc : specCode) (zz : ten3 T) (tau : ten4 T) (h : Z)
    (g : ten3 T) : res (ten3 T) :=
  let n := sc_cells sc in
  ' (c1, c2) <- cpSets sph sc zz tau h ;;
  ' (C1, C2) <- cpSums sc c1 c2 ;;
  x <- mget C1 0 0 ;; g <- t3set g 0 0 h x ;;
  g <- zfor 0 n (fun i g => zfor i (n - 1) (fun j g =>
         x <- mget C1 i j ;; y <- mget C1 i (j + 1) ;; t3set g i (j + 1) h (x [-] y)) g) g ;;
  g <- zfor 0 n (fun i g => x <- mget C2 i i ;; t3set g i i h (n1 [-] x)) g ;;
  zfor 0 n (fun i g => zfor (i + 1) n (fun j g =>
    x <- t3get g i j h ;; vi <- vget (sc_vol sc) i ;; vj <- vget (sc_vol sc) j ;;
    si <- mget (sc_tot sc) h i ;; sj <- mget (sc_tot sc) h j ;;
    t3set g j i h (x [*] (vi [/] vj) [*] (si [/] sj))) g) g.
(* CylSpectrumCode.cpp:55-168 and SphSpectrumCode.cpp:60-171 *)
Definition curvedCPs (sph : bool) (sc : specCode) (zz : ten3 T) (tau : ten4 T) : res (ten3 T) :=
  zfor 0 (sc_en sc) (fun h g => curvedGroup sph sc zz tau h g)
    (t3const (sc_cells sc) (sc_cells sc) (sc_en sc) n0).

(* SlabSpectrumCode.cpp:98-168, CylSpectrumCode.cpp:170-240 and
   SphSpectrumCode.cpp:173-243 (same text) *)
Definition whiteGroup (sc : specCode) (h : Z) (g : ten3 T) : res (ten3 T) :=
  let n := sc_cells sc in
  a <- lget (sc_albedo sc) 0 ;;
  g <- zfor 0 n (fun i g => zfor 0 n (fun j g =>
         x <- t3get g i j h ;; s <- mget (sc_tot sc) h j ;; t3set g i j h (x [/] s)) g) g ;;
  ' (Pis, psi) <- zfor 0 n (fun i st =>
      let '(Pis, psi) := st in
      Pis <- zfor 0 n (fun j Pis =>
        x <- t3get g i j h ;; s <- mget (sc_tot sc) h j ;; vadd_at Pis i (x [*] s)) Pis ;;
      p <- vget Pis i ;; Pis <- vset Pis i (n1 [-] p) ;;
      p <- vget Pis i ;; v <- vget (sc_vol sc) i ;;
      psi <- vset psi i ((nofZ 4 [*] v [/] sc_surface sc) [*] p) ;;
      Ok (Pis, psi)) (vzeros n, vzeros n) ;;
  Pss <- zfor 0 n (fun i P => p <- vget psi i ;; s <- mget (sc_tot sc) h i ;; Ok (P [+] p [*] s)) n0 ;;
  let Pss := n1 [-] Pss in
  zfor 0 n (fun i g => zfor 0 n (fun j g =>
    x <- t3get g i j h ;; p <- vget Pis i ;; q <- vget psi j ;; s <- mget (sc_tot sc) h j ;;
    t3set g i j h ((x [+] p [*] q [*] (a [/] (n1 [-] Pss [*] a))) [*] s)) g) g.
(* CylSpectrumCode.cpp:170-239 and SphSpectrumCode.cpp:173-242 *)
Definition whiteBoundary (sc : specCode) (g : ten3 T) : res (ten3 T) :=
  let n := sc_cells sc in
  g <- zfor 0 (sc_en sc) (fun h g => whiteGroup sc h g) g ;;
  zfor 0 (sc_en sc) (fun h g => zfor 0 n (fun i g => zfor 0 n (fun j g =>
    x <- t3get g i j h ;; s <- mget (sc_tot sc) h j ;; t3set g i j h (x [/] s)) g) g) g.

(* BaseSpectrumCode.cpp:20-39: the values printed, check(i) for group h *)
Definition particleBalanceCheck (sc : specCode) (g : ten3 T) : res (mat T) :=
  zfor 0 (sc_en sc) (fun h c => zfor 0 (sc_cells sc) (fun i c =>
    x <- zfor 0 (sc_cells sc) (fun j x =>
           y <- t3get g i j h ;; s <- mget (sc_tot sc) h j ;; Ok (x [+] y [*] s)) n0 ;;
    mset c h i x) c) (mzeros (sc_en sc) (sc_cells sc)).

(* BaseSpectrumCode.cpp:41-62 *)
Definition calcCPMMatrix (sc : specCode) (g : ten3 T) : res (mat T) :=
  let n := sc_cells sc in
  zfor 0 (sc_en sc) (fun k c =>
    zfor (k * n) ((k + 1) * n) (fun j c => zfor (k * n) ((k + 1) * n) (fun i c =>
      x <- t3get g (i - k * n) (j - k * n) k ;; mset c i j x) c) c)
    (mzeros (n * sc_en sc) (n * sc_en sc)).

(* Eigen matrix-matrix product with its size assertion; BaseSpectrumCode.cpp:64-145 *)
Definition mmul_c (a b : mat T) : res (mat T) :=
  if mcols a =? mrows b then Ok (mmul a b) else UB "Eigen size mismatch".

(* BaseSpectrumCode.cpp:64-95 *)
Definition specMMatrix (sc : specCode) (cpm : mat T) : res (mat T) :=
  let n := sc_cells sc in let en := sc_en sc in
  scatt <- getScattMatrices (sc_mesh sc) ;;
  M <- zfor 0 en (fun k M => zfor 0 en (fun j M => zfor 0 n (fun i M =>
         x <- t3get scatt (Z.rem j en) (Z.rem (k + j) en) i ;;
         mset M (i + Z.rem (k + j) en * n) (i + j * n) x) M) M) (mzeros (n * en) (n * en)) ;;
  M <- mmul_c (mkmat (mrows cpm) (mcols cpm) (fun i j => nopp (mat_at cpm i j))) M ;;
  zfor 0 (n * en) (fun i M => madd_at M i i n1) M.

(* BaseSpectrumCode.cpp:97-145 *)
Definition specFMatrix (sc : specCode) (cpm : mat T) : res (mat T) :=
  let n := sc_cells sc in let en := sc_en sc in
  fiss <- getFissionXSs (sc_mesh sc) ;;
  chi <- getChis (sc_mesh sc) ;;
  ni <- getNis (sc_mesh sc) ;;
  ' (F, c) <- zfor 0 en (fun j st => zfor 0 n (fun i st =>
      let '(F, c) := st in
      f <- mget fiss j i ;; v <- mget ni j i ;; x <- mget chi j i ;;
      F <- mset F (i + j * n) (i + j * n) (f [*] v) ;;
      c <- vset c (i + j * n) x ;;
      Ok (F, c)) st) (mzeros (n * en) (n * en), vzeros (n * en)) ;;
  F <- zfor 0 en (fun g F => zfor 0 en (fun k F =>
         zfor (k * n) ((k + 1) * n) (fun i F => zfor (g * n) ((g + 1) * n) (fun j F =>
           x <- mget F (i + (g - k) * n) j ;; mset F i j x) F) F) F) F ;;
  F <- zfor 0 (n * en) (fun i F => zfor 0 (n * en) (fun j F =>
         x <- mget F i j ;; y <- vget c i ;; mset F i j (x [*] y)) F) F ;;
  mmul_c cpm F.

(* SpectrumSolver.cpp:14-16 with the code object chosen by
   SpectrumCodeFactory.cpp:6-24: the vacuum collision probabilities *)
Definition vacuumCPs (sc : specCode) : res (ten3 T) :=
  match ms_geom (sc_mesh sc) with
  | SLAB => tau <- slabTracks sc ;; slabCPs sc tau
  | CYLINDER => ' (zz, tau) <- curvedTracks sc ;; curvedCPs false sc zz tau
  | SPHERE => ' (zz, tau) <- curvedTracks sc ;; curvedCPs true sc zz tau
  | GeomUNDEFINED => UB "null pointer"
  end.

(* SpectrumSolver.cpp:13-20: the printed balance and the two operators *)
Definition spectrumSystem (ms : mesh T) (sd : solverData T) : res (mat T * mat T * mat T) :=
  match ms_geom ms with
  | GeomUNDEFINED => UB "null pointer"
  | _ =>
      sc <- newSpecCode ms sd ;;
      g <- vacuumCPs sc ;;
      g <- whiteBoundary sc g ;;
      check <- particleBalanceCheck sc g ;;
      cpm <- calcCPMMatrix sc g ;;
      M <- specMMatrix sc cpm ;;
      F <- specFMatrix sc cpm ;;
      Ok (check, M, F)
  end.

(* SpectrumSolver.cpp:9-34: the new reactor and m_oldPowerDensities *)
Definition spectrumSolve (solver : mat T -> vec T -> vec T)
    (sort : list (T * vec T) -> list (T * vec T))
    (eig : mat T -> mat T -> vec (T * T) * mat (T * T))
    (sd : solverData T) (r : reactor T) : res (vec T * reactor T) :=
  old <- getHeatSources (rx_mesh r) ;;
  ' (_, M, F) <- spectrumSystem (rx_mesh r) sd ;;
  vol <- getVolumes mpi (rx_mesh r) "cm" ;;
  result <- solveEigen solver sort eig M F sd ;;
  r <- setNewHeatSource mpi vol (sd_energies sd) (ms_cells (rx_mesh r)) result r ;;
  Ok (old, r).

End Spectrum.
Arguments specCode : clear implicits.
