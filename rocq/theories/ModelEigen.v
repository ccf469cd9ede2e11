(* Utilities/numeric_tools.cpp:166-321 (complex conversion, source iteration,
   generalised eigenvalue problem) and Utilities/eigenmodesResults.h. *)
From Coq Require Import String ZArith List Bool.
From Verif Require Import Base ModelNumTools.
Import ListNotations.
Local Open Scope Z_scope.

(* Backbone/Datamodel/DirectionKind.h:6 *)
Inductive DirectionKind := DirUNDEFINED | FORWARD | ADJOINT.
(* Backbone/Datamodel/EigenmodesKind.h:6 *)
Inductive EigenmodesKind := EigUNDEFINED | FUNDAMENTAL | EigALL.

Section Eigen.
Context {T : Type} {N : Num T}.

(* eigenmodesResults.h:8-36; the number of iterations printed at
   numeric_tools.cpp:245 is returned beside it by sourceIteration. *)
Record eigenmodesResults := mkER {
  er_flux : vec T;
  er_k : T;
  er_modes : list (T * vec T);
  er_dir : DirectionKind
}.

(* eigenmodesResults.h:21-27 *)
Definition er_single (flux : vec T) (k : T) (dir : DirectionKind) : eigenmodesResults :=
  mkER flux k [(k, flux)] dir.

(* eigenmodesResults.h:29-36: front() of an empty vector is undefined. *)
Definition er_many (modes : list (T * vec T)) (dir : DirectionKind) : res eigenmodesResults :=
  match modes with
  | [] => UB "front() of empty vector"
  | (k, phi) :: _ => Ok (mkER phi k modes dir)
  end.

(* eigenmodesResults.h:42-50 *)
Definition er_eigenvalues (r : eigenmodesResults) : list T := map fst (er_modes r).

(* numeric_tools.cpp:225-243: the loop, with n the iterations left and h those
   done. solve is CPHQR.solve with CPHQR the factorisation of Mmatrix. The
   result is (iterations executed, flux, k), or None when the loop runs out. *)
Fixpoint si_loop (solve : vec T -> vec T) (F : mat T) (accuracy : T)
    (n : nat) (h : Z) (flux1 source2 : vec T) (k1 : T) : res (option (Z * vec T * T)) :=
  match n with
  | O => Ok None
  | S n' =>
      let flux2 := solve source2 in
      source1 <- mvmul_c F flux1 ;;
      source2 <- mvmul_c F flux2 ;;
      let sum1 := vdot source1 source2 in
      let sum2 := vdot source2 source2 in
      let k2 := k1 [*] (sum2 [/] sum1) in
      let source2 := vdivs source2 k2 in
      if nabs ((k2 [-] k1) [/] k2) [<] accuracy then Ok (Some (h + 1, flux2, k2))
      else si_loop solve F accuracy n' (h + 1) flux2 source2 k2
  end.

(* numeric_tools.cpp:194-259. unsigned size = sqrt(Mmatrix.size()) truncates. *)
Definition sourceIteration (solver : mat T -> vec T -> vec T) (M F : mat T)
    (max_iter : Z) (accuracy : T) (dir : DirectionKind) : res (Z * eigenmodesResults) :=
  warnings <- diagonalDominanceCheck M ;;
  if negb (mrows M * mcols M =? mrows F * mcols F)
  then Exit "MMatrix has a different number of elements than FMatrix!"
  else
    let size := Z.sqrt (mrows M * mcols M) in
    r <- si_loop (solver M) F accuracy (Z.to_nat max_iter) 0 (vones size) (vones size) n1 ;;
    match r with
    | None => Exit "The calculation did not converge!"
    | Some (its, flux2, k2) => Ok (its, er_single (vdivs flux2 (vnorm1 flux2)) k2 dir)
    end.

(* A complex number as its real and imaginary parts. *)
Local Notation cplx := (T * T)%type.

(* 1/z; Eigen divides complex numbers with the same formula up to rounding. numeric_tools.cpp:267 *)
Definition cinv (z : cplx) : cplx :=
  let d := fst z [*] fst z [+] snd z [*] snd z in
  (fst z [/] d, nopp (snd z) [/] d).

(* numeric_tools.cpp:173-181 *)
Definition fromComplexToDoubleV (v : vec cplx) : vec T := mkvec (vlen v) (fun i => fst (vat v i)).
(* numeric_tools.cpp:183-192 *)
Definition fromComplexToDoubleM (m : mat cplx) : mat T :=
  mkmat (mrows m) (mcols m) (fun i j => fst (mat_at m i j)).

(* numeric_tools.cpp:313-321 *)
Definition hasImagValues (a : vec cplx) : bool :=
  existsb (fun z => is_greater (snd z) n0) (list_of_vec a).

(* eigenvectors.col(i) of numeric_tools.cpp:297 *)
Definition mcol (m : mat T) (j : Z) : vec T := mkvec (mrows m) (fun i => mat_at m i j).

(* std::isnan; numeric_tools.cpp:295 *)
Definition nisnan (x : T) : bool := negb (x [<=] x).

(* std::copysign(1.0, x); the sign bits of -0.0 and of NaN are not modelled.
   numeric_tools.cpp:297 *)
Definition copysign1 (x : T) : T := if x [<] n0 then nopp n1 else n1.

(* numeric_tools.cpp:279-311. std::sort is the parameter sort: its result is
   any ordering allowed by the comparator. *)
Definition sortEigenmodes (sort : list (T * vec T) -> list (T * vec T))
    (evalues : vec cplx) (evectors : mat cplx) : res (list (T * vec T)) :=
  if hasImagValues evalues
  then Exit "The Generalized Eigen Solver has found a complex eigenvalue!"
  else
    let eigenvalues := fromComplexToDoubleV evalues in
    let eigenvectors := fromComplexToDoubleM evectors in
    modes <- zfor 0 (vlen eigenvalues) (fun i modes =>
       ev <- vget eigenvalues i ;;
       if negb (nisnan ev) && is_greater ev n0 then
         if inb i (mcols eigenvectors) then
           let c := mcol eigenvectors i in
           let eigenvector := mkvec (vlen c)
               (fun r => copysign1 (vsum c) [*] vat c r [/] vnorm1 c) in
           Ok (modes ++ [(ev, eigenvector)])
         else UB "Eigen column index"
       else Ok modes) [] ;;
    Ok (sort modes).

(* numeric_tools.cpp:261-277. The decomposition is the parameter eig, giving
   eigenvalues and eigenvectors of M v = lambda F v. *)
Definition GeneralizedEigenSolver (sort : list (T * vec T) -> list (T * vec T))
    (eig : mat T -> mat T -> vec cplx * mat cplx) (M F : mat T) (dir : DirectionKind)
    : res eigenmodesResults :=
  let '(eigenvalues, eigenvectors) := eig M F in
  let eigenvalues := mkvec (vlen eigenvalues) (fun i => cinv (vat eigenvalues i)) in
  modes <- sortEigenmodes sort eigenvalues eigenvectors ;;
  er_many modes dir.

End Eigen.
Arguments eigenmodesResults : clear implicits.
