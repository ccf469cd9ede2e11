(* CORE: Kinetics and KineticsSolver. *)
From Coq Require Import String ZArith List Bool.
From Verif Require Import Base ModelNumTools ModelMesh ModelReactor.
Import ListNotations.
Local Open Scope Z_scope.

Section Kinetics.
Context {T : Type} {N : Num T}.

(* std::exp, and the complex roots (real part, imaginary part) Eigen's
   PolynomialSolver finds for a coefficient vector *)
Variable nexp : T -> T.
Variable croots : list T -> list (T * T).

(* numeric_tools.cpp:115-134 poly_roots: the imaginary parts are dropped *)
Definition poly_roots (p : list T) : list T := map fst (croots p).

(* Kinetics.h:33-39 *)
Record kinetics := mkKin {
  kn_lambda : list T;
  kn_beta : list T;
  kn_dev : list T;
  kn_conc : list T;
  kn_alpha : T;
  kn_power : T;
  kn_time : T
}.

(* Kinetics.h:11-22 *)
Definition newKinetics (lambda beta : list T) (alpha power : T) : res kinetics :=
  conc <- zfor 0 (zlen lambda) (fun i conc =>
            b <- lget beta i ;; l <- lget lambda i ;;
            Ok (conc ++ [b [*] power [/] (l [*] alpha)])) [] ;;
  Ok (mkKin lambda beta (repeat n0 (length lambda)) conc alpha power n0).

(* Kinetics.cpp:13-36: the coefficients handed to poly_roots *)
Definition inHourPoly (k : kinetics) (rho : T) : res (list T) :=
  let lambda := kn_lambda k in
  lambdaProd <- prod_poly lambda ;;
  let betaT := fold_left nadd (kn_beta k) n0 in
  firstTerm <- vmults_eq (lambdaProd ++ [n0]) (rho [-] betaT) ;;
  secondTerm <- multiply_poly lambdaProd [n0; n1] ;;
  secondTerm <- vmults_eq secondTerm (kn_alpha k) ;;
  thirdTerm <- zfor 0 (zlen lambda) (fun i t =>
                 q <- prod_poly_i lambda i ;; l <- lget lambda i ;; b <- lget (kn_beta k) i ;;
                 vplus_eq t (vmults (vmults q l) b)) (repeat n0 (length lambda)) ;;
  d <- vminus firstTerm secondTerm ;;
  vplus d (thirdTerm ++ [n0; n0]).

(* Kinetics.cpp:11-40 *)
Definition inHourEqRoots (k : kinetics) (rho : T) : res (list T) :=
  p <- inHourPoly k rho ;; Ok (poly_roots p).

(* Kinetics.cpp:46-64: the amplitude R of each root *)
Definition amplitudes (k : kinetics) (roots : list T) : res (list T) :=
  zfor 0 (zlen roots) (fun i R =>
    s <- lget roots i ;;
    ' (sum1, sum2, sum3) <- zfor 0 (zlen (kn_lambda k)) (fun j st =>
        let '(sum1, sum2, sum3) := st in
        l <- lget (kn_lambda k) j ;; b <- lget (kn_beta k) j ;; d <- lget (kn_dev k) j ;;
        Ok (sum1 [+] b [/] (s [+] l), sum2 [+] d [/] (s [+] l),
            sum3 [+] b [*] l [/] npow (s [+] l) 2)) (n0, n0, n0) ;;
    lset R i ((kn_power k [*] (n1 [+] (n1 [/] kn_alpha k) [*] sum1) [-] sum2)
              [/] (n1 [+] (n1 [/] kn_alpha k) [*] sum3))) (repeat n0 (length roots)).

(* Kinetics.cpp:42-88 power(rho, deltaT) *)
Definition power1 (k : kinetics) (rho deltaT : T) : res (T * kinetics) :=
  let time := kn_time k [+] deltaT in
  roots <- inHourEqRoots k rho ;;
  R <- amplitudes k roots ;;
  power <- zfor 0 (zlen roots) (fun i p =>
             r <- lget R i ;; s <- lget roots i ;; Ok (p [+] r [*] nexp (s [*] deltaT))) n0 ;;
  ' (conc, dev) <- zfor 0 (zlen (kn_lambda k)) (fun i st =>
      let '(conc, dev) := st in
      l <- lget (kn_lambda k) i ;;
      sum4 <- zfor 0 (zlen roots) (fun j x =>
                r <- lget R j ;; s <- lget roots j ;;
                Ok (x [+] r [*] (nexp (s [*] deltaT) [-] nexp (nopp l [*] deltaT)) [/] (l [+] s))) n0 ;;
      b <- lget (kn_beta k) i ;; c <- lget conc i ;;
      conc <- lset conc i ((b [/] kn_alpha k) [*] sum4 [+] c [*] nexp (nopp l [*] deltaT)) ;;
      c <- lget conc i ;;
      dev <- lset dev i ((b [/] kn_alpha k) [*] power [-] l [*] c) ;;
      Ok (conc, dev)) (kn_conc k, kn_dev k) ;;
  Ok (power, mkKin (kn_lambda k) (kn_beta k) dev conc (kn_alpha k) power time).

(* Kinetics.cpp:90-105 power(rhos, times), without the printing *)
Definition powers (k : kinetics) (rhos times : list T) : res (list T * kinetics) :=
  zfor 0 (zlen rhos) (fun i st =>
    let '(results, k) := st in
    deltaT <- (if 0 <? i then t <- lget times i ;; t' <- lget times (i - 1) ;; Ok (t [-] t')
               else lget times i) ;;
    rho <- lget rhos i ;;
    ' (p, k) <- power1 k rho deltaT ;;
    Ok (results ++ [p], k)) ([], k).

(* KineticsSolver.cpp:5-21; the result is the list printed *)
Definition kineticsSolve (r : reactor T) : res (list T) :=
  let ks := rx_kin r in
  k <- newKinetics (ks_lambda ks) (ks_beta ks) (ks_alpha ks) (ks_power ks) ;;
  ' (results, _) <- powers k (ks_reacts ks) (ks_times ks) ;;
  Ok results.

End Kinetics.
Arguments kinetics : clear implicits.
