(* Utilities/numeric_tools.h, Utilities/numeric_tools.cpp (everything that is
   not iterative eigenvalue code) and Utilities/PolynomialFunction.cpp. *)
From Coq Require Import String ZArith List Bool.
From Verif Require Import Base.
Import ListNotations.
Local Open Scope Z_scope.

Section NumTools.
Context {T : Type} {N : Num T}.

(* numeric_tools.h:50 and following: 10.0 * std::numeric_limits<double>::epsilon() *)
Definition eps10 : T := nofZ 10 [*] nlit 1 (2 ^ 52).

(* numeric_tools.h:47-51 *)
Definition is_equal (x y : T) : bool := nabs (x [-] y) [<] eps10.
(* numeric_tools.h:53-57 *)
Definition not_equal (x y : T) : bool := negb (is_equal x y).
(* numeric_tools.h:59-63 *)
Definition is_greater (x y : T) : bool := (y [+] eps10) [<] x.
(* numeric_tools.h:65-69 *)
Definition is_greater_equal (x y : T) : bool := (y [-] eps10) [<] x.
(* numeric_tools.h:71-75 *)
Definition is_lower (x y : T) : bool := x [<] (y [-] eps10).
(* numeric_tools.h:77-81 *)
Definition is_lower_equal (x y : T) : bool := x [<] (y [+] eps10).

(* std::transform over two ranges of equal length; numeric_tools.h:92 and 106 *)
Fixpoint map2 (f : T -> T -> T) (a b : list T) : list T :=
  match a, b with
  | x :: a', y :: b' => f x y :: map2 f a' b'
  | _, _ => []
  end.

(* numeric_tools.h:83-95 operator+ *)
Definition vplus (a b : list T) : res (list T) :=
  if negb (zlen a =? zlen b) then Throw "vectors have different lengths"
  else Ok (map2 nadd a b).
(* numeric_tools.h:97-109 operator- *)
Definition vminus (a b : list T) : res (list T) :=
  if negb (zlen a =? zlen b) then Throw "vectors have different lengths"
  else Ok (map2 nsub a b).
(* numeric_tools.h:111-119 operator* *)
Definition vmults (a : list T) (m : T) : list T := map (fun i => i [*] m) a.
(* numeric_tools.h:121-132 operator/ *)
Definition vdivides (a : list T) (d : T) : res (list T) :=
  if is_equal d n0 then Throw "division by zero"
  else Ok (map (fun i => i [/] d) a).
(* numeric_tools.h:134-144 operator+= *)
Definition vplus_eq (a b : list T) : res (list T) :=
  if negb (zlen a =? zlen b) then Throw "vectors have different lengths"
  else zfor 0 (zlen a)
         (fun i a => x <- lget a i ;; y <- lget b i ;; lset a i (x [+] y)) a.
(* numeric_tools.h:146-156 operator-= *)
Definition vminus_eq (a b : list T) : res (list T) :=
  if negb (zlen a =? zlen b) then Throw "vectors have different lengths"
  else zfor 0 (zlen a)
         (fun i a => x <- lget a i ;; y <- lget b i ;; lset a i (x [-] y)) a.
(* numeric_tools.h:158-166 operator*= *)
Definition vmults_eq (a : list T) (m : T) : res (list T) :=
  zfor 0 (zlen a) (fun i a => x <- lget a i ;; lset a i (x [*] m)) a.
(* numeric_tools.h:168-178 operator/= *)
Definition vdivides_eq (a : list T) (d : T) : res (list T) :=
  if is_equal d n0 then Throw "division by zero"
  else zfor 0 (zlen a) (fun i a => x <- lget a i ;; lset a i (x [/] d)) a.

(* numeric_tools.h:196-203 slice: the iterators must form a valid range *)
Definition slice (v : list T) (m n : Z) : res (list T) :=
  if (0 <=? m) && (m <=? n + 1) && (n + 1 <=? zlen v)
  then Ok (firstn (Z.to_nat (n + 1 - m)) (skipn (Z.to_nat m) v))
  else UB "iterator range".

(* numeric_tools.cpp:19-22 *)
Definition delk (a b : Z) : T := if a =? b then n1 else n0.

(* numeric_tools.cpp:24-46. The result is the number of warnings printed. *)
Definition diagonalDominanceCheck (m : mat T) : res Z :=
  let n := mrows m in
  rowSum <- zfor 0 n (fun i rs =>
              zfor 0 n (fun j rs => x <- mget m i j ;; vadd_at rs i (nabs x)) rs)
            (vzeros n) ;;
  '(printed, count) <- zfor 0 n (fun i st =>
              d <- mget m i i ;;
              r <- vget rowSum i ;;
              if is_lower d (r [-] d) && negb (fst st)
              then Ok (true, snd st + 1) else Ok st)
            (false, 0) ;;
  Ok count.

(* numeric_tools.cpp:72-85. size_t arithmetic: for two empty vectors m + n - 1
   wraps to 2^64 - 1 and the std::vector constructor throws length_error. *)
Definition multiply_poly (a b : list T) : res (list T) :=
  let m := zlen a in
  let n := zlen b in
  if m + n =? 0 then Throw "length_error"
  else
    zfor 0 m (fun i r =>
      zfor 0 n (fun j r =>
        x <- lget a i ;; y <- lget b j ;;
        z <- lget r (i + j) ;; lset r (i + j) (z [+] x [*] y)) r)
      (repeat n0 (Z.to_nat (m + n - 1))).

(* numeric_tools.cpp:87-99 *)
Definition prod_poly (a : list T) : res (list T) :=
  foreach a (fun a_i result => multiply_poly result [a_i; n1]) [n1].

(* numeric_tools.cpp:101-113 *)
Definition prod_poly_i (a : list T) (i : Z) : res (list T) :=
  zfor 0 (zlen a) (fun j result =>
    if j =? i then Ok result
    else x <- lget a j ;; multiply_poly result [x; n1]) [n1].

(* std::pow(x, i) for an integer exponent, as repeated multiplication
   (std::pow may round differently). PolynomialFunction.cpp:12 *)
Fixpoint npow (x : T) (i : nat) : T :=
  match i with O => n1 | S i' => x [*] npow x i' end.

(* PolynomialFunction.cpp:6-16 *)
Definition poly_calc (coeffs : list T) (x : T) : res T :=
  zfor 0 (zlen coeffs)
    (fun i result => c <- lget coeffs i ;; Ok (result [+] c [*] npow x (Z.to_nat i))) n0.

(* PolynomialFunction.cpp:18-35. round6 stands for
   round_to(., digits10 of float = 6), numeric_tools.h:40-45. *)
Definition poly_calc_base (round6 : T -> T) (coeffs : list T) (x base : T) : res T :=
  let value := round6 (x [-] base) in
  if is_lower value n0 then Exit "x lower than base value"
  else zfor 0 (zlen coeffs)
    (fun i result => c <- lget coeffs i ;; Ok (result [+] c [*] npow value (Z.to_nat i))) n0.

(* numeric_tools.cpp:136-164 *)
Definition tridiag_solver (a b c d : vec T) : res (vec T) :=
  let n := vlen d in
  let result := vzeros n in
  c0 <- vget c 0 ;; b0 <- vget b 0 ;; d0 <- vget d 0 ;;
  P <- vset (vzeros n) 0 (nopp c0 [/] b0) ;;
  Q <- vset (vzeros n) 0 (d0 [/] b0) ;;
  '(P, Q) <- zfor 1 n (fun i st =>
     let '(P, Q) := st in
     bi <- vget b i ;; ai <- vget a (i - 1) ;; Pp <- vget P (i - 1) ;;
     let denominator := bi [+] ai [*] Pp in
     ci <- vget c (i - 1) ;;
     P <- vset P i (nopp ci [/] denominator) ;;
     di <- vget d i ;; Qp <- vget Q (i - 1) ;;
     Q <- vset Q i ((di [-] ai [*] Qp) [/] denominator) ;;
     Ok (P, Q)) (P, Q) ;;
  q <- vget Q (n - 1) ;;
  result <- vset result (n - 1) q ;;
  zfor_down (n - 2) 0 (fun i result =>
     p <- vget P i ;; r <- vget result (i + 1) ;; q <- vget Q i ;;
     vset result i (p [*] r [+] q)) result.

End NumTools.
