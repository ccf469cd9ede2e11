(* Property theorems C16 to C22: numeric tools. Proofs are in Proofs*.v. *)
From Coq Require Import String ZArith List Bool Lia Reals Lra.
From Flocq Require Import IEEE754.BinarySingleNaN.
From Verif Require Import Base BaseLemmas NumR NumF ModelNumTools ProofsNumTools ProofsTridiag ProofsNumF.
Import ListNotations.
Local Open Scope R_scope.

(* C16: exclusive, exhaustive off the boundary |x-y| = 10 eps, antisymmetric,
   reflexive where they should be, monotone. *)
Theorem C16_trichotomy (x y : R) :
  (is_equal x y = true -> is_greater x y = false /\ is_lower x y = false) /\
  (is_greater x y = true -> is_equal x y = false /\ is_lower x y = false) /\
  (is_lower x y = true -> is_equal x y = false /\ is_greater x y = false) /\
  (Rabs (x - y) <> 10 / 2 ^ 52 -> is_equal x y = true \/ is_greater x y = true \/ is_lower x y = true).
Proof. exact (cmp_trichotomy x y). Qed.
Print Assumptions C16_trichotomy.

Theorem C16_meaning (x y : R) :
  (is_equal x y = true <-> Rabs (x - y) < 10 / 2 ^ 52) /\
  (is_greater x y = true <-> y + 10 / 2 ^ 52 < x) /\
  (is_lower x y = true <-> x < y - 10 / 2 ^ 52) /\
  (is_greater_equal x y = true <-> y - 10 / 2 ^ 52 < x) /\
  (is_lower_equal x y = true <-> x < y + 10 / 2 ^ 52).
Proof. exact (conj (is_equal_R x y) (conj (is_greater_R x y) (conj (is_lower_R x y) (conj (is_greater_equal_R x y) (is_lower_equal_R x y))))). Qed.
Print Assumptions C16_meaning.

Theorem C16_swap (x y : R) :
  is_equal x y = is_equal y x /\ is_greater x y = is_lower y x /\
  is_greater_equal x y = is_lower_equal y x.
Proof. exact (cmp_swap x y). Qed.
Print Assumptions C16_swap.

Theorem C16_reflexive (x : R) :
  is_equal x x = true /\ is_greater_equal x x = true /\ is_lower_equal x x = true /\
  is_greater x x = false /\ is_lower x x = false.
Proof. exact (cmp_refl x). Qed.
Print Assumptions C16_reflexive.

Theorem C16_monotone (x x' y y' : R) :
  x <= x' -> y' <= y -> is_greater x y = true -> is_greater x' y' = true.
Proof. exact (cmp_mono x x' y y'). Qed.
Print Assumptions C16_monotone.

(* On doubles equality stays reflexive, the non-strict comparisons do not. *)
Theorem C16_double_equal_reflexive (x : f64) : is_finite x = true -> is_equal x x = true.
Proof. exact (is_equal_refl_f64 x). Qed.
Print Assumptions C16_double_equal_reflexive.

Theorem C16_double_nonstrict_reflexive_refuted :
  exists x : f64, is_finite x = true /\ is_greater_equal x x = false /\ is_lower_equal x x = false.
Proof. exact nonstrict_refl_fails_f64. Qed.
Print Assumptions C16_double_nonstrict_reflexive_refuted.

(* C17: for every number type, in particular bit for bit on doubles. *)
Theorem C17_add {T} {N : Num T} (a b : list T) :
  (length a = length b -> exists r, vplus a b = Ok r /\ elementwise2 nadd a b r /\ vplus_eq a b = Ok r) /\
  (length a <> length b ->
     vplus a b = Throw "vectors have different lengths" /\
     vplus_eq a b = Throw "vectors have different lengths").
Proof. exact (vplus_spec a b). Qed.
Print Assumptions C17_add.

Theorem C17_sub {T} {N : Num T} (a b : list T) :
  (length a = length b -> exists r, vminus a b = Ok r /\ elementwise2 nsub a b r /\ vminus_eq a b = Ok r) /\
  (length a <> length b ->
     vminus a b = Throw "vectors have different lengths" /\
     vminus_eq a b = Throw "vectors have different lengths").
Proof. exact (vminus_spec a b). Qed.
Print Assumptions C17_sub.

Theorem C17_mul {T} {N : Num T} (a : list T) (m : T) :
  elementwise1 (fun x => x [*] m) a (vmults a m) /\ vmults_eq a m = Ok (vmults a m).
Proof. exact (vmults_spec a m). Qed.
Print Assumptions C17_mul.

Theorem C17_div {T} {N : Num T} (a : list T) (d : T) :
  (is_equal d n0 = true ->
     vdivides a d = Throw "division by zero" /\ vdivides_eq a d = Throw "division by zero") /\
  (is_equal d n0 = false ->
     exists r, vdivides a d = Ok r /\ elementwise1 (fun x => x [/] d) a r /\ vdivides_eq a d = Ok r).
Proof. exact (vdivides_spec a d). Qed.
Print Assumptions C17_div.

Theorem C17_slice {T} (v : list T) (m n : Z) :
  ((0 <= m /\ m <= n + 1 /\ n + 1 <= zlen v)%Z ->
     exists r, slice v m n = Ok r /\ zlen r = (n + 1 - m)%Z /\
        forall i, (0 <= i < n + 1 - m)%Z -> nth_error r (Z.to_nat i) = nth_error v (Z.to_nat (m + i))) /\
  (~ (0 <= m /\ m <= n + 1 /\ n + 1 <= zlen v)%Z -> slice v m n = UB "iterator range").
Proof. exact (slice_spec v m n). Qed.
Print Assumptions C17_slice.

(* C18 *)
Theorem C18_product_evaluates (a b : list R) :
  a <> [] -> b <> [] ->
  exists r, multiply_poly a b = Ok r /\
     length r = (length a + length b - 1)%nat /\
     forall x, peval r x = peval a x * peval b x.
Proof. exact (multiply_poly_spec a b). Qed.
Print Assumptions C18_product_evaluates.

Example C18_hypotheses_met : [1; 2] <> ([] : list R) /\ [3] <> ([] : list R).
Proof. split; discriminate. Qed.

(* C19 *)
Theorem C19_linear_factors (l : list R) :
  exists r, prod_poly l = Ok r /\
    length r = S (length l) /\ last r 0 = 1 /\
    (forall x, peval r x = linprod l x) /\
    (forall x, peval r x = 0 <-> In (- x) l).
Proof. exact (prod_poly_spec l). Qed.
Print Assumptions C19_linear_factors.

Theorem C19_leave_one_out (l : list R) (i : nat) :
  (i < length l)%nat ->
  exists r, prod_poly_i l (Z.of_nat i) = Ok r /\
     length r = length l /\
     forall x, peval r x = linprod (firstn i l ++ skipn (S i) l) x.
Proof. exact (prod_poly_i_spec l i). Qed.
Print Assumptions C19_leave_one_out.

Example C19_hypotheses_met : (1 < length [1 / 2; 2; 3]%R)%nat.
Proof. simpl; lia. Qed.

(* C20 *)
Theorem C20_polynomial_law (c : list R) x : poly_calc c x = Ok (peval c x).
Proof. exact (poly_calc_spec c x). Qed.
Print Assumptions C20_polynomial_law.

Theorem C20_additive (c c' : list R) x :
  length c = length c' ->
  exists s, vplus c c' = Ok s /\ poly_calc s x = Ok (peval c x + peval c' x).
Proof. exact (poly_calc_additive c c' x). Qed.
Print Assumptions C20_additive.

Theorem C20_shifted_law round6 (c : list R) x base :
  (round6 (x - base) < - (10 / 2 ^ 52) -> poly_calc_base round6 c x base = Exit "x lower than base value") /\
  (- (10 / 2 ^ 52) <= round6 (x - base) -> poly_calc_base round6 c x base = Ok (peval c (round6 (x - base)))).
Proof. exact (poly_calc_base_spec round6 c x base). Qed.
Print Assumptions C20_shifted_law.

Example C20_hypotheses_met : length ([1; 2] : list R) = length ([3; 4] : list R).
Proof. reflexivity. Qed.

(* C21. Full statement: tri_solves for the given upper diagonal c whenever the
   pivots do not vanish. It is false of the code (next theorem); it holds when
   the upper diagonal is constant; in general the system solved is the one
   whose upper diagonal is c shifted by one row. *)
Theorem C21_tridiag_solver_partial (a b c d : vec R) n :
  (1 <= n)%Z -> vlen d = n -> vlen b = n -> (n - 1 <= vlen a)%Z ->
  (n - 1 <= vlen c)%Z -> (1 <= vlen c)%Z ->
  (forall i, (0 <= i < n - 1)%Z -> vat c i = vat c 0%Z) ->
  (forall k, (k < Z.to_nat n)%nat -> pivot (vat a) (vat b) (vat c) k <> 0) ->
  exists x, tridiag_solver a b c d = Ok x /\ vlen x = n /\
     tri_solves (vat a) (vat b) (vat c) (vat d) n (vat x).
Proof. exact (tridiag_constant_upper a b c d n). Qed.
Print Assumptions C21_tridiag_solver_partial.

Theorem C21_tridiag_solver_solves_shifted (a b c d : vec R) n :
  (1 <= n)%Z -> vlen d = n -> vlen b = n -> (n - 1 <= vlen a)%Z ->
  (n - 1 <= vlen c)%Z -> (1 <= vlen c)%Z ->
  (forall k, (k < Z.to_nat n)%nat -> pivot (vat a) (vat b) (shifted_upper (vat c)) k <> 0) ->
  wp (tridiag_solver a b c d) (fun x => vlen x = n /\
     tri_solves (vat a) (vat b) (shifted_upper (vat c)) (vat d) n (vat x)).
Proof. exact (tridiag_wp a b c d n). Qed.
Print Assumptions C21_tridiag_solver_solves_shifted.

Theorem C21_tridiag_solver_refuted :
  (forall k, (k < 3)%nat -> pivot (vat bad_a) (vat bad_b) (vat bad_c) k <> 0) /\
  exists x, tridiag_solver bad_a bad_b bad_c bad_d = Ok x /\
     ~ tri_solves (vat bad_a) (vat bad_b) (vat bad_c) (vat bad_d) 3 (vat x).
Proof. exact tridiag_refutation. Qed.
Print Assumptions C21_tridiag_solver_refuted.

Theorem C21_tridiag_solver_empty_refuted (a b c d : vec R) :
  vlen c = 0%Z -> tridiag_solver a b c d = UB "vector index".
Proof. exact (tridiag_empty_ub a b c d). Qed.
Print Assumptions C21_tridiag_solver_empty_refuted.

Example C21_hypotheses_met :
  forall k, (k < 3)%nat -> pivot (fun _ => -1) (fun _ => 2) (fun _ => -1) k <> 0.
Proof. exact poisson_pivots. Qed.

(* C22 *)
Theorem C22_dominance_warning (m : mat R) :
  (0 <= mrows m)%Z -> mrows m = mcols m ->
  (forall i, (0 <= i < mrows m)%Z -> 0 <= mat_at m i i) ->
  exists c, diagonalDominanceCheck m = Ok c /\
    (c = 0%Z \/ c = 1%Z) /\
    (c = 1%Z <-> exists i, (0 <= i < mrows m)%Z /\
       mat_at m i i + 10 / 2 ^ 52 <
       rsum 0 (mrows m) (fun j => if (j =? i)%Z then 0 else Rabs (mat_at m i j))).
Proof. exact (diagdom_spec m). Qed.
Print Assumptions C22_dominance_warning.

Theorem C22_negative_diagonal_warns (m : mat R) :
  (0 <= mrows m)%Z -> mrows m = mcols m ->
  (exists i, (0 <= i < mrows m)%Z /\ mat_at m i i < - (10 / 2 ^ 52)) ->
  diagonalDominanceCheck m = Ok 1%Z.
Proof. exact (diagdom_negative m). Qed.
Print Assumptions C22_negative_diagonal_warns.

Example C22_hypotheses_met :
  let m := mkmat 2 2 (fun i j => if (i =? j)%Z then 2 else -1) in
  (0 <= mrows m)%Z /\ mrows m = mcols m /\ forall i, (0 <= i < mrows m)%Z -> 0 <= mat_at m i i.
Proof. exact diagdom_example. Qed.
