(* Property theorems C23 to C27: eigenvalue calculations. *)
From Coq Require Import String ZArith List Bool Lia Reals Lra Permutation Sorted.
From Verif Require Import Base BaseLemmas NumR ModelNumTools ModelEigen ProofsEigen.
Import ListNotations.
Local Open Scope Z_scope.

(* C23, for every number type (bit for bit on doubles, NaN included): the
   result is the first power iterate whose relative change of factor is below
   the accuracy, at most max iterations; otherwise an error. *)
Theorem C23_first_converged_iterate {T} {N : Num T} (solver : mat T -> vec T -> vec T)
    (M F : mat T) size max acc dir :
  0 <= size -> mrows M = size -> mcols M = size -> mrows F = size -> mcols F = size ->
  (forall b, vlen b = size -> vlen (solver M b) = size) ->
  let P := power (solver M) F size in
  let C := pi_change (solver M) F size in
  (exists j, Z.of_nat j < max /\ C j [<] acc = true /\
     (forall i, (i < j)%nat -> C i [<] acc = false) /\
     sourceIteration solver M F max acc dir =
       Ok (Z.of_nat (S j),
           er_single (vdivs (pi_flux (P (S j))) (vnorm1 (pi_flux (P (S j))))) (pi_k (P (S j))) dir)) \/
  ((forall i, Z.of_nat i < max -> C i [<] acc = false) /\
     sourceIteration solver M F max acc dir = Exit "The calculation did not converge!").
Proof. exact (sourceIteration_spec solver M F size max acc dir). Qed.
Print Assumptions C23_first_converged_iterate.

Local Open Scope R_scope.

Theorem C23_unit_norm (v : vec R) : vnorm1 v <> 0 -> vnorm1 (vdivs v (vnorm1 v)) = 1.
Proof. exact (vnorm1_vdivs v). Qed.
Print Assumptions C23_unit_norm.

Example C23_hypotheses_met :
  (forall b, vlen b = 2%Z -> vlen (idsolve (idmat 2) b) = 2%Z) /\ vnorm1 (vones 2 : vec R) <> 0.
Proof.
  split; [auto|]. unfold vnorm1. rewrite !rsum_first by (cbn; lia). rewrite rsum_empty by (cbn; lia).
  cbn. rewrite Rabs_R1. lra.
Qed.

(* C24: full statement = every returned pair at which the flux has stopped
   changing direction is an eigenpair. It is false when the iteration stops at
   its first step (C24_first_iteration_refuted). *)
Theorem C24_fixed_point_is_eigenpair_partial (solver : mat R -> vec R -> vec R) (M F : mat R)
    size max acc dir its er c :
  (0 <= size)%Z -> mrows M = size -> mcols M = size -> mrows F = size -> mcols F = size ->
  exact_solver M (solver M) ->
  sourceIteration solver M F max acc dir = Ok (its, er) ->
  let P := power (solver M) F size in
  let last := pi_flux (P (Z.to_nat its)) in
  let prev := pi_flux (P (Z.to_nat (its - 1))) in
  (2 <= its)%Z -> c <> 0 -> er_k er <> 0 ->
  vdot (mvmul F last) (mvmul F last) <> 0 ->
  (forall i, (0 <= i < size)%Z -> vat last i = c * vat prev i) ->
  forall i, (0 <= i < size)%Z ->
    vat (mvmul M (er_flux er)) i = vat (mvmul F (er_flux er)) i / er_k er.
Proof. exact (sourceIteration_fixed_point solver M F size max acc dir its er c). Qed.
Print Assumptions C24_fixed_point_is_eigenpair_partial.

Example C24_hypotheses_met :
  exact_solver ex_M (ex_solver ex_M) /\
  exists er, sourceIteration ex_solver ex_M ex_F 10 (1 / 10) FORWARD = Ok (2%Z, er) /\ er_k er = 1 / 2 /\
    vat (pi_flux (power (ex_solver ex_M) ex_F 1 2)) 0 = 1 * vat (pi_flux (power (ex_solver ex_M) ex_F 1 1)) 0 /\
    vdot (mvmul ex_F (pi_flux (power (ex_solver ex_M) ex_F 1 2)))
         (mvmul ex_F (pi_flux (power (ex_solver ex_M) ex_F 1 2))) <> 0.
Proof. exact (conj ex_solver_exact ex_converges). Qed.

Theorem C24_residual (solve : vec R -> vec R) (M F : mat R) size n i :
  mrows M = size -> mcols M = size -> mrows F = size -> mcols F = size ->
  exact_solver M solve -> (0 <= i < size)%Z ->
  let P := power solve F size in
  vat (mvmul M (pi_flux (P (S (S n))))) i - vat (mvmul F (pi_flux (P (S (S n))))) i / pi_k (P (S (S n)))
  = vat (pi_src (P (S n))) i - vat (pi_src (P (S (S n)))) i.
Proof. exact (fun a b c d e => power_residual solve M F size a b c d e n i). Qed.
Print Assumptions C24_residual.

(* A loss operator with unit row sums ends the iteration at once with factor
   one and a flat flux, whatever the production operator. *)
Theorem C24_flat_start (solver : mat R -> vec R -> vec R) (M F : mat R) size max acc dir :
  (0 < size)%Z -> mrows M = size -> mcols M = size -> mrows F = size -> mcols F = size ->
  (forall b, vlen b = size -> vlen (solver M b) = size) ->
  (forall i, (0 <= i < size)%Z -> vat (solver M (vones size)) i = 1) ->
  vdot (mvmul F (vones size)) (mvmul F (vones size)) <> 0 ->
  (0 < max)%Z -> 0 < acc ->
  exists flux, sourceIteration solver M F max acc dir = Ok (1%Z, er_single flux 1 dir) /\
     vlen flux = size /\ forall i, (0 <= i < size)%Z -> vat flux i = / IZR size.
Proof. exact (si_first_iteration solver M F size max acc dir). Qed.
Print Assumptions C24_flat_start.

Theorem C24_first_iteration_refuted (acc : R) :
  0 < acc ->
  exists er, sourceIteration idsolve (idmat 2) bad_F 10 acc FORWARD = Ok (1%Z, er) /\
    exact_solver (idmat 2) (idsolve (idmat 2)) /\
    vat (mvmul (idmat 2) (er_flux er)) 0 <> vat (mvmul bad_F (er_flux er)) 0 / er_k er.
Proof. exact (sourceIteration_refutation acc). Qed.
Print Assumptions C24_first_iteration_refuted.

(* C25 *)
Theorem C25_positive_iterates (solve : vec R -> vec R) (F : mat R) size r s n :
  mrows F = size -> mcols F = size ->
  (forall b, vlen b = size -> vlen (solve b) = size) ->
  (forall b, vlen b = size ->
    (forall i, (0 <= i < size)%Z -> 0 <= vat b i) -> (exists i, (0 <= i < size)%Z /\ 0 < vat b i) ->
    forall i, (0 <= i < size)%Z -> 0 < vat (solve b) i) ->
  (forall i j, (0 <= i < size)%Z -> (0 <= j < size)%Z -> 0 <= mat_at F i j) ->
  (0 <= r < size)%Z -> (0 <= s < size)%Z -> 0 < mat_at F r s ->
  (forall i, (0 <= i < size)%Z -> 0 < vat (pi_flux (power solve F size n)) i) /\
  0 < pi_k (power solve F size n).
Proof.
  exact (fun a b c d e f g h =>
    conj (proj2 (proj1 (power_positive solve F size a b c d e r s f g h n)))
         (proj1 (proj2 (power_positive solve F size a b c d e r s f g h n)))).
Qed.
Print Assumptions C25_positive_iterates.

Theorem C25_positive_result (solver : mat R -> vec R -> vec R) (M F : mat R) size max acc dir its er :
  (0 <= size)%Z -> mrows M = size -> mcols M = size -> mrows F = size -> mcols F = size ->
  (forall b, vlen b = size -> vlen (solver M b) = size) ->
  (forall b, vlen b = size ->
    (forall i, (0 <= i < size)%Z -> 0 <= vat b i) -> (exists i, (0 <= i < size)%Z /\ 0 < vat b i) ->
    forall i, (0 <= i < size)%Z -> 0 < vat (solver M b) i) ->
  (forall i j, (0 <= i < size)%Z -> (0 <= j < size)%Z -> 0 <= mat_at F i j) ->
  (exists r s, (0 <= r < size)%Z /\ (0 <= s < size)%Z /\ 0 < mat_at F r s) ->
  sourceIteration solver M F max acc dir = Ok (its, er) ->
  0 < er_k er /\ vlen (er_flux er) = size /\ vnorm1 (er_flux er) = 1 /\
  forall i, (0 <= i < size)%Z -> 0 < vat (er_flux er) i.
Proof. exact (sourceIteration_positive solver M F size max acc dir its er). Qed.
Print Assumptions C25_positive_result.

Example C25_hypotheses_met : forall size (b : vec R),
  vlen b = size -> (forall i, (0 <= i < size)%Z -> 0 <= vat b i) ->
  (exists i, (0 <= i < size)%Z /\ 0 < vat b i) ->
  forall i, (0 <= i < size)%Z -> 0 < vat (ones_solve (idmat size) b) i.
Proof. exact ones_solve_positive. Qed.

(* C26: the reported modes are a sorted permutation of the scaled modes of the
   positive values; scaled_mode and keep are the specification of one mode. *)
Theorem C26_modes_reported sort eig (M F : mat R) dir :
  let ev := fst (eig M F) in let evec := snd (eig M F) in
  let vals := mkvec (vlen ev) (fun i => cinv (vat ev i)) in
  sorts sort ->
  (0 <= vlen ev)%Z -> (vlen ev <= mcols evec)%Z ->
  (forall i, (0 <= i < vlen ev)%Z -> snd (vat vals i) <= 10 / 2 ^ 52) ->
  (exists i, (0 <= i < vlen ev)%Z /\ 10 / 2 ^ 52 < fst (vat vals i)) ->
  exists er, GeneralizedEigenSolver sort eig M F dir = Ok er /\
    Permutation (er_modes er) (map (scaled_mode vals evec) (filter (keep vals) (zseq (vlen ev)))) /\
    StronglySorted desc (er_modes er) /\
    er_modes er <> [] /\ hd_error (er_modes er) = Some (er_k er, er_flux er) /\ er_dir er = dir.
Proof. exact (ges_report sort eig M F dir). Qed.
Print Assumptions C26_modes_reported.

Theorem C26_modes_normalised ev evec i :
  (exists r, (0 <= r < mrows evec)%Z /\ fst (mat_at evec r i) <> 0) ->
  vnorm1 (snd (scaled_mode ev evec i)) = 1 /\
  0 <= vsum (snd (scaled_mode ev evec i)) /\
  exists c, c <> 0 /\ forall r, (0 <= r < mrows evec)%Z ->
     vat (snd (scaled_mode ev evec i)) r = c * fst (mat_at evec r i).
Proof. exact (scaled_mode_facts ev evec i). Qed.
Print Assumptions C26_modes_normalised.

Theorem C26_modes_are_eigenpairs M F ev evec i :
  let vals := mkvec (vlen ev) (fun i => cinv (vat ev i)) in
  mcols M = mrows evec -> mcols F = mrows evec ->
  snd (vat ev i) = 0 -> fst (vat ev i) <> 0 ->
  is_eigenpair M F (vat ev i) (fun r => fst (mat_at evec r i)) (fun r => snd (mat_at evec r i)) ->
  (exists r, (0 <= r < mrows evec)%Z /\ fst (mat_at evec r i) <> 0) ->
  forall r, (0 <= r < mrows M)%Z ->
    fst (scaled_mode vals evec i) * vat (mvmul M (snd (scaled_mode vals evec i))) r
    = vat (mvmul F (snd (scaled_mode vals evec i))) r.
Proof. exact (mode_is_eigenpair M F ev evec i). Qed.
Print Assumptions C26_modes_are_eigenpairs.

Theorem C26_complex_rejected sort (ev : vec (R * R)) (evec : mat (R * R)) i j :
  (0 <= vlen ev)%Z -> (vlen ev <= mcols evec)%Z ->
  (0 <= i < vlen ev)%Z -> (0 <= j < vlen ev)%Z ->
  vat ev j = (fst (vat ev i), - snd (vat ev i)) ->
  10 / 2 ^ 52 < Rabs (snd (vat ev i)) ->
  sortEigenmodes sort ev evec = Exit "The Generalized Eigen Solver has found a complex eigenvalue!".
Proof. exact (complex_rejected sort ev evec i j). Qed.
Print Assumptions C26_complex_rejected.

Example C26_hypotheses_met : sorts isort.
Proof. exact isort_sorts. Qed.

(* C27 *)
Theorem C27_report_or_error_refuted :
  let M := idmat 1 in let F := mkmat 1 1 (fun _ _ => -1) in
  is_eigenpair M F (vat (fst (neg_eig M F)) 0) (fun r => fst (mat_at (snd (neg_eig M F)) r 0))
     (fun r => snd (mat_at (snd (neg_eig M F)) r 0)) /\
  GeneralizedEigenSolver isort neg_eig M F FORWARD = UB "front() of empty vector".
Proof. exact ges_refutation. Qed.
Print Assumptions C27_report_or_error_refuted.

Theorem C27_no_positive_mode_is_undefined sort eig (M F : mat R) dir :
  sorts sort ->
  (0 <= vlen (fst (eig M F)))%Z -> (vlen (fst (eig M F)) <= mcols (snd (eig M F)))%Z ->
  (forall i, (0 <= i < vlen (fst (eig M F)))%Z ->
      fst (cinv (vat (fst (eig M F)) i)) <= 10 / 2 ^ 52 /\
      snd (cinv (vat (fst (eig M F)) i)) <= 10 / 2 ^ 52) ->
  GeneralizedEigenSolver sort eig M F dir = UB "front() of empty vector".
Proof. exact (ges_empty_ub sort eig M F dir). Qed.
Print Assumptions C27_no_positive_mode_is_undefined.
