(* The factors of the source iteration when the loss operator is symmetric and every
   cell has the same production: Rayleigh quotients. *)
From Coq Require Import ZArith Reals Lra Lia List Bool.
From Verif Require Import Base NumR LinAlg PowerMethod ModelNumTools ModelEigen ProofsEigen ProofsConverge.
Local Open Scope R_scope.

Definition dot (n : Z) (x y : Z -> R) : R := rsum 0 n (fun i => x i * y i).

Lemma dot_comm n x y : dot n x y = dot n y x.
Proof. apply rsum_ext. intros; ring. Qed.
Lemma dot_ext n x x' y y' : (forall i, (0 <= i < n)%Z -> x i = x' i) -> (forall i, (0 <= i < n)%Z -> y i = y' i) -> dot n x y = dot n x' y'.
Proof. intros H1 H2. apply rsum_ext. intros i Hi. rewrite H1, H2 by exact Hi. reflexivity. Qed.
Lemma dot_lin n x y t z : dot n (fun i => x i + t * y i) z = dot n x z + t * dot n y z.
Proof. unfold dot. rewrite <- rsum_scal, <- rsum_plus. apply rsum_ext. intros; ring. Qed.
Lemma dot_scal n c x z : dot n (fun i => c * x i) z = c * dot n x z.
Proof. unfold dot. rewrite <- rsum_scal. apply rsum_ext. intros; ring. Qed.
Lemma dot_nonneg n x : 0 <= dot n x x.
Proof. apply rsum_nonneg. intros; nra. Qed.
Lemma app_lin n A x y t i : app n A (fun j => x j + t * y j) i = app n A x i + t * app n A y i.
Proof. unfold app. rewrite <- rsum_scal, <- rsum_plus. apply rsum_ext. intros; ring. Qed.
Lemma app_scal n A c x i : app n A (fun j => c * x j) i = c * app n A x i.
Proof. unfold app. rewrite <- rsum_scal. apply rsum_ext. intros; ring. Qed.

Lemma discriminant a b c : 0 <= c -> (forall t, 0 <= a + 2 * b * t + c * (t * t)) -> b * b <= a * c.
Proof.
  intros [Hc | <-] H.
  - specialize (H (- b / c)). replace (a + 2 * b * (- b / c) + c * (- b / c * (- b / c))) with ((a * c - b * b) / c) in H by (field; lra).
    apply Rnot_lt_le. intros L. assert ((a * c - b * b) / c < 0); [|lra]. apply Rmult_lt_reg_r with c; [exact Hc|]. unfold Rdiv. rewrite Rmult_assoc, Rinv_l by lra. lra.
  - destruct (Req_dec b 0) as [-> | Hb]; [lra|]. specialize (H (- (a + 1) / (2 * b))).
    replace (a + 2 * b * (- (a + 1) / (2 * b)) + 0 * (- (a + 1) / (2 * b) * (- (a + 1) / (2 * b)))) with (-1) in H by (field; lra). lra.
Qed.

Lemma cauchy n x y : dot n x y * dot n x y <= dot n x x * dot n y y.
Proof.
  apply discriminant; [apply dot_nonneg|]. intros t. pose proof (dot_nonneg n (fun i => x i + t * y i)) as H.
  rewrite dot_lin, (dot_comm n x), (dot_comm n y), !dot_lin, (dot_comm n y x) in H. lra.
Qed.

Section Symmetric.
Variables (n : Z) (A : Z -> Z -> R) (phi : Z -> R) (mu : R).
Hypothesis Hsym : forall i j, (0 <= i < n)%Z -> (0 <= j < n)%Z -> A i j = A j i.
Hypothesis Hoff : forall i j, (0 <= i < n)%Z -> (0 <= j < n)%Z -> i <> j -> A i j <= 0.
Hypothesis Hphi : forall i, (0 <= i < n)%Z -> 0 < phi i.
Hypothesis Hmu : 0 < mu.
Hypothesis Heig : forall i, (0 <= i < n)%Z -> app n A phi i = mu * phi i.
Notation "x .* y" := (dot n x y) (at level 35).
Notation L := (app n A).

Lemma self_adjoint x y : x .* L y = L x .* y.
Proof using Hsym.
  unfold dot, app. rewrite (rsum_ext 0 n _ (fun i => rsum 0 n (fun j => x i * (A i j * y j)))) by (intros; rewrite rsum_scal; reflexivity).
  rewrite rsum_swap. apply rsum_ext. intros j Hj. rewrite <- rsum_scal_r. apply rsum_ext. intros i Hi. rewrite (Hsym i j) by assumption. ring.
Qed.

(* the energy is at least that of the positive eigenvector *)
Lemma energy x : mu * (x .* x) <= x .* L x.
Proof using Hsym Hoff Hphi Heig.
  set (D := rsum 0 n (fun i => rsum 0 n (fun j => A i j * (phi i * phi j) * ((x i / phi i - x j / phi j) * (x i / phi i - x j / phi j))))).
  assert (D0 : D <= 0).
  { unfold D. rewrite <- (rsum_0 0 n (fun _ => 0)) by reflexivity. apply rsum_le. intros i Hi. rewrite <- (rsum_0 0 n (fun _ => 0)) by reflexivity. apply rsum_le. intros j Hj.
    destruct (Z.eq_dec i j) as [-> | Hne]; [replace (x j / phi j - x j / phi j) with 0 by ring; lra|].
    pose proof (Hoff i j Hi Hj Hne). pose proof (Hphi i Hi). pose proof (Hphi j Hj). pose proof (Rle_0_sqr (x i / phi i - x j / phi j)) as Q. unfold Rsqr in Q.
    assert (P : 0 < phi i * phi j) by nra. assert (0 <= - A i j * (phi i * phi j)) by nra. nra. }
  assert (Ha : rsum 0 n (fun i => rsum 0 n (fun j => x i * x i / phi i * (A i j * phi j))) = mu * (x .* x)).
  { unfold dot. rewrite <- rsum_scal. apply rsum_ext. intros i Hi. rewrite rsum_scal. fold (app n A phi i). rewrite Heig by exact Hi. pose proof (Hphi i Hi). field. lra. }
  assert (Hb : rsum 0 n (fun i => rsum 0 n (fun j => x j * x j / phi j * (A j i * phi i))) = mu * (x .* x)) by (rewrite rsum_swap; exact Ha).
  assert (E : D = 2 * (mu * (x .* x)) - 2 * (x .* L x)).
  { replace (2 * (mu * (x .* x))) with (mu * (x .* x) + mu * (x .* x)) by ring. rewrite <- Ha at 1. rewrite <- Hb. unfold dot, app, D. rewrite <- rsum_scal, <- rsum_plus, <- rsum_minus.
    apply rsum_ext. intros i Hi. rewrite <- rsum_scal, <- rsum_scal, <- rsum_plus, <- rsum_minus. apply rsum_ext. intros j Hj.
    rewrite (Hsym j i) by assumption. pose proof (Hphi i Hi). pose proof (Hphi j Hj). field. lra. }
  lra.
Qed.
Lemma energy_nonneg x : 0 <= x .* L x.
Proof using Hsym Hoff Hphi Heig Hmu. pose proof (energy x). pose proof (dot_nonneg n x). nra. Qed.

Lemma cauchy_energy x y : (x .* L y) * (x .* L y) <= (x .* L x) * (y .* L y).
Proof using Hsym Hoff Hphi Heig Hmu.
  apply discriminant; [apply energy_nonneg|]. intros t. pose proof (energy_nonneg (fun i => x i + t * y i)) as H.
  rewrite (dot_ext n _ _ (L (fun i => x i + t * y i)) (fun i => L x i + t * L y i) (fun i _ => eq_refl)) in H by (intros; apply app_lin).
  rewrite dot_lin, (dot_comm n x), (dot_comm n y), !dot_lin, (dot_comm n (L x) x), (dot_comm n (L y) y) in H.
  rewrite <- (self_adjoint x y), (dot_comm n (L y) x) in H. lra.
Qed.

(* one step x = L y *)
Variables x y : Z -> R.
Hypothesis Hxy : forall i, (0 <= i < n)%Z -> L y i = x i.
Hypothesis Hx : 0 < x .* x.
Lemma step_dot z : z .* L y = z .* x.
Proof using Hxy. apply dot_ext; auto. Qed.
Lemma step_phi : mu * (phi .* y) = phi .* x.
Proof using Hxy Hsym Heig. rewrite <- (step_dot phi), self_adjoint. rewrite <- dot_scal. apply dot_ext; [|auto]. intros; symmetry; auto. Qed.
Lemma step_pos : 0 < y .* y /\ 0 < y .* x /\ 0 < x .* L x.
Proof using All.
  pose proof (cauchy_energy x y) as C. rewrite !step_dot in C. pose proof (energy x) as Ex. pose proof (energy y) as Ey. rewrite step_dot in Ey.
  pose proof (dot_nonneg n y) as Y0. assert (0 < x .* L x) by nra.
  assert (P : 0 < y .* x). { apply Rnot_le_lt. intros N. assert (0 < (x .* x) * (x .* x)) by nra. assert (y .* x = 0) as Z by nra. rewrite Z in C. lra. }
  split; [|split; assumption]. destruct Y0 as [Y0 | Y0]; [exact Y0|]. pose proof (cauchy n y x) as Q. rewrite <- Y0 in Q. nra.
Qed.
(* the three quotients of a step *)
Lemma step_rise : (x .* x) * (x .* x) <= (x .* L x) * (y .* x) /\ (y .* x) * (y .* x) <= (y .* y) * (x .* x) /\ mu * (y .* y) <= y .* x.
Proof using All.
  pose proof (cauchy_energy x y) as C. rewrite !step_dot in C. pose proof (energy y) as Ey. rewrite step_dot in Ey.
  split; [exact C|]. split; [exact (cauchy n y x)|exact Ey].
Qed.
(* the part along the eigenvector does not shrink *)
Lemma step_angle c : 0 <= c -> c * ((phi .* phi) * (x .* x)) <= (phi .* x) * (phi .* x) -> c * ((phi .* phi) * (y .* y)) <= (phi .* y) * (phi .* y).
Proof using All.
  intros Hc H. rewrite <- step_phi in H. destruct step_rise as (_ & C & E). destruct step_pos as (Y & P & _). pose proof (dot_nonneg n phi) as F0.
  assert (Q : mu * mu * (y .* y) <= x .* x).
  { apply Rmult_le_reg_l with (y .* y); [exact Y|]. apply Rle_trans with ((y .* x) * (y .* x)); [|exact C].
    replace (y .* y * (mu * mu * (y .* y))) with (mu * (y .* y) * (mu * (y .* y))) by ring. apply Rmult_le_compat; nra. }
  apply Rmult_le_reg_l with (mu * mu); [nra|]. apply Rle_trans with (c * (phi .* phi * (x .* x))); [|lra].
  replace (mu * mu * (c * (phi .* phi * (y .* y)))) with (c * (phi .* phi) * (mu * mu * (y .* y))) by ring.
  replace (c * (phi .* phi * (x .* x))) with (c * (phi .* phi) * (x .* x)) by ring. apply Rmult_le_compat_l; [nra|exact Q].
Qed.
(* how far the quotient (y.x)/(x.x) is from 1/mu *)
Lemma step_distance c : 0 < phi .* phi -> 0 < c -> c * ((phi .* phi) * (x .* x)) <= (phi .* x) * (phi .* x) ->
  let r := y .* x / (x .* x) in let k := y .* y / (y .* x) in
  c * ((/ mu - r) * (/ mu - r)) <= r * (k - r).
Proof using All.
  intros F0 Hc H r k. destruct step_pos as (Y & P & _).
  pose proof (cauchy n phi (fun i => y i + - r * x i)) as C.
  rewrite (dot_comm n phi), !dot_lin in C. rewrite (dot_comm n y (fun i => y i + - r * x i)), (dot_comm n x (fun i => y i + - r * x i)), !dot_lin in C.
  rewrite (dot_comm n y phi), (dot_comm n x phi), (dot_comm n x y) in C.
  assert (E1 : phi .* y = phi .* x / mu) by (rewrite <- step_phi; field; lra). rewrite E1 in C.
  assert (Er : y .* x = r * (x .* x)) by (unfold r; field; lra). assert (Ek : y .* y = k * (y .* x)) by (unfold k; field; lra). rewrite Ek, Er in C.
  replace ((phi .* x / mu + - r * (phi .* x)) * (phi .* x / mu + - r * (phi .* x))) with ((/ mu - r) * (/ mu - r) * (phi .* x * (phi .* x))) in C by (field; lra).
  replace (phi .* phi * (k * (r * (x .* x)) + - r * (r * (x .* x)) + - r * (r * (x .* x) + - r * (x .* x)))) with (r * (k - r) * (phi .* phi * (x .* x))) in C by ring.
  apply Rmult_le_reg_r with (phi .* phi * (x .* x)); [apply Rmult_lt_0_compat; assumption|]. apply Rle_trans with (2 := C).
  replace (c * ((/ mu - r) * (/ mu - r)) * (phi .* phi * (x .* x))) with ((/ mu - r) * (/ mu - r) * (c * (phi .* phi * (x .* x)))) by ring.
  apply Rmult_le_compat_l; [apply Rle_0_sqr|exact H].
Qed.
End Symmetric.

Section Iteration.
Variables (solver : mat R -> vec R -> vec R) (M F : mat R) (n : Z) (f mu c : R) (phi : Z -> R).
Let solve := solver M.
Hypothesis Hn : (0 < n)%Z.
Hypothesis HMr : mrows M = n.
Hypothesis HMc : mcols M = n.
Hypothesis HFr : mrows F = n.
Hypothesis HFc : mcols F = n.
Hypothesis Hex : exact_solver M solve.
Hypothesis Hf : 0 < f.
Hypothesis HF : forall v i, (0 <= i < n)%Z -> vat (mvmul F v) i = f * vat v i.
Notation A := (mat_at M).
Hypothesis Hsym : forall i j, (0 <= i < n)%Z -> (0 <= j < n)%Z -> A i j = A j i.
Hypothesis Hoff : forall i j, (0 <= i < n)%Z -> (0 <= j < n)%Z -> i <> j -> A i j <= 0.
Hypothesis Hphi : forall i, (0 <= i < n)%Z -> 0 < phi i.
Hypothesis Hmu : 0 < mu.
Hypothesis Heig : forall i, (0 <= i < n)%Z -> app n A phi i = mu * phi i.
Notation "x .* y" := (dot n x y) (at level 35).
Notation L := (app n A).
Hypothesis Hc : 0 < c.
Hypothesis Hflat : c * ((phi .* phi) * IZR n) <= (phi .* (fun _ => 1)) * (phi .* (fun _ => 1)).
Let P := power solve F n.
Let kk j := pi_k (P j).
Let fl j := vat (pi_flux (P j)).

Lemma phi_pos : 0 < phi .* phi.
Proof using Hn Hphi. apply Rlt_le_trans with (phi 0%Z * phi 0%Z); [pose proof (Hphi 0%Z ltac:(lia)); nra|]. apply (rsum_term_le 0 n (fun i => phi i * phi i)); [intros; nra|lia]. Qed.

Lemma lens j : vlen (pi_flux (P j)) = n /\ vlen (pi_src (P j)) = n.
Proof using HMr HMc HFr HFc Hex. apply power_len; try assumption. intros b Hb. rewrite <- HMc. apply Hex. lia. Qed.

Lemma vdot_F j j' : vdot (mvmul F (pi_flux (P j))) (mvmul F (pi_flux (P j'))) = f * f * (fl j .* fl j').
Proof using HFr HF. unfold vdot, dot. cbn [mvmul vlen]. rewrite HFr, <- rsum_scal. apply rsum_ext. intros i Hi. change (fun i0 => nsum 0 (mcols F) (fun j0 => mat_at F i0 j0 [*] vat (pi_flux (P j)) j0)) with (vat (mvmul F (pi_flux (P j)))).
  pose proof (HF (pi_flux (P j)) i Hi) as E1. pose proof (HF (pi_flux (P j')) i Hi) as E2. rnum.
  transitivity (vat (mvmul F (pi_flux (P j))) i * vat (mvmul F (pi_flux (P j'))) i); [reflexivity|]. rewrite E1, E2. unfold fl. ring. Qed.

Definition strength (j : nat) : R := match j with O => 1 | _ => f / kk j end.
Lemma flux_eq j i : (0 <= i < n)%Z -> L (fl (S j)) i = strength j * fl j i.
Proof using HMr HMc HFr HFc Hex HF.
  intros Hi. destruct (Hex (pi_src (P j))) as (_ & _ & E); [rewrite HMr; apply lens|]. specialize (E i). cbn [mvmul vlen] in E. rewrite HMr in E. specialize (E Hi).
  transitivity (vat (mvmul M (solve (pi_src (P j)))) i).
  - rewrite mvmul_at, HMc. reflexivity.
  - etransitivity; [exact E|]. destruct j as [|j]; [cbn; lra|]. unfold strength. change (pi_src (P (S j))) with (vdivs (mvmul F (pi_flux (P (S j)))) (kk (S j))). cbn [vdivs vat]. rnum.
    change (vat (mvmul F (pi_flux (P (S j)))) i / kk (S j) = f / kk (S j) * fl (S j) i). rewrite HF by exact Hi. unfold fl, Rdiv. ring.
Qed.
Lemma factor_eq j : kk (S j) = kk j * ((fl (S j) .* fl (S j)) / (fl j .* fl (S j))).
Proof using HFr HF Hf.
  transitivity (kk j * (vdot (mvmul F (pi_flux (P (S j)))) (mvmul F (pi_flux (P (S j)))) / vdot (mvmul F (pi_flux (P j))) (mvmul F (pi_flux (P (S j)))))); [reflexivity|].
  rewrite !vdot_F. f_equal. destruct (Req_dec (fl j .* fl (S j)) 0) as [-> | E]; [|field; split; lra].
  rewrite Rmult_0_r. unfold Rdiv. rewrite Rinv_0. ring.
Qed.

(* the invariant of the iteration *)
Lemma invariant j : 0 < kk j /\ 0 < fl j .* fl j /\ c * ((phi .* phi) * (fl j .* fl j)) <= (phi .* fl j) * (phi .* fl j).
Proof using All.
  induction j as [|j (K & X & G)].
  - assert (E : fl 0 .* fl 0 = IZR n).
    { unfold dot. rewrite (rsum_ext 0 n _ (fun _ => 1)) by (intros; cbn; rnum; lra). rewrite rsum_const by lia. rewrite Z.sub_0_r. ring. }
    split; [cbn; rnum; lra|]. rewrite E. split; [apply (IZR_lt 0); exact Hn|]. rewrite (dot_ext n phi phi (fl 0) (fun _ => 1)); [exact Hflat|auto|reflexivity].
  - assert (S0 : 0 < strength j) by (unfold strength; destruct j; [lra|apply Rdiv_lt_0_compat; assumption]).
    set (y := fun i => / strength j * fl (S j) i).
    assert (Hy : forall i, (0 <= i < n)%Z -> L y i = fl j i). { intros i Hi. unfold y. rewrite app_scal, flux_eq by exact Hi. field. lra. }
    assert (Ey : forall z, fl (S j) .* z = strength j * (y .* z)). { intros z. unfold y. rewrite dot_scal. field. lra. }
    destruct (step_pos n A phi mu Hsym Hoff Hphi Hmu Heig (fl j) y Hy X) as (Y & Q & _).
    pose proof (step_angle n A phi mu Hsym Hoff Hphi Hmu Heig (fl j) y Hy X c (Rlt_le _ _ Hc) G) as G'.
    assert (E1 : fl (S j) .* fl (S j) = strength j * strength j * (y .* y)) by (rewrite Ey, (dot_comm n y), Ey; ring).
    assert (E2 : fl j .* fl (S j) = strength j * (y .* fl j)) by (rewrite (dot_comm n (fl j)); apply Ey).
    split; [|split].
    + rewrite factor_eq, E1, E2. apply Rmult_lt_0_compat; [exact K|]. apply Rdiv_lt_0_compat; repeat apply Rmult_lt_0_compat; assumption.
    + rewrite E1. repeat apply Rmult_lt_0_compat; assumption.
    + rewrite E1, (dot_comm n phi (fl (S j))), Ey, (dot_comm n y phi).
      replace (c * (phi .* phi * (strength j * strength j * (y .* y)))) with (strength j * strength j * (c * (phi .* phi * (y .* y)))) by ring.
      replace (strength j * (phi .* y) * (strength j * (phi .* y))) with (strength j * strength j * (phi .* y * (phi .* y))) by ring.
      apply Rmult_le_compat_l; [nra|exact G'].
Qed.

(* the factor of iterate j+1 in terms of y, where L y is the flux of iterate j *)
Lemma quotient j : exists y, (forall i, (0 <= i < n)%Z -> L y i = fl j i) /\
  kk (S j) = (match j with O => 1 | _ => f end) * (y .* y / (y .* fl j)) /\ fl (S j) .* fl (S j) = strength j * strength j * (y .* y) /\ fl (S j) .* L (fl (S j)) = strength j * strength j * (y .* fl j).
Proof using All.
  destruct (invariant j) as (K & X & G).
  assert (S0 : 0 < strength j) by (unfold strength; destruct j; [lra|apply Rdiv_lt_0_compat; assumption]).
  set (y := fun i => / strength j * fl (S j) i).
  assert (Hy : forall i, (0 <= i < n)%Z -> L y i = fl j i). { intros i Hi. unfold y. rewrite app_scal, flux_eq by exact Hi. field. lra. }
  assert (Ey : forall z, fl (S j) .* z = strength j * (y .* z)). { intros z. unfold y. rewrite dot_scal. field. lra. }
  destruct (step_pos n A phi mu Hsym Hoff Hphi Hmu Heig (fl j) y Hy X) as (Y & Q & _).
  assert (E1 : fl (S j) .* fl (S j) = strength j * strength j * (y .* y)) by (rewrite Ey, (dot_comm n y), Ey; ring).
  assert (E2 : fl j .* fl (S j) = strength j * (y .* fl j)) by (rewrite (dot_comm n (fl j)); apply Ey).
  exists y. split; [exact Hy|]. split; [|split; [exact E1|]].
  - rewrite factor_eq, E1, E2. replace (match j with O => 1 | S _ => f end) with (kk j * strength j).
    + field. split; lra.
    + unfold strength. destruct j as [|j]; [cbn; rnum; ring|]. field. lra.
  - rewrite (dot_ext n _ (fl (S j)) _ (fun i => strength j * fl j i) (fun _ _ => eq_refl) (flux_eq j)).
    rewrite (dot_comm n (fl (S j))), dot_scal, (dot_comm n (fl j)), Ey. ring.
Qed.

(* from the second iterate on, the factor never exceeds f / mu and is at least c of it;
   from there on it rises, and its last rise bounds the distance *)
Lemma factor_bounds j : kk (S (S j)) <= f / mu.
Proof using All.
  destruct (invariant (S j)) as (_ & X & _). destruct (quotient (S j)) as (y & Hy & E & _ & _). rewrite E.
  destruct (step_pos n A phi mu Hsym Hoff Hphi Hmu Heig _ y Hy X) as (Y & Q & _). destruct (step_rise n A phi mu Hsym Hoff Hphi Hmu Heig _ y Hy X) as (_ & _ & U).
  unfold Rdiv at 2. apply Rmult_le_compat_l; [lra|]. apply Rmult_le_reg_r with (y .* fl (S j)); [exact Q|]. unfold Rdiv. rewrite Rmult_assoc, Rinv_l, Rmult_1_r by lra.
  apply Rmult_le_reg_l with mu; [exact Hmu|]. rewrite <- Rmult_assoc, Rinv_r, Rmult_1_l by lra. exact U.
Qed.
Lemma factor_distance j : exists a, 0 < a /\ (forall i, j = S i -> kk (S j) <= a) /\ a <= kk (S (S j)) /\ c * ((f / mu - a) * (f / mu - a)) <= a * (kk (S (S j)) - a).
Proof using All.
  destruct (invariant (S j)) as (_ & X & G). destruct (quotient (S j)) as (y & Hy & E & _ & _).
  destruct (step_pos n A phi mu Hsym Hoff Hphi Hmu Heig _ y Hy X) as (Y & Q & LX). destruct (step_rise n A phi mu Hsym Hoff Hphi Hmu Heig _ y Hy X) as (U1 & U2 & U).
  pose proof (step_distance n A phi mu Hsym Hoff Hphi Hmu Heig _ y Hy X c phi_pos Hc G) as D. cbv zeta in D. set (x := fl (S j)) in *.
  exists (f * (y .* x / (x .* x))). rewrite E. split; [apply Rmult_lt_0_compat; [exact Hf|apply Rdiv_lt_0_compat; assumption]|]. split; [|split].
  - intros i ->. destruct (quotient (S i)) as (y' & Hy' & E' & E1 & E2). rewrite E'. fold x in E1, E2. destruct (invariant (S i)) as (K' & X' & _).
    destruct (step_pos n A phi mu Hsym Hoff Hphi Hmu Heig _ y' Hy' X') as (Y' & Q' & _).
    assert (S0 : 0 < strength (S i)) by (apply Rdiv_lt_0_compat; assumption).
    apply Rmult_le_compat_l; [lra|].
    replace (y' .* y' / (y' .* fl (S i))) with (x .* x / (x .* L x)) by (rewrite E1, E2; field; lra).
    apply Rmult_le_reg_r with ((x .* L x) * (x .* x)); [apply Rmult_lt_0_compat; assumption|].
    replace (x .* x / (x .* L x) * (x .* L x * (x .* x))) with (x .* x * (x .* x)) by (field; lra).
    replace (y .* x / (x .* x) * (x .* L x * (x .* x))) with (x .* L x * (y .* x)) by (field; lra). exact U1.
  - apply Rmult_le_compat_l; [lra|]. apply Rmult_le_reg_r with ((y .* x) * (x .* x)); [apply Rmult_lt_0_compat; assumption|].
    replace (y .* x / (x .* x) * (y .* x * (x .* x))) with (y .* x * (y .* x)) by (field; lra).
    replace (y .* y / (y .* x) * (y .* x * (x .* x))) with (y .* y * (x .* x)) by (field; lra). exact U2.
  - set (r := y .* x / (x .* x)) in *. set (k := y .* y / (y .* x)) in *.
    replace (c * ((f / mu - f * r) * (f / mu - f * r))) with (f * f * (c * ((/ mu - r) * (/ mu - r)))) by (unfold Rdiv; ring).
    replace (f * r * (f * k - f * r)) with (f * f * (r * (k - r))) by ring. apply Rmult_le_compat_l; [nra|exact D].
Qed.
Lemma factor_rises j : kk (S (S j)) <= kk (S (S (S j))).
Proof using All. destruct (factor_distance (S j)) as (a & _ & B & C & _). apply Rle_trans with a; [exact (B j eq_refl)|exact C]. Qed.
Lemma factors_rise i j : (2 <= i <= j)%nat -> kk i <= kk j.
Proof using All.
  intros [Hi Hj]. induction Hj as [|j Hj IH]; [lra|]. apply Rle_trans with (1 := IH). destruct j as [|[|j]]; [lia|lia|]. apply factor_rises.
Qed.

(* what the stopping test of the third or a later iteration tells *)
Lemma stop_distance j acc : pi_change solve F n (S (S j)) < acc -> f / mu <= kk (S (S (S j))) * (1 + sqrt (acc / c)).
Proof using All.
  intros Hs. destruct (factor_distance (S j)) as (a & A0 & B & C & D). specialize (B j eq_refl). set (k2 := kk (S (S (S j)))) in *. set (k1 := kk (S (S j))) in *.
  destruct (invariant (S (S (S j)))) as (K & _ & _). fold k2 in K. unfold pi_change in Hs. rnum. change (Rabs ((k2 - k1) / k2) < acc) in Hs.
  assert (N : 0 <= (k2 - k1) / k2) by (apply Rmult_le_pos; [lra|left; apply Rinv_0_lt_compat, K]). rewrite Rabs_pos_eq in Hs by exact N.
  assert (Ac : 0 <= acc / c) by (apply Rmult_le_pos; [lra|left; apply Rinv_0_lt_compat, Hc]).
  assert (Q : k2 - k1 <= acc * k2). { replace (k2 - k1) with ((k2 - k1) / k2 * k2) by (field; lra). apply Rmult_le_compat_r; lra. }
  pose proof (sqrt_sqrt _ Ac) as SQ. set (s := sqrt (acc / c)) in *. assert (S0 : 0 <= s) by apply sqrt_pos.
  assert (W : (f / mu - a) * (f / mu - a) <= k2 * s * (k2 * s)).
  { apply Rmult_le_reg_l with c; [exact Hc|]. apply Rle_trans with (1 := D). replace (c * (k2 * s * (k2 * s))) with (k2 * (c * (s * s) * k2)) by ring. rewrite SQ.
    replace (c * (acc / c)) with acc by (field; lra). apply Rmult_le_compat; lra. }
  assert (V : f / mu - a <= k2 * s). { apply Rnot_lt_le. intros V. assert (0 <= k2 * s) by (apply Rmult_le_pos; lra). nra. }
  lra.
Qed.
(* and without it *)
Lemma half_distance j : / 2 <= c -> f / mu <= 2 * kk (S (S j)).
Proof using All.
  intros H2. destruct (factor_distance j) as (a & A0 & _ & C & D). set (k := kk (S (S j))) in *. set (K := f / mu) in *.
  assert (D' : / 2 * ((K - a) * (K - a)) <= a * (k - a)). { apply Rle_trans with (2 := D). apply Rmult_le_compat_r; [apply Rle_0_sqr|exact H2]. }
  apply Rmult_le_reg_l with a; [exact A0|].
  pose proof (Rle_0_sqr (a - K / 2)) as Q1. pose proof (Rle_0_sqr K) as Q2. unfold Rsqr in Q1, Q2. lra.
Qed.
(* as long as the test fails the factor grows *)
Lemma growth m acc : 0 <= acc -> (forall i, (2 <= i < 2 + m)%nat -> acc <= pi_change solve F n i) -> kk 2 * (1 + INR m * acc) <= kk (2 + m)%nat.
Proof using All.
  intros Ha. induction m as [|m IH]; intros H; [cbn [INR Nat.add]; lra|].
  specialize (IH ltac:(intros i Hi; apply H; lia)). specialize (H (2 + m)%nat ltac:(lia)). cbn [Nat.add] in *.
  pose proof (factor_rises m) as Ri. pose proof (factors_rise 2 (S (S (S m))) ltac:(lia)) as R2. destruct (invariant (S (S (S m)))) as (K & _). set (k2 := kk (S (S (S m)))) in *. set (k1 := kk (S (S m))) in *.
  unfold pi_change in H. rnum. change (acc <= Rabs ((k2 - k1) / k2)) in H.
  assert (N : 0 <= (k2 - k1) / k2) by (apply Rmult_le_pos; [lra|left; apply Rinv_0_lt_compat, K]). rewrite Rabs_pos_eq in H by exact N.
  assert (Q : acc * k2 <= k2 - k1). { replace (k2 - k1) with ((k2 - k1) / k2 * k2) by (field; lra). apply Rmult_le_compat_r; lra. }
  rewrite S_INR. nra.
Qed.
(* the first factor lacks the production *)
Lemma first_factor : / 2 <= c -> f * kk 1 <= f / mu <= 2 * (f * kk 1).
Proof using All.
  intros H2. destruct (invariant 0) as (_ & X & G). destruct (quotient 0) as (y & Hy & E & _ & _). rewrite E.
  destruct (step_pos n A phi mu Hsym Hoff Hphi Hmu Heig _ y Hy X) as (Y & Q & LX). destruct (step_rise n A phi mu Hsym Hoff Hphi Hmu Heig _ y Hy X) as (_ & _ & U).
  pose proof (step_distance n A phi mu Hsym Hoff Hphi Hmu Heig _ y Hy X c phi_pos Hc G) as D. cbv zeta in D. set (x := fl 0) in *.
  set (r := y .* x / (x .* x)) in *. set (k := y .* y / (y .* x)) in *. assert (R0 : 0 < r) by (apply Rdiv_lt_0_compat; assumption). set (u := / mu) in *.
  assert (K1 : k <= u).
  { unfold k, u. apply Rmult_le_reg_r with (y .* x); [exact Q|]. unfold Rdiv. rewrite Rmult_assoc, Rinv_l, Rmult_1_r by lra.
    apply Rmult_le_reg_l with mu; [exact Hmu|]. rewrite <- Rmult_assoc, Rinv_r, Rmult_1_l by lra. exact U. }
  assert (K2 : u <= 2 * k).
  { assert (D' : / 2 * ((u - r) * (u - r)) <= r * (k - r)). { apply Rle_trans with (2 := D). apply Rmult_le_compat_r; [apply Rle_0_sqr|exact H2]. }
    apply Rmult_le_reg_l with r; [exact R0|]. pose proof (Rle_0_sqr (r - u / 2)) as Q1. pose proof (Rle_0_sqr u) as Q2. unfold Rsqr in Q1, Q2. lra. }
  unfold Rdiv. fold u. split; nra.
Qed.
End Iteration.
