(* Property theorems C107: in one group with the same production in every cell the
   factors of the iteration rise, never pass the factor of the reactor, and the
   accuracy of the input bounds the distance. *)
From Coq Require Import String ZArith List Bool Lia Reals Lra.
From Verif Require Import Base BaseLemmas NumR LinAlg Blocks PowerMethod ModelNumTools ModelEigen ModelMesh
  ModelReactor ModelDiffusion ProofsEigen ProofsMesh ProofsDiffusion ProofsDiffusionR PropsDiffusion
  ProofsConverge ProofsConvergeD PropsConverge ProofsInfinite ProofsSlab PropsSlabFactor ProofsRayleigh.
Import ListNotations.
Local Open Scope R_scope.

(* one group, and as many fission neutrons per unit flux in every cell *)
Definition even_production (ms : mesh R) (sd : solverData R) (d : data R) (f : R) : Prop :=
  sd_energies sd = 1%Z /\ sd_dir sd = FORWARD /\ 0 < f /\
  forall m, (0 <= m < ms_cells ms)%Z -> tchi d 0 m * (tni d 0 m * tfis d 0 m * tV d m) = f.

Section Even.
Variables (solver : mat R -> vec R -> vec R) (ms : mesh R) (sd : solverData R) (d : data R) (aL aR f : R) (M F : mat R) (k : R) (phi : vec R).
Notation n := (ms_cells ms).
Hypothesis D : diffusion_case ms sd d aL aR.
Hypothesis Ev : even_production ms sd d f.
Hypothesis E : diffusionSystem PI ms sd = Ok (M, F).
Hypothesis X : exact_solver M (solver M).
Hypothesis Hmode : mode M F k phi.

Lemma even_operators : (2 <= n)%Z /\ mrows M = n /\ mcols M = n /\ mrows F = n /\ mcols F = n /\
  (forall v i, (0 <= i < n)%Z -> vat (mvmul F v) i = f * vat v i) /\
  (forall i j, (0 <= i < n)%Z -> (0 <= j < n)%Z -> mat_at M i j = mat_at M j i) /\
  (forall i j, (0 <= i < n)%Z -> (0 <= j < n)%Z -> i <> j -> mat_at M i j <= 0).
Proof using D Ev E.
  destruct Ev as (He & Hdir & Hf & Hp). destruct D as [Hn Hen Hdata Hal HaL HaR HD Hx HS HS1 HV Hsc Habs Hchi Hfis].
  destruct (system_bl ms sd d aL aR Hn Hen Hdata Hal HaL ltac:(congruence)) as (M1 & F1 & E1 & HM & HF). rewrite E in E1. injection E1 as <- <-.
  pose proof HM as (R1 & C1 & _). pose proof HF as (R2 & C2 & _). clear HM HF.
  destruct (fission_entries ms sd d aL aR Hn Hen Hdata Hal HaL Hdir) as (M1 & F1 & E1 & _ & _ & P). rewrite E in E1. injection E1 as <- <-.
  destruct (loss_entries ms sd d aL aR Hn Hen Hdata Hal HaL HD Hx ltac:(congruence)) as (M1 & F1 & E1 & S). rewrite E in E1. injection E1 as <- <-.
  rewrite He in *. rewrite Z.mul_1_r in *. do 5 (split; [assumption|]). split; [|split].
  - intros v i Hi. rewrite mvmul_at, C2. rewrite (rsum_ext 0 n _ (fun j => if (j =? i)%Z then f * vat v j else 0)).
    + exact (rsum_delta 0 n (fun j => f * vat v j) i Hi).
    + intros j Hj. specialize (P 0%Z i 0%Z j ltac:(lia) Hi ltac:(lia) Hj). rewrite !Z.mul_0_l, !Z.add_0_r in P. rewrite P.
      destruct (j =? i)%Z; [rewrite Hp by exact Hi|]; ring.
  - intros i j Hi Hj. destruct (Z.eq_dec j i) as [-> | Hne]; [reflexivity|].
    destruct (S 0%Z i 0%Z j ltac:(lia) Hi ltac:(lia) Hj) as (_ & _ & Q). rewrite !Z.mul_0_l, !Z.add_0_r in Q. exact (proj1 (Q Hne)).
  - intros i j Hi Hj Hne. destruct (S 0%Z i 0%Z j ltac:(lia) Hi ltac:(lia) Hj) as (_ & _ & Q). rewrite !Z.mul_0_l, !Z.add_0_r in Q.
    apply Q; [lia|]. intros q Hq. left. apply HS1. exact Hq.
Qed.

(* the flux of the mode is positive everywhere *)
Lemma even_positive : forall i, (0 <= i < n)%Z -> 0 < vat phi i.
Proof using D Ev E X Hmode.
  destruct even_operators as (Hn & R1 & C1 & R2 & C2 & P & _ & _). pose proof Ev as (He & Hdir & Hf & Hp). pose proof D as [_ _ _ _ _ _ _ _ _ _ HV _ _ Hchi Hfis].
  assert (A : forall m, (0 <= m < n)%Z -> emits ms sd d 0 m /\ fissions ms sd d 0 m).
  { intros m Hm. specialize (Hp m Hm). specialize (HV m Hm). specialize (Hchi 0%Z m ltac:(lia) Hm). specialize (Hfis 0%Z m ltac:(lia) Hm). unfold emits, fissions.
    split; (split; [lia|]; split; [exact Hm|]).
    - destruct Hchi as [Q | Q]; [exact Q|]. rewrite <- Q in Hp. lra.
    - destruct Hfis as [Q | Q]; [exact Q|]. rewrite <- Q in Hp. lra. }
  destruct (C86_diffusion solver ms sd d aL aR D Hdir) as (M1 & F1 & E1 & _ & S).
  { exists 0%Z. split; exists 0%Z; apply A; lia. }
  { intros e0 m0 m (He0 & _) ((e & _ & Hm & _) & _). exists 0%Z. assert (e0 = 0)%Z as -> by lia. split; [constructor|apply A; exact Hm]. }
  rewrite E in E1. injection E1 as <- <-. destruct (S X) as (k' & psi & _ & _ & Pos & U & _). destruct (U _ _ Hmode) as (_ & c & Hc & Ec).
  intros i Hi. rewrite Ec by lia. apply Rmult_lt_0_compat; [exact Hc|].
  assert (Q : 0 < mat_at F i i).
  { destruct (fission_entries ms sd d aL aR Hn ltac:(lia) (dcs_data _ _ _ _ _ D) (dcs_albedos _ _ _ _ _ D) (dcs_left _ _ _ _ _ D) Hdir) as (M1 & F1 & E1 & _ & _ & Fe).
    rewrite E in E1. injection E1 as <- <-. specialize (Fe 0%Z i 0%Z i ltac:(lia) Hi ltac:(lia) Hi). rewrite !Z.mul_0_l, !Z.add_0_r, Z.eqb_refl in Fe. rewrite Fe, Hp by exact Hi. exact Hf. }
  specialize (Pos i i ltac:(lia) ltac:(lia) Q). rewrite P in Pos by exact Hi. nra.
Qed.

Lemma even_eigen : 0 < f / k /\ f / (f / k) = k /\ forall i, (0 <= i < n)%Z -> app n (mat_at M) (vat phi) i = f / k * vat phi i.
Proof using D Ev E Hmode.
  destruct even_operators as (Hn & R1 & C1 & R2 & C2 & P & _ & _). pose proof Ev as (_ & _ & Hf & _). destruct Hmode as (Hk & _ & _ & _ & Q).
  split; [apply Rdiv_lt_0_compat; assumption|]. split; [field; lra|]. intros i Hi. specialize (Q i ltac:(lia)). rewrite P in Q by exact Hi.
  rewrite mvmul_at, C1 in Q. unfold app. rewrite Q. unfold Rdiv. ring.
Qed.

(* sums over the cells of the mode *)
Definition total_flux : R := rsum 0 n (fun i => vat phi i).
Definition total_square : R := rsum 0 n (fun i => vat phi i * vat phi i).

Lemma total_pos : 0 < total_flux /\ 0 < total_square.
Proof using D Ev E X Hmode.
  destruct even_operators as (Hn & _). pose proof even_positive as P. split.
  - apply Rlt_le_trans with (vat phi 0%Z); [apply P; lia|]. apply (rsum_term_le 0 n (fun i => vat phi i)); [|lia]. intros i Hi. left. apply P. exact Hi.
  - apply Rlt_le_trans with (vat phi 0%Z * vat phi 0%Z); [pose proof (P 0%Z ltac:(lia)); nra|]. apply (rsum_term_le 0 n (fun i => vat phi i * vat phi i)); [intros; nra|lia].
Qed.

Definition peaking : R := IZR n * total_square / (total_flux * total_flux).

Lemma flat_dot : dot n (vat phi) (fun _ => 1) = total_flux.
Proof using. apply rsum_ext. intros; ring. Qed.

Let kk j := pi_k (power (solver M) F n j).
Lemma even_spec max acc dir its er : sourceIteration solver M F max acc dir = Ok (its, er) ->
  exists j, its = Z.of_nat (S j) /\ er_k er = kk (S j) /\ pi_change (solver M) F n j < acc /\ forall i, (i < j)%nat -> ~ pi_change (solver M) F n i < acc.
Proof using D Ev E X.
  intros H. destruct even_operators as (Hn & R1 & C1 & R2 & C2 & _).
  assert (Hlen : forall b, vlen b = n -> vlen (solver M b) = n) by (intros b Hb; transitivity (mcols M); [apply X; congruence|exact C1]).
  destruct (sourceIteration_spec solver M F n max acc dir ltac:(lia) R1 C1 R2 C2 Hlen) as [(j & _ & Hc & Hl & Q) | [_ Q]]; rewrite H in Q; [|discriminate].
  exists j. injection Q as -> ->. split; [reflexivity|]. split; [reflexivity|]. split; [apply Rltb_true; exact Hc|].
  intros i Hi Hlt. specialize (Hl i Hi). apply Rltb_true in Hlt. rnum. congruence.
Qed.
End Even.

(* Any geometry, any materials and albedos. From the second iteration on the factor
   that is reported is at most that of the reactor, and a smaller accuracy does not
   lower it; when the program stops after the second iteration the distance is bounded
   by the accuracy and the shape of the flux. *)
Theorem C107_rising solver ms sd d aL aR f M F k phi max acc dir its er :
  diffusion_case ms sd d aL aR -> even_production ms sd d f -> diffusionSystem PI ms sd = Ok (M, F) -> exact_solver M (solver M) ->
  mode M F k phi -> sourceIteration solver M F max acc dir = Ok (its, er) -> (2 <= its)%Z ->
  let n := ms_cells ms in
  let flux := rsum 0 n (fun i => vat phi i) in let square := rsum 0 n (fun i => vat phi i * vat phi i) in
  er_k er <= k /\
  (forall max' acc' dir' its' er', sourceIteration solver M F max' acc' dir' = Ok (its', er') -> acc' <= acc -> er_k er <= er_k er') /\
  ((3 <= its)%Z -> k <= er_k er * (1 + sqrt (acc * (IZR n * square / (flux * flux))))).
Proof.
  intros D Ev E X Hmode H Hi n flux square. destruct (even_operators _ _ _ _ _ _ _ _ D Ev E) as (Hn & R1 & C1 & R2 & C2 & P & Sy & Of).
  pose proof (even_positive solver _ _ _ _ _ _ _ _ _ _ D Ev E X Hmode) as Pos. destruct (even_eigen _ _ _ _ _ _ _ _ _ _ D Ev E Hmode) as (M0 & Ek & Eg).
  destruct (total_pos solver _ _ _ _ _ _ _ _ _ _ D Ev E X Hmode) as (T1 & T2). pose proof Ev as (_ & _ & Hf & _).
  change (ms_cells ms) with n in Hn, R1, C1, R2, C2, P, Sy, Of, Pos, Eg.
  assert (N0 : 0 < IZR n) by (apply (IZR_lt 0); lia).
  change (total_flux ms phi) with flux in T1. change (total_square ms phi) with square in T2.
  set (c := flux * flux / (IZR n * square)). assert (C0 : 0 < c) by (apply Rdiv_lt_0_compat; apply Rmult_lt_0_compat; assumption).
  assert (Fl : c * (dot n (vat phi) (vat phi) * IZR n) <= dot n (vat phi) (fun _ => 1) * dot n (vat phi) (fun _ => 1)).
  { unfold n. rewrite flat_dot. fold n. change (total_flux ms phi) with flux. change (dot n (vat phi) (vat phi)) with square. right. unfold c. field. split; lra. }
  destruct (even_spec solver _ _ _ _ _ _ _ _ D Ev E X _ _ _ _ _ H) as (j & Ej & -> & Hc & Hl). destruct j as [|j]; [lia|].
  split; [|split].
  - rewrite <- Ek. apply (factor_bounds solver M F n f (f / k) c (vat phi)); try assumption; lia.
  - intros max' acc' dir' its' er' H' Ha. destruct (even_spec solver _ _ _ _ _ _ _ _ D Ev E X _ _ _ _ _ H') as (j' & _ & -> & Hc' & _).
    apply (factors_rise solver M F n f (f / k) c (vat phi)); try assumption; try lia. split; [lia|].
    destruct (le_lt_dec (S j) j') as [Q | Q]; [lia|]. exfalso. apply (Hl j' Q). fold n in Hc'. fold n. lra.
  - intros H3. destruct j as [|j]; [lia|]. pose proof (stop_distance solver M F n f (f / k) c (vat phi) ltac:(lia) R1 C1 R2 C2 X Hf P Sy Of Pos M0 Eg C0 Fl j acc Hc) as Q.
    rewrite Ek in Q. replace (acc * (IZR n * square / (flux * flux))) with (acc / c); [exact Q|]. unfold c. field. split; lra.
Qed.
Print Assumptions C107_rising.

(* ---------- the homogeneous slab ---------- *)

Lemma sine_half w : 0 <= w <= PI / 2 -> w / 2 <= sin w.
Proof.
  intros [W0 W1]. pose proof PI_RGT_0 as HP. set (u := w / 2). assert (U : 0 <= u < PI / 2) by (unfold u; lra).
  replace w with (2 * u) by (unfold u; field). rewrite sin_2a. assert (C0 : 0 < cos u) by (apply cos_gt_0; lra).
  pose proof (tan_pos u U) as T. assert (S : sin u = tan u * cos u) by (unfold tan; field; lra).
  assert (C2 : 1 <= 2 * (cos u * cos u)).
  { pose proof (cos_2a_cos u) as Q. assert (0 <= cos (2 * u)) by (apply cos_ge_0; unfold u; lra). lra. }
  rewrite S. nra.
Qed.

Lemma cosine_sum n theta : (0 <= n)%Z -> 2 * sin (theta / 2) * rsum 0 n (cosine n theta) = 2 * sin (IZR n * theta / 2).
Proof.
  intros Hn. rewrite <- rsum_scal. rewrite (rsum_ext 0 n _ (fun m => sin (theta * (IZR (m + 1) - IZR n / 2)) - sin (theta * (IZR m - IZR n / 2)))).
  - rewrite (rsum_tele 0 n (fun m => sin (theta * (IZR m - IZR n / 2)))) by exact Hn.
    replace (theta * (IZR n - IZR n / 2)) with (IZR n * theta / 2) by field. replace (theta * (0 - IZR n / 2)) with (- (IZR n * theta / 2)) by field. rewrite sin_neg. ring.
  - intros m _. unfold cosine. rewrite plus_IZR. set (u := theta * (IZR m - (IZR n - 1) / 2)). set (v := theta / 2).
    replace (theta * (IZR m + 1 - IZR n / 2)) with (u + v) by (unfold u, v; field). replace (theta * (IZR m - IZR n / 2)) with (u - v) by (unfold u, v; field).
    rewrite sin_plus, sin_minus. ring.
Qed.

(* the flux of a slab is at least half its maximum on the average *)
Lemma cosine_mean n theta : (2 <= n)%Z -> 0 <= theta < PI / IZR n -> IZR n / 2 <= rsum 0 n (cosine n theta).
Proof.
  intros Hn [T0 T1]. assert (N : 2 <= IZR n) by (apply (IZR_le 2); lia). pose proof PI_RGT_0 as HP.
  destruct T0 as [T0 | <-].
  - assert (B : theta * IZR n < PI) by (apply Rmult_lt_compat_r with (r := IZR n) in T1; [|lra]; unfold Rdiv in T1; rewrite Rmult_assoc, Rinv_l, Rmult_1_r in T1 by lra; exact T1).
    pose proof (cosine_sum n theta ltac:(lia)) as Q. pose proof (sine_half (IZR n * theta / 2) ltac:(split; nra)) as S.
    assert (V : sin (theta / 2) < theta / 2) by (apply sin_lt_x; lra). assert (V0 : 0 < sin (theta / 2)) by (apply sin_gt_0; nra).
    apply Rmult_le_reg_l with (2 * sin (theta / 2)); [lra|]. rewrite Q. apply Rle_trans with (2 * (IZR n * theta / 2 / 2)); [|lra]. nra.
  - rewrite (rsum_ext 0 n _ (fun _ => 1)) by (intros; unfold cosine; rewrite Rmult_0_l; apply cos_0). rewrite rsum_const by lia. rewrite Z.sub_0_r. lra.
Qed.

Lemma slab_even ms sd a h df st ss nsf : one_group_slab ms sd a h df st ss nsf -> even_production ms sd (mesh_tables ms) (h * nsf).
Proof.
  intros H. pose proof (og_width _ _ _ _ _ _ _ _ H). pose proof (og_fiss _ _ _ _ _ _ _ _ H). destruct (slab_sizes _ _ _ _ _ _ _ _ H) as [_ HV].
  split; [exact (og_energies _ _ _ _ _ _ _ _ H)|]. split; [exact (og_dir _ _ _ _ _ _ _ _ H)|]. split; [nra|].
  intros m Hm. destruct (og_tables _ _ _ _ _ _ _ _ H m Hm) as (Tx & _ & _ & _ & X & N). rewrite X, HV, Tx, <- N. ring.
Qed.

Lemma slab_angle ms sd a h df st ss nsf solver M F k phi : one_group_slab ms sd a h df st ss nsf ->
  diffusionSystem PI ms sd = Ok (M, F) -> exact_solver M (solver M) -> mode M F k phi ->
  let n := ms_cells ms in let f := h * nsf in exists psi : vec R, (2 <= n)%Z /\ mrows M = n /\ mcols M = n /\ mrows F = n /\ mcols F = n /\ 0 < f /\
  (forall v i, (0 <= i < n)%Z -> vat (mvmul F v) i = f * vat v i) /\
  (forall i j, (0 <= i < n)%Z -> (0 <= j < n)%Z -> mat_at M i j = mat_at M j i) /\
  (forall i j, (0 <= i < n)%Z -> (0 <= j < n)%Z -> i <> j -> mat_at M i j <= 0) /\
  (forall i, (0 <= i < n)%Z -> 0 < vat psi i) /\ 0 < f / k /\ f / (f / k) = k /\
  (forall i, (0 <= i < n)%Z -> app n (mat_at M) (vat psi) i = f / k * vat psi i) /\
  / 2 * (dot n (vat psi) (vat psi) * IZR n) <= dot n (vat psi) (fun _ => 1) * dot n (vat psi) (fun _ => 1).
Proof.
  intros H E X Hmode n f. pose proof (slab_case _ _ _ _ _ _ _ _ H) as D. pose proof (slab_even _ _ _ _ _ _ _ _ H) as Ev. pose proof H as [_ _ Hn _ _ _ _ Ha Hh Hd _ Hf _].
  destruct (even_operators _ _ _ _ _ _ _ _ D Ev E) as (_ & R1 & C1 & R2 & C2 & P & Sy & Of). change (ms_cells ms) with n in Hn, R1, C1, R2, C2, P, Sy, Of.
  destruct (face_exists a h df n Ha Hh Hd Hn) as (theta & HT).
  pose proof (slab_mode _ _ _ _ _ _ _ _ H M F theta E HT) as Hm. change (ms_cells ms) with n in Hm. set (psi := mkvec n (cosine n theta)) in *.
  assert (Ek : nsf / (st - ss + leakage h df theta) = k).
  { destruct (slab_settles _ _ _ _ _ _ _ _ H solver) as (M1 & F1 & E1 & _ & S). rewrite E in E1. injection E1 as <- <-. destruct (S X) as (k' & p' & _ & _ & _ & U & _).
    rewrite (proj1 (U _ _ Hm)), (proj1 (U _ _ Hmode)). reflexivity. }
  rewrite Ek in Hm. destruct (even_eigen _ _ _ _ _ _ _ _ _ _ D Ev E Hm) as (M0 & Ef & Eg). change (ms_cells ms) with n in Eg.
  assert (Pos : forall i, (0 <= i < n)%Z -> 0 < vat psi i) by (intros i Hi; exact (cosine_pos n theta i Hn (proj1 HT) Hi)).
  exists psi. do 5 (split; [assumption|]). split; [unfold f; nra|]. do 7 (split; [assumption|]).
  pose proof (cosine_mean n theta Hn (proj1 HT)) as Mean. assert (E1 : dot n (vat psi) (fun _ => 1) = rsum 0 n (cosine n theta)) by (apply rsum_ext; intros; cbn [psi vat]; ring).
  rewrite E1. assert (N : 2 <= IZR n) by (apply (IZR_le 2); lia).
  assert (Sq : dot n (vat psi) (vat psi) <= rsum 0 n (cosine n theta)).
  { apply rsum_le. intros i Hi. cbn [psi vat]. pose proof (Pos i Hi) as P0. cbn [psi vat] in P0. pose proof (COS_bound (theta * (IZR i - (IZR n - 1) / 2))) as [_ B]. change (cosine n theta i <= 1) in B. nra. }
  pose proof (dot_nonneg n (vat psi)). nra.
Qed.

(* From the second iteration on the factor of the reactor is between the one reported
   and its double; from the third on it exceeds the one reported by at most the square
   root of twice the accuracy. A factor reported after the first iteration has to be
   multiplied by the production in a cell. *)
Theorem C107_slab solver ms sd a h df st ss nsf M F k phi max acc dir its er : one_group_slab ms sd a h df st ss nsf ->
  diffusionSystem PI ms sd = Ok (M, F) -> exact_solver M (solver M) -> mode M F k phi ->
  sourceIteration solver M F max acc dir = Ok (its, er) ->
  (its = 1%Z -> h * nsf * er_k er <= k <= 2 * (h * nsf * er_k er)) /\
  ((2 <= its)%Z -> er_k er <= k <= 2 * er_k er) /\
  ((3 <= its)%Z -> k <= er_k er * (1 + sqrt (2 * acc))).
Proof.
  intros H E X Hmode R. pose proof (slab_case _ _ _ _ _ _ _ _ H) as D. pose proof (slab_even _ _ _ _ _ _ _ _ H) as Ev.
  destruct (slab_angle _ _ _ _ _ _ _ _ solver _ _ _ _ H E X Hmode) as (psi & Hn & R1 & C1 & R2 & C2 & Hf' & P & Sy & Of & Pos & M0 & Ef & Eg & Fl).
  set (n := ms_cells ms) in *.
  destruct (even_spec solver _ _ _ _ _ _ _ _ D Ev E X _ _ _ _ _ R) as (j & Ej & -> & Hc & _). fold n in Hc |- *. split; [|split]; intros Hi.
  - assert (j = 0)%nat as -> by lia. rewrite <- Ef. apply (first_factor solver M F n (h * nsf) (h * nsf / k) (/ 2) (vat psi)); try assumption; try lia; lra.
  - destruct j as [|j]; [lia|]. rewrite <- Ef. split.
    + apply (factor_bounds solver M F n (h * nsf) (h * nsf / k) (/ 2) (vat psi)); try assumption; try lia; lra.
    + apply (half_distance solver M F n (h * nsf) (h * nsf / k) (/ 2) (vat psi)); try assumption; try lia; lra.
  - destruct j as [|[|j]]; [lia|lia|]. rewrite <- Ef. replace (2 * acc) with (acc / / 2) by field.
    apply (stop_distance solver M F n (h * nsf) (h * nsf / k) (/ 2) (vat psi)); try assumption; try lia; lra.
Qed.
Print Assumptions C107_slab.

(* The program stops: two more iterations than the inverse of the accuracy are enough. *)
Theorem C107_stops solver ms sd a h df st ss nsf M F max acc dir : one_group_slab ms sd a h df st ss nsf ->
  diffusionSystem PI ms sd = Ok (M, F) -> exact_solver M (solver M) -> 0 < acc -> 2 + 1 / acc < IZR max ->
  exists its er, sourceIteration solver M F max acc dir = Ok (its, er) /\ IZR its <= 3 + 1 / acc.
Proof.
  intros H E X Ha Hmax. destruct (slab_settles _ _ _ _ _ _ _ _ H solver) as (M1 & F1 & E1 & _ & S). rewrite E in E1. injection E1 as <- <-.
  destruct (S X) as (k & phi & Hmode & _). clear S.
  destruct (slab_angle _ _ _ _ _ _ _ _ solver _ _ _ _ H E X Hmode) as (psi & Hn & R1 & C1 & R2 & C2 & Hf' & P & Sy & Of & Pos & M0 & Ef & Eg & Fl).
  set (n := ms_cells ms) in *. assert (I0 : 0 < 1 / acc) by (apply Rdiv_lt_0_compat; lra).
  assert (G : forall m, (forall i, (2 <= i < 2 + m)%nat -> ~ pi_change (solver M) F n i < acc) -> INR m <= 1 / acc).
  { intros m Hm. pose proof (growth solver M F n _ _ (/ 2) (vat psi) ltac:(lia) R1 C1 R2 C2 X Hf' P Sy Of Pos M0 Eg ltac:(lra) Fl m acc ltac:(lra) ltac:(intros i Hi; apply Rnot_lt_le, Hm, Hi)) as G.
    pose proof (factor_bounds solver M F n _ _ (/ 2) (vat psi) ltac:(lia) R1 C1 R2 C2 X Hf' P Sy Of Pos M0 Eg ltac:(lra) Fl m) as B2.
    pose proof (half_distance solver M F n _ _ (/ 2) (vat psi) ltac:(lia) R1 C1 R2 C2 X Hf' P Sy Of Pos M0 Eg ltac:(lra) Fl 0 ltac:(lra)) as B3. cbn [Nat.add] in G.
    assert (K : 0 < k) by apply Hmode. rewrite Ef in B2, B3. set (k2 := pi_k (power (solver M) F n 2)) in *.
    assert (Q : INR m * acc <= 1). { apply Rmult_le_reg_l with k2; [lra|]. lra. }
    apply Rmult_le_reg_r with acc; [exact Ha|]. unfold Rdiv. rewrite Rmult_assoc, Rinv_l by lra. lra. }
  assert (Hlen : forall b, vlen b = n -> vlen (solver M b) = n) by (intros b Hb; transitivity (mcols M); [apply X; congruence|exact C1]).
  destruct (sourceIteration_spec solver M F n max acc dir ltac:(lia) R1 C1 R2 C2 Hlen) as [(j & _ & _ & Hl & Q) | [Hl Q]].
  - eexists. eexists. split; [exact Q|]. rewrite <- INR_IZR_INZ. destruct j as [|[|j]]; [cbn; lra|cbn; lra|].
    assert (B : INR j <= 1 / acc). { apply G. intros i Hi Hlt. specialize (Hl i ltac:(lia)). apply Rltb_true in Hlt. rnum. congruence. }
    rewrite !S_INR. lra.
  - exfalso. assert (Hm : (2 < max)%Z) by (apply lt_IZR; lra).
    assert (B : INR (Z.to_nat (max - 2)) <= 1 / acc). { apply G. intros i Hi Hlt. specialize (Hl i ltac:(lia)). apply Rltb_true in Hlt. rnum. congruence. }
    rewrite INR_IZR_INZ, Z2Nat.id, minus_IZR in B by lia. lra.
Qed.
Print Assumptions C107_stops.

(* Against the diffusion equation: the factor reported after the third or a later
   iteration encloses the exact one. *)
Theorem C107_equation solver ms sd a h df st ss nsf M F K f max acc dir its er : one_group_slab ms sd a h df st ss nsf ->
  diffusionSystem PI ms sd = Ok (M, F) -> exact_solver M (solver M) ->
  diffuses df (st - ss) nsf (IZR (ms_cells ms) * h) a K f ->
  sourceIteration solver M F max acc dir = Ok (its, er) -> (3 <= its)%Z ->
  let leak := nsf / K - (st - ss) in
  er_k er - h * h * (K * (leak * leak) / (4 * df * (st - ss))) <= K <= er_k er * (1 + sqrt (2 * acc)).
Proof.
  intros H E X HK R Hi leak. destruct (slab_settles _ _ _ _ _ _ _ _ H solver) as (M1 & F1 & E1 & _ & S). rewrite E in E1. injection E1 as <- <-.
  destruct (S X) as (k & phi & HS). destruct (C106_accuracy _ _ _ _ _ _ _ _ _ _ _ _ _ _ _ H E HS HK) as (_ & _ & B). fold leak in B.
  destruct (C107_slab _ _ _ _ _ _ _ _ _ _ _ _ _ _ _ _ _ _ H E X (proj1 HS) R) as (_ & B2 & B3). specialize (B2 ltac:(lia)). specialize (B3 Hi). lra.
Qed.
Print Assumptions C107_equation.

(* The exception is real: a reflected slab whose cells have an absorption of one is
   done in the first iteration, with the factor 1 where the reactor has 4. *)
Theorem C107_first_refuted : exists solver M F phi,
  one_group_slab (cells_of 3 6) (ex_solver 1 1 FORWARD) 1 2 1 1 (1 / 2) 2 /\
  diffusionSystem PI (cells_of 3 6) (ex_solver 1 1 FORWARD) = Ok (M, F) /\ exact_solver M (solver M) /\ mode M F 4 phi /\
  (forall max acc, (0 < max)%Z -> 0 < acc -> exists er, sourceIteration solver M F max acc FORWARD = Ok (1%Z, er) /\ er_k er = 1).
Proof.
  pose proof (cells_slab 3 6 1 ltac:(lia) ltac:(lra) ltac:(lra)) as H. replace (6 / 3) with 2 in H by lra.
  destruct (slab_settles _ _ _ _ _ _ _ _ H (fun _ => fun b => b)) as (M & F & E & (s & X) & _).
  assert (HT : face_condition 1 2 1 3 0).
  { split; [pose proof PI_RGT_0; lra|]. unfold Rdiv. rewrite Rmult_0_l, sin_0. ring. }
  pose proof (slab_mode _ _ _ _ _ _ _ _ H M F 0 E HT) as Hm.
  assert (L0 : leakage 2 1 0 = 0) by (unfold leakage; rewrite cos_0; field). rewrite L0 in Hm. replace (2 / (1 - 1 / 2 + 0)) with 4 in Hm by field.
  destruct (slab_angle _ _ _ _ _ _ _ _ (fun _ => s) _ _ _ _ H E X Hm) as (psi & Hn & R1 & C1 & R2 & C2 & _ & P & _). cbn [cells_of ms_cells] in *.
  exists (fun _ => s), M, F, (mkvec 3 (cosine 3 0)).
  do 4 (split; [assumption|]). intros max acc Hmax Hacc.
  assert (Hlen : forall b, vlen b = 3%Z -> vlen (s b) = 3%Z) by (intros b Hb; rewrite <- C1; apply X; congruence).
  assert (One : forall i, (0 <= i < 3)%Z -> vat (s (vones 3)) i = 1).
  { pose proof (slab_case _ _ _ _ _ _ _ _ H) as [Dn Den Ddata Dal DaL DaR DD Dx DS DS1 DV Dsc Dabs Dchi Dfis].
    destruct (loss_monotone _ _ _ 1 1 Dn Den Ddata Dal DaL DaR DD Dx eq_refl DS DV Dsc Dabs) as (M1 & F1 & E1 & Hmon). rewrite E in E1. injection E1 as <- <-.
    apply monotone_injective in Hmon. cbn in Hmon. destruct Hm as (_ & _ & _ & _ & Q).
    assert (Z : forall i, (0 <= i < 3)%Z -> (fun i => vat (s (vones 3)) i - 1) i = 0); [|intros i Hi; specialize (Z i Hi); cbv beta in Z; lra].
    apply Hmon. intros i Hi. destruct (X (vones 3)) as (_ & _ & V); [rewrite R1; reflexivity|]. specialize (V i). cbn [mvmul vlen] in V. rewrite R1 in V. specialize (V Hi).
    specialize (Q i ltac:(lia)). rewrite P in Q by exact Hi. cbn [vat] in Q.
    assert (C3 : forall j, cosine 3 0 j = 1) by (intros j; unfold cosine; rewrite Rmult_0_l; apply cos_0). rewrite C3 in Q. rewrite mvmul_at, C1 in Q.
    unfold app. rewrite (rsum_ext 0 3 _ (fun j => mat_at M i j * vat (s (vones 3)) j - mat_at M i j * vat (mkvec 3 (cosine 3 0)) j)) by (intros j _; cbn [vat]; rewrite C3; ring).
    rewrite rsum_minus, Q. change (vat (mvmul M (s (vones 3))) i = 1) in V. rewrite mvmul_at, C1 in V. rewrite V. lra. }
  destruct (si_first_iteration (fun _ => s) M F 3 max acc FORWARD ltac:(lia) R1 C1 R2 C2 Hlen One) as (flux & Hs & _); try assumption.
  - unfold vdot. cbn [mvmul vlen]. rewrite R2. apply Rgt_not_eq.
    rewrite (rsum_ext 0 3 _ (fun _ => 2 * 2 * (2 * 2))).
    + rewrite rsum_const by lia. change (3 - 0)%Z with 3%Z. lra.
    + intros i Hi. pose proof (P (vones 3) i Hi) as Q. cbn [vones vat] in Q. rnum. change (vat (mvmul F (vones 3)) i * vat (mvmul F (vones 3)) i = 2 * 2 * (2 * 2)). rewrite Q. unfold n1. cbn. ring.
  - eexists. split; [exact Hs|reflexivity].
Qed.
Print Assumptions C107_first_refuted.

(* The bare slab of 10 cm in 100 cells of C106_met, with an accuracy of a tenth: the
   program needs three iterations or more. *)
Example C107_met : exists solver M F k phi max its er,
  diffusionSystem PI (cells_of 100 10) (ex_solver 0 0 FORWARD) = Ok (M, F) /\ exact_solver M (solver M) /\ mode M F k phi /\
  sourceIteration solver M F max (1 / 10) FORWARD = Ok (its, er) /\ (3 <= its)%Z /\ 3 < k.
Proof.
  pose proof (cells_slab 100 10 0 ltac:(lia) ltac:(lra) ltac:(lra)) as H. replace (10 / 100) with (1 / 10) in H by lra.
  destruct (slab_settles _ _ _ _ _ _ _ _ H (fun _ => fun b => b)) as (M & F & E & (s & X) & _).
  destruct (slab_settles _ _ _ _ _ _ _ _ H (fun _ => s)) as (M1 & F1 & E1 & _ & S). rewrite E in E1. injection E1 as <- <-.
  destruct (S X) as (k & phi & HS). pose proof HS as (Hm & _ & _ & U & St & _). destruct (St (1 / 10) FORWARD ltac:(lra)) as (N & HN). destruct (HN N ltac:(lia)) as (its & er & R).
  exists (fun _ => s), M, F, k, phi, N, its, er. do 4 (split; [assumption|]).
  destruct (face_exists 0 (1 / 10) 1 100 ltac:(lra) ltac:(lra) ltac:(lra) ltac:(lia)) as (theta & HT).
  destruct (U _ _ (slab_mode _ _ _ _ _ _ _ _ H M F theta E HT)) as (Ek & _).
  assert (K : 3 < k).
  { rewrite <- Ek. destruct HT as [[T0 T1] _]. pose proof PI_4 as P4. pose proof PI_RGT_0.
    assert (B : leakage (1 / 10) 1 theta < 1 / 6).
    { unfold leakage. assert (Q : 1 - theta ^ 2 / 2 <= cos theta).
      { assert (2 * (1 - cos theta) <= theta * theta); [|simpl; lra]. replace theta with (2 * (theta / 2)) at 1 by field. rewrite cos_2a_sin.
        destruct T0 as [T0 | <-]; [|unfold Rdiv; rewrite Rmult_0_l, sin_0; lra]. pose proof (sin_lt_x (theta / 2) ltac:(lra)). assert (0 <= sin (theta / 2)) by (apply sin_ge_0; lra). nra. }
      assert (theta < 4 / 100) by lra. simpl in Q. nra. }
    pose proof (leakage_nonneg _ _ _ _ _ _ _ _ H theta) as L0. apply Rmult_lt_reg_r with (1 - 1 / 2 + leakage (1 / 10) 1 theta); [lra|]. unfold Rdiv at 3. rewrite Rmult_assoc, Rinv_l by lra. lra. }
  split; [|exact K].
  destruct (slab_angle _ _ _ _ _ _ _ _ (fun _ => s) _ _ _ _ H E X Hm) as (psi & Hn & R1 & C1 & R2 & C2 & Hf & P & Sy & Of & Pos & M0 & Ef & Eg & Fl).
  destruct (even_spec (fun _ => s) _ _ _ _ _ _ _ _ (slab_case _ _ _ _ _ _ _ _ H) (slab_even _ _ _ _ _ _ _ _ H) E X _ _ _ _ _ R) as (j & -> & _ & Hc & _).
  set (n := ms_cells (cells_of 100 10)) in *.
  pose proof (first_factor (fun _ => s) M F n _ _ (/ 2) (vat psi) ltac:(lia) R1 C1 R2 C2 X Hf P Sy Of Pos M0 Eg ltac:(lra) Fl ltac:(lra)) as B1. rewrite Ef in B1.
  pose proof (factor_bounds (fun _ => s) M F n _ _ (/ 2) (vat psi) ltac:(lia) R1 C1 R2 C2 X Hf P Sy Of Pos M0 Eg ltac:(lra) Fl 0) as B2. rewrite Ef in B2.
  pose proof (half_distance (fun _ => s) M F n _ _ (/ 2) (vat psi) ltac:(lia) R1 C1 R2 C2 X Hf P Sy Of Pos M0 Eg ltac:(lra) Fl 0 ltac:(lra)) as B3. rewrite Ef in B3.
  cbv beta in *. set (k1 := pi_k (power s F n 1)) in *. set (k2 := pi_k (power s F n 2)) in *.
  assert (far : forall x y, 0 < y -> Rabs ((y - x) / y) < 1 / 10 -> 9 / 10 * y < x < 11 / 10 * y).
  { intros x y Hy Ha. apply Rabs_def2 in Ha. destruct Ha as [A1 A2]. apply (Rmult_lt_compat_r y) in A1; [|lra]. apply (Rmult_lt_compat_r y) in A2; [|lra].
    unfold Rdiv in A1, A2. rewrite Rmult_assoc, Rinv_l in A1, A2 by lra. lra. }
  unfold pi_change in Hc. rnum. destruct j as [|[|j]]; [exfalso|exfalso|lia].
  - change (Rabs ((k1 - 1) / k1) < 1 / 10) in Hc. apply far in Hc; lra.
  - change (Rabs ((k2 - k1) / k2) < 1 / 10) in Hc. apply far in Hc; lra.
Qed.
