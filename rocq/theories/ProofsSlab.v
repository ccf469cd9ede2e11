(* One group diffusion in a homogeneous slab: the shape cos (theta (m - (n-1)/2)). *)
From Coq Require Import String ZArith List Bool Lia Reals Lra.
From Verif Require Import Base BaseLemmas NumR LinAlg Blocks PowerMethod ModelNumTools ModelEigen ModelMesh
  ModelReactor ModelDiffusion ProofsEigen ProofsMesh ProofsDiffusion ProofsDiffusionR PropsDiffusion
  ProofsConverge ProofsConvergeD PropsConverge ProofsInfinite.
Import ListNotations.
Local Open Scope R_scope.

(* ---------- a mesh of equal cells of one material, one group ---------- *)

(* n cells of h cm in a slab, diffusion coefficient df, total st, scattering ss,
   fission neutrons nsf, the same albedo a on both faces *)
Record one_group_slab (ms : mesh R) (sd : solverData R) (a h df st ss nsf : R) : Prop := {
  og_ready : ready ms;
  og_slab : ms_geom ms = SLAB;
  og_cells : (2 <= ms_cells ms)%Z;
  og_groups : ms_groups ms = 1%Z;
  og_energies : sd_energies sd = 1%Z;
  og_dir : sd_dir sd = FORWARD;
  og_albedos : albedos ms sd a a;
  og_albedo : 0 <= a <= 1;
  og_width : 0 < h;
  og_diff : 0 < df;
  og_scatt : 0 <= ss < st;
  og_fiss : 0 < nsf;
  og_tables : let d := mesh_tables ms in forall m, (0 <= m < ms_cells ms)%Z ->
    tdx d m = h /\ tD d 0 m = df /\ ttot d 0 m = st /\ tsc d 0 0 m = ss /\ tchi d 0 m = 1 /\ tni d 0 m * tfis d 0 m = nsf }.

(* the discrete condition at the faces *)
Definition face_condition (a h df : R) (n : Z) (theta : R) : Prop :=
  0 <= theta < PI / IZR n /\
  2 * (1 + a) * (2 * df / h) * (sin (theta / 2) * sin (IZR n * theta / 2)) = (1 - a) * (cos (theta / 2) * cos (IZR n * theta / 2)).
Definition cosine (n : Z) (theta : R) (m : Z) : R := cos (theta * (IZR m - (IZR n - 1) / 2)).

Lemma cont_lin c : continuity (fun t => c * t).
Proof. exact (continuity_scal id c (derivable_continuous _ derivable_id)). Qed.

Lemma cont_product c1 c2 : continuity (fun t => sin (c1 * t) * sin (c2 * t)) /\ continuity (fun t => cos (c1 * t) * cos (c2 * t)).
Proof.
  split; apply continuity_mult; apply (continuity_comp _ _ (cont_lin _)); try apply continuity_sin; apply continuity_cos.
Qed.

Lemma face_exists a h df n : 0 <= a <= 1 -> 0 < h -> 0 < df -> (2 <= n)%Z -> exists theta, face_condition a h df n theta.
Proof.
  intros Ha Hh Hd Hn. pose proof PI_RGT_0 as HP. assert (N : 2 <= IZR n) by (apply (IZR_le 2); lia).
  set (c := 2 * (1 + a) * (2 * df / h)). assert (Hc : 0 < c) by (unfold c; apply Rmult_lt_0_compat; [lra|apply Rdiv_lt_0_compat; lra]).
  destruct (cont_product (/ 2) (IZR n / 2)) as [C1 C2].
  set (g := fun t => c * (sin (/ 2 * t) * sin (IZR n / 2 * t)) - (1 - a) * (cos (/ 2 * t) * cos (IZR n / 2 * t))).
  assert (Cg : continuity g) by (apply continuity_minus; [exact (continuity_scal _ c C1)|exact (continuity_scal _ (1 - a) C2)]).
  assert (Pn : 0 < PI / IZR n) by (apply Rdiv_lt_0_compat; lra).
  assert (E : IZR n / 2 * (PI / IZR n) = PI / 2) by (field; lra).
  assert (Ge : 0 < g (PI / IZR n)).
  { unfold g. rewrite E, sin_PI2, cos_PI2, !Rmult_0_r, Rminus_0_r, Rmult_1_r. apply Rmult_lt_0_compat; [exact Hc|]. apply sin_gt_0; [lra|].
    apply Rle_lt_trans with (/ 2 * PI); [|lra]. apply Rmult_le_compat_l; [lra|]. apply Rmult_le_reg_r with (IZR n); [lra|]. unfold Rdiv. rewrite Rmult_assoc, Rinv_l by lra. nra. }
  assert (G0 : g 0 <= 0) by (unfold g; rewrite !Rmult_0_r, sin_0, cos_0; nra).
  destruct (IVT_cor g 0 (PI / IZR n) Cg ltac:(lra) ltac:(nra)) as (t & Ht & Et). exists t. split.
  - split; [apply Ht|]. destruct (proj2 Ht) as [L|L]; [exact L|]. subst t. lra.
  - unfold g in Et. replace (t / 2) with (/ 2 * t) by field. replace (IZR n * t / 2) with (IZR n / 2 * t) by field. fold c. lra.
Qed.

Lemma cosine_pos n theta m : (2 <= n)%Z -> 0 <= theta < PI / IZR n -> (0 <= m < n)%Z -> 0 < cosine n theta m.
Proof.
  intros Hn Ht Hm. assert (N : 2 <= IZR n) by (apply (IZR_le 2); lia). assert (M0 : 0 <= IZR m) by (apply (IZR_le 0); lia).
  assert (M1 : IZR m <= IZR n - 1) by (rewrite <- minus_IZR; apply IZR_le; lia).
  assert (B : theta * IZR n < PI).
  { destruct Ht as [_ Ht]. apply Rmult_lt_compat_r with (r := IZR n) in Ht; [|lra]. unfold Rdiv in Ht. rewrite Rmult_assoc, Rinv_l, Rmult_1_r in Ht by lra. exact Ht. }
  unfold cosine. apply cos_gt_0; nra.
Qed.

(* what is wanted of the three neighbours *)
Lemma cosine_second n theta m : cosine n theta (m - 1) + cosine n theta (m + 1) = 2 * cos theta * cosine n theta m.
Proof.
  unfold cosine. rewrite minus_IZR, plus_IZR. set (u := theta * (IZR m - (IZR n - 1) / 2)).
  replace (theta * (IZR m - 1 - (IZR n - 1) / 2)) with (u - theta) by (unfold u; ring).
  replace (theta * (IZR m + 1 - (IZR n - 1) / 2)) with (u + theta) by (unfold u; ring). rewrite cos_minus, cos_plus. ring.
Qed.
(* the cell beyond each face *)
Lemma cosine_ends n theta : let u := IZR n * theta / 2 in let v := theta / 2 in
  cosine n theta 0 = cos u * cos v + sin u * sin v /\ cosine n theta (n - 1) = cos u * cos v + sin u * sin v /\
  cosine n theta (-1) = cos u * cos v - sin u * sin v /\ cosine n theta n = cos u * cos v - sin u * sin v.
Proof.
  intros u v. unfold cosine. rewrite minus_IZR. repeat split.
  - replace (theta * (0 - (IZR n - 1) / 2)) with (- (u - v)) by (unfold u, v; field). rewrite cos_neg. apply cos_minus.
  - replace (theta * (IZR n - 1 - (IZR n - 1) / 2)) with (u - v) by (unfold u, v; field). apply cos_minus.
  - replace (theta * (-1 - (IZR n - 1) / 2)) with (- (u + v)) by (unfold u, v; field). rewrite cos_neg. apply cos_plus.
  - replace (theta * (IZR n - (IZR n - 1) / 2)) with (u + v) by (unfold u, v; field). apply cos_plus.
Qed.

Section Slab.
Variables (ms : mesh R) (sd : solverData R) (a h df st ss nsf : R).
Hypothesis H : one_group_slab ms sd a h df st ss nsf.
Notation n := (ms_cells ms).
Notation d := (mesh_tables ms).

Lemma slab_sizes : (forall k, tS d k = 1) /\ forall m, tV d m = tdx d m.
Proof using H.
  pose proof (og_slab _ _ _ _ _ _ _ _ H) as G. split; intros k; cbn [mesh_tables tS tV tdx]; rewrite G; cbn; ring.
Qed.

Lemma slab_case : diffusion_case ms sd d a a.
Proof using H.
  destruct slab_sizes as [HS HV]. destruct H as [Hr Hsl Hn Hg He Hdir Hal Ha Hh Hd Hsc Hf Ht]. cbn zeta in Ht.
  assert (Z0 : forall e, (0 <= e < sd_energies sd)%Z -> e = 0%Z) by (intros; lia).
  split; try assumption; try lia.
  - rewrite He, <- Hg. exact (ready_data ms Hr).
  - intros e m E M. rewrite (Z0 e E). destruct (Ht m M) as (_ & -> & _). exact Hd.
  - intros m M. destruct (Ht m M) as (-> & _). exact Hh.
  - intros k _. rewrite HS. lra.
  - intros k _. rewrite HS. lra.
  - intros m M. rewrite HV. destruct (Ht m M) as (-> & _). exact Hh.
  - intros e e' m E E' M. rewrite (Z0 e E), (Z0 e' E'). destruct (Ht m M) as (_ & _ & _ & -> & _). lra.
  - intros e m E M. rewrite (Z0 e E), He. destruct (Ht m M) as (_ & _ & -> & S & _).
    pose proof (rsum_one 0 (fun e' => tsc d 0 e' m)) as Q. cbn [Z.add] in Q. rewrite Q, S. lra.
  - intros e m E M. rewrite (Z0 e E). destruct (Ht m M) as (_ & _ & _ & _ & -> & _). lra.
  - intros e m E M. rewrite (Z0 e E). destruct (Ht m M) as (_ & _ & _ & _ & _ & ->). lra.
Qed.

Lemma slab_system : exists M F, diffusionSystem PI ms sd = Ok (M, F) /\ mrows M = n /\ mcols M = n /\ mrows F = n /\ mcols F = n /\
  (forall x J psi, currents ms sd d a a (phi_of ms (vat x)) J psi -> forall m, (0 <= m < n)%Z ->
     vat (mvmul M x) m = J 0%Z (m + 1)%Z - J 0%Z m + h * (st - ss) * vat x m) /\
  forall x m, (0 <= m < n)%Z -> vat (mvmul F x) m = h * nsf * vat x m.
Proof using H.
  destruct slab_sizes as [HS HV]. pose proof slab_case as D. destruct D as [Hn Hen Hdata Hal HaL HaR HD Hx HS' HS1 HV' Hsc Habs Hchi Hfis].
  pose proof (og_energies _ _ _ _ _ _ _ _ H) as He. pose proof (og_dir _ _ _ _ _ _ _ _ H) as Hdir. pose proof (og_tables _ _ _ _ _ _ _ _ H) as Ht. cbn zeta in Ht.
  destruct (loss_operator_fv ms sd d a a Hn Hen Hdata Hal HaL HaR HD Hx ltac:(congruence)) as (M & F & E & R1 & C1 & L).
  destruct (fission_entries ms sd d a a Hn Hen Hdata Hal HaL Hdir) as (M1 & F1 & E1 & R2 & C2 & P). rewrite E in E1. injection E1 as <- <-.
  rewrite He in *. rewrite Z.mul_1_r in *. exists M, F. do 5 (split; [assumption|]).
  assert (S1 : forall f, rsum 0 1 f = f 0%Z) by (intros f; exact (rsum_one 0 f)).
  split.
  - intros x J psi HJ m Hm. destruct (Ht m Hm) as (Tx & _ & T & S & _). rewrite mvmul_at, C1.
    specialize (L (vat x) J psi HJ 0%Z m ltac:(lia) Hm). rewrite Z.mul_0_l, Z.add_0_r in L. rewrite L. unfold fv_row, transfer. rewrite Hdir, He, S1, !HS, HV.
    unfold phi_of. rewrite Z.mul_0_l, Z.add_0_r, Tx, T, S. ring.
  - intros x m Hm. destruct (Ht m Hm) as (Tx & _ & _ & _ & X & N). rewrite mvmul_at, C2.
    rewrite (rsum_ext 0 n _ (fun m' => if (m' =? m)%Z then h * nsf * vat x m' else 0)).
    + exact (rsum_delta 0 n (fun m' => h * nsf * vat x m') m Hm).
    + intros j Hj. specialize (P 0%Z m 0%Z j ltac:(lia) Hm ltac:(lia) Hj). rewrite !Z.mul_0_l, !Z.add_0_r in P. rewrite P.
      destruct (j =? m)%Z; [rewrite X, N, HV, Tx; ring|ring].
Qed.

(* leakage out of a cell, over its volume and flux *)
Definition leakage (theta : R) : R := df * (2 * (1 - cos theta) / (h * h)).

Lemma leakage_nonneg theta : 0 <= leakage theta.
Proof using H.
  pose proof (og_diff _ _ _ _ _ _ _ _ H). pose proof (og_width _ _ _ _ _ _ _ _ H) as Hh. unfold leakage. apply Rmult_le_pos; [lra|].
  apply Rmult_le_pos; [pose proof (COS_bound theta); lra|left; apply Rinv_0_lt_compat; nra].
Qed.

Lemma slab_mode M F theta : diffusionSystem PI ms sd = Ok (M, F) -> face_condition a h df n theta ->
  mode M F (nsf / (st - ss + leakage theta)) (mkvec n (cosine n theta)).
Proof using H.
  intros E [Ht Hface]. pose proof (leakage_nonneg theta) as HL. destruct slab_system as (M1 & F1 & E1 & R1 & C1 & R2 & C2 & L & P).
  rewrite E in E1. injection E1 as <- <-. pose proof (og_cells _ _ _ _ _ _ _ _ H) as Hn. pose proof (og_diff _ _ _ _ _ _ _ _ H) as Hd.
  pose proof (og_width _ _ _ _ _ _ _ _ H) as Hh. pose proof (og_scatt _ _ _ _ _ _ _ _ H) as Hs. pose proof (og_fiss _ _ _ _ _ _ _ _ H) as Hf.
  pose proof (og_energies _ _ _ _ _ _ _ _ H) as He. pose proof (og_tables _ _ _ _ _ _ _ _ H) as T. cbn zeta in T.
  set (x := mkvec n (cosine n theta)).
  assert (HJ : currents ms sd d a a (phi_of ms (vat x)) (fun _ m => df / h * (cosine n theta (m - 1) - cosine n theta m))
    (fun _ m => (cosine n theta (m - 1) + cosine n theta m) / 2)).
  { destruct (cosine_ends n theta) as (E0 & E1 & E2 & E3). set (u := IZR n * theta / 2) in *. set (v := theta / 2) in *.
    unfold currents, phi_of. cbn [x vat]. split; [|split].
    - intros e m He' Hm. assert (e = 0)%Z as -> by lia. rewrite Z.mul_0_l, !Z.add_0_r.
      destruct (T (m - 1)%Z ltac:(lia)) as (-> & -> & _). destruct (T m ltac:(lia)) as (-> & -> & _). split; field; lra.
    - intros e He'. assert (e = 0)%Z as -> by lia. rewrite Z.mul_0_l, !Z.add_0_r. destruct (T 0%Z ltac:(lia)) as (-> & -> & _).
      change (0 - 1)%Z with (-1)%Z. split; [field; lra|]. rewrite E0, E2.
      replace (- (df / h * (cos u * cos v - sin u * sin v - (cos u * cos v + sin u * sin v))) * (2 * (1 + a)))
        with (2 * (1 + a) * (2 * df / h) * (sin v * sin u)) by (field; lra). rewrite Hface. field.
    - intros e He'. assert (e = 0)%Z as -> by lia. rewrite Z.mul_0_l, !Z.add_0_r. destruct (T (n - 1)%Z ltac:(lia)) as (-> & -> & _).
      split; [field; lra|]. rewrite E1, E3.
      replace (df / h * (cos u * cos v + sin u * sin v - (cos u * cos v - sin u * sin v)) * (2 * (1 + a)))
        with (2 * (1 + a) * (2 * df / h) * (sin v * sin u)) by (field; lra). rewrite Hface. field. }
  split; [apply Rdiv_lt_0_compat; lra|]. split; [cbn [x vlen]; congruence|]. rewrite R1, C1, R2. split; [|split].
  - intros i Hi. left. cbn [x vat]. apply cosine_pos; assumption.
  - exists 0%Z. split; [lia|]. rewrite P by lia. cbn [x vat]. pose proof (cosine_pos n theta 0 Hn Ht ltac:(lia)) as C.
    apply Rgt_not_eq. repeat apply Rmult_lt_0_compat; lra.
  - intros m Hm. rewrite (L x _ _ HJ m Hm), (P x m Hm). cbn [x vat]. replace (m + 1 - 1)%Z with m by lia.
    replace (df / h * (cosine n theta m - cosine n theta (m + 1)) - df / h * (cosine n theta (m - 1) - cosine n theta m))
      with (df / h * (2 * cosine n theta m - (cosine n theta (m - 1) + cosine n theta (m + 1)))) by ring.
    rewrite cosine_second. unfold leakage in *. field. split; [|split]; try lra.
    intros Z. apply (Rmult_eq_compat_r (/ (h * h))) in Z. rewrite Rmult_0_l in Z.
    assert (Q : (st - ss) + df * (2 * (1 - cos theta) / (h * h)) = 0) by (rewrite <- Z; field; lra). lra.
Qed.

Lemma slab_settles solver : exists M F, diffusionSystem PI ms sd = Ok (M, F) /\ (exists solve, exact_solver M solve) /\
  (exact_solver M (solver M) -> exists k phi, settles solver M F k phi).
Proof using H.
  pose proof (og_tables _ _ _ _ _ _ _ _ H) as T. cbn zeta in T. pose proof (og_cells _ _ _ _ _ _ _ _ H) as Hn. pose proof (og_fiss _ _ _ _ _ _ _ _ H) as Hf.
  pose proof (og_energies _ _ _ _ _ _ _ _ H) as He.
  assert (A : forall m, (0 <= m < n)%Z -> emits ms sd d 0 m /\ fissions ms sd d 0 m).
  { intros m Hm. destruct (T m Hm) as (_ & _ & _ & _ & X & N). unfold emits, fissions. rewrite X, N, He. repeat split; try lia; lra. }
  apply (C86_diffusion solver ms sd d a a slab_case (og_dir _ _ _ _ _ _ _ _ H)).
  - exists 0%Z. split; exists 0%Z; apply A; lia.
  - intros e0 m0 m (He0 & _) ((e & _ & Hm & _) & _). exists 0%Z. assert (e0 = 0)%Z as -> by lia. split; [constructor|apply A; exact Hm].
Qed.
End Slab.

Local Open Scope Z_scope.
(* the fluxes of the iteration are not negative *)
Lemma slab_fluxes ms sd a h df st ss nsf solver M F : one_group_slab ms sd a h df st ss nsf -> diffusionSystem PI ms sd = Ok (M, F) -> exact_solver M (solver M) ->
  forall t i, (0 <= i < ms_cells ms)%Z -> (0 <= vat (pi_flux (power (solver M) F (ms_cells ms) t)) i)%R.
Proof.
  intros Og E Hex. pose proof (slab_case _ _ _ _ _ _ _ _ Og) as D. pose proof (og_energies _ _ _ _ _ _ _ _ Og) as He. pose proof (og_dir _ _ _ _ _ _ _ _ Og) as Hdir.
  pose proof (og_tables _ _ _ _ _ _ _ _ Og) as Ht. cbn zeta in Ht. pose proof (og_fiss _ _ _ _ _ _ _ _ Og) as Hnf. set (d := mesh_tables ms) in *.
  destruct D as [Hn Hen Hdata Hal HaL HaR HD Hx HS HS1 HV Hsc Habs Hchi Hfis].
  destruct (system_bl ms sd d a a Hn Hen Hdata Hal HaL ltac:(congruence)) as (M1 & F1 & E1 & HM & HF). rewrite E in E1. injection E1 as <- <-. unfold transfer in HM. rewrite Hdir in HM, HF.
  destruct (loss_monotone ms sd d a a Hn Hen Hdata Hal HaL HaR HD Hx Hdir HS HV Hsc Habs) as (M1 & F1 & E1 & Hmon). rewrite E in E1. injection E1 as <- <-.
  destruct (fission_entries ms sd d a a Hn Hen Hdata Hal HaL Hdir) as (M1 & F1 & E1 & _ & _ & Fe). rewrite E in E1. injection E1 as <- <-.
  set (n := ms_cells ms) in *. pose proof HM as (HMr & HMc & _). pose proof HF as (HFr & HFc & _). fold n in HMr, HMc, HFr, HFc.
  assert (Fv : forall i j, 0 <= i < n -> 0 <= j < n -> mat_at F i j = if j =? i then (nsf * tV d i)%R else 0%R).
  { intros i j Hi Hj. specialize (Fe 0 i 0 j ltac:(lia) Hi ltac:(lia) Hj). rewrite !Z.mul_0_l, !Z.add_0_r in Fe. rewrite Fe. destruct (j =? i); [|reflexivity].
    destruct (Ht i Hi) as (_ & _ & _ & _ & -> & N). rewrite <- N. ring. }
  rewrite He, Z.mul_1_r in HMr, HMc, HFr, HFc, Hmon.
  assert (HF0 : forall i j, 0 <= i < n -> 0 <= j < n -> (0 <= mat_at F i j)%R).
  { intros i j Hi Hj. rewrite Fv by auto. destruct (j =? i); [|lra]. pose proof (HV i Hi). apply Rmult_le_pos; lra. }
  assert (Hr : on n (births F n) 0).
  { split; [lia|]. unfold births. apply Rlt_le_trans with (mat_at F 0 0); [rewrite Fv, Z.eqb_refl by lia; apply Rmult_lt_0_compat; [exact Hnf|apply HV; lia]|].
    apply (rsum_term_le 0 n (fun j => mat_at F 0 j)); [|lia]. intros j Hj. apply HF0; lia. }
  intros t. refine (proj1 (proj2 (proj2 (proj2 (src_cone solver M F n HMr HMc HFr HFc Hex Hmon HF0 _ 0 Hr t))))).
  apply (chain solver M F n HMr HMc HFr HFc Hex Hmon); [|exact HF0|].
  - intros i j Hi Hj Hne. eapply (off_diagonal ms sd d a a Hn HD Hx HS1 HV); [|exact HM| | |exact Hne]; try (rewrite He, Z.mul_1_r; assumption). intros; apply Hsc; auto.
  - intros i0 i [Hi0 _] [Hi _]. exists i. split.
    + pose proof (lead_cells ms sd d a a Hn HD Hx HS1 _ M HM 0 i0 i ltac:(lia) Hi0 Hi) as L. rewrite !Z.mul_0_l, !Z.add_0_r, He, Z.mul_1_r in L. exact L.
    + rewrite Fv by lia. rewrite Z.eqb_refl. apply Rmult_lt_0_compat; [exact Hnf|apply HV; exact Hi].
Qed.
