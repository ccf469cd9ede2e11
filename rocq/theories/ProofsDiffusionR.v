(* Diffusion operators over the reals: finite volumes, balance, solvability. *)
From Coq Require Import String ZArith List Bool Lia Reals Lra.
From Verif Require Import Base BaseLemmas NumR LinAlg Blocks ModelNumTools ModelEigen ModelMesh
  ModelReactor ModelDiffusion ProofsNumTools ProofsMesh ProofsDiffusion.
Import ListNotations.
Local Open Scope R_scope.

(* ---------- block sums ---------- *)

Lemma app_blocks n en (M : mat R) B x e m :
  (0 <= n)%Z -> bl n en M B -> (0 <= e < en)%Z -> (0 <= m < n)%Z ->
  app (n * en) (mat_at M) x (m + e * n)%Z =
  rsum 0 en (fun e' => rsum 0 n (fun m' => B e m e' m' * x (m' + e' * n)%Z)).
Proof.
  intros Hn [_ [_ H]] He Hm. unfold app. rewrite Z.mul_comm, rsum_blocks by lia.
  apply rsum_ext. intros e' He'. apply rsum_ext. intros m' Hm'. rewrite <- H by auto. reflexivity.
Qed.

(* ---------- any number type: transposes ---------- *)

Section Transpose.
Context {T : Type} {N : Num T}.
Variable ms : mesh T.
Variable d : data T.

Lemma tri_sym (dg : Z -> Z -> T) e m e' m' : tri d dg e m e' m' = tri d dg e' m' e m.
Proof.
  unfold tri. rewrite (Z.eqb_sym e e'). destruct (Z.eqb_spec e' e) as [->|]; [|reflexivity].
  destruct (Z.eqb_spec m' (m - 1)).
  - replace (m =? m' - 1)%Z with false by lia. replace (m =? m' + 1)%Z with true by lia. subst. reflexivity.
  - destruct (Z.eqb_spec m' (m + 1)).
    + replace (m =? m' - 1)%Z with true by lia. subst. replace (m + 1 - 1)%Z with m by lia. reflexivity.
    + replace (m =? m' - 1)%Z with false by lia. replace (m =? m' + 1)%Z with false by lia.
      rewrite (Z.eqb_sym m m'). destruct (Z.eqb_spec m' m); subst; reflexivity.
Qed.
End Transpose.

Section Adjoint.
Context {T : Type} {N : Num T}.

Lemma adjoint_is_transpose (mpi : T) (ms : mesh T) sdf sda d aL aR :
  (2 <= ms_cells ms)%Z -> (0 <= sd_energies sdf)%Z ->
  sd_energies sda = sd_energies sdf -> sd_albedo sda = sd_albedo sdf ->
  sd_dir sdf = FORWARD -> sd_dir sda = ADJOINT ->
  mesh_data mpi ms (sd_energies sdf) d -> albedos ms sdf aL aR ->
  is_equal aL (nofZ 2) && is_equal aR (nofZ 2) = false ->
  exists M F Ma Fa,
    diffusionSystem mpi ms sdf = Ok (M, F) /\ diffusionSystem mpi ms sda = Ok (Ma, Fa) /\
    let s := (ms_cells ms * sd_energies sdf)%Z in
    mrows M = s /\ mcols M = s /\ mrows F = s /\ mcols F = s /\
    mrows Ma = s /\ mcols Ma = s /\ mrows Fa = s /\ mcols Fa = s /\
    forall i j, (0 <= i < s)%Z -> (0 <= j < s)%Z ->
      mat_at Ma i j = mat_at M j i /\ mat_at Fa i j = mat_at F j i.
Proof.
  intros Hn Hen Ee Ea Hf Had Hdata Ha Heq.
  pose proof (system_wp mpi ms sdf d Hn Hen Hdata aL aR Ha ltac:(congruence)) as H1. rewrite Hf in H1.
  assert (Ha' : albedos ms sda aL aR) by (unfold albedos in *; rewrite Ea; exact Ha).
  assert (Hd' : mesh_data mpi ms (sd_energies sda) d) by (rewrite Ee; exact Hdata).
  pose proof (system_wp mpi ms sda d Hn ltac:(lia) Hd' aL aR Ha' ltac:(congruence)) as H2. rewrite Had in H2.
  rewrite Ee in H2.
  destruct (diffusionSystem mpi ms sdf) as [[M F]| | |]; try contradiction.
  destruct (diffusionSystem mpi ms sda) as [[Ma Fa]| | |]; try contradiction.
  cbn [wp fst snd] in H1, H2.
  destruct H1 as [[R1 [C1 HM]] [R2 [C2 HF]]]. destruct H2 as [[R3 [C3 HMa]] [R4 [C4 HFa]]].
  exists M, F, Ma, Fa. repeat split; auto; rename H into Hi; rename H0 into Hj.
  - destruct (idx_decode (ms_cells ms) (sd_energies sdf) i ltac:(lia) Hi) as (e & m & He & Hm & ->).
    destruct (idx_decode (ms_cells ms) (sd_energies sdf) j ltac:(lia) Hj) as (e' & m' & He' & Hm' & ->).
    specialize (HMa e m e' m' He Hm He' Hm'). specialize (HM e' m' e m He' Hm' He Hm).
    unfold blk in HMa, HM. rewrite HMa, HM. unfold lossB, boundaryB. rewrite Heq.
    rewrite tri_sym. rewrite (Z.eqb_sym m m'). destruct (Z.eqb_spec m' m); subst; reflexivity.
  - destruct (idx_decode (ms_cells ms) (sd_energies sdf) i ltac:(lia) Hi) as (e & m & He & Hm & ->).
    destruct (idx_decode (ms_cells ms) (sd_energies sdf) j ltac:(lia) Hj) as (e' & m' & He' & Hm' & ->).
    specialize (HFa e m e' m' He Hm He' Hm'). specialize (HF e' m' e m He' Hm' He Hm).
    unfold blk in HFa, HF. rewrite HFa, HF. 
    rewrite (Z.eqb_sym m m'). destruct (Z.eqb_spec m' m); subst; reflexivity.
Qed.
End Adjoint.

(* ---------- finite volumes ---------- *)

Section Real.
Variable ms : mesh R.
Variable sd : solverData R.
Variable d : data R.
Variables aL aR : R.
Let n := ms_cells ms.
Let en := sd_energies sd.
Hypothesis Hn : (2 <= n)%Z.
Hypothesis Hen : (0 <= en)%Z.
Hypothesis Hdata : mesh_data PI ms en d.
Hypothesis Hal : albedos ms sd aL aR.
Hypothesis HaL : 0 <= aL <= 1.
Hypothesis HaR : 0 <= aR <= 1.
Hypothesis HD : forall e m, (0 <= e < en)%Z -> (0 <= m < n)%Z -> 0 < tD d e m.
Hypothesis Hdx : forall m, (0 <= m < n)%Z -> 0 < tdx d m.

Lemma not_periodic : is_equal aL (nofZ 2) && is_equal aR (nofZ 2) = false.
Proof.
  unfold is_equal, eps10. rnum. replace (Rltb (Rabs (aL - 2)) _) with false; [reflexivity|].
  symmetry. apply Rltb_false. rewrite Rabs_left1 by lra. lra.
Qed.

(* cell by cell, fluxes phi, surface fluxes psi and outward-oriented currents J *)
Definition currents (phi J psi : Z -> Z -> R) : Prop :=
  (forall e m, (0 <= e < en)%Z -> (1 <= m < n)%Z ->
     J e m = tD d e (m - 1) * (phi e (m - 1)%Z - psi e m) / (tdx d (m - 1) / 2) /\
     J e m = tD d e m * (psi e m - phi e m) / (tdx d m / 2)) /\
  (forall e, (0 <= e < en)%Z ->
     J e 0%Z = tD d e 0 * (psi e 0%Z - phi e 0%Z) / (tdx d 0 / 2) /\
     - J e 0%Z * (2 * (1 + aL)) = (1 - aL) * psi e 0%Z) /\
  (forall e, (0 <= e < en)%Z ->
     J e n = tD d e (n - 1) * (phi e (n - 1)%Z - psi e n) / (tdx d (n - 1) / 2) /\
     J e n * (2 * (1 + aR)) = (1 - aR) * psi e n).

Definition bJ (e : Z) (a : R) (m : Z) (p : R) : R :=
  2 * tD d e m * (1 - a) / (4 * tD d e m * (1 + a) + tdx d m * (1 - a)) * p.
Definition theJ (phi : Z -> Z -> R) (e m : Z) : R :=
  if (m =? 0)%Z then - bJ e aL 0 (phi e 0%Z)
  else if (m =? n)%Z then bJ e aR (n - 1) (phi e (n - 1)%Z)
  else 2 * (tD d e (m - 1) * tD d e m) / (tdx d m * tD d e (m - 1) + tdx d (m - 1) * tD d e m)
       * (phi e (m - 1)%Z - phi e m).
Definition thePsi (phi : Z -> Z -> R) (e m : Z) : R :=
  if (m =? n)%Z then phi e (n - 1)%Z - theJ phi e n * (tdx d (n - 1) / 2) / tD d e (n - 1)
  else phi e m + theJ phi e m * (tdx d m / 2) / tD d e m.

Lemma denom_pos e a m : (0 <= e < en)%Z -> (0 <= m < n)%Z -> 0 <= a <= 1 ->
  0 < 4 * tD d e m * (1 + a) + tdx d m * (1 - a).
Proof.
  intros He Hm Ha. pose proof (HD e m He Hm). pose proof (Hdx m Hm).
  assert (0 < tD d e m * (1 + a)) by nra. assert (0 <= tdx d m * (1 - a)) by nra. lra.
Qed.

Lemma idenom_pos e m : (0 <= e < en)%Z -> (1 <= m < n)%Z ->
  0 < tdx d m * tD d e (m - 1) + tdx d (m - 1) * tD d e m.
Proof.
  intros He Hm. pose proof (HD e m He ltac:(lia)). pose proof (HD e (m - 1)%Z He ltac:(lia)).
  pose proof (Hdx m ltac:(lia)). pose proof (Hdx (m - 1)%Z ltac:(lia)). nra.
Qed.

Lemma currents_exist phi : currents phi (theJ phi) (thePsi phi).
Proof.
  repeat split.
  - unfold thePsi. replace (m =? n)%Z with false by lia. unfold theJ.
    replace (m =? 0)%Z with false by lia. replace (m =? n)%Z with false by lia.
    pose proof (idenom_pos e m H H0). pose proof (HD e m H ltac:(lia)). pose proof (HD e (m - 1)%Z H ltac:(lia)).
    pose proof (Hdx m ltac:(lia)). pose proof (Hdx (m - 1)%Z ltac:(lia)). field. repeat split; lra.
  - unfold thePsi. replace (m =? n)%Z with false by lia.
    pose proof (HD e m H ltac:(lia)). pose proof (Hdx m ltac:(lia)). field. split; lra.
  - unfold thePsi. replace (0 =? n)%Z with false by lia.
    pose proof (HD e 0%Z H ltac:(lia)). pose proof (Hdx 0%Z ltac:(lia)). field. split; lra.
  - unfold thePsi. replace (0 =? n)%Z with false by lia. unfold theJ. cbn [Z.eqb]. unfold bJ.
    pose proof (HD e 0%Z H ltac:(lia)). pose proof (denom_pos e aL 0%Z H ltac:(lia) HaL). field. split; lra.
  - unfold thePsi. rewrite Z.eqb_refl.
    pose proof (HD e (n-1)%Z H ltac:(lia)). pose proof (Hdx (n-1)%Z ltac:(lia)). field. split; lra.
  - unfold thePsi. rewrite Z.eqb_refl. unfold theJ. replace (n =? 0)%Z with false by lia. rewrite Z.eqb_refl. unfold bJ.
    pose proof (HD e (n-1)%Z H ltac:(lia)). pose proof (denom_pos e aR (n-1)%Z H ltac:(lia) HaR). field. split; lra.
Qed.

(* the currents are determined by the fluxes *)
Lemma currents_unique phi J psi J' psi' : currents phi J psi -> currents phi J' psi' ->
  forall e m, (0 <= e < en)%Z -> (0 <= m <= n)%Z -> J e m = J' e m.
Proof.
  intros [A1 [A2 A3]] [B1 [B2 B3]] e m He Hm.
  destruct (Z.eq_dec m 0) as [->|]; [|destruct (Z.eq_dec m n) as [->|]].
  - destruct (A2 e He) as [P Q], (B2 e He) as [P' Q'].
    pose proof (HD e 0%Z He ltac:(lia)) as D0. pose proof (Hdx 0%Z ltac:(lia)) as X0.
    assert (E : psi e 0%Z = phi e 0%Z + J e 0%Z * (tdx d 0 / 2) / tD d e 0) by (rewrite P; field; lra).
    assert (E' : psi' e 0%Z = phi e 0%Z + J' e 0%Z * (tdx d 0 / 2) / tD d e 0) by (rewrite P'; field; lra).
    rewrite E in Q. rewrite E' in Q'.
    assert (X : (J e 0%Z - J' e 0%Z) * (2 * (1 + aL) + (1 - aL) * (tdx d 0 / 2 / tD d e 0)) = 0)
      by (rewrite Rmult_plus_distr_l; unfold Rdiv in *; lra).
    assert (0 < tdx d 0 / 2 / tD d e 0) by (apply Rdiv_lt_0_compat; lra).
    apply Rmult_integral in X. destruct X; [lra|nra].
  - destruct (A3 e He) as [P Q], (B3 e He) as [P' Q'].
    pose proof (HD e (n-1)%Z He ltac:(lia)) as D0. pose proof (Hdx (n-1)%Z ltac:(lia)) as X0.
    assert (E : psi e n = phi e (n-1)%Z - J e n * (tdx d (n-1) / 2) / tD d e (n-1)) by (rewrite P; field; lra).
    assert (E' : psi' e n = phi e (n-1)%Z - J' e n * (tdx d (n-1) / 2) / tD d e (n-1)) by (rewrite P'; field; lra).
    rewrite E in Q. rewrite E' in Q'.
    assert (X : (J e n - J' e n) * (2 * (1 + aR) + (1 - aR) * (tdx d (n-1) / 2 / tD d e (n-1))) = 0)
      by (rewrite Rmult_plus_distr_l; unfold Rdiv in *; lra).
    assert (0 < tdx d (n-1) / 2 / tD d e (n-1)) by (apply Rdiv_lt_0_compat; lra).
    apply Rmult_integral in X. destruct X; [lra|nra].
  - destruct (A1 e m He ltac:(lia)) as [P Q], (B1 e m He ltac:(lia)) as [P' Q'].
    pose proof (HD e m He ltac:(lia)) as D0. pose proof (Hdx m ltac:(lia)) as X0.
    pose proof (HD e (m-1)%Z He ltac:(lia)) as D1. pose proof (Hdx (m-1)%Z ltac:(lia)) as X1.
    assert (E : psi e m = phi e m + J e m * (tdx d m / 2) / tD d e m) by (rewrite Q; field; lra).
    assert (E' : psi' e m = phi e m + J' e m * (tdx d m / 2) / tD d e m) by (rewrite Q'; field; lra).
    assert (F : phi e (m-1)%Z - psi e m = J e m * (tdx d (m-1) / 2) / tD d e (m-1)) by (rewrite P; field; lra).
    assert (F' : phi e (m-1)%Z - psi' e m = J' e m * (tdx d (m-1) / 2) / tD d e (m-1)) by (rewrite P'; field; lra).
    assert (X : (J e m - J' e m) * (tdx d m / 2 / tD d e m + tdx d (m-1) / 2 / tD d e (m-1)) = 0)
      by (rewrite Rmult_plus_distr_l; unfold Rdiv in *; lra).
    assert (0 < tdx d m / 2 / tD d e m) by (apply Rdiv_lt_0_compat; lra).
    assert (0 < tdx d (m-1) / 2 / tD d e (m-1)) by (apply Rdiv_lt_0_compat; lra).
    apply Rmult_integral in X. destruct X; [lra|nra].
Qed.

(* rows of the tridiagonal part *)
Lemma tri_row (dg : Z -> Z -> R) phi e m : (0 <= e < en)%Z -> (0 <= m < n)%Z ->
  rsum 0 en (fun e' => rsum 0 n (fun m' => tri d dg e m e' m' * phi e' m')) =
  dg e m * phi e m
  + (if (1 <=? m)%Z then - 2 * dif d e (m - 1) * phi e (m - 1)%Z else 0)
  + (if (m + 1 <? n)%Z then - 2 * dif d e m * phi e (m + 1)%Z else 0).
Proof.
  intros He Hm.
  rewrite (rsum_single 0 en _ e) by
    (auto; intros e' He' Hne; apply rsum_0; intros m' Hm'; unfold tri;
     replace (e' =? e)%Z with false by lia; rnum; lra).
  rewrite (rsum_ext 0 n _ (fun m' => (if (m' =? m)%Z then dg e m' * phi e m' else 0)
     + (if (m' =? m - 1)%Z then -2 * dif d e m' * phi e m' else 0)
     + (if (m' =? m + 1)%Z then -2 * dif d e (m' - 1) * phi e m' else 0))).
  2:{ intros m' Hm'. unfold tri, mtwo. rewrite Z.eqb_refl. rnum.
      destruct (Z.eqb_spec m' (m - 1)).
      - subst m'. replace (m - 1 =? m)%Z with false by lia. replace (m - 1 =? m + 1)%Z with false by lia. lra.
      - destruct (Z.eqb_spec m' (m + 1)).
        + subst m'. replace (m + 1 =? m)%Z with false by lia. replace (m + 1 - 1)%Z with m by lia. lra.
        + destruct (Z.eqb_spec m' m); [subst|]; lra. }
  rewrite !rsum_plus. f_equal; [f_equal|].
  - apply (rsum_delta 0 n (fun m' => dg e m' * phi e m')); auto.
  - destruct (1 <=? m)%Z eqn:E.
    + apply (rsum_delta 0 n (fun m' => -2 * dif d e m' * phi e m')). lia.
    + apply rsum_0. intros k Hk. replace (k =? m - 1)%Z with false by lia. reflexivity.
  - destruct (m + 1 <? n)%Z eqn:E.
    + rewrite (rsum_delta 0 n (fun m' => -2 * dif d e (m' - 1) * phi e m')) by lia.
      replace (m + 1 - 1)%Z with m by lia. reflexivity.
    + apply rsum_0. intros k Hk. replace (k =? m + 1)%Z with false by lia. reflexivity.
Qed.

(* scattering part of a row *)
Lemma scatt_row (s : Z -> Z -> Z -> R) phi e m : (0 <= e < en)%Z -> (0 <= m < n)%Z ->
  rsum 0 en (fun e' => rsum 0 n (fun m' => (if (m' =? m)%Z then s e e' m * tV d m else 0) * phi e' m')) =
  rsum 0 en (fun e' => s e e' m * tV d m * phi e' m).
Proof.
  intros He Hm. apply rsum_ext. intros e' He'.
  rewrite (rsum_ext 0 n _ (fun m' => if (m' =? m)%Z then s e e' m * tV d m * phi e' m' else 0))
    by (intros; destruct (k =? m)%Z; lra).
  apply (rsum_delta 0 n (fun m' => s e e' m * tV d m * phi e' m')). auto.
Qed.

Lemma loss_row (dg : Z -> Z -> R) (s : Z -> Z -> Z -> R) phi e m : (0 <= e < en)%Z -> (0 <= m < n)%Z ->
  rsum 0 en (fun e' => rsum 0 n (fun m' => lossB d (tri d dg) s e m e' m' * phi e' m')) =
  dg e m * phi e m
  + (if (1 <=? m)%Z then - 2 * dif d e (m - 1) * phi e (m - 1)%Z else 0)
  + (if (m + 1 <? n)%Z then - 2 * dif d e m * phi e (m + 1)%Z else 0)
  - rsum 0 en (fun e' => s e e' m * tV d m * phi e' m).
Proof.
  intros He Hm. rewrite <- tri_row, <- (scatt_row s phi e m), <- rsum_minus by auto.
  apply rsum_ext. intros e' He'. rewrite <- rsum_minus. apply rsum_ext. intros m' Hm'.
  unfold lossB. rnum. destruct (m' =? m)%Z; lra.
Qed.

(* the finite volume balance of one cell *)
Definition fv_row (s : Z -> Z -> Z -> R) (phi J : Z -> Z -> R) (e m : Z) : R :=
  (tS d (m + 1) * J e (m + 1)%Z - tS d m * J e m) + ttot d e m * tV d m * phi e m
  - rsum 0 en (fun e' => s e e' m * tV d m * phi e' m).

Lemma loss_row_fv (s : Z -> Z -> Z -> R) phi e m : (0 <= e < en)%Z -> (0 <= m < n)%Z ->
  rsum 0 en (fun e' => rsum 0 n (fun m' => lossB d (tri d (dgA ms d aL aR)) s e m e' m' * phi e' m')) =
  fv_row s phi (theJ phi) e m.
Proof.
  intros He Hm. rewrite loss_row by auto. unfold fv_row. f_equal.
  unfold dgA, theJ, dgI, rem, two, bcoef, bJ, dif. fold n. rnum.
  assert (Hd0 : forall k, (1 <= k < n)%Z -> tdx d k * tD d e (k - 1) + tdx d (k - 1) * tD d e k <> 0)
    by (intros k Hk; pose proof (idenom_pos e k He Hk); lra).
  pose proof (denom_pos e aL 0%Z He ltac:(lia) HaL) as DL.
  pose proof (denom_pos e aR (n - 1)%Z He ltac:(lia) HaR) as DR.
  replace (m + 1 =? 0)%Z with false by lia. replace (m =? n)%Z with false by lia.
  replace (m + 1 - 1)%Z with m by lia.
  destruct (Z.eqb_spec m 0) as [->|Hm0].
  - replace (1 <=? 0)%Z with false by lia. replace (0 + 1 <? n)%Z with true by lia.
    replace (0 + 1 =? n)%Z with false by lia. pose proof (Hd0 1%Z ltac:(lia)) as H1. change (1 - 1)%Z with 0%Z in H1.
    change (0 + 1)%Z with 1%Z. field. split; lra.
  - replace (1 <=? m)%Z with true by lia. replace (m - 1 + 1)%Z with m by lia.
    pose proof (Hd0 m ltac:(lia)) as H1.
    destruct (Z.eqb_spec m (n - 1)) as [->|Hm1].
    + replace (n - 1 + 1 =? n)%Z with true by lia. replace (n - 1 + 1 <? n)%Z with false by lia.
      replace (n - 1 + 1)%Z with n by lia. replace (n - 2)%Z with (n - 1 - 1)%Z by lia.
      replace (n - 1 - 1 + 1)%Z with (n - 1)%Z by lia. field. split; lra.
    + replace (m + 1 =? n)%Z with false by lia. replace (m + 1 <? n)%Z with true by lia.
      pose proof (Hd0 (m + 1)%Z ltac:(lia)) as H2. replace (m + 1 - 1)%Z with m in H2 by lia.
      field. split; lra.
Qed.

Definition phi_of (x : Z -> R) (e m : Z) : R := x (m + e * n)%Z.

Definition transfer : Z -> Z -> Z -> R :=
  match sd_dir sd with FORWARD => fun e e' m => tsc d e' e m | _ => fun e e' m => tsc d e e' m end.

Lemma system_bl : sd_dir sd <> DirUNDEFINED ->
  exists M F, diffusionSystem PI ms sd = Ok (M, F) /\
    bl n en M (lossB d (tri d (dgA ms d aL aR)) transfer) /\
    bl n en F (match sd_dir sd with
               | FORWARD => fun e m e' m' => (if (m' =? m)%Z then fp d e' m else 0) * tchi d e m
               | _ => fun e m e' m' => (if (m' =? m)%Z then fp d e m else 0) * tchi d e' m' end).
Proof.
  intros Hd. pose proof (system_wp PI ms sd d Hn Hen Hdata aL aR Hal Hd) as H.
  unfold boundaryB in H. rewrite not_periodic in H. unfold transfer.
  destruct (diffusionSystem PI ms sd) as [[M F]| | |]; try contradiction.
  exists M, F. split; auto. cbn [wp fst snd] in H. fold n en in H.
  destruct (sd_dir sd); [contradiction| |]; rnum; exact H.
Qed.

(* C41 + C43: the loss operator is the finite volume balance *)
Lemma loss_operator_fv : sd_dir sd <> DirUNDEFINED ->
  exists M F, diffusionSystem PI ms sd = Ok (M, F) /\ mrows M = (n * en)%Z /\ mcols M = (n * en)%Z /\
    forall x J psi, currents (phi_of x) J psi ->
    forall e m, (0 <= e < en)%Z -> (0 <= m < n)%Z ->
      rsum 0 (n * en) (fun j => mat_at M (m + e * n) j * x j) = fv_row transfer (phi_of x) J e m.
Proof.
  intros Hd. destruct (system_bl Hd) as (M & F & E & HM & HF). exists M, F. split; auto.
  split; [apply HM|]. split; [apply HM|]. intros x J psi HJ e m He Hm.
  change (app (n * en) (mat_at M) x (m + e * n)%Z = fv_row transfer (phi_of x) J e m).
  rewrite (app_blocks n en M _ x e m ltac:(lia) HM He Hm).
  transitivity (fv_row transfer (phi_of x) (theJ (phi_of x)) e m).
  - rewrite <- loss_row_fv by auto. reflexivity.
  - unfold fv_row. pose proof (currents_unique _ _ _ _ _ (currents_exist (phi_of x)) HJ e) as U.
    rewrite !U by lia. reflexivity.
Qed.

(* entries of the loss operator *)
Lemma dif_pos e m : (0 <= e < en)%Z -> (0 <= m < n - 1)%Z -> 0 <= tS d (m + 1) -> 0 <= dif d e m.
Proof.
  intros He Hm Hs. unfold dif. rnum. pose proof (idenom_pos e (m + 1)%Z He ltac:(lia)) as Hd.
  replace (m + 1 - 1)%Z with m in Hd by lia.
  pose proof (HD e m He ltac:(lia)). pose proof (HD e (m + 1)%Z He ltac:(lia)).
  apply Rmult_le_pos; [|left; apply Rinv_0_lt_compat; auto].
  apply Rmult_le_pos; auto. apply Rmult_le_pos; lra.
Qed.

Lemma loss_entries : sd_dir sd <> DirUNDEFINED ->
  exists M F, diffusionSystem PI ms sd = Ok (M, F) /\
    forall e m e' m', (0 <= e < en)%Z -> (0 <= m < n)%Z -> (0 <= e' < en)%Z -> (0 <= m' < n)%Z ->
      (* transfers between groups stay in their cell *)
      (e <> e' -> mat_at M (m + e * n) (m' + e' * n) =
         if (m' =? m)%Z then - (transfer e e' m * tV d m) else 0) /\
      (* only neighbours are coupled *)
      (m' <> m -> m' <> (m - 1)%Z -> m' <> (m + 1)%Z -> mat_at M (m + e * n) (m' + e' * n) = 0) /\
      (* symmetric, non-positive coupling between cells *)
      (m' <> m -> mat_at M (m + e * n) (m' + e' * n) = mat_at M (m' + e' * n) (m + e * n) /\
         ((forall k, (1 <= k < n)%Z -> 0 <= tS d k) -> mat_at M (m + e * n) (m' + e' * n) <= 0)).
Proof.
  intros Hd. destruct (system_bl Hd) as (M & F & E & (_ & _ & HM) & _). exists M, F. split; auto.
  intros e m e' m' He Hm He' Hm'.
  pose proof (HM e m e' m' He Hm He' Hm') as H1. pose proof (HM e' m' e m He' Hm' He Hm) as H2.
  unfold blk in H1, H2. rewrite H1, H2. clear H1 H2. unfold lossB. rnum.
  repeat split.
  - intros Hne. unfold tri. replace (e' =? e)%Z with false by lia. rnum. destruct (m' =? m)%Z; lra.
  - intros. unfold tri. replace (m' =? m)%Z with false by lia.
    replace (m' =? m - 1)%Z with false by lia. replace (m' =? m + 1)%Z with false by lia.
    destruct (e' =? e)%Z; rnum; lra.
  - intros. rewrite tri_sym. replace (m' =? m)%Z with false by lia. replace (m =? m')%Z with false by lia. lra.
  - intros Hs. replace (m' =? m)%Z with false by lia. unfold tri, mtwo.
    destruct (e' =? e)%Z; [|rnum; lra].
    destruct (Z.eqb_spec m' (m - 1)); [|destruct (Z.eqb_spec m' (m + 1))].
    + pose proof (dif_pos e (m - 1)%Z He ltac:(lia) ltac:(apply Hs; lia)). rnum. lra.
    + pose proof (dif_pos e m He ltac:(lia) ltac:(apply Hs; lia)). rnum. lra.
    + replace (m' =? m)%Z with false by lia. rnum. lra.
Qed.

(* row sums: removal times volume plus leakage *)
Definition leak (e m : Z) : R :=
  (if (m =? 0)%Z then tS d 0 * bJ e aL 0 1 else 0) + (if (m =? n - 1)%Z then tS d n * bJ e aR (n - 1) 1 else 0).

Lemma leak_spec e m : (0 <= e < en)%Z -> (0 <= m < n)%Z -> 0 <= tS d 0 -> 0 <= tS d n ->
  0 <= leak e m /\ ((0 < m < n - 1)%Z -> leak e m = 0) /\ (aL = 1 -> aR = 1 -> leak e m = 0).
Proof.
  intros He Hm H0 H1.
  assert (P : forall a k, (0 <= k < n)%Z -> 0 <= a <= 1 -> 0 <= bJ e a k 1).
  { intros a k Hk Ha. unfold bJ. pose proof (denom_pos e a k He Hk Ha). pose proof (HD e k He Hk).
    rewrite Rmult_1_r. apply Rmult_le_pos; [nra|left; apply Rinv_0_lt_compat; auto]. }
  assert (Q : forall k, bJ e 1 k 1 = 0) by (intros; unfold bJ, Rdiv; replace (1 - 1) with 0 by lra; ring).
  unfold leak. repeat split.
  - apply Rplus_le_le_0_compat; [destruct (m =? 0)%Z|destruct (m =? n - 1)%Z]; try lra;
      apply Rmult_le_pos; auto; apply P; auto; lia.
  - intros Hi. replace (m =? 0)%Z with false by lia. replace (m =? n - 1)%Z with false by lia. lra.
  - intros EL ER. rewrite EL, ER, !Q. destruct (m =? 0)%Z, (m =? n - 1)%Z; lra.
Qed.

Lemma ones_row (s : Z -> Z -> Z -> R) e m : (0 <= e < en)%Z -> (0 <= m < n)%Z ->
  rsum 0 en (fun e' => rsum 0 n (fun m' => lossB d (tri d (dgA ms d aL aR)) s e m e' m')) =
  ttot d e m * tV d m - rsum 0 en (fun e' => s e e' m * tV d m) + leak e m.
Proof.
  intros He Hm. pose proof (loss_row_fv s (fun _ _ => 1) e m He Hm) as H. unfold fv_row in H.
  rewrite (rsum_ext 0 en _ (fun e' => rsum 0 n (fun m' => lossB d (tri d (dgA ms d aL aR)) s e m e' m' * 1)))
    by (intros; apply rsum_ext; intros; lra).
  rewrite H. rewrite (rsum_ext 0 en (fun e' => s e e' m * tV d m * 1) (fun e' => s e e' m * tV d m)) by (intros; lra).
  unfold theJ, leak. replace (m + 1 =? 0)%Z with false by lia. replace (m =? n)%Z with false by lia.
  clear H. destruct (Z.eqb_spec m 0) as [E0|]; [subst m|];
    (destruct (Z.eqb_spec 0 (n - 1)) as [X|_]; [lia|]) || (destruct (Z.eqb_spec m (n - 1)) as [E|]).
  - replace (0 + 1 =? n)%Z with false by lia. unfold bJ. lra.
  - rewrite E. replace (n - 1 + 1 =? n)%Z with true by lia. replace (n - 1 + 1)%Z with n by lia. lra.
  - replace (m + 1 =? n)%Z with false by lia. lra.
Qed.

Lemma loss_row_sums : sd_dir sd <> DirUNDEFINED ->
  exists M F, diffusionSystem PI ms sd = Ok (M, F) /\
    forall e m, (0 <= e < en)%Z -> (0 <= m < n)%Z ->
      rsum 0 (n * en) (mat_at M (m + e * n)) =
        ttot d e m * tV d m - rsum 0 en (fun e' => transfer e e' m * tV d m) + leak e m.
Proof.
  intros Hd. destruct (system_bl Hd) as (M & F & E & HM & _). exists M, F. split; auto.
  intros e m He Hm. rewrite <- ones_row by auto.
  rewrite (rsum_ext 0 (n * en) _ (fun j => mat_at M (m + e * n) j * 1)) by (intros; lra).
  change (app (n * en) (mat_at M) (fun _ => 1) (m + e * n)%Z = rsum 0 en (fun e' => rsum 0 n (fun m' => lossB d (tri d (dgA ms d aL aR)) transfer e m e' m'))).
  rewrite (app_blocks n en M _ _ e m ltac:(lia) HM He Hm). apply rsum_ext. intros. apply rsum_ext. intros. lra.
Qed.

(* well posedness, several groups *)
Lemma loss_monotone : sd_dir sd = FORWARD ->
  (forall k, (0 <= k <= n)%Z -> 0 <= tS d k) -> (forall m, (0 <= m < n)%Z -> 0 < tV d m) ->
  (forall e e' m, (0 <= e < en)%Z -> (0 <= e' < en)%Z -> (0 <= m < n)%Z -> 0 <= tsc d e e' m) ->
  (forall e m, (0 <= e < en)%Z -> (0 <= m < n)%Z -> rsum 0 en (fun e' => tsc d e e' m) < ttot d e m) ->
  exists M F, diffusionSystem PI ms sd = Ok (M, F) /\ monotone (n * en) (mat_at M).
Proof.
  intros Hdir HS HV Hsc Habs. destruct (system_bl ltac:(congruence)) as (M & F & E & HM & _). exists M, F. split; auto.
  unfold transfer in HM. rewrite Hdir in HM. destruct HM as [_ [_ HM]].
  apply column_dominant_monotone.
  - intros i j Hi Hj Hne.
    destruct (idx_decode n en i ltac:(lia) Hi) as (e & m & He & Hm & ->).
    destruct (idx_decode n en j ltac:(lia) Hj) as (e' & m' & He' & Hm' & ->).
    pose proof (HM e m e' m' He Hm He' Hm') as H1. unfold blk in H1. rewrite H1. clear H1.
    unfold lossB, tri, mtwo. rnum.
    assert (0 <= if (m' =? m)%Z then tsc d e' e m * tV d m else 0).
    { destruct (m' =? m)%Z; [|lra]. apply Rmult_le_pos; [auto|left; auto]. }
    destruct (Z.eqb_spec e' e); [|lra].
    destruct (Z.eqb_spec m' (m - 1)); [|destruct (Z.eqb_spec m' (m + 1))].
    + pose proof (dif_pos e (m - 1)%Z He ltac:(lia) ltac:(apply HS; lia)). lra.
    + pose proof (dif_pos e m He ltac:(lia) ltac:(apply HS; lia)). lra.
    + destruct (Z.eqb_spec m' m); [|lra]. subst. lia.
  - intros j Hj. destruct (idx_decode n en j ltac:(lia) Hj) as (e & m & He & Hm & ->).
    rewrite Z.mul_comm, rsum_blocks by lia.
    rewrite (rsum_ext 0 en _ (fun e' => rsum 0 n (fun m' =>
      lossB d (tri d (dgA ms d aL aR)) (fun e e' m => tsc d e e' m) e m e' m'))).
    2:{ intros e' He'. apply rsum_ext. intros m' Hm'.
        pose proof (HM e' m' e m He' Hm' He Hm) as H1. unfold blk in H1. rewrite H1. clear H1.
        unfold lossB. rewrite tri_sym. rewrite (Z.eqb_sym m m').
        destruct (Z.eqb_spec m' m); subst; reflexivity. }
    rewrite ones_row by auto. rewrite rsum_scal_r.
    pose proof (HV m Hm). pose proof (Habs e m He Hm).
    destruct (leak_spec e m He Hm) as [HL _]; try (apply HS; lia).
    assert (0 < (ttot d e m - rsum 0 en (fun e' => tsc d e e' m)) * tV d m) by (apply Rmult_lt_0_compat; lra). lra.
Qed.

(* neutron balance of an eigenpair *)
Lemma eigen_balance : sd_dir sd = FORWARD ->
  (forall m, (0 <= m < n)%Z -> rsum 0 en (fun e => tchi d e m) = 1) ->
  exists M F, diffusionSystem PI ms sd = Ok (M, F) /\
    forall x k J psi, currents (phi_of x) J psi ->
      (forall i, (0 <= i < n * en)%Z ->
         rsum 0 (n * en) (fun j => mat_at M i j * x j) = / k * rsum 0 (n * en) (fun j => mat_at F i j * x j)) ->
      / k * rsum 0 en (fun e => rsum 0 n (fun m => tfis d e m * tni d e m * tV d m * phi_of x e m)) =
      rsum 0 en (fun e => rsum 0 n (fun m =>
        (ttot d e m - rsum 0 en (fun e' => tsc d e e' m)) * tV d m * phi_of x e m))
      + rsum 0 en (fun e => tS d n * J e n - tS d 0 * J e 0%Z).
Proof.
  intros Hdir Hchi.
  destruct (loss_operator_fv ltac:(congruence)) as (M & F & E & _ & _ & HM). exists M, F. split; auto.
  destruct (system_bl ltac:(congruence)) as (M' & F' & E' & _ & HF). rewrite E in E'. injection E' as <- <-.
  rewrite Hdir in HF.
  intros x k J psi HJ Heig.
  assert (Hrow : forall e m, (0 <= e < en)%Z -> (0 <= m < n)%Z ->
     fv_row transfer (phi_of x) J e m = / k * (tchi d e m * rsum 0 en (fun e' => fp d e' m * phi_of x e' m))).
  { intros e m He Hm. rewrite <- (HM x J psi HJ e m He Hm).
    pose proof (idx_range n en e m Hm He). rewrite Heig by lia. f_equal.
    change (app (n * en) (mat_at F) x (m + e * n)%Z = tchi d e m * rsum 0 en (fun e' => fp d e' m * phi_of x e' m)).
    rewrite (app_blocks n en F _ x e m ltac:(lia) HF He Hm).
    rewrite <- rsum_scal. apply rsum_ext. intros e' He'.
    rewrite (rsum_ext 0 n _ (fun m' => if (m' =? m)%Z then fp d e' m' * tchi d e m * phi_of x e' m' else 0)).
    - rewrite (rsum_delta 0 n (fun m' => fp d e' m' * tchi d e m * phi_of x e' m')) by auto. lra.
    - intros m' Hm'. unfold phi_of. destruct (Z.eqb_spec m' m); subst; lra. }
  assert (Htot : rsum 0 en (fun e => rsum 0 n (fun m => fv_row transfer (phi_of x) J e m)) =
     / k * rsum 0 en (fun e => rsum 0 n (fun m => fp d e m * phi_of x e m))).
  { rewrite (rsum_ext 0 en _ (fun e => rsum 0 n (fun m => / k * (tchi d e m * rsum 0 en (fun e' => fp d e' m * phi_of x e' m)))))
      by (intros e He; apply rsum_ext; intros m Hm; apply Hrow; auto).
    rewrite rsum_swap. rewrite (rsum_swap 0 en 0 n (fun e m => fp d e m * phi_of x e m)). rewrite <- rsum_scal. apply rsum_ext. intros m Hm.
    rewrite rsum_scal. f_equal. rewrite rsum_scal_r. rewrite Hchi by auto. lra. }
  unfold fp in Htot. rnum. rewrite <- Htot.
  unfold fv_row.
  rewrite <- rsum_plus.
  assert (Hsc : rsum 0 en (fun e => rsum 0 n (fun m => rsum 0 en (fun e' => tsc d e' e m * tV d m * phi_of x e' m))) =
          rsum 0 en (fun e => rsum 0 n (fun m => rsum 0 en (fun e' => tsc d e e' m * tV d m * phi_of x e m)))).
  { rewrite rsum_swap. rewrite (rsum_swap 0 en 0 n). apply rsum_ext. intros m Hm. apply rsum_swap. }
  apply Rminus_diag_uniq.
  transitivity (rsum 0 en (fun e => rsum 0 n (fun m => rsum 0 en (fun e' => tsc d e e' m * tV d m * phi_of x e m)))
    - rsum 0 en (fun e => rsum 0 n (fun m => rsum 0 en (fun e' => tsc d e' e m * tV d m * phi_of x e' m)))); [|lra].
  rewrite <- !rsum_minus. apply rsum_ext. intros e He.
  rewrite <- (rsum_tele 0 n (fun m => tS d m * J e m)) by lia.
  rewrite <- rsum_plus, <- !rsum_minus. apply rsum_ext. intros m Hm.
  unfold transfer. rewrite Hdir.
  rewrite (rsum_ext 0 en (fun e' => tsc d e e' m * tV d m * phi_of x e m) (fun e' => tsc d e e' m * (tV d m * phi_of x e m)))
    by (intros; lra).
  rewrite rsum_scal_r. lra.
Qed.

(* entries of the production operator *)
Lemma fission_entries : sd_dir sd = FORWARD ->
  exists M F, diffusionSystem PI ms sd = Ok (M, F) /\ mrows F = (n * en)%Z /\ mcols F = (n * en)%Z /\
    forall e m e' m', (0 <= e < en)%Z -> (0 <= m < n)%Z -> (0 <= e' < en)%Z -> (0 <= m' < n)%Z ->
      mat_at F (m + e * n) (m' + e' * n) =
      if (m' =? m)%Z then tchi d e m * (tni d e' m * tfis d e' m * tV d m) else 0.
Proof.
  intros Hdir. destruct (system_bl ltac:(congruence)) as (M & F & E & _ & R & C & HF). rewrite Hdir in HF.
  exists M, F. repeat split; auto. intros e m e' m' He Hm He' Hm'.
  specialize (HF e m e' m' He Hm He' Hm'). unfold blk in HF. rewrite HF. unfold fp. rnum.
  destruct (m' =? m)%Z; lra.
Qed.

End Real.

(* ---------- periodic boundaries ---------- *)

Section Periodic.
Variable ms : mesh R.
Variable sd : solverData R.
Variable d : data R.
Variables aL aR : R.
Let n := ms_cells ms.
Let en := sd_energies sd.
Hypothesis Hn : (2 <= n)%Z.
Hypothesis Hen : (0 <= en)%Z.
Hypothesis Hdata : mesh_data PI ms en d.
Hypothesis Hal : albedos ms sd aL aR.
Hypothesis Hper : is_equal aL 2 && is_equal aR 2 = true.

Lemma periodic_bl : sd_dir sd <> DirUNDEFINED ->
  exists M F, diffusionSystem PI ms sd = Ok (M, F) /\
    bl n en M (lossB d (periodicM ms d) (transfer sd d)).
Proof.
  intros Hd. pose proof (system_wp PI ms sd d Hn Hen Hdata aL aR Hal Hd) as H.
  unfold boundaryB in H. cbn [nofZ NumR] in H. rewrite Hper in H. unfold transfer.
  destruct (diffusionSystem PI ms sd) as [[M F]| | |]; try contradiction.
  exists M, F. split; auto. cbn [wp fst snd] in H. fold n en in H.
  destruct (sd_dir sd); [contradiction| |]; apply H.
Qed.

Lemma scatt_ones (s : Z -> Z -> Z -> R) e m : (0 <= e < en)%Z -> (0 <= m < n)%Z ->
  rsum 0 en (fun e' => rsum 0 n (fun m' => if (m' =? m)%Z then s e e' m * tV d m else 0)) =
  rsum 0 en (fun e' => s e e' m * tV d m).
Proof.
  intros He Hm. apply rsum_ext. intros e' He'. apply (rsum_delta 0 n (fun _ => s e e' m * tV d m)). auto.
Qed.

Lemma periodic_ones e m : (0 <= e < en)%Z -> (0 <= m < n)%Z ->
  rsum 0 en (fun e' => rsum 0 n (fun m' => periodicM ms d e m e' m')) =
  ttot d e m * tV d m + (if (n =? 2)%Z then 2 * dif d e 0 else 0).
Proof.
  intros He Hm.
  rewrite (rsum_ext 0 en _ (fun e' => rsum 0 n (fun m' => tri d (dgP ms d) e m e' m' * 1)
    + rsum 0 n (fun m' => periodicM ms d e m e' m' - tri d (dgP ms d) e m e' m'))).
  2:{ intros. rewrite <- rsum_plus. apply rsum_ext. intros; lra. }
  rewrite rsum_plus. pose proof (tri_row ms sd d (dgP ms d) (fun _ _ => 1) e m He Hm) as Ht.
  fold n en in Ht. rewrite Ht. clear Ht.
  rewrite (rsum_single 0 en _ e) by
    (auto; intros e' He' Hne; apply rsum_0; intros m' Hm'; unfold periodicM;
     replace (e' =? e)%Z with false by lia; cbn [andb]; lra).
  rewrite (rsum_ext 0 n _ (fun m' =>
    (if (m' =? n - 1)%Z then (if ((m =? 0) && negb (n =? 2))%Z then -2 * dif d e (n - 2) else 0) else 0)
    + (if (m' =? 0)%Z then (if ((m =? n - 1) && negb (n =? 2))%Z then -2 * dif d e 0 else 0) else 0))).
  2:{ intros m' Hm'. unfold periodicM. fold n. rewrite Z.eqb_refl. cbn [andb]. unfold tri, mtwo. rewrite Z.eqb_refl. rnum.
      destruct (Z.eqb_spec n 2) as [E2|N2]; cbn [negb andb].
      - rewrite !andb_false_r. destruct (Z.eqb_spec m 0) as [->|].
        + replace (0 =? n - 1)%Z with false by lia. cbn [andb]. destruct (Z.eqb_spec m' (n - 1)) as [->|].
          * replace (n - 1 =? 0 - 1)%Z with false by lia. replace (n - 1 =? 0 + 1)%Z with true by lia.
            replace (n - 1 =? 0)%Z with false by lia. replace (n - 2)%Z with 0%Z by lia. lra.
          * destruct (m' =? 0)%Z; lra.
        + cbn [andb]. replace (m =? n - 1)%Z with true by lia. cbn [andb].
          destruct (Z.eqb_spec m' 0) as [->|].
          * replace (0 =? m - 1)%Z with true by lia. replace (m - 1)%Z with 0%Z by lia.
            destruct (0 =? n - 1)%Z; lra.
          * destruct (m' =? n - 1)%Z; lra.
      - rewrite !andb_true_r. destruct (Z.eqb_spec m 0) as [->|]; cbn [andb].
        + destruct (Z.eqb_spec m' (n - 1)) as [->|].
          * replace (0 =? n - 1)%Z with false by lia. replace (n - 1 =? 0 - 1)%Z with false by lia.
            replace (n - 1 =? 0 + 1)%Z with false by lia. replace (n - 1 =? 0)%Z with false by lia. lra.
          * replace (0 =? n - 1)%Z with false by lia. cbn [andb]. destruct (m' =? 0)%Z; lra.
        + destruct (Z.eqb_spec m (n - 1)) as [->|]; cbn [andb].
          * destruct (Z.eqb_spec m' 0) as [->|].
            -- replace (0 =? n - 1 - 1)%Z with false by lia. replace (0 =? n - 1 + 1)%Z with false by lia.
               replace (0 =? n - 1)%Z with false by lia. lra.
            -- destruct (m' =? n - 1)%Z; lra.
          * destruct (m' =? n - 1)%Z, (m' =? 0)%Z; lra. }
  rewrite rsum_plus.
  rewrite (rsum_delta 0 n (fun _ => if ((m =? 0) && negb (n =? 2))%Z then -2 * dif d e (n - 2) else 0)) by lia.
  rewrite (rsum_delta 0 n (fun _ => if ((m =? n - 1) && negb (n =? 2))%Z then -2 * dif d e 0 else 0)) by lia.
  unfold dgP, dgI, rem, two. fold n. rnum.
  destruct (Z.eqb_spec n 2) as [E2|N2]; cbn [negb]; rewrite ?andb_false_r, ?andb_true_r.
  - destruct (Z.eqb_spec m 0) as [->|].
    + replace (1 <=? 0)%Z with false by lia. replace (0 + 1 <? n)%Z with true by lia.
      replace (n - 2)%Z with 0%Z by lia. lra.
    + replace (m =? n - 1)%Z with true by lia. replace (1 <=? m)%Z with true by lia.
      replace (m + 1 <? n)%Z with false by lia. replace (n - 1)%Z with m by lia.
      replace (n - 2)%Z with 0%Z by lia. replace (m - 1)%Z with 0%Z by lia. lra.
  - destruct (Z.eqb_spec m 0) as [->|].
    + replace (1 <=? 0)%Z with false by lia. replace (0 + 1 <? n)%Z with true by lia.
      replace (0 =? n - 1)%Z with false by lia. lra.
    + destruct (Z.eqb_spec m (n - 1)) as [->|].
      * replace (1 <=? n - 1)%Z with true by lia. replace (n - 1 + 1 <? n)%Z with false by lia.
        replace (n - 1 - 1)%Z with (n - 2)%Z by lia. lra.
      * replace (1 <=? m)%Z with true by lia. replace (m + 1 <? n)%Z with true by lia. lra.
Qed.

Lemma periodic_row_sums : sd_dir sd <> DirUNDEFINED ->
  exists M F, diffusionSystem PI ms sd = Ok (M, F) /\
    forall e m, (0 <= e < en)%Z -> (0 <= m < n)%Z ->
      rsum 0 (n * en) (mat_at M (m + e * n)) =
        ttot d e m * tV d m - rsum 0 en (fun e' => transfer sd d e e' m * tV d m)
        + (if (n =? 2)%Z then 2 * dif d e 0 else 0).
Proof.
  intros Hd. destruct (periodic_bl Hd) as (M & F & E & HM). exists M, F. split; auto.
  intros e m He Hm.
  rewrite (rsum_ext 0 (n * en) _ (fun j => mat_at M (m + e * n) j * 1)) by (intros; lra).
  transitivity (rsum 0 en (fun e' => rsum 0 n (fun m' => periodicM ms d e m e' m'
     - (if (m' =? m)%Z then transfer sd d e e' m * tV d m else 0)))).
  - pose proof (app_blocks n en M _ (fun _ => 1) e m ltac:(lia) HM He Hm) as H. unfold app in H. rewrite H.
    apply rsum_ext. intros. apply rsum_ext. intros. unfold lossB. rnum. destruct (_ =? m)%Z; lra.
  - rewrite (rsum_ext 0 en _ (fun e' => rsum 0 n (fun m' => periodicM ms d e m e' m')
       - rsum 0 n (fun m' => if (m' =? m)%Z then transfer sd d e e' m * tV d m else 0))) by (intros; apply rsum_minus).
    rewrite rsum_minus, periodic_ones, (scatt_ones (transfer sd d)) by auto. lra.
Qed.

Lemma periodic_symmetry : sd_dir sd <> DirUNDEFINED ->
  exists M F, diffusionSystem PI ms sd = Ok (M, F) /\
    forall e, (0 <= e < en)%Z ->
      mat_at M (0 + e * n) (n - 1 + e * n) = - 2 * dif d e (n - 2) /\
      mat_at M (n - 1 + e * n) (0 + e * n) = - 2 * dif d e 0 /\
      (dif d e 0 = dif d e (n - 2) <->
       forall m m', (0 <= m < n)%Z -> (0 <= m' < n)%Z ->
         mat_at M (m + e * n) (m' + e * n) = mat_at M (m' + e * n) (m + e * n)).
Proof.
  intros Hd. destruct (periodic_bl Hd) as (M & F & E & (_ & _ & HM)). exists M, F. split; auto.
  intros e He.
  assert (H1 : mat_at M (0 + e * n) (n - 1 + e * n) = - 2 * dif d e (n - 2)).
  { pose proof (HM e 0%Z e (n - 1)%Z He ltac:(lia) He ltac:(lia)) as H. unfold blk in H. rewrite H.
    unfold lossB, periodicM. fold n. rewrite !Z.eqb_refl. cbn [andb]. replace (n - 1 =? 0)%Z with false by lia.
    unfold mtwo. rnum. lra. }
  assert (H2 : mat_at M (n - 1 + e * n) (0 + e * n) = - 2 * dif d e 0).
  { pose proof (HM e (n - 1)%Z e 0%Z He ltac:(lia) He ltac:(lia)) as H. unfold blk in H. rewrite H.
    unfold lossB, periodicM. fold n. rewrite !Z.eqb_refl. replace (n - 1 =? 0)%Z with false by lia.
    replace (0 =? n - 1)%Z with false by lia. cbn [andb]. unfold mtwo. rnum. lra. }
  split; auto. split; auto. split.
  - intros Hdif m m' Hm Hm'.
    pose proof (HM e m e m' He Hm He Hm') as A. pose proof (HM e m' e m He Hm' He Hm) as B. unfold blk in A, B.
    rewrite A, B. unfold lossB. rnum. rewrite (Z.eqb_sym m m'). destruct (Z.eqb_spec m' m) as [->|]; [reflexivity|].
    f_equal. unfold periodicM. fold n. rewrite Z.eqb_refl. cbn [andb].
    rewrite (tri_sym d _ e m e m'). rewrite Hdif.
    destruct (m =? 0)%Z, (m' =? 0)%Z, (m =? n - 1)%Z, (m' =? n - 1)%Z; cbn [andb]; reflexivity.
  - intros Hs. specialize (Hs 0%Z (n - 1)%Z ltac:(lia) ltac:(lia)). rewrite H1, H2 in Hs. lra.
Qed.
End Periodic.

(* ---------- which meshes provide the data ---------- *)

Definition dm0 : material R := newMaterial "".
Definition cell_material (ms : mesh R) (m : Z) : material R := nth (Z.to_nat m) (ms_mats ms) dm0.

Definition ready (ms : mesh R) : Prop :=
  ms_geom ms <> GeomUNDEFINED /\ (0 <= ms_cells ms)%Z /\ (ms_cells ms + 1 = vlen (ms_bounds ms))%Z /\
  (0 <= ms_groups ms)%Z /\ (ms_cells ms <= zlen (ms_mats ms))%Z /\
  forall m, (0 <= m < ms_cells ms)%Z ->
    let mt := cell_material ms m in
    mt_energies mt = ms_groups ms /\ (ms_groups ms <= zlen (mt_totXS mt))%Z /\
    (ms_groups ms <= zlen (mt_fisXS mt))%Z /\ (ms_groups ms <= zlen (mt_diff mt))%Z /\
    (mt_ni mt = [] \/ (ms_groups ms <= zlen (mt_ni mt))%Z) /\
    (mt_chi mt = [] \/ (ms_groups ms <= zlen (mt_chi mt))%Z) /\
    (ms_groups ms * ms_groups ms <= zlen (mt_scatt mt))%Z.

Definition law_at (sel : material R -> list (list R)) (ms : mesh R) (e m : Z) : R :=
  law_value (nth (Z.to_nat e) (sel (cell_material ms m)) []) (mt_temp (cell_material ms m)).
Definition law_at0 (sel : material R -> list (list R)) (ms : mesh R) (e m : Z) : R :=
  match sel (cell_material ms m) with [] => 0 | _ => law_at sel ms e m end.

Definition mesh_tables (ms : mesh R) : data R :=
  let b := vat (ms_bounds ms) in let g := ms_geom ms in
  mkData (law_at mt_diff ms) (law_at mt_totXS ms) (law_at mt_fisXS ms) (law_at0 mt_ni ms) (law_at0 mt_chi ms)
    (fun i j m => law_value (nth (Z.to_nat (j + i * ms_groups ms)) (mt_scatt (cell_material ms m)) [])
                    (mt_temp (cell_material ms m)))
    (fun i => (b (i + 1)%Z - b i) * 100)
    (fun i => body_surface g (b i) * 100 ^ (dimension g - 1))
    (fun i => (body_volume g (b (i + 1)%Z) - body_volume g (b i)) * 100 ^ dimension g).

Lemma ready_data ms : ready ms -> mesh_data PI ms (ms_groups ms) (mesh_tables ms).
Proof.
  intros (Hg & Hc & Hl & He & Hm & Hmat).
  destruct (cross_sections dm0 ms Hc He Hm) as (tot & fis & diff & ni & chi & E1 & E2 & E3 & E4 & E5 & Hd & HX).
  { intros m H. destruct (Hmat m H) as (A1 & A2 & A3 & A4 & A5 & A6 & A7). repeat split; auto. }
  destruct (scattering_and_removal dm0 ms Hc He Hm) as (sc & rem & E6 & _ & D0 & D1 & D2 & _ & _ & HS).
  { intros m H. destruct (Hmat m H) as (A1 & A2 & A3 & A4 & A5 & A6 & A7). repeat split; auto. }
  inversion Hd as [|? ? [R1 C1] Hd1]; subst. inversion Hd1 as [|? ? [R2 C2] Hd2]; subst.
  inversion Hd2 as [|? ? [R3 C3] Hd3]; subst. inversion Hd3 as [|? ? [R4 C4] Hd4]; subst.
  inversion Hd4 as [|? ? [R5 C5] _]; subst.
  unfold mesh_data. cbn zeta. repeat apply conj.
  - exists diff. repeat split; auto. intros e m Hi Hj. apply (HX e m Hi Hj).
  - exists tot. repeat split; auto. intros e m Hi Hj. apply (HX e m Hi Hj).
  - exists fis. repeat split; auto. intros e m Hi Hj. apply (HX e m Hi Hj).
  - exists ni. repeat split; auto. intros e m Hi Hj. destruct (HX e m Hi Hj) as (_ & _ & _ & H & _). rewrite H. cbn [tni mesh_tables]. unfold law_at0, law_at, cell_material. destruct (mt_ni _); reflexivity.
  - exists chi. repeat split; auto. intros e m Hi Hj. destruct (HX e m Hi Hj) as (_ & _ & _ & _ & H). rewrite H. cbn [tchi mesh_tables]. unfold law_at0, law_at, cell_material. destruct (mt_chi _); reflexivity.
  - exists sc. repeat split; auto. intros i j m Hi Hj Hk. destruct (HS m Hk) as [H _]. apply (H i j Hi Hj).
  - destruct (wp_ok _ _ (cell_sizes_wp ms "cm" Hc Hl)) as [v [E [L H]]]. exists v. repeat split; auto.
  - destruct (wp_ok _ _ (surfaces_wp ms "cm" Hg ltac:(lia))) as [v [E [L H]]]. exists v. repeat split; auto; [lia|].
    intros i Hi. rewrite H by lia. cbn [tS mesh_tables]. f_equal.
    destruct (ms_geom ms); cbn; lra.
  - destruct (wp_ok _ _ (volumes_wp ms "cm" Hg ltac:(lia))) as [v [E [L H]]]. exists v. repeat split; auto; [lia|].
    intros i Hi. rewrite H by lia. reflexivity.
Qed.

Lemma tables_geometry ms : ready ms -> increasing (ms_bounds ms) -> vat (ms_bounds ms) 0 = 0 ->
  (forall m, (0 <= m < ms_cells ms)%Z -> 0 < tdx (mesh_tables ms) m /\ 0 < tV (mesh_tables ms) m) /\
  (forall k, (0 <= k <= ms_cells ms)%Z -> 0 <= tS (mesh_tables ms) k).
Proof.
  intros (Hg & Hc & Hl & _) Hinc H0. split.
  - intros m Hm. pose proof (increasing_lt _ m (m + 1)%Z Hinc ltac:(lia) ltac:(lia)).
    cbn [tdx tV mesh_tables]. split; [lra|].
    pose proof (increasing_nonneg _ m Hinc ltac:(lra) ltac:(lia)).
    apply Rmult_lt_0_compat; [|apply pow_lt; lra].
    pose proof (body_volume_mono (ms_geom ms) _ _ Hg H1 H). lra.
  - intros k Hk. cbn [tS mesh_tables]. pose proof (increasing_nonneg _ k Hinc ltac:(lra) ltac:(lia)).
    apply Rmult_le_pos; [|apply pow_le; lra]. pose proof PI_RGT_0.
    destruct (ms_geom ms); cbn [body_surface]; try lra.
    + apply Rmult_le_pos; lra.
    + apply Rmult_le_pos; [lra|]. apply pow_le; auto.
Qed.

(* ---------- a mesh of one cell ---------- *)

Section OneCell.
Context {T : Type} {N : Num T}.
Variable mpi : T.

Lemma mget_neg (M : mat T) i j : (j < 0)%Z -> exists m, mget M i j = UB m.
Proof. intros H. unfold mget, inb. replace (0 <=? j)%Z with false by lia. cbn [andb]. rewrite andb_false_r. eauto. Qed.

Lemma mset_cases (M : mat T) i j x : (exists M', mset M i j x = Ok M') \/ (exists m, mset M i j x = UB m).
Proof. unfold mset. destruct (_ && _); eauto. Qed.

Lemma single_cell_ub ms sd d aL aR :
  ms_cells ms = 1%Z -> (1 <= sd_energies sd)%Z -> mesh_data mpi ms (sd_energies sd) d ->
  albedos ms sd aL aR -> exists m, diffusionSystem mpi ms sd = UB m.
Proof.
  intros Hn Hen Hdata Hal.
  destruct Hdata as ((D & ED & RD & CD & HD) & (tot & Et & Rt & Ct & Ht) & _ & _ & _ & _ &
    (dx & Ex & Lx & Hx) & (S & ES & LS & HS) & (vol & Ev & Lv & Hv)).
  rewrite Hn in *.
  set (dc := mkDiffCode ms (sd_albedo sd) vol 1 (sd_energies sd)).
  assert (Hc : newDiffCode mpi ms sd = Ok dc) by (unfold newDiffCode; rewrite Ev, Hn; reflexivity).
  assert (Hga : getAlbedos dc = Ok (aL, aR)).
  { unfold getAlbedos, dc; cbn [dc_mesh dc_albedo]. unfold albedos in Hal.
    destruct (ms_geom ms); destruct Hal as [H1 H2]; rewrite ?H1, ?H2; reflexivity. }
  assert (Hi : exists di, getInterfaceDiff mpi dc = Ok di /\ mrows di = sd_energies sd /\ mcols di = 1%Z).
  { unfold getInterfaceDiff. cbn [dc_mesh dc_en dc_cells dc]. rewrite Ex, ED, ES. cbn [bind].
    apply wp_ok. eapply (zfor_wp' (fun _ di => mrows di = sd_energies sd /\ mcols di = 1%Z)); [lia|auto| |auto].
    intros e r _ H. rewrite zfor_empty by lia. exact H. }
  destruct Hi as (di & Edi & Rdi & Cdi).
  assert (Ho : exists M, calcDiffOperatorMatrix mpi dc = Ok M).
  { unfold calcDiffOperatorMatrix. rewrite Edi. cbn [dc_mesh dc_en dc_cells dc]. rewrite Et. cbn [bind].
    destruct (wp_ok (zfor 0 (sd_energies sd) (fun e M => zfor 1 (1 - 1) (fun m M =>
    a <- mget di e (m - 1) ;; b <- mget di e m ;; t <- mget tot e m ;; v <- vget (dc_vol dc) m ;;
    M <- mset M (m + e * 1) (m - 1 + e * 1) (nopp (nofZ 2) [*] a) ;;
    M <- mset M (m + e * 1) (m + 1 + e * 1) (nopp (nofZ 2) [*] b) ;;
    mset M (m + e * 1) (m + e * 1) (nofZ 2 [*] (b [+] a [+] nlit 1 2 [*] t [*] v))) M)
    (mzeros (1 * sd_energies sd) (1 * sd_energies sd))) (fun _ => True)) as [M [E _]].
    - eapply (zfor_wp' (fun _ _ => True)); [lia|auto| |auto]. intros. rewrite zfor_empty by lia. exact I.
    - exists M. exact E. }
  destruct Ho as [M0 EM0].
  assert (Hb : exists m, applyBoundaryConditions mpi dc M0 = UB m).
  { unfold applyBoundaryConditions. rewrite Edi. cbn [dc_mesh dc_en dc_cells dc]. rewrite ED, Et, Ex, ES. cbn [bind].
    rewrite Hga. cbn [bind].
    destruct (mget_neg di 0 (1 - 1 - 1) ltac:(lia)) as [mneg Eneg].
    destruct (negb _); rewrite zfor_step by lia.
    - rewrite (mget_ok D), (vget_ok S), (vget_ok dx), (mget_ok di), (mget_ok tot), (vget_ok (dc_vol dc)) by (cbn [dc_vol dc]; lia).
      cbn [bind].
      match goal with |- context [mset M0 ?i ?j ?x] => destruct (mset_cases M0 i j x) as [[M1 E1]|[m1 E1]] end;
        rewrite E1; cbn [bind]; [|eauto].
      match goal with |- context [mset M1 ?i ?j ?x] => destruct (mset_cases M1 i j x) as [[M2 E2]|[m2 E2]] end;
        rewrite E2; cbn [bind]; [|eauto].
      rewrite (mget_ok D), (vget_ok S), (vget_ok dx) by lia. cbn [bind]. rewrite Eneg. cbn [bind]. eauto.
    - rewrite (mget_ok di) by lia. cbn [bind]. rewrite Eneg. cbn [bind]. eauto. }
  destruct Hb as [m Em].
  unfold diffusionSystem. destruct (sd_dir sd); [eauto| |]; rewrite Hc; cbn [bind]; rewrite EM0; cbn [bind];
    rewrite Em; cbn [bind]; eauto.
Qed.
End OneCell.
