(* A homogeneous reactor behind perfectly reflecting boundaries. *)
From Coq Require Import String ZArith List Bool Lia Reals Lra.
From Verif Require Import Base BaseLemmas NumR LinAlg Blocks PowerMethod ModelNumTools ModelEigen ModelMesh
  ModelReactor ModelDiffusion ModelSpectrum ProofsSpectrum ProofsSpectrumR ProofsEigen ProofsMesh ProofsDiffusion ProofsDiffusionR Kernels PropsDiffusion PropsSpectrum
  PropsSpectrumB ProofsConverge ProofsConvergeD ProofsConvergeT.
Import ListNotations.
Local Open Scope R_scope.

(* every cell has the cross sections of the first one; diffusion coefficients may differ *)
Definition homogeneous (d : data R) (en n : Z) : Prop :=
  forall e m, (0 <= e < en)%Z -> (0 <= m < n)%Z ->
    ttot d e m = ttot d e 0 /\ tchi d e m = tchi d e 0 /\ tni d e m * tfis d e m = tni d e 0 * tfis d e 0 /\
    forall e', (0 <= e' < en)%Z -> tsc d e e' m = tsc d e e' 0.

Definition fission_neutrons (d : data R) (en : Z) (f : Z -> R) : R := rsum 0 en (fun e => tni d e 0 * tfis d e 0 * f e).

(* the balance of every group without space: f is the spectrum, k the infinite factor *)
Definition infinite_medium (d : data R) (en : Z) (k : R) (f : Z -> R) : Prop :=
  0 < k /\ (forall e, (0 <= e < en)%Z -> 0 <= f e) /\
  (exists e, (0 <= e < en)%Z /\ tchi d e 0 * fission_neutrons d en f <> 0) /\
  forall e, (0 <= e < en)%Z ->
    ttot d e 0 * f e = rsum 0 en (fun e' => tsc d e' e 0 * f e') + tchi d e 0 * fission_neutrons d en f / k.

Definition flat (n en : Z) (f : Z -> R) : vec R := mkvec (n * en) (fun i => f (i / n)%Z).
Lemma flat_at n en f e m : (0 < n)%Z -> (0 <= m < n)%Z -> vat (flat n en f) (m + e * n) = f e.
Proof. intros Hn Hm. cbn [flat vat]. rewrite Z.div_add, Z.div_small by lia. reflexivity. Qed.

Section Diffusion.
Variables (ms : mesh R) (sd : solverData R) (d : data R) (M F : mat R).
Hypothesis D : diffusion_case ms sd d 1 1.
Hypothesis Hdir : sd_dir sd = FORWARD.
Hypothesis E : diffusionSystem PI ms sd = Ok (M, F).
Notation n := (ms_cells ms).
Notation en := (sd_energies sd).
Hypothesis Hh : homogeneous d en n.

Lemma dims : mrows M = (n * en)%Z /\ mcols M = (n * en)%Z /\ mrows F = (n * en)%Z /\ mcols F = (n * en)%Z.
Proof using D Hdir E.
  destruct D as [Hn Hen Hdata Hal HaL HaR HD Hx HS HS1 HV Hsc Habs Hchi Hfis].
  destruct (system_bl ms sd d 1 1 Hn Hen Hdata Hal HaL ltac:(congruence)) as (M1 & F1 & E1 & (A & B & _) & (A' & B' & _)).
  rewrite E in E1. injection E1 as <- <-. auto.
Qed.
Lemma loss_row_flux x J psi e m : currents ms sd d 1 1 (phi_of ms (vat x)) J psi -> (0 <= e < en)%Z -> (0 <= m < n)%Z ->
  vat (mvmul M x) (m + e * n) = tS d (m + 1) * J e (m + 1)%Z - tS d m * J e m +
    tV d m * (ttot d e 0 * vat x (m + e * n)%Z - rsum 0 en (fun e' => tsc d e' e 0 * vat x (m + e' * n)%Z)).
Proof using D Hdir E Hh.
  intros HJ He Hm. destruct dims as (R1 & C1 & _). destruct D as [Hn Hen Hdata Hal HaL HaR HD Hx HS HS1 HV Hsc Habs Hchi Hfis].
  destruct (loss_operator_fv ms sd d 1 1 Hn Hen Hdata Hal HaL HaR HD Hx ltac:(congruence)) as (M1 & F1 & E1 & _ & _ & H).
  rewrite E in E1. injection E1 as <- <-. rewrite mvmul_at, C1. rewrite (H (vat x) J psi HJ e m He Hm). unfold fv_row, transfer. rewrite Hdir.
  unfold phi_of. destruct (Hh e m He Hm) as (-> & _). rewrite Rmult_minus_distr_l, <- rsum_scal.
  rewrite (rsum_ext 0 en (fun e' => tsc d e' e m * tV d m * vat x (m + e' * n)%Z) (fun e' => tV d m * (tsc d e' e 0 * vat x (m + e' * n)%Z))).
  - ring.
  - intros e' He'. destruct (Hh e' m He' Hm) as (_ & _ & _ & S). rewrite (S e He). ring.
Qed.
Lemma fission_row x e m : (0 <= e < en)%Z -> (0 <= m < n)%Z ->
  vat (mvmul F x) (m + e * n) = tV d m * (tchi d e 0 * fission_neutrons d en (fun e' => vat x (m + e' * n)%Z)).
Proof using D Hdir E Hh.
  intros He Hm. destruct dims as (_ & _ & R1 & C1). destruct D as [Hn Hen Hdata Hal HaL HaR HD Hx HS HS1 HV Hsc Habs Hchi Hfis].
  destruct (fission_entries ms sd d 1 1 Hn Hen Hdata Hal HaL Hdir) as (M1 & F1 & E1 & _ & _ & H). rewrite E in E1. injection E1 as <- <-.
  rewrite mvmul_at, C1, Z.mul_comm, rsum_blocks by lia. unfold fission_neutrons. rewrite <- !rsum_scal. apply rsum_ext. intros e' He'.
  rewrite (rsum_ext 0 n _ (fun m' => if (m' =? m)%Z then tchi d e m * (tni d e' m * tfis d e' m * tV d m) * vat x (m' + e' * n)%Z else 0)).
  - rewrite (rsum_delta 0 n (fun m' => tchi d e m * (tni d e' m * tfis d e' m * tV d m) * vat x (m' + e' * n)%Z)) by exact Hm.
    destruct (Hh e m He Hm) as (_ & -> & _). destruct (Hh e' m He' Hm) as (_ & _ & -> & _). ring.
  - intros m' Hm'. rewrite H by auto. destruct (m' =? m)%Z; ring.
Qed.

(* a flat flux with the spectrum of the infinite medium is a mode *)
Lemma diffusion_flat k f : infinite_medium d en k f -> mode M F k (flat n en f).
Proof using D Hdir E Hh.
  intros (Hk & Hf & (e0 & He0 & Hne) & Hb). destruct dims as (R1 & C1 & R2 & C2). pose proof D as [Hn Hen _ _ _ _ HD Hx _ _ HV _ _ _ _].
  assert (HF : forall e m, (0 <= e < en)%Z -> (0 <= m < n)%Z -> vat (mvmul F (flat n en f)) (m + e * n) = tV d m * (tchi d e 0 * fission_neutrons d en f)).
  { intros e m He Hm. rewrite fission_row by auto. do 2 f_equal. apply rsum_ext. intros e' He'. rewrite flat_at by lia. reflexivity. }
  split; [exact Hk|]. split; [rewrite C1; reflexivity|]. split; [|split].
  - intros i Hi. rewrite C1 in Hi. destruct (idx_decode n en i ltac:(lia) Hi) as (e & m & He & Hm & ->). rewrite flat_at by lia. auto.
  - exists (0 + e0 * n)%Z. rewrite R2. split; [apply idx_range; lia|]. rewrite HF by lia. pose proof (HV 0%Z ltac:(lia)).
    apply Rmult_integral_contrapositive_currified; [lra|exact Hne].
  - intros i Hi. rewrite R1 in Hi. destruct (idx_decode n en i ltac:(lia) Hi) as (e & m & He & Hm & ->).
    rewrite (loss_row_flux (flat n en f) (fun _ _ => 0) (fun e _ => f e)) by
      (try assumption; repeat split; intros; unfold phi_of; rewrite ?flat_at by lia; unfold Rdiv; ring).
    rewrite HF by auto. rewrite flat_at by lia.
    rewrite (rsum_ext 0 en _ (fun e' => tsc d e' e 0 * f e')) by (intros e' He'; rewrite flat_at by lia; reflexivity).
    rewrite (Hb e He). field. lra.
Qed.

(* the volume averages of a mode are the spectrum of the infinite medium *)
Lemma diffusion_average k phi : mode M F k phi ->
  infinite_medium d en k (fun e => rsum 0 n (fun m => tV d m * vat phi (m + e * n)%Z)).
Proof using D Hdir E Hh.
  intros (Hk & Lp & Np & (i0 & Hi0 & Hne) & Hm). destruct dims as (R1 & C1 & R2 & C2). rewrite R1, C1, R2 in *.
  pose proof D as [Hn Hen _ _ _ _ HD Hx _ _ HV _ _ Hchi Hfis].
  set (f := fun e => rsum 0 n (fun m => tV d m * vat phi (m + e * n)%Z)).
  assert (Hf : forall e, (0 <= e < en)%Z -> 0 <= f e).
  { intros e He. apply rsum_nonneg. intros m Hm'. apply Rmult_le_pos; [left; auto|apply Np, idx_range; auto]. }
  assert (HN : fission_neutrons d en f = rsum 0 n (fun m => tV d m * fission_neutrons d en (fun e => vat phi (m + e * n)%Z))).
  { unfold fission_neutrons, f. rewrite (rsum_ext 0 en _ (fun e => rsum 0 n (fun m => tV d m * (tni d e 0 * tfis d e 0 * vat phi (m + e * n)%Z)))).
    - rewrite rsum_swap. apply rsum_ext. intros m Hm'. rewrite rsum_scal. reflexivity.
    - intros e He. rewrite <- rsum_scal. apply rsum_ext. intros m Hm'. ring. }
  split; [exact Hk|]. split; [exact Hf|]. split.
  - destruct (idx_decode n en i0 ltac:(lia) Hi0) as (e & m & He & Hm' & ->). exists e. split; [exact He|].
    rewrite fission_row in Hne by auto. rewrite HN.
    assert (P : forall l, (0 <= l < n)%Z -> 0 <= tV d l * fission_neutrons d en (fun e => vat phi (l + e * n)%Z)).
    { intros l Hl. apply Rmult_le_pos; [left; auto|]. apply rsum_nonneg. intros e' He'. apply Rmult_le_pos; [apply Hfis; lia|apply Np, idx_range; auto]. }
    apply Rmult_integral_contrapositive_currified; [intros X; apply Hne; rewrite X; ring|].
    apply Rgt_not_eq. apply Rlt_le_trans with (tV d m * fission_neutrons d en (fun e => vat phi (m + e * n)%Z)).
    + destruct (P m Hm') as [P' | P']; [exact P'|]. exfalso. apply Hne. rewrite <- Rmult_assoc, (Rmult_comm (tV d m)), Rmult_assoc, <- P'. ring.
    + apply (rsum_term_le 0 n (fun l => tV d l * fission_neutrons d en (fun e => vat phi (l + e * n)%Z))); [exact P|exact Hm'].
  - intros e He.
    destruct (C41_currents_exist ms sd d 1 1 (phi_of ms (vat phi)) Hn ltac:(lra) ltac:(lra) HD Hx) as (J & psi & HJ & _).
    assert (B : forall m, (0 <= m < n)%Z -> tS d (m + 1) * J e (m + 1)%Z - tS d m * J e m +
      tV d m * (ttot d e 0 * vat phi (m + e * n)%Z - rsum 0 en (fun e' => tsc d e' e 0 * vat phi (m + e' * n)%Z)) =
      tV d m * (tchi d e 0 * fission_neutrons d en (fun e' => vat phi (m + e' * n)%Z)) / k).
    { intros m Hm'. rewrite <- (loss_row_flux phi J psi e m HJ He Hm'), <- fission_row by auto. apply Hm, idx_range; auto. }
    assert (S : rsum 0 n (fun m => tS d (m + 1) * J e (m + 1)%Z - tS d m * J e m) = 0).
    { rewrite (rsum_tele 0 n (fun m => tS d m * J e m)) by lia.
      destruct HJ as (_ & J0 & Jn). destruct (J0 e He) as [_ A]. destruct (Jn e He) as [_ A']. assert (J e 0%Z = 0) as -> by lra. assert (J e n = 0) as -> by lra. ring. }
    assert (L : rsum 0 n (fun m => tV d m * rsum 0 en (fun e' => tsc d e' e 0 * vat phi (m + e' * n)%Z)) = rsum 0 en (fun e' => tsc d e' e 0 * f e')).
    { rewrite (rsum_ext 0 n _ (fun m => rsum 0 en (fun e' => tsc d e' e 0 * (tV d m * vat phi (m + e' * n)%Z)))).
      - rewrite rsum_swap. apply rsum_ext. intros e' He'. rewrite rsum_scal. reflexivity.
      - intros m Hm'. rewrite <- rsum_scal. apply rsum_ext. intros e' He'. ring. }
    assert (T : rsum 0 n (fun m => ttot d e 0 * (tV d m * vat phi (m + e * n)%Z)) = ttot d e 0 * f e) by (rewrite rsum_scal; reflexivity).
    rewrite <- T, <- L, HN.
    replace (tchi d e 0 * rsum 0 n (fun m => tV d m * fission_neutrons d en (fun e0 => vat phi (m + e0 * n)%Z)) / k) with
      (rsum 0 n (fun m => tV d m * (tchi d e 0 * fission_neutrons d en (fun e' => vat phi (m + e' * n)%Z)) / k)).
    2:{ unfold Rdiv. rewrite rsum_scal_r. f_equal. rewrite <- rsum_scal. apply rsum_ext. intros m Hm'. ring. }
    rewrite <- (rsum_ext 0 n _ _ B), rsum_plus, S, Rplus_0_l, <- rsum_plus. apply rsum_ext. intros m Hm'. ring.
Qed.
End Diffusion.

Section Transport.
Variables (k3 kb ex sq : R -> R) (ms : mesh R) (sd : solverData R) (a : R) (sc : specCode R) (g g' : ten3 R) (check M F : mat R).
Hypothesis Hready : transport_ready ms sd a.
Hypothesis Hrun : transport_run k3 kb ex sq ms sd sc g g' check M F.
Notation n := (ms_cells ms).
Notation en := (ms_groups ms).
Notation d := (mesh_tables ms).
Hypothesis Hrow : forall h i, (0 <= h < en)%Z -> (0 <= i < n)%Z -> rsum 0 n (fun j => t3_at g' i j h * ttot d h j) = 1.
Hypothesis Hh : homogeneous d en n.

Lemma t_cells : (1 <= n)%Z. Proof using Hready. apply Hready. Qed.
Lemma t_groups : (0 <= en)%Z. Proof using Hready. destruct Hready as ((_ & _ & _ & X & _) & _). exact X. Qed.
Lemma t_volume m : (0 <= m < n)%Z -> 0 < tV d m.
Proof using Hready Hrun.
  intros Hm. destruct (run_spec _ _ _ _ _ _ _ _ _ _ _ _ _ Hready Hrun) as (Hc & _).
  rewrite <- (co_volume _ _ _ Hc) by exact Hm. apply (vol_pos ms sd a sc Hready Hc); exact Hm.
Qed.
Lemma t_total e : (0 <= e < en)%Z -> 0 < ttot d e 0.
Proof using Hready. intros He. pose proof t_cells. apply Hready; lia. Qed.

(* what a unit source in every cell gives *)
Lemma row_sum h i : (0 <= h < en)%Z -> (0 <= i < n)%Z -> rsum 0 n (fun j => t3_at g' i j h) = / ttot d h 0.
Proof using Hready Hrow Hh.
  intros Hh' Hi. pose proof (Hrow h i Hh' Hi) as X. pose proof (t_total h Hh').
  rewrite (rsum_ext 0 n _ (fun j => t3_at g' i j h * ttot d h 0)), rsum_scal_r in X.
  - apply Rmult_eq_reg_r with (ttot d h 0); [|lra]. rewrite X. field. lra.
  - intros j Hj. destruct (Hh h j Hh' Hj) as (-> & _). reflexivity.
Qed.
Lemma column_sum h j : (0 <= h < en)%Z -> (0 <= j < n)%Z -> rsum 0 n (fun i => tV d i * t3_at g' i j h) = tV d j / ttot d h 0.
Proof using Hready Hrun Hrow Hh.
  intros Hh' Hj. unfold Rdiv. rewrite <- (row_sum h j Hh' Hj), <- rsum_scal. apply rsum_ext. intros i Hi.
  destruct (C51_reciprocity _ _ _ _ _ _ _ _ _ _ _ _ _ Hready Hrun h i j Hh' Hi Hj) as [_ X].
  destruct (Hh h j Hh' Hj) as (E1 & _). destruct (Hh h i Hh' Hi) as (E2 & _). rewrite E1, E2 in X. pose proof (t_total h Hh').
  apply Rmult_eq_reg_l with (ttot d h 0 * ttot d h 0); [|nra]. nra.
Qed.

Definition scattered (x : vec R) (e m : Z) : R := rsum 0 en (fun e' => tsc d e' e 0 * vat x (m + e' * n)%Z).
Definition made (x : vec R) (m : Z) : R := fission_neutrons d en (fun e' => vat x (m + e' * n)%Z).

Lemma t_dims : mrows M = (n * en)%Z /\ mcols M = (n * en)%Z /\ mrows F = (n * en)%Z /\ mcols F = (n * en)%Z.
Proof using Hready Hrun. destruct (C55_transport_operators _ _ _ _ _ _ _ _ _ _ _ _ _ Hready Hrun) as (A & B & C & D & _). auto. Qed.
Lemma t_loss_row x e i : (0 <= e < en)%Z -> (0 <= i < n)%Z ->
  vat (mvmul M x) (i + e * n) = vat x (i + e * n)%Z - rsum 0 n (fun j => t3_at g' i j e * scattered x e j).
Proof using Hready Hrun Hh.
  intros He Hi. destruct t_dims as (_ & C1 & _). pose proof t_cells. pose proof t_groups.
  destruct (C55_transport_operators _ _ _ _ _ _ _ _ _ _ _ _ _ Hready Hrun) as (_ & _ & _ & _ & X).
  rewrite mvmul_at, C1, Z.mul_comm, rsum_blocks by lia.
  rewrite (rsum_ext 0 en _ (fun e' => (if (e' =? e)%Z then vat x (i + e' * n)%Z else 0) - rsum 0 n (fun j => t3_at g' i j e * (tsc d e' e 0 * vat x (j + e' * n)%Z)))).
  - rewrite rsum_minus. f_equal.
    + rewrite (rsum_delta 0 en (fun e' => vat x (i + e' * n)%Z)) by exact He. reflexivity.
    + rewrite rsum_swap. apply rsum_ext. intros j Hj. unfold scattered. rewrite <- rsum_scal. reflexivity.
  - intros e' He'.
    rewrite (rsum_ext 0 n _ (fun j => (if (j =? i)%Z then (if (e' =? e)%Z then vat x (j + e' * n)%Z else 0) else 0) - t3_at g' i j e * (tsc d e' e 0 * vat x (j + e' * n)%Z))).
    + rewrite rsum_minus. f_equal. rewrite (rsum_delta 0 n (fun j => if (e' =? e)%Z then vat x (j + e' * n)%Z else 0)) by exact Hi. reflexivity.
    + intros j Hj. destruct (X e i e' j He Hi He' Hj) as [-> _]. rewrite (idx_eqb n) by auto.
      destruct (Hh e' j He' Hj) as (_ & _ & _ & S). rewrite (S e He). rewrite (Z.eqb_sym e' e), (Z.eqb_sym j i).
      destruct (e =? e')%Z, (i =? j)%Z; cbn [andb]; ring.
Qed.
Lemma t_fission_row x e i : (0 <= e < en)%Z -> (0 <= i < n)%Z ->
  vat (mvmul F x) (i + e * n) = tchi d e 0 * rsum 0 n (fun j => t3_at g' i j e * made x j).
Proof using Hready Hrun Hh.
  intros He Hi. destruct t_dims as (_ & _ & _ & C1). pose proof t_cells. pose proof t_groups.
  destruct (C55_transport_operators _ _ _ _ _ _ _ _ _ _ _ _ _ Hready Hrun) as (_ & _ & _ & _ & X).
  rewrite mvmul_at, C1, Z.mul_comm, rsum_blocks, rsum_swap by lia. rewrite <- rsum_scal. apply rsum_ext. intros j Hj.
  unfold made, fission_neutrons. rewrite <- !rsum_scal. apply rsum_ext. intros e' He'.
  destruct (X e i e' j He Hi He' Hj) as [_ ->]. destruct (Hh e j He Hj) as (_ & -> & _). destruct (Hh e' j He' Hj) as (_ & _ & -> & _). ring.
Qed.

Lemma transport_flat k f : infinite_medium d en k f -> mode M F k (flat n en f).
Proof using Hready Hrun Hrow Hh.
  intros (Hk & Hf & (e0 & He0 & Hne) & Hb). destruct t_dims as (R1 & C1 & R2 & C2). pose proof t_cells as Hn.
  assert (Hmade : forall m, (0 <= m < n)%Z -> made (flat n en f) m = fission_neutrons d en f).
  { intros m Hm. apply rsum_ext. intros e He. rewrite flat_at by lia. reflexivity. }
  assert (HF : forall e m, (0 <= e < en)%Z -> (0 <= m < n)%Z -> vat (mvmul F (flat n en f)) (m + e * n) = tchi d e 0 * fission_neutrons d en f / ttot d e 0).
  { intros e m He Hm. rewrite t_fission_row by auto. rewrite (rsum_ext 0 n _ (fun j => t3_at g' m j e * fission_neutrons d en f)) by (intros; rewrite Hmade by auto; reflexivity).
    rewrite rsum_scal_r, row_sum by auto. unfold Rdiv. ring. }
  split; [exact Hk|]. split; [rewrite C1; reflexivity|]. split; [|split].
  - intros i Hi. rewrite C1 in Hi. destruct (idx_decode n en i ltac:(lia) Hi) as (e & m & He & Hm & ->). rewrite flat_at by lia. auto.
  - exists (0 + e0 * n)%Z. rewrite R2. split; [apply idx_range; lia|]. rewrite HF by lia. pose proof (t_total e0 He0).
    unfold Rdiv. apply Rmult_integral_contrapositive_currified; [exact Hne|apply Rinv_neq_0_compat; lra].
  - intros i Hi. rewrite R1 in Hi. destruct (idx_decode n en i ltac:(lia) Hi) as (e & m & He & Hm & ->). pose proof (t_total e He).
    rewrite t_loss_row, HF, flat_at by (auto; lia).
    rewrite (rsum_ext 0 n _ (fun j => t3_at g' m j e * rsum 0 en (fun e' => tsc d e' e 0 * f e'))).
    + rewrite rsum_scal_r, row_sum by auto. pose proof (Hb e He) as B. apply Rmult_eq_reg_l with (ttot d e 0); [|lra].
      rewrite Rmult_minus_distr_l, B. field. lra.
    + intros j Hj. f_equal. apply rsum_ext. intros e' He'. rewrite flat_at by lia. reflexivity.
Qed.

Lemma transport_average k phi : (forall e, (0 <= e < en)%Z -> 0 <= tni d e 0 * tfis d e 0) -> mode M F k phi ->
  infinite_medium d en k (fun e => rsum 0 n (fun m => tV d m * vat phi (m + e * n)%Z)).
Proof using Hready Hrun Hrow Hh.
  intros Hfis (Hk & Lp & Np & (i0 & Hi0 & Hne) & Hm). destruct t_dims as (R1 & C1 & R2 & C2). rewrite R1, C1, R2 in *. pose proof t_cells as Hn.
  set (f := fun e => rsum 0 n (fun m => tV d m * vat phi (m + e * n)%Z)).
  assert (Hf : forall e, (0 <= e < en)%Z -> 0 <= f e).
  { intros e He. apply rsum_nonneg. intros m Hm'. apply Rmult_le_pos; [left; apply t_volume; auto|apply Np, idx_range; auto]. }
  assert (HN : fission_neutrons d en f = rsum 0 n (fun m => tV d m * made phi m)).
  { unfold made, fission_neutrons, f. rewrite (rsum_ext 0 en _ (fun e => rsum 0 n (fun m => tV d m * (tni d e 0 * tfis d e 0 * vat phi (m + e * n)%Z)))).
    - rewrite rsum_swap. apply rsum_ext. intros m Hm'. rewrite rsum_scal. reflexivity.
    - intros e He. rewrite <- rsum_scal. apply rsum_ext. intros m Hm'. ring. }
  assert (P : forall l, (0 <= l < n)%Z -> 0 <= made phi l).
  { intros l Hl. apply rsum_nonneg. intros e' He'. apply Rmult_le_pos; [apply Hfis; lia|apply Np, idx_range; auto]. }
  split; [exact Hk|]. split; [exact Hf|]. split.
  - destruct (idx_decode n en i0 ltac:(lia) Hi0) as (e & m & He & Hm' & ->). exists e. split; [exact He|].
    rewrite t_fission_row in Hne by auto. rewrite HN.
    apply Rmult_integral_contrapositive_currified; [intros X; apply Hne; rewrite X; ring|]. intros Z. apply Hne.
    rewrite (rsum_0 0 n (fun j => t3_at g' m j e * made phi j)); [ring|]. intros l Hl. pose proof (t_volume l Hl).
    pose proof (rsum_term_le 0 n (fun l => tV d l * made phi l) l ltac:(intros l' Hl'; apply Rmult_le_pos; [left; apply t_volume; auto|apply P; auto]) Hl) as B.
    cbn beta in B. rewrite Z in B. pose proof (P l Hl). assert (made phi l = 0) as -> by nra. ring.
  - intros e He. pose proof (t_total e He).
    assert (B : forall i, (0 <= i < n)%Z -> tV d i * vat phi (i + e * n)%Z =
      rsum 0 n (fun j => tV d i * t3_at g' i j e * (scattered phi e j + tchi d e 0 * made phi j / k))).
    { intros i Hi. pose proof (Hm (i + e * n)%Z ltac:(apply idx_range; auto)) as X. rewrite t_loss_row, t_fission_row in X by auto.
      rewrite (rsum_ext 0 n _ (fun j => tV d i * (t3_at g' i j e * scattered phi e j) + tV d i * (tchi d e 0 * / k * (t3_at g' i j e * made phi j)))) by (intros; unfold Rdiv; ring).
      rewrite rsum_plus, !rsum_scal. unfold Rdiv in X.
      replace (vat phi (i + e * n)%Z) with (rsum 0 n (fun j => t3_at g' i j e * scattered phi e j) + tchi d e 0 * rsum 0 n (fun j => t3_at g' i j e * made phi j) * / k) by lra. ring. }
    unfold f at 1. rewrite (rsum_ext 0 n _ _ B), rsum_swap.
    rewrite (rsum_ext 0 n _ (fun j => / ttot d e 0 * (tV d j * scattered phi e j) + / ttot d e 0 * (tchi d e 0 * / k * (tV d j * made phi j)))).
    + rewrite rsum_plus, !rsum_scal, <- HN.
      assert (L : rsum 0 n (fun m => tV d m * scattered phi e m) = rsum 0 en (fun e' => tsc d e' e 0 * f e')).
      { rewrite (rsum_ext 0 n _ (fun m => rsum 0 en (fun e' => tsc d e' e 0 * (tV d m * vat phi (m + e' * n)%Z)))).
        - rewrite rsum_swap. apply rsum_ext. intros e' He'. rewrite rsum_scal. reflexivity.
        - intros m Hm'. unfold scattered. rewrite <- rsum_scal. apply rsum_ext. intros e' He'. ring. }
      rewrite L. field. lra.
    + intros j Hj. rewrite rsum_scal_r, column_sum by auto. unfold Rdiv. ring.
Qed.
End Transport.
