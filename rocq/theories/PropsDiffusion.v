(* Property theorems C41 to C47: the diffusion operators.
   n is the number of cells, en the number of groups; unknown (group e, cell m)
   is number m + e * n.  [mesh_data PI ms en d] says that the accessors of the
   mesh return the tables d (in centimetres). *)
From Coq Require Import String ZArith List Bool Lia Reals Lra.
From Verif Require Import Base BaseLemmas NumR LinAlg ModelNumTools ModelEigen ModelMesh
  ModelReactor ModelDiffusion ProofsMesh ProofsDiffusion ProofsDiffusionR.
Import ListNotations.
Local Open Scope R_scope.

(* A slab of three 1 cm cells, one group, the last cell of another material. *)
Definition ex_material (D tot : R) : material R :=
  mkMaterial "m" 1 20 0 (mzeros 0 0) (mzeros 0 0) (vzeros 0) None
    [[tot]] [[1]] [[D]] [[tot / 2]] [[2]] [[1]].
Definition ex_slab : mesh R :=
  mkMesh (mkvec 4 (fun i => IZR i / 100)) SLAB 3 1 [ex_material 1 1; ex_material 1 1; ex_material 2 1] 1 1.
Definition ex_solver (a b : R) (dir : DirectionKind) : solverData R :=
  mkSolverData DIFFUSION (1 / 1000) 100 1 [a; b] [] 1 dir FUNDAMENTAL.

Lemma ex_slab_ready : ready ex_slab.
Proof.
  repeat split; cbn; try lia; try congruence.
  all: assert (m = 0 \/ m = 1 \/ m = 2)%Z as [->|[->| ->]] by (cbn in *; lia);
    change (Z.to_nat 1) with 1%nat; change (Z.to_nat 2) with 2%nat; cbn;
    try reflexivity; try (right; unfold zlen; cbn; lia); unfold zlen; cbn; lia.
Qed.

Lemma ex_slab_data a b dir : mesh_data PI ex_slab (sd_energies (ex_solver a b dir)) (mesh_tables ex_slab).
Proof. exact (ready_data ex_slab ex_slab_ready). Qed.

Lemma ex_slab_tables :
  let d := mesh_tables ex_slab in
  forall m, (0 <= m < 3)%Z ->
    tD d 0 m = (if (m =? 2)%Z then 2 else 1) /\ ttot d 0 m = 1 /\ tsc d 0 0 m = 1 / 2 /\
    tfis d 0 m = 1 /\ tni d 0 m = 2 /\ tchi d 0 m = 1 /\
    tdx d m = 1 /\ tS d m = 1 /\ tS d (m + 1) = 1 /\ tV d m = 1.
Proof.
  intros d m Hm.
  assert (Hc : forall c t, law_value (T := R) [c] t = c) by (intros; rewrite law_value_R; exact (eq_trans (rsum_one 0 _) (Rmult_1_r c))).
  assert (Hmat : cell_material ex_slab m = ex_material (if (m =? 2)%Z then 2 else 1) 1).
  { assert (m = 0 \/ m = 1 \/ m = 2)%Z as [->|[->| ->]] by lia; reflexivity. }
  cbn [d mesh_tables tD ttot tsc tfis tni tchi tdx tS tV]. unfold law_at, law_at0, law_at. rewrite Hmat.
  cbn [ex_material mt_diff mt_totXS mt_scatt mt_fisXS mt_ni mt_chi mt_temp ex_slab ms_groups ms_geom ms_bounds vat].
  change (Z.to_nat (0 + 0 * 1)) with 0%nat. change (Z.to_nat 0) with 0%nat. cbn [nth]. rewrite !Hc.
  rewrite plus_IZR. cbn. repeat split; lra.
Qed.

(* C41: every row of the loss operator is the balance of one cell, with the
   currents given by continuity of flux and current inside and by the albedo
   condition J = (1 - a) / (2 (1 + a)) psi outside; see [currents], [fv_row]. *)
Theorem C41_finite_volume_balance ms sd d aL aR :
  (2 <= ms_cells ms)%Z -> (0 <= sd_energies sd)%Z -> mesh_data PI ms (sd_energies sd) d ->
  albedos ms sd aL aR -> 0 <= aL <= 1 -> 0 <= aR <= 1 ->
  (forall e m, (0 <= e < sd_energies sd)%Z -> (0 <= m < ms_cells ms)%Z -> 0 < tD d e m) ->
  (forall m, (0 <= m < ms_cells ms)%Z -> 0 < tdx d m) ->
  sd_dir sd <> DirUNDEFINED ->
  let n := ms_cells ms in let en := sd_energies sd in
  exists M F, diffusionSystem PI ms sd = Ok (M, F) /\ mrows M = (n * en)%Z /\ mcols M = (n * en)%Z /\
    forall x J psi, currents ms sd d aL aR (phi_of ms x) J psi ->
    forall e m, (0 <= e < en)%Z -> (0 <= m < n)%Z ->
      rsum 0 (n * en) (fun j => mat_at M (m + e * n) j * x j) =
      fv_row sd d (transfer sd d) (phi_of ms x) J e m.
Proof. exact (fun a b c e f g h i j => loss_operator_fv ms sd d aL aR a b c e f g h i j). Qed.
Print Assumptions C41_finite_volume_balance.

(* such currents always exist, and are unique *)
Theorem C41_currents_exist ms sd d aL aR phi :
  (2 <= ms_cells ms)%Z -> 0 <= aL <= 1 -> 0 <= aR <= 1 ->
  (forall e m, (0 <= e < sd_energies sd)%Z -> (0 <= m < ms_cells ms)%Z -> 0 < tD d e m) ->
  (forall m, (0 <= m < ms_cells ms)%Z -> 0 < tdx d m) ->
  exists J psi, currents ms sd d aL aR phi J psi /\
    forall J' psi', currents ms sd d aL aR phi J' psi' ->
    forall e m, (0 <= e < sd_energies sd)%Z -> (0 <= m <= ms_cells ms)%Z -> J' e m = J e m.
Proof.
  intros Hn HL HR HD Hx.
  exists (theJ ms d aL aR phi), (thePsi ms d aL aR phi). split.
  - apply currents_exist; auto.
  - intros J' psi' H' e m He Hm. symmetry.
    apply (currents_unique ms sd d aL aR Hn HL HR HD Hx phi _ _ J' psi'
             (currents_exist ms sd d aL aR Hn HL HR HD Hx phi) H'); auto.
Qed.
Print Assumptions C41_currents_exist.

Theorem C41_symmetric_neighbour_coupling ms sd d aL aR :
  (2 <= ms_cells ms)%Z -> (0 <= sd_energies sd)%Z -> mesh_data PI ms (sd_energies sd) d ->
  albedos ms sd aL aR -> 0 <= aL <= 1 ->
  (forall e m, (0 <= e < sd_energies sd)%Z -> (0 <= m < ms_cells ms)%Z -> 0 < tD d e m) ->
  (forall m, (0 <= m < ms_cells ms)%Z -> 0 < tdx d m) ->
  sd_dir sd <> DirUNDEFINED ->
  let n := ms_cells ms in let en := sd_energies sd in
  exists M F, diffusionSystem PI ms sd = Ok (M, F) /\
    forall e m e' m', (0 <= e < en)%Z -> (0 <= m < n)%Z -> (0 <= e' < en)%Z -> (0 <= m' < n)%Z ->
      (e <> e' -> mat_at M (m + e * n) (m' + e' * n) =
         if (m' =? m)%Z then - (transfer sd d e e' m * tV d m) else 0) /\
      (m' <> m -> m' <> (m - 1)%Z -> m' <> (m + 1)%Z -> mat_at M (m + e * n) (m' + e' * n) = 0) /\
      (m' <> m -> mat_at M (m + e * n) (m' + e' * n) = mat_at M (m' + e' * n) (m + e * n) /\
         ((forall k, (1 <= k < n)%Z -> 0 <= tS d k) -> mat_at M (m + e * n) (m' + e' * n) <= 0)).
Proof. exact (fun a b c e f h i j => loss_entries ms sd d aL aR a b c e f h i j). Qed.
Print Assumptions C41_symmetric_neighbour_coupling.

Theorem C41_row_sums ms sd d aL aR :
  (2 <= ms_cells ms)%Z -> (0 <= sd_energies sd)%Z -> mesh_data PI ms (sd_energies sd) d ->
  albedos ms sd aL aR -> 0 <= aL <= 1 -> 0 <= aR <= 1 ->
  (forall e m, (0 <= e < sd_energies sd)%Z -> (0 <= m < ms_cells ms)%Z -> 0 < tD d e m) ->
  (forall m, (0 <= m < ms_cells ms)%Z -> 0 < tdx d m) ->
  0 <= tS d 0 -> 0 <= tS d (ms_cells ms) ->
  sd_dir sd <> DirUNDEFINED ->
  let n := ms_cells ms in let en := sd_energies sd in
  exists M F leakage, diffusionSystem PI ms sd = Ok (M, F) /\
    (forall e m, (0 <= e < en)%Z -> (0 <= m < n)%Z ->
      rsum 0 (n * en) (mat_at M (m + e * n)) =
        ttot d e m * tV d m - rsum 0 en (fun e' => transfer sd d e e' m * tV d m) + leakage e m) /\
    (forall e m, (0 <= e < en)%Z -> (0 <= m < n)%Z ->
      0 <= leakage e m /\ ((0 < m < n - 1)%Z -> leakage e m = 0) /\
      (aL = 1 -> aR = 1 -> leakage e m = 0)).
Proof.
  intros Hn Hen Hd Hal HL HR HD Hx HS0 HSn Hdir n en.
  destruct (loss_row_sums ms sd d aL aR Hn Hen Hd Hal HL HR HD Hx Hdir) as (M & F & E & H).
  exists M, F, (leak ms d aL aR). split; auto. split; auto.
  intros. eapply leak_spec; eauto.
Qed.
Print Assumptions C41_row_sums.

(* The data exist: every mesh whose materials carry enough laws provides them,
   with positive sizes and volumes. *)
Theorem C41_data_available ms :
  ready ms -> increasing (ms_bounds ms) -> vat (ms_bounds ms) 0 = 0 ->
  mesh_data PI ms (ms_groups ms) (mesh_tables ms) /\
  (forall m, (0 <= m < ms_cells ms)%Z -> 0 < tdx (mesh_tables ms) m /\ 0 < tV (mesh_tables ms) m) /\
  (forall k, (0 <= k <= ms_cells ms)%Z -> 0 <= tS (mesh_tables ms) k).
Proof.
  intros Hr Hi H0. split; [exact (ready_data ms Hr)|exact (tables_geometry ms Hr Hi H0)].
Qed.
Print Assumptions C41_data_available.

(* One cell only: the boundary rows index outside the matrix. *)
Theorem C41_single_cell_undefined {T} {N : Num T} mpi (ms : mesh T) sd d aL aR :
  ms_cells ms = 1%Z -> (1 <= sd_energies sd)%Z -> mesh_data mpi ms (sd_energies sd) d ->
  albedos ms sd aL aR -> exists m, diffusionSystem mpi ms sd = UB m.
Proof. exact (single_cell_ub mpi ms sd d aL aR). Qed.
Print Assumptions C41_single_cell_undefined.

(* The example meets every hypothesis above. *)
Example C41_hypotheses_met :
  let ms := ex_slab in let sd := ex_solver (1 / 2) 1 FORWARD in let d := mesh_tables ms in
  (2 <= ms_cells ms)%Z /\ (0 <= sd_energies sd)%Z /\ mesh_data PI ms (sd_energies sd) d /\
  albedos ms sd (1 / 2) 1 /\
  (forall e m, (0 <= e < sd_energies sd)%Z -> (0 <= m < ms_cells ms)%Z -> 0 < tD d e m) /\
  (forall m, (0 <= m < ms_cells ms)%Z -> 0 < tdx d m /\ 0 < tV d m) /\
  (forall k, (0 <= k <= ms_cells ms)%Z -> 0 <= tS d k) /\
  (forall e e' m, (0 <= e < sd_energies sd)%Z -> (0 <= e' < sd_energies sd)%Z -> (0 <= m < ms_cells ms)%Z -> 0 <= tsc d e e' m) /\
  (forall e m, (0 <= e < sd_energies sd)%Z -> (0 <= m < ms_cells ms)%Z ->
     rsum 0 (sd_energies sd) (fun e' => tsc d e e' m) < ttot d e m) /\
  (forall m, (0 <= m < ms_cells ms)%Z -> rsum 0 (sd_energies sd) (fun e => tchi d e m) = 1) /\
  increasing (ms_bounds ms) /\ vat (ms_bounds ms) 0 = 0.
Proof.
  cbn zeta. pose proof ex_slab_tables as Ht. cbn zeta in Ht.
  assert (Hs : forall f, rsum 0 1 f = f 0%Z) by (intros; apply (rsum_one 0 f)).
  split; [cbn; lia|]. split; [cbn; lia|]. split; [apply ex_slab_data|]. split; [split; reflexivity|].
  change (ms_cells ex_slab) with 3%Z. cbn [ex_solver sd_energies].
  split; [intros e m He Hm; replace e with 0%Z by lia; destruct (Ht m Hm) as (-> & _); destruct (m =? 2)%Z; lra|].
  split; [intros m Hm; destruct (Ht m Hm) as (_ & _ & _ & _ & _ & _ & -> & _ & _ & ->); lra|].
  split.
  { intros k Hk. destruct (Z.eq_dec k 3) as [->|].
    - destruct (Ht 2%Z ltac:(lia)) as (_ & _ & _ & _ & _ & _ & _ & _ & H & _). change (2 + 1)%Z with 3%Z in H. lra.
    - destruct (Ht k ltac:(lia)) as (_ & _ & _ & _ & _ & _ & _ & H & _). lra. }
  split; [intros e e' m He He' Hm; replace e with 0%Z by lia; replace e' with 0%Z by lia; destruct (Ht m Hm) as (_ & _ & -> & _); lra|].
  split; [intros e m He Hm; replace e with 0%Z by lia; rewrite Hs; destruct (Ht m Hm) as (_ & -> & -> & _); lra|].
  split; [intros m Hm; rewrite Hs; destruct (Ht m Hm) as (_ & _ & _ & _ & _ & -> & _); lra|].
  split; [|cbn; lra].
  intros i Hi1 Hi2. cbn. assert (IZR i < IZR (i + 1)) by (apply IZR_lt; lia). lra.
Qed.

(* C42: with three cells or more each row balances.  Full statement = also
   symmetric, hence conservative; that needs equal end coefficients. *)
Theorem C42_periodic_rows_partial ms sd d aL aR :
  (3 <= ms_cells ms)%Z -> (0 <= sd_energies sd)%Z -> mesh_data PI ms (sd_energies sd) d ->
  albedos ms sd aL aR -> is_equal aL 2 && is_equal aR 2 = true -> sd_dir sd <> DirUNDEFINED ->
  let n := ms_cells ms in let en := sd_energies sd in
  exists M F, diffusionSystem PI ms sd = Ok (M, F) /\
    forall e m, (0 <= e < en)%Z -> (0 <= m < n)%Z ->
      rsum 0 (n * en) (mat_at M (m + e * n)) =
        ttot d e m * tV d m - rsum 0 en (fun e' => transfer sd d e e' m * tV d m).
Proof.
  intros Hn Hen Hd Hal Hp Hdir n en.
  destruct (periodic_row_sums ms sd d aL aR ltac:(lia) Hen Hd Hal Hp Hdir) as (M & F & E & H).
  exists M, F. split; auto. intros e m He Hm. unfold n, en. rewrite H by auto.
  replace (ms_cells ms =? 2)%Z with false by lia. lra.
Qed.
Print Assumptions C42_periodic_rows_partial.

(* the operator is symmetric exactly when the coefficients of the first and
   last inner interfaces are equal *)
Theorem C42_periodic_symmetry ms sd d aL aR :
  (2 <= ms_cells ms)%Z -> (0 <= sd_energies sd)%Z -> mesh_data PI ms (sd_energies sd) d ->
  albedos ms sd aL aR -> is_equal aL 2 && is_equal aR 2 = true -> sd_dir sd <> DirUNDEFINED ->
  let n := ms_cells ms in let en := sd_energies sd in
  let coef e m := (tD d e m * tD d e (m + 1) * tS d (m + 1)) / (tdx d (m + 1) * tD d e m + tdx d m * tD d e (m + 1)) in
  exists M F, diffusionSystem PI ms sd = Ok (M, F) /\
    forall e, (0 <= e < en)%Z ->
      mat_at M (0 + e * n) (n - 1 + e * n) = - 2 * coef e (n - 2)%Z /\
      mat_at M (n - 1 + e * n) (0 + e * n) = - 2 * coef e 0%Z /\
      (coef e 0%Z = coef e (n - 2)%Z <->
       forall m m', (0 <= m < n)%Z -> (0 <= m' < n)%Z ->
         mat_at M (m + e * n) (m' + e * n) = mat_at M (m' + e * n) (m + e * n)).
Proof. exact (fun a b c e f g => periodic_symmetry ms sd d aL aR a b c e f g). Qed.
Print Assumptions C42_periodic_symmetry.

(* refuted in general: a slab where what leaves the last cell does not enter the first *)
Theorem C42_periodic_conservation_refuted :
  exists ms sd M F, ms_geom ms = SLAB /\ ready ms /\ sd_albedo sd = [2; 2] /\
    diffusionSystem PI ms sd = Ok (M, F) /\
    mat_at M 0 2 <> mat_at M 2 0 /\
    rsum 0 3 (fun i => mat_at M i 0) <> ttot (mesh_tables ms) 0 0 * tV (mesh_tables ms) 0 - tsc (mesh_tables ms) 0 0 0 * tV (mesh_tables ms) 0.
Proof.
  set (sd := ex_solver 2 2 FORWARD).
  assert (Hp : is_equal 2 2 && is_equal 2 2 = true).
  { unfold is_equal, eps10. rnum. replace (2 - 2) with 0 by lra. rewrite Rabs_R0.
    replace (Rltb 0 _) with true; [reflexivity|]. symmetry. apply Rltb_true. lra. }
  assert (Hal : albedos ex_slab sd 2 2) by (split; reflexivity).
  destruct (periodic_bl ex_slab sd (mesh_tables ex_slab) 2 2 ltac:(cbn; lia) ltac:(cbn; lia)
     (ex_slab_data 2 2 FORWARD) Hal Hp ltac:(cbn; congruence)) as (M & F & E & _ & _ & HM).
  exists ex_slab, sd, M, F. split; [reflexivity|]. split; [exact ex_slab_ready|]. split; [reflexivity|]. split; [exact E|].
  pose proof ex_slab_tables as Ht. cbn zeta in Ht.
  destruct (Ht 0%Z ltac:(lia)) as (A1 & A2 & A3 & A4 & A5 & A6 & A7 & A8 & A9 & A10).
  destruct (Ht 1%Z ltac:(lia)) as (B1 & B2 & B3 & B4 & B5 & B6 & B7 & B8 & B9 & B10).
  destruct (Ht 2%Z ltac:(lia)) as (C1 & C2 & C3 & C4 & C5 & C6 & C7 & C8 & C9 & C10).
  cbn [Z.eqb] in *.
  assert (D0 : dif (mesh_tables ex_slab) 0 0 = 1 / 2).
  { unfold dif. rnum. change (0 + 1)%Z with 1%Z. rewrite A1, B1, B8, A7, B7. cbn. lra. }
  assert (D1 : dif (mesh_tables ex_slab) 0 1 = 2 / 3).
  { unfold dif. rnum. change (1 + 1)%Z with 2%Z. rewrite B1, C1, C8, B7, C7. cbn. lra. }
  assert (HB : forall m m', (0 <= m < 3)%Z -> (0 <= m' < 3)%Z -> mat_at M m m' =
     lossB (mesh_tables ex_slab) (periodicM ex_slab (mesh_tables ex_slab)) (transfer sd (mesh_tables ex_slab)) 0 m 0 m').
  { intros m m' Hm Hm'. rewrite <- (HM 0%Z m 0%Z m') by (cbn; lia). unfold Blocks.blk.
    change (0 * ms_cells ex_slab)%Z with 0%Z. rewrite !Z.add_0_r. reflexivity. }
  assert (HT : transfer sd (mesh_tables ex_slab) = fun e e' m => tsc (mesh_tables ex_slab) e' e m) by reflexivity.
  rewrite HT in HB. clear HT.
  unfold lossB, periodicM, tri, dgP, dgI, rem, two, mtwo in HB. change (ms_cells ex_slab) with 3%Z in HB.
  change (3 - 1)%Z with 2%Z in HB. change (3 - 2)%Z with 1%Z in HB. rnum.
  assert (E02 : mat_at M 0 2 = - (4 / 3)) by (rewrite HB by lia; Blocks.zdec; rewrite D1; lra).
  assert (E20 : mat_at M 2 0 = - 1) by (rewrite HB by lia; Blocks.zdec; rewrite D0; lra).
  assert (E10 : mat_at M 1 0 = - 1) by (rewrite HB by lia; Blocks.zdec; change (1 - 1)%Z with 0%Z; rewrite D0; lra).
  assert (E00 : mat_at M 0 0 = 17 / 6) by (rewrite HB by lia; Blocks.zdec; rewrite D0, D1, A2, A3, A10; lra).
  split; [intros H; rewrite E02, E20 in H; lra|].
  assert (S3 : forall f, rsum 0 3 f = f 0%Z + f 1%Z + f 2%Z) by (intros f; unfold nsum; change (Z.to_nat (3 - 0)) with 3%nat; cbn [nsum_up]; rnum; change (0 + 1)%Z with 1%Z; change (1 + 1)%Z with 2%Z; lra).
  rewrite S3, E00, E10, E20, A2, A3, A10. intros H; lra.
Qed.
Print Assumptions C42_periodic_conservation_refuted.

(* two cells: a spurious loss in every row *)
Theorem C42_two_cells_refuted ms sd d aL aR :
  ms_cells ms = 2%Z -> (0 <= sd_energies sd)%Z -> mesh_data PI ms (sd_energies sd) d ->
  albedos ms sd aL aR -> is_equal aL 2 && is_equal aR 2 = true -> sd_dir sd <> DirUNDEFINED ->
  (forall e m, (0 <= e < sd_energies sd)%Z -> (0 <= m < 2)%Z -> 0 < tD d e m) ->
  (forall m, (0 <= m < 2)%Z -> 0 < tdx d m) -> 0 < tS d 1 ->
  let en := sd_energies sd in
  exists M F, diffusionSystem PI ms sd = Ok (M, F) /\
    forall e m, (0 <= e < en)%Z -> (0 <= m < 2)%Z ->
      rsum 0 (2 * en) (mat_at M (m + e * 2)) >
        ttot d e m * tV d m - rsum 0 en (fun e' => transfer sd d e e' m * tV d m).
Proof.
  intros Hn Hen Hd Hal Hp Hdir HD Hx HS en.
  destruct (periodic_row_sums ms sd d aL aR ltac:(lia) Hen Hd Hal Hp Hdir) as (M & F & E & H).
  exists M, F. split; auto. intros e m He Hm. rewrite Hn in H. unfold en. rewrite H by auto. cbn [Z.eqb Pos.eqb].
  assert (0 < dif d e 0); [|lra]. unfold dif. rnum. change (0 + 1)%Z with 1%Z.
  pose proof (HD e 0%Z He ltac:(lia)). pose proof (HD e 1%Z He ltac:(lia)).
  pose proof (Hx 0%Z ltac:(lia)). pose proof (Hx 1%Z ltac:(lia)).
  apply Rdiv_lt_0_compat; [|nra]. apply Rmult_lt_0_compat; [|auto]. apply Rmult_lt_0_compat; auto.
Qed.
Print Assumptions C42_two_cells_refuted.

(* C43 *)
Theorem C43_group_transfers ms sd d aL aR :
  (2 <= ms_cells ms)%Z -> (0 <= sd_energies sd)%Z -> mesh_data PI ms (sd_energies sd) d ->
  albedos ms sd aL aR -> 0 <= aL <= 1 ->
  (forall e m, (0 <= e < sd_energies sd)%Z -> (0 <= m < ms_cells ms)%Z -> 0 < tD d e m) ->
  (forall m, (0 <= m < ms_cells ms)%Z -> 0 < tdx d m) ->
  sd_dir sd = FORWARD ->
  let n := ms_cells ms in let en := sd_energies sd in
  exists M F, diffusionSystem PI ms sd = Ok (M, F) /\
    forall g i g' i', (0 <= g < en)%Z -> (0 <= i < n)%Z -> (0 <= g' < en)%Z -> (0 <= i' < n)%Z -> g <> g' ->
      mat_at M (i + g * n) (i' + g' * n) = if (i' =? i)%Z then - (tsc d g' g i * tV d i) else 0.
Proof.
  intros Hn Hen Hd Hal HL HD Hx Hdir n en.
  destruct (loss_entries ms sd d aL aR Hn Hen Hd Hal HL HD Hx ltac:(congruence)) as (M & F & E & H).
  exists M, F. split; auto. intros g i g' i' Hg Hi Hg' Hi' Hne.
  destruct (H g i g' i' Hg Hi Hg' Hi') as [H1 _]. unfold n. rewrite H1 by auto. unfold transfer. rewrite Hdir. reflexivity.
Qed.
Print Assumptions C43_group_transfers.

(* C44 *)
Theorem C44_fission_operator ms sd d aL aR :
  (2 <= ms_cells ms)%Z -> (0 <= sd_energies sd)%Z -> mesh_data PI ms (sd_energies sd) d ->
  albedos ms sd aL aR -> 0 <= aL <= 1 -> sd_dir sd = FORWARD ->
  let n := ms_cells ms in let en := sd_energies sd in
  exists M F, diffusionSystem PI ms sd = Ok (M, F) /\ mrows F = (n * en)%Z /\ mcols F = (n * en)%Z /\
    forall g i g' i', (0 <= g < en)%Z -> (0 <= i < n)%Z -> (0 <= g' < en)%Z -> (0 <= i' < n)%Z ->
      mat_at F (i + g * n) (i' + g' * n) =
      if (i' =? i)%Z then tchi d g i * (tni d g' i * tfis d g' i * tV d i) else 0.
Proof. exact (fun a b c e f h => fission_entries ms sd d aL aR a b c e f h). Qed.
Print Assumptions C44_fission_operator.

(* C45, for every number type: bit for bit in floating point *)
Theorem C45_adjoint_is_transpose {T} {N : Num T} (mpi : T) (ms : mesh T) sdf sda d aL aR :
  (2 <= ms_cells ms)%Z -> (0 <= sd_energies sdf)%Z ->
  sd_energies sda = sd_energies sdf -> sd_albedo sda = sd_albedo sdf ->
  sd_dir sdf = FORWARD -> sd_dir sda = ADJOINT ->
  mesh_data mpi ms (sd_energies sdf) d -> albedos ms sdf aL aR ->
  is_equal aL (nofZ 2) && is_equal aR (nofZ 2) = false ->
  exists M F Ma Fa,
    diffusionSystem mpi ms sdf = Ok (M, F) /\ diffusionSystem mpi ms sda = Ok (Ma, Fa) /\
    let s := (ms_cells ms * sd_energies sdf)%Z in
    mrows M = s /\ mcols M = s /\ mrows F = s /\ mcols F = s /\
    mrows Ma = s /\ mcols Ma = s /\ mrows Fa = s /\ mcols Fa = s /\
    forall i j, (0 <= i < s)%Z -> (0 <= j < s)%Z ->
      mat_at Ma i j = mat_at M j i /\ mat_at Fa i j = mat_at F j i.
Proof. exact (adjoint_is_transpose mpi ms sdf sda d aL aR). Qed.
Print Assumptions C45_adjoint_is_transpose.

(* C46 *)
Theorem C46_neutron_balance ms sd d aL aR :
  (2 <= ms_cells ms)%Z -> (0 <= sd_energies sd)%Z -> mesh_data PI ms (sd_energies sd) d ->
  albedos ms sd aL aR -> 0 <= aL <= 1 -> 0 <= aR <= 1 ->
  (forall e m, (0 <= e < sd_energies sd)%Z -> (0 <= m < ms_cells ms)%Z -> 0 < tD d e m) ->
  (forall m, (0 <= m < ms_cells ms)%Z -> 0 < tdx d m) ->
  sd_dir sd = FORWARD ->
  let n := ms_cells ms in let en := sd_energies sd in
  (forall m, (0 <= m < n)%Z -> rsum 0 en (fun e => tchi d e m) = 1) ->
  exists M F, diffusionSystem PI ms sd = Ok (M, F) /\
    forall x k J psi, currents ms sd d aL aR (phi_of ms x) J psi ->
      (forall i, (0 <= i < n * en)%Z ->
         rsum 0 (n * en) (fun j => mat_at M i j * x j) = / k * rsum 0 (n * en) (fun j => mat_at F i j * x j)) ->
      / k * rsum 0 en (fun e => rsum 0 n (fun m => tfis d e m * tni d e m * tV d m * x (m + e * n)%Z)) =
      rsum 0 en (fun e => rsum 0 n (fun m =>
        (ttot d e m - rsum 0 en (fun e' => tsc d e e' m)) * tV d m * x (m + e * n)%Z))
      + rsum 0 en (fun e => tS d n * J e n - tS d 0 * J e 0%Z).
Proof. exact (fun a b c e f g h i j => eigen_balance ms sd d aL aR a b c e f g h i j). Qed.
Print Assumptions C46_neutron_balance.

(* C47, any number of groups: absorption = total minus all scattering out *)
Theorem C47_well_posed ms sd d aL aR :
  (2 <= ms_cells ms)%Z -> (0 <= sd_energies sd)%Z -> mesh_data PI ms (sd_energies sd) d ->
  albedos ms sd aL aR -> 0 <= aL <= 1 -> 0 <= aR <= 1 ->
  (forall e m, (0 <= e < sd_energies sd)%Z -> (0 <= m < ms_cells ms)%Z -> 0 < tD d e m) ->
  (forall m, (0 <= m < ms_cells ms)%Z -> 0 < tdx d m) ->
  sd_dir sd = FORWARD ->
  let n := ms_cells ms in let en := sd_energies sd in
  (forall k, (0 <= k <= n)%Z -> 0 <= tS d k) -> (forall m, (0 <= m < n)%Z -> 0 < tV d m) ->
  (forall e e' m, (0 <= e < en)%Z -> (0 <= e' < en)%Z -> (0 <= m < n)%Z -> 0 <= tsc d e e' m) ->
  (forall e m, (0 <= e < en)%Z -> (0 <= m < n)%Z -> rsum 0 en (fun e' => tsc d e e' m) < ttot d e m) ->
  exists M F, diffusionSystem PI ms sd = Ok (M, F) /\
    forall q, exists x,
      (forall i, (0 <= i < n * en)%Z -> rsum 0 (n * en) (fun j => mat_at M i j * x j) = q i) /\
      (forall y, (forall i, (0 <= i < n * en)%Z -> rsum 0 (n * en) (fun j => mat_at M i j * y j) = q i) ->
         forall i, (0 <= i < n * en)%Z -> y i = x i) /\
      ((forall i, (0 <= i < n * en)%Z -> 0 <= q i) -> forall i, (0 <= i < n * en)%Z -> 0 <= x i).
Proof.
  intros Hn Hen Hd Hal HL HR HD Hx Hdir n en HS HV Hsc Habs.
  destruct (loss_monotone ms sd d aL aR Hn Hen Hd Hal HL HR HD Hx Hdir HS HV Hsc Habs) as (M & F & E & H).
  exists M, F. split; auto. intros q.
  destruct (solvable_unique _ _ (monotone_injective _ _ H) q) as [x [H1 H2]].
  exists x. split; [exact H1|]. split; [exact H2|].
  intros Hq. apply H. intros i Hi. rewrite H1 by auto. auto.
Qed.
Print Assumptions C47_well_posed.
