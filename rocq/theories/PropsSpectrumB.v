(* Property theorems C54, C55 and C71 to C75 and the transport part of C48. *)
From Coq Require Import String ZArith List Bool Lia Reals Lra.
From Verif Require Import Base BaseLemmas NumR LinAlg Blocks ModelNumTools ModelEigen ModelMesh ModelReactor
  ModelSpectrum ProofsMesh ProofsDiffusion ProofsDiffusionR ProofsEigen ProofsPower ProofsSpectrum ProofsSpectrumR
  Kernels ProofsSpectrumB Quadrature PropsDiffusion PropsSpectrum.
Import ListNotations.
Local Open Scope R_scope.

Lemma s2s_sum ms S g h : surface_to_surface ms S g h =
  1 - 4 / S * rsum 0 (ms_cells ms) (fun i => tV (mesh_tables ms) i * ttot (mesh_tables ms) h i *
      (1 - rsum 0 (ms_cells ms) (fun j => t3_at g i j h))).
Proof.
  unfold surface_to_surface. f_equal. rewrite <- rsum_scal. apply rsum_ext. intros i Hi. unfold out, Rdiv. ring.
Qed.

(* ---------- C54 ---------- *)

(* Slab: the value the code computes (the surface is taken as one face) *)
Theorem C54_slab_value k3 kb ex sq ms sd a sc g g' check M F S :
  transport_ready ms sd a -> transport_run k3 kb ex sq ms sd sc g g' check M F ->
  ms_geom ms = SLAB -> k3 0 = 1 / 2 -> getExternalSurface PI ms "cm" = Ok S ->
  forall h, (0 <= h < ms_groups ms)%Z ->
    surface_to_surface ms S g h = 4 * k3 (rsum 0 (ms_cells ms) (thickness ms h)) - 1.
Proof.
  intros H Hrun Hg Hk HS h Hh.
  destruct (run_spec _ _ _ _ _ _ _ _ _ _ _ _ _ H Hrun) as (Hc & HG & _).
  pose proof (co_cells _ _ _ Hc) as Ec.
  assert (ES : S = 1).
  { rewrite (spec_surface_ok ms) in HS by apply H. injection HS as <-. unfold spec_surface. rewrite Hg. reflexivity. }
  rewrite s2s_sum, ES.
  pose proof (slab_escape_total k3 sc h
    ltac:(intros l Hl; apply (own_pos ms sd a sc H Hc); auto; lia)
    ltac:(intros l Hl; apply Rgt_not_eq, (vol_pos ms sd a sc H Hc); lia)
    ltac:(intros l Hl; apply Rgt_not_eq, (sig_pos ms sd a sc H Hc); auto; lia)
    Hk
    ltac:(intros l Hl; rewrite (co_volume _ _ _ Hc), (co_width _ _ _ Hc) by lia; cbn [mesh_tables tV tdx]; rewrite Hg; cbn; ring)
    ltac:(rewrite Ec; apply H)) as E. rewrite Ec in E.
  rewrite (rsum_ext 0 (ms_cells ms) (fun i => own sc h i) (thickness ms h)) in E.
  - match goal with |- 1 - 4 / 1 * ?x = _ => replace x with (1 / 2 - k3 (rsum 0 (ms_cells ms) (thickness ms h))); [field|] end.
    rewrite <- E. apply rsum_ext. intros i Hi. rewrite (co_volume _ _ _ Hc), (co_sig _ _ _ Hc) by auto. f_equal. f_equal.
    apply rsum_ext. intros j Hj. rewrite HG by auto. unfold vacuum_P. rewrite (co_mesh _ _ _ Hc), Hg. reflexivity.
  - intros l Hl. unfold own. rewrite (co_width _ _ _ Hc), (co_sig _ _ _ Hc) by auto. reflexivity.
Qed.
Print Assumptions C54_slab_value.

(* With the exact kernel it is negative for every slab at least one mean free
   path thick. *)
Theorem C54_slab_refuted kb ex sq ms sd a sc g g' check M F S :
  transport_ready ms sd a -> transport_run E3 kb ex sq ms sd sc g g' check M F ->
  ms_geom ms = SLAB -> getExternalSurface PI ms "cm" = Ok S ->
  forall h, (0 <= h < ms_groups ms)%Z -> 1 <= rsum 0 (ms_cells ms) (thickness ms h) ->
    surface_to_surface ms S g h < 0.
Proof.
  intros H Hrun Hg HS h Hh Ht. rewrite (C54_slab_value _ _ _ _ _ _ _ _ _ _ _ _ _ _ H Hrun Hg E3_0 HS h Hh).
  set (t := rsum 0 (ms_cells ms) (thickness ms h)) in *. pose proof (E3_exp t ltac:(lra)).
  assert (exp (- t) < 1 / 2); [|lra]. rewrite exp_Ropp.
  apply Rlt_le_trans with (/ 2); [|lra]. apply Rinv_lt_contravar; [pose proof (exp_pos t); lra|].
  pose proof (exp_ineq1 t ltac:(lra)). lra.
Qed.
Print Assumptions C54_slab_refuted.
Example C54_slab_witness : exists sc g g' check M F,
  transport_ready (three SLAB) (ex_solver 0 0 FORWARD) 0 /\
  transport_run E3 Ki3 exp sqrt (three SLAB) (ex_solver 0 0 FORWARD) sc g g' check M F /\
  getExternalSurface PI (three SLAB) "cm" = Ok 1 /\ surface_to_surface (three SLAB) 1 g 0 < 0.
Proof.
  pose proof (three_ready SLAB 0 0 FORWARD ltac:(discriminate)) as H.
  destruct (C55_transport_defined E3 Ki3 exp sqrt _ _ _ H) as (sc & g & g' & c & M & F & Hrun).
  exists sc, g, g', c, M, F. split; [exact H|]. split; [exact Hrun|].
  pose proof (spec_surface_ok (three SLAB) ltac:(apply H) ltac:(cbn; lia)) as ES. cbn [spec_surface three ms_geom] in ES.
  change (getExternalSurface PI (three SLAB) "cm" = Ok 1) in ES. split; [exact ES|].
  eapply C54_slab_refuted; eauto; [cbn; lia|].
  rewrite (rsum_ext 0 _ _ (fun _ => 1)).
  - cbn [three ms_cells]. rewrite rsum_const by lia. cbn. lra.
  - intros l Hl. unfold thickness. destruct (three_tables SLAB l Hl) as [-> ->]. ring.
Qed.

(* both curved geometries *)
Lemma curved_s2s k3 kb ex sq ms sd a sc g g' check M F S h :
  transport_ready ms sd a -> transport_run k3 kb ex sq ms sd sc g g' check M F ->
  (ms_geom ms = CYLINDER \/ ms_geom ms = SPHERE) -> (0 <= h < ms_groups ms)%Z ->
  surface_to_surface ms S g h =
  1 - 4 / S * (ray_scale ms * rsum 0 (ms_cells ms) (fun m => rsum 0 8 (fun k =>
    (ray_kernel kb ex ms 0 - ray_kernel kb ex ms (2 * ray_optical sq ms h m (ms_cells ms - 1) k)) * ray_weight ms m k))).
Proof.
  intros H Hrun Hg Hh. destruct (run_spec _ _ _ _ _ _ _ _ _ _ _ _ _ H Hrun) as (Hc & HG & _).
  pose proof (co_cells _ _ _ Hc) as Ec. rewrite s2s_sum. f_equal. f_equal.
  pose proof (curved_escape_total kb ex sc (is_sphere ms) PI (opt sq sc) (ray sc) h (HVn ms sd a sc H Hc)
    (HSn ms sd a sc h H Hc Hh) ltac:(rewrite Ec; apply H)) as E.
  rewrite Ec, (cst_bridge ms Hg) in E.
  transitivity (rsum 0 (ms_cells ms) (fun i => vol_of sc i * sig_of sc h i * (1 - rsum 0 (ms_cells ms)
    (curved_P kb ex sc (is_sphere ms) PI (opt sq sc) (ray sc) h i)))).
  - apply rsum_ext. intros i Hi. rewrite (co_volume _ _ _ Hc), (co_sig _ _ _ Hc) by auto. f_equal. f_equal.
    apply rsum_ext. intros j Hj. rewrite HG by auto. apply (vacuum_bridge kb ex sq ms sd sc h Hc Hg).
  - rewrite E. f_equal. apply rsum_ext. intros m Hm. apply rsum_ext. intros k Hk.
    rewrite (omega_bridge ms sd sc Hc Hg), !kernel_bridge, (opt_bridge sq ms sd sc h Hc Hh) by (auto; lia). reflexivity.
Qed.

(* what is needed of the square root *)
Definition root_like (sq : R -> R) : Prop := (forall x, 0 <= sq x) /\ (forall x y, x <= y -> sq x <= sq y).
Lemma sqrt_root_like : root_like sqrt.
Proof. split; [exact sqrt_pos|exact sqrt_le_1_alt]. Qed.

Section RayFacts.
Variables (sq : R -> R) (ms : mesh R) (sd : solverData R) (a : R).
Hypothesis H : transport_ready ms sd a.
Hypothesis Hg : ms_geom ms = CYLINDER \/ ms_geom ms = SPHERE.

Lemma radius_step m : (0 <= m < ms_cells ms)%Z -> 0 <= radius ms m < radius ms (m + 1).
Proof.
  intros Hm. destruct (code_exists ms sd a H) as [sc Hc].
  pose proof (radii_nonneg ms sd a sc H Hc m ltac:(lia)) as A. pose proof (width_pos ms sd a sc H Hc m Hm) as B.
  unfold width_of in B. rewrite (co_radii _ _ _ Hc) in A. rewrite (co_radii _ _ _ Hc), (co_radii _ _ _ Hc m) in B. unfold radius. lra.
Qed.
Lemma radius_le i j : (0 <= i <= j)%Z -> (j <= ms_cells ms)%Z -> radius ms i <= radius ms j.
Proof.
  intros [Hi Hj] Hl. revert Hl. pattern j. apply (zint_ind _ i); [| |exact Hj].
  - intros; lra.
  - intros l Hl IH Hl'. pose proof (radius_step l ltac:(lia)). specialize (IH ltac:(lia)). lra.
Qed.
Lemma radius_out_pos : 0 < radius ms (ms_cells ms).
Proof.
  assert (1 <= ms_cells ms)%Z by apply H. pose proof (radius_step 0 ltac:(lia)).
  pose proof (radius_le 1 (ms_cells ms) ltac:(lia) ltac:(lia)). change (0 + 1)%Z with 1%Z in *. lra.
Qed.
Lemma weight_nonneg k : (0 <= k < 8)%Z -> 0 <= weight k.
Proof. exact (wgt_nonneg k). Qed.
Lemma ray_between m k : (0 <= m < ms_cells ms)%Z -> (0 <= k < 8)%Z -> radius ms m <= ray_radius ms m k <= radius ms (m + 1).
Proof.
  intros Hm Hk. pose proof (radius_step m Hm). pose proof (absc_range k Hk) as A. change (0 <= node k <= 1) in A.
  unfold ray_radius. assert (N : 0 <= node k ^ 2 <= 1).
  { split; [apply pow2_ge_0|]. replace 1 with (1 ^ 2) by ring. apply pow_incr. lra. }
  revert N. generalize (node k ^ 2). intros y N. set (D := radius ms (m + 1) - radius ms m).
  assert (0 <= D * y) by (apply Rmult_le_pos; unfold D; lra).
  assert (D * y <= D * 1) by (apply Rmult_le_compat_l; unfold D; lra). unfold D in *. lra.
Qed.
Lemma optical_nonneg h m k : root_like sq -> (0 <= h < ms_groups ms)%Z -> (0 <= m < ms_cells ms)%Z -> (0 <= k < 8)%Z ->
  0 <= ray_optical sq ms h m (ms_cells ms - 1) k.
Proof.
  intros [R0 R1] Hh Hm Hk. destruct (code_exists ms sd a H) as [sc Hc]. pose proof (co_cells _ _ _ Hc) as Ec.
  rewrite <- (opt_bridge sq ms sd sc h Hc Hh) by lia.
  pose proof (T_nonneg sc (opt sq sc) h) as T.
  assert (HT : forall m i k, (0 <= m <= i)%Z -> (i < sc_cells sc)%Z -> (0 <= k < 8)%Z ->
     tb (opt sq sc) h m (i - 1) k <= tb (opt sq sc) h m i k).
  { intros. apply (opt_step sq ms sd a sc h H Hc R0 R1 Hh); auto; lia. }
  specialize (T HT m k (ms_cells ms - 1)%Z ltac:(lia) Hk ltac:(lia) ltac:(lia)). unfold tb in T.
  replace (ms_cells ms - 1 <? m)%Z with false in T by lia. exact T.
Qed.
End RayFacts.

Lemma weight_sum : rsum 0 8 weight = 1 / 2.
Proof. exact wgt_sum. Qed.

(* Cylinder: [ri] inner and [ro] outer radius of the mesh *)
Theorem C54_cylinder k3 kb ex sq ms sd a sc g g' check M F S :
  transport_ready ms sd a -> transport_run k3 kb ex sq ms sd sc g g' check M F ->
  ms_geom ms = CYLINDER -> getExternalSurface PI ms "cm" = Ok S ->
  root_like sq -> kb 0 = PI / 4 -> (forall x, 0 <= x -> 0 <= kb x <= PI / 4) ->
  forall h, (0 <= h < ms_groups ms)%Z ->
    let n := ms_cells ms in let ri := radius ms 0 in let ro := radius ms n in
    surface_to_surface ms S g h =
      ri / ro + 8 / (PI * ro) * rsum 0 n (fun m => rsum 0 8 (fun k =>
        kb (2 * ray_optical sq ms h m (n - 1) k) * (weight k * (radius ms (m + 1) - radius ms m)))) /\
    0 <= surface_to_surface ms S g h <= 1.
Proof.
  intros H Hrun Hg HS Hsq K0 KB h Hh n ri ro. pose proof PI_RGT_0 as HP.
  pose proof (radius_out_pos ms sd a H) as Hro. fold n ro in Hro.
  assert (ES : S = 2 * PI * ro).
  { rewrite (spec_surface_ok ms) in HS by apply H. injection HS as <-. unfold spec_surface. rewrite Hg. reflexivity. }
  rewrite (curved_s2s _ _ _ _ _ _ _ _ _ _ _ _ _ S h H Hrun (or_introl Hg) Hh).
  unfold ray_scale, ray_kernel, ray_weight. rewrite Hg. rewrite ES, K0. fold n.
  set (Q := rsum 0 n (fun m => rsum 0 8 (fun k =>
        kb (2 * ray_optical sq ms h m (n - 1) k) * (weight k * (radius ms (m + 1) - radius ms m))))).
  assert (Hn : (1 <= n)%Z) by apply H.
  assert (E1 : rsum 0 n (fun m => rsum 0 8 (fun k => (PI / 4 - kb (2 * ray_optical sq ms h m (n - 1) k)) *
      (weight k * (radius ms (m + 1) - radius ms m) * 1))) = PI / 8 * (ro - ri) - Q).
  { rewrite (rsum_ext 0 n _ (fun m => PI / 8 * (radius ms (m + 1) - radius ms m) - rsum 0 8 (fun k =>
        kb (2 * ray_optical sq ms h m (n - 1) k) * (weight k * (radius ms (m + 1) - radius ms m))))).
    - rewrite rsum_minus, rsum_scal, rsum_tele by lia. reflexivity.
    - intros m Hm. rewrite (rsum_ext 0 8 _ (fun k => PI / 4 * (radius ms (m + 1) - radius ms m) * weight k -
         kb (2 * ray_optical sq ms h m (n - 1) k) * (weight k * (radius ms (m + 1) - radius ms m)))) by (intros; ring).
      rewrite rsum_minus, rsum_scal, weight_sum. field. }
  rewrite E1.
  assert (Q0 : 0 <= Q <= PI / 8 * (ro - ri)).
  { unfold Q. split.
    - apply rsum_nonneg. intros m Hm. apply rsum_nonneg. intros k Hk.
      pose proof (optical_nonneg sq ms sd a H h m k Hsq Hh Hm Hk) as Ho. fold n in Ho.
      pose proof (radius_step ms sd a H m Hm). pose proof (weight_nonneg k Hk).
      pose proof (KB (2 * ray_optical sq ms h m (n - 1) k) ltac:(lra)).
      apply Rmult_le_pos; [lra|]. apply Rmult_le_pos; lra.
    - apply Rle_trans with (rsum 0 n (fun m => PI / 8 * (radius ms (m + 1) - radius ms m))).
      + apply rsum_le. intros m Hm. apply Rle_trans with (rsum 0 8 (fun k => PI / 4 * (radius ms (m + 1) - radius ms m) * weight k)).
        * apply rsum_le. intros k Hk.
          pose proof (optical_nonneg sq ms sd a H h m k Hsq Hh Hm Hk) as Ho. fold n in Ho.
          pose proof (radius_step ms sd a H m Hm). pose proof (weight_nonneg k Hk).
          pose proof (KB (2 * ray_optical sq ms h m (n - 1) k) ltac:(lra)).
          replace (PI / 4 * (radius ms (m + 1) - radius ms m) * weight k) with
            (PI / 4 * (weight k * (radius ms (m + 1) - radius ms m))) by ring.
          apply Rmult_le_compat_r; [apply Rmult_le_pos; lra|lra].
        * rewrite rsum_scal, weight_sum. lra.
      + rewrite rsum_scal, rsum_tele by lia. fold ri ro. lra. }
  assert (E2 : 1 - 4 / (2 * PI * ro) * (4 * (PI / 8 * (ro - ri) - Q)) = ri / ro + 8 / (PI * ro) * Q) by (field; split; lra).
  rewrite E2. split; [reflexivity|].
  assert (Hri : 0 <= ri) by (apply (radius_step ms sd a H 0); lia).
  assert (A : 0 <= ri / ro) by (apply quot_nonneg; lra).
  assert (B : 0 <= 8 / (PI * ro)) by (apply quot_nonneg; [lra|]; apply Rmult_lt_0_compat; lra).
  split; [apply Rplus_le_le_0_compat; [exact A|apply Rmult_le_pos; lra]|].
  apply Rle_trans with (ri / ro + 8 / (PI * ro) * (PI / 8 * (ro - ri))).
  - apply Rplus_le_compat_l, Rmult_le_compat_l; lra.
  - right. field. split; lra.
Qed.
Print Assumptions C54_cylinder.
Example C54_cylinder_hypotheses_met : exists sc g g' check M F S,
  transport_ready (three CYLINDER) (ex_solver 0 0 FORWARD) 0 /\
  transport_run E3 Ki3 exp sqrt (three CYLINDER) (ex_solver 0 0 FORWARD) sc g g' check M F /\
  getExternalSurface PI (three CYLINDER) "cm" = Ok S /\ root_like sqrt /\ Ki3 0 = PI / 4 /\
  (forall x, 0 <= x -> 0 <= Ki3 x <= PI / 4).
Proof.
  pose proof (three_ready CYLINDER 0 0 FORWARD ltac:(discriminate)) as H.
  destruct (C55_transport_defined E3 Ki3 exp sqrt _ _ _ H) as (sc & g & g' & c & M & F & Hrun).
  exists sc, g, g', c, M, F. eexists. split; [exact H|]. split; [exact Hrun|].
  split; [apply spec_surface_ok; [apply H|cbn; lia]|]. split; [exact sqrt_root_like|]. split; [exact Ki3_0|exact Ki3_bounds].
Qed.

(* Sphere: whatever the materials, at least 99.98 % "pass through". *)
Theorem C54_sphere_refuted k3 kb ex sq ms sd a sc g g' check M F S :
  transport_ready ms sd a -> transport_run k3 kb ex sq ms sd sc g g' check M F ->
  ms_geom ms = SPHERE -> getExternalSurface PI ms "cm" = Ok S ->
  ex 0 = 1 -> (forall x, x <= 0 -> 0 <= ex x <= 1) -> root_like sq ->
  forall h, (0 <= h < ms_groups ms)%Z -> 9998 / 10000 <= surface_to_surface ms S g h <= 1.
Proof.
  intros H Hrun Hg HS E0 EB Hsq h Hh. pose proof PI_RGT_0 as HP.
  set (n := ms_cells ms). set (ro := radius ms n).
  pose proof (radius_out_pos ms sd a H) as Hro. fold n ro in Hro.
  assert (Hn : (1 <= n)%Z) by apply H.
  assert (ES : S = 4 * PI * ro ^ 2 * 10000).
  { rewrite (spec_surface_ok ms) in HS by apply H. injection HS as <-. unfold spec_surface. rewrite Hg. reflexivity. }
  rewrite (curved_s2s _ _ _ _ _ _ _ _ _ _ _ _ _ S h H Hrun (or_intror Hg) Hh).
  unfold ray_scale, ray_kernel, ray_weight. rewrite Hg. rewrite Ropp_0, E0. fold n.
  set (Q := rsum 0 n (fun m => rsum 0 8 (fun k => (1 - ex (- (2 * ray_optical sq ms h m (n - 1) k))) *
     (weight k * (radius ms (m + 1) - radius ms m) * ray_radius ms m k)))).
  assert (HQ : 0 <= Q <= ro * ro / 2).
  { assert (T : forall m k, (0 <= m < n)%Z -> (0 <= k < 8)%Z ->
      0 <= (1 - ex (- (2 * ray_optical sq ms h m (n - 1) k))) * (weight k * (radius ms (m + 1) - radius ms m) * ray_radius ms m k)
      <= ro * (radius ms (m + 1) - radius ms m) * weight k).
    { intros m k Hm Hk. pose proof (optical_nonneg sq ms sd a H h m k Hsq Hh Hm Hk) as O. fold n in O.
      pose proof (EB (- (2 * ray_optical sq ms h m (n - 1) k)) ltac:(lra)) as B.
      pose proof (radius_step ms sd a H m Hm). pose proof (weight_nonneg k Hk).
      pose proof (ray_between ms sd a H m k Hm Hk).
      pose proof (radius_le ms sd a H (m + 1) n ltac:(lia) ltac:(unfold n; lia)) as L. fold ro in L.
      assert (0 <= weight k * (radius ms (m + 1) - radius ms m)) by (apply Rmult_le_pos; lra).
      assert (0 <= weight k * (radius ms (m + 1) - radius ms m) * ray_radius ms m k) by (apply Rmult_le_pos; lra).
      split; [apply Rmult_le_pos; lra|].
      apply Rle_trans with (1 * (weight k * (radius ms (m + 1) - radius ms m) * ray_radius ms m k)).
      - apply Rmult_le_compat_r; lra.
      - replace (ro * (radius ms (m + 1) - radius ms m) * weight k) with (weight k * (radius ms (m + 1) - radius ms m) * ro) by ring.
        rewrite Rmult_1_l. apply Rmult_le_compat_l; lra. }
    unfold Q. split.
    - apply rsum_nonneg. intros m Hm. apply rsum_nonneg. intros k Hk. apply T; auto.
    - apply Rle_trans with (rsum 0 n (fun m => ro / 2 * (radius ms (m + 1) - radius ms m))).
      + apply rsum_le. intros m Hm. apply Rle_trans with (rsum 0 8 (fun k => ro * (radius ms (m + 1) - radius ms m) * weight k)).
        * apply rsum_le. intros k Hk. apply T; auto.
        * rewrite rsum_scal, weight_sum. lra.
      + rewrite rsum_scal, rsum_tele by lia. fold ro. pose proof (radius_step ms sd a H 0 ltac:(unfold n in Hn; lia)).
        assert (0 <= ro * radius ms 0) by (apply Rmult_le_pos; lra). lra. }
  assert (E : 4 / S * (4 * PI * Q) = Q * (4 / (ro * ro)) / 10000).
  { rewrite ES. field. split; lra. }
  rewrite E. assert (Hrr : 0 < ro * ro) by (apply Rmult_lt_0_compat; lra).
  assert (P4 : 0 < 4 / (ro * ro)) by (apply Rmult_lt_0_compat; [lra|apply Rinv_0_lt_compat; lra]).
  assert (0 <= Q * (4 / (ro * ro)) <= 2).
  { split; [apply Rmult_le_pos; lra|]. apply Rle_trans with (ro * ro / 2 * (4 / (ro * ro))).
    - apply Rmult_le_compat_r; lra.
    - right. field. lra. }
  lra.
Qed.
Print Assumptions C54_sphere_refuted.
Example C54_sphere_witness : exists sc g g' check M F S,
  transport_ready (three SPHERE) (ex_solver 0 0 FORWARD) 0 /\
  transport_run E3 Ki3 exp sqrt (three SPHERE) (ex_solver 0 0 FORWARD) sc g g' check M F /\
  getExternalSurface PI (three SPHERE) "cm" = Ok S /\ 9998 / 10000 <= surface_to_surface (three SPHERE) S g 0.
Proof.
  pose proof (three_ready SPHERE 0 0 FORWARD ltac:(discriminate)) as H.
  destruct (C55_transport_defined E3 Ki3 exp sqrt _ _ _ H) as (sc & g & g' & c & M & F & Hrun).
  exists sc, g, g', c, M, F. eexists. split; [exact H|]. split; [exact Hrun|].
  split; [apply spec_surface_ok; [apply H|cbn; lia]|].
  eapply C54_sphere_refuted; eauto.
  - apply spec_surface_ok; [apply H|cbn; lia].
  - apply exp_0.
  - intros x Hx. split; [left; apply exp_pos|apply exp_le_1, Hx].
  - exact sqrt_root_like.
  - cbn; lia.
Qed.

(* C53 with a reflecting boundary, whose hypothesis Pss <> 1 holds *)
Example C53_hypotheses_met : exists sc g g' check M F,
  transport_ready (three SLAB) (ex_solver 1 1 FORWARD) 1 /\
  transport_run E3 Ki3 exp sqrt (three SLAB) (ex_solver 1 1 FORWARD) sc g g' check M F /\
  getExternalSurface PI (three SLAB) "cm" = Ok 1 /\ surface_to_surface (three SLAB) 1 g 0 <> 1 /\
  mat_at check 0 1 = 1.
Proof.
  pose proof (three_ready SLAB 1 1 FORWARD ltac:(discriminate)) as H.
  destruct (C55_transport_defined E3 Ki3 exp sqrt _ _ _ H) as (sc & g & g' & c & M & F & Hrun).
  exists sc, g, g', c, M, F. split; [exact H|]. split; [exact Hrun|].
  pose proof (spec_surface_ok (three SLAB) ltac:(apply H) ltac:(cbn; lia)) as ES. cbn [spec_surface three ms_geom] in ES.
  change (getExternalSurface PI (three SLAB) "cm" = Ok 1) in ES. split; [exact ES|].
  assert (L : surface_to_surface (three SLAB) 1 g 0 < 0).
  { eapply C54_slab_refuted; eauto; [cbn; lia|].
    rewrite (rsum_ext 0 _ _ (fun _ => 1)).
    - cbn [three ms_cells]. rewrite rsum_const by lia. cbn. lra.
    - intros l Hl. unfold thickness. destruct (three_tables SLAB l Hl) as [-> ->]. ring. }
  split; [lra|].
  destruct (C53_albedo_balance _ _ _ _ _ _ _ _ _ _ _ _ _ 1 H Hrun ES 0%Z 1%Z ltac:(cbn; lia) ltac:(cbn; lia)) as (_ & _ & X & _).
  apply X; lra.
Qed.

(* ---------- C55 ---------- *)

(* entry ((e,i),(e',j)), stored at row i + e n and column j + e' n *)
Theorem C55_transport_operators k3 kb ex sq ms sd a sc g g' check M F :
  transport_ready ms sd a -> transport_run k3 kb ex sq ms sd sc g g' check M F ->
  let n := ms_cells ms in let en := ms_groups ms in let d := mesh_tables ms in
  mrows M = (n * en)%Z /\ mcols M = (n * en)%Z /\ mrows F = (n * en)%Z /\ mcols F = (n * en)%Z /\
  forall e i e' j, (0 <= e < en)%Z -> (0 <= i < n)%Z -> (0 <= e' < en)%Z -> (0 <= j < n)%Z ->
    mat_at M (i + e * n) (j + e' * n) =
      (if (i + e * n =? j + e' * n)%Z then 1 else 0) - t3_at g' i j e * tsc d e' e j /\
    mat_at F (i + e * n) (j + e' * n) = t3_at g' i j e * (tchi d e j * (tni d e' j * tfis d e' j)).
Proof.
  intros H Hrun n en d.
  destruct (run_spec _ _ _ _ _ _ _ _ _ _ _ _ _ H Hrun) as (Hc & HG & HW & HK & (M1 & M2 & M3) & (F1 & F2 & F3)).
  repeat (split; [assumption|]). intros e i e' j He Hi He' Hj.
  specialize (M3 e i e' j He Hi He' Hj). specialize (F3 e i e' j He Hi He' Hj). unfold blk in M3, F3.
  unfold n, d. rewrite M3, F3. rewrite HW by auto. split; [|ring].
  rewrite (idx_eqb (ms_cells ms)) by auto. rewrite (Z.eqb_sym e' e), (Z.eqb_sym j i). reflexivity.
Qed.
Print Assumptions C55_transport_operators.
Example C55_hypotheses_met : transport_ready (three SPHERE) (ex_solver (1 / 2) 0 FORWARD) (1 / 2) /\
  tsc (mesh_tables (three SPHERE)) 0 0 1 = 1 / 2 /\ tfis (mesh_tables (three SPHERE)) 0 1 = 1.
Proof.
  split; [apply three_ready; discriminate|].
  destruct (ex_slab_tables 1 ltac:(lia)) as (_ & _ & A & B & _). split; assumption.
Qed.

(* ---------- C71 ---------- *)

(* With the exact kernels the slab probabilities are probabilities. *)
Theorem C71_slab_probabilities kb ex sq ms sd a sc g g' check M F :
  transport_ready ms sd a -> transport_run E3 kb ex sq ms sd sc g g' check M F -> ms_geom ms = SLAB ->
  forall h i, (0 <= h < ms_groups ms)%Z -> (0 <= i < ms_cells ms)%Z ->
    (forall j, (0 <= j < ms_cells ms)%Z -> 0 <= t3_at g i j h <= 1) /\
    rsum 0 (ms_cells ms) (fun j => t3_at g i j h) <= 1.
Proof.
  intros H Hrun Hg h i Hh Hi. destruct (run_spec _ _ _ _ _ _ _ _ _ _ _ _ _ H Hrun) as (Hc & HG & _).
  pose proof (co_cells _ _ _ Hc) as Ec.
  assert (A1 : forall l, (0 <= l < sc_cells sc)%Z -> 0 < own sc h l) by (intros; apply (own_pos ms sd a sc H Hc); auto; lia).
  assert (A2 : forall l, (0 <= l < sc_cells sc)%Z -> 0 < vol_of sc l) by (intros; apply (vol_pos ms sd a sc H Hc); lia).
  assert (A3 : forall l, (0 <= l < sc_cells sc)%Z -> 0 < sig_of sc h l) by (intros; apply (sig_pos ms sd a sc H Hc); auto; lia).
  assert (A4 : forall l, (0 <= l < sc_cells sc)%Z -> vol_of sc l = width_of sc l).
  { intros l Hl. rewrite (co_volume _ _ _ Hc), (co_width _ _ _ Hc) by lia. cbn [mesh_tables tV tdx]. rewrite Hg. cbn. ring. }
  assert (E : forall j, (0 <= j < ms_cells ms)%Z -> t3_at g i j h = slab_P E3 sc (gap sc) h i j).
  { intros j Hj. rewrite HG by auto. unfold vacuum_P. rewrite (co_mesh _ _ _ Hc), Hg. reflexivity. }
  assert (N : forall j, (0 <= j < ms_cells ms)%Z -> 0 <= t3_at g i j h).
  { intros j Hj. rewrite E by exact Hj. apply (slab_P_nonneg E3 E3_good E3_0 sc h A1 A2 A3); lia. }
  assert (S : rsum 0 (ms_cells ms) (fun j => t3_at g i j h) <= 1).
  { rewrite (rsum_ext 0 (ms_cells ms) _ (slab_P E3 sc (gap sc) h i)) by exact E.
    pose proof (slab_esc_nonneg E3 E3_good E3_0 sc h A1 A2 A3 A4 i ltac:(lia)) as X. rewrite Ec in X. lra. }
  split; [|exact S]. intros j Hj. split; [apply N, Hj|].
  apply Rle_trans with (rsum 0 (ms_cells ms) (fun j => t3_at g i j h)); [|exact S].
  apply (rsum_term_le 0 (ms_cells ms) (fun j => t3_at g i j h)); [exact N|exact Hj].
Qed.
Print Assumptions C71_slab_probabilities.

(* The kernel of the curved geometries has the right shape when the library
   functions are exact. *)
Lemma ray_kernel_good ms : good_kernel (ray_kernel Ki3 exp ms).
Proof. unfold ray_kernel. destruct (ms_geom ms); try exact Ki3_good. exact exp_good. Qed.

(* Cylinder and sphere.  The self collision probability is shown non-negative
   only up to the quadrature error on the volume of the cell: the sum over the
   rays of chord times weight replaces the volume.  Full claim: 0 <= P_ii. *)
Theorem C71_curved_partial kb ex sq k3 ms sd a sc g g' check M F :
  transport_ready ms sd a -> transport_run k3 kb ex sq ms sd sc g g' check M F ->
  (ms_geom ms = CYLINDER \/ ms_geom ms = SPHERE) -> good_kernel (ray_kernel kb ex ms) -> root_like sq ->
  forall h i, (0 <= h < ms_groups ms)%Z -> (0 <= i < ms_cells ms)%Z ->
    (forall j, (0 <= j < ms_cells ms)%Z -> j <> i -> 0 <= t3_at g i j h) /\
    rsum 0 (ms_cells ms) (fun j => t3_at g i j h) <= 1 /\
    1 - 2 * ray_scale ms / tV (mesh_tables ms) i * rsum 0 (i + 1) (fun m => rsum 0 8 (fun k =>
          (half_chord sq ms m i k - (if (i =? m)%Z then 0 else half_chord sq ms m (i - 1) k)) * ray_weight ms m k))
      <= t3_at g i i h.
Proof.
  intros H Hrun Hg HK [R0 R1] h i Hh Hi. destruct (run_spec _ _ _ _ _ _ _ _ _ _ _ _ _ H Hrun) as (Hc & HG & _).
  pose proof (co_cells _ _ _ Hc) as Ec. set (sph := is_sphere ms).
  assert (HK' : good_kernel (kernel kb ex sph)).
  { unfold ray_kernel in HK. unfold sph, is_sphere, kernel. destruct Hg as [Hg|Hg]; rewrite Hg in *; exact HK. }
  assert (A2 : forall l, (0 <= l < sc_cells sc)%Z -> 0 < vol_of sc l) by (intros; apply (vol_pos ms sd a sc H Hc); lia).
  assert (A3 : forall l, (0 <= l < sc_cells sc)%Z -> 0 < sig_of sc h l) by (intros; apply (sig_pos ms sd a sc H Hc); auto; lia).
  assert (A4 : forall m k, (0 <= m < sc_cells sc)%Z -> (0 <= k < 8)%Z -> 0 <= omega sc sph (ray sc) m k)
    by (intros; apply (omega_nonneg ms sd a sc H Hc); auto; lia).
  assert (A5 : forall m i k, (0 <= m <= i)%Z -> (i < sc_cells sc)%Z -> (0 <= k < 8)%Z ->
     tb (opt sq sc) h m (i - 1) k <= tb (opt sq sc) h m i k)
    by (intros; apply (opt_step sq ms sd a sc h H Hc R0 R1 Hh); auto; lia).
  assert (E : forall j, (0 <= j < ms_cells ms)%Z -> t3_at g i j h = curved_P kb ex sc sph PI (opt sq sc) (ray sc) h i j).
  { intros j Hj. rewrite HG by auto. apply (vacuum_bridge kb ex sq ms sd sc h Hc Hg). }
  split; [|split].
  - intros j Hj Hd. rewrite E by exact Hj.
    apply (curved_off_nonneg kb ex sc sph (opt sq sc) (ray sc) h HK' A2 A3 A4 A5); auto; lia.
  - rewrite (rsum_ext 0 (ms_cells ms) _ (curved_P kb ex sc sph PI (opt sq sc) (ray sc) h i)) by exact E.
    pose proof (curved_esc_nonneg kb ex sc sph (opt sq sc) (ray sc) h HK' A2 A3 A4 A5 i ltac:(lia)) as X.
    rewrite Ec in X. lra.
  - rewrite E by exact Hi.
    pose proof (curved_diag_lower kb ex sc sph (opt sq sc) (ray sc) h HK' A2 A3 A4 A5 i ltac:(lia)) as X.
    eapply Rle_trans; [|exact X]. right. f_equal.
    rewrite (cst_bridge ms Hg : cst sph PI = ray_scale ms).
    pose proof (A3 i ltac:(lia)) as Hs. pose proof (A2 i ltac:(lia)) as Hv.
    rewrite <- (co_volume _ _ _ Hc) by exact Hi.
    replace (2 * ray_scale ms / vol_of sc i) with (2 * ray_scale ms / (vol_of sc i * sig_of sc h i) * sig_of sc h i)
      by (field; split; lra).
    rewrite Rmult_assoc. f_equal. rewrite <- rsum_scal. apply rsum_ext. intros m Hm.
    rewrite <- rsum_scal. apply rsum_ext. intros k Hk. rewrite (omega_bridge ms sd sc Hc Hg m k : omega sc sph (ray sc) m k = _).
    assert (Q : tb (opt sq sc) h m i k - tb (opt sq sc) h m (i - 1) k = seg sq sc m i k * sig_of sc h i).
    { unfold tb. replace (i <? m)%Z with false by lia. destruct (i - 1 <? m)%Z eqn:Em.
      - assert (i = m) as -> by lia. unfold opt. rewrite rsum_one. ring.
      - unfold opt. replace (i - 1 + 1)%Z with i by ring. rewrite rsum_last by lia. ring. }
    rewrite Q. unfold seg, chord, half_chord, radius. rewrite (ray_bridge ms sd sc Hc).
    rewrite !(co_radii _ _ _ Hc). replace (i - 1 + 1)%Z with i by ring. ring.
Qed.
Print Assumptions C71_curved_partial.
Example C71_hypotheses_met : forall gk, gk <> GeomUNDEFINED ->
  transport_ready (three gk) (ex_solver 0 0 FORWARD) 0 /\ good_kernel (ray_kernel Ki3 exp (three gk)) /\ root_like sqrt /\
  exists sc g g' check M F, transport_run E3 Ki3 exp sqrt (three gk) (ex_solver 0 0 FORWARD) sc g g' check M F.
Proof.
  intros gk Hg. pose proof (three_ready gk 0 0 FORWARD Hg) as H. split; [exact H|].
  split; [apply ray_kernel_good|]. split; [exact sqrt_root_like|]. eapply C55_transport_defined; exact H.
Qed.

(* Two cells, boundaries 0, r1 and r2 cm, total cross section s. *)
Definition pair (gk : GeomKind) (r1 r2 s : R) : mesh R :=
  mkMesh (vec_of_list 0 [0; r1 / 100; r2 / 100]) gk 2 1 [ex_material 1 s; ex_material 1 s] 1 1.

Lemma pair_ready gk r1 r2 s a b dir : gk <> GeomUNDEFINED -> 0 < r1 < r2 -> 0 < s ->
  transport_ready (pair gk r1 r2 s) (ex_solver a b dir) a.
Proof.
  intros Hg Hr Hs. split.
  - split; [exact Hg|]. split; [cbn; lia|]. split; [reflexivity|]. split; [cbn; lia|].
    split; [unfold zlen; cbn; lia|]. intros m Hm.
    assert (E : cell_material (pair gk r1 r2 s) m = ex_material 1 s)
      by (cbn in Hm; assert (m = 0 \/ m = 1)%Z as [->| ->] by lia; reflexivity).
    cbv zeta. rewrite E. unfold zlen. cbn. repeat split; try lia; right; lia.
  - split; [cbn; lia|]. split; [reflexivity|]. split; [reflexivity|]. split; [|split].
    + intros i Hi Hl. change (i + 1 < 3)%Z in Hl.
      assert (i = 0 \/ i = 1)%Z as [->| ->] by lia; cbn [Z.add Pos.add];
        cbn [pair ms_bounds vec_of_list vat]; change (Z.to_nat 1) with 1%nat; change (Z.to_nat 2) with 2%nat; cbn [nth Z.to_nat]; lra.
    + cbn. lra.
    + intros e i He Hi. cbn in He, Hi. assert (e = 0)%Z as -> by lia.
      cbn [mesh_tables ttot]. unfold law_at.
      assert (Hm : cell_material (pair gk r1 r2 s) i = ex_material 1 s)
        by (assert (i = 0 \/ i = 1)%Z as [->| ->] by lia; reflexivity).
      rewrite Hm. cbn [ex_material mt_totXS mt_temp Z.to_nat nth]. rewrite law_value_R.
      rewrite (rsum_one 0). cbn. lra.
Qed.
Lemma pair_tot gk r1 r2 s i : (0 <= i < 2)%Z -> ttot (mesh_tables (pair gk r1 r2 s)) 0 i = s.
Proof.
  intros Hi. cbn [mesh_tables ttot]. unfold law_at.
  assert (Hm : cell_material (pair gk r1 r2 s) i = ex_material 1 s)
    by (assert (i = 0 \/ i = 1)%Z as [->| ->] by lia; reflexivity).
  rewrite Hm. cbn [ex_material mt_totXS mt_temp Z.to_nat nth]. rewrite law_value_R.
  exact (eq_trans (rsum_one 0 _) (Rmult_1_r s)).
Qed.
Lemma pair_radius gk r1 r2 s : radius (pair gk r1 r2 s) 0 = 0 /\ radius (pair gk r1 r2 s) 1 = r1 /\ radius (pair gk r1 r2 s) 2 = r2.
Proof.
  unfold radius. cbn [pair ms_bounds vec_of_list vat]. change (Z.to_nat 1) with 1%nat; change (Z.to_nat 2) with 2%nat.
  cbn [nth Z.to_nat]. repeat split; field.
Qed.

(* Cells at least three mean free paths thick are on the safe side. *)
Theorem C71_curved_thick kb ex sq k3 ms sd a sc g g' check M F :
  transport_ready ms sd a -> transport_run k3 kb ex sq ms sd sc g g' check M F ->
  (ms_geom ms = CYLINDER \/ ms_geom ms = SPHERE) -> good_kernel (ray_kernel kb ex ms) ->
  ray_kernel kb ex ms 0 <= 1 -> root_like sq ->
  forall h i, (0 <= h < ms_groups ms)%Z -> (0 <= i < ms_cells ms)%Z -> 3 <= thickness ms h i ->
    forall j, (0 <= j < ms_cells ms)%Z -> 0 <= t3_at g i j h <= 1.
Proof.
  intros H Hrun Hg HK HK0 Hsq h i Hh Hi Ht. pose proof Hsq as [R0 R1]. pose proof PI_RGT_0 as HP. pose proof PI_4 as HP4.
  destruct (C71_curved_partial _ _ _ _ _ _ _ _ _ _ _ _ _ H Hrun Hg HK Hsq h i Hh Hi) as (Off & Row & _).
  assert (D : 0 <= t3_at g i i h).
  { destruct (run_spec _ _ _ _ _ _ _ _ _ _ _ _ _ H Hrun) as (Hc & HG & _).
    pose proof (co_cells _ _ _ Hc) as Ec. set (sph := is_sphere ms).
    assert (HK' : good_kernel (kernel kb ex sph)).
    { unfold ray_kernel in HK. unfold sph, is_sphere, kernel. destruct Hg as [Hg|Hg]; rewrite Hg in *; exact HK. }
    assert (A2 : forall l, (0 <= l < sc_cells sc)%Z -> 0 < vol_of sc l) by (intros; apply (vol_pos ms sd a sc H Hc); lia).
    assert (A3 : forall l, (0 <= l < sc_cells sc)%Z -> 0 < sig_of sc h l) by (intros; apply (sig_pos ms sd a sc H Hc); auto; lia).
    assert (A4 : forall m k, (0 <= m < sc_cells sc)%Z -> (0 <= k < 8)%Z -> 0 <= omega sc sph (ray sc) m k)
      by (intros; apply (omega_nonneg ms sd a sc H Hc); auto; lia).
    assert (A5 : forall m i k, (0 <= m <= i)%Z -> (i < sc_cells sc)%Z -> (0 <= k < 8)%Z ->
       tb (opt sq sc) h m (i - 1) k <= tb (opt sq sc) h m i k)
      by (intros; apply (opt_step sq ms sd a sc h H Hc R0 R1 Hh); auto; lia).
    rewrite HG, (vacuum_bridge kb ex sq ms sd sc h Hc Hg) by auto.
    pose proof (curved_diag_thick kb ex sc sph (opt sq sc) (ray sc) h HK' A2 A3 A4 A5 i ltac:(lia)) as X.
    eapply Rle_trans; [|exact X]. rewrite (cst_bridge ms Hg : cst sph PI = ray_scale ms), (kernel_bridge kb ex ms Hg 0 : kernel kb ex sph 0 = _).
    rewrite (co_volume _ _ _ Hc), (co_sig _ _ _ Hc) by auto.
    rewrite (rsum_ext 0 (i + 1) _ (fun m => rsum 0 8 (fun k => ray_weight ms m k)))
      by (intros; apply rsum_ext; intros; apply (omega_bridge ms sd sc Hc Hg)).
    set (K0 := ray_kernel kb ex ms 0) in *. assert (K0p : 0 <= K0) by (apply (gk_pos _ HK); lra).
    unfold thickness in Ht.
    assert (Hst : 0 < ttot (mesh_tables ms) h i) by (apply H; auto).
    set (s := ttot (mesh_tables ms) h i) in *.
    assert (Ed : tdx (mesh_tables ms) i = radius ms (i + 1) - radius ms i) by (unfold radius; cbn [mesh_tables tdx]; ring).
    rewrite Ed in Ht. set (ra := radius ms i) in *. set (rb := radius ms (i + 1)) in *.
    assert (Hr : 0 <= ra < rb) by (apply (radius_step ms sd a H i Hi)).
    assert (Hr0 : 0 <= radius ms 0) by (apply (radius_step ms sd a H 0); lia).
    assert (Hv : 0 < tV (mesh_tables ms) i) by (rewrite <- (co_volume _ _ _ Hc) by exact Hi; apply A2; lia).
    assert (Hvs : 0 < tV (mesh_tables ms) i * s) by (apply Rmult_lt_0_compat; assumption).
    match goal with |- 0 <= 1 - 2 * ?c / ?vs * (?k * ?q) => assert (B : 2 * c * (k * q) <= vs) end.
    { apply Rle_trans with (2 * ray_scale ms * rsum 0 (i + 1) (fun m => rsum 0 8 (fun k => ray_weight ms m k))).
      - apply Rmult_le_compat_l; [unfold ray_scale; destruct (ms_geom ms); lra|].
        rewrite <- (Rmult_1_l (rsum 0 (i + 1) _)) at 2. apply Rmult_le_compat_r; [|exact HK0].
        apply rsum_nonneg. intros m Hm. apply rsum_nonneg. intros k Hk.
        rewrite <- (omega_bridge ms sd sc Hc Hg). apply A4; auto; lia.
      - assert (W : rsum 0 (i + 1) (fun m => rsum 0 8 (fun k => ray_weight ms m k)) <=
          rb / 2 * match ms_geom ms with SPHERE => rb | _ => 1 end).
        { apply Rle_trans with (rsum 0 (i + 1) (fun m => 1 / 2 * match ms_geom ms with SPHERE => rb | _ => 1 end *
             (radius ms (m + 1) - radius ms m))).
          - apply rsum_le. intros m Hm. pose proof (radius_step ms sd a H m ltac:(lia)) as Rm.
            apply Rle_trans with (rsum 0 8 (fun k => (radius ms (m + 1) - radius ms m) * match ms_geom ms with SPHERE => rb | _ => 1 end * weight k)).
            + apply rsum_le. intros k Hk. unfold ray_weight. pose proof (weight_nonneg k Hk) as Wk.
              pose proof (ray_between ms sd a H m k ltac:(lia) Hk) as Rk.
              pose proof (radius_le ms sd a H (m + 1) (i + 1) ltac:(lia) ltac:(lia)) as Rl. fold rb in Rl.
              replace (_ * weight k) with (weight k * (radius ms (m + 1) - radius ms m) * match ms_geom ms with SPHERE => rb | _ => 1 end) by ring.
              apply Rmult_le_compat_l; [apply Rmult_le_pos; lra|]. destruct (ms_geom ms); lra.
            + rewrite rsum_scal, weight_sum. lra.
          - rewrite rsum_scal, rsum_tele by lia. fold rb.
            assert (0 <= match ms_geom ms with SPHERE => rb | _ => 1 end) by (destruct (ms_geom ms); lra).
            assert (0 <= radius ms 0 * match ms_geom ms with SPHERE => rb | _ => 1 end) by (apply Rmult_le_pos; assumption). lra. }
        eapply Rle_trans; [apply Rmult_le_compat_l; [unfold ray_scale; destruct (ms_geom ms); lra|exact W]|].
        assert (Hd : 3 <= (rb - ra) * s) by exact Ht.
        destruct Hg as [Hg|Hg].
        + unfold ray_scale. rewrite Hg.
          assert (EV : tV (mesh_tables ms) i = PI * ((rb + ra) * (rb - ra))).
          { cbn [mesh_tables tV]. rewrite Hg. unfold rb, ra, radius. cbn. ring. }
          rewrite EV. apply Rle_trans with (PI * (rb + ra) * 3).
          * assert (4 * rb <= 9 * rb) by lra. assert (3 <= PI) by (pose proof PI2_3_2; lra).
            assert (3 * rb <= PI * rb) by (apply Rmult_le_compat_r; lra).
            assert (0 <= PI * ra) by (apply Rmult_le_pos; lra). lra.
          * replace (PI * ((rb + ra) * (rb - ra)) * s) with (PI * (rb + ra) * ((rb - ra) * s)) by ring.
            apply Rmult_le_compat_l; [apply Rmult_le_pos; lra|exact Hd].
        + unfold ray_scale. rewrite Hg.
          assert (EV : tV (mesh_tables ms) i = 4 / 3 * PI * ((rb ^ 2 + rb * ra + ra ^ 2) * (rb - ra))).
          { cbn [mesh_tables tV]. rewrite Hg. unfold rb, ra, radius. cbn. field. }
          rewrite EV. apply Rle_trans with (4 / 3 * PI * (rb ^ 2 + rb * ra + ra ^ 2) * 3).
          * assert (0 <= rb * ra) by (apply Rmult_le_pos; lra). pose proof (pow2_ge_0 ra).
            replace (2 * (4 * PI) * (rb / 2 * rb)) with (4 * PI * rb ^ 2) by field.
            replace (4 / 3 * PI * (rb ^ 2 + rb * ra + ra ^ 2) * 3) with (4 * PI * (rb ^ 2 + rb * ra + ra ^ 2)) by field.
            apply Rmult_le_compat_l; lra.
          * replace (4 / 3 * PI * ((rb ^ 2 + rb * ra + ra ^ 2) * (rb - ra)) * s) with
              (4 / 3 * PI * (rb ^ 2 + rb * ra + ra ^ 2) * ((rb - ra) * s)) by ring.
            apply Rmult_le_compat_l; [|exact Hd]. assert (0 <= rb * ra) by (apply Rmult_le_pos; lra).
            pose proof (pow2_ge_0 ra). pose proof (pow2_ge_0 rb). apply Rmult_le_pos; lra. }
    match goal with |- 0 <= 1 - 2 * ?c / ?vs * ?q => replace (2 * c / vs * q) with (2 * c * q / vs) by (unfold Rdiv; ring) end.
    match goal with |- 0 <= 1 - ?x / ?y => assert (x / y <= 1); [|lra]; apply Rmult_le_reg_r with y; [exact Hvs|];
      unfold Rdiv; rewrite Rmult_assoc, Rinv_l, Rmult_1_r, Rmult_1_l by lra; exact B end. }
  assert (N : forall j, (0 <= j < ms_cells ms)%Z -> 0 <= t3_at g i j h).
  { intros j Hj. destruct (Z.eq_dec j i) as [->|Hd]; auto. }
  intros j Hj. split; [apply N, Hj|]. eapply Rle_trans; [|exact Row].
  apply (rsum_term_le 0 (ms_cells ms) (fun j => t3_at g i j h)); [exact N|exact Hj].
Qed.
Print Assumptions C71_curved_thick.
Example C71_thick_hypotheses_met :
  transport_ready (pair CYLINDER 1 2 3) (ex_solver 0 0 FORWARD) 0 /\ ray_kernel Ki3 exp (pair CYLINDER 1 2 3) 0 <= 1 /\
  3 <= thickness (pair CYLINDER 1 2 3) 0 1.
Proof.
  split; [apply pair_ready; [discriminate|lra|lra]|]. split.
  - change (Ki3 0 <= 1). rewrite Ki3_0. pose proof PI_4. lra.
  - unfold thickness. rewrite pair_tot by lia. cbn [mesh_tables tdx pair ms_bounds vec_of_list vat].
    cbn [Z.add Pos.add]. change (Z.to_nat 1) with 1%nat; change (Z.to_nat 2) with 2%nat. cbn [nth]. lra.
Qed.

(* The sphere: a thin, nearly transparent shell.  The rays through the ball
   overestimate its volume by more than the collision probability itself, and the
   self collision probability comes out negative. *)
Definition shell : mesh R := pair SPHERE 1 (1006 / 1000) (1 / 100000).
Definition shell_lo : list R := map (fun z => IZR z / 1000000000) [126555960; 230835134; 412073762; 618835397; 803348278; 930368344; 990784030; 1005382455]%Z.
Definition shell_hi : list R := map (fun z => IZR z / 1000000000) [63090500; 203098153; 397201192; 609033045; 795821876; 923877295; 984691320; 999378748]%Z.
Definition shell_l1 : list R := map (fun z => IZR z / 1000000000) [4904036; 15861410; 31510331; 49956130; 68966879; 86246517; 99715694; 107763773]%Z.

Lemma sqrt_lower q x : 0 <= q -> q * q <= x -> q <= sqrt x.
Proof. intros Hq H. rewrite <- (sqrt_square q Hq). apply sqrt_le_1_alt, H. Qed.
Lemma sqrt_upper q x : 0 <= q -> x <= q * q -> sqrt x <= q.
Proof. intros Hq H. rewrite <- (sqrt_square q Hq). apply sqrt_le_1_alt, H. Qed.
Lemma eight (P : Z -> Prop) : P 0%Z -> P 1%Z -> P 2%Z -> P 3%Z -> P 4%Z -> P 5%Z -> P 6%Z -> P 7%Z ->
  forall k, (0 <= k < 8)%Z -> P k.
Proof.
  intros P0 P1 P2 P3 P4 P5 P6 P7 k Hk.
  assert (k = 0 \/ k = 1 \/ k = 2 \/ k = 3 \/ k = 4 \/ k = 5 \/ k = 6 \/ k = 7)%Z as D by lia.
  destruct D as [->|[->|[->|[->|[->|[->|[->| ->]]]]]]]; assumption.
Qed.
Lemma node_at k x : nth_error (abscissa (T := R)) k = Some x -> node (Z.of_nat k) = x.
Proof. intros H. unfold node. rewrite Nat2Z.id. apply nth_error_nth, H. Qed.

Ltac nat_consts := change (Z.to_nat 0) with 0%nat; change (Z.to_nat 1) with 1%nat; change (Z.to_nat 2) with 2%nat;
  change (Z.to_nat 3) with 3%nat; change (Z.to_nat 4) with 4%nat; change (Z.to_nat 5) with 5%nat;
  change (Z.to_nat 6) with 6%nat; change (Z.to_nat 7) with 7%nat.
Lemma shell_inner k : (0 <= k < 8)%Z ->
  nth (Z.to_nat k) shell_lo 0 <= half_chord sqrt shell 0 1 k <= 101 / 100 /\ half_chord sqrt shell 0 0 k <= nth (Z.to_nat k) shell_hi 0.
Proof.
  destruct (pair_radius SPHERE 1 (1006 / 1000) (1 / 100000)) as (R0 & R1 & R2). fold shell in R0, R1, R2.
  revert k. apply eight; unfold half_chord, ray_radius; cbn [Z.add Pos.add];
    change (1 + 1)%Z with 2%Z; rewrite R0, R1, R2; unfold node, abscissa, shell_lo, shell_hi;
    nat_consts; cbn [Z.to_nat nth map ndiv nofZ NumR pow];
    (split; [split; [apply sqrt_lower|apply sqrt_upper]|apply sqrt_upper]); lra.
Qed.
Lemma shell_outer k : (0 <= k < 8)%Z -> nth (Z.to_nat k) shell_l1 0 <= half_chord sqrt shell 1 1 k <= 101 / 100.
Proof.
  destruct (pair_radius SPHERE 1 (1006 / 1000) (1 / 100000)) as (R0 & R1 & R2). fold shell in R0, R1, R2.
  revert k. apply eight; unfold half_chord, ray_radius; cbn [Z.add Pos.add];
    change (1 + 1)%Z with 2%Z; rewrite R1, R2; unfold node, abscissa, shell_l1;
    nat_consts; cbn [Z.to_nat nth map ndiv nofZ NumR pow];
    (split; [apply sqrt_lower|apply sqrt_upper]); lra.
Qed.
Definition shell_bound m k := if (m =? 0)%Z then nth (Z.to_nat k) shell_lo 0 - nth (Z.to_nat k) shell_hi 0 else nth (Z.to_nat k) shell_l1 0.
Lemma shell_weights : 30182 / 10000000 < rsum 0 2 (fun m => rsum 0 8 (fun k => shell_bound m k * ray_weight shell m k)).
Proof.
  destruct (pair_radius SPHERE 1 (1006 / 1000) (1 / 100000)) as (R0 & R1 & R2). fold shell in R0, R1, R2.
  rewrite (rsum_first 0 2), (rsum_first (0 + 1) 2), (rsum_empty (0 + 1 + 1) 2) by lia.
  rewrite !sum8. unfold shell_bound, ray_weight, ray_radius. change (ms_geom shell) with SPHERE. cbn [Z.add Z.eqb Pos.add].
  change (1 + 1)%Z with 2%Z.
  rewrite R0, R1, R2. unfold node, weight, abscissa, weights, shell_lo, shell_hi, shell_l1.
  nat_consts; cbn [Z.to_nat nth map ndiv nofZ NumR pow]. lra.
Qed.

Theorem C71_sphere_refuted k3 kb sc g g' check M F b dir :
  transport_run k3 kb exp sqrt shell (ex_solver 0 b dir) sc g g' check M F -> t3_at g 1 1 0 < 0.
Proof.
  intros Hrun. set (ms := shell) in *. pose proof PI_RGT_0 as HP. set (sd := ex_solver 0 b dir) in *.
  assert (H : transport_ready ms sd 0) by (apply pair_ready; [discriminate|lra|lra]).
  assert (Hg : ms_geom ms = CYLINDER \/ ms_geom ms = SPHERE) by (right; reflexivity).
  destruct sqrt_root_like as [R0 R1]. destruct (run_spec _ _ _ _ _ _ _ _ _ _ _ _ _ H Hrun) as (Hc & HG & _).
  pose proof (co_cells _ _ _ Hc) as Ec. change (ms_cells ms) with 2%Z in Ec.
  assert (Hh : (0 <= 0 < ms_groups ms)%Z) by (cbn; lia).
  assert (A2 : forall l, (0 <= l < sc_cells sc)%Z -> 0 < vol_of sc l)
    by (intros l Hl; apply (vol_pos ms sd 0 sc H Hc); change (ms_cells ms) with 2%Z; lia).
  assert (A3 : forall l, (0 <= l < sc_cells sc)%Z -> 0 < sig_of sc 0 l)
    by (intros l Hl; apply (sig_pos ms sd 0 sc H Hc); auto; change (ms_cells ms) with 2%Z; lia).
  assert (A4 : forall m k, (0 <= m < sc_cells sc)%Z -> (0 <= k < 8)%Z -> 0 <= omega sc true (ray sc) m k)
    by (intros m k Hm Hk; apply (omega_nonneg ms sd 0 sc H Hc); auto; change (ms_cells ms) with 2%Z; lia).
  assert (A5 : forall m i k, (0 <= m <= i)%Z -> (i < sc_cells sc)%Z -> (0 <= k < 8)%Z ->
     tb (opt sqrt sc) 0 m (i - 1) k <= tb (opt sqrt sc) 0 m i k)
    by (intros m i k Hm Hi Hk; apply (opt_step sqrt ms sd 0 sc 0 H Hc R0 R1 Hh); auto; change (ms_cells ms) with 2%Z; lia).
  rewrite HG by (first [exact Hh|cbn; lia]). rewrite (vacuum_bridge kb exp sqrt ms sd sc 0 Hc Hg k3 1 1).
  eapply Rle_lt_trans; [apply (sphere_diag_upper kb sc (opt sqrt sc) (ray sc) 0 1 A2 A3 A4 A5); lia|].
  cbv zeta. set (Q := rsum 0 (1 + 1) _). pose proof (A2 1%Z ltac:(lia)) as Hv. pose proof (A3 1%Z ltac:(lia)) as Hs.
  assert (Es : sig_of sc 0 1 = 1 / 100000).
  { rewrite (co_sig _ _ _ Hc) by (first [exact Hh|cbn; lia]). apply (pair_tot SPHERE); lia. }
  assert (Ev : vol_of sc 1 = 4 / 3 * PI * ((1006 / 1000) ^ 3 - 1)).
  { rewrite (co_volume _ _ _ Hc) by (cbn; lia). unfold ms, shell. cbn [mesh_tables tV pair ms_geom ms_bounds vec_of_list vat].
    cbn [Z.add Pos.add]. change (Z.to_nat 1) with 1%nat; change (Z.to_nat 2) with 2%nat. cbn [nth body_volume dimension pow]. field. }
  assert (BQ : 2 * (1 / 100000) * (1 - 16 / 1000000) * (30182 / 10000000) < Q).
  { eapply Rlt_le_trans; [apply Rmult_lt_compat_l; [lra|exact shell_weights]|].
    rewrite <- rsum_scal. apply rsum_le. intros m Hm. rewrite <- rsum_scal. apply rsum_le. intros k Hk.
    pose proof (A4 m k ltac:(lia) Hk) as W. pose proof (omega_bridge ms sd sc Hc Hg m k) as Ew.
    change (is_sphere ms) with true in Ew. fold ms. rewrite Ew in *. rewrite <- Rmult_assoc. apply Rmult_le_compat_r; [exact W|].
    set (x := half_chord sqrt ms m 1 k - (if (1 =? m)%Z then 0 else half_chord sqrt ms m 0 k)).
    assert (Ea : tb (opt sqrt sc) 0 m 1 k - tb (opt sqrt sc) 0 m (1 - 1) k = x * (1 / 100000)).
    { transitivity (seg sqrt sc m 1 k * sig_of sc 0 1).
      - unfold tb. replace (1 <? m)%Z with false by lia. destruct (1 - 1 <? m)%Z eqn:Em.
        + assert (m = 1)%Z as -> by lia. unfold opt. rewrite rsum_one. ring.
        + unfold opt. replace (1 - 1 + 1)%Z with 1%Z by ring. rewrite (rsum_last m 1) by lia. ring.
      - rewrite Es. unfold x, seg, chord, half_chord, radius. rewrite (ray_bridge ms sd sc Hc).
        rewrite !(co_radii _ _ _ Hc). reflexivity. }
    rewrite Ea.
    assert (Bx : shell_bound m k <= x <= 101 / 100 /\ 0 <= x).
    { assert (m = 0 \/ m = 1)%Z as [->| ->] by lia; unfold x, shell_bound; cbn [Z.eqb Pos.eqb]; unfold ms.
      - destruct (shell_inner k Hk). assert (0 <= half_chord sqrt shell 0 0 k) by apply sqrt_pos.
        assert (half_chord sqrt shell 0 0 k <= half_chord sqrt shell 0 1 k); [|lra].
        apply sqrt_le_1_alt. destruct (pair_radius SPHERE 1 (1006 / 1000) (1 / 100000)) as (Q0 & Q1 & Q2). fold shell in Q0, Q1, Q2.
        change (0 + 1)%Z with 1%Z. change (1 + 1)%Z with 2%Z. rewrite Q1, Q2. lra.
      - pose proof (shell_outer k Hk). assert (0 <= half_chord sqrt shell 1 1 k) by apply sqrt_pos. lra. }
    destruct Bx as [[B1 B2] B3]. apply Rle_trans with (2 * (1 / 100000) * (1 - 16 / 1000000) * x); [apply Rmult_le_compat_l; lra|].
    replace (2 * (x * (1 / 100000)) - 3 * (x * (1 / 100000)) ^ 2) with (2 * (1 / 100000) * (1 - 3 / 200000 * x) * x) by field.
    apply Rmult_le_compat_r; [exact B3|]. apply Rmult_le_compat_l; lra. }
  rewrite Es, Ev. set (q := 2 * (1 / 100000) * (1 - 16 / 1000000) * (30182 / 10000000)) in BQ.
  set (v := 4 / 3 * ((1006 / 1000) ^ 3 - 1) * (1 / 100000)).
  assert (Hv0 : 0 < v) by (unfold v; cbn [pow]; lra).
  assert (Hq : v < 4 * q) by (unfold v, q; cbn [pow]; lra).
  replace (4 * PI / (4 / 3 * PI * ((1006 / 1000) ^ 3 - 1) * (1 / 100000)) * Q) with (4 * Q / v)
    by (unfold v; field; lra).
  assert (1 < 4 * Q / v); [|lra]. apply Rmult_lt_reg_r with v; [exact Hv0|].
  unfold Rdiv. rewrite Rmult_assoc, Rinv_l, Rmult_1_r, Rmult_1_l by lra. lra.
Qed.
Print Assumptions C71_sphere_refuted.
Example C71_sphere_witness : exists sc g g' check M F,
  transport_run E3 Ki3 exp sqrt shell (ex_solver 0 0 FORWARD) sc g g' check M F /\ t3_at g 1 1 0 < 0.
Proof.
  assert (H : transport_ready shell (ex_solver 0 0 FORWARD) 0) by (apply pair_ready; [discriminate|lra|lra]).
  destruct (C55_transport_defined E3 Ki3 exp sqrt _ _ _ H) as (sc & g & g' & c & M & F & Hrun).
  exists sc, g, g', c, M, F. split; [exact Hrun|]. eapply C71_sphere_refuted; exact Hrun.
Qed.

(* ---------- C72 ---------- *)

(* The nodes and weights integrate x p(x) over [0,1] for every polynomial of
   degree at most 15, [poly c] having the coefficients c (constant first) and
   [size1 c] being the sum of their absolute values. *)
Theorem C72_ray_quadrature c : (length c <= 16)%nat ->
  Rabs (rsum 0 8 (fun k => weight k * poly c (node k)) - RInt.RInt (V := Hierarchy.R_CompleteNormedModule) (fun x => x * poly c x) 0 1) <= size1 c / 10 ^ 10.
Proof.
  intros Hc. pose proof (quadrature c 0 ltac:(lia)) as Q.
  rewrite (rsum_ext 0 8 (fun k => weight k * poly c (node k)) (fun k => wgt k * (absc k ^ 0 * poly c (absc k)))).
  - erewrite RInt.RInt_ext; [exact Q|]. intros x _. cbn [pow]. f_equal. symmetry. apply Rmult_1_r.
  - intros k _. cbn [pow]. rewrite Rmult_1_l. reflexivity.
Qed.
Print Assumptions C72_ray_quadrature.
(* x^7: 1/9 *)
Example C72_hypotheses_met : (length [0; 0; 0; 0; 0; 0; 0; 1] <= 16)%nat /\ poly [0; 0; 0; 0; 0; 0; 0; 1] 2 = 128.
Proof. split; [cbn; lia|cbn; lra]. Qed.

(* ---------- C73 ---------- *)

Lemma weighted_column_monotone n w A :
  (forall i, (0 <= i < n)%Z -> 0 < w i) ->
  (forall i j, (0 <= i < n)%Z -> (0 <= j < n)%Z -> i <> j -> A i j <= 0) ->
  (forall j, (0 <= j < n)%Z -> 0 < rsum 0 n (fun i => w i * A i j)) -> monotone n A.
Proof.
  intros Hw Ho Hs x Hx. apply (column_dominant_monotone n (fun i j => w i * A i j)); auto.
  - intros i j Hi Hj Hd. pose proof (Hw i Hi). pose proof (Ho i j Hi Hj Hd). nra.
  - intros i Hi. unfold app. rewrite (rsum_ext 0 n _ (fun j => w i * (A i j * x j))) by (intros; ring).
    rewrite rsum_scal. apply Rmult_le_pos; [left; auto|apply Hx, Hi].
Qed.

Lemma transport_monotone k3 kb ex sq ms sd a sc g g' check M F S :
  transport_ready ms sd a -> transport_run k3 kb ex sq ms sd sc g g' check M F ->
  getExternalSurface PI ms "cm" = Ok S -> 0 < S -> 0 <= a <= 1 ->
  let n := ms_cells ms in let en := ms_groups ms in let d := mesh_tables ms in
  (forall h, (0 <= h < en)%Z -> a * surface_to_surface ms S g h < 1) ->
  (forall h i j, (0 <= h < en)%Z -> (0 <= i < n)%Z -> (0 <= j < n)%Z -> 0 <= t3_at g i j h) ->
  (forall h i, (0 <= h < en)%Z -> (0 <= i < n)%Z -> rsum 0 n (fun j => t3_at g i j h) <= 1) ->
  (forall e e' i, (0 <= e < en)%Z -> (0 <= e' < en)%Z -> (0 <= i < n)%Z -> 0 <= tsc d e e' i) ->
  (forall e i, (0 <= e < en)%Z -> (0 <= i < n)%Z -> rsum 0 en (fun e' => tsc d e e' i) < ttot d e i) ->
  monotone (n * en) (mat_at M).
Proof.
  intros H Hrun HS Hpos Ha n en d Hpss Hg Hrow Hsc Habs.
  destruct (run_spec _ _ _ _ _ _ _ _ _ _ _ _ _ H Hrun) as (Hc & HG & HW & HK & _).
  destruct (out_bridge _ _ _ _ _ _ _ _ _ _ _ _ _ H Hrun) as [Ho Hp].
  pose proof (co_cells _ _ _ Hc) as Ec.
  assert (ES : S = sc_surface sc).
  { rewrite (co_surface _ _ _ Hc). rewrite (spec_surface_ok ms) in HS by apply H. injection HS as ->. reflexivity. }
  assert (Hst : forall e i, (0 <= e < en)%Z -> (0 <= i < n)%Z -> 0 < ttot d e i) by (intros; apply H; auto).
  assert (Hv : forall i, (0 <= i < n)%Z -> 0 < tV d i).
  { intros i Hi. unfold d. rewrite <- (co_volume _ _ _ Hc) by exact Hi. apply (vol_pos ms sd a sc H Hc); exact Hi. }
  assert (Hn1 : (1 <= n)%Z) by apply H.
  assert (Hen : (0 <= en)%Z) by (destruct H as ((_ & _ & _ & X & _) & _); exact X).
  (* entries of g' *)
  assert (Hout : forall h i, (0 <= h < en)%Z -> (0 <= i < n)%Z -> 0 <= out ms g h i).
  { intros h i Hh Hi. unfold out. fold n. pose proof (Hrow h i Hh Hi). lra. }
  assert (Hg' : forall h i j, (0 <= h < en)%Z -> (0 <= i < n)%Z -> (0 <= j < n)%Z -> 0 <= t3_at g' i j h).
  { intros h i j Hh Hi Hj. rewrite HW by auto. fold d. apply quot_nonneg; [|apply Hst; auto].
    unfold white. rewrite Hp by auto. unfold back. rewrite !Ho by auto. rewrite <- HG by auto.
    rewrite (co_volume _ _ _ Hc), (co_sig _ _ _ Hc), <- ES by auto. fold d.
    apply Rplus_le_le_0_compat; [apply Hg; auto|]. pose proof (Hpss h Hh). pose proof (Hout h i Hh Hi). pose proof (Hout h j Hh Hj).
    pose proof (Hv j Hj). pose proof (Hst h j Hh Hj).
    assert (0 <= 4 * tV d j / S) by (apply quot_nonneg; [lra|exact Hpos]).
    assert (0 <= a / (1 - surface_to_surface ms S g h * a)) by (apply quot_nonneg; lra).
    apply Rmult_le_pos; [|lra]. apply Rmult_le_pos; [|assumption]. apply Rmult_le_pos; [assumption|].
    apply Rmult_le_pos; assumption. }
  assert (Hr' : forall h i, (0 <= h < en)%Z -> (0 <= i < n)%Z -> rsum 0 n (fun j => t3_at g' i j h * ttot d h j) <= 1).
  { intros h i Hh Hi. destruct (C53_albedo_balance _ _ _ _ _ _ _ _ _ _ _ _ _ S H Hrun HS h i Hh Hi) as (E1 & E2 & _).
    fold d n in E1. rewrite <- E1. pose proof (Hpss h Hh). rewrite E2 by lra. pose proof (Hout h i Hh Hi).
    assert (0 <= out ms g h i * (1 - a) / (1 - a * surface_to_surface ms S g h)); [|lra].
    apply quot_nonneg; [apply Rmult_le_pos; lra|lra]. }
  destruct (C55_transport_operators _ _ _ _ _ _ _ _ _ _ _ _ _ H Hrun) as (_ & _ & _ & _ & HM). fold n en d in HM.
  set (w := fun p : Z => tV d (p mod n) * ttot d (p / n) (p mod n)).
  assert (Hwe : forall e i, (0 <= e < en)%Z -> (0 <= i < n)%Z -> w (i + e * n)%Z = tV d i * ttot d e i).
  { intros e i He Hi. unfold w. rewrite Z.mod_add, Z.div_add, Z.mod_small, Z.div_small by lia. reflexivity. }
  apply (weighted_column_monotone (n * en) w).
  - intros p Hq. destruct (idx_decode n en p ltac:(lia) Hq) as (e & i & He & Hi & ->). rewrite Hwe by auto.
    apply Rmult_lt_0_compat; auto.
  - intros p q Hq1 Hq2 Hd.
    destruct (idx_decode n en p ltac:(lia) Hq1) as (e & i & He & Hi & ->).
    destruct (idx_decode n en q ltac:(lia) Hq2) as (e' & j & He' & Hj & ->).
    destruct (HM e i e' j He Hi He' Hj) as [-> _]. replace (i + e * n =? j + e' * n)%Z with false by lia.
    pose proof (Hg' e i j He Hi Hj). pose proof (Hsc e' e j He' He Hj).
    assert (0 <= t3_at g' i j e * tsc d e' e j) by (apply Rmult_le_pos; auto). lra.
  - intros q Hq. destruct (idx_decode n en q ltac:(lia) Hq) as (e' & j & He' & Hj & ->).
    rewrite (Z.mul_comm n en), rsum_blocks by lia.
    rewrite (rsum_ext 0 en _ (fun e => (if (e =? e')%Z then tV d j * ttot d e j else 0) -
       tV d j * rsum 0 n (fun i => t3_at g' j i e * ttot d e i) * tsc d e' e j)).
    + rewrite rsum_minus.
      rewrite (rsum_single 0 en _ e' He') by (intros q _ Hq'; replace (q =? e')%Z with false by lia; reflexivity).
      rewrite Z.eqb_refl.
      assert (L : rsum 0 en (fun e => tV d j * rsum 0 n (fun i => t3_at g' j i e * ttot d e i) * tsc d e' e j) <=
              tV d j * rsum 0 en (fun e => tsc d e' e j)).
      { rewrite <- rsum_scal. apply rsum_le. intros e He. pose proof (Hr' e j He Hj). pose proof (Hsc e' e j He' He Hj).
        pose proof (Hv j Hj). apply Rmult_le_compat_r; [assumption|].
        rewrite <- (Rmult_1_r (tV d j)) at 2. apply Rmult_le_compat_l; lra. }
      pose proof (Habs e' j He' Hj) as B. pose proof (Hv j Hj) as V.
      assert (tV d j * rsum 0 en (fun e => tsc d e' e j) < tV d j * ttot d e' j) by (apply Rmult_lt_compat_l; assumption). lra.
    + intros e He.
      rewrite (rsum_ext 0 n _ (fun i => (if ((e =? e') && (i =? j))%Z then tV d i * ttot d e i else 0) -
         tV d j * tsc d e' e j * (t3_at g' j i e * ttot d e i))).
      * rewrite rsum_minus, rsum_scal. destruct (Z.eqb_spec e e') as [->|Hne]; cbn [andb].
        -- rewrite (rsum_single 0 n _ j Hj) by (intros q _ Hq'; replace (q =? j)%Z with false by lia; reflexivity).
           rewrite Z.eqb_refl. ring.
        -- rewrite rsum_0 by reflexivity. ring.
      * intros i Hi. rewrite Hwe by auto. destruct (HM e i e' j He Hi He' Hj) as [-> _].
        rewrite (idx_eqb n) by auto.
        destruct (C51_reciprocity _ _ _ _ _ _ _ _ _ _ _ _ _ H Hrun e i j He Hi Hj) as [_ Hrec]. fold d in Hrec.
        pose proof (Hst e j He Hj).
        assert (Hrec' : tV d i * ttot d e i * t3_at g' i j e = tV d j * (t3_at g' j i e * ttot d e i)).
        { apply Rmult_eq_reg_r with (ttot d e j); [|lra]. transitivity (tV d i * ttot d e i * (t3_at g' i j e * ttot d e j)); [ring|].
          rewrite Hrec. ring. }
        destruct ((e =? e') && (i =? j))%Z.
        -- transitivity (tV d i * ttot d e i - (tV d i * ttot d e i * t3_at g' i j e) * tsc d e' e j); [ring|]. rewrite Hrec'. ring.
        -- transitivity (0 - (tV d i * ttot d e i * t3_at g' i j e) * tsc d e' e j); [ring|]. rewrite Hrec'. ring.
Qed.

(* every source has one flux, non-negative if the source is *)
Definition well_posed (size : Z) (M : mat R) : Prop :=
  forall q, exists x,
    (forall i, (0 <= i < size)%Z -> rsum 0 size (fun j => mat_at M i j * x j) = q i) /\
    (forall y, (forall i, (0 <= i < size)%Z -> rsum 0 size (fun j => mat_at M i j * y j) = q i) ->
       forall i, (0 <= i < size)%Z -> y i = x i) /\
    ((forall i, (0 <= i < size)%Z -> 0 <= q i) -> forall i, (0 <= i < size)%Z -> 0 <= x i).
Lemma monotone_well_posed size M : monotone size (mat_at M) -> well_posed size M.
Proof.
  intros H q. destruct (solvable_unique _ _ (monotone_injective _ _ H) q) as [x [H1 H2]].
  exists x. split; [exact H1|]. split; [exact H2|]. intros Hq. apply H. intros i Hi. rewrite H1 by auto. auto.
Qed.

(* slabs, any albedo between 0 and 1 *)
Theorem C73_slab_well_posed kb ex sq ms sd a sc g g' check M F :
  transport_ready ms sd a -> transport_run E3 kb ex sq ms sd sc g g' check M F ->
  ms_geom ms = SLAB -> 0 <= a <= 1 ->
  let n := ms_cells ms in let en := ms_groups ms in let d := mesh_tables ms in
  (forall e e' i, (0 <= e < en)%Z -> (0 <= e' < en)%Z -> (0 <= i < n)%Z -> 0 <= tsc d e e' i) ->
  (forall e i, (0 <= e < en)%Z -> (0 <= i < n)%Z -> rsum 0 en (fun e' => tsc d e e' i) < ttot d e i) ->
  well_posed (n * en) M.
Proof.
  intros H Hrun Hg Ha n en d Hsc Habs. apply monotone_well_posed.
  pose proof (spec_surface_ok ms ltac:(apply H) ltac:(apply H)) as ES. unfold spec_surface in ES. rewrite Hg in ES.
  eapply (transport_monotone _ _ _ _ _ _ _ _ _ _ _ _ _ 1 H Hrun ES); auto; try lra.
  - intros h Hh. rewrite (C54_slab_value _ _ _ _ _ _ _ _ _ _ _ _ _ _ H Hrun Hg E3_0 ES h Hh).
    assert (Ht : 0 < rsum 0 (ms_cells ms) (thickness ms h)).
    { destruct (code_exists ms sd a H) as [sc0 Hc0]. apply rsum_pos; [assert (1 <= ms_cells ms)%Z by apply H; lia|].
      intros i Hi. unfold thickness. rewrite <- (co_width _ _ _ Hc0), <- (co_sig _ _ _ Hc0) by auto.
      apply (own_pos ms sd a sc0 H Hc0); auto. }
    set (t := rsum 0 (ms_cells ms) (thickness ms h)) in *.
    pose proof (E3_exp t ltac:(lra)). pose proof (E3_nonneg t ltac:(lra)).
    assert (exp (- t) < 1) by (rewrite <- exp_0; apply exp_increasing; lra). nra.
  - intros h i j Hh Hi Hj. apply (C71_slab_probabilities _ _ _ _ _ _ _ _ _ _ _ _ H Hrun Hg); auto.
  - intros h i Hh Hi. apply (C71_slab_probabilities _ _ _ _ _ _ _ _ _ _ _ _ H Hrun Hg h i Hh Hi).
Qed.
Print Assumptions C73_slab_well_posed.
Example C73_slab_hypotheses_met : exists sc g g' check M F,
  transport_ready (three SLAB) (ex_solver 1 1 FORWARD) 1 /\
  transport_run E3 Ki3 exp sqrt (three SLAB) (ex_solver 1 1 FORWARD) sc g g' check M F /\
  well_posed 3 M.
Proof.
  pose proof (three_ready SLAB 1 1 FORWARD ltac:(discriminate)) as H.
  destruct (C55_transport_defined E3 Ki3 exp sqrt _ _ _ H) as (sc & g & g' & c & M & F & Hrun).
  exists sc, g, g', c, M, F. split; [exact H|]. split; [exact Hrun|].
  apply (C73_slab_well_posed _ _ _ _ _ _ _ _ _ _ _ _ H Hrun eq_refl ltac:(lra)); cbn [three ms_groups ms_cells].
  - intros e e' i He He' Hi. assert (e = 0)%Z as -> by lia. assert (e' = 0)%Z as -> by lia.
    change (0 <= tsc (mesh_tables ex_slab) 0 0 i). destruct (ex_slab_tables i Hi) as (_ & _ & -> & _). lra.
  - intros e i He Hi. assert (e = 0)%Z as -> by lia. pose proof (rsum_one 0 (fun e' => tsc (mesh_tables (three SLAB)) 0 e' i)) as Q.
    cbn [Z.add] in Q. rewrite Q.
    change (tsc (mesh_tables ex_slab) 0 0 i < ttot (mesh_tables ex_slab) 0 i).
    destruct (ex_slab_tables i Hi) as (_ & -> & -> & _). lra.
Qed.

(* Cylinders and spheres with albedo below 1.  Missing: that the self
   collision probabilities are never negative (see C71_curved_partial); it
   stays as a hypothesis. *)
Theorem C73_curved_partial k3 ms sd a sc g g' check M F :
  transport_ready ms sd a -> transport_run k3 Ki3 exp sqrt ms sd sc g g' check M F ->
  (ms_geom ms = CYLINDER \/ ms_geom ms = SPHERE) -> 0 <= a < 1 ->
  let n := ms_cells ms in let en := ms_groups ms in let d := mesh_tables ms in
  (forall h i, (0 <= h < en)%Z -> (0 <= i < n)%Z -> 0 <= t3_at g i i h) ->
  (forall e e' i, (0 <= e < en)%Z -> (0 <= e' < en)%Z -> (0 <= i < n)%Z -> 0 <= tsc d e e' i) ->
  (forall e i, (0 <= e < en)%Z -> (0 <= i < n)%Z -> rsum 0 en (fun e' => tsc d e e' i) < ttot d e i) ->
  well_posed (n * en) M.
Proof.
  intros H Hrun Hg Ha n en d Hdiag Hsc Habs. apply monotone_well_posed.
  pose proof (spec_surface_ok ms ltac:(apply H) ltac:(apply H)) as ES. pose proof PI_RGT_0 as HP.
  pose proof (radius_out_pos ms sd a H) as Hro. unfold radius in Hro.
  eapply (transport_monotone _ _ _ _ _ _ _ _ _ _ _ _ _ _ H Hrun ES); auto; try lra.
  - unfold spec_surface. destruct Hg as [-> | ->].
    + apply Rmult_lt_0_compat; lra.
    + apply Rmult_lt_0_compat; [|lra]. apply Rmult_lt_0_compat; [lra|apply pow_lt, Hro].
  - intros h Hh. assert (B : surface_to_surface ms (spec_surface ms) g h <= 1).
    { destruct Hg as [Hg|Hg].
      - apply (C54_cylinder _ _ _ _ _ _ _ _ _ _ _ _ _ _ H Hrun Hg ES sqrt_root_like Ki3_0 Ki3_bounds h Hh).
      - apply (C54_sphere_refuted _ _ _ _ _ _ _ _ _ _ _ _ _ _ H Hrun Hg ES exp_0
          ltac:(intros x Hx; split; [left; apply exp_pos|apply exp_le_1, Hx]) sqrt_root_like h Hh). }
    nra.
  - intros h i j Hh Hi Hj. destruct (Z.eq_dec j i) as [->|Hd]; [apply Hdiag; auto|].
    apply (C71_curved_partial _ _ _ _ _ _ _ _ _ _ _ _ _ H Hrun Hg (ray_kernel_good ms) sqrt_root_like h i Hh Hi); auto.
  - intros h i Hh Hi.
    apply (C71_curved_partial _ _ _ _ _ _ _ _ _ _ _ _ _ H Hrun Hg (ray_kernel_good ms) sqrt_root_like h i Hh Hi).
Qed.
Print Assumptions C73_curved_partial.

(* ---------- C50, cylinder and sphere ---------- *)

(* half the chord that a line at distance y from the centre cuts from the
   ball (or circle) of radius r; nothing when it passes outside *)
Definition half_cut (y r : R) : R := if Rle_dec r y then 0 else sqrt (r ^ 2 - y ^ 2).

(* The ray k through ring m passes inside ring m, and what is stored for it at
   cell j is the integral of the total cross section from the middle of the
   chord to the outer radius of cell j, over the radii of the mesh in
   centimetres; cells inside the ray are not crossed. *)
Theorem C50_curved_optical_distance ms sd a : transport_ready ms sd a -> ms_geom ms = CYLINDER \/ ms_geom ms = SPHERE ->
  exists sc zz tau, newSpecCode PI ms sd = Ok sc /\ curvedTracks sqrt sc = Ok (zz, tau) /\
  let r i := 100 * vat (ms_bounds ms) i in
  forall h m j k, (0 <= h < ms_groups ms)%Z -> (0 <= m <= j)%Z -> (j < ms_cells ms)%Z -> (0 <= k < 8)%Z ->
    exists y, t3_at zz m j k = y /\ r m < y < r (m + 1)%Z /\
      t4_at tau m j k h = rsum 0 (j + 1) (fun l => ttot (mesh_tables ms) h l * (half_cut y (r (l + 1)%Z) - half_cut y (r l))) /\
      0 < t4_at tau m j k h.
Proof.
  intros H Hg. destruct (code_exists ms sd a H) as [sc Hc]. pose proof Hc as C. destruct C.
  assert (Hge : (0 <= ms_groups ms)%Z) by (destruct H as ((_ & _ & _ & X & _) & _); exact X).
  assert (Hl : (1 <= ms_cells ms)%Z) by apply H.
  destruct (wp_ok _ _ (curvedTracks_wp sqrt sc ltac:(lia) ltac:(lia) co_rad co_tr co_tc)) as ([zz tau] & Et & _ & Hz & _ & Ht).
  exists sc, zz, tau. split; [exact co_new|]. split; [exact Et|]. intros r h m j k Hh Hm Hj Hk. cbn [fst snd] in *.
  assert (Er : forall i, r i = radius ms i) by (intros; unfold r, radius; ring).
  exists (ray_radius ms m k). rewrite Hz by lia. rewrite (ray_bridge ms sd sc Hc). split; [reflexivity|].
  assert (Hy : radius ms m < ray_radius ms m k < radius ms (m + 1)).
  { pose proof (radius_step ms sd a H m ltac:(lia)) as S. unfold ray_radius.
    assert (N : 0 < node k ^ 2 < 1).
    { assert (A : 0 < node k < 1).
      { unfold node, abscissa. assert (k = 0 \/ k = 1 \/ k = 2 \/ k = 3 \/ k = 4 \/ k = 5 \/ k = 6 \/ k = 7)%Z as K by lia.
        repeat (destruct K as [K|K]); subst k; cbn [Z.to_nat map nth Pos.to_nat Pos.iter_op Nat.add]; rnum;
          repeat match goal with |- context [Pos.to_nat ?p] => let v := eval compute in (Pos.to_nat p) in change (Pos.to_nat p) with v end;
          cbn [nth map]; lra. }
      cbn [pow]. nra. }
    revert N. generalize (node k ^ 2). intros q N. nra. }
  rewrite !Er. split; [exact Hy|].
  set (y := ray_radius ms m k) in *.
  assert (R0 : 0 <= radius ms m) by (apply (radius_step ms sd a H m); lia).
  assert (Cin : forall i, (0 <= i <= m)%Z -> half_cut y (radius ms i) = 0).
  { intros i Hi. unfold half_cut. destruct (Rle_dec _ _) as [L|L]; [reflexivity|]. exfalso. apply L.
    pose proof (radius_le ms sd a H i m Hi ltac:(lia)). lra. }
  assert (Cout : forall i, (m < i <= ms_cells ms)%Z -> half_cut y (radius ms i) = sqrt (radius ms i ^ 2 - y ^ 2) /\ y < radius ms i).
  { intros i Hi. pose proof (radius_le ms sd a H (m + 1) i ltac:(lia) ltac:(lia)). unfold half_cut.
    destruct (Rle_dec _ _) as [L|L]; [lra|]. split; [reflexivity|lra]. }
  assert (E : t4_at tau m j k h = rsum 0 (j + 1) (fun l => ttot (mesh_tables ms) h l * (half_cut y (radius ms (l + 1)) - half_cut y (radius ms l)))).
  { rewrite Ht by lia. rewrite (opt_bridge sqrt ms sd sc h Hc) by lia. unfold ray_optical.
    rewrite (rsum_split 0 m (j + 1)) by lia. rewrite (rsum_0 0 m).
    2:{ intros l Hl'. rewrite !Cin by lia. ring. }
    rewrite Rplus_0_l. apply rsum_ext. intros l Hl'.
    destruct (Cout (l + 1)%Z ltac:(lia)) as [-> _]. unfold half_chord. fold y. destruct (l =? m)%Z eqn:El.
    - rewrite (Cin l) by lia. ring.
    - destruct (Cout l ltac:(lia)) as [-> _]. replace (l - 1 + 1)%Z with l by ring. ring. }
  split.
  - rewrite E. apply rsum_ext. intros l _. rewrite !Er. reflexivity.
  - rewrite E, (rsum_split 0 m (j + 1)), (rsum_0 0 m) by (try lia; intros; rewrite !Cin by lia; ring).
    rewrite Rplus_0_l. assert (P : forall l, (m <= l < j + 1)%Z ->
      0 < ttot (mesh_tables ms) h l * (half_cut y (radius ms (l + 1)) - half_cut y (radius ms l))).
    { intros l Hl'. apply Rmult_lt_0_compat; [apply H; lia|].
      destruct (Cout (l + 1)%Z ltac:(lia)) as [-> L1]. destruct (Z.eq_dec l m) as [->|Nl].
      - rewrite Cin by lia. rewrite Rminus_0_r. apply sqrt_lt_R0. nra.
      - destruct (Cout l ltac:(lia)) as [-> L2]. pose proof (radius_step ms sd a H l ltac:(lia)) as S.
        enough (sqrt (radius ms l ^ 2 - y ^ 2) < sqrt (radius ms (l + 1) ^ 2 - y ^ 2)) by lra. apply sqrt_lt_1_alt. nra. }
    rewrite rsum_first by lia. assert (0 <= rsum (m + 1) (j + 1) (fun l => ttot (mesh_tables ms) h l * (half_cut y (radius ms (l + 1)) - half_cut y (radius ms l)))).
    { apply rsum_nonneg. intros l Hl'. left. apply P. lia. }
    pose proof (P m ltac:(lia)). lra.
Qed.
Print Assumptions C50_curved_optical_distance.
(* three cells of one centimetre: the rays of the second ring cross the second
   and the third cell only *)
Example C50_curved_hypotheses_met :
  transport_ready (three CYLINDER) (ex_solver 0 0 FORWARD) 0 /\ transport_ready (three SPHERE) (ex_solver 0 0 FORWARD) 0 /\
  (forall y, 1 < y < 2 -> half_cut y 1 = 0 /\ 0 < half_cut y 3) /\ half_cut 3 5 = 4.
Proof.
  split; [apply three_ready; discriminate|]. split; [apply three_ready; discriminate|]. unfold half_cut. split.
  - intros y Hy. split; destruct (Rle_dec _ _) as [L|L]; try lra. apply sqrt_lt_R0. nra.
  - destruct (Rle_dec _ _) as [L|L]; [lra|]. replace (5 ^ 2 - 3 ^ 2) with (4 * 4) by ring. apply sqrt_square. lra.
Qed.
