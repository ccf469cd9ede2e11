(* C66, C67: the subcritical flux of ADSCalculation.cpp. *)
From Coq Require Import String ZArith List Bool Lia Reals Lra.
From Coq Require QArith_base.
From Verif Require Import Base BaseLemmas NumR NumQ Blocks LinAlg ModelNumTools ModelEigen ModelMesh ModelReactor
  ModelDiffusion ModelHeat ModelSpectrum ModelKinetics ModelOutput ModelCalculation
  ProofsMesh ProofsDiffusion ProofsDiffusionR ProofsPower ProofsADS PropsDiffusion.
Import ListNotations.
Local Open Scope R_scope.

(* a field over groups and cells as the vector of unknowns of the diffusion system *)
Definition unknowns (ms : mesh R) (x : Z -> Z -> R) (i : Z) : R := x (i / ms_cells ms)%Z (i mod ms_cells ms)%Z.
(* the source in cell p and group g, of the given strength per unit volume *)
Definition point_source (ms : mesh R) (s : R) (p g i : Z) : R :=
  if (i =? p + g * ms_cells ms)%Z then s * tV (mesh_tables ms) p else 0.

(* The stored modes are eigenmodes of the system and of its transpose, with
   simple eigenvalues other than 0 and 1. *)
Definition stored_eigenmodes (r : reactor R) (sd : solverData R) (nm : Z) (M F : mat R) : Prop :=
  let ms := rx_mesh r in let size := (ms_cells ms * ms_groups ms)%Z in
  let k := fun a => nth (Z.to_nat a) (rx_fwd r) 0 in
  diffusionSystem PI ms sd = Ok (M, F) /\
  (forall a i, (0 <= a < nm)%Z -> (0 <= i < size)%Z ->
     app size (mat_at F) (unknowns ms (forward_mode ms a)) i = k a * app size (mat_at M) (unknowns ms (forward_mode ms a)) i) /\
  (forall a i, (0 <= a < nm)%Z -> (0 <= i < size)%Z ->
     app size (fun i j => mat_at F j i) (unknowns ms (adjoint_mode ms a)) i =
     k a * app size (fun i j => mat_at M j i) (unknowns ms (adjoint_mode ms a)) i) /\
  (forall a b, (0 <= a < nm)%Z -> (0 <= b < nm)%Z -> a <> b -> k a <> k b) /\
  (forall a, (0 <= a < nm)%Z -> k a <> 0 /\ k a <> 1).

(* the adjoint weighted fission source of a mode, with the fissions of every group *)
Definition fission_weight (r : reactor R) (F : mat R) (a : Z) : R :=
  let ms := rx_mesh r in let size := (ms_cells ms * ms_groups ms)%Z in
  dot size (unknowns ms (adjoint_mode ms a)) (app size (mat_at F) (unknowns ms (forward_mode ms a))).
(* what the code divides by: each group's flux meets the fission data of all groups *)
Definition code_weight (r : reactor R) (a : Z) : R :=
  let ms := rx_mesh r in let d := mesh_tables ms in
  rsum 0 (ms_cells ms) (fun m => rsum 0 (ms_groups ms) (fun e =>
    adjoint_mode ms a e m * (tchi d e m * rsum 0 (ms_groups ms) (fun e' => tni d e' m * tfis d e' m))
      * forward_mode ms a e m * tV d m)).

Section ADS.
Variable to_unsigned : R -> res Z.

Lemma unknowns_at ms x e m : (0 <= m < ms_cells ms)%Z -> unknowns ms x (m + e * ms_cells ms) = x e m.
Proof.
  intros H. unfold unknowns. rewrite Z.div_add, Z.mod_add, Z.div_small, Z.mod_small by lia. reflexivity.
Qed.

Lemma index_split n en i : (0 <= n)%Z -> (0 <= i < n * en)%Z -> (0 <= i / n < en)%Z /\ (0 <= i mod n < n)%Z /\ i = (i mod n + i / n * n)%Z.
Proof. intros Hn H. assert (n = 0 \/ 0 < n)%Z as [->|] by lia; [lia|]. Z.to_euclidean_division_equations. nia. Qed.

Lemma source_dot ms x s p g : (0 <= p < ms_cells ms)%Z -> (0 <= g < ms_groups ms)%Z ->
  dot (ms_cells ms * ms_groups ms) (unknowns ms x) (point_source ms s p g) = x g p * (s * tV (mesh_tables ms) p).
Proof.
  intros Hp Hg. unfold dot. rewrite (rsum_single _ _ _ (p + g * ms_cells ms)%Z).
  - unfold point_source. rewrite Z.eqb_refl, unknowns_at by lia. reflexivity.
  - nia.
  - intros j Hj Hne. unfold point_source. replace (j =? _)%Z with false by lia. ring.
Qed.

(* Any number of groups and modes: what the flux leaves of the driven balance
   M f = F f + q along each adjoint mode. It vanishes when the two weights agree
   or the source is orthogonal to the mode; see C66_two_groups_refuted. *)
Theorem C66_residual_partial (r : reactor R) sd nm s p g strength M F :
  ads_ready r nm p g strength -> to_unsigned strength = Ok s ->
  stored_eigenmodes r sd nm M F ->
  (forall a, (0 <= a < nm)%Z -> code_weight r a <> 0) ->
  let ms := rx_mesh r in let size := (ms_cells ms * ms_groups ms)%Z in
  exists f, adsFlux PI to_unsigned r = Ok f /\
    mrows f = ms_groups ms /\ mcols f = ms_cells ms /\
    forall a, (0 <= a < nm)%Z ->
      let phi := unknowns ms (mat_at f) in let psi := unknowns ms (adjoint_mode ms a) in
      let q := point_source ms (IZR s) p g in
      dot size psi (fun i => app size (mat_at M) phi i - app size (mat_at F) phi i - q i) =
      dot size psi q * (fission_weight r F a / code_weight r a - 1).
Proof.
  intros Hr Hs (E & Hfwd & Hadj & Hdist & Hk) Hw ms size.
  destruct (wp_ok _ _ (adsFlux_wp to_unsigned r nm s p g strength Hr Hs)) as (f & Ef & R1 & C1 & Hf).
  exists f. split; [exact Ef|]. split; [exact R1|]. split; [exact C1|]. intros a Ha phi psi q.
  destruct Hr as (_ & _ & _ & _ & _ & _ & _ & Hp & Hg & _ & _).
  set (c := ads_coefficient r s p g).
  assert (Hexp : forall j, (0 <= j < size)%Z -> phi j = rsum 0 nm (fun b => c b * unknowns ms (forward_mode ms b) j)).
  { intros j Hj. destruct (index_split (ms_cells ms) (ms_groups ms) j ltac:(unfold ms; lia) Hj) as (A & B & _). unfold phi, unknowns at 1. rewrite Hf by auto. reflexivity. }
  pose proof (dot_residual size nm (mat_at M) (mat_at F) (fun b => unknowns ms (forward_mode ms b))
    (fun b => unknowns ms (adjoint_mode ms b)) (fun b => nth (Z.to_nat b) (rx_fwd r) 0) Hfwd Hadj Hdist Hk c phi a Ha Hexp) as HR.
  cbn beta in HR. fold psi in HR.
  unfold dot at 1. rewrite (rsum_ext 0 size _ (fun i => psi i * (app size (mat_at M) phi i - app size (mat_at F) phi i) - psi i * q i)) by (intros; ring).
  rewrite rsum_minus. fold (dot size psi q).
  change (rsum 0 size (fun k => psi k * (app size (mat_at M) phi k - app size (mat_at F) phi k)))
    with (dot size psi (fun i => app size (mat_at M) phi i - app size (mat_at F) phi i)).
  rewrite HR. unfold psi, q, size. rewrite source_dot by auto.
  change (dot (ms_cells ms * ms_groups ms) (unknowns ms (adjoint_mode ms a)) _) with (fission_weight r F a).
  unfold c, ads_coefficient. fold ms. change (ads_weight r a) with (code_weight r a).
  destruct (Hk a Ha) as [K0 K1]. specialize (Hw a Ha). field. repeat split; auto. lra.
Qed.

(* one group: the two weights agree *)
Lemma one_group_weight (r : reactor R) sd M F aL aR a : ready (rx_mesh r) ->
  (2 <= ms_cells (rx_mesh r))%Z -> ms_groups (rx_mesh r) = 1%Z -> sd_energies sd = 1%Z ->
  albedos (rx_mesh r) sd aL aR -> 0 <= aL <= 1 -> sd_dir sd = FORWARD ->
  diffusionSystem PI (rx_mesh r) sd = Ok (M, F) ->
  code_weight r a = fission_weight r F a.
Proof.
  intros Hrd Hn Hg He Hal HL Hdir E. set (ms := rx_mesh r) in *. set (d := mesh_tables ms).
  pose proof (ready_data ms Hrd) as Hd. rewrite Hg, <- He in Hd.
  destruct (C44_fission_operator ms sd d aL aR Hn ltac:(lia) Hd Hal HL Hdir) as (M' & F' & E' & _ & _ & HF).
  rewrite E in E'. injection E' as <- <-. rewrite He in HF.
  unfold code_weight, fission_weight. fold ms. fold d. rewrite Hg, Z.mul_1_r. unfold dot. apply rsum_ext. intros m Hm.
  rewrite !(rsum_one 0).
  pose proof (unknowns_at ms (adjoint_mode ms a) 0 m Hm) as U1. pose proof (fun m' H => unknowns_at ms (forward_mode ms a) 0 m' H) as U2.
  cbn in U1, U2. rewrite Z.add_0_r in U1. rewrite U1. unfold app. rewrite (rsum_single 0 _ _ m Hm).
  - pose proof (HF 0%Z m 0%Z m ltac:(lia) Hm ltac:(lia) Hm) as H. rewrite Z.eqb_refl in H. change (0 * ms_cells ms)%Z with 0%Z in H. rewrite !Z.add_0_r in H.
    rewrite H. specialize (U2 m Hm). rewrite Z.add_0_r in U2. rewrite U2. ring.
  - intros m' Hm' Hne. pose proof (HF 0%Z m 0%Z m' ltac:(lia) Hm ltac:(lia) Hm') as H.
    replace (m' =? m)%Z with false in H by lia. change (0 * ms_cells ms)%Z with 0%Z in H. rewrite !Z.add_0_r in H. rewrite H. ring.
Qed.

(* C66 with one energy group *)
Theorem C66_one_group_partial (r : reactor R) sd nm s p strength M F aL aR :
  ads_ready r nm p 0 strength -> to_unsigned strength = Ok s ->
  (2 <= ms_cells (rx_mesh r))%Z -> ms_groups (rx_mesh r) = 1%Z -> sd_energies sd = 1%Z ->
  albedos (rx_mesh r) sd aL aR -> 0 <= aL <= 1 -> sd_dir sd = FORWARD ->
  stored_eigenmodes r sd nm M F ->
  (forall a, (0 <= a < nm)%Z -> fission_weight r F a <> 0) ->
  let ms := rx_mesh r in let n := ms_cells ms in
  exists f, adsFlux PI to_unsigned r = Ok f /\
    let phi := mat_at f 0 in let q := fun i => if (i =? p)%Z then IZR s * tV (mesh_tables ms) p else 0 in
    let residual := fun i => app n (mat_at M) phi i - app n (mat_at F) phi i - q i in
    (forall a, (0 <= a < nm)%Z -> dot n (adjoint_mode ms a 0) residual = 0) /\
    (nm = n -> forall i, (0 <= i < n)%Z -> app n (mat_at M) phi i = app n (mat_at F) phi i + q i).
Proof.
  intros Hr Hs Hn Hg He Hal HL Hdir HM Hw ms n. fold ms in Hg.
  assert (Hw' : forall a, code_weight r a = fission_weight r F a).
  { intros a. apply (one_group_weight r sd M F aL aR); auto; [apply Hr|apply HM]. }
  destruct (C66_residual_partial r sd nm s p 0 strength M F Hr Hs HM) as (f & Ef & _ & _ & H).
  { intros a Ha. rewrite Hw'. auto. }
  fold ms in H. rewrite Hg, Z.mul_1_r in H. fold n in H.
  exists f. split; [exact Ef|]. intros phi q residual.
  assert (U : forall x i, (0 <= i < n)%Z -> unknowns ms x i = x 0%Z i).
  { intros x i Hi. rewrite <- (unknowns_at ms x 0 i Hi). f_equal. lia. }
  assert (R0 : forall a, (0 <= a < nm)%Z -> dot n (adjoint_mode ms a 0) residual = 0).
  { intros a Ha. specialize (H a Ha). cbn zeta in H. rewrite Hw' in H. specialize (Hw a Ha).
    replace (fission_weight r F a / fission_weight r F a - 1) with 0 in H by (field; exact Hw). rewrite Rmult_0_r in H.
    rewrite <- H. unfold dot. apply rsum_ext. intros i Hi. rewrite U by auto. f_equal. unfold residual.
    f_equal; [f_equal|].
    - unfold app. apply rsum_ext. intros j Hj. rewrite U by auto. reflexivity.
    - unfold app. apply rsum_ext. intros j Hj. rewrite U by auto. reflexivity.
    - unfold q, point_source. replace (p + 0 * ms_cells ms)%Z with p by lia. reflexivity. }
  split; [exact R0|]. intros Hnm i Hi.
  destruct HM as (E & Hfwd & Hadj & Hdist & Hk). fold ms in Hfwd, Hadj. rewrite Hg, Z.mul_1_r in Hfwd, Hadj. fold n in Hfwd, Hadj.
  assert (residual i = 0); [|unfold residual in *; lra].
  refine (complete n nm (mat_at M) (mat_at F) (fun b => unknowns ms (forward_mode ms b))
    (fun b => unknowns ms (adjoint_mode ms b)) (fun b => nth (Z.to_nat b) (rx_fwd r) 0) Hfwd Hadj Hdist residual Hnm _ _ i Hi).
  - intros a Ha. specialize (Hw a Ha). unfold fission_weight in Hw. fold ms in Hw. rewrite Hg, Z.mul_1_r in Hw. exact Hw.
  - intros a Ha. rewrite <- (R0 a Ha). unfold dot. apply rsum_ext. intros j Hj. rewrite U by auto. reflexivity.
Qed.
End ADS.
Print Assumptions C66_residual_partial.
Print Assumptions C66_one_group_partial.

(* ---------- a case that meets the hypotheses ---------- *)

(* two equal 1 cm cells between mirrors, one group: M = [3/2 -1; -1 3/2],
   F = 1/4, so k is 1/2 with the flat mode and 1/10 with the odd one *)
Definition driven_material (odd : R) : material R :=
  mkMaterial "m" 1 20 0 (mkmat 1 2 (fun _ a => if (a =? 0)%Z then 1 else odd))
    (mkmat 1 2 (fun _ a => if (a =? 0)%Z then 1 else odd)) (vzeros 0) None
    [[1]] [[1 / 4]] [[1]] [[1 / 2]] [[1]] [[1]].
Definition driven_slab : mesh R :=
  mkMesh (mkvec 3 (fun i => IZR i / 100)) SLAB 2 1 [driven_material 1; driven_material (-1)] 2 2.
Definition driven_reactor (s : R) : reactor R :=
  mkReactor driven_slab 1 [1 / 2; 1 / 10] [1 / 2; 1 / 10] (mkKinetics 0 0 [] [] [] []) (s, 1%Z, 1%Z).

Lemma driven_ready : ready driven_slab.
Proof.
  repeat split; cbn; try lia; try congruence.
  all: assert (m = 0 \/ m = 1)%Z as [->| ->] by (cbn in *; lia); change (Z.to_nat 1) with 1%nat; cbn;
    try reflexivity; try (right; unfold zlen; cbn; lia); unfold zlen; cbn; lia.
Qed.

Lemma driven_ads_ready s : ads_ready (driven_reactor s) 2 0 0 s.
Proof.
  unfold ads_ready. cbn zeta. split; [exact driven_ready|]. cbn. repeat split; try lia; try (unfold zlen; cbn; lia).
  all: assert (m = 0 \/ m = 1)%Z as [->| ->] by lia; change (Z.to_nat 1) with 1%nat; cbn; lia.
Qed.

Lemma driven_tables : let d := mesh_tables driven_slab in forall m, (0 <= m < 2)%Z ->
    tD d 0 m = 1 /\ ttot d 0 m = 1 /\ tsc d 0 0 m = 1 / 2 /\ tfis d 0 m = 1 / 4 /\ tni d 0 m = 1 /\ tchi d 0 m = 1 /\
    tdx d m = 1 /\ tS d m = 1 /\ tS d (m + 1) = 1 /\ tV d m = 1.
Proof.
  intros d m Hm.
  assert (Hc : forall c t, law_value (T := R) [c] t = c) by (intros; rewrite law_value_R; exact (eq_trans (rsum_one 0 _) (Rmult_1_r c))).
  assert (Hmat : cell_material driven_slab m = driven_material (if (m =? 0)%Z then 1 else (-1))).
  { assert (m = 0 \/ m = 1)%Z as [->| ->] by lia; reflexivity. }
  cbn [d mesh_tables tD ttot tsc tfis tni tchi tdx tS tV]. unfold law_at, law_at0, law_at. rewrite Hmat.
  cbn [driven_material mt_diff mt_totXS mt_scatt mt_fisXS mt_ni mt_chi mt_temp driven_slab ms_groups ms_geom ms_bounds vat].
  change (Z.to_nat (0 + 0 * 1)) with 0%nat. change (Z.to_nat 0) with 0%nat. cbn [nth]. rewrite !Hc.
  rewrite plus_IZR. cbn. repeat split; lra.
Qed.

Definition driven_solver : solverData R := ex_solver 1 1 FORWARD.

Lemma driven_system : exists M F, diffusionSystem PI driven_slab driven_solver = Ok (M, F) /\
  mat_at M 0 0 = 3 / 2 /\ mat_at M 0 1 = -1 /\ mat_at M 1 0 = -1 /\ mat_at M 1 1 = 3 / 2 /\
  mat_at F 0 0 = 1 / 4 /\ mat_at F 0 1 = 0 /\ mat_at F 1 0 = 0 /\ mat_at F 1 1 = 1 / 4.
Proof.
  set (d := mesh_tables driven_slab).
  assert (Hal : albedos driven_slab driven_solver 1 1) by (split; reflexivity).
  assert (Hd : mesh_data PI driven_slab (sd_energies driven_solver) d) by exact (ready_data driven_slab driven_ready).
  destruct (system_bl driven_slab driven_solver d 1 1 ltac:(cbn; lia) ltac:(cbn; lia) Hd Hal ltac:(lra) ltac:(cbn; congruence))
    as (M & F & E & (_ & _ & HM) & _ & _ & HF).
  exists M, F. split; [exact E|].
  assert (B : forall (A : mat R) m m', Blocks.blk 2 A 0 m 0 m' = mat_at A m m') by (intros; unfold Blocks.blk; f_equal; lia).
  assert (Ht : transfer driven_solver d = fun e e' m => tsc d e' e m) by reflexivity.
  rewrite Ht in HM. clear Ht. change (sd_dir driven_solver) with FORWARD in HF. cbn beta iota in HF.
  change (ms_cells driven_slab) with 2%Z in *. change (sd_energies driven_solver) with 1%Z in *.
  destruct (driven_tables 0%Z ltac:(lia)) as (A1 & A2 & A3 & A4 & A5 & A6 & A7 & A8 & A9 & A10).
  destruct (driven_tables 1%Z ltac:(lia)) as (B1 & B2 & B3 & B4 & B5 & B6 & B7 & B8 & B9 & B10).
  fold d in A1, A2, A3, A4, A5, A6, A7, A8, A9, A10, B1, B2, B3, B4, B5, B6, B7, B8, B9, B10.
  assert (D0 : dif d 0 0 = 1 / 2).
  { unfold dif. rnum. change (0 + 1)%Z with 1%Z in *. rewrite A1, B1, B8, A7, B7. lra. }
  assert (bc : forall x y z, bcoef x 1 y z = 0) by (intros; unfold bcoef; rnum; unfold Rdiv; ring).
  clearbody d.
  assert (HM' : forall m m', (0 <= m < 2)%Z -> (0 <= m' < 2)%Z -> mat_at M m m' =
    lossB d (tri d (dgA driven_slab d 1 1)) (fun e e' m => tsc d e' e m) 0 m 0 m').
  { intros m m' H H'. rewrite <- B. apply HM; lia. }
  assert (HF' : forall m m', (0 <= m < 2)%Z -> (0 <= m' < 2)%Z -> mat_at F m m' = (if (m' =? m)%Z then fp d 0 m else 0) * tchi d 0 m).
  { intros m m' H H'. rewrite <- B. apply HF; lia. }
  unfold lossB, tri, dgA, rem, two, mtwo in HM'. unfold fp in HF'. change (ms_cells driven_slab) with 2%Z in HM'.
  change (2 - 1)%Z with 1%Z in HM'. change (2 - 2)%Z with 0%Z in HM'. rnum.
  repeat apply conj.
  1-4: rewrite HM' by lia; Blocks.zdec; change (1 - 1)%Z with 0%Z; rewrite ?bc, ?D0, ?A2, ?A3, ?A10, ?B2, ?B3, ?B10; lra.
  all: rewrite HF' by lia; Blocks.zdec; rewrite ?A4, ?A5, ?A6, ?A10, ?B4, ?B5, ?B6, ?B10; lra.
Qed.

Lemma rsum2 f : rsum 0 2 f = f 0%Z + f 1%Z.
Proof. unfold nsum. change (Z.to_nat (2 - 0)) with 2%nat. cbn [nsum_up]. rnum. change (0 + 1)%Z with 1%Z. lra. Qed.

Example C66_hypotheses_met : exists M F, let r := driven_reactor 3 in
  ads_ready r 2 0 0 3 /\ stored_eigenmodes r driven_solver 2 M F /\ (2 = ms_cells (rx_mesh r))%Z /\
  albedos (rx_mesh r) driven_solver 1 1 /\
  forall a, (0 <= a < 2)%Z -> fission_weight r F a <> 0.
Proof.
  destruct driven_system as (M & F & E & M00 & M01 & M10 & M11 & F00 & F01 & F10 & F11).
  exists M, F. intros r. split; [exact (driven_ads_ready 3)|].
  assert (U : forall x i, (0 <= i < 2)%Z -> unknowns driven_slab x i = x 0%Z i).
  { intros x i Hi. rewrite <- (unknowns_at driven_slab x 0 i Hi). f_equal. lia. }
  assert (P : forall a, (0 <= a < 2)%Z -> forward_mode driven_slab a 0 0 = 1 /\ forward_mode driven_slab a 0 1 = (if (a =? 0)%Z then 1 else -1)
     /\ adjoint_mode driven_slab a 0 0 = 1 /\ adjoint_mode driven_slab a 0 1 = (if (a =? 0)%Z then 1 else -1)).
  { intros a Ha. assert (a = 0 \/ a = 1)%Z as [->| ->] by lia; cbn; auto. }
  split; [|split; [reflexivity|split; [split; reflexivity|]]].
  - unfold stored_eigenmodes. change (rx_mesh r) with driven_slab. change (ms_cells driven_slab * ms_groups driven_slab)%Z with 2%Z.
    change (rx_fwd r) with [1 / 2; 1 / 10]. split; [exact E|]. unfold app. split; [|split; [|split]].
    + intros a i Ha Hi. rewrite !rsum2, !U by lia. destruct (P a Ha) as (P1 & P2 & _). rewrite P1, P2.
      assert (a = 0 \/ a = 1)%Z as [->| ->] by lia; assert (i = 0 \/ i = 1)%Z as [->| ->] by lia;
        change (Z.to_nat 1) with 1%nat; cbn [Z.to_nat nth Z.eqb]; rewrite ?M00, ?M01, ?M10, ?M11, ?F00, ?F01, ?F10, ?F11; lra.
    + intros a i Ha Hi. rewrite !rsum2, !U by lia. destruct (P a Ha) as (_ & _ & P1 & P2). rewrite P1, P2.
      assert (a = 0 \/ a = 1)%Z as [->| ->] by lia; assert (i = 0 \/ i = 1)%Z as [->| ->] by lia;
        change (Z.to_nat 1) with 1%nat; cbn [Z.to_nat nth Z.eqb]; rewrite ?M00, ?M01, ?M10, ?M11, ?F00, ?F01, ?F10, ?F11; lra.
    + intros a b Ha Hb Hne. assert (a = 0 \/ a = 1)%Z as [->| ->] by lia; assert (b = 0 \/ b = 1)%Z as [->| ->] by lia; try lia;
        change (Z.to_nat 1) with 1%nat; cbn [Z.to_nat nth]; intros H; lra.
    + intros a Ha. assert (a = 0 \/ a = 1)%Z as [->| ->] by lia; change (Z.to_nat 1) with 1%nat; cbn [Z.to_nat nth]; split; intros H; lra.
  - intros a Ha. unfold fission_weight. change (rx_mesh r) with driven_slab. change (ms_cells driven_slab * ms_groups driven_slab)%Z with 2%Z.
    unfold dot, app. rewrite !rsum2, !U by lia. destruct (P a Ha) as (P1 & P2 & P3 & P4). rewrite P1, P2, P3, P4, F00, F01, F10, F11.
    destruct (a =? 0)%Z; intros H; lra.
Qed.

(* ---------- C67 ---------- *)

(* the conversion to unsigned drops the fraction *)
Definition truncates (to_unsigned : R -> res Z) : Prop :=
  forall x s, (0 <= s < 2 ^ 32)%Z -> IZR s <= x < IZR s + 1 -> to_unsigned x = Ok s.
Definition with_strength (x : R) (r : reactor R) : reactor R :=
  mkReactor (rx_mesh r) (rx_power r) (rx_fwd r) (rx_adj r) (rx_kin r) (x, snd (fst (rx_ext r)), snd (rx_ext r)).

Lemma with_strength_ready r nm p g x y : ads_ready r nm p g x -> ads_ready (with_strength y r) nm p g y.
Proof.
  intros (A & B & C & D & E & F & G & H & I). repeat split; auto; try apply A; try apply F; auto; try apply H; try apply I.
  cbn. rewrite G. reflexivity.
Qed.

(* the flux follows the whole part of the strength *)
Theorem C67_whole_part (to_unsigned : R -> res Z) r nm p g x0 x s :
  truncates to_unsigned -> ads_ready r nm p g x0 -> (0 <= s < 2 ^ 32)%Z -> IZR s <= x < IZR s + 1 ->
  exists f f1, adsFlux PI to_unsigned (with_strength x r) = Ok f /\ adsFlux PI to_unsigned (with_strength 1 r) = Ok f1 /\
    forall e m, (0 <= e < ms_groups (rx_mesh r))%Z -> (0 <= m < ms_cells (rx_mesh r))%Z ->
      mat_at f e m = IZR s * mat_at f1 e m.
Proof.
  intros Ht Hr Hs Hx.
  destruct (wp_ok _ _ (adsFlux_wp to_unsigned (with_strength x r) nm s p g x (with_strength_ready _ _ _ _ _ x Hr) (Ht _ _ Hs Hx)))
    as (f & Ef & _ & _ & Hf).
  destruct (wp_ok _ _ (adsFlux_wp to_unsigned (with_strength 1 r) nm 1 p g 1 (with_strength_ready _ _ _ _ _ 1 Hr)
    (Ht 1 1%Z ltac:(lia) ltac:(lra)))) as (f1 & Ef1 & _ & _ & Hf1).
  exists f, f1. split; [exact Ef|]. split; [exact Ef1|]. intros e m He Hm. rewrite Hf, Hf1 by auto. rewrite <- rsum_scal.
  apply rsum_ext. intros a _. unfold ads_coefficient. cbn [with_strength rx_mesh rx_fwd].
  change (ads_weight (with_strength x r) a) with (ads_weight (with_strength 1 r) a). unfold Rdiv. ring.
Qed.
Print Assumptions C67_whole_part.

(* C67 for whole strengths; the fractions are missing, see C67_fractions_refuted *)
Theorem C67_proportional_partial (to_unsigned : R -> res Z) r nm p g x0 s c :
  truncates to_unsigned -> ads_ready r nm p g x0 -> (0 <= s < 2 ^ 32)%Z -> (0 <= c * s < 2 ^ 32)%Z ->
  exists f f', adsFlux PI to_unsigned (with_strength (IZR s) r) = Ok f /\
    adsFlux PI to_unsigned (with_strength (IZR c * IZR s) r) = Ok f' /\
    forall e m, (0 <= e < ms_groups (rx_mesh r))%Z -> (0 <= m < ms_cells (rx_mesh r))%Z ->
      mat_at f' e m = IZR c * mat_at f e m.
Proof.
  intros Ht Hr Hs Hc. rewrite <- mult_IZR.
  destruct (C67_whole_part to_unsigned r nm p g x0 (IZR s) s Ht Hr Hs ltac:(lra)) as (f & f1 & E & E1 & H).
  destruct (C67_whole_part to_unsigned r nm p g x0 (IZR (c * s)) (c * s) Ht Hr Hc ltac:(lra)) as (f' & f1' & E' & E1' & H').
  rewrite E1 in E1'. injection E1' as <-.
  exists f, f'. split; [exact E|]. split; [exact E'|]. intros e m He Hm. rewrite H, H' by auto. rewrite mult_IZR. ring.
Qed.
Print Assumptions C67_proportional_partial.

(* A strength below one gives no flux at all, and halving a strength of one
   does not halve the flux. *)
Theorem C67_fractions_refuted (to_unsigned : R -> res Z) : truncates to_unsigned ->
  (forall r nm p g x0 x, ads_ready r nm p g x0 -> 0 < x < 1 ->
     exists f, adsFlux PI to_unsigned (with_strength x r) = Ok f /\
       forall e m, (0 <= e < ms_groups (rx_mesh r))%Z -> (0 <= m < ms_cells (rx_mesh r))%Z -> mat_at f e m = 0) /\
  exists r f f', ads_ready r 2 0 0 1 /\ adsFlux PI to_unsigned (with_strength 1 r) = Ok f /\
    adsFlux PI to_unsigned (with_strength (1 / 2 * 1) r) = Ok f' /\ mat_at f' 0 0 <> 1 / 2 * mat_at f 0 0.
Proof.
  intros Ht.
  assert (Z0 : forall r nm p g x0 x, ads_ready r nm p g x0 -> 0 < x < 1 ->
     exists f, adsFlux PI to_unsigned (with_strength x r) = Ok f /\
       forall e m, (0 <= e < ms_groups (rx_mesh r))%Z -> (0 <= m < ms_cells (rx_mesh r))%Z -> mat_at f e m = 0).
  { intros r nm p g x0 x Hr Hx.
    destruct (C67_whole_part to_unsigned r nm p g x0 x 0 Ht Hr ltac:(lia) ltac:(lra)) as (f & f1 & E & _ & H).
    exists f. split; [exact E|]. intros e m He Hm. rewrite H by auto. ring. }
  split; [exact Z0|].
  destruct (Z0 (driven_reactor 1) 2%Z 0%Z 0%Z 1 (1 / 2 * 1) (driven_ads_ready 1) ltac:(lra)) as (f' & E' & H').
  pose proof (driven_ads_ready 1) as Hr.
  destruct (wp_ok _ _ (adsFlux_wp to_unsigned (with_strength 1 (driven_reactor 1)) 2 1 0 0 1 (with_strength_ready _ _ _ _ _ 1 Hr)
    (Ht 1 1%Z ltac:(lia) ltac:(lra)))) as (f & E & _ & _ & H).
  exists (driven_reactor 1), f, f'. split; [exact Hr|]. split; [exact E|]. split; [exact E'|].
  rewrite H' by (cbn; lia). rewrite H by (cbn; lia). rewrite rsum2.
  destruct (driven_tables 0%Z ltac:(lia)) as (A1 & A2 & A3 & A4 & A5 & A6 & A7 & A8 & A9 & A10).
  destruct (driven_tables 1%Z ltac:(lia)) as (B1 & B2 & B3 & B4 & B5 & B6 & B7 & B8 & B9 & B10).
  unfold ads_coefficient, ads_weight.
  change (rx_mesh (with_strength 1 (driven_reactor 1))) with driven_slab.
  change (rx_fwd (with_strength 1 (driven_reactor 1))) with [1 / 2; 1 / 10].
  change (ms_cells driven_slab) with 2%Z. change (ms_groups driven_slab) with 1%Z.
  assert (P : forall a, (0 <= a < 2)%Z -> forward_mode driven_slab a 0 0 = 1 /\ forward_mode driven_slab a 0 1 = (if (a =? 0)%Z then 1 else -1)
     /\ adjoint_mode driven_slab a 0 0 = 1 /\ adjoint_mode driven_slab a 0 1 = (if (a =? 0)%Z then 1 else -1)).
  { intros a Ha. assert (a = 0 \/ a = 1)%Z as [->| ->] by lia; cbn; auto. }
  rewrite !rsum2, !(rsum_one 0).
  destruct (P 0%Z ltac:(lia)) as (P1 & P2 & P3 & P4). destruct (P 1%Z ltac:(lia)) as (Q1 & Q2 & Q3 & Q4). cbn [Z.eqb] in *.
  rewrite P1, P2, P3, P4, Q1, Q2, Q3, Q4, A4, A5, A6, A10, B4, B5, B6, B10.
  change (Z.to_nat 1) with 1%nat. change (Z.to_nat 0) with 0%nat. cbn [nth].
  intros X. assert (Y : 1 / 2 / (1 - 1 / 2) * (1 * 1 * 1 / (1 * (1 * (1 * (1 / 4))) * 1 * 1 + 1 * (1 * (1 * (1 / 4))) * 1 * 1)) * 1 +
    1 / 10 / (1 - 1 / 10) * (1 * 1 * 1 / (1 * (1 * (1 * (1 / 4))) * 1 * 1 + -1 * (1 * (1 * (1 / 4))) * -1 * 1)) * 1 = 20 / 9) by field.
  rewrite Y in X. lra.
Qed.
Print Assumptions C67_fractions_refuted.

Example C67_hypotheses_met : exists to_unsigned, truncates to_unsigned /\ ads_ready (driven_reactor 3) 2 0 0 3.
Proof.
  exists (fun x => Ok (Int_part x)). split; [|exact (driven_ads_ready 3)].
  intros x s Hs Hx. f_equal. pose proof (base_Int_part x) as [A B].
  assert (Int_part x < s + 1)%Z by (apply lt_IZR; rewrite plus_IZR; lra).
  assert (s < Int_part x + 1)%Z by (apply lt_IZR; rewrite plus_IZR; lra). lia.
Qed.

(* ---------- C66 fails with two groups ---------- *)

(* Rational arithmetic. Two equal 1 cm cells between mirrors and two groups; the
   fast group is born from fission. eig gives the two modes of finite
   eigenvalue of the system and of its transpose. *)
Module TwoGroups.
Import QArith_base.
Local Open Scope Z_scope.

Definition fuel : material Q := mkMaterial "fuel" 2 (20 # 1) (0 # 1) (mzeros 0 0) (mzeros 0 0) (vzeros 0) None
  [[1 # 1]; [1 # 1]] [[1 # 8]; [1 # 4]] [[1 # 1]; [1 # 1]] [[1 # 4]; [1 # 4]; [0 # 1]; [1 # 2]] [[1 # 1]; [1 # 1]] [[1 # 1]; [0 # 1]].
Definition slab : mesh Q := mkMesh (mkvec 3 (fun i => Qmake i 100)) SLAB 2 2 [fuel; fuel] 0 0.
Definition sd (dir : DirectionKind) : solverData Q := mkSolverData ADS (1 # 1000) 100 (1 # 1) [1 # 1; 1 # 1] [] 2 dir EigALL.
Definition rx : reactor Q := mkReactor slab (1 # 1) [] [] (mkKinetics (0 # 1) (0 # 1) [] [] [] []) (1 # 1, 1, 1).

Definition pick (l : list Z) (i : Z) : Q * Q := (nth (Z.to_nat i) l 0 # 1, 0 # 1).
Definition eig (M F : mat Q) : vec (Q * Q) * mat (Q * Q) :=
  (mkvec 2 (fun i => if i =? 0 then (3 # 1, 0 # 1) else (55 # 3, 0 # 1)),
   mkmat 4 2 (fun i j => if Qeq_bool (mat_at M 0 2) (0 # 1)
      then pick (if j =? 0 then [2; 2; 1; 1] else [10; -10; 1; -1]) i
      else pick (if j =? 0 then [2; 2; 3; 3] else [6; -6; 11; -11]) i)).

Definition run : res (outcome Q) :=
  adsCalculation (3 # 1) (fun _ v => v) (fun l => l) eig (fun _ => []) (fun x => x) (fun x => x) (fun x => x) (fun x => x)
    (fun x => Ok (Z.div (Qnum x) (Zpos (Qden x)))) (sd FORWARD) rx.

(* the rows of a matrix times a vector *)
Definition product (A : mat Q) (x : Z -> Q) (i : Z) : Q := nsum 0 4 (fun j => mat_at A i j [*] x j).
(* M x = l F x *)
Definition eigenpair (M F : mat Q) (l : Q) (x : Z -> Q) : Prop := forall i, 0 <= i < 4 -> (product M x i == l * product F x i)%Q.
Definition eig_exact (M F : mat Q) : Prop := forall j, 0 <= j < 2 ->
  snd (vat (fst (eig M F)) j) = (0 # 1) /\ eigenpair M F (fst (vat (fst (eig M F)) j)) (fun i => fst (mat_at (snd (eig M F)) i j)).

(* the adjoint mode a times what the flux leaves of M f = F f + q *)
Definition residual_along (oc : outcome Q) (M F : mat Q) (a : Z) : Q :=
  let mats := ms_mats (rx_mesh (oc_reactor oc)) in let mt := fun i => nth (Z.to_nat (i mod 2)) mats fuel in
  let f := fun i => vat (mt_totflux (mt i)) (i / 2) in let psi := fun i => mat_at (mt_adj (mt i)) (i / 2) a in
  nsum 0 4 (fun i => psi i [*] (product M f i [-] product F f i [-] (if i =? 0 then 1 # 1 else 0 # 1))).

(* what the run computes *)
Definition rows (A : mat Q) : list (list Q) := map (fun i => map (mat_at A i) [0; 1; 2; 3]) [0; 1; 2; 3].
Definition both (r : res (mat Q * mat Q)) := match r with Ok MF => Some (rows (fst MF), rows (snd MF)) | _ => None end.
Definition view (r : res (outcome Q)) := match r with
  | Ok oc => Some (map (fun m => (map (vat (mt_totflux m)) [0; 1], map (fun e => mat_at (mt_adj m) e 0) [0; 1])) (ms_mats (rx_mesh (oc_reactor oc))))
  | _ => None end.
Lemma forward_entries : both (diffusionSystem (3 # 1) slab (sd FORWARD)) = Some
  ([[7 # 4; -1 # 1; 0 # 1; 0 # 1]; [-1 # 1; 7 # 4; 0 # 1; 0 # 1]; [-1 # 4; 0 # 1; 3 # 2; -1 # 1]; [0 # 1; -1 # 4; -1 # 1; 3 # 2]],
   [[1 # 8; 0 # 1; 1 # 4; 0 # 1]; [0 # 1; 1 # 8; 0 # 1; 1 # 4]; [0 # 1; 0 # 1; 0 # 1; 0 # 1]; [0 # 1; 0 # 1; 0 # 1; 0 # 1]]).
Proof. vm_compute. reflexivity. Qed.
Lemma adjoint_entries : both (diffusionSystem (3 # 1) slab (sd ADJOINT)) = Some
  ([[7 # 4; -1 # 1; -1 # 4; 0 # 1]; [-1 # 1; 7 # 4; 0 # 1; -1 # 4]; [0 # 1; 0 # 1; 3 # 2; -1 # 1]; [0 # 1; 0 # 1; -1 # 1; 3 # 2]],
   [[1 # 8; 0 # 1; 0 # 1; 0 # 1]; [0 # 1; 1 # 8; 0 # 1; 0 # 1]; [1 # 4; 0 # 1; 0 # 1; 0 # 1]; [0 # 1; 1 # 4; 0 # 1; 0 # 1]]).
Proof. vm_compute. reflexivity. Qed.
Lemma run_view : view run = Some
  [([29 # 39; 133 # 390], [1 # 5; 3 # 10]); ([23 # 39; 127 # 390], [1 # 5; 3 # 10])].
Proof. vm_compute. reflexivity. Qed.

End TwoGroups.

Theorem C66_two_groups_refuted :
  wp (diffusionSystem (QArith_base.Qmake 3 1) TwoGroups.slab (TwoGroups.sd FORWARD)) (fun MF =>
  wp (diffusionSystem (QArith_base.Qmake 3 1) TwoGroups.slab (TwoGroups.sd ADJOINT)) (fun MFa =>
    TwoGroups.eig_exact (fst MF) (snd MF) /\ TwoGroups.eig_exact (fst MFa) (snd MFa) /\
    (forall i j, (0 <= i < 4)%Z -> (0 <= j < 4)%Z ->
       mat_at (fst MFa) i j = mat_at (fst MF) j i /\ mat_at (snd MFa) i j = mat_at (snd MF) j i) /\
    wp TwoGroups.run (fun oc => ~ QArith_base.Qeq (TwoGroups.residual_along oc (fst MF) (snd MF) 0) (QArith_base.Qmake 0 1)))).
Proof.
  pose proof TwoGroups.forward_entries as Ef. pose proof TwoGroups.adjoint_entries as Ea.
  set (sf := diffusionSystem _ _ (TwoGroups.sd FORWARD)) in *. set (sa := diffusionSystem _ _ (TwoGroups.sd ADJOINT)) in *.
  clearbody sf sa.
  destruct sf as [[M F]| | |]; try discriminate. destruct sa as [[Ma Fa]| | |]; try discriminate.
  unfold TwoGroups.both, TwoGroups.rows in Ef, Ea. cbn [map fst snd] in Ef, Ea. cbn [wp fst snd].
  injection Ef as a00 a01 a02 a03 a10 a11 a12 a13 a20 a21 a22 a23 a30 a31 a32 a33 b00 b01 b02 b03 b10 b11 b12 b13 b20 b21 b22 b23 b30 b31 b32 b33.
  injection Ea as c00 c01 c02 c03 c10 c11 c12 c13 c20 c21 c22 c23 c30 c31 c32 c33 d00 d01 d02 d03 d10 d11 d12 d13 d20 d21 d22 d23 d30 d31 d32 d33.
  assert (C4 : forall i, (0 <= i < 4)%Z -> i = 0%Z \/ i = 1%Z \/ i = 2%Z \/ i = 3%Z) by (intros; lia).
  assert (P4 : forall A x i, TwoGroups.product A x i = nadd (nadd (nadd (nadd n0 (nmul (mat_at A i 0%Z) (x 0%Z))) (nmul (mat_at A i 1%Z) (x 1%Z)))
     (nmul (mat_at A i 2%Z) (x 2%Z))) (nmul (mat_at A i 3%Z) (x 3%Z))) by reflexivity.
  split; [|split; [|split]].
  - intros j Hj. assert (j = 0 \/ j = 1)%Z as [->| ->] by lia; (split; [reflexivity|]); intros i Hi; apply C4 in Hi;
      rewrite !P4; unfold TwoGroups.eig; cbn [fst snd vat mat_at Z.eqb]; rewrite a02;
      destruct Hi as [->|[->|[->| ->]]];
      rewrite ?a00, ?a01, ?a02, ?a03, ?a10, ?a11, ?a12, ?a13, ?a20, ?a21, ?a22, ?a23, ?a30, ?a31, ?a32, ?a33,
        ?b00, ?b01, ?b02, ?b03, ?b10, ?b11, ?b12, ?b13, ?b20, ?b21, ?b22, ?b23, ?b30, ?b31, ?b32, ?b33; vm_compute; reflexivity.
  - intros j Hj. assert (j = 0 \/ j = 1)%Z as [->| ->] by lia; (split; [reflexivity|]); intros i Hi; apply C4 in Hi;
      rewrite !P4; unfold TwoGroups.eig; cbn [fst snd vat mat_at Z.eqb]; rewrite c02;
      destruct Hi as [->|[->|[->| ->]]];
      rewrite ?c00, ?c01, ?c02, ?c03, ?c10, ?c11, ?c12, ?c13, ?c20, ?c21, ?c22, ?c23, ?c30, ?c31, ?c32, ?c33,
        ?d00, ?d01, ?d02, ?d03, ?d10, ?d11, ?d12, ?d13, ?d20, ?d21, ?d22, ?d23, ?d30, ?d31, ?d32, ?d33; vm_compute; reflexivity.
  - intros i j Hi Hj. apply C4 in Hi. apply C4 in Hj.
    destruct Hi as [->|[->|[->| ->]]]; destruct Hj as [->|[->|[->| ->]]]; split; (etransitivity; [eassumption|symmetry; eassumption]).
  - pose proof TwoGroups.run_view as Ev. set (run := TwoGroups.run) in *. clearbody run. destruct run as [oc| | |]; try discriminate.
    unfold TwoGroups.view in Ev. cbn [wp]. unfold TwoGroups.residual_along.
    destruct (ms_mats (rx_mesh (oc_reactor oc))) as [|m0 [|m1 [|]]]; try discriminate. cbn [map] in Ev.
    injection Ev as e0 e1 e2 e3 e4 e5 e6 e7.
    match goal with |- ~ QArith_base.Qeq (nsum 0 4 ?g) _ =>
      change (nsum 0 4 g) with (nadd (nadd (nadd (nadd n0 (g 0%Z)) (g 1%Z)) (g 2%Z)) (g 3%Z)) end.
    cbn beta. rewrite !P4. change (Z.to_nat (0 mod 2)) with 0%nat. change (Z.to_nat (1 mod 2)) with 1%nat.
    change (Z.to_nat (2 mod 2)) with 0%nat. change (Z.to_nat (3 mod 2)) with 1%nat. cbn [nth].
    change (0 / 2)%Z with 0%Z. change (1 / 2)%Z with 0%Z. change (2 / 2)%Z with 1%Z. change (3 / 2)%Z with 1%Z.
    rewrite a00, a01, a02, a03, a10, a11, a12, a13, a20, a21, a22, a23, a30, a31, a32, a33,
        b00, b01, b02, b03, b10, b11, b12, b13, b20, b21, b22, b23, b30, b31, b32, b33, e0, e1, e2, e3, e4, e5, e6, e7.
    vm_compute. discriminate.
Qed.
Print Assumptions C66_two_groups_refuted.
