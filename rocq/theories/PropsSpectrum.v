(* Property theorems C50 to C55 and C71 to C74: the collision probability
   transport solver.  k3, kb, ex and sq stand for the library functions
   expint(3, .), bickley3f, exp and sqrt; d = mesh_tables ms holds what the
   mesh accessors return, in centimetres: widths tdx, volumes tV, total cross
   sections ttot.  [transport_ready ms sd a]: a consistent mesh with increasing
   boundaries and positive total cross sections, solver data for its number
   of groups, first albedo a. *)
From Coq Require Import String ZArith List Bool Lia Reals Lra.
From Verif Require Import Base BaseLemmas NumR LinAlg Blocks ModelNumTools ModelEigen ModelMesh ModelReactor
  ModelSpectrum ProofsMesh ProofsDiffusion ProofsDiffusionR ProofsEigen ProofsPower ProofsSpectrum ProofsSpectrumR Kernels
  PropsDiffusion.
Import ListNotations.
Local Open Scope R_scope.

(* the objects of one call of SpectrumSolver::solve *)
Definition transport_run (k3 kb ex sq : R -> R) ms sd (sc : specCode R) (g g' : ten3 R) (check M F : mat R) : Prop :=
  newSpecCode PI ms sd = Ok sc /\ vacuumCPs PI k3 kb ex sq sc = Ok g /\ whiteBoundary sc g = Ok g' /\
  spectrumSystem PI k3 kb ex sq ms sd = Ok (check, M, F).

Definition three (g : GeomKind) : mesh R :=
  mkMesh (mkvec 4 (fun i => IZR i / 100)) g 3 1 [ex_material 1 1; ex_material 1 1; ex_material 2 1] 1 1.

Lemma three_ready g a b dir : g <> GeomUNDEFINED -> transport_ready (three g) (ex_solver a b dir) a.
Proof.
  intros Hg. assert (Hr : ready (three g)).
  { destruct ex_slab_ready as (_ & A & B & C & D & E). split; [exact Hg|]. split; [exact A|]. split; [exact B|].
    split; [exact C|]. split; [exact D|exact E]. }
  split; [exact Hr|]. split; [cbn; lia|]. split; [reflexivity|]. split; [reflexivity|]. split.
  { intros i Hi Hl. cbn [three ms_bounds vat]. apply Rmult_lt_compat_r; [lra|]. apply IZR_lt. lia. }
  split; [cbn; lra|]. intros e i He Hi. cbn in He. assert (e = 0)%Z as -> by lia.
  destruct (ex_slab_tables i Hi) as (_ & H & _).
  change (ttot (mesh_tables (three g)) 0 i) with (ttot (mesh_tables ex_slab) 0 i). rewrite H. lra.
Qed.

Lemma three_tables g i : (0 <= i < 3)%Z ->
  ttot (mesh_tables (three g)) 0 i = 1 /\ tdx (mesh_tables (three g)) i = 1.
Proof.
  intros Hi. destruct (ex_slab_tables i Hi) as (_ & H1 & _ & _ & _ & _ & H2 & _). split; [exact H1|exact H2].
Qed.

(* every such mesh is accepted *)
Theorem C55_transport_defined k3 kb ex sq ms sd a : transport_ready ms sd a ->
  exists sc g g' check M F, transport_run k3 kb ex sq ms sd sc g g' check M F.
Proof.
  intros H. destruct (code_exists ms sd a H) as [sc Hc].
  destruct (system_spec k3 kb ex sq ms sd a sc H Hc) as (g & g' & c & M & F & E1 & E2 & E3 & _).
  exists sc, g, g', c, M, F. repeat split; auto. apply Hc.
Qed.
Print Assumptions C55_transport_defined.

Lemma run_spec k3 kb ex sq ms sd a sc g g' check M F :
  transport_ready ms sd a -> transport_run k3 kb ex sq ms sd sc g g' check M F ->
  let n := ms_cells ms in let en := ms_groups ms in let d := mesh_tables ms in
  let P := vacuum_P k3 kb ex sq sc in
  code_ok ms sd sc /\
  (forall h i j, (0 <= h < en)%Z -> (0 <= i < n)%Z -> (0 <= j < n)%Z -> t3_at g i j h = P h i j) /\
  (forall h i j, (0 <= h < en)%Z -> (0 <= i < n)%Z -> (0 <= j < n)%Z ->
     t3_at g' i j h = white sc P a h i j / ttot d h j) /\
  (forall h i, (0 <= h < en)%Z -> (0 <= i < n)%Z -> mat_at check h i = rsum 0 n (white sc P a h i)) /\
  bl n en M (fun e i e' j => (if (e' =? e)%Z && (j =? i)%Z then 1 else 0) - white sc P a e i j / ttot d e j * tsc d e' e j) /\
  bl n en F (fun e i e' j => white sc P a e i j / ttot d e j * (tchi d e j * tni d e' j * tfis d e' j)).
Proof.
  intros H (E1 & E2 & E3 & E4) n en d P. destruct (code_exists ms sd a H) as [sc0 Hc].
  pose proof (co_new _ _ _ Hc) as E0. rewrite E1 in E0. injection E0 as <-.
  destruct (system_spec k3 kb ex sq ms sd a sc H Hc) as (g0 & g0' & c0 & M0 & F0 & F1 & F2 & F3 & HG & HW & HK & HM & HF).
  rewrite E2 in F1. injection F1 as <-. rewrite E3 in F2. injection F2 as <-. rewrite E4 in F3. injection F3 as <- <- <-.
  split; [exact Hc|]. split; [exact HG|].
  assert (Hs : forall h i, (0 <= h < en)%Z -> (0 <= i < n)%Z -> sig_of sc h i = ttot d h i) by (apply (co_sig _ _ _ Hc)).
  split; [intros; rewrite HW, Hs by auto; reflexivity|]. split; [exact HK|]. split.
  - eapply bl_ext; [|exact HM]. intros. cbn beta. rewrite Hs by auto. reflexivity.
  - eapply bl_ext; [|exact HF]. intros. cbn beta. rewrite Hs by auto. reflexivity.
Qed.

(* ---------- C50 ---------- *)

(* optical thickness of cell i *)
Definition thickness (ms : mesh R) (h i : Z) : R := tdx (mesh_tables ms) i * ttot (mesh_tables ms) h i.

Theorem C50_slab_optical_distance ms sd a : transport_ready ms sd a ->
  exists sc tau, newSpecCode PI ms sd = Ok sc /\ slabTracks sc = Ok tau /\
  forall h i j, (0 <= h < ms_groups ms)%Z -> (0 <= i < ms_cells ms)%Z -> (i <= j < ms_cells ms)%Z ->
    (j = i -> t4_at tau i j 0 h = thickness ms h i) /\
    (j = (i + 1)%Z -> t4_at tau i j 0 h = 0) /\
    ((i < j)%Z -> t4_at tau i j 0 h = rsum (i + 1) j (thickness ms h)).
Proof.
  intros H. destruct (code_exists ms sd a H) as [sc Hc]. pose proof Hc as C. destruct C.
  assert (Hl : (1 <= ms_cells ms)%Z) by apply H.
  assert (Hge : (0 <= ms_groups ms)%Z) by (destruct H as ((_ & _ & _ & X & _) & _); exact X).
  destruct (wp_ok _ _ (slabTracks_wp sc ltac:(lia) ltac:(lia) co_rad co_tr co_tc
    ltac:(intros h i Hh Hi; left; apply (own_pos ms sd a sc H Hc); lia))) as (tau & Et & _ & Ht).
  exists sc, tau. split; [exact co_new|]. split; [exact Et|]. intros h i j Hh Hi Hj.
  assert (Ho : forall l, (0 <= l < ms_cells ms)%Z -> own sc h l = thickness ms h l).
  { intros l Hl'. unfold own. rewrite co_width, co_sig by auto. reflexivity. }
  rewrite Ht by lia. unfold gap. repeat split.
  - intros ->. rewrite Z.eqb_refl. apply Ho. lia.
  - intros ->. replace (i =? i + 1)%Z with false by lia. apply rsum_empty. lia.
  - intros L. replace (i =? j)%Z with false by lia. apply rsum_ext. intros l Hl'. apply Ho. lia.
Qed.
Print Assumptions C50_slab_optical_distance.
Example C50_hypotheses_met : transport_ready (three SLAB) (ex_solver 0 0 FORWARD) 0 /\
  rsum 1 2 (thickness (three SLAB) 0) = 1.
Proof.
  split; [apply three_ready; discriminate|]. rewrite (rsum_one 1). unfold thickness.
  destruct (three_tables SLAB 1 ltac:(lia)) as [-> ->]. ring.
Qed.

(* ---------- C51 ---------- *)

Theorem C51_reciprocity k3 kb ex sq ms sd a sc g g' check M F :
  transport_ready ms sd a -> transport_run k3 kb ex sq ms sd sc g g' check M F ->
  let d := mesh_tables ms in
  forall h i j, (0 <= h < ms_groups ms)%Z -> (0 <= i < ms_cells ms)%Z -> (0 <= j < ms_cells ms)%Z ->
    (* in vacuum *)
    tV d i * ttot d h i * t3_at g i j h = tV d j * ttot d h j * t3_at g j i h /\
    (* with the albedo; g' holds probabilities divided by the cross section *)
    tV d i * ttot d h i * (t3_at g' i j h * ttot d h j) = tV d j * ttot d h j * (t3_at g' j i h * ttot d h i).
Proof.
  intros H Hrun d h i j Hh Hi Hj.
  destruct (run_spec _ _ _ _ _ _ _ _ _ _ _ _ _ H Hrun) as (Hc & HG & HW & _).
  rewrite !HW, !HG by auto. fold d.
  assert (Hp : forall l, (0 <= l < ms_cells ms)%Z -> 0 < ttot d h l) by (intros; apply H; auto).
  assert (Ec : sc_cells sc = ms_cells ms) by apply Hc.
  assert (HV : forall l, (0 <= l < sc_cells sc)%Z -> vol_of sc l <> 0)
    by (intros; apply Rgt_not_eq, (vol_pos ms sd a sc H Hc); lia).
  assert (HS : forall l, (0 <= l < sc_cells sc)%Z -> sig_of sc h l <> 0)
    by (intros; apply Rgt_not_eq, (sig_pos ms sd a sc H Hc); auto; lia).
  assert (Rv : vol_of sc i * sig_of sc h i * vacuum_P k3 kb ex sq sc h i j = vol_of sc j * sig_of sc h j * vacuum_P k3 kb ex sq sc h j i).
  { unfold vacuum_P. destruct (ms_geom (sc_mesh sc)).
    - ring.
    - apply slab_reciprocity; auto; lia.
    - apply curved_reciprocity; auto; lia.
    - apply curved_reciprocity; auto; lia. }
  pose proof (white_reciprocity sc (vacuum_P k3 kb ex sq sc) a h i j ltac:(lia) ltac:(lia) Rv) as Rw.
  rewrite !(co_sig _ _ _ Hc), !(co_volume _ _ _ Hc) in Rv, Rw by auto. fold d in Rv, Rw. split; [exact Rv|].
  pose proof (Hp i Hi). pose proof (Hp j Hj).
  match goal with |- _ * (?x / ?s * ?s) = _ * (?y / ?t * ?t) => replace (x / s * s) with x by (field; lra);
     replace (y / t * t) with y by (field; lra) end. exact Rw.
Qed.
Print Assumptions C51_reciprocity.
Example C51_hypotheses_met : forall gk, gk <> GeomUNDEFINED ->
  transport_ready (three gk) (ex_solver (1 / 2) 0 FORWARD) (1 / 2) /\
  exists sc g g' check M F, transport_run E3 Ki3 exp sqrt (three gk) (ex_solver (1 / 2) 0 FORWARD) sc g g' check M F.
Proof.
  intros gk Hg. pose proof (three_ready gk (1 / 2) 0 FORWARD Hg) as H. split; [exact H|].
  eapply C55_transport_defined; exact H.
Qed.

(* ---------- C52 ---------- *)

(* Slab: the missing part of a row is the escape probability through the two
   faces, at optical distances L and R from the cell. *)
Theorem C52_slab_conservation k3 kb ex sq ms sd a sc g g' check M F :
  transport_ready ms sd a -> transport_run k3 kb ex sq ms sd sc g g' check M F ->
  ms_geom ms = SLAB -> k3 0 = 1 / 2 ->
  forall h i, (0 <= h < ms_groups ms)%Z -> (0 <= i < ms_cells ms)%Z ->
    let t := thickness ms h in
    let L := rsum 0 i t in let R := rsum (i + 1) (ms_cells ms) t in
    1 - rsum 0 (ms_cells ms) (fun j => t3_at g i j h) =
    1 / (2 * t i) * (k3 L - k3 (L + t i) + (k3 R - k3 (R + t i))).
Proof.
  intros H Hrun Hg Hk h i Hh Hi t L R.
  destruct (run_spec _ _ _ _ _ _ _ _ _ _ _ _ _ H Hrun) as (Hc & HG & _).
  assert (Ec : sc_cells sc = ms_cells ms) by apply Hc.
  assert (Ho : forall l, (0 <= l < ms_cells ms)%Z -> own sc h l = t l).
  { intros l Hl'. unfold own. rewrite (co_width _ _ _ Hc), (co_sig _ _ _ Hc) by auto. reflexivity. }
  rewrite (rsum_ext 0 (ms_cells ms) _ (slab_P k3 sc (gap sc) h i)).
  - rewrite <- Ec. rewrite (slab_conservation k3 sc h).
    + rewrite Ec. rewrite !(rsum_ext 0 i (fun l => own sc h l) t) by (intros; apply Ho; lia).
      rewrite !(rsum_ext (i + 1) (ms_cells ms) (fun l => own sc h l) t) by (intros; apply Ho; lia).
      rewrite Ho by lia. unfold L, R. f_equal. ring.
    + intros l Hl. apply (own_pos ms sd a sc H Hc); auto; lia.
    + intros l Hl. apply Rgt_not_eq, (vol_pos ms sd a sc H Hc); lia.
    + intros l Hl. apply Rgt_not_eq, (sig_pos ms sd a sc H Hc); auto; lia.
    + exact Hk.
    + intros l Hl. rewrite (co_volume _ _ _ Hc), (co_width _ _ _ Hc) by lia. cbn [mesh_tables tV tdx].
      rewrite Hg. cbn. ring.
    + lia.
  - intros j Hj. rewrite HG by auto. unfold vacuum_P. rewrite (co_mesh _ _ _ Hc), Hg. reflexivity.
Qed.
Print Assumptions C52_slab_conservation.
Example C52_slab_hypotheses_met : exists sc g g' check M F,
  transport_ready (three SLAB) (ex_solver 0 0 FORWARD) 0 /\
  transport_run E3 Ki3 exp sqrt (three SLAB) (ex_solver 0 0 FORWARD) sc g g' check M F /\ E3 0 = 1 / 2 /\
  (* the middle cell: both faces one mean free path away *)
  1 - rsum 0 3 (fun j => t3_at g 1 j 0) = E3 1 - E3 2.
Proof.
  pose proof (three_ready SLAB 0 0 FORWARD ltac:(discriminate)) as H.
  destruct (C55_transport_defined E3 Ki3 exp sqrt _ _ _ H) as (sc & g & g' & c & M & F & Hrun).
  exists sc, g, g', c, M, F. split; [exact H|]. split; [exact Hrun|]. split; [exact E3_0|].
  pose proof (C52_slab_conservation E3 Ki3 exp sqrt _ _ _ _ _ _ _ _ _ H Hrun eq_refl E3_0 0%Z 1%Z ltac:(cbn; lia) ltac:(cbn; lia)) as E.
  cbn [three ms_cells] in E. rewrite E.
  assert (Ht : forall l, (0 <= l < 3)%Z -> thickness (three SLAB) 0 l = 1).
  { intros l Hl. unfold thickness. destruct (three_tables SLAB l Hl) as [-> ->]. ring. }
  change (1 + 1)%Z with 2%Z. pose proof (rsum_one 0 (thickness (three SLAB) 0)) as Q1. pose proof (rsum_one 2 (thickness (three SLAB) 0)) as Q2.
  cbn [Z.add Pos.add] in Q1, Q2. fold (three SLAB). rewrite Q1, Q2, !Ht by lia.
  replace (1 + 1) with 2 by ring. lra.
Qed.

(* Rays of the curved geometries: ray k of annulus m passes at a distance
   [ray_radius] from the centre; [ray_optical] is the optical length from its
   middle to the outer radius of cell i. *)
Definition radius (ms : mesh R) (i : Z) : R := vat (ms_bounds ms) i * 100.
Definition node (k : Z) : R := nth (Z.to_nat k) (abscissa (T := R)) 0.
Definition weight (k : Z) : R := nth (Z.to_nat k) (weights (T := R)) 0.
Definition ray_radius (ms : mesh R) (m k : Z) : R :=
  radius ms (m + 1) - (radius ms (m + 1) - radius ms m) * (node k) ^ 2.
Definition half_chord (sq : R -> R) (ms : mesh R) (m i k : Z) : R :=
  sq (radius ms (i + 1) ^ 2 - ray_radius ms m k ^ 2).
Definition ray_optical (sq : R -> R) (ms : mesh R) (h m i k : Z) : R :=
  rsum m (i + 1) (fun l =>
    (half_chord sq ms m l k - (if (l =? m)%Z then 0 else half_chord sq ms m (l - 1) k)) * ttot (mesh_tables ms) h l).
(* statistical weight of the ray and the kernel *)
Definition ray_weight (ms : mesh R) (m k : Z) : R :=
  weight k * (radius ms (m + 1) - radius ms m) * (match ms_geom ms with SPHERE => ray_radius ms m k | _ => 1 end).
Definition ray_kernel (kb ex : R -> R) (ms : mesh R) (x : R) : R :=
  match ms_geom ms with SPHERE => ex (- x) | _ => kb x end.
Definition ray_scale (ms : mesh R) : R := match ms_geom ms with SPHERE => 4 * PI | _ => 4 end.

Section CurvedBridge.
Variables (kb ex sq : R -> R) (ms : mesh R) (sd : solverData R) (a : R) (sc : specCode R) (h : Z).
Hypothesis H : transport_ready ms sd a.
Hypothesis Hc : code_ok ms sd sc.
Hypothesis Hh : (0 <= h < ms_groups ms)%Z.
Hypothesis Hg : ms_geom ms = CYLINDER \/ ms_geom ms = SPHERE.
Definition is_sphere := match ms_geom ms with SPHERE => true | _ => false end.

Lemma ray_bridge m k : ray sc m k = ray_radius ms m k.
Proof. unfold ray, width_of, ray_radius, radius. rewrite !(co_radii _ _ _ Hc). reflexivity. Qed.
Lemma opt_bridge m i k : (0 <= m)%Z -> (i < ms_cells ms)%Z -> opt sq sc h m i k = ray_optical sq ms h m i k.
Proof.
  intros Hm Hi. unfold opt, ray_optical. apply rsum_ext. intros l Hl. rewrite (co_sig _ _ _ Hc) by (auto; lia).
  unfold seg, chord, half_chord, radius. rewrite ray_bridge, !(co_radii _ _ _ Hc).
  replace (l - 1 + 1)%Z with l by ring. reflexivity.
Qed.
Lemma omega_bridge m k : omega sc is_sphere (ray sc) m k = ray_weight ms m k.
Proof.
  unfold omega, ray_weight, is_sphere. rewrite ray_bridge. unfold width_of. rewrite !(co_radii _ _ _ Hc).
  unfold wgt, weight, radius. destruct Hg as [-> | ->]; ring.
Qed.
Lemma kernel_bridge x : kernel kb ex is_sphere x = ray_kernel kb ex ms x.
Proof. unfold kernel, ray_kernel, is_sphere. destruct Hg as [-> | ->]; reflexivity. Qed.
Lemma cst_bridge : cst is_sphere PI = ray_scale ms.
Proof. unfold cst, ray_scale, is_sphere. destruct Hg as [-> | ->]; ring. Qed.
Lemma vacuum_bridge k3 i j : vacuum_P k3 kb ex sq sc h i j = curved_P kb ex sc is_sphere PI (opt sq sc) (ray sc) h i j.
Proof. unfold vacuum_P, is_sphere. rewrite (co_mesh _ _ _ Hc). destruct Hg as [-> | ->]; reflexivity. Qed.
Lemma HVn l : (0 <= l < sc_cells sc)%Z -> vol_of sc l <> 0.
Proof. intros. apply Rgt_not_eq, (vol_pos ms sd a sc H Hc). pose proof (co_cells _ _ _ Hc). lia. Qed.
Lemma HSn l : (0 <= l < sc_cells sc)%Z -> sig_of sc h l <> 0.
Proof. intros. apply Rgt_not_eq, (sig_pos ms sd a sc H Hc); auto. pose proof (co_cells _ _ _ Hc). lia. Qed.
End CurvedBridge.

(* Cylinder and sphere: V S times the missing part of row i is the sum over
   the rays crossing cell i of the kernel differences between the cell's near
   and far edges and the outer boundary, at optical distance T. *)
Theorem C52_curved_conservation k3 kb ex sq ms sd a sc g g' check M F :
  transport_ready ms sd a -> transport_run k3 kb ex sq ms sd sc g g' check M F ->
  (ms_geom ms = CYLINDER \/ ms_geom ms = SPHERE) ->
  forall h i, (0 <= h < ms_groups ms)%Z -> (0 <= i < ms_cells ms)%Z ->
    let d := mesh_tables ms in let K := ray_kernel kb ex ms in
    tV d i * ttot d h i * (1 - rsum 0 (ms_cells ms) (fun j => t3_at g i j h)) =
    ray_scale ms * rsum 0 (i + 1) (fun m => rsum 0 8 (fun k =>
      let T := ray_optical sq ms h m (ms_cells ms - 1) k in
      let far := ray_optical sq ms h m i k in let near := ray_optical sq ms h m (i - 1) k in
      ((K (T - far) - K (T - near)) + (K (T + near) - K (T + far))) * ray_weight ms m k)).
Proof.
  intros H Hrun Hg h i Hh Hi d K.
  destruct (run_spec _ _ _ _ _ _ _ _ _ _ _ _ _ H Hrun) as (Hc & HG & _).
  pose proof (co_cells _ _ _ Hc) as Ec.
  pose proof (curved_conservation kb ex sc (is_sphere ms) PI (opt sq sc) (ray sc) h (HVn ms sd a sc H Hc)
    (HSn ms sd a sc h H Hc Hh) i ltac:(lia)) as E.
  rewrite (cst_bridge ms Hg), (co_volume _ _ _ Hc), (co_sig _ _ _ Hc), Ec in E by auto.
  rewrite (rsum_ext 0 (ms_cells ms) (fun j => t3_at g i j h) (curved_P kb ex sc (is_sphere ms) PI (opt sq sc) (ray sc) h i))
    by (intros j Hj; rewrite HG by auto; apply (vacuum_bridge kb ex sq ms sd sc h Hc Hg)).
  fold d in E. rewrite E. f_equal. apply rsum_ext. intros m Hm. apply rsum_ext. intros k Hk.
  rewrite (omega_bridge ms sd sc Hc Hg). cbv zeta. f_equal. unfold D1. rewrite !kernel_bridge by exact Hg. fold K.
  assert (Et : forall l, (l < ms_cells ms)%Z -> tb (opt sq sc) h m l k = ray_optical sq ms h m l k).
  { intros l Hl. unfold tb. destruct (l <? m)%Z eqn:El.
    - unfold ray_optical. rewrite rsum_empty by lia. reflexivity.
    - apply (opt_bridge sq ms sd sc h Hc Hh); lia. }
  rewrite !Et by lia. ring.
Qed.
Print Assumptions C52_curved_conservation.

(* ---------- C53 ---------- *)

(* Row sums after the albedo correction, as the code prints them.  [out] is the
   vacuum escape probability, [pss] the surface to surface probability. *)
Definition out (ms : mesh R) (g : ten3 R) (h i : Z) : R := 1 - rsum 0 (ms_cells ms) (fun j => t3_at g i j h).
Definition surface_to_surface (ms : mesh R) (S : R) (g : ten3 R) (h : Z) : R :=
  1 - rsum 0 (ms_cells ms) (fun i => 4 * tV (mesh_tables ms) i / S * out ms g h i * ttot (mesh_tables ms) h i).

Lemma out_bridge k3 kb ex sq ms sd a sc g g' check M F :
  transport_ready ms sd a -> transport_run k3 kb ex sq ms sd sc g g' check M F ->
  (forall h i, (0 <= h < ms_groups ms)%Z -> (0 <= i < ms_cells ms)%Z -> esc sc (vacuum_P k3 kb ex sq sc) h i = out ms g h i) /\
  (forall h, (0 <= h < ms_groups ms)%Z -> pss sc (vacuum_P k3 kb ex sq sc) h = surface_to_surface ms (sc_surface sc) g h).
Proof.
  intros H Hrun. destruct (run_spec _ _ _ _ _ _ _ _ _ _ _ _ _ H Hrun) as (Hc & HG & _).
  pose proof (co_cells _ _ _ Hc) as Ec.
  assert (A : forall h i, (0 <= h < ms_groups ms)%Z -> (0 <= i < ms_cells ms)%Z -> esc sc (vacuum_P k3 kb ex sq sc) h i = out ms g h i).
  { intros h i Hh Hi. unfold esc, out. rewrite Ec. f_equal. apply rsum_ext. intros j Hj. rewrite HG by auto. reflexivity. }
  split; [exact A|]. intros h Hh. unfold pss, surface_to_surface. rewrite Ec. f_equal. apply rsum_ext. intros i Hi.
  unfold back. rewrite A, (co_volume _ _ _ Hc), (co_sig _ _ _ Hc) by auto. reflexivity.
Qed.

Theorem C53_albedo_balance k3 kb ex sq ms sd a sc g g' check M F S :
  transport_ready ms sd a -> transport_run k3 kb ex sq ms sd sc g g' check M F ->
  getExternalSurface PI ms "cm" = Ok S ->
  let d := mesh_tables ms in
  forall h i, (0 <= h < ms_groups ms)%Z -> (0 <= i < ms_cells ms)%Z ->
    mat_at check h i = rsum 0 (ms_cells ms) (fun j => t3_at g' i j h * ttot d h j) /\
    (a * surface_to_surface ms S g h <> 1 ->
       mat_at check h i = 1 - out ms g h i * (1 - a) / (1 - a * surface_to_surface ms S g h)) /\
    (a = 1 -> surface_to_surface ms S g h <> 1 -> mat_at check h i = 1) /\
    (a = 0 -> forall j, (0 <= j < ms_cells ms)%Z -> t3_at g' i j h * ttot d h j = t3_at g i j h).
Proof.
  intros H Hrun HS d h i Hh Hi.
  destruct (run_spec _ _ _ _ _ _ _ _ _ _ _ _ _ H Hrun) as (Hc & HG & HW & HK & _).
  destruct (out_bridge _ _ _ _ _ _ _ _ _ _ _ _ _ H Hrun) as [Ho Hp].
  pose proof (co_cells _ _ _ Hc) as Ec.
  assert (ES : S = sc_surface sc).
  { rewrite (co_surface _ _ _ Hc). rewrite (spec_surface_ok ms) in HS by apply H. injection HS as ->. reflexivity. }
  subst S. rewrite <- Hp, <- Ho by auto.
  assert (Hpos : forall l, (0 <= l < ms_cells ms)%Z -> 0 < ttot d h l) by (intros; apply H; auto).
  assert (E : a * pss sc (vacuum_P k3 kb ex sq sc) h <> 1 -> mat_at check h i =
    1 - esc sc (vacuum_P k3 kb ex sq sc) h i * (1 - a) / (1 - a * pss sc (vacuum_P k3 kb ex sq sc) h)).
  { intros Hne. rewrite HK by auto. rewrite <- Ec. apply white_row. intros X. apply Hne. lra. }
  split; [|split; [exact E|split]].
  - rewrite HK by auto. apply rsum_ext. intros j Hj. rewrite HW by auto. fold d. pose proof (Hpos j Hj). field. lra.
  - intros -> Hne. rewrite E by lra. unfold Rdiv. ring.
  - intros -> j Hj. rewrite HW, HG by auto. fold d. pose proof (Hpos j Hj).
    replace (white sc (vacuum_P k3 kb ex sq sc) 0 h i j) with (vacuum_P k3 kb ex sq sc h i j)
      by (unfold white, Rdiv; rewrite !Rmult_0_l || idtac; rnum; ring).
    field. lra.
Qed.
Print Assumptions C53_albedo_balance.
