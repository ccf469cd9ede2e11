(* Property theorems C28 to C33: geometry, mesh and per-cell data. *)
From Coq Require Import String ZArith List Bool Lia Reals Lra.
From Verif Require Import Base BaseLemmas NumR ModelNumTools ModelMesh ProofsMesh.
Import ListNotations.
Local Open Scope R_scope.

(* C28 *)
Theorem C28_volumes_partition (ms : mesh R) :
  ms_geom ms <> GeomUNDEFINED -> (1 <= vlen (ms_bounds ms))%Z ->
  increasing (ms_bounds ms) -> vat (ms_bounds ms) 0 = 0 ->
  exists vm vcm,
    getVolumes PI ms "m" = Ok vm /\ getVolumes PI ms "cm" = Ok vcm /\
    vlen vm = (vlen (ms_bounds ms) - 1)%Z /\ vlen vcm = vlen vm /\
    (forall i, (0 <= i < vlen vm)%Z -> 0 < vat vm i) /\
    rsum 0 (vlen vm) (vat vm) = body_volume (ms_geom ms) (vat (ms_bounds ms) (vlen vm)) /\
    (forall i, (0 <= i < vlen vm)%Z -> vat vcm i = vat vm i * 100 ^ dimension (ms_geom ms)).
Proof. exact (volumes_partition ms). Qed.
Print Assumptions C28_volumes_partition.

Example C28_hypotheses_met :
  let ms := mkMesh (mkvec 3 IZR) SPHERE 2 1 [] 0 0 in
  ms_geom ms <> GeomUNDEFINED /\ (1 <= vlen (ms_bounds ms))%Z /\
  increasing (ms_bounds ms) /\ vat (ms_bounds ms) 0 = 0.
Proof.
  cbn. repeat split; [congruence|lia|]. intros i H1 H2. cbn. apply IZR_lt. lia.
Qed.

(* C29: full statement = the same for the sphere in centimetres; refuted below. *)
Theorem C29_external_surface_partial (ms : mesh R) dim :
  (ms_geom ms = SLAB \/ ms_geom ms = CYLINDER \/ (ms_geom ms = SPHERE /\ dim = "m"%string)) ->
  (1 <= vlen (ms_bounds ms))%Z ->
  exists s x, getSurfaces PI ms dim = Ok s /\ getExternalSurface PI ms dim = Ok x /\
    vlen s = vlen (ms_bounds ms) /\ x = vat s (vlen s - 1) /\
    (dim = "m"%string -> x = body_surface (ms_geom ms) (vat (ms_bounds ms) (vlen (ms_bounds ms) - 1))).
Proof. exact (external_surface_last ms dim). Qed.
Print Assumptions C29_external_surface_partial.

(* Every surface, in metres and centimetres. *)
Theorem C29_surfaces (ms : mesh R) :
  ms_geom ms <> GeomUNDEFINED -> (0 <= vlen (ms_bounds ms))%Z ->
  exists sm scm, getSurfaces PI ms "m" = Ok sm /\ getSurfaces PI ms "cm" = Ok scm /\
    vlen sm = vlen (ms_bounds ms) /\ vlen scm = vlen (ms_bounds ms) /\
    forall i, (0 <= i < vlen (ms_bounds ms))%Z ->
      vat sm i = body_surface (ms_geom ms) (vat (ms_bounds ms) i) /\
      vat scm i = 100 ^ (dimension (ms_geom ms) - 1) * vat sm i.
Proof. exact (surfaces_units ms). Qed.
Print Assumptions C29_surfaces.

(* The sphere applies the centimetre factor twice. *)
Theorem C29_sphere_cm_refuted (ms : mesh R) :
  ms_geom ms = SPHERE -> (1 <= vlen (ms_bounds ms))%Z ->
  vat (ms_bounds ms) (vlen (ms_bounds ms) - 1) <> 0 ->
  exists s x, getSurfaces PI ms "cm" = Ok s /\ getExternalSurface PI ms "cm" = Ok x /\
    x = 10000 * vat s (vlen s - 1) /\ x <> vat s (vlen s - 1).
Proof. exact (external_surface_sphere_cm_wrong ms). Qed.
Print Assumptions C29_sphere_cm_refuted.

Example C29_hypotheses_met :
  let ms := mkMesh (mkvec 3 IZR) SPHERE 2 1 [] 0 0 in
  ms_geom ms = SPHERE /\ (1 <= vlen (ms_bounds ms))%Z /\
  vat (ms_bounds ms) (vlen (ms_bounds ms) - 1) <> 0.
Proof. cbn. repeat split; [lia|lra]. Qed.

(* C30 *)
Theorem C30_cells_consistent (b : vec R) (ms0 : mesh R) :
  (1 <= vlen b)%Z -> increasing b ->
  let ms := setBoundaries b ms0 in
  exists d mid, getCellSizes ms "m" = Ok d /\ getMeshMiddlePoints ms = Ok mid /\
    vlen d = (vlen b - 1)%Z /\ vlen mid = (vlen b - 1)%Z /\
    (forall i, (0 <= i < vlen d)%Z -> 0 < vat d i) /\
    rsum 0 (vlen d) (vat d) = vat b (vlen b - 1) - vat b 0 /\
    (forall i, (0 <= i < vlen mid)%Z ->
       vat b i < vat mid i < vat b (i + 1) /\
       vat mid i - vat b i = vat d i / 2 /\ vat b (i + 1) - vat mid i = vat d i / 2).
Proof. exact (cell_sizes_consistent b ms0). Qed.
Print Assumptions C30_cells_consistent.

Theorem C30_uniform_mesh side n (ms0 : mesh R) :
  0 < side -> (1 <= n)%Z ->
  exists ms, setBoundariesUniform side n ms0 = Ok ms /\
    ms_cells ms = n /\ vlen (ms_bounds ms) = (n + 1)%Z /\ increasing (ms_bounds ms) /\
    vat (ms_bounds ms) 0 = 0 /\ vat (ms_bounds ms) n = side /\
    forall i, (0 <= i < n)%Z -> vat (ms_bounds ms) (i + 1) - vat (ms_bounds ms) i = side / IZR n.
Proof. exact (uniform_boundaries side n ms0). Qed.
Print Assumptions C30_uniform_mesh.

(* In centimetres the boundaries and the sizes are a hundred times those in metres. *)
Theorem C30_units (b : vec R) (ms0 : mesh R) : (1 <= vlen b)%Z ->
  let ms := setBoundaries b ms0 in
  exists d d', getCellSizes ms "m" = Ok d /\ getCellSizes ms "cm" = Ok d' /\ vlen d' = vlen d /\
    vlen (getBoundaries ms "m") = vlen b /\ vlen (getBoundaries ms "cm") = vlen b /\
    (forall i, vat (getBoundaries ms "m") i = vat b i /\ vat (getBoundaries ms "cm") i = 100 * vat b i) /\
    (forall i, (0 <= i < vlen d)%Z -> vat d i = vat b (i + 1) - vat b i /\ vat d' i = 100 * vat d i).
Proof.
  intros Hl ms. assert (Hc : ms_cells ms = (vlen b - 1)%Z) by reflexivity.
  destruct (wp_ok _ _ (cell_sizes_wp ms "m" ltac:(lia) ltac:(change (ms_bounds ms) with b; lia))) as (d & E & L & D).
  destruct (wp_ok _ _ (cell_sizes_wp ms "cm" ltac:(lia) ltac:(change (ms_bounds ms) with b; lia))) as (d' & E' & L' & D').
  change (ms_bounds ms) with b in D, D'. exists d, d'. split; [exact E|]. split; [exact E'|]. split; [lia|].
  split; [reflexivity|]. split; [reflexivity|]. split.
  - intros i. split; [reflexivity|]. unfold getBoundaries. rewrite by_unit_at. unfold unit_factor. cbn [String.eqb Ascii.eqb]. cbn.
    change (ms_bounds ms) with b. ring.
  - intros i Hi. rewrite D, D' by lia. unfold unit_factor. cbn. split; ring.
Qed.
Print Assumptions C30_units.

Example C30_hypotheses_met : (1 <= vlen (mkvec 3 IZR))%Z /\ increasing (mkvec 3 IZR).
Proof. split; [cbn; lia|]. intros i H1 H2. cbn. apply IZR_lt. lia. Qed.

(* C31, for every number type *)
Theorem C31_temperatures_round_trip {T} {N : Num T} (ts : vec T) (ms : mesh T) :
  (0 <= vlen ts)%Z -> (vlen ts <= zlen (ms_mats ms))%Z ->
  (0 <= ms_cells ms)%Z -> (ms_cells ms <= zlen (ms_mats ms))%Z ->
  exists ms' old c k,
    setTemperatures ts ms = Ok ms' /\ getTemperatures ms "C" = Ok old /\
    getTemperatures ms' "C" = Ok c /\ getTemperatures ms' "K" = Ok k /\
    vlen c = ms_cells ms /\ vlen k = ms_cells ms /\
    forall i, (0 <= i < ms_cells ms)%Z ->
      vat c i = (if (i <? vlen ts)%Z then vat ts i else vat old i) /\
      vat k i = vat c i [+] nlit 27315 100.
Proof. exact (temperatures_roundtrip (newMaterial "") ts ms). Qed.
Print Assumptions C31_temperatures_round_trip.

Theorem C31_too_many_is_undefined {T} {N : Num T} (ts : vec T) (ms : mesh T) :
  (zlen (ms_mats ms) < vlen ts)%Z -> setTemperatures ts ms = UB "std::vector index".
Proof. exact (setTemperatures_too_many (newMaterial "") ts ms). Qed.
Print Assumptions C31_too_many_is_undefined.

Theorem C31_heat_sources_round_trip {T} {N : Num T} (qs ts : vec T) (ms : mesh T) :
  (0 <= vlen qs)%Z -> (vlen qs <= zlen (ms_mats ms))%Z ->
  (0 <= vlen ts)%Z -> (vlen ts <= zlen (ms_mats ms))%Z ->
  (0 <= ms_cells ms)%Z -> (ms_cells ms <= zlen (ms_mats ms))%Z ->
  exists ms' ms'' old c c' t t',
    setHeatSources qs ms = Ok ms' /\ getHeatSources ms = Ok old /\ getHeatSources ms' = Ok c /\
    setTemperatures ts ms' = Ok ms'' /\ getHeatSources ms'' = Ok c' /\
    getTemperatures ms "C" = Ok t /\ getTemperatures ms' "C" = Ok t' /\
    vlen c = ms_cells ms /\
    forall i, (0 <= i < ms_cells ms)%Z ->
      vat c i = (if (i <? vlen qs)%Z then vat qs i else vat old i) /\
      vat c' i = vat c i /\ vat t' i = vat t i.
Proof. exact (heat_roundtrip (newMaterial "") qs ts ms). Qed.
Print Assumptions C31_heat_sources_round_trip.

Definition ex_mesh : mesh R :=
  mkMesh (mkvec 3 IZR) SPHERE 2 1 [newMaterial "a"; newMaterial "b"] 1 1.
Example C31_hypotheses_met :
  let ts := vec_of_list 0 [300%R] in
  (0 <= vlen ts)%Z /\ (vlen ts <= zlen (ms_mats ex_mesh))%Z /\
  (0 <= ms_cells ex_mesh)%Z /\ (ms_cells ex_mesh <= zlen (ms_mats ex_mesh))%Z.
Proof. cbn. lia. Qed.

(* C32, for every number type. The laws of one material, seen from outside. *)
Theorem C32_cross_sections {T} {N : Num T} (dm : material T) (ms : mesh T) :
  (0 <= ms_cells ms)%Z -> (0 <= ms_groups ms)%Z -> (ms_cells ms <= zlen (ms_mats ms))%Z ->
  (forall m, (0 <= m < ms_cells ms)%Z ->
     let mt := nth (Z.to_nat m) (ms_mats ms) dm in
     mt_energies mt = ms_groups ms /\ (ms_groups ms <= zlen (mt_totXS mt))%Z /\
     (ms_groups ms <= zlen (mt_fisXS mt))%Z /\ (ms_groups ms <= zlen (mt_diff mt))%Z /\
     (mt_ni mt = [] \/ (ms_groups ms <= zlen (mt_ni mt))%Z) /\
     (mt_chi mt = [] \/ (ms_groups ms <= zlen (mt_chi mt))%Z)) ->
  exists tot fis diff ni chi,
    getTotalXSs ms = Ok tot /\ getFissionXSs ms = Ok fis /\ getDiffusionConstantss ms = Ok diff /\
    getNis ms = Ok ni /\ getChis ms = Ok chi /\
    Forall (fun r => mrows r = ms_groups ms /\ mcols r = ms_cells ms) [tot; fis; diff; ni; chi] /\
    forall e m, (0 <= e < ms_groups ms)%Z -> (0 <= m < ms_cells ms)%Z ->
      let mt := nth (Z.to_nat m) (ms_mats ms) dm in
      let law laws := law_value (nth (Z.to_nat e) laws []) (mt_temp mt) in
      mat_at tot e m = law (mt_totXS mt) /\ mat_at fis e m = law (mt_fisXS mt) /\
      mat_at diff e m = law (mt_diff mt) /\
      mat_at ni e m = (match mt_ni mt with [] => n0 | l => law l end) /\
      mat_at chi e m = (match mt_chi mt with [] => n0 | l => law l end).
Proof. exact (cross_sections dm ms). Qed.
Print Assumptions C32_cross_sections.

Theorem C32_scattering_and_removal {T} {N : Num T} (dm : material T) (ms : mesh T) :
  (0 <= ms_cells ms)%Z -> (0 <= ms_groups ms)%Z -> (ms_cells ms <= zlen (ms_mats ms))%Z ->
  (forall m, (0 <= m < ms_cells ms)%Z ->
     let mt := nth (Z.to_nat m) (ms_mats ms) dm in
     mt_energies mt = ms_groups ms /\ (ms_groups ms <= zlen (mt_totXS mt))%Z /\
     (ms_groups ms * ms_groups ms <= zlen (mt_scatt mt))%Z) ->
  exists sc rem,
    getScattMatrices ms = Ok sc /\ getRemovalXSs ms = Ok rem /\
    td0 sc = ms_groups ms /\ td1 sc = ms_groups ms /\ td2 sc = ms_cells ms /\
    mrows rem = ms_groups ms /\ mcols rem = ms_cells ms /\
    forall m, (0 <= m < ms_cells ms)%Z ->
      let mt := nth (Z.to_nat m) (ms_mats ms) dm in
      (forall i j, (0 <= i < ms_groups ms)%Z -> (0 <= j < ms_groups ms)%Z ->
         t3_at sc i j m = law_value (nth (Z.to_nat (j + i * ms_groups ms)) (mt_scatt mt) []) (mt_temp mt)) /\
      (forall e, (0 <= e < ms_groups ms)%Z ->
         mat_at rem e m = law_value (nth (Z.to_nat e) (mt_totXS mt) []) (mt_temp mt) [-] t3_at sc e e m).
Proof. exact (scattering_and_removal dm ms). Qed.
Print Assumptions C32_scattering_and_removal.

(* On the reals a law is sum_i c_i t^i. *)
Theorem C32_law_is_polynomial (c : list R) t :
  law_value c t = rsum 0 (zlen c) (fun i => nth (Z.to_nat i) c 0 * t ^ Z.to_nat i).
Proof. exact (law_value_R c t). Qed.
Print Assumptions C32_law_is_polynomial.

Example C32_hypotheses_met :
  let mt := mkMaterial "u" 1 20 0 (mzeros 0 0) (mzeros 0 0) (vzeros 0) None
              [[1; 2]] [[1]] [[3]] [[1 / 2]] [] [[1]] in
  let ms := mkMesh (mkvec 3 IZR) SPHERE 2 1 [mt; mt] 1 1 in
  forall m, (0 <= m < ms_cells ms)%Z ->
     let mt := nth (Z.to_nat m) (ms_mats ms) (newMaterial "") in
     mt_energies mt = ms_groups ms /\ (ms_groups ms <= zlen (mt_totXS mt))%Z /\
     (ms_groups ms <= zlen (mt_fisXS mt))%Z /\ (ms_groups ms <= zlen (mt_diff mt))%Z /\
     (mt_ni mt = [] \/ (ms_groups ms <= zlen (mt_ni mt))%Z) /\
     (mt_chi mt = [] \/ (ms_groups ms <= zlen (mt_chi mt))%Z) /\
     (ms_groups ms * ms_groups ms <= zlen (mt_scatt mt))%Z.
Proof.
  intros mt ms m Hm. cbn in Hm. assert (m = 0 \/ m = 1)%Z as [->| ->] by lia;
    change (Z.to_nat 1) with 1%nat; cbn; repeat split; try lia; auto;
    solve [right; unfold zlen; cbn; lia | unfold zlen; cbn; lia].
Qed.

(* C33, for every number type *)
Theorem C33_fluxes_round_trip {T} {N : Num T} (dm : material T) (t a : ten3 T) (ms : mesh T) :
  (0 <= ms_cells ms)%Z -> (0 <= ms_groups ms)%Z -> (ms_cells ms <= zlen (ms_mats ms))%Z ->
  td0 t = ms_groups ms -> td1 t = ms_cells ms -> td2 t = ms_nfwd ms -> (0 <= ms_nfwd ms)%Z ->
  td0 a = ms_groups ms -> td1 a = ms_cells ms -> td2 a = ms_nadj ms -> (0 <= ms_nadj ms)%Z ->
  exists ms1 ms2 ms3 ms4,
    setNeutronFluxes t ms = Ok ms1 /\ setAdjointFluxes a ms1 = Ok ms2 /\
    setAdjointFluxes a ms = Ok ms3 /\ setNeutronFluxes t ms3 = Ok ms4 /\
    flux_result (getNeutronFluxes ms1) t /\
    flux_result (getNeutronFluxes ms2) t /\ flux_result (getAdjointFluxes ms2) a /\
    flux_result (getNeutronFluxes ms4) t /\ flux_result (getAdjointFluxes ms4) a.
Proof. exact (fluxes_roundtrip dm t a ms). Qed.
Print Assumptions C33_fluxes_round_trip.

(* The fundamental accessors return mode 0. *)
Theorem C33_fundamental_is_mode_zero {T} {N : Num T} (dm : material T) (t a : ten3 T) (ms : mesh T) :
  (0 <= ms_cells ms)%Z -> (0 <= ms_groups ms)%Z -> (ms_cells ms <= zlen (ms_mats ms))%Z ->
  td0 t = ms_groups ms -> td1 t = ms_cells ms -> (1 <= td2 t)%Z ->
  td0 a = ms_groups ms -> td1 a = ms_cells ms -> (1 <= td2 a)%Z ->
  exists ms1 ms2 f g,
    setNeutronFluxes t ms = Ok ms1 /\ setAdjointFluxes a ms1 = Ok ms2 /\
    getFundamentalNeutronFluxes ms2 = Ok f /\ getFundamentalAdjointFluxes ms2 = Ok g /\
    mrows f = ms_groups ms /\ mcols f = ms_cells ms /\ mrows g = ms_groups ms /\ mcols g = ms_cells ms /\
    forall e m, (0 <= e < ms_groups ms)%Z -> (0 <= m < ms_cells ms)%Z ->
      mat_at f e m = t3_at t e m 0 /\ mat_at g e m = t3_at a e m 0.
Proof. exact (fundamental_mode_zero dm t a ms). Qed.
Print Assumptions C33_fundamental_is_mode_zero.

Theorem C33_total_fluxes_round_trip {T} {N : Num T} (dm : material T) (f : mat T) (ms : mesh T) :
  (0 <= ms_cells ms)%Z -> (1 <= ms_groups ms)%Z -> (ms_cells ms <= zlen (ms_mats ms))%Z ->
  mrows f = ms_groups ms -> mcols f = ms_cells ms ->
  exists ms' g, setTotalFluxes f ms = Ok ms' /\ getTotalFluxes ms' = Ok g /\
    mrows g = ms_groups ms /\ mcols g = ms_cells ms /\
    forall e m, (0 <= e < ms_groups ms)%Z -> (0 <= m < ms_cells ms)%Z -> mat_at g e m = mat_at f e m.
Proof. exact (total_fluxes_roundtrip dm f ms). Qed.
Print Assumptions C33_total_fluxes_round_trip.

Example C33_hypotheses_met :
  let t := mkten3 1 2 1 (fun e m n => IZR m) in
  (0 <= ms_cells ex_mesh)%Z /\ (1 <= ms_groups ex_mesh)%Z /\ (ms_cells ex_mesh <= zlen (ms_mats ex_mesh))%Z /\
  td0 t = ms_groups ex_mesh /\ td1 t = ms_cells ex_mesh /\ td2 t = ms_nfwd ex_mesh /\ td2 t = ms_nadj ex_mesh.
Proof. cbn. lia. Qed.
