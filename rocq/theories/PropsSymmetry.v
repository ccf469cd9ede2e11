(* Property theorems C94: the results do not depend on the side from which a slab is
   described nor on the order of the energy groups. *)
From Coq Require Import String ZArith List Bool Lia Reals Lra.
From Verif Require Import Base BaseLemmas NumR LinAlg Blocks ModelNumTools ModelEigen ModelMesh ModelReactor
  ModelDiffusion ProofsEigen ProofsMesh ProofsPower ProofsDiffusion ProofsDiffusionR ProofsSymmetry.
Import ListNotations.
Local Open Scope R_scope.

(* ---------- the two descriptions ---------- *)

Definition same_laws (a b : material R) : Prop :=
  mt_temp b = mt_temp a /\ mt_totXS b = mt_totXS a /\ mt_fisXS b = mt_fisXS a /\ mt_diff b = mt_diff a /\
  mt_scatt b = mt_scatt a /\ mt_ni b = mt_ni a /\ mt_chi b = mt_chi a.

(* ms' is the slab ms seen from the other side: widths and materials in reverse order *)
Record mirrored (ms ms' : mesh R) : Prop := {
  mi_slab : ms_geom ms = SLAB /\ ms_geom ms' = SLAB;
  mi_cells : ms_cells ms' = ms_cells ms;
  mi_groups : ms_groups ms' = ms_groups ms;
  mi_width : forall m, (0 <= m < ms_cells ms)%Z ->
    vat (ms_bounds ms') (m + 1) - vat (ms_bounds ms') m = vat (ms_bounds ms) (ms_cells ms - m) - vat (ms_bounds ms) (ms_cells ms - 1 - m);
  mi_laws : forall m, (0 <= m < ms_cells ms)%Z -> same_laws (cell_material ms m) (cell_material ms' (ms_cells ms - 1 - m))
}.

(* ms' is ms with the groups in another order: group e has become group p e *)
Record relabelled (p : Z -> Z) (ms ms' : mesh R) : Prop := {
  re_geom : ms_geom ms' = ms_geom ms;
  re_cells : ms_cells ms' = ms_cells ms;
  re_groups : ms_groups ms' = ms_groups ms;
  re_bounds : forall k, (0 <= k <= ms_cells ms)%Z -> vat (ms_bounds ms') k = vat (ms_bounds ms) k;
  re_temp : forall m, (0 <= m < ms_cells ms)%Z -> mt_temp (cell_material ms' m) = mt_temp (cell_material ms m);
  re_laws : forall m e, (0 <= m < ms_cells ms)%Z -> (0 <= e < ms_groups ms)%Z ->
    let a := cell_material ms m in let b := cell_material ms' m in
    let moved (sel : material R -> list (list R)) := nth (Z.to_nat (p e)) (sel b) [] = nth (Z.to_nat e) (sel a) [] in
    moved mt_totXS /\ moved mt_fisXS /\ moved mt_diff /\ moved mt_ni /\ moved mt_chi;
  re_given : forall m, (0 <= m < ms_cells ms)%Z ->
    (mt_ni (cell_material ms' m) = [] <-> mt_ni (cell_material ms m) = []) /\ (mt_chi (cell_material ms' m) = [] <-> mt_chi (cell_material ms m) = []);
  re_scatt : forall m e e', (0 <= m < ms_cells ms)%Z -> (0 <= e < ms_groups ms)%Z -> (0 <= e' < ms_groups ms)%Z ->
    nth (Z.to_nat (p e' + p e * ms_groups ms)) (mt_scatt (cell_material ms' m)) [] = nth (Z.to_nat (e' + e * ms_groups ms)) (mt_scatt (cell_material ms m)) []
}.

(* what the calculation leaves in the reactor, in the new order of groups and cells *)
Definition stored_adj (ms : mesh R) (e i : Z) : R := mat_at (mt_adj (cell_material ms i)) e 0.
Definition same_results (dir : DirectionKind) (n en : Z) (p c : Z -> Z) (x y : res (vec R * reactor R)) : Prop :=
  match x, y with
  | Ok (_, a), Ok (_, b) =>
      match dir with
      | ADJOINT => rx_adj b = rx_adj a /\
          forall e m, (0 <= e < en)%Z -> (0 <= m < n)%Z -> stored_adj (rx_mesh b) (p e) (c m) = stored_adj (rx_mesh a) e m
      | _ => rx_fwd b = rx_fwd a /\
          (forall e m, (0 <= e < en)%Z -> (0 <= m < n)%Z -> stored_flux (rx_mesh b) (p e) (c m) = stored_flux (rx_mesh a) e m) /\
          (forall m, (0 <= m < n)%Z -> stored_heat (rx_mesh b) (c m) = stored_heat (rx_mesh a) m)
      end
  | Exit a, Exit b => a = b
  | _, _ => False
  end.

(* ---------- storing the results ---------- *)

Lemma law_nil t : law_value (T := R) [] t = 0.
Proof. rewrite law_value_R. apply rsum_empty. unfold zlen. cbn. lia. Qed.

Lemma mirrored_data ms ms' : ready ms -> ready ms' -> mirrored ms ms' ->
  data_like (ms_cells ms) (ms_groups ms) (fun e => e) (back (ms_cells ms)) (mesh_tables ms) (mesh_tables ms') /\
  (forall k, tS (mesh_tables ms') (ms_cells ms - k) = tS (mesh_tables ms) k) /\
  (forall m, (0 <= m < ms_cells ms)%Z -> cell_volume ms' (back (ms_cells ms) m) = cell_volume ms m) /\
  (forall e m, (0 <= m < ms_cells ms)%Z -> law_at mt_fisXS ms' e (back (ms_cells ms) m) = law_at mt_fisXS ms e m).
Proof.
  intros _ _ [[G G'] Hc Hg Hw Hl]. set (n := ms_cells ms) in *.
  assert (W : forall m, (0 <= m < n)%Z -> vat (ms_bounds ms') (back n m + 1) - vat (ms_bounds ms') (back n m) = vat (ms_bounds ms) (m + 1) - vat (ms_bounds ms) m).
  { intros m Hm. rewrite Hw by (unfold back; lia). unfold back. replace (n - (n - 1 - m))%Z with (m + 1)%Z by lia. replace (n - 1 - (n - 1 - m))%Z with m by lia. reflexivity. }
  assert (L : forall m, (0 <= m < n)%Z -> same_laws (cell_material ms m) (cell_material ms' (back n m))) by (intros m Hm; apply Hl; exact Hm).
  split; [|split; [|split]].
  - split; cbn [mesh_tables ttot tfis tni tchi tD tsc tdx tV]; intros; match goal with H : (0 <= ?x < n)%Z |- context [back n ?x] => destruct (L x H) as (E1 & E2 & E3 & E4 & E5 & E6 & E7) end;
      unfold law_at0, law_at; rewrite ?E1, ?E2, ?E3, ?E4, ?E5, ?E6, ?E7, ?Hg; try reflexivity.
    + rewrite W by assumption. reflexivity.
    + rewrite G, G'. cbn [body_volume]. rewrite W by assumption. reflexivity.
  - intros k. cbn [mesh_tables tS]. rewrite G, G'. reflexivity.
  - intros m Hm. unfold cell_volume. rewrite G, G'. cbn [body_volume]. apply W, Hm.
  - intros e m Hm. unfold law_at. destruct (L m Hm) as (E1 & E2 & E3 & _). rewrite E1, E3. reflexivity.
Qed.

Lemma relabelled_data p ms ms' : relabelled p ms ms' ->
  data_like (ms_cells ms) (ms_groups ms) p (fun m => m) (mesh_tables ms) (mesh_tables ms') /\
  (forall k, (0 <= k <= ms_cells ms)%Z -> tS (mesh_tables ms') k = tS (mesh_tables ms) k) /\
  (forall m, (0 <= m < ms_cells ms)%Z -> cell_volume ms' m = cell_volume ms m) /\
  (forall e m, (0 <= e < ms_groups ms)%Z -> (0 <= m < ms_cells ms)%Z -> law_at mt_fisXS ms' (p e) m = law_at mt_fisXS ms e m).
Proof.
  intros [G Hc Hg Hb Ht Hl Hv Hs]. split; [|split; [|split]].
  - split; cbn [mesh_tables ttot tfis tni tchi tD tsc tdx tV].
    1,2,5: intros e m He Hm; destruct (Hl m e Hm He) as (E1 & E2 & E3 & E4 & E5); unfold law_at; rewrite Ht by assumption; congruence.
    1,2: intros e m He Hm; destruct (Hl m e Hm He) as (E1 & E2 & E3 & E4 & E5); destruct (Hv m Hm) as [V1 V2]; unfold law_at0, law_at; rewrite Ht, ?E4, ?E5 by assumption.
    + destruct (mt_ni (cell_material ms m)) eqn:Q; [rewrite (proj2 V1 eq_refl); reflexivity|]. destruct (mt_ni (cell_material ms' m)) eqn:Q'; [exfalso; apply proj1 in V1; specialize (V1 eq_refl); discriminate|reflexivity].
    + destruct (mt_chi (cell_material ms m)) eqn:Q; [rewrite (proj2 V2 eq_refl); reflexivity|]. destruct (mt_chi (cell_material ms' m)) eqn:Q'; [exfalso; apply proj1 in V2; specialize (V2 eq_refl); discriminate|reflexivity].
    + intros e e' m He He' Hm. rewrite Hg, Hs, Ht by assumption. reflexivity.
    + intros m Hm. rewrite !Hb by lia. reflexivity.
    + intros m Hm. rewrite G, !Hb by lia. reflexivity.
  - intros k Hk. cbn [mesh_tables tS]. rewrite G, Hb by lia. reflexivity.
  - intros m Hm. unfold cell_volume. rewrite G, !Hb by lia. reflexivity.
  - intros e m He Hm. unfold law_at. destruct (Hl m e Hm He) as (_ & -> & _). rewrite Ht by assumption. reflexivity.
Qed.

Lemma setAdjointModes_spec (r : reactor R) (res : eigenmodesResults R) :
  let ms := rx_mesh r in fissile ms -> (1 <= zlen (er_modes res))%Z ->
  (forall k, (0 <= k < zlen (er_modes res))%Z -> (ms_cells ms * ms_groups ms <= vlen (snd (nth (Z.to_nat k) (er_modes res) dmode)))%Z) ->
  exists r', setAdjointModes (ms_groups ms) (ms_cells ms) res r = Ok r' /\ rx_adj r' = er_eigenvalues res /\
    forall e i, (0 <= e < ms_groups ms)%Z -> (0 <= i < ms_cells ms)%Z -> stored_adj (rx_mesh r') e i = mode_flux ms (er_modes res) 0 e i.
Proof.
  intros ms (Hg & Hc & Hl & He & Hm & Hmat) Hmodes Hlen.
  destruct (wp_ok _ _ (modes_tensor_wp (ms_groups ms) (ms_cells ms) (er_modes res) dmode He Hc Hlen)) as (t & Et & D0 & D1 & D2 & Ht).
  unfold setAdjointModes. rewrite Et. cbn [bind].
  destruct (wp_ok _ _ (setFluxes_wp dm0 set_adj t ms ltac:(lia) ltac:(unfold zlen in *; lia))) as (ms1 & E1 & c1 & g1 & f1 & a1 & l1 & h1).
  unfold setAdjointFluxes. fold ms. rewrite E1. cbn [bind]. eexists. split; [reflexivity|]. split; [reflexivity|].
  intros e i Hee Hi. unfold stored_adj, cell_material. cbn [rx_mesh with_mesh with_adj setAdjointEigenmodesNumber ms_mats].
  rewrite h1 by (unfold zlen in *; lia). rewrite Z2Nat.id by lia. replace (i <? td1 t)%Z with true by lia. cbn [set_adj mt_adj chip1 mat_at].
  rewrite Ht by lia. reflexivity.
Qed.

Section Stored.
Variables (solver : mat R -> vec R -> vec R) (sort : list (R * vec R) -> list (R * vec R)) (eig : mat R -> mat R -> vec (R * R) * mat (R * R)).
Variables (r r' : reactor R) (sd sd' : solverData R) (p p' c c' : Z -> Z) (M F M' F' : mat R).
Let ms := rx_mesh r.
Let ms' := rx_mesh r'.
Let n := ms_cells ms.
Let en := ms_groups ms.
Hypothesis Hr : ready ms.
Hypothesis Hr' : ready ms'.
Hypothesis Hcells : ms_cells ms' = n.
Hypothesis Hgroups : ms_groups ms' = en.
Hypothesis Hn : (0 < n)%Z.
Hypothesis Hen : (0 <= en)%Z.
Hypothesis Hpw : rx_power r' = rx_power r.
Hypothesis Hp : reorders en p p'.
Hypothesis Hc : reorders n c c'.
Hypothesis Hvol : forall m, (0 <= m < n)%Z -> cell_volume ms' (c m) = cell_volume ms m.
Hypothesis Hfis : forall e m, (0 <= e < en)%Z -> (0 <= m < n)%Z -> law_at mt_fisXS ms' (p e) (c m) = law_at mt_fisXS ms e m.

Section Flux.
Variables (a b : eigenmodesResults R).
Hypothesis Ha : er_modes a = [(er_k a, er_flux a)].
Hypothesis Hb : er_modes b = [(er_k b, er_flux b)].
Hypothesis Hk : er_k a = er_k b.
Hypothesis Hf : vec_like (n * en) (block_map n p c) (er_flux a) (er_flux b).

Lemma flux_like e m : (0 <= e < en)%Z -> (0 <= m < n)%Z -> mode_flux ms' (er_modes b) 0 (p e) (c m) = mode_flux ms (er_modes a) 0 e m.
Proof using Ha Hb Hf Hcells.
  intros He Hm. unfold mode_flux. rewrite Ha, Hb. cbn [Z.to_nat nth snd]. rewrite Hcells. fold n. destruct Hf as (_ & _ & H).
  rewrite <- H by (apply idx_range; assumption). rewrite block_map_at by exact Hm. reflexivity.
Qed.
Lemma modes_fit k : (0 <= k < zlen (er_modes a))%Z -> (n * en <= vlen (snd (nth (Z.to_nat k) (er_modes a) dmode)))%Z.
Proof using Ha Hf. rewrite Ha. unfold zlen. cbn [length]. intros Hkk. assert (k = 0)%Z as -> by lia. cbn [Z.to_nat nth snd]. destruct Hf as (-> & _). lia. Qed.
Lemma modes_fit' k : (0 <= k < zlen (er_modes b))%Z -> (n * en <= vlen (snd (nth (Z.to_nat k) (er_modes b) dmode)))%Z.
Proof using Hb Hf. rewrite Hb. unfold zlen. cbn [length]. intros Hkk. assert (k = 0)%Z as -> by lia. cbn [Z.to_nat nth snd]. destruct Hf as (_ & -> & _). lia. Qed.

Lemma stored_heat_like vol vol' : getVolumes PI ms "cm" = Ok vol -> getVolumes PI ms' "cm" = Ok vol' ->
  exists r1 r1', setNewHeatSource PI vol en n a r = Ok r1 /\ setNewHeatSource PI vol' en n b r' = Ok r1' /\
    rx_fwd r1' = rx_fwd r1 /\
    (forall e m, (0 <= e < en)%Z -> (0 <= m < n)%Z -> stored_flux (rx_mesh r1') (p e) (c m) = stored_flux (rx_mesh r1) e m) /\
    (forall m, (0 <= m < n)%Z -> stored_heat (rx_mesh r1') (c m) = stored_heat (rx_mesh r1) m).
Proof using Hr Hr' Hcells Hgroups Hpw Hp Hc Hvol Hfis Ha Hb Hk Hf.
  intros Ev Ev'. assert (Hrl : forall e, (0 <= e < en)%Z -> (0 <= p e < en)%Z) by (intros; apply Hp; assumption).
  assert (Hcl : forall m, (0 <= m < n)%Z -> (0 <= c m < n)%Z) by (intros; apply Hc; assumption).
  assert (Z1 : (1 <= zlen (er_modes a))%Z) by (rewrite Ha; unfold zlen; cbn; lia). assert (Z2 : (1 <= zlen (er_modes b))%Z) by (rewrite Hb; unfold zlen; cbn; lia).
  assert (Fit : forall k, (0 <= k < zlen (er_modes b))%Z -> (ms_cells (rx_mesh r') * ms_groups (rx_mesh r') <= vlen (snd (nth (Z.to_nat k) (er_modes b) dmode)))%Z) by (fold ms'; rewrite Hcells, Hgroups; exact modes_fit').
  destruct (setNewHeatSource_spec r vol a (ready_fissile _ Hr) Ev Z1 modes_fit) as (r1 & E1 & _ & W1 & _ & _ & _ & _ & _ & _ & _ & C1).
  destruct (setNewHeatSource_spec r' vol' b (ready_fissile _ Hr') Ev' Z2 Fit) as (r2 & E2 & _ & W2 & _ & _ & _ & _ & _ & _ & _ & C2).
  fold ms n in E1, C1. fold ms' in E2, C2. rewrite Hcells, Hgroups in E2. rewrite Hcells in C2. fold n in C2. fold en in E1.
  exists r1, r2. split; [exact E1|]. split; [exact E2|]. split; [|split].
  - rewrite W1, W2. unfold er_eigenvalues. rewrite Ha, Hb, Hk. reflexivity.
  - intros e m He Hm. destruct (C1 m Hm) as (f & q & M1 & (_ & _ & Q1) & _). destruct (C2 (c m) (Hcl m Hm)) as (f' & q' & M2 & (_ & _ & Q2) & _).
    unfold stored_flux. rewrite M1, M2. cbn [set_heat set_flux mt_flux]. rewrite Q1 by (fold en; lia). rewrite Q2 by (rewrite ?Hgroups; first [apply Hrl; exact He|lia]). apply flux_like; assumption.
  - assert (Rate : forall m, (0 <= m < n)%Z -> fission_rate ms' (mode_flux ms' (er_modes b) 0) (c m) = fission_rate ms (mode_flux ms (er_modes a) 0) m).
    { intros m Hm. unfold fission_rate. rewrite Hgroups, Hvol by exact Hm. f_equal. fold en.
      apply (like_sum en p p' Hp (fun e => mode_flux ms (er_modes a) 0 e m * law_at mt_fisXS ms e m) (fun e => mode_flux ms' (er_modes b) 0 e (c m) * law_at mt_fisXS ms' e (c m))).
      intros e He. rewrite flux_like, Hfis by assumption. reflexivity. }
    intros m Hm. destruct (C1 m Hm) as (f & q & M1 & _ & Q1). destruct (C2 (c m) (Hcl m Hm)) as (f' & q' & M2 & _ & Q2).
    unfold stored_heat. rewrite M1, M2. cbn [set_heat mt_heat]. rewrite Q1, Q2, Hpw, Hvol, Rate by exact Hm. fold ms n.
    rewrite (like_sum n c c' Hc (fission_rate ms (mode_flux ms (er_modes a) 0)) (fission_rate ms' (mode_flux ms' (er_modes b) 0)) Rate). reflexivity.
Qed.
Lemma stored_adj_like : exists r1 r1', setAdjointModes en n a r = Ok r1 /\ setAdjointModes en n b r' = Ok r1' /\ rx_adj r1' = rx_adj r1 /\
    (forall e m, (0 <= e < en)%Z -> (0 <= m < n)%Z -> stored_adj (rx_mesh r1') (p e) (c m) = stored_adj (rx_mesh r1) e m).
Proof using Hr Hr' Hcells Hgroups Hp Hc Ha Hb Hk Hf.
  assert (Z1 : (1 <= zlen (er_modes a))%Z) by (rewrite Ha; unfold zlen; cbn; lia). assert (Z2 : (1 <= zlen (er_modes b))%Z) by (rewrite Hb; unfold zlen; cbn; lia).
  assert (Fit : forall k, (0 <= k < zlen (er_modes b))%Z -> (ms_cells (rx_mesh r') * ms_groups (rx_mesh r') <= vlen (snd (nth (Z.to_nat k) (er_modes b) dmode)))%Z) by (fold ms'; rewrite Hcells, Hgroups; exact modes_fit').
  destruct (setAdjointModes_spec r a (ready_fissile _ Hr) Z1 modes_fit) as (r1 & E1 & W1 & C1).
  destruct (setAdjointModes_spec r' b (ready_fissile _ Hr') Z2 Fit) as (r2 & E2 & W2 & C2).
  fold ms n en in E1, C1. fold ms' in E2, C2. rewrite Hcells, Hgroups in E2, C2.
  exists r1, r2. split; [exact E1|]. split; [exact E2|]. split; [rewrite W1, W2; unfold er_eigenvalues; rewrite Ha, Hb, Hk; reflexivity|].
  intros e m He Hm. rewrite C1, C2 by (first [assumption|apply Hp; assumption|apply Hc; assumption]). apply flux_like; assumption.
Qed.
End Flux.

Hypothesis Esys : diffusionSystem PI ms sd = Ok (M, F).
Hypothesis Esys' : diffusionSystem PI ms' sd' = Ok (M', F').
Hypothesis HM : mat_like (n * en) (block_map n p c) M M'.
Hypothesis HF : mat_like (n * en) (block_map n p c) F F'.
Hypothesis Hinj : injective (n * en) (mat_at M).
Hypothesis HX : exact_solver M (solver M).
Hypothesis HX' : exact_solver M' (solver M').
Hypothesis Hdir : sd_dir sd <> DirUNDEFINED.
Hypothesis Hsd : sd' = mkSolverData (sd_kind sd) (sd_acc sd) (sd_max sd) (sd_relax sd) (sd_albedo sd') (sd_heatbc sd) (sd_energies sd) (sd_dir sd) (sd_eig sd).
Hypothesis Heig : sd_eig sd = FUNDAMENTAL.
Hypothesis Hes : sd_energies sd = en.

Lemma diffusion_like : same_results (sd_dir sd) n en p c (diffusionSolve PI solver sort eig sd r) (diffusionSolve PI solver sort eig sd' r').
Proof.
  assert (Hm : (n <= zlen (ms_mats ms))%Z) by apply Hr. assert (Hm' : (ms_cells ms' <= zlen (ms_mats ms'))%Z) by apply Hr'.
  assert (Hb1 : (n + 1 = vlen (ms_bounds ms))%Z) by apply Hr. assert (Hb2 : (ms_cells ms' + 1 = vlen (ms_bounds ms'))%Z) by apply Hr'.
  assert (G1 : ms_geom ms <> GeomUNDEFINED) by apply Hr. assert (G2 : ms_geom ms' <> GeomUNDEFINED) by apply Hr'.
  destruct (wp_ok _ _ (getHeatSources_wp dm0 ms ltac:(fold n; lia) ltac:(fold n; lia))) as (old & Eo & _).
  destruct (wp_ok _ _ (getHeatSources_wp dm0 ms' ltac:(lia) ltac:(lia))) as (old' & Eo' & _).
  destruct (wp_ok _ _ (volumes_wp ms "cm" G1 ltac:(lia))) as (vol & Ev & _).
  destruct (wp_ok _ _ (volumes_wp ms' "cm" G2 ltac:(lia))) as (vol' & Ev' & _).
  assert (Hord : reorders (n * en) (block_map n p c) (block_map n p' c')) by (apply block_reorders; assumption).
  pose proof (like_iteration (n * en) (block_map n p c) (block_map n p' c') Hord M F M' F' solver ltac:(nia) HM HF Hinj HX HX' (sd_max sd) (sd_acc sd) (sd_dir sd)) as L.
  unfold diffusionSolve. fold ms ms'. rewrite Eo, Eo', Ev, Ev', Esys, Esys'. cbn [bind]. unfold solveEigen. rewrite Hsd. cbn [sd_eig sd_max sd_acc sd_dir sd_energies]. rewrite Heig, Hes.
  destruct (sourceIteration solver M F (sd_max sd) (sd_acc sd) (sd_dir sd)) as [[i a]|x|x|x];
  destruct (sourceIteration solver M' F' (sd_max sd) (sd_acc sd) (sd_dir sd)) as [[j b]|y|y|y]; cbn [same_outcome] in L; try contradiction; cbn [bind snd]; [|exact L].
  destruct L as (_ & Hk & Hf & Ha & Hb & _). rewrite Hcells. fold n.
  destruct (stored_heat_like a b Ha Hb Hk Hf vol vol' Ev Ev') as (r1 & r2 & E1 & E2 & Q1).
  destruct (stored_adj_like a b Ha Hb Hk Hf) as (r3 & r4 & E3 & E4 & Q2).
  destruct (sd_dir sd); [congruence| |].
  - rewrite E1, E2. exact Q1.
  - rewrite E3, E4. exact Q2.
Qed.
End Stored.

(* a solver of the input with other albedos *)
Definition with_albedo (l : list R) (sd : solverData R) : solverData R :=
  mkSolverData (sd_kind sd) (sd_acc sd) (sd_max sd) (sd_relax sd) l (sd_heatbc sd) (sd_energies sd) (sd_dir sd) (sd_eig sd).

(* The mirror image of a slab, with the albedos exchanged, has the same factor, the mirror
   image of the flux and of the power; both calculations stop after the same iteration or
   both do not converge.  The only thing asked of the equations is that they have one
   solution (C47 for physical data). *)
Theorem C94_mirror solver sort eig r r' sd aL aR :
  let ms := rx_mesh r in let ms' := rx_mesh r' in let n := ms_cells ms in let en := ms_groups ms in
  ready ms -> ready ms' -> mirrored ms ms' -> (2 <= n)%Z -> rx_power r' = rx_power r ->
  sd_albedo sd = [aL; aR] -> sd_energies sd = en -> sd_dir sd <> DirUNDEFINED -> sd_eig sd = FUNDAMENTAL ->
  exists M F M' F', diffusionSystem PI ms sd = Ok (M, F) /\ diffusionSystem PI ms' (with_albedo [aR; aL] sd) = Ok (M', F') /\
    (injective (n * en) (mat_at M) -> injective (n * en) (mat_at M') /\
     (exact_solver M (solver M) -> exact_solver M' (solver M') ->
      same_results (sd_dir sd) n en (fun e => e) (fun m => n - 1 - m)%Z
        (diffusionSolve PI solver sort eig sd r) (diffusionSolve PI solver sort eig (with_albedo [aR; aL] sd) r'))).
Proof.
  intros ms ms' n en Hr Hr' Hmi Hn Hpw Ha Hes Hdir Heig. pose proof Hmi as [[G G'] Hc Hg _ _].
  destruct (mirrored_data ms ms' Hr Hr' Hmi) as (D & S & V & Lf).
  assert (Hen : (0 <= en)%Z) by apply Hr. pose proof (ready_data ms Hr) as D1. pose proof (ready_data ms' Hr') as D2. rewrite Hg in D2. fold n en in D, S, V, Lf, D1, D2.
  assert (A1 : albedos ms sd aL aR) by (unfold albedos; rewrite G, Ha; split; reflexivity).
  assert (A2 : albedos ms' (with_albedo [aR; aL] sd) aR aL) by (unfold albedos; rewrite G'; split; reflexivity).
  assert (Hb := mirror_boundary ms ms' (mesh_tables ms) (mesh_tables ms') aL aR en Hc Hn D (fun k _ => S k)).
  rewrite <- Hes in Hen, D1, D2, D, Hb.
  destruct (image_system ms ms' sd (with_albedo [aR; aL] sd) (mesh_tables ms) (mesh_tables ms') aL aR aR aL (fun e => e) (fun e => e) (back n) (back n)
    Hn Hen D1 D2 A1 A2 Hc eq_refl Hdir eq_refl (id_reorders _) (back_reorders n) D Hb) as (M & F & M' & F' & E & E' & HM & HF).
  exists M, F, M', F'. split; [exact E|]. split; [exact E'|]. fold n in HM, HF. rewrite Hes in HM, HF, Hen.
  assert (Hord : reorders (n * en) (block_map n (fun e => e) (back n)) (block_map n (fun e => e) (back n))) by (apply block_reorders; [lia|apply id_reorders|apply back_reorders]).
  intros Hinj. split; [exact (like_injective _ _ _ Hord M M' HM Hinj)|]. intros X X'.
  apply (diffusion_like solver sort eig r r' sd (with_albedo [aR; aL] sd) (fun e => e) (fun e => e) (back n) (back n) M F M' F'); try assumption; try reflexivity.
  - fold ms n. lia.
  - apply id_reorders.
  - apply back_reorders.
  - intros e m _ Hm. apply Lf. exact Hm.
Qed.
Print Assumptions C94_mirror.

(* The groups of a file may be numbered in any order: the fluxes come in that order, the
   factor and the power stay, in every geometry. *)
Theorem C94_groups solver sort eig r r' sd aL aR p p' :
  let ms := rx_mesh r in let ms' := rx_mesh r' in let n := ms_cells ms in let en := ms_groups ms in
  ready ms -> ready ms' -> reorders en p p' -> relabelled p ms ms' -> (2 <= n)%Z -> rx_power r' = rx_power r ->
  albedos ms sd aL aR -> sd_energies sd = en -> sd_dir sd <> DirUNDEFINED -> sd_eig sd = FUNDAMENTAL ->
  exists M F M' F', diffusionSystem PI ms sd = Ok (M, F) /\ diffusionSystem PI ms' sd = Ok (M', F') /\
    (injective (n * en) (mat_at M) -> injective (n * en) (mat_at M') /\
     (exact_solver M (solver M) -> exact_solver M' (solver M') ->
      same_results (sd_dir sd) n en p (fun m => m) (diffusionSolve PI solver sort eig sd r) (diffusionSolve PI solver sort eig sd r'))).
Proof.
  intros ms ms' n en Hr Hr' Hp Hre Hn Hpw Ha Hes Hdir Heig. pose proof Hre as [G Hc Hg _ _ _ _ _].
  destruct (relabelled_data p ms ms' Hre) as (D & S & V & Lf).
  assert (Hen : (0 <= en)%Z) by apply Hr. pose proof (ready_data ms Hr) as D1. pose proof (ready_data ms' Hr') as D2. rewrite Hg in D2. fold n en in D, S, V, Lf, D1, D2.
  assert (A2 : albedos ms' sd aL aR) by (unfold albedos in *; rewrite G; exact Ha).
  assert (Hb := relabel_boundary ms ms' (mesh_tables ms) (mesh_tables ms') aL aR en p p' Hc Hn Hp D S).
  assert (Hp0 := Hp). rewrite <- Hes in Hen, D1, D2, D, Hb, Hp0.
  destruct (image_system ms ms' sd sd (mesh_tables ms) (mesh_tables ms') aL aR aL aR p p' (fun m => m) (fun m => m)
    Hn Hen D1 D2 Ha A2 Hc eq_refl Hdir eq_refl Hp0 (id_reorders _) D Hb) as (M & F & M' & F' & E & E' & HM & HF).
  exists M, F, M', F'. split; [exact E|]. split; [exact E'|]. fold n in HM, HF. rewrite Hes in HM, HF, Hen.
  assert (Hord : reorders (n * en) (block_map n p (fun m => m)) (block_map n p' (fun m => m))) by (apply block_reorders; [lia|exact Hp|apply id_reorders]).
  intros Hinj. split; [exact (like_injective _ _ _ Hord M M' HM Hinj)|]. intros X X'.
  apply (diffusion_like solver sort eig r r' sd sd p p' (fun m => m) (fun m => m) M F M' F'); try assumption; try reflexivity.
  - fold ms n. lia.
  - apply id_reorders.
  - destruct sd; reflexivity.
Qed.
Print Assumptions C94_groups.

(* ---------- the hypotheses are met ---------- *)
From Verif Require PropsHeat.
From Verif Require Import ModelHeat ProofsHeat ProofsHeatLoop ProofsReactivity ProofsConverge ProofsConvergeD PropsConverge PropsReactivity.

(* three cells of two groups with boundaries w (cm), thermal total x and thermal fission y *)
Definition layered (w : Z -> R) (x y : Z -> R) : mesh R :=
  mkMesh (mkvec 4 (fun i => w i / 100)) SLAB 3 2 [tuned_material (x 0%Z) (y 0%Z); tuned_material (x 1%Z) (y 1%Z); tuned_material (x 2%Z) (y 2%Z)] 1 1.
Definition layer_solver (max : Z) (aL aR : R) : solverData R := mkSolverData DIFFUSION (1 / 1000) max 1 [aL; aR] [] 2 FORWARD FUNDAMENTAL.

Lemma layered_ready w x y : ready (layered w x y).
Proof.
  repeat split; cbn; try lia; try congruence.
  all: assert (m = 0 \/ m = 1 \/ m = 2)%Z as [->|[->| ->]] by (cbn in *; lia);
    change (Z.to_nat 1) with 1%nat; change (Z.to_nat 2) with 2%nat; cbn;
    try reflexivity; try (right; unfold zlen; cbn; lia); unfold zlen; cbn; lia.
Qed.
Lemma layered_cell w x y m : (0 <= m < 3)%Z -> cell_material (layered w x y) m = tuned_material (x m) (y m).
Proof. intros Hm. assert (m = 0 \/ m = 1 \/ m = 2)%Z as [->|[->| ->]] by lia; reflexivity. Qed.
Lemma layered_tables w x y : let d := mesh_tables (layered w x y) in
  forall m, (0 <= m < 3)%Z ->
    (forall e, (0 <= e < 2)%Z -> tD d e m = 1 /\ tni d e m = 2) /\ ttot d 0 m = 1 /\ ttot d 1 m = x m /\
    tfis d 0 m = 0 /\ tfis d 1 m = y m /\ tchi d 0 m = 1 /\ tchi d 1 m = 0 /\
    tsc d 0 0 m = 1 / 4 /\ tsc d 0 1 m = 1 / 2 /\ tsc d 1 0 m = 0 /\ tsc d 1 1 m = 1 / 2 /\
    tdx d m = w (m + 1)%Z - w m /\ tV d m = w (m + 1)%Z - w m.
Proof.
  intros d m Hm.
  assert (Hc : forall c t, law_value (T := R) [c] t = c) by (intros; rewrite law_value_R; exact (eq_trans (rsum_one 0 _) (Rmult_1_r c))).
  cbn [d mesh_tables tD ttot tsc tfis tni tchi tdx tS tV]. unfold law_at, law_at0, law_at. rewrite layered_cell by exact Hm.
  cbn [tuned_material mt_diff mt_totXS mt_scatt mt_fisXS mt_ni mt_chi mt_temp layered ms_groups ms_geom ms_bounds vat].
  split.
  - intros e He. assert (e = 0 \/ e = 1)%Z as [->| ->] by lia; [change (Z.to_nat 0) with 0%nat|change (Z.to_nat 1) with 1%nat]; cbn [nth]; rewrite !Hc; auto.
  - change (Z.to_nat (0 + 0 * 2)) with 0%nat. change (Z.to_nat (1 + 0 * 2)) with 1%nat. change (Z.to_nat (0 + 1 * 2)) with 2%nat. change (Z.to_nat (1 + 1 * 2)) with 3%nat.
    change (Z.to_nat 0) with 0%nat. change (Z.to_nat 1) with 1%nat. cbn [nth]. rewrite !Hc. cbn. repeat split; lra.
Qed.
Definition sound (w x y : Z -> R) : Prop := forall m, (0 <= m < 3)%Z -> w m < w (m + 1)%Z /\ 1 <= x m /\ 0 < y m.
Lemma layered_case w x y max aL aR : sound w x y -> 0 <= aL <= 1 -> 0 <= aR <= 1 ->
  diffusion_case (layered w x y) (layer_solver max aL aR) (mesh_tables (layered w x y)) aL aR.
Proof.
  intros Hs HL HR. split; cbn [layered layer_solver ms_cells sd_energies]; try lia; try lra.
  - exact (ready_data _ (layered_ready w x y)).
  - split; reflexivity.
  - intros e m He Hm. destruct (layered_tables w x y m Hm) as (A & _). destruct (A e He) as [-> _]. lra.
  - intros m Hm. destruct (layered_tables w x y m Hm) as (_ & _ & _ & _ & _ & _ & _ & _ & _ & _ & _ & B & _). rewrite B. destruct (Hs m Hm). lra.
  - intros k Hk. cbn. lra.
  - intros k Hk. cbn. lra.
  - intros m Hm. destruct (layered_tables w x y m Hm) as (_ & _ & _ & _ & _ & _ & _ & _ & _ & _ & _ & _ & B). rewrite B. destruct (Hs m Hm). lra.
  - intros e e' m He He' Hm. destruct (layered_tables w x y m Hm) as (_ & _ & _ & _ & _ & _ & _ & S00 & S01 & S10 & S11 & _). two_cases e; two_cases e'; lra.
  - intros e m He Hm. destruct (layered_tables w x y m Hm) as (_ & T0 & T1 & _ & _ & _ & _ & S00 & S01 & S10 & S11 & _). destruct (Hs m Hm) as (_ & Hx & _).
    rewrite !rsum_first by lia. rewrite rsum_empty by lia. cbn [Z.add Pos.add]. two_cases e; lra.
  - intros e m He Hm. destruct (layered_tables w x y m Hm) as (_ & _ & _ & _ & _ & X0 & X1 & _). two_cases e; lra.
  - intros e m He Hm. destruct (layered_tables w x y m Hm) as (A & _ & _ & F0 & F1 & _). destruct (A e He) as (_ & ->). destruct (Hs m Hm) as (_ & _ & Hy). two_cases e; lra.
Qed.
Lemma layered_facts w x y max aL aR m : sound w x y -> (0 <= m < 3)%Z -> let ms := layered w x y in let sd := layer_solver max aL aR in
  (forall e, emits ms sd (mesh_tables ms) e m <-> e = 0%Z) /\ (forall e, fissions ms sd (mesh_tables ms) e m <-> e = 1%Z) /\ scatters_to (mesh_tables ms) 2 3 0 1.
Proof.
  intros Hs Hm ms sd. destruct (layered_tables w x y m Hm) as (A & _ & _ & F0 & F1 & X0 & X1 & _ & S01 & _). destruct (Hs m Hm) as (_ & _ & Hy). unfold ms, sd, emits, fissions. cbn [layered layer_solver ms_cells sd_energies].
  split; [|split].
  - intros e. split; [intros (He & _ & H); two_cases e; [reflexivity|lra]|intros ->; repeat split; try lia; lra].
  - intros e. split.
    + intros (He & _ & H). two_cases e; [rewrite F0, Rmult_0_r in H; lra|reflexivity].
    + intros ->. destruct (A 1%Z ltac:(lia)) as (_ & ->). rewrite F1. repeat split; try lia; lra.
  - apply (scatters_on _ _ _ 0 0 1 m)%Z; [constructor|lia|lia|lia|lra].
Qed.
Lemma exact_any solver M size : exact solver -> mrows M = size -> mcols M = size -> injective size (mat_at M) -> exact_solver M (solver M).
Proof.
  intros [Hfit Hsol] R C Hi b Hb. assert (Hb3 : vlen b = size) by congruence.
  assert (L : vlen (solver M b) = size) by (rewrite <- Hb3; apply Hfit; congruence).
  split; [congruence|]. split; [transitivity (mrows M); [reflexivity|congruence]|]. change (vlen (mvmul M (solver M b))) with (mrows M). rewrite R. intros i Hi'.
  rewrite <- app_vat with (size := size) by exact C. apply Hsol; [repeat split; auto|exact Hb3|exact Hi|exact Hi'].
Qed.
(* the calculation ends with a result when enough iterations are allowed *)
Lemma layered_runs solver w x y aL aR : exact solver -> sound w x y -> 0 <= aL <= 1 -> 0 <= aR <= 1 -> exists max M F,
  diffusionSystem PI (layered w x y) (layer_solver max aL aR) = Ok (M, F) /\ mrows M = 6%Z /\ mcols M = 6%Z /\ injective 6 (mat_at M) /\
  forall r sort eig, rx_mesh r = layered w x y -> exists o r', diffusionSolve PI solver sort eig (layer_solver max aL aR) r = Ok (o, r').
Proof.
  intros He Hw HL HR. pose proof (layered_case w x y 0 aL aR Hw HL HR) as Hc.
  assert (Hs : exists m, fissile (layered w x y) (layer_solver 0 aL aR) (mesh_tables (layered w x y)) m).
  { exists 0%Z. destruct (layered_facts w x y 0 aL aR 0 Hw ltac:(lia)) as (E & F & _). split; [exists 0%Z; apply E|exists 1%Z; apply F]; reflexivity. }
  assert (Hr : forall e0 m0 m, emits (layered w x y) (layer_solver 0 aL aR) (mesh_tables (layered w x y)) e0 m0 -> fissile (layered w x y) (layer_solver 0 aL aR) (mesh_tables (layered w x y)) m ->
    exists e, scatters_to (mesh_tables (layered w x y)) 2 3 e0 e /\ fissions (layered w x y) (layer_solver 0 aL aR) (mesh_tables (layered w x y)) e m).
  { intros e0 m0 m Hem ((e1 & _ & Hm & _) & _). pose proof (proj1 (proj2 Hem)) as Hm0. cbn [layered ms_cells] in Hm, Hm0.
    destruct (layered_facts w x y 0 aL aR m0 Hw Hm0) as (E & _ & S). destruct (layered_facts w x y 0 aL aR m Hw Hm) as (_ & F & _).
    exists 1%Z. apply E in Hem. subst e0. split; [exact S|apply F; reflexivity]. }
  destruct (C86_diffusion solver _ _ _ _ _ Hc eq_refl Hs Hr) as (M & F & E & _ & St).
  destruct (loss_monotone (layered w x y) (layer_solver 0 aL aR) (mesh_tables (layered w x y)) aL aR) as (M2 & F2 & E3 & Mon); try apply Hc; [reflexivity|].
  rewrite E in E3. injection E3 as <- <-. apply monotone_injective in Mon. change (ms_cells (layered w x y) * sd_energies (layer_solver 0 aL aR))%Z with 6%Z in Mon.
  assert (Hdim : mrows M = 6%Z /\ mcols M = 6%Z /\ mrows F = 6%Z /\ mcols F = 6%Z).
  { pose proof Hc as [Hn Hen Hdata Hal HaL _ _ _ _ _ _ _ _ _ _].
    destruct (system_bl _ _ _ aL aR Hn Hen Hdata Hal HaL ltac:(discriminate)) as (M' & F' & E' & (A1 & A2 & _) & (A3 & A4 & _)). rewrite E in E'. injection E' as <- <-. auto. }
  destruct Hdim as (R1 & C1 & R2 & C2). assert (X : exact_solver M (solver M)) by (apply (exact_any _ _ 6 He); assumption).
  destruct (St X) as (k & phi & _ & _ & _ & _ & Hrun & _). destruct (Hrun (1 / 1000) FORWARD ltac:(lra)) as (N & HN).
  destruct (HN N ltac:(lia)) as (its & er & Er).
  assert (E2 : diffusionSystem PI (layered w x y) (layer_solver N aL aR) = diffusionSystem PI (layered w x y) (layer_solver 0 aL aR)) by reflexivity.
  exists N, M, F. split; [rewrite E2; exact E|]. split; [exact R1|]. split; [exact C1|]. split; [exact Mon|].
  intros r sort eig Hm. pose proof (layered_ready w x y) as Hrd.
  assert (S : same_results FORWARD 3 2 (fun e => e) (fun m => m) (diffusionSolve PI solver sort eig (layer_solver N aL aR) r) (diffusionSolve PI solver sort eig (layer_solver N aL aR) r)).
  { rewrite <- Hm in Hrd. change FORWARD with (sd_dir (layer_solver N aL aR)) at 1. replace 3%Z with (ms_cells (rx_mesh r)) by (rewrite Hm; reflexivity). replace 2%Z with (ms_groups (rx_mesh r)) by (rewrite Hm; reflexivity).
    assert (Like : forall A, mrows A = 6%Z -> mcols A = 6%Z -> mat_like (ms_cells (rx_mesh r) * ms_groups (rx_mesh r)) (block_map (ms_cells (rx_mesh r)) (fun e => e) (fun m => m)) A A).
    { intros A RA CA. rewrite Hm. cbn [layered ms_cells ms_groups]. split; [exact RA|]. split; [exact CA|]. split; [exact RA|]. split; [exact CA|]. intros i j Hi Hj.
      destruct (idx_decode 3 2 i ltac:(lia) Hi) as (e & m & Hee & Hmm & ->). destruct (idx_decode 3 2 j ltac:(lia) Hj) as (e' & m' & Hee' & Hmm' & ->).
      rewrite !block_map_at by assumption. reflexivity. }
    apply (diffusion_like solver sort eig r r (layer_solver N aL aR) (layer_solver N aL aR) (fun e => e) (fun e => e) (fun m => m) (fun m => m) M F M F); try assumption; try reflexivity; try (rewrite Hm; cbn; first [lia|assumption|exact E|reflexivity]); try (apply id_reorders); try (apply Like; assumption); discriminate. }
  unfold same_results in S. destruct (diffusionSolve PI solver sort eig (layer_solver N aL aR) r) as [[o r']|m|m|m] eqn:D; [eauto| |contradiction|contradiction].
  exfalso. unfold diffusionSolve in D. rewrite Hm in D. assert (Es : diffusionSystem PI (layered w x y) (layer_solver N aL aR) = Ok (M, F)) by (rewrite E2; exact E). rewrite Es in D.
  destruct (wp_ok _ _ (getHeatSources_wp dm0 (layered w x y) ltac:(cbn; lia) ltac:(unfold zlen; cbn; lia))) as (old & Eo & _).
  destruct (wp_ok _ _ (volumes_wp (layered w x y) "cm" ltac:(discriminate) ltac:(cbn; lia))) as (vol & Ev & _).
  rewrite Eo, Ev in D. cbn [bind layer_solver sd_eig solveEigen sd_max sd_acc sd_dir] in D. unfold solveEigen in D. cbn [layer_solver sd_eig sd_max sd_acc sd_dir] in D. rewrite Er in D. cbn [bind snd sd_energies] in D.
  assert (Hid : reorders 6 (fun i => i) (fun i => i)) by apply id_reorders.
  assert (L6 : forall A, mrows A = 6%Z -> mcols A = 6%Z -> mat_like 6 (fun i => i) A A) by (intros A RA CA; repeat split; assumption).
  pose proof (like_iteration 6 _ _ Hid M F M F solver ltac:(lia) (L6 M R1 C1) (L6 F R2 C2) Mon X X N (1 / 1000) FORWARD) as Q. rewrite Er in Q. destruct Q as (_ & _ & (Lf & _) & Ha & _).
  destruct (setNewHeatSource_spec r vol er) as (r1 & E1 & _).
  - rewrite Hm. apply ready_fissile, Hrd.
  - rewrite Hm. exact Ev.
  - rewrite Ha. unfold zlen. cbn. lia.
  - rewrite Ha. unfold zlen. cbn [length]. intros q Hq. assert (q = 0)%Z as -> by lia. cbn [Z.to_nat nth snd]. rewrite Lf, Hm. cbn. lia.
  - rewrite Hm in E1. cbn [layered layer_solver sd_energies ms_cells ms_groups] in D, E1. rewrite E1 in D. discriminate D.
Qed.

(* widths 1, 1, 2 cm, the last cell of another material, black on the left and half
   reflecting on the right; and the same seen from the right *)
Definition seen_left : mesh R := layered (fun k => if (k =? 3)%Z then 4 else IZR k) (fun m => if (m =? 2)%Z then 2 else 1) (fun m => if (m =? 2)%Z then 3 else 1).
Definition seen_right : mesh R := layered (fun k => if (k =? 0)%Z then 0 else IZR k + 1) (fun m => if (m =? 0)%Z then 2 else 1) (fun m => if (m =? 0)%Z then 3 else 1).
Lemma seen_left_sound : sound (fun k => if (k =? 3)%Z then 4 else IZR k) (fun m => if (m =? 2)%Z then 2 else 1) (fun m => if (m =? 2)%Z then 3 else 1).
Proof. intros m Hm. assert (m = 0 \/ m = 1 \/ m = 2)%Z as [->|[->| ->]] by lia; cbn; lra. Qed.
Lemma seen_mirrored : mirrored seen_left seen_right.
Proof.
  split; try reflexivity; [split; reflexivity| |].
  - intros m Hm. cbn in Hm. assert (m = 0 \/ m = 1 \/ m = 2)%Z as [->|[->| ->]] by lia; cbn; lra.
  - intros m Hm. cbn in Hm. assert (m = 0 \/ m = 1 \/ m = 2)%Z as [->|[->| ->]] by lia; repeat split; reflexivity.
Qed.
(* the eigenvalue oracle, not asked for the fundamental mode *)
Definition no_modes (_ _ : mat R) : vec (R * R) * mat (R * R) := (mkvec 0 (fun _ => (0, 0)), mkmat 0 0 (fun _ _ => (0, 0))).
Example C94_mirror_met : exists solver max r1 r2 o1 o2,
  let left := with_mesh seen_left newReactor in let right := with_mesh seen_right newReactor in
  mirrored seen_left seen_right /\
  diffusionSolve PI solver (fun l => l) no_modes (layer_solver max 0 (1 / 2)) left = Ok (o1, r1) /\
  diffusionSolve PI solver (fun l => l) no_modes (layer_solver max (1 / 2) 0) right = Ok (o2, r2) /\
  rx_fwd r2 = rx_fwd r1 /\ forall e, (0 <= e < 2)%Z -> stored_flux (rx_mesh r2) e 0 = stored_flux (rx_mesh r1) e 2.
Proof.
  destruct PropsHeat.exact_exists as (solver & He). exists solver.
  destruct (layered_runs solver _ _ _ 0 (1 / 2) He seen_left_sound ltac:(lra) ltac:(lra)) as (max & M & F & E & R1 & C1 & Hi & Hrun). exists max.
  set (eg := no_modes).
  destruct (Hrun (with_mesh seen_left newReactor) (fun l => l) eg eq_refl) as (o1 & r1 & E1). exists r1.
  destruct (C94_mirror solver (fun l => l) eg (with_mesh seen_left newReactor) (with_mesh seen_right newReactor) (layer_solver max 0 (1 / 2)) 0 (1 / 2)
    (layered_ready _ _ _) (layered_ready _ _ _) seen_mirrored ltac:(cbn; lia) eq_refl eq_refl eq_refl ltac:(discriminate) eq_refl) as (M0 & F0 & M' & F' & Es & Es' & H).
  cbn [rx_mesh with_mesh] in Es. unfold seen_left in Es. rewrite E in Es. injection Es as <- <-.
  destruct (H Hi) as [Hi' K]. change (injective 6 (mat_at M')) in Hi'.
  assert (D : mrows M' = 6%Z /\ mcols M' = 6%Z).
  { destruct (system_bl seen_right (layer_solver max (1 / 2) 0) (mesh_tables seen_right) (1 / 2) 0 ltac:(cbn; lia) ltac:(cbn; lia) (ready_data _ (layered_ready _ _ _)) (conj eq_refl eq_refl) ltac:(lra) ltac:(discriminate)) as (M2 & F2 & E2 & (A & B & _) & _).
    cbn [rx_mesh with_mesh] in Es'. change (with_albedo [1 / 2; 0] (layer_solver max 0 (1 / 2))) with (layer_solver max (1 / 2) 0) in Es'. rewrite Es' in E2. injection E2 as <- <-. auto. }
  specialize (K (exact_any solver M 6 He R1 C1 Hi) (exact_any solver M' 6 He (proj1 D) (proj2 D) Hi')).
  rewrite E1 in K. change (with_albedo [1 / 2; 0] (layer_solver max 0 (1 / 2))) with (layer_solver max (1 / 2) 0) in K.
  destruct (diffusionSolve PI solver (fun l => l) eg (layer_solver max (1 / 2) 0) (with_mesh seen_right newReactor)) as [[o2 r2]|x|x|x] eqn:E2; [|contradiction|contradiction|contradiction].
  destruct K as (K1 & K2 & _). exists r2, o1, o2. split; [exact seen_mirrored|]. split; [exact E1|]. split; [exact E2|]. split; [exact K1|].
  intros e Hee. apply (K2 e 2%Z Hee). cbn. lia.
Qed.

(* the same slab with the thermal group first *)
Definition thermal_first (x y : R) : material R :=
  mkMaterial "m" 2 20 0 (mzeros 0 0) (mzeros 0 0) (vzeros 0) None
    [[x]; [1]] [[y]; [0]] [[1]; [1]] [[1 / 2]; [0]; [1 / 2]; [1 / 4]] [[2]; [2]] [[0]; [1]].
Definition seen_swapped : mesh R :=
  mkMesh (mkvec 4 (fun k => (if (k =? 3)%Z then 4 else IZR k) / 100)) SLAB 3 2 [thermal_first 1 1; thermal_first 1 1; thermal_first 2 3] 1 1.
Lemma swapped_ready : ready seen_swapped.
Proof.
  repeat split; cbn; try lia; try congruence.
  all: assert (m = 0 \/ m = 1 \/ m = 2)%Z as [->|[->| ->]] by (cbn in *; lia);
    change (Z.to_nat 1) with 1%nat; change (Z.to_nat 2) with 2%nat; cbn;
    try reflexivity; try (right; unfold zlen; cbn; lia); unfold zlen; cbn; lia.
Qed.
Example C94_groups_met : ready seen_swapped /\ reorders 2 (fun e => 1 - e)%Z (fun e => 1 - e)%Z /\ relabelled (fun e => 1 - e)%Z seen_left seen_swapped.
Proof.
  split; [|split].
  - exact swapped_ready.
  - intros i Hi. lia.
  - split; try reflexivity.
    + intros m Hm. cbn in Hm. assert (m = 0 \/ m = 1 \/ m = 2)%Z as [->|[->| ->]] by lia; reflexivity.
    + intros m e Hm Hee. cbn in Hm, Hee. assert (m = 0 \/ m = 1 \/ m = 2)%Z as [->|[->| ->]] by lia; assert (e = 0 \/ e = 1)%Z as [->| ->] by lia; repeat split; reflexivity.
    + intros m Hm. cbn in Hm. assert (m = 0 \/ m = 1 \/ m = 2)%Z as [->|[->| ->]] by lia; split; split; discriminate.
    + intros m e e' Hm Hee Hee'. cbn in Hm, Hee, Hee'. assert (m = 0 \/ m = 1 \/ m = 2)%Z as [->|[->| ->]] by lia; assert (e = 0 \/ e = 1)%Z as [->| ->] by lia; assert (e' = 0 \/ e' = 1)%Z as [->| ->] by lia; reflexivity.
Qed.

(* ---------- heat conduction ---------- *)

(* Temperatures that solve the equations of the heat calculation. *)
Definition heat_solution (sd : solverData R) (ms : mesh R) (x : Z -> R) : Prop :=
  exists M q, heatSystem PI sd ms = Ok (M, q) /\ forall i, (0 <= i < ms_cells ms)%Z -> rsum 0 (ms_cells ms) (fun j => mat_at M i j * x j) = vat q i.

Lemma heat_solution_iff sd ms L Rt x : conducting ms -> boundaries sd L Rt ->
  heat_solution sd ms x <-> forall i, (0 <= i < ms_cells ms)%Z -> app (ms_cells ms) (fullmat ms L Rt) x i = fullsource ms L Rt i.
Proof.
  intros Hc Hb. destruct (wp_ok _ _ (heatSystem_wp ms sd L Rt Hc Hb)) as ([M q] & Es & (_ & _ & HM) & _ & Hq). cbn [fst snd] in *.
  assert (A : forall i, (0 <= i < ms_cells ms)%Z -> rsum 0 (ms_cells ms) (fun j => mat_at M i j * x j) = app (ms_cells ms) (fullmat ms L Rt) x i)
    by (intros i Hi; unfold app; apply rsum_ext; intros j Hj; rewrite HM by auto; reflexivity).
  unfold heat_solution. split.
  - intros (M1 & q1 & E1 & H) i Hi. rewrite Es in E1. injection E1 as <- <-. rewrite <- A, <- Hq by exact Hi. apply H, Hi.
  - intros H. exists M, q. split; [exact Es|]. intros i Hi. rewrite A, Hq by exact Hi. apply H, Hi.
Qed.

(* a slab whose cells have one width h and one conductivity k *)
Lemma uniform_slab ms k h b : conducting ms -> ms_geom ms = SLAB -> 0 < k -> 0 < h ->
  (forall i, (0 <= i < ms_cells ms)%Z -> width ms i = h /\ conductivity ms i = k) ->
  (forall i, (0 <= i < ms_cells ms - 1)%Z -> gright ms i = k / h) /\ (forall i, (1 <= i < ms_cells ms)%Z -> gleft ms i = k / h) /\
  (forall i, (0 <= i < ms_cells ms)%Z -> cell_volume ms i = h) /\
  alphaL ms b = bcA b / (h / (2 * k) * bcA b + bcB b) /\ betaL ms b = - bcC b / (h / (2 * k) * bcA b + bcB b) /\
  alphaR ms b = bcA b / (h / (2 * k) * bcA b + bcB b) /\ betaR ms b = - bcC b / (h / (2 * k) * bcA b + bcB b).
Proof.
  intros (_ & Hn & _) G Hk Hh Hu. set (n := ms_cells ms) in *.
  assert (W : forall i, (0 <= i < n)%Z -> width ms i = h) by (intros; apply Hu; assumption).
  assert (K : forall i, (0 <= i < n)%Z -> conductivity ms i = k) by (intros; apply Hu; assumption).
  assert (Fc : forall i, face ms i = 1) by (intros i; unfold face; rewrite G; reflexivity).
  assert (Lm : forall i, (0 <= i < n)%Z -> ilam ms i = k).
  { intros i Hi. unfold ilam. fold n. rewrite Fc. destruct ((1 <=? i) && (i <? n - 1))%Z eqn:B; [|rewrite K by exact Hi; ring].
    rewrite !W, !K by lia. field. lra. }
  assert (Sz : forall i, (0 <= i < n)%Z -> isz ms i = h).
  { intros i Hi. unfold isz. fold n. destruct ((1 <=? i) && (i <? n - 1))%Z eqn:B; rewrite !W by lia; lra. }
  assert (DL : denL ms b = h / (2 * k) * bcA b + bcB b) by (unfold denL; rewrite W, Lm by lia; reflexivity).
  assert (DR : denR ms b = h / (2 * k) * bcA b + bcB b).
  { unfold denR. fold n. rewrite !Fc, W, Lm by lia. replace (2 * 1 * k / 1) with (2 * k) by lra. replace (bcB b / 1) with (bcB b) by lra. reflexivity. }
  split; [|split; [|split]].
  - intros i Hi. unfold gright. rewrite Lm, Sz by lia. reflexivity.
  - intros i Hi. unfold gleft. fold n. rewrite Lm by lia. destruct (i =? n - 1)%Z; rewrite Sz by lia; reflexivity.
  - intros i Hi. unfold cell_volume. rewrite G. apply W, Hi.
  - unfold alphaL, betaL, alphaR, betaR, is_slab. rewrite G, DL, DR. auto.
Qed.

(* When all cells have one width and one conductivity, and the heat sources and the
   boundary conditions are mirrored, so are the temperatures. *)
Theorem C94_heat_partial sd sd' ms ms' L Rt k h x y :
  let n := ms_cells ms in
  conducting ms -> physical ms -> conducting ms' -> physical ms' -> ms_geom ms = SLAB -> ms_geom ms' = SLAB -> ms_cells ms' = n ->
  (forall i, (0 <= i < n)%Z -> width ms i = h /\ width ms' i = h /\ conductivity ms i = k /\ conductivity ms' i = k /\ stored_heat ms' (n - 1 - i) = stored_heat ms i) ->
  boundaries sd L Rt -> boundaries sd' Rt L -> admissible L -> admissible Rt -> 0 < bcA L \/ 0 < bcA Rt ->
  heat_solution sd ms x -> heat_solution sd' ms' y -> forall i, (0 <= i < n)%Z -> y (n - 1 - i)%Z = x i.
Proof.
  intros n Hc Hp Hc' Hp' G G' Hn' Hu Hb Hb' HL HR Hfix Hx Hy. pose proof Hc as (_ & Hn & _). fold n in Hn.
  rewrite (heat_solution_iff sd ms L Rt x Hc Hb) in Hx. rewrite (heat_solution_iff sd' ms' Rt L y Hc' Hb') in Hy. rewrite Hn' in Hy. fold n in Hx.
  assert (Hk : 0 < k) by (destruct (Hu 0%Z ltac:(lia)) as (_ & _ & <- & _); apply Hp; lia).
  assert (Hh : 0 < h) by (destruct (Hu 0%Z ltac:(lia)) as (<- & _); apply width_pos; [exact Hc|exact Hp|fold n; lia]).
  destruct (uniform_slab ms k h L Hc G Hk Hh) as (R1 & L1 & V1 & A1 & B1 & _); [intros i Hi; destruct (Hu i Hi) as (? & _ & ? & _); auto|].
  destruct (uniform_slab ms k h Rt Hc G Hk Hh) as (_ & _ & _ & _ & _ & A2 & B2); [intros i Hi; destruct (Hu i Hi) as (? & _ & ? & _); auto|].
  assert (Hu' : forall i, (0 <= i < ms_cells ms')%Z -> width ms' i = h /\ conductivity ms' i = k) by (rewrite Hn'; intros i Hi; destruct (Hu i Hi) as (_ & ? & _ & ? & _); auto).
  destruct (uniform_slab ms' k h Rt Hc' G' Hk Hh Hu') as (R1' & L1' & V1' & A1' & B1' & _). destruct (uniform_slab ms' k h L Hc' G' Hk Hh Hu') as (_ & _ & _ & _ & _ & A2' & B2').
  fold n in R1, L1, V1. rewrite Hn' in R1', L1', V1'.
  assert (Hz : forall i, (0 <= i < n)%Z -> app n (fullmat ms L Rt) (fun j => y (n - 1 - j)%Z) i = fullsource ms L Rt i).
  { intros i Hi. unfold n. rewrite fullmat_app, hmat_app by (fold n; lia). fold n.
    specialize (Hy (n - 1 - i)%Z ltac:(lia)). rewrite <- Hn' in Hy at 1. rewrite fullmat_app, hmat_app in Hy by lia. rewrite Hn' in Hy.
    unfold fullsource in *. rewrite Hn' in Hy. fold n. rewrite A1, A2, B1, B2. rewrite A1', A2', B1', B2' in Hy.
    destruct (Hu i Hi) as (_ & _ & _ & _ & Hq). rewrite Hq, V1' in Hy by lia. rewrite V1 by lia.
    replace (n - 1 - i =? 0)%Z with (i =? n - 1)%Z in Hy by lia. replace (n - 1 - i =? n - 1)%Z with (i =? 0)%Z in Hy by lia.
    replace (n - 1 - i <? n - 1)%Z with (0 <? i)%Z in Hy by lia. replace (0 <? n - 1 - i)%Z with (i <? n - 1)%Z in Hy by lia.
    replace (n - 1 - 0)%Z with (n - 1)%Z by lia. replace (n - 1 - (n - 1))%Z with 0%Z by lia.
    replace (n - 1 - (i + 1))%Z with (n - 1 - i - 1)%Z by lia. replace (n - 1 - (i - 1))%Z with (n - 1 - i + 1)%Z by lia.
    destruct (Z.ltb_spec i (n - 1)) as [H1|H1]; destruct (Z.ltb_spec 0 i) as [H2|H2]; try lia.
    - rewrite R1, L1 by lia. rewrite R1', L1' in Hy by lia. destruct (Z.eqb_spec i 0); [lia|]. destruct (Z.eqb_spec i (n - 1)); [lia|]. lra.
    - rewrite R1 by lia. rewrite L1' in Hy by lia. destruct (Z.eqb_spec i 0); [|lia]. destruct (Z.eqb_spec i (n - 1)); [lia|]. lra.
    - rewrite L1 by lia. rewrite R1' in Hy by lia. destruct (Z.eqb_spec i 0); [lia|]. destruct (Z.eqb_spec i (n - 1)); [|lia]. lra. }
  intros i Hi. cut (y (n - 1 - i)%Z - x i = 0); [lra|].
  assert (S1 : is_slab ms = true) by (unfold is_slab; rewrite G; reflexivity).
  assert (Hinj : injective n (fullmat ms L Rt)) by (apply monotone_injective, fullmat_monotone; auto; tauto).
  apply (Hinj (fun j => y (n - 1 - j)%Z - x j)); [|exact Hi]. intros m Hm. specialize (Hz m Hm). specialize (Hx m Hm). unfold app in *.
  rewrite (rsum_ext _ _ _ (fun j => fullmat ms L Rt m j * y (n - 1 - j)%Z - fullmat ms L Rt m j * x j)) by (intros; ring).
  rewrite rsum_minus. lra.
Qed.
Print Assumptions C94_heat_partial.
Example C94_heat_met : let ms := PropsHeat.hot_slab [0; 1; 2; 3] [PropsHeat.hot 2 0; PropsHeat.hot 2 0; PropsHeat.hot 2 7] in
  let ms' := PropsHeat.hot_slab [0; 1; 2; 3] [PropsHeat.hot 2 7; PropsHeat.hot 2 0; PropsHeat.hot 2 0] in
  conducting ms /\ physical ms /\ conducting ms' /\ physical ms' /\
  forall i, (0 <= i < 3)%Z -> width ms i = 1 /\ width ms' i = 1 /\ conductivity ms i = 2 /\ conductivity ms' i = 2 /\ stored_heat ms' (3 - 1 - i) = stored_heat ms i.
Proof.
  intros ms ms'. destruct (PropsHeat.hot_ok 0 1 2 3 _ _ _ 2 2 2 0 0 7 eq_refl eq_refl eq_refl) as (A & B & _); try lra.
  destruct (PropsHeat.hot_ok 0 1 2 3 _ _ _ 2 2 2 7 0 0 eq_refl eq_refl eq_refl) as (A' & B' & _); try lra.
  split; [exact A|]. split; [exact B|]. split; [exact A'|]. split; [exact B'|]. intros i Hi.
  assert (i = 0 \/ i = 1 \/ i = 2)%Z as [->|[->| ->]] by lia; (split; [unfold width; PropsHeat.vals; lra|]; split; [unfold width; PropsHeat.vals; lra|]; split; [apply PropsHeat.law_const|]; split; [apply PropsHeat.law_const|reflexivity]).
Qed.

(* With several conductivities it is not so: at the last interface the program takes the
   conductivity of the last cell alone.  A slab of conductivities 1, 1, 3 held at 0 and
   100 degrees has 25 degrees in the cell beside the cold face; described from the other
   side, the same cell has 150 / 7. *)
Theorem C94_heat_refuted :
  let ms := PropsHeat.hot_slab [0; 1; 2; 3] [PropsHeat.hot 1 0; PropsHeat.hot 1 0; PropsHeat.hot 3 0] in
  let ms' := PropsHeat.hot_slab [0; 1; 2; 3] [PropsHeat.hot 3 0; PropsHeat.hot 1 0; PropsHeat.hot 1 0] in
  let cold := mkbc 1 0 0 in let warm := mkbc 1 0 100 in
  let sd := PropsHeat.heat_data [1; 0; 0; 1; 0; 100] in let sd' := PropsHeat.heat_data [1; 0; 100; 1; 0; 0] in
  conducting ms /\ physical ms /\ conducting ms' /\ physical ms' /\ boundaries sd cold warm /\ boundaries sd' warm cold /\
  (exists x y, heat_solution sd ms x /\ heat_solution sd' ms' y) /\
  forall x y, heat_solution sd ms x -> heat_solution sd' ms' y -> x 0%Z = 25 /\ y 2%Z = 150 / 7.
Proof.
  intros ms ms' cold warm sd sd'.
  destruct (PropsHeat.hot_ok 0 1 2 3 _ _ _ 1 1 3 0 0 0 eq_refl eq_refl eq_refl) as (A & B & _); try lra.
  destruct (PropsHeat.hot_ok 0 1 2 3 _ _ _ 3 1 1 0 0 0 eq_refl eq_refl eq_refl) as (A' & B' & _); try lra.
  fold ms in A, B. fold ms' in A', B'.
  assert (Hb : boundaries sd cold warm) by (left; reflexivity). assert (Hb' : boundaries sd' warm cold) by (left; reflexivity).
  assert (W : forall i, (0 <= i < 3)%Z -> width ms i = 1 /\ width ms' i = 1 /\ conductivity ms i = (if (i =? 2)%Z then 3 else 1) /\ conductivity ms' i = if (i =? 0)%Z then 3 else 1).
  { intros i Hi. assert (i = 0 \/ i = 1 \/ i = 2)%Z as [->|[->| ->]] by lia; (split; [unfold width; PropsHeat.vals; lra|]; split; [unfold width; PropsHeat.vals; lra|]; split; apply PropsHeat.law_const). }
  destruct (W 0%Z ltac:(lia)) as (w0 & w0' & k0 & k0'). destruct (W 1%Z ltac:(lia)) as (w1 & w1' & k1 & k1'). destruct (W 2%Z ltac:(lia)) as (w2 & w2' & k2 & k2').
  cbn [Z.eqb Pos.eqb] in k0, k0', k1, k1', k2, k2'.
  assert (f : forall i, face ms i = 1) by reflexivity. assert (f' : forall i, face ms' i = 1) by reflexivity.
  assert (V : forall i, stored_heat ms i * cell_volume ms i = 0 /\ stored_heat ms' i * cell_volume ms' i = 0).
  { intros i. unfold stored_heat, cell_material. cbn [ms ms' PropsHeat.hot_slab ms_mats]. split; destruct (Z.to_nat i) as [|[|[|[|z]]]]; cbn [nth PropsHeat.hot mt_heat dm0]; apply Rmult_0_l. }
  assert (Eq : forall x, heat_solution sd ms x <-> x 0%Z = 25 /\ x 1%Z = 75 /\ x 2%Z = 275 / 3).
  { intros x. rewrite (heat_solution_iff sd ms cold warm x A Hb). change (ms_cells ms) with 3%Z.
    assert (Rows : (forall i, (0 <= i < 3)%Z -> app 3 (fullmat ms cold warm) x i = fullsource ms cold warm i) <->
      app 3 (fullmat ms cold warm) x 0 = fullsource ms cold warm 0 /\ app 3 (fullmat ms cold warm) x 1 = fullsource ms cold warm 1 /\ app 3 (fullmat ms cold warm) x 2 = fullsource ms cold warm 2).
    { split; [intros H; split; [|split]; apply H; lia|]. intros (H0 & H1 & H2) i Hi. assert (i = 0 \/ i = 1 \/ i = 2)%Z as [->|[->| ->]] by lia; assumption. }
    rewrite Rows. pose proof (fullmat_app ms cold warm x 0 ltac:(cbn; lia) ltac:(cbn; lia)) as E0. pose proof (fullmat_app ms cold warm x 1 ltac:(cbn; lia) ltac:(cbn; lia)) as E1. pose proof (fullmat_app ms cold warm x 2 ltac:(cbn; lia) ltac:(cbn; lia)) as E2.
    rewrite hmat_app in E0, E1, E2 by (cbn; lia). change (ms_cells ms) with 3%Z in E0, E1, E2. cbn [Z.eqb Z.ltb Z.compare Z.sub Z.add Z.opp Z.pos_sub Pos.compare Pos.compare_cont Pos.eqb Pos.pred_double Pos.add Pos.succ] in E0, E1, E2.
    assert (G0 : gright ms 0 = 1) by (unfold gright, ilam, isz; change (ms_cells ms) with 3%Z; cbn [Z.add Z.sub Z.leb Z.ltb Z.compare andb Z.opp Z.pos_sub Pos.compare Pos.compare_cont Pos.pred_double Pos.add Pos.succ]; rewrite f, w0, w1, k0, k1; field).
    assert (G1 : gright ms 1 = 3) by (unfold gright, ilam, isz; change (ms_cells ms) with 3%Z; cbn [Z.add Z.sub Z.leb Z.ltb Z.compare andb Z.opp Z.pos_sub Pos.compare Pos.compare_cont Pos.pred_double Pos.add Pos.succ]; rewrite f, w2, k2; field).
    assert (H1 : gleft ms 1 = 1) by (unfold gleft, ilam, isz; change (ms_cells ms) with 3%Z; cbn [Z.eqb Pos.eqb Z.add Z.sub Z.leb Z.ltb Z.compare andb Z.opp Z.pos_sub Pos.compare Pos.compare_cont Pos.pred_double Pos.add Pos.succ]; rewrite f, w0, w1, k0, k1; field).
    assert (H2 : gleft ms 2 = 3) by (unfold gleft, ilam, isz; change (ms_cells ms) with 3%Z; cbn [Z.eqb Pos.eqb Z.add Z.sub Z.leb Z.ltb Z.compare andb Z.opp Z.pos_sub Pos.compare Pos.compare_cont Pos.pred_double Pos.add Pos.succ]; rewrite f, w0, w1, k2; field).
    assert (I0 : ilam ms 0 = 1) by (unfold ilam; change (ms_cells ms) with 3%Z; cbn [Z.leb Z.compare andb]; rewrite f, k0; field).
    assert (I2 : ilam ms 2 = 3) by (unfold ilam; change (ms_cells ms) with 3%Z; cbn [Z.sub Z.add Z.opp Z.pos_sub Z.leb Z.ltb Z.compare andb Pos.compare Pos.compare_cont Pos.pred_double]; rewrite f, k2; field).
    assert (Al : alphaL ms cold = 2) by (unfold alphaL, denL; cbn [is_slab ms PropsHeat.hot_slab ms_geom cold bcA bcB]; fold ms; rewrite w0, I0; field).
    assert (Bl : betaL ms cold = 0) by (unfold betaL, denL; cbn [is_slab ms PropsHeat.hot_slab ms_geom cold bcA bcB bcC]; fold ms; rewrite w0, I0; field).
    assert (Ar : alphaR ms warm = 6) by (unfold alphaR, denR; change (ms_cells ms) with 3%Z; cbn [Z.sub Z.add Z.opp Z.pos_sub Pos.pred_double warm bcA bcB]; rewrite !f, w2, I2; field).
    assert (Br : betaR ms warm = -600) by (unfold betaR, denR; change (ms_cells ms) with 3%Z; cbn [Z.sub Z.add Z.opp Z.pos_sub Pos.pred_double warm bcA bcB bcC]; rewrite !f, w2, I2; field).
    unfold fullsource. change (ms_cells ms) with 3%Z. rewrite !(proj1 (V _)). cbn [Z.eqb Z.sub Z.add Z.opp Z.pos_sub Pos.eqb Pos.pred_double].
    rewrite E0, E1, E2, G0, G1, H1, H2, Al, Bl, Ar, Br. split; [intros (Q0 & Q1 & Q2); split; [|split]; lra|intros (-> & -> & ->); split; [|split]; lra]. }
  assert (Eq' : forall y, heat_solution sd' ms' y <-> y 0%Z = 650 / 7 /\ y 1%Z = 450 / 7 /\ y 2%Z = 150 / 7).
  { intros x. rewrite (heat_solution_iff sd' ms' warm cold x A' Hb'). change (ms_cells ms') with 3%Z.
    assert (Rows : (forall i, (0 <= i < 3)%Z -> app 3 (fullmat ms' warm cold) x i = fullsource ms' warm cold i) <->
      app 3 (fullmat ms' warm cold) x 0 = fullsource ms' warm cold 0 /\ app 3 (fullmat ms' warm cold) x 1 = fullsource ms' warm cold 1 /\ app 3 (fullmat ms' warm cold) x 2 = fullsource ms' warm cold 2).
    { split; [intros H; split; [|split]; apply H; lia|]. intros (H0 & H1 & H2) i Hi. assert (i = 0 \/ i = 1 \/ i = 2)%Z as [->|[->| ->]] by lia; assumption. }
    rewrite Rows. pose proof (fullmat_app ms' warm cold x 0 ltac:(cbn; lia) ltac:(cbn; lia)) as E0. pose proof (fullmat_app ms' warm cold x 1 ltac:(cbn; lia) ltac:(cbn; lia)) as E1. pose proof (fullmat_app ms' warm cold x 2 ltac:(cbn; lia) ltac:(cbn; lia)) as E2.
    rewrite hmat_app in E0, E1, E2 by (cbn; lia). change (ms_cells ms') with 3%Z in E0, E1, E2. cbn [Z.eqb Z.ltb Z.compare Z.sub Z.add Z.opp Z.pos_sub Pos.compare Pos.compare_cont Pos.eqb Pos.pred_double Pos.add Pos.succ] in E0, E1, E2.
    assert (G0 : gright ms' 0 = 3 / 2) by (unfold gright, ilam, isz; change (ms_cells ms') with 3%Z; cbn [Z.add Z.sub Z.leb Z.ltb Z.compare andb Z.opp Z.pos_sub Pos.compare Pos.compare_cont Pos.pred_double Pos.add Pos.succ]; rewrite f', w0', w1', k0', k1'; field).
    assert (G1 : gright ms' 1 = 1) by (unfold gright, ilam, isz; change (ms_cells ms') with 3%Z; cbn [Z.add Z.sub Z.leb Z.ltb Z.compare andb Z.opp Z.pos_sub Pos.compare Pos.compare_cont Pos.pred_double Pos.add Pos.succ]; rewrite f', w2', k2'; field).
    assert (H1 : gleft ms' 1 = 3 / 2) by (unfold gleft, ilam, isz; change (ms_cells ms') with 3%Z; cbn [Z.eqb Pos.eqb Z.add Z.sub Z.leb Z.ltb Z.compare andb Z.opp Z.pos_sub Pos.compare Pos.compare_cont Pos.pred_double Pos.add Pos.succ]; rewrite f', w0', w1', k0', k1'; field).
    assert (H2 : gleft ms' 2 = 1) by (unfold gleft, ilam, isz; change (ms_cells ms') with 3%Z; cbn [Z.eqb Pos.eqb Z.add Z.sub Z.leb Z.ltb Z.compare andb Z.opp Z.pos_sub Pos.compare Pos.compare_cont Pos.pred_double Pos.add Pos.succ]; rewrite f', w0', w1', k2'; field).
    assert (I0 : ilam ms' 0 = 3) by (unfold ilam; change (ms_cells ms') with 3%Z; cbn [Z.leb Z.compare andb]; rewrite f', k0'; field).
    assert (I2 : ilam ms' 2 = 1) by (unfold ilam; change (ms_cells ms') with 3%Z; cbn [Z.sub Z.add Z.opp Z.pos_sub Z.leb Z.ltb Z.compare andb Pos.compare Pos.compare_cont Pos.pred_double]; rewrite f', k2'; field).
    assert (Al : alphaL ms' warm = 6) by (unfold alphaL, denL; cbn [is_slab ms' PropsHeat.hot_slab ms_geom warm bcA bcB]; fold ms'; rewrite w0', I0; field).
    assert (Bl : betaL ms' warm = -600) by (unfold betaL, denL; cbn [is_slab ms' PropsHeat.hot_slab ms_geom warm bcA bcB bcC]; fold ms'; rewrite w0', I0; field).
    assert (Ar : alphaR ms' cold = 2) by (unfold alphaR, denR; change (ms_cells ms') with 3%Z; cbn [Z.sub Z.add Z.opp Z.pos_sub Pos.pred_double cold bcA bcB]; rewrite !f', w2', I2; field).
    assert (Br : betaR ms' cold = 0) by (unfold betaR, denR; change (ms_cells ms') with 3%Z; cbn [Z.sub Z.add Z.opp Z.pos_sub Pos.pred_double cold bcA bcB bcC]; rewrite !f', w2', I2; field).
    unfold fullsource. change (ms_cells ms') with 3%Z. rewrite !(proj2 (V _)). cbn [Z.eqb Z.sub Z.add Z.opp Z.pos_sub Pos.eqb Pos.pred_double].
    rewrite E0, E1, E2, G0, G1, H1, H2, Al, Bl, Ar, Br. split; [intros (Q0 & Q1 & Q2); split; [|split]; lra|intros (-> & -> & ->); split; [|split]; lra]. }
  split; [exact A|]. split; [exact B|]. split; [exact A'|]. split; [exact B'|]. split; [exact Hb|]. split; [exact Hb'|]. split.
  - exists (fun i => if (i =? 0)%Z then 25 else if (i =? 1)%Z then 75 else 275 / 3), (fun i => if (i =? 0)%Z then 650 / 7 else if (i =? 1)%Z then 450 / 7 else 150 / 7).
    rewrite Eq, Eq'. cbn [Z.eqb Pos.eqb]. auto 10.
  - intros x y Hx Hy. apply Eq in Hx. apply Eq' in Hy. split; [apply Hx|apply Hy].
Qed.
Print Assumptions C94_heat_refuted.
