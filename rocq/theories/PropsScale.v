(* Property theorems C97: the results of a diffusion calculation do not depend on the unit
   of length in which the reactor is described. *)
From Coq Require Import String ZArith List Bool Lia Reals Lra.
From Verif Require Import Base BaseLemmas NumR LinAlg Blocks ModelNumTools ModelEigen ModelMesh ModelReactor
  ModelDiffusion ProofsEigen ProofsMesh ProofsPower ProofsDiffusion ProofsDiffusionR ProofsConvergeD ProofsSymmetry ProofsScale PropsHeat PropsAccuracy PropsSymmetry.
Import ListNotations.
Local Open Scope R_scope.

(* ---------- the two descriptions ---------- *)

(* every coefficient of every law times f *)
Definition laws_times (f : R) (l : list (list R)) : list (list R) := map (map (fun x => x * f)) l.

(* ms' is ms with lengths measured in a unit 1 / s times as long: boundaries and diffusion
   constants s times as large, macroscopic cross sections divided by s *)
Record rescaled (s : R) (ms ms' : mesh R) : Prop := {
  rs_geom : ms_geom ms' = ms_geom ms;
  rs_cells : ms_cells ms' = ms_cells ms;
  rs_groups : ms_groups ms' = ms_groups ms;
  rs_bounds : forall k, (0 <= k <= ms_cells ms)%Z -> vat (ms_bounds ms') k = vat (ms_bounds ms) k * s;
  rs_laws : forall m, (0 <= m < ms_cells ms)%Z -> let a := cell_material ms m in let b := cell_material ms' m in
    mt_temp b = mt_temp a /\ mt_totXS b = laws_times (/ s) (mt_totXS a) /\ mt_fisXS b = laws_times (/ s) (mt_fisXS a) /\
    mt_diff b = laws_times s (mt_diff a) /\ mt_scatt b = laws_times (/ s) (mt_scatt a) /\ mt_ni b = mt_ni a /\ mt_chi b = mt_chi a
}.

(* the same factor and the same fluxes; the heat sources, in watts per unit of volume,
   are those of the first calculation over v *)
Definition results_in_unit (v : R) (dir : DirectionKind) (n en : Z) (x y : res (vec R * reactor R)) : Prop :=
  match x, y with
  | Ok (_, a), Ok (_, b) =>
      match dir with
      | ADJOINT => rx_adj b = rx_adj a /\
          forall e m, (0 <= e < en)%Z -> (0 <= m < n)%Z -> stored_adj (rx_mesh b) e m = stored_adj (rx_mesh a) e m
      | _ => rx_fwd b = rx_fwd a /\
          (forall e m, (0 <= e < en)%Z -> (0 <= m < n)%Z -> stored_flux (rx_mesh b) e m = stored_flux (rx_mesh a) e m) /\
          (forall m, (0 <= m < n)%Z -> stored_heat (rx_mesh b) m = stored_heat (rx_mesh a) m / v)
      end
  | Exit a, Exit b => a = b
  | _, _ => False
  end.

(* ---------- the tables ---------- *)

Lemma law_times f l t : law_value (map (fun x => x * f) l) t = law_value (T := R) l t * f.
Proof.
  rewrite !law_value_R. unfold zlen. rewrite map_length.
  transitivity (rsum 0 (Z.of_nat (length l)) (fun i => f * (nth (Z.to_nat i) l 0 * t ^ Z.to_nat i))); [|rewrite rsum_scal; ring].
  apply rsum_ext. intros i Hi. replace 0 with (0 * f) at 1 by ring. rewrite (map_nth (fun x => x * f)). ring.
Qed.
Lemma laws_times_nth f k l : nth k (laws_times f l) [] = map (fun x => x * f) (nth k l []).
Proof. unfold laws_times. change (@nil R) with (map (fun x => x * f) []) at 1. apply map_nth. Qed.

Lemma rescaled_data s ms ms' : s <> 0 -> ms_geom ms <> GeomUNDEFINED -> rescaled s ms ms' ->
  data_scaled (ms_cells ms) (ms_groups ms) s (s ^ (dimension (ms_geom ms) - 1)) (mesh_tables ms) (mesh_tables ms') /\
  (forall m, (0 <= m < ms_cells ms)%Z -> cell_volume ms' m = cell_volume ms m * s ^ dimension (ms_geom ms)) /\
  (forall e m, (0 <= e < ms_groups ms)%Z -> (0 <= m < ms_cells ms)%Z -> law_at mt_fisXS ms' e m = law_at mt_fisXS ms e m / s).
Proof.
  intros Hs Hg [G Hc Hgr Hb Hl].
  assert (V : forall k, (0 <= k <= ms_cells ms)%Z -> body_volume (ms_geom ms) (vat (ms_bounds ms') k) = body_volume (ms_geom ms) (vat (ms_bounds ms) k) * s ^ dimension (ms_geom ms)).
  { intros k Hk. rewrite Hb by exact Hk. destruct (ms_geom ms); cbn; [congruence|ring|ring|ring]. }
  assert (D : s ^ dimension (ms_geom ms) = s ^ (dimension (ms_geom ms) - 1) * s) by (destruct (ms_geom ms); cbn; [congruence|ring|ring|ring]).
  assert (L : forall m, (0 <= m < ms_cells ms)%Z -> let a := cell_material ms m in let b := cell_material ms' m in
    mt_temp b = mt_temp a /\ mt_totXS b = laws_times (/ s) (mt_totXS a) /\ mt_fisXS b = laws_times (/ s) (mt_fisXS a) /\
    mt_diff b = laws_times s (mt_diff a) /\ mt_scatt b = laws_times (/ s) (mt_scatt a) /\ mt_ni b = mt_ni a /\ mt_chi b = mt_chi a) by exact Hl.
  split; [|split].
  - split; cbn [mesh_tables ttot tfis tni tchi tD tsc tdx tV tS].
    1,2,5: intros e m He Hm; destruct (L m Hm) as (E1 & E2 & E3 & E4 & E5 & E6 & E7); unfold law_at; rewrite E1, ?E2, ?E3, ?E4, laws_times_nth, law_times; reflexivity.
    1,2: intros e m He Hm; destruct (L m Hm) as (E1 & E2 & E3 & E4 & E5 & E6 & E7); unfold law_at0, law_at; rewrite E1, ?E6, ?E7; reflexivity.
    + intros e e' m He He' Hm. destruct (L m Hm) as (E1 & E2 & E3 & E4 & E5 & E6 & E7). rewrite Hgr, E1, E5, laws_times_nth, law_times. reflexivity.
    + intros m Hm. rewrite !Hb by lia. ring.
    + intros k Hk. rewrite G, Hb by exact Hk. destruct (ms_geom ms); cbn; [congruence|ring|ring|ring].
    + intros m Hm. rewrite G, !V, D by lia. ring.
  - intros m Hm. unfold cell_volume. rewrite G, !V by lia. ring.
  - intros e m He Hm. destruct (L m Hm) as (E1 & E2 & E3 & _). unfold law_at. rewrite E1, E3, laws_times_nth, law_times. reflexivity.
Qed.

(* ---------- storing the results ---------- *)

Section Stored.
Variables (solver : mat R -> vec R -> vec R) (sort : list (R * vec R) -> list (R * vec R)) (eig : mat R -> mat R -> vec (R * R) * mat (R * R)).
Variables (r r' : reactor R) (sd : solverData R) (s : R) (M F M' F' : mat R).
Let ms := rx_mesh r.
Let ms' := rx_mesh r'.
Let n := ms_cells ms.
Let en := ms_groups ms.
Let v := s ^ dimension (ms_geom ms).
Hypothesis Hs : s <> 0.
Hypothesis Hr : ready ms.
Hypothesis Hr' : ready ms'.
Hypothesis Hre : rescaled s ms ms'.
Hypothesis Hn : (0 < n)%Z.
Hypothesis Hen : (0 <= en)%Z.
Hypothesis Hpw : rx_power r' = rx_power r.

Section Flux.
Variables (a b : eigenmodesResults R).
Hypothesis Ha : er_modes a = [(er_k a, er_flux a)].
Hypothesis Hb : er_modes b = [(er_k b, er_flux b)].
Hypothesis Hk : er_k a = er_k b.
Hypothesis Hf : vec_like (n * en) (fun i => i) (er_flux a) (er_flux b).

Lemma flux_unit e m : (0 <= e < en)%Z -> (0 <= m < n)%Z -> mode_flux ms' (er_modes b) 0 e m = mode_flux ms (er_modes a) 0 e m.
Proof using Ha Hb Hf Hre.
  intros He Hm. unfold mode_flux. rewrite Ha, Hb. cbn [Z.to_nat nth snd]. destruct Hre as [_ -> _ _ _]. fold n. destruct Hf as (_ & _ & H).
  apply H, idx_range; assumption.
Qed.
Lemma fit_unit k : (0 <= k < zlen (er_modes a))%Z -> (n * en <= vlen (snd (nth (Z.to_nat k) (er_modes a) dmode)))%Z.
Proof using Ha Hf. rewrite Ha. unfold zlen. cbn [length]. intros Hkk. assert (k = 0)%Z as -> by lia. cbn [Z.to_nat nth snd]. destruct Hf as (-> & _). lia. Qed.
Lemma fit_unit' k : (0 <= k < zlen (er_modes b))%Z -> (ms_cells ms' * ms_groups ms' <= vlen (snd (nth (Z.to_nat k) (er_modes b) dmode)))%Z.
Proof using Hb Hf Hre. destruct Hre as [_ -> -> _ _]. rewrite Hb. unfold zlen. cbn [length]. intros Hkk. assert (k = 0)%Z as -> by lia. cbn [Z.to_nat nth snd]. destruct Hf as (_ & -> & _). unfold n, en. lia. Qed.

Lemma heat_unit vol vol' : getVolumes PI ms "cm" = Ok vol -> getVolumes PI ms' "cm" = Ok vol' ->
  exists r1 r1', setNewHeatSource PI vol en n a r = Ok r1 /\ setNewHeatSource PI vol' en n b r' = Ok r1' /\
    rx_fwd r1' = rx_fwd r1 /\
    (forall e m, (0 <= e < en)%Z -> (0 <= m < n)%Z -> stored_flux (rx_mesh r1') e m = stored_flux (rx_mesh r1) e m) /\
    (forall m, (0 <= m < n)%Z -> stored_heat (rx_mesh r1') m = stored_heat (rx_mesh r1) m / v).
Proof using Hs Hr Hr' Hre Hpw Ha Hb Hk Hf.
  intros Ev Ev'. destruct (rescaled_data s ms ms' Hs ltac:(apply Hr) Hre) as (_ & Hvol & Hfis). pose proof Hre as [_ Hcells Hgroups _ _]. fold n en v in Hvol, Hfis, Hcells, Hgroups.
  assert (Z1 : (1 <= zlen (er_modes a))%Z) by (rewrite Ha; unfold zlen; cbn; lia). assert (Z2 : (1 <= zlen (er_modes b))%Z) by (rewrite Hb; unfold zlen; cbn; lia).
  destruct (setNewHeatSource_spec r vol a (ready_fissile _ Hr) Ev Z1 fit_unit) as (r1 & E1 & _ & W1 & _ & _ & _ & _ & _ & _ & _ & C1).
  destruct (setNewHeatSource_spec r' vol' b (ready_fissile _ Hr') Ev' Z2 fit_unit') as (r2 & E2 & _ & W2 & _ & _ & _ & _ & _ & _ & _ & C2).
  fold ms n in E1, C1. fold ms' in E2, C2. rewrite Hcells, Hgroups in E2. rewrite Hcells in C2. fold n in C2. fold en in E1.
  exists r1, r2. split; [exact E1|]. split; [exact E2|]. split; [|split].
  - rewrite W1, W2. unfold er_eigenvalues. rewrite Ha, Hb, Hk. reflexivity.
  - intros e m He Hm. destruct (C1 m Hm) as (f & q & M1 & (_ & _ & Q1) & _). destruct (C2 m Hm) as (f' & q' & M2 & (_ & _ & Q2) & _).
    unfold stored_flux. rewrite M1, M2. cbn [set_heat set_flux mt_flux]. rewrite Q1 by (fold en; lia). rewrite Q2 by (rewrite ?Hgroups; lia). apply flux_unit; assumption.
  - assert (Vn : v <> 0) by (apply pow_nonzero, Hs).
    assert (Rate : forall m, (0 <= m < n)%Z -> fission_rate ms' (mode_flux ms' (er_modes b) 0) m = v / s * fission_rate ms (mode_flux ms (er_modes a) 0) m).
    { intros m Hm. unfold fission_rate. rewrite Hgroups, Hvol by exact Hm. fold en.
      rewrite (rsum_ext 0 en (fun e => mode_flux ms' (er_modes b) 0 e m * law_at mt_fisXS ms' e m) (fun e => / s * (mode_flux ms (er_modes a) 0 e m * law_at mt_fisXS ms e m))) by (intros e He; rewrite flux_unit, Hfis by assumption; unfold Rdiv; ring).
      rewrite rsum_scal. unfold Rdiv. ring. }
    intros m Hm. destruct (C1 m Hm) as (f & q & M1 & _ & Q1). destruct (C2 m Hm) as (f' & q' & M2 & _ & Q2).
    unfold stored_heat. rewrite M1, M2. cbn [set_heat mt_heat]. rewrite Q1, Q2, Hpw, Hvol, Rate by exact Hm. fold ms n.
    rewrite (rsum_ext 0 n (fission_rate ms' (mode_flux ms' (er_modes b) 0)) (fun m => v / s * fission_rate ms (mode_flux ms (er_modes a) 0) m) Rate), rsum_scal.
    unfold Rdiv. rewrite !Rinv_mult, Rinv_inv. generalize (/ rsum 0 n (fission_rate ms (mode_flux ms (er_modes a) 0))) (/ cell_volume ms m). intros x y. field. auto.
Qed.
Lemma adj_unit : exists r1 r1', setAdjointModes en n a r = Ok r1 /\ setAdjointModes en n b r' = Ok r1' /\ rx_adj r1' = rx_adj r1 /\
    (forall e m, (0 <= e < en)%Z -> (0 <= m < n)%Z -> stored_adj (rx_mesh r1') e m = stored_adj (rx_mesh r1) e m).
Proof using Hr Hr' Hre Ha Hb Hk Hf.
  pose proof Hre as [_ Hcells Hgroups _ _]. fold n en in Hcells, Hgroups.
  assert (Z1 : (1 <= zlen (er_modes a))%Z) by (rewrite Ha; unfold zlen; cbn; lia). assert (Z2 : (1 <= zlen (er_modes b))%Z) by (rewrite Hb; unfold zlen; cbn; lia).
  destruct (setAdjointModes_spec r a (ready_fissile _ Hr) Z1 fit_unit) as (r1 & E1 & W1 & C1).
  destruct (setAdjointModes_spec r' b (ready_fissile _ Hr') Z2 fit_unit') as (r2 & E2 & W2 & C2).
  fold ms n en in E1, C1. fold ms' in E2, C2. rewrite Hcells, Hgroups in E2, C2.
  exists r1, r2. split; [exact E1|]. split; [exact E2|]. split; [rewrite W1, W2; unfold er_eigenvalues; rewrite Ha, Hb, Hk; reflexivity|].
  intros e m He Hm. rewrite C1, C2 by assumption. apply flux_unit; assumption.
Qed.
End Flux.

Hypothesis Esys : diffusionSystem PI ms sd = Ok (M, F).
Hypothesis Esys' : diffusionSystem PI ms' sd = Ok (M', F').
Hypothesis Hdir : sd_dir sd <> DirUNDEFINED.
Hypothesis Heig : sd_eig sd = FUNDAMENTAL.
Hypothesis Hes : sd_energies sd = en.

Lemma solve_unit : same_outcome (n * en) (fun i => i) (sourceIteration solver M F (sd_max sd) (sd_acc sd) (sd_dir sd)) (sourceIteration solver M' F' (sd_max sd) (sd_acc sd) (sd_dir sd)) ->
  results_in_unit v (sd_dir sd) n en (diffusionSolve PI solver sort eig sd r) (diffusionSolve PI solver sort eig sd r').
Proof.
  intros L. pose proof Hre as [_ Hcells Hgroups _ _]. fold n en in Hcells, Hgroups.
  assert (Hm : (n <= zlen (ms_mats ms))%Z) by apply Hr. assert (Hm' : (ms_cells ms' <= zlen (ms_mats ms'))%Z) by apply Hr'.
  assert (Hb1 : (n + 1 = vlen (ms_bounds ms))%Z) by apply Hr. assert (Hb2 : (ms_cells ms' + 1 = vlen (ms_bounds ms'))%Z) by apply Hr'.
  assert (G1 : ms_geom ms <> GeomUNDEFINED) by apply Hr. assert (G2 : ms_geom ms' <> GeomUNDEFINED) by apply Hr'.
  destruct (wp_ok _ _ (getHeatSources_wp dm0 ms ltac:(fold n; lia) ltac:(fold n; lia))) as (old & Eo & _).
  destruct (wp_ok _ _ (getHeatSources_wp dm0 ms' ltac:(lia) ltac:(lia))) as (old' & Eo' & _).
  destruct (wp_ok _ _ (volumes_wp ms "cm" G1 ltac:(lia))) as (vol & Ev & _).
  destruct (wp_ok _ _ (volumes_wp ms' "cm" G2 ltac:(lia))) as (vol' & Ev' & _).
  unfold diffusionSolve. fold ms ms'. rewrite Eo, Eo', Ev, Ev', Esys, Esys'. cbn [bind]. unfold solveEigen. rewrite Heig, Hes.
  destruct (sourceIteration solver M F (sd_max sd) (sd_acc sd) (sd_dir sd)) as [[i a]|x|x|x];
  destruct (sourceIteration solver M' F' (sd_max sd) (sd_acc sd) (sd_dir sd)) as [[j b]|y|y|y]; cbn [same_outcome] in L; try contradiction; cbn [bind snd]; [|exact L].
  destruct L as (_ & Hk & Hf & Ha & Hb & _). rewrite Hcells. fold n.
  destruct (heat_unit a b Ha Hb Hk Hf vol vol' Ev Ev') as (r1 & r2 & E1 & E2 & Q1).
  destruct (adj_unit a b Ha Hb Hk Hf) as (r3 & r4 & E3 & E4 & Q2).
  destruct (sd_dir sd); [congruence| |].
  - rewrite E1, E2. exact Q1.
  - rewrite E3, E4. exact Q2.
Qed.

End Stored.

(* the solver of the input with another number of iterations *)
Definition with_max (max : Z) (sd : solverData R) : solverData R :=
  mkSolverData (sd_kind sd) (sd_acc sd) max (sd_relax sd) (sd_albedo sd) (sd_heatbc sd) (sd_energies sd) (sd_dir sd) (sd_eig sd).

(* a calculation that gives up has found no small change of the factor *)
Lemma gave_up solver sort eig r sd M F max : let ms := rx_mesh r in let size := (ms_cells ms * ms_groups ms)%Z in
  ready ms -> diffusionSystem PI ms sd = Ok (M, F) -> exact_solver M (solver M) -> sd_dir sd <> DirUNDEFINED -> sd_eig sd = FUNDAMENTAL -> sd_energies sd = ms_groups ms ->
  mrows M = size -> mcols M = size -> mrows F = size -> mcols F = size ->
  diffusionSolve PI solver sort eig (with_max max sd) r = Exit "The calculation did not converge!" ->
  forall j, (Z.of_nat j < max)%Z -> (pi_change (solver M) F size j [<] sd_acc sd) = false.
Proof.
  intros ms size Hr E X Hdir Heig Hes R1 C1 R2 C2 H j Hj.
  assert (Hm : (0 <= ms_cells ms <= zlen (ms_mats ms))%Z) by (split; apply Hr). assert (Hb1 : (ms_cells ms + 1 = vlen (ms_bounds ms))%Z) by apply Hr.
  assert (G1 : ms_geom ms <> GeomUNDEFINED) by apply Hr. assert (He : (0 <= ms_groups ms)%Z) by apply Hr.
  destruct (wp_ok _ _ (getHeatSources_wp dm0 ms ltac:(lia) ltac:(lia))) as (old & Eo & _).
  destruct (wp_ok _ _ (volumes_wp ms "cm" G1 ltac:(lia))) as (vol & Ev & _).
  assert (L1 : forall b, vlen b = size -> vlen (solver M b) = size) by (intros b Hb; rewrite <- C1; apply X; congruence).
  revert H. unfold diffusionSolve. fold ms. rewrite Eo, Ev. change (diffusionSystem PI ms (with_max max sd)) with (diffusionSystem PI ms sd). rewrite E. cbn [bind].
  unfold solveEigen. cbn [with_max sd_eig sd_max sd_acc sd_dir sd_energies]. rewrite Heig, Hes.
  destruct (sourceIteration_spec solver M F size max (sd_acc sd) (sd_dir sd) ltac:(unfold size; nia) R1 C1 R2 C2 L1) as [(i & J1 & J2 & J3 & ->) | [Z ->]]; [|intros _; exact (Z j Hj)].
  cbn [bind snd]. intros H. exfalso.
  set (er := er_single _ _ _) in H.
  assert (Z1 : (1 <= zlen (er_modes er))%Z) by (unfold zlen; cbn; lia).
  assert (Fit : forall k, (0 <= k < zlen (er_modes er))%Z -> (size <= vlen (snd (nth (Z.to_nat k) (er_modes er) dmode)))%Z).
  { unfold er, zlen. cbn [er_single er_modes length]. intros k Hk. assert (k = 0)%Z as -> by lia. cbn [Z.to_nat nth snd].
    destruct (power_len (solver M) F size C2 R2 L1 (S i)) as [A _]. change (size <= vlen (pi_flux (power (solver M) F size (S i))))%Z. lia. }
  destruct (setNewHeatSource_spec r vol er (ready_fissile _ Hr) Ev Z1 Fit) as (r1 & E1 & _).
  destruct (setAdjointModes_spec r er (ready_fissile _ Hr) Z1 Fit) as (r2 & E2 & _).
  fold ms in E1, E2. destruct (sd_dir sd); [congruence| |].
  - rewrite E1 in H. discriminate H.
  - rewrite E2 in H. discriminate H.
Qed.

Lemma unit_systems r r' sd s aL aR : let ms := rx_mesh r in let ms' := rx_mesh r' in let n := ms_cells ms in let en := ms_groups ms in
  ready ms -> ready ms' -> rescaled s ms ms' -> s <> 0 -> (2 <= n)%Z -> albedos ms sd aL aR -> sd_energies sd = en -> sd_dir sd <> DirUNDEFINED ->
  exists M F M' F', diffusionSystem PI ms sd = Ok (M, F) /\ diffusionSystem PI ms' sd = Ok (M', F') /\
    mat_scaled (n * en) (s ^ (dimension (ms_geom ms) - 1)) M M' /\ mat_scaled (n * en) (s ^ (dimension (ms_geom ms) - 1)) F F'.
Proof.
  intros ms ms' n en Hr Hr' Hre Hs Hn Hal Hes Hdir. destruct (rescaled_data s ms ms' Hs ltac:(apply Hr) Hre) as (D & _). pose proof Hre as [G Hc Hg _ _].
  pose proof (ready_data ms Hr) as D1. pose proof (ready_data ms' Hr') as D2. rewrite Hg in D2. fold en in D1, D2, D. rewrite <- Hes in D1, D2, D.
  assert (A2 : albedos ms' sd aL aR) by (unfold albedos in *; rewrite G; exact Hal).
  assert (He : (0 <= sd_energies sd)%Z) by (rewrite Hes; apply Hr).
  destruct (unit_system ms ms' sd (mesh_tables ms) (mesh_tables ms') aL aR s (s ^ (dimension (ms_geom ms) - 1)) Hn He Hs D1 D2 Hal A2 Hc Hdir D) as (M & F & M' & F' & E & E' & HM & HF).
  fold n in HM, HF. rewrite Hes in HM, HF. exists M, F, M', F'. auto.
Qed.

(* ---------- the theorems ---------- *)

(* A slab described in another unit of length: the same factor, the same fluxes, the same
   number of iterations or the same failure; the heat sources in the new unit. *)
Theorem C97_slab solver sort eig r r' sd s aL aR :
  let ms := rx_mesh r in let ms' := rx_mesh r' in let n := ms_cells ms in let en := ms_groups ms in
  ready ms -> ready ms' -> rescaled s ms ms' -> s <> 0 -> ms_geom ms = SLAB -> (2 <= n)%Z -> rx_power r' = rx_power r ->
  albedos ms sd aL aR -> sd_energies sd = en -> sd_dir sd <> DirUNDEFINED -> sd_eig sd = FUNDAMENTAL ->
  exists M F M' F', diffusionSystem PI ms sd = Ok (M, F) /\ diffusionSystem PI ms' sd = Ok (M', F') /\
    (injective (n * en) (mat_at M) -> injective (n * en) (mat_at M') /\
     (exact_solver M (solver M) -> exact_solver M' (solver M') ->
      results_in_unit s (sd_dir sd) n en (diffusionSolve PI solver sort eig sd r) (diffusionSolve PI solver sort eig sd r'))).
Proof.
  intros ms ms' n en Hr Hr' Hre Hs Hg Hn Hpw Hal Hes Hdir Heig. assert (Hen : (0 <= en)%Z) by apply Hr.
  destruct (unit_systems r r' sd s aL aR Hr Hr' Hre Hs Hn Hal Hes Hdir) as (M & F & M' & F' & E & E' & HM & HF).
  fold ms n en in HM, HF, E. fold ms' in E'. rewrite Hg in HM, HF. cbn [dimension Nat.sub pow] in HM, HF.
  exists M, F, M', F'. split; [exact E|]. split; [exact E'|]. intros Hi. split; [exact (scaled_injective (n * en) 1 ltac:(lra) M M' HM Hi)|]. intros X X'.
  assert (Like : forall A B, mat_scaled (n * en) 1 A B -> mat_like (n * en) (fun i => i) A B).
  { intros A B (A1 & A2 & A3 & A4 & H). repeat split; try assumption. intros i j Hii Hj. rewrite H by assumption. ring. }
  assert (Hs1 : s = s ^ dimension (ms_geom (rx_mesh r))) by (fold ms; rewrite Hg; cbn; ring). rewrite Hs1.
  apply (solve_unit solver sort eig r r' sd s M F M' F'); try assumption; [fold ms n; lia|].
  apply (like_iteration (n * en) (fun i => i) (fun i => i) (id_reorders _) M F M' F' solver ltac:(nia)); auto.
Qed.
Print Assumptions C97_slab.

(* Any geometry, when the accuracy asked for is not met within the first two iterations in
   either unit.  Missing: calculations that stop earlier, for which the claim is false. *)
Theorem C97_units_partial solver sort eig r r' sd s aL aR :
  let ms := rx_mesh r in let ms' := rx_mesh r' in let n := ms_cells ms in let en := ms_groups ms in
  ready ms -> ready ms' -> rescaled s ms ms' -> s <> 0 -> (2 <= n)%Z -> rx_power r' = rx_power r ->
  albedos ms sd aL aR -> sd_energies sd = en -> sd_dir sd <> DirUNDEFINED -> sd_eig sd = FUNDAMENTAL ->
  exists M F M' F', diffusionSystem PI ms sd = Ok (M, F) /\ diffusionSystem PI ms' sd = Ok (M', F') /\
    (injective (n * en) (mat_at M) -> injective (n * en) (mat_at M') /\
     (exact_solver M (solver M) -> exact_solver M' (solver M') ->
      diffusionSolve PI solver sort eig (with_max 2 sd) r = Exit "The calculation did not converge!" ->
      diffusionSolve PI solver sort eig (with_max 2 sd) r' = Exit "The calculation did not converge!" ->
      results_in_unit (s ^ dimension (ms_geom ms)) (sd_dir sd) n en (diffusionSolve PI solver sort eig sd r) (diffusionSolve PI solver sort eig sd r'))).
Proof.
  intros ms ms' n en Hr Hr' Hre Hs Hn Hpw Hal Hes Hdir Heig. assert (Hen : (0 <= en)%Z) by apply Hr. pose proof Hre as [_ Hc Hg _ _].
  destruct (unit_systems r r' sd s aL aR Hr Hr' Hre Hs Hn Hal Hes Hdir) as (M & F & M' & F' & E & E' & HM & HF).
  fold ms n en in HM, HF, E. fold ms' in E'. set (c := s ^ (dimension (ms_geom ms) - 1)) in *. assert (Hcn : c <> 0) by (apply pow_nonzero, Hs).
  exists M, F, M', F'. split; [exact E|]. split; [exact E'|]. intros Hi. split; [exact (scaled_injective (n * en) c Hcn M M' HM Hi)|]. intros X X' G G'.
  pose proof HM as (R1 & C1 & R2 & C2 & _). pose proof HF as (R3 & C3 & R4 & C4 & _).
  apply (solve_unit solver sort eig r r' sd s M F M' F'); try assumption; [fold ms n; lia|].
  apply (scaled_iteration (n * en) c Hcn M F M' F' solver ltac:(nia) HM HF Hi X X'). intros j Hj _. split.
  - apply (gave_up solver sort eig r sd M F 2); try assumption. lia.
  - fold ms' in Hc, Hg. fold ms in Hc, Hg. fold n in Hc. fold en in Hg.
    pose proof (gave_up solver sort eig r' sd M' F' 2) as K. cbv zeta in K. fold ms' in K. rewrite Hc, Hg in K. apply K; try assumption. lia.
Qed.
Print Assumptions C97_units_partial.

(* ---------- a reactor in several units ---------- *)

Definition rescale_material (s : R) (m : material R) : material R :=
  mkMaterial (mt_name m) (mt_energies m) (mt_temp m) (mt_heat m) (mt_flux m) (mt_adj m) (mt_totflux m) (mt_cond m)
    (laws_times (/ s) (mt_totXS m)) (laws_times (/ s) (mt_fisXS m)) (laws_times s (mt_diff m)) (laws_times (/ s) (mt_scatt m)) (mt_ni m) (mt_chi m).
Definition rescale (s : R) (ms : mesh R) : mesh R :=
  mkMesh (mkvec (vlen (ms_bounds ms)) (fun k => vat (ms_bounds ms) k * s)) (ms_geom ms) (ms_cells ms) (ms_groups ms)
    (map (rescale_material s) (ms_mats ms)) (ms_nfwd ms) (ms_nadj ms).
Lemma rescale_material_at s ms m : (0 <= m < zlen (ms_mats ms))%Z -> cell_material (rescale s ms) m = rescale_material s (cell_material ms m).
Proof. intros Hm. unfold cell_material. cbn [rescale ms_mats]. unfold zlen in Hm. rewrite (nth_indep _ dm0 (rescale_material s dm0)) by (rewrite map_length; lia). apply map_nth. Qed.
Lemma rescale_ready s ms : ready ms -> ready (rescale s ms).
Proof.
  intros (A & B & C & D & E & H). split; [exact A|]. split; [exact B|]. split; [exact C|]. split; [exact D|].
  split; [unfold zlen; cbn [rescale ms_mats]; rewrite map_length; exact E|]. cbn [rescale ms_cells ms_groups]. intros m Hm. cbn zeta.
  fold (rescale s ms). rewrite rescale_material_at by lia. destruct (H m Hm) as (K1 & K2 & K3 & K4 & K5 & K6 & K7).
  unfold zlen in *. cbn [rescale_material mt_energies mt_totXS mt_fisXS mt_diff mt_scatt mt_ni mt_chi]. unfold laws_times. rewrite !map_length. auto 10.
Qed.
Lemma rescale_rescaled s ms : ready ms -> rescaled s ms (rescale s ms).
Proof.
  intros (A & B & C & D & E & H). split; try reflexivity. intros m Hm. cbn zeta. rewrite rescale_material_at by lia. repeat split.
Qed.
Lemma rescaled_trans a b x y z : rescaled a x y -> rescaled b y z -> rescaled (a * b) x z.
Proof.
  intros [G C N B L] [G' C' N' B' L']. split; try congruence.
  - intros k Hk. rewrite B' by (rewrite C; exact Hk). rewrite B by exact Hk. ring.
  - assert (T : forall f g l, laws_times g (laws_times f l) = laws_times (f * g) l).
    { intros f g l. unfold laws_times. rewrite map_map. apply map_ext. intros c. rewrite map_map. apply map_ext. intros q. ring. }
    intros m Hm. cbn zeta. destruct (L m Hm) as (E1 & E2 & E3 & E4 & E5 & E6 & E7). destruct (L' m ltac:(rewrite C; exact Hm)) as (F1 & F2 & F3 & F4 & F5 & F6 & F7).
    rewrite F1, F2, F3, F4, F5, F6, F7, E1, E2, E3, E4, E5, E6, E7, Rinv_mult, !T. repeat split.
Qed.

(* a slab of C94 in metres instead of centimetres: the calculation ends, with the same
   factor and the power per cubic metre *)
Example C97_slab_met : exists solver max r1 r2 o1 o2,
  let cm := with_mesh seen_left newReactor in let m := with_mesh (rescale (1 / 100) seen_left) newReactor in
  rescaled (1 / 100) seen_left (rescale (1 / 100) seen_left) /\
  diffusionSolve PI solver (fun l => l) no_modes (layer_solver max 0 (1 / 2)) cm = Ok (o1, r1) /\
  diffusionSolve PI solver (fun l => l) no_modes (layer_solver max 0 (1 / 2)) m = Ok (o2, r2) /\
  rx_fwd r2 = rx_fwd r1 /\ forall i, (0 <= i < 3)%Z -> stored_heat (rx_mesh r2) i = stored_heat (rx_mesh r1) i / (1 / 100).
Proof.
  destruct PropsHeat.exact_exists as (solver & He). exists solver.
  destruct (layered_runs solver _ _ _ 0 (1 / 2) He seen_left_sound ltac:(lra) ltac:(lra)) as (max & M & F & E & R1 & C1 & Hi & Hrun). exists max.
  destruct (Hrun (with_mesh seen_left newReactor) (fun l => l) no_modes eq_refl) as (o1 & r1 & E1). exists r1.
  assert (Hrd : ready seen_left) by apply layered_ready.
  destruct (C97_slab solver (fun l => l) no_modes (with_mesh seen_left newReactor) (with_mesh (rescale (1 / 100) seen_left) newReactor) (layer_solver max 0 (1 / 2)) (1 / 100) 0 (1 / 2)
    Hrd (rescale_ready _ _ Hrd) (rescale_rescaled _ _ Hrd) ltac:(lra) eq_refl ltac:(cbn; lia) eq_refl (conj eq_refl eq_refl) eq_refl ltac:(discriminate) eq_refl) as (M0 & F0 & M' & F' & Es & Es' & H).
  cbn [rx_mesh with_mesh] in Es. unfold seen_left in Es. rewrite E in Es. injection Es as <- <-.
  destruct (H Hi) as [Hi' K]. change (injective 6 (mat_at M')) in Hi'.
  assert (D : mrows M' = 6%Z /\ mcols M' = 6%Z).
  { destruct (system_bl (rescale (1 / 100) seen_left) (layer_solver max 0 (1 / 2)) (mesh_tables (rescale (1 / 100) seen_left)) 0 (1 / 2) ltac:(cbn; lia) ltac:(cbn; lia) (ready_data _ (rescale_ready _ _ Hrd)) (conj eq_refl eq_refl) ltac:(lra) ltac:(discriminate)) as (M2 & F2 & E2 & (A & B & _) & _).
    cbn [rx_mesh with_mesh] in Es'. rewrite Es' in E2. injection E2 as <- <-. auto. }
  specialize (K (exact_any solver M 6 He R1 C1 Hi) (exact_any solver M' 6 He (proj1 D) (proj2 D) Hi')).
  rewrite E1 in K.
  destruct (diffusionSolve PI solver (fun l => l) no_modes (layer_solver max 0 (1 / 2)) (with_mesh (rescale (1 / 100) seen_left) newReactor)) as [[o2 r2]|x|x|x] eqn:E2; [|contradiction|contradiction|contradiction].
  destruct K as (K1 & _ & K2). exists r2, o1, o2. split; [apply rescale_rescaled, Hrd|]. split; [exact E1|]. split; [exact E2|]. split; [exact K1|].
  intros i Hii. apply (K2 i Hii).
Qed.

(* ---------- the claim is false for cylinders and spheres ---------- *)

(* constant vectors *)
Definition flat (size : Z) (a : R) (v : vec R) : Prop := vlen v = size /\ forall i, (0 <= i < size)%Z -> vat v i = a.
Section Flat.
Variables (size : Z) (M F : mat R) (solver : mat R -> vec R -> vec R) (g : R).
Hypothesis Hz : (0 < size)%Z.
Hypothesis HM : mrows M = size /\ mcols M = size.
Hypothesis HF : mrows F = size /\ mcols F = size.
Hypothesis Ma : forall i, (0 <= i < size)%Z -> rsum 0 size (fun j => mat_at M i j) = 1.
Hypothesis Fa : forall i, (0 <= i < size)%Z -> rsum 0 size (fun j => mat_at F i j) = g.
Hypothesis Hi : injective size (mat_at M).
Hypothesis HX : exact_solver M (solver M).
Hypothesis Hg : g <> 0.

Lemma flat_mul v a : flat size a v -> flat size (g * a) (mvmul F v).
Proof using HF Fa.
  intros [L H]. split; [apply HF|]. intros i Hii. rewrite mvmul_at. destruct HF as [_ ->].
  rewrite (rsum_ext 0 size _ (fun j => a * mat_at F i j)) by (intros j Hj; rewrite H by exact Hj; ring). rewrite rsum_scal, Fa by exact Hii. ring.
Qed.
Lemma flat_dot v w a b : flat size a v -> flat size b w -> vdot v w = IZR size * (a * b).
Proof using Hz.
  intros [L H] [_ K]. unfold vdot. rewrite L. rewrite (rsum_ext 0 size _ (fun _ => a * b)) by (intros j Hj; rewrite H, K by exact Hj; rnum; ring).
  rewrite rsum_const by lia. f_equal. f_equal. lia.
Qed.
Lemma flat_solve v a : flat size a v -> flat size a (solver M v).
Proof using HM Ma Hi HX.
  intros [L H]. destruct HM as [R1 C1]. destruct (HX v ltac:(congruence)) as (L1 & _ & Q). split; [congruence|]. intros i Hii.
  assert (Z : forall j, (0 <= j < size)%Z -> vat (solver M v) j - a = 0); [|specialize (Z i Hii); lra].
  apply Hi. intros j Hj. assert (E : vat (mvmul M (solver M v)) j = vat v j) by (apply Q; change (vlen (mvmul M (solver M v))) with (mrows M); lia).
  rewrite mvmul_at, C1, H in E by exact Hj. unfold app.
  transitivity (rsum 0 size (fun k => mat_at M j k * vat (solver M v) k) - rsum 0 size (fun k => a * mat_at M j k)).
  - rewrite <- rsum_minus. apply rsum_ext. intros. ring.
  - rewrite rsum_scal, E, Ma by exact Hj. ring.
Qed.
Lemma flat_step p a b k : flat size a (pi_flux p) -> flat size b (pi_src p) -> a <> 0 -> b <> 0 -> pi_k p = k -> k <> 0 ->
  let f := solver M (pi_src p) in let q := mvmul F f in let k' := pi_k p [*] (vdot q q [/] vdot (mvmul F (pi_flux p)) q) in
  flat size b f /\ k' = k * b / a /\ flat size (g * a / k) (vdivs q k').
Proof using Hz HM HF Ma Fa Hi HX Hg.
  intros Hf Hs Ha Hb Hk Hk0 f q k'. assert (Ff := flat_solve _ _ Hs). fold f in Ff. assert (Fq := flat_mul _ _ Ff). fold q in Fq.
  assert (E : k' = k * b / a).
  { unfold k'. rewrite (flat_dot _ _ _ _ Fq Fq), (flat_dot _ _ _ _ (flat_mul _ _ Hf) Fq), Hk. rnum. field. repeat split; auto. apply not_0_IZR. lia. }
  split; [exact Ff|]. split; [exact E|]. destruct Fq as [L H]. split; [exact L|]. intros i Hii. cbn [vdivs vat]. rewrite H, E by exact Hii. rnum. field. auto.
Qed.
(* the first iterates *)
Lemma flat_power : let P j := power (solver M) F size j in pi_k (P 1%nat) = 1 /\ pi_k (P 2%nat) = g /\ pi_k (P 3%nat) = g.
Proof using Hz HM HF Ma Fa Hi HX Hg.
  intros P. assert (O : flat size 1 (vones size)) by (split; [reflexivity|intros; reflexivity]).
  destruct (flat_step (P 0%nat) 1 1 1 O O ltac:(lra) ltac:(lra) eq_refl ltac:(lra)) as (F1 & K1 & S1).
  assert (K1' : pi_k (P 1%nat) = 1) by (transitivity (1 * 1 / 1); [exact K1|lra]).
  assert (Q1 : flat size g (pi_src (P 1%nat))) by (replace g with (g * 1 / 1) by lra; exact S1).
  destruct (flat_step (P 1%nat) 1 g 1 F1 Q1 ltac:(lra) Hg K1' ltac:(lra)) as (F2 & K2 & S2).
  assert (K2' : pi_k (P 2%nat) = g) by (transitivity (1 * g / 1); [exact K2|lra]).
  assert (Q2 : flat size g (pi_src (P 2%nat))) by (replace g with (g * 1 / 1) by lra; exact S2).
  destruct (flat_step (P 2%nat) g g g F2 Q2 Hg Hg K2' Hg) as (_ & K3 & _).
  split; [exact K1'|]. split; [exact K2'|]. transitivity (g * g / g); [exact K3|field; exact Hg].
Qed.
End Flat.

(* two rings of one square centimetre times pi each around the axis of a cylinder; one
   group with removal 1 / pi and two neutrons from each of 1 / pi fissions per centimetre *)
Definition thin_material : material R :=
  mkMaterial "m" 1 20 0 (mzeros 0 0) (mzeros 0 0) (vzeros 0) None [[2 / PI]] [[1 / PI]] [[1]] [[1 / PI]] [[2]] [[1]].
Definition thin : mesh R :=
  mkMesh (mkvec 3 (fun k => if (k =? 0)%Z then 0 else if (k =? 1)%Z then 1 / 100 else sqrt 2 / 100)) CYLINDER 2 1 [thin_material; thin_material] 1 1.
Definition thin_solver (max : Z) : solverData R := mkSolverData DIFFUSION (1 / 1000) max 1 [1] [] 1 FORWARD FUNDAMENTAL.

Lemma thin_ready : ready thin.
Proof.
  repeat split; cbn; try lia; try congruence.
  all: assert (m = 0 \/ m = 1)%Z as [->| ->] by (cbn in *; lia);
    change (Z.to_nat 1) with 1%nat; cbn;
    try reflexivity; try (right; unfold zlen; cbn; lia); unfold zlen; cbn; lia.
Qed.
Lemma thin_tables : let d := mesh_tables thin in forall m, (0 <= m < 2)%Z ->
  tD d 0 m = 1 /\ ttot d 0 m = 2 / PI /\ tsc d 0 0 m = 1 / PI /\ tfis d 0 m = 1 / PI /\ tni d 0 m = 2 /\ tchi d 0 m = 1 /\ tV d m = PI.
Proof.
  intros d m Hm.
  assert (Hc : forall c t, law_value (T := R) [c] t = c) by (intros; rewrite law_value_R; exact (eq_trans (rsum_one 0 _) (Rmult_1_r c))).
  assert (Hmat : cell_material thin m = thin_material) by (assert (m = 0 \/ m = 1)%Z as [->| ->] by lia; reflexivity).
  assert (S2 : sqrt 2 * sqrt 2 = 2) by (apply sqrt_sqrt; lra).
  cbn [d mesh_tables tD ttot tsc tfis tni tchi tV]. unfold law_at, law_at0, law_at. rewrite Hmat.
  cbn [thin_material mt_diff mt_totXS mt_scatt mt_fisXS mt_ni mt_chi mt_temp thin ms_groups ms_geom ms_bounds vat].
  change (Z.to_nat (0 + 0 * 1)) with 0%nat. change (Z.to_nat 0) with 0%nat. cbn [nth]. rewrite !Hc.
  repeat split. assert (m = 0 \/ m = 1)%Z as [->| ->] by lia; cbn; [field|].
  replace (sqrt 2 / 100 * (sqrt 2 / 100 * 1)) with (sqrt 2 * sqrt 2 / 10000) by field. rewrite S2. field.
Qed.
Lemma thin_width m : (0 <= m < 2)%Z -> 0 < tdx (mesh_tables thin) m.
Proof.
  intros Hm. assert (1 < sqrt 2) by (rewrite <- sqrt_1 at 1; apply sqrt_lt_1; lra).
  assert (m = 0 \/ m = 1)%Z as [->| ->] by lia; cbn; lra.
Qed.
Lemma thin_area k : (0 <= k <= 2)%Z -> 0 <= tS (mesh_tables thin) k.
Proof.
  intros Hk. assert (0 < sqrt 2) by (apply sqrt_lt_R0; lra). pose proof PI_RGT_0. assert (k = 0 \/ k = 1 \/ k = 2)%Z as [->|[->| ->]] by lia; cbn; nra.
Qed.
Lemma thin_system max : exists M F, diffusionSystem PI thin (thin_solver max) = Ok (M, F) /\ injective 2 (mat_at M) /\
  (mrows M = 2%Z /\ mcols M = 2%Z) /\ (mrows F = 2%Z /\ mcols F = 2%Z) /\
  (forall i, (0 <= i < 2)%Z -> rsum 0 2 (fun j => mat_at M i j) = 1) /\ (forall i, (0 <= i < 2)%Z -> rsum 0 2 (fun j => mat_at F i j) = 2).
Proof.
  pose proof PI_RGT_0 as Hpi. set (d := mesh_tables thin).
  assert (Hd : mesh_data PI thin (sd_energies (thin_solver max)) d) by exact (ready_data thin thin_ready).
  assert (Hal : albedos thin (thin_solver max) 1 1) by (split; reflexivity).
  assert (T : forall m, (0 <= m < 2)%Z -> tD d 0 m = 1 /\ ttot d 0 m = 2 / PI /\ tsc d 0 0 m = 1 / PI /\ tfis d 0 m = 1 / PI /\ tni d 0 m = 2 /\ tchi d 0 m = 1 /\ tV d m = PI) by exact thin_tables.
  assert (W : forall m, (0 <= m < 2)%Z -> 0 < tdx d m) by exact thin_width. assert (A : forall k, (0 <= k <= 2)%Z -> 0 <= tS d k) by exact thin_area. clearbody d.
  assert (B0 : forall x y w, bcoef (T := R) x 1 y w = 0) by (intros; unfold bcoef; rnum; unfold Rdiv; ring).
  destruct (system_bl thin (thin_solver max) d 1 1 ltac:(cbn; lia) ltac:(cbn; lia) Hd Hal ltac:(lra) ltac:(discriminate)) as (M & F & E & (R1 & C1 & HM) & (R2 & C2 & HF)).
  exists M, F. split; [exact E|]. cbn [thin thin_solver ms_cells sd_energies] in R1, C1, R2, C2, HM, HF. change (2 * 1)%Z with 2%Z in *.
  assert (S1 : forall h, rsum 0 1 h = h 0%Z) by (intros h; exact (rsum_one 0 h)).
  split; [|split; [auto|split; [auto|split]]].
  - destruct (loss_monotone thin (thin_solver max) d 1 1 ltac:(cbn; lia) ltac:(cbn; lia) Hd Hal ltac:(lra) ltac:(lra)) as (M1 & F1 & E1 & Hm).
    + intros e m He Hm. cbn in He, Hm. assert (e = 0)%Z as -> by lia. destruct (T m Hm) as (-> & _). lra.
    + intros m Hm. apply W. exact Hm.
    + reflexivity.
    + intros k Hk. apply A. exact Hk.
    + intros m Hm. destruct (T m Hm) as (_ & _ & _ & _ & _ & _ & ->). exact Hpi.
    + intros e e' m He He' Hm. cbn in He, He', Hm. assert (e = 0)%Z as -> by lia. assert (e' = 0)%Z as -> by lia. destruct (T m Hm) as (_ & _ & -> & _). apply Rlt_le, Rdiv_lt_0_compat; lra.
    + intros e m He Hm. cbn in He, Hm. assert (e = 0)%Z as -> by lia. change (sd_energies (thin_solver max)) with 1%Z. rewrite S1. destruct (T m Hm) as (_ & -> & -> & _).
      apply Rmult_lt_compat_r; [apply Rinv_0_lt_compat; exact Hpi|lra].
    + rewrite E in E1. injection E1 as <- <-. apply monotone_injective. exact Hm.
  - destruct (T 0%Z ltac:(lia)) as (_ & A1 & A2 & _ & _ & _ & A3). destruct (T 1%Z ltac:(lia)) as (_ & B1 & B2 & _ & _ & _ & B3).
    intros i Hi. change 2%Z with (1 + 1)%Z at 1; rewrite rsum_last, S1 by lia. assert (K : forall m m', (0 <= m < 2)%Z -> (0 <= m' < 2)%Z -> mat_at M m m' = lossB d (tri d (dgA thin d 1 1)) (transfer (thin_solver max) d) 0 m 0 m').
    { intros m m' Hm Hm'. rewrite <- (HM 0 m 0 m')%Z by lia. unfold blk. f_equal; lia. }
    rewrite !K by lia. unfold lossB, tri, transfer, dgA, dgI, rem, mtwo, two, thin_solver. cbn [sd_dir thin ms_cells]. rewrite !B0. rnum.
    assert (i = 0 \/ i = 1)%Z as [->| ->] by lia; cbn; rewrite ?A1, ?A2, ?A3, ?B1, ?B2, ?B3; match goal with |- context [?a / (?b + ?c)] => generalize (a / (b + c)) end; intros x; field; lra.
  - destruct (T 0%Z ltac:(lia)) as (_ & _ & _ & A1 & A2 & A4 & A3). destruct (T 1%Z ltac:(lia)) as (_ & _ & _ & B1 & B2 & B4 & B3).
    intros i Hi. change 2%Z with (1 + 1)%Z at 1; rewrite rsum_last, S1 by lia. assert (K : forall m m', (0 <= m < 2)%Z -> (0 <= m' < 2)%Z -> mat_at F m m' = (if (m' =? m)%Z then fp d 0 m else 0) * tchi d 0 m).
    { intros m m' Hm Hm'. transitivity (blk 2 F 0 m 0 m'); [unfold blk; f_equal; lia|exact (HF 0 m 0 m' ltac:(lia) Hm ltac:(lia) Hm')%Z]. }
    rewrite !K by lia. unfold fp. rnum. assert (i = 0 \/ i = 1)%Z as [->| ->] by lia; cbn; rewrite ?A1, ?A2, ?A3, ?A4, ?B1, ?B2, ?B3, ?B4; field; lra.
Qed.

(* what a calculation stores *)
Lemma diffusion_answer solver sort eig r sd M F : let ms := rx_mesh r in let size := (ms_cells ms * ms_groups ms)%Z in
  ready ms -> diffusionSystem PI ms sd = Ok (M, F) -> sd_dir sd = FORWARD -> sd_eig sd = FUNDAMENTAL -> sd_energies sd = ms_groups ms ->
  (forall m, sourceIteration solver M F (sd_max sd) (sd_acc sd) (sd_dir sd) = Exit m -> diffusionSolve PI solver sort eig sd r = Exit m) /\
  (forall i flux k, sourceIteration solver M F (sd_max sd) (sd_acc sd) (sd_dir sd) = Ok (i, er_single flux k (sd_dir sd)) -> vlen flux = size ->
   exists o r1, diffusionSolve PI solver sort eig sd r = Ok (o, r1) /\ rx_fwd r1 = [k]).
Proof.
  intros ms size Hr E Hdir Heig Hes.
  assert (Hm : (0 <= ms_cells ms <= zlen (ms_mats ms))%Z) by (split; apply Hr). assert (Hb1 : (ms_cells ms + 1 = vlen (ms_bounds ms))%Z) by apply Hr.
  assert (G1 : ms_geom ms <> GeomUNDEFINED) by apply Hr.
  destruct (wp_ok _ _ (getHeatSources_wp dm0 ms ltac:(lia) ltac:(lia))) as (old & Eo & _).
  destruct (wp_ok _ _ (volumes_wp ms "cm" G1 ltac:(lia))) as (vol & Ev & _).
  unfold diffusionSolve. fold ms. rewrite Eo, Ev, E. cbn [bind]. unfold solveEigen. rewrite Heig. split; [intros m ->; reflexivity|].
  intros i flux k -> L. cbn [bind snd]. set (er := er_single flux k (sd_dir sd)).
  assert (Z1 : (1 <= zlen (er_modes er))%Z) by (unfold zlen; cbn; lia).
  assert (Fit : forall q, (0 <= q < zlen (er_modes er))%Z -> (size <= vlen (snd (nth (Z.to_nat q) (er_modes er) dmode)))%Z).
  { unfold er, zlen. cbn [er_single er_modes length]. intros q Hq. assert (q = 0)%Z as -> by lia. cbn [Z.to_nat nth snd]. lia. }
  destruct (setNewHeatSource_spec r vol er (ready_fissile _ Hr) Ev Z1 Fit) as (r1 & E1 & _ & W & _).
  rewrite Hdir, Hes. fold ms in E1. rewrite E1. exists old, r1. split; [reflexivity|]. exact W.
Qed.

(* the rings in a unit 1 / s times as long: the factor is two unless one of the first two
   changes of the factor, from 1 to 1 / s and from 1 / s to 2, is small *)
Lemma thin_run solver sort eig s ms : ProofsHeatLoop.exact solver -> 0 < s -> ready ms -> rescaled s thin ms ->
  let small := Rabs (1 - s) < 1 / 1000 \/ Rabs (1 - 1 / (2 * s)) < 1 / 1000 in let r := with_mesh ms newReactor in
  (~ small -> diffusionSolve PI solver sort eig (thin_solver 2) r = Exit "The calculation did not converge!" /\
     forall max, (3 <= max)%Z -> exists o r1, diffusionSolve PI solver sort eig (thin_solver max) r = Ok (o, r1) /\ rx_fwd r1 = [2]) /\
  (s = 1 -> forall max, (1 <= max)%Z -> exists o r1, diffusionSolve PI solver sort eig (thin_solver max) r = Ok (o, r1) /\ rx_fwd r1 = [1]).
Proof.
  intros He Hs Hr Hre small r. pose proof Hre as [G Hc Hg _ _].
  assert (Sys : forall max, exists M' F', diffusionSystem PI ms (thin_solver max) = Ok (M', F') /\ mrows M' = 2%Z /\ mcols M' = 2%Z /\ mrows F' = 2%Z /\ mcols F' = 2%Z /\
    (forall b, vlen b = 2%Z -> vlen (solver M' b) = 2%Z) /\
    let P' j := power (solver M') F' 2 j in pi_k (P' 1%nat) = 1 / s /\ pi_k (P' 2%nat) = 2 /\ pi_k (P' 3%nat) = 2).
  { intros max. destruct (thin_system max) as (M & F & E & Hi & HM & HF & Ma & Fa).
    destruct (unit_systems (with_mesh thin newReactor) r (thin_solver max) s 1 1 thin_ready Hr Hre ltac:(lra) ltac:(cbn; lia) (conj eq_refl eq_refl) eq_refl ltac:(discriminate))
      as (M0 & F0 & M' & F' & E0 & E' & SM & SF). cbn [rx_mesh with_mesh] in E0, E'. rewrite E in E0. injection E0 as <- <-.
    cbn [rx_mesh with_mesh thin ms_geom ms_cells ms_groups dimension Nat.sub pow] in SM, SF. rewrite Rmult_1_r in SM, SF. change (2 * 1)%Z with 2%Z in *. change (rx_mesh r) with ms in E'.
    assert (Hsn : s <> 0) by lra. pose proof SM as (_ & _ & R2 & C2 & _). pose proof SF as (_ & _ & R4 & C4 & _).
    assert (X := exact_any solver M 2 He (proj1 HM) (proj2 HM) Hi). assert (X' := exact_any solver M' 2 He R2 C2 (scaled_injective 2 s Hsn M M' SM Hi)).
    destruct (flat_power 2 M F solver 2 ltac:(lia) HM HF Ma Fa Hi X ltac:(lra)) as (K1 & K2 & K3).
    destruct (scaled_first 2 s Hsn M F M' F' solver SM SF Hi X X') as (_ & Q1 & _).
    destruct (scaled_later 2 s Hsn M F M' F' solver SM SF Hi X X' 0) as (_ & Q2 & _). destruct (scaled_later 2 s Hsn M F M' F' solver SM SF Hi X X' 1) as (_ & Q3 & _).
    exists M', F'. split; [exact E'|]. split; [exact R2|]. split; [exact C2|]. split; [exact R4|]. split; [exact C4|].
    split; [intros b Hb; rewrite <- C2; apply X'; congruence|]. cbv zeta.
    split; [rewrite Q1, K1; ring|]. split; [rewrite Q2; exact K2|rewrite Q3; exact K3]. }
  assert (Ch : forall M' F', let P' j := power (solver M') F' 2 j in pi_k (P' 1%nat) = 1 / s /\ pi_k (P' 2%nat) = 2 /\ pi_k (P' 3%nat) = 2 ->
    pi_change (solver M') F' 2 0 = Rabs (1 - s) /\ pi_change (solver M') F' 2 1 = Rabs (1 - 1 / (2 * s)) /\ pi_change (solver M') F' 2 2 = 0).
  { intros M' F' P' (K1 & K2 & K3). unfold P' in *. unfold pi_change. rewrite K1, K2, K3. change (pi_k (power (solver M') F' 2 0)) with 1. rnum.
    split; [f_equal; field; lra|]. split; [f_equal; field; lra|]. replace ((2 - 2) / 2) with 0 by field. apply Rabs_R0. }
  split.
  - intros Hns. assert (N1 : 1 / 1000 <= Rabs (1 - s)) by (apply Rnot_lt_le; intros H; apply Hns; left; exact H).
    assert (N2 : 1 / 1000 <= Rabs (1 - 1 / (2 * s))) by (apply Rnot_lt_le; intros H; apply Hns; right; exact H). split.
    + destruct (Sys 2%Z) as (M' & F' & E' & R1 & C1 & R2 & C2 & L & Ks). destruct (Ch _ _ Ks) as (C0 & C11 & _).
      destruct (diffusion_answer solver sort eig r (thin_solver 2) M' F' Hr E' eq_refl eq_refl ltac:(change (rx_mesh r) with ms; rewrite Hg; reflexivity)) as [A _]. apply A.
      destruct (sourceIteration_spec solver M' F' 2 2 (1 / 1000) FORWARD ltac:(lia) R1 C1 R2 C2 L) as [(j & J1 & J2 & _) | [_ Q]]; [|exact Q].
      exfalso. apply Rltb_true in J2. assert (j = 0 \/ j = 1)%nat as [->| ->] by lia; lra.
    + intros max Hmax. destruct (Sys max) as (M' & F' & E' & R1 & C1 & R2 & C2 & L & Ks). destruct (Ch _ _ Ks) as (C0 & C11 & C22). destruct Ks as (_ & _ & K3).
      destruct (diffusion_answer solver sort eig r (thin_solver max) M' F' Hr E' eq_refl eq_refl ltac:(change (rx_mesh r) with ms; rewrite Hg; reflexivity)) as [_ A].
      destruct (sourceIteration_spec solver M' F' 2 max (1 / 1000) FORWARD ltac:(lia) R1 C1 R2 C2 L) as [(j & J1 & J2 & J3 & Q) | [Z _]].
      * assert (j = 2)%nat as ->.
        { apply Rltb_true in J2. destruct j as [|[|[|j]]]; [lra|lra|reflexivity|]. specialize (J3 2%nat ltac:(lia)). apply Rltb_false in J3. lra. }
        rewrite K3 in Q. apply (A _ _ _ Q). change (rx_mesh r) with ms. rewrite Hc, Hg. apply (power_len (solver M') F' 2 C2 R2 L 3).
      * exfalso. specialize (Z 2%nat ltac:(lia)). apply Rltb_false in Z. lra.
  - intros -> max Hmax. destruct (Sys max) as (M' & F' & E' & R1 & C1 & R2 & C2 & L & Ks). destruct (Ch _ _ Ks) as (C0 & _ & _). destruct Ks as (K1 & _ & _).
    destruct (diffusion_answer solver sort eig r (thin_solver max) M' F' Hr E' eq_refl eq_refl ltac:(change (rx_mesh r) with ms; rewrite Hg; reflexivity)) as [_ A].
    replace (1 - 1) with 0 in C0 by ring. rewrite Rabs_R0 in C0.
    destruct (sourceIteration_spec solver M' F' 2 max (1 / 1000) FORWARD ltac:(lia) R1 C1 R2 C2 L) as [(j & J1 & J2 & J3 & Q) | [Z _]].
    + assert (j = 0)%nat as -> by (destruct j as [|j]; [reflexivity|]; specialize (J3 0%nat ltac:(lia)); apply Rltb_false in J3; lra).
      rewrite K1 in Q. replace (1 / 1) with 1 in Q by field. apply (A _ _ _ Q). change (rx_mesh r) with ms. rewrite Hc, Hg. apply (power_len (solver M') F' 2 C2 R2 L 1).
    + exfalso. specialize (Z 0%nat ltac:(lia)). apply Rltb_false in Z. lra.
Qed.

(* hypotheses of C97_units_partial met by a cylinder: the rings in half centimetres and in
   quarters of a centimetre *)
Example C97_units_met : exists solver, let half := rescale 2 thin in let quarter := rescale 2 (rescale 2 thin) in
  let r := with_mesh half newReactor in let r' := with_mesh quarter newReactor in
  rescaled 2 half quarter /\
  diffusionSolve PI solver (fun l => l) no_modes (thin_solver 2) r = Exit "The calculation did not converge!" /\
  diffusionSolve PI solver (fun l => l) no_modes (thin_solver 2) r' = Exit "The calculation did not converge!" /\
  (exists o r1, diffusionSolve PI solver (fun l => l) no_modes (thin_solver 100) r = Ok (o, r1) /\ rx_fwd r1 = [2]) /\
  (exists o r1, diffusionSolve PI solver (fun l => l) no_modes (thin_solver 100) r' = Ok (o, r1) /\ rx_fwd r1 = [2]).
Proof.
  destruct PropsHeat.exact_exists as (solver & He). exists solver. intros half quarter r r'.
  assert (R1 : ready half) by apply rescale_ready, thin_ready. assert (R2 : ready quarter) by apply rescale_ready, R1.
  assert (S1 : rescaled 2 thin half) by apply rescale_rescaled, thin_ready. assert (S2 : rescaled 2 half quarter) by apply rescale_rescaled, R1.
  destruct (thin_run solver (fun l => l) no_modes 2 half He ltac:(lra) R1 S1) as [A _].
  destruct (thin_run solver (fun l => l) no_modes (2 * 2) quarter He ltac:(lra) R2 (rescaled_trans _ _ _ _ _ S1 S2)) as [B _].
  destruct A as [A1 A2]; [intros [H|H]; revert H; [rewrite Rabs_left by lra|rewrite Rabs_right by lra]; lra|].
  destruct B as [B1 B2]; [intros [H|H]; revert H; [rewrite Rabs_left by lra|rewrite Rabs_right by lra]; lra|].
  split; [exact S2|]. split; [exact A1|]. split; [exact B1|]. split; [apply A2; lia|apply B2; lia].
Qed.

(* The full claim is false: the rings described in centimetres have the factor one, the
   same rings described in half centimetres the factor two. *)
Theorem C97_refuted : exists solver r r' sd s M F M' F',
  let ms := rx_mesh r in let ms' := rx_mesh r' in
  ready ms /\ ready ms' /\ rescaled s ms ms' /\ 0 < s /\ (2 <= ms_cells ms)%Z /\ rx_power r' = rx_power r /\
  albedos ms sd 1 1 /\ sd_energies sd = ms_groups ms /\ sd_dir sd = FORWARD /\ sd_eig sd = FUNDAMENTAL /\
  diffusionSystem PI ms sd = Ok (M, F) /\ diffusionSystem PI ms' sd = Ok (M', F') /\ exact_solver M (solver M) /\ exact_solver M' (solver M') /\
  (exists o r1, diffusionSolve PI solver (fun l => l) no_modes sd r = Ok (o, r1) /\ rx_fwd r1 = [1]) /\
  (exists o r1, diffusionSolve PI solver (fun l => l) no_modes sd r' = Ok (o, r1) /\ rx_fwd r1 = [2]).
Proof.
  destruct PropsHeat.exact_exists as (solver & He). set (half := rescale 2 thin).
  assert (R1 : ready half) by apply rescale_ready, thin_ready. assert (S1 : rescaled 2 thin half) by apply rescale_rescaled, thin_ready.
  destruct (thin_system 100) as (M & F & E & Hi & HM & HF & _).
  destruct (unit_systems (with_mesh thin newReactor) (with_mesh half newReactor) (thin_solver 100) 2 1 1 thin_ready R1 S1 ltac:(lra) ltac:(cbn; lia) (conj eq_refl eq_refl) eq_refl ltac:(discriminate))
    as (M0 & F0 & M' & F' & E0 & E' & SM & SF). cbn [rx_mesh with_mesh] in E0, E'. rewrite E in E0. injection E0 as <- <-.
  cbn [rx_mesh with_mesh thin ms_geom ms_cells ms_groups dimension Nat.sub pow] in SM. rewrite Rmult_1_r in SM. change (2 * 1)%Z with 2%Z in *. pose proof SM as (_ & _ & R2 & C2 & _).
  exists solver, (with_mesh thin newReactor), (with_mesh half newReactor), (thin_solver 100), 2, M, F, M', F'. cbn zeta. cbn [rx_mesh with_mesh].
  split; [exact thin_ready|]. split; [exact R1|]. split; [exact S1|]. split; [lra|]. split; [cbn; lia|]. split; [reflexivity|]. split; [split; reflexivity|]. split; [reflexivity|]. split; [reflexivity|]. split; [reflexivity|].
  split; [exact E|]. split; [exact E'|]. split; [exact (exact_any solver M 2 He (proj1 HM) (proj2 HM) Hi)|]. split; [exact (exact_any solver M' 2 He R2 C2 (scaled_injective 2 2 ltac:(lra) M M' SM Hi))|].
  split.
  - apply (thin_run solver (fun l => l) no_modes 1 thin He ltac:(lra) thin_ready); [|reflexivity|lia].
    split; try reflexivity; [intros; ring|]. intros m Hm. cbn zeta. rewrite Rinv_1.
    assert (I : forall l, laws_times 1 l = l) by (intros l; unfold laws_times; rewrite <- (map_id l) at 2; apply map_ext; intros c; rewrite <- (map_id c) at 2; apply map_ext; intros; ring).
    rewrite !I. repeat split.
  - apply (thin_run solver (fun l => l) no_modes 2 half He ltac:(lra) R1 S1); [|lia]. intros [H|H]; revert H; [rewrite Rabs_left by lra|rewrite Rabs_right by lra]; lra.
Qed.
Print Assumptions C97_refuted.
