(* Property theorems C48: power normalisation.  [fission_rate ms phi i] is the
   volume of cell i times the sum over groups of phi times the fission cross
   section, [stored_flux ms e i] the flux of the first mode kept in material i,
   [total_power ms] the sum of stored heat source times volume (m3). *)
From Coq Require Import String ZArith List Bool Lia Reals Lra.
From Verif Require Import Base BaseLemmas NumR NumF ModelNumTools ModelEigen ModelMesh
  ModelReactor ModelDiffusion ProofsMesh ProofsDiffusion ProofsDiffusionR ProofsEigen ProofsPower PropsDiffusion.
Import ListNotations.
Local Open Scope R_scope.

(* Any list of modes, any mesh: the flux handed over is stored, and each cell
   gets the share of the requested power that its fission rate has. *)
Theorem C48_power_normalised (r : reactor R) vol (result : eigenmodesResults R) :
  let ms := rx_mesh r in let n := ms_cells ms in let modes := er_modes result in
  fissile ms -> getVolumes PI ms "cm" = Ok vol -> (1 <= zlen modes)%Z ->
  (forall k, (0 <= k < zlen modes)%Z -> (n * ms_groups ms <= vlen (snd (nth (Z.to_nat k) modes dmode)))%Z) ->
  increasing (ms_bounds ms) -> 0 <= vat (ms_bounds ms) 0 ->
  exists r', setNewHeatSource PI vol (ms_groups ms) n result r = Ok r' /\
    same_shape ms (rx_mesh r') /\ rx_power r' = rx_power r /\ rx_fwd r' = map fst modes /\
    (forall e i, (0 <= e < ms_groups ms)%Z -> (0 <= i < n)%Z ->
       stored_flux (rx_mesh r') e i = vat (snd (nth 0 modes dmode)) (i + e * n)%Z) /\
    let rate := fission_rate ms (stored_flux (rx_mesh r')) in
    (forall i, (0 <= i < n)%Z ->
       stored_heat (rx_mesh r') i * cell_volume ms i = rx_power r * rate i / rsum 0 n rate) /\
    (rsum 0 n rate <> 0 ->
       rsum 0 n (fun i => stored_heat (rx_mesh r') i * cell_volume ms i) = rx_power r).
Proof.
  intros ms n modes Hf Hv H1 Hl Hb H0.
  destruct (setNewHeatSource_normalised r vol result Hf Hv H1 Hl Hb H0) as (r' & E & Sh & HP & Hw & A & B & HN).
  exists r'. split; [exact E|]. split; [exact Sh|]. split; [exact HP|]. split; [exact Hw|]. split; [exact A|].
  destruct Sh as (c & g & b & ge & l). fold ms in c, g, b, ge, B.
  assert (V : forall i, cell_volume (rx_mesh r') i = cell_volume ms i).
  { intros. unfold cell_volume. rewrite ge, b. reflexivity. }
  assert (Rt : forall i, (0 <= i < n)%Z -> fission_rate (rx_mesh r') (stored_flux (rx_mesh r')) i =
                fission_rate ms (stored_flux (rx_mesh r')) i).
  { intros i Hi. unfold fission_rate. rewrite g, V. f_equal. apply rsum_ext. intros e He. rewrite B by exact Hi. reflexivity. }
  destruct HN as [N1 N2]. rewrite c in N1, N2. fold n in N1, N2.
  assert (Sm : rsum 0 n (fission_rate (rx_mesh r') (stored_flux (rx_mesh r'))) =
               rsum 0 n (fission_rate ms (stored_flux (rx_mesh r')))) by (apply rsum_ext; auto).
  rewrite Sm in N1, N2. split.
  - intros i Hi. rewrite <- V, <- Rt by exact Hi. apply N1, Hi.
  - intros HS. rewrite <- (N2 HS). unfold total_power. rewrite c. apply rsum_ext. intros. rewrite V. reflexivity.
Qed.
Print Assumptions C48_power_normalised.

(* The whole diffusion solver, fundamental mode: whatever the linear solver
   returns, the reactor it leaves holds the requested power. *)
Theorem C48_diffusion_solve solver sort eig (sd : solverData R) (r r' : reactor R) aL aR old :
  let ms := rx_mesh r in
  ready ms -> (2 <= ms_cells ms)%Z -> sd_energies sd = ms_groups ms -> albedos ms sd aL aR ->
  increasing (ms_bounds ms) -> 0 <= vat (ms_bounds ms) 0 ->
  (forall M b, vlen b = mrows M -> vlen (solver M b) = mrows M) ->
  sd_dir sd = FORWARD -> sd_eig sd = FUNDAMENTAL ->
  diffusionSolve PI solver sort eig sd r = Ok (old, r') ->
  let ms' := rx_mesh r' in let rate := fission_rate ms' (stored_flux ms') in
  same_shape ms ms' /\ rx_power r' = rx_power r /\ length (rx_fwd r') = 1%nat /\
  (forall i, (0 <= i < ms_cells ms')%Z ->
     stored_heat ms' i * cell_volume ms' i = rx_power r * rate i / rsum 0 (ms_cells ms') rate) /\
  (rsum 0 (ms_cells ms') rate <> 0 -> total_power ms' = rx_power r).
Proof. intros. eapply diffusion_normalised; eauto. Qed.
Print Assumptions C48_diffusion_solve.

(* three cells of 1 cm, equal fission cross sections, flux 1 2 1: the shares
   are 1/4, 1/2 and 1/4 of 8 W *)
Definition ex_power_reactor : reactor R :=
  mkReactor ex_slab 8 [] [] (mkKinetics 0 0 [] [] [] []) (0, 0%Z, 0%Z).
Definition ex_mode : R * vec R := (1, vec_of_list 0 [1; 2; 1]).

Example C48_hypotheses_met : exists vol,
  fissile ex_slab /\ getVolumes PI ex_slab "cm" = Ok vol /\ increasing (ms_bounds ex_slab) /\
  rsum 0 3 (fission_rate ex_slab (mode_flux ex_slab [ex_mode] 0)) = 4 / 100 /\
  exists r', setNewHeatSource PI vol 1 3 (mkER (vzeros 3) 1 [ex_mode] FORWARD) ex_power_reactor = Ok r' /\
    stored_heat (rx_mesh r') 1 * cell_volume ex_slab 1 = 4 /\
    total_power (rx_mesh r') = 8.
Proof.
  pose proof (ready_fissile _ ex_slab_ready) as Hf.
  assert (Hb : increasing (ms_bounds ex_slab)).
  { intros i j Hij. cbn [ex_slab ms_bounds vat vlen] in *. apply Rmult_lt_compat_r; [lra|]. apply IZR_lt. lia. }
  destruct (wp_ok _ _ (volumes_wp ex_slab "cm" ltac:(cbn; discriminate) ltac:(cbn; lia))) as (vol & Ev & _).
  exists vol. split; [exact Hf|]. split; [exact Ev|]. split; [exact Hb|].
  assert (HR : forall phi i, (0 <= i < 3)%Z -> fission_rate ex_slab phi i = phi 0%Z i / 100).
  { intros phi i Hi. unfold fission_rate. change (ms_groups ex_slab) with 1%Z.
    rewrite (rsum_one 0). destruct (ex_slab_tables i Hi) as (_ & _ & _ & Hfs & _).
    change (law_at mt_fisXS ex_slab 0 i = 1) in Hfs. rewrite Hfs.
    unfold cell_volume, body_volume. cbn [ex_slab ms_geom ms_bounds vat]. rewrite plus_IZR. field. }
  assert (HM : forall i, mode_flux ex_slab [ex_mode] 0 0 i = nth (Z.to_nat i) [1; 2; 1] 0).
  { intros. unfold mode_flux, ex_mode. cbn [ex_slab ms_cells Z.to_nat nth snd vec_of_list vat].
    rewrite Z.add_0_r. reflexivity. }
  assert (HS : rsum 0 3 (fission_rate ex_slab (mode_flux ex_slab [ex_mode] 0)) = 4 / 100).
  { rewrite (rsum_ext _ _ _ (fun i => nth (Z.to_nat i) [1; 2; 1] 0 / 100)) by (intros; rewrite HR, HM by lia; reflexivity).
    run_sums. change (Z.to_nat 0) with 0%nat; change (Z.to_nat 1) with 1%nat; change (Z.to_nat 2) with 2%nat. cbn [nth]. lra. }
  split; [exact HS|].
  destruct (setNewHeatSource_spec ex_power_reactor vol (mkER (vzeros 3) 1 [ex_mode] FORWARD) Hf Ev
     ltac:(unfold zlen; cbn; lia)
     ltac:(unfold zlen; cbn; intros k Hk; assert (k = 0)%Z as -> by lia; unfold zlen; cbn; lia))
    as (r' & E & _ & _ & _ & _ & _ & _ & _ & _ & _ & Hc).
  exists r'. split; [exact E|].
  cbn [ex_power_reactor rx_mesh rx_power er_modes] in Hc. change (ms_cells ex_slab) with 3%Z in Hc.
  rewrite HS in Hc. split.
  - destruct (Hc 1%Z ltac:(lia)) as (f & q & Em & _ & Hq). unfold stored_heat. rewrite Em. cbn [set_heat mt_heat].
    rewrite Hq, HR, HM by lia. change (Z.to_nat 1) with 1%nat. cbn [nth].
    unfold cell_volume, body_volume. cbn [ex_slab ms_geom ms_bounds vat]. rewrite plus_IZR. field.
  - destruct (setNewHeatSource_power ex_power_reactor vol (mkER (vzeros 3) 1 [ex_mode] FORWARD) Hf Ev
     ltac:(unfold zlen; cbn; lia)
     ltac:(unfold zlen; cbn; intros k Hk; assert (k = 0)%Z as -> by lia; unfold zlen; cbn; lia)
     Hb ltac:(cbn; lra)
     ltac:(cbn [ex_power_reactor rx_mesh er_modes]; change (ms_cells ex_slab) with 3%Z; rewrite HS; lra))
      as (r2 & E2 & _ & _ & HT).
    rewrite E in E2. injection E2 as <-. exact HT.
Qed.

(* Without fissions the shares are 0/0: in double precision every heat source
   becomes NaN, with no error message. *)
Definition dead_material : material f64 :=
  mkMaterial "m" 1 (f64_of_Z 20) (f64_of_Z 0) (mzeros 0 0) (mzeros 0 0) (vzeros 0) None
    [[f64_of_Z 1]] [[f64_of_Z 0]] [[f64_of_Z 1]] [[f64_of_Z 0]] [] [].
Definition dead_reactor : reactor f64 :=
  mkReactor (mkMesh (vec_of_list n0 [f64_of_Z 0; f64_of_Z 1; f64_of_Z 2]) SLAB 2 1 [dead_material; dead_material] 1 1)
    (f64_of_Z 100) [] [] (mkKinetics n0 n0 [] [] [] []) (n0, 0%Z, 0%Z).
Definition dead_outcome : res (list f64) :=
  vol <- getVolumes (f64_of_Z 3) (rx_mesh dead_reactor) "cm" ;;
  r <- setNewHeatSource (f64_of_Z 3) vol 1 2
         (er_single (vones 2) (f64_of_Z 1) FORWARD) dead_reactor ;;
  Ok (map (fun m => mt_heat m) (ms_mats (rx_mesh r))).

Theorem C48_no_fission_refuted : dead_outcome = Ok [f64_nan; f64_nan].
Proof. vm_compute. reflexivity. Qed.
Print Assumptions C48_no_fission_refuted.
