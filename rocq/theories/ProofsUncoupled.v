(* Coupled calculations without feedback: cross sections and conductivities
   that do not depend on the temperature (DoubleCalculation.cpp). *)
From Coq Require Import String ZArith List Bool Lia Reals Lra.
From Verif Require Import Base BaseLemmas NumR LinAlg Blocks ModelNumTools ModelEigen ModelMesh ModelReactor ModelDiffusion
  ModelHeat ModelSpectrum ModelKinetics ModelOutput ModelCalculation ProofsNumTools ProofsMesh ProofsDiffusion ProofsDiffusionR
  ProofsPower ProofsHeat ProofsHeatLoop ProofsHeatConstant ProofsCoupled ProofsInputG ProofsReport ProofsFrame.
Import ListNotations.
Local Open Scope Z_scope.

(* ---------- loops over the cells ---------- *)

Lemma zfor_same {S} lo hi (body body' : Z -> S -> res S) s :
  (forall i s, lo <= i < hi -> body i s = body' i s) -> zfor lo hi body s = zfor lo hi body' s.
Proof.
  intros H. rewrite !zfor_list. assert (F : Forall (fun i => lo <= i < hi) (zrange lo hi)).
  { apply Forall_forall. intros i Hi. unfold zrange in Hi. apply in_map_iff in Hi as (k & <- & Hk). apply in_seq in Hk. lia. }
  revert s. induction F as [|i l Hi F IH]; intros s; cbn [foreach]; [reflexivity|].
  rewrite H by auto. destruct (body' i s); cbn [bind]; auto.
Qed.

Section Cells.
Context {T : Type} {N : Num T}.
Notation mat_t := (material T).

(* a reading that depends on some fields of the cell only *)
Lemma lget_view {A B} (v : mat_t -> A) (P : mat_t -> Prop) (l l' : list mat_t) (g : mat_t -> res B) i :
  map v l' = map v l -> Forall P l -> (forall m m', P m -> v m' = v m -> g m' = g m) ->
  bind (lget l' i) g = bind (lget l i) g.
Proof.
  intros E F H. unfold lget. destruct (0 <=? i); [|reflexivity].
  assert (En : option_map v (nth_error l' (Z.to_nat i)) = option_map v (nth_error l (Z.to_nat i))).
  { rewrite <- !nth_error_map. rewrite E. reflexivity. }
  destruct (nth_error l' (Z.to_nat i)) as [m'|], (nth_error l (Z.to_nat i)) as [m|] eqn:E2; cbn in En; try discriminate;
    [|reflexivity]. cbn [bind]. apply H; [|congruence]. apply nth_error_In in E2. rewrite Forall_forall in F. auto.
Qed.
Lemma cells_view {A S} (v : mat_t -> A) (P : mat_t -> Prop) (ms ms' : mesh T) (g : Z -> S -> mat_t -> res S) s :
  map v (ms_mats ms') = map v (ms_mats ms) -> ms_cells ms' = ms_cells ms -> Forall P (ms_mats ms) ->
  (forall i s m m', P m -> v m' = v m -> g i s m' = g i s m) ->
  zfor 0 (ms_cells ms') (fun i s => m <- lget (ms_mats ms') i ;; g i s m) s =
  zfor 0 (ms_cells ms) (fun i s => m <- lget (ms_mats ms) i ;; g i s m) s.
Proof. intros E Ec F H. rewrite Ec. apply zfor_same. intros i s' _. apply (lget_view v P); auto. Qed.

(* writing one field of the first cells: what is stored, and writing what is
   already there *)
Section Write.
Context {Q : Type}.
Variables (w : Q -> mat_t -> mat_t) (get : mat_t -> Q) (g : Z -> res Q).
Hypotheses (Hget : forall q m, get (w q m) = q) (Hsame : forall m, w (get m) m = m).
Let write n l := zfor 0 n (fun i l => q <- g i ;; upd_mat (w q) i l) l.

Lemma write_stored n l l' i : write n l = Ok l' -> 0 <= i < n ->
  exists q, g i = Ok q /\ nth_error (map get l') (Z.to_nat i) = Some q.
Proof.
  intros E Hi. unfold write in E. rewrite zfor_list in E.
  cut (forall n0, 0 <= n0 <= n -> forall a b, foreach (zrange n0 n) (fun i l => q <- g i ;; upd_mat (w q) i l) a = Ok b ->
    forall i, (0 <= i < n0 -> nth_error (map get b) (Z.to_nat i) = nth_error (map get a) (Z.to_nat i)) /\
              (n0 <= i < n -> exists q, g i = Ok q /\ nth_error (map get b) (Z.to_nat i) = Some q)).
  { intros C. apply (C 0 ltac:(lia) l l' E i). exact Hi. }
  clear l l' i E Hi. intros n0. remember (Z.to_nat (n - n0)) as k eqn:Ek. revert n0 Ek.
  induction k as [|k IH]; intros n0 Ek Hn a b E i.
  - assert (n0 = n) as -> by lia. rewrite zrange_empty in E by lia. injection E as <-. split; [reflexivity|lia].
  - rewrite zrange_step in E by lia. cbn [foreach] in E. destruct (bind_ok_inv _ _ _ E) as (c & Ec & E'). clear E.
    destruct (bind_ok_inv _ _ _ Ec) as (q & Eq & Eu). unfold upd_mat in Eu.
    destruct (bind_ok_inv _ _ _ Eu) as (m & Em & El). apply lget_inv in Em as [_ Em]. apply lset_inv in El as (_ & Hl & ->).
    destruct (IH (n0 + 1) ltac:(lia) ltac:(lia) _ _ E' i) as [I1 I2]. split.
    + intros Hi. rewrite I1 by lia. rewrite !nth_error_map. f_equal. apply list_upd_other. lia.
    + intros Hi. destruct (Z.eq_dec i n0) as [->|]; [|apply I2; lia]. exists q. split; [exact Eq|].
      rewrite I1 by lia. rewrite nth_error_map, list_upd_same by exact Hl. cbn. rewrite Hget. reflexivity.
Qed.

Lemma write_same n l : (forall i, 0 <= i < n -> exists q, g i = Ok q /\ nth_error (map get l) (Z.to_nat i) = Some q) ->
  write n l = Ok l.
Proof.
  intros H. unfold write. rewrite zfor_list.
  assert (F : Forall (fun i => 0 <= i < n) (zrange 0 n)).
  { apply Forall_forall. intros i Hi. unfold zrange in Hi. apply in_map_iff in Hi as (k & <- & Hk). apply in_seq in Hk. lia. }
  induction F as [|i r Hi F IH]; cbn [foreach]; [reflexivity|].
  destruct (H i Hi) as (q & Eq & En). rewrite Eq. cbn [bind]. rewrite nth_error_map in En.
  destruct (nth_error l (Z.to_nat i)) as [m|] eqn:Em; [|discriminate]. cbn in En. injection En as <-.
  unfold upd_mat, lget. replace (0 <=? i) with true by lia. rewrite Em. cbn [bind]. rewrite Hsame.
  assert (Hl : (Z.to_nat i < length l)%nat) by (apply nth_error_Some; congruence).
  unfold lset, inb. replace ((0 <=? i) && (i <? Z.of_nat (length l))) with true by lia. cbn [bind].
  replace (list_upd l (Z.to_nat i) m) with l; [exact IH|].
  clear -Em. revert Em. generalize (Z.to_nat i) as k. induction l as [|x l IH]; intros [|k] E; cbn in *; try discriminate.
  - congruence.
  - f_equal. apply IH. exact E.
Qed.
End Write.

Lemma setNeutronFluxes_stored t (ms ms' : mesh T) m : setNeutronFluxes t ms = Ok ms' -> 0 <= m < td1 t ->
  nth_error (map mt_flux (ms_mats ms')) (Z.to_nat m) = Some (chip1 t m).
Proof.
  intros H Hm. unfold setNeutronFluxes in H. destruct (bind_ok_inv _ _ _ H) as (l & E & H1). injection H1 as <-.
  destruct (write_stored set_flux mt_flux (fun i => Ok (chip1 t i)) ltac:(reflexivity) _ _ _ m E Hm) as (q & Eq & En).
  injection Eq as <-. exact En.
Qed.
Lemma setNeutronFluxes_same t (ms : mesh T) :
  (forall m, 0 <= m < td1 t -> nth_error (map mt_flux (ms_mats ms)) (Z.to_nat m) = Some (chip1 t m)) ->
  setNeutronFluxes t ms = Ok ms.
Proof.
  intros H. unfold setNeutronFluxes.
  rewrite (write_same set_flux mt_flux (fun i => Ok (chip1 t i)) ltac:(intros []; reflexivity)) by (intros; eauto).
  destruct ms; reflexivity.
Qed.
Lemma setHeatSources_stored v (ms ms' : mesh T) i : setHeatSources v ms = Ok ms' -> 0 <= i < vlen v ->
  nth_error (map mt_heat (ms_mats ms')) (Z.to_nat i) = Some (vat v i).
Proof.
  intros H Hi. unfold setHeatSources in H. destruct (bind_ok_inv _ _ _ H) as (l & E & H1). injection H1 as <-.
  destruct (write_stored set_heat mt_heat (fun i => vget v i) ltac:(reflexivity) _ _ _ i E Hi) as (q & Eq & En).
  rewrite (vget_ok v i) in Eq by auto. injection Eq as <-. exact En.
Qed.
Lemma setHeatSources_same v (ms : mesh T) :
  (forall i, 0 <= i < vlen v -> nth_error (map mt_heat (ms_mats ms)) (Z.to_nat i) = Some (vat v i)) ->
  setHeatSources v ms = Ok ms.
Proof.
  intros H. unfold setHeatSources.
  rewrite (write_same set_heat mt_heat (fun i => vget v i) ltac:(intros []; reflexivity)).
  - destruct ms; reflexivity.
  - intros i Hi. exists (vat v i). rewrite (vget_ok v i) by auto. auto.
Qed.
Lemma setTemperatures_stored v (ms ms' : mesh T) i : setTemperatures v ms = Ok ms' -> 0 <= i < vlen v ->
  nth_error (map mt_temp (ms_mats ms')) (Z.to_nat i) = Some (vat v i).
Proof.
  intros H Hi. unfold setTemperatures in H. destruct (bind_ok_inv _ _ _ H) as (l & E & H1). injection H1 as <-.
  destruct (write_stored set_temp mt_temp (fun i => vget v i) ltac:(reflexivity) _ _ _ i E Hi) as (q & Eq & En).
  rewrite (vget_ok v i) in Eq by auto. injection Eq as <-. exact En.
Qed.
Lemma setTemperatures_same v (ms : mesh T) :
  (forall i, 0 <= i < vlen v -> nth_error (map mt_temp (ms_mats ms)) (Z.to_nat i) = Some (vat v i)) ->
  setTemperatures v ms = Ok ms.
Proof.
  intros H. unfold setTemperatures.
  rewrite (write_same set_temp mt_temp (fun i => vget v i) ltac:(intros []; reflexivity)).
  - destruct ms; reflexivity.
  - intros i Hi. exists (vat v i). rewrite (vget_ok v i) by auto. auto.
Qed.

(* two meshes that agree in every field are the same *)
Lemma material_eq (m m' : mat_t) : laws m' = laws m -> mt_temp m' = mt_temp m -> mt_heat m' = mt_heat m ->
  mt_flux m' = mt_flux m -> mt_adj m' = mt_adj m -> mt_totflux m' = mt_totflux m -> m' = m.
Proof.
  destruct m, m'. unfold laws. cbn. intros H. injection H as -> -> -> -> -> -> -> -> ->. intros -> -> -> -> ->. reflexivity.
Qed.
Lemma mesh_eq (ms ms' : mesh T) : only_temp ms ms' -> keeps mt_temp ms ms' -> ms' = ms.
Proof.
  intros (R & K1 & K2 & K3 & K4 & K5) K6. destruct ms as [b g c e l f a], ms' as [b' g' c' e' l' f' a'].
  unfold rest in R. cbn in R. injection R as -> -> -> -> -> ->. unfold keeps in *. cbn in *. f_equal.
  revert l' K1 K2 K3 K4 K5 K6. induction l as [|m l IH]; intros [|m' l'] K1 K2 K3 K4 K5 K6; try discriminate; [reflexivity|].
  cbn [map] in *. injection K1 as A1 B1. injection K2 as A2 B2. injection K3 as A3 B3. injection K4 as A4 B4.
  injection K5 as A5 B5. injection K6 as A6 B6. f_equal; [|apply IH; assumption]. apply material_eq; auto.
  unfold laws. congruence.
Qed.
End Cells.

(* ---------- cross sections that do not depend on the temperature ---------- *)

Definition one_number (l : list R) : Prop := exists c, l = [c].
(* every cross section law of the material is one number *)
Definition flat (m : material R) : Prop :=
  Forall one_number (mt_totXS m) /\ Forall one_number (mt_fisXS m) /\ Forall one_number (mt_diff m) /\
  Forall one_number (mt_scatt m) /\ Forall one_number (mt_ni m) /\ Forall one_number (mt_chi m).
Definition flat_mesh (ms : mesh R) : Prop := Forall flat (ms_mats ms).

Lemma flat_poly ls i (x y : R) (B : Type) (k : R -> res B) : Forall one_number ls ->
  (l <- lget ls i ;; z <- poly_calc l x ;; k z) = (l <- lget ls i ;; z <- poly_calc l y ;; k z).
Proof.
  intros F. unfold lget. destruct (0 <=? i); [|reflexivity].
  destruct (nth_error ls (Z.to_nat i)) as [l|] eqn:E; [|reflexivity]. cbn [bind].
  apply nth_error_In in E. rewrite Forall_forall in F. destruct (F l E) as (c & ->).
  rewrite !poly_calc_spec. cbn [bind]. f_equal. cbn. ring.
Qed.
Lemma flat_table ls (m m' : material R) : Forall one_number ls -> mt_energies m' = mt_energies m ->
  law_table ls m' = law_table ls m.
Proof. intros F E. unfold law_table. rewrite E. apply zfor_same. intros i r _. apply flat_poly. exact F. Qed.

Section Flat.
Variables m m' : material R.
Hypotheses (F : flat m) (V : laws m' = laws m).
Ltac view := let H := fresh in pose proof V as H; unfold laws in H; injection H as En Ee Ec Et Ef Ed Es Ei Eh.
Lemma flat_total : getTotalXS m' = getTotalXS m.
Proof. view. unfold getTotalXS. rewrite Et. apply flat_table; [apply F|exact Ee]. Qed.
Lemma flat_fission : getFissionXS m' = getFissionXS m.
Proof. view. unfold getFissionXS. rewrite Ef. apply flat_table; [apply F|exact Ee]. Qed.
Lemma flat_diff : getDiffusionConstants m' = getDiffusionConstants m.
Proof. view. unfold getDiffusionConstants. rewrite Ed. apply flat_table; [apply F|exact Ee]. Qed.
Lemma flat_ni : getNi m' = getNi m.
Proof. view. unfold getNi. rewrite Ei, Ee. destruct (0 <? _); [|reflexivity]. apply flat_table; [apply F|exact Ee]. Qed.
Lemma flat_chi : getChi m' = getChi m.
Proof. view. unfold getChi. rewrite Eh, Ee. destruct (0 <? _); [|reflexivity]. apply flat_table; [apply F|exact Ee]. Qed.
Lemma flat_scatt : getScattMatrix m' = getScattMatrix m.
Proof.
  view. unfold getScattMatrix. rewrite Es, Ee. apply zfor_same. intros i r _. apply zfor_same. intros j s _.
  apply flat_poly. apply F.
Qed.
End Flat.

(* the same input, whatever the temperatures *)
Section Tables.
Variables ms ms' : mesh R.
Hypotheses (F : flat_mesh ms) (S : same_input ms ms').

Lemma same_bounds : ms_bounds ms' = ms_bounds ms. Proof. apply S. Qed.
Lemma same_geom : ms_geom ms' = ms_geom ms. Proof. apply S. Qed.
Lemma same_cells : ms_cells ms' = ms_cells ms. Proof. apply S. Qed.
Lemma same_groups : ms_groups ms' = ms_groups ms. Proof. apply S. Qed.
Lemma same_table get : (forall m m', flat m -> laws m' = laws m -> get m' = get m) ->
  xs_table get ms' = xs_table get ms.
Proof.
  intros H. unfold xs_table. rewrite same_groups, same_cells. rewrite <- same_cells at 1.
  apply (cells_view laws flat ms ms' (fun m r mt => v <- get mt ;;
    zfor 0 (ms_groups ms) (fun i r => x <- vget v i ;; mset r i m x) r)); [apply S|apply S|exact F|].
  intros i s a b Fa Hb. rewrite (H a b Fa Hb). reflexivity.
Qed.
Lemma same_tables : getTotalXSs ms' = getTotalXSs ms /\ getFissionXSs ms' = getFissionXSs ms /\
  getDiffusionConstantss ms' = getDiffusionConstantss ms /\ getNis ms' = getNis ms /\ getChis ms' = getChis ms.
Proof.
  repeat split; apply same_table; [exact flat_total|exact flat_fission|exact flat_diff|exact flat_ni|exact flat_chi].
Qed.
Lemma same_scatt : getScattMatrices ms' = getScattMatrices ms.
Proof.
  unfold getScattMatrices. rewrite same_groups, same_cells. rewrite <- same_cells at 1.
  apply (cells_view laws flat ms ms' (fun m r mt => s <- getScattMatrix mt ;;
    zfor 0 (ms_groups ms) (fun i r => zfor 0 (ms_groups ms) (fun j r =>
       x <- mget s i j ;; t3set r i j m x) r) r)); [apply S|apply S|exact F|].
  intros i s a b Fa Hb. rewrite (flat_scatt a b Fa Hb). reflexivity.
Qed.
Lemma same_volumes mpi d : getVolumes mpi ms' d = getVolumes mpi ms d.
Proof. unfold getVolumes. rewrite same_geom, same_bounds. reflexivity. Qed.
Lemma same_surfaces mpi d : getSurfaces mpi ms' d = getSurfaces mpi ms d.
Proof. unfold getSurfaces. rewrite same_geom, same_bounds. reflexivity. Qed.
Lemma same_external mpi d : getExternalSurface mpi ms' d = getExternalSurface mpi ms d.
Proof. unfold getExternalSurface. rewrite same_geom, same_bounds. reflexivity. Qed.
Lemma same_sizes d : getCellSizes ms' d = getCellSizes ms d.
Proof. unfold getCellSizes. rewrite same_cells, same_bounds. reflexivity. Qed.

Lemma same_diffusion mpi sd : diffusionSystem mpi ms' sd = diffusionSystem mpi ms sd.
Proof.
  destruct same_tables as (E1 & E2 & E3 & E4 & E5). pose proof same_scatt as E6.
  unfold diffusionSystem, newDiffCode. rewrite same_volumes, same_cells.
  destruct (sd_dir sd); [reflexivity| |]; (destruct (getVolumes mpi ms "cm") as [v| | |]; cbn [bind]; try reflexivity);
    unfold calcDiffOperatorMatrix, applyBoundaryConditions, fwdMMatrix, fwdFMatrix, adjMMatrix, adjFMatrix, fissDiagonal, getInterfaceDiff,
      getAlbedos; cbn [dc_mesh dc_albedo dc_vol dc_cells dc_en];
    rewrite E1, E2, E3, E4, E5, E6, same_geom, !same_surfaces, !same_sizes; reflexivity.
Qed.
Lemma same_spectrum mpi e3 k3 ex sq sd : spectrumSystem mpi e3 k3 ex sq ms' sd = spectrumSystem mpi e3 k3 ex sq ms sd.
Proof.
  destruct same_tables as (E1 & E2 & E3 & E4 & E5). pose proof same_scatt as E6.
  unfold spectrumSystem, newSpecCode. rewrite same_volumes, same_cells, same_geom, same_external, E1.
  unfold getBoundaries. rewrite same_bounds.
  destruct (ms_geom ms) eqn:G; try reflexivity;
  (destruct (getVolumes mpi ms "cm") as [v| | |]; cbn [bind]; try reflexivity;
   destruct (getTotalXSs ms) as [t| | |]; cbn [bind]; try reflexivity;
   destruct (getExternalSurface mpi ms "cm") as [s| | |]; cbn [bind]; try reflexivity;
   unfold vacuumCPs; cbn [sc_mesh]; rewrite same_geom, G;
   match goal with |- bind ?x _ = bind ?y _ => change y with x; destruct x as [g| | |] end; cbn [bind]; try reflexivity;
   match goal with |- bind ?x _ = bind ?y _ => change y with x; destruct x as [g'| | |] end; cbn [bind]; try reflexivity;
   match goal with |- bind ?x _ = bind ?y _ => change y with x; destruct x as [c| | |] end; cbn [bind]; try reflexivity;
   match goal with |- bind ?x _ = bind ?y _ => change y with x; destruct x as [cpm| | |] end; cbn [bind]; try reflexivity;
   unfold specMMatrix, specFMatrix; cbn [sc_mesh sc_cells sc_en]; rewrite E2, E4, E5, E6; reflexivity).
Qed.

(* what the heat sources are computed from *)
Lemma same_fundamental : keeps mt_flux ms ms' -> getFundamentalNeutronFluxes ms' = getFundamentalNeutronFluxes ms.
Proof.
  intros K. unfold getFundamentalNeutronFluxes, get_fundamental. rewrite same_groups, same_cells. rewrite <- same_cells at 1.
  apply (cells_view mt_flux (fun _ => True) ms ms' (fun m r mt =>
    zfor 0 (ms_groups ms) (fun i r => x <- mget (mt_flux mt) i 0 ;; mset r i m x) r)); [exact K|apply S|apply Forall_forall; auto|].
  intros i s a b _ Hb. rewrite Hb. reflexivity.
Qed.
End Tables.

Lemma flat_same ms ms' : flat_mesh ms -> keeps laws ms ms' -> flat_mesh ms'.
Proof.
  intros F K. unfold flat_mesh in *. unfold keeps in K. rewrite Forall_forall in *. intros m Hm.
  apply (List.in_map laws) in Hm. rewrite K in Hm. apply in_map_iff in Hm as (m0 & E & H0). specialize (F m0 H0).
  unfold laws in E. injection E as _ _ _ Et Ef Ed Es Ei Eh. unfold flat in *. rewrite <- Et, <- Ef, <- Ed, <- Es, <- Ei, <- Eh. exact F.
Qed.
Lemma only_temp_input {T} (a b : mesh T) : only_temp a b -> same_input a b.
Proof. intros (A & B & _). apply rest_input; assumption. Qed.
Lemma with_mesh_same {T} (r : reactor T) : with_mesh (rx_mesh r) r = r.
Proof. destruct r; reflexivity. Qed.

(* storing the same modes again changes nothing *)
Lemma setNewHeatSource_again mpi vol en n result (r r1 : reactor R) ms2 : flat_mesh (rx_mesh r) ->
  setNewHeatSource mpi vol en n result r = Ok r1 -> only_temp (rx_mesh r1) ms2 ->
  setNewHeatSource mpi vol en n result (with_mesh ms2 r1) = Ok (with_mesh ms2 r1).
Proof.
  intros F H O.
  unfold setNewHeatSource in *. destruct (bind_ok_inv _ _ _ H) as (t & Et & H1). rewrite Et. cbn [bind]. clear H Et.
  destruct (bind_ok_inv _ _ _ H1) as (ms1 & E1 & H2). clear H1. cbn zeta in H2.
  destruct (bind_ok_inv _ _ _ H2) as (p & Ep & H3). clear H2.
  destruct (bind_ok_inv _ _ _ H3) as (vm & Ev & H4). clear H3.
  destruct (negb (vlen p =? vlen vm)) eqn:El; [discriminate|].
  destruct (bind_ok_inv _ _ _ H4) as (ms3 & E3 & H5). clear H4. injection H5 as <-.
  set (msa := setForwardEigenmodesNumber (zlen (er_modes result)) ms1) in *.
  set (ra := with_mesh msa (with_fwd (er_eigenvalues result) (with_mesh ms1 r))) in *.
  change (rx_mesh ra) with msa in *. cbn [rx_mesh with_mesh] in O |- *.
  pose proof (setHeatSources_only _ _ _ E3) as (R3 & L3 & _ & K3 & _).
  pose proof O as (RO & LO & HO & FO & _).
  assert (Sa : same_input msa ms2).
  { eapply same_input_trans; [apply rest_input; [exact R3|exact L3]|]. apply rest_input; assumption. }
  assert (Fa : flat_mesh msa).
  { apply (flat_same (rx_mesh r)); [exact F|]. exact (setNeutronFluxes_keeps laws _ _ _ ltac:(reflexivity) E1). }
  assert (Kf : keeps mt_flux msa ms2) by (unfold keeps in *; exact (eq_trans FO K3)).
  rewrite (setNeutronFluxes_same t ms2).
  2:{ intros m Hm. unfold keeps in Kf. rewrite Kf. exact (setNeutronFluxes_stored _ _ _ _ E1 Hm). }
  cbn [bind]. cbn zeta.
  set (r2 := with_mesh ms2 (with_mesh ms3 ra)).
  assert (Er : with_fwd (er_eigenvalues result) (with_mesh ms2 r2) = r2) by reflexivity.
  assert (En : setForwardEigenmodesNumber (zlen (er_modes result)) ms2 = ms2).
  { assert (N2 : ms_nfwd ms2 = zlen (er_modes result)).
    { unfold rest in R3, RO. unfold msa in R3. cbn [setForwardEigenmodesNumber ms_bounds ms_geom ms_cells ms_groups ms_nfwd ms_nadj] in R3. injection R3 as _ _ _ _ X _. injection RO as _ _ _ _ Y _. rewrite Y, X. reflexivity. }
    rewrite <- N2. destruct ms2; reflexivity. }
  rewrite Er. cbn [rx_mesh r2 with_mesh]. rewrite En. change (with_mesh ms2 r2) with r2.
  assert (Epp : calcFissionPowerDistribution vol n r2 = Ok p).
  { rewrite <- Ep. unfold calcFissionPowerDistribution. cbn [rx_mesh r2 ra with_mesh rx_power with_fwd].
    rewrite (same_fundamental msa ms2 Sa Kf). destruct (same_tables msa ms2 Fa Sa) as (_ & -> & _). reflexivity. }
  rewrite Epp. cbn [bind]. change (rx_mesh r2) with ms2. rewrite (same_volumes msa ms2 Sa). change (getVolumes mpi msa "m" = Ok vm) in Ev. rewrite Ev. cbn [bind]. rewrite El.
  rewrite setHeatSources_same; [reflexivity|].
  intros i Hi. unfold keeps in HO. rewrite HO. exact (setHeatSources_stored _ _ _ _ E3 Hi).
Qed.

Section Solvers.
Variables (mpi : R) (solver : mat R -> vec R -> vec R) (sort : list (R * vec R) -> list (R * vec R))
  (eig : mat R -> mat R -> vec (R * R) * mat (R * R)) (croots : list R -> list (R * R)) (expint3 bickley3f nexp nsqrt : R -> R).
Let solve := solve1 mpi solver sort eig croots expint3 bickley3f nexp nsqrt.

(* the solvers that find neutron fluxes and heat sources *)
Definition neutronic (sd : solverData R) : Prop := sd_kind sd = TRANSPORT \/ (sd_kind sd = DIFFUSION /\ sd_dir sd = FORWARD).

(* solving twice, with other temperatures the second time *)
Lemma neutronic_again sd (r r1 : reactor R) old ms2 old2 : neutronic sd -> flat_mesh (rx_mesh r) ->
  solve sd r = Ok (old, r1) -> only_temp (rx_mesh r1) ms2 -> getHeatSources ms2 = Ok old2 ->
  solve sd (with_mesh ms2 r1) = Ok (old2, with_mesh ms2 r1).
Proof.
  intros Hn F H O Eo. pose proof (solve_same _ _ _ _ _ _ _ _ _ _ _ _ _ H) as (S1 & _).
  pose proof (same_input_trans _ _ _ S1 (only_temp_input _ _ O)) as S.
  unfold solve, solve1 in *. destruct Hn as [Ek|[Ek Ed]]; rewrite Ek in *.
  - unfold spectrumSolve in *. cbn [rx_mesh with_mesh]. rewrite Eo. cbn [bind].
    destruct (bind_ok_inv _ _ _ H) as (o & _ & H1). rewrite (same_spectrum _ _ F S).
    destruct (bind_ok_inv _ _ _ H1) as ([[c M] G] & E1 & H2). rewrite E1. cbn [bind].
    destruct (bind_ok_inv _ _ _ H2) as (vol & E2 & H3). rewrite (same_volumes _ _ S), E2. cbn [bind].
    destruct (bind_ok_inv _ _ _ H3) as (res & E3 & H4). rewrite E3. cbn [bind].
    destruct (bind_ok_inv _ _ _ H4) as (r2 & E4 & H5). injection H5 as _ <-.
    rewrite (same_cells _ _ S). rewrite (setNewHeatSource_again _ _ _ _ _ _ _ _ F E4 O). reflexivity.
  - unfold diffusionSolve in *. cbn [rx_mesh with_mesh]. rewrite Eo. cbn [bind].
    destruct (bind_ok_inv _ _ _ H) as (o & _ & H1).
    destruct (bind_ok_inv _ _ _ H1) as (vol & E2 & H2). rewrite (same_volumes _ _ S), E2. cbn [bind].
    rewrite (same_diffusion _ _ F S).
    destruct (bind_ok_inv _ _ _ H2) as ([M G] & E1 & H3). rewrite E1. cbn [bind].
    destruct (bind_ok_inv _ _ _ H3) as (res & E3 & H4). rewrite E3. cbn [bind]. rewrite Ed in *.
    destruct (bind_ok_inv _ _ _ H4) as (r2 & E4 & H5). injection H5 as _ <-.
    rewrite (same_cells _ _ S). rewrite (setNewHeatSource_again _ _ _ _ _ _ _ _ F E4 O). reflexivity.
Qed.

End Solvers.

(* relaxing a value against itself *)
Lemma relax_same_value par (new old : vec R) : vlen new = vlen old -> (forall i, vat new i = vat old i) ->
  exists v, relax par new old = Ok v /\ vlen v = vlen new /\ forall i, vat v i = vat new i.
Proof.
  intros El E. unfold relax. rewrite El, Z.eqb_refl. eexists. split; [reflexivity|]. split; [cbn; congruence|].
  intros i. cbn [vat]. rewrite E. rnum. ring.
Qed.
Lemma heat_cell (ms : mesh R) v i : 0 <= ms_cells ms -> ms_cells ms <= zlen (ms_mats ms) -> getHeatSources ms = Ok v ->
  0 <= i < vlen v -> nth_error (map mt_heat (ms_mats ms)) (Z.to_nat i) = Some (vat v i).
Proof.
  intros H0 Hl E Hi. destruct (wp_ok _ _ (getHeatSources_wp dm0 ms H0 Hl)) as (w & Ew & Lw & Hw).
  assert (w = v) by congruence. subst w. rewrite Hw by lia. rewrite nth_error_map.
  unfold zlen in Hl. rewrite (nth_error_nth' _ dm0) by lia. reflexivity.
Qed.
Lemma temp_cell (ms : mesh R) v i : 0 <= ms_cells ms -> ms_cells ms <= zlen (ms_mats ms) -> getTemperatures ms "C" = Ok v ->
  0 <= i < vlen v -> nth_error (map mt_temp (ms_mats ms)) (Z.to_nat i) = Some (vat v i).
Proof.
  intros H0 Hl E Hi. destruct (wp_ok _ _ (getTemperatures_wp dm0 ms "C" H0 Hl)) as (w & Ew & Lw & Hw).
  assert (w = v) by congruence. subst w. rewrite Hw by lia. rewrite nth_error_map.
  unfold zlen in Hl. rewrite (nth_error_nth' _ dm0) by lia. reflexivity.
Qed.
Lemma relaxPowers_same par (r : reactor R) old : 0 <= ms_cells (rx_mesh r) -> ms_cells (rx_mesh r) <= zlen (ms_mats (rx_mesh r)) ->
  getHeatSources (rx_mesh r) = Ok old -> relaxPowers par old r = Ok r.
Proof.
  intros H0 Hl E. unfold relaxPowers. rewrite E. cbn [bind].
  destruct (relax_same_value par old old eq_refl ltac:(auto)) as (v & -> & L & V). cbn [bind].
  rewrite setHeatSources_same; [cbn [bind]; rewrite with_mesh_same; reflexivity|].
  intros i Hi. rewrite V. apply heat_cell; auto. lia.
Qed.
Lemma relaxTemperatures_same par (r : reactor R) old : 0 <= ms_cells (rx_mesh r) -> ms_cells (rx_mesh r) <= zlen (ms_mats (rx_mesh r)) ->
  getTemperatures (rx_mesh r) "C" = Ok old -> relaxTemperatures par old r = Ok r.
Proof.
  intros H0 Hl E. unfold relaxTemperatures. rewrite E. cbn [bind].
  destruct (relax_same_value par old old eq_refl ltac:(auto)) as (v & -> & L & V). cbn [bind].
  rewrite setTemperatures_same; [cbn [bind]; rewrite with_mesh_same; reflexivity|].
  intros i Hi. rewrite V. apply temp_cell; auto. lia.
Qed.

(* ---------- heat conduction ---------- *)
Local Open Scope R_scope.

Lemma keeps_nth {A} (f : material R -> A) (a b : mesh R) i : keeps f a b -> (0 <= i < zlen (ms_mats a))%Z ->
  f (cell_material b i) = f (cell_material a i).
Proof.
  intros K Hi. unfold keeps in K. unfold cell_material. pose proof (f_equal (@length A) K) as L. rewrite !map_length in L.
  unfold zlen in Hi. rewrite <- !(map_nth f). rewrite K. apply nth_indep. rewrite map_length. lia.
Qed.
Lemma only_temp_reheated (a b : mesh R) : (ms_cells a <= zlen (ms_mats a))%Z -> only_temp a b -> reheated a b.
Proof.
  intros Hl (Rr & K1 & K2 & K3 & K4 & K5). unfold rest in Rr. injection Rr as E1 E2 E3 E4 _ _.
  split; [|].
  - repeat split; auto. unfold keeps in K2. pose proof (f_equal (@length _) K2) as L. rewrite !map_length in L. exact L.
  - intros i Hi. apply material_eq; cbn [set_temp mt_temp mt_heat mt_flux mt_adj mt_totflux];
      try (apply keeps_nth; [assumption|lia]); try reflexivity.
    rewrite (keeps_nth laws a b i K1) by lia. reflexivity.
Qed.

Section Heat.
Variables (solver : mat R -> vec R -> vec R) (sd : solverData R) (L Rt : bc).
Hypotheses (Hb : boundaries sd L Rt) (He : exact solver) (Ha : 0 < sd_acc sd) (Hm : (2 <= sd_max sd)%Z).

(* what the calculation of the temperatures needs *)
Definition heatable (ms : mesh R) : Prop :=
  conducting ms /\ constant_conductivity ms /\ good_geometry ms /\ well_posed ms L Rt /\ zlen (ms_mats ms) = ms_cells ms.

Lemma heat_anywhere (r1 r2 : reactor R) old ms' : heatable (rx_mesh r1) -> only_temp (rx_mesh r1) ms' ->
  heatSolve PI solver sd r1 = Ok (old, r2) ->
  exists old', getTemperatures ms' "C" = Ok old' /\ heatSolve PI solver sd (with_mesh ms' r1) = Ok (old', r2).
Proof.
  intros (Hc & Hk & Hg & Hw & Hl) O E. set (ms := rx_mesh r1) in *.
  pose proof (only_temp_reheated ms ms' ltac:(lia) O) as Rh.
  destruct (constant_solve solver sd L Rt r1 Hc Hk Hg Hb He Hw Ha Hm) as (o1 & ms2 & _ & Es & R2 & Sol2). fold ms in R2, Sol2.
  rewrite E in Es. injection Es as _ ->.
  pose proof (reheated_conduction ms ms' Hc Hk Rh) as S. pose proof Hc as (_ & Hn & _).
  destruct (reheated_facts ms ms' Rh Hc) as (Hc' & Ec & Eb & Eg & F').
  assert (Hk' : constant_conductivity ms').
  { intros i Hi. rewrite Ec in Hi. destruct (F' i Hi) as (_ & _ & ->). apply Hk. exact Hi. }
  assert (Hg' : good_geometry ms') by (unfold good_geometry; rewrite Eb; exact Hg).
  assert (Hw' : well_posed ms' L Rt) by (unfold well_posed; rewrite (same_slab ms ms' S); exact Hw).
  destruct (constant_solve solver sd L Rt (with_mesh ms' r1) Hc' Hk' Hg' Hb He Hw' Ha Hm) as (o3 & ms3 & Eo & Es3 & R3 & Sol3).
  cbn [rx_mesh with_mesh] in *.
  exists o3. split; [exact Eo|]. rewrite Es3. do 2 f_equal.
  destruct (heatSolve_only _ _ _ _ _ _ E) as (a & Ea & O2). apply (f_equal rx_mesh) in Ea. cbn in Ea. subst a.
  destruct (heatSolve_only _ _ _ _ _ _ Es3) as (a & Ea & O3). apply (f_equal rx_mesh) in Ea. cbn in Ea. subst a. cbn [rx_mesh with_mesh] in O3.
  assert (T : forall i, (0 <= i < ms_cells ms)%Z -> temp ms3 i = temp ms2 i).
  { apply (injective_equal _ (fullmat ms L Rt)).
    - apply well_posed_injective; auto. apply (good_physical ms ms Hc (constant_good ms Hk) Hg (reheated_refl ms)).
    - intros i Hi. rewrite Sol2 by auto. rewrite <- (reheated_source ms ms' L Rt i Hc Hk Rh Hi), <- Sol3 by lia.
      rewrite Ec. unfold app. apply rsum_ext. intros j Hj.
      rewrite (same_fullmat ms ms' L L Rt Rt i j S Hn (same_bc_refl L) (same_bc_refl Rt) Hi Hj). reflexivity. }
  assert (O23 : only_temp ms2 ms3).
  { clear - O O2 O3. unfold ms in *. unfold only_temp, keeps in *.
    destruct O as (? & ? & ? & ? & ? & ?), O2 as (? & ? & ? & ? & ? & ?), O3 as (? & ? & ? & ? & ? & ?).
    repeat split; etransitivity; eauto; etransitivity; eauto. }
  assert (ms3 = ms2) as ->; [|reflexivity]. apply mesh_eq; [exact O23|]. unfold keeps.
  assert (L2 : length (ms_mats ms2) = length (ms_mats ms)) by apply R2.
  assert (L3 : length (ms_mats ms3) = length (ms_mats ms2)).
  { destruct O23 as (_ & K & _). pose proof (f_equal (@length _) K) as X. rewrite !map_length in X. exact X. }
  apply (nth_ext _ _ (mt_temp dm0) (mt_temp dm0)); [rewrite !map_length; exact L3|].
  intros k Hk0. rewrite map_length in Hk0. rewrite !(map_nth mt_temp). unfold zlen in Hl.
  specialize (T (Z.of_nat k) ltac:(lia)). unfold temp, cell_material in T. rewrite !Nat2Z.id in T. exact T.
Qed.
End Heat.

(* ---------- what is printed ---------- *)
Section Print.
Variables (sd : solverData R) (r1 : reactor R) (ms2 : mesh R).
Hypotheses (Hn : neutronic sd) (O : only_temp (rx_mesh r1) ms2).
Lemma same_heat : getHeatSources ms2 = getHeatSources (rx_mesh r1).
Proof.
  destruct O as (Rr & _ & K & _). unfold rest in Rr. injection Rr as _ _ Ec _ _ _. unfold getHeatSources. rewrite Ec. rewrite <- Ec at 1.
  apply (cells_view mt_heat (fun _ => True) (rx_mesh r1) ms2 (fun i r m => vset r i (mt_heat m))); [exact K|exact Ec|apply Forall_forall; auto|].
  intros i s a b _ Hb. rewrite Hb. reflexivity.
Qed.
Lemma print_same level : printResults sd level (with_mesh ms2 r1) = printResults sd level r1.
Proof.
  assert (Ef : getFundamentalNeutronFluxes ms2 = getFundamentalNeutronFluxes (rx_mesh r1)).
  { apply same_fundamental; [apply only_temp_input; exact O|apply O]. }
  unfold printResults. destruct Hn as [Ek|[Ek Ed]]; rewrite Ek; [|rewrite Ed];
    unfold printForward, printPower, getKFactor; cbn [rx_mesh with_mesh rx_fwd]; rewrite Ef, same_heat; reflexivity.
Qed.
Lemma parameter_same : mainParameter sd (with_mesh ms2 r1) = mainParameter sd r1.
Proof. unfold mainParameter. destruct Hn as [Ek|[Ek Ed]]; rewrite Ek; reflexivity. Qed.
End Print.
Lemma power_level (r : reactor R) a l : printPower CRITICAL r = Ok a -> exists b, printPower l r = Ok b.
Proof.
  unfold printPower. intros H. destruct (bind_ok_inv _ _ _ H) as (p & -> & H1). cbn [bind].
  destruct (bind_ok_inv _ _ _ H1) as (m & -> & _). cbn [bind]. destruct (is_greater m n0); eexists; reflexivity.
Qed.
Lemma forward_level (r : reactor R) a l : printForward CRITICAL r = Ok a -> exists b, printForward l r = Ok b.
Proof.
  unfold printForward. intros H. destruct (bind_ok_inv _ _ _ H) as (p & -> & H1). cbn [bind].
  destruct (bind_ok_inv _ _ _ H1) as (m & -> & _). cbn [bind]. eexists; reflexivity.
Qed.
Lemma print_level (sd : solverData R) r a l : neutronic sd \/ sd_kind sd = HEAT ->
  printResults sd CRITICAL r = Ok a -> exists b, printResults sd l r = Ok b.
Proof.
  unfold printResults. intros [[Ek|[Ek Ed]]|Ek] H; rewrite Ek in *.
  - destruct (bind_ok_inv _ _ _ H) as (x & Ex & H1). destruct (bind_ok_inv _ _ _ H1) as (y & Ey & _).
    destruct (forward_level _ _ l Ex) as (x' & ->). destruct (power_level _ _ l Ey) as (y' & ->). cbn [bind]. eexists; reflexivity.
  - rewrite Ed in *. destruct (bind_ok_inv _ _ _ H) as (x & Ex & H1). destruct (bind_ok_inv _ _ _ H1) as (y & Ey & _).
    destruct (forward_level _ _ l Ex) as (x' & ->). destruct (power_level _ _ l Ey) as (y' & ->). cbn [bind]. eexists; reflexivity.
  - destruct (bind_ok_inv _ _ _ H) as (x & -> & _). cbn [bind]. eexists; reflexivity.
Qed.
