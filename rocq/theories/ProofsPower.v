(* Power normalisation (BaseDiffusionCode.cpp, BaseSpectrumCode.cpp) and
   relaxation. *)
From Coq Require Import String ZArith List Bool Lia Reals Lra.
From Verif Require Import Base BaseLemmas NumR Blocks ModelNumTools ModelEigen ModelMesh ModelReactor
  ModelDiffusion ProofsMesh ProofsDiffusion ProofsDiffusionR ProofsEigen.
Import ListNotations.
Local Open Scope Z_scope.

Section Generic.
Context {T : Type} {N : Num T}.

(* the t3set loops of modes_tensor *)
Lemma modes_tensor_wp (en n : Z) (modes : list (T * vec T)) d :
  0 <= en -> 0 <= n ->
  (forall k, 0 <= k < zlen modes -> n * en <= vlen (snd (nth (Z.to_nat k) modes d))) ->
  wp (modes_tensor en n modes) (fun t => td0 t = en /\ td1 t = n /\ td2 t = zlen modes /\
    forall e m k, 0 <= e < en -> 0 <= m < n -> 0 <= k < zlen modes ->
      t3_at t e m k = vat (snd (nth (Z.to_nat k) modes d)) (m + e * n)).
Proof.
  intros He Hn Hv. unfold modes_tensor.
  set (V := fun e m k => vat (snd (nth (Z.to_nat k) modes d)) (m + e * n)).
  eapply (zfor_wp' (fun k t => td0 t = en /\ td1 t = n /\ td2 t = zlen modes /\
    forall e m k', 0 <= e < en -> 0 <= m < n -> 0 <= k' < k -> t3_at t e m k' = V e m k')).
  - apply zlen_nonneg.
  - repeat split; auto. intros; lia.
  - intros k t Hk (D0 & D1 & D2 & H).
    eapply (zfor_wp' (fun i t => td0 t = en /\ td1 t = n /\ td2 t = zlen modes /\
      (forall e m k', 0 <= e < en -> 0 <= m < n -> 0 <= k' < k -> t3_at t e m k' = V e m k') /\
      forall e m, 0 <= e < en -> 0 <= m < i -> t3_at t e m k = V e m k)).
    + lia.
    + repeat split; auto. intros; lia.
    + clear t D0 D1 D2 H. intros i t Hi (D0 & D1 & D2 & H1 & H2).
      eapply (zfor_wp' (fun j t => td0 t = en /\ td1 t = n /\ td2 t = zlen modes /\
        (forall e m k', 0 <= e < en -> 0 <= m < n -> 0 <= k' < k -> t3_at t e m k' = V e m k') /\
        (forall e m, 0 <= e < en -> 0 <= m < i -> t3_at t e m k = V e m k) /\
        forall e, 0 <= e < j -> t3_at t e i k = V e i k)).
      * lia.
      * repeat split; auto. intros; lia.
      * clear t D0 D1 D2 H1 H2. intros j t Hj (D0 & D1 & D2 & H1 & H2 & H3).
        rewrite (lget_ok modes k d) by lia. cbn [bind].
        specialize (Hv k Hk).
        rewrite vget_ok by nia. cbn [bind]. rewrite t3set_ok by lia. cbn.
        repeat split; auto.
        -- intros e m k' X Y W. replace (k' =? k) with false by lia. rewrite andb_false_r. auto.
        -- intros e m X Y. replace (m =? i) with false by lia. rewrite andb_false_r. cbn. auto.
        -- intros e X. rewrite !Z.eqb_refl, !andb_true_r.
           destruct (Z.eqb_spec e j) as [->|]; [reflexivity|]. apply H3; lia.
      * clear t D0 D1 D2 H1 H2. intros t (D0 & D1 & D2 & H1 & H2 & H3). repeat split; auto.
        intros e m X Y. destruct (Z.eq_dec m i) as [->|]; auto. apply H2; lia.
    + clear t D0 D1 D2 H. intros t (D0 & D1 & D2 & H1 & H2). repeat split; auto.
      intros e m k' X Y W. destruct (Z.eq_dec k' k) as [->|]; auto. apply H1; lia.
  - intros t H. exact H.
Qed.

(* relaxation acts cell by cell on a stored field *)
Lemma relax_ok par (new old : vec T) : vlen new = vlen old ->
  relax par new old = Ok (mkvec (vlen new) (fun i => vat new i [*] par [+] vat old i [*] (n1 [-] par))).
Proof. intros H. unfold relax. rewrite (proj2 (Z.eqb_eq _ _) H). reflexivity. Qed.

End Generic.

Local Open Scope R_scope.

(* the part of the mesh no solver changes *)
Definition same_shape (ms ms' : mesh R) : Prop :=
  ms_cells ms' = ms_cells ms /\ ms_groups ms' = ms_groups ms /\ ms_bounds ms' = ms_bounds ms /\
  ms_geom ms' = ms_geom ms /\ length (ms_mats ms') = length (ms_mats ms).

Lemma same_shape_refl ms : same_shape ms ms.
Proof. repeat split. Qed.
Lemma same_shape_trans a b c : same_shape a b -> same_shape b c -> same_shape a c.
Proof. unfold same_shape. intuition congruence. Qed.

(* volume of cell i in cubic metres *)
Definition cell_volume (ms : mesh R) (i : Z) : R :=
  body_volume (ms_geom ms) (vat (ms_bounds ms) (i + 1)) - body_volume (ms_geom ms) (vat (ms_bounds ms) i).

(* total power stored in the mesh: integral of the heat sources *)
Definition stored_heat (ms : mesh R) (i : Z) : R := mt_heat (cell_material ms i).
Definition total_power (ms : mesh R) : R :=
  rsum 0 (ms_cells ms) (fun i => stored_heat ms i * cell_volume ms i).

(* fissions per second in cell i for the flux phi *)
Definition fission_rate (ms : mesh R) (phi : Z -> Z -> R) (i : Z) : R :=
  rsum 0 (ms_groups ms) (fun e => phi e i * law_at mt_fisXS ms e i) * cell_volume ms i.

(* what the power normalisation needs from the mesh *)
Definition fissile (ms : mesh R) : Prop :=
  ms_geom ms <> GeomUNDEFINED /\ (0 <= ms_cells ms)%Z /\ (ms_cells ms + 1 = vlen (ms_bounds ms))%Z /\
  (0 <= ms_groups ms)%Z /\ (ms_cells ms <= zlen (ms_mats ms))%Z /\
  forall m, (0 <= m < ms_cells ms)%Z ->
    mt_energies (cell_material ms m) = ms_groups ms /\
    (ms_groups ms <= zlen (mt_fisXS (cell_material ms m)))%Z.

Lemma ready_fissile ms : ready ms -> fissile ms.
Proof.
  intros (A & B & C & D & E & F). split; [auto|]. split; [auto|]. split; [auto|]. split; [auto|]. split; [auto|].
  intros m Hm. destruct (F m Hm) as (? & ? & ? & _). auto.
Qed.

Definition dmode : R * vec R := (0, vzeros 0).
Definition mode_flux (ms : mesh R) (modes : list (R * vec R)) (k e m : Z) : R :=
  vat (snd (nth (Z.to_nat k) modes dmode)) (m + e * ms_cells ms).

(* what setNewHeatSource leaves in cell i *)
Definition flux_of_modes (ms : mesh R) (modes : list (R * vec R)) (i : Z) (f : mat R) : Prop :=
  mrows f = ms_groups ms /\ mcols f = zlen modes /\
  forall e k, (0 <= e < ms_groups ms)%Z -> (0 <= k < zlen modes)%Z -> mat_at f e k = mode_flux ms modes k e i.

Lemma setNewHeatSource_spec (r : reactor R) vol (result : eigenmodesResults R) :
  let ms := rx_mesh r in let n := ms_cells ms in let modes := er_modes result in
  fissile ms -> getVolumes PI ms "cm" = Ok vol -> (1 <= zlen modes)%Z ->
  (forall k, (0 <= k < zlen modes)%Z -> (n * ms_groups ms <= vlen (snd (nth (Z.to_nat k) modes dmode)))%Z) ->
  let rate := fission_rate ms (mode_flux ms modes 0) in
  exists r', setNewHeatSource PI vol (ms_groups ms) n result r = Ok r' /\
    same_shape ms (rx_mesh r') /\ rx_fwd r' = er_eigenvalues result /\
    rx_adj r' = rx_adj r /\ rx_power r' = rx_power r /\ rx_kin r' = rx_kin r /\ rx_ext r' = rx_ext r /\
    ms_nfwd (rx_mesh r') = zlen modes /\ ms_nadj (rx_mesh r') = ms_nadj ms /\
    (forall i, (n <= i)%Z -> cell_material (rx_mesh r') i = cell_material ms i) /\
    forall i, (0 <= i < n)%Z -> exists f q,
      cell_material (rx_mesh r') i = set_heat q (set_flux f (cell_material ms i)) /\
      flux_of_modes ms modes i f /\
      q = rx_power r * rate i / rsum 0 n rate / cell_volume ms i.
Proof.
  intros ms n modes (Hg & Hc & Hl & He & Hm & Hmat) Hvol Hmodes Hlen rate.
  pose proof (zlen_nonneg modes) as Hz.
  destruct (wp_ok _ _ (modes_tensor_wp (ms_groups ms) n modes dmode He Hc Hlen))
    as (t & Et & D0 & D1 & D2 & Ht).
  unfold setNewHeatSource. fold ms n modes. rewrite Et. cbn [bind].
  destruct (wp_ok _ _ (setFluxes_wp dm0 set_flux t ms ltac:(lia) ltac:(unfold zlen in *; lia)))
    as (ms1 & E1 & c1 & g1 & f1 & a1 & l1 & h1).
  unfold setNeutronFluxes. rewrite E1. cbn [bind].
  assert (Eb : ms_bounds ms1 = ms_bounds ms /\ ms_geom ms1 = ms_geom ms).
  { revert E1. destruct (zfor _ _ _ _) as [l| | |]; cbn; try discriminate. intros H; injection H as <-. auto. }
  destruct Eb as [b1 ge1].
  set (r1 := with_mesh _ (with_fwd _ _)).
  assert (Ems1 : rx_mesh r1 = setForwardEigenmodesNumber (zlen modes) ms1) by reflexivity.
  assert (Hmat1 : forall m, (0 <= m < n)%Z ->
     cell_material (rx_mesh r1) m = set_flux (chip1 t m) (cell_material ms m)).
  { intros m Hmm. unfold cell_material. cbn [rx_mesh r1 with_mesh setForwardEigenmodesNumber ms_mats].
    change (ms_mats (rx_mesh (with_fwd (er_eigenvalues result) (with_mesh ms1 r)))) with (ms_mats ms1).
    unfold zlen in *. rewrite h1 by lia. rewrite Z2Nat.id by lia.
    replace (m <? td1 t)%Z with true by lia. reflexivity. }
  unfold calcFissionPowerDistribution.
  assert (W1 := get_fundamental_wp dm0 mt_flux (rx_mesh r1)).
  rewrite Ems1 in W1. cbn [setForwardEigenmodesNumber ms_cells ms_groups ms_mats] in W1.
  specialize (W1 ltac:(lia) ltac:(lia) ltac:(unfold zlen in *; lia)).
  assert (Hc1 : forall m, (0 <= m < n)%Z -> nth (Z.to_nat m) (ms_mats ms1) dm0 = set_flux (chip1 t m) (cell_material ms m)).
  { intros m Hmm. apply (Hmat1 m Hmm). }
  specialize (W1 ltac:(intros m X; rewrite c1 in X; rewrite Hc1 by (unfold n; lia); cbn; lia)).
  destruct (wp_ok _ _ W1) as (fl & Efl & Rfl & Cfl & Hfl).
  assert (Efl' : getFundamentalNeutronFluxes (rx_mesh r1) = Ok fl) by (rewrite Ems1; exact Efl).
  rewrite Efl'. cbn [bind].
  assert (W2 := table_wp dm0 mt_fisXS (rx_mesh r1)).
  rewrite Ems1 in W2. cbn [setForwardEigenmodesNumber ms_cells ms_groups ms_mats] in W2.
  specialize (W2 ltac:(lia) ltac:(lia) ltac:(unfold zlen in *; lia)).
  specialize (W2 ltac:(intros m X; cbn zeta; rewrite c1 in X; rewrite Hc1 by (unfold n; lia);
     destruct (Hmat m X) as [X1 X2]; cbn [set_flux mt_energies mt_fisXS]; rewrite X1, g1; auto)).
  destruct (wp_ok _ _ W2) as (fi & Efi & Rfi & Cfi & Hfi).
  assert (Efi' : getFissionXSs (rx_mesh r1) = Ok fi) by (rewrite Ems1; exact Efi).
  rewrite Efi'. cbn [bind].
  destruct (wp_ok _ _ (volumes_wp ms "cm" Hg ltac:(lia))) as (vc & Evc & Lvc & Hvc).
  rewrite Hvol in Evc. injection Evc as <-.
  rewrite Rfl, Rfi, Cfl, Cfi, c1. replace (ms_cells ms =? vlen vol)%Z with true by lia.
  rewrite !Z.eqb_refl. cbn [andb negb].
  set (powers := mkvec (vlen vol) _).
  set (C := unit_factor "cm" (100 ^ dimension (ms_geom ms))).
  assert (HC : 0 < C).
  { unfold C, unit_factor. cbn [String.eqb Ascii.eqb Bool.eqb]. apply pow_lt. lra. }
  assert (Hp : forall i, (0 <= i < n)%Z -> vat powers i = rate i * C).
  { intros i Hi. cbn [vat powers]. rewrite (Hvc i) by (unfold n in *; lia). fold C.
    change (body_volume (ms_geom ms) (vat (ms_bounds ms) (i + 1)) - body_volume (ms_geom ms) (vat (ms_bounds ms) i)) with (cell_volume ms i).
    unfold rate, fission_rate.
    rnum. rewrite <- Rmult_assoc. f_equal. f_equal. rewrite g1. apply rsum_ext. intros e Hee.
    rewrite Hfl, Hfi by (cbn; lia). rewrite Hc1 by exact Hi. cbn [set_flux mt_flux mt_fisXS mt_temp].
    f_equal. cbn [chip1 mat_at]. rewrite Ht by lia. reflexivity. }
  assert (HS : vsum powers = rsum 0 n rate * C).
  { unfold vsum. rewrite <- rsum_scal_r. cbn [vlen powers]. replace (vlen vol) with n by (unfold n; lia).
    apply rsum_ext. intros k Hk. exact (Hp k Hk). }
  destruct (wp_ok _ _ (vfill n 0 n (fun i => rx_power r * vat powers i / vsum powers)
     (fun i p => x <- vget powers i ;; vset p i (rx_power r1 [*] x [/] vsum powers)) (vzeros n)
     Hc ltac:(lia) ltac:(lia) eq_refl
     ltac:(intros i v Hi Lv; cbv beta; rewrite (vget_ok powers) by (cbn [vlen powers]; unfold n in *; lia); reflexivity)))
    as (p & Ep & Lp & Hpp).
  rewrite Ep. cbn [bind].
  destruct (wp_ok _ _ (volumes_wp (rx_mesh r1) "m" ltac:(rewrite Ems1; cbn; congruence) ltac:(rewrite Ems1; cbn; rewrite b1; lia)))
    as (vm & Evm & Lvm & Hvm).
  rewrite Evm. cbn [bind].
  rewrite Ems1 in Lvm, Hvm. cbn [setForwardEigenmodesNumber ms_bounds ms_geom] in Lvm, Hvm. rewrite b1, ge1 in *.
  replace (vlen p =? vlen vm)%Z with true by (unfold n in *; lia). cbn [negb].
  set (q := mkvec (vlen p) _).
  destruct (wp_ok _ _ (setHeatSources_wp dm0 q (rx_mesh r1) ltac:(cbn; lia)
     ltac:(cbn [vlen q]; rewrite Ems1; cbn [setForwardEigenmodesNumber ms_mats]; unfold zlen in *; lia)))
    as (ms2 & E2 & c2 & g2 & b2 & ge2 & l2 & h2).
  rewrite E2. cbn [bind].
  assert (Enf : ms_nfwd ms2 = zlen modes /\ ms_nadj ms2 = ms_nadj ms).
  { unfold setHeatSources in E2. destruct (bind_ok_inv _ _ _ E2) as (l & _ & H). injection H as <-. cbn [with_mats ms_nfwd ms_nadj]. split; [reflexivity|exact a1]. }
  rewrite Ems1 in c2, g2, b2, ge2, l2. cbn [setForwardEigenmodesNumber ms_cells ms_groups ms_bounds ms_geom ms_mats] in c2, g2, b2, ge2, l2.
  exists (with_mesh ms2 r1). split; [reflexivity|]. split.
  { repeat split; cbn [with_mesh rx_mesh]; congruence. }
  do 5 (split; [reflexivity|]). split; [apply Enf|]. split; [apply Enf|]. split.
  { intros i Hi. unfold cell_material. cbn [with_mesh rx_mesh].
    unfold zlen in *.
    destruct (Z_lt_le_dec i (Z.of_nat (length (ms_mats ms)))).
    - rewrite h2 by (rewrite Ems1; cbn [setForwardEigenmodesNumber ms_mats]; lia).
      rewrite Z2Nat.id by lia. cbn [vlen q]. replace (i <? vlen p)%Z with false by lia.
      rewrite Ems1. cbn [setForwardEigenmodesNumber ms_mats]. rewrite h1 by lia. rewrite Z2Nat.id by lia.
      replace (i <? td1 t)%Z with false by lia. reflexivity.
    - rewrite !nth_overflow by lia. reflexivity. }
  intros i Hi. exists (chip1 t i), (vat q i). split.
  { unfold cell_material at 1. cbn [with_mesh rx_mesh]. unfold zlen in *.
    rewrite h2 by (rewrite Ems1; cbn [setForwardEigenmodesNumber ms_mats]; unfold n in *; lia).
    rewrite Z2Nat.id by lia. cbn [vlen q]. replace (i <? vlen p)%Z with true by lia.
    f_equal. exact (Hmat1 i Hi). }
  split.
  { split; [exact D0|]. split; [exact D2|]. intros e k Hee Hk. cbn [chip1 mat_at]. rewrite Ht by lia. reflexivity. }
  cbn [vat q]. rewrite Hpp. replace ((0 <=? i) && (i <? n))%Z with true by lia.
  rewrite Hvm by (unfold n in *; lia).
  change (unit_factor "m" (100 ^ dimension (ms_geom ms))) with 1. rewrite Rmult_1_r.
  change (body_volume (ms_geom ms) (vat (ms_bounds ms) (i + 1)) - body_volume (ms_geom ms) (vat (ms_bounds ms) i)) with (cell_volume ms i).
  rewrite (Hp i Hi), HS. rnum. unfold Rdiv. rewrite Rinv_mult.
  transitivity (rx_power r * rate i * / rsum 0 n rate * / cell_volume ms i * (C * / C)).
  { cbn [rx_power r1 with_mesh with_fwd]. ring. }
  rewrite Rinv_r by lra. ring.
Qed.

(* the stored heat sources integrate to the requested power *)
Lemma setNewHeatSource_power (r : reactor R) vol (result : eigenmodesResults R) :
  let ms := rx_mesh r in let n := ms_cells ms in let modes := er_modes result in
  fissile ms -> getVolumes PI ms "cm" = Ok vol -> (1 <= zlen modes)%Z ->
  (forall k, (0 <= k < zlen modes)%Z -> (n * ms_groups ms <= vlen (snd (nth (Z.to_nat k) modes dmode)))%Z) ->
  increasing (ms_bounds ms) -> 0 <= vat (ms_bounds ms) 0 ->
  rsum 0 n (fission_rate ms (mode_flux ms modes 0)) <> 0 ->
  exists r', setNewHeatSource PI vol (ms_groups ms) n result r = Ok r' /\
    same_shape ms (rx_mesh r') /\ rx_power r' = rx_power r /\
    total_power (rx_mesh r') = rx_power r.
Proof.
  intros ms n modes Hf Hv H1 Hl Hb Hb0 HS.
  destruct (setNewHeatSource_spec r vol result Hf Hv H1 Hl) as (r' & E & Sh & _ & _ & HP & _ & _ & _ & _ & _ & H).
  exists r'. split; [exact E|]. split; [exact Sh|]. split; [exact HP|].
  destruct Hf as (Hg & Hc & Hlb & _).
  destruct Sh as (c & g & b & ge & l).
  unfold total_power. rewrite c.
  fold ms in c, b, ge, H |- *. fold n in c, H |- *. fold modes in H.
  set (rate := fission_rate ms (mode_flux ms modes 0)) in *.
  rewrite (rsum_ext _ _ _ (fun i => rx_power r / rsum 0 n rate * rate i)).
  - rewrite rsum_scal. fold n. field. exact HS.
  - intros i Hi. destruct (H i Hi) as (f & q & Em & _ & ->).
    unfold stored_heat. rewrite Em. cbn [set_heat mt_heat].
    unfold cell_volume at 2. rewrite ge, b. fold (cell_volume ms i).
    assert (0 < cell_volume ms i).
    { unfold cell_volume. apply Rlt_Rminus. apply body_volume_mono; auto.
      - apply increasing_nonneg; auto. lia.
      - apply Hb; lia. }
    fold n. field. split; [exact HS|]. apply Rgt_not_eq. assumption.
Qed.

(* relaxation of the stored heat sources *)
Lemma relaxPowers_spec par (old : vec R) (r : reactor R) :
  let ms := rx_mesh r in
  (0 <= ms_cells ms)%Z -> (ms_cells ms <= zlen (ms_mats ms))%Z -> vlen old = ms_cells ms ->
  exists ms', relaxPowers par old r = Ok (with_mesh ms' r) /\ same_shape ms ms' /\
    ms_nfwd ms' = ms_nfwd ms /\ ms_nadj ms' = ms_nadj ms /\
    (forall i, (ms_cells ms <= i)%Z -> cell_material ms' i = cell_material ms i) /\
    forall i, (0 <= i < ms_cells ms)%Z ->
      cell_material ms' i = set_heat (stored_heat ms i * par + vat old i * (1 - par)) (cell_material ms i).
Proof.
  intros ms Hc Hm Hold. unfold relaxPowers. fold ms.
  destruct (wp_ok _ _ (getHeatSources_wp dm0 ms Hc Hm)) as (q & Eq & Lq & Hq). rewrite Eq. cbn [bind].
  rewrite relax_ok by congruence. cbn [bind].
  set (v := mkvec (vlen q) _).
  destruct (wp_ok _ _ (setHeatSources_wp dm0 v ms ltac:(cbn; lia) ltac:(cbn; lia)))
    as (ms' & E & c & g & b & ge & l & h).
  rewrite E. cbn [bind]. exists ms'. split; [reflexivity|]. split; [repeat split; auto|].
  assert (Enf : ms_nfwd ms' = ms_nfwd ms /\ ms_nadj ms' = ms_nadj ms).
  { unfold setHeatSources in E. destruct (bind_ok_inv _ _ _ E) as (l' & _ & H). injection H as <-. auto. }
  split; [apply Enf|]. split; [apply Enf|].
  unfold zlen in *. split.
  - intros i Hi. unfold cell_material.
    destruct (Z_lt_le_dec i (Z.of_nat (length (ms_mats ms)))).
    + rewrite h by lia. rewrite Z2Nat.id by lia. cbn [vlen v]. replace (i <? vlen q)%Z with false by lia. reflexivity.
    + rewrite !nth_overflow by lia. reflexivity.
  - intros i Hi. unfold cell_material at 1. rewrite h by lia. rewrite Z2Nat.id by lia. cbn [vlen v].
    replace (i <? vlen q)%Z with true by lia. cbn [vat v]. rewrite Hq by lia. reflexivity.
Qed.

Lemma relaxPowers_total par (old : vec R) (r : reactor R) :
  let ms := rx_mesh r in
  (0 <= ms_cells ms)%Z -> (ms_cells ms <= zlen (ms_mats ms))%Z -> vlen old = ms_cells ms ->
  exists ms', relaxPowers par old r = Ok (with_mesh ms' r) /\ same_shape ms ms' /\
    total_power ms' = total_power ms * par
      + rsum 0 (ms_cells ms) (fun i => vat old i * cell_volume ms i) * (1 - par).
Proof.
  intros ms Hc Hm Hold.
  destruct (relaxPowers_spec par old r Hc Hm Hold) as (ms' & E & Sh & _ & _ & _ & H).
  exists ms'. split; [exact E|]. split; [exact Sh|]. destruct Sh as (c & g & b & ge & l).
  unfold total_power. rewrite c. rewrite <- !rsum_scal_r, <- rsum_plus. apply rsum_ext. intros i Hi.
  unfold stored_heat at 1. rewrite (H i Hi). cbn [set_heat mt_heat].
  unfold cell_volume. rewrite ge, b. fold ms. ring.
Qed.

(* relaxation of the stored temperatures *)
Lemma relaxTemperatures_spec par (old : vec R) (r : reactor R) :
  let ms := rx_mesh r in
  (0 <= ms_cells ms)%Z -> (ms_cells ms <= zlen (ms_mats ms))%Z -> vlen old = ms_cells ms ->
  exists ms', relaxTemperatures par old r = Ok (with_mesh ms' r) /\ same_shape ms ms' /\
    ms_nfwd ms' = ms_nfwd ms /\ ms_nadj ms' = ms_nadj ms /\
    (forall i, (ms_cells ms <= i)%Z -> cell_material ms' i = cell_material ms i) /\
    forall i, (0 <= i < ms_cells ms)%Z ->
      cell_material ms' i = set_temp (mt_temp (cell_material ms i) * par + vat old i * (1 - par)) (cell_material ms i).
Proof.
  intros ms Hc Hm Hold. unfold relaxTemperatures. fold ms.
  destruct (wp_ok _ _ (getTemperatures_wp dm0 ms "C" Hc Hm)) as (q & Eq & Lq & Hq). rewrite Eq. cbn [bind].
  rewrite relax_ok by congruence. cbn [bind].
  set (v := mkvec (vlen q) _).
  destruct (wp_ok _ _ (setTemperatures_wp dm0 v ms ltac:(cbn; lia) ltac:(cbn; lia)))
    as (ms' & E & c & g & b & ge & l & h).
  rewrite E. cbn [bind]. exists ms'. split; [reflexivity|]. split; [repeat split; auto|].
  assert (Enf : ms_nfwd ms' = ms_nfwd ms /\ ms_nadj ms' = ms_nadj ms).
  { unfold setTemperatures in E. destruct (bind_ok_inv _ _ _ E) as (l' & _ & H). injection H as <-. auto. }
  split; [apply Enf|]. split; [apply Enf|].
  unfold zlen in *. split.
  - intros i Hi. unfold cell_material.
    destruct (Z_lt_le_dec i (Z.of_nat (length (ms_mats ms)))).
    + rewrite h by lia. rewrite Z2Nat.id by lia. cbn [vlen v]. replace (i <? vlen q)%Z with false by lia. reflexivity.
    + rewrite !nth_overflow by lia. reflexivity.
  - intros i Hi. unfold cell_material at 1. rewrite h by lia. rewrite Z2Nat.id by lia. cbn [vlen v].
    replace (i <? vlen q)%Z with true by lia. cbn [vat v]. rewrite Hq by lia. reflexivity.
Qed.

(* the fundamental flux kept in the materials *)
Definition stored_flux (ms : mesh R) (e i : Z) : R := mat_at (mt_flux (cell_material ms i)) e 0.

(* Heat sources proportional to the fission rate of the stored flux, with the
   requested total. *)
Definition normalised (P : R) (ms : mesh R) : Prop :=
  let rate := fission_rate ms (stored_flux ms) in let S := rsum 0 (ms_cells ms) rate in
  (forall i, (0 <= i < ms_cells ms)%Z -> stored_heat ms i * cell_volume ms i = P * rate i / S) /\
  (S <> 0 -> total_power ms = P).

Lemma cell_volume_pos ms i : ms_geom ms <> GeomUNDEFINED -> (ms_cells ms + 1 = vlen (ms_bounds ms))%Z ->
  increasing (ms_bounds ms) -> 0 <= vat (ms_bounds ms) 0 -> (0 <= i < ms_cells ms)%Z -> 0 < cell_volume ms i.
Proof.
  intros Hg Hl Hb H0 Hi. unfold cell_volume. apply Rlt_Rminus. apply body_volume_mono; auto.
  - apply increasing_nonneg; auto. lia.
  - apply Hb; lia.
Qed.

Lemma setNewHeatSource_normalised (r : reactor R) vol (result : eigenmodesResults R) :
  let ms := rx_mesh r in let n := ms_cells ms in let modes := er_modes result in
  fissile ms -> getVolumes PI ms "cm" = Ok vol -> (1 <= zlen modes)%Z ->
  (forall k, (0 <= k < zlen modes)%Z -> (n * ms_groups ms <= vlen (snd (nth (Z.to_nat k) modes dmode)))%Z) ->
  increasing (ms_bounds ms) -> 0 <= vat (ms_bounds ms) 0 ->
  exists r', setNewHeatSource PI vol (ms_groups ms) n result r = Ok r' /\
    same_shape ms (rx_mesh r') /\ rx_power r' = rx_power r /\ rx_fwd r' = er_eigenvalues result /\
    (forall e i, (0 <= e < ms_groups ms)%Z -> (0 <= i < n)%Z ->
       stored_flux (rx_mesh r') e i = mode_flux ms modes 0 e i) /\
    (forall e i, (0 <= i < n)%Z -> law_at mt_fisXS (rx_mesh r') e i = law_at mt_fisXS ms e i) /\
    normalised (rx_power r) (rx_mesh r').
Proof.
  intros ms n modes Hf Hv H1 Hl Hb Hb0.
  destruct (setNewHeatSource_spec r vol result Hf Hv H1 Hl) as (r' & E & Sh & Hfw & _ & HP & _ & _ & _ & _ & _ & H).
  exists r'. split; [exact E|]. split; [exact Sh|]. split; [exact HP|]. split; [exact Hfw|].
  destruct Hf as (Hg & Hc & Hlb & Hgr & _).
  destruct Sh as (c & g & b & ge & l).
  fold ms in c, b, ge, g, H |- *. fold n in c, H |- *. fold modes in H.
  set (rate := fission_rate ms (mode_flux ms modes 0)) in *.
  assert (A : forall e i, (0 <= e < ms_groups ms)%Z -> (0 <= i < n)%Z ->
       stored_flux (rx_mesh r') e i = mode_flux ms modes 0 e i).
  { intros e i He Hi. destruct (H i Hi) as (f & q & Em & (_ & _ & Ff) & _).
    unfold stored_flux. rewrite Em. cbn [set_heat set_flux mt_flux]. apply Ff; auto. unfold zlen in *; lia. }
  assert (B : forall e i, (0 <= i < n)%Z -> law_at mt_fisXS (rx_mesh r') e i = law_at mt_fisXS ms e i).
  { intros e i Hi. destruct (H i Hi) as (f & q & Em & _). unfold law_at. rewrite Em. reflexivity. }
  split; [exact A|]. split; [exact B|].
  assert (V : forall i, cell_volume (rx_mesh r') i = cell_volume ms i).
  { intros. unfold cell_volume. rewrite ge, b. reflexivity. }
  assert (Rt : forall i, (0 <= i < n)%Z -> fission_rate (rx_mesh r') (stored_flux (rx_mesh r')) i = rate i).
  { intros i Hi. unfold fission_rate, rate. unfold fission_rate. rewrite g, V. f_equal. apply rsum_ext. intros e He.
    rewrite A, B by auto. reflexivity. }
  assert (Sm : rsum 0 n (fission_rate (rx_mesh r') (stored_flux (rx_mesh r'))) = rsum 0 n rate) by (apply rsum_ext; auto).
  assert (Dn : forall i, (0 <= i < n)%Z -> stored_heat (rx_mesh r') i * cell_volume (rx_mesh r') i = rx_power r * rate i / rsum 0 n rate).
  { intros i Hi. destruct (H i Hi) as (f & q & Em & _ & ->). unfold stored_heat. rewrite Em. cbn [set_heat mt_heat].
    rewrite V. pose proof (cell_volume_pos ms i Hg Hlb Hb Hb0 Hi) as Hp. fold n. unfold Rdiv at 1.
    rewrite Rmult_assoc, Rinv_l by (apply Rgt_not_eq; exact Hp). apply Rmult_1_r. }
  split.
  - intros i Hi. rewrite c in Hi. fold n in Hi. rewrite c. rewrite Dn, Rt, Sm by auto. reflexivity.
  - rewrite c. rewrite Sm. intros HS. unfold total_power. rewrite c.
    rewrite (rsum_ext _ _ _ (fun i => rx_power r / rsum 0 n rate * rate i)).
    + rewrite rsum_scal. fold n. field. exact HS.
    + intros i Hi. rewrite Dn by exact Hi. unfold Rdiv. ring.
Qed.

(* A fundamental-mode result has one mode of the size of the system. *)
Lemma fundamental_result (solver : mat R -> vec R -> vec R) sort eig (M F : mat R) size (sd : solverData R) result :
  (0 <= size)%Z -> mrows M = size -> mcols M = size -> mrows F = size -> mcols F = size ->
  (forall b, vlen b = size -> vlen (solver M b) = size) -> sd_eig sd = FUNDAMENTAL ->
  solveEigen solver sort eig M F sd = Ok result ->
  exists k phi, er_modes result = [(k, phi)] /\ vlen phi = size.
Proof.
  intros H0 H1 H2 H3 H4 Hs He. unfold solveEigen. rewrite He.
  destruct (sourceIteration_spec solver M F size (sd_max sd) (sd_acc sd) (sd_dir sd) H0 H1 H2 H3 H4 Hs)
    as [(j & _ & _ & _ & E)|[_ E]]; rewrite E; cbn [bind]; [|discriminate].
  intros HR. injection HR as <-. cbn [snd er_single er_modes]. eexists _, _. split; [reflexivity|].
  exact (proj1 (power_len (solver M) F size H4 H3 Hs (S j))).
Qed.

(* the forward diffusion solver normalises the power *)
Lemma diffusion_normalised solver sort eig (sd : solverData R) (r r' : reactor R) aL aR old :
  let ms := rx_mesh r in
  ready ms -> (2 <= ms_cells ms)%Z -> sd_energies sd = ms_groups ms -> albedos ms sd aL aR ->
  increasing (ms_bounds ms) -> 0 <= vat (ms_bounds ms) 0 ->
  (forall M b, vlen b = mrows M -> vlen (solver M b) = mrows M) ->
  sd_dir sd = FORWARD -> sd_eig sd = FUNDAMENTAL ->
  diffusionSolve PI solver sort eig sd r = Ok (old, r') ->
  same_shape ms (rx_mesh r') /\ rx_power r' = rx_power r /\ length (rx_fwd r') = 1%nat /\
  normalised (rx_power r) (rx_mesh r').
Proof.
  intros ms Hr Hn Hen Hal Hb Hb0 Hs Hd He Hok. unfold diffusionSolve in Hok.
  destruct (bind_ok_inv _ _ _ Hok) as (o & _ & H1). clear Hok.
  destruct (bind_ok_inv _ _ _ H1) as (vol & Hv & H2). clear H1.
  destruct (bind_ok_inv _ _ _ H2) as ([M F] & HMF & H3). clear H2.
  destruct (bind_ok_inv _ _ _ H3) as (result & HR & H4). clear H3.
  rewrite Hd in H4. destruct (bind_ok_inv _ _ _ H4) as (r2 & HS & H5). injection H5 as <- <-.
  pose proof (ready_data ms Hr) as Hdat. rewrite <- Hen in Hdat.
  assert (Hge : (0 <= ms_groups ms)%Z) by (destruct (ready_fissile ms Hr) as (_ & _ & _ & X & _); exact X).
  pose proof (system_wp PI ms sd (mesh_tables ms) Hn ltac:(lia) Hdat aL aR Hal ltac:(congruence)) as HW.
  fold ms in HMF. rewrite HMF, Hd in HW. cbn [wp fst snd] in HW. destruct HW as [[RM [CM _]] [RF [CF _]]].
  set (size := (ms_cells ms * sd_energies sd)%Z) in *.
  destruct (fundamental_result solver sort eig M F size sd result ltac:(nia) RM CM RF CF
    ltac:(intros b Hlb; rewrite Hs; congruence) He HR) as (k & phi & Em & Lp).
  destruct (setNewHeatSource_normalised r vol result (ready_fissile ms Hr) Hv
    ltac:(rewrite Em; unfold zlen; cbn; lia)
    ltac:(rewrite Em; intros k0 Hk0; unfold zlen in Hk0; cbn in Hk0; assert (k0 = 0)%Z as -> by lia; cbn [nth Z.to_nat snd];
          fold ms; unfold size in Lp; rewrite Lp, Hen; lia) Hb Hb0)
    as (r3 & E3 & Sh & HP & Hfw & _ & _ & HN).
  fold ms in E3. rewrite <- Hen in E3. fold ms in HS. rewrite HS in E3. injection E3 as <-.
  split; [exact Sh|]. split; [exact HP|]. split; [rewrite Hfw; unfold er_eigenvalues; rewrite Em; reflexivity|exact HN].
Qed.
