(* The power through coupled iterations. *)
From Coq Require Import String ZArith List Bool Lia Reals Lra Permutation.
From Verif Require Import Base BaseLemmas NumR Blocks ModelNumTools ModelEigen ModelMesh ModelReactor
  ModelDiffusion ModelHeat ModelSpectrum ModelKinetics ModelOutput ModelCalculation ProofsMesh ProofsDiffusion
  ProofsDiffusionR ProofsEigen ProofsPower ProofsHeat ProofsSpectrum ProofsSpectrumR PropsSpectrum ProofsCoupled ProofsFrame.
Import ListNotations.
Local Open Scope R_scope.

(* ---------- results of the eigenvalue solvers ---------- *)

Definition modes_fit (size : Z) (result : eigenmodesResults R) : Prop :=
  (1 <= zlen (er_modes result))%Z /\
  forall k, (0 <= k < zlen (er_modes result))%Z -> vlen (snd (nth (Z.to_nat k) (er_modes result) dmode)) = size.

Lemma eigen_fit (solver : mat R -> vec R -> vec R) sort eig (M F : mat R) size (sd : solverData R) result :
  (0 <= size)%Z -> mrows M = size -> mcols M = size -> mrows F = size -> mcols F = size ->
  (forall b, vlen b = size -> vlen (solver M b) = size) ->
  (forall l, Permutation l (sort l)) -> mrows (snd (eig M F)) = size ->
  sd_eig sd <> EigUNDEFINED ->
  solveEigen solver sort eig M F sd = Ok result -> modes_fit size result.
Proof.
  intros H0 H1 H2 H3 H4 Hs Hp He Hu HR. destruct (sd_eig sd) eqn:Ee; [congruence| |].
  - destruct (fundamental_result solver sort eig M F size sd result H0 H1 H2 H3 H4 Hs Ee HR) as (k & phi & Em & Lp).
    unfold modes_fit. rewrite Em. split; [unfold zlen; cbn; lia|]. intros k0 Hk0. unfold zlen in Hk0. cbn in Hk0.
    assert (k0 = 0)%Z as -> by lia. exact Lp.
  - unfold solveEigen in HR. rewrite Ee in HR. unfold GeneralizedEigenSolver in HR.
    destruct (eig M F) as [ev evec]. cbn [snd] in He.
    destruct (bind_ok_inv _ _ _ HR) as (modes & E & H5). clear HR.
    assert (A : Forall (fun m : R * vec R => vlen (snd m) = size) modes).
    { unfold sortEigenmodes in E. destruct (hasImagValues _); [discriminate|].
      destruct (bind_ok_inv _ _ _ E) as (l & El & E'). injection E' as <-.
      eapply Permutation_Forall; [apply Hp|].
      refine (zfor_keeps (Forall (fun m : R * vec R => vlen (snd m) = size)) _ _ _ _ _ _ El ltac:(constructor)).
      intros j a b Ha Hb. destruct (bind_ok_inv _ _ _ Hb) as (x & _ & Hb'). clear Hb.
      destruct (negb (nisnan x) && is_greater x n0); [|injection Hb' as <-; exact Ha].
      destruct (inb j _); [|discriminate]. injection Hb' as <-. apply Forall_app. split; [exact Ha|].
      constructor; [exact He|constructor]. }
    unfold er_many in H5. destruct modes as [|[k phi] modes]; [discriminate|]. injection H5 as <-.
    split; [unfold zlen; cbn [er_modes length]; lia|]. cbn [er_modes]. intros k0 Hk0.
    rewrite Forall_forall in A. apply A. apply nth_In. unfold zlen in Hk0. cbn [er_modes] in Hk0. lia.
Qed.

(* the eigenvalue routine returns vectors of the size of the system and the
   sort only reorders *)
Definition fit_libraries (solver : mat R -> vec R -> vec R) (sort : list (R * vec R) -> list (R * vec R))
    (eig : mat R -> mat R -> vec (R * R) * mat (R * R)) : Prop :=
  (forall M b, vlen b = mrows M -> vlen (solver M b) = mrows M) /\
  (forall l, Permutation l (sort l)) /\ (forall M F, mrows (snd (eig M F)) = mrows M).

Lemma diffusion_fit solver sort eig (sd : solverData R) (r r' : reactor R) aL aR old :
  let ms := rx_mesh r in
  ready ms -> (2 <= ms_cells ms)%Z -> sd_energies sd = ms_groups ms -> albedos ms sd aL aR ->
  increasing (ms_bounds ms) -> 0 <= vat (ms_bounds ms) 0 -> fit_libraries solver sort eig ->
  sd_dir sd = FORWARD -> sd_eig sd <> EigUNDEFINED ->
  diffusionSolve PI solver sort eig sd r = Ok (old, r') ->
  getHeatSources ms = Ok old /\ normalised (rx_power r) (rx_mesh r').
Proof.
  intros ms Hr Hn Hen Hal Hb Hb0 (Hs & Hp & Hg) Hd He Hok. unfold diffusionSolve in Hok.
  destruct (bind_ok_inv _ _ _ Hok) as (o & Ho & H1). clear Hok.
  destruct (bind_ok_inv _ _ _ H1) as (vol & Hv & H2). clear H1.
  destruct (bind_ok_inv _ _ _ H2) as ([M F] & HMF & H3). clear H2.
  destruct (bind_ok_inv _ _ _ H3) as (result & HR & H4). clear H3.
  rewrite Hd in H4. destruct (bind_ok_inv _ _ _ H4) as (r2 & HS & H5). injection H5 as <- <-.
  split; [exact Ho|].
  pose proof (ready_data ms Hr) as Hdat. rewrite <- Hen in Hdat.
  assert (Hge : (0 <= ms_groups ms)%Z) by (destruct (ready_fissile ms Hr) as (_ & _ & _ & X & _); exact X).
  pose proof (system_wp PI ms sd (mesh_tables ms) Hn ltac:(lia) Hdat aL aR Hal ltac:(congruence)) as HW.
  fold ms in HMF. rewrite HMF, Hd in HW. cbn [wp fst snd] in HW. destruct HW as [[RM [CM _]] [RF [CF _]]].
  set (size := (ms_cells ms * sd_energies sd)%Z) in *.
  destruct (eigen_fit solver sort eig M F size sd result ltac:(nia) RM CM RF CF
    ltac:(intros b Hlb; rewrite Hs; congruence) Hp ltac:(rewrite Hg; exact RM) He HR) as [L1 L2].
  destruct (setNewHeatSource_normalised r vol result (ready_fissile ms Hr) Hv L1
    ltac:(intros k0 Hk0; rewrite (L2 k0 Hk0); fold ms; unfold size; rewrite Hen; lia) Hb Hb0)
    as (r3 & E3 & _ & _ & _ & _ & _ & HN).
  fold ms in E3. rewrite <- Hen in E3. fold ms in HS. rewrite HS in E3. injection E3 as <-. exact HN.
Qed.

Lemma spectrum_fit k3 kb ex sq solver sort eig (sd : solverData R) (r r' : reactor R) a old :
  let ms := rx_mesh r in
  transport_ready ms sd a -> fit_libraries solver sort eig -> sd_eig sd <> EigUNDEFINED ->
  spectrumSolve PI k3 kb ex sq solver sort eig sd r = Ok (old, r') ->
  getHeatSources ms = Ok old /\ normalised (rx_power r) (rx_mesh r').
Proof.
  intros ms H (Hs & Hp & Hg) He Hok. unfold spectrumSolve in Hok.
  destruct (bind_ok_inv _ _ _ Hok) as (o & Ho & H1). clear Hok.
  destruct (bind_ok_inv _ _ _ H1) as ([[c M] F] & HMF & H2). clear H1.
  destruct (bind_ok_inv _ _ _ H2) as (vol & Hv & H3). clear H2.
  destruct (bind_ok_inv _ _ _ H3) as (result & HR & H4). clear H3.
  destruct (bind_ok_inv _ _ _ H4) as (r2 & HS & H5). injection H5 as <- <-.
  split; [exact Ho|].
  assert (Hr : ready ms) by apply H. assert (Hn : (1 <= ms_cells ms)%Z) by apply H.
  assert (Hen : sd_energies sd = ms_groups ms) by apply H.
  assert (Hge : (0 <= ms_groups ms)%Z) by (destruct (ready_fissile ms Hr) as (_ & _ & _ & X & _); exact X).
  destruct (C55_transport_defined k3 kb ex sq _ _ _ H) as (sc & g & g' & c0 & M0 & F0 & Hrun).
  destruct (run_spec _ _ _ _ _ _ _ _ _ _ _ _ _ H Hrun) as (_ & _ & _ & _ & [RM [CM _]] & [RF [CF _]]).
  destruct Hrun as (_ & _ & _ & E4). fold ms in HMF. rewrite HMF in E4. injection E4 as <- <- <-.
  set (size := (ms_cells ms * ms_groups ms)%Z) in *.
  destruct (eigen_fit solver sort eig M F size sd result ltac:(nia) RM CM RF CF
    ltac:(intros b Hlb; rewrite Hs; congruence) Hp ltac:(rewrite Hg; exact RM) He HR) as [L1 L2].
  destruct (setNewHeatSource_normalised r vol result (ready_fissile ms Hr) Hv L1
    ltac:(intros k0 Hk0; rewrite (L2 k0 Hk0); fold ms; unfold size; lia) ltac:(apply H) ltac:(apply H))
    as (r3 & E3' & _ & _ & _ & _ & _ & HN).
  fold ms in E3'. rewrite <- Hen in E3'. fold ms in HS. rewrite HS in E3'. injection E3' as <-. exact HN.
Qed.

(* ---------- facts carried by the input data ---------- *)

Lemma keeps_cell {A} (f : material R -> A) ms ms' i : keeps f ms ms' -> f (cell_material ms' i) = f (cell_material ms i).
Proof.
  unfold keeps, cell_material. intros H. rewrite <- !(map_nth f). rewrite H. reflexivity.
Qed.
Lemma keeps_length {A} (f : material R -> A) ms ms' : keeps f ms ms' -> length (ms_mats ms') = length (ms_mats ms).
Proof. unfold keeps. intros H. rewrite <- (map_length f (ms_mats ms')), H. apply map_length. Qed.

Lemma input_laws ms ms' i : same_input ms ms' ->
  let a := cell_material ms i in let b := cell_material ms' i in
  mt_energies b = mt_energies a /\ mt_cond b = mt_cond a /\ mt_totXS b = mt_totXS a /\ mt_fisXS b = mt_fisXS a /\
  mt_diff b = mt_diff a /\ mt_scatt b = mt_scatt a /\ mt_ni b = mt_ni a /\ mt_chi b = mt_chi a.
Proof.
  intros (_ & _ & _ & _ & K) a b. pose proof (keeps_cell laws _ _ i K) as H. fold a b in H. unfold laws in H.
  injection H as _ H1 H2 H3 H4 H5 H6 H7 H8. auto 10.
Qed.

Lemma input_ready ms ms' : same_input ms ms' -> ready ms -> ready ms'.
Proof.
  intros S (A & B & C & D & E & F). pose proof S as (b & g & c & e & K).
  unfold ready. rewrite g, c, b, e. unfold zlen in *. rewrite (keeps_length _ _ _ K).
  do 5 (split; [assumption|]). intros m Hm. cbn zeta.
  destruct (input_laws ms ms' m S) as (-> & _ & -> & -> & -> & -> & -> & ->). apply (F m Hm).
Qed.

Lemma input_albedos ms ms' sd aL aR : same_input ms ms' -> albedos ms sd aL aR -> albedos ms' sd aL aR.
Proof. intros (_ & g & _). unfold albedos. rewrite g. auto. Qed.

(* transport data valid whatever the temperatures *)
Definition transport_always (ms : mesh R) (sd : solverData R) (a : R) : Prop :=
  ready ms /\ (1 <= ms_cells ms)%Z /\ sd_energies sd = ms_groups ms /\ lget (sd_albedo sd) 0 = Ok a /\
  increasing (ms_bounds ms) /\ 0 <= vat (ms_bounds ms) 0 /\
  forall e i t, (0 <= e < ms_groups ms)%Z -> (0 <= i < ms_cells ms)%Z ->
    0 < law_value (nth (Z.to_nat e) (mt_totXS (cell_material ms i)) []) t.

Lemma always_ready ms ms' sd a : same_input ms ms' -> transport_always ms sd a -> transport_ready ms' sd a.
Proof.
  intros S (A & B & C & D & E & F & G). pose proof S as (b & g & c & e & K).
  unfold transport_ready. rewrite c, e, b. split; [eapply input_ready; eassumption|].
  do 5 (split; [assumption|]). intros h i Hh Hi. cbn [mesh_tables ttot]. unfold law_at.
  destruct (input_laws ms ms' i S) as (_ & _ & -> & _). apply G; assumption.
Qed.

Lemma input_volume ms ms' i : same_input ms ms' -> cell_volume ms' i = cell_volume ms i.
Proof. intros (b & g & _). unfold cell_volume. rewrite b, g. reflexivity. Qed.

Lemma heat_total ms ms' : same_input ms ms' -> keeps mt_heat ms ms' -> total_power ms' = total_power ms.
Proof.
  intros S K. unfold total_power. pose proof S as (_ & _ & -> & _). apply rsum_ext. intros i Hi.
  rewrite (input_volume _ _ _ S). unfold stored_heat. rewrite (keeps_cell mt_heat _ _ i K). reflexivity.
Qed.

Lemma old_total ms old : (0 <= ms_cells ms)%Z -> (ms_cells ms <= zlen (ms_mats ms))%Z -> getHeatSources ms = Ok old ->
  vlen old = ms_cells ms /\ rsum 0 (ms_cells ms) (fun i => vat old i * cell_volume ms i) = total_power ms.
Proof.
  intros H0 H1 E. destruct (wp_ok _ _ (getHeatSources_wp dm0 ms H0 H1)) as (q & Eq & Lq & Hq).
  rewrite E in Eq. injection Eq as <-. split; [exact Lq|]. unfold total_power. apply rsum_ext. intros i Hi.
  rewrite Hq by exact Hi. reflexivity.
Qed.

(* ---------- one half of an iteration ---------- *)

Section Power.
Variable solver : mat R -> vec R -> vec R.
Variable sort : list (R * vec R) -> list (R * vec R).
Variable eig : mat R -> mat R -> vec (R * R) * mat (R * R).
Variable croots : list R -> list (R * R).
Variables (expint3 bickley3f nexp nsqrt : R -> R).
Let solve := solve1 PI solver sort eig croots expint3 bickley3f nexp nsqrt.
Let half := half_step PI solver sort eig croots expint3 bickley3f nexp nsqrt.
Hypothesis Hlib : fit_libraries solver sort eig.

Definition neutronic (sd : solverData R) : bool :=
  match sd_kind sd with TRANSPORT | DIFFUSION => true | _ => false end.

(* the data the solver needs, on the mesh read from the input *)
Definition supplied (ms : mesh R) (sd : solverData R) : Prop :=
  match sd_kind sd with
  | DIFFUSION => sd_dir sd = FORWARD /\ sd_eig sd <> EigUNDEFINED /\ ready ms /\ (2 <= ms_cells ms)%Z /\
      sd_energies sd = ms_groups ms /\ increasing (ms_bounds ms) /\ 0 <= vat (ms_bounds ms) 0 /\
      exists aL aR, albedos ms sd aL aR
  | TRANSPORT => sd_eig sd <> EigUNDEFINED /\ exists a, transport_always ms sd a
  | _ => True
  end.

(* the flux found by the solver causes fissions *)
Definition burns (ms : mesh R) : Prop := rsum 0 (ms_cells ms) (fission_rate ms (stored_flux ms)) <> 0.

Lemma neutronic_solve sd (r0 r r1 : reactor R) old : neutronic sd = true -> supplied (rx_mesh r0) sd ->
  same_input (rx_mesh r0) (rx_mesh r) -> solve sd r = Ok (old, r1) -> burns (rx_mesh r1) ->
  total_power (rx_mesh r1) = rx_power r /\
  vlen old = ms_cells (rx_mesh r) /\ (0 <= ms_cells (rx_mesh r) <= zlen (ms_mats (rx_mesh r)))%Z /\
  rsum 0 (ms_cells (rx_mesh r)) (fun i => vat old i * cell_volume (rx_mesh r) i) = total_power (rx_mesh r).
Proof.
  intros Hk Hsup S E B. unfold neutronic, supplied, solve, solve1 in *. destruct (sd_kind sd); try discriminate.
  - destruct Hsup as (He & a & Ht). pose proof (always_ready _ _ _ _ S Ht) as Hr.
    destruct (spectrum_fit _ _ _ _ _ _ _ _ _ _ a _ Hr Hlib He E) as (Ho & _ & Hn).
    destruct Hr as ((_ & Hc & _ & _ & Hm & _) & _). destruct (old_total _ _ Hc Hm Ho) as (Lo & Ro).
    split; [apply Hn; exact B|]. auto.
  - destruct Hsup as (Hd & He & Hr & Hn & Hg & Hb & Hb0 & aL & aR & Ha).
    pose proof (input_ready _ _ S Hr) as Hr'. pose proof S as (b & g & c & e & _).
    destruct (diffusion_fit solver sort eig sd r r1 aL aR old Hr' ltac:(lia) ltac:(congruence)
      (input_albedos _ _ _ _ _ S Ha) ltac:(rewrite b; exact Hb) ltac:(rewrite b; exact Hb0) Hlib Hd He E) as (Ho & _ & Hnm).
    destruct Hr' as (_ & Hc & _ & _ & Hm & _). destruct (old_total _ _ Hc Hm Ho) as (Lo & Ro).
    split; [apply Hnm; exact B|]. auto.
Qed.

Lemma half_power sd (r0 r r' : reactor R) rel par p : supplied (rx_mesh r0) sd -> same_reactor r0 r ->
  half sd rel par r r' p ->
  (neutronic sd = true -> forall old r1, solve sd r = Ok (old, r1) -> burns (rx_mesh r1)) ->
  (neutronic sd = true -> rel = true -> total_power (rx_mesh r) = rx_power r0) ->
  total_power (rx_mesh r') = if neutronic sd then rx_power r0 else total_power (rx_mesh r).
Proof.
  intros Hsup (S & HP & _) (old & r1 & E1 & _ & E3) Hb Hrel. fold solve in E1. destruct (neutronic sd) eqn:Hk.
  - destruct (neutronic_solve sd r0 r r1 old Hk Hsup S E1 (Hb eq_refl old r1 E1)) as (Ht & Lo & [Hc Hm] & Ho).
    destruct rel; [|subst; congruence]. specialize (Hrel eq_refl eq_refl).
    pose proof (solve_same _ _ _ _ _ _ _ _ _ _ _ _ _ E1) as (S1 & _). pose proof S1 as (b & g & c & e & K).
    assert (E4 : relaxPowers par old r1 = Ok r').
    { revert E3. unfold relaxResults. unfold neutronic in Hk. destruct (sd_kind sd); try discriminate; auto. }
    destruct (relaxPowers_total par old r1 ltac:(lia) ltac:(unfold zlen in *; rewrite c, (keeps_length _ _ _ K); exact Hm) ltac:(congruence))
      as (ms' & E5 & _ & Hs). rewrite E4 in E5. injection E5 as ->. cbn [with_mesh rx_mesh]. rewrite Hs, Ht, c.
    rewrite (rsum_ext _ _ _ (fun i => vat old i * cell_volume (rx_mesh r) i))
      by (intros i Hi; rewrite (input_volume _ _ i S1); reflexivity).
    rewrite Ho, Hrel, HP. ring.
  - pose proof (solve_only _ _ _ _ _ _ _ _ _ _ _ _ _ E1) as F. unfold solve_frame in F.
    unfold neutronic in Hk.
    assert (A : total_power (rx_mesh r1) = total_power (rx_mesh r)).
    { destruct (sd_kind sd); try discriminate; try (rewrite F; reflexivity).
      destruct F as (ms' & -> & F). apply heat_total; [apply (only_temp_reactor _ _ F)|apply F]. }
    rewrite <- A. destruct rel; [|subst; reflexivity].
    unfold relaxResults in E3. destruct (sd_kind sd); try discriminate; try (injection E3 as <-; reflexivity).
    destruct (relaxTemperatures_only _ _ _ _ E3) as (ms' & -> & F').
    apply heat_total; [apply (only_temp_reactor _ _ F')|apply F'].
Qed.

(* every flux computed in the run causes fissions *)
Definition burning_run (s1 s2 : solverData R) (par : R) (n : nat) (st : nat -> reactor R) : Prop :=
  forall i, (i < n)%nat ->
    (neutronic s1 = true -> forall old r1, solve s1 (st i) = Ok (old, r1) -> burns (rx_mesh r1)) /\
    (neutronic s2 = true -> forall rm p old r1, half s1 (negb (i =? 0)%nat) par (st i) rm p ->
       solve s2 rm = Ok (old, r1) -> burns (rx_mesh r1)).

Lemma run_power s1 s2 par n st p q :
  coupled_run PI solver sort eig croots expint3 bickley3f nexp nsqrt s1 s2 par n st p q ->
  neutronic s1 = true \/ neutronic s2 = true ->
  supplied (rx_mesh (st 0%nat)) s1 -> supplied (rx_mesh (st 0%nat)) s2 -> burning_run s1 s2 par n st ->
  forall i, (1 <= i <= n)%nat -> total_power (rx_mesh (st i)) = rx_power (st 0%nat).
Proof.
  intros Run Hk H1 H2 Hb i. induction i as [|i IH]; intros Hi; [lia|].
  destruct (Run i ltac:(lia)) as (rm & A & B). destruct (Hb i ltac:(lia)) as [B1 B2].
  pose proof (run_same _ _ _ _ _ _ _ _ _ _ _ _ _ _ _ _ Run i ltac:(lia)) as S.
  assert (Hrel : negb (i =? 0)%nat = true -> total_power (rx_mesh (st i)) = rx_power (st 0%nat)).
  { intros Hn. apply IH. destruct i; [discriminate|lia]. }
  pose proof (half_power s1 _ _ _ _ _ _ H1 S A B1 ltac:(auto)) as P1.
  assert (S2 : same_reactor (st 0%nat) rm).
  { eapply same_reactor_trans; [exact S|]. eapply half_same; exact A. }
  rewrite (half_power s2 _ _ _ _ _ _ H2 S2 B ltac:(intros Hn old r1; apply (B2 Hn rm (p i) old r1 A))).
  - destruct (neutronic s2) eqn:K2; [reflexivity|]. rewrite P1.
    destruct (neutronic s1) eqn:K1; [reflexivity|]. destruct Hk; discriminate.
  - intros _ Hr. rewrite P1. destruct (neutronic s1); [reflexivity|]. apply Hrel; exact Hr.
Qed.

End Power.
