(* What a calculation leaves alone: nothing but temperatures, heat sources,
   fluxes and eigenvalues is ever written. *)
From Coq Require Import String ZArith List Bool Lia.
From Verif Require Import Base BaseLemmas ModelNumTools ModelEigen ModelMesh ModelReactor ModelDiffusion ModelHeat
  ModelSpectrum ModelKinetics ModelOutput ModelCalculation ProofsCoupled.
Import ListNotations.
Local Open Scope Z_scope.

Section Loops.
Context {S : Type}.
Lemma iter_up_keeps (I : S -> Prop) body n : forall i s s',
  (forall j a b, I a -> body j a = Ok b -> I b) -> iter_up n i body s = Ok s' -> I s -> I s'.
Proof.
  induction n; intros i s s' Hb H Hi; cbn in H; [congruence|].
  destruct (bind_ok_inv _ _ _ H) as (s1 & E1 & E2). eauto.
Qed.
Lemma zfor_keeps (I : S -> Prop) lo hi body s s' :
  (forall j a b, I a -> body j a = Ok b -> I b) -> zfor lo hi body s = Ok s' -> I s -> I s'.
Proof. apply iter_up_keeps. Qed.
End Loops.

Section Frame.
Context {T : Type} {N : Num T}.

(* a field of the materials is the same in both meshes, cell by cell *)
Definition keeps {A} (f : material T -> A) (ms ms' : mesh T) : Prop := map f (ms_mats ms') = map f (ms_mats ms).

(* the material data read from the input *)
Definition laws (m : material T) :=
  (mt_name m, mt_energies m, mt_cond m, (mt_totXS m, mt_fisXS m, mt_diff m, mt_scatt m, mt_ni m, mt_chi m)).

Definition same_input (ms ms' : mesh T) : Prop :=
  ms_bounds ms' = ms_bounds ms /\ ms_geom ms' = ms_geom ms /\ ms_cells ms' = ms_cells ms /\
  ms_groups ms' = ms_groups ms /\ keeps laws ms ms'.

Lemma same_input_refl ms : same_input ms ms.
Proof. repeat split. Qed.
Lemma same_input_trans a b c : same_input a b -> same_input b c -> same_input a c.
Proof. unfold same_input, keeps. intuition congruence. Qed.

Lemma map_upd {A} (f : material T -> A) g l i d : f (g (nth i l d)) = f (nth i l d) ->
  (i < length l)%nat -> map f (list_upd l i (g (nth i l d))) = map f l.
Proof.
  revert i. induction l as [|x l IH]; intros i H Hi; cbn in *; [lia|].
  destruct i; cbn in *; [congruence|]. f_equal. apply IH; [exact H|lia].
Qed.

Lemma upd_keeps {A} (f : material T -> A) g i l l' : (forall m, f (g m) = f m) ->
  upd_mat g i l = Ok l' -> map f l' = map f l.
Proof.
  intros Hg H. unfold upd_mat in H. destruct (bind_ok_inv _ _ _ H) as (m & E1 & E2).
  unfold lset in E2. destruct (inb i (Z.of_nat (length l))) eqn:Ei; [|discriminate]. injection E2 as <-.
  unfold inb in Ei. apply andb_true_iff in Ei as [E3 E4].
  unfold lget in E1. rewrite E3 in E1. destruct (nth_error l (Z.to_nat i)) as [m'|] eqn:En; [|discriminate].
  injection E1 as ->.
  assert (Hm : nth (Z.to_nat i) l m = m) by (apply nth_error_nth; exact En).
  rewrite <- Hm at 1. apply map_upd; [apply Hg|lia].
Qed.

(* what the setters of the mesh keep *)
Lemma setTemperatures_keeps {A} (f : material T -> A) v ms ms' : (forall x m, f (set_temp x m) = f m) ->
  setTemperatures v ms = Ok ms' -> keeps f ms ms'.
Proof.
  intros Hf H. unfold setTemperatures in H. destruct (bind_ok_inv _ _ _ H) as (l & E & H1). injection H1 as <-.
  unfold keeps. cbn [with_mats ms_mats].
  refine (zfor_keeps (fun l' => map f l' = map f (ms_mats ms)) _ _ _ _ _ _ E eq_refl).
  intros j a b Ha Hb. destruct (bind_ok_inv _ _ _ Hb) as (t & _ & Hb'). rewrite <- Ha.
  eapply upd_keeps; [|exact Hb']. intros; apply Hf.
Qed.
Lemma setHeatSources_keeps {A} (f : material T -> A) v ms ms' : (forall x m, f (set_heat x m) = f m) ->
  setHeatSources v ms = Ok ms' -> keeps f ms ms'.
Proof.
  intros Hf H. unfold setHeatSources in H. destruct (bind_ok_inv _ _ _ H) as (l & E & H1). injection H1 as <-.
  unfold keeps. cbn [with_mats ms_mats].
  refine (zfor_keeps (fun l' => map f l' = map f (ms_mats ms)) _ _ _ _ _ _ E eq_refl).
  intros j a b Ha Hb. destruct (bind_ok_inv _ _ _ Hb) as (t & _ & Hb'). rewrite <- Ha.
  eapply upd_keeps; [|exact Hb']. intros; apply Hf.
Qed.
Lemma setNeutronFluxes_keeps {A} (f : material T -> A) v ms ms' : (forall x m, f (set_flux x m) = f m) ->
  setNeutronFluxes v ms = Ok ms' -> keeps f ms ms'.
Proof.
  intros Hf H. unfold setNeutronFluxes in H. destruct (bind_ok_inv _ _ _ H) as (l & E & H1). injection H1 as <-.
  unfold keeps. cbn [with_mats ms_mats].
  refine (zfor_keeps (fun l' => map f l' = map f (ms_mats ms)) _ _ _ _ _ _ E eq_refl).
  intros j a b Ha Hb. rewrite <- Ha. eapply upd_keeps; [|exact Hb]. intros; apply Hf.
Qed.
Lemma setAdjointFluxes_keeps {A} (f : material T -> A) v ms ms' : (forall x m, f (set_adj x m) = f m) ->
  setAdjointFluxes v ms = Ok ms' -> keeps f ms ms'.
Proof.
  intros Hf H. unfold setAdjointFluxes in H. destruct (bind_ok_inv _ _ _ H) as (l & E & H1). injection H1 as <-.
  unfold keeps. cbn [with_mats ms_mats].
  refine (zfor_keeps (fun l' => map f l' = map f (ms_mats ms)) _ _ _ _ _ _ E eq_refl).
  intros j a b Ha Hb. rewrite <- Ha. eapply upd_keeps; [|exact Hb]. intros; apply Hf.
Qed.
Lemma setTotalFluxes_keeps {A} (f : material T -> A) v ms ms' : (forall x m, f (set_totflux x m) = f m) ->
  setTotalFluxes v ms = Ok ms' -> keeps f ms ms'.
Proof.
  intros Hf H. unfold setTotalFluxes in H. destruct (bind_ok_inv _ _ _ H) as (l & E & H1). injection H1 as <-.
  unfold keeps. cbn [with_mats ms_mats].
  refine (zfor_keeps (fun l' => map f l' = map f (ms_mats ms)) _ _ _ _ _ _ E eq_refl).
  intros j a b Ha Hb. destruct (inb j (mcols v)); [|discriminate]. rewrite <- Ha.
  eapply upd_keeps; [|exact Hb]. intros; apply Hf.
Qed.

(* and all of them change nothing in the mesh but its materials *)
Definition rest (ms : mesh T) := (ms_bounds ms, ms_geom ms, ms_cells ms, ms_groups ms, (ms_nfwd ms, ms_nadj ms)).
Lemma setters_rest ms ms' :
  (exists v, setTemperatures v ms = Ok ms') \/ (exists v, setHeatSources v ms = Ok ms') \/
  (exists v, setNeutronFluxes v ms = Ok ms') \/ (exists v, setAdjointFluxes v ms = Ok ms') \/
  (exists v, setTotalFluxes v ms = Ok ms') -> rest ms' = rest ms.
Proof.
  intros [[v H]|[[v H]|[[v H]|[[v H]|[v H]]]]];
    unfold setTemperatures, setHeatSources, setNeutronFluxes, setAdjointFluxes, setTotalFluxes in H;
    destruct (bind_ok_inv _ _ _ H) as (l & E & H1); injection H1 as <-; reflexivity.
Qed.

(* everything in the reactor that comes from the input *)
Definition same_reactor (r r' : reactor T) : Prop :=
  same_input (rx_mesh r) (rx_mesh r') /\ rx_power r' = rx_power r /\ rx_kin r' = rx_kin r /\ rx_ext r' = rx_ext r.
Lemma same_reactor_refl r : same_reactor r r.
Proof. split; [apply same_input_refl|auto]. Qed.
Lemma same_reactor_trans a b c : same_reactor a b -> same_reactor b c -> same_reactor a c.
Proof.
  intros (A1 & A2 & A3 & A4) (B1 & B2 & B3 & B4). split; [eapply same_input_trans; eassumption|].
  repeat split; congruence.
Qed.

Lemma rest_input ms ms' : rest ms' = rest ms -> keeps laws ms ms' -> same_input ms ms'.
Proof. unfold rest. intros H K. injection H as H1 H2 H3 H4 _ _. repeat split; assumption. Qed.

(* temperatures untouched and the rest of the reactor as before *)
Definition only_heat (ms ms' : mesh T) : Prop :=
  rest ms' = rest ms /\ keeps laws ms ms' /\ keeps mt_temp ms ms' /\ keeps mt_flux ms ms' /\ keeps mt_adj ms ms' /\
  keeps mt_totflux ms ms'.
Definition only_temp (ms ms' : mesh T) : Prop :=
  rest ms' = rest ms /\ keeps laws ms ms' /\ keeps mt_heat ms ms' /\ keeps mt_flux ms ms' /\ keeps mt_adj ms ms' /\
  keeps mt_totflux ms ms'.

Lemma only_temp_refl ms : only_temp ms ms.
Proof. repeat split. Qed.
Lemma only_temp_trans a b c : only_temp a b -> only_temp b c -> only_temp a c.
Proof. unfold only_temp, keeps. intuition congruence. Qed.

Lemma setTemperatures_only v ms ms' : setTemperatures v ms = Ok ms' -> only_temp ms ms'.
Proof.
  intros H. split; [apply setters_rest; left; eauto|].
  repeat split; (eapply setTemperatures_keeps; [|exact H]; reflexivity).
Qed.
Lemma setHeatSources_only v ms ms' : setHeatSources v ms = Ok ms' -> only_heat ms ms'.
Proof.
  intros H. split; [apply setters_rest; right; left; eauto|].
  repeat split; (eapply setHeatSources_keeps; [|exact H]; reflexivity).
Qed.

Lemma relaxTemperatures_only par old (r r' : reactor T) : relaxTemperatures par old r = Ok r' ->
  exists ms', r' = with_mesh ms' r /\ only_temp (rx_mesh r) ms'.
Proof.
  intros H. unfold relaxTemperatures in H.
  destruct (bind_ok_inv _ _ _ H) as (a & _ & H1). destruct (bind_ok_inv _ _ _ H1) as (b & _ & H2).
  destruct (bind_ok_inv _ _ _ H2) as (ms' & E & H3). injection H3 as <-.
  exists ms'. split; [reflexivity|]. eapply setTemperatures_only; exact E.
Qed.
Lemma relaxPowers_only par old (r r' : reactor T) : relaxPowers par old r = Ok r' ->
  exists ms', r' = with_mesh ms' r /\ only_heat (rx_mesh r) ms'.
Proof.
  intros H. unfold relaxPowers in H.
  destruct (bind_ok_inv _ _ _ H) as (a & _ & H1). destruct (bind_ok_inv _ _ _ H1) as (b & _ & H2).
  destruct (bind_ok_inv _ _ _ H2) as (ms' & E & H3). injection H3 as <-.
  exists ms'. split; [reflexivity|]. eapply setHeatSources_only; exact E.
Qed.

Variable mpi : T.

Lemma heatLoop_only solver sd k : forall ms old ms', heatLoop mpi solver sd k ms old = Ok (Some ms') -> only_temp ms ms'.
Proof.
  induction k; intros ms old ms' H; cbn in H; [discriminate|].
  destruct (bind_ok_inv _ _ _ H) as (m1 & E1 & H1). destruct (bind_ok_inv _ _ _ H1) as (new & _ & H2).
  destruct (bind_ok_inv _ _ _ H2) as (mv & _ & H3).
  assert (S1 : only_temp ms m1).
  { unfold heatStep in E1. destruct (bind_ok_inv _ _ _ E1) as ([A q] & _ & E2). eapply setTemperatures_only; exact E2. }
  destruct (mv [<] sd_acc sd).
  - injection H3 as <-. exact S1.
  - eapply only_temp_trans; [exact S1|]. eapply IHk; exact H3.
Qed.

Lemma heatSolve_only solver sd r old r' : heatSolve mpi solver sd r = Ok (old, r') ->
  exists ms', r' = with_mesh ms' r /\ only_temp (rx_mesh r) ms'.
Proof.
  intros H. unfold heatSolve in H.
  destruct (bind_ok_inv _ _ _ H) as (hc & _ & H1). destruct (bind_ok_inv _ _ _ H1) as (o & _ & H2).
  destruct (bind_ok_inv _ _ _ H2) as ([ms'|] & E & H3); [|discriminate]. injection H3 as _ <-.
  exists ms'. split; [reflexivity|]. eapply heatLoop_only; exact E.
Qed.

(* a forward neutronic solve writes fluxes, heat sources and eigenvalues *)
Definition forward_only (r r' : reactor T) : Prop :=
  same_reactor r r' /\ rx_adj r' = rx_adj r /\ ms_nadj (rx_mesh r') = ms_nadj (rx_mesh r) /\
  keeps mt_temp (rx_mesh r) (rx_mesh r') /\ keeps mt_adj (rx_mesh r) (rx_mesh r') /\
  keeps mt_totflux (rx_mesh r) (rx_mesh r').
(* an adjoint one adjoint fluxes and eigenvalues *)
Definition adjoint_only (r r' : reactor T) : Prop :=
  same_reactor r r' /\ rx_fwd r' = rx_fwd r /\ ms_nfwd (rx_mesh r') = ms_nfwd (rx_mesh r) /\
  keeps mt_temp (rx_mesh r) (rx_mesh r') /\ keeps mt_heat (rx_mesh r) (rx_mesh r') /\
  keeps mt_flux (rx_mesh r) (rx_mesh r') /\ keeps mt_totflux (rx_mesh r) (rx_mesh r').

Lemma setNewHeatSource_only vol en n result (r r' : reactor T) :
  setNewHeatSource mpi vol en n result r = Ok r' -> forward_only r r'.
Proof.
  intros H. unfold setNewHeatSource in H.
  destruct (bind_ok_inv _ _ _ H) as (t & _ & H1). destruct (bind_ok_inv _ _ _ H1) as (ms1 & E1 & H2).
  destruct (bind_ok_inv _ _ _ H2) as (p & _ & H3). destruct (bind_ok_inv _ _ _ H3) as (vm & _ & H4).
  destruct (negb (vlen p =? vlen vm)); [discriminate|].
  destruct (bind_ok_inv _ _ _ H4) as (ms2 & E2 & H5). injection H5 as <-.
  pose proof (setHeatSources_only _ _ _ E2) as (R2 & K2 & K3 & _ & K4 & K5).
  assert (R1 : rest ms1 = rest (rx_mesh r)) by (apply setters_rest; right; right; left; eauto).
  cbn [with_mesh with_fwd rx_mesh] in *.
  assert (C : forall A (f : material T -> A), (forall x m, f (set_flux x m) = f m) ->
     keeps f (setForwardEigenmodesNumber (zlen (er_modes result)) ms1) ms2 -> keeps f (rx_mesh r) ms2).
  { intros A f Hf Hk. pose proof (setNeutronFluxes_keeps f _ _ _ Hf E1) as K. unfold keeps in *.
    rewrite Hk. exact K. }
  unfold rest in R1, R2. cbn [setForwardEigenmodesNumber ms_bounds ms_geom ms_cells ms_groups ms_nfwd ms_nadj] in R2.
  injection R1 as b1 g1 c1 e1 f1 a1. injection R2 as b2 g2 c2 e2 f2 a2.
  unfold forward_only, same_reactor, same_input. cbn [with_mesh with_fwd rx_mesh rx_power rx_kin rx_ext rx_adj].
  repeat split; try congruence; (apply C; [reflexivity|assumption]).
Qed.

Lemma setAdjointModes_only en n result (r r' : reactor T) :
  setAdjointModes en n result r = Ok r' -> adjoint_only r r'.
Proof.
  intros H. unfold setAdjointModes in H.
  destruct (bind_ok_inv _ _ _ H) as (t & _ & H1). destruct (bind_ok_inv _ _ _ H1) as (ms1 & E1 & H2).
  injection H2 as <-.
  assert (R1 : rest ms1 = rest (rx_mesh r)) by (apply setters_rest; right; right; right; left; eauto).
  unfold rest in R1. injection R1 as b1 g1 c1 e1 f1 a1.
  unfold adjoint_only, same_reactor, same_input.
  cbn [with_mesh with_adj rx_mesh rx_power rx_kin rx_ext rx_fwd setAdjointEigenmodesNumber ms_bounds ms_geom ms_cells ms_groups ms_nfwd].
  assert (C : forall A (f : material T -> A), (forall x m, f (set_adj x m) = f m) ->
     keeps f (rx_mesh r) (setAdjointEigenmodesNumber (zlen (er_modes result)) ms1)).
  { intros A f Hf. exact (setAdjointFluxes_keeps f _ _ _ Hf E1). }
  repeat split; try congruence; (apply C; reflexivity).
Qed.

Variable solver : mat T -> vec T -> vec T.
Variable sort : list (T * vec T) -> list (T * vec T).
Variable eig : mat T -> mat T -> vec (T * T) * mat (T * T).
Variable croots : list T -> list (T * T).
Variables (expint3 bickley3f nexp nsqrt : T -> T).
Let solve := solve1 mpi solver sort eig croots expint3 bickley3f nexp nsqrt.

Definition solve_frame (sd : solverData T) (r r' : reactor T) : Prop :=
  match sd_kind sd with
  | HEAT => exists ms', r' = with_mesh ms' r /\ only_temp (rx_mesh r) ms'
  | TRANSPORT => forward_only r r'
  | DIFFUSION => match sd_dir sd with FORWARD => forward_only r r' | ADJOINT => adjoint_only r r' | DirUNDEFINED => r' = r end
  | _ => r' = r
  end.

Lemma solve_only sd r old r' : solve sd r = Ok (old, r') -> solve_frame sd r r'.
Proof.
  unfold solve, solve1, solve_frame. destruct (sd_kind sd); intros H; try discriminate.
  - congruence.
  - unfold spectrumSolve in H.
    destruct (bind_ok_inv _ _ _ H) as (o & _ & H1). destruct (bind_ok_inv _ _ _ H1) as ([[c M] F] & _ & H2).
    destruct (bind_ok_inv _ _ _ H2) as (vol & _ & H3). destruct (bind_ok_inv _ _ _ H3) as (res & _ & H4).
    destruct (bind_ok_inv _ _ _ H4) as (r2 & E & H5). injection H5 as _ <-. eapply setNewHeatSource_only; exact E.
  - destruct (bind_ok_inv _ _ _ H) as (o & _ & H1). congruence.
  - eapply heatSolve_only; exact H.
  - unfold diffusionSolve in H.
    destruct (bind_ok_inv _ _ _ H) as (o & _ & H1). destruct (bind_ok_inv _ _ _ H1) as (vol & _ & H2).
    destruct (bind_ok_inv _ _ _ H2) as ([M F] & _ & H3). destruct (bind_ok_inv _ _ _ H3) as (res & _ & H4).
    destruct (sd_dir sd).
    + congruence.
    + destruct (bind_ok_inv _ _ _ H4) as (r2 & E & H5). injection H5 as _ <-. eapply setNewHeatSource_only; exact E.
    + destruct (bind_ok_inv _ _ _ H4) as (r2 & E & H5). injection H5 as _ <-. eapply setAdjointModes_only; exact E.
  - congruence.
Qed.

Lemma only_temp_reactor r ms' : only_temp (rx_mesh r) ms' -> same_reactor r (with_mesh ms' r).
Proof. intros (A & B & _). split; [apply rest_input; assumption|auto]. Qed.
Lemma only_heat_reactor r ms' : only_heat (rx_mesh r) ms' -> same_reactor r (with_mesh ms' r).
Proof. intros (A & B & _). split; [apply rest_input; assumption|auto]. Qed.

Lemma solve_same sd r old r' : solve sd r = Ok (old, r') -> same_reactor r r'.
Proof.
  intros H. apply solve_only in H. unfold solve_frame in H.
  destruct (sd_kind sd); try (subst; apply same_reactor_refl).
  - apply H.
  - destruct H as (ms' & -> & H). apply only_temp_reactor; exact H.
  - destruct (sd_dir sd); [subst; apply same_reactor_refl| |]; apply H.
Qed.

Lemma relax_same sd par old r r' : relaxResults sd par old r = Ok r' -> same_reactor r r'.
Proof.
  unfold relaxResults. destruct (sd_kind sd); intros H; try discriminate;
    try (injection H as <-; apply same_reactor_refl).
  - destruct (relaxPowers_only _ _ _ _ H) as (ms' & -> & K). apply only_heat_reactor; exact K.
  - destruct (relaxTemperatures_only _ _ _ _ H) as (ms' & -> & K). apply only_temp_reactor; exact K.
  - destruct (relaxPowers_only _ _ _ _ H) as (ms' & -> & K). apply only_heat_reactor; exact K.
Qed.

Lemma half_same sd rel par r r' p :
  half_step mpi solver sort eig croots expint3 bickley3f nexp nsqrt sd rel par r r' p -> same_reactor r r'.
Proof.
  intros (old & r1 & E1 & _ & E3). apply solve_same in E1. destruct rel.
  - eapply same_reactor_trans; [exact E1|]. eapply relax_same; exact E3.
  - subst. exact E1.
Qed.

Lemma run_same s1 s2 par n st p q :
  coupled_run mpi solver sort eig croots expint3 bickley3f nexp nsqrt s1 s2 par n st p q ->
  forall i, (i <= n)%nat -> same_reactor (st 0%nat) (st i).
Proof.
  intros Run i. induction i as [|i IH]; intros Hi; [apply same_reactor_refl|].
  eapply same_reactor_trans; [apply IH; lia|].
  destruct (Run i ltac:(lia)) as (rm & H1 & H2).
  eapply same_reactor_trans; [eapply half_same; exact H1|eapply half_same; exact H2].
Qed.

(* the outcome of a coupled calculation comes from a run *)
Lemma doubleCalculation_run o pk solvers r oc :
  doubleCalculation mpi solver sort eig croots expint3 bickley3f nexp nsqrt o pk solvers r = Ok oc ->
  exists s1 s2 cs n st p q, lget solvers 0 = Ok s1 /\ lget solvers 1 = Ok s2 /\ getCoupledSolver solvers = Ok cs /\
    (1 <= n)%nat /\ Z.of_nat n <= sd_max cs /\
    coupled_run mpi solver sort eig croots expint3 bickley3f nexp nsqrt s1 s2 (sd_relax cs) n st p q /\
    st 0%nat = r /\ oc_reactor oc = st n /\
    converged (sd_acc cs) p q (n - 1) /\ (forall i, (i < n - 1)%nat -> unconverged (sd_acc cs) p q i) /\
    In (CRITICAL, ICount "Number of coupled iteration" (Z.of_nat n)) (oc_log oc).
Proof.
  intros H. unfold doubleCalculation in H.
  destruct (bind_ok_inv _ _ _ H) as (s1 & E1 & H1). destruct (bind_ok_inv _ _ _ H1) as (s2 & E2 & H2).
  destruct (bind_ok_inv _ _ _ H2) as (cs & E3 & H3). destruct (bind_ok_inv _ _ _ H3) as ([[[iter r'] l]|] & E4 & H4); [|discriminate].
  destruct (bind_ok_inv _ _ _ H4) as (a & _ & H5). destruct (bind_ok_inv _ _ _ H5) as (b & _ & H6).
  destruct (bind_ok_inv _ _ _ H6) as (pa & _ & H7). destruct (bind_ok_inv _ _ _ H7) as (pb & _ & H8).
  injection H8 as <-.
  destruct (loop_inv mpi solver sort eig croots expint3 bickley3f nexp nsqrt s1 s2 _ _ _ 0%nat _ _ _ _ _ _ E4 ltac:(tauto))
    as (n & st & p & q & Hn & Hit & S0 & Sn & _ & Run & Cv & Un).
  exists s1, s2, cs, n, st, p, q. do 4 (split; [solve [auto|lia]|]). split; [lia|]. split; [intros i Hi; apply Run; lia|].
  split; [exact S0|]. split; [symmetry; exact Sn|]. split; [exact Cv|]. split; [intros i Hi; apply Un; lia|].
  cbn [oc_log]. apply in_or_app. right. left. rewrite Hit. do 2 f_equal. lia.
Qed.

End Frame.
