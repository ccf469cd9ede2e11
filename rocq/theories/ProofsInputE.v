(* Lemmas on readData as a whole. *)
From Coq Require Import String Ascii ZArith List Bool Lia Arith.
From Verif Require Import Base BaseLemmas ModelNumTools ModelMesh ModelReactor ModelCalculation ModelText ModelInput
  ProofsInput ProofsInputB ProofsInputC ProofsInputD.
Import ListNotations.
Local Open Scope string_scope.
Local Open Scope Z_scope.

Section Reading.
Context {T : Type} {N : Num T}.
Variable mpi : T.
Variable stod_opt : string -> option T.
Notation kinds inp := (map sd_kind (in_solvers inp)).

Lemma here_in (l : list (solverData T)) k : isElementHere l k = true <-> In k (map sd_kind l).
Proof.
  unfold isElementHere. rewrite existsb_exists, in_map_iff. split.
  - intros (s & H1 & H2). apply kind_eqb_eq in H2. eauto.
  - intros (s & H1 & H2). exists s. split; [exact H2|]. apply kind_eqb_eq. exact H1.
Qed.

(* the parts of the input no reading of solver data touches *)
Definition fixed (inp inp' : input T) : Prop :=
  in_lines inp' = in_lines inp /\ in_map inp' = in_map inp /\ in_list inp' = in_list inp /\ in_plots inp' = in_plots inp.
Lemma fixed_refl inp : fixed inp inp.
Proof. repeat split. Qed.
Lemma fixed_trans a b c : fixed a b -> fixed b c -> fixed a c.
Proof. unfold fixed. intros (A1 & A2 & A3 & A4) (B1 & B2 & B3 & B4). repeat split; etransitivity; eassumption. Qed.

(* ---------- one turn of the loop over the solvers ---------- *)

Definition coupled_heat (ks : list SolverKind) : Prop := In HEAT ks /\ (In TRANSPORT ks \/ In DIFFUSION ks).

Section Rel.
Variable R : material T -> material T -> Prop.
Hypothesis Rrefl : forall m, R m m.
Hypothesis Rtrans : forall a b c, R a b -> R b c -> R a c.

Lemma readSolverInput_spec inp k inp' :
  (neutronic k = true -> forall name c mt, R mt (push_law name c mt)) ->
  (k = HEAT -> (forall c mt, R mt (set_cond c mt)) /\ (forall t mt, R mt (set_temp t mt)) /\
     ((~ In TRANSPORT (kinds inp) /\ ~ In DIFFUSION (kinds inp)) -> forall t mt, R mt (set_heat t mt))) ->
  readSolverInput stod_opt inp k = Ok inp' ->
  fixed inp inp' /\ in_solvers inp' = in_solvers inp /\ mats_rel R (in_mesh inp) (in_mesh inp') /\
  rx_fwd (in_rx inp') = rx_fwd (in_rx inp) /\ rx_adj (in_rx inp') = rx_adj (in_rx inp) /\ rx_ext (in_rx inp') = rx_ext (in_rx inp) /\
  (rx_kin (in_rx inp') = rx_kin (in_rx inp) \/ k = KINETICS) /\
  (rx_power (in_rx inp') = rx_power (in_rx inp) \/ (k = HEAT /\ (In TRANSPORT (kinds inp) \/ In DIFFUSION (kinds inp)))).
Proof.
  intros Hx Hh H.
  assert (P : forall k', (neutronic k' = true -> neutronic k = true) -> (k' = HEAT -> k = HEAT) ->
    forall a b, setMaterials stod_opt k' a = Ok b -> is_put R a b).
  { intros k' H1 H2 a b. apply setMaterials_rel; auto. intros E. apply Hh. auto. }
  assert (Q : forall b, is_put R inp b -> fixed inp b /\ in_solvers b = in_solvers inp /\ mats_rel R (in_mesh inp) (in_mesh b) /\
    rx_fwd (in_rx b) = rx_fwd (in_rx inp) /\ rx_adj (in_rx b) = rx_adj (in_rx inp) /\ rx_ext (in_rx b) = rx_ext (in_rx inp) /\
    rx_kin (in_rx b) = rx_kin (in_rx inp) /\ rx_power (in_rx b) = rx_power (in_rx inp)).
  { intros b (ms & -> & M). rewrite put_mesh_mesh. split; [repeat split|]. split; [reflexivity|]. split; [exact M|]. repeat split. }
  destruct k; cbn [readSolverInput] in H.
  - injection H as <-. destruct (Q inp (is_put_refl R Rrefl inp)) as (A & B & C & D & E & F & G & I). repeat (split; [assumption|]). auto.
  - apply (P COUPLED) in H; auto. destruct (Q _ H) as (A & B & C & D & E & F & G & I). repeat (split; [assumption|]). auto.
  - apply (P TRANSPORT) in H; auto. destruct (Q _ H) as (A & B & C & D & E & F & G & I). repeat (split; [assumption|]). auto.
  - unfold setKineticsParameters in H.
    repeat (apply bind_ok_inv in H; let x := fresh "x" in destruct H as (x & _ & H)).
    destruct (_ =? _); [|discriminate H]. injection H as <-.
    split; [repeat split|]. split; [reflexivity|]. split; [apply mats_rel_refl, Rrefl|]. cbn. auto 10.
  - destruct (Hh eq_refl) as (Hc & Ht & Hs). apply bind_ok_inv in H. destruct H as (inp1 & H1 & H).
    apply bind_ok_inv in H. destruct H as (inp2 & H2 & H3).
    assert (S : is_put R inp1 inp').
    { apply (is_put_trans R Rtrans inp1 inp2 inp'); [apply (P HEAT) in H2; auto|].
      apply (setTemperatures_rel stod_opt R) in H3; auto. }
    destruct (isElementHere (in_solvers inp) TRANSPORT || isElementHere (in_solvers inp) DIFFUSION)%bool eqn:Eh.
    + unfold setThermalPower in H1. apply bind_ok_inv in H1. destruct H1 as (w & _ & H1). apply bind_ok_inv in H1.
      destruct H1 as (p & _ & H1). injection H1 as <-. destruct S as (ms & -> & M).
      rewrite put_mesh_mesh. split; [repeat split|]. split; [reflexivity|]. split; [exact M|]. cbn.
      repeat (split; [auto|]). right. split; [reflexivity|]. apply orb_true_iff in Eh. rewrite !here_in in Eh. exact Eh.
    + apply orb_false_iff in Eh. destruct Eh as [E1 E2].
      assert (NT : ~ In TRANSPORT (kinds inp)) by (rewrite <- here_in, E1; discriminate).
      assert (ND : ~ In DIFFUSION (kinds inp)) by (rewrite <- here_in, E2; discriminate).
      apply (setHeatSources_rel stod_opt R) in H1; auto. apply (is_put_trans R Rtrans inp inp1 inp' H1) in S.
      destruct (Q _ S) as (A & B & C & D & E & F & G & I). repeat (split; [assumption|]). auto.
  - apply (P DIFFUSION) in H; auto. destruct (Q _ H) as (A & B & C & D & E & F & G & I). repeat (split; [assumption|]). auto.
  - apply (P ADS) in H; auto. destruct (Q _ H) as (A & B & C & D & E & F & G & I). repeat (split; [assumption|]). auto.
Qed.

Lemma readSolverInputs_spec (l : list (solverData T)) : forall inp inp',
  let ks := map sd_kind l in
  (forall k, In k ks -> In k (kinds inp)) ->
  ((exists k, In k (kinds inp) /\ neutronic k = true) -> forall name c mt, R mt (push_law name c mt)) ->
  (In HEAT (kinds inp) -> (forall c mt, R mt (set_cond c mt)) /\ (forall t mt, R mt (set_temp t mt)) /\
     ((~ In TRANSPORT (kinds inp) /\ ~ In DIFFUSION (kinds inp)) -> forall t mt, R mt (set_heat t mt))) ->
  foreach l (fun s inp => readSolverInput stod_opt inp (sd_kind s)) inp = Ok inp' ->
  fixed inp inp' /\ in_solvers inp' = in_solvers inp /\ mats_rel R (in_mesh inp) (in_mesh inp') /\
  rx_fwd (in_rx inp') = rx_fwd (in_rx inp) /\ rx_adj (in_rx inp') = rx_adj (in_rx inp) /\ rx_ext (in_rx inp') = rx_ext (in_rx inp) /\
  (rx_kin (in_rx inp') = rx_kin (in_rx inp) \/ In KINETICS ks) /\
  (rx_power (in_rx inp') = rx_power (in_rx inp) \/ coupled_heat (kinds inp)).
Proof.
  induction l as [|s l IH]; intros inp inp' ks Hin Hx Hh H.
  - injection H as <-. split; [apply fixed_refl|]. split; [reflexivity|]. split; [apply mats_rel_refl, Rrefl|]. auto 10.
  - cbn [foreach] in H. apply bind_ok_inv in H. destruct H as (inp1 & H1 & H2).
    assert (Hs : In (sd_kind s) (kinds inp)) by (apply Hin; left; reflexivity).
    apply readSolverInput_spec in H1; [|intros E; apply Hx; exists (sd_kind s); auto|intros E; apply Hh; rewrite <- E; exact Hs].
    destruct H1 as (A & B & C & D & E & F & G & I).
    apply IH in H2; [|intros k Hk; rewrite B; apply Hin; right; exact Hk|rewrite B; exact Hx|rewrite B; exact Hh].
    destruct H2 as (A' & B' & C' & D' & E' & F' & G' & I').
    split; [exact (fixed_trans _ _ _ A A')|]. split; [congruence|]. split; [exact (mats_rel_trans R _ _ _ Rtrans C C')|].
    split; [congruence|]. split; [congruence|]. split; [congruence|]. split.
    + destruct G' as [G'|G']; [|right; right; exact G']. destruct G as [G|G]; [left; congruence|right; left; exact G].
    + rewrite B in I'. destruct I' as [I'|I']; [|right; exact I']. destruct I as [I|[I1 I2]]; [left; congruence|].
      right. split; [rewrite <- I1; exact Hs|exact I2].
Qed.
End Rel.

(* ---------- what each turn needs ---------- *)

Definition kinetics_keys : list string :=
  ["generation_time"; "initial_power"; "delayed_constants"; "delayed_fractions"; "times"; "reactivities"].
Lemma setKineticsParameters_has inp inp' : setKineticsParameters stod_opt inp = Ok inp' ->
  (forall key, In key kinetics_keys -> has (in_lines inp) key) /\
  length (ks_times (rx_kin (in_rx inp'))) = length (ks_reacts (rx_kin (in_rx inp'))).
Proof.
  unfold setKineticsParameters. intros H.
  apply bind_ok_inv in H. destruct H as (x1 & H1 & H). apply bind_ok_inv in H. destruct H as (y1 & _ & H).
  apply bind_ok_inv in H. destruct H as (x2 & H2 & H). apply bind_ok_inv in H. destruct H as (y2 & _ & H).
  apply bind_ok_inv in H. destruct H as (x3 & H3 & H). apply bind_ok_inv in H. destruct H as (x4 & H4 & H).
  apply bind_ok_inv in H. destruct H as (x5 & H5 & H). apply bind_ok_inv in H. destruct H as (x6 & H6 & H).
  destruct (Z.eqb_spec (zlen x5) (zlen x6)) as [E|E]; [|discriminate H]. injection H as <-. split.
  - cbn. intros key K. repeat (destruct K as [<-|K]; [eauto using readOne_has, setMany_has|]). contradiction.
  - cbn. unfold zlen in E. lia.
Qed.
Lemma forMaterials_has (inp : input T) body inp' : forMaterials inp body = Ok inp' ->
  forall item, In item (in_list inp) -> has (in_lines inp) ("material " ++ item).
Proof.
  unfold forMaterials. intros H. apply bind_ok_inv in H. destruct H as (ms & H & _). revert H. generalize (in_mesh inp) at 2.
  induction (in_list inp) as [|x l IH]; intros m0 H item Hi; [contradiction|]. cbn [foreach] in H.
  apply bind_ok_inv in H. destruct H as (m1 & H1 & H2). apply bind_ok_inv in H1. destruct H1 as (w & H1 & _).
  destruct Hi as [<-|Hi]; [exact (readOne_has _ _ _ H1)|exact (IH _ H2 _ Hi)].
Qed.
Definition needs (inp : input T) (k : SolverKind) : Prop :=
  match k with
  | KINETICS => forall key, In key kinetics_keys -> has (in_lines inp) key
  | HEAT => has (in_lines inp) "temperatures" /\
      (In TRANSPORT (kinds inp) \/ In DIFFUSION (kinds inp) -> has (in_lines inp) "thermal_power") /\
      (~ In TRANSPORT (kinds inp) -> ~ In DIFFUSION (kinds inp) -> has (in_lines inp) "heat_sources") /\
      (forall item, In item (in_list inp) -> has (in_lines inp) ("material " ++ item))
  | TRANSPORT | DIFFUSION | ADS => forall item, In item (in_list inp) -> has (in_lines inp) ("material " ++ item)
  | _ => True
  end.
Lemma readSolverInput_needs inp k inp' : readSolverInput stod_opt inp k = Ok inp' -> needs inp k.
Proof.
  intros H. destruct k; cbn [readSolverInput needs] in *; try exact I.
  - apply bind_ok_inv in H. destruct H as (x & H & _). exact (forMaterials_has _ _ _ H).
  - apply setKineticsParameters_has in H. apply H.
  - apply bind_ok_inv in H. destruct H as (inp1 & H1 & H). apply bind_ok_inv in H. destruct H as (inp2 & H2 & H3).
    assert (E1 : in_lines inp1 = in_lines inp /\ in_list inp1 = in_list inp).
    { destruct (_ || _)%bool.
      - apply bind_ok_inv in H1. destruct H1 as (w & _ & H1). apply bind_ok_inv in H1. destruct H1 as (p & _ & H1).
        injection H1 as <-. auto.
      - apply bind_ok_inv in H1. destruct H1 as (w & _ & H1). apply bind_ok_inv in H1. destruct H1 as (p & _ & H1).
        injection H1 as <-. auto. }
    assert (E2 : in_lines inp2 = in_lines inp1).
    { unfold setMaterials, setMaterialProperties, forMaterials in H2. apply bind_ok_inv in H2. destruct H2 as (ms & _ & H2).
      injection H2 as <-. reflexivity. }
    destruct E1 as [E1 E1']. split; [|split; [|split]].
    + apply bind_ok_inv in H3. destruct H3 as (ts & H3 & _). apply setMany_has in H3. congruence.
    + intros Hk. rewrite <- !here_in in Hk. apply orb_true_iff in Hk. rewrite Hk in H1.
      apply bind_ok_inv in H1. destruct H1 as (w & H1 & _). exact (readOne_has _ _ _ H1).
    + intros N1 N2. rewrite <- here_in in N1, N2.
      destruct (isElementHere (in_solvers inp) TRANSPORT); [exfalso; auto|].
      destruct (isElementHere (in_solvers inp) DIFFUSION); [exfalso; auto|]. cbn in H1.
      apply bind_ok_inv in H1. destruct H1 as (w & H1 & _). exact (setMany_has _ _ _ _ H1).
    + rewrite <- E1, <- E1'. exact (forMaterials_has _ _ _ H2).
  - apply bind_ok_inv in H. destruct H as (x & H & _). exact (forMaterials_has _ _ _ H).
  - apply bind_ok_inv in H. destruct H as (x & H & _). exact (forMaterials_has _ _ _ H).
Qed.
Lemma needs_same inp inp' k : fixed inp inp' -> kinds inp' = kinds inp -> needs inp k -> needs inp' k.
Proof. intros (A & _ & B & _) E. unfold needs. rewrite A, B, E. auto. Qed.
Lemma readSolverInputs_needs (l : list (solverData T)) : forall inp inp',
  foreach l (fun s inp => readSolverInput stod_opt inp (sd_kind s)) inp = Ok inp' ->
  forall k, In k (map sd_kind l) -> needs inp k.
Proof.
  induction l as [|s l IH]; intros inp inp' H k Hk; [contradiction|]. cbn [foreach] in H.
  apply bind_ok_inv in H. destruct H as (inp1 & H1 & H2).
  pose proof (readSolverInput_needs _ _ _ H1) as Nd.
  apply (readSolverInput_spec (fun _ _ => True)) in H1; auto. destruct H1 as (A & B & _).
  destruct Hk as [<-|Hk]; [exact Nd|]. specialize (IH _ _ H2 k Hk).
  apply (needs_same inp1 inp k); [destruct A as (A1 & A2 & A3 & A4); repeat split; symmetry; assumption|rewrite B; reflexivity|exact IH].
Qed.
(* the kinetics data of an accepted run come from one kinetics turn *)
Lemma readSolverInputs_kinetics (l : list (solverData T)) : forall inp inp',
  foreach l (fun s inp => readSolverInput stod_opt inp (sd_kind s)) inp = Ok inp' ->
  In KINETICS (map sd_kind l) ->
  length (ks_times (rx_kin (in_rx inp'))) = length (ks_reacts (rx_kin (in_rx inp'))).
Proof.
  induction l as [|s l IH] using rev_ind; intros inp inp' H Hk; [contradiction|].
  rewrite foreach_app in H. apply bind_ok_inv in H. destruct H as (inp1 & H1 & H2).
  cbn [foreach] in H2. apply bind_ok_inv in H2. destruct H2 as (inp2 & H2 & E). injection E as ->.
  rewrite map_app, in_app_iff in Hk. cbn in Hk.
  destruct (kind_eqb (sd_kind s) KINETICS) eqn:Es.
  - apply kind_eqb_eq in Es. rewrite Es in H2. cbn in H2. apply setKineticsParameters_has in H2. apply H2.
  - apply (readSolverInput_spec (fun _ _ => True)) in H2; auto. destruct H2 as (_ & _ & _ & _ & _ & _ & G & _).
    assert (Ns : sd_kind s <> KINETICS) by (intros F; rewrite F in Es; discriminate).
    destruct G as [G|G]; [|contradiction]. rewrite G. apply (IH inp); [exact H1|]. tauto.
Qed.

(* ---------- the chain of properties ---------- *)

Inductive chain : list (string * SolverKind) -> input T -> input T -> Prop :=
| chain_nil a : chain [] a a
| chain_cons name k l a b c : setSolverProperties stod_opt name k a = Ok b -> chain l b c -> chain ((name, k) :: l) a c.

Definition base_properties : list (string * SolverKind) :=
  [("accuracy", SolUNDEFINED); ("max_iteration_number", SolUNDEFINED);
   ("albedo", TRANSPORT); ("albedo", DIFFUSION); ("albedo", ADS); ("heat_boundary_conditions", HEAT);
   ("energies", TRANSPORT); ("energies", DIFFUSION); ("energies", ADS); ("direction", DIFFUSION);
   ("eigenmodes", TRANSPORT); ("eigenmodes", DIFFUSION); ("ext_source", ADS)].
(* the properties read for a solver list *)
Definition properties (ks : list SolverKind) (l : list (string * SolverKind)) : Prop :=
  (((In TRANSPORT ks \/ In DIFFUSION ks) /\ In HEAT ks /\ In COUPLED ks) /\
     l = (base_properties ++ [("relaxation_parameter", COUPLED)])%list) \/
  (~ ((In TRANSPORT ks \/ In DIFFUSION ks) /\ In HEAT ks /\ In COUPLED ks) /\ l = base_properties).

Definition mesh_stage (a b : input T) : Prop :=
  ((exists k, In k [TRANSPORT; DIFFUSION; ADS; HEAT] /\ In k (kinds a)) /\
     exists g, setGeometryKind a = Ok g /\ setMesh mpi stod_opt g = Ok b) \/
  ((forall k, In k [TRANSPORT; DIFFUSION; ADS; HEAT] -> ~ In k (kinds a)) /\ b = a).

Lemma chain_app l1 l2 a b c : chain l1 a b -> chain l2 b c -> chain (l1 ++ l2)%list a c.
Proof. induction 1; intros H'; [exact H'|]. cbn. econstructor; eauto. Qed.

Lemma setMesh_solvers inp inp' : setMesh mpi stod_opt inp = Ok inp' ->
  in_solvers inp' = in_solvers inp /\ in_lines inp' = in_lines inp /\ in_plots inp' = in_plots inp /\
  rx_power (in_rx inp') = rx_power (in_rx inp) /\ rx_fwd (in_rx inp') = rx_fwd (in_rx inp) /\
  rx_adj (in_rx inp') = rx_adj (in_rx inp) /\ rx_kin (in_rx inp') = rx_kin (in_rx inp) /\ rx_ext (in_rx inp') = rx_ext (in_rx inp) /\
  ms_geom (in_mesh inp') = ms_geom (in_mesh inp) /\ ms_groups (in_mesh inp') = ms_groups (in_mesh inp) /\
  has (in_lines inp) "mesh" /\
  exists names, ms_mats (in_mesh inp') = map newMaterial names.
Proof.
  unfold setMesh. intros H. apply bind_ok_inv in H. destruct H as (values & Hv & H).
  apply bind_ok_inv in H. destruct H as ([[ns xs] mts] & _ & H). cbv zeta in H.
  apply bind_ok_inv in H. destruct H as (b & _ & H). apply bind_ok_inv in H. destruct H as (v & _ & H).
  apply bind_ok_inv in H. destruct H as (nms & _ & H). apply bind_ok_inv in H. destruct H as (ms & Hc & H).
  apply bind_ok_inv in H. destruct H as (u & _ & H). apply bind_ok_inv in H. destruct H as (v' & _ & H). injection H as <-.
  unfold createMaterials in Hc. apply bind_ok_inv in Hc. destruct Hc as (l & Hl & Hc). injection Hc as <-.
  unfold in_mesh. cbn. repeat (split; [reflexivity|]). split; [exact (readMany_has _ _ _ Hv)|].
  assert (G : forall n lo (l l' : list (material T)), (exists nms', l = map newMaterial nms') ->
    iter_up n lo (fun i l => n <- lget nms i ;; lset l i (newMaterial n)) l = Ok l' -> exists nms', l' = map newMaterial nms').
  { induction n as [|n IH]; intros lo l0 l' [nm ->] E; cbn in E; [injection E as <-; eauto|].
    apply bind_ok_inv in E. destruct E as (l1 & E1 & E2). apply bind_ok_inv in E1. destruct E1 as (x & _ & E1).
    apply (IH (lo + 1) l1 l'); [|exact E2]. unfold lset in E1. destruct (inb _ _); [|discriminate E1]. injection E1 as <-.
    exists (list_upd nm (Z.to_nat lo) x). generalize (Z.to_nat lo). clear.
    induction nm as [|y nm IH]; intros k; [reflexivity|]. destruct k as [|k]; [reflexivity|]. cbn. rewrite IH. reflexivity. }
  refine (G _ _ _ _ _ Hl). exists (repeat "" (Z.to_nat (ms_cells (setBoundaries b (in_mesh inp))))).
  generalize (Z.to_nat (ms_cells (setBoundaries b (in_mesh inp)))). intros n. induction n as [|n IH]; [reflexivity|].
  cbn. rewrite <- IH. reflexivity.
Qed.
Lemma setGeometryKind_spec inp inp' : setGeometryKind inp = Ok inp' ->
  exists g, In g [SLAB; CYLINDER; SPHERE] /\ inp' = put_mesh (setMeshKind g (in_mesh inp)) (inp : input T) /\ has (in_lines inp) "geometry".
Proof.
  unfold setGeometryKind. intros H. apply bind_ok_inv in H. destruct H as (w & Hw & H). apply readOne_has in Hw.
  repeat match type of H with (if ?b then _ else _) = _ => destruct b end; try discriminate H; injection H as <-; eexists;
    (split; [|split; [reflexivity|exact Hw]]); cbn; tauto.
Qed.

Lemma readLines_stages inp inp' : readLines mpi stod_opt inp = Ok inp' ->
  exists a b c d l, setSolvers inp = Ok a /\ mesh_stage a b /\ properties (kinds a) l /\ chain l b c /\
    foreach (in_solvers c) (fun s inp => readSolverInput stod_opt inp (sd_kind s)) c = Ok d /\ setPlots d = Ok inp'.
Proof.
  unfold readLines. intros H. apply bind_ok_inv in H. destruct H as (a & Ha & H). cbv zeta in H.
  apply bind_ok_inv in H. destruct H as (b & Hb & H).
  do 13 (apply bind_ok_inv in H; let x := fresh "x" in let E := fresh "Q" in destruct H as (x & E & H)).
  apply bind_ok_inv in H. destruct H as (c & Hc & H). apply bind_ok_inv in H. destruct H as (d & Hd & H).
  assert (CH : chain base_properties b x11) by (repeat (econstructor; [eassumption|]); constructor).
  assert (MS : mesh_stage a b).
  { destruct (isElementHere (in_solvers a) TRANSPORT || isElementHere (in_solvers a) DIFFUSION ||
              isElementHere (in_solvers a) ADS || isElementHere (in_solvers a) HEAT)%bool eqn:E.
    - left. rewrite !orb_true_iff, !here_in in E. split.
      + destruct E as [[[E|E]|E]|E]; eexists; (split; [|exact E]); cbn; auto.
      + apply bind_ok_inv in Hb. destruct Hb as (g & H1 & H2). eauto.
    - right. injection Hb as <-. split; [|reflexivity]. rewrite !orb_false_iff in E.
      intros k Hk F. apply here_in in F. cbn in Hk. destruct E as [[[E1' E2'] E3'] E4'].
      destruct Hk as [<-|[<-|[<-|[<-|[]]]]]; congruence. }
  destruct ((isElementHere (in_solvers a) TRANSPORT || isElementHere (in_solvers a) DIFFUSION) &&
              isElementHere (in_solvers a) HEAT && isElementHere (in_solvers a) COUPLED)%bool eqn:E'.
  - exists a, b, c, d, (base_properties ++ [("relaxation_parameter", COUPLED)])%list.
    split; [exact Ha|]. split; [exact MS|]. split.
    { left. rewrite !andb_true_iff, orb_true_iff, !here_in in E'. tauto. }
    split; [|split; assumption]. apply (chain_app _ _ _ _ _ CH). econstructor; [exact Hc|constructor].
  - injection Hc as <-. exists a, b, x11, d, base_properties. split; [exact Ha|]. split; [exact MS|]. split.
    { right. split; [|reflexivity]. intros F. rewrite <- !here_in in F.
      assert (G : ((isElementHere (in_solvers a) TRANSPORT || isElementHere (in_solvers a) DIFFUSION) &&
              isElementHere (in_solvers a) HEAT && isElementHere (in_solvers a) COUPLED)%bool = true)
        by (rewrite !andb_true_iff, orb_true_iff; tauto). congruence. }
    split; [exact CH|]. split; assumption.
Qed.

Lemma chain_kinds l a b : chain l a b -> kinds b = kinds a.
Proof.
  induction 1 as [|name k l a b c H _ IH]; [reflexivity|]. rewrite IH.
  apply setSolverProperties_spec in H. destruct H as (_ & _ & _ & _ & _ & _ & H). exact (property_steps_kinds _ _ _ _ _ _ _ H).
Qed.
Lemma chain_same l a b : chain l a b -> fixed a b /\ rx_same (in_rx a) (in_rx b) /\
  (rx_ext (in_rx b) = rx_ext (in_rx a) \/ In ADS (kinds a)).
Proof.
  induction 1 as [a|name k l a b c H HC IH]; [split; [apply fixed_refl|split; [apply rx_same_refl|auto]]|].
  destruct IH as (A & B & C). apply setSolverProperties_spec in H. destruct H as (H1 & H2 & H3 & H4 & H5 & H6 & H7).
  split; [apply (fixed_trans a b c); [repeat split; assumption|exact A]|].
  split; [exact (rx_same_trans _ _ _ H5 B)|]. rewrite (property_steps_kinds _ _ _ _ _ _ _ H7) in C.
  destruct C as [C|C]; [|right; exact C]. destruct H6 as [H6|[_ H6]]; [left; congruence|right; exact H6].
Qed.
(* every requested property of every solver was found *)
Lemma chain_words l a b : chain l a b -> forall name k k', In (name, k) l -> In k' (kinds a) ->
  k = SolUNDEFINED \/ k = k' -> exists values, propertyWords (in_lines a) name k' = Ok values.
Proof.
  induction 1 as [|name k l a b c H HC IH]; intros nm q k' Hi Hk Hs; [contradiction|].
  pose proof H as H'. apply setSolverProperties_spec in H'. destruct H' as (L & _ & _ & _ & _ & _ & H7).
  destruct Hi as [E|Hi].
  - injection E as <- <-. apply in_map_iff in Hk. destruct Hk as (s & <- & Hk).
    clear -H7 Hk Hs. induction H7 as [|s0 s1 l l' P _ IH]; [contradiction|].
    destruct Hk as [<-|Hk]; [|exact (IH Hk)]. destruct P as [[P _]|(_ & values & r1 & r2 & P & _)]; [|solve [eauto]].
    exfalso. unfold selected in P. apply orb_false_iff in P. destruct P as [P1 P2].
    destruct Hs as [-> | ->]; [discriminate P1|]. destruct (sd_kind s0); discriminate P2.
  - rewrite <- L. apply (IH nm q k' Hi); [|exact Hs]. rewrite (property_steps_kinds _ _ _ _ _ _ _ H7). exact Hk.
Qed.

(* ---------- albedos ---------- *)

Definition good (g : GeomKind) (s : solverData T) : Prop :=
  neutronic (sd_kind s) = true -> length (sd_albedo s) = arity (sd_kind s) g.
Lemma step_good lines name k g s s' : property_step stod_opt lines name k g s s' -> good g s -> good g s'.
Proof.
  intros [[_ ->]|(Es & v & r1 & r2 & _ & H & Hg)] G; [exact G|]. apply applyProperty_spec in H.
  destruct H as (A & _ & _ & B & _). intros Hn. rewrite A in *. destruct B as [->|(B1 & B2 & _)]; [exact (G Hn)|].
  rewrite B2, Hg. unfold selected in Es. apply orb_true_iff in Es. destruct Es as [Es|Es]; apply kind_eqb_eq in Es.
  - rewrite Es in B1. discriminate B1.
  - rewrite Es. reflexivity.
Qed.
Lemma step_sets lines k g s s' : property_step stod_opt lines "albedo" k g s s' -> sd_kind s = k ->
  (forall values, propertyWords lines "albedo" k = Ok values -> exists rest, values = "albedo" :: rest /\ (length rest <= 2)%nat) ->
  good g s'.
Proof.
  intros H Ek Hv. destruct H as [[Es _]|(_ & v & r1 & r2 & P & H & Hg)].
  - exfalso. unfold selected in Es. rewrite Ek in Es. apply orb_false_iff in Es. destruct Es as [_ Es]. destruct k; discriminate Es.
  - apply applyProperty_spec in H. destruct H as (A & _ & _ & _ & B & _). rewrite Ek in P. specialize (B (Hv v P)).
    intros _. rewrite A, Ek. rewrite <- Hg. apply B.
Qed.
Lemma chain_good l a b : chain l a b -> Forall (good (ms_geom (in_mesh a))) (in_solvers a) ->
  Forall (good (ms_geom (in_mesh b))) (in_solvers b).
Proof.
  induction 1 as [|name k l a b c H _ IH]; intros G; [exact G|]. apply IH.
  apply setSolverProperties_spec in H. destruct H as (_ & _ & _ & _ & H5 & _ & H7).
  assert (Eg : ms_geom (in_mesh b) = ms_geom (in_mesh a)) by apply H5. rewrite Eg.
  clear -H7 G. induction H7 as [|s s' l l' P _ IH]; [constructor|]. inversion G; subst. constructor; [|auto].
  exact (step_good _ _ _ _ _ _ P H1).
Qed.
(* with the albedo lines of the diffusion and the ads solver in order *)
Lemma chain_albedo l a b : chain l a b ->
  (forall k values, propertyWords (in_lines a) "albedo" k = Ok values -> exists rest, values = "albedo" :: rest /\ (length rest <= 2)%nat) ->
  forall done : list SolverKind,
  Forall (fun s => In (sd_kind s) done -> good (ms_geom (in_mesh a)) s) (in_solvers a) ->
  Forall (fun s => In (sd_kind s) done \/ In ("albedo", sd_kind s) l -> good (ms_geom (in_mesh b)) s) (in_solvers b).
Proof.
  induction 1 as [|name k l a b c H _ IH]; intros W done G.
  - eapply Forall_impl; [|exact G]. cbn. tauto.
  - apply setSolverProperties_spec in H. destruct H as (HL & _ & _ & _ & H5 & _ & H7).
    assert (Eg : ms_geom (in_mesh b) = ms_geom (in_mesh a)) by apply H5.
    rewrite <- HL in W. destruct (string_dec name "albedo") as [->|Hne].
    + specialize (IH W (k :: done)). rewrite Eg in IH. eapply Forall_impl; [|apply IH].
      * cbn. intros s Hs Hd. apply Hs. destruct Hd as [Hd|[Hd|Hd]]; [auto| |auto]. injection Hd as Hd. auto.
      * clear IH. rewrite HL in W. clear -H7 G W. induction H7 as [|s s' l l' P _ IH]; [constructor|].
        inversion G; subst. constructor; [|auto]. intros [Hk|Hk].
        -- apply (step_sets _ _ _ _ _ P); [|exact (W k)]. rewrite <- (property_step_kind _ _ _ _ _ _ _ P). auto.
        -- apply (step_good _ _ _ _ _ _ P). apply H1. rewrite <- (property_step_kind _ _ _ _ _ _ _ P). exact Hk.
    + specialize (IH W done). rewrite Eg in IH. eapply Forall_impl; [|apply IH].
      * cbn. intros s Hs Hd. apply Hs. destruct Hd as [Hd|[Hd|Hd]]; auto. injection Hd as Hd _. congruence.
      * clear -H7 G. induction H7 as [|s s' l l' P _ IH]; [constructor|].
        inversion G; subst. constructor; [|auto]. intros Hk. apply (step_good _ _ _ _ _ _ P). apply H1.
        rewrite <- (property_step_kind _ _ _ _ _ _ _ P). exact Hk.
Qed.
End Reading.
