(* What the log file shows of a calculation: C83, C84. *)
From Coq Require Import String ZArith List Bool Lia Arith Reals Lra.
From Verif Require Import Base BaseLemmas NumR NumF ModelNumTools ModelEigen ModelMesh ModelReactor ModelDiffusion ModelHeat
  ModelSpectrum ModelKinetics ModelOutput ModelCalculation ModelLog ProofsNumTools ProofsMesh ProofsCoupled ProofsFrame ProofsReport PropsCalculation.
Import ListNotations.
Local Open Scope string_scope.
Local Open Scope Z_scope.

(* ---------- C83 ---------- *)

Section Report.
Context {T : Type} {N : Num T}.
Variable fmt : T -> string.
Variable zfmt : Z -> string.
Variable thr : TraceLevel.

(* one line per cell, the cells in order *)
Definition perCell (get : material T -> T) (r : reactor T) : list string :=
  map (fun m => fmt (get m)) (firstn (Z.to_nat (ms_cells (rx_mesh r))) (ms_mats (rx_mesh r))).

(* the temperatures stored in the reactor *)
Definition heatReport (r : reactor T) : list string :=
  ("Final temperatures [C]:" :: perCell (fun m => mt_temp m) r ++ [" "])%list.

(* mode n of a field, group after group *)
Definition modeReport (field : material T -> mat T) (n : Z) (r : reactor T) : list string :=
  (flat_map (fun g => perCell (fun m => mat_at (field m) g n) r) (zrange 0 (ms_groups (rx_mesh r))) ++ [" "])%list.

(* the fundamental eigenvalue and mode *)
Definition fluxReport (title : string) (k : T) (field : material T -> mat T) (r : reactor T) : list string :=
  (("Fundamental K-factor: " ++ fmt k)%string :: title :: modeReport field 0 r)%list.

(* every eigenvalue with its mode, when there is more than one *)
Definition modesReport (what : string) (ev : list T) (field : material T -> mat T) (r : reactor T) : list string :=
  if 1 <? zlen ev then
    flat_map (fun n => (("Eigenvalue: " ++ fmt (nth (Z.to_nat n) ev n0))%string ::
      (what ++ " " ++ zfmt (n + 1))%string :: modeReport field n r)%list) (zrange 0 (zlen ev))
  else [].

(* the power densities, when the largest one is not zero *)
Definition powerReport (r : reactor T) : list string :=
  match maxCoeff (map (fun m => mt_heat m) (firstn (Z.to_nat (ms_cells (rx_mesh r))) (ms_mats (rx_mesh r)))) with
  | Ok m => if is_greater m n0 then ("Thermal power density [W/m3]:" :: perCell (fun m => mt_heat m) r ++ [" "])%list else []
  | _ => []
  end.

Definition forward_title := "Fundamental Neutron Flux [1/(cm2*s)]:".
Definition adjoint_title := "Fundamental Adjoint Flux [arbitrary]:".

(* the results of one solver, from the reactor it left *)
Definition results (sd : solverData T) (r : reactor T) : list string :=
  match sd_kind sd with
  | HEAT => heatReport r
  | TRANSPORT => (fluxReport forward_title (hd n0 (rx_fwd r)) (fun m => mt_flux m) r ++ powerReport r)%list
  | DIFFUSION =>
      (match sd_dir sd with
       | FORWARD => fluxReport forward_title (hd n0 (rx_fwd r)) (fun m => mt_flux m) r
       | ADJOINT => fluxReport adjoint_title (hd n0 (rx_adj r)) (fun m => mt_adj m) r
       | DirUNDEFINED => []
       end ++ powerReport r)%list
  | _ => []
  end.

Definition modes (sd : solverData T) (r : reactor T) : list string :=
  match sd_kind sd with
  | TRANSPORT => modesReport "Neutron Flux" (rx_fwd r) (fun m => mt_flux m) r
  | DIFFUSION =>
      match sd_dir sd with
      | FORWARD => modesReport "Neutron Flux" (rx_fwd r) (fun m => mt_flux m) r
      | ADJOINT => modesReport "Adjoint Flux" (rx_adj r) (fun m => mt_adj m) r
      | DirUNDEFINED => []
      end
  | _ => []
  end.

Lemma power_lines r l : printPower CRITICAL r = Ok l -> logLines fmt zfmt thr l = powerReport r.
Proof.
  unfold printPower, powerReport. intros H. destruct (bind_ok_inv _ _ _ H) as (p & Ep & H1).
  apply getHeatSources_inv in Ep as [_ Ep]. unfold cellsOf in Ep. destruct (bind_ok_inv _ _ _ H1) as (m & Em & H2).
  rewrite Ep in Em. rewrite Em. destruct (is_greater m n0); injection H2 as <-; [|reflexivity].
  cbn [logLines flat_map fst snd itemLines printVector]. rewrite shown_critical, Ep, map_map. cbn [app]. rewrite app_nil_r. reflexivity.
Qed.
Lemma forward_lines r l : printForward CRITICAL r = Ok l ->
  logLines fmt zfmt thr l = fluxReport forward_title (hd n0 (rx_fwd r)) (fun m => mt_flux m) r.
Proof.
  unfold printForward. intros H. destruct (bind_ok_inv _ _ _ H) as (k & Ek & H1). destruct (bind_ok_inv _ _ _ H1) as (f & Ef & H2).
  injection H2 as <-. unfold getKFactor in Ek. destruct (rx_fwd r) as [|k' tl]; [discriminate|]. injection Ek as ->.
  apply (fundamental_inv fmt) in Ef. cbn [logLines flat_map fst snd itemLines]. rewrite shown_critical, Ef. cbn [app hd].
  rewrite app_nil_r. reflexivity.
Qed.

Lemma results_lines sd r l : printResults sd CRITICAL r = Ok l -> logLines fmt zfmt thr l = results sd r.
Proof.
  unfold printResults, results. intros H. destruct (sd_kind sd); try discriminate; try (injection H as <-; reflexivity).
  - destruct (bind_ok_inv _ _ _ H) as (a & Ea & H1). destruct (bind_ok_inv _ _ _ H1) as (b & Eb & H2). injection H2 as <-.
    rewrite logLines_app. f_equal; [apply forward_lines|apply power_lines]; assumption.
  - destruct (bind_ok_inv _ _ _ H) as (t & Et & H1). injection H1 as <-. apply getTemperatures_inv in Et as [_ Et].
    cbn [logLines flat_map fst snd itemLines printVector]. rewrite shown_critical, Et, map_map. cbn [app]. rewrite app_nil_r. reflexivity.
  - destruct (bind_ok_inv _ _ _ H) as (a & Ea & H1). destruct (bind_ok_inv _ _ _ H1) as (b & Eb & H2). injection H2 as <-.
    rewrite logLines_app. f_equal; [|apply power_lines; assumption]. destruct (sd_dir sd).
    + injection Ea as <-. reflexivity.
    + apply forward_lines. exact Ea.
    + destruct (bind_ok_inv _ _ _ Ea) as (k & Ek & Ea1). destruct (bind_ok_inv _ _ _ Ea1) as (f & Ef & Ea2). injection Ea2 as <-.
      unfold getAdjointKFactor in Ek. destruct (rx_adj r) as [|k' tl]; [discriminate|]. injection Ek as ->.
      apply (fundamental_inv fmt) in Ef. cbn [logLines flat_map fst snd itemLines]. rewrite shown_critical, Ef. cbn [app hd].
      rewrite app_nil_r. reflexivity.
Qed.

Lemma modes_lines what ev field nm r t l : nm = zlen ev -> get_modes field nm (rx_mesh r) = Ok t ->
  printModes CRITICAL what t ev = Ok l -> 1 <? zlen ev = true ->
  logLines fmt zfmt thr l = modesReport what ev field r.
Proof.
  intros -> Et El Hl. unfold modesReport. rewrite Hl. pose proof (zlen_nonneg ev) as Hz.
  destruct (modes_inv fmt zfmt field (zlen ev) (rx_mesh r) t Hz Et) as [Ht Hm].
  destruct (printModes_inv fmt zfmt thr what t ev l ltac:(lia) El) as [_ G]. rewrite (G n0), Ht.
  apply flat_map_ext_in. intros n Hn. apply zrange_In in Hn. rewrite Hm by exact Hn. reflexivity.
Qed.

Lemma eigenmodes_lines sd r l :
  (sd_kind sd = TRANSPORT \/ sd_kind sd = DIFFUSION /\ sd_dir sd = FORWARD -> ms_nfwd (rx_mesh r) = zlen (rx_fwd r)) ->
  (sd_kind sd = DIFFUSION /\ sd_dir sd = ADJOINT -> ms_nadj (rx_mesh r) = zlen (rx_adj r)) ->
  printEigenmodesResults sd CRITICAL r = Ok l -> logLines fmt zfmt thr l = modes sd r.
Proof.
  intros Hf Ha. unfold printEigenmodesResults, modes. intros H. destruct (sd_kind sd) eqn:K; try discriminate; try (injection H as <-; reflexivity).
  - specialize (Hf (or_introl eq_refl)). destruct (bind_ok_inv _ _ _ H) as (t & Et & H1). unfold getNeutronFluxes in Et. rewrite Hf in Et.
    pose proof (zlen_nonneg (rx_fwd r)) as Hz. destruct (modes_inv fmt zfmt _ _ _ _ Hz Et) as [Ht _]. rewrite Ht in H1.
    destruct (Z.leb_spec (zlen (rx_fwd r)) 1) as [Hl|Hl].
    + injection H1 as <-. unfold modesReport. replace (1 <? zlen (rx_fwd r)) with false by lia. reflexivity.
    + exact (modes_lines _ _ _ _ _ _ _ eq_refl Et H1 ltac:(lia)).
  - destruct (sd_dir sd) eqn:D.
    + cbn [bind] in H. change (zlen (@nil T)) with 0 in H. cbn in H. injection H as <-. reflexivity.
    + specialize (Hf (or_intror (conj eq_refl eq_refl))). destruct (bind_ok_inv _ _ _ H) as ([t ev] & Et & H1).
      destruct (bind_ok_inv _ _ _ Et) as (t' & Et' & E2). injection E2 as -> <-. unfold getNeutronFluxes in Et'.
      destruct (1 <? zlen (rx_fwd r)) eqn:Hl.
      * exact (modes_lines _ _ _ _ _ _ _ Hf Et' H1 Hl).
      * injection H1 as <-. unfold modesReport. rewrite Hl. reflexivity.
    + specialize (Ha (conj eq_refl eq_refl)). destruct (bind_ok_inv _ _ _ H) as ([t ev] & Et & H1).
      destruct (bind_ok_inv _ _ _ Et) as (t' & Et' & E2). injection E2 as -> <-. unfold getAdjointFluxes in Et'.
      destruct (1 <? zlen (rx_adj r)) eqn:Hl.
      * exact (modes_lines _ _ _ _ _ _ _ Ha Et' H1 Hl).
      * injection H1 as <-. unfold modesReport. rewrite Hl. reflexivity.
Qed.

Variable mpi : T.
Variable solver : mat T -> vec T -> vec T.
Variable sort : list (T * vec T) -> list (T * vec T).
Variable eig : mat T -> mat T -> vec (T * T) * mat (T * T).
Variable croots : list T -> list (T * T).
Variables expint3 bickley3f nexp nsqrt : T -> T.
Variable to_unsigned : T -> res Z.
Let run := problemSolve mpi solver sort eig croots expint3 bickley3f nexp nsqrt to_unsigned.
Let lines := logLines fmt zfmt thr.

Lemma solve1_modes sd r old r' : solve1 mpi solver sort eig croots expint3 bickley3f nexp nsqrt sd r = Ok (old, r') ->
  (sd_kind sd = TRANSPORT \/ sd_kind sd = DIFFUSION /\ sd_dir sd = FORWARD -> ms_nfwd (rx_mesh r') = zlen (rx_fwd r')) /\
  (sd_kind sd = DIFFUSION /\ sd_dir sd = ADJOINT -> ms_nadj (rx_mesh r') = zlen (rx_adj r')).
Proof.
  unfold solve1. intros H. split.
  - intros [K|[K D]]; rewrite K in H.
    + unfold spectrumSolve in H. destruct (bind_ok_inv _ _ _ H) as (o & _ & H1). destruct (bind_ok_inv _ _ _ H1) as ([[x M] F] & _ & H2).
      destruct (bind_ok_inv _ _ _ H2) as (v & _ & H3). destruct (bind_ok_inv _ _ _ H3) as (e & _ & H4).
      destruct (bind_ok_inv _ _ _ H4) as (r1 & E & H5). injection H5 as <- <-. exact (setNewHeatSource_modes _ _ _ _ _ _ _ E).
    + unfold diffusionSolve in H. destruct (bind_ok_inv _ _ _ H) as (o & _ & H1). destruct (bind_ok_inv _ _ _ H1) as (v & _ & H2).
      destruct (bind_ok_inv _ _ _ H2) as ([M F] & _ & H3). destruct (bind_ok_inv _ _ _ H3) as (e & _ & H4). rewrite D in H4.
      destruct (bind_ok_inv _ _ _ H4) as (r1 & E & H5). injection H5 as <- <-. exact (setNewHeatSource_modes _ _ _ _ _ _ _ E).
  - intros [K D]. rewrite K in H.
    unfold diffusionSolve in H. destruct (bind_ok_inv _ _ _ H) as (o & _ & H1). destruct (bind_ok_inv _ _ _ H1) as (v & _ & H2).
    destruct (bind_ok_inv _ _ _ H2) as ([M F] & _ & H3). destruct (bind_ok_inv _ _ _ H3) as (e & _ & H4). rewrite D in H4.
    destruct (bind_ok_inv _ _ _ H4) as (r1 & E & H5). injection H5 as <- <-. exact (setAdjointModes_modes _ _ _ _ _ E).
Qed.

(* Whatever the level of the log, the file of a calculation with one solver
   shows exactly its results: for a heat, transport or diffusion solver the
   fields and eigenvalues stored in the reactor it leaves, cell by cell, and for
   the kinetics solver the powers it found. *)
Theorem C83_single_report o pk sd r oc :
  run o pk [sd] r = Ok oc -> sd_kind sd <> ADS -> sd_kind sd <> KINETICS ->
  lines (oc_log oc) = (modes sd (oc_reactor oc) ++ results sd (oc_reactor oc))%list.
Proof.
  unfold run, problemSolve. intros H Ha Hk.
  assert (S : singleCalculation mpi solver sort eig croots expint3 bickley3f nexp nsqrt o pk sd r = Ok oc).
  { destruct (sd_kind sd); try exact H. congruence. }
  clear H. unfold singleCalculation in S. destruct (bind_ok_inv _ _ _ S) as ([old r1] & E1 & S0).
  destruct (bind_ok_inv _ _ _ S0) as (k & Ek & S1). destruct (bind_ok_inv _ _ _ S1) as (a & Ea & S2).
  destruct (bind_ok_inv _ _ _ S2) as (b & Eb & S3). destruct (bind_ok_inv _ _ _ S3) as (p & _ & S4). injection S4 as <-.
  cbn [oc_log oc_reactor]. assert (k = []) as ->.
  { unfold solveLog in Ek. destruct (sd_kind sd); try congruence. }
  cbn [app]. unfold lines. rewrite logLines_app. destruct (solve1_modes _ _ _ _ E1) as [A B].
  rewrite (eigenmodes_lines sd r1 a A B Ea), (results_lines sd r1 b Eb). reflexivity.
Qed.

Theorem C83_kinetics_report o pk sd r oc :
  run o pk [sd] r = Ok oc -> sd_kind sd = KINETICS ->
  exists p, kineticsSolve nexp croots r = Ok p /\ lines (oc_log oc) = ("Output power [W]: " :: map fmt p ++ [" "])%list.
Proof.
  unfold run, problemSolve. intros H K. rewrite K in H. unfold singleCalculation in H.
  destruct (bind_ok_inv _ _ _ H) as ([old r1] & E1 & S0).
  destruct (bind_ok_inv _ _ _ S0) as (k & Ek & S1). destruct (bind_ok_inv _ _ _ S1) as (a & Ea & S2).
  destruct (bind_ok_inv _ _ _ S2) as (b & Eb & S3). destruct (bind_ok_inv _ _ _ S3) as (p & _ & S4). injection S4 as <-.
  unfold printEigenmodesResults in Ea. unfold printResults in Eb. rewrite K in Ea, Eb. injection Ea as <-. injection Eb as <-.
  unfold solveLog in Ek. rewrite K in Ek. destruct (bind_ok_inv _ _ _ Ek) as (q & Eq & E2). injection E2 as <-.
  exists q. split; [exact Eq|]. cbn [oc_log app]. unfold lines. cbn [logLines flat_map fst snd itemLines printVector].
  rewrite shown_critical, list_of_vec_of_list. cbn [app]. rewrite app_nil_r. reflexivity.
Qed.

Lemma results_info sd r l : printResults sd INFO r = Ok l -> Forall (fun p => fst p = INFO) l.
Proof.
  assert (P : forall l, printPower INFO r = Ok l -> Forall (fun p => fst p = INFO) l).
  { intros l0 H. unfold printPower in H. destruct (bind_ok_inv _ _ _ H) as (p & _ & H1). destruct (bind_ok_inv _ _ _ H1) as (m & _ & H2).
    destruct (is_greater m n0); injection H2 as <-; repeat constructor. }
  assert (F : forall l, printForward INFO r = Ok l -> Forall (fun p => fst p = INFO) l).
  { intros l0 H. unfold printForward in H. destruct (bind_ok_inv _ _ _ H) as (p & _ & H1). destruct (bind_ok_inv _ _ _ H1) as (m & _ & H2).
    injection H2 as <-; repeat constructor. }
  unfold printResults. intros H. destruct (sd_kind sd); try discriminate; try (injection H as <-; constructor).
  - destruct (bind_ok_inv _ _ _ H) as (a & Ea & H1). destruct (bind_ok_inv _ _ _ H1) as (b & Eb & H2). injection H2 as <-.
    apply Forall_app. auto.
  - destruct (bind_ok_inv _ _ _ H) as (t & _ & H1). injection H1 as <-. repeat constructor.
  - destruct (bind_ok_inv _ _ _ H) as (a & Ea & H1). destruct (bind_ok_inv _ _ _ H1) as (b & Eb & H2). injection H2 as <-.
    apply Forall_app. split; [|auto]. destruct (sd_dir sd); [injection Ea as <-; constructor|auto|].
    destruct (bind_ok_inv _ _ _ Ea) as (k & _ & Ea1). destruct (bind_ok_inv _ _ _ Ea1) as (f & _ & Ea2). injection Ea2 as <-.
    repeat constructor.
Qed.
Lemma half_info sd rel par r p r' l : sd_kind sd <> KINETICS ->
  coupledHalf mpi solver sort eig croots expint3 bickley3f nexp nsqrt sd rel par r = Ok (p, r', l) -> Forall (fun p => fst p = INFO) l.
Proof.
  unfold coupledHalf. intros K H. destruct (bind_ok_inv _ _ _ H) as ([old r1] & _ & H1). destruct (bind_ok_inv _ _ _ H1) as (k & Ek & H2).
  destruct (bind_ok_inv _ _ _ H2) as (a & Ea & H3). destruct (bind_ok_inv _ _ _ H3) as (q & _ & H4).
  apply results_info in Ea. assert (k = []) as -> by (unfold solveLog in Ek; destruct (sd_kind sd); congruence).
  destruct rel.
  - destruct (bind_ok_inv _ _ _ H4) as (r2 & _ & H5). injection H5 as _ _ <-. exact Ea.
  - injection H4 as _ _ <-. exact Ea.
Qed.
Lemma loop_info s1 s2 acc par : sd_kind s1 <> KINETICS -> sd_kind s2 <> KINETICS -> forall k iter prev r l n r' l',
  doubleLoop mpi solver sort eig croots expint3 bickley3f nexp nsqrt s1 s2 acc par k iter prev r l = Ok (Some (n, r', l')) ->
  Forall (fun p => fst p = INFO) l -> Forall (fun p => fst p = INFO) l'.
Proof.
  intros K1 K2. induction k as [|k IH]; intros iter prev r l n r' l' H Hl; cbn [doubleLoop] in H; [discriminate|].
  destruct (bind_ok_inv _ _ _ H) as ([[p1 r1] l1] & E1 & H1). destruct (bind_ok_inv _ _ _ H1) as ([[p2 r2] l2] & E2 & H2).
  destruct (bind_ok_inv _ _ _ H2) as ([d1 d2] & _ & H3). apply half_info in E1; [|exact K1]. apply half_info in E2; [|exact K2].
  assert (Hl' : Forall (fun p => fst p = INFO) ((l ++ [(INFO, ICount "Coupled iteration" (iter + 1))]) ++ l1 ++ l2)%list).
  { repeat (apply Forall_app; split); auto. }
  destruct ((d1 [<=] acc) && (d2 [<=] acc)).
  - injection H3 as _ _ <-. exact Hl'.
  - exact (IH _ _ _ _ _ _ _ H3 Hl').
Qed.
Lemma loop_count s1 s2 acc par : forall k iter prev r l n r' l',
  doubleLoop mpi solver sort eig croots expint3 bickley3f nexp nsqrt s1 s2 acc par k iter prev r l = Ok (Some (n, r', l')) ->
  iter <= n < iter + Z.of_nat k.
Proof.
  induction k as [|k IH]; intros iter prev r l n r' l' H; cbn [doubleLoop] in H; [discriminate|].
  destruct (bind_ok_inv _ _ _ H) as ([[p1 r1] l1] & E1 & H1). destruct (bind_ok_inv _ _ _ H1) as ([[p2 r2] l2] & E2 & H2).
  destruct (bind_ok_inv _ _ _ H2) as ([d1 d2] & _ & H3). destruct ((d1 [<=] acc) && (d2 [<=] acc)).
  - injection H3 as <- _ _. lia.
  - apply IH in H3. lia.
Qed.

(* The file of a coupled calculation ends with the number of iterations and the
   results of the first two solvers, read from the reactor it leaves. When
   neither is the kinetics solver and only critical messages are shown, it holds
   nothing else. *)
Theorem C83_coupled_report o pk s1 s2 s3 r oc :
  run o pk [s1; s2; s3] r = Ok oc ->
  exists n before cs, In cs [s1; s2; s3] /\ sd_kind cs = COUPLED /\ 1 <= n <= sd_max cs /\
    lines (oc_log oc) = (before ++ ("Number of coupled iteration " ++ zfmt n)%string ::
                         results s1 (oc_reactor oc) ++ results s2 (oc_reactor oc))%list /\
    (thr = CRITICAL -> sd_kind s1 <> KINETICS -> sd_kind s2 <> KINETICS -> before = []).
Proof.
  unfold run, problemSolve, doubleCalculation. cbn [lget]. intros H.
  destruct (bind_ok_inv _ _ _ H) as (s1' & E1 & H1). destruct (bind_ok_inv _ _ _ H1) as (s2' & E2 & H2). clear H H1.
  injection E1 as <-. injection E2 as <-.
  destruct (bind_ok_inv _ _ _ H2) as (cs & Ec & H3). destruct (bind_ok_inv _ _ _ H3) as ([[[n r'] l]|] & El & H4); [|discriminate].
  destruct (bind_ok_inv _ _ _ H4) as (a & Ea & H5). destruct (bind_ok_inv _ _ _ H5) as (b & Eb & H6).
  destruct (bind_ok_inv _ _ _ H6) as (pa & _ & H7). destruct (bind_ok_inv _ _ _ H7) as (pb & _ & H8). injection H8 as <-.
  cbn [oc_log oc_reactor]. exists (n + 1), (lines l), cs. unfold getCoupledSolver in Ec.
  destruct (find (fun s => kind_eqb (sd_kind s) COUPLED) [s1; s2; s3]) as [x|] eqn:Ef; [|discriminate]. injection Ec as ->.
  apply find_some in Ef as [Hi Hc]. split; [exact Hi|]. split; [destruct (sd_kind cs); cbn in Hc; congruence|].
  pose proof (loop_count _ _ _ _ _ _ _ _ _ _ _ _ El) as Hn. split; [lia|]. split.
  - unfold lines. rewrite !logLines_app. f_equal. cbn [logLines flat_map fst snd itemLines]. rewrite shown_critical. cbn [app].
    f_equal. change (logLines fmt zfmt thr (a ++ b)%list = (results s1 r' ++ results s2 r')%list). rewrite logLines_app.
    f_equal; [apply (results_lines s1 r' a Ea)|apply (results_lines s2 r' b Eb)].
  - intros Ht K1 K2. pose proof (loop_info _ _ _ _ K1 K2 _ _ _ _ _ _ _ _ El ltac:(constructor)) as Hl. unfold lines. rewrite Ht.
    clear - Hl. induction Hl as [|[lv it] l E Hl IH]; [reflexivity|]. cbn in E. subst lv. cbn. exact IH.
Qed.

End Report.
Print Assumptions C83_single_report.
Print Assumptions C83_kinetics_report.
Print Assumptions C83_coupled_report.

(* Over the real numbers, the power densities are shown exactly when one of them
   exceeds the tolerance of the comparisons. *)
Theorem C83_power_shown (fmt : R -> string) (r : reactor R) :
  powerReport fmt r <> [] <->
  exists m, In m (firstn (Z.to_nat (ms_cells (rx_mesh r))) (ms_mats (rx_mesh r))) /\ (10 / 2 ^ 52 < mt_heat m)%R.
Proof.
  unfold powerReport. set (cells := firstn _ _).
  change (10 / 2 ^ 52)%R with tolR.
  destruct (maxCoeff (map (fun m => mt_heat m) cells)) as [x| | |] eqn:E.
  - destruct (maxCoeff_R _ _ E) as [Hi Hx]. destruct (is_greater x n0) eqn:G.
    + split; [intros _|intros _; discriminate]. apply is_greater_R in G. apply in_map_iff in Hi as (m & Em & Hm).
      exists m. split; [exact Hm|]. rewrite Em. change (n0 : R) with 0%R in G. rewrite Rplus_0_l in G. exact G.
    + split; [congruence|]. intros (m & Hm & Hl). exfalso. assert (is_greater x n0 = true); [|congruence].
      apply is_greater_R. change (n0 : R) with 0%R. rewrite Rplus_0_l. specialize (Hx (mt_heat m) (in_map (fun c => mt_heat c) _ _ Hm)).
      eapply Rlt_le_trans; eassumption.
  - unfold maxCoeff in E. destruct (map _ cells); discriminate.
  - unfold maxCoeff in E. destruct (map _ cells); discriminate.
  - unfold maxCoeff in E. destruct cells as [|c l] eqn:C; [|discriminate]. split; [congruence|]. intros (c & [] & _).
Qed.
Print Assumptions C83_power_shown.

(* the coupled calculation of two cells, in binary64, at the critical level: the
   number of iterations, the eigenvalue, the fluxes, the powers, the temperatures *)
Module Shown.
Definition fmt (x : f64) : string := "x".
Definition zfmt (z : Z) : string := if z =? 2 then "2" else "?".
Definition coupled (oc : outcome f64) : list string := logLines fmt zfmt CRITICAL (oc_log oc).
Definition heat := problemSolve (Witness.q 355 113) Witness.cramer (fun l => l) Witness.none (fun _ => [])
  (fun x => x) (fun x => x) (fun x => x) (fun x => x) (fun _ => Ok 0) newOutput [] [Witness.s2] Witness.rx.
Definition same (a b : list string) : bool := if list_eq_dec string_dec a b then true else false.
Lemma same_eq a b : same a b = true -> a = b.
Proof. unfold same. destruct (list_eq_dec string_dec a b); [auto|discriminate]. Qed.
Definition check (m : res (outcome f64)) (l : list string) : bool := match m with Ok a => same (coupled a) l | _ => false end.
Lemma check_ok m l : check m l = true -> exists oc, m = Ok oc /\ coupled oc = l.
Proof. destruct m as [a| | |]; try discriminate. intros H. exists a. split; [reflexivity|apply same_eq; exact H]. Qed.
Definition both : list string :=
  ["Number of coupled iteration 2"; "Fundamental K-factor: x"; "Fundamental Neutron Flux [1/(cm2*s)]:"; "x"; "x"; " ";
   "Thermal power density [W/m3]:"; "x"; "x"; " "; "Final temperatures [C]:"; "x"; "x"; " "].
Definition alone : list string := ["Final temperatures [C]:"; "x"; "x"; " "].
Lemma check_both : check Witness.run both = true.
Proof. vm_compute. reflexivity. Qed.
Lemma check_alone : check heat alone = true.
Proof. vm_compute. reflexivity. Qed.

(* two kinetics steps of a critical reactor, one group *)
Definition kinetics := problemSolve (Witness.q 355 113) Witness.cramer (fun l => l) Witness.none
  (fun _ => [(Witness.q 0 1, Witness.q 0 1); (Witness.q (-2) 1, Witness.q 0 1)])
  (fun x => x) (fun x => x) (fun x => n1 [+] x) (fun x => x) (fun _ => Ok 0) newOutput []
  [mkSolverData KINETICS n1 1 n1 [] [] 1 FORWARD FUNDAMENTAL]
  (mkReactor (rx_mesh Witness.rx) n1 [] [] (mkKinetics n1 (Witness.q 3 1) [n1] [n1] [n1; Witness.q 2 1] [n0; n0]) (n0, 0, 0)).
Definition powers : list string := ["Output power [W]: "; "x"; "x"; " "].
Lemma check_powers : check kinetics powers = true.
Proof. vm_compute. reflexivity. Qed.
End Shown.
Example C83_coupled_met : exists oc, Witness.run = Ok oc /\ Shown.coupled oc = Shown.both.
Proof. exact (Shown.check_ok _ _ Shown.check_both). Qed.
Example C83_heat_met : exists oc, Shown.heat = Ok oc /\ Shown.coupled oc = Shown.alone.
Proof. exact (Shown.check_ok _ _ Shown.check_alone). Qed.
Example C83_kinetics_met : exists oc, Shown.kinetics = Ok oc /\ Shown.coupled oc = Shown.powers.
Proof. exact (Shown.check_ok _ _ Shown.check_powers). Qed.

(* ---------- C84 ---------- *)

Section Levels.
Context {T : Type}.
Variable fmt : T -> string.
Variable zfmt : Z -> string.

(* a is b without some of its lines *)
Inductive sublist {A} : list A -> list A -> Prop :=
| sub_nil : sublist [] []
| sub_keep x a b : sublist a b -> sublist (x :: a) (x :: b)
| sub_drop x a b : sublist a b -> sublist a (x :: b).
Lemma sublist_app {A} (a b c d : list A) : sublist a b -> sublist c d -> sublist (a ++ c)%list (b ++ d)%list.
Proof. intros H H'. induction H; cbn; [exact H'|constructor; assumption|constructor; assumption]. Qed.
Lemma sublist_refl {A} (a : list A) : sublist a a.
Proof. induction a; constructor; assumption. Qed.
Lemma sublist_nil {A} (a : list A) : sublist [] a.
Proof. induction a; constructor; assumption. Qed.

(* the levels of the command line, from the quietest to the most verbose *)
Definition levels : list TraceLevel := [CRITICAL; ERR; WARN; INFO; DEBUG; TRACE].

(* A more verbose level only adds lines. The quietest one shows exactly the
   critical messages, the most verbose one all of them. *)
Theorem C84_levels (l : log T) :
  (forall i j a b, nth_error levels i = Some a -> nth_error levels j = Some b -> (i <= j)%nat ->
     sublist (logLines fmt zfmt a l) (logLines fmt zfmt b l)) /\
  logLines fmt zfmt CRITICAL l =
    flat_map (fun p => itemLines fmt zfmt (snd p)) (filter (fun p => match fst p with CRITICAL => true | _ => false end) l) /\
  logLines fmt zfmt TRACE l = flat_map (fun p => itemLines fmt zfmt (snd p)) l /\
  (forall i j a b x, nth_error levels i = Some a -> nth_error levels j = Some b ->
     logLines fmt zfmt b [(a, x)] = if (i <=? j)%nat then itemLines fmt zfmt x else []).
Proof.
  assert (S : forall i j a b, nth_error levels i = Some a -> nth_error levels j = Some b -> shown b a = (i <=? j)%nat).
  { intros i j a b Ha Hb.
    do 6 (destruct i as [|i]; [injection Ha as <-; do 6 (destruct j as [|j]; [injection Hb as <-; reflexivity|]); destruct j; discriminate|]).
    destruct i; discriminate. }
  repeat split.
  - intros i j a b Ha Hb Hij. induction l as [|[lv x] l IH]; [constructor|]. cbn [logLines flat_map fst snd]. apply sublist_app; [|exact IH].
    assert (exists k, nth_error levels k = Some lv) as (k & Hk).
    { destruct lv; [exists 0%nat|exists 1%nat|exists 2%nat|exists 3%nat|exists 4%nat|exists 5%nat]; reflexivity. }
    rewrite (S _ _ _ _ Hk Ha), (S _ _ _ _ Hk Hb). destruct (Nat.leb_spec k i), (Nat.leb_spec k j); try lia;
      try apply sublist_refl; apply sublist_nil.
  - induction l as [|[lv x] l IH]; [reflexivity|]. cbn [logLines flat_map fst snd filter]. unfold logLines in IH. rewrite IH. destruct lv; reflexivity.
  - induction l as [|[lv x] l IH]; [reflexivity|]. cbn [logLines flat_map fst snd]. unfold logLines in IH. rewrite IH. destruct lv; reflexivity.
  - intros i j a b x Ha Hb. cbn [logLines flat_map fst snd]. rewrite app_nil_r, (S _ _ _ _ Ha Hb). reflexivity.
Qed.

(* A matrix is printed one coefficient per line, row after row, then a blank line. *)
Theorem C84_matrix_lines (A : mat T) : 0 <= mrows A -> 0 <= mcols A ->
  zlen (printMatrix fmt A true) = mrows A * mcols A + 1 /\
  nth_error (printMatrix fmt A true) (Z.to_nat (mrows A * mcols A)) = Some " " /\
  forall i j, 0 <= i < mrows A -> 0 <= j < mcols A ->
    nth_error (printMatrix fmt A true) (Z.to_nat (i * mcols A + j)) = Some (fmt (mat_at A i j)).
Proof.
  intros Hr Hc. unfold printMatrix. set (body := flat_map _ _).
  assert (L : forall i, length (map (fun j => fmt (mat_at A i j)) (zrange 0 (mcols A))) = Z.to_nat (mcols A)).
  { intros i. rewrite map_length. unfold zrange. rewrite map_length, seq_length. f_equal. lia. }
  assert (Lb : length body = (Z.to_nat (mrows A) * Z.to_nat (mcols A))%nat).
  { unfold body. clear body. assert (G : length (zrange 0 (mrows A)) = Z.to_nat (mrows A)).
    { unfold zrange. rewrite map_length, seq_length. f_equal. lia. }
    rewrite <- G. generalize (zrange 0 (mrows A)). induction l as [|x l IH]; [reflexivity|].
    cbn [flat_map length]. rewrite app_length, L, IH. lia. }
  split; [unfold zlen; rewrite app_length, Lb; cbn [length]; nia|]. split.
  - rewrite nth_error_app2; rewrite Lb; [|nia]. replace (Z.to_nat (mrows A * mcols A) - _)%nat with 0%nat by nia. reflexivity.
  - intros i j Hi Hj. rewrite nth_error_app1 by (rewrite Lb; nia). unfold body.
    replace (Z.to_nat (i * mcols A + j)) with (Z.to_nat i * Z.to_nat (mcols A) + Z.to_nat j)%nat by nia.
    rewrite (ProofsInputG.flat_map_nth _ _ _ L (Z.to_nat i) (Z.to_nat j) i); [| |lia].
    + apply (map_nth_error (fun j => fmt (mat_at A i j))). rewrite ProofsInputG.zrange_nth by lia. f_equal. lia.
    + rewrite ProofsInputG.zrange_nth by lia. f_equal. lia.
Qed.

(* The three dimensional print takes the rows from the second dimension and the
   columns from the first: on a tensor of square matrices, as are the collision
   probabilities, every page is printed row by row. *)
Theorem C84_square_tensor (A : ten3 T) s : 0 <= td0 A -> td1 A = td0 A -> 0 <= td2 A ->
  printTensor fmt zfmt A s = Ok (flat_map (fun h => ((s ++ ": " ++ zfmt (h + 1))%string ::
      map (fun i => rowText fmt (map (fun j => t3_at A i j h) (zrange 0 (td1 A)))) (zrange 0 (td0 A)))%list) (zrange 0 (td2 A)) ++ [" "])%list.
Proof.
  intros H0 E1 H2. unfold printTensor.
  set (page := fun h => ((s ++ ": " ++ zfmt (h + 1))%string :: map (fun i => rowText fmt (map (fun j => t3_at A i j h) (zrange 0 (td1 A)))) (zrange 0 (td0 A)))%list).
  assert (W : wp (zfor 0 (td2 A) (fun h l => zfor 0 (td1 A) (fun i l =>
      msg <- zfor 0 (td0 A) (fun j msg => x <- t3get A i j h ;; Ok (msg ++ fmt x ++ " ")) "" ;;
      Ok (l ++ [msg])%list) (l ++ [(s ++ ": " ++ zfmt (h + 1))%string])%list) []) (fun l => l = flat_map page (zrange 0 (td2 A)))).
  { apply (zfor_wp (fun k l => l = flat_map page (zrange 0 k))); [lia|rewrite zrange_nil by lia; reflexivity|].
    intros h l Hh ->. rewrite zrange_snoc, flat_map_app by lia. cbn [flat_map]. rewrite app_nil_r.
    eapply (zfor_wp' (fun k l => l = (flat_map page (zrange 0 h) ++ (s ++ ": " ++ zfmt (h + 1))%string ::
        map (fun i => rowText fmt (map (fun j => t3_at A i j h) (zrange 0 (td1 A)))) (zrange 0 k))%list)); [lia| | |].
    - rewrite (zrange_nil 0 0) by lia. reflexivity.
    - intros i l Hi ->. apply wp_bind.
      eapply (zfor_wp' (fun k msg => msg = rowText fmt (map (fun j => t3_at A i j h) (zrange 0 k)))); [lia|rewrite zrange_nil by lia; reflexivity| |].
      + intros j msg Hj ->. rewrite t3get_ok by lia. cbn [bind wp]. rewrite (zrange_snoc 0 j), map_app by lia.
        unfold rowText. rewrite fold_left_app. reflexivity.
      + intros msg ->. cbn [wp]. rewrite (zrange_snoc 0 i), map_app, E1 by lia. cbn [map]. rewrite <- app_assoc. reflexivity.
    - intros l ->. unfold page. rewrite E1. reflexivity. }
  destruct (wp_ok _ _ W) as (l & -> & ->). reflexivity.
Qed.

(* On any other shape with values in it, the print reads outside the tensor or
   leaves coefficients out. *)
Theorem C84_other_shapes_refuted (A : ten3 T) s : 0 < td0 A < td1 A -> 0 < td2 A ->
  printTensor fmt zfmt A s = UB "tensor index".
Proof.
  intros H1 H2. unfold printTensor. rewrite zfor_step by lia.
  assert (G : forall n i l, i = td0 A - Z.of_nat n -> 0 <= i ->
    zfor i (td1 A) (fun i l => msg <- zfor 0 (td0 A) (fun j msg => x <- t3get A i j 0 ;; Ok (msg ++ fmt x ++ " ")) "" ;;
      Ok (l ++ [msg])%list) l = UB "tensor index").
  { induction n as [|n IH]; intros i l Ei Hi.
    - rewrite zfor_step by lia. rewrite zfor_step by lia. rewrite t3get_ub by lia. reflexivity.
    - rewrite zfor_step by lia.
      assert (W : wp (zfor 0 (td0 A) (fun j msg => x <- t3get A i j 0 ;; Ok (msg ++ fmt x ++ " ")) "") (fun _ => True)).
      { apply (zfor_wp (fun _ _ => True)); [lia|exact I|]. intros j msg Hj _. rewrite t3get_ok by lia. exact I. }
      destruct (wp_ok _ _ W) as (msg & -> & _). cbn [bind]. apply IH; lia. }
  rewrite (G (Z.to_nat (td0 A)) 0) by lia. reflexivity.
Qed.
End Levels.
Print Assumptions C84_levels.
Print Assumptions C84_matrix_lines.
Print Assumptions C84_square_tensor.
Print Assumptions C84_other_shapes_refuted.
Example C84_hypotheses_met :
  (let A := mkmat 2 3 (fun i j => i * 3 + j) in 0 <= mrows A /\ 0 <= mcols A) /\
  (let A := mkten3 2 2 3 (fun i j k => i + j + k) in 0 <= td0 A /\ td1 A = td0 A /\ 0 <= td2 A) /\
  (let A := mkten3 1 2 3 (fun i j k => i + j + k) in 0 < td0 A < td1 A /\ 0 < td2 A) /\
  logLines (fun _ : Z => "v") (fun _ => "n") WARN [(INFO, IText "a"); (CRITICAL, IMatrix (mkmat 1 2 (fun _ j => j))); (WARN, IText "b")]
    = ["v"; "v"; " "; "b"].
Proof. cbn. repeat split; lia. Qed.
