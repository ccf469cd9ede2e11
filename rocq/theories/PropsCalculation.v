(* Coupled calculations: C49, C64, C79. *)
From Coq Require Import String ZArith List Bool Lia Reals Lra Permutation.
From Flocq Require Import BinarySingleNaN.
From Verif Require Import Base BaseLemmas NumR NumF Blocks ModelNumTools ModelEigen ModelMesh ModelReactor
  ModelDiffusion ModelHeat ModelSpectrum ModelKinetics ModelOutput ModelCalculation ProofsMesh ProofsDiffusion
  ProofsDiffusionR ProofsEigen ProofsPower ProofsHeat ProofsHeatLoop ProofsSpectrumR PropsDiffusion ProofsCoupled
  ProofsFrame ProofsPowerB.
From Verif Require ProofsReport.
Import ListNotations.
Local Open Scope R_scope.

(* ---------- C64 ---------- *)

Lemma maxCoeff_R (l : list R) m : maxCoeff l = Ok m -> In m l /\ forall x, In x l -> x <= m.
Proof.
  destruct l as [|x l]; [discriminate|]. cbn [maxCoeff]. intros H. injection H as <-.
  assert (G : forall l m, let r := fold_left (fun m y : R => if m [<] y then y else m) l m in
    (r = m \/ In r l) /\ m <= r /\ forall y, In y l -> y <= r).
  { clear. induction l as [|y l IH]; intros m; cbn [fold_left].
    - split; [left; reflexivity|]. split; [lra|]. intros y [].
    - change (m [<] y) with (Rltb m y). destruct (Rltb m y) eqn:E.
      + apply Rltb_true in E. destruct (IH y) as (A & B & C). split.
        * right. destruct A as [->|A]; [left; reflexivity|right; exact A].
        * split; [cbn zeta; lra|]. intros z [->|Hz]; [exact B|apply C; exact Hz].
      + apply Rltb_false in E. destruct (IH m) as (A & B & C). split.
        * destruct A as [->|A]; [left; reflexivity|right; right; exact A].
        * split; [exact B|]. intros z [->|Hz]; [cbn zeta; lra|apply C; exact Hz]. }
  destruct (G l x) as (A & B & C). split.
  - destruct A as [A|A]; [left; symmetry; exact A|right; exact A].
  - intros y [->|Hy]; [exact B|apply C; exact Hy].
Qed.

Lemma in_list_of_vec (v : vec R) x : In x (list_of_vec v) <-> exists i, (0 <= i < vlen v)%Z /\ x = vat v i.
Proof.
  unfold list_of_vec. rewrite in_map_iff. split.
  - intros (k & <- & Hk). apply in_seq in Hk. exists (Z.of_nat k). split; [lia|reflexivity].
  - intros (i & Hi & ->). exists (Z.to_nat i). rewrite Z2Nat.id by lia. split; [reflexivity|]. apply in_seq. lia.
Qed.

(* The change of a main parameter between two iterations is at most acc: for
   the k factor the relative change, for the temperatures the change in each cell. *)
Definition change_within (acc : R) (new old : param R) : Prop :=
  match new, old with
  | PDouble a, PDouble b => Rabs (a - b) / Rabs a <= acc
  | PVector a, PVector b => vlen a = vlen b /\ forall i, (0 <= i < vlen a)%Z -> Rabs (vat a i - vat b i) <= acc
  | _, _ => False
  end.

(* main parameters are numbers or temperature vectors *)
Definition no_matrix (p : param R) : Prop := match p with PMatrix _ => False | _ => True end.
Lemma main_no_matrix sd r p : mainParameter sd r = Ok p -> no_matrix p.
Proof.
  unfold mainParameter. destruct (sd_kind sd); intros H; try discriminate; try (injection H as <-; exact I);
    destruct (bind_ok_inv _ _ _ H) as (k & _ & H1); injection H1 as <-; exact I.
Qed.

Lemma getDifference_R acc new old d : no_matrix new -> getDifference new old = Ok d ->
  (d [<=] acc = true <-> change_within acc new old).
Proof.
  intros Hn. unfold getDifference, change_within. destruct new as [a|a|a], old as [b|b|b]; try discriminate; try contradiction.
  - intros H. injection H as <-. rnum. unfold Rdiv. rewrite Rabs_mult, Rabs_inv.
    change (nleb ?x ?y) with (Rleb x y). apply Rleb_true.
  - destruct (Z.eqb_spec (vlen a) (vlen b)) as [E|]; [|discriminate]. intros H.
    destruct (maxCoeff_R _ _ H) as [Hi Hm]. change (nleb d acc) with (Rleb d acc). rewrite Rleb_true. split.
    + intros Hd. split; [exact E|]. intros i Hi'. eapply Rle_trans; [|exact Hd]. apply Hm.
      apply in_list_of_vec. exists i. split; [exact Hi'|reflexivity].
    + intros [_ Hd]. apply in_list_of_vec in Hi. destruct Hi as (i & Hi & ->). apply Hd. exact Hi.
Qed.

Section Calculation.
Variable solver : mat R -> vec R -> vec R.
Variable sort : list (R * vec R) -> list (R * vec R).
Variable eig : mat R -> mat R -> vec (R * R) * mat (R * R).
Variable croots : list R -> list (R * R).
Variables (expint3 bickley3f nexp nsqrt : R -> R).
Let solve := solve1 PI solver sort eig croots expint3 bickley3f nexp nsqrt.
Let half := half_step PI solver sort eig croots expint3 bickley3f nexp nsqrt.
Let run := coupled_run PI solver sort eig croots expint3 bickley3f nexp nsqrt.
Let double := doubleCalculation PI solver sort eig croots expint3 bickley3f nexp nsqrt.

Lemma run_params s1 s2 par n st p q i : run s1 s2 par n st p q -> (i < n)%nat -> no_matrix (p i) /\ no_matrix (q i).
Proof.
  intros Run Hi. destruct (Run i Hi) as (rm & (o1 & r1 & _ & E1 & _) & (o2 & r2 & _ & E2 & _)).
  split; eapply main_no_matrix; eassumption.
Qed.

(* A coupled calculation returns the reactor after some iteration n, at most
   the allowed number, whose main parameters changed by at most the accuracy
   since the iteration before; no earlier iteration after the first satisfied
   this. With an accuracy of 1 or more it returns after the first iteration. *)
Theorem C64_convergence_partial o pk solvers r oc :
  double o pk solvers r = Ok oc ->
  exists s1 s2 cs n st p q, lget solvers 0 = Ok s1 /\ lget solvers 1 = Ok s2 /\
    In cs solvers /\ sd_kind cs = COUPLED /\
    (1 <= n)%nat /\ (Z.of_nat n <= sd_max cs)%Z /\ run s1 s2 (sd_relax cs) n st p q /\
    st 0%nat = r /\ oc_reactor oc = st n /\
    In (CRITICAL, ICount "Number of coupled iteration" (Z.of_nat n)) (oc_log oc) /\
    (n = 1%nat <-> 1 <= sd_acc cs) /\
    (forall m, n = S (S m) -> change_within (sd_acc cs) (p (S m)) (p m) /\ change_within (sd_acc cs) (q (S m)) (q m)) /\
    (forall i, (S i < n - 1)%nat ->
       ~ (change_within (sd_acc cs) (p (S i)) (p i) /\ change_within (sd_acc cs) (q (S i)) (q i))).
Proof.
  intros H. destruct (doubleCalculation_run _ _ _ _ _ _ _ _ _ _ _ _ _ _ H)
    as (s1 & s2 & cs & n & st & p & q & E1 & E2 & E3 & Hn & Hm & Run & S0 & Sn & Cv & Un & Hlog).
  exists s1, s2, cs, n, st, p, q. split; [exact E1|]. split; [exact E2|].
  unfold getCoupledSolver in E3. destruct (find _ solvers) as [c|] eqn:Ef; [|discriminate]. injection E3 as ->.
  destruct (find_some _ _ Ef) as [Hin Hk]. split; [exact Hin|].
  split; [destruct (sd_kind cs); try discriminate; reflexivity|].
  split; [exact Hn|]. split; [exact Hm|]. split; [exact Run|]. split; [exact S0|]. split; [exact Sn|]. split; [exact Hlog|].
  split; [|split].
  - split.
    + intros ->. destruct Cv as [C _]. cbn in C. change (nleb n1 (sd_acc cs)) with (Rleb 1 (sd_acc cs)) in C.
      apply Rleb_true in C. exact C.
    + intros Ha. destruct (Nat.eq_dec n 1) as [|Hn1]; [assumption|]. exfalso.
      specialize (Un 0%nat ltac:(lia)). cbn in Un. change (nleb n1 (sd_acc cs)) with (Rleb 1 (sd_acc cs)) in Un.
      apply Rleb_false in Un. lra.
  - intros m ->. destruct Cv as [(d1 & D1 & L1) (d2 & D2 & L2)]; cbn [Nat.sub] in *. rewrite ?Nat.sub_0_r in *.
    destruct (run_params _ _ _ _ _ _ _ (S m) Run ltac:(lia)) as [N1 N2].
    split; [apply (getDifference_R _ _ _ _ N1 D1); exact L1|apply (getDifference_R _ _ _ _ N2 D2); exact L2].
  - intros i Hi [C1 C2]. destruct (Un (S i) Hi) as (d1 & d2 & D1 & D2 & Hf).
    destruct (run_params _ _ _ _ _ _ _ (S i) Run ltac:(lia)) as [N1 N2].
    rewrite (proj2 (getDifference_R _ _ _ _ N1 D1) C1), (proj2 (getDifference_R _ _ _ _ N2 D2) C2) in Hf. discriminate.
Qed.

(* the two sizes match, so the change is defined *)
Definition comparable (a b : param R) : Prop :=
  match a, b with
  | PDouble _, PDouble _ => True
  | PVector a, PVector b => vlen a = vlen b /\ (0 < vlen a)%Z
  | _, _ => False
  end.
Lemma getDifference_defined a b : comparable a b -> exists d, getDifference a b = Ok d.
Proof.
  unfold comparable, getDifference. destruct a as [a|a|a], b as [b|b|b]; try contradiction; [eauto|].
  intros [E H]. rewrite (proj2 (Z.eqb_eq _ _) E). unfold maxCoeff. destruct (list_of_vec _) as [|x l] eqn:El; [|eauto].
  apply (f_equal (@length R)) in El. unfold list_of_vec in El. rewrite map_length, seq_length in El. cbn in El. lia.
Qed.

(* When no iteration converges the calculation ends with an error message. *)
Theorem C64_no_convergence o pk s1 s2 cs r st p q :
  sd_kind s1 <> COUPLED -> sd_kind s2 <> COUPLED -> sd_kind cs = COUPLED ->
  let n := Z.to_nat (sd_max cs) in
  run s1 s2 (sd_relax cs) n st p q -> st 0%nat = r -> sd_acc cs < 1 ->
  (forall i rm old r1, (i < n)%nat ->
     (solve s1 (st i) = Ok (old, r1) -> printable s1 r1) /\
     (forall rel, half s1 rel (sd_relax cs) (st i) rm (p i) -> solve s2 rm = Ok (old, r1) -> printable s2 r1)) ->
  (forall i, (S i < n)%nat -> comparable (p (S i)) (p i) /\ comparable (q (S i)) (q i) /\
     ~ (change_within (sd_acc cs) (p (S i)) (p i) /\ change_within (sd_acc cs) (q (S i)) (q i))) ->
  double o pk [s1; s2; cs] r = Exit "The coupled calculation did not converge!".
Proof.
  intros K1 K2 K3 n Run S0 Ha Pr Hc. unfold double, doubleCalculation.
  change (lget [s1; s2; cs] 0) with (Ok s1). change (lget [s1; s2; cs] 1) with (Ok s2). cbn [bind].
  assert (Ec : getCoupledSolver [s1; s2; cs] = Ok cs).
  { unfold getCoupledSolver. cbn [find]. rewrite K3. destruct (sd_kind s1), (sd_kind s2); try congruence; reflexivity. }
  rewrite Ec. cbn [bind].
  pose proof (loop_ok PI solver sort eig croots expint3 bickley3f nexp nsqrt s1 s2 (sd_acc cs) (sd_relax cs) st p q n Run) as L.
  specialize (L ltac:(intros i rel rm old r1 Hi; destruct (Pr i rm old r1 Hi) as [A B]; split; [exact A|exact (B rel)])).
  specialize (L n 0%nat [] ltac:(lia)). cbn [prev_of Z.of_nat] in L. rewrite S0 in L. fold n. rewrite L; [reflexivity|].
  intros i Hi. destruct i as [|i].
  - cbn. change (nleb n1 (sd_acc cs)) with (Rleb 1 (sd_acc cs)). apply Rleb_false. exact Ha.
  - destruct (Hc i ltac:(lia)) as (C1 & C2 & C3).
    destruct (getDifference_defined _ _ C1) as (d1 & D1). destruct (getDifference_defined _ _ C2) as (d2 & D2).
    exists d1, d2. split; [exact D1|]. split; [exact D2|].
    destruct (run_params _ _ _ _ _ _ _ (S i) Run ltac:(lia)) as [N1 N2].
    destruct (d1 [<=] sd_acc cs) eqn:L1; [|reflexivity]. destruct (d2 [<=] sd_acc cs) eqn:L2; [|reflexivity].
    destruct C3. split; [apply (getDifference_R _ _ _ _ N1 D1); exact L1|apply (getDifference_R _ _ _ _ N2 D2); exact L2].
Qed.

(* ---------- C49 ---------- *)

(* After every iteration of a coupled run the heat sources integrate to the
   requested power, whatever the relaxation parameter and the order of the
   solvers, as long as the fluxes found cause fissions. *)
Theorem C49_power_kept s1 s2 par n st p q :
  fit_libraries solver sort eig -> run s1 s2 par n st p q ->
  neutronic s1 = true \/ neutronic s2 = true ->
  supplied (rx_mesh (st 0%nat)) s1 -> supplied (rx_mesh (st 0%nat)) s2 ->
  burning_run solver sort eig croots expint3 bickley3f nexp nsqrt s1 s2 par n st ->
  forall i, (1 <= i <= n)%nat ->
    rsum 0 (ms_cells (rx_mesh (st i))) (fun c => stored_heat (rx_mesh (st i)) c * cell_volume (rx_mesh (st i)) c)
      = rx_power (st 0%nat).
Proof. intros Hl Hr Hn H1 H2 Hb i Hi. exact (run_power _ _ _ _ _ _ _ _ Hl _ _ _ _ _ _ _ Hr Hn H1 H2 Hb i Hi). Qed.

(* in particular in the reactor the calculation returns *)
Theorem C49_final_power o pk s1 s2 cs r oc :
  fit_libraries solver sort eig -> neutronic s1 = true \/ neutronic s2 = true ->
  supplied (rx_mesh r) s1 -> supplied (rx_mesh r) s2 ->
  (forall n st par p q, run s1 s2 par n st p q -> st 0%nat = r ->
     burning_run solver sort eig croots expint3 bickley3f nexp nsqrt s1 s2 par n st) ->
  double o pk [s1; s2; cs] r = Ok oc -> total_power (rx_mesh (oc_reactor oc)) = rx_power r.
Proof.
  intros Hl Hn H1 H2 Hb H. destruct (doubleCalculation_run _ _ _ _ _ _ _ _ _ _ _ _ _ _ H)
    as (s1' & s2' & cs' & n & st & p & q & E1 & E2 & _ & Hn1 & _ & Run & S0 & Sn & _).
  injection E1 as <-. injection E2 as <-. rewrite Sn, <- S0.
  eapply C49_power_kept; try eassumption; try (rewrite S0; assumption); [|lia].
  eapply Hb; eassumption.
Qed.

(* What is compared: the k factor found by a neutron calculation, the
   temperatures found by a heat calculation, a constant for the others. *)
Definition is_compared (sd : solverData R) (r : reactor R) (p : param R) : Prop :=
  match sd_kind sd with
  | TRANSPORT | DIFFUSION => exists k l, rx_fwd r = k :: l /\ p = PDouble k
  | HEAT => exists v, p = PVector v /\ vlen v = ms_cells (rx_mesh r) /\
      list_of_vec v = map (fun m => mt_temp m) (firstn (Z.to_nat (ms_cells (rx_mesh r))) (ms_mats (rx_mesh r)))
  | KINETICS => p = PDouble (-1)
  | COUPLED | ADS => p = PDouble 0
  | SolUNDEFINED => False
  end.
Lemma main_compared sd r p : mainParameter sd r = Ok p -> is_compared sd r p.
Proof.
  unfold mainParameter, is_compared. destruct (sd_kind sd); intros H; try discriminate; try (injection H as <-; reflexivity).
  - unfold getKFactor in H. destruct (rx_fwd r) as [|k l]; [discriminate|]. cbn in H. injection H as <-. eauto.
  - destruct (bind_ok_inv _ _ _ H) as (v & Ev & H1). injection H1 as <-. apply ProofsReport.getTemperatures_inv in Ev as [A B]. eauto.
  - unfold getKFactor in H. destruct (rx_fwd r) as [|k l]; [discriminate|]. cbn in H. injection H as <-. eauto.
Qed.
Theorem C64_compared s1 s2 par n st p q : run s1 s2 par n st p q -> forall i, (i < n)%nat ->
  exists old1 r1 rm old2 r2, solve s1 (st i) = Ok (old1, r1) /\ solve s2 rm = Ok (old2, r2) /\
    is_compared s1 r1 (p i) /\ is_compared s2 r2 (q i) /\
    (i = 0%nat -> rm = r1 /\ st 1%nat = r2) /\
    ((0 < i)%nat -> relaxResults s1 par old1 r1 = Ok rm /\ relaxResults s2 par old2 r2 = Ok (st (S i))).
Proof.
  intros Run i Hi. destruct (Run i Hi) as (rm & (o1 & r1 & S1 & E1 & X1) & (o2 & r2 & S2 & E2 & X2)).
  exists o1, r1, rm, o2, r2. split; [exact S1|]. split; [exact S2|].
  split; [apply main_compared, E1|]. split; [apply main_compared, E2|].
  destruct i as [|i]; cbn in X1, X2; split; intros; try lia; split; assumption.
Qed.

End Calculation.
Print Assumptions C64_convergence_partial.
Print Assumptions C64_no_convergence.
Print Assumptions C64_compared.
Print Assumptions C49_power_kept.
Print Assumptions C49_final_power.

(* ---------- a coupled run exists ---------- *)

(* Three conducting cells; every linear system is answered with ones. *)
Definition flat (M : mat R) (b : vec R) : vec R := mkvec (vlen b) (fun _ => 1).
Definition no_eig (M F : mat R) : vec (R * R) * mat (R * R) := (mkvec 0 (fun _ => (0, 0)), mkmat (mrows M) 0 (fun _ _ => (0, 0))).
Definition run_material : material R := set_cond [1] (ex_material 1 1).
Definition run_slab : mesh R :=
  mkMesh (mkvec 4 (fun i => IZR i / 100)) SLAB 3 1 [run_material; run_material; run_material] 1 1.
Definition run_reactor : reactor R := mkReactor run_slab 8 [] [] (mkKinetics 0 0 [] [] [] []) (0, 0%Z, 0%Z).
Definition run_diff : solverData R := mkSolverData DIFFUSION (1 / 1000) 100 0 [1; 1] [] 1 FORWARD FUNDAMENTAL.
Definition run_heat : solverData R := mkSolverData HEAT (1 / 1000) 100 0 [] [1; 0; 20; 1; 0; 20] 1 FORWARD FUNDAMENTAL.
Definition run_solve := solve1 PI flat (fun l => l) no_eig (fun _ => []) (fun x => x) (fun x => x) (fun x => x) (fun x => x).

Lemma flat_fits : fit_libraries flat (fun l => l) no_eig.
Proof. split; [intros M b H; exact H|]. split; [intros l; apply Permutation_refl|]. intros M F. reflexivity. Qed.

Lemma law1 (c t : R) : law_value [c] t = c.
Proof. rewrite law_value_R. exact (eq_trans (rsum_one 0 _) (Rmult_1_r c)). Qed.

Lemma run_slab_ready : ready run_slab.
Proof.
  repeat split; cbn; try lia; try congruence.
  all: assert (m = 0 \/ m = 1 \/ m = 2)%Z as [->|[->| ->]] by (cbn in *; lia);
    change (Z.to_nat 1) with 1%nat; change (Z.to_nat 2) with 2%nat; cbn;
    try reflexivity; try (right; unfold zlen; cbn; lia); unfold zlen; cbn; lia.
Qed.

Lemma run_cell m : (0 <= m < 3)%Z -> cell_material run_slab m = run_material.
Proof. intros Hm. assert (m = 0 \/ m = 1 \/ m = 2)%Z as [->|[->| ->]] by lia; reflexivity. Qed.

Lemma run_increasing : increasing (ms_bounds run_slab).
Proof. intros i Hi. cbn in *. rewrite plus_IZR. lra. Qed.

Lemma run_input_conducting ms : same_input run_slab ms -> conducting ms.
Proof.
  intros S. pose proof S as (b & g & c & e & K). unfold conducting. rewrite b, g, c.
  unfold zlen. rewrite (keeps_length _ _ _ K). cbn. repeat split; try lia; try discriminate.
  intros m Hm. destruct (input_laws _ _ m S) as (_ & -> & _). rewrite run_cell by lia. discriminate.
Qed.

Lemma run_supplied : supplied run_slab run_diff /\ supplied run_slab run_heat.
Proof.
  split; [|exact I]. unfold supplied. cbn [run_diff sd_kind]. split; [reflexivity|]. split; [discriminate|].
  split; [exact run_slab_ready|]. split; [cbn; lia|]. split; [reflexivity|]. split; [exact run_increasing|].
  split; [cbn; lra|]. exists 1, 1. split; reflexivity.
Qed.

Lemma run_fission ms e i : same_input run_slab ms -> (e = 0)%Z -> (0 <= i < 3)%Z -> law_at mt_fisXS ms e i = 1.
Proof.
  intros S -> Hi. unfold law_at. destruct (input_laws _ _ i S) as (_ & _ & _ & -> & _). rewrite run_cell by exact Hi.
  apply law1.
Qed.
Lemma run_volume ms i : same_input run_slab ms -> cell_volume ms i = 1 / 100.
Proof.
  intros S. rewrite (input_volume _ _ _ S). unfold cell_volume, body_volume. cbn [run_slab ms_geom ms_bounds vat].
  rewrite plus_IZR. lra.
Qed.

Lemma run_diffusion r : same_reactor run_reactor r -> exists old r1, run_solve run_diff r = Ok (old, r1) /\
  vlen old = 3%Z /\ rx_fwd r1 = [1] /\ burns (rx_mesh r1).
Proof.
  intros (S & _). cbn [run_reactor rx_mesh] in S. set (ms := rx_mesh r). fold ms in S.
  pose proof (input_ready _ _ S run_slab_ready) as Hr. pose proof S as (b & g & c & e & K).
  cbn [run_slab ms_cells ms_groups ms_bounds ms_geom] in b, g, c, e.
  unfold run_solve, solve1. cbn [run_diff sd_kind]. fold run_diff. unfold diffusionSolve. fold ms.
  assert (Hm : (ms_cells ms <= zlen (ms_mats ms))%Z) by apply Hr.
  destruct (wp_ok _ _ (getHeatSources_wp dm0 ms ltac:(lia) Hm)) as (old & Eo & Lo & _). rewrite Eo. cbn [bind].
  destruct (wp_ok _ _ (volumes_wp ms "cm" ltac:(congruence) ltac:(rewrite b; cbn; lia))) as (vol & Ev & _). rewrite Ev. cbn [bind].
  pose proof (ready_data ms Hr) as Hdat. rewrite e in Hdat.
  assert (Hal : albedos ms run_diff 1 1) by (unfold albedos; rewrite g; split; reflexivity).
  pose proof (system_wp PI ms run_diff (mesh_tables ms) ltac:(lia) ltac:(cbn; lia) Hdat 1 1 Hal ltac:(discriminate)) as HW.
  destruct (wp_ok _ _ HW) as ([M F] & EMF & [[RM [CM _]] [RF [CF HF]]]). cbn [fst snd run_diff sd_energies sd_dir] in *.
  rewrite EMF. cbn [bind]. rewrite c in RM, CM, RF, CF, HF. change (3 * 1)%Z with 3%Z in *.
  assert (HFv : forall i j, (0 <= i < 3)%Z -> (0 <= j < 3)%Z -> mat_at F i j = if (j =? i)%Z then 2 else 0).
  { intros i j Hi Hj. pose proof (HF 0 i 0 j ltac:(lia) Hi ltac:(lia) Hj)%Z as Hv. unfold blk in Hv. rewrite !Z.add_0_r in Hv.
    rewrite Hv. unfold fp. cbn [mesh_tables tfis tni tV tchi]. rewrite (run_fission ms 0 i S eq_refl Hi).
    unfold law_at0, law_at. destruct (input_laws _ _ i S) as (_ & _ & _ & _ & _ & _ & -> & ->).
    rewrite run_cell by exact Hi. cbn [run_material set_cond ex_material mt_ni mt_chi nth Z.to_nat]. rewrite !law1.
    rewrite g, b. cbn [body_volume run_slab ms_bounds vat dimension]. rnum. rewrite plus_IZR.
    destruct (j =? i)%Z; lra. }
  assert (Hs : vdot (mvmul F (vones 3)) (mvmul F (vones 3)) <> 0).
  { assert (V : forall i, (0 <= i < 3)%Z -> vat (mvmul F (vones 3)) i = 2).
    { intros i Hi. rewrite mvmul_at. rewrite CF. rewrite (rsum_ext _ _ _ (fun j => if (j =? i)%Z then 2 else 0)).
      - rewrite (rsum_single 0 3 _ i); [rewrite Z.eqb_refl; reflexivity|lia|]. intros k Hk Hk2. destruct (Z.eqb_spec k i); [lia|reflexivity].
      - intros j Hj. rewrite HFv by lia. rewrite vones_at. ring. }
    unfold vdot. change (vlen (mvmul F (vones 3))) with (mrows F). rewrite RF.
    rewrite (rsum_ext _ _ _ (fun _ => 2 * 2)) by (intros i Hi; rewrite V by lia; reflexivity).
    rewrite rsum_const by lia. cbn. lra. }
  destruct (si_first_iteration flat M F 3 100 (1 / 1000) FORWARD ltac:(lia) RM CM RF CF ltac:(intros; assumption)
    ltac:(reflexivity) Hs ltac:(lia) ltac:(lra)) as (flux & Ef & Lf & Hf).
  unfold solveEigen. cbn [sd_eig sd_max sd_acc sd_dir run_diff]. rewrite Ef. cbn [bind snd].
  destruct (setNewHeatSource_normalised r vol (er_single flux 1 FORWARD) (ready_fissile _ Hr) Ev
     ltac:(unfold zlen; cbn; lia)
     ltac:(unfold zlen; cbn; intros k Hk; assert (k = 0)%Z as -> by lia; cbn; fold ms; rewrite c, e, Lf; lia)
     ltac:(fold ms; rewrite b; exact run_increasing) ltac:(fold ms; rewrite b; cbn; lra))
    as (r1 & E1 & Sh & _ & Hw & Hfl & Hlw & _).
  fold ms in E1. rewrite e in E1. rewrite E1. cbn [bind]. exists old, r1. split; [reflexivity|].
  split; [congruence|]. split; [exact Hw|].
  assert (S1 : same_input ms (rx_mesh r1)) by (apply (setNewHeatSource_only _ _ _ _ _ _ _ E1)).
  pose proof (same_input_trans _ _ _ S S1) as S2. pose proof S2 as (_ & _ & c2 & e2 & _).
  cbn [run_slab ms_cells ms_groups] in c2, e2.
  unfold burns. rewrite c2. rewrite (rsum_ext _ _ _ (fun _ => / 3 / 100)).
  - rewrite rsum_const by lia. cbn. lra.
  - intros i Hi. unfold fission_rate. rewrite e2, (run_volume _ _ S2). rewrite (rsum_one 0).
    rewrite (run_fission _ _ _ S2 eq_refl Hi). rewrite Hfl by (fold ms; lia). unfold mode_flux.
    cbn [er_single er_modes nth Z.to_nat snd]. rewrite Hf by (fold ms; lia). lra.
Qed.

Lemma run_heating r : same_reactor run_reactor r -> exists old r1, run_solve run_heat r = Ok (old, r1) /\ vlen old = 3%Z.
Proof.
  intros (S & _). cbn [run_reactor rx_mesh] in S. pose proof (run_input_conducting _ S) as Hc.
  assert (Hb : boundaries run_heat (mkbc 1 0 20) (mkbc 1 0 20)) by (left; reflexivity).
  assert (Hf : fits flat) by (intros A q _ _; reflexivity).
  pose proof S as (_ & _ & c & _). cbn in c.
  destruct (heatSolve_spec flat run_heat _ _ r Hc Hb Hf) as (old & Eo & [(N & m1 & m2 & _ & E & _)|[_ Hno]]).
  - exists old, (with_mesh m2 r). split; [exact E|].
    destruct (wp_ok _ _ (getTemperatures_wp dm0 (rx_mesh r) "C" ltac:(lia) ltac:(apply Hc))) as (o & Eo' & Lo & _).
    rewrite Eo in Eo'. injection Eo' as <-. congruence.
  - exfalso. destruct (heatStep_ok flat run_heat (rx_mesh r) _ _ Hc Hb Hf) as (m' & E & Rh & A & q & EA & Hx).
    apply (Hno 0%nat (rx_mesh r) m' ltac:(cbn; lia)). split; [constructor|]. split; [exact E|]. split; [cbn; lra|].
    intros i Hi. rewrite (Hx i Hi). cbn. rewrite Rminus_diag_eq by reflexivity. rewrite Rabs_R0. lra.
Qed.

(* a run of any length, with relaxation by one half *)
Example C49_hypotheses_met (n : nat) : exists st p q, st 0%nat = run_reactor /\
  coupled_run PI flat (fun l => l) no_eig (fun _ => []) (fun x => x) (fun x => x) (fun x => x) (fun x => x)
    run_diff run_heat (1 / 2) n st p q /\
  burning_run flat (fun l => l) no_eig (fun _ => []) (fun x => x) (fun x => x) (fun x => x) (fun x => x)
    run_diff run_heat (1 / 2) n st /\
  (forall i, (1 <= i <= n)%nat -> total_power (rx_mesh (st i)) = 8).
Proof.
  assert (Step : forall r rel, same_reactor run_reactor r -> exists r' p q,
     iteration PI flat (fun l => l) no_eig (fun _ => []) (fun x => x) (fun x => x) (fun x => x) (fun x => x)
       run_diff run_heat rel (1 / 2) r r' p q).
  { intros r rel S. destruct (run_diffusion r S) as (old & r1 & E1 & Lo & Hw & _).
    pose proof (solve_same _ _ _ _ _ _ _ _ _ _ _ _ _ E1) as S1. pose proof (same_reactor_trans _ _ _ S S1) as S1'.
    assert (Hm1 : mainParameter run_diff r1 = Ok (PDouble 1)) by (unfold mainParameter, getKFactor; rewrite Hw; reflexivity).
    assert (A : exists rm, half_step PI flat (fun l => l) no_eig (fun _ => []) (fun x => x) (fun x => x) (fun x => x) (fun x => x)
       run_diff rel (1 / 2) r rm (PDouble 1)).
    { destruct rel.
      - pose proof (input_ready _ _ (proj1 S1') run_slab_ready) as Hr.
        destruct (relaxPowers_spec (1 / 2) old r1 ltac:(apply Hr) ltac:(apply Hr)
          ltac:(destruct S1' as ((_ & _ & c & _) & _); rewrite Lo, c; reflexivity)) as (ms' & E & _).
        exists (with_mesh ms' r1), old, r1. split; [exact E1|]. split; [exact Hm1|]. exact E.
      - exists r1, old, r1. auto. }
    destruct A as (rm & A). pose proof (same_reactor_trans _ _ _ S (half_same _ _ _ _ _ _ _ _ _ _ _ _ _ _ _ A)) as Sm.
    destruct (run_heating rm Sm) as (old2 & r2 & E2 & Lo2).
    pose proof (same_reactor_trans _ _ _ Sm (solve_same _ _ _ _ _ _ _ _ _ _ _ _ _ E2)) as S2.
    pose proof (run_input_conducting _ (proj1 S2)) as Hc.
    destruct (wp_ok _ _ (getTemperatures_wp dm0 (rx_mesh r2) "C" ltac:(destruct Hc as (_ & ? & _); lia) ltac:(apply Hc))) as (t & Et & _).
    assert (Hm2 : mainParameter run_heat r2 = Ok (PVector t)) by (unfold mainParameter; cbn [run_heat sd_kind]; rewrite Et; reflexivity).
    assert (B : exists r', half_step PI flat (fun l => l) no_eig (fun _ => []) (fun x => x) (fun x => x) (fun x => x) (fun x => x)
       run_heat rel (1 / 2) rm r' (PVector t)).
    { destruct rel.
      - destruct (relaxTemperatures_spec (1 / 2) old2 r2 ltac:(destruct Hc as (_ & ? & _); lia) ltac:(apply Hc)
          ltac:(destruct S2 as ((_ & _ & c & _) & _); rewrite Lo2, c; reflexivity)) as (ms' & E & _).
        exists (with_mesh ms' r2), old2, r2. split; [exact E2|]. split; [exact Hm2|]. exact E.
      - exists r2, old2, r2. auto. }
    destruct B as (r' & B). exists r', (PDouble 1), (PVector t), rm. split; assumption. }
  assert (Run : exists st p q, st 0%nat = run_reactor /\
    coupled_run PI flat (fun l => l) no_eig (fun _ => []) (fun x => x) (fun x => x) (fun x => x) (fun x => x)
      run_diff run_heat (1 / 2) n st p q).
  { induction n as [|m IH].
    - exists (fun _ => run_reactor), (fun _ => PDouble 0), (fun _ => PDouble 0). split; [reflexivity|]. intros i Hi. lia.
    - destruct IH as (st & p & q & S0 & Run).
      pose proof (run_same _ _ _ _ _ _ _ _ _ _ _ _ _ _ _ _ Run m ltac:(lia)) as Sm. rewrite S0 in Sm.
      destruct (Step (st m) (negb (m =? 0)%nat) Sm) as (r' & p' & q' & It).
      exists (fun i => if (i =? S m)%nat then r' else st i), (fun i => if (i =? m)%nat then p' else p i),
        (fun i => if (i =? m)%nat then q' else q i). split; [exact S0|].
      intros i Hi. replace (i =? S m)%nat with false by (symmetry; apply Nat.eqb_neq; lia). cbn [Nat.eqb].
      destruct (Nat.eqb_spec i m) as [->|]; [exact It|]. apply Run. lia. }
  destruct Run as (st & p & q & S0 & Run). exists st, p, q. split; [exact S0|]. split; [exact Run|].
  assert (B : burning_run flat (fun l => l) no_eig (fun _ => []) (fun x => x) (fun x => x) (fun x => x) (fun x => x)
    run_diff run_heat (1 / 2) n st).
  { intros i Hi. split; [|discriminate]. intros _ old r1 E1.
    pose proof (run_same _ _ _ _ _ _ _ _ _ _ _ _ _ _ _ _ Run i ltac:(lia)) as Sm. rewrite S0 in Sm.
    destruct (run_diffusion (st i) Sm) as (o & r2 & E2 & _ & _ & Hb). unfold run_solve in E2. rewrite E1 in E2.
    injection E2 as <- <-. exact Hb. }
  split; [exact B|]. intros i Hi. change 8 with (rx_power run_reactor). rewrite <- S0.
  apply (C49_power_kept flat (fun l => l) no_eig (fun _ => []) (fun x => x) (fun x => x) (fun x => x) (fun x => x)
    run_diff run_heat (1 / 2) n st p q); auto.
  - exact flat_fits.
  - rewrite S0. apply run_supplied.
  - rewrite S0. apply run_supplied.
Qed.

(* ---------- C64, the part that fails ---------- *)

(* The text claims a relative change. For the temperatures the program compares
   the absolute one: two cells heated by diffusion, in binary64. *)
Module Witness.
Local Open Scope Z_scope.
Definition q (a b : Z) : f64 := nlit a b.
Definition cramer (M : mat f64) (b : vec f64) : vec f64 :=
  let a := mat_at M 0 0 in let b' := mat_at M 0 1 in let c := mat_at M 1 0 in let d := mat_at M 1 1 in
  let det := (a [*] d) [-] (b' [*] c) in
  vec_of_list n0 [((vat b 0 [*] d) [-] (b' [*] vat b 1)) [/] det; ((a [*] vat b 1) [-] (c [*] vat b 0)) [/] det].
Definition mt : material f64 :=
  mkMaterial "fuel" 1 (q 0 1) (q 0 1) (mzeros 0 0) (mzeros 0 0) (vzeros 0) (Some [q 1 1; q 4 1])
    [[q 1 10]] [[q 1 10]] [[q 1 1]] [[q 0 1]] [[q 5 2]] [[q 1 1]].
Definition rx : reactor f64 :=
  mkReactor (mkMesh (vec_of_list n0 [q 0 1; q 1 2; q 1 1]) SLAB 2 1 [mt; mt] 1 1)
    (q 2 1) [] [] (mkKinetics n0 n0 [] [] [] []) (n0, 0, 0).
Definition s1 := mkSolverData DIFFUSION (q 1 1000) 100 n0 [n1; n1] [] 1 FORWARD FUNDAMENTAL.
Definition s2 := mkSolverData HEAT (q 10 1) 100 n0 [] [q 1 1; q 0 1; q 0 1; q 1 1; q 0 1; q 0 1] 1 FORWARD FUNDAMENTAL.
Definition cs := mkSolverData COUPLED (q 3 10) 10 (q 1 2) [] [] 1 FORWARD FUNDAMENTAL.
Definition none (_ _ : mat f64) := (mkvec 0 (fun _ : Z => (n0 : f64, n0 : f64)), mkmat 0 0 (fun _ _ : Z => (n0 : f64, n0 : f64))).
Definition run := problemSolve (q 355 113) cramer (fun l => l) none (fun _ => [])
  (fun x => x) (fun x => x) (fun x => x) (fun x => x) (fun _ => Ok 0) newOutput [] [s1; s2; cs] rx.

(* the temperatures logged during the iterations *)
Fixpoint logged_temperatures (l : log f64) : list (vec f64) :=
  match l with
  | (INFO, IText t) :: (((_, IVector v) :: _) as l') =>
      if String.eqb t "Final temperatures [C]:" then v :: logged_temperatures l' else logged_temperatures l'
  | _ :: l' => logged_temperatures l'
  | [] => []
  end.
Definition check : bool :=
  match run with
  | Ok oc =>
      match logged_temperatures (oc_log oc) with
      | [a; b] => (vlen a =? 2) && (vlen b =? 2) &&
          (nltb (n1 [/] nofZ 2) (nabs ((vat b 0 [-] vat a 0) [/] vat b 0))) &&
          (nltb (n1 [/] nofZ 2) (nabs ((vat b 1 [-] vat a 1) [/] vat b 1)))
      | _ => false
      end
  | _ => false
  end.
Lemma check_true : check = true.
Proof. vm_compute. reflexivity. Qed.
End Witness.

(* A coupled calculation with accuracy 0.3 returns although the temperature of
   every cell changed by more than half in the last of its two iterations. *)
Theorem C64_relative_change_refuted :
  exists (oc : outcome f64) (a b : vec f64), Witness.run = Ok oc /\
    sd_acc Witness.cs = nlit 3 10 /\
    Witness.logged_temperatures (oc_log oc) = [a; b] /\ vlen a = 2%Z /\ vlen b = 2%Z /\
    forall i, (0 <= i < 2)%Z -> nltb (n1 [/] nofZ 2) (nabs ((vat b i [-] vat a i) [/] vat b i)) = true.
Proof.
  pose proof Witness.check_true as H. unfold Witness.check in H. destruct Witness.run as [oc| | |]; try discriminate.
  destruct (Witness.logged_temperatures (oc_log oc)) as [|a [|b [|? ?]]] eqn:E; try discriminate.
  apply andb_true_iff in H as [H H4]. apply andb_true_iff in H as [H H3]. apply andb_true_iff in H as [H1 H2].
  exists oc, a, b. split; [reflexivity|]. split; [reflexivity|]. split; [exact E|].
  split; [apply Z.eqb_eq; exact H1|]. split; [apply Z.eqb_eq; exact H2|].
  intros i Hi. assert (i = 0 \/ i = 1)%Z as [->| ->] by lia; assumption.
Qed.
Print Assumptions C64_relative_change_refuted.

(* An ADS solver coupled with another one never converges: its main parameter is
   always zero and 0/0 is not a number. *)
Theorem C64_ads_never_converges_refuted mpi solver sort eig croots e3 b3 nexp nsqrt o pk (s1 s2 cs : solverData f64) r oc :
  sd_kind s1 = ADS \/ sd_kind s2 = ADS -> sd_kind s1 <> COUPLED -> sd_kind s2 <> COUPLED ->
  n1 [<=] sd_acc cs = false ->
  doubleCalculation mpi solver sort eig croots e3 b3 nexp nsqrt o pk [s1; s2; cs] r <> Ok oc.
Proof.
  intros Hk K1 K2 Ha H. destruct (doubleCalculation_run _ _ _ _ _ _ _ _ _ _ _ _ _ _ H)
    as (s1' & s2' & cs' & n & st & p & q & E1 & E2 & E3 & Hn & _ & Run & _ & _ & Cv & _).
  injection E1 as <-. injection E2 as <-.
  assert (cs' = cs) as ->.
  { unfold getCoupledSolver in E3. cbn [find] in E3. destruct (sd_kind s1), (sd_kind s2); try congruence;
      cbn [kind_eqb] in E3; destruct (kind_eqb (sd_kind cs) COUPLED); congruence. }
  destruct n as [|[|m]]; [lia| |].
  - destruct Cv as [C _]. change (1 - 1)%nat with 0%nat in C. unfold small in C. congruence.
  - replace (S (S m) - 1)%nat with (S m) in Cv by lia. destruct Cv as [(d1 & D1 & L1) (d2 & D2 & L2)].
    assert (Z0 : forall x d, getDifference (PDouble (n0 : f64)) (PDouble (n0 : f64)) = Ok d -> d [<=] x = false).
    { intros x d D.
      assert (N : nabs (((n0 : f64) [-] n0) [/] n0) = f64_nan) by (vm_compute; reflexivity).
      unfold getDifference in D. rewrite N in D. injection D as <-. reflexivity. }
    destruct (Run m ltac:(lia)) as (ra & (o1 & r1 & _ & A1 & _) & (o2 & r2 & _ & A2 & _)).
    destruct (Run (S m) ltac:(lia)) as (rb & (o3 & r3 & _ & A3 & _) & (o4 & r4 & _ & A4 & _)).
    unfold mainParameter in *. destruct Hk as [Hk|Hk]; rewrite Hk in *.
    + injection A1 as A1. injection A3 as A3. rewrite <- A1, <- A3 in D1. rewrite (Z0 _ _ D1) in L1. discriminate.
    + injection A2 as A2. injection A4 as A4. rewrite <- A2, <- A4 in D2. rewrite (Z0 _ _ D2) in L2. discriminate.
Qed.
Print Assumptions C64_ads_never_converges_refuted.
