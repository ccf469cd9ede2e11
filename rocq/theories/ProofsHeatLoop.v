(* The temperature iteration (Heat/HeatSolver.cpp). *)
From Coq Require Import String ZArith List Bool Lia Reals Lra.
From Verif Require Import Base BaseLemmas NumR LinAlg Blocks ModelNumTools ModelEigen ModelMesh ModelReactor
  ModelHeat ProofsMesh ProofsDiffusion ProofsDiffusionR ProofsPower ProofsHeat.
Import ListNotations.
Local Open Scope R_scope.

(* temperature stored in cell i *)
Definition temp (ms : mesh R) (i : Z) : R := mt_temp (cell_material ms i).

(* the solver called on square systems answers with a vector of the right length *)
Definition fits (solver : mat R -> vec R -> vec R) : Prop :=
  forall A q, mrows A = vlen q -> mcols A = vlen q -> vlen (solver A q) = vlen q.

(* and it solves the systems that have one solution *)
Definition exact (solver : mat R -> vec R -> vec R) : Prop :=
  fits solver /\
  forall n A q f, mat_is n A f -> vlen q = n -> injective n f ->
    forall i, (0 <= i < n)%Z -> app n f (vat (solver A q)) i = vat q i.

(* ms' is ms with other temperatures *)
Definition reheated (ms ms' : mesh R) : Prop :=
  same_shape ms ms' /\
  forall i, (0 <= i < ms_cells ms)%Z -> cell_material ms' i = set_temp (temp ms' i) (cell_material ms i).

Lemma reheated_refl ms : reheated ms ms.
Proof. split; [apply same_shape_refl|]. intros i Hi. unfold temp. destruct (cell_material ms i); reflexivity. Qed.
Lemma reheated_trans a b c : reheated a b -> reheated b c -> reheated a c.
Proof.
  intros [S1 M1] [S2 M2]. split; [eapply same_shape_trans; eauto|]. intros i Hi.
  assert (ms_cells b = ms_cells a) by apply S1.
  rewrite M2 by lia. rewrite M1 by lia. reflexivity.
Qed.

Lemma reheated_facts ms ms' : reheated ms ms' -> conducting ms ->
  conducting ms' /\ ms_cells ms' = ms_cells ms /\ ms_bounds ms' = ms_bounds ms /\ ms_geom ms' = ms_geom ms /\
  forall i, (0 <= i < ms_cells ms)%Z ->
    stored_heat ms' i = stored_heat ms i /\ cell_volume ms' i = cell_volume ms i /\
    mt_cond (cell_material ms' i) = mt_cond (cell_material ms i).
Proof.
  intros [(c & g & b & ge & l) M] (Hg & Hn & Hb & Hm & Hc).
  assert (F : forall i, (0 <= i < ms_cells ms)%Z ->
    stored_heat ms' i = stored_heat ms i /\ cell_volume ms' i = cell_volume ms i /\
    mt_cond (cell_material ms' i) = mt_cond (cell_material ms i)).
  { intros i Hi. unfold stored_heat, cell_volume. rewrite M by auto. rewrite b, ge. auto. }
  repeat split; auto; try apply F; auto; try congruence; try lia.
  - unfold zlen in *. lia.
  - intros m Hm'. destruct (F m ltac:(lia)) as (_ & _ & ->). apply Hc. lia.
Qed.

Definition solution_of (solver : mat R -> vec R -> vec R) (sd : solverData R) (ms : mesh R) (x : Z -> R) : Prop :=
  exists A q, heatSystem PI sd ms = Ok (A, q) /\ forall i, (0 <= i < ms_cells ms)%Z -> x i = vat (solver A q) i.

Lemma heatStep_ok solver sd ms L Rt : conducting ms -> boundaries sd L Rt -> fits solver ->
  exists ms', heatStep PI solver sd ms = Ok ms' /\ reheated ms ms' /\ solution_of solver sd ms (temp ms').
Proof.
  intros Hc Hb Hf. pose proof Hc as (_ & Hn & _ & Hm & _). unfold heatStep.
  destruct (wp_ok _ _ (heatSystem_wp ms sd L Rt Hc Hb)) as ([A q] & E & (Hr & Hcl & HA) & Lq & Hq).
  rewrite E. cbn [bind]. cbn [fst snd] in *.
  assert (Ls : vlen (solver A q) = ms_cells ms) by (rewrite <- Lq; apply Hf; congruence).
  destruct (wp_ok _ _ (setTemperatures_wp dm0 (solver A q) ms ltac:(lia) ltac:(lia)))
    as (ms' & E' & c & g & b & ge & l & h).
  exists ms'. split; [exact E'|].
  assert (M : forall i, (0 <= i < ms_cells ms)%Z ->
     cell_material ms' i = set_temp (vat (solver A q) i) (cell_material ms i)).
  { intros i Hi. unfold cell_material at 1. unfold zlen in Hm. rewrite h by lia. rewrite Z2Nat.id by lia.
    replace (i <? vlen (solver A q))%Z with true by lia. reflexivity. }
  split.
  - split; [repeat split; auto|]. intros i Hi. unfold temp. rewrite M by auto. reflexivity.
  - exists A, q. split; [exact E|]. intros i Hi. unfold temp. rewrite M by auto. reflexivity.
Qed.

Lemma temps_ok ms : conducting ms ->
  exists v, getTemperatures ms "C" = Ok v /\ vlen v = ms_cells ms /\
    forall i, (0 <= i < ms_cells ms)%Z -> vat v i = temp ms i.
Proof.
  intros (_ & Hn & _ & Hm & _).
  destruct (wp_ok _ _ (getTemperatures_wp dm0 ms "C" ltac:(lia) Hm)) as (v & E & L & H).
  exists v. split; [exact E|]. split; [exact L|]. intros i Hi. rewrite H by auto. reflexivity.
Qed.

Lemma maxDifference_ok (new old : vec R) acc : (0 <= vlen new)%Z -> (vlen new <= vlen old)%Z ->
  exists m, maxDifference new old = Ok m /\
    (m < acc <-> 0 < acc /\ forall i, (0 <= i < vlen new)%Z -> Rabs (vat new i - vat old i) < acc).
Proof.
  intros H0 Hl.
  assert (W : wp (maxDifference new old) (fun m =>
    m < acc <-> 0 < acc /\ forall i, (0 <= i < vlen new)%Z -> Rabs (vat new i - vat old i) < acc)).
  { unfold maxDifference.
    apply (zfor_wp' (fun k m => m < acc <-> 0 < acc /\ forall i, (0 <= i < k)%Z -> Rabs (vat new i - vat old i) < acc)).
    - lia.
    - change (n0 : R) with (IZR 0). split; [intros; split; [auto|intros; lia]|tauto].
    - intros i m Hi IH. rewrite (vget_ok new), (vget_ok old) by lia. cbn [bind wp].
      change (nabs (vat new i [-] vat old i)) with (Rabs (vat new i - vat old i)).
      set (d := Rabs (vat new i - vat old i)) in *.
      assert (Hd : forall P : Prop, (0 < acc /\ (forall j, (0 <= j < i + 1)%Z -> Rabs (vat new j - vat old j) < acc)) <->
        (m < acc /\ d < acc)).
      { intros _. rewrite IH. split.
        - intros [Ha H]. split; [split; auto; intros; apply H; lia|]. apply H; lia.
        - intros [[Ha H] H']. split; auto. intros j Hj. destruct (Z.eq_dec j i) as [->|]; [exact H'|apply H; lia]. }
      rewrite (Hd True). change (m [<] d) with (Rltb m d). destruct (Rltb m d) eqn:E.
      + apply Rltb_true in E. split; [intros; split; lra|tauto].
      + apply Rltb_false in E. split; [intros; split; lra|tauto].
    - auto. }
  destruct (wp_ok _ _ W) as (m & E & H). eauto.
Qed.

(* k iterations of the solver *)
Inductive run (solver : mat R -> vec R -> vec R) (sd : solverData R) : nat -> mesh R -> mesh R -> Prop :=
| run_0 ms : run solver sd 0 ms ms
| run_S k ms ms1 ms2 : heatStep PI solver sd ms = Ok ms1 -> run solver sd k ms1 ms2 -> run solver sd (S k) ms ms2.

(* the exit condition *)
Definition close (sd : solverData R) (n : Z) (x y : Z -> R) : Prop :=
  0 < sd_acc sd /\ forall i, (0 <= i < n)%Z -> Rabs (x i - y i) < sd_acc sd.
Definition previous (old : Z -> R) (k : nat) (ms : mesh R) : Z -> R :=
  match k with O => old | S _ => temp ms end.
(* iteration number k, started from mesh ms1, meets the exit condition *)
Definition stops solver sd (ms : mesh R) (old : Z -> R) (k : nat) (ms1 ms2 : mesh R) : Prop :=
  run solver sd k ms ms1 /\ heatStep PI solver sd ms1 = Ok ms2 /\
  close sd (ms_cells ms) (temp ms2) (previous old k ms1).

Lemma run_reheated solver sd L Rt k : forall ms ms', conducting ms -> boundaries sd L Rt -> fits solver ->
  run solver sd k ms ms' -> reheated ms ms'.
Proof.
  induction k as [|k IH]; intros ms ms' Hc Hb Hf H; inversion H; subst; [apply reheated_refl|].
  destruct (heatStep_ok solver sd ms L Rt Hc Hb Hf) as (m & E & R & _).
  assert (m = ms1) by congruence. subst m.
  apply (reheated_trans _ ms1); auto. apply IH; auto. apply (reheated_facts ms); auto.
Qed.

Lemma heatLoop_spec solver sd L Rt k : forall ms old, conducting ms -> boundaries sd L Rt -> fits solver ->
  vlen old = ms_cells ms ->
  (exists N ms1 ms2, (N < k)%nat /\ heatLoop PI solver sd k ms old = Ok (Some ms2) /\
     stops solver sd ms (vat old) N ms1 ms2 /\
     forall N' a b, (N' < N)%nat -> ~ stops solver sd ms (vat old) N' a b) \/
  (heatLoop PI solver sd k ms old = Ok None /\
     forall N a b, (N < k)%nat -> ~ stops solver sd ms (vat old) N a b).
Proof.
  induction k as [|k IH]; intros ms old Hc Hb Hf Lo.
  - right. split; [reflexivity|intros; lia].
  - destruct (heatStep_ok solver sd ms L Rt Hc Hb Hf) as (ms1 & E & R & _).
    destruct (reheated_facts ms ms1 R Hc) as (Hc1 & n1' & _).
    destruct (temps_ok ms1 Hc1) as (new & En & Ln & Hnew).
    pose proof Hc as (_ & Hn & _).
    destruct (maxDifference_ok new old (sd_acc sd) ltac:(lia) ltac:(lia)) as (m & Em & Hm).
    assert (H0 : m < sd_acc sd <-> close sd (ms_cells ms) (temp ms1) (vat old)).
    { rewrite Hm. unfold close. rewrite Ln, n1'. split; intros [Ha H]; (split; [exact Ha|]); intros i Hi;
        specialize (H i Hi); rewrite Hnew in * by lia; exact H. }
    cbn [heatLoop]. rewrite E. cbn [bind]. rewrite En. cbn [bind]. rewrite Em. cbn [bind].
    change (m [<] sd_acc sd) with (Rltb m (sd_acc sd)). destruct (Rltb m (sd_acc sd)) eqn:Ec.
    + apply Rltb_true in Ec. left. exists 0%nat, ms, ms1. split; [lia|]. split; [reflexivity|]. split.
      * split; [constructor|]. split; [exact E|]. apply H0. exact Ec.
      * intros; lia.
    + apply Rltb_false in Ec.
      assert (No0 : forall a b, ~ stops solver sd ms (vat old) 0 a b).
      { intros a b (Hr & Hs & Hcl). inversion Hr; subst a. assert (b = ms1) by congruence. subst b.
        apply H0 in Hcl. lra. }
      assert (Shift : forall N a b, stops solver sd ms (vat old) (S N) a b <-> stops solver sd ms1 (vat new) N a b).
      { intros N a b. unfold stops. rewrite n1'. split; intros (Hr & Hs & Hcl).
        - inversion Hr as [|? ? x ? Hx Hr' ]; subst. assert (x = ms1) by congruence. subst x.
          split; [exact Hr'|]. split; [exact Hs|]. destruct N; [|exact Hcl].
          inversion Hr'; subst a. split; [apply Hcl|]. intros i Hi. cbn [previous] in *.
          rewrite Hnew by lia. apply Hcl. exact Hi.
        - split; [econstructor; eauto|]. split; [exact Hs|]. destruct N; [|exact Hcl].
          inversion Hr; subst a. split; [apply Hcl|]. intros i Hi. cbn [previous] in *.
          rewrite <- Hnew by lia. apply Hcl. exact Hi. }
      destruct (IH ms1 new Hc1 Hb Hf ltac:(congruence)) as [(N & a & b & HN & El & Hst & Hmin)|[El Hno]].
      * left. exists (S N), a, b. split; [lia|]. split; [exact El|]. split; [apply Shift; exact Hst|].
        intros [|N'] a' b' HN'; [apply No0|]. rewrite Shift. apply Hmin. lia.
      * right. split; [exact El|]. intros [|N] a b HN; [apply No0|]. rewrite Shift. apply Hno. lia.
Qed.

Lemma heatSolve_spec solver sd L Rt r : conducting (rx_mesh r) -> boundaries sd L Rt -> fits solver ->
  let ms := rx_mesh r in
  exists old, getTemperatures ms "C" = Ok old /\
  ((exists N ms1 ms2, (Z.of_nat N < sd_max sd)%Z /\
     heatSolve PI solver sd r = Ok (old, with_mesh ms2 r) /\
     stops solver sd ms (fun _ => 1) N ms1 ms2 /\
     forall N' a b, (N' < N)%nat -> ~ stops solver sd ms (fun _ => 1) N' a b) \/
  (heatSolve PI solver sd r = Exit "The heat calculation did not converge!" /\
     forall N a b, (Z.of_nat N < sd_max sd)%Z -> ~ stops solver sd ms (fun _ => 1) N a b)).
Proof.
  intros Hc Hb Hf ms. destruct (temps_ok ms Hc) as (old & Eo & Lo & _). exists old. split; [exact Eo|].
  unfold heatSolve. fold ms.
  destruct (wp_ok _ _ (newHeatCode_wp ms Hc)) as (hc & Eh & _). rewrite Eh. cbn [bind]. rewrite Eo. cbn [bind].
  destruct (heatLoop_spec solver sd L Rt (Z.to_nat (sd_max sd)) ms (vones (ms_cells ms)) Hc Hb Hf eq_refl)
    as [(N & a & b & HN & El & Hst & Hmin)|[El Hno]]; rewrite El; cbn [bind].
  - left. exists N, a, b. split; [lia|]. split; [reflexivity|]. split; [exact Hst|]. exact Hmin.
  - right. split; [reflexivity|]. intros N a b HN. apply Hno. lia.
Qed.

(* conductivity laws that are positive at every temperature *)
Definition good_material (ms : mesh R) : Prop :=
  forall i t, (0 <= i < ms_cells ms)%Z ->
    exists c, mt_cond (cell_material ms i) = Some c /\ 0 < law_value c t.
Definition good_geometry (ms : mesh R) : Prop := increasing (ms_bounds ms) /\ vat (ms_bounds ms) 0 = 0.

Lemma good_physical ms ms' : conducting ms -> good_material ms -> good_geometry ms -> reheated ms ms' -> physical ms'.
Proof.
  intros Hc Hg [Hi H0] R. destruct (reheated_facts ms ms' R Hc) as (_ & c & b & _ & F).
  unfold physical. rewrite b, c. repeat split; auto. intros i Hi'. destruct (F i Hi') as (_ & _ & E).
  unfold conductivity. rewrite E. destruct (Hg i (mt_temp (cell_material ms' i)) Hi') as (c' & -> & Hp). exact Hp.
Qed.

(* the temperatures returned solve the system built from the temperatures of
   the iteration before *)
Lemma step_solves solver sd L Rt ms ms' : conducting ms -> physical ms -> boundaries sd L Rt -> exact solver ->
  injective (ms_cells ms) (fullmat ms L Rt) -> heatStep PI solver sd ms = Ok ms' ->
  forall i, (0 <= i < ms_cells ms)%Z ->
    app (ms_cells ms) (fullmat ms L Rt) (temp ms') i = fullsource ms L Rt i.
Proof.
  intros Hc Hp Hb [Hf He] Hinj E i Hi.
  destruct (heatStep_ok solver sd ms L Rt Hc Hb Hf) as (m & E' & _ & (A & q & Es & Hx)).
  assert (m = ms') by congruence. subst m.
  destruct (wp_ok _ _ (heatSystem_wp ms sd L Rt Hc Hb)) as ([A' q'] & E'' & HA & Lq & Hq).
  rewrite Es in E''. injection E'' as <- <-. cbn [fst snd] in *.
  rewrite <- Hq by auto. rewrite <- (He (ms_cells ms) A q (fullmat ms L Rt) HA Lq Hinj i Hi).
  apply app_ext; auto.
Qed.
