(* Conductivities that do not depend on the temperature (Heat/HeatSolver.cpp,
   Heat/BaseHeatCode.cpp). *)
From Coq Require Import String ZArith List Bool Lia Reals Lra.
From Verif Require Import Base BaseLemmas NumR LinAlg Blocks ModelNumTools ModelEigen ModelMesh ModelReactor
  ModelHeat ProofsMesh ProofsDiffusion ProofsDiffusionR ProofsPower ProofsHeat ProofsHeatLoop.
Import ListNotations.
Local Open Scope R_scope.

(* the conductivity law of every cell is one positive number *)
Definition constant_conductivity (ms : mesh R) : Prop :=
  forall i, (0 <= i < ms_cells ms)%Z -> exists k, 0 < k /\ mt_cond (cell_material ms i) = Some [k].

Lemma constant_law (c t : R) : law_value (T := R) [c] t = c.
Proof. rewrite law_value_R. exact (eq_trans (rsum_one 0 _) (Rmult_1_r c)). Qed.

Lemma constant_good ms : constant_conductivity ms -> good_material ms.
Proof. intros H i t Hi. destruct (H i Hi) as (k & Hk & E). exists [k]. rewrite constant_law. auto. Qed.

(* the same body and the same conductivities *)
Definition same_conduction (a b : mesh R) : Prop :=
  ms_cells b = ms_cells a /\ ms_bounds b = ms_bounds a /\ ms_geom b = ms_geom a /\
  forall i, (0 <= i < ms_cells a)%Z -> conductivity b i = conductivity a i.

Lemma same_ilam a b i : same_conduction a b -> (0 <= i < ms_cells a)%Z -> ilam b i = ilam a i.
Proof.
  intros (Ec & Eb & Eg & Ek) Hi. unfold ilam, width, face. rewrite Ec, Eb, Eg.
  destruct ((1 <=? i) && (i <? ms_cells a - 1))%Z eqn:E; rewrite !Ek by lia; reflexivity.
Qed.
Lemma same_isz a b i : same_conduction a b -> isz b i = isz a i.
Proof. intros (Ec & Eb & _). unfold isz, width. rewrite Ec, Eb. reflexivity. Qed.
Lemma same_hmat a b i j : same_conduction a b -> (0 <= i < ms_cells a)%Z -> (0 <= j < ms_cells a)%Z ->
  hmat b i j = hmat a i j.
Proof.
  intros H Hi Hj. pose proof H as (Ec & _). unfold hmat. rewrite Ec.
  assert (G : (i < ms_cells a - 1)%Z -> gright b i = gright a i).
  { intros. unfold gright. rewrite (same_ilam a b), (same_isz a b); auto. lia. }
  assert (L : gleft b i = gleft a i).
  { unfold gleft. rewrite Ec. rewrite (same_ilam a b), !(same_isz a b) by auto. reflexivity. }
  rewrite L. destruct (Z.eqb_spec j i) as [E|].
  - destruct (Z.ltb_spec i (ms_cells a - 1)); [rewrite G by auto|]; reflexivity.
  - destruct (Z.eqb_spec j (i + 1)) as [E|]; [rewrite G by lia|]; reflexivity.
Qed.

(* coefficients that differ in the reference only *)
Definition same_bc (L L' : bc) : Prop := bcA L' = bcA L /\ bcB L' = bcB L.

Lemma same_slab a b : same_conduction a b -> is_slab b = is_slab a.
Proof. intros (_ & _ & E & _). unfold is_slab. rewrite E. reflexivity. Qed.
Lemma same_den a b L L' Rt Rt' : same_conduction a b -> (2 <= ms_cells a)%Z -> same_bc L L' -> same_bc Rt Rt' ->
  denL b L' = denL a L /\ denR b Rt' = denR a Rt.
Proof.
  intros H Hn (A & B) (A' & B'). pose proof H as (Ec & Eb & Eg & _). unfold denL, denR.
  rewrite Ec, A, B, A', B'. rewrite !(same_ilam a b) by (auto; lia). unfold width, face. rewrite Eb, Eg. auto.
Qed.
Lemma same_fullmat a b L L' Rt Rt' i j : same_conduction a b -> (2 <= ms_cells a)%Z -> same_bc L L' -> same_bc Rt Rt' ->
  (0 <= i < ms_cells a)%Z -> (0 <= j < ms_cells a)%Z -> fullmat b L' Rt' i j = fullmat a L Rt i j.
Proof.
  intros H Hn HL HR Hi Hj. pose proof H as (Ec & _). destruct (same_den a b L L' Rt Rt' H Hn HL HR) as [DL DR].
  unfold fullmat, alphaL, alphaR. rewrite (same_hmat a b), (same_slab a b), Ec, DL, DR by auto.
  destruct HL as [-> _], HR as [-> _]. reflexivity.
Qed.

Lemma reheated_conduction a b : conducting a -> constant_conductivity a -> reheated a b -> same_conduction a b.
Proof.
  intros Hc Hk R. destruct (reheated_facts a b R Hc) as (_ & c & bb & g & F).
  split; [exact c|]. split; [exact bb|]. split; [exact g|]. intros i Hi. destruct (F i Hi) as (_ & _ & E).
  unfold conductivity. rewrite E. destruct (Hk i Hi) as (k & _ & ->). rewrite !constant_law. reflexivity.
Qed.
Lemma same_bc_refl L : same_bc L L.
Proof. split; reflexivity. Qed.
Lemma reheated_source a b L Rt i : conducting a -> constant_conductivity a -> reheated a b ->
  (0 <= i < ms_cells a)%Z -> fullsource b L Rt i = fullsource a L Rt i.
Proof.
  intros Hc Hk R Hi. pose proof (reheated_conduction a b Hc Hk R) as S. pose proof S as (Ec & _).
  pose proof Hc as (_ & Hn & _).
  destruct (same_den a b L L Rt Rt S Hn (same_bc_refl L) (same_bc_refl Rt)) as [DL DR].
  destruct (reheated_facts a b R Hc) as (_ & _ & _ & _ & F). destruct (F i Hi) as (Es & Ev & _).
  unfold fullsource, betaL, betaR. rewrite (same_slab a b S), Ec, DL, DR, Es, Ev. reflexivity.
Qed.

(* a face where something is prescribed *)
Definition well_posed (ms : mesh R) (L Rt : bc) : Prop :=
  (is_slab ms = true -> admissible L) /\ admissible Rt /\ (0 < bcA Rt \/ (is_slab ms = true /\ 0 < bcA L)).

Lemma well_posed_injective ms L Rt : conducting ms -> physical ms -> well_posed ms L Rt ->
  injective (ms_cells ms) (fullmat ms L Rt).
Proof. intros Hc Hp (HL & HR & Hf). apply monotone_injective, fullmat_monotone; auto. Qed.

Lemma injective_equal n f x y : injective n f ->
  (forall i, (0 <= i < n)%Z -> app n f x i = app n f y i) -> forall i, (0 <= i < n)%Z -> x i = y i.
Proof.
  intros Hi H i Hi'. cut (x i - y i = 0); [lra|]. apply (Hi (fun j => x j - y j)); auto.
  intros k Hk. specialize (H k Hk). unfold app in *.
  rewrite (rsum_ext _ _ _ (fun j => f k j * x j - f k j * y j)) by (intros; ring). rewrite rsum_minus. lra.
Qed.

(* every iteration, wherever it starts, solves the same system *)
Lemma constant_step solver sd L Rt ms a b : conducting ms -> constant_conductivity ms -> good_geometry ms ->
  boundaries sd L Rt -> exact solver -> well_posed ms L Rt -> reheated ms a -> heatStep PI solver sd a = Ok b ->
  reheated ms b /\
  forall i, (0 <= i < ms_cells ms)%Z -> app (ms_cells ms) (fullmat ms L Rt) (temp b) i = fullsource ms L Rt i.
Proof.
  intros Hc Hk Hg Hb He Hw R E.
  pose proof (reheated_conduction ms a Hc Hk R) as S. pose proof S as (Ec & _). pose proof Hc as (_ & Hn & _).
  destruct (reheated_facts ms a R Hc) as (Hca & _).
  pose proof (good_physical ms a Hc (constant_good ms Hk) Hg R) as Hpa.
  assert (Hwa : well_posed a L Rt) by (unfold well_posed; rewrite (same_slab ms a S); exact Hw).
  destruct (heatStep_ok solver sd a L Rt Hca Hb (proj1 He)) as (b' & E' & R' & _).
  assert (b' = b) by congruence. subst b'.
  split; [eapply reheated_trans; eauto|]. intros i Hi.
  pose proof (step_solves solver sd L Rt a b Hca Hpa Hb He (well_posed_injective a L Rt Hca Hpa Hwa) E) as Sol.
  rewrite Ec in Sol. rewrite <- (reheated_source ms a L Rt i Hc Hk R Hi), <- (Sol i Hi).
  unfold app. apply rsum_ext. intros j Hj.
  rewrite (same_fullmat ms a L L Rt Rt i j S Hn (same_bc_refl L) (same_bc_refl Rt) Hi Hj). reflexivity.
Qed.

Lemma constant_solve solver sd L Rt r : let ms := rx_mesh r in
  conducting ms -> constant_conductivity ms -> good_geometry ms ->
  boundaries sd L Rt -> exact solver -> well_posed ms L Rt -> 0 < sd_acc sd -> (2 <= sd_max sd)%Z ->
  exists old ms', getTemperatures ms "C" = Ok old /\ heatSolve PI solver sd r = Ok (old, with_mesh ms' r) /\
    reheated ms ms' /\
    forall i, (0 <= i < ms_cells ms)%Z -> app (ms_cells ms) (fullmat ms L Rt) (temp ms') i = fullsource ms L Rt i.
Proof.
  intros ms Hc Hk Hg Hb He Hw Ha Hm.
  pose proof (good_physical ms ms Hc (constant_good ms Hk) Hg (reheated_refl ms)) as Hp.
  pose proof (well_posed_injective ms L Rt Hc Hp Hw) as Hinj.
  destruct (heatSolve_spec solver sd L Rt r Hc Hb (proj1 He)) as (old & Eo & [(N & a & b & HN & Hs & Hst & Hmin)|[Hs Hno]]).
  - exists old, b. split; [exact Eo|]. split; [exact Hs|]. destruct Hst as (Hr & Hstep & _).
    apply (constant_step solver sd L Rt ms a b); auto. eapply run_reheated; eauto. apply He.
  - exfalso.
    destruct (heatStep_ok solver sd ms L Rt Hc Hb (proj1 He)) as (m1 & E1 & R1 & _).
    destruct (reheated_facts ms m1 R1 Hc) as (Hc1 & _).
    destruct (heatStep_ok solver sd m1 L Rt Hc1 Hb (proj1 He)) as (m2 & E2 & R2 & _).
    apply (Hno 1%nat m1 m2); [lia|]. split; [econstructor; [exact E1|constructor]|]. split; [exact E2|].
    split; [exact Ha|]. cbn [previous]. intros i Hi.
    destruct (constant_step solver sd L Rt ms ms m1 Hc Hk Hg Hb He Hw (reheated_refl ms) E1) as [_ S1].
    destruct (constant_step solver sd L Rt ms m1 m2 Hc Hk Hg Hb He Hw R1 E2) as [_ S2].
    rewrite (injective_equal _ _ (temp m2) (temp m1) Hinj) by (auto; intros k Hk'; rewrite S1, S2 by auto; reflexivity).
    replace (temp m1 i - temp m1 i) with 0 by ring. rewrite Rabs_R0. exact Ha.
Qed.
