(* Property theorems C87: the heat calculation when the conductivities do not
   depend on the temperature.  [constant_conductivity ms]: the law of every
   cell is one positive number.  [well_posed]: the coefficients of the faces
   are not negative, not both zero, and a temperature is prescribed or
   exchanged at one face at least.  [reheated ms ms']: ms' is ms with other
   temperatures. *)
From Coq Require Import String ZArith List Bool Lia Reals Lra.
From Verif Require Import Base BaseLemmas NumR LinAlg Blocks ModelNumTools ModelEigen ModelMesh ModelReactor
  ModelHeat ProofsMesh ProofsDiffusion ProofsDiffusionR ProofsPower ProofsHeat ProofsHeatLoop ProofsHeatConstant
  PropsHeat.
Import ListNotations.
Local Open Scope R_scope.

(* The calculation always ends well when two iterations are allowed, changes
   nothing but the temperatures, and its temperatures are the one solution of
   the conduction equations written at those same temperatures. *)
Theorem C87_constant_conductivity solver sd L Rt r :
  let ms := rx_mesh r in let n := ms_cells ms in
  conducting ms -> constant_conductivity ms -> good_geometry ms ->
  boundaries sd L Rt -> exact solver -> well_posed ms L Rt -> 0 < sd_acc sd -> (2 <= sd_max sd)%Z ->
  exists old ms' M q, heatSolve PI solver sd r = Ok (old, with_mesh ms' r) /\ reheated ms ms' /\
    heatSystem PI sd ms' = Ok (M, q) /\
    forall x, (forall i, (0 <= i < n)%Z -> rsum 0 n (fun j => mat_at M i j * x j) = vat q i) <->
              (forall i, (0 <= i < n)%Z -> x i = temp ms' i).
Proof.
  intros ms n Hc Hk Hg Hb He Hw Ha Hm.
  destruct (constant_solve solver sd L Rt r Hc Hk Hg Hb He Hw Ha Hm) as (old & ms' & _ & Es & R & Sol). fold ms n in R, Sol.
  destruct (reheated_facts ms ms' R Hc) as (Hc' & Ec & _). fold n in Ec.
  pose proof (reheated_conduction ms ms' Hc Hk R) as S. pose proof Hc as (_ & Hn & _). fold n in Hn.
  pose proof (good_physical ms ms Hc (constant_good ms Hk) Hg (reheated_refl ms)) as Hp.
  pose proof (well_posed_injective ms L Rt Hc Hp Hw) as Hinj. fold n in Hinj.
  destruct (wp_ok _ _ (heatSystem_wp ms' sd L Rt Hc' Hb)) as ([M q] & Esy & (_ & _ & HM) & _ & Hq). cbn [fst snd] in *.
  rewrite Ec in HM, Hq. exists old, ms', M, q. split; [exact Es|]. split; [exact R|]. split; [exact Esy|].
  assert (A : forall x i, (0 <= i < n)%Z -> rsum 0 n (fun j => mat_at M i j * x j) = app n (fullmat ms L Rt) x i).
  { intros x i Hi. unfold app. apply rsum_ext. intros j Hj. rewrite HM by auto.
    rewrite (same_fullmat ms ms' L L Rt Rt i j S Hn (same_bc_refl L) (same_bc_refl Rt) Hi Hj). reflexivity. }
  assert (Q : forall i, (0 <= i < n)%Z -> vat q i = fullsource ms L Rt i).
  { intros i Hi. rewrite Hq by auto. apply reheated_source; auto. }
  intros x. split; intros H i Hi.
  - revert i Hi. apply (injective_equal n _ _ _ Hinj). intros i Hi. rewrite <- A, H, Q, Sol by auto. reflexivity.
  - rewrite A, Q, <- Sol by auto. apply app_ext; auto.
Qed.
Print Assumptions C87_constant_conductivity.

(* The temperatures the calculation starts from do not matter. *)
Theorem C87_initial_temperatures solver sd L Rt r1 r2 :
  let ms := rx_mesh r1 in
  conducting ms -> constant_conductivity ms -> good_geometry ms -> reheated ms (rx_mesh r2) ->
  boundaries sd L Rt -> exact solver -> well_posed ms L Rt -> 0 < sd_acc sd -> (2 <= sd_max sd)%Z ->
  exists old1 old2 r1' r2', heatSolve PI solver sd r1 = Ok (old1, r1') /\ heatSolve PI solver sd r2 = Ok (old2, r2') /\
    forall i, (0 <= i < ms_cells ms)%Z -> temp (rx_mesh r2') i = temp (rx_mesh r1') i.
Proof.
  intros ms Hc Hk Hg R2 Hb He Hw Ha Hm.
  destruct (constant_solve solver sd L Rt r1 Hc Hk Hg Hb He Hw Ha Hm) as (old & ms1 & _ & Es & R & Sol). fold ms in R, Sol.
  destruct (reheated_facts ms _ R2 Hc) as (Hc2 & Ec2 & Eb2 & Eg2 & F2).
  pose proof (reheated_conduction ms _ Hc Hk R2) as S2. pose proof Hc as (_ & Hn & _).
  assert (Hk2 : constant_conductivity (rx_mesh r2)).
  { intros i Hi. rewrite Ec2 in Hi. destruct (F2 i Hi) as (_ & _ & ->). apply Hk. exact Hi. }
  assert (Hg2 : good_geometry (rx_mesh r2)) by (unfold good_geometry; rewrite Eb2; exact Hg).
  assert (Hw2 : well_posed (rx_mesh r2) L Rt) by (unfold well_posed; rewrite (same_slab ms _ S2); exact Hw).
  destruct (constant_solve solver sd L Rt r2 Hc2 Hk2 Hg2 Hb He Hw2 Ha Hm) as (old2 & ms2 & _ & Es2 & R2' & Sol2).
  exists old, old2, (with_mesh ms1 r1), (with_mesh ms2 r2). split; [exact Es|]. split; [exact Es2|]. cbn [rx_mesh with_mesh].
  pose proof (good_physical ms ms Hc (constant_good ms Hk) Hg (reheated_refl ms)) as Hp.
  apply (injective_equal _ _ _ _ (well_posed_injective ms L Rt Hc Hp Hw)). intros i Hi. rewrite Sol by auto.
  rewrite <- (reheated_source ms _ L Rt i Hc Hk R2 Hi). rewrite Ec2 in Sol2. rewrite <- (Sol2 i Hi).
  unfold app. apply rsum_ext. intros j Hj.
  rewrite (same_fullmat ms _ L L Rt Rt i j S2 Hn (same_bc_refl L) (same_bc_refl Rt) Hi Hj). reflexivity.
Qed.
Print Assumptions C87_initial_temperatures.

(* two reactors with the same body and conductivity laws *)
Definition same_body (a b : mesh R) : Prop :=
  ms_cells b = ms_cells a /\ ms_bounds b = ms_bounds a /\ ms_geom b = ms_geom a /\
  (ms_cells a <= zlen (ms_mats b))%Z /\
  forall i, (0 <= i < ms_cells a)%Z -> mt_cond (cell_material b i) = mt_cond (cell_material a i).

Lemma same_body_case a b L Rt L' Rt' : same_body a b -> conducting a -> constant_conductivity a -> good_geometry a ->
  same_bc L L' -> same_bc Rt Rt' -> well_posed a L Rt ->
  conducting b /\ constant_conductivity b /\ good_geometry b /\ well_posed b L' Rt' /\ same_conduction a b.
Proof.
  intros (Ec & Eb & Eg & El & Ek) Hc Hk Hg [A B] [A' B'] Hw.
  assert (S : same_conduction a b).
  { split; [exact Ec|]. split; [exact Eb|]. split; [exact Eg|]. intros i Hi. unfold conductivity. rewrite Ek by auto.
    destruct (Hk i Hi) as (k & _ & ->). rewrite !constant_law. reflexivity. }
  split; [|split; [|split; [|split; [|exact S]]]].
  - destruct Hc as (Hg' & Hn & Hb & Hm & Hc). unfold conducting. rewrite Ec, Eb, Eg.
    split; [exact Hg'|]. split; [exact Hn|]. split; [exact Hb|]. split; [exact El|].
    intros m Hm'. rewrite Ek by auto. apply Hc. exact Hm'.
  - intros i Hi. rewrite Ec in Hi. rewrite Ek by auto. apply Hk. exact Hi.
  - unfold good_geometry. rewrite Eb. exact Hg.
  - unfold well_posed, admissible in *. rewrite (same_slab a b S), A, B, A', B'. exact Hw.
Qed.

(* the source of the equations, one reference and one heat at a time *)
Lemma body_source a b L Rt L' Rt' i : same_body a b -> conducting a -> constant_conductivity a -> same_conduction a b ->
  same_bc L L' -> same_bc Rt Rt' -> (0 <= i < ms_cells a)%Z ->
  fullsource b L' Rt' i = stored_heat b i * cell_volume a i
    + (if (i =? 0)%Z then (if is_slab a then bcC L' / denL a L else 0) else 0)
    + (if (i =? ms_cells a - 1)%Z then bcC Rt' / denR a Rt else 0).
Proof.
  intros (_ & Eb & Eg & _) Hc Hk S HL HR Hi. pose proof S as (Ec & _). pose proof Hc as (_ & Hn & _).
  destruct (same_den a b L L' Rt Rt' S Hn HL HR) as [DL DR].
  unfold fullsource, betaL, betaR. rewrite (same_slab a b S), Ec, DL, DR.
  replace (cell_volume b i) with (cell_volume a i) by (unfold cell_volume; rewrite Eb, Eg; reflexivity).
  destruct (i =? 0)%Z, (is_slab a), (i =? ms_cells a - 1)%Z; unfold Rdiv; ring.
Qed.

Section Several.
Variable solver : mat R -> vec R -> vec R.
Variables (r1 : reactor R) (L1 Rt1 : bc).
Let ms := rx_mesh r1.
Let n := ms_cells ms.
Hypotheses (Hc : conducting ms) (Hk : constant_conductivity ms) (Hg : good_geometry ms) (He : exact solver)
  (Hw : well_posed ms L1 Rt1).

Lemma body_solve sd L Rt r : same_body ms (rx_mesh r) -> boundaries sd L Rt -> same_bc L1 L -> same_bc Rt1 Rt ->
  0 < sd_acc sd -> (2 <= sd_max sd)%Z ->
  exists old ms', heatSolve PI solver sd r = Ok (old, with_mesh ms' r) /\
    forall i, (0 <= i < n)%Z -> app n (fullmat ms L1 Rt1) (temp ms') i =
      stored_heat (rx_mesh r) i * cell_volume ms i
      + (if (i =? 0)%Z then (if is_slab ms then bcC L / denL ms L1 else 0) else 0)
      + (if (i =? n - 1)%Z then bcC Rt / denR ms Rt1 else 0).
Proof.
  intros Hsb Hb HL HR Ha Hm.
  destruct (same_body_case ms _ L1 Rt1 L Rt Hsb Hc Hk Hg HL HR Hw) as (Hc' & Hk' & Hg' & Hw' & S).
  destruct (constant_solve solver sd L Rt r Hc' Hk' Hg' Hb He Hw' Ha Hm) as (old & ms' & _ & Es & R & Sol).
  exists old, ms'. split; [exact Es|]. intros i Hi.
  pose proof S as (Ec & _). fold n in Ec. rewrite Ec in Sol. pose proof Hc as (_ & Hn & _).
  unfold n. rewrite <- (body_source ms (rx_mesh r) L1 Rt1 L Rt i Hsb Hc Hk S HL HR Hi), <- (Sol i Hi). fold n.
  unfold app. apply rsum_ext. intros j Hj. rewrite (same_fullmat ms _ L1 L Rt1 Rt i j S Hn HL HR Hi Hj). reflexivity.
Qed.
End Several.

(* Temperatures are linear in the heat sources and in the references of the
   faces: s times the data of one reactor plus t times the data of another
   give s times the temperatures of the one plus t times those of the other. *)
Theorem C87_superposition solver sd1 sd2 sd3 L1 L2 L3 R1 R2 R3 r1 r2 r3 s t :
  let ms := rx_mesh r1 in
  conducting ms -> constant_conductivity ms -> good_geometry ms -> exact solver -> well_posed ms L1 R1 ->
  same_body ms (rx_mesh r2) -> same_body ms (rx_mesh r3) ->
  boundaries sd1 L1 R1 -> boundaries sd2 L2 R2 -> boundaries sd3 L3 R3 ->
  same_bc L1 L2 -> same_bc L1 L3 -> same_bc R1 R2 -> same_bc R1 R3 ->
  bcC L3 = s * bcC L1 + t * bcC L2 -> bcC R3 = s * bcC R1 + t * bcC R2 ->
  (forall i, (0 <= i < ms_cells ms)%Z ->
     stored_heat (rx_mesh r3) i = s * stored_heat ms i + t * stored_heat (rx_mesh r2) i) ->
  (forall sd, sd = sd1 \/ sd = sd2 \/ sd = sd3 -> 0 < sd_acc sd /\ (2 <= sd_max sd)%Z) ->
  exists o1 o2 o3 a b c, heatSolve PI solver sd1 r1 = Ok (o1, a) /\ heatSolve PI solver sd2 r2 = Ok (o2, b) /\
    heatSolve PI solver sd3 r3 = Ok (o3, c) /\
    forall i, (0 <= i < ms_cells ms)%Z -> temp (rx_mesh c) i = s * temp (rx_mesh a) i + t * temp (rx_mesh b) i.
Proof.
  intros ms Hc Hk Hg He Hw S2 S3 B1 B2 B3 HL2 HL3 HR2 HR3 EL ER Eh Hsd.
  assert (S1 : same_body ms (rx_mesh r1)).
  { repeat split. destruct Hc as (_ & _ & _ & H & _). exact H. }
  destruct (body_solve solver r1 L1 R1 Hc Hk Hg He Hw sd1 L1 R1 r1 S1 B1 (same_bc_refl _) (same_bc_refl _)) as (o1 & a & E1 & A1);
    try (apply Hsd; auto).
  destruct (body_solve solver r1 L1 R1 Hc Hk Hg He Hw sd2 L2 R2 r2 S2 B2 HL2 HR2) as (o2 & b & E2 & A2);
    try (apply Hsd; auto).
  destruct (body_solve solver r1 L1 R1 Hc Hk Hg He Hw sd3 L3 R3 r3 S3 B3 HL3 HR3) as (o3 & c & E3 & A3);
    try (apply Hsd; auto).
  exists o1, o2, o3, (with_mesh a r1), (with_mesh b r2), (with_mesh c r3).
  split; [exact E1|]. split; [exact E2|]. split; [exact E3|]. cbn [rx_mesh with_mesh]. fold ms in A1, A2, A3.
  pose proof (good_physical ms ms Hc (constant_good ms Hk) Hg (reheated_refl ms)) as Hp.
  apply (injective_equal _ _ (temp c) (fun i => s * temp a i + t * temp b i) (well_posed_injective ms L1 R1 Hc Hp Hw)).
  intros i Hi. rewrite A3 by auto.
  transitivity (s * app (ms_cells ms) (fullmat ms L1 R1) (temp a) i + t * app (ms_cells ms) (fullmat ms L1 R1) (temp b) i).
  - rewrite A1, A2, EL, ER, Eh by auto.
    destruct (i =? 0)%Z, (is_slab ms), (i =? ms_cells ms - 1)%Z; unfold Rdiv; ring.
  - unfold app. rewrite <- !rsum_scal, <- rsum_plus. apply rsum_ext. intros; ring.
Qed.
Print Assumptions C87_superposition.

(* More heat or a hotter reference makes no cell colder. *)
Theorem C87_monotone solver sd1 sd2 L1 L2 R1 R2 r1 r2 :
  let ms := rx_mesh r1 in
  conducting ms -> constant_conductivity ms -> good_geometry ms -> exact solver -> well_posed ms L1 R1 ->
  same_body ms (rx_mesh r2) -> boundaries sd1 L1 R1 -> boundaries sd2 L2 R2 ->
  same_bc L1 L2 -> same_bc R1 R2 -> bcC L1 <= bcC L2 -> bcC R1 <= bcC R2 ->
  (forall i, (0 <= i < ms_cells ms)%Z -> stored_heat ms i <= stored_heat (rx_mesh r2) i) ->
  (forall sd, sd = sd1 \/ sd = sd2 -> 0 < sd_acc sd /\ (2 <= sd_max sd)%Z) ->
  exists o1 o2 a b, heatSolve PI solver sd1 r1 = Ok (o1, a) /\ heatSolve PI solver sd2 r2 = Ok (o2, b) /\
    forall i, (0 <= i < ms_cells ms)%Z -> temp (rx_mesh a) i <= temp (rx_mesh b) i.
Proof.
  intros ms Hc Hk Hg He Hw S2 B1 B2 HL2 HR2 EL ER Eh Hsd.
  assert (S1 : same_body ms (rx_mesh r1)).
  { repeat split. destruct Hc as (_ & _ & _ & H & _). exact H. }
  destruct (body_solve solver r1 L1 R1 Hc Hk Hg He Hw sd1 L1 R1 r1 S1 B1 (same_bc_refl _) (same_bc_refl _)) as (o1 & a & E1 & A1);
    try (apply Hsd; auto).
  destruct (body_solve solver r1 L1 R1 Hc Hk Hg He Hw sd2 L2 R2 r2 S2 B2 HL2 HR2) as (o2 & b & E2 & A2);
    try (apply Hsd; auto).
  exists o1, o2, (with_mesh a r1), (with_mesh b r2).
  split; [exact E1|]. split; [exact E2|]. cbn [rx_mesh with_mesh]. fold ms in A1, A2.
  pose proof (good_physical ms ms Hc (constant_good ms Hk) Hg (reheated_refl ms)) as Hp.
  pose proof Hw as (HL & HR & Hf). pose proof Hc as (Hg1 & Hn & Hb & _).
  assert (DL : is_slab ms = true -> 0 < denL ms L1).
  { intros E. rewrite denL_eq by auto. apply admissible_den; auto; [apply width_pos; auto; lia|apply (proj1 Hp); lia]. }
  assert (DR : 0 < denR ms R1).
  { rewrite denR_eq by auto. apply Rdiv_lt_0_compat; [|apply face_pos; auto; lia].
    apply admissible_den; auto; [apply width_pos; auto; lia|apply (proj1 Hp); lia]. }
  intros i Hi. cut (0 <= temp b i - temp a i); [lra|].
  apply (fullmat_monotone ms L1 R1 Hc Hp HL HR Hf (fun i => temp b i - temp a i)); auto.
  intros k Hk'.
  replace (app (ms_cells ms) (fullmat ms L1 R1) (fun i => temp b i - temp a i) k)
    with (app (ms_cells ms) (fullmat ms L1 R1) (temp b) k - app (ms_cells ms) (fullmat ms L1 R1) (temp a) k)
    by (unfold app; rewrite <- rsum_minus; apply rsum_ext; intros; ring).
  rewrite A1, A2 by auto. specialize (Eh k Hk').
  assert (V : 0 < cell_volume ms k) by (apply cell_volume_pos; auto).
  assert (Q : stored_heat ms k * cell_volume ms k <= stored_heat (rx_mesh r2) k * cell_volume ms k) by nra.
  assert (QR : bcC R1 / denR ms R1 <= bcC R2 / denR ms R1).
  { apply Rmult_le_compat_r; [|exact ER]. left. apply Rinv_0_lt_compat. exact DR. }
  assert (QL : is_slab ms = true -> bcC L1 / denL ms L1 <= bcC L2 / denL ms L1).
  { intros E. apply Rmult_le_compat_r; [|exact EL]. left. apply Rinv_0_lt_compat. auto. }
  destruct (is_slab ms); [specialize (QL eq_refl)|]; destruct (k =? 0)%Z, (k =? ms_cells ms - 1)%Z; lra.
Qed.
Print Assumptions C87_monotone.

(* a slab of three materials held at 20 degrees on one side and cooled on the
   other meets every hypothesis; the second has 3 times its sources *)
Definition slab3_more : mesh R := hot_slab [0; 1; 2; 3] [hot 1 15; hot 2 0; hot 3 21].
Example C87_hypotheses_met :
  let L := mkbc 1 0 20 in let Rt := mkbc 5 1 100 in let sd := heat_data [1; 0; 20; 5; 1; 100] in
  conducting slab3 /\ constant_conductivity slab3 /\ good_geometry slab3 /\ (exists solver, exact solver) /\
  well_posed slab3 L Rt /\ boundaries sd L Rt /\ 0 < sd_acc sd /\ (2 <= sd_max sd)%Z /\
  same_body slab3 slab3_more /\ forall i, (0 <= i < 3)%Z -> stored_heat slab3_more i = 3 * stored_heat slab3 i.
Proof.
  destruct slab3_ok as (Hc & Hp & Hg & Hge). cbn zeta. split; [exact Hc|]. split.
  { intros i Hi. change (ms_cells slab3) with 3%Z in Hi. cells3 i; eexists; (split; [|reflexivity]); lra. }
  split; [exact Hge|]. split; [exact exact_exists|].
  split; [split; [intros _|split; [|left]]; unfold admissible; cbn; lra|]. split; [left; reflexivity|].
  split; [cbn; lra|]. split; [cbn; lia|]. split.
  - split; [reflexivity|]. split; [reflexivity|]. split; [reflexivity|]. split; [change (3 <= 3)%Z; lia|].
    intros i Hi. change (ms_cells slab3) with 3%Z in Hi. cells3 i; reflexivity.
  - intros i Hi. cells3 i; unfold stored_heat, cell_material; vals; lra.
Qed.
