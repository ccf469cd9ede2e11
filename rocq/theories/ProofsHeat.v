(* The heat conduction system (Heat/BaseHeatCode.cpp). *)
From Coq Require Import String ZArith List Bool Lia Reals Lra.
From Verif Require Import Base BaseLemmas NumR LinAlg Blocks ModelNumTools ModelEigen ModelMesh ModelReactor
  ModelHeat ProofsMesh ProofsDiffusion ProofsDiffusionR ProofsPower.
Import ListNotations.
Local Open Scope R_scope.

(* ---------- what the mesh provides ---------- *)

Definition conductivity (ms : mesh R) (i : Z) : R :=
  match mt_cond (cell_material ms i) with
  | Some c => law_value c (mt_temp (cell_material ms i))
  | None => 0
  end.
Definition width (ms : mesh R) (i : Z) : R := vat (ms_bounds ms) (i + 1) - vat (ms_bounds ms) i.
Definition face (ms : mesh R) (i : Z) : R := body_surface (ms_geom ms) (vat (ms_bounds ms) i).

Definition conducting (ms : mesh R) : Prop :=
  ms_geom ms <> GeomUNDEFINED /\ (2 <= ms_cells ms)%Z /\ (ms_cells ms + 1 = vlen (ms_bounds ms))%Z /\
  (ms_cells ms <= zlen (ms_mats ms))%Z /\
  forall m, (0 <= m < ms_cells ms)%Z -> mt_cond (cell_material ms m) <> None.

Lemma conductivities_wp (ms : mesh R) :
  (0 <= ms_cells ms)%Z -> (ms_cells ms <= zlen (ms_mats ms))%Z ->
  (forall m, (0 <= m < ms_cells ms)%Z -> mt_cond (cell_material ms m) <> None) ->
  wp (getThermalConductivities ms) (fun v => vlen v = ms_cells ms /\
    forall i, (0 <= i < ms_cells ms)%Z -> vat v i = conductivity ms i).
Proof.
  intros Hc Hm Hcond. unfold getThermalConductivities.
  eapply wp_mono; [apply (vfill (ms_cells ms) 0 (ms_cells ms) (conductivity ms)); auto; try lia|].
  - intros i v Hi Lv. rewrite (lget_ok _ i dm0) by (unfold zlen in *; lia). cbn [bind].
    unfold getThermalConductivity. fold (cell_material ms i). unfold conductivity.
    destruct (mt_cond (cell_material ms i)) as [c|] eqn:E; [|destruct (Hcond i Hi E)].
    rewrite poly_calc_law. reflexivity.
  - cbn beta. intros v [L H]. split; auto. intros i Hi. rewrite H.
    replace ((0 <=? i) && (i <? ms_cells ms))%Z with true by lia. reflexivity.
Qed.

(* ---------- the interface tables of the code ---------- *)

Definition ilam (ms : mesh R) (i : Z) : R :=
  if ((1 <=? i) && (i <? ms_cells ms - 1))%Z
  then 1 / ((1 - width ms (i - 1) / (width ms i + width ms (i - 1))) / conductivity ms (i - 1)
            + width ms (i - 1) / (width ms i + width ms (i - 1)) / conductivity ms i) * face ms i
  else conductivity ms i * face ms i.
Definition isz (ms : mesh R) (i : Z) : R :=
  if ((1 <=? i) && (i <? ms_cells ms - 1))%Z
  then 1 / 2 * (width ms i + width ms (i - 1)) else width ms i.

Definition is_code (ms : mesh R) (hc : heatCode R) : Prop :=
  hc_cells hc = ms_cells ms /\ hc_radii hc = ms_bounds ms /\
  vlen (hc_volumes hc) = ms_cells ms /\ vlen (hc_surfaces hc) = (ms_cells ms + 1)%Z /\
  (forall i, (0 <= i < ms_cells ms)%Z -> vat (hc_volumes hc) i = cell_volume ms i) /\
  forall i, (0 <= i <= ms_cells ms)%Z -> vat (hc_surfaces hc) i = face ms i.

Lemma newHeatCode_wp ms : conducting ms -> wp (newHeatCode PI ms) (is_code ms).
Proof.
  intros (Hg & Hn & Hb & Hm & Hc). unfold newHeatCode.
  destruct (wp_ok _ _ (volumes_wp ms "m" Hg ltac:(lia))) as (v & E & L & H). rewrite E. cbn [bind].
  destruct (wp_ok _ _ (surfaces_wp ms "m" Hg ltac:(lia))) as (s & E' & L' & H'). rewrite E'. cbn.
  repeat split; cbn [hc_cells hc_radii hc_volumes hc_surfaces]; try lia.
  - intros i Hi. rewrite H by lia. change (unit_factor "m" _) with 1. unfold cell_volume. ring.
  - intros i Hi. rewrite H' by lia. unfold face. destruct (ms_geom ms); try change (unit_factor "m" _) with 1; ring.
Qed.

Lemma sizes_m_wp ms : conducting ms -> wp (getCellSizes ms "m") (fun v => vlen v = ms_cells ms /\
  forall i, (0 <= i < ms_cells ms)%Z -> vat v i = width ms i).
Proof.
  intros (Hg & Hn & Hb & Hm & Hc). eapply wp_mono; [apply cell_sizes_wp; lia|].
  cbn beta. intros v [L H]. split; auto. intros i Hi. rewrite H by auto. change (unit_factor "m" _) with 1. unfold width. ring.
Qed.

Lemma interface_sizes_wp ms hc : conducting ms -> is_code ms hc ->
  wp (getInterfaceCellSizes hc ms) (fun v => vlen v = ms_cells ms /\
    forall i, (0 <= i < ms_cells ms)%Z -> vat v i = isz ms i).
Proof.
  intros Hcd (Ec & _). pose proof Hcd as (Hg & Hn & _).
  destruct (wp_ok _ _ (sizes_m_wp ms Hcd)) as (v & E & L & H).
  unfold getInterfaceCellSizes. rewrite E. cbn [bind]. rewrite Ec.
  eapply wp_mono; [apply (vfill (ms_cells ms) 1 (ms_cells ms - 1)
     (fun i => 1 / 2 * (width ms i + width ms (i - 1)))); try lia|].
  - intros i w Hi Lw. rewrite !vget_ok by lia. cbn [bind]. rewrite !H by lia. reflexivity.
  - cbn beta. intros w [Lw Hw]. split; auto. intros i Hi. rewrite Hw. unfold isz.
    destruct ((1 <=? i) && (i <? ms_cells ms - 1))%Z; [reflexivity|]. apply H; auto.
Qed.

Lemma vmul_at_ok (v : vec R) i x : (0 <= i < vlen v)%Z ->
  vmul_at v i x = Ok (mkvec (vlen v) (fun k => if (k =? i)%Z then vat v i * x else vat v k)).
Proof. intros H. unfold vmul_at. rewrite vget_ok by auto. cbn [bind]. apply vset_ok; auto. Qed.

Lemma interface_cond_wp ms hc : conducting ms -> is_code ms hc ->
  wp (getInterfaceThermalConductivities hc ms) (fun v => vlen v = ms_cells ms /\
    forall i, (0 <= i < ms_cells ms)%Z -> vat v i = ilam ms i).
Proof.
  intros Hcd (Ec & Er & Lv & Ls & Hv & Hs). pose proof Hcd as (Hg & Hn & Hb & Hm & Hc).
  destruct (wp_ok _ _ (sizes_m_wp ms Hcd)) as (d & E & L & H).
  destruct (wp_ok _ _ (conductivities_wp ms ltac:(lia) Hm Hc)) as (k & Ek & Lk & Hk).
  unfold getInterfaceThermalConductivities. rewrite Ek, E. cbn [bind].
  rewrite vget_ok by lia. cbn [bind]. rewrite vmul_at_ok by lia. cbn [bind].
  set (k0 := mkvec _ _). rewrite Ec.
  set (g := fun i => 1 / ((1 - width ms (i - 1) / (width ms i + width ms (i - 1))) / conductivity ms (i - 1)
            + width ms (i - 1) / (width ms i + width ms (i - 1)) / conductivity ms i) * face ms i).
  apply wp_bind.
  eapply (zfor_wp' (fun m v => vlen v = ms_cells ms /\ forall i, (0 <= i < ms_cells ms)%Z ->
     vat v i = if ((1 <=? i) && (i <? m))%Z then g i else vat k0 i)).
  - lia.
  - split; [exact Lk|]. intros i Hi. replace ((1 <=? i) && (i <? 1))%Z with false by lia. reflexivity.
  - intros m v Hmm [L1 H1]. rewrite !vget_ok by lia. cbn [bind].
    rewrite vset_ok by lia. cbn [bind]. rewrite vmul_at_ok by (cbn; lia). cbn [wp vlen vat].
    split; [exact L1|]. intros i Hi. rewrite Z.eqb_refl.
    destruct (Z.eqb_spec i m) as [->|Hne].
    + replace ((1 <=? m) && (m <? m + 1))%Z with true by lia. unfold g.
      rewrite !H, !Hk, !Hs by lia. reflexivity.
    + rewrite H1 by auto. replace (i <? m + 1)%Z with (i <? m)%Z by lia. reflexivity.
  - intros v [L1 H1]. rewrite vget_ok by lia. cbn [bind]. rewrite vmul_at_ok by lia. cbn [wp vlen vat].
    split; [exact L1|]. intros i Hi. unfold ilam. fold (g i).
    destruct (Z.eqb_spec i (ms_cells ms - 1)) as [->|Hne].
    + rewrite H1 by lia. replace ((1 <=? ms_cells ms - 1) && (ms_cells ms - 1 <? ms_cells ms - 1))%Z with false by lia.
      cbn [k0 vat]. replace (ms_cells ms - 1 =? 0)%Z with false by lia. rewrite Hk, Hs by lia. reflexivity.
    + rewrite H1 by lia. destruct ((1 <=? i) && (i <? ms_cells ms - 1))%Z eqn:Eb; [reflexivity|].
      assert (i = 0)%Z by lia. subst i. cbn [k0 vat]. rewrite Z.eqb_refl. rewrite Hk, Hs by lia. reflexivity.
Qed.

(* ---------- the matrix ---------- *)

(* conductances used by row i towards its right and left neighbours *)
Definition gright (ms : mesh R) (i : Z) : R := ilam ms (i + 1) / isz ms (i + 1).
Definition gleft (ms : mesh R) (i : Z) : R :=
  if (i =? ms_cells ms - 1)%Z then ilam ms i / isz ms (i - 1) else ilam ms i / isz ms i.
Definition hmat (ms : mesh R) (i j : Z) : R :=
  let n := ms_cells ms in
  if (j =? i)%Z then (if (i <? n - 1)%Z then gright ms i else 0) + (if (0 <? i)%Z then gleft ms i else 0)
  else if (j =? i + 1)%Z then - gright ms i
  else if (j =? i - 1)%Z then - gleft ms i else 0.

Definition mat_is (n : Z) (A : mat R) (f : Z -> Z -> R) : Prop :=
  mrows A = n /\ mcols A = n /\ forall i j, (0 <= i < n)%Z -> (0 <= j < n)%Z -> mat_at A i j = f i j.

Lemma setup_wp ms hc : conducting ms -> is_code ms hc ->
  wp (setupSystem hc ms) (fun A => mat_is (ms_cells ms) A (hmat ms)).
Proof.
  intros Hcd Hcode. pose proof Hcd as (Hg & Hn & Hb & Hm & Hc). pose proof Hcode as (Ec & _).
  destruct (wp_ok _ _ (interface_cond_wp ms hc Hcd Hcode)) as (l & El & Ll & Hl).
  destruct (wp_ok _ _ (interface_sizes_wp ms hc Hcd Hcode)) as (s & Es & Ls & Hs).
  unfold setupSystem. rewrite El, Es. cbn [bind]. rewrite Ec. set (n := ms_cells ms).
  eapply (zfor_wp' (fun k A => mrows A = n /\ mcols A = n /\
    forall i j, (0 <= i < n)%Z -> (0 <= j < n)%Z -> mat_at A i j = if (i <? k)%Z then hmat ms i j else 0)).
  - unfold n; lia.
  - repeat split; auto. intros i j Hi Hj. replace (i <? 0)%Z with false by lia. reflexivity.
  - intros k A Hk (R & C & H).
    assert (Q : forall v, (0 <= v < n)%Z -> vget l v = Ok (ilam ms v) /\ vget s v = Ok (isz ms v)).
    { intros v Hv. rewrite !vget_ok by (unfold n in *; lia). rewrite Hl, Hs by (unfold n in *; lia). auto. }
    destruct (Z.eqb_spec k 0) as [->|Hk0].
    + destruct (Q (0 + 1)%Z ltac:(unfold n in *; lia)) as [-> ->]. cbn [bind].
      rewrite mset_ok by lia. cbn [bind]. rewrite mset_ok by (cbn; unfold n in *; lia). cbn [wp mrows mcols mat_at].
      split; [exact R|]. split; [exact C|]. intros i j Hi Hj. rewrite H by auto.
      unfold hmat, gright. fold n. rnum.
      destruct (Z.eqb_spec i 0) as [->|]; cbn [andb].
      * destruct (Z.eqb_spec j 0) as [->|]; [zdec; unfold Rdiv; ring|].
        destruct (Z.eqb_spec j (0 + 1)) as [->|]; [zdec; unfold Rdiv; ring|]. zdec. reflexivity.
      * zdec. reflexivity.
    + destruct (Z.eqb_spec k (n - 1)) as [->|Hk1].
      * destruct (Q (n - 1)%Z ltac:(unfold n in *; lia)) as [-> _].
        destruct (Q (n - 1 - 1)%Z ltac:(unfold n in *; lia)) as [_ ->]. cbn [bind].
        rewrite mset_ok by lia. cbn [bind]. rewrite mset_ok by (cbn; unfold n in *; lia). cbn [wp mrows mcols mat_at].
        split; [exact R|]. split; [exact C|]. intros i j Hi Hj. rewrite H by auto.
        unfold hmat, gleft. fold n. rnum.
        destruct (Z.eqb_spec i (n - 1)) as [->|]; cbn [andb].
        -- destruct (Z.eqb_spec j (n - 1)) as [->|]; [zdec; unfold Rdiv; ring|].
           destruct (Z.eqb_spec j (n - 1 - 1)) as [->|]; [zdec; unfold Rdiv; ring|]. zdec. reflexivity.
        -- zdec. reflexivity.
      * destruct (Q k ltac:(unfold n in *; lia)) as [-> ->].
        destruct (Q (k + 1)%Z ltac:(unfold n in *; lia)) as [-> ->]. cbn [bind].
        rewrite mset_ok by lia. cbn [bind]. rewrite mset_ok by (cbn; unfold n in *; lia). cbn [bind].
        rewrite mset_ok by (cbn; unfold n in *; lia). cbn [wp mrows mcols mat_at].
        split; [exact R|]. split; [exact C|]. intros i j Hi Hj. rewrite H by auto.
        unfold hmat, gleft, gright. fold n. rnum.
        destruct (Z.eqb_spec i k) as [->|]; cbn [andb].
        -- destruct (Z.eqb_spec j k) as [->|]; [zdec; unfold Rdiv; ring|].
           destruct (Z.eqb_spec j (k + 1)) as [->|]; [zdec; unfold Rdiv; ring|].
           destruct (Z.eqb_spec j (k - 1)) as [->|]; [zdec; unfold Rdiv; ring|]. zdec. reflexivity.
        -- destruct (Z.ltb_spec i k); zdec; reflexivity.
  - intros A (R & C & H). repeat split; auto. intros i j Hi Hj. rewrite H by auto. fold n in Hi.
    replace (i <? n)%Z with true by lia. reflexivity.
Qed.

(* row i applied to temperatures x *)
Lemma hmat_app ms x i : (2 <= ms_cells ms)%Z -> (0 <= i < ms_cells ms)%Z ->
  app (ms_cells ms) (hmat ms) x i =
    (if (i <? ms_cells ms - 1)%Z then gright ms i * (x i - x (i + 1)%Z) else 0)
    + (if (0 <? i)%Z then gleft ms i * (x i - x (i - 1)%Z) else 0).
Proof.
  intros Hn Hi. unfold app. set (n := ms_cells ms) in *.
  rewrite (rsum_ext _ _ _ (fun j =>
     (if (j =? i)%Z then (if (i <? n - 1)%Z then gright ms i else 0) * x i + (if (0 <? i)%Z then gleft ms i else 0) * x i else 0)
     + ((if (j =? i + 1)%Z then - gright ms i * x j else 0) + (if (j =? i - 1)%Z then - gleft ms i * x j else 0)))).
  - rewrite !rsum_plus. rewrite (rsum_delta 0 n (fun _ => _) i Hi).
    assert (E1 : rsum 0 n (fun j => if (j =? i + 1)%Z then - gright ms i * x j else 0) =
       if (i <? n - 1)%Z then - gright ms i * x (i + 1)%Z else 0).
    { destruct (Z.ltb_spec i (n - 1)).
      - apply (rsum_delta 0 n (fun j => - gright ms i * x j) (i + 1)). lia.
      - apply rsum_0. intros k Hk. zdec. reflexivity. }
    assert (E2 : rsum 0 n (fun j => if (j =? i - 1)%Z then - gleft ms i * x j else 0) =
       if (0 <? i)%Z then - gleft ms i * x (i - 1)%Z else 0).
    { destruct (Z.ltb_spec 0 i).
      - apply (rsum_delta 0 n (fun j => - gleft ms i * x j) (i - 1)). lia.
      - apply rsum_0. intros k Hk. zdec. reflexivity. }
    rewrite E1, E2. destruct (i <? n - 1)%Z, (0 <? i)%Z; ring.
  - intros j Hj. unfold hmat. fold n.
    destruct (Z.eqb_spec j i) as [->|]; [zdec; ring|].
    destruct (Z.eqb_spec j (i + 1)) as [->|]; [zdec; ring|].
    destruct (Z.eqb_spec j (i - 1)) as [->|]; [zdec; ring|]. ring.
Qed.

(* ---------- boundary conditions ---------- *)

(* coefficients A, B, C of the two faces, as the user gives them *)
Record bc := mkbc { bcA : R; bcB : R; bcC : R }.
Definition boundaries (sd : solverData R) (L Rt : bc) : Prop :=
  sd_heatbc sd = [bcA L; bcB L; bcC L; bcA Rt; bcB Rt; bcC Rt] \/
  (sd_heatbc sd = [bcA Rt; bcB Rt; bcC Rt] /\ L = mkbc 0 1 0).

Lemma boundaries_get sd L Rt : boundaries sd L Rt ->
  getHeatBoundaryConditions sd = Ok ((bcA L, bcB L, bcC L), (bcA Rt, bcB Rt, bcC Rt)).
Proof. unfold getHeatBoundaryConditions. intros [->|[-> ->]]; reflexivity. Qed.

Definition denL (ms : mesh R) (L : bc) : R := width ms 0 / (2 * ilam ms 0) * bcA L + bcB L.
Definition denR (ms : mesh R) (Rt : bc) : R :=
  let n := ms_cells ms in
  width ms (n - 1) / (2 * face ms n * ilam ms (n - 1) / face ms (n - 1)) * bcA Rt + bcB Rt / face ms n.

Definition is_slab (ms : mesh R) : bool := match ms_geom ms with SLAB => true | _ => false end.

Definition alphaL ms L := if is_slab ms then bcA L / denL ms L else 0.
Definition betaL ms L := if is_slab ms then - bcC L / denL ms L else 0.
Definition alphaR ms Rt := bcA Rt / denR ms Rt.
Definition betaR ms Rt := - bcC Rt / denR ms Rt.

Definition fullmat (ms : mesh R) (L Rt : bc) (i j : Z) : R :=
  hmat ms i j + (if ((i =? 0) && (j =? 0))%Z then alphaL ms L else 0)
  + (if ((i =? ms_cells ms - 1) && (j =? ms_cells ms - 1))%Z then alphaR ms Rt else 0).
Definition fullsource (ms : mesh R) (L Rt : bc) (i : Z) : R :=
  stored_heat ms i * cell_volume ms i - (if (i =? 0)%Z then betaL ms L else 0)
  - (if (i =? ms_cells ms - 1)%Z then betaR ms Rt else 0).

Lemma boundary_wp ms hc sd L Rt A : conducting ms -> is_code ms hc -> boundaries sd L Rt ->
  mat_is (ms_cells ms) A (hmat ms) ->
  wp (applyHeatBoundary hc sd ms A) (fun p =>
    mat_is (ms_cells ms) (fst p) (fullmat ms L Rt) /\ vlen (snd p) = ms_cells ms /\
    forall i, (0 <= i < ms_cells ms)%Z -> vat (snd p) i = fullsource ms L Rt i).
Proof.
  intros Hcd Hcode Hbc (Ra & Ca & Ha). pose proof Hcd as (Hg & Hn & Hb & Hm & Hc).
  pose proof Hcode as (Ec & Er & Lv & Ls & Hv & Hs).
  destruct (wp_ok _ _ (interface_cond_wp ms hc Hcd Hcode)) as (l & El & Ll & Hl).
  destruct (wp_ok _ _ (getHeatSources_wp dm0 ms ltac:(lia) Hm)) as (q0 & Eq & Lq & Hq).
  unfold applyHeatBoundary. rewrite (boundaries_get _ _ _ Hbc). cbn [bind]. rewrite El, Eq. cbn [bind].
  rewrite Ec, Er.
  assert (W : wp (zfor 0 (ms_cells ms) (fun i q => v <- vget (hc_volumes hc) i ;; vmul_at q i v) q0)
    (fun q => vlen q = ms_cells ms /\ forall i, (0 <= i < ms_cells ms)%Z -> vat q i = stored_heat ms i * cell_volume ms i)).
  { eapply (zfor_wp' (fun k q => vlen q = ms_cells ms /\ forall i, (0 <= i < ms_cells ms)%Z ->
       vat q i = if (i <? k)%Z then stored_heat ms i * cell_volume ms i else stored_heat ms i)).
    - lia.
    - split; auto. intros i Hi. zdec. apply Hq; auto.
    - intros k q Hk [L1 H1]. rewrite vget_ok by lia. cbn [bind]. rewrite vmul_at_ok by lia. cbn [wp vlen vat].
      split; auto. intros i Hi. destruct (Z.eqb_spec i k) as [->|].
      + rewrite H1, Hv by lia. zdec. reflexivity.
      + rewrite H1 by lia. replace (i <? k + 1)%Z with (i <? k)%Z by lia. reflexivity.
    - intros q [L1 H1]. split; auto. intros i Hi. rewrite H1 by auto. zdec. reflexivity. }
  destruct (wp_ok _ _ W) as (q & E & L1 & H1). rewrite E. cbn [bind].
  set (n := ms_cells ms) in *.
  match goal with |- wp (bind ?m _) _ =>
    assert (W2 : wp m (fun p => (mrows (fst p) = n /\ mcols (fst p) = n /\
      forall i j, (0 <= i < n)%Z -> (0 <= j < n)%Z ->
        mat_at (fst p) i j = hmat ms i j + (if ((i =? 0) && (j =? 0))%Z then alphaL ms L else 0)) /\
      vlen (snd p) = n /\ forall i, (0 <= i < n)%Z ->
        vat (snd p) i = stored_heat ms i * cell_volume ms i - (if (i =? 0)%Z then betaL ms L else 0))) end.
  { unfold alphaL, betaL, is_slab. destruct (ms_geom ms) eqn:G.
    - congruence.
    - rewrite !vget_ok by lia. cbn [bind]. rewrite mget_ok by lia. cbn [bind]. rewrite mset_ok by lia. cbn [bind].
      rewrite vset_ok by lia. cbn [wp fst snd mrows mcols mat_at vlen vat]. split; [split; [exact Ra|split; [exact Ca|]]|split; [exact L1|]].
      + intros i j Hi Hj. cbn [fst snd mat_at vat]. rewrite !Ha, Hl by lia.
        destruct (Z.eqb_spec i 0) as [->|]; cbn [andb]; [|ring].
        destruct (Z.eqb_spec j 0) as [->|]; cbn [andb]; [|ring]. reflexivity.
      + intros i Hi. cbn [fst snd mat_at vat]. rewrite !H1, Hl by lia. destruct (Z.eqb_spec i 0) as [->|]; [|ring]. reflexivity.
    - cbn [wp fst snd]. split; [split; [exact Ra|split; [exact Ca|]]|split; [exact L1|]].
      + intros i j Hi Hj. rewrite Ha by auto. destruct ((i =? 0) && (j =? 0))%Z; ring.
      + intros i Hi. rewrite H1 by auto. destruct (i =? 0)%Z; ring.
    - cbn [wp fst snd]. split; [split; [exact Ra|split; [exact Ca|]]|split; [exact L1|]].
      + intros i j Hi Hj. rewrite Ha by auto. destruct ((i =? 0) && (j =? 0))%Z; ring.
      + intros i Hi. rewrite H1 by auto. destruct (i =? 0)%Z; ring. }
  destruct (wp_ok _ _ W2) as ((A2 & q2) & E2 & (R2 & C2 & H2) & L2 & HQ2). rewrite E2. cbn [bind].
  cbn [fst snd] in *.
  rewrite !vget_ok by lia. cbn [bind]. rewrite mget_ok by lia. cbn [bind]. rewrite mset_ok by lia. cbn [bind].
  rewrite vset_ok by lia. cbn [wp fst snd mrows mcols mat_at vlen vat].
  assert (ED : vat (ms_bounds ms) n - vat (ms_bounds ms) (n - 1) = width ms (n - 1)).
  { unfold width. replace (n - 1 + 1)%Z with n by lia. reflexivity. }
  split; [split; [exact R2|split; [exact C2|]]|split; [exact L2|]].
  - cbn [fst snd mat_at]. intros i j Hi Hj. rewrite !H2, Hl, !Hs by lia. unfold fullmat, alphaR, denR. fold n. rnum. rewrite ED.
    destruct (Z.eqb_spec i (n - 1)) as [->|]; cbn [andb]; [|ring].
    destruct (Z.eqb_spec j (n - 1)) as [->|]; cbn [andb]; [|ring]. ring.
  - intros i Hi. cbn [fst snd vat]. rewrite !HQ2, Hl, !Hs by lia. unfold fullsource, betaR, denR. fold n. rnum. rewrite ED.
    destruct (Z.eqb_spec i (n - 1)) as [->|]; [|ring]. ring.
Qed.

Lemma heatSystem_wp ms sd L Rt : conducting ms -> boundaries sd L Rt ->
  wp (heatSystem PI sd ms) (fun p =>
    mat_is (ms_cells ms) (fst p) (fullmat ms L Rt) /\ vlen (snd p) = ms_cells ms /\
    forall i, (0 <= i < ms_cells ms)%Z -> vat (snd p) i = fullsource ms L Rt i).
Proof.
  intros Hcd Hbc. unfold heatSystem.
  apply wp_bind. eapply wp_mono; [apply newHeatCode_wp; auto|]. intros hc Hcode.
  apply wp_bind. eapply wp_mono; [apply setup_wp; auto|]. intros A HA.
  apply boundary_wp; auto.
Qed.

Lemma fullmat_app ms L Rt x i : (2 <= ms_cells ms)%Z -> (0 <= i < ms_cells ms)%Z ->
  app (ms_cells ms) (fullmat ms L Rt) x i =
    app (ms_cells ms) (hmat ms) x i + (if (i =? 0)%Z then alphaL ms L * x 0%Z else 0)
    + (if (i =? ms_cells ms - 1)%Z then alphaR ms Rt * x (ms_cells ms - 1)%Z else 0).
Proof.
  intros Hn Hi. unfold app. set (n := ms_cells ms) in *.
  rewrite (rsum_ext _ _ _ (fun j => hmat ms i j * x j + ((if (j =? 0)%Z then (if (i =? 0)%Z then alphaL ms L else 0) * x j else 0)
     + (if (j =? n - 1)%Z then (if (i =? n - 1)%Z then alphaR ms Rt else 0) * x j else 0)))).
  - rewrite !rsum_plus.
    rewrite (rsum_delta 0 n (fun j => (if (i =? 0)%Z then alphaL ms L else 0) * x j) 0) by lia.
    rewrite (rsum_delta 0 n (fun j => (if (i =? n - 1)%Z then alphaR ms Rt else 0) * x j) (n - 1)) by lia.
    destruct (i =? 0)%Z, (i =? n - 1)%Z; ring.
  - intros j Hj. unfold fullmat. fold n.
    destruct (i =? 0)%Z, (i =? n - 1)%Z, (j =? 0)%Z, (j =? n - 1)%Z; cbn [andb]; ring.
Qed.

(* ---------- physical reading of the boundary terms ---------- *)

(* Heat o leaving a cell at temperature t through a face of area S half a cell
   width away, when the surface temperature Ts and the flux o / S obey
   A * Ts - B * (o / S) = C. *)
Definition face_law (b : bc) (k S dx t o : R) : Prop :=
  exists Ts, o = 2 * k * S / dx * (t - Ts) /\ bcA b * Ts - bcB b * (o / S) = bcC b.

Lemma face_law_iff b k S dx t o : 0 < k -> 0 < S -> 0 < dx ->
  dx / (2 * k) * bcA b + bcB b <> 0 ->
  (face_law b k S dx t o <-> o = S * (bcA b * t - bcC b) / (dx / (2 * k) * bcA b + bcB b)).
Proof.
  intros Hk HS Hd Hden. set (D := dx / (2 * k) * bcA b + bcB b) in *. split.
  - intros (Ts & Ho & Hc).
    assert (Ts = t - o * dx / (2 * k * S)) by (rewrite Ho; field; lra). subst Ts.
    assert (E : o * D = S * (bcA b * t - bcC b)).
    { rewrite <- Hc. unfold D. field. lra. }
    rewrite <- E. field. exact Hden.
  - intros Ho. exists (t - o * dx / (2 * k * S)). split; [field; lra|].
    assert (E : o * D = S * (bcA b * t - bcC b)) by (rewrite Ho; field; exact Hden).
    assert (bcA b * (t - o * dx / (2 * k * S)) - bcB b * (o / S) = bcA b * t - o * D / S) as ->.
    { unfold D. field. lra. }
    rewrite E. field. lra.
Qed.

Definition physical (ms : mesh R) : Prop :=
  (forall i, (0 <= i < ms_cells ms)%Z -> 0 < conductivity ms i) /\
  increasing (ms_bounds ms) /\ vat (ms_bounds ms) 0 = 0.

Lemma width_pos ms i : conducting ms -> physical ms -> (0 <= i < ms_cells ms)%Z -> 0 < width ms i.
Proof.
  intros (_ & _ & Hb & _) (_ & H & _) Hi. unfold width. specialize (H i ltac:(lia) ltac:(lia)). lra.
Qed.
Lemma face_pos ms i : conducting ms -> physical ms -> (1 <= i <= ms_cells ms)%Z -> 0 < face ms i.
Proof.
  intros (Hg & Hn & Hb & _) (_ & H & H0) Hi.
  assert (0 < vat (ms_bounds ms) i).
  { rewrite <- H0. apply increasing_lt; auto; lia. }
  unfold face. pose proof PI_RGT_0. destruct (ms_geom ms); cbn; [congruence|lra|nra|].
  assert (0 < vat (ms_bounds ms) i * vat (ms_bounds ms) i) by nra. nra.
Qed.
Lemma face_slab ms i : is_slab ms = true -> face ms i = 1.
Proof. unfold is_slab, face. destruct (ms_geom ms); try discriminate. reflexivity. Qed.

Lemma ilam_pos ms i : conducting ms -> physical ms -> (1 <= i < ms_cells ms)%Z -> 0 < ilam ms i.
Proof.
  intros Hc Hp Hi. pose proof (face_pos ms i Hc Hp ltac:(lia)) as HS. unfold ilam.
  pose proof (width_pos ms i Hc Hp ltac:(lia)) as W1.
  pose proof (width_pos ms (i - 1) Hc Hp ltac:(lia)) as W0.
  destruct Hp as [Hk _]. pose proof (Hk i ltac:(lia)) as K1. pose proof (Hk (i - 1)%Z ltac:(lia)) as K0.
  destruct ((1 <=? i) && (i <? ms_cells ms - 1))%Z; [|nra].
  apply Rmult_lt_0_compat; [|exact HS]. apply Rdiv_lt_0_compat; [lra|].
  set (f := width ms (i - 1) / (width ms i + width ms (i - 1))).
  assert (0 < f < 1).
  { unfold f. split; [apply Rdiv_lt_0_compat; lra|]. apply (Rmult_lt_reg_r (width ms i + width ms (i - 1))); [lra|].
    unfold Rdiv. rewrite Rmult_assoc, Rinv_l by lra. lra. }
  assert (0 < (1 - f) / conductivity ms (i - 1)) by (apply Rdiv_lt_0_compat; lra).
  assert (0 < f / conductivity ms i) by (apply Rdiv_lt_0_compat; lra). lra.
Qed.
Lemma isz_pos ms i : conducting ms -> physical ms -> (0 <= i < ms_cells ms)%Z -> 0 < isz ms i.
Proof.
  intros Hc Hp Hi. unfold isz. pose proof (width_pos ms i Hc Hp ltac:(lia)) as W1.
  destruct ((1 <=? i) && (i <? ms_cells ms - 1))%Z eqn:E; [|exact W1].
  pose proof (width_pos ms (i - 1) Hc Hp ltac:(lia)). lra.
Qed.
Lemma gright_pos ms i : conducting ms -> physical ms -> (0 <= i < ms_cells ms - 1)%Z -> 0 < gright ms i.
Proof.
  intros Hc Hp Hi. unfold gright. apply Rdiv_lt_0_compat; [apply ilam_pos; auto; lia|apply isz_pos; auto; lia].
Qed.
Lemma gleft_pos ms i : conducting ms -> physical ms -> (1 <= i < ms_cells ms)%Z -> 0 < gleft ms i.
Proof.
  intros Hc Hp Hi. unfold gleft. destruct (i =? ms_cells ms - 1)%Z;
  (apply Rdiv_lt_0_compat; [apply ilam_pos; auto; lia|apply isz_pos; auto; lia]).
Qed.

(* the denominators of the code in terms of the half cell *)
Lemma denL_eq ms L : is_slab ms = true -> conducting ms ->
  denL ms L = width ms 0 / (2 * conductivity ms 0) * bcA L + bcB L.
Proof.
  intros Hs (_ & Hn & _). unfold denL, ilam. replace ((1 <=? 0) && (0 <? ms_cells ms - 1))%Z with false by lia.
  rewrite face_slab by auto. rewrite Rmult_1_r. reflexivity.
Qed.
Lemma denR_eq ms Rt : conducting ms -> physical ms ->
  denR ms Rt = (width ms (ms_cells ms - 1) / (2 * conductivity ms (ms_cells ms - 1)) * bcA Rt + bcB Rt) / face ms (ms_cells ms).
Proof.
  intros Hc Hp. pose proof Hc as (_ & Hn & _). unfold denR, ilam.
  replace ((1 <=? ms_cells ms - 1) && (ms_cells ms - 1 <? ms_cells ms - 1))%Z with false by lia.
  pose proof (face_pos ms (ms_cells ms) Hc Hp ltac:(lia)).
  pose proof (face_pos ms (ms_cells ms - 1) Hc Hp ltac:(lia)).
  destruct Hp as [Hk _]. specialize (Hk (ms_cells ms - 1)%Z ltac:(lia)). field. lra.
Qed.

(* ---------- conservation between neighbours (C35) ---------- *)

Lemma inner_symmetric ms i : (1 <= i < ms_cells ms - 1)%Z -> gright ms (i - 1) = gleft ms i.
Proof.
  intros Hi. unfold gright, gleft. replace (i - 1 + 1)%Z with i by lia. zdec. reflexivity.
Qed.

(* the two widths used for the last interface *)
Definition last_right (ms : mesh R) : R := width ms (ms_cells ms - 1).
Definition last_left (ms : mesh R) : R :=
  let n := ms_cells ms in
  if (n =? 2)%Z then width ms 0 else (width ms (n - 2) + width ms (n - 3)) / 2.

Lemma last_conductances ms : (2 <= ms_cells ms)%Z ->
  gright ms (ms_cells ms - 2) = ilam ms (ms_cells ms - 1) / last_right ms /\
  gleft ms (ms_cells ms - 1) = ilam ms (ms_cells ms - 1) / last_left ms.
Proof.
  intros Hn. set (n := ms_cells ms) in *. unfold gright, gleft, last_right, last_left. fold n.
  replace (n - 2 + 1)%Z with (n - 1)%Z by lia. split.
  - unfold isz. fold n. zdec. reflexivity.
  - rewrite Z.eqb_refl. unfold isz. fold n. destruct (Z.eqb_spec n 2) as [E|E].
    + rewrite E. cbn. reflexivity.
    + zdec. replace (n - 1 - 1)%Z with (n - 2)%Z by lia. replace (n - 2 - 1)%Z with (n - 3)%Z by lia. f_equal. field.
Qed.

Lemma last_left_pos ms : conducting ms -> physical ms -> 0 < last_left ms.
Proof.
  intros Hc Hp. pose proof Hc as (_ & Hn & _). unfold last_left.
  destruct (Z.eqb_spec (ms_cells ms) 2); [apply width_pos; auto; lia|].
  pose proof (width_pos ms (ms_cells ms - 2) Hc Hp ltac:(lia)).
  pose proof (width_pos ms (ms_cells ms - 3) Hc Hp ltac:(lia)). lra.
Qed.

Lemma last_symmetric_iff ms : conducting ms -> physical ms ->
  (gright ms (ms_cells ms - 2) = gleft ms (ms_cells ms - 1) <-> last_right ms = last_left ms).
Proof.
  intros Hc Hp. pose proof Hc as (_ & Hn & _). destruct (last_conductances ms Hn) as [-> ->].
  pose proof (last_left_pos ms Hc Hp) as H1.
  assert (H2 : 0 < last_right ms) by (apply width_pos; auto; lia).
  pose proof (ilam_pos ms (ms_cells ms - 1) Hc Hp ltac:(lia)) as H3.
  split; [|intros ->; reflexivity]. intros E.
  assert (E' : ilam ms (ms_cells ms - 1) * last_left ms = ilam ms (ms_cells ms - 1) * last_right ms).
  { apply (Rmult_eq_compat_r (last_left ms * last_right ms)) in E.
    unfold Rdiv in E. field_simplify in E; lra. }
  apply Rmult_eq_reg_l in E'; lra.
Qed.

(* what is lost or created at the last interface *)
Lemma total_defect ms x : (2 <= ms_cells ms)%Z ->
  rsum 0 (ms_cells ms) (app (ms_cells ms) (hmat ms) x) =
  (gleft ms (ms_cells ms - 1) - gright ms (ms_cells ms - 2)) * (x (ms_cells ms - 1)%Z - x (ms_cells ms - 2)%Z).
Proof.
  intros Hn. set (n := ms_cells ms) in *.
  set (F := fun i => if ((1 <=? i) && (i <? n))%Z then gright ms (i - 1) * (x (i - 1)%Z - x i) else 0).
  rewrite (rsum_ext _ _ _ (fun i => (F (i + 1)%Z - F i) +
    (if (i =? n - 1)%Z then (gleft ms (n - 1) - gright ms (n - 2)) * (x (n - 1)%Z - x (n - 2)%Z) else 0))).
  - rewrite rsum_plus, rsum_tele by lia.
    rewrite (rsum_delta 0 n (fun _ => _) (n - 1)) by lia.
    unfold F. zdec. ring.
  - intros i Hi. unfold n. rewrite hmat_app by (fold n; lia). fold n. unfold F.
    destruct (Z.eqb_spec i (n - 1)) as [->|Hne].
    + zdec. replace (n - 1 - 1)%Z with (n - 2)%Z by lia. ring.
    + replace (i + 1 - 1)%Z with i by lia. destruct (Z.ltb_spec 0 i).
      * zdec. rewrite (inner_symmetric ms i) by (fold n; lia). ring.
      * assert (i = 0)%Z by lia. subst i. zdec. ring.
Qed.

(* ---------- series resistance (C36) ---------- *)

(* resistance between the centres of cells i-1 and i *)
Definition series (ms : mesh R) (i : Z) : R :=
  (width ms (i - 1) / 2 / conductivity ms (i - 1) + width ms i / 2 / conductivity ms i) / face ms i.

Lemma inner_resistance ms i : conducting ms -> physical ms -> (1 <= i < ms_cells ms - 1)%Z ->
  1 / gleft ms i = (width ms i / 2 / conductivity ms (i - 1) + width ms (i - 1) / 2 / conductivity ms i) / face ms i.
Proof.
  intros Hc Hp Hi. unfold gleft, ilam, isz. zdec.
  pose proof (width_pos ms i Hc Hp ltac:(lia)). pose proof (width_pos ms (i - 1) Hc Hp ltac:(lia)).
  pose proof (face_pos ms i Hc Hp ltac:(lia)). destruct Hp as [Hk _].
  pose proof (Hk i ltac:(lia)). pose proof (Hk (i - 1)%Z ltac:(lia)). 
  set (w := width ms i) in *. set (w' := width ms (i - 1)) in *. set (k := conductivity ms i) in *.
  set (k' := conductivity ms (i - 1)) in *. set (S := face ms i) in *.
  assert (E : (1 - w' / (w + w')) / k' + w' / (w + w') / k = (w * k + w' * k') / ((w + w') * k * k')) by (field; lra).
  rewrite E. assert (0 < w * k + w' * k') by nra. field. repeat split; try lra.
Qed.

Lemma inner_series_iff ms i : conducting ms -> physical ms -> (1 <= i < ms_cells ms - 1)%Z ->
  (1 / gleft ms i = series ms i <->
   width ms i = width ms (i - 1) \/ conductivity ms i = conductivity ms (i - 1)).
Proof.
  intros Hc Hp Hi. rewrite inner_resistance by auto. unfold series.
  pose proof (width_pos ms i Hc Hp ltac:(lia)). pose proof (width_pos ms (i - 1) Hc Hp ltac:(lia)).
  pose proof (face_pos ms i Hc Hp ltac:(lia)). destruct Hp as [Hk _].
  pose proof (Hk i ltac:(lia)). pose proof (Hk (i - 1)%Z ltac:(lia)).
  set (w := width ms i) in *. set (w' := width ms (i - 1)) in *. set (k := conductivity ms i) in *.
  set (k' := conductivity ms (i - 1)) in *. set (S := face ms i) in *.
  split.
  - intros E.
    assert (E2 : (w - w') * (k - k') = 0).
    { apply (Rmult_eq_compat_r (2 * k * k' * S)) in E.
      replace ((w / 2 / k' + w' / 2 / k) / S * (2 * k * k' * S)) with (w * k + w' * k') in E by (field; lra).
      replace ((w' / 2 / k' + w / 2 / k) / S * (2 * k * k' * S)) with (w' * k + w * k') in E by (field; lra).
      lra. }
    destruct (Rmult_integral _ _ E2); [left|right]; lra.
  - intros [->| ->]; field; lra.
Qed.

Lemma last_series_iff ms : conducting ms -> physical ms ->
  let n := ms_cells ms in
  (1 / gright ms (n - 2) = series ms (n - 1) <->
   width ms (n - 1) * conductivity ms (n - 2) = width ms (n - 2) * conductivity ms (n - 1)).
Proof.
  intros Hc Hp n. pose proof Hc as (_ & Hn & _). fold n in Hn.
  destruct (last_conductances ms Hn) as [E _]. fold n in E. rewrite E.
  unfold last_right, series, ilam. fold n. zdec. replace (n - 1 - 1)%Z with (n - 2)%Z by lia.
  pose proof (width_pos ms (n - 1) Hc Hp ltac:(lia)). pose proof (width_pos ms (n - 2) Hc Hp ltac:(lia)).
  pose proof (face_pos ms (n - 1) Hc Hp ltac:(lia)). destruct Hp as [Hk _].
  pose proof (Hk (n - 1)%Z ltac:(lia)). pose proof (Hk (n - 2)%Z ltac:(lia)).
  set (w := width ms (n - 1)) in *. set (w' := width ms (n - 2)) in *. set (k := conductivity ms (n - 1)) in *.
  set (k' := conductivity ms (n - 2)) in *. set (S := face ms (n - 1)) in *.
  split.
  - intros H'. apply (Rmult_eq_compat_r (2 * k * k' * S)) in H'.
    replace (1 / (k * S / w) * (2 * k * k' * S)) with (2 * w * k') in H' by (field; lra).
    replace ((w' / 2 / k' + w / 2 / k) / S * (2 * k * k' * S)) with (w' * k + w * k') in H' by (field; lra).
    lra.
  - intros H'. apply (Rmult_eq_reg_r (2 * k * k' * S)).
    + replace (1 / (k * S / w) * (2 * k * k' * S)) with (2 * w * k') by (field; lra).
      replace ((w' / 2 / k' + w / 2 / k) / S * (2 * k * k' * S)) with (w' * k + w * k') by (field; lra). lra.
    + assert (0 < k * k') by nra. assert (0 < k * k' * S) by nra. nra.
Qed.

(* ---------- the equations solved (C37) ---------- *)

Definition regular (ms : mesh R) (L Rt : bc) : Prop :=
  let n := ms_cells ms in
  (is_slab ms = true -> width ms 0 / (2 * conductivity ms 0) * bcA L + bcB L <> 0) /\
  width ms (n - 1) / (2 * conductivity ms (n - 1)) * bcA Rt + bcB Rt <> 0.

(* heat leaving through the left face: none unless the mesh is a slab *)
Definition left_law (ms : mesh R) (L : bc) (t o : R) : Prop :=
  if is_slab ms then face_law L (conductivity ms 0) (face ms 0) (width ms 0) t o else o = 0.
Definition right_law (ms : mesh R) (Rt : bc) (t o : R) : Prop :=
  let n := ms_cells ms in
  face_law Rt (conductivity ms (n - 1)) (face ms n) (width ms (n - 1)) t o.

Lemma left_law_iff ms L t o : conducting ms -> physical ms ->
  (is_slab ms = true -> width ms 0 / (2 * conductivity ms 0) * bcA L + bcB L <> 0) ->
  (left_law ms L t o <-> o = alphaL ms L * t + betaL ms L).
Proof.
  intros Hc Hp Hr. pose proof Hc as (_ & Hn & _). unfold left_law, alphaL, betaL. destruct (is_slab ms) eqn:E.
  - rewrite face_law_iff; auto.
    + rewrite denL_eq by auto. rewrite face_slab by auto. specialize (Hr eq_refl).
      set (D := width ms 0 / (2 * conductivity ms 0) * bcA L + bcB L) in *.
      split; intros ->; field; exact Hr.
    + apply (proj1 Hp); lia.
    + rewrite face_slab by auto. lra.
    + apply width_pos; auto; lia.
  - split; intros ->; ring.
Qed.

Lemma right_law_iff ms Rt t o : conducting ms -> physical ms ->
  width ms (ms_cells ms - 1) / (2 * conductivity ms (ms_cells ms - 1)) * bcA Rt + bcB Rt <> 0 ->
  (right_law ms Rt t o <-> o = alphaR ms Rt * t + betaR ms Rt).
Proof.
  intros Hc Hp Hr. pose proof Hc as (_ & Hn & _). unfold right_law, alphaR, betaR.
  pose proof (face_pos ms (ms_cells ms) Hc Hp ltac:(lia)) as HS.
  rewrite face_law_iff; auto.
  - rewrite denR_eq by auto.
    set (D := width ms (ms_cells ms - 1) / (2 * conductivity ms (ms_cells ms - 1)) * bcA Rt + bcB Rt) in *.
    split; intros ->; field; split; auto; lra.
  - apply (proj1 Hp); lia.
  - apply width_pos; auto; lia.
Qed.

(* T solves the assembled system exactly when every cell is in balance *)
Lemma system_balance ms L Rt x oL oR : conducting ms -> physical ms -> regular ms L Rt ->
  left_law ms L (x 0%Z) oL -> right_law ms Rt (x (ms_cells ms - 1)%Z) oR ->
  forall i, (0 <= i < ms_cells ms)%Z ->
  app (ms_cells ms) (fullmat ms L Rt) x i - fullsource ms L Rt i =
    app (ms_cells ms) (hmat ms) x i + (if (i =? 0)%Z then oL else 0)
    + (if (i =? ms_cells ms - 1)%Z then oR else 0) - stored_heat ms i * cell_volume ms i.
Proof.
  intros Hc Hp [HrL HrR] HL HR i Hi. pose proof Hc as (_ & Hn & _).
  apply (left_law_iff ms L) in HL; auto. apply (right_law_iff ms Rt) in HR; auto.
  rewrite fullmat_app by auto. unfold fullsource. subst oL oR.
  destruct (i =? 0)%Z, (i =? ms_cells ms - 1)%Z; ring.
Qed.

(* ---------- maximum principle (C38) ---------- *)

Definition admissible (b : bc) : Prop := 0 <= bcA b /\ 0 <= bcB b /\ 0 < bcA b + bcB b.

Lemma admissible_den b w k : admissible b -> 0 < w -> 0 < k -> 0 < w / (2 * k) * bcA b + bcB b.
Proof.
  intros (HA & HB & HAB) Hw Hk. assert (0 < w / (2 * k)) by (apply Rdiv_lt_0_compat; lra).
  destruct (Rle_lt_dec (bcA b) 0); nra.
Qed.

Lemma admissible_regular ms L Rt : conducting ms -> physical ms ->
  (is_slab ms = true -> admissible L) -> admissible Rt -> regular ms L Rt.
Proof.
  intros Hc Hp HL HR. pose proof Hc as (_ & Hn & _). split.
  - intros Hs. apply Rgt_not_eq. apply admissible_den; auto; [apply width_pos; auto; lia|apply (proj1 Hp); lia].
  - apply Rgt_not_eq. apply admissible_den; auto; [apply width_pos; auto; lia|apply (proj1 Hp); lia].
Qed.

Lemma hmat_rows ms i : (2 <= ms_cells ms)%Z -> (0 <= i < ms_cells ms)%Z ->
  rsum 0 (ms_cells ms) (hmat ms i) = 0.
Proof.
  intros Hn Hi.
  assert (E : app (ms_cells ms) (hmat ms) (fun _ => 1) i = 0).
  { rewrite hmat_app by auto. destruct (i <? _)%Z, (0 <? i)%Z; ring. }
  rewrite <- E. unfold app. apply rsum_ext. intros; ring.
Qed.

Lemma fullmat_rows ms L Rt i : (2 <= ms_cells ms)%Z -> (0 <= i < ms_cells ms)%Z ->
  rsum 0 (ms_cells ms) (fullmat ms L Rt i) =
  (if (i =? 0)%Z then alphaL ms L else 0) + (if (i =? ms_cells ms - 1)%Z then alphaR ms Rt else 0).
Proof.
  intros Hn Hi.
  assert (E := fullmat_app ms L Rt (fun _ => 1) i Hn Hi).
  assert (E' : app (ms_cells ms) (hmat ms) (fun _ => 1) i = 0).
  { rewrite hmat_app by auto. destruct (i <? _)%Z, (0 <? i)%Z; ring. }
  rewrite E' in E. transitivity (app (ms_cells ms) (fullmat ms L Rt) (fun _ => 1) i).
  { unfold app. apply rsum_ext. intros; ring. }
  rewrite E. destruct (i =? 0)%Z, (i =? ms_cells ms - 1)%Z; ring.
Qed.

Lemma alpha_nonneg ms L Rt : conducting ms -> physical ms ->
  (is_slab ms = true -> admissible L) -> admissible Rt ->
  0 <= alphaL ms L /\ 0 <= alphaR ms Rt /\
  (is_slab ms = true -> 0 < bcA L -> 0 < alphaL ms L) /\ (0 < bcA Rt -> 0 < alphaR ms Rt).
Proof.
  intros Hc Hp HL HR. pose proof Hc as (_ & Hn & _).
  assert (HdR : 0 < denR ms Rt).
  { rewrite denR_eq by auto. apply Rdiv_lt_0_compat; [|apply face_pos; auto; lia].
    apply admissible_den; auto; [apply width_pos; auto; lia|apply (proj1 Hp); lia]. }
  assert (HR2 : (0 < bcA Rt -> 0 < alphaR ms Rt) /\ 0 <= alphaR ms Rt).
  { unfold alphaR. split; [intros; apply Rdiv_lt_0_compat; auto|].
    apply Rmult_le_pos; [apply HR|]. left. apply Rinv_0_lt_compat; auto. }
  unfold alphaL. destruct (is_slab ms) eqn:Es.
  - assert (HdL : 0 < denL ms L).
    { rewrite denL_eq by auto. apply admissible_den; auto; [apply width_pos; auto; lia|apply (proj1 Hp); lia]. }
    split; [|split; [apply HR2|split; [|apply HR2]]].
    + apply Rmult_le_pos; [apply (HL eq_refl)|]. left. apply Rinv_0_lt_compat; exact HdL.
    + intros _ H. apply Rdiv_lt_0_compat; auto.
  - split; [lra|split; [apply HR2|split; [discriminate|apply HR2]]].
Qed.

Lemma fullmat_off ms L Rt i j : i <> j -> fullmat ms L Rt i j = hmat ms i j.
Proof.
  intros Hne. unfold fullmat.
  replace ((i =? 0) && (j =? 0))%Z with false by lia.
  replace ((i =? ms_cells ms - 1) && (j =? ms_cells ms - 1))%Z with false by lia. ring.
Qed.

Lemma fullmat_monotone ms L Rt : conducting ms -> physical ms ->
  (is_slab ms = true -> admissible L) -> admissible Rt ->
  (0 < bcA Rt \/ (is_slab ms = true /\ 0 < bcA L)) ->
  monotone (ms_cells ms) (fullmat ms L Rt).
Proof.
  intros Hc Hp HL HR Hfix. pose proof Hc as (_ & Hn & _).
  destruct (alpha_nonneg ms L Rt Hc Hp HL HR) as (aL & aR & aL' & aR').
  apply chain_monotone.
  - intros i j Hi Hj Hne. rewrite fullmat_off by auto. unfold hmat. zdec.
    destruct (Z.eqb_spec j (i + 1)).
    + pose proof (gright_pos ms i Hc Hp ltac:(lia)). lra.
    + destruct (Z.eqb_spec j (i - 1)); [|lra]. pose proof (gleft_pos ms i Hc Hp ltac:(lia)). lra.
  - intros i Hi. rewrite !fullmat_off by lia. unfold hmat. zdec.
    pose proof (gright_pos ms i Hc Hp ltac:(lia)). pose proof (gleft_pos ms (i + 1) Hc Hp ltac:(lia)). lra.
  - intros i Hi. rewrite fullmat_rows by auto. destruct (i =? 0)%Z, (i =? ms_cells ms - 1)%Z; lra.
  - destruct Hfix as [H|[Hs H]].
    + exists (ms_cells ms - 1)%Z. split; [lia|]. rewrite fullmat_rows by lia. zdec. specialize (aR' H). lra.
    + exists 0%Z. split; [lia|]. rewrite fullmat_rows by lia. zdec. specialize (aL' Hs H). lra.
Qed.

(* lower bound; the upper bound is the same statement for the opposite *)
Lemma lower_bound ms L Rt x m : conducting ms -> physical ms ->
  (is_slab ms = true -> admissible L) -> admissible Rt ->
  (0 < bcA Rt \/ (is_slab ms = true /\ 0 < bcA L)) ->
  (forall i, (0 <= i < ms_cells ms)%Z -> fullsource ms L Rt i <= app (ms_cells ms) (fullmat ms L Rt) x i) ->
  (forall i, (0 <= i < ms_cells ms)%Z -> 0 <= stored_heat ms i * cell_volume ms i) ->
  (is_slab ms = true -> bcA L * m <= bcC L) -> bcA Rt * m <= bcC Rt ->
  forall i, (0 <= i < ms_cells ms)%Z -> m <= x i.
Proof.
  intros Hc Hp HL HR Hfix Hsol Hq HmL HmR i Hi. pose proof Hc as (_ & Hn & _).
  pose proof (fullmat_monotone ms L Rt Hc Hp HL HR Hfix) as M.
  specialize (M (fun j => x j - m)).
  cut (0 <= x i - m); [lra|]. apply M; [|exact Hi].
  intros k Hk. set (n := ms_cells ms) in *.
  assert (E : app n (fullmat ms L Rt) (fun j => x j - m) k
     = app n (fullmat ms L Rt) x k - m * rsum 0 n (fullmat ms L Rt k)).
  { unfold app. rewrite <- rsum_scal, <- rsum_minus. apply rsum_ext. intros; ring. }
  rewrite E. unfold n in *. rewrite fullmat_rows by auto. specialize (Hsol k Hk). specialize (Hq k Hk).
  unfold fullsource in Hsol.
  assert (HbL : (if (k =? 0)%Z then alphaL ms L else 0) * m <= - (if (k =? 0)%Z then betaL ms L else 0)).
  { destruct (k =? 0)%Z; [|lra]. unfold alphaL, betaL. destruct (is_slab ms) eqn:Es; [|lra].
    assert (0 < denL ms L).
    { rewrite denL_eq by auto. apply admissible_den; auto; [apply width_pos; auto; lia|apply (proj1 Hp); lia]. }
    specialize (HmL eq_refl).
    replace (bcA L / denL ms L * m) with (bcA L * m / denL ms L) by (field; lra).
    replace (- (- bcC L / denL ms L)) with (bcC L / denL ms L) by (field; lra).
    apply Rmult_le_compat_r; [left; apply Rinv_0_lt_compat; auto|auto]. }
  assert (HbR : (if (k =? ms_cells ms - 1)%Z then alphaR ms Rt else 0) * m <= - (if (k =? ms_cells ms - 1)%Z then betaR ms Rt else 0)).
  { destruct (k =? ms_cells ms - 1)%Z; [|lra]. unfold alphaR, betaR.
    assert (0 < denR ms Rt).
    { rewrite denR_eq by auto. apply Rdiv_lt_0_compat; [|apply face_pos; auto; lia].
      apply admissible_den; auto; [apply width_pos; auto; lia|apply (proj1 Hp); lia]. }
    replace (bcA Rt / denR ms Rt * m) with (bcA Rt * m / denR ms Rt) by (field; lra).
    replace (- (- bcC Rt / denR ms Rt)) with (bcC Rt / denR ms Rt) by (field; lra).
    apply Rmult_le_compat_r; [left; apply Rinv_0_lt_compat; auto|auto]. }
  lra.
Qed.

Lemma upper_bound ms L Rt x m : conducting ms -> physical ms ->
  (is_slab ms = true -> admissible L) -> admissible Rt ->
  (0 < bcA Rt \/ (is_slab ms = true /\ 0 < bcA L)) ->
  (forall i, (0 <= i < ms_cells ms)%Z -> app (ms_cells ms) (fullmat ms L Rt) x i <= fullsource ms L Rt i) ->
  (forall i, (0 <= i < ms_cells ms)%Z -> stored_heat ms i * cell_volume ms i <= 0) ->
  (is_slab ms = true -> bcC L <= bcA L * m) -> bcC Rt <= bcA Rt * m ->
  forall i, (0 <= i < ms_cells ms)%Z -> x i <= m.
Proof.
  intros Hc Hp HL HR Hfix Hsol Hq HmL HmR i Hi. pose proof Hc as (_ & Hn & _).
  pose proof (fullmat_monotone ms L Rt Hc Hp HL HR Hfix) as M.
  specialize (M (fun j => m - x j)).
  cut (0 <= m - x i); [lra|]. apply M; [|exact Hi].
  intros k Hk. set (n := ms_cells ms) in *.
  assert (E : app n (fullmat ms L Rt) (fun j => m - x j) k
     = m * rsum 0 n (fullmat ms L Rt k) - app n (fullmat ms L Rt) x k).
  { unfold app. rewrite <- rsum_scal, <- rsum_minus. apply rsum_ext. intros; ring. }
  rewrite E. unfold n in *. rewrite fullmat_rows by auto. specialize (Hsol k Hk). specialize (Hq k Hk).
  unfold fullsource in Hsol.
  assert (HbL : - (if (k =? 0)%Z then betaL ms L else 0) <= (if (k =? 0)%Z then alphaL ms L else 0) * m).
  { destruct (k =? 0)%Z; [|lra]. unfold alphaL, betaL. destruct (is_slab ms) eqn:Es; [|lra].
    assert (0 < denL ms L).
    { rewrite denL_eq by auto. apply admissible_den; auto; [apply width_pos; auto; lia|apply (proj1 Hp); lia]. }
    specialize (HmL eq_refl).
    replace (bcA L / denL ms L * m) with (bcA L * m / denL ms L) by (field; lra).
    replace (- (- bcC L / denL ms L)) with (bcC L / denL ms L) by (field; lra).
    apply Rmult_le_compat_r; [left; apply Rinv_0_lt_compat; auto|auto]. }
  assert (HbR : - (if (k =? ms_cells ms - 1)%Z then betaR ms Rt else 0) <= (if (k =? ms_cells ms - 1)%Z then alphaR ms Rt else 0) * m).
  { destruct (k =? ms_cells ms - 1)%Z; [|lra]. unfold alphaR, betaR.
    assert (0 < denR ms Rt).
    { rewrite denR_eq by auto. apply Rdiv_lt_0_compat; [|apply face_pos; auto; lia].
      apply admissible_den; auto; [apply width_pos; auto; lia|apply (proj1 Hp); lia]. }
    replace (bcA Rt / denR ms Rt * m) with (bcA Rt * m / denR ms Rt) by (field; lra).
    replace (- (- bcC Rt / denR ms Rt)) with (bcC Rt / denR ms Rt) by (field; lra).
    apply Rmult_le_compat_r; [left; apply Rinv_0_lt_compat; auto|auto]. }
  lra.
Qed.
