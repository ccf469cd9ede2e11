(* Property theorems C92: which changes of a reactor raise its multiplication factor.
   [no_better], [populated] and [useful] (ProofsReactivity.v), [emits] and [fissile]
   (ProofsConvergeD.v) speak of the data only. *)
From Coq Require Import String ZArith List Bool Lia Reals Lra.
From Verif Require Import Base BaseLemmas NumR LinAlg Blocks PowerMethod ModelNumTools ModelEigen ModelMesh
  ModelReactor ModelDiffusion ModelSpectrum ProofsSpectrum ProofsSpectrumR ProofsEigen ProofsMesh ProofsDiffusion ProofsDiffusionR Kernels PropsDiffusion PropsSpectrum
  PropsSpectrumB ProofsConverge ProofsConvergeD ProofsConvergeT PropsConverge ProofsInfinite PropsInfinite ProofsReactivity.
Import ListNotations.
Local Open Scope R_scope.

(* two diffusion calculations on the same cells, and what they settle on *)
Record two_reactors (ms1 ms2 : mesh R) (sd1 sd2 : solverData R) (d1 d2 : data R) (aL1 aR1 aL2 aR2 k1 k2 : R) (phi1 phi2 : vec R) : Prop := {
  tr_case1 : diffusion_case ms1 sd1 d1 aL1 aR1;
  tr_case2 : diffusion_case ms2 sd2 d2 aL2 aR2;
  tr_dir1 : sd_dir sd1 = FORWARD;
  tr_dir2 : sd_dir sd2 = FORWARD;
  tr_cells : ms_cells ms1 = ms_cells ms2;
  tr_groups : sd_energies sd1 = sd_energies sd2;
  tr_settle1 : exists solver M F, diffusionSystem PI ms1 sd1 = Ok (M, F) /\ settles solver M F k1 phi1;
  tr_settle2 : exists solver M F, diffusionSystem PI ms2 sd2 = Ok (M, F) /\ settles solver M F k2 phi2 }.

(* More collisions, less scattering, fewer fission neutrons and more leakage never
   raise the factor. *)
Theorem C92_never_raises ms1 ms2 sd1 sd2 d1 d2 aL1 aR1 aL2 aR2 k1 k2 phi1 phi2 :
  two_reactors ms1 ms2 sd1 sd2 d1 d2 aL1 aR1 aL2 aR2 k1 k2 phi1 phi2 ->
  no_better (ms_cells ms2) (sd_energies sd2) d1 d2 aL1 aR1 aL2 aR2 -> k1 <= k2.
Proof.
  intros [D1 D2 H1 H2 Hc Hg (s1 & M1 & F1 & E1 & S1) (s2 & M2 & F2 & E2 & S2)] B.
  exact (diffusion_compare ms1 ms2 sd1 sd2 d1 d2 aL1 aR1 aL2 aR2 M1 F1 M2 F2 D1 D2 H1 H2 Hc Hg E1 E2 B s1 s2 k1 k2 phi1 phi2 S1 S2).
Qed.
Print Assumptions C92_never_raises.

(* They lower it when they take neutrons from a group that has some and could use
   them: by collisions in any one cell, or at a boundary. *)
Theorem C92_absorption_lowers ms1 ms2 sd1 sd2 d1 d2 aL1 aR1 aL2 aR2 k1 k2 phi1 phi2 e m :
  two_reactors ms1 ms2 sd1 sd2 d1 d2 aL1 aR1 aL2 aR2 k1 k2 phi1 phi2 ->
  no_better (ms_cells ms2) (sd_energies sd2) d1 d2 aL1 aR1 aL2 aR2 ->
  (0 <= m < ms_cells ms2)%Z -> populated ms1 sd1 d1 e -> useful ms2 sd2 d2 e ->
  ttot d2 e m < ttot d1 e m \/ (m = 0%Z /\ aL1 < aL2 /\ 0 < tS d2 0) \/ (m = (ms_cells ms2 - 1)%Z /\ aR1 < aR2 /\ 0 < tS d2 (ms_cells ms2)) ->
  k1 < k2.
Proof.
  intros [D1 D2 H1 H2 Hc Hg (s1 & M1 & F1 & E1 & S1) (s2 & M2 & F2 & E2 & S2)] B Hm Hp Hu Ht.
  exact (diffusion_taken ms1 ms2 sd1 sd2 d1 d2 aL1 aR1 aL2 aR2 M1 F1 M2 F2 D1 D2 H1 H2 Hc Hg E1 E2 B s1 s2 k1 k2 phi1 phi2 S1 S2 e m Hm Ht Hp Hu).
Qed.
Print Assumptions C92_absorption_lowers.

(* So do fewer fission neutrons from a group that has neutrons, in any one cell where
   fission neutrons are born. *)
Theorem C92_fission_raises ms1 ms2 sd1 sd2 d1 d2 aL1 aR1 aL2 aR2 k1 k2 phi1 phi2 e e' m :
  two_reactors ms1 ms2 sd1 sd2 d1 d2 aL1 aR1 aL2 aR2 k1 k2 phi1 phi2 ->
  no_better (ms_cells ms2) (sd_energies sd2) d1 d2 aL1 aR1 aL2 aR2 ->
  emits ms2 sd2 d2 e m -> useful ms2 sd2 d2 e -> populated ms1 sd1 d1 e' ->
  tni d1 e' m * tfis d1 e' m < tni d2 e' m * tfis d2 e' m -> k1 < k2.
Proof.
  intros [D1 D2 H1 H2 Hc Hg (s1 & M1 & F1 & E1 & S1) (s2 & M2 & F2 & E2 & S2)] B Hem Hu Hp Hl.
  exact (diffusion_made ms1 ms2 sd1 sd2 d1 d2 aL1 aR1 aL2 aR2 M1 F1 M2 F2 D1 D2 H1 H2 Hc Hg E1 E2 B s1 s2 k1 k2 phi1 phi2 S1 S2 e e' m Hem Hu Hp Hl).
Qed.
Print Assumptions C92_fission_raises.

Lemma no_better_refl n en d aL1 aR1 aL2 aR2 : aL1 <= aL2 -> aR1 <= aR2 -> no_better n en d d aL1 aR1 aL2 aR2.
Proof. intros. split; intros; auto; lra. Qed.

(* Boundaries that send back less lower the factor. *)
Theorem C92_leakage_lowers ms sd1 sd2 d aL1 aR1 aL2 aR2 k1 k2 phi1 phi2 :
  two_reactors ms ms sd1 sd2 d d aL1 aR1 aL2 aR2 k1 k2 phi1 phi2 -> chain_reaction ms sd2 d ->
  aL1 <= aL2 -> aR1 <= aR2 ->
  k1 <= k2 /\ ((aL1 < aL2 /\ 0 < tS d 0) \/ (aR1 < aR2 /\ 0 < tS d (ms_cells ms)) -> k1 < k2).
Proof.
  intros T (Hs & Hr) HL HR. pose proof (no_better_refl (ms_cells ms) (sd_energies sd2) d _ _ _ _ HL HR) as B.
  split; [exact (C92_never_raises _ _ _ _ _ _ _ _ _ _ _ _ _ _ T B)|]. intros Hlt.
  destruct Hs as (m & Hf). pose proof Hf as ((e & Hem) & _). pose proof (dcs_cells _ _ _ _ _ (tr_case2 _ _ _ _ _ _ _ _ _ _ _ _ _ _ T)) as Hn.
  assert (Hp : populated ms sd1 d e).
  { pose proof (tr_groups _ _ _ _ _ _ _ _ _ _ _ _ _ _ T) as Hg.
    assert (Q : forall e m, emits ms sd2 d e m -> emits ms sd1 d e m) by (unfold emits; rewrite Hg; auto).
    assert (Q' : forall e m, fissions ms sd2 d e m -> fissions ms sd1 d e m) by (unfold fissions; rewrite Hg; auto).
    exists e, m. split; [apply Q, Hem|]. split; [|constructor]. destruct Hf as ((a & Ha) & (b & Hb)). split; [exists a|exists b]; auto. }
  assert (Hu : useful ms sd2 d e) by (intros m' Hm'; apply (Hr e m m' Hem Hm')).
  destruct Hlt as [[A S] | [A S]].
  - apply (C92_absorption_lowers _ _ _ _ _ _ _ _ _ _ _ _ _ _ e 0%Z T B); [lia|exact Hp|exact Hu|]. right. left. auto.
  - apply (C92_absorption_lowers _ _ _ _ _ _ _ _ _ _ _ _ _ _ e (ms_cells ms - 1)%Z T B); [lia|exact Hp|exact Hu|]. right. right. auto.
Qed.
Print Assumptions C92_leakage_lowers.

(* A homogeneous reactor never exceeds the infinite medium of its material, and falls
   short of it as soon as it leaks. *)
Definition closed_in (sd : solverData R) : solverData R :=
  mkSolverData (sd_kind sd) (sd_acc sd) (sd_max sd) (sd_relax sd) [1; 1] (sd_heatbc sd) (sd_energies sd) (sd_dir sd) (sd_eig sd).
Lemma closed_case ms sd d aL aR : diffusion_case ms sd d aL aR -> diffusion_case ms (closed_in sd) d 1 1.
Proof.
  intros []. split; try assumption; try lra. unfold albedos, closed_in in *. cbn [sd_albedo]. destruct (ms_geom ms); split; reflexivity.
Qed.
Theorem C92_below_infinite solver ms sd d aL aR M F k phi kinf f :
  diffusion_case ms sd d aL aR -> sd_dir sd = FORWARD -> homogeneous d (sd_energies sd) (ms_cells ms) -> chain_reaction ms sd d ->
  diffusionSystem PI ms sd = Ok (M, F) -> settles solver M F k phi -> infinite_medium d (sd_energies sd) kinf f ->
  k <= kinf /\ ((aL < 1 /\ 0 < tS d 0) \/ (aR < 1 /\ 0 < tS d (ms_cells ms)) -> k < kinf).
Proof.
  intros D Hdir Hh Hch E S I. pose proof (closed_case _ _ _ _ _ D) as D'.
  destruct (C91_diffusion (fun _ => fun b => b) ms (closed_in sd) d D' Hdir Hh Hch) as (M' & F' & E' & (s & X) & _).
  destruct (C91_diffusion (fun _ => s) ms (closed_in sd) d D' Hdir Hh Hch) as (M2 & F2 & E2 & _ & Z). rewrite E' in E2. injection E2 as <- <-.
  destruct (Z X) as (k' & f' & phi' & S' & _ & _ & U). destruct (U kinf f I) as (-> & _).
  assert (T : two_reactors ms ms sd (closed_in sd) d d aL aR 1 1 k k' phi phi').
  { split; auto; [exists solver, M, F; auto|exists (fun _ => s), M', F'; auto]. }
  apply (C92_leakage_lowers _ _ _ _ _ _ _ _ _ _ _ _ T Hch); apply D.
Qed.
Print Assumptions C92_below_infinite.

(* With c times as many fission neutrons from every fission the factor is c times as
   large and the flux the same. *)
Theorem C92_proportional ms1 ms2 sd1 sd2 d1 d2 aL1 aR1 aL2 aR2 k1 k2 phi1 phi2 c :
  two_reactors ms1 ms2 sd1 sd2 d1 d2 aL1 aR1 aL2 aR2 k1 k2 phi1 phi2 -> 0 < c ->
  let n := ms_cells ms2 in let en := sd_energies sd2 in
  aL1 = aL2 -> aR1 = aR2 ->
  (forall m, (0 <= m < n)%Z -> tdx d1 m = tdx d2 m /\ tV d1 m = tV d2 m) -> (forall l, (0 <= l <= n)%Z -> tS d1 l = tS d2 l) ->
  (forall e m, (0 <= e < en)%Z -> (0 <= m < n)%Z ->
     tD d1 e m = tD d2 e m /\ ttot d1 e m = ttot d2 e m /\ tchi d1 e m = tchi d2 e m /\
     tni d1 e m * tfis d1 e m = c * (tni d2 e m * tfis d2 e m) /\
     forall e', (0 <= e' < en)%Z -> tsc d1 e e' m = tsc d2 e e' m) ->
  k1 = c * k2 /\ forall i, (0 <= i < n * en)%Z -> vat phi1 i = vat phi2 i.
Proof.
  intros [D1 D2 H1 H2 Hc Hg (s1 & M1 & F1 & E1 & S1) (s2 & M2 & F2 & E2 & S2)] Pc n en HL HR Hgeo Harea Hx. subst aL1 aR1.
  destruct (c_dims ms1 ms2 sd1 sd2 d1 d2 aL2 aR2 aL2 aR2 M1 F1 M2 F2 D1 D2 H1 H2 Hc Hg E1 E2) as ((A1 & A2 & A3 & A4) & B1 & B2 & B3 & B4). fold n en in A1, A2, A3, A4, B1, B2, B3, B4.
  pose proof (c_M1 ms1 ms2 sd1 sd2 d1 aL2 aR2 M1 F1 D1 H1 Hc Hg E1) as (_ & _ & X1). pose proof (c_M2 ms2 sd2 d2 aL2 aR2 M2 F2 D2 H2 E2) as (_ & _ & X2). fold n en in X1, X2.
  pose proof (dcs_cells _ _ _ _ _ D2) as Hn. fold n in Hn.
  assert (Ed : forall e m, (0 <= e < en)%Z -> (0 <= m < n - 1)%Z -> dif d1 e m = dif d2 e m).
  { intros e m He Hm. unfold dif. destruct (Hx e m He ltac:(lia)) as (-> & _). destruct (Hx e (m + 1)%Z He ltac:(lia)) as (-> & _).
    destruct (Hgeo m ltac:(lia)) as [-> _]. destruct (Hgeo (m + 1)%Z ltac:(lia)) as [-> _]. rewrite Harea by lia. reflexivity. }
  assert (Er : forall e m, (0 <= e < en)%Z -> (0 <= m < n)%Z -> rem d1 e m = rem d2 e m).
  { intros e m He Hm. unfold rem. destruct (Hx e m He Hm) as (_ & -> & _). destruct (Hgeo m Hm) as [_ ->]. reflexivity. }
  assert (EM : forall i j, (0 <= i < n * en)%Z -> (0 <= j < n * en)%Z -> mat_at M1 i j = mat_at M2 i j).
  { intros i j Hi Hj. destruct (idx_decode n en i ltac:(lia) Hi) as (e & m & He & Hm & ->). destruct (idx_decode n en j ltac:(lia) Hj) as (e' & m' & He' & Hm' & ->).
    pose proof (X1 e m e' m' He Hm He' Hm') as Y1. pose proof (X2 e m e' m' He Hm He' Hm') as Y2. unfold blk in Y1, Y2. rewrite Y1, Y2.
    unfold lossB, tri. destruct (Hx e' m He' Hm) as (_ & _ & _ & _ & Hsc). rewrite (Hsc e He). destruct (Hgeo m Hm) as [Ex ->].
    replace (dgA ms1 d1 aL2 aR2 e m) with (dgA ms2 d2 aL2 aR2 e m).
    - destruct (e' =? e)%Z; [|reflexivity]. destruct (Z.eqb_spec m' (m - 1)); [rewrite Ed by lia; reflexivity|]. destruct (Z.eqb_spec m' (m + 1)); [rewrite Ed by lia; reflexivity|reflexivity].
    - unfold dgA. rewrite Hc. fold n. destruct (Hx e m He Hm) as (ED & _). destruct (Z.eqb_spec m 0) as [Em | N0].
      + rewrite Em in *. rewrite ED, Ex, Ed, Er, Harea by lia. reflexivity.
      + destruct (Z.eqb_spec m (n - 1)) as [Em | N1].
        * rewrite Em in *. rewrite ED, Ex, Ed, Er, Harea by lia. reflexivity.
        * unfold dgI. rewrite !Ed, Er by lia. reflexivity. }
  assert (EF : forall i j, (0 <= i < n * en)%Z -> (0 <= j < n * en)%Z -> mat_at F1 i j = c * mat_at F2 i j).
  { intros i j Hi Hj. destruct (idx_decode n en i ltac:(lia) Hi) as (e & m & He & Hm & ->). destruct (idx_decode n en j ltac:(lia) Hj) as (e' & m' & He' & Hm' & ->).
    pose proof (dcs_cells _ _ _ _ _ D1) as K1. destruct D1 as [Hn1 Hen1 Hdata1 Hal1 HaL1 HaR1 _ _ _ _ _ _ _ _ _].
    destruct (fission_entries ms1 sd1 d1 aL2 aR2 Hn1 Hen1 Hdata1 Hal1 HaL1 H1) as (M' & F' & E' & _ & _ & Q1). rewrite E1 in E'. injection E' as <- <-.
    destruct D2 as [Hn2 Hen2 Hdata2 Hal2 HaL2 HaR2 _ _ _ _ _ _ _ _ _].
    destruct (fission_entries ms2 sd2 d2 aL2 aR2 Hn2 Hen2 Hdata2 Hal2 HaL2 H2) as (M' & F' & E' & _ & _ & Q2). rewrite E2 in E'. injection E' as <- <-.
    rewrite Hc, Hg in Q1. fold n en in Q1, Q2. rewrite Q1, Q2 by auto. destruct (m' =? m)%Z; [|ring].
    destruct (Hx e m He Hm) as (_ & _ & -> & _). destruct (Hx e' m He' Hm) as (_ & _ & _ & -> & _). destruct (Hgeo m Hm) as [_ ->]. ring. }
  assert (Q : mode M2 F2 (k1 / c) phi1).
  { destruct S1 as ((K & L & N & (i & Hi & Hne) & Eq) & _). rewrite A1 in Eq. rewrite A2 in L, N. rewrite A3 in Hi.
    assert (FF : forall i, (0 <= i < n * en)%Z -> vat (mvmul F1 phi1) i = c * vat (mvmul F2 phi1) i).
    { intros l Hl. rewrite !mvmul_at, A4, B4, <- rsum_scal. apply rsum_ext. intros j Hj. rewrite EF by auto. ring. }
    split; [apply Rdiv_lt_0_compat; assumption|]. split; [lia|]. split; [rewrite B2; exact N|]. split.
    - exists i. rewrite B3. split; [exact Hi|]. intros Z. apply Hne. rewrite FF, Z by exact Hi. ring.
    - rewrite B1. intros l Hl. pose proof (Eq l Hl) as Y. rewrite FF in Y by exact Hl. rewrite mvmul_at, A2 in Y. rewrite mvmul_at, B2.
      rewrite (rsum_ext 0 (n * en) _ (fun j => mat_at M1 l j * vat phi1 j)) by (intros j Hj; rewrite EM by auto; reflexivity).
      rewrite Y. field. lra. }
  destruct S2 as ((_ & L2 & _) & N2 & _ & U & _). destruct (U _ _ Q) as (Ek & b & Pb & Eb). rewrite B2 in Eb, L2.
  split; [apply (Rmult_eq_compat_l c) in Ek; rewrite <- Ek; field; lra|].
  assert (b = 1).
  { destruct S1 as ((_ & L1 & _) & N1 & _). rewrite A2 in L1. change (rsum 0 (vlen phi1) (fun i => Rabs (vat phi1 i)) = 1) in N1.
    change (rsum 0 (vlen phi2) (fun i => Rabs (vat phi2 i)) = 1) in N2. rewrite L1 in N1. rewrite L2 in N2.
    rewrite (rsum_ext 0 (n * en) _ (fun i => b * Rabs (vat phi2 i))), rsum_scal, N2 in N1; [lra|].
    intros i Hi. rewrite (Eb i Hi), Rabs_mult, (Rabs_pos_eq b) by lra. reflexivity. }
  subst b. intros i Hi. rewrite (Eb i Hi). ring.
Qed.
Print Assumptions C92_proportional.

(* ---------- the hypotheses are met ---------- *)

(* the slab of C86 and C91 with thermal total cross section x and thermal fission y *)
Definition tuned_material (x y : R) : material R :=
  mkMaterial "m" 2 20 0 (mzeros 0 0) (mzeros 0 0) (vzeros 0) None
    [[1]; [x]] [[0]; [y]] [[1]; [1]] [[1 / 4]; [1 / 2]; [0]; [1 / 2]] [[2]; [2]] [[1]; [0]].
Definition tuned (x y : R) : mesh R :=
  mkMesh (mkvec 4 (fun i => IZR i / 100)) SLAB 3 2 [tuned_material x y; tuned_material x y; tuned_material x y] 1 1.
Definition edge_solver (a : R) : solverData R := mkSolverData DIFFUSION (1 / 1000) 100 1 [a; a] [] 2 FORWARD FUNDAMENTAL.

Lemma tuned_ready x y : ready (tuned x y).
Proof.
  repeat split; cbn; try lia; try congruence.
  all: assert (m = 0 \/ m = 1 \/ m = 2)%Z as [->|[->| ->]] by (cbn in *; lia);
    change (Z.to_nat 1) with 1%nat; change (Z.to_nat 2) with 2%nat; cbn;
    try reflexivity; try (right; unfold zlen; cbn; lia); unfold zlen; cbn; lia.
Qed.
Lemma tuned_tables x y : let d := mesh_tables (tuned x y) in
  forall m, (0 <= m < 3)%Z ->
    (forall e, (0 <= e < 2)%Z -> tD d e m = 1 /\ tni d e m = 2) /\ ttot d 0 m = 1 /\ ttot d 1 m = x /\
    tfis d 0 m = 0 /\ tfis d 1 m = y /\ tchi d 0 m = 1 /\ tchi d 1 m = 0 /\
    tsc d 0 0 m = 1 / 4 /\ tsc d 0 1 m = 1 / 2 /\ tsc d 1 0 m = 0 /\ tsc d 1 1 m = 1 / 2 /\
    tdx d m = 1 /\ tS d m = 1 /\ tS d (m + 1) = 1 /\ tV d m = 1.
Proof.
  intros d m Hm.
  assert (Hc : forall c t, law_value (T := R) [c] t = c) by (intros; rewrite law_value_R; exact (eq_trans (rsum_one 0 _) (Rmult_1_r c))).
  assert (Hmat : cell_material (tuned x y) m = tuned_material x y).
  { assert (m = 0 \/ m = 1 \/ m = 2)%Z as [->|[->| ->]] by lia; reflexivity. }
  cbn [d mesh_tables tD ttot tsc tfis tni tchi tdx tS tV]. unfold law_at, law_at0, law_at. rewrite Hmat.
  cbn [tuned_material mt_diff mt_totXS mt_scatt mt_fisXS mt_ni mt_chi mt_temp tuned ms_groups ms_geom ms_bounds vat].
  split.
  - intros e He. assert (e = 0 \/ e = 1)%Z as [->| ->] by lia; [change (Z.to_nat 0) with 0%nat|change (Z.to_nat 1) with 1%nat]; cbn [nth]; rewrite !Hc; auto.
  - change (Z.to_nat (0 + 0 * 2)) with 0%nat. change (Z.to_nat (1 + 0 * 2)) with 1%nat. change (Z.to_nat (0 + 1 * 2)) with 2%nat. change (Z.to_nat (1 + 1 * 2)) with 3%nat.
    change (Z.to_nat 0) with 0%nat. change (Z.to_nat 1) with 1%nat. cbn [nth]. rewrite !Hc. rewrite plus_IZR. cbn. repeat split; lra.
Qed.
Lemma tuned_area x y k : (0 <= k <= 3)%Z -> tS (mesh_tables (tuned x y)) k = 1.
Proof.
  intros Hk. destruct (Z.eq_dec k 3) as [-> | Hne].
  - destruct (tuned_tables x y 2 ltac:(lia)) as (_ & _ & _ & _ & _ & _ & _ & _ & _ & _ & _ & _ & _ & B & _). exact B.
  - destruct (tuned_tables x y k ltac:(lia)) as (_ & _ & _ & _ & _ & _ & _ & _ & _ & _ & _ & _ & B & _). exact B.
Qed.
Lemma tuned_case x y a : 1 <= x -> 0 < y -> 0 <= a <= 1 -> diffusion_case (tuned x y) (edge_solver a) (mesh_tables (tuned x y)) a a.
Proof.
  intros Hx Hy Ha. split; cbn [tuned edge_solver ms_cells sd_energies]; try lia; try lra.
  - exact (ready_data (tuned x y) (tuned_ready x y)).
  - split; reflexivity.
  - intros e m He Hm. destruct (tuned_tables x y m Hm) as (A & _). destruct (A e He) as [-> _]. lra.
  - intros m Hm. destruct (tuned_tables x y m Hm) as (_ & _ & _ & _ & _ & _ & _ & _ & _ & _ & _ & B & _). rewrite B. lra.
  - intros k Hk. rewrite tuned_area by exact Hk. lra.
  - intros k Hk. rewrite tuned_area by lia. lra.
  - intros m Hm. destruct (tuned_tables x y m Hm) as (_ & _ & _ & _ & _ & _ & _ & _ & _ & _ & _ & _ & _ & _ & B). rewrite B. lra.
  - intros e e' m He He' Hm. destruct (tuned_tables x y m Hm) as (_ & _ & _ & _ & _ & _ & _ & S00 & S01 & S10 & S11 & _). two_cases e; two_cases e'; lra.
  - intros e m He Hm. destruct (tuned_tables x y m Hm) as (_ & T0 & T1 & _ & _ & _ & _ & S00 & S01 & S10 & S11 & _).
    rewrite !rsum_first by lia. rewrite rsum_empty by lia. cbn [Z.add Pos.add]. two_cases e; lra.
  - intros e m He Hm. destruct (tuned_tables x y m Hm) as (_ & _ & _ & _ & _ & X0 & X1 & _). two_cases e; lra.
  - intros e m He Hm. destruct (tuned_tables x y m Hm) as (A & _ & _ & F0 & F1 & _). destruct (A e He) as (_ & ->). two_cases e; lra.
Qed.
Lemma tuned_facts x y a m : 0 < y -> (0 <= m < 3)%Z ->
  (forall e, emits (tuned x y) (edge_solver a) (mesh_tables (tuned x y)) e m <-> e = 0%Z) /\
  (forall e, fissions (tuned x y) (edge_solver a) (mesh_tables (tuned x y)) e m <-> e = 1%Z) /\
  scatters_to (mesh_tables (tuned x y)) 2 3 0 1.
Proof.
  intros Hy Hm. destruct (tuned_tables x y m Hm) as (A & _ & _ & F0 & F1 & X0 & X1 & _ & S01 & _). unfold emits, fissions. cbn [tuned edge_solver ms_cells sd_energies].
  split; [|split].
  - intros e. split; [intros (He & _ & H); two_cases e; [reflexivity|lra]|intros ->; repeat split; try lia; lra].
  - intros e. split.
    + intros (He & _ & H). two_cases e; [rewrite F0, Rmult_0_r in H; lra|reflexivity].
    + intros ->. destruct (A 1%Z ltac:(lia)) as (_ & ->). rewrite F1. repeat split; try lia; lra.
  - apply (scatters_on _ _ _ 0 0 1 m)%Z; [constructor|lia|lia|lia|lra].
Qed.
Lemma tuned_chain x y a : 0 < y -> chain_reaction (tuned x y) (edge_solver a) (mesh_tables (tuned x y)).
Proof.
  intros Hy. split.
  - exists 0%Z. destruct (tuned_facts x y a 0 Hy ltac:(lia)) as (E & F & _). split; [exists 0%Z; apply E|exists 1%Z; apply F]; reflexivity.
  - intros e0 m0 m He ((e1 & _ & Hm & _) & _). pose proof (proj1 (proj2 He)) as Hm0. cbn [tuned ms_cells] in Hm, Hm0.
    destruct (tuned_facts x y a m0 Hy Hm0) as (E & _ & S). destruct (tuned_facts x y a m Hy Hm) as (_ & F & _).
    exists 1%Z. apply E in He. subst e0. split; [exact S|apply F; reflexivity].
Qed.
Lemma tuned_groups x y a : 0 < y -> populated (tuned x y) (edge_solver a) (mesh_tables (tuned x y)) 1 /\ useful (tuned x y) (edge_solver a) (mesh_tables (tuned x y)) 1 /\
  useful (tuned x y) (edge_solver a) (mesh_tables (tuned x y)) 0.
Proof.
  intros Hy. destruct (tuned_facts x y a 0 Hy ltac:(lia)) as (E & F & S). split; [|split].
  - exists 0%Z, 0%Z. split; [apply E; reflexivity|]. split; [split; [exists 0%Z; apply E|exists 1%Z; apply F]; reflexivity|exact S].
  - intros m ((e1 & _ & Hm & _) & _). cbn [tuned ms_cells] in Hm. destruct (tuned_facts x y a m Hy Hm) as (_ & F' & _). exists 1%Z. split; [constructor|apply F'; reflexivity].
  - intros m ((e1 & _ & Hm & _) & _). cbn [tuned ms_cells] in Hm. destruct (tuned_facts x y a m Hy Hm) as (_ & F' & _). exists 1%Z. split; [exact S|apply F'; reflexivity].
Qed.
Lemma tuned_settles x y a : 1 <= x -> 0 < y -> 0 <= a <= 1 -> exists k phi solver M F, diffusionSystem PI (tuned x y) (edge_solver a) = Ok (M, F) /\ settles solver M F k phi.
Proof.
  intros Hx Hy Ha. destruct (tuned_chain x y a Hy) as [Hs Hr].
  destruct (C86_diffusion (fun _ => fun b => b) _ _ _ _ _ (tuned_case x y a Hx Hy Ha) eq_refl Hs Hr) as (M & F & E & (s & X) & _).
  destruct (C86_diffusion (fun _ => s) _ _ _ _ _ (tuned_case x y a Hx Hy Ha) eq_refl Hs Hr) as (M' & F' & E' & _ & S). rewrite E in E'. injection E' as <- <-.
  destruct (S X) as (k & phi & S'). exists k, phi, (fun _ => s), M, F. auto.
Qed.
Lemma tuned_pair x1 y1 a1 x2 y2 a2 k1 k2 phi1 phi2 : 1 <= x1 -> 0 < y1 -> 0 <= a1 <= 1 -> 1 <= x2 -> 0 < y2 -> 0 <= a2 <= 1 ->
  (exists solver M F, diffusionSystem PI (tuned x1 y1) (edge_solver a1) = Ok (M, F) /\ settles solver M F k1 phi1) ->
  (exists solver M F, diffusionSystem PI (tuned x2 y2) (edge_solver a2) = Ok (M, F) /\ settles solver M F k2 phi2) ->
  two_reactors (tuned x1 y1) (tuned x2 y2) (edge_solver a1) (edge_solver a2) (mesh_tables (tuned x1 y1)) (mesh_tables (tuned x2 y2)) a1 a1 a2 a2 k1 k2 phi1 phi2.
Proof. intros. split; auto using tuned_case. Qed.
Lemma tuned_no_better x1 y1 a1 x2 y2 a2 : x2 <= x1 -> y1 <= y2 -> a1 <= a2 ->
  no_better 3 2 (mesh_tables (tuned x1 y1)) (mesh_tables (tuned x2 y2)) a1 a1 a2 a2.
Proof.
  intros Hx Hy Ha. split; try assumption.
  - intros e m He Hm. destruct (tuned_tables x1 y1 m Hm) as (A & _). destruct (tuned_tables x2 y2 m Hm) as (B & _). destruct (A e He) as [-> _]. destruct (B e He) as [-> _]. reflexivity.
  - intros m Hm. destruct (tuned_tables x1 y1 m Hm) as (_ & _ & _ & _ & _ & _ & _ & _ & _ & _ & _ & -> & _). destruct (tuned_tables x2 y2 m Hm) as (_ & _ & _ & _ & _ & _ & _ & _ & _ & _ & _ & -> & _). reflexivity.
  - intros k Hk. rewrite !tuned_area by exact Hk. reflexivity.
  - intros m Hm. destruct (tuned_tables x1 y1 m Hm) as (_ & _ & _ & _ & _ & _ & _ & _ & _ & _ & _ & _ & _ & _ & ->). destruct (tuned_tables x2 y2 m Hm) as (_ & _ & _ & _ & _ & _ & _ & _ & _ & _ & _ & _ & _ & _ & ->). reflexivity.
  - intros e m He Hm. destruct (tuned_tables x1 y1 m Hm) as (_ & A0 & A1 & _). destruct (tuned_tables x2 y2 m Hm) as (_ & B0 & B1 & _). two_cases e; lra.
  - intros e e' m He He' Hm. destruct (tuned_tables x1 y1 m Hm) as (_ & _ & _ & _ & _ & _ & _ & A & B & C & D & _). destruct (tuned_tables x2 y2 m Hm) as (_ & _ & _ & _ & _ & _ & _ & A' & B' & C' & D' & _).
    two_cases e; two_cases e'; lra.
  - intros e m He Hm. destruct (tuned_tables x1 y1 m Hm) as (_ & _ & _ & _ & _ & A & B & _). destruct (tuned_tables x2 y2 m Hm) as (_ & _ & _ & _ & _ & A' & B' & _). two_cases e; lra.
  - intros e m He Hm. destruct (tuned_tables x1 y1 m Hm) as (N & _ & _ & A & B & _). destruct (tuned_tables x2 y2 m Hm) as (N' & _ & _ & A' & B' & _). destruct (N e He) as [_ ->]. destruct (N' e He) as [_ ->]. two_cases e; lra.
Qed.

(* black boundaries, reflecting ones, more absorption and more fission, three pairs *)
Example C92_met : exists k0 k1 kx ky,
  (exists phi solver M F, diffusionSystem PI (tuned 1 1) (edge_solver 0) = Ok (M, F) /\ settles solver M F k0 phi) /\
  (exists phi solver M F, diffusionSystem PI (tuned 1 1) (edge_solver 1) = Ok (M, F) /\ settles solver M F k1 phi) /\
  (exists phi solver M F, diffusionSystem PI (tuned 2 1) (edge_solver 0) = Ok (M, F) /\ settles solver M F kx phi) /\
  (exists phi solver M F, diffusionSystem PI (tuned 1 3) (edge_solver 0) = Ok (M, F) /\ settles solver M F ky phi) /\
  kx < k0 /\ k0 < k1 /\ k0 < ky /\ ky = 3 * k0.
Proof.
  destruct (tuned_settles 1 1 0 ltac:(lra) ltac:(lra) ltac:(lra)) as (k0 & p0 & S0). destruct (tuned_settles 1 1 1 ltac:(lra) ltac:(lra) ltac:(lra)) as (k1 & p1 & S1).
  destruct (tuned_settles 2 1 0 ltac:(lra) ltac:(lra) ltac:(lra)) as (kx & px & Sx). destruct (tuned_settles 1 3 0 ltac:(lra) ltac:(lra) ltac:(lra)) as (ky & py & Sy).
  exists k0, k1, kx, ky. split; [exists p0; exact S0|]. split; [exists p1; exact S1|]. split; [exists px; exact Sx|]. split; [exists py; exact Sy|].
  split; [|split; [|split]].
  - pose proof (tuned_pair 2 1 0 1 1 0 kx k0 px p0 ltac:(lra) ltac:(lra) ltac:(lra) ltac:(lra) ltac:(lra) ltac:(lra) Sx S0) as T.
    apply (C92_absorption_lowers _ _ _ _ _ _ _ _ _ _ _ _ _ _ 1%Z 0%Z T); [apply tuned_no_better; lra|cbn; lia|apply tuned_groups; lra|apply tuned_groups; lra|].
    left. destruct (tuned_tables 2 1 0 ltac:(lia)) as (_ & _ & -> & _). destruct (tuned_tables 1 1 0 ltac:(lia)) as (_ & _ & -> & _). lra.
  - pose proof (tuned_pair 1 1 0 1 1 1 k0 k1 p0 p1 ltac:(lra) ltac:(lra) ltac:(lra) ltac:(lra) ltac:(lra) ltac:(lra) S0 S1) as T.
    apply (C92_leakage_lowers _ _ _ _ _ _ _ _ _ _ _ _ T); [apply tuned_chain; lra|lra|lra|]. left. split; [lra|]. rewrite tuned_area by lia. lra.
  - pose proof (tuned_pair 1 1 0 1 3 0 k0 ky p0 py ltac:(lra) ltac:(lra) ltac:(lra) ltac:(lra) ltac:(lra) ltac:(lra) S0 Sy) as T.
    apply (C92_fission_raises _ _ _ _ _ _ _ _ _ _ _ _ _ _ 0%Z 1%Z 0%Z T); [apply tuned_no_better; lra| |apply tuned_groups; lra|apply tuned_groups; lra|].
    + apply tuned_facts; [lra|lia|reflexivity].
    + destruct (tuned_tables 1 1 0 ltac:(lia)) as (A & _ & _ & _ & -> & _). destruct (tuned_tables 1 3 0 ltac:(lia)) as (B & _ & _ & _ & -> & _).
      destruct (A 1%Z ltac:(lia)) as [_ ->]. destruct (B 1%Z ltac:(lia)) as [_ ->]. lra.
  - pose proof (tuned_pair 1 3 0 1 1 0 ky k0 py p0 ltac:(lra) ltac:(lra) ltac:(lra) ltac:(lra) ltac:(lra) ltac:(lra) Sy S0) as T.
    refine (proj1 (C92_proportional _ _ _ _ _ _ _ _ _ _ _ _ _ _ 3 T ltac:(lra) eq_refl eq_refl _ _ _)); cbn [tuned ms_cells edge_solver sd_energies].
    + pose proof (tuned_no_better 1 1 0 1 3 0 ltac:(lra) ltac:(lra) ltac:(lra)) as [_ B _ C _ _ _ _ _ _]. intros m Hm. split; symmetry; auto.
    + intros l Hl. rewrite !tuned_area by exact Hl. reflexivity.
    + intros e m He Hm. destruct (tuned_tables 1 3 m Hm) as (N & T0 & T1 & F0 & F1 & X0 & X1 & A & B & C & D & _). destruct (tuned_tables 1 1 m Hm) as (N' & T0' & T1' & F0' & F1' & X0' & X1' & A' & B' & C' & D' & _).
      destruct (N e He) as [-> ->]. destruct (N' e He) as [-> ->]. two_cases e; (split; [reflexivity|]; split; [congruence|]; split; [congruence|]; split; [lra|]); intros e' He'; two_cases e'; congruence.
Qed.
(* and the bound by the infinite medium: 8/3 *)
Example C92_below_met : exists k phi solver M F, diffusionSystem PI two_slab (two_solver FORWARD) = Ok (M, F) /\ settles solver M F k phi /\ k < 8 / 3.
Proof.
  assert (Hc : chain_reaction two_slab (two_solver FORWARD) (mesh_tables two_slab)) by exact mirror_chain.
  destruct Hc as [Hs Hr].
  destruct (C86_diffusion (fun _ => fun b => b) _ _ _ _ _ (two_case FORWARD) eq_refl Hs Hr) as (M & F & E & (s & X) & _).
  destruct (C86_diffusion (fun _ => s) _ _ _ _ _ (two_case FORWARD) eq_refl Hs Hr) as (M' & F' & E' & _ & S). rewrite E in E'. injection E' as <- <-.
  destruct (S X) as (k & phi & S'). exists k, phi, (fun _ => s), M, F. split; [exact E|]. split; [exact S'|].
  apply (C92_below_infinite (fun _ => s) two_slab (two_solver FORWARD) (mesh_tables two_slab) 0 0 M F k phi (8 / 3) (fun _ => 1)
    (two_case FORWARD) eq_refl mirror_homogeneous (conj Hs Hr) E S' mirror_infinite).
  left. split; [lra|]. destruct (two_tables 0 ltac:(lia)) as (_ & _ & _ & _ & _ & _ & _ & _ & _ & _ & B & _). rewrite B. lra.
Qed.
