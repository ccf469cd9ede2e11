(* Property theorems C103: a coupled calculation does not depend on the unit of length. *)
From Coq Require Import String ZArith List Bool Lia Reals Lra.
From Verif Require Import Base BaseLemmas NumR LinAlg Blocks ModelNumTools ModelEigen ModelMesh ModelReactor
  ModelDiffusion ModelHeat ModelSpectrum ModelKinetics ModelOutput ModelCalculation ProofsMesh ProofsDiffusion ProofsPower ProofsHeat ProofsHeatLoop ProofsHeatConstant
  ProofsSpectrum ProofsSpectrumR ProofsCoupled ProofsFrame.
From Verif Require Import PropsDiffusion ProofsUncoupled.
From Verif Require Import ProofsDiffusionR ProofsPowerB PropsHeat PropsHeatConstant PropsCalculation PropsScale PropsScaleT PropsScaleH.
From Verif Require Import PropsSymmetry.
From Verif Require Import PropsUncoupled.
From Verif Require PropsSpectrum PropsSpectrumB.
Import ListNotations.
Local Open Scope R_scope.

(* the same main parameter: the factors, or the temperatures cell by cell *)
Definition same_param (p q : param R) : Prop :=
  match p, q with
  | PDouble x, PDouble y => y = x
  | PVector x, PVector y => vlen y = vlen x /\ forall i, (0 <= i < vlen x)%Z -> vat y i = vat x i
  | _, _ => False
  end.

Lemma same_difference p q p' q' : same_param p p' -> same_param q q' -> getDifference p' q' = getDifference p q.
Proof.
  intros Hp Hq. destruct p as [x|x|x], p' as [x'|x'|x']; try contradiction; destruct q as [y|y|y], q' as [y'|y'|y']; try contradiction; try reflexivity; cbn in Hp, Hq |- *.
  - rewrite Hp, Hq. reflexivity.
  - destruct Hp as (L & E), Hq as (L' & E'). rewrite L, L'. destruct (Z.eqb_spec (vlen x) (vlen y)) as [D|D]; [|reflexivity]. f_equal.
    unfold list_of_vec. cbn [vlen vat]. apply map_ext_in. intros k Hk. apply in_seq in Hk. rewrite E, E' by lia. reflexivity.
Qed.

Section Coupled.
Variable solver : mat R -> vec R -> vec R.
Variable sort : list (R * vec R) -> list (R * vec R).
Variable eig : mat R -> mat R -> vec (R * R) * mat (R * R).
Variable croots : list R -> list (R * R).
Variables (E3 Ki3 ex sq : R -> R).
Let solve := solve1 PI solver sort eig croots E3 Ki3 ex sq.
Let half := half_step PI solver sort eig croots E3 Ki3 ex sq.
Let run := coupled_run PI solver sort eig croots E3 Ki3 ex sq.

Variables (r r' : reactor R) (s : R).
Let ms := rx_mesh r.
Let ms' := rx_mesh r'.
Let n := ms_cells ms.
Let en := ms_groups ms.
Let v := s ^ dimension (ms_geom ms).
(* the watts are those of the part of the reactor the mesh describes: of one unit of area
   of a slab and of one unit of length of a cylinder *)
Let w := s ^ 3 / v.

(* a and a' are reactors that differ from r and r' in results and temperatures only, and
   these are the same up to the unit *)
Record alike (a a' : reactor R) : Prop := {
  al_input : same_reactor r a;
  al_input' : same_reactor r' a';
  al_temp : forall m, (0 <= m < n)%Z -> temp (rx_mesh a') m = temp (rx_mesh a) m;
  al_heat : forall m, (0 <= m < n)%Z -> stored_heat (rx_mesh a') m = stored_heat (rx_mesh a) m / v;
  al_k : rx_fwd a' = rx_fwd a;
  al_flux : forall e m, (0 <= e < en)%Z -> (0 <= m < n)%Z -> stored_flux (rx_mesh a') e m = stored_flux (rx_mesh a) e m
}.

Hypothesis Hs : 0 < s.
Hypothesis Hre : rescaled s ms ms'.
Hypothesis Hhr : heat_rescaled s w ms ms'.
Hypothesis Hc : conducting ms.
Hypothesis Hc' : conducting ms'.

Lemma v_pos : 0 < v.
Proof using Hs. apply pow_lt, Hs. Qed.
Lemma w_pos : 0 < w.
Proof using Hs. unfold w. apply Rdiv_lt_0_compat; [apply pow_lt, Hs|apply v_pos]. Qed.

Lemma alike_rescaled a a' : alike a a' -> rescaled s (rx_mesh a) (rx_mesh a').
Proof using Hre.
  intros H. destruct (al_input _ _ H) as (S & _). destruct (al_input' _ _ H) as (S' & _). pose proof S as (b & g & c & e & _). pose proof S' as (b' & g' & c' & e' & _).
  destruct Hre as [G Hcl Hgr Hb Hl]. split; fold ms ms' in b, g, c, e, b', g', c', e'; [congruence|congruence|congruence|rewrite c, b, b'; exact Hb|].
  rewrite c. intros m Hm. cbn zeta. destruct (input_laws _ _ m S) as (_ & _ & -> & -> & -> & -> & -> & ->). destruct (input_laws _ _ m S') as (_ & _ & -> & -> & -> & -> & -> & ->).
  split; [apply (al_temp _ _ H m Hm)|]. apply (Hl m Hm).
Qed.
Lemma alike_heated a a' : alike a a' -> heat_rescaled s w (rx_mesh a) (rx_mesh a').
Proof using Hhr Hs.
  intros H. destruct (al_input _ _ H) as (S & _). destruct (al_input' _ _ H) as (S' & _). pose proof S as (b & g & c & e & _). pose proof S' as (b' & g' & c' & e' & _).
  destruct Hhr as [G Hcl Hb Hl]. split; fold ms ms' in b, g, c, e, b', g', c', e'; [congruence|congruence|rewrite c, b, b'; exact Hb|].
  rewrite c. intros m Hm. cbn zeta. destruct (input_laws _ _ m S) as (_ & -> & _). destruct (input_laws _ _ m S') as (_ & -> & _).
  split; [apply (al_temp _ _ H m Hm)|]. split; [apply (Hl m Hm)|]. pose proof (al_heat _ _ H m Hm) as E. unfold stored_heat in E. rewrite E. unfold w.
  pose proof v_pos. field. split; lra.
Qed.
Lemma input_conducting m1 m2 : same_input m1 m2 -> conducting m1 -> conducting m2.
Proof using.
  intros S (A & B & C & D & E). pose proof S as (b & g & c & e & K). unfold conducting. rewrite g, c, b. unfold zlen in *. rewrite (keeps_length _ _ _ K).
  do 4 (split; [assumption|]). intros m Hm. destruct (input_laws _ _ m S) as (_ & -> & _). apply E, Hm.
Qed.

(* sd and sd' are the same solver in the two units: what one does to a the other does to a' *)
Definition carries (sd sd' : solverData R) : Prop := forall rel par a a' b p, alike a a' -> half sd rel par a b p ->
  exists b' p', half sd' rel par a' b' p' /\ alike b b' /\ same_param p p'.

(* ---------- the heat solver ---------- *)

Section Heat.
Variables (sd sd' : solverData R) (L L' Q Q' : bc).
Hypothesis Hk : sd_kind sd = HEAT.
Hypothesis Hk' : sd_kind sd' = HEAT.
Hypothesis Hgm : good_material ms.
Hypothesis Hgg : good_geometry ms.
Hypothesis HX : exact solver.
Hypothesis HB : boundaries sd L Q.
Hypothesis HB' : boundaries sd' L' Q'.
Hypothesis Hwp : well_posed ms L Q.
Hypothesis HL : bc_rescaled s w L L'.
Hypothesis HQ : bc_rescaled s w Q Q'.
Hypothesis Hacc : sd_acc sd' = sd_acc sd.
Hypothesis Hmax : sd_max sd' = sd_max sd.

Lemma heat_old a o b : heatSolve PI solver sd a = Ok (o, b) -> getTemperatures (rx_mesh a) "C" = Ok o.
Proof using.
  unfold heatSolve. intros H. destruct (bind_ok_inv _ _ _ H) as (hc & _ & H1). destruct (bind_ok_inv _ _ _ H1) as (o' & E & H2).
  destruct (bind_ok_inv _ _ _ H2) as ([m|] & _ & H3); [|discriminate]. injection H3 as <- <-. exact E.
Qed.

Lemma heat_results a a' o b : alike a a' -> heatSolve PI solver sd a = Ok (o, b) -> exists o' b', heatSolve PI solver sd' a' = Ok (o', b') /\ alike b b' /\
  forall i, (0 <= i < n)%Z -> vat o' i = vat o i.
Proof using Hs Hhr Hc Hc' Hgm Hgg HX HB HB' Hwp HL HQ Hacc Hmax.
  intros H E. pose proof (al_input _ _ H) as (S & Sr). pose proof (al_input' _ _ H) as (S' & Sr'). pose proof S as (b1 & g1 & c1 & e1 & _). fold ms in S, b1, g1, c1, e1.
  pose proof (input_conducting _ _ S Hc) as Ca. pose proof (input_conducting _ _ S' Hc') as Ca'.
  assert (Ga : good_material (rx_mesh a)).
  { intros i t Hi. rewrite c1 in Hi. destruct (input_laws _ _ i S) as (_ & -> & _). apply Hgm, Hi. }
  assert (Gg : good_geometry (rx_mesh a)) by (unfold good_geometry; rewrite b1; exact Hgg).
  assert (Wa : well_posed (rx_mesh a) L Q) by (unfold well_posed, is_slab in *; rewrite g1; exact Hwp).
  pose proof (C99_heat_units solver sd sd' L L' Q Q' s w a a' Ca Ca' Ga Gg HB HB' HX Wa Hs w_pos (alike_heated _ _ H) HL HQ Hacc Hmax) as R. cbv zeta in R. rewrite E in R.
  destruct (heatSolve PI solver sd' a') as [[o' b']|x|x|x] eqn:E'; try contradiction. exists o', b'. split; [reflexivity|]. rewrite c1 in R. fold n in R.
  destruct (heatSolve_only _ _ _ _ _ _ E) as (m1 & Eb & O1). destruct (heatSolve_only _ _ _ _ _ _ E') as (m1' & Eb' & O1').
  split; [|intros i Hi; apply (R i Hi)]. pose proof O1 as (_ & _ & Kh & Kf & _). pose proof O1' as (_ & _ & Kh' & Kf' & _).
  split.
  - rewrite Eb. apply (same_reactor_trans r a); [apply H|]. apply only_temp_reactor, O1.
  - rewrite Eb'. apply (same_reactor_trans r' a'); [apply H|]. apply only_temp_reactor, O1'.
  - intros m Hm. apply (R m Hm).
  - intros m Hm. pose proof (al_heat _ _ H m Hm) as F. unfold stored_heat in *. rewrite Eb, Eb'. cbn [rx_mesh with_mesh]. rewrite (keeps_cell _ _ _ m Kh), (keeps_cell _ _ _ m Kh'). exact F.
  - rewrite Eb, Eb'. apply (al_k _ _ H).
  - intros e m He Hm. pose proof (al_flux _ _ H e m He Hm) as F. unfold stored_flux in *. rewrite Eb, Eb'. cbn [rx_mesh with_mesh]. rewrite (keeps_cell _ _ _ m Kf), (keeps_cell _ _ _ m Kf'). exact F.
Qed.

Lemma temps_like m1 m2 : conducting m1 -> conducting m2 -> ms_cells m1 = n -> ms_cells m2 = n -> (forall i, (0 <= i < n)%Z -> temp m2 i = temp m1 i) ->
  exists x y, getTemperatures m1 "C" = Ok x /\ getTemperatures m2 "C" = Ok y /\ same_param (PVector x) (PVector y).
Proof using.
  intros H1 H2 N1 N2 T. destruct (temps_ok m1 H1) as (x & E & Lx & Vx). destruct (temps_ok m2 H2) as (y & F & Ly & Vy). exists x, y. split; [exact E|]. split; [exact F|].
  split; [congruence|]. intros i Hi. rewrite Vx, Vy by lia. apply T. lia.
Qed.
Lemma alike_cells a a' : alike a a' -> ms_cells (rx_mesh a) = n /\ ms_cells (rx_mesh a') = n /\ conducting (rx_mesh a) /\ conducting (rx_mesh a').
Proof using Hre Hc Hc'.
  intros H. destruct (al_input _ _ H) as (S & _). destruct (al_input' _ _ H) as (S' & _). pose proof S as (_ & _ & c & _). pose proof S' as (_ & _ & c' & _).
  split; [exact c|]. split; [rewrite c'; apply (rs_cells _ _ _ Hre)|]. split; [exact (input_conducting _ _ S Hc)|exact (input_conducting _ _ S' Hc')].
Qed.

Lemma relaxed_heat par a a' o o' b : alike a a' -> vlen o = n -> vlen o' = n -> (forall i, (0 <= i < n)%Z -> vat o' i = vat o i) ->
  relaxTemperatures par o a = Ok b -> exists b', relaxTemperatures par o' a' = Ok b' /\ alike b b'.
Proof using Hre Hc Hc'.
  intros H Lo Lo' Ho E. destruct (alike_cells _ _ H) as (N & N' & C & C'). pose proof C as (_ & Hn & _ & Hm & _). pose proof C' as (_ & _ & _ & Hm' & _).
  destruct (relaxTemperatures_spec par o a ltac:(cbn; lia) Hm ltac:(congruence)) as (m1 & E1 & _ & _ & _ & _ & V1).
  destruct (relaxTemperatures_spec par o' a' ltac:(cbn; lia) Hm' ltac:(congruence)) as (m1' & E1' & _ & _ & _ & _ & V1').
  rewrite E in E1. injection E1 as ->. exists (with_mesh m1' a'). split; [exact E1'|].
  destruct (relaxTemperatures_only _ _ _ _ E) as (m2 & Eb & O1). apply (f_equal (fun z => rx_mesh z)) in Eb. cbn in Eb. subst m2.
  destruct (relaxTemperatures_only _ _ _ _ E1') as (m2 & Eb & O1'). apply (f_equal (fun z => rx_mesh z)) in Eb. cbn in Eb. subst m2.
  rewrite N in V1. rewrite N' in V1'. pose proof O1 as (_ & _ & Kh & Kf & _). pose proof O1' as (_ & _ & Kh' & Kf' & _). split.
  - apply (same_reactor_trans r a); [apply H|]. apply only_temp_reactor, O1.
  - apply (same_reactor_trans r' a'); [apply H|]. apply only_temp_reactor, O1'.
  - intros m Hi. cbn [rx_mesh with_mesh]. unfold temp. rewrite V1, V1' by exact Hi. cbn [set_temp mt_temp]. rewrite Ho by exact Hi. pose proof (al_temp _ _ H m Hi) as T. unfold temp in T. rewrite T. reflexivity.
  - intros m Hi. pose proof (al_heat _ _ H m Hi) as F. unfold stored_heat in *. cbn [rx_mesh with_mesh]. rewrite (keeps_cell _ _ _ m Kh), (keeps_cell _ _ _ m Kh'). exact F.
  - apply (al_k _ _ H).
  - intros e m He Hi. pose proof (al_flux _ _ H e m He Hi) as F. unfold stored_flux in *. cbn [rx_mesh with_mesh]. rewrite (keeps_cell _ _ _ m Kf), (keeps_cell _ _ _ m Kf'). exact F.
Qed.

Lemma heat_carries : carries sd sd'.
Proof using Hs Hre Hhr Hc Hc' Hk Hk' Hgm Hgg HX HB HB' Hwp HL HQ Hacc Hmax.
  intros rel par a a' b p H (o & a1 & E & P & Rl). unfold half, half_step. unfold solve1 in E. rewrite Hk in E.
  destruct (heat_results a a' o a1 H E) as (o' & a1' & E' & H1 & Ho). destruct (alike_cells _ _ H) as (N & N' & C & C').
  destruct (alike_cells _ _ H1) as (N1 & N1' & C1 & C1'). destruct (temps_like _ _ C1 C1' N1 N1' (al_temp _ _ H1)) as (x & y & Ex & Ey & Exy).
  assert (P' : p = PVector x) by (unfold mainParameter in P; rewrite Hk, Ex in P; injection P as <-; reflexivity). subst p.
  assert (Sv : solve1 PI solver sort eig croots E3 Ki3 ex sq sd' a' = Ok (o', a1')) by (unfold solve1; rewrite Hk'; exact E').
  assert (Pv : mainParameter sd' a1' = Ok (PVector y)) by (unfold mainParameter; rewrite Hk', Ey; reflexivity).
  destruct rel.
  - unfold relaxResults in Rl. rewrite Hk in Rl. pose proof (heat_old _ _ _ E) as T. destruct (temps_ok _ C) as (o1 & T1 & L1 & _). rewrite T in T1. injection T1 as <-.
    assert (L1' : vlen o' = n).
    { unfold heatSolve in E'. destruct (bind_ok_inv _ _ _ E') as (hc & _ & G1). destruct (bind_ok_inv _ _ _ G1) as (o2 & T2 & G2).
      destruct (bind_ok_inv _ _ _ G2) as ([m|] & _ & G3); [|discriminate]. injection G3 as -> _. destruct (temps_ok _ C') as (o3 & T3 & L3 & _). rewrite T2 in T3. injection T3 as <-. congruence. }
    destruct (relaxed_heat par a1 a1' o o' b H1 ltac:(congruence) L1' Ho Rl) as (b' & Eb & Hb).
    exists b', (PVector y). split; [|split; [exact Hb|exact Exy]]. exists o', a1'. split; [exact Sv|]. split; [exact Pv|]. unfold relaxResults. rewrite Hk'. exact Eb.
  - subst a1. exists a1', (PVector y). split; [|split; [exact H1|exact Exy]]. exists o', a1'. auto.
Qed.
End Heat.

(* ---------- the neutron solver ---------- *)

Section Neutrons.
Variable sd : solverData R.
Hypothesis Hk : sd_kind sd = TRANSPORT \/ sd_kind sd = DIFFUSION /\ sd_dir sd = FORWARD.
Hypothesis Hn : (n <= zlen (ms_mats ms))%Z.
(* the two calculations agree, whatever the temperatures are *)
Hypothesis Hsolve : forall a a', same_reactor r a -> same_reactor r' a' -> rescaled s (rx_mesh a) (rx_mesh a') ->
  results_in_unit v FORWARD n en (solve sd a) (solve sd a').

Lemma neutron_old a o b : solve sd a = Ok (o, b) -> getHeatSources (rx_mesh a) = Ok o.
Proof using Hk.
  unfold solve, solve1. intros H. destruct Hk as [K|[K D]]; rewrite K in H.
  - unfold spectrumSolve in H. destruct (bind_ok_inv _ _ _ H) as (o' & E & H1). destruct (bind_ok_inv _ _ _ H1) as ([[x M] F] & _ & H2).
    destruct (bind_ok_inv _ _ _ H2) as (vv & _ & H3). destruct (bind_ok_inv _ _ _ H3) as (e & _ & H4). destruct (bind_ok_inv _ _ _ H4) as (r1 & _ & H5). injection H5 as <- <-. exact E.
  - unfold diffusionSolve in H. destruct (bind_ok_inv _ _ _ H) as (o' & E & H1). destruct (bind_ok_inv _ _ _ H1) as (vv & _ & H2). destruct (bind_ok_inv _ _ _ H2) as ([M F] & _ & H3).
    destruct (bind_ok_inv _ _ _ H3) as (e & _ & H4). rewrite D in H4. destruct (bind_ok_inv _ _ _ H4) as (r1 & _ & H5). injection H5 as <- <-. exact E.
Qed.
Lemma neutron_frame a o b : solve sd a = Ok (o, b) -> same_reactor a b /\ keeps mt_temp (rx_mesh a) (rx_mesh b).
Proof using Hk.
  intros H. pose proof (solve_only _ _ _ _ _ _ _ _ _ _ _ _ _ H) as F. unfold solve_frame in F. destruct Hk as [K|[K D]]; rewrite K in F; [|rewrite D in F]; split; apply F.
Qed.
Lemma neutron_results a a' o b : alike a a' -> solve sd a = Ok (o, b) -> exists o' b', solve sd a' = Ok (o', b') /\ alike b b'.
Proof using Hk Hre Hsolve.
  intros H E. pose proof (Hsolve a a' (al_input _ _ H) (al_input' _ _ H) (alike_rescaled _ _ H)) as R. rewrite E in R.
  unfold results_in_unit in R. destruct (solve sd a') as [[o' b']|x|x|x] eqn:E'; try contradiction. exists o', b'. split; [reflexivity|].
  destruct (neutron_frame _ _ _ E) as (S & T). destruct (neutron_frame _ _ _ E') as (S' & T'). destruct R as (Rk & Rf & Rh).
  split; [exact (same_reactor_trans _ _ _ (al_input _ _ H) S)|exact (same_reactor_trans _ _ _ (al_input' _ _ H) S')| |exact Rh|exact Rk|exact Rf].
  intros m Hm. pose proof (al_temp _ _ H m Hm) as F. unfold temp in *. rewrite (keeps_cell _ _ _ m T), (keeps_cell _ _ _ m T'). exact F.
Qed.

Lemma heats_like a a' : alike a a' -> exists o o', getHeatSources (rx_mesh a) = Ok o /\ getHeatSources (rx_mesh a') = Ok o' /\ vlen o = n /\ vlen o' = n /\
  forall i, (0 <= i < n)%Z -> vat o' i = vat o i / v.
Proof using Hre Hc Hc'.
  intros H. destruct (alike_cells _ _ H) as (N & N' & C & C'). pose proof C as (_ & Hn2 & _ & Hm & _). pose proof C' as (_ & _ & _ & Hm' & _).
  destruct (wp_ok _ _ (getHeatSources_wp dm0 (rx_mesh a) ltac:(lia) Hm)) as (o & E & L & V). destruct (wp_ok _ _ (getHeatSources_wp dm0 (rx_mesh a') ltac:(lia) Hm')) as (o' & E' & L' & V').
  exists o, o'. split; [exact E|]. split; [exact E'|]. split; [congruence|]. split; [congruence|]. intros i Hi. rewrite V, V' by lia. exact (al_heat _ _ H i Hi).
Qed.
Lemma relaxed_powers par a a' o o' b : alike a a' -> vlen o = n -> vlen o' = n -> (forall i, (0 <= i < n)%Z -> vat o' i = vat o i / v) ->
  relaxPowers par o a = Ok b -> exists b', relaxPowers par o' a' = Ok b' /\ alike b b'.
Proof using Hre Hc Hc'.
  intros H Lo Lo' Ho E. destruct (alike_cells _ _ H) as (N & N' & C & C'). pose proof C as (_ & Hn2 & _ & Hm & _). pose proof C' as (_ & _ & _ & Hm' & _).
  destruct (relaxPowers_spec par o a ltac:(cbn; lia) Hm ltac:(congruence)) as (m1 & E1 & _ & _ & _ & _ & V1).
  destruct (relaxPowers_spec par o' a' ltac:(cbn; lia) Hm' ltac:(congruence)) as (m1' & E1' & _ & _ & _ & _ & V1').
  rewrite E in E1. injection E1 as ->. exists (with_mesh m1' a'). split; [exact E1'|].
  destruct (relaxPowers_only _ _ _ _ E) as (m2 & Eb & O1). apply (f_equal (fun z => rx_mesh z)) in Eb. cbn in Eb. subst m2.
  destruct (relaxPowers_only _ _ _ _ E1') as (m2 & Eb & O1'). apply (f_equal (fun z => rx_mesh z)) in Eb. cbn in Eb. subst m2.
  rewrite N in V1. rewrite N' in V1'. pose proof O1 as (_ & _ & Kt & Kf & _). pose proof O1' as (_ & _ & Kt' & Kf' & _). split.
  - apply (same_reactor_trans r a); [apply H|]. apply only_heat_reactor, O1.
  - apply (same_reactor_trans r' a'); [apply H|]. apply only_heat_reactor, O1'.
  - intros m Hi. pose proof (al_temp _ _ H m Hi) as F. unfold temp in *. cbn [rx_mesh with_mesh]. rewrite (keeps_cell _ _ _ m Kt), (keeps_cell _ _ _ m Kt'). exact F.
  - intros m Hi. cbn [rx_mesh with_mesh]. unfold stored_heat at 1 2. rewrite V1, V1' by exact Hi. cbn [set_heat mt_heat]. rewrite Ho, (al_heat _ _ H m Hi) by exact Hi. unfold Rdiv. ring.
  - apply (al_k _ _ H).
  - intros e m He Hi. pose proof (al_flux _ _ H e m He Hi) as F. unfold stored_flux in *. cbn [rx_mesh with_mesh]. rewrite (keeps_cell _ _ _ m Kf), (keeps_cell _ _ _ m Kf'). exact F.
Qed.

Lemma neutron_carries : carries sd sd.
Proof using Hk Hre Hc Hc' Hsolve.
  intros rel par a a' b p H (o & a1 & E & P & Rl). fold solve in E. unfold half, half_step. fold solve.
  destruct (neutron_results a a' o a1 H E) as (o' & a1' & E' & H1).
  assert (P' : exists k, p = PDouble k /\ mainParameter sd a1' = Ok (PDouble k)).
  { unfold mainParameter in *. destruct Hk as [K|[K _]]; rewrite K in *; unfold getKFactor in *; rewrite (al_k _ _ H1); destruct (rx_fwd a1) as [|k tl]; try discriminate;
      injection P as <-; exists k; auto. }
  destruct P' as (k & -> & Pk). destruct rel.
  - assert (Rl' : relaxPowers par o a1 = Ok b) by (unfold relaxResults in Rl; destruct Hk as [K|[K _]]; rewrite K in Rl; exact Rl).
    destruct (heats_like _ _ H) as (x & y & Ex & Ey & Lx & Ly & V). rewrite (neutron_old _ _ _ E) in Ex. rewrite (neutron_old _ _ _ E') in Ey. injection Ex as <-. injection Ey as <-.
    destruct (relaxed_powers par a1 a1' o o' b H1 Lx Ly V Rl') as (b' & Eb & Hb).
    exists b', (PDouble k). split; [|split; [exact Hb|reflexivity]]. exists o', a1'. split; [exact E'|]. split; [exact Pk|].
    unfold relaxResults. destruct Hk as [K|[K _]]; rewrite K; exact Eb.
  - subst a1. exists a1', (PDouble k). split; [|split; [exact H1|reflexivity]]. exists o', a1'. auto.
Qed.
End Neutrons.

(* ---------- the iterations ---------- *)

Lemma run_carries s1 s1' s2 s2' par : carries s1 s1' -> carries s2 s2' -> alike r r' -> forall k st p q, st 0%nat = r -> run s1 s2 par k st p q ->
  exists st' p' q', st' 0%nat = r' /\ run s1' s2' par k st' p' q' /\ (forall i, (i <= k)%nat -> alike (st i) (st' i)) /\
    forall i, (i < k)%nat -> same_param (p i) (p' i) /\ same_param (q i) (q' i).
Proof.
  intros H1 H2 H0. induction k as [|k IH]; intros st p q S0 Rn.
  - exists (fun _ => r'), p, q. split; [reflexivity|]. split; [intros i Hi; lia|]. split; [intros i Hi; replace i with 0%nat by lia; rewrite S0; exact H0|]. intros i Hi. lia.
  - destruct (IH st p q S0 (fun i Hi => Rn i ltac:(lia))) as (st' & p' & q' & S0' & Rn' & A & B).
    destruct (Rn k ltac:(lia)) as (rm & I1 & I2). destruct (H1 _ _ _ _ _ _ (A k ltac:(lia)) I1) as (rm' & pk & J1 & Am & Bp). destruct (H2 _ _ _ _ _ _ Am I2) as (b' & qk & J2 & Ab & Bq).
    exists (fun i => if (i =? S k)%nat then b' else st' i), (fun i => if (i =? k)%nat then pk else p' i), (fun i => if (i =? k)%nat then qk else q' i).
    split; [exact S0'|]. split; [|split].
    + intros i Hi. destruct (Nat.eqb_spec i (S k)) as [->|D]; [lia|]. destruct (Nat.eqb_spec i k) as [->|D'].
      * rewrite Nat.eqb_refl. exists rm'. split; assumption.
      * replace (S i =? S k)%nat with false by (symmetry; apply Nat.eqb_neq; lia). apply Rn'. lia.
    + intros i Hi. destruct (Nat.eqb_spec i (S k)) as [->|D]; [exact Ab|]. apply A. lia.
    + intros i Hi. destruct (Nat.eqb_spec i k) as [->|D]; [split; assumption|]. apply B. lia.
Qed.
Lemma half_unique sd rel par a b b' p p' : half sd rel par a b p -> half sd rel par a b' p' -> b' = b /\ p' = p.
Proof.
  intros (o & a1 & E & P & Q) (o' & a1' & E' & P' & Q'). rewrite E in E'. injection E' as <- <-. rewrite P in P'. injection P' as <-. split; [|reflexivity].
  destruct rel; [rewrite Q in Q'; injection Q' as <-; reflexivity|congruence].
Qed.
Lemma run_unique s1 s2 par k st st' p p' q q' : run s1 s2 par k st p q -> run s1 s2 par k st' p' q' -> st' 0%nat = st 0%nat ->
  (forall i, (i <= k)%nat -> st' i = st i) /\ forall i, (i < k)%nat -> p' i = p i /\ q' i = q i.
Proof.
  intros R1 R2 E0. assert (A : forall i, (i <= k)%nat -> st' i = st i /\ forall j, (j < i)%nat -> p' j = p j /\ q' j = q j).
  { induction i as [|i IH]; intros Hi; [split; [exact E0|intros; lia]|]. destruct (IH ltac:(lia)) as (E & F).
    destruct (R1 i ltac:(lia)) as (rm & I1 & I2). destruct (R2 i ltac:(lia)) as (rm' & J1 & J2). rewrite E in J1.
    destruct (half_unique _ _ _ _ _ _ _ _ I1 J1) as (-> & Ep). destruct (half_unique _ _ _ _ _ _ _ _ I2 J2) as (Es & Eq).
    split; [exact Es|]. intros j Hj. destruct (Nat.eq_dec j i) as [->|D]; [auto|]. apply F. lia. }
  split; intros i Hi; [apply (A i Hi)|apply (A (S i) ltac:(lia)); lia].
Qed.
Lemma same_converged acc p q p' q' i : (forall j, (j <= i)%nat -> same_param (p j) (p' j) /\ same_param (q j) (q' j)) ->
  (converged acc p q i <-> converged acc p' q' i) /\ (unconverged acc p q i <-> unconverged acc p' q' i).
Proof.
  intros H. destruct i as [|j]; [unfold converged, small, unconverged; tauto|]. destruct (H j ltac:(lia)) as (A & B). destruct (H (S j) ltac:(lia)) as (A' & B').
  unfold converged, small, unconverged. rewrite (same_difference _ _ _ _ A' A), (same_difference _ _ _ _ B' B). tauto.
Qed.

(* both calculations finish: the same number of iterations and the same results *)
Lemma finish_alike s1 s1' s2 s2' cs cs' o pk oc oc' : carries s1 s1' -> carries s2 s2' -> alike r r' ->
  sd_kind s1 <> COUPLED -> sd_kind s2 <> COUPLED -> sd_kind s1' <> COUPLED -> sd_kind s2' <> COUPLED ->
  sd_acc cs' = sd_acc cs -> sd_relax cs' = sd_relax cs ->
  doubleCalculation PI solver sort eig croots E3 Ki3 ex sq o pk [s1; s2; cs] r = Ok oc ->
  doubleCalculation PI solver sort eig croots E3 Ki3 ex sq o pk [s1'; s2'; cs'] r' = Ok oc' ->
  alike (oc_reactor oc) (oc_reactor oc') /\
  exists k, In (CRITICAL, ICount "Number of coupled iteration" k) (oc_log oc) /\ In (CRITICAL, ICount "Number of coupled iteration" k) (oc_log oc').
Proof.
  intros H1 H2 H0 K1 K2 K1' K2' Ha Hr D D'.
  destruct (doubleCalculation_run _ _ _ _ _ _ _ _ _ _ _ _ _ _ D) as (t1 & t2 & c & k & st & p & q & E1 & E2 & E4 & Hk & _ & Rn & S0 & Sk & Cv & Un & Lg).
  destruct (doubleCalculation_run _ _ _ _ _ _ _ _ _ _ _ _ _ _ D') as (t1' & t2' & c' & k' & st' & p' & q' & E1' & E2' & E4' & Hk' & _ & Rn' & S0' & Sk' & Cv' & Un' & Lg').
  injection E1 as <-. injection E2 as <-. injection E1' as <-. injection E2' as <-.
  assert (c = cs) as -> by (unfold getCoupledSolver in E4; cbn [find] in E4; destruct (sd_kind s1), (sd_kind s2); try congruence; cbn [kind_eqb] in E4; destruct (kind_eqb (sd_kind cs) COUPLED); congruence).
  assert (c' = cs') as -> by (unfold getCoupledSolver in E4'; cbn [find] in E4'; destruct (sd_kind s1'), (sd_kind s2'); try congruence; cbn [kind_eqb] in E4'; destruct (kind_eqb (sd_kind cs') COUPLED); congruence).
  destruct (run_carries s1 s1' s2 s2' (sd_relax cs) H1 H2 H0 k st p q S0 Rn) as (st2 & p2 & q2 & T0 & Rn2 & A & B).
  rewrite Ha in *. rewrite Hr in *.
  assert (U : forall j, (j <= k)%nat -> (j <= k')%nat -> (forall i, (i <= j)%nat -> st2 i = st' i) /\ forall i, (i < j)%nat -> p2 i = p' i /\ q2 i = q' i).
  { intros j J J'. apply (run_unique s1' s2' (sd_relax cs) j st' st2 p' p2 q' q2); [intros i Hi; apply Rn'; lia|intros i Hi; apply Rn2; lia|congruence]. }
  assert (Kk : k = k').
  { destruct (lt_eq_lt_dec k k') as [[Lt|Eq]|Gt]; [|exact Eq|]; exfalso.
    - specialize (Un' (k - 1)%nat ltac:(lia)). apply unconverged_not in Un'. apply Un'. destruct (U k ltac:(lia) ltac:(lia)) as (_ & V).
      apply (same_converged (sd_acc cs) p q p' q' (k - 1)); [|exact Cv]. intros j Hj. destruct (V j ltac:(lia)) as (<- & <-). apply B. lia.
    - specialize (Un (k' - 1)%nat ltac:(lia)). apply unconverged_not in Un. apply Un. destruct (U k' ltac:(lia) ltac:(lia)) as (_ & V).
      apply (same_converged (sd_acc cs) p q p' q' (k' - 1)); [|exact Cv']. intros j Hj. destruct (V j ltac:(lia)) as (<- & <-). apply B. lia. }
  subst k'. destruct (U k ltac:(lia) ltac:(lia)) as (V & _). split; [rewrite Sk, Sk', <- V by lia; apply A; lia|]. exists (Z.of_nat k). auto.
Qed.
End Coupled.

(* ---------- the theorems ---------- *)

(* what the two calculations must agree on *)
Definition same_findings (s : R) (r : reactor R) (a a' : reactor R) : Prop :=
  let n := ms_cells (rx_mesh r) in let en := ms_groups (rx_mesh r) in
  rx_fwd a' = rx_fwd a /\
  (forall m, (0 <= m < n)%Z -> mt_temp (cell_material (rx_mesh a') m) = mt_temp (cell_material (rx_mesh a) m)) /\
  (forall m, (0 <= m < n)%Z -> mt_heat (cell_material (rx_mesh a') m) = mt_heat (cell_material (rx_mesh a) m) / s ^ dimension (ms_geom (rx_mesh r))) /\
  (forall e m, (0 <= e < en)%Z -> (0 <= m < n)%Z -> mat_at (mt_flux (cell_material (rx_mesh a') m)) e 0 = mat_at (mt_flux (cell_material (rx_mesh a) m)) e 0).

(* The same heated body and the same heat solver in another unit of length, the laws of
   conduction being sound at any temperature *)
Record heat_pair (solver : mat R -> vec R -> vec R) (s : R) (r r' : reactor R) (sd sd' : solverData R) : Prop := {
  hp_unit : 0 < s;
  hp_kind : sd_kind sd = HEAT /\ sd_kind sd' = HEAT;
  hp_cond : conducting (rx_mesh r) /\ conducting (rx_mesh r');
  hp_mat : good_material (rx_mesh r);
  hp_geom : good_geometry (rx_mesh r);
  hp_exact : exact solver;
  hp_mesh : heat_rescaled s (s ^ 3 / s ^ dimension (ms_geom (rx_mesh r))) (rx_mesh r) (rx_mesh r');
  hp_faces : exists L L' Q Q', boundaries sd L Q /\ boundaries sd' L' Q' /\ well_posed (rx_mesh r) L Q /\
    bc_rescaled s (s ^ 3 / s ^ dimension (ms_geom (rx_mesh r))) L L' /\ bc_rescaled s (s ^ 3 / s ^ dimension (ms_geom (rx_mesh r))) Q Q';
  hp_acc : sd_acc sd' = sd_acc sd;
  hp_max : sd_max sd' = sd_max sd
}.

(* the solvers of the input file in the order of the calculation *)
Definition either_order (sn sh sh' s1 s2 s1' s2' : solverData R) : Prop :=
  (s1 = sn /\ s2 = sh /\ s1' = sn /\ s2' = sh') \/ (s1 = sh /\ s2 = sn /\ s1' = sh' /\ s2' = sn).

(* every iteration of one calculation is an iteration of the other, with the same outcome
   of the convergence test; if both calculations finish, they report the same *)
Definition same_calculation (solver : mat R -> vec R -> vec R) sort eig croots (E3 Ki3 ex sq : R -> R) (s : R) (r r' : reactor R) (s1 s2 s1' s2' : solverData R) : Prop :=
  (forall acc par k st p q, st 0%nat = r -> coupled_run PI solver sort eig croots E3 Ki3 ex sq s1 s2 par k st p q ->
    exists st' p' q', st' 0%nat = r' /\ coupled_run PI solver sort eig croots E3 Ki3 ex sq s1' s2' par k st' p' q' /\
      (forall i, (i <= k)%nat -> same_findings s r (st i) (st' i)) /\
      forall i, (i < k)%nat -> same_param (p i) (p' i) /\ same_param (q i) (q' i) /\ (converged acc p q i <-> converged acc p' q' i)) /\
  (forall o pk cs cs' oc oc', sd_acc cs' = sd_acc cs -> sd_relax cs' = sd_relax cs ->
    doubleCalculation PI solver sort eig croots E3 Ki3 ex sq o pk [s1; s2; cs] r = Ok oc ->
    doubleCalculation PI solver sort eig croots E3 Ki3 ex sq o pk [s1'; s2'; cs'] r' = Ok oc' ->
    same_findings s r (oc_reactor oc) (oc_reactor oc') /\
    exists k, In (CRITICAL, ICount "Number of coupled iteration" k) (oc_log oc) /\ In (CRITICAL, ICount "Number of coupled iteration" k) (oc_log oc')).

Lemma alike_results s r r' a a' : alike r r' s a a' -> same_findings s r a a'.
Proof. intros H. split; [apply H|]. split; [apply H|]. split; apply H. Qed.

Lemma same_from solver sort eig croots E3 Ki3 ex sq s r r' sn sh sh' s1 s2 s1' s2' :
  heat_pair solver s r r' sh sh' -> rescaled s (rx_mesh r) (rx_mesh r') -> same_findings s r r r' ->
  sd_kind sn = TRANSPORT \/ sd_kind sn = DIFFUSION /\ sd_dir sn = FORWARD ->
  (forall a a', same_reactor r a -> same_reactor r' a' -> rescaled s (rx_mesh a) (rx_mesh a') ->
    results_in_unit (s ^ dimension (ms_geom (rx_mesh r))) FORWARD (ms_cells (rx_mesh r)) (ms_groups (rx_mesh r))
      (solve1 PI solver sort eig croots E3 Ki3 ex sq sn a) (solve1 PI solver sort eig croots E3 Ki3 ex sq sn a')) ->
  either_order sn sh sh' s1 s2 s1' s2' -> same_calculation solver sort eig croots E3 Ki3 ex sq s r r' s1 s2 s1' s2'.
Proof.
  intros [Hs [K K'] [Hc Hc'] Hgm Hgg HX Hhr (L & L' & Q & Q' & HB & HB' & Hwp & HL & HQ) Hacc Hmax] Hre (R1 & R2 & R3 & R4) Kn Hsol Or.
  pose proof (heat_carries solver sort eig croots E3 Ki3 ex sq r r' s Hs Hre Hhr Hc Hc' sh sh' L L' Q Q' K K' Hgm Hgg HX HB HB' Hwp HL HQ Hacc Hmax) as CH.
  pose proof (neutron_carries solver sort eig croots E3 Ki3 ex sq r r' s Hre Hc Hc' sn Kn Hsol) as CN.
  assert (A0 : alike r r' s r r').
  { split; [apply same_reactor_refl|apply same_reactor_refl|exact R2|exact R3|exact R1|exact R4]. }
  assert (C : carries solver sort eig croots E3 Ki3 ex sq r r' s s1 s1' /\ carries solver sort eig croots E3 Ki3 ex sq r r' s s2 s2') by (destruct Or as [(-> & -> & -> & ->)|(-> & -> & -> & ->)]; auto).
  assert (Nc : sd_kind s1 <> COUPLED /\ sd_kind s2 <> COUPLED /\ sd_kind s1' <> COUPLED /\ sd_kind s2' <> COUPLED).
  { assert (sd_kind sn <> COUPLED) by (destruct Kn as [->|[-> _]]; discriminate). destruct Or as [(-> & -> & -> & ->)|(-> & -> & -> & ->)]; rewrite K, K'; repeat split; try assumption; discriminate. }
  destruct C as (C1 & C2). destruct Nc as (N1 & N2 & N3 & N4). split.
  - intros acc par k st p q S0 Rn. destruct (run_carries solver sort eig croots E3 Ki3 ex sq r r' s s1 s1' s2 s2' par C1 C2 A0 k st p q S0 Rn) as (st' & p' & q' & S0' & Rn' & A & B).
    exists st', p', q'. split; [exact S0'|]. split; [exact Rn'|]. split; [intros i Hi; apply (alike_results s r r'); apply A; exact Hi|].
    intros i Hi. split; [apply B, Hi|]. split; [apply B, Hi|]. assert (Bj : forall j, (j <= i)%nat -> same_param (p j) (p' j) /\ same_param (q j) (q' j)) by (intros j Hj; apply B; lia).
    destruct i as [|j]; [unfold converged, small; tauto|]. destruct (Bj j ltac:(lia)) as (X & Y). destruct (Bj (S j) ltac:(lia)) as (X' & Y').
    unfold converged, small. rewrite (same_difference _ _ _ _ X' X), (same_difference _ _ _ _ Y' Y). tauto.
  - intros o pk cs cs' oc oc' Ha Hr D D'. destruct (finish_alike solver sort eig croots E3 Ki3 ex sq r r' s s1 s1' s2 s2' cs cs' o pk oc oc' C1 C2 A0 N1 N2 N3 N4 Ha Hr D D') as (A & B).
    split; [exact (alike_results s r r' _ _ A)|exact B].
Qed.

(* Neutron diffusion and heat in a slab *)
Theorem C103_diffusion solver sort eig croots E3 Ki3 ex sq s r r' sn sh sh' s1 s2 s1' s2' aL aR :
  let ms := rx_mesh r in let n := ms_cells ms in let en := ms_groups ms in
  heat_pair solver s r r' sh sh' -> rescaled s ms (rx_mesh r') -> same_findings s r r r' -> rx_power r' = rx_power r ->
  ready ms -> ready (rx_mesh r') -> ms_geom ms = SLAB ->
  sd_kind sn = DIFFUSION -> sd_dir sn = FORWARD -> sd_eig sn = FUNDAMENTAL -> sd_energies sn = en -> albedos ms sn aL aR ->
  (forall a M F, same_reactor r a -> diffusionSystem PI (rx_mesh a) sn = Ok (M, F) -> injective (n * en) (mat_at M)) ->
  either_order sn sh sh' s1 s2 s1' s2' -> same_calculation solver sort eig croots E3 Ki3 ex sq s r r' s1 s2 s1' s2'.
Proof.
  intros ms n en HP Hre R0 Hpw Hr Hr' Hg K Hd He Hen Hal Hinj Or.
  apply (same_from solver sort eig croots E3 Ki3 ex sq s r r' sn sh sh' s1 s2 s1' s2' HP Hre R0 ltac:(auto)); [|exact Or].
  intros a a' Sa Sa' Hra. pose proof Sa as (S & Pa & _). pose proof Sa' as (S' & Pa' & _). pose proof S as (_ & g & c & e & _). fold ms in g, c, e. unfold solve1. rewrite K.
  pose proof (proj1 (hp_cond _ _ _ _ _ _ HP)) as (_ & Hn0 & _). assert (Hn : (2 <= ms_cells (rx_mesh a))%Z) by (rewrite c; exact Hn0). pose proof (hp_unit _ _ _ _ _ _ HP) as Hs.
  pose proof (input_ready _ _ S Hr) as Ra. pose proof (input_ready _ _ S' Hr') as Ra'.
  assert (Ea : sd_energies sn = ms_groups (rx_mesh a)) by (rewrite e; exact Hen). assert (Ed : sd_dir sn <> DirUNDEFINED) by (rewrite Hd; discriminate).
  destruct (C97_slab solver sort eig a a' sn s aL aR Ra Ra' Hra ltac:(lra) ltac:(congruence) Hn ltac:(congruence)
    (input_albedos _ _ _ _ _ S Hal) Ea Ed He) as (M & F & M' & F' & E & E' & X).
  destruct (unit_systems a a' sn s aL aR Ra Ra' Hra ltac:(lra) Hn (input_albedos _ _ _ _ _ S Hal) Ea Ed) as (M1 & F1 & M1' & F1' & G & G' & (D1 & D2 & D3 & D4 & _) & _).
  rewrite E in G. injection G as <- <-. rewrite E' in G'. injection G' as <- <-.
  rewrite c, e, ?Hd in *. fold n en in X, D1, D2, D3, D4. destruct (X (Hinj a M F Sa E)) as (Hi' & X1). replace (s ^ dimension (ms_geom (rx_mesh r))) with s by (fold ms; rewrite Hg; cbn; ring).
  apply X1; (eapply exact_any; [apply (hp_exact _ _ _ _ _ _ HP)|eassumption|eassumption|]); [exact (Hinj a M F Sa E)|exact Hi'].
Qed.
Print Assumptions C103_diffusion.

(* Neutron transport and heat in any geometry *)
Theorem C103_transport solver sort eig croots E3 Ki3 ex sq s r r' sn sh sh' s1 s2 s1' s2' al :
  let ms := rx_mesh r in let n := ms_cells ms in let en := ms_groups ms in
  heat_pair solver s r r' sh sh' -> rescaled s ms (rx_mesh r') -> same_findings s r r r' -> rx_power r' = rx_power r ->
  transport_always ms sn al -> transport_always (rx_mesh r') sn al -> (forall x, sq (s ^ 2 * x) = s * sq x) ->
  sd_kind sn = TRANSPORT -> sd_eig sn = FUNDAMENTAL ->
  (forall a ch M F, same_reactor r a -> spectrumSystem PI E3 Ki3 ex sq (rx_mesh a) sn = Ok (ch, M, F) -> injective (n * en) (mat_at M)) ->
  either_order sn sh sh' s1 s2 s1' s2' -> same_calculation solver sort eig croots E3 Ki3 ex sq s r r' s1 s2 s1' s2'.
Proof.
  intros ms n en HP Hre R0 Hpw Ht Ht' Hsq K He Hinj Or.
  apply (same_from solver sort eig croots E3 Ki3 ex sq s r r' sn sh sh' s1 s2 s1' s2' HP Hre R0 ltac:(auto)); [|exact Or].
  intros a a' Sa Sa' Hra. pose proof Sa as (S & Pa & _). pose proof Sa' as (S' & Pa' & _). pose proof S as (_ & g & c & e & _). fold ms in g, c, e. unfold solve1. rewrite K.
  pose proof (hp_unit _ _ _ _ _ _ HP) as Hs. pose proof (always_ready _ _ _ _ S Ht) as Ta. pose proof (always_ready _ _ _ _ S' Ht') as Ta'.
  destruct (C98_transport_units E3 Ki3 ex sq solver sort eig a a' sn s al Ta Ta' Hra Hs Hsq ltac:(congruence) He) as (ch & ch' & M & F & M' & F' & E & E' & X).
  destruct (PropsSpectrum.C55_transport_defined E3 Ki3 ex sq _ _ _ Ta) as (sc & g0 & g1 & c0 & M0 & F0 & Hrun). pose proof Hrun as (_ & _ & _ & E0). rewrite E in E0. injection E0 as <- <- <-.
  destruct (PropsSpectrum.C55_transport_defined E3 Ki3 ex sq _ _ _ Ta') as (sc' & g0' & g1' & c0' & M0' & F0' & Hrun'). pose proof Hrun' as (_ & _ & _ & E0'). rewrite E' in E0'. injection E0' as <- <- <-.
  destruct (PropsSpectrumB.C55_transport_operators _ _ _ _ _ _ _ _ _ _ _ _ _ Ta Hrun) as (D1 & D2 & _). destruct (PropsSpectrumB.C55_transport_operators _ _ _ _ _ _ _ _ _ _ _ _ _ Ta' Hrun') as (D3 & D4 & _).
  rewrite (rs_cells _ _ _ Hra), (rs_groups _ _ _ Hra) in D3, D4. rewrite c, e, g in *. fold n en in X, D1, D2, D3, D4. destruct (X (Hinj a ch M F Sa E)) as (Hi' & X1).
  apply X1; (eapply exact_any; [apply (hp_exact _ _ _ _ _ _ HP)|eassumption|eassumption|]); [exact (Hinj a ch M F Sa E)|exact Hi'].
Qed.
Print Assumptions C103_transport.

(* ---------- the reactor of C88 in another unit ---------- *)

(* its matrix is invertible whatever the temperatures *)
Lemma hot_injective ms M F : same_input hot_slab ms -> diffusionSystem PI ms hot_diff = Ok (M, F) -> injective 3 (mat_at M).
Proof.
  intros S E. pose proof S as (b & g & c & e & K). cbn [hot_slab ms_cells ms_groups ms_bounds ms_geom] in b, g, c, e.
  pose proof (ready_data ms (input_ready _ _ S hot_ready)) as Hdat. rewrite e in Hdat.
  assert (Hal : albedos ms hot_diff 1 1) by (unfold albedos; rewrite g; split; reflexivity).
  pose proof (hot_tables ms S) as Tb. cbn zeta in Tb. set (d := mesh_tables ms) in *.
  assert (Z0 : forall x, (0 <= x < sd_energies hot_diff)%Z -> x = 0%Z) by (cbn; lia).
  assert (HD : forall e m, (0 <= e < sd_energies hot_diff)%Z -> (0 <= m < ms_cells ms)%Z -> 0 < tD d e m).
  { intros x m Hx Hm. rewrite (Z0 x Hx). destruct (Tb m ltac:(lia)) as (-> & _). lra. }
  assert (Hx : forall m, (0 <= m < ms_cells ms)%Z -> 0 < tdx d m).
  { intros m Hm. destruct (Tb m ltac:(lia)) as (_ & _ & _ & _ & _ & _ & -> & _). lra. }
  assert (HS : forall k, (0 <= k <= ms_cells ms)%Z -> 0 <= tS d k).
  { intros k Hk. destruct (Z.eq_dec k 0) as [->|].
    - destruct (Tb 0%Z ltac:(lia)) as (_ & _ & _ & _ & _ & _ & _ & -> & _). lra.
    - destruct (Tb (k - 1)%Z ltac:(lia)) as (_ & _ & _ & _ & _ & _ & _ & _ & H & _). replace (k - 1 + 1)%Z with k in H by lia. lra. }
  destruct (loss_monotone ms hot_diff d 1 1 ltac:(lia) ltac:(cbn; lia) Hdat Hal ltac:(lra) ltac:(lra) HD Hx eq_refl HS) as (M' & F' & E' & Mono).
  { intros m Hm. destruct (Tb m ltac:(lia)) as (_ & _ & _ & _ & _ & _ & _ & _ & _ & ->). lra. }
  { intros x y m X Y Hm. rewrite (Z0 x X), (Z0 y Y). destruct (Tb m ltac:(lia)) as (_ & _ & -> & _). lra. }
  { intros x m X Hm. rewrite (Z0 x X). change (sd_energies hot_diff) with 1%Z. rewrite (rsum_one 0). destruct (Tb m ltac:(lia)) as (_ & -> & -> & _). lra. }
  rewrite E in E'. injection E' as <- <-. change (sd_energies hot_diff) with 1%Z in Mono. rewrite c in Mono. change (3 * 1)%Z with 3%Z in Mono.
  apply monotone_injective, Mono.
Qed.

(* the same slab in a unit a hundred times smaller: the watts are those behind a square of that
   unit *)
Definition fine_slab : mesh R := heat_rescale 1 (100 ^ 2 / 100) (rescale 100 hot_slab).
Definition fine_reactor : reactor R := mkReactor fine_slab 8 [] [] (mkKinetics 0 0 [] [] [] []) (0, 0%Z, 0%Z).
Lemma fine_cell m : (0 <= m < 3)%Z -> cell_material fine_slab m = heat_rescale_material 1 (100 ^ 2 / 100) (rescale_material 100 hot_material).
Proof. intros Hm. assert (m = 0 \/ m = 1 \/ m = 2)%Z as [->|[->| ->]] by lia; reflexivity. Qed.
Lemma fine_facts : ready fine_slab /\ rescaled 100 hot_slab fine_slab /\ heat_rescaled 100 (100 ^ 3 / 100 ^ 1) hot_slab fine_slab /\ conducting fine_slab.
Proof.
  split; [|split; [|split]].
  - destruct hot_ready as (A & B & C & D & E & H). split; [exact A|]. split; [exact B|]. split; [exact C|]. split; [exact D|]. split; [exact E|].
    intros m Hm. specialize (H m Hm). cbn zeta in H |- *. rewrite fine_cell by exact Hm. rewrite hot_cell in H by exact Hm.
    cbn [heat_rescale_material rescale_material mt_energies mt_totXS mt_fisXS mt_diff mt_scatt mt_ni mt_chi]. unfold laws_times, zlen in *. rewrite !map_length. exact H.
  - split; try reflexivity.
    + intros k Hk. cbn. lra.
    + intros m Hm. cbn zeta. rewrite fine_cell, hot_cell by exact Hm. repeat split.
  - split; try reflexivity.
    + intros k Hk. cbn. lra.
    + intros m Hm. cbn zeta. rewrite fine_cell, hot_cell by exact Hm. split; [reflexivity|]. split; [cbn; f_equal; f_equal; field|cbn; field].
  - destruct hot_heatable as ((A & B & C & D & E) & _). repeat split; try discriminate; try (cbn; lia); try (change (3 <= 3)%Z; lia).
    intros m Hm. rewrite fine_cell by exact Hm. discriminate.
Qed.
Lemma hot_pair solver : exact solver -> heat_pair solver 100 hot_reactor fine_reactor hot_heat hot_heat.
Proof.
  intros He. destruct hot_heatable as (Hc & Hk & Hg & Hw & _). destruct fine_facts as (_ & _ & H & Hc'). split; try reflexivity; try assumption; try lra.
  - split; reflexivity.
  - split; assumption.
  - intros i t Hi. rewrite hot_cell by exact Hi. exists [1]. split; [reflexivity|]. rewrite constant_law. lra.
  - exists face20, face20, face20, face20. assert (B : bc_rescaled 100 (100 ^ 3 / 100 ^ dimension (ms_geom (rx_mesh hot_reactor))) face20 face20).
    { split; [reflexivity|]. split; [reflexivity|]. left. cbn. ring. }
    split; [left; reflexivity|]. split; [left; reflexivity|]. split; [exact Hw|]. split; exact B.
Qed.

Lemma hot_start : same_findings 100 hot_reactor hot_reactor fine_reactor.
Proof.
  split; [reflexivity|]. split; [|split].
  - intros m Hm. unfold temp. cbn [hot_reactor fine_reactor rx_mesh]. rewrite fine_cell, hot_cell by exact Hm. reflexivity.
  - intros m Hm. unfold stored_heat. cbn [hot_reactor fine_reactor rx_mesh]. rewrite fine_cell, hot_cell by exact Hm. cbn. field.
  - intros e m _ Hm. unfold stored_flux. cbn [hot_reactor fine_reactor rx_mesh]. rewrite fine_cell, hot_cell by exact Hm. reflexivity.
Qed.

(* temperatures first: the calculation of C88 in both units *)
Example C103_diffusion_met : exists solver cs oc st' p' q' k,
  let double := doubleCalculation PI solver (fun l => l) no_eig (fun _ => []) (fun x => x) (fun x => x) (fun x => x) (fun x => x) in
  heat_pair solver 100 hot_reactor fine_reactor hot_heat hot_heat /\ rescaled 100 hot_slab fine_slab /\
  double newOutput [] [hot_heat; hot_diff; cs] hot_reactor = Ok oc /\ st' 0%nat = fine_reactor /\
  coupled_run PI solver (fun l => l) no_eig (fun _ => []) (fun x => x) (fun x => x) (fun x => x) (fun x => x) hot_heat hot_diff (sd_relax cs) k st' p' q' /\
  same_findings 100 hot_reactor (oc_reactor oc) (st' k) /\ (1 <= k)%nat /\ converged (sd_acc cs) p' q' (k - 1).
Proof.
  destruct C88_temperatures_first_refuted as (solver & cs & oc & old & r1 & i & He & Hcs & _ & _ & E & _). exists solver, cs, oc.
  destruct fine_facts as (Hr' & Hre & _). pose proof (hot_pair solver He) as HP.
  pose proof hot_start as R0.
  destruct (C103_diffusion solver (fun l => l) no_eig (fun _ => []) (fun x => x) (fun x => x) (fun x => x) (fun x => x) 100 hot_reactor fine_reactor hot_diff hot_heat hot_heat
    hot_heat hot_diff hot_heat hot_diff 1 1 HP Hre R0 eq_refl hot_ready Hr' eq_refl eq_refl eq_refl eq_refl eq_refl (conj eq_refl eq_refl)) as (A & _).
  { intros a M F (S & _) EM. exact (hot_injective _ M F S EM). }
  { right. repeat split. }
  destruct (doubleCalculation_run _ _ _ _ _ _ _ _ _ _ _ _ _ _ E) as (t1 & t2 & c & k & st & p & q & E1 & E2 & E4 & Hk & _ & Rn & S0 & Sk & Cv & _).
  injection E1 as <-. injection E2 as <-.
  assert (c = cs) as -> by (unfold getCoupledSolver in E4; cbn [find] in E4; rewrite Hcs in E4; cbn in E4; congruence).
  destruct (A (sd_acc cs) (sd_relax cs) k st p q S0 Rn) as (st' & p' & q' & S0' & Rn' & B & C). exists st', p', q', k.
  split; [exact HP|]. split; [exact Hre|]. split; [exact E|]. split; [exact S0'|]. split; [exact Rn'|]. split; [rewrite Sk; apply B; lia|]. split; [exact Hk|].
  apply (C (k - 1)%nat ltac:(lia)). exact Cv.
Qed.

(* the slab by transport, half of the neutrons coming back at the right face *)
From Verif Require Import ProofsConvergeT Kernels.
Definition hot_transport : solverData R := mkSolverData TRANSPORT (1 / 1000) 100 1 [1 / 2; 1 / 2] [] 1 FORWARD FUNDAMENTAL.
Lemma hot_always : transport_always hot_slab hot_transport (1 / 2) /\ transport_always fine_slab hot_transport (1 / 2).
Proof.
  split.
  - split; [exact hot_ready|]. split; [cbn; lia|]. split; [reflexivity|]. split; [reflexivity|]. split; [exact hot_increasing|]. split; [cbn; lra|].
    intros e i t He Hi. rewrite hot_cell by exact Hi. assert (e = 0%Z) as -> by (cbn in He; lia). cbn [hot_material set_cond ex_material mt_totXS].
    change (Z.to_nat 0) with 0%nat. cbn [nth]. rewrite constant_law. lra.
  - destruct fine_facts as (Hr & _). split; [exact Hr|]. split; [cbn; lia|]. split; [reflexivity|]. split; [reflexivity|].
    split; [intros i Hi; cbn in *; rewrite plus_IZR; lra|]. split; [cbn; lra|].
    intros e i t He Hi. rewrite fine_cell by exact Hi. assert (e = 0%Z) as -> by (cbn in He; lia). cbn [heat_rescale_material rescale_material hot_material set_cond ex_material mt_totXS].
    change (Z.to_nat 0) with 0%nat. cbn [laws_times map nth]. rewrite constant_law. lra.
Qed.
Example C103_transport_met : exists solver, same_calculation solver (fun l => l) no_eig (fun _ => []) E3 Ki3 exp sqrt 100 hot_reactor fine_reactor hot_transport hot_heat hot_transport hot_heat.
Proof.
  destruct PropsHeat.exact_exists as (solver & He). exists solver. destruct hot_always as (T & T'). destruct fine_facts as (Hr' & Hre & _).
  apply (C103_transport solver (fun l => l) no_eig (fun _ => []) E3 Ki3 exp sqrt 100 hot_reactor fine_reactor hot_transport hot_heat hot_heat
    hot_transport hot_heat hot_transport hot_heat (1 / 2) (hot_pair solver He) Hre hot_start eq_refl T T'); try reflexivity; [| |left; repeat split].
  - intros x. rewrite sqrt_mult_alt by nra. rewrite sqrt_pow2 by lra. reflexivity.
  - intros a ch M F (S & _) E. pose proof (always_ready _ _ _ _ S T) as Ta. pose proof S as (_ & g & c & e & _). pose proof (hot_tables _ S) as Tb. cbn zeta in Tb. cbn [hot_reactor rx_mesh] in *.
    destruct (PropsSpectrum.C55_transport_defined E3 Ki3 exp sqrt _ _ _ Ta) as (sc & g0 & g1 & c0 & M0 & F0 & Hrun). pose proof Hrun as (_ & _ & _ & E0). rewrite E in E0. injection E0 as <- <- <-.
    assert (W : monotone (ms_cells (rx_mesh a) * ms_groups (rx_mesh a)) (mat_at M)).
    { apply (transport_slab_monotone _ _ _ _ _ _ _ _ _ _ _ _ Ta Hrun); [exact g|lra| |]; cbn [hot_slab ms_cells ms_groups] in c, e.
      - intros x y m X Y Hm. assert (x = 0)%Z as -> by lia. assert (y = 0)%Z as -> by lia. destruct (Tb m ltac:(lia)) as (_ & _ & -> & _). lra.
      - intros x m X Hm. assert (x = 0)%Z as -> by lia. rewrite e, (rsum_one 0). destruct (Tb m ltac:(lia)) as (_ & -> & -> & _). lra. }
    rewrite c, e in W. apply monotone_injective, W.
Qed.
