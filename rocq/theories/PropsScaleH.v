(* Property theorems C99: the temperatures do not depend on the units of length and of power. *)
From Coq Require Import String ZArith List Bool Lia Reals Lra.
From Verif Require Import Base BaseLemmas NumR LinAlg Blocks ModelNumTools ModelEigen ModelMesh ModelReactor
  ModelHeat ProofsMesh ProofsDiffusion ProofsDiffusionR ProofsPower ProofsHeat ProofsHeatLoop ProofsHeatConstant PropsHeat PropsHeatConstant PropsScale.
Import ListNotations.
Local Open Scope R_scope.

(* ---------- the two descriptions ---------- *)

(* ms' is ms with lengths times s and watts times w: conductivities are in W/(m K) and heat
   sources in W/m3; the temperatures, which the laws depend on, are the same *)
Record heat_rescaled (s w : R) (ms ms' : mesh R) : Prop := {
  hr_geom : ms_geom ms' = ms_geom ms;
  hr_cells : ms_cells ms' = ms_cells ms;
  hr_bounds : forall k, (0 <= k <= ms_cells ms)%Z -> vat (ms_bounds ms') k = vat (ms_bounds ms) k * s;
  hr_mats : forall m, (0 <= m < ms_cells ms)%Z -> let a := cell_material ms m in let b := cell_material ms' m in
    mt_temp b = mt_temp a /\ mt_cond b = option_map (map (fun x => x * (w / s))) (mt_cond a) /\ mt_heat b = mt_heat a * (w / s ^ 3)
}.
(* the conditions A T + B q = C: B is in m2 K/W. An insulated face, A = C = 0, may be
   written with any B. *)
Definition bc_rescaled (s w : R) (b b' : bc) : Prop :=
  bcA b' = bcA b /\ bcC b' = bcC b /\ (bcB b' = bcB b * (s ^ 2 / w) \/ (bcA b = 0 /\ bcC b = 0)).

Section Units.
Variables (s w : R).
Hypothesis Hs : 0 < s.
Hypothesis Hw : 0 < w.

Lemma quot x y a b : b <> 0 -> (x * a) / (y * b) = x / y * (a / b).
Proof. intros Hb. unfold Rdiv. rewrite Rinv_mult. ring. Qed.

Section System.
Variables (ms ms' : mesh R) (L L' Q Q' : bc).
Hypothesis Hc : conducting ms.
Hypothesis Hre : heat_rescaled s w ms ms'.
Hypothesis HL : bc_rescaled s w L L'.
Hypothesis HQ : bc_rescaled s w Q Q'.
Let n := ms_cells ms.
Let area := s ^ (dimension (ms_geom ms) - 1).
(* the factor of the conductances *)
Let f := area * w / s ^ 2.

Lemma area_nz : area <> 0.
Proof using Hs. apply pow_nonzero. lra. Qed.
Lemma factor_nz : f <> 0.
Proof using Hs Hw. unfold f. pose proof area_nz. apply Rmult_integral_contrapositive. split; [apply Rmult_integral_contrapositive; split; [assumption|lra]|apply Rinv_neq_0_compat, pow_nonzero; lra]. Qed.
Lemma u_width i : (0 <= i < n)%Z -> width ms' i = width ms i * s.
Proof using Hre. intros Hi. unfold width. rewrite !(hr_bounds _ _ _ _ Hre) by (unfold n in Hi; lia). ring. Qed.
Lemma u_face i : (0 <= i <= n)%Z -> face ms' i = face ms i * area.
Proof using Hre Hc.
  intros Hi. unfold face. rewrite (hr_geom _ _ _ _ Hre), (hr_bounds _ _ _ _ Hre) by exact Hi. unfold area.
  destruct Hc as (Hg & _). destruct (ms_geom ms); [congruence|cbn; ring|cbn; ring|cbn; ring].
Qed.
Lemma u_volume i : (0 <= i < n)%Z -> cell_volume ms' i = cell_volume ms i * (area * s).
Proof using Hre Hc.
  intros Hi. unfold cell_volume. rewrite (hr_geom _ _ _ _ Hre), !(hr_bounds _ _ _ _ Hre) by (unfold n in Hi; lia). unfold area.
  destruct Hc as (Hg & _). destruct (ms_geom ms); [congruence|cbn; ring|cbn; ring|cbn; ring].
Qed.
Lemma u_cond i : (0 <= i < n)%Z -> conductivity ms' i = conductivity ms i * (w / s).
Proof using Hre.
  intros Hi. destruct (hr_mats _ _ _ _ Hre i Hi) as (E1 & E2 & _). unfold conductivity. rewrite E1, E2.
  destruct (mt_cond (cell_material ms i)) as [c|]; cbn [option_map]; [apply law_times|ring].
Qed.
Lemma u_ilam i : (0 <= i < n)%Z -> ilam ms' i = ilam ms i * (w / s * area).
Proof using Hs Hw Hre Hc.
  intros Hi. unfold ilam. rewrite (hr_cells _ _ _ _ Hre). fold n. rewrite u_face by lia.
  destruct ((1 <=? i) && (i <? n - 1))%Z eqn:E; [|rewrite u_cond by exact Hi; ring].
  rewrite !u_cond, !u_width by lia.
  assert (D : width ms (i - 1) * s / (width ms i * s + width ms (i - 1) * s) = width ms (i - 1) / (width ms i + width ms (i - 1))).
  { rewrite <- Rmult_plus_distr_r, quot by lra. replace (s / s) with 1 by (field; lra). ring. }
  rewrite D. set (x := width ms (i - 1) / (width ms i + width ms (i - 1))). set (k := conductivity ms (i - 1)). set (l := conductivity ms i). clearbody x k l.
  unfold Rdiv. rewrite !Rinv_mult, !Rinv_inv.
  replace ((1 - x) * (/ k * (/ w * s)) + x * (/ l * (/ w * s))) with (((1 - x) * / k + x * / l) * (/ w * s)) by ring.
  rewrite !Rinv_mult, !Rinv_inv. ring.
Qed.
Lemma u_isz i : (0 <= i < n)%Z -> isz ms' i = isz ms i * s.
Proof using Hre. intros Hi. unfold isz. rewrite (hr_cells _ _ _ _ Hre). fold n. destruct ((1 <=? i) && (i <? n - 1))%Z eqn:E; rewrite !u_width by lia; ring. Qed.
Lemma u_ratio : w / s * area / s = f.
Proof using Hs. unfold f. field. lra. Qed.
Lemma u_right i : (0 <= i < n - 1)%Z -> gright ms' i = gright ms i * f.
Proof using Hs Hw Hre Hc. intros Hi. unfold gright. rewrite u_ilam, u_isz, quot, u_ratio by (lia || lra). reflexivity. Qed.
Lemma u_left i : (0 < i < n)%Z -> gleft ms' i = gleft ms i * f.
Proof using Hs Hw Hre Hc.
  intros Hi. unfold gleft. rewrite (hr_cells _ _ _ _ Hre). fold n. destruct (i =? n - 1)%Z; rewrite u_ilam, u_isz, quot, u_ratio by (lia || lra); reflexivity.
Qed.
Lemma u_hmat i j : (0 <= i < n)%Z -> (0 <= j < n)%Z -> hmat ms' i j = hmat ms i j * f.
Proof using Hs Hw Hre Hc.
  intros Hi Hj. unfold hmat. rewrite (hr_cells _ _ _ _ Hre). fold n. cbn zeta.
  destruct (Z.eqb_spec j i).
  - destruct (Z.ltb_spec i (n - 1)), (Z.ltb_spec 0 i); rewrite ?u_right, ?u_left by lia; ring.
  - destruct (Z.eqb_spec j (i + 1)); [rewrite u_right by lia; ring|]. destruct (Z.eqb_spec j (i - 1)); [rewrite u_left by lia; ring|ring].
Qed.
Lemma u_bc b b' k D D' : bc_rescaled s w b b' -> k <> 0 -> (bcB b' = bcB b * (s ^ 2 / w) -> D' = D * k) ->
  bcA b' / D' = bcA b / D * / k /\ bcC b' / D' = bcC b / D * / k.
Proof using.
  intros (-> & -> & [E|[-> ->]]) Hk HD.
  - rewrite (HD E). unfold Rdiv. rewrite Rinv_mult. split; ring.
  - unfold Rdiv. split; ring.
Qed.
Lemma u_alpha_left : alphaL ms' L' = alphaL ms L * f /\ betaL ms' L' = betaL ms L * f.
Proof using Hs Hw Hre Hc HL.
  unfold alphaL, betaL, is_slab. rewrite (hr_geom _ _ _ _ Hre). pose proof Hc as (_ & Hn & _). fold n in Hn.
  assert (G : ms_geom ms = SLAB \/ ms_geom ms <> SLAB) by (clear; destruct (ms_geom ms); auto; right; discriminate).
  destruct G as [G|G]; [|assert (E : forall x y : R, match ms_geom ms with SLAB => x | _ => y end = y) by (clear - G; intros; destruct (ms_geom ms); congruence); destruct (ms_geom ms); try congruence; split; ring].
  assert (A : area = 1) by (unfold area; rewrite G; reflexivity). rewrite G.
  destruct (u_bc L L' (s ^ 2 / w) (denL ms L) (denL ms' L') HL) as (E1 & E2).
  - apply Rmult_integral_contrapositive. split; [apply pow_nonzero; lra|apply Rinv_neq_0_compat; lra].
  - intros E. destruct HL as (A1 & _ & _). unfold denL. rewrite A1, E, u_width, u_ilam, A by lia.
    replace (2 * (ilam ms 0 * (w / s * 1))) with (2 * ilam ms 0 * (w / s)) by ring. rewrite quot by (apply Rgt_not_eq, Rdiv_lt_0_compat; assumption). generalize (width ms 0 / (2 * ilam ms 0)). intros. field. lra.
  - assert (F : / (s ^ 2 / w) = f) by (unfold f; rewrite A; field; lra). rewrite F in E1, E2. split; [exact E1|].
    unfold Rdiv in *. rewrite !Ropp_mult_distr_l_reverse, E2. ring.
Qed.
Lemma u_alpha_right : alphaR ms' Q' = alphaR ms Q * f /\ betaR ms' Q' = betaR ms Q * f.
Proof using Hs Hw Hre Hc HQ.
  unfold alphaR, betaR. pose proof Hc as (_ & Hn & _). fold n in Hn. pose proof area_nz as An.
  destruct (u_bc Q Q' (s ^ 2 / w / area) (denR ms Q) (denR ms' Q') HQ) as (E1 & E2).
  - apply Rmult_integral_contrapositive. split; [|apply Rinv_neq_0_compat, An]. apply Rmult_integral_contrapositive. split; [apply pow_nonzero; lra|apply Rinv_neq_0_compat; lra].
  - intros E. destruct HQ as (A1 & _ & _). unfold denR. rewrite (hr_cells _ _ _ _ Hre). fold n. cbn zeta. rewrite A1, E, u_width, u_ilam, !u_face by lia.
    replace (2 * (face ms n * area) * (ilam ms (n - 1) * (w / s * area))) with (2 * face ms n * ilam ms (n - 1) * (w / s * area * area)) by ring.
    rewrite (quot (2 * face ms n * ilam ms (n - 1))) by exact An. rewrite !quot by (first [exact An|apply Rmult_integral_contrapositive; split; [|apply Rinv_neq_0_compat, An]; repeat (apply Rmult_integral_contrapositive; split); try exact An; try lra; apply Rinv_neq_0_compat; lra]).
    generalize (width ms (n - 1) / (2 * face ms n * ilam ms (n - 1) / face ms (n - 1))). unfold Rdiv. generalize (/ face ms n). intros. field. repeat split; try exact An; lra.
  - assert (F : / (s ^ 2 / w / area) = f) by (unfold f; field; repeat split; try exact An; lra). rewrite F in E1, E2. split; [exact E1|].
    unfold Rdiv in *. rewrite !Ropp_mult_distr_l_reverse, E2. ring.
Qed.
Lemma u_mat i j : (0 <= i < n)%Z -> (0 <= j < n)%Z -> fullmat ms' L' Q' i j = fullmat ms L Q i j * f.
Proof using Hs Hw Hre Hc HL HQ.
  intros Hi Hj. unfold fullmat. rewrite (hr_cells _ _ _ _ Hre). fold n. rewrite u_hmat by assumption. destruct u_alpha_left as [-> _]. destruct u_alpha_right as [-> _].
  destruct ((i =? 0) && (j =? 0))%Z, ((i =? n - 1) && (j =? n - 1))%Z; ring.
Qed.
Lemma u_source i : (0 <= i < n)%Z -> fullsource ms' L' Q' i = fullsource ms L Q i * f.
Proof using Hs Hw Hre Hc HL HQ.
  intros Hi. unfold fullsource. rewrite (hr_cells _ _ _ _ Hre). fold n. rewrite u_volume by assumption. destruct u_alpha_left as [_ ->]. destruct u_alpha_right as [_ ->].
  unfold stored_heat. destruct (hr_mats _ _ _ _ Hre i Hi) as (_ & _ & ->).
  assert (E : w / s ^ 3 * (area * s) = f) by (unfold f; field; lra).
  replace (mt_heat (cell_material ms i) * (w / s ^ 3) * (cell_volume ms i * (area * s))) with (mt_heat (cell_material ms i) * cell_volume ms i * f) by (rewrite <- E; ring).
  destruct (i =? 0)%Z, (i =? n - 1)%Z; ring.
Qed.
End System.

(* ---------- the iteration ---------- *)

Lemma reheated_rescaled ms ms' m1 m1' : heat_rescaled s w ms ms' -> reheated ms m1 -> reheated ms' m1' ->
  (forall i, (0 <= i < ms_cells ms)%Z -> temp m1' i = temp m1 i) -> heat_rescaled s w m1 m1'.
Proof using.
  intros [G Hcl Hb Hm] [(c & g & b & ge & l) M] [(c' & g' & b' & ge' & l') M'] HT.
  split; [congruence|congruence|rewrite c, b, b'; exact Hb|]. rewrite c. intros m Hi. cbn zeta. rewrite M by exact Hi. rewrite M' by (rewrite Hcl; exact Hi).
  destruct (Hm m Hi) as (_ & E2 & E3). cbn [set_temp mt_temp mt_cond mt_heat]. rewrite HT by exact Hi. auto.
Qed.
Lemma rescaled_conducting ms ms' : conducting ms -> heat_rescaled s w ms ms' -> (ms_cells ms' + 1 = vlen (ms_bounds ms'))%Z -> (ms_cells ms' <= zlen (ms_mats ms'))%Z -> conducting ms'.
Proof using.
  intros (Hg & Hn & _ & _ & Hk) [G Hcl Hb Hm] H1 H2. split; [congruence|]. split; [lia|]. split; [exact H1|]. split; [exact H2|].
  rewrite Hcl. intros m Hi E. destruct (Hm m Hi) as (_ & E2 & _). rewrite E in E2. specialize (Hk m Hi). destruct (mt_cond (cell_material ms m)); [discriminate|congruence].
Qed.

Section Run.
Variables (solver : mat R -> vec R -> vec R) (sd sd' : solverData R) (L L' Q Q' : bc).
Hypothesis HX : exact solver.
Hypothesis HB : boundaries sd L Q.
Hypothesis HB' : boundaries sd' L' Q'.
Hypothesis HL : bc_rescaled s w L L'.
Hypothesis HQ : bc_rescaled s w Q Q'.
Hypothesis Hacc : sd_acc sd' = sd_acc sd.

Lemma step_units ms ms' : conducting ms -> conducting ms' -> physical ms -> well_posed ms L Q -> heat_rescaled s w ms ms' ->
  exists m1 m1', heatStep PI solver sd ms = Ok m1 /\ heatStep PI solver sd' ms' = Ok m1' /\ reheated ms m1 /\ reheated ms' m1' /\
    forall i, (0 <= i < ms_cells ms)%Z -> temp m1' i = temp m1 i.
Proof using Hs Hw HX HB HB' HL HQ.
  intros Hc Hc' Hp Hwp Hre. pose proof HX as [Hf He]. pose proof (well_posed_injective ms L Q Hc Hp Hwp) as Hi.
  destruct (heatStep_ok solver sd ms L Q Hc HB Hf) as (m1 & E & R1 & _).
  destruct (heatStep_ok solver sd' ms' L' Q' Hc' HB' Hf) as (m1' & E' & R1' & (A & q & Es & Hx)).
  exists m1, m1'. repeat (split; [assumption|]).
  pose proof (step_solves solver sd L Q ms m1 Hc Hp HB HX Hi E) as Sol.
  pose proof (hr_cells _ _ _ _ Hre) as Hcl. pose proof (factor_nz ms) as Fn.
  set (f := s ^ (dimension (ms_geom ms) - 1) * w / s ^ 2) in Fn. set (n := ms_cells ms) in *.
  assert (UM : forall i j, (0 <= i < n)%Z -> (0 <= j < n)%Z -> fullmat ms' L' Q' i j = fullmat ms L Q i j * f) by (intros; apply u_mat; assumption).
  assert (UA : forall x i, (0 <= i < n)%Z -> app n (fullmat ms' L' Q') x i = f * app n (fullmat ms L Q) x i).
  { intros x i Hii. unfold app. rewrite <- rsum_scal. apply rsum_ext. intros j Hj. rewrite UM by assumption. ring. }
  assert (Hi' : injective n (fullmat ms' L' Q')).
  { intros x Hxx. apply Hi. intros i Hii. specialize (Hxx i Hii). rewrite UA in Hxx by exact Hii. apply Rmult_integral in Hxx. destruct Hxx; [contradiction|assumption]. }
  destruct (wp_ok _ _ (heatSystem_wp ms' sd' L' Q' Hc' HB')) as ([A0 q0] & E0 & HA & Lq & Hq). rewrite Es in E0. injection E0 as <- <-. cbn [fst snd] in *.
  rewrite Hcl in HA, Lq, Hq, Hx. apply (injective_equal n (fullmat ms L Q) _ _ Hi). intros i Hii. rewrite Sol by exact Hii.
  apply (Rmult_eq_reg_l f); [|exact Fn]. rewrite <- UA by exact Hii.
  rewrite (app_ext n (fullmat ms' L' Q') (fullmat ms' L' Q') (temp m1') (vat (solver A q)) i (fun _ _ => eq_refl) Hx).
  rewrite (He n A q _ HA Lq Hi' i Hii), Hq by exact Hii. rewrite (u_source ms ms' L L' Q Q' Hc Hre HL HQ i Hii). fold f. ring.
Qed.

Lemma well_posed_reheated ms m1 : reheated ms m1 -> well_posed ms L Q -> well_posed m1 L Q.
Proof using. intros [(_ & _ & _ & ge & _) _]. unfold well_posed, is_slab. rewrite ge. auto. Qed.

Lemma loop_units k : forall ms ms' old old', conducting ms -> conducting ms' -> good_material ms -> good_geometry ms -> well_posed ms L Q -> heat_rescaled s w ms ms' ->
  vlen old = ms_cells ms -> vlen old' = ms_cells ms -> (forall i, (0 <= i < ms_cells ms)%Z -> vat old' i = vat old i) ->
  match heatLoop PI solver sd k ms old, heatLoop PI solver sd' k ms' old' with
  | Ok None, Ok None => True
  | Ok (Some a), Ok (Some b) => reheated ms a /\ reheated ms' b /\ forall i, (0 <= i < ms_cells ms)%Z -> temp b i = temp a i
  | _, _ => False
  end.
Proof using Hs Hw HX HB HB' HL HQ Hacc.
  induction k as [|k IH]; intros ms ms' old old' Hc Hc' Hgm Hgg Hwp Hre Lo Lo' Ho; [exact I|].
  destruct (step_units ms ms' Hc Hc' (good_physical ms ms Hc Hgm Hgg (reheated_refl ms)) Hwp Hre) as (m1 & m1' & E & E' & R1 & R1' & HT).
  cbn [heatLoop]. rewrite E, E'. cbn [bind].
  destruct (reheated_facts ms m1 R1 Hc) as (Hc1 & N1 & B1 & _ & F1). destruct (reheated_facts ms' m1' R1' Hc') as (Hc1' & N1' & _). pose proof (hr_cells _ _ _ _ Hre) as Hcl.
  destruct (temps_ok m1 Hc1) as (new & En & Ln & Hnew). destruct (temps_ok m1' Hc1') as (new' & En' & Ln' & Hnew'). rewrite En, En'. cbn [bind].
  pose proof Hc as (_ & Hn & _).
  destruct (maxDifference_ok new old (sd_acc sd) ltac:(lia) ltac:(lia)) as (m & Em & Hm). destruct (maxDifference_ok new' old' (sd_acc sd) ltac:(lia) ltac:(lia)) as (m' & Em' & Hm').
  rewrite Em, Em'. cbn [bind]. rewrite Hacc.
  assert (Nw : forall i, (0 <= i < ms_cells ms)%Z -> vat new' i = vat new i) by (intros i Hi; rewrite Hnew, Hnew' by lia; apply HT, Hi).
  assert (S : m < sd_acc sd <-> m' < sd_acc sd).
  { rewrite Hm, Hm'. rewrite Ln, Ln', N1, N1', Hcl. split; intros [Ha H]; (split; [exact Ha|]); intros i Hi; specialize (H i Hi); rewrite Nw, Ho in * by exact Hi; exact H. }
  change (m [<] sd_acc sd) with (Rltb m (sd_acc sd)). change (m' [<] sd_acc sd) with (Rltb m' (sd_acc sd)).
  destruct (Rltb m (sd_acc sd)) eqn:Ec, (Rltb m' (sd_acc sd)) eqn:Ec'; rewrite ?Rltb_true, ?Rltb_false in *.
  - auto.
  - exfalso. apply S in Ec. lra.
  - exfalso. apply S in Ec'. lra.
  - assert (Hgm1 : good_material m1) by (intros i t Hi; rewrite N1 in Hi; destruct (F1 i Hi) as (_ & _ & ->); apply Hgm, Hi).
    assert (Hgg1 : good_geometry m1) by (unfold good_geometry; rewrite B1; exact Hgg).
    specialize (IH m1 m1' new new' Hc1 Hc1' Hgm1 Hgg1 (well_posed_reheated ms m1 R1 Hwp) (reheated_rescaled ms ms' m1 m1' Hre R1 R1' HT) ltac:(lia) ltac:(lia) ltac:(rewrite N1; exact Nw)).
    destruct (heatLoop PI solver sd k m1 new) as [[a|]|x|x|x], (heatLoop PI solver sd' k m1' new') as [[b|]|y|y|y]; try exact IH.
    destruct IH as (Ra & Rb & H). rewrite N1 in H. split; [exact (reheated_trans _ _ _ R1 Ra)|]. split; [exact (reheated_trans _ _ _ R1' Rb)|exact H].
Qed.
End Run.
End Units.

(* Two heat calculations of the same body, in different units: the same temperatures in
   every cell, or both give up. *)
Theorem C99_heat_units solver sd sd' L L' Q Q' s w r r' :
  let ms := rx_mesh r in let ms' := rx_mesh r' in let n := ms_cells ms in
  conducting ms -> conducting ms' -> good_material ms -> good_geometry ms -> boundaries sd L Q -> boundaries sd' L' Q' ->
  exact solver -> well_posed ms L Q -> 0 < s -> 0 < w -> heat_rescaled s w ms ms' -> bc_rescaled s w L L' -> bc_rescaled s w Q Q' ->
  sd_acc sd' = sd_acc sd -> sd_max sd' = sd_max sd ->
  match heatSolve PI solver sd r, heatSolve PI solver sd' r' with
  | Ok (o, a), Ok (o', b) => forall i, (0 <= i < n)%Z -> temp (rx_mesh b) i = temp (rx_mesh a) i /\ vat o' i = vat o i
  | Exit x, Exit y => x = y
  | _, _ => False
  end.
Proof.
  intros ms ms' n Hc Hc' Hgm Hgg HB HB' HX Hwp Hs Hw Hre HL HQ Hacc Hmax.
  destruct (wp_ok _ _ (newHeatCode_wp ms Hc)) as (hc & Eh & _). destruct (wp_ok _ _ (newHeatCode_wp ms' Hc')) as (hc' & Eh' & _).
  destruct (temps_ok ms Hc) as (old & Eo & Lo & Ho). destruct (temps_ok ms' Hc') as (old' & Eo' & Lo' & Ho'). pose proof (hr_cells _ _ _ _ Hre) as Hcl.
  unfold heatSolve. fold ms ms'. rewrite Eh, Eh', Eo, Eo', Hmax, Hcl. cbn [bind].
  pose proof (loop_units s w Hs Hw solver sd sd' L L' Q Q' HX HB HB' HL HQ Hacc (Z.to_nat (sd_max sd)) ms ms' (vones (ms_cells ms)) (vones (ms_cells ms)) Hc Hc' Hgm Hgg Hwp Hre eq_refl eq_refl (fun _ _ => eq_refl)) as H.
  destruct (heatLoop PI solver sd (Z.to_nat (sd_max sd)) ms (vones (ms_cells ms))) as [[a|]|x|x|x],
    (heatLoop PI solver sd' (Z.to_nat (sd_max sd)) ms' (vones (ms_cells ms))) as [[b|]|y|y|y]; try contradiction; cbn [bind rx_mesh with_mesh]; [|reflexivity].
  destruct H as (_ & _ & H). intros i Hi. split; [apply H, Hi|]. rewrite Ho, Ho' by (unfold n in Hi; lia). unfold temp. apply (hr_mats _ _ _ _ Hre i Hi).
Qed.
Print Assumptions C99_heat_units.

(* ---------- the hypotheses are met ---------- *)

Definition heat_rescale_material (s w : R) (m : material R) : material R :=
  mkMaterial (mt_name m) (mt_energies m) (mt_temp m) (mt_heat m * (w / s ^ 3)) (mt_flux m) (mt_adj m) (mt_totflux m)
    (option_map (map (fun x => x * (w / s))) (mt_cond m)) (mt_totXS m) (mt_fisXS m) (mt_diff m) (mt_scatt m) (mt_ni m) (mt_chi m).
Definition heat_rescale (s w : R) (ms : mesh R) : mesh R :=
  mkMesh (mkvec (vlen (ms_bounds ms)) (fun k => vat (ms_bounds ms) k * s)) (ms_geom ms) (ms_cells ms) (ms_groups ms)
    (map (heat_rescale_material s w) (ms_mats ms)) (ms_nfwd ms) (ms_nadj ms).
Lemma heat_rescale_ok s w ms : conducting ms -> conducting (heat_rescale s w ms) /\ heat_rescaled s w ms (heat_rescale s w ms).
Proof.
  intros Hc. pose proof Hc as (Hg & Hn & Hb & Hm & Hk).
  assert (H : heat_rescaled s w ms (heat_rescale s w ms)).
  { split; try reflexivity. intros m Hi. cbn zeta.
    assert (E : cell_material (heat_rescale s w ms) m = heat_rescale_material s w (cell_material ms m)).
    { unfold cell_material. cbn [heat_rescale ms_mats]. unfold zlen in Hm. rewrite (nth_indep _ dm0 (heat_rescale_material s w dm0)) by (rewrite map_length; lia). apply map_nth. }
    rewrite E. repeat split. }
  split; [|exact H]. apply (rescaled_conducting s w ms); [exact Hc|exact H|exact Hb|]. unfold zlen in *. cbn [heat_rescale ms_cells ms_mats]. rewrite map_length. exact Hm.
Qed.

(* three cells heated unequally, one face insulated, the other cooled: lengths doubled and
   watts trebled, the insulated face left as it is *)
Example C99_heat_units_met : exists solver o a o' b,
  let sd := heat_data [0; 1; 0; 1; 2; 30] in let sd' := heat_data [0; 1; 0; 1; 2 * (2 ^ 2 / 3); 30] in
  let big := heat_rescale 2 3 slab3 in
  heat_rescaled 2 3 slab3 big /\ mt_heat (cell_material big 0) = 5 * (3 / 8) /\
  heatSolve PI solver sd (with_mesh slab3 newReactor) = Ok (o, a) /\ heatSolve PI solver sd' (with_mesh big newReactor) = Ok (o', b) /\
  forall i, (0 <= i < 3)%Z -> temp (rx_mesh b) i = temp (rx_mesh a) i.
Proof.
  destruct PropsHeat.exact_exists as (solver & He). exists solver. destruct slab3_ok as (Hc & Hp & Hg & Hge).
  destruct (heat_rescale_ok 2 3 slab3 Hc) as (Hc' & Hre).
  set (L := mkbc 0 1 0). set (Q := mkbc 1 2 30). set (Q' := mkbc 1 (2 * (2 ^ 2 / 3)) 30).
  assert (W : well_posed slab3 L Q).
  { split; [intros _; unfold admissible; cbn; lra|]. split; [unfold admissible; cbn; lra|]. left. cbn. lra. }
  assert (HL : bc_rescaled 2 3 L L) by (split; [reflexivity|split; [reflexivity|right; split; reflexivity]]).
  assert (HQ : bc_rescaled 2 3 Q Q') by (split; [reflexivity|split; [reflexivity|left; reflexivity]]).
  assert (K : constant_conductivity slab3) by (intros i Hi; cells3 i; eexists; (split; [|reflexivity]); lra).
  destruct (C87_constant_conductivity solver (heat_data [0; 1; 0; 1; 2; 30]) L Q (with_mesh slab3 newReactor) Hc K Hge (or_introl eq_refl) He W ltac:(cbn; lra) ltac:(cbn; lia)) as (o & m & _ & _ & E & _).
  pose proof (C99_heat_units solver (heat_data [0; 1; 0; 1; 2; 30]) (heat_data [0; 1; 0; 1; 2 * (2 ^ 2 / 3); 30]) L L Q Q' 2 3 (with_mesh slab3 newReactor) (with_mesh (heat_rescale 2 3 slab3) newReactor)
    Hc Hc' Hg Hge (or_introl eq_refl) (or_introl eq_refl) He W ltac:(lra) ltac:(lra) Hre HL HQ eq_refl eq_refl) as H.
  rewrite E in H. destruct (heatSolve PI solver (heat_data [0; 1; 0; 1; 2 * (2 ^ 2 / 3); 30]) (with_mesh (heat_rescale 2 3 slab3) newReactor)) as [[o' b]|x|x|x] eqn:E'; [|contradiction|contradiction|contradiction].
  exists o, (with_mesh m (with_mesh slab3 newReactor)), o', b. cbn zeta. split; [exact Hre|]. split; [cbn; lra|]. split; [exact E|]. split; [exact E'|].
  intros i Hi. apply (H i Hi).
Qed.
