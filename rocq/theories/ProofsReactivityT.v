(* What changes of the data do to the multiplication factor: transport in slabs. *)
From Coq Require Import String ZArith List Bool Lia Reals Lra.
From Verif Require Import Base BaseLemmas NumR LinAlg Blocks PowerMethod ModelNumTools ModelEigen ModelMesh
  ModelReactor ModelDiffusion ModelSpectrum ProofsSpectrum ProofsSpectrumR ProofsEigen ProofsMesh ProofsDiffusion ProofsDiffusionR Kernels PropsDiffusion PropsSpectrum
  PropsSpectrumB ProofsConverge ProofsConvergeD ProofsConvergeT ProofsReactivity.
Import ListNotations.
Local Open Scope R_scope.

(* physical cross sections of a slab that scatters within every group *)
Record slab_physics (ms : mesh R) : Prop := {
  sp_slab : ms_geom ms = SLAB;
  sp_scatt : forall e e' i, (0 <= e < ms_groups ms)%Z -> (0 <= e' < ms_groups ms)%Z -> (0 <= i < ms_cells ms)%Z -> 0 <= tsc (mesh_tables ms) e e' i;
  sp_abs : forall e i, (0 <= e < ms_groups ms)%Z -> (0 <= i < ms_cells ms)%Z -> rsum 0 (ms_groups ms) (fun e' => tsc (mesh_tables ms) e e' i) < ttot (mesh_tables ms) e i;
  sp_within : forall e i, (0 <= e < ms_groups ms)%Z -> (0 <= i < ms_cells ms)%Z -> 0 < tsc (mesh_tables ms) e e i;
  sp_chi : forall e i, (0 <= e < ms_groups ms)%Z -> (0 <= i < ms_cells ms)%Z -> 0 <= tchi (mesh_tables ms) e i;
  sp_fis : forall e i, (0 <= e < ms_groups ms)%Z -> (0 <= i < ms_cells ms)%Z -> 0 <= tni (mesh_tables ms) e i * tfis (mesh_tables ms) e i }.

(* two slabs with the same cells and the same total cross sections; the first
   scatters no more, makes no more fission neutrons *)
Record no_better_slab (ms1 ms2 : mesh R) : Prop := {
  ns_cells : ms_cells ms1 = ms_cells ms2;
  ns_groups : ms_groups ms1 = ms_groups ms2;
  ns_width : forall m, (0 <= m < ms_cells ms2)%Z -> tdx (mesh_tables ms1) m = tdx (mesh_tables ms2) m;
  ns_volume : forall m, (0 <= m < ms_cells ms2)%Z -> tV (mesh_tables ms1) m = tV (mesh_tables ms2) m;
  ns_total : forall e m, (0 <= e < ms_groups ms2)%Z -> (0 <= m < ms_cells ms2)%Z -> ttot (mesh_tables ms1) e m = ttot (mesh_tables ms2) e m;
  ns_scatt : forall e e' m, (0 <= e < ms_groups ms2)%Z -> (0 <= e' < ms_groups ms2)%Z -> (0 <= m < ms_cells ms2)%Z -> tsc (mesh_tables ms1) e e' m <= tsc (mesh_tables ms2) e e' m;
  ns_chi : forall e m, (0 <= e < ms_groups ms2)%Z -> (0 <= m < ms_cells ms2)%Z -> tchi (mesh_tables ms1) e m <= tchi (mesh_tables ms2) e m;
  ns_fission : forall e m, (0 <= e < ms_groups ms2)%Z -> (0 <= m < ms_cells ms2)%Z ->
    tni (mesh_tables ms1) e m * tfis (mesh_tables ms1) e m <= tni (mesh_tables ms2) e m * tfis (mesh_tables ms2) e m }.

Section One.
Variables (kb ex sq : R -> R) (ms : mesh R) (sd : solverData R) (a : R) (sc : specCode R) (g g' : ten3 R) (check M F : mat R).
Hypothesis Hready : transport_ready ms sd a.
Hypothesis Hrun : transport_run E3 kb ex sq ms sd sc g g' check M F.
Hypothesis Hp : slab_physics ms.
Hypothesis Ha : 0 <= a <= 1.
Notation n := (ms_cells ms).
Notation en := (ms_groups ms).
Notation d := (mesh_tables ms).

Lemma o_n : (1 <= n)%Z. Proof using Hready. apply Hready. Qed.
Lemma o_total h i : (0 <= h < en)%Z -> (0 <= i < n)%Z -> 0 < ttot d h i.
Proof using Hready. intros; apply Hready; auto. Qed.
Lemma o_width h i : (0 <= h < en)%Z -> (0 <= i < n)%Z -> 0 < thickness ms h i.
Proof using Hready Hrun.
  intros Hh Hi. destruct (run_spec _ _ _ _ _ _ _ _ _ _ _ _ _ Hready Hrun) as (Hc & _).
  unfold thickness. rewrite <- (co_width _ _ _ Hc), <- (co_sig _ _ _ Hc) by auto. apply (own_pos ms sd a sc Hready Hc); auto.
Qed.
Lemma o_volume i : (0 <= i < n)%Z -> 0 < tV d i.
Proof using Hready Hrun.
  intros Hi. destruct (run_spec _ _ _ _ _ _ _ _ _ _ _ _ _ Hready Hrun) as (Hc & _). rewrite <- (co_volume _ _ _ Hc) by exact Hi. apply (vol_pos ms sd a sc Hready Hc); exact Hi.
Qed.
Lemma o_out h i : (0 <= h < en)%Z -> (0 <= i < n)%Z -> 0 <= out ms g h i.
Proof using Hready Hrun Hp.
  intros Hh Hi. unfold out. pose proof (proj2 (C71_slab_probabilities _ _ _ _ _ _ _ _ _ _ _ _ Hready Hrun (sp_slab _ Hp) h i Hh Hi)). lra.
Qed.
Lemma o_surface : getExternalSurface PI ms "cm" = Ok 1.
Proof using Hready Hp. pose proof (spec_surface_ok ms ltac:(apply Hready) ltac:(apply Hready)) as ES. unfold spec_surface in ES. rewrite (sp_slab _ Hp) in ES. exact ES. Qed.
Lemma o_pss h : (0 <= h < en)%Z -> surface_to_surface ms 1 g h < 1.
Proof using Hready Hrun Hp.
  intros Hh. rewrite (C54_slab_value _ _ _ _ _ _ _ _ _ _ _ _ _ _ Hready Hrun (sp_slab _ Hp) E3_0 o_surface h Hh).
  assert (Ht : 0 < rsum 0 n (thickness ms h)) by (pose proof o_n; apply rsum_pos; [lia|]; intros l Hl; apply o_width; auto).
  set (t := rsum 0 n (thickness ms h)) in *. pose proof (E3_exp t ltac:(lra)).
  assert (exp (- t) < 1) by (rewrite <- exp_0; apply exp_increasing; lra). lra.
Qed.
(* some cell leaks *)
Lemma o_leaks h : (0 <= h < en)%Z -> exists i, (0 <= i < n)%Z /\ 0 < out ms g h i.
Proof using Hready Hrun Hp.
  intros Hh. pose proof (o_pss h Hh) as L. unfold surface_to_surface in L.
  assert (P : 0 < rsum 0 n (fun i => 4 * tV d i / 1 * out ms g h i * ttot d h i)) by lra.
  assert (T : forall i, (0 <= i < n)%Z -> 0 <= 4 * tV d i / 1 * out ms g h i * ttot d h i).
  { intros i Hi. pose proof (o_volume i Hi). pose proof (o_out h i Hh Hi). pose proof (o_total h i Hh Hi). apply Rmult_le_pos; [apply Rmult_le_pos|]; lra. }
  destruct (rsum_pos_term _ _ T P) as (i & Hi & Q).
  exists i. split; [exact Hi|]. destruct (o_out h i Hh Hi) as [X | X]; [exact X|]. rewrite <- X in Q. lra.
Qed.
Lemma o_reduced h i j : (0 <= h < en)%Z -> (0 <= i < n)%Z -> (0 <= j < n)%Z ->
  t3_at g' i j h = t3_at g i j h / ttot d h j + out ms g h i * (4 * tV d j * out ms g h j) * (a / (1 - surface_to_surface ms 1 g h * a)).
Proof using Hready Hrun Hp.
  intros Hh Hi Hj. destruct (run_spec _ _ _ _ _ _ _ _ _ _ _ _ _ Hready Hrun) as (Hc & HG & HW & _).
  destruct (out_bridge _ _ _ _ _ _ _ _ _ _ _ _ _ Hready Hrun) as [Ho Hq].
  assert (Es : sc_surface sc = 1) by (rewrite (co_surface _ _ _ Hc); unfold spec_surface; rewrite (sp_slab _ Hp); reflexivity).
  pose proof (o_total h j Hh Hj). rewrite Es in Hq.
  rewrite HW by auto. unfold white, back. rewrite Hq, !Ho, <- HG by auto. rewrite (co_volume _ _ _ Hc), (co_sig _ _ _ Hc), Es by auto. generalize (a / (1 - surface_to_surface ms 1 g h * a)). intros q. field. lra.
Qed.
Lemma o_pos h i j : (0 <= h < en)%Z -> (0 <= i < n)%Z -> (0 <= j < n)%Z -> 0 < t3_at g' i j h.
Proof using Hready Hrun Hp Ha. exact (reduced_pos kb ex sq ms sd a sc g g' check M F Hready Hrun (sp_slab _ Hp) Ha h i j). Qed.
Lemma o_M e i e' j : (0 <= e < en)%Z -> (0 <= i < n)%Z -> (0 <= e' < en)%Z -> (0 <= j < n)%Z ->
  mat_at M (i + e * n) (j + e' * n) = (if (i + e * n =? j + e' * n)%Z then 1 else 0) - t3_at g' i j e * tsc d e' e j.
Proof using Hready Hrun. intros He Hi He' Hj. destruct (C55_transport_operators _ _ _ _ _ _ _ _ _ _ _ _ _ Hready Hrun) as (_ & _ & _ & _ & X). apply (X e i e' j); auto. Qed.
Lemma o_F e i e' j : (0 <= e < en)%Z -> (0 <= i < n)%Z -> (0 <= e' < en)%Z -> (0 <= j < n)%Z ->
  mat_at F (i + e * n) (j + e' * n) = t3_at g' i j e * (tchi d e j * (tni d e' j * tfis d e' j)).
Proof using Hready Hrun. intros He Hi He' Hj. destruct (C55_transport_operators _ _ _ _ _ _ _ _ _ _ _ _ _ Hready Hrun) as (_ & _ & _ & _ & X). apply (X e i e' j); auto. Qed.
Lemma o_dims : mrows M = (n * en)%Z /\ mcols M = (n * en)%Z /\ mrows F = (n * en)%Z /\ mcols F = (n * en)%Z.
Proof using Hready Hrun. destruct (C55_transport_operators _ _ _ _ _ _ _ _ _ _ _ _ _ Hready Hrun) as (A & B & C & D & _). auto. Qed.
Lemma o_F_nonneg i j : (0 <= i < n * en)%Z -> (0 <= j < n * en)%Z -> 0 <= mat_at F i j.
Proof using Hready Hrun Hp Ha.
  intros Hi Hj. pose proof o_n. destruct (idx_decode n en i ltac:(lia) Hi) as (e & m & He & Hm & ->). destruct (idx_decode n en j ltac:(lia) Hj) as (e' & m' & He' & Hm' & ->).
  rewrite o_F by auto. apply Rmult_le_pos; [left; apply o_pos; auto|]. apply Rmult_le_pos; [apply (sp_chi _ Hp); auto|apply (sp_fis _ Hp); auto].
Qed.
Lemma o_off i j : (0 <= i < n * en)%Z -> (0 <= j < n * en)%Z -> i <> j -> mat_at M i j <= 0.
Proof using Hready Hrun Hp Ha.
  intros Hi Hj Hne. pose proof o_n. destruct (idx_decode n en i ltac:(lia) Hi) as (e & m & He & Hm & ->). destruct (idx_decode n en j ltac:(lia) Hj) as (e' & m' & He' & Hm' & ->).
  rewrite o_M by auto. destruct (Z.eqb_spec (m + e * n) (m' + e' * n)); [contradiction|].
  pose proof (Rmult_le_pos _ _ (Rlt_le _ _ (o_pos e m m' He Hm Hm')) (sp_scatt _ Hp e' e m' He' He Hm')). lra.
Qed.
Lemma o_leads e e' i i' : scatters_to d en n e e' -> (0 <= e < en)%Z -> (0 <= i < n)%Z -> (0 <= i' < n)%Z -> leads M (n * en) (i + e * n)%Z (i' + e' * n)%Z.
Proof using Hready Hrun Hp Ha. exact (lead_groups kb ex sq ms sd a sc g g' check M F Hready Hrun (sp_slab _ Hp) Ha (sp_within _ Hp) e e' i i'). Qed.

Variables (solver : mat R -> vec R -> vec R) (k : R) (phi : vec R).
Hypothesis Hs : settles solver M F k phi.
Lemma o_phi i : (0 <= i < n * en)%Z -> 0 <= vat phi i.
Proof using Hready Hrun Hs. destruct o_dims as (_ & C & _). destruct Hs as ((_ & _ & N & _) & _). rewrite C in N. apply N. Qed.
Lemma o_populated e m : populated ms sd d e -> (0 <= m < n)%Z -> (0 <= e < en)%Z /\ 0 < vat phi (m + e * n)%Z.
Proof using Hready Hrun Hp Ha Hs.
  intros (e0 & m0 & Hem & (_ & ef & Hef) & Hsc) Hm. assert (Een : sd_energies sd = en) by apply Hready. unfold emits, fissions in Hem, Hef. rewrite Een in *.
  destruct Hem as (He0 & Hm0 & Hc). destruct Hef as (Hef & _ & Hf). assert (He : (0 <= e < en)%Z) by (destruct Hsc; auto). split; [exact He|].
  destruct o_dims as (A1 & A2 & A3 & A4). pose proof Hs as ((K & _ & _ & _ & Eq) & _ & P & _). rewrite A1 in Eq. rewrite A3, A4 in P.
  assert (Pi : 0 < vat (mvmul F phi) (m0 + e0 * n)%Z).
  { apply (P _ (m0 + ef * n)%Z); [apply idx_range; auto|apply idx_range; auto|]. rewrite o_F by auto.
    apply Rmult_lt_0_compat; [apply o_pos; auto|]. apply Rmult_lt_0_compat; assumption. }
  assert (Q : forall i, (0 <= i < n * en)%Z -> 0 <= app (n * en) (mat_at M) (vat phi) i).
  { intros i Hi. rewrite app_vat, Eq by auto. apply Rmult_le_pos; [|left; apply Rinv_0_lt_compat, K]. rewrite mvmul_at, A4. apply rsum_nonneg. intros l Hl. apply Rmult_le_pos; [apply o_F_nonneg; auto|apply o_phi; auto]. }
  apply (leads_pos M (n * en) o_off (vat phi) o_phi Q (m0 + e0 * n)%Z); [apply o_leads; auto|].
  apply (source_pos M (n * en) o_off (vat phi) _ o_phi); [apply idx_range; auto|]. rewrite app_vat, Eq by (auto; apply idx_range; auto). apply Rdiv_lt_0_compat; assumption.
Qed.
Lemma o_fed e m : useful ms sd d e -> (0 <= e < en)%Z -> (0 <= m < n)%Z ->
  forall w, (forall j, (0 <= j < n * en)%Z -> 0 <= w j) -> (forall j, (0 <= j < n * en)%Z -> 0 <= app (n * en) (mat_at M) w j) ->
  0 < app (n * en) (mat_at M) w (m + e * n)%Z ->
  forall i, (0 <= i < n * en)%Z -> 0 < vat (mvmul F phi) i -> 0 < app (n * en) (mat_at F) w i.
Proof using Hready Hrun Hp Ha Hs.
  intros Hu He Hm w W Wm Wp i Hi Hsi. destruct o_dims as (A1 & A2 & A3 & A4). pose proof o_n as Hn. assert (Een : sd_energies sd = en) by apply Hready.
  destruct (idx_decode n en i ltac:(lia) Hi) as (ei & mi & Hei & Hmi & ->).
  assert (Hfi : exists l, fissile ms sd d l /\ (0 <= l < n)%Z /\ 0 < tchi d ei l).
  { rewrite mvmul_at, A4 in Hsi.
    assert (Q : forall j, (0 <= j < n * en)%Z -> 0 <= mat_at F (mi + ei * n) j * vat phi j) by (intros j Hj; apply Rmult_le_pos; [apply o_F_nonneg; auto|apply o_phi; auto]).
    destruct (rsum_pos_term _ _ Q Hsi) as (j & Hj & Hpj). destruct (idx_decode n en j ltac:(lia) Hj) as (ej & mj & Hej & Hmj & ->).
    rewrite o_F in Hpj by auto.
    assert (C : 0 < tchi d ei mj) by (destruct (sp_chi _ Hp ei mj Hei Hmj) as [P | P]; [exact P|rewrite <- P in Hpj; lra]).
    assert (G : 0 < tni d ej mj * tfis d ej mj) by (destruct (sp_fis _ Hp ej mj Hej Hmj) as [P | P]; [exact P|rewrite <- P in Hpj; lra]).
    exists mj. split; [|split; [exact Hmj|exact C]]. split; [exists ei|exists ej]; unfold emits, fissions; rewrite Een; auto. }
  destruct Hfi as (l & Hfi & Hl & Hc). destruct (Hu l Hfi) as (e' & Hsc' & Hf'). unfold fissions in Hf'. rewrite Een in Hf', Hsc'. destruct Hf' as (He' & _ & Hf').
  assert (P : 0 < w (l + e' * n)%Z).
  { apply (leads_pos M (n * en) o_off w W Wm (m + e * n)%Z); [apply o_leads; auto|]. apply (source_pos M (n * en) o_off w _ W); [apply idx_range; auto|exact Wp]. }
  unfold app. apply Rlt_le_trans with (mat_at F (mi + ei * n) (l + e' * n) * w (l + e' * n)%Z).
  - apply Rmult_lt_0_compat; [|exact P]. rewrite o_F by auto. apply Rmult_lt_0_compat; [apply o_pos; auto|]. apply Rmult_lt_0_compat; auto.
  - apply (rsum_term_le 0 (n * en) (fun q => mat_at F (mi + ei * n) q * w q)); [|apply idx_range; auto]. intros q Hq. apply Rmult_le_pos; [apply o_F_nonneg; auto|auto].
Qed.
End One.

Section Two.
Variables (kb ex sq : R -> R) (ms1 ms2 : mesh R) (sd1 sd2 : solverData R) (a1 a2 : R) (sc1 sc2 : specCode R) (g1 g1' g2 g2' : ten3 R) (ch1 M1 F1 ch2 M2 F2 : mat R).
Hypothesis Hready1 : transport_ready ms1 sd1 a1.
Hypothesis Hrun1 : transport_run E3 kb ex sq ms1 sd1 sc1 g1 g1' ch1 M1 F1.
Hypothesis Hp1 : slab_physics ms1.
Hypothesis Hready2 : transport_ready ms2 sd2 a2.
Hypothesis Hrun2 : transport_run E3 kb ex sq ms2 sd2 sc2 g2 g2' ch2 M2 F2.
Hypothesis Hp2 : slab_physics ms2.
Hypothesis Ha : 0 <= a1 /\ a1 <= a2 /\ a2 <= 1.
Hypothesis B : no_better_slab ms1 ms2.
Notation n := (ms_cells ms2).
Notation en := (ms_groups ms2).
Notation d1 := (mesh_tables ms1).
Notation d2 := (mesh_tables ms2).

Lemma b_vacuum h i j : (0 <= h < en)%Z -> (0 <= i < n)%Z -> (0 <= j < n)%Z -> t3_at g1 i j h = t3_at g2 i j h.
Proof using Hready1 Hrun1 Hp1 Hready2 Hrun2 Hp2 B.
  intros Hh Hi Hj. destruct B as [Hc Hg Hw HV HT _ _ _].
  destruct (run_spec _ _ _ _ _ _ _ _ _ _ _ _ _ Hready1 Hrun1) as (C1 & G1 & _). destruct (run_spec _ _ _ _ _ _ _ _ _ _ _ _ _ Hready2 Hrun2) as (C2 & G2 & _).
  rewrite G1, G2 by lia. unfold vacuum_P. rewrite (co_mesh _ _ _ C1), (co_mesh _ _ _ C2), (sp_slab _ Hp1), (sp_slab _ Hp2).
  assert (Eo : forall l, (0 <= l < n)%Z -> own sc1 h l = own sc2 h l).
  { intros l Hl. unfold own. rewrite (co_width _ _ _ C1), (co_width _ _ _ C2), (co_sig _ _ _ C1), (co_sig _ _ _ C2) by lia. rewrite Hw, HT by lia. reflexivity. }
  assert (Eg : forall p q, (0 <= p < n)%Z -> (0 <= q < n)%Z -> gap sc1 h p q = gap sc2 h p q).
  { intros p q Hp Hq. unfold gap. destruct (p =? q)%Z; [apply Eo; auto|]. apply rsum_ext. intros l Hl. apply Eo. lia. }
  assert (Eu : forall p q, (0 <= p < n)%Z -> (0 <= q < n)%Z -> slab_up E3 (gap sc1) h p q = slab_up E3 (gap sc2) h p q).
  { intros p q Hp Hq. unfold slab_up. rewrite !Eg by auto. reflexivity. }
  unfold slab_P. destruct (i <=? j)%Z; [apply Eu; auto|]. rewrite Eu by auto.
  rewrite !(co_sig _ _ _ C1), !(co_sig _ _ _ C2), !(co_volume _ _ _ C1), !(co_volume _ _ _ C2) by lia. rewrite !HT, !HV by lia. reflexivity.
Qed.
Lemma b_out h i : (0 <= h < en)%Z -> (0 <= i < n)%Z -> out ms1 g1 h i = out ms2 g2 h i.
Proof using Hready1 Hrun1 Hp1 Hready2 Hrun2 Hp2 B.
  intros Hh Hi. unfold out. rewrite (ns_cells _ _ B). f_equal. apply rsum_ext. intros j Hj. apply b_vacuum; auto.
Qed.
Lemma b_pss h : (0 <= h < en)%Z -> surface_to_surface ms1 1 g1 h = surface_to_surface ms2 1 g2 h.
Proof using Hready1 Hrun1 Hp1 Hready2 Hrun2 Hp2 B.
  intros Hh. unfold surface_to_surface. rewrite (ns_cells _ _ B). f_equal. apply rsum_ext. intros i Hi. rewrite b_out, (ns_volume _ _ B), (ns_total _ _ B) by auto. reflexivity.
Qed.
Lemma b_return p : p < 1 -> a1 / (1 - p * a1) <= a2 / (1 - p * a2) /\ (a1 < a2 -> a1 / (1 - p * a1) < a2 / (1 - p * a2)).
Proof using Ha.
  intros Hp. destruct Ha as (H0 & H1 & H2). assert (Pa : forall b, 0 <= b <= 1 -> 0 < 1 - p * b) by (intros b [[Q | <-] Q']; nra).
  assert (P1 : 0 < 1 - p * a1) by (apply Pa; lra). assert (P2 : 0 < 1 - p * a2) by (apply Pa; lra).
  assert (E : a2 / (1 - p * a2) - a1 / (1 - p * a1) = (a2 - a1) / ((1 - p * a2) * (1 - p * a1))) by (field; lra).
  assert (Q : 0 < (1 - p * a2) * (1 - p * a1)) by (apply Rmult_lt_0_compat; assumption).
  split.
  - assert (0 <= (a2 - a1) / ((1 - p * a2) * (1 - p * a1))) by (apply Rmult_le_pos; [lra|left; apply Rinv_0_lt_compat, Q]). lra.
  - intros L. assert (0 < (a2 - a1) / ((1 - p * a2) * (1 - p * a1))) by (apply Rdiv_lt_0_compat; lra). lra.
Qed.
Lemma b_reduced h i j : (0 <= h < en)%Z -> (0 <= i < n)%Z -> (0 <= j < n)%Z ->
  t3_at g1' i j h <= t3_at g2' i j h /\ (a1 < a2 -> 0 < out ms2 g2 h i -> 0 < out ms2 g2 h j -> t3_at g1' i j h < t3_at g2' i j h).
Proof using Hready1 Hrun1 Hp1 Hready2 Hrun2 Hp2 Ha B.
  intros Hh Hi Hj. pose proof B as [Hc Hg Hw HV HT _ _ _].
  rewrite (o_reduced kb ex sq ms1 sd1 a1 sc1 g1 g1' ch1 M1 F1 Hready1 Hrun1 Hp1 h i j) by lia.
  rewrite (o_reduced kb ex sq ms2 sd2 a2 sc2 g2 g2' ch2 M2 F2 Hready2 Hrun2 Hp2 h i j) by lia.
  rewrite b_vacuum, !b_out, b_pss, HT, HV by auto.
  pose proof (o_out kb ex sq ms2 sd2 a2 sc2 g2 g2' ch2 M2 F2 Hready2 Hrun2 Hp2 h i Hh Hi) as Oi. pose proof (o_out kb ex sq ms2 sd2 a2 sc2 g2 g2' ch2 M2 F2 Hready2 Hrun2 Hp2 h j Hh Hj) as Oj.
  pose proof (o_volume kb ex sq ms2 sd2 a2 sc2 g2 g2' ch2 M2 F2 Hready2 Hrun2 j Hj) as V.
  destruct (b_return (surface_to_surface ms2 1 g2 h) (o_pss kb ex sq ms2 sd2 a2 sc2 g2 g2' ch2 M2 F2 Hready2 Hrun2 Hp2 h Hh)) as [L S].
  set (c := out ms2 g2 h i * (4 * tV d2 j * out ms2 g2 h j)) in *. assert (C : 0 <= c) by (unfold c; apply Rmult_le_pos; [exact Oi|]; apply Rmult_le_pos; [lra|exact Oj]).
  split; [nra|]. intros A Qi Qj. assert (C' : 0 < c) by (unfold c; apply Rmult_lt_0_compat; [exact Qi|]; apply Rmult_lt_0_compat; [lra|exact Qj]). specialize (S A). nra.
Qed.

Lemma b_dims : (mrows M1 = n * en /\ mcols M1 = n * en /\ mrows F1 = n * en /\ mcols F1 = n * en)%Z /\
  (mrows M2 = n * en /\ mcols M2 = n * en /\ mrows F2 = n * en /\ mcols F2 = n * en)%Z.
Proof using Hready1 Hrun1 Hready2 Hrun2 B.
  split; [|exact (o_dims kb ex sq ms2 sd2 a2 sc2 g2 g2' ch2 M2 F2 Hready2 Hrun2)].
  rewrite <- (ns_cells _ _ B), <- (ns_groups _ _ B). exact (o_dims kb ex sq ms1 sd1 a1 sc1 g1 g1' ch1 M1 F1 Hready1 Hrun1).
Qed.
Lemma b_M1 e i e' j : (0 <= e < en)%Z -> (0 <= i < n)%Z -> (0 <= e' < en)%Z -> (0 <= j < n)%Z ->
  mat_at M1 (i + e * n) (j + e' * n) = (if (i + e * n =? j + e' * n)%Z then 1 else 0) - t3_at g1' i j e * tsc d1 e' e j.
Proof using Hready1 Hrun1 B. rewrite <- (ns_cells _ _ B), <- (ns_groups _ _ B). exact (o_M kb ex sq ms1 sd1 a1 sc1 g1 g1' ch1 M1 F1 Hready1 Hrun1 e i e' j). Qed.
Lemma b_F1 e i e' j : (0 <= e < en)%Z -> (0 <= i < n)%Z -> (0 <= e' < en)%Z -> (0 <= j < n)%Z ->
  mat_at F1 (i + e * n) (j + e' * n) = t3_at g1' i j e * (tchi d1 e j * (tni d1 e' j * tfis d1 e' j)).
Proof using Hready1 Hrun1 B. rewrite <- (ns_cells _ _ B), <- (ns_groups _ _ B). exact (o_F kb ex sq ms1 sd1 a1 sc1 g1 g1' ch1 M1 F1 Hready1 Hrun1 e i e' j). Qed.
Lemma b_pos1 h i j : (0 <= h < en)%Z -> (0 <= i < n)%Z -> (0 <= j < n)%Z -> 0 < t3_at g1' i j h.
Proof using Hready1 Hrun1 Hp1 Ha B.
  rewrite <- (ns_cells _ _ B), <- (ns_groups _ _ B). apply (o_pos kb ex sq ms1 sd1 a1 sc1 g1 g1' ch1 M1 F1 Hready1 Hrun1 Hp1). lra.
Qed.
Lemma b_sc1 e e' i : (0 <= e < en)%Z -> (0 <= e' < en)%Z -> (0 <= i < n)%Z -> 0 <= tsc d1 e e' i.
Proof using Hp1 B. rewrite <- (ns_cells _ _ B), <- (ns_groups _ _ B). apply (sp_scatt _ Hp1). Qed.
Lemma b_chi1 e i : (0 <= e < en)%Z -> (0 <= i < n)%Z -> 0 <= tchi d1 e i.
Proof using Hp1 B. rewrite <- (ns_cells _ _ B), <- (ns_groups _ _ B). apply (sp_chi _ Hp1). Qed.
Lemma b_fis1 e i : (0 <= e < en)%Z -> (0 <= i < n)%Z -> 0 <= tni d1 e i * tfis d1 e i.
Proof using Hp1 B. rewrite <- (ns_cells _ _ B), <- (ns_groups _ _ B). apply (sp_fis _ Hp1). Qed.

Lemma b_M i j : (0 <= i < n * en)%Z -> (0 <= j < n * en)%Z -> mat_at M2 i j <= mat_at M1 i j.
Proof using Hready1 Hrun1 Hp1 Hready2 Hrun2 Hp2 Ha B.
  intros Hi Hj. pose proof (o_n _ _ _ Hready2) as Hn. destruct (idx_decode n en i ltac:(lia) Hi) as (e & m & He & Hm & ->). destruct (idx_decode n en j ltac:(lia) Hj) as (e' & m' & He' & Hm' & ->).
  rewrite b_M1, (o_M kb ex sq ms2 sd2 a2 sc2 g2 g2' ch2 M2 F2 Hready2 Hrun2) by auto.
  assert (t3_at g1' m m' e * tsc d1 e' e m' <= t3_at g2' m m' e * tsc d2 e' e m'); [|lra].
  apply Rmult_le_compat; [left; apply b_pos1; auto|apply b_sc1; auto|apply b_reduced; auto|apply (ns_scatt _ _ B); auto].
Qed.
Lemma b_F i j : (0 <= i < n * en)%Z -> (0 <= j < n * en)%Z -> 0 <= mat_at F1 i j <= mat_at F2 i j.
Proof using Hready1 Hrun1 Hp1 Hready2 Hrun2 Hp2 Ha B.
  intros Hi Hj. pose proof (o_n _ _ _ Hready2) as Hn. destruct (idx_decode n en i ltac:(lia) Hi) as (e & m & He & Hm & ->). destruct (idx_decode n en j ltac:(lia) Hj) as (e' & m' & He' & Hm' & ->).
  rewrite b_F1, (o_F kb ex sq ms2 sd2 a2 sc2 g2 g2' ch2 M2 F2 Hready2 Hrun2) by auto.
  pose proof (b_pos1 e m m' He Hm Hm'). pose proof (b_chi1 e m' He Hm'). pose proof (b_fis1 e' m' He' Hm'). pose proof (ns_chi _ _ B e m' He Hm'). pose proof (ns_fission _ _ B e' m' He' Hm').
  assert (0 <= tchi d1 e m' * (tni d1 e' m' * tfis d1 e' m')) by (apply Rmult_le_pos; assumption).
  split; [apply Rmult_le_pos; lra|]. apply Rmult_le_compat; [lra|assumption|apply b_reduced; auto|]. apply Rmult_le_compat; assumption.
Qed.
Lemma b_monotone : monotone (n * en) (mat_at M2).
Proof using Hready2 Hrun2 Hp2 Ha.
  apply (transport_slab_monotone kb ex sq ms2 sd2 a2 sc2 g2 g2' ch2 M2 F2 Hready2 Hrun2 (sp_slab _ Hp2) ltac:(lra) (sp_scatt _ Hp2) (sp_abs _ Hp2)).
Qed.

Variables (solver1 solver2 : mat R -> vec R -> vec R) (k1 k2 : R) (phi1 phi2 : vec R).
Hypothesis S1 : settles solver1 M1 F1 k1 phi1.
Hypothesis S2 : settles solver2 M2 F2 k2 phi2.
Lemma b_pos2 i j : (0 <= i < n * en)%Z -> (0 <= j < n * en)%Z -> 0 < mat_at F2 i j -> 0 < vat (mvmul F2 phi2) i.
Proof using Hready1 Hrun1 Hready2 Hrun2 B S2. destruct b_dims as (_ & _ & _ & R & C). destruct S2 as (_ & _ & P & _). rewrite R, C in P. apply P. Qed.
Lemma transport_compare : k1 <= k2.
Proof using Hready1 Hrun1 Hp1 Hready2 Hrun2 Hp2 Ha B S1 S2.
  destruct b_dims as ((A1 & A2 & A3 & A4) & B1 & B2 & B3 & B4).
  apply (compare M1 F1 M2 F2 (n * en) k1 k2 phi1 phi2 A1 A2 A3 A4 B1 B2 B4 b_monotone b_M b_F (proj1 S1) (proj1 S2) b_pos2).
Qed.
Lemma b_populated e m : populated ms1 sd1 d1 e -> (0 <= m < n)%Z -> (0 <= e < en)%Z /\ 0 < vat phi1 (m + e * n)%Z.
Proof using Hready1 Hrun1 Hp1 Ha B S1.
  rewrite <- (ns_cells _ _ B), <- (ns_groups _ _ B). apply (o_populated kb ex sq ms1 sd1 a1 sc1 g1 g1' ch1 M1 F1 Hready1 Hrun1 Hp1 ltac:(lra) solver1 k1 phi1 S1).
Qed.
Lemma b_phi1 i : (0 <= i < n * en)%Z -> 0 <= vat phi1 i.
Proof using Hready1 Hrun1 B S1. rewrite <- (ns_cells _ _ B), <- (ns_groups _ _ B). apply (o_phi kb ex sq ms1 sd1 a1 sc1 g1 g1' ch1 M1 F1 Hready1 Hrun1 solver1 k1 phi1 S1). Qed.

Lemma felt e i j e' : useful ms2 sd2 d2 e -> (0 <= e < en)%Z -> (0 <= i < n)%Z -> (0 <= e' < en)%Z -> (0 <= j < n)%Z -> 0 < vat phi1 (j + e' * n)%Z ->
  mat_at M2 (i + e * n) (j + e' * n) < mat_at M1 (i + e * n) (j + e' * n) \/ mat_at F1 (i + e * n) (j + e' * n) < mat_at F2 (i + e * n) (j + e' * n) -> k1 < k2.
Proof using Hready1 Hrun1 Hp1 Hready2 Hrun2 Hp2 Ha B S1 S2.
  intros Hu He Hi He' Hj P Hbad. destruct b_dims as ((A1 & A2 & A3 & A4) & B1 & B2 & B3 & B4).
  assert (Ri : (0 <= i + e * n < n * en)%Z) by (apply idx_range; auto). assert (Rj : (0 <= j + e' * n < n * en)%Z) by (apply idx_range; auto).
  apply (compare_strict M1 F1 M2 F2 (n * en) k1 k2 phi1 phi2 A1 A2 A3 A4 B1 B2 B4 b_monotone b_M b_F (proj1 S1) (proj1 S2) b_pos2 (i + e * n)%Z); [exact Ri| |].
  - destruct Hbad as [L | L]; [left|right].
    + rewrite !mvmul_at, A2, B2, <- rsum_minus.
      apply Rlt_le_trans with ((mat_at M1 (i + e * n) (j + e' * n) - mat_at M2 (i + e * n) (j + e' * n)) * vat phi1 (j + e' * n)%Z); [apply Rmult_lt_0_compat; lra|].
      rewrite Rmult_minus_distr_r. apply (rsum_term_le 0 (n * en) (fun l => mat_at M1 (i + e * n) l * vat phi1 l - mat_at M2 (i + e * n) l * vat phi1 l)); [|exact Rj].
      intros l Hl. pose proof (b_M _ l Ri Hl). pose proof (b_phi1 l Hl). nra.
    + rewrite !mvmul_at, A4, B4. apply Rminus_gt_0_lt. rewrite <- rsum_minus.
      apply Rlt_le_trans with ((mat_at F2 (i + e * n) (j + e' * n) - mat_at F1 (i + e * n) (j + e' * n)) * vat phi1 (j + e' * n)%Z); [apply Rmult_lt_0_compat; lra|].
      rewrite Rmult_minus_distr_r. apply (rsum_term_le 0 (n * en) (fun l => mat_at F2 (i + e * n) l * vat phi1 l - mat_at F1 (i + e * n) l * vat phi1 l)); [|exact Rj].
      intros l Hl. pose proof (b_F _ l Ri Hl). pose proof (b_phi1 l Hl). nra.
  - apply (o_fed kb ex sq ms2 sd2 a2 sc2 g2 g2' ch2 M2 F2 Hready2 Hrun2 Hp2 ltac:(lra) solver2 k2 phi2 S2 e i Hu He Hi).
Qed.

Lemma transport_scattered e e' j : (0 <= e < en)%Z -> (0 <= j < n)%Z -> tsc d1 e' e j < tsc d2 e' e j -> populated ms1 sd1 d1 e' -> useful ms2 sd2 d2 e -> k1 < k2.
Proof using Hready1 Hrun1 Hp1 Hready2 Hrun2 Hp2 Ha B S1 S2.
  intros He Hj L Hp Hu. destruct (b_populated e' j Hp Hj) as [He' P]. apply (felt e j j e' Hu He Hj He' Hj P). left.
  rewrite b_M1, (o_M kb ex sq ms2 sd2 a2 sc2 g2 g2' ch2 M2 F2 Hready2 Hrun2) by auto.
  pose proof (b_pos1 e j j He Hj Hj). destruct (b_reduced e j j He Hj Hj) as [G _]. pose proof (b_sc1 e' e j He' He Hj).
  assert (t3_at g1' j j e * tsc d1 e' e j < t3_at g2' j j e * tsc d2 e' e j); [|lra]. nra.
Qed.
Lemma transport_made e e' j : emits ms2 sd2 d2 e j -> useful ms2 sd2 d2 e -> populated ms1 sd1 d1 e' -> tni d1 e' j * tfis d1 e' j < tni d2 e' j * tfis d2 e' j -> k1 < k2.
Proof using Hready1 Hrun1 Hp1 Hready2 Hrun2 Hp2 Ha B S1 S2.
  intros (He & Hj & Hc) Hu Hp L. assert (Een : sd_energies sd2 = en) by apply Hready2. rewrite Een in He. destruct (b_populated e' j Hp Hj) as [He' P].
  apply (felt e j j e' Hu He Hj He' Hj P). right. rewrite b_F1, (o_F kb ex sq ms2 sd2 a2 sc2 g2 g2' ch2 M2 F2 Hready2 Hrun2) by auto.
  pose proof (b_pos1 e j j He Hj Hj). destruct (b_reduced e j j He Hj Hj) as [G _]. pose proof (b_chi1 e j He Hj). pose proof (b_fis1 e' j He' Hj). pose proof (ns_chi _ _ B e j He Hj).
  assert (tchi d1 e j * (tni d1 e' j * tfis d1 e' j) <= tchi d2 e j * (tni d1 e' j * tfis d1 e' j)) by (apply Rmult_le_compat_r; assumption).
  assert (tchi d2 e j * (tni d1 e' j * tfis d1 e' j) < tchi d2 e j * (tni d2 e' j * tfis d2 e' j)) by (apply Rmult_lt_compat_l; assumption).
  assert (0 <= tchi d1 e j * (tni d1 e' j * tfis d1 e' j)) by (apply Rmult_le_pos; assumption).
  apply Rle_lt_trans with (t3_at g2' j j e * (tchi d1 e j * (tni d1 e' j * tfis d1 e' j))); [apply Rmult_le_compat_r; assumption|]. apply Rmult_lt_compat_l; lra.
Qed.
Lemma transport_leaks e : a1 < a2 -> populated ms1 sd1 d1 e -> useful ms2 sd2 d2 e -> k1 < k2.
Proof using Hready1 Hrun1 Hp1 Hready2 Hrun2 Hp2 Ha B S1 S2.
  intros L Hp Hu. pose proof (o_n _ _ _ Hready2) as Hn. destruct (b_populated e 0%Z Hp ltac:(lia)) as [He _].
  destruct (o_leaks kb ex sq ms2 sd2 a2 sc2 g2 g2' ch2 M2 F2 Hready2 Hrun2 Hp2 e He) as (j & Hj & O). destruct (b_populated e j Hp Hj) as [_ P].
  apply (felt e j j e Hu He Hj He Hj P). left. rewrite b_M1, (o_M kb ex sq ms2 sd2 a2 sc2 g2 g2' ch2 M2 F2 Hready2 Hrun2) by auto.
  destruct (b_reduced e j j He Hj Hj) as [_ G]. specialize (G L O O). pose proof (ns_scatt _ _ B e e j He He Hj). pose proof (sp_within _ Hp2 e j He Hj). pose proof (b_pos1 e j j He Hj Hj).
  assert (t3_at g1' j j e * tsc d1 e e j < t3_at g2' j j e * tsc d2 e e j); [|lra].
  apply Rle_lt_trans with (t3_at g1' j j e * tsc d2 e e j); [apply Rmult_le_compat_l; lra|]. apply Rmult_lt_compat_r; assumption.
Qed.
End Two.
