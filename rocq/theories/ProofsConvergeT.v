(* Convergence of the source iteration on the collision probability operators
   of a slab. *)
From Coq Require Import String ZArith List Bool Lia Reals Lra.
From Coquelicot Require Import Coquelicot.
From Verif Require Import Base BaseLemmas NumR LinAlg Blocks PowerMethod ModelNumTools ModelEigen ModelMesh ModelReactor
  ModelSpectrum ProofsMesh ProofsDiffusion ProofsDiffusionR ProofsEigen ProofsPower ProofsSpectrum ProofsSpectrumR
  Kernels ProofsSpectrumB Quadrature PropsDiffusion PropsSpectrum PropsSpectrumB ProofsConverge ProofsConvergeD.
Local Open Scope R_scope.

(* the exact kernel is strictly decreasing and strictly convex *)
Lemma E3_pos x : 0 <= x -> 0 < E3 x.
Proof.
  intros Hx. unfold E3. rewrite (RInt_ext _ (damp x)).
  2:{ rewrite Rmin_left, Rmax_right by lra. intros u Hu. unfold damp. rewrite Rabs_right by lra. reflexivity. }
  apply RInt_gt_0; [lra| |intros u _; apply damp_continuous, Hx].
  intros u Hu. unfold damp. rewrite Rabs_right by lra. apply Rmult_lt_0_compat; [lra|apply exp_pos].
Qed.
Lemma E3_strict x a b : 0 <= x -> 0 < a -> 0 < b -> 0 < E3 x - E3 (x + a) - E3 (x + b) + E3 (x + b + a).
Proof.
  intros Hx Ha Hb.
  replace (E3 x - E3 (x + a) - E3 (x + b) + E3 (x + b + a)) with ((E3 x - E3 (x + a)) - (E3 (x + b) - E3 (x + b + a))) by ring.
  rewrite !E3_minus by lra.
  set (f := fun u => u * exp (- x / u) - u * exp (- (x + a) / u)).
  set (g := fun u => u * exp (- (x + b) / u) - u * exp (- (x + b + a) / u)).
  set (K := (1 - exp (- a)) * (1 - exp (- b))). set (q := fun u => K * (u * exp (- x / u))).
  assert (If : ex_RInt f 0 1) by (apply (ex_RInt_minus (V := R_NormedModule) (fun u => u * exp (- x / u)) (fun u => u * exp (- (x + a) / u))); apply E3_integrable; lra).
  assert (Ig : ex_RInt g 0 1) by (apply (ex_RInt_minus (V := R_NormedModule) (fun u => u * exp (- (x + b) / u)) (fun u => u * exp (- (x + b + a) / u))); apply E3_integrable; lra).
  assert (Iq : ex_RInt q 0 1) by (apply (ex_RInt_scal (V := R_NormedModule) (fun u => u * exp (- x / u)) 0 1 K); apply E3_integrable; lra).
  assert (A1 : exp (- a) < 1) by (rewrite <- exp_0; apply exp_increasing; lra).
  assert (B1 : exp (- b) < 1) by (rewrite <- exp_0; apply exp_increasing; lra).
  assert (HK : 0 < K) by (apply Rmult_lt_0_compat; lra).
  assert (H : RInt (fun u => g u + q u) 0 1 <= RInt f 0 1).
  { apply RInt_le; [lra|apply (ex_RInt_plus (V := R_NormedModule) g q); assumption|exact If|]. intros u Hu. unfold f, g, q.
    replace (- (x + a) / u) with (- x / u + - a / u) by (field; lra).
    replace (- (x + b + a) / u) with (- x / u + (- a / u + - b / u)) by (field; lra).
    replace (- (x + b) / u) with (- x / u + - b / u) by (field; lra).
    rewrite !exp_plus.
    assert (L : forall c, 0 < c -> exp (- c / u) <= exp (- c)).
    { intros c Hc. assert (- c / u <= - c).
      { unfold Rdiv. assert (1 <= / u) by (rewrite <- Rinv_1; apply Rinv_le_contravar; lra). nra. }
      destruct H as [H | ->]; [left; apply exp_increasing, H|right; reflexivity]. }
    pose proof (L a Ha). pose proof (L b Hb). pose proof (exp_pos (- x / u)).
    assert (K <= (1 - exp (- a / u)) * (1 - exp (- b / u))) by (unfold K; apply Rmult_le_compat; lra).
    assert (0 <= u * exp (- x / u)) by (apply Rmult_le_pos; lra).
    assert (u * exp (- x / u) * K <= u * exp (- x / u) * ((1 - exp (- a / u)) * (1 - exp (- b / u)))) by (apply Rmult_le_compat_l; assumption).
    lra. }
  assert (E : RInt (fun u => g u + q u) 0 1 = RInt g 0 1 + K * E3 x).
  { etransitivity; [exact (RInt_plus (V := R_CompleteNormedModule) g q 0 1 Ig Iq)|]. unfold plus; cbn. f_equal.
    exact (RInt_scal (V := R_CompleteNormedModule) (fun u => u * exp (- x / u)) 0 1 K (E3_integrable x Hx)). }
  rewrite E in H. pose proof (Rmult_lt_0_compat _ _ HK (E3_pos x Hx)). lra.
Qed.
Lemma E3_slope_strict x : 0 < x -> 1 / 2 - x < E3 x.
Proof.
  intros Hx. pose proof (E3_strict 0 (x / 2) (x / 2) ltac:(lra) ltac:(lra) ltac:(lra)) as H. rewrite Rplus_0_l in H. replace (x / 2 + x / 2) with x in H by lra.
  pose proof (E3_slope (x / 2) ltac:(lra)). rewrite E3_0 in H. lra.
Qed.

Section SlabStrict.
Variable sc : specCode R.
Variable h : Z.
Let n := sc_cells sc.
Hypothesis Ht : forall i, (0 <= i < n)%Z -> 0 < own sc h i.
Hypothesis HV : forall i, (0 <= i < n)%Z -> 0 < vol_of sc i.
Hypothesis HS : forall i, (0 <= i < n)%Z -> 0 < sig_of sc h i.
Let P := slab_P E3 sc (gap sc) h.
Lemma slab_up_pos i j : (0 <= i < j)%Z -> (j < n)%Z -> 0 < P i j.
Proof using Ht.
  intros Hi Hj. pose proof (slab_upper E3 sc h Ht i j Hi Hj) as E. cbn beta zeta in E. fold P in E. pose proof (Ht i ltac:(lia)) as Hp.
  assert (0 < 2 * own sc h i * P i j).
  { rewrite E. apply E3_strict; [apply rsum_nonneg; intros l Hl; left; apply Ht; lia|apply Ht; lia|apply Ht; lia]. }
  destruct (Rlt_le_dec 0 (P i j)) as [L|L]; [exact L|]. exfalso. assert (2 * own sc h i * P i j <= 2 * own sc h i * 0) by (apply Rmult_le_compat_l; lra). lra.
Qed.
Lemma slab_pos i j : (0 <= i < n)%Z -> (0 <= j < n)%Z -> 0 < P i j.
Proof using Ht HV HS.
  intros Hi Hj. destruct (Z.lt_trichotomy i j) as [L|[<-|L]].
  - apply slab_up_pos; lia.
  - unfold P, slab_P, slab_up, gap. replace (i <=? i)%Z with true by lia. rewrite Z.eqb_refl. pose proof (Ht i Hi). pose proof (E3_slope_strict (own sc h i) ltac:(lra)).
    assert (1 / (2 * own sc h i) * (1 - 2 * E3 (own sc h i)) < 1); [|lra].
    apply Rlt_le_trans with (1 / (2 * own sc h i) * (2 * own sc h i)); [|right; field; lra].
    apply Rmult_lt_compat_l; [apply Rdiv_lt_0_compat; lra|lra].
  - pose proof (slab_up_pos j i ltac:(lia) ltac:(lia)) as U. unfold P, slab_P in *.
    replace (j <=? i)%Z with true in U by lia. replace (i <=? j)%Z with false by lia.
    pose proof (HS i Hi). pose proof (HS j Hj). pose proof (HV i Hi). pose proof (HV j Hj).
    apply Rmult_lt_0_compat; [apply Rmult_lt_0_compat; [exact U|apply Rdiv_lt_0_compat; lra]|apply Rdiv_lt_0_compat; lra].
Qed.
End SlabStrict.

Section SlabTransport.
Variables (kb ex sq : R -> R) (ms : mesh R) (sd : solverData R) (a : R) (sc : specCode R) (g g' : ten3 R) (check M F : mat R).
Hypothesis Hready : transport_ready ms sd a.
Hypothesis Hrun : transport_run E3 kb ex sq ms sd sc g g' check M F.
Hypothesis Hslab : ms_geom ms = SLAB.
Hypothesis Ha : 0 <= a <= 1.
Notation n := (ms_cells ms).
Notation en := (ms_groups ms).
Notation d := (mesh_tables ms).
Hypothesis Hsc : forall e e' i, (0 <= e < en)%Z -> (0 <= e' < en)%Z -> (0 <= i < n)%Z -> 0 <= tsc d e e' i.
Hypothesis Habs : forall e i, (0 <= e < en)%Z -> (0 <= i < n)%Z -> rsum 0 en (fun e' => tsc d e e' i) < ttot d e i.

Lemma transport_slab_monotone : monotone (n * en) (mat_at M).
Proof using Hready Hrun Hslab Ha Hsc Habs.
  pose proof (C73_slab_well_posed _ _ _ _ _ _ _ _ _ _ _ _ Hready Hrun Hslab Ha Hsc Habs) as W.
  intros x Hq. destruct (W (app (n * en) (mat_at M) x)) as (y & _ & U & N). intros i Hi. rewrite (U x ltac:(reflexivity) i Hi). apply N; assumption.
Qed.

Lemma vacuum_pos h i j : (0 <= h < en)%Z -> (0 <= i < n)%Z -> (0 <= j < n)%Z -> 0 < t3_at g i j h.
Proof using Hready Hrun Hslab.
  intros Hh Hi Hj. destruct (run_spec _ _ _ _ _ _ _ _ _ _ _ _ _ Hready Hrun) as (Hc & HG & _). pose proof (co_cells _ _ _ Hc) as Ec.
  rewrite HG by auto. unfold vacuum_P. rewrite (co_mesh _ _ _ Hc), Hslab.
  apply slab_pos; try lia; intros l Hl.
  - apply (own_pos ms sd a sc Hready Hc); auto; lia.
  - apply (vol_pos ms sd a sc Hready Hc); lia.
  - apply (sig_pos ms sd a sc Hready Hc); auto; lia.
Qed.

Lemma reduced_pos h i j : (0 <= h < en)%Z -> (0 <= i < n)%Z -> (0 <= j < n)%Z -> 0 < t3_at g' i j h.
Proof using Hready Hrun Hslab Ha.
  intros Hh Hi Hj. destruct (run_spec _ _ _ _ _ _ _ _ _ _ _ _ _ Hready Hrun) as (Hc & HG & HW & HK & _).
  destruct (out_bridge _ _ _ _ _ _ _ _ _ _ _ _ _ Hready Hrun) as [Ho Hp].
  pose proof (spec_surface_ok ms ltac:(apply Hready) ltac:(apply Hready)) as ES. unfold spec_surface in ES. rewrite Hslab in ES.
  assert (Es : 1 = sc_surface sc). { rewrite (co_surface _ _ _ Hc). unfold spec_surface. rewrite Hslab. reflexivity. }
  assert (Hst : forall i, (0 <= i < n)%Z -> 0 < ttot d h i) by (intros; apply Hready; auto).
  assert (Hv : forall i, (0 <= i < n)%Z -> 0 < tV d i).
  { intros l Hl. rewrite <- (co_volume _ _ _ Hc) by exact Hl. apply (vol_pos ms sd a sc Hready Hc); exact Hl. }
  assert (Hout : forall i, (0 <= i < n)%Z -> 0 <= out ms g h i).
  { intros l Hl. unfold out. pose proof (proj2 (C71_slab_probabilities _ _ _ _ _ _ _ _ _ _ _ _ Hready Hrun Hslab h l Hh Hl)). lra. }
  assert (Hpss : a * surface_to_surface ms 1 g h < 1).
  { rewrite (C54_slab_value _ _ _ _ _ _ _ _ _ _ _ _ _ _ Hready Hrun Hslab E3_0 ES h Hh).
    assert (Ht : 0 < rsum 0 n (thickness ms h)).
    { apply rsum_pos; [lia|]. intros l Hl. unfold thickness. rewrite <- (co_width _ _ _ Hc), <- (co_sig _ _ _ Hc) by auto. apply (own_pos ms sd a sc Hready Hc); auto. }
    set (t := rsum 0 n (thickness ms h)) in *. pose proof (E3_exp t ltac:(lra)). pose proof (E3_nonneg t ltac:(lra)).
    assert (exp (- t) < 1) by (rewrite <- exp_0; apply exp_increasing; lra). nra. }
  rewrite HW by auto. apply Rdiv_lt_0_compat; [|apply Hst; auto].
  unfold white. rewrite Hp by auto. unfold back. rewrite !Ho by auto. rewrite <- HG by auto.
  rewrite (co_volume _ _ _ Hc), (co_sig _ _ _ Hc), <- Es by auto.
  apply Rplus_lt_le_0_compat; [apply vacuum_pos; auto|]. pose proof (Hout i Hi). pose proof (Hout j Hj). pose proof (Hv j Hj). pose proof (Hst j Hj).
  assert (0 <= 4 * tV d j / 1) by lra.
  assert (0 <= a / (1 - surface_to_surface ms 1 g h * a)) by (apply quot_nonneg; lra).
  apply Rmult_le_pos; [|lra]. apply Rmult_le_pos; [|assumption]. apply Rmult_le_pos; [assumption|]. apply Rmult_le_pos; assumption.
Qed.

Hypothesis Hin : forall e i, (0 <= e < en)%Z -> (0 <= i < n)%Z -> 0 < tsc d e e i.
Hypothesis Hchi : forall e i, (0 <= e < en)%Z -> (0 <= i < n)%Z -> 0 <= tchi d e i.
Hypothesis Hfis : forall e i, (0 <= e < en)%Z -> (0 <= i < n)%Z -> 0 <= tni d e i * tfis d e i.

Lemma M_entry e i e' j : (0 <= e < en)%Z -> (0 <= i < n)%Z -> (0 <= e' < en)%Z -> (0 <= j < n)%Z -> (i + e * n <> j + e' * n)%Z ->
  mat_at M (i + e * n) (j + e' * n) = - (t3_at g' i j e * tsc d e' e j).
Proof using Hready Hrun.
  intros He Hi He' Hj Hne. destruct (C55_transport_operators _ _ _ _ _ _ _ _ _ _ _ _ _ Hready Hrun) as (_ & _ & _ & _ & HM).
  destruct (HM e i e' j He Hi He' Hj) as [-> _]. destruct (Z.eqb_spec (i + e * n) (j + e' * n)); [contradiction|]. ring.
Qed.

Notation lead := (leads M (n * en)).
Lemma n_pos : (1 <= n)%Z. Proof using Hready. apply Hready. Qed.
Lemma lead_any e e' i i' : (0 <= e < en)%Z -> (0 <= e' < en)%Z -> (0 <= i < n)%Z -> (0 <= i' < n)%Z -> 0 < tsc d e e' i -> lead (i + e * n)%Z (i' + e' * n)%Z.
Proof using Hready Hrun Hslab Ha.
  intros He He' Hi Hi' Hp. pose proof n_pos. destruct (Z.eq_dec (i + e * n) (i' + e' * n)) as [-> | Hne]; [apply leads_refl|].
  apply leads_step with (i + e * n)%Z; [apply leads_refl|nia|nia|exact Hne|]. rewrite M_entry by (auto || lia).
  pose proof (Rmult_lt_0_compat _ _ (reduced_pos e' i' i He' Hi' Hi) Hp). lra.
Qed.
Lemma lead_groups e e' i i' : scatters_to d en n e e' -> (0 <= e < en)%Z -> (0 <= i < n)%Z -> (0 <= i' < n)%Z -> lead (i + e * n)%Z (i' + e' * n)%Z.
Proof using Hready Hrun Hslab Ha Hin.
  intros H He Hi. revert i'. induction H as [e|e e1 e2 l H IH He1 He2 Hl Hp]; intros i' Hi'; [apply lead_any; auto|].
  apply leads_trans with (l + e1 * n)%Z; [apply IH; auto|]. apply lead_any; auto.
Qed.

Lemma transport_slab solver :
  (exists m, fissile ms sd d m) ->
  (forall e0 m0 m, emits ms sd d e0 m0 -> fissile ms sd d m -> exists e, scatters_to d en n e0 e /\ fissions ms sd d e m) ->
  (exists solve, exact_solver M solve) /\ (exact_solver M (solver M) -> exists k phi, settles solver M F k phi).
Proof using Hready Hrun Hslab Ha Hsc Habs Hin Hchi Hfis.
  intros Hsome Hreach. pose proof transport_slab_monotone as Hmon. pose proof n_pos as Hn.
  assert (Hge : sd_energies sd = en) by apply Hready. unfold fissile, emits, fissions in Hsome, Hreach. rewrite Hge in Hsome, Hreach.
  assert (Hen : (0 <= en)%Z) by (destruct Hready as ((_ & _ & _ & X & _) & _); exact X).
  destruct (C55_transport_operators _ _ _ _ _ _ _ _ _ _ _ _ _ Hready Hrun) as (HMr & HMc & HFr & HFc & HMF).
  assert (Hsz : (0 <= n * en)%Z) by nia.
  split; [exact (exact_exists M (n * en) Hsz HMr HMc (monotone_injective _ _ Hmon))|]. intros Hex.
  assert (Fe : forall e i e' j, (0 <= e < en)%Z -> (0 <= i < n)%Z -> (0 <= e' < en)%Z -> (0 <= j < n)%Z ->
    mat_at F (i + e * n) (j + e' * n) = t3_at g' i j e * (tchi d e j * (tni d e' j * tfis d e' j))) by (intros; apply HMF; auto).
  assert (HF0 : forall i j, (0 <= i < n * en)%Z -> (0 <= j < n * en)%Z -> 0 <= mat_at F i j).
  { intros i j Hi Hj. destruct (idx_decode n en i ltac:(lia) Hi) as (e & m & He & Hm & ->). destruct (idx_decode n en j ltac:(lia) Hj) as (e' & m' & He' & Hm' & ->).
    rewrite Fe by auto. apply Rmult_le_pos; [left; apply reduced_pos; auto|]. apply Rmult_le_pos; auto. }
  assert (Born : forall e m, (0 <= e < en)%Z -> (0 <= m < n)%Z -> on (n * en) (births F (n * en)) (m + e * n)%Z ->
    exists m' e', (0 <= e' < en)%Z /\ (0 <= m' < n)%Z /\ 0 < tchi d e m' /\ 0 < tni d e' m' * tfis d e' m').
  { intros e m He Hm [Hi Hp]. destruct (rsum_pos_term _ _ (fun j Hj => HF0 _ j Hi Hj) Hp) as (j & Hj & Hpos).
    destruct (idx_decode n en j ltac:(lia) Hj) as (e' & m' & He' & Hm' & ->). rewrite Fe in Hpos by auto. exists m', e'. split; [exact He'|]. split; [exact Hm'|].
    split; [destruct (Hchi e m' He Hm') as [Q | Q]|destruct (Hfis e' m' He' Hm') as [Q | Q]]; try exact Q; rewrite <- Q in Hpos; lra. }
  apply (settling solver M F (n * en) Hsz HMr HMc HFr HFc Hex Hmon HF0).
  - apply (chain solver M F (n * en) HMr HMc HFr HFc Hex Hmon); [|exact HF0|].
    + intros i j Hi Hj Hne. destruct (idx_decode n en i ltac:(lia) Hi) as (e & m & He & Hm & ->). destruct (idx_decode n en j ltac:(lia) Hj) as (e' & m' & He' & Hm' & ->).
      rewrite M_entry by auto. pose proof (Rmult_le_pos _ _ (Rlt_le _ _ (reduced_pos e m m' He Hm Hm')) (Hsc e' e m' He' He Hm')). lra.
    + intros i0 i Hi0 Hi.
      destruct (idx_decode n en i0 ltac:(lia) (proj1 Hi0)) as (e0 & m0 & He0 & Hm0 & ->). destruct (idx_decode n en i ltac:(lia) (proj1 Hi)) as (e & m & He & Hm & ->).
      destruct (Born e0 m0 He0 Hm0 Hi0) as (l0 & f0 & Hf0 & Hl0 & C0 & G0). destruct (Born e m He Hm Hi) as (l & f & Hf & Hl & C & G).
      destruct (Hreach e0 l0 l) as (e' & Hs & (He' & _ & G')); [auto|split; [exists e|exists f]; auto|].
      exists (l + e' * n)%Z. split; [apply lead_groups; auto|]. rewrite Fe by auto.
      apply Rmult_lt_0_compat; [apply reduced_pos; auto|]. apply Rmult_lt_0_compat; assumption.
  - destruct Hsome as (m & (e & He & Hm & Hc) & (e' & He' & _ & Hf)). exists (m + e * n)%Z. split; [nia|].
    unfold births. apply Rlt_le_trans with (mat_at F (m + e * n) (m + e' * n)).
    + rewrite Fe by auto. apply Rmult_lt_0_compat; [apply reduced_pos; auto|]. apply Rmult_lt_0_compat; assumption.
    + apply (rsum_term_le 0 (n * en) (fun j => mat_at F (m + e * n) j)); [|nia]. intros j Hj. apply HF0; [nia|exact Hj].
Qed.
End SlabTransport.
