(* Signs and bounds of the collision probabilities, for kernels with the
   shape of E3, Ki3 and exp(-x). *)
From Coq Require Import String ZArith List Bool Lia Reals Lra.
From Coquelicot Require Import Coquelicot.
From Verif Require Import Base BaseLemmas NumR LinAlg Blocks ModelNumTools ModelMesh ModelReactor ModelSpectrum
  ProofsMesh ProofsDiffusion ProofsDiffusionR ProofsSpectrum ProofsSpectrumR Kernels.
Import ListNotations.
Local Open Scope R_scope.

Record good_kernel (K : R -> R) : Prop := {
  gk_pos : forall x, 0 <= x -> 0 <= K x;
  gk_dec : forall x y, 0 <= x <= y -> K y <= K x;
  gk_conv : forall x a b, 0 <= x -> 0 <= a -> 0 <= b -> 0 <= K x - K (x + a) - K (x + b) + K (x + b + a);
  gk_slope : forall x, 0 <= x -> K 0 - x <= K x }.

Lemma E3_good : good_kernel E3.
Proof.
  split; [exact E3_nonneg|exact E3_decreasing|exact E3_convex|]. intros. rewrite E3_0. apply E3_slope. assumption.
Qed.

Lemma RInt_sin : RInt sin 0 (PI / 2) = 1.
Proof.
  apply is_RInt_unique. replace 1 with (minus ((fun t => - cos t) (PI / 2)) ((fun t => - cos t) 0)).
  - apply (is_RInt_derive (fun t => - cos t) sin).
    + intros x _. auto_derive; auto. ring.
    + intros x _. apply continuous_sin.
  - unfold minus, plus, opp; cbn. rewrite cos_PI2, cos_0. ring.
Qed.

Lemma Ki3_slope x : 0 <= x -> Ki3 0 - x <= Ki3 x.
Proof.
  intros Hx. pose proof PI_RGT_0. assert (Ki3 0 - Ki3 x <= x); [|lra].
  assert (Hs : ex_RInt sin 0 (PI / 2)) by (apply (@ex_RInt_continuous R_CompleteNormedModule); intros; apply continuous_sin).
  rewrite Ki3_minus by lra. apply Rle_trans with (RInt (fun t => x * sin t) 0 (PI / 2)).
  - apply RInt_le; [lra| |apply (ex_RInt_scal (V := R_NormedModule) sin 0 (PI / 2) x Hs)|].
    + apply (ex_RInt_minus (V := R_NormedModule)); apply Ki3_integrable; lra.
    + intros t Ht. assert (Hp : 0 < sin t) by (apply sin_gt_0; lra).
      rewrite !neg_quot. unfold Rdiv at 1. rewrite Rmult_0_l, Ropp_0, exp_0.
      pose proof (exp_ineq1_le (- (x / sin t))).
      assert (E : x * sin t = (x / sin t) * (sin t * sin t)) by (field; lra). rewrite E.
      replace (1 * sin t * sin t - exp (- (x / sin t)) * sin t * sin t) with
        ((1 - exp (- (x / sin t))) * (sin t * sin t)) by ring.
      apply Rmult_le_compat_r; [apply Rmult_le_pos; lra|lra].
  - apply Req_le. apply (eq_trans (RInt_scal (V := R_CompleteNormedModule) sin 0 (PI / 2) x Hs)).
    rewrite RInt_sin. unfold scal; cbn. unfold mult; cbn. ring.
Qed.

Lemma Ki3_good : good_kernel Ki3.
Proof.
  split; [intros; apply Ki3_bounds; assumption|exact Ki3_decreasing|exact Ki3_convex|exact Ki3_slope].
Qed.

Lemma exp_good : good_kernel (fun x => exp (- x)).
Proof.
  split.
  - intros. left. apply exp_pos.
  - intros x y H. apply exp_le_mono. lra.
  - intros x a b Hx Ha Hb. rewrite !Ropp_plus_distr, !exp_plus.
    replace (exp (- x) - exp (- x) * exp (- a) - exp (- x) * exp (- b) + exp (- x) * exp (- b) * exp (- a))
      with (exp (- x) * ((1 - exp (- a)) * (1 - exp (- b)))) by ring.
    pose proof (exp_le_1 (- a) ltac:(lra)). pose proof (exp_le_1 (- b) ltac:(lra)).
    apply Rmult_le_pos; [left; apply exp_pos|]. apply Rmult_le_pos; lra.
  - intros x Hx. rewrite Ropp_0, exp_0. pose proof (exp_ineq1_le (- x)). lra.
Qed.

(* ---------- slab ---------- *)

Section SlabBounds.
Variable K : R -> R.
Hypothesis HK : good_kernel K.
Hypothesis K0 : K 0 = 1 / 2.
Variable sc : specCode R.
Variable h : Z.
Let n := sc_cells sc.
Hypothesis Ht : forall i, (0 <= i < n)%Z -> 0 < own sc h i.
Hypothesis HV : forall i, (0 <= i < n)%Z -> 0 < vol_of sc i.
Hypothesis HS : forall i, (0 <= i < n)%Z -> 0 < sig_of sc h i.
Hypothesis Hvol : forall i, (0 <= i < n)%Z -> vol_of sc i = width_of sc i.
Let P := slab_P K sc (gap sc) h.

Lemma own_sum_nonneg a b : (0 <= a)%Z -> (b <= n)%Z -> 0 <= rsum a b (own sc h).
Proof. intros. apply rsum_nonneg. intros l Hl. left. apply Ht. lia. Qed.

Lemma slab_P_up_nonneg i j : (0 <= i < j)%Z -> (j < n)%Z -> 0 <= P i j.
Proof.
  intros Hi Hj. pose proof (slab_upper K sc h Ht i j Hi Hj) as E. cbn beta zeta in E. fold P in E.
  pose proof (Ht i ltac:(lia)) as Hp.
  assert (0 <= 2 * own sc h i * P i j).
  { rewrite E. apply (gk_conv K HK); [apply own_sum_nonneg; lia|left; apply Ht; lia|left; apply Ht; lia]. }
  destruct (Rle_lt_dec 0 (P i j)) as [L|L]; [exact L|]. exfalso.
  assert (2 * own sc h i * P i j < 0) by (replace 0 with (2 * own sc h i * 0) by ring; apply Rmult_lt_compat_l; lra). lra.
Qed.

Lemma slab_P_nonneg i j : (0 <= i < n)%Z -> (0 <= j < n)%Z -> 0 <= P i j.
Proof.
  intros Hi Hj. destruct (Z.lt_trichotomy i j) as [L|[<-|L]].
  - apply slab_P_up_nonneg; lia.
  - unfold P, slab_P, slab_up, gap. zdec. pose proof (Ht i Hi). pose proof (gk_slope K HK (own sc h i) ltac:(lra)).
    assert (1 / (2 * own sc h i) * (1 - 2 * K (own sc h i)) <= 1); [|lra].
    apply Rle_trans with (1 / (2 * own sc h i) * (2 * own sc h i)); [|right; field; lra].
    apply Rmult_le_compat_l; [apply quot_nonneg; lra|lra].
  - pose proof (slab_P_up_nonneg j i ltac:(lia) ltac:(lia)) as U. unfold P, slab_P in *.
    replace (j <=? i)%Z with true in U by lia. replace (i <=? j)%Z with false by lia.
    pose proof (HS i Hi). pose proof (HS j Hj). pose proof (HV i Hi). pose proof (HV j Hj).
    apply Rmult_le_pos; [apply Rmult_le_pos; [exact U|apply quot_nonneg; lra]|apply quot_nonneg; lra].
Qed.

Lemma slab_esc_nonneg i : (0 <= i < n)%Z -> 0 <= 1 - rsum 0 n (P i).
Proof.
  intros Hi. unfold P. rewrite (slab_conservation K sc h).
  - pose proof (Ht i Hi). pose proof (own_sum_nonneg 0 i ltac:(lia) ltac:(lia)).
    pose proof (own_sum_nonneg (i + 1) n ltac:(lia) ltac:(lia)).
    pose proof (gk_dec K HK (rsum 0 i (own sc h)) (rsum 0 i (own sc h) + own sc h i) ltac:(lra)).
    pose proof (gk_dec K HK (rsum (i + 1) n (own sc h)) (rsum (i + 1) n (own sc h) + own sc h i) ltac:(lra)).
    apply Rmult_le_pos; [apply quot_nonneg; lra|]. change (fun l => own sc h l) with (own sc h). fold n. lra.
  - exact Ht.
  - intros. apply Rgt_not_eq, HV; assumption.
  - intros. apply Rgt_not_eq, HS; assumption.
  - exact K0.
  - exact Hvol.
  - exact Hi.
Qed.
End SlabBounds.

(* ---------- curved ---------- *)

Section CurvedBounds.
Variables (kb ex : R -> R).
Variable sc : specCode R.
Variable sph : bool.
Variable t : Z -> Z -> Z -> Z -> R.
Variable z : Z -> Z -> R.
Variable h : Z.
Let n := sc_cells sc.
Let K := kernel kb ex sph.
Hypothesis HK : good_kernel K.
Hypothesis HV : forall i, (0 <= i < n)%Z -> 0 < vol_of sc i.
Hypothesis HS : forall i, (0 <= i < n)%Z -> 0 < sig_of sc h i.
Hypothesis Hom : forall m k, (0 <= m < n)%Z -> (0 <= k < 8)%Z -> 0 <= omega sc sph z m k.
Let T m i k := tb t h m i k.
Hypothesis Hstep : forall m i k, (0 <= m <= i)%Z -> (i < n)%Z -> (0 <= k < 8)%Z -> T m (i - 1) k <= T m i k.
Let P := curved_P kb ex sc sph PI t z h.

Lemma T_mono m k i j : (0 <= m)%Z -> (0 <= k < 8)%Z -> (m - 1 <= i <= j)%Z -> (j < n)%Z -> T m i k <= T m j k.
Proof.
  intros Hm Hk [Hi Hj0] Hl0. revert Hl0. pattern j. apply (zint_ind _ i); [| |exact Hj0].
  - intros; lra.
  - intros j' Hj IH Hl. clear j Hj0. rename j' into j. specialize (IH ltac:(lia)). pose proof (Hstep m (j + 1) k ltac:(lia) ltac:(lia) Hk) as HH.
    replace (j + 1 - 1)%Z with j in HH by ring. lra.
Qed.
Lemma T_nonneg m k i : (0 <= m)%Z -> (0 <= k < 8)%Z -> (m - 1 <= i)%Z -> (i < n)%Z -> 0 <= T m i k.
Proof.
  intros. apply Rle_trans with (T m (m - 1) k); [|apply T_mono; lia]. unfold T, tb. zdec. lra.
Qed.

Lemma D1_nonneg m i j k : (0 <= m <= i)%Z -> (i <= j < n)%Z -> (0 <= k < 8)%Z ->
  0 <= D1 kb ex sph t h m i j k.
Proof.
  intros Hm Hi Hk. unfold D1. fold K. fold (T m j k) (T m i k) (T m (i - 1) k).
  pose proof (T_mono m k (i - 1) i ltac:(lia) Hk ltac:(lia) ltac:(lia)).
  pose proof (T_mono m k i j ltac:(lia) Hk ltac:(lia) ltac:(lia)).
  pose proof (T_nonneg m k (i - 1) ltac:(lia) Hk ltac:(lia) ltac:(lia)).
  pose proof (gk_dec K HK (T m j k + T m (i - 1) k) (T m j k + T m i k) ltac:(lra)).
  pose proof (gk_dec K HK (T m j k - T m i k) (T m j k - T m (i - 1) k) ltac:(lra)). lra.
Qed.

Lemma D1_decreasing m i j k : (0 <= m <= i)%Z -> (i < j < n)%Z -> (0 <= k < 8)%Z ->
  D1 kb ex sph t h m i j k <= D1 kb ex sph t h m i (j - 1) k.
Proof.
  intros Hm Hi Hk. unfold D1. fold K. fold (T m j k) (T m i k) (T m (i - 1) k) (T m (j - 1) k).
  pose proof (T_mono m k (i - 1) i ltac:(lia) Hk ltac:(lia) ltac:(lia)).
  pose proof (T_mono m k i (j - 1) ltac:(lia) Hk ltac:(lia) ltac:(lia)).
  pose proof (T_mono m k (j - 1) j ltac:(lia) Hk ltac:(lia) ltac:(lia)).
  pose proof (T_nonneg m k (i - 1) ltac:(lia) Hk ltac:(lia) ltac:(lia)).
  set (a := T m i k - T m (i - 1) k). set (b := T m j k - T m (j - 1) k).
  pose proof (gk_conv K HK (T m (j - 1) k + T m (i - 1) k) a b ltac:(lra) ltac:(unfold a; lra) ltac:(unfold b; lra)) as X.
  pose proof (gk_conv K HK (T m (j - 1) k - T m i k) a b ltac:(lra) ltac:(unfold a; lra) ltac:(unfold b; lra)) as Y.
  replace (T m (j - 1) k + T m (i - 1) k + a) with (T m (j - 1) k + T m i k) in X by (unfold a; ring).
  replace (T m (j - 1) k + T m (i - 1) k + b) with (T m j k + T m (i - 1) k) in X by (unfold b; ring).
  replace (T m j k + T m (i - 1) k + a) with (T m j k + T m i k) in X by (unfold a; ring).
  replace (T m (j - 1) k - T m i k + a) with (T m (j - 1) k - T m (i - 1) k) in Y by (unfold a; ring).
  replace (T m (j - 1) k - T m i k + b) with (T m j k - T m i k) in Y by (unfold b; ring).
  replace (T m j k - T m i k + a) with (T m j k - T m (i - 1) k) in Y by (unfold a; ring).
  lra.
Qed.

Lemma cst_pos : 0 < cst sph PI.
Proof. unfold cst. pose proof PI_RGT_0. destruct sph; lra. Qed.

Lemma pos_factor x y : 0 < x -> 0 <= x * y -> 0 <= y.
Proof.
  intros Hx Hy. destruct (Rle_lt_dec 0 y) as [L|L]; [exact L|]. exfalso.
  assert (x * y < x * 0) by (apply Rmult_lt_compat_l; assumption). lra.
Qed.

Lemma HV' i : (0 <= i < sc_cells sc)%Z -> vol_of sc i <> 0.
Proof. intros. apply Rgt_not_eq, HV; assumption. Qed.
Lemma HS' i : (0 <= i < sc_cells sc)%Z -> sig_of sc h i <> 0.
Proof. intros. apply Rgt_not_eq, HS; assumption. Qed.

Lemma curved_up_nonneg i j : (0 <= i < j)%Z -> (j < n)%Z -> 0 <= P i j.
Proof.
  intros Hi Hj. unfold P, curved_P, curved_up. zdec.
  pose proof (HV i ltac:(lia)). pose proof (HS i ltac:(lia)).
  apply (pos_factor (vol_of sc i * sig_of sc h i)); [apply Rmult_lt_0_compat; assumption|].
  rewrite Rmult_minus_distr_l. rewrite !(S1_VS kb ex sc sph PI t z h HV' HS' i) by (fold n; lia).
  rewrite <- Rmult_minus_distr_l. pose proof cst_pos. apply Rmult_le_pos; [lra|].
  rewrite <- rsum_minus. apply rsum_nonneg. intros m Hm. rewrite <- rsum_minus. apply rsum_nonneg. intros k Hk.
  rewrite <- Rmult_minus_distr_r. apply Rmult_le_pos; [|apply Hom; lia].
  pose proof (D1_decreasing m i j k ltac:(lia) ltac:(lia) Hk). lra.
Qed.

Lemma curved_off_nonneg i j : (0 <= i < n)%Z -> (0 <= j < n)%Z -> i <> j -> 0 <= P i j.
Proof.
  intros Hi Hj Hd. destruct (Z.lt_trichotomy i j) as [L|[E|L]]; [apply curved_up_nonneg; lia|contradiction|].
  pose proof (curved_up_nonneg j i ltac:(lia) ltac:(lia)) as U.
  pose proof (curved_reciprocity kb ex sc sph PI t z h HV' HS' i j Hi Hj) as Hr. fold P in Hr.
  apply (pos_factor (vol_of sc i * sig_of sc h i)); [apply Rmult_lt_0_compat; [apply HV|apply HS]; assumption|].
  rewrite Hr. apply Rmult_le_pos; [left; apply Rmult_lt_0_compat; [apply HV|apply HS]; assumption|exact U].
Qed.

Lemma curved_esc_nonneg i : (0 <= i < n)%Z -> 0 <= 1 - rsum 0 n (P i).
Proof.
  intros Hi. pose proof (curved_conservation kb ex sc sph PI t z h HV' HS' i Hi) as E.
  apply (pos_factor (vol_of sc i * sig_of sc h i)); [apply Rmult_lt_0_compat; [apply HV|apply HS]; assumption|].
  fold P n in E. rewrite E. pose proof cst_pos. apply Rmult_le_pos; [lra|].
  apply rsum_nonneg. intros m Hm. apply rsum_nonneg. intros k Hk.
  apply Rmult_le_pos; [apply D1_nonneg; lia|apply Hom; lia].
Qed.

(* the diagonal, up to the error of the quadrature on the volume of the cell *)
Lemma curved_diag_lower i : (0 <= i < n)%Z ->
  1 - 2 * cst sph PI / (vol_of sc i * sig_of sc h i) *
      rsum 0 (i + 1) (fun m => rsum 0 8 (fun k => (T m i k - T m (i - 1) k) * omega sc sph z m k)) <= P i i.
Proof.
  intros Hi. unfold P, curved_P, curved_up. zdec.
  pose proof (HV i Hi) as v. pose proof (HS i Hi) as s.
  assert (vs : 0 < vol_of sc i * sig_of sc h i) by (apply Rmult_lt_0_compat; assumption).
  assert (S2 kb ex sc sph PI t z h i <= 2 * cst sph PI / (vol_of sc i * sig_of sc h i) *
      rsum 0 (i + 1) (fun m => rsum 0 8 (fun k => (T m i k - T m (i - 1) k) * omega sc sph z m k))); [|lra].
  apply Rmult_le_reg_l with (vol_of sc i * sig_of sc h i); [exact vs|].
  rewrite (S2_VS kb ex sc sph PI t z h HV' HS' i) by exact Hi.
  match goal with |- _ <= ?x * (?y / ?x' * ?q) => replace (x * (y / x' * q)) with (cst sph PI * (2 * q)) by (field; split; lra) end.
  pose proof cst_pos. apply Rmult_le_compat_l; [lra|]. rewrite <- rsum_scal. apply rsum_le. intros m Hm.
  rewrite <- rsum_scal. apply rsum_le. intros k Hk. rewrite <- Rmult_assoc.
  apply Rmult_le_compat_r; [apply Hom; lia|]. unfold D2. fold K. fold (T m i k) (T m (i - 1) k).
  pose proof (T_mono m k (i - 1) i ltac:(lia) Hk ltac:(lia) ltac:(lia)).
  pose proof (T_nonneg m k (i - 1) ltac:(lia) Hk ltac:(lia) ltac:(lia)).
  set (a := T m i k - T m (i - 1) k) in *.
  pose proof (gk_conv K HK (T m (i - 1) k + T m (i - 1) k) a a ltac:(lra) ltac:(unfold a; lra) ltac:(unfold a; lra)) as X.
  replace (T m (i - 1) k + T m (i - 1) k + a + a) with (T m i k + T m i k) in X by (unfold a; ring).
  replace (T m (i - 1) k + T m (i - 1) k + a) with (T m i k + T m (i - 1) k) in X by (unfold a; ring).
  pose proof (gk_slope K HK a ltac:(unfold a; lra)). lra.
Qed.

(* the diagonal of an optically thick cell *)
Lemma curved_diag_thick i : (0 <= i < n)%Z ->
  1 - 2 * cst sph PI / (vol_of sc i * sig_of sc h i) *
      (K 0 * rsum 0 (i + 1) (fun m => rsum 0 8 (fun k => omega sc sph z m k))) <= P i i.
Proof.
  intros Hi. unfold P, curved_P, curved_up. zdec.
  pose proof (HV i Hi) as v. pose proof (HS i Hi) as s.
  assert (vs : 0 < vol_of sc i * sig_of sc h i) by (apply Rmult_lt_0_compat; assumption).
  match goal with |- 1 - ?x <= _ => assert (S2 kb ex sc sph PI t z h i <= x); [|lra] end.
  apply Rmult_le_reg_l with (vol_of sc i * sig_of sc h i); [exact vs|].
  rewrite (S2_VS kb ex sc sph PI t z h HV' HS' i) by exact Hi.
  match goal with |- _ <= ?x * (?y / ?x' * ?q) => replace (x * (y / x' * q)) with (cst sph PI * (2 * q)) by (field; split; lra) end.
  pose proof cst_pos. apply Rmult_le_compat_l; [lra|]. rewrite <- Rmult_assoc, <- rsum_scal. apply rsum_le. intros m Hm.
  rewrite <- rsum_scal. apply rsum_le. intros k Hk.
  apply Rmult_le_compat_r; [apply Hom; lia|]. unfold D2. fold K. fold (T m i k) (T m (i - 1) k).
  pose proof (T_mono m k (i - 1) i ltac:(lia) Hk ltac:(lia) ltac:(lia)).
  pose proof (T_nonneg m k (i - 1) ltac:(lia) Hk ltac:(lia) ltac:(lia)).
  set (a := T m i k - T m (i - 1) k) in *.
  pose proof (gk_conv K HK (T m (i - 1) k + T m (i - 1) k) a a ltac:(lra) ltac:(unfold a; lra) ltac:(unfold a; lra)) as X.
  replace (T m (i - 1) k + T m (i - 1) k + a + a) with (T m i k + T m i k) in X by (unfold a; ring).
  replace (T m (i - 1) k + T m (i - 1) k + a) with (T m i k + T m (i - 1) k) in X by (unfold a; ring).
  pose proof (gk_pos K HK a ltac:(unfold a; lra)). lra.
Qed.
End CurvedBounds.

(* Sphere: an upper bound of the self collision probability of a thin cell *)
Lemma sphere_diag_upper kb sc t z h i :
  let n := sc_cells sc in let T m i k := tb t h m i k in
  (forall i, (0 <= i < n)%Z -> 0 < vol_of sc i) -> (forall i, (0 <= i < n)%Z -> 0 < sig_of sc h i) ->
  (forall m k, (0 <= m < n)%Z -> (0 <= k < 8)%Z -> 0 <= omega sc true z m k) ->
  (forall m i k, (0 <= m <= i)%Z -> (i < n)%Z -> (0 <= k < 8)%Z -> T m (i - 1)%Z k <= T m i k) ->
  (0 <= i < n)%Z ->
  curved_P kb exp sc true PI t z h i i <= 1 - 4 * PI / (vol_of sc i * sig_of sc h i) *
      rsum 0 (i + 1) (fun m => rsum 0 8 (fun k => let a := T m i k - T m (i - 1)%Z k in (2 * a - 3 * a ^ 2) * omega sc true z m k)).
Proof.
  intros n T HV HS Hom Hstep Hi. unfold curved_P, curved_up. zdec.
  pose proof (HV i Hi) as v. pose proof (HS i Hi) as s.
  assert (vs : 0 < vol_of sc i * sig_of sc h i) by (apply Rmult_lt_0_compat; assumption).
  match goal with |- _ <= 1 - ?x => assert (x <= S2 kb exp sc true PI t z h i); [|lra] end.
  apply Rmult_le_reg_l with (vol_of sc i * sig_of sc h i); [exact vs|].
  rewrite (S2_VS kb exp sc true PI t z h) by (intros; first [apply Rgt_not_eq, HV; assumption|apply Rgt_not_eq, HS; assumption|assumption]).
  match goal with |- ?x * (?y / ?x' * ?q) <= _ => replace (x * (y / x' * q)) with (cst true PI * q) by (unfold cst; field; split; lra) end.
  assert (0 < cst true PI) by (unfold cst; pose proof PI_RGT_0; lra). apply Rmult_le_compat_l; [lra|]. apply rsum_le. intros m Hm. apply rsum_le. intros k Hk.
  apply Rmult_le_compat_r; [apply Hom; lia|]. unfold D2, kernel. fold (T m i k) (T m (i - 1)%Z k). cbv zeta.
  pose proof (Hstep m i k ltac:(lia) ltac:(lia) Hk) as Hs.
  pose proof (T_nonneg sc t h Hstep m k (i - 1) ltac:(lia) Hk ltac:(lia) ltac:(fold n; lia)) as Hb.
  change (0 <= T m (i - 1)%Z k) in Hb. change (T m (i - 1)%Z k <= T m i k) in Hs.
  generalize dependent (T m i k). generalize dependent (T m (i - 1)%Z k). intros b Hb x Hs. cbn [nopp NumR].
  set (a := x - b) in *. assert (Ha : 0 <= a) by (unfold a; lra).
  replace x with (b + a) by (unfold a; ring). rewrite !Ropp_plus_distr, !exp_plus, Ropp_0, exp_0.
  assert (Eb : 0 < exp (- b) <= 1) by (split; [apply exp_pos|apply exp_le_1; lra]).
  assert (Ea : 0 < exp (- a) <= 1) by (split; [apply exp_pos|apply exp_le_1; lra]).
  assert (L1 : 1 - a <= exp (- a)) by (pose proof (exp_ineq1_le (- a)); lra).
  assert (L2 : exp (- a) <= 1 - a + a ^ 2).
  { assert (exp (- a) * (1 + a) <= 1).
    { pose proof (exp_ineq1_le a). apply Rle_trans with (exp (- a) * exp a).
      - apply Rmult_le_compat_l; lra.
      - rewrite <- exp_plus, Rplus_opp_l, exp_0. lra. }
    apply Rmult_le_reg_r with (1 + a); [lra|]. apply Rle_trans with 1; [assumption|]. cbn [pow]. nra. }
  replace (2 * (exp (- b) * exp (- a) * exp (- b)) + 2 * (1 - exp (- a)) - exp (- b) * exp (- a) * (exp (- b) * exp (- a)) - exp (- b) * exp (- b))
    with (2 * (1 - exp (- a)) - (exp (- b) * (1 - exp (- a))) ^ 2) by ring.
  assert (Q : (exp (- b) * (1 - exp (- a))) ^ 2 <= a ^ 2).
  { apply pow_incr. split; [apply Rmult_le_pos; lra|]. apply Rle_trans with (1 * (1 - exp (- a))); [apply Rmult_le_compat_r; lra|lra]. }
  lra.
Qed.

(* ---------- the rays of a mesh ---------- *)

Lemma absc_range k : (0 <= k < 8)%Z -> 0 <= absc k <= 1.
Proof.
  intros Hk. assert (k = 0 \/ k = 1 \/ k = 2 \/ k = 3 \/ k = 4 \/ k = 5 \/ k = 6 \/ k = 7)%Z as C by lia.
  repeat (destruct C as [C|C]); subst k;
    unfold absc, abscissa; cbn [Z.to_nat map nth Pos.to_nat Pos.iter_op Nat.add]; rnum;
    repeat match goal with |- context [Pos.to_nat ?p] => let v := eval compute in (Pos.to_nat p) in change (Pos.to_nat p) with v end;
    cbn [nth map]; lra.
Qed.
Lemma wgt_nonneg k : (0 <= k < 8)%Z -> 0 <= wgt k.
Proof.
  intros Hk. assert (k = 0 \/ k = 1 \/ k = 2 \/ k = 3 \/ k = 4 \/ k = 5 \/ k = 6 \/ k = 7)%Z as C by lia.
  repeat (destruct C as [C|C]); subst k;
    unfold wgt, weights; rnum;
    repeat match goal with |- context [Z.to_nat ?p] => let v := eval compute in (Z.to_nat p) in change (Z.to_nat p) with v end;
    cbn [nth map]; lra.
Qed.

Lemma sum8 (f : Z -> R) : rsum 0 8 f = f 0%Z + f 1%Z + f 2%Z + f 3%Z + f 4%Z + f 5%Z + f 6%Z + f 7%Z.
Proof.
  rewrite !rsum_first by lia. cbn [Z.add Pos.add Pos.succ]. rewrite rsum_empty by lia. ring.
Qed.

Lemma wgt_sum : rsum 0 8 wgt = 1 / 2.
Proof.
  rewrite sum8. unfold wgt, weights; rnum;
    repeat match goal with |- context [Z.to_nat ?p] => let v := eval compute in (Z.to_nat p) in change (Z.to_nat p) with v end;
    cbn [nth map]; lra.
Qed.

Section Rays.
Variables (sq : R -> R) (ms : mesh R) (sd : solverData R) (a : R) (sc : specCode R) (h : Z).
Hypothesis Hready : transport_ready ms sd a.
Hypothesis Hcode : code_ok ms sd sc.
Hypothesis Hsq0 : forall x, 0 <= sq x.
Hypothesis Hsq : forall x y, x <= y -> sq x <= sq y.
Hypothesis Hh : (0 <= h < ms_groups ms)%Z.

Lemma radii_nonneg i : (0 <= i <= ms_cells ms)%Z -> 0 <= vat (sc_radii sc) i.
Proof.
  intros Hi. rewrite (co_radii _ _ _ Hcode). destruct Hready as (Hr & _ & _ & _ & Hinc & H0 & _).
  destruct Hr as (_ & _ & Hl & _).
  assert (0 <= vat (ms_bounds ms) i) by (apply increasing_nonneg; auto; lia). lra.
Qed.

Lemma ray_nonneg m k : (0 <= m < ms_cells ms)%Z -> (0 <= k < 8)%Z -> 0 <= ray sc m k.
Proof.
  intros Hm Hk. unfold ray. pose proof (absc_range k Hk). pose proof (radii_nonneg m ltac:(lia)).
  pose proof (width_pos ms sd a sc Hready Hcode m Hm) as W. unfold width_of in *.
  assert (absc k ^ 2 <= 1) by (cbn [pow]; nra). nra.
Qed.

Lemma omega_nonneg sph m k : (0 <= m < ms_cells ms)%Z -> (0 <= k < 8)%Z -> 0 <= omega sc sph (ray sc) m k.
Proof.
  intros Hm Hk. pose proof (wgt_nonneg k Hk). pose proof (width_pos ms sd a sc Hready Hcode m Hm).
  pose proof (ray_nonneg m k Hm Hk). unfold omega.
  destruct sph; repeat apply Rmult_le_pos; lra.
Qed.

Lemma opt_step m i k : (0 <= m <= i)%Z -> (i < ms_cells ms)%Z -> (0 <= k < 8)%Z ->
  tb (opt sq sc) h m (i - 1) k <= tb (opt sq sc) h m i k.
Proof.
  intros Hm Hi Hk. pose proof (sig_pos ms sd a sc Hready Hcode h i Hh ltac:(lia)) as S.
  unfold tb. replace (i <? m)%Z with false by lia. destruct (i - 1 <? m)%Z eqn:E.
  - assert (i = m) as -> by lia. unfold opt. rewrite rsum_one. unfold seg. rewrite Z.eqb_refl, Rminus_0_r.
    apply Rmult_le_pos; [apply Hsq0|lra].
  - unfold opt. replace (i - 1 + 1)%Z with i by ring. rewrite rsum_last by lia.
    assert (0 <= seg sq sc m i k * sig_of sc h i); [|lra]. apply Rmult_le_pos; [|lra].
    unfold seg. replace (i =? m)%Z with false by lia.
    assert (chord sq sc m (i - 1) k <= chord sq sc m i k); [|lra]. apply Hsq.
    replace (i - 1 + 1)%Z with i by ring.
    pose proof (radii_nonneg i ltac:(lia)). pose proof (width_pos ms sd a sc Hready Hcode i ltac:(lia)) as W.
    unfold width_of in W.
    assert (vat (sc_radii sc) i ^ 2 <= vat (sc_radii sc) (i + 1) ^ 2) by (apply pow_incr; lra). lra.
Qed.
End Rays.
