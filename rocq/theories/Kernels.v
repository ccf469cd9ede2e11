(* The transport kernels: the exponential integral of order three and the
   Bickley function of order three, as integrals. *)
From Coq Require Import ZArith Reals Lra Lia.
From Coquelicot Require Import Coquelicot.
Local Open Scope R_scope.

Ltac rring := match goal with |- ?a = ?b => change (@eq R a b) end; ring.

(* boost::math::expint(3, x) and Numerics::bickley3f (numeric_tools.cpp:12-17) *)
Definition E3 (x : R) : R := RInt (fun mu => mu * exp (- x / mu)) 0 1.
Definition Ki3 (x : R) : R := RInt (fun t => exp (- x / sin t) * sin t * sin t) 0 (PI / 2).

(* u * exp(- x / u), continued by zero and made even *)
Definition damp (x u : R) : R := Rabs u * exp (- x / Rabs u).

Lemma damp_bound x u : 0 <= x -> 0 <= damp x u <= Rabs u.
Proof.
  intros Hx. unfold damp. pose proof (Rabs_pos u). pose proof (exp_pos (- x / Rabs u)).
  split; [apply Rmult_le_pos; lra|].
  destruct (Req_dec (Rabs u) 0) as [E|E]; [rewrite E; lra|].
  assert (exp (- x / Rabs u) <= 1).
  { rewrite <- exp_0. assert (Hle : - x / Rabs u <= 0).
    { unfold Rdiv. assert (0 < / Rabs u) by (apply Rinv_0_lt_compat; lra).
      rewrite Ropp_mult_distr_l_reverse. assert (0 <= x * / Rabs u) by (apply Rmult_le_pos; lra). lra. }
    destruct (Rle_lt_or_eq_dec _ _ Hle) as [L|L]; [left; apply exp_increasing; exact L|rewrite L; lra]. }
  apply Rle_trans with (Rabs u * 1); [apply Rmult_le_compat_l; lra|lra].
Qed.

Lemma damp_continuous x u : 0 <= x -> continuous (damp x) u.
Proof.
  intros Hx. destruct (Req_dec u 0) as [->|Hu].
  - apply continuity_pt_filterlim. intros eps He. exists eps. split; [exact He|]. intros y [_ Hy].
    unfold dist in *. cbn in *. unfold R_dist in *. rewrite Rminus_0_r in Hy.
    pose proof (damp_bound x 0 Hx) as H0. pose proof (damp_bound x y Hx) as H1. rewrite Rabs_R0 in H0.
    replace (damp x 0) with 0 by lra. rewrite Rminus_0_r. rewrite Rabs_right by lra. lra.
  - unfold damp. assert (Ha : Rabs u <> 0) by (apply Rabs_no_R0; exact Hu).
    apply (continuous_mult (fun u => Rabs u) (fun u => exp (- x / Rabs u))).
    + apply continuous_Rabs.
    + apply (continuous_comp (fun u => - x / Rabs u) exp).
      * apply (continuous_mult (fun _ => - x) (fun u => / Rabs u)); [apply continuous_const|].
        apply (continuous_comp Rabs Rinv); [apply continuous_Rabs|]. apply continuous_Rinv. exact Ha.
      * apply continuous_exp.
Qed.

Lemma E3_integrable x : 0 <= x -> ex_RInt (fun mu => mu * exp (- x / mu)) 0 1.
Proof.
  intros Hx. apply (ex_RInt_ext (damp x)).
  - rewrite Rmin_left, Rmax_right by lra. intros u Hu. unfold damp. rewrite Rabs_right by lra. reflexivity.
  - apply (@ex_RInt_continuous R_CompleteNormedModule). intros u _. apply damp_continuous, Hx.
Qed.

Lemma Ki3_integrable x : 0 <= x -> ex_RInt (fun t => exp (- x / sin t) * sin t * sin t) 0 (PI / 2).
Proof.
  intros Hx. pose proof PI_RGT_0. apply (ex_RInt_ext (fun t => damp x (sin t) * sin t)).
  - rewrite Rmin_left, Rmax_right by lra. intros u Hu. unfold damp.
    assert (0 < sin u) by (apply sin_gt_0; lra). rewrite Rabs_right by lra. rring.
  - apply (@ex_RInt_continuous R_CompleteNormedModule). intros u _.
    apply (continuous_mult (fun t => damp x (sin t)) sin).
    + apply (continuous_comp sin (damp x)); [apply continuous_sin|apply damp_continuous, Hx].
    + apply continuous_sin.
Qed.

Lemma RInt_id : RInt (fun u : R => u) 0 1 = 1 / 2.
Proof.
  apply is_RInt_unique.
  replace (1 / 2) with (minus ((fun u => u ^ 2 / 2) 1) ((fun u => u ^ 2 / 2) 0)) by (unfold minus, plus, opp; cbn; lra).
  apply (is_RInt_derive (fun u => u ^ 2 / 2)).
  - intros u _. auto_derive; [exact I|lra].
  - intros u _. apply continuous_id.
Qed.
Lemma ex_RInt_id : ex_RInt (fun u : R => u) 0 1.
Proof. apply (@ex_RInt_continuous R_CompleteNormedModule). intros u _. apply continuous_id. Qed.

Lemma E3_0 : E3 0 = 1 / 2.
Proof.
  unfold E3. rewrite <- RInt_id. apply RInt_ext. intros u _.
  unfold Rdiv. rewrite Ropp_0, Rmult_0_l, exp_0. rring.
Qed.

Lemma exp_le_1 y : y <= 0 -> exp y <= 1.
Proof.
  intros [L|L]; [rewrite <- exp_0; left; apply exp_increasing; exact L|rewrite L, exp_0; lra].
Qed.
Lemma exp_le_mono x y : x <= y -> exp x <= exp y.
Proof. intros [L|L]; [left; apply exp_increasing; exact L|rewrite L; lra]. Qed.

Lemma quot_nonneg x u : 0 <= x -> 0 < u -> 0 <= x / u.
Proof. intros. apply Rmult_le_pos; [lra|]. left. apply Rinv_0_lt_compat. lra. Qed.
Lemma neg_quot x u : - x / u = - (x / u).
Proof. unfold Rdiv. ring. Qed.

Lemma E3_nonneg x : 0 <= x -> 0 <= E3 x.
Proof.
  intros Hx. unfold E3. apply RInt_ge_0; [lra|apply E3_integrable, Hx|].
  intros u Hu. apply Rmult_le_pos; [lra|]. left. apply exp_pos.
Qed.

Lemma E3_exp x : 0 <= x -> E3 x <= exp (- x) / 2.
Proof.
  intros Hx. replace (exp (- x) / 2) with (RInt (fun u => exp (- x) * u) 0 1).
  - unfold E3. apply RInt_le; [lra|apply E3_integrable, Hx|apply (ex_RInt_scal (V := R_NormedModule) (fun u : R => u) 0 1 (exp (- x)) ex_RInt_id)|].
    intros u Hu. rewrite (Rmult_comm (exp (- x))).
    apply Rmult_le_compat_l; [lra|]. apply exp_le_mono. rewrite neg_quot. apply Ropp_le_contravar.
    apply (Rmult_le_reg_r u); [lra|]. unfold Rdiv. rewrite Rmult_assoc, Rinv_l by lra.
    apply Rmult_le_compat_l; lra.
  - apply (eq_trans (RInt_scal (V := R_CompleteNormedModule) (fun u : R => u) 0 1 (exp (- x)) ex_RInt_id)).
    rewrite RInt_id. unfold scal. cbn. unfold mult. cbn. lra.
Qed.

Lemma E3_minus x y : 0 <= x -> 0 <= y ->
  E3 x - E3 y = RInt (fun u => u * exp (- x / u) - u * exp (- y / u)) 0 1.
Proof.
  intros Hx Hy. unfold E3. symmetry.
  apply (RInt_minus (V := R_CompleteNormedModule) (fun u => u * exp (- x / u)) (fun u => u * exp (- y / u)));
    apply E3_integrable; auto.
Qed.

Lemma E3_decreasing x y : 0 <= x <= y -> E3 y <= E3 x.
Proof.
  intros Hx. apply RInt_le; [lra|apply E3_integrable; lra|apply E3_integrable; lra|].
  intros u Hu. apply Rmult_le_compat_l; [lra|]. apply exp_le_mono. rewrite !neg_quot. apply Ropp_le_contravar.
  apply Rmult_le_compat_r; [|lra]. left. apply Rinv_0_lt_compat. lra.
Qed.

(* the second difference is non-negative *)
Lemma E3_convex x a b : 0 <= x -> 0 <= a -> 0 <= b ->
  0 <= E3 x - E3 (x + a) - E3 (x + b) + E3 (x + b + a).
Proof.
  intros Hx Ha Hb.
  replace (E3 x - E3 (x + a) - E3 (x + b) + E3 (x + b + a))
    with ((E3 x - E3 (x + a)) - (E3 (x + b) - E3 (x + b + a))) by ring.
  rewrite !E3_minus by lra.
  set (f := fun u => u * exp (- x / u) - u * exp (- (x + a) / u)).
  set (g := fun u => u * exp (- (x + b) / u) - u * exp (- (x + b + a) / u)).
  assert (If : ex_RInt f 0 1) by (apply (ex_RInt_minus (V := R_NormedModule) (fun u => u * exp (- x / u)) (fun u => u * exp (- (x + a) / u))); apply E3_integrable; lra).
  assert (Ig : ex_RInt g 0 1) by (apply (ex_RInt_minus (V := R_NormedModule) (fun u => u * exp (- (x + b) / u)) (fun u => u * exp (- (x + b + a) / u))); apply E3_integrable; lra).
  assert (RInt g 0 1 <= RInt f 0 1); [|lra].
  apply RInt_le; [lra|exact Ig|exact If|]. intros u Hu. unfold f, g.
  replace (- (x + a) / u) with (- x / u + - a / u) by (field; lra).
  replace (- (x + b + a) / u) with (- x / u + (- a / u + - b / u)) by (field; lra).
  replace (- (x + b) / u) with (- x / u + - b / u) by (field; lra).
  rewrite !exp_plus.
  assert (A : exp (- a / u) <= 1) by (apply exp_le_1; rewrite neg_quot; pose proof (quot_nonneg a u Ha ltac:(lra)); lra).
  assert (B : exp (- b / u) <= 1) by (apply exp_le_1; rewrite neg_quot; pose proof (quot_nonneg b u Hb ltac:(lra)); lra).
  assert (0 <= u * exp (- x / u) * (1 - exp (- a / u)) * (1 - exp (- b / u))); [|lra].
  pose proof (exp_pos (- x / u)). repeat apply Rmult_le_pos; lra.
Qed.

Lemma E3_slope x : 0 <= x -> 1 / 2 - x <= E3 x.
Proof.
  intros Hx. assert (E3 0 - E3 x <= x); [|rewrite E3_0 in *; lra].
  rewrite E3_minus by lra. apply Rle_trans with (RInt (fun _ => x) 0 1).
  - apply RInt_le; [lra| |apply ex_RInt_const|].
    + apply (ex_RInt_minus (V := R_NormedModule) (fun u => u * exp (- 0 / u)) (fun u => u * exp (- x / u))); apply E3_integrable; lra.
    + intros u Hu. replace (- 0 / u) with 0 by (unfold Rdiv; ring). rewrite exp_0.
      assert (Hq : 1 + - x / u <= exp (- x / u)).
      { destruct (Req_dec (- x / u) 0) as [E|E]; [rewrite E, exp_0; lra|left; apply exp_ineq1; exact E]. }
      assert (u * (- x / u) = - x) by (field; lra).
      assert (u * (1 + - x / u) <= u * exp (- x / u)) by (apply Rmult_le_compat_l; lra). lra.
  - rewrite RInt_const. unfold scal. cbn. unfold mult. cbn. lra.
Qed.

Lemma ex_RInt_sin2 : ex_RInt (fun t => sin t * sin t) 0 (PI / 2).
Proof.
  apply (@ex_RInt_continuous R_CompleteNormedModule). intros u _. apply (continuous_mult sin sin); apply continuous_sin.
Qed.
Lemma RInt_sin2 : RInt (fun t => sin t * sin t) 0 (PI / 2) = PI / 4.
Proof.
  apply is_RInt_unique.
  replace (PI / 4) with (minus ((fun t => (t - sin t * cos t) / 2) (PI / 2)) ((fun t => (t - sin t * cos t) / 2) 0)).
  - apply (is_RInt_derive (fun t => (t - sin t * cos t) / 2)).
    + intros t _. auto_derive; [exact I|]. pose proof (sin2_cos2 t) as H. unfold Rsqr in H.
      replace (1 + - (cos t * cos t + sin t * - sin t)) with (1 - cos t * cos t + sin t * sin t) by ring. lra.
    + intros t _. apply (continuous_mult sin sin); apply continuous_sin.
  - unfold minus, plus, opp. cbn. rewrite cos_PI2, sin_0. lra.
Qed.

Lemma Ki3_0 : Ki3 0 = PI / 4.
Proof.
  unfold Ki3. rewrite <- RInt_sin2. apply RInt_ext. intros t _.
  unfold Rdiv. rewrite Ropp_0, Rmult_0_l, exp_0. rring.
Qed.

Lemma Ki3_bounds x : 0 <= x -> 0 <= Ki3 x <= PI / 4.
Proof.
  intros Hx. pose proof PI_RGT_0 as HP. split.
  - unfold Ki3. apply RInt_ge_0; [lra|apply Ki3_integrable, Hx|]. intros t Ht.
    assert (0 < sin t) by (apply sin_gt_0; lra). pose proof (exp_pos (- x / sin t)).
    repeat apply Rmult_le_pos; lra.
  - rewrite <- RInt_sin2. unfold Ki3. apply RInt_le; [lra|apply Ki3_integrable, Hx|apply ex_RInt_sin2|].
    intros t Ht. assert (0 < sin t) by (apply sin_gt_0; lra).
    rewrite <- (Rmult_1_l (sin t * sin t)), Rmult_assoc. apply Rmult_le_compat_r; [apply Rmult_le_pos; lra|].
    apply exp_le_1. rewrite neg_quot. pose proof (quot_nonneg x (sin t) Hx ltac:(lra)). lra.
Qed.

Lemma Ki3_minus x y : 0 <= x -> 0 <= y ->
  Ki3 x - Ki3 y = RInt (fun t => exp (- x / sin t) * sin t * sin t - exp (- y / sin t) * sin t * sin t) 0 (PI / 2).
Proof.
  intros Hx Hy. unfold Ki3. symmetry.
  apply (RInt_minus (V := R_CompleteNormedModule) (fun t => exp (- x / sin t) * sin t * sin t)
    (fun t => exp (- y / sin t) * sin t * sin t)); apply Ki3_integrable; auto.
Qed.

Lemma Ki3_decreasing x y : 0 <= x <= y -> Ki3 y <= Ki3 x.
Proof.
  intros Hx. pose proof PI_RGT_0. apply RInt_le; [lra|apply Ki3_integrable; lra|apply Ki3_integrable; lra|].
  intros t Ht. assert (0 < sin t) by (apply sin_gt_0; lra).
  rewrite !Rmult_assoc. apply Rmult_le_compat_r; [apply Rmult_le_pos; lra|]. apply exp_le_mono.
  rewrite !neg_quot. apply Ropp_le_contravar. apply Rmult_le_compat_r; [|lra]. left. apply Rinv_0_lt_compat. lra.
Qed.

Lemma Ki3_convex x a b : 0 <= x -> 0 <= a -> 0 <= b ->
  0 <= Ki3 x - Ki3 (x + a) - Ki3 (x + b) + Ki3 (x + b + a).
Proof.
  intros Hx Ha Hb. pose proof PI_RGT_0.
  replace (Ki3 x - Ki3 (x + a) - Ki3 (x + b) + Ki3 (x + b + a))
    with ((Ki3 x - Ki3 (x + a)) - (Ki3 (x + b) - Ki3 (x + b + a))) by ring.
  rewrite !Ki3_minus by lra.
  set (k := fun y t => exp (- y / sin t) * sin t * sin t).
  set (f := fun t => k x t - k (x + a) t).
  set (g := fun t => k (x + b) t - k (x + b + a) t).
  assert (If : ex_RInt f 0 (PI / 2)) by (apply (ex_RInt_minus (V := R_NormedModule) (k x) (k (x + a))); apply Ki3_integrable; lra).
  assert (Ig : ex_RInt g 0 (PI / 2)) by (apply (ex_RInt_minus (V := R_NormedModule) (k (x + b)) (k (x + b + a))); apply Ki3_integrable; lra).
  change (0 <= RInt f 0 (PI / 2) - RInt g 0 (PI / 2)).
  assert (RInt g 0 (PI / 2) <= RInt f 0 (PI / 2)); [|lra].
  apply RInt_le; [lra|exact Ig|exact If|]. intros t Ht. unfold f, g, k.
  assert (Hs : 0 < sin t) by (apply sin_gt_0; lra). set (u := sin t) in *.
  replace (- (x + a) / u) with (- x / u + - a / u) by (field; lra).
  replace (- (x + b + a) / u) with (- x / u + (- a / u + - b / u)) by (field; lra).
  replace (- (x + b) / u) with (- x / u + - b / u) by (field; lra).
  rewrite !exp_plus.
  assert (A : exp (- a / u) <= 1) by (apply exp_le_1; rewrite neg_quot; pose proof (quot_nonneg a u Ha ltac:(lra)); lra).
  assert (B : exp (- b / u) <= 1) by (apply exp_le_1; rewrite neg_quot; pose proof (quot_nonneg b u Hb ltac:(lra)); lra).
  assert (0 <= u * u * exp (- x / u) * (1 - exp (- a / u)) * (1 - exp (- b / u))); [|lra].
  pose proof (exp_pos (- x / u)). repeat apply Rmult_le_pos; lra.
Qed.
