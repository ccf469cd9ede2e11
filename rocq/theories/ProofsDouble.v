(* IEEE doubles: sums, products and quotients of non-negative numbers within bounds are
   the rounded results, and rounding keeps the order. *)
From Coq Require Import ZArith List Bool Lia Reals Lra Psatz.
From Flocq Require Import IEEE754.BinarySingleNaN Core Relative Plus_error.
From Verif Require Import Base NumF.
Import ListNotations.
Local Open Scope R_scope.

Notation exp64 := (FLT_exp (-1074) 53).
Definition rnd (x : R) : R := round radix2 exp64 ZnearestE x.
Definition fin (x : f64) : Prop := is_finite x = true.
Notation val := (@B2R prec64 emax64).
(* the unit roundoff *)
Definition u64 : R := bpow radix2 (-53).

#[global] Instance prec53 : Prec_gt_0 53 := eq_refl.
#[global] Instance valid64 : Valid_exp exp64 := FLT_exp_valid _ _.

Lemma same_exp : SpecFloat.fexp prec64 emax64 = exp64.
Proof. reflexivity. Qed.
Lemma rnd_le x y : x <= y -> rnd x <= rnd y.
Proof. intros H. apply round_le; [apply valid64|apply valid_rnd_N|exact H]. Qed.
Lemma rnd_0 : rnd 0 = 0.
Proof. apply round_0. apply valid_rnd_N. Qed.
Lemma rnd_nonneg x : 0 <= x -> 0 <= rnd x.
Proof. intros H. rewrite <- rnd_0. apply rnd_le, H. Qed.
Lemma rnd_id x : generic_format radix2 exp64 x -> rnd x = x.
Proof. intros H. apply round_generic; [apply valid_rnd_N|exact H]. Qed.
Lemma format_val (x : f64) : generic_format radix2 exp64 (val x).
Proof. rewrite <- same_exp. apply generic_format_B2R. Qed.
Lemma rnd_val (x : f64) : rnd (val x) = val x.
Proof. apply rnd_id, format_val. Qed.
Lemma u64_value : u64 = / 2 * bpow radix2 (- 53 + 1).
Proof. unfold u64. replace (-53 + 1)%Z with (1 + -53)%Z by lia. rewrite bpow_plus. simpl (bpow radix2 1). lra. Qed.
Lemma u64_small : 0 < u64 <= 1 / 1099511627776.
Proof.
  unfold u64. split; [apply bpow_gt_0|]. apply Rle_trans with (bpow radix2 (-40)); [apply bpow_le; lia|]. simpl. lra.
Qed.

(* integers times a power of two are doubles *)
Lemma format_scaled k e : (Z.abs k < 2 ^ 53)%Z -> (-1074 <= e)%Z -> generic_format radix2 exp64 (IZR k * bpow radix2 e).
Proof.
  intros Hk He. apply generic_format_FLT. exists (Float radix2 k e); [reflexivity| |exact He]. exact Hk.
Qed.
Lemma rnd_scaled x k e : (0 <= k < 2 ^ 53)%Z -> (-1074 <= e)%Z -> x <= IZR k * bpow radix2 e -> rnd x <= IZR k * bpow radix2 e.
Proof. intros Hk He H. rewrite <- (rnd_id (IZR k * bpow radix2 e)); [apply rnd_le, H|]. apply format_scaled; lia. Qed.

(* ---------- the operations ---------- *)
Lemma fits x : 0 <= x -> x <= bpow radix2 1000 -> Rlt_bool (Rabs (rnd x)) (bpow radix2 1024) = true.
Proof.
  intros H0 H. apply Rlt_bool_true. rewrite Rabs_pos_eq by (apply rnd_nonneg, H0).
  apply Rle_lt_trans with (bpow radix2 1000); [|apply bpow_lt; lia].
  replace (bpow radix2 1000) with (IZR 1 * bpow radix2 1000) in H |- * by apply Rmult_1_l. apply rnd_scaled; [split; reflexivity || lia|lia|exact H].
Qed.
Lemma add_ok (x y : f64) : fin x -> fin y -> 0 <= val x -> 0 <= val y -> val x + val y <= bpow radix2 1000 ->
  fin (x [+] y) /\ val (x [+] y) = rnd (val x + val y).
Proof.
  intros Fx Fy Hx Hy Hb. pose proof (Bplus_correct prec64 emax64 _ _ mode_NE x y Fx Fy) as H. rewrite same_exp in H.
  change (round radix2 exp64 (round_mode mode_NE) (val x + val y)) with (rnd (val x + val y)) in H.
  change emax64 with 1024%Z in H at 3. rewrite fits in H by lra. destruct H as (H1 & H2 & _). split; assumption.
Qed.
Lemma mul_ok (x y : f64) : fin x -> fin y -> 0 <= val x -> 0 <= val y -> val x * val y <= bpow radix2 1000 ->
  fin (x [*] y) /\ val (x [*] y) = rnd (val x * val y).
Proof.
  intros Fx Fy Hx Hy Hb. pose proof (Bmult_correct prec64 emax64 _ _ mode_NE x y) as H. rewrite same_exp in H.
  change (round radix2 exp64 (round_mode mode_NE) (val x * val y)) with (rnd (val x * val y)) in H.
  change (bpow radix2 emax64) with (bpow radix2 1024) in H. rewrite fits in H by (try apply Rmult_le_pos; assumption). destruct H as (H1 & H2 & _). split; [|exact H1].
  unfold fin in *. refine (eq_trans H2 _). rewrite Fx, Fy. reflexivity.
Qed.
Lemma div_ok (x y : f64) : fin x -> 0 <= val x -> 0 < val y -> val x / val y <= bpow radix2 1000 ->
  fin (x [/] y) /\ val (x [/] y) = rnd (val x / val y).
Proof.
  intros Fx Hx Hy Hb. pose proof (Bdiv_correct prec64 emax64 _ _ mode_NE x y ltac:(lra)) as H. rewrite same_exp in H.
  change (round radix2 exp64 (round_mode mode_NE) (val x / val y)) with (rnd (val x / val y)) in H.
  change (bpow radix2 emax64) with (bpow radix2 1024) in H. rewrite fits in H; [|apply Rmult_le_pos; [exact Hx|left; apply Rinv_0_lt_compat, Hy]|exact Hb].
  destruct H as (H1 & H2 & _). split; [|exact H1]. exact (eq_trans H2 Fx).
Qed.
Lemma ofZ_ok k : (0 <= k < 2 ^ 53)%Z -> fin (nofZ k : f64) /\ val (nofZ k : f64) = IZR k.
Proof.
  intros Hk. pose proof (binary_normalize_correct prec64 emax64 _ _ mode_NE k 0 false) as H. cbv zeta in H. rewrite same_exp in H.
  change (F2R {| Fnum := k; Fexp := 0 |}) with (IZR k * bpow radix2 0) in H.
  change (round radix2 exp64 (round_mode mode_NE) (IZR k * bpow radix2 0)) with (rnd (IZR k * bpow radix2 0)) in H.
  change (bpow radix2 emax64) with (bpow radix2 1024) in H.
  assert (B : IZR k <= bpow radix2 53) by (rewrite <- IZR_Zpower by lia; apply IZR_le; change (radix2 ^ 53)%Z with (2 ^ 53)%Z; lia).
  rewrite fits in H.
  - destruct H as (H1 & H2 & _). rewrite rnd_id in H1 by (apply format_scaled; lia). simpl (bpow radix2 0) in H1. rewrite Rmult_1_r in H1. split; [exact H2|exact H1].
  - simpl (bpow radix2 0). rewrite Rmult_1_r. apply IZR_le. lia.
  - simpl (bpow radix2 0). rewrite Rmult_1_r. apply Rle_trans with (1 := B). apply bpow_le. lia.
Qed.

(* ---------- relative errors ---------- *)

(* x is y up to m roundings *)
Definition near (m : nat) (x y : R) : Prop := y * (1 - u64) ^ m <= x <= y * (1 + u64) ^ m.

Lemma near_nonneg m x y : 0 <= y -> near m x y -> 0 <= x.
Proof. intros Hy [H _]. apply Rle_trans with (2 := H). apply Rmult_le_pos; [exact Hy|]. apply pow_le. pose proof u64_small. lra. Qed.
Lemma near_refl y : near 0 y y.
Proof. unfold near. simpl. lra. Qed.
Lemma near_more m m' x y : 0 <= y -> (m <= m')%nat -> near m x y -> near m' x y.
Proof.
  intros Hy Hm [H1 H2]. pose proof u64_small as U. replace m' with (m + (m' - m))%nat by lia. generalize (m' - m)%nat. intros k. unfold near. rewrite !pow_add.
  assert (A : 0 <= (1 - u64) ^ k <= 1). { split; [apply pow_le; lra|]. apply Rle_trans with (1 ^ k); [apply pow_incr; lra|rewrite pow1; lra]. }
  assert (B : 1 <= (1 + u64) ^ k) by (apply pow_R1_Rle; lra).
  assert (C : 0 <= y * (1 - u64) ^ m) by (apply Rmult_le_pos; [exact Hy|apply pow_le; lra]).
  assert (D : 0 <= y * (1 + u64) ^ m) by (apply Rmult_le_pos; [exact Hy|apply pow_le; lra]).
  rewrite <- !Rmult_assoc. split.
  - apply Rle_trans with (2 := H1). rewrite <- (Rmult_1_r (y * (1 - u64) ^ m)) at 2. apply Rmult_le_compat_l; lra.
  - apply Rle_trans with (1 := H2). rewrite <- (Rmult_1_r (y * (1 + u64) ^ m)) at 1. apply Rmult_le_compat_l; lra.
Qed.
Lemma near_step m x y e : 0 <= x -> near m x y -> Rabs e <= u64 -> near (S m) (x * (1 + e)) y.
Proof.
  intros Hx [H1 H2] He. pose proof u64_small as U. apply Rabs_le_inv in He. unfold near. simpl pow.
  replace (y * ((1 - u64) * (1 - u64) ^ m)) with (y * (1 - u64) ^ m * (1 - u64)) by ring. replace (y * ((1 + u64) * (1 + u64) ^ m)) with (y * (1 + u64) ^ m * (1 + u64)) by ring.
  split.
  - apply Rle_trans with (x * (1 - u64)); [apply Rmult_le_compat_r; lra|apply Rmult_le_compat_l; lra].
  - apply Rle_trans with (x * (1 + u64)); [apply Rmult_le_compat_l; lra|apply Rmult_le_compat_r; lra].
Qed.
Lemma near_scale m x y c : 0 <= c -> near m x y -> near m (x * c) (y * c).
Proof. intros Hc [H1 H2]. unfold near. split; [replace (y * c * (1 - u64) ^ m) with (y * (1 - u64) ^ m * c) by ring|replace (y * c * (1 + u64) ^ m) with (y * (1 + u64) ^ m * c) by ring]; apply Rmult_le_compat_r; assumption. Qed.
Lemma near_add m x y x' y' : near m x y -> near m x' y' -> near m (x + x') (y + y').
Proof. unfold near. intros [] []. rewrite !Rmult_plus_distr_r. lra. Qed.
(* results in the normal range, and zero *)
Lemma near_rnd m x y : 0 <= x -> near m x y -> x = 0 \/ bpow radix2 (-1022) <= x -> near (S m) (rnd x) y.
Proof.
  intros Hx H [-> | Hn].
  - rewrite rnd_0. replace 0 with (0 * (1 + 0)) by ring. apply near_step; [lra|exact H|]. rewrite Rabs_R0. pose proof u64_small. lra.
  - destruct (relative_error_N_FLT_ex radix2 (-1074) 53 ltac:(lia) (fun z => negb (Z.even z)) x) as (e & He & E).
    + rewrite Rabs_pos_eq by exact Hx. exact Hn.
    + unfold rnd. rewrite E. apply near_step; [exact Hx|exact H|]. rewrite u64_value. exact He.
Qed.
(* sums of doubles, whatever their size *)
Lemma near_sum m x y z : 0 <= x -> 0 <= y -> generic_format radix2 exp64 x -> generic_format radix2 exp64 y -> near m (x + y) z -> near (S m) (rnd (x + y)) z.
Proof.
  intros Hx Hy Fx Fy H. destruct (FLT_plus_error_N_ex radix2 (-1074) 53 (fun w => negb (Z.even w)) x y Fx Fy) as (e & He & E).
  unfold rnd. rewrite E. apply near_step; [lra|exact H|]. apply Rle_trans with (1 := He).
  assert (U : u_ro radix2 53 = u64) by (unfold u_ro; rewrite u64_value; reflexivity). rewrite U. pose proof u64_small as [U0 _].
  apply Rmult_le_reg_r with (1 + u64); [lra|]. unfold Rdiv. rewrite Rmult_assoc, Rinv_l, Rmult_1_r by lra. nra.
Qed.

(* dividing what is one step short of n steps of d by n does not exceed d *)
Lemma rnd_last_step d n : (1 <= n < 2 ^ 31)%Z -> 0 <= d -> generic_format radix2 exp64 d -> rnd (IZR (n - 1) * d) <= IZR n * d.
Proof.
  intros Hn Hd F. destruct (Req_dec d 0) as [->|Nz]; [rewrite !Rmult_0_r, rnd_0; lra|].
  assert (Hn1 : 0 <= IZR (n - 1)) by (apply IZR_le; lia).
  assert (Hn2 : IZR (n - 1) <= 2147483648) by (apply IZR_le; lia).
  replace (IZR n) with (IZR (n - 1) + 1) by (rewrite <- plus_IZR; f_equal; lia).
  set (x := IZR (n - 1) * d). assert (Hx : 0 <= x) by (apply Rmult_le_pos; lra).
  pose proof u64_small as U.
  destruct (Rle_or_lt (bpow radix2 (-1022)) x) as [H|H].
  - destruct (relative_error_N_FLT_ex radix2 (-1074) 53 ltac:(lia) (fun z => negb (Z.even z)) x) as (e & He & E).
    { rewrite Rabs_pos_eq by exact Hx. exact H. }
    unfold rnd. rewrite E. assert (He' : Rabs e <= u64) by (rewrite u64_value; exact He). apply Rabs_le_inv in He'. unfold x in *.
    apply Rle_trans with (IZR (n - 1) * d * (1 + u64)); [apply Rmult_le_compat_l; lra|].
    replace (IZR (n - 1) * d * (1 + u64)) with (IZR (n - 1) * d + d * (IZR (n - 1) * u64)) by ring.
    rewrite Rmult_plus_distr_r, Rmult_1_l. apply Rplus_le_compat_l. rewrite <- (Rmult_1_r d) at 2. apply Rmult_le_compat_l; [lra|].
    apply Rle_trans with (2147483648 * (1 / 1099511627776)); [apply Rmult_le_compat; lra|lra].
  - assert (G : bpow radix2 (-1074) <= d).
    { apply (generic_format_ge_bpow radix2 exp64); [|lra|exact F]. intros e. unfold FLT_exp. lia. }
    pose proof (error_le_half_ulp radix2 exp64 (fun z => negb (Z.even z)) x) as B. apply Rabs_le_inv in B. fold (rnd x) in B.
    rewrite ulp_FLT_small in B; [|exact prec53|rewrite Rabs_pos_eq by exact Hx; apply Rlt_trans with (1 := H), bpow_lt; lia].
    pose proof (bpow_gt_0 radix2 (-1074)). unfold x in *. fold (rnd (IZR (n - 1) * d)) in B. unfold rnd in *. lra.
Qed.

Lemma zero64 : fin (n0 : f64) /\ val (n0 : f64) = 0.
Proof. exact (ofZ_ok 0 ltac:(lia)). Qed.
