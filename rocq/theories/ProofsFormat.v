(* What the conversion "%7.6e" writes. *)
From Coq Require Import String Ascii ZArith List Bool Lia Reals Lra.
From Flocq Require Import IEEE754.BinarySingleNaN Core.
From Verif Require Import Base NumF ModelText ModelFormat.
Local Open Scope Z_scope.

Definition radix10 : radix := Build_radix 10 eq_refl.
Notation ten := (bpow radix10).

(* ---------- the exponent ---------- *)

Lemma expUp_spec fuel : forall n D k, 0 < D <= n -> n < D * 2 ^ Z.of_nat fuel ->
  exists j, 0 <= j /\ expUp fuel n D k = k + j /\ D * 10 ^ j <= n < D * 10 ^ (j + 1).
Proof.
  induction fuel as [|f IH]; intros n D k HD Hf; cbn [expUp].
  - exists 0. cbn in Hf |- *. lia.
  - destruct (Z.ltb_spec n (10 * D)) as [L|L].
    + exists 0. cbn. lia.
    + destruct (IH n (10 * D) (k + 1)) as (j & Hj & E & B); [lia| |].
      { rewrite Nat2Z.inj_succ, Z.pow_succ_r in Hf by lia. nia. }
      exists (j + 1). rewrite (Z.pow_add_r 10 (j + 1) 1), (Z.pow_add_r 10 j 1) by lia. rewrite (Z.pow_add_r 10 j 1) in B by lia.
      change (10 ^ 1) with 10 in *. lia.
Qed.

Lemma expDown_spec fuel : forall N d k, 0 < N < d -> d <= N * 2 ^ Z.of_nat fuel ->
  exists j, 0 < j /\ expDown (S fuel) N d k = - (k + j) /\ N * 10 ^ (j - 1) < d <= N * 10 ^ j.
Proof.
  induction fuel as [|f IH]; intros N d k HN Hf.
  - cbn in Hf. lia.
  - change (expDown (S (S f)) N d k) with (if d <=? N then - k else expDown (S f) (10 * N) d (k + 1)).
    destruct (Z.leb_spec d N) as [L|L]; [lia|]. destruct (Z.leb_spec d (10 * N)) as [M|M].
    + exists 1. change (10 ^ (1 - 1)) with 1. change (10 ^ 1) with 10. cbn [expDown]. destruct (Z.leb_spec d (10 * N)); lia.
    + destruct (IH (10 * N) d (k + 1)) as (j & Hj & E & B); [lia| |].
      { rewrite Nat2Z.inj_succ, Z.pow_succ_r in Hf by lia. nia. }
      exists (j + 1). replace (j + 1 - 1) with (j - 1 + 1) by lia. rewrite (Z.pow_add_r 10 (j - 1) 1), (Z.pow_add_r 10 j 1) by lia.
      change (10 ^ 1) with 10. lia.
Qed.

Lemma ten_Z k : 0 <= k -> ten k = IZR (10 ^ k).
Proof. intros H. symmetry. apply (IZR_Zpower radix10). exact H. Qed.

Lemma ten_neg k : (ten (- k) * ten k = 1)%R.
Proof. rewrite <- bpow_plus. replace (- k + k) with 0 by lia. reflexivity. Qed.

Lemma decExp_spec n d : 0 < n -> 0 < d -> (ten (decExp n d) <= IZR n / IZR d < ten (decExp n d + 1))%R.
Proof.
  intros Hn Hd. assert (Pd : (0 < IZR d)%R) by (apply IZR_lt; lia). unfold decExp. destruct (Z.leb_spec d n) as [L|L].
  - destruct (expUp_spec (Z.to_nat (Z.log2 n + 1)) n d 0) as (j & Hj & -> & B1 & B2); [lia| |].
    { pose proof (Z.log2_nonneg n). rewrite Z2Nat.id by lia. pose proof (Z.log2_spec n Hn) as [_ X]. rewrite <- Z.add_1_r in X.
      apply Z.lt_le_trans with (1 := X). apply Z.le_trans with (1 * 2 ^ (Z.log2 n + 1)); [lia|]. apply Z.mul_le_mono_nonneg_r; lia. }
    rewrite Z.add_0_l, !ten_Z by lia. apply IZR_le in B1. apply IZR_lt in B2. rewrite mult_IZR in B1, B2.
    split; [apply Rmult_le_reg_r with (IZR d)|apply Rmult_lt_reg_r with (IZR d)]; try exact Pd.
    + replace (IZR n / IZR d * IZR d)%R with (IZR n) by (field; lra). lra.
    + replace (IZR n / IZR d * IZR d)%R with (IZR n) by (field; lra). lra.
  - assert (E : Z.to_nat (Z.log2 d + 2) = S (Z.to_nat (Z.log2 d + 1))).
    { pose proof (Z.log2_nonneg d). lia. }
    rewrite E. destruct (expDown_spec (Z.to_nat (Z.log2 d + 1)) n d 0) as (j & Hj & -> & B1 & B2); [lia| |].
    { pose proof (Z.log2_nonneg d). rewrite Z2Nat.id by lia. pose proof (Z.log2_spec d Hd) as [_ X]. rewrite <- Z.add_1_r in X.
      apply Z.lt_le_incl. apply Z.lt_le_trans with (1 := X). apply Z.le_trans with (1 * 2 ^ (Z.log2 d + 1)); [lia|]. apply Z.mul_le_mono_nonneg_r; lia. }
    rewrite Z.add_0_l. apply IZR_lt in B1. apply IZR_le in B2. rewrite mult_IZR in B1, B2. rewrite <- ten_Z in B1, B2 by lia.
    pose proof (ten_neg j) as N1. pose proof (ten_neg (j - 1)) as N2. replace (- (j - 1)) with (- j + 1) in N2 by lia.
    pose proof (bpow_gt_0 radix10 (- j)). pose proof (bpow_gt_0 radix10 (- j + 1)).
    split; [apply Rmult_le_reg_r with (IZR d)|apply Rmult_lt_reg_r with (IZR d)]; try exact Pd;
      replace (IZR n / IZR d * IZR d)%R with (IZR n) by (field; lra).
    + apply Rle_trans with (ten (- j) * (IZR n * ten j))%R; [apply Rmult_le_compat_l; lra|].
      replace (ten (- j) * (IZR n * ten j))%R with (IZR n * (ten (- j) * ten j))%R by ring. rewrite N1. lra.
    + apply Rle_lt_trans with (ten (- j + 1) * (IZR n * ten (j - 1)))%R.
      * replace (ten (- j + 1) * (IZR n * ten (j - 1)))%R with (IZR n * (ten (- j + 1) * ten (j - 1)))%R by ring. rewrite N2. lra.
      * apply Rmult_lt_compat_l; lra.
Qed.

(* ---------- rounding to an integer ---------- *)

Definition near (m : Z) (y : R) : Prop :=
  (Rabs (IZR m - y) <= 1 / 2)%R /\ (Rabs (IZR m - y) = 1 / 2 -> Z.even m = true)%R.

Lemma near_int z : near z (IZR z).
Proof. split; rewrite Rminus_diag_eq, Rabs_R0 by reflexivity; lra. Qed.

Lemma near_le m m' y y' : near m y -> near m' y' -> (y <= y')%R -> m <= m'.
Proof.
  intros [A B] [A' B'] H. destruct (Z_le_gt_dec m m') as [L|L]; [exact L|exfalso].
  assert (G : (IZR m' + 1 <= IZR m)%R) by (rewrite <- plus_IZR; apply IZR_le; lia).
  apply Rabs_le_inv in A. apply Rabs_le_inv in A'.
  assert (E : IZR m = (IZR m' + 1)%R) by lra. assert (Y : y = (IZR m - 1 / 2)%R) by lra. assert (Y' : y' = (IZR m' + 1 / 2)%R) by lra.
  assert (Em : Z.even m = true) by (apply B; rewrite Y; replace (IZR m - (IZR m - 1 / 2))%R with (1 / 2)%R by ring; apply Rabs_pos_eq; lra).
  assert (Em' : Z.even m' = true) by (apply B'; rewrite Y'; replace (IZR m' - (IZR m' + 1 / 2))%R with (- (1 / 2))%R by ring; rewrite Rabs_Ropp; apply Rabs_pos_eq; lra).
  rewrite <- plus_IZR in E. apply eq_IZR in E. subst m. rewrite Z.even_add, Em' in Em. discriminate.
Qed.

Lemma near_unique m m' y : near m y -> near m' y -> m = m'.
Proof. intros H H'. apply Z.le_antisymm; eapply near_le; try eassumption; apply Rle_refl. Qed.

Lemma nearest_near n d : 0 <= n -> 0 < d -> near (nearest n d) (IZR n / IZR d).
Proof.
  intros Hn Hd. assert (Pd : (0 < IZR d)%R) by (apply IZR_lt; lia).
  pose proof (Z.div_mod n d ltac:(lia)) as E. pose proof (Z.mod_pos_bound n d Hd) as Br. unfold nearest.
  set (q := n / d) in *. set (r := n mod d) in *.
  assert (X : (IZR n / IZR d = IZR q + IZR r / IZR d)%R) by (rewrite E, plus_IZR, mult_IZR; field; lra).
  assert (T : (IZR r / IZR d * IZR d = IZR r)%R) by (field; lra). rewrite X. set (t := (IZR r / IZR d)%R) in *.
  destruct (Z.ltb_spec (2 * r) d) as [L|L]; [|destruct (Z.ltb_spec d (2 * r)) as [M|M]; [|]].
  - apply IZR_lt in L. rewrite mult_IZR in L. assert (R0 : (0 <= IZR r)%R) by (apply IZR_le; lia).
    assert (t0 : (0 <= t)%R) by (apply Rmult_le_reg_r with (IZR d); lra). assert (t1 : (t < 1 / 2)%R) by (apply Rmult_lt_reg_r with (IZR d); lra).
    replace (IZR q - (IZR q + t))%R with (- t)%R by ring. unfold near. replace (IZR q - (IZR q + t))%R with (- t)%R by ring.
    rewrite Rabs_Ropp, (Rabs_pos_eq t t0). split; [lra|]. intros. lra.
  - apply IZR_lt in M. rewrite mult_IZR in M. assert (R0 : (IZR r <= IZR d)%R) by (apply IZR_le; lia).
    assert (t0 : (t <= 1)%R) by (apply Rmult_le_reg_r with (IZR d); lra). assert (t1 : (1 / 2 < t)%R) by (apply Rmult_lt_reg_r with (IZR d); lra).
    unfold near. rewrite plus_IZR. replace (IZR q + 1 - (IZR q + t))%R with (1 - t)%R by ring.
    rewrite (Rabs_pos_eq (1 - t)) by lra. split; [lra|]. intros. lra.
  - assert (D : 2 * r = d) by lia. assert (Ht : t = (1 / 2)%R).
    { apply Rmult_eq_reg_r with (IZR d); [|lra]. rewrite T, <- D, mult_IZR. field. }
    rewrite Ht. destruct (Z.even q) eqn:Ev; unfold near.
    + replace (IZR q - (IZR q + 1 / 2))%R with (- (1 / 2))%R by ring. rewrite Rabs_Ropp, Rabs_pos_eq by lra. split; [lra|auto].
    + rewrite plus_IZR. replace (IZR q + 1 - (IZR q + 1 / 2))%R with (1 / 2)%R by field. rewrite Rabs_pos_eq by lra. split; [lra|].
      intros _. rewrite Z.even_add, Ev. reflexivity.
Qed.

(* ---------- seven digits ---------- *)

(* m and e are the digits and the exponent of x *)
Definition digits_of (x : R) (m e : Z) : Prop :=
  exists m0 e0, (ten e0 <= x < ten (e0 + 1))%R /\ near m0 (x * ten (6 - e0)) /\
    (m, e) = if m0 =? 10 ^ 7 then (10 ^ 6, e0 + 1) else (m0, e0).

Lemma sevenDigits_spec n d : 0 < n -> 0 < d ->
  let '(m, e) := sevenDigits n d in digits_of (IZR n / IZR d) m e.
Proof.
  intros Hn Hd. assert (Pd : (0 < IZR d)%R) by (apply IZR_lt; lia). pose proof (decExp_spec n d Hn Hd) as B. unfold sevenDigits.
  set (e0 := decExp n d) in *.
  set (m0 := if e0 <=? 6 then nearest (n * 10 ^ (6 - e0)) d else nearest n (d * 10 ^ (e0 - 6))).
  assert (Nr : near m0 (IZR n / IZR d * ten (6 - e0))).
  { unfold m0. destruct (Z.leb_spec e0 6) as [L|L].
    - pose proof (Z.pow_pos_nonneg 10 (6 - e0) ltac:(lia) ltac:(lia)).
      pose proof (nearest_near (n * 10 ^ (6 - e0)) d ltac:(nia) Hd) as H1. rewrite mult_IZR, <- ten_Z in H1 by lia.
      replace (IZR n / IZR d * ten (6 - e0))%R with (IZR n * ten (6 - e0) / IZR d)%R by (field; lra). exact H1.
    - pose proof (Z.pow_pos_nonneg 10 (e0 - 6) ltac:(lia) ltac:(lia)).
      pose proof (nearest_near n (d * 10 ^ (e0 - 6)) ltac:(lia) ltac:(nia)) as H1. rewrite mult_IZR, <- ten_Z in H1 by lia.
      pose proof (ten_neg (e0 - 6)) as T. replace (- (e0 - 6)) with (6 - e0) in T by lia. pose proof (bpow_gt_0 radix10 (e0 - 6)).
      replace (IZR n / IZR d * ten (6 - e0))%R with (IZR n / (IZR d * ten (e0 - 6)))%R; [exact H1|].
      apply Rmult_eq_reg_r with (ten (e0 - 6)); [|lra]. rewrite Rmult_assoc, T. field. lra. }
  destruct (m0 =? 10 ^ 7) eqn:Em.
  - exists m0, e0. rewrite Em. auto.
  - exists m0, e0. rewrite Em. auto.
Qed.

(* the number they stand for *)
Definition scaled (m e : Z) : R := (IZR m * ten (e - 6))%R.

Lemma scaled_carry m0 e0 m e : (m, e) = (if m0 =? 10 ^ 7 then (10 ^ 6, e0 + 1) else (m0, e0)) -> scaled m e = scaled m0 e0.
Proof.
  intros H. destruct (Z.eqb_spec m0 (10 ^ 7)) as [->|_]; injection H as -> ->; [|reflexivity]. unfold scaled.
  replace (e0 + 1 - 6) with (1 + (e0 - 6)) by lia. rewrite bpow_plus. change (ten 1) with 10%R. change (Z.pow_pos 10 6) with 1000000. change (Z.pow_pos 10 7) with 10000000. change (10 ^ 7) with 10000000. ring.
Qed.

Lemma mantissa_bounds x m0 e0 : (ten e0 <= x < ten (e0 + 1))%R -> near m0 (x * ten (6 - e0)) -> 10 ^ 6 <= m0 <= 10 ^ 7.
Proof.
  intros B H. pose proof (bpow_gt_0 radix10 (6 - e0)) as P. split.
  - apply (near_le _ _ _ _ (near_int (10 ^ 6)) H). rewrite <- (ten_Z 6) by lia. replace 6 with (e0 + (6 - e0)) at 1 by lia.
    rewrite bpow_plus. apply Rmult_le_compat_r; lra.
  - apply (near_le _ _ _ _ H (near_int (10 ^ 7))). rewrite <- (ten_Z 7) by lia. replace 7 with (e0 + 1 + (6 - e0)) by lia.
    rewrite bpow_plus. apply Rmult_le_compat_r; lra.
Qed.

Lemma digits_bounds x m e : digits_of x m e -> 10 ^ 6 <= m < 10 ^ 7.
Proof.
  intros (m0 & e0 & B & N & E). pose proof (mantissa_bounds x m0 e0 B N). destruct (Z.eqb_spec m0 (10 ^ 7)); injection E as -> ->; lia.
Qed.

Lemma scaled_error x m0 e0 : near m0 (x * ten (6 - e0)) -> (Rabs (scaled m0 e0 - x) <= 1 / 2 * ten (e0 - 6))%R.
Proof.
  intros [N _]. pose proof (ten_neg (e0 - 6)) as T. replace (- (e0 - 6)) with (6 - e0) in T by lia. pose proof (bpow_gt_0 radix10 (e0 - 6)) as P.
  unfold scaled. replace (IZR m0 * ten (e0 - 6) - x)%R with ((IZR m0 - x * ten (6 - e0)) * ten (e0 - 6))%R.
  - rewrite Rabs_mult, (Rabs_pos_eq (ten (e0 - 6))) by lra. apply Rmult_le_compat_r; lra.
  - rewrite Rmult_minus_distr_r, Rmult_assoc, T. ring.
Qed.

Lemma digits_error x m e : digits_of x m e -> (Rabs (scaled m e - x) <= 5 / 10 ^ 7 * x)%R.
Proof.
  intros (m0 & e0 & B & N & E). rewrite (scaled_carry _ _ _ _ E). apply Rle_trans with (1 := scaled_error _ _ _ N).
  replace (e0 - 6) with (e0 + - 6) by lia. rewrite bpow_plus. change (ten (- 6)) with (/ 1000000)%R.
  replace (10 ^ 7)%R with 10000000%R by ring. lra.
Qed.

Lemma decade_unique x e e' : (ten e <= x < ten (e + 1))%R -> (ten e' <= x)%R -> e' <= e.
Proof.
  intros B B'. destruct (Z_le_gt_dec e' e) as [L|L]; [exact L|exfalso]. pose proof (bpow_le radix10 (e + 1) e' ltac:(lia)). lra.
Qed.

Lemma digits_order x y m e m' e' : digits_of x m e -> digits_of y m' e' -> (x <= y)%R -> (scaled m e <= scaled m' e')%R.
Proof.
  intros (m0 & e0 & B & N & E) (m1 & e1 & B1 & N1 & E1) H. rewrite (scaled_carry _ _ _ _ E), (scaled_carry _ _ _ _ E1).
  pose proof (decade_unique y e1 e0 B1 ltac:(lra)) as L. pose proof (bpow_gt_0 radix10 (6 - e0)) as P. destruct (Z.eq_dec e0 e1) as [->|D].
  - unfold scaled. apply Rmult_le_compat_r; [apply Rlt_le, bpow_gt_0|]. apply IZR_le.
    apply (near_le _ _ _ _ N N1). apply Rmult_le_compat_r; lra.
  - pose proof (mantissa_bounds x m0 e0 B N) as M. pose proof (mantissa_bounds y m1 e1 B1 N1) as M1. unfold scaled.
    apply Rle_trans with (ten (e0 + 1)).
    + replace (e0 + 1) with (7 + (e0 - 6)) by lia. rewrite bpow_plus, (ten_Z 7) by lia. apply Rmult_le_compat_r; [apply Rlt_le, bpow_gt_0|]. apply IZR_le. lia.
    + apply Rle_trans with (ten e1); [apply bpow_le; lia|]. replace e1 with (6 + (e1 - 6)) at 1 by lia. rewrite bpow_plus, (ten_Z 6) by lia.
      apply Rmult_le_compat_r; [apply Rlt_le, bpow_gt_0|]. apply IZR_le. lia.
Qed.

Lemma digits_exact z k m e : 0 < z < 10 ^ 7 -> digits_of (IZR z * ten k) m e -> scaled m e = (IZR z * ten k)%R.
Proof.
  intros Hz (m0 & e0 & B & N & E). rewrite (scaled_carry _ _ _ _ E). assert (L : e0 < 7 + k).
  { apply (lt_bpow radix10). apply Rle_lt_trans with (1 := proj1 B). rewrite bpow_plus, (ten_Z 7) by lia. apply Rmult_lt_compat_r; [apply bpow_gt_0|]. apply IZR_lt. lia. }
  assert (X : (IZR z * ten k * ten (6 - e0) = IZR (z * 10 ^ (k + 6 - e0)))%R).
  { rewrite mult_IZR, <- ten_Z by lia. rewrite Rmult_assoc, <- bpow_plus. do 2 f_equal. lia. }
  rewrite X in N. rewrite (near_unique _ _ _ N (near_int _)). unfold scaled. rewrite mult_IZR, <- ten_Z by lia.
  rewrite Rmult_assoc, <- bpow_plus. do 2 f_equal. lia.
Qed.

(* ---------- the text ---------- *)

Lemma digit_char n : (n < 10)%nat -> isdigit (ascii_of_nat (48 + n)) = true /\ code (ascii_of_nat (48 + n)) = (48 + n)%nat.
Proof. intros H. do 10 (destruct n as [|n]; [split; reflexivity|]). lia. Qed.

Lemma append_assoc a b c : (((a ++ b) ++ c) = a ++ (b ++ c))%string.
Proof. induction a as [|x a IH]; cbn; [reflexivity|f_equal; exact IH]. Qed.

Lemma lastDigits_length k : forall z, String.length (lastDigits k z) = k.
Proof.
  induction k as [|k IH]; intros z; cbn; [reflexivity|].
  assert (A : forall a b, String.length (a ++ b) = (String.length a + String.length b)%nat) by (induction a; intros; cbn; [reflexivity|f_equal; auto]).
  rewrite A, IH. cbn. lia.
Qed.

Lemma ratio_value m e : let '(n, d) := ratio m e in 0 < n /\ 0 < d /\ (IZR n / IZR d = IZR (Zpos m) * bpow radix2 e)%R.
Proof.
  unfold ratio. destruct (Z.leb_spec 0 e) as [L|L].
  - pose proof (Z.pow_pos_nonneg 2 e ltac:(lia) L). split; [nia|]. split; [lia|]. rewrite mult_IZR. change 2 with (radix_val radix2) at 1. rewrite (IZR_Zpower radix2 e L). field.
  - pose proof (Z.pow_pos_nonneg 2 (- e) ltac:(lia) ltac:(lia)) as P. split; [lia|]. split; [exact P|].
    change 2 with (radix_val radix2) at 1. rewrite (IZR_Zpower radix2 (- e) ltac:(lia)). replace e with (- - e) at 2 by lia. rewrite (bpow_opp radix2 (- e)). reflexivity.
Qed.

Lemma finite_range s m e H : let x := (IZR (Zpos m) * bpow radix2 e)%R in
  (0 < x)%R /\ B2R (B754_finite s m e H : f64) = (if s then - x else x)%R /\ (ten (- 324) <= x < ten 309)%R.
Proof.
  intros x. assert (P : (0 < x)%R) by (apply Rmult_lt_0_compat; [apply IZR_lt; lia|apply bpow_gt_0]). split; [exact P|].
  assert (V : B2R (B754_finite s m e H : f64) = (if s then - x else x)%R).
  { cbn [B2R]. unfold F2R, x. destruct s; cbn [Fnum Fexp cond_Zopp]; [rewrite Ropp_mult_distr_l, <- opp_IZR|]; reflexivity. }
  split; [exact V|]. pose proof (abs_B2R_lt_emax prec64 emax64 (B754_finite s m e H)) as U.
  pose proof (abs_B2R_ge_emin prec64 emax64 (B754_finite s m e H) eq_refl) as G. change (B2R (B754_finite s m e H) : R) with (B2R (B754_finite s m e H : f64)) in U, G.
  rewrite V in U, G. assert (A : Rabs (if s then - x else x)%R = x) by (destruct s; [rewrite Rabs_Ropp|]; apply Rabs_pos_eq; lra). rewrite A in U, G.
  assert (G' : (bpow radix2 (- (1074)) <= x)%R) by exact G. clear G. rename G' into G. change emax64 with 1024 in U. split.
  - apply Rle_trans with (2 := G). change (ten (- 324)) with (ten (Z.opp 324)). change (bpow radix2 (- 1074)) with (bpow radix2 (Z.opp 1074)). rewrite (bpow_opp radix10 324), (bpow_opp radix2 1074).
    apply Rinv_le; [apply bpow_gt_0|]. rewrite <- (IZR_Zpower radix2 1074), (ten_Z 324) by lia. apply IZR_le. apply Z.leb_le. vm_compute. reflexivity.
  - apply Rlt_le_trans with (1 := U). rewrite <- (IZR_Zpower radix2 1024), (ten_Z 309) by lia. apply IZR_le. apply Z.leb_le. vm_compute. reflexivity.
Qed.

Lemma exponent_range x m e : digits_of x m e -> (ten (- 324) <= x < ten 309)%R -> - 324 <= e <= 309.
Proof.
  intros (m0 & e0 & B & N & E) [L U]. pose proof (decade_unique x e0 (- 324) B L) as L'.
  assert (U' : e0 < 309) by (apply (lt_bpow radix10); lra). destruct (m0 =? 10 ^ 7); injection E as -> ->; lia.
Qed.
