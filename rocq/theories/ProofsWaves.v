(* Solutions of 2 x(m) - x(m-1) - x(m+1) = mu x(m) in n cells with the same ratio rho
   across both faces: they are the standing waves of the slab. *)
From Coq Require Import ZArith Bool Lia Reals Lra.
From Verif Require Import Base BaseLemmas NumR LinAlg ProofsReactivity.
Local Open Scope R_scope.

(* the place of cell m, counted from the middle of n cells *)
Definition place (n m : Z) : R := IZR m - (IZR n - 1) / 2.
Lemma place_next n m : place n (m + 1) = place n m + 1.
Proof. unfold place. rewrite plus_IZR. ring. Qed.
Lemma place_prev n m : place n (m - 1) = place n m - 1.
Proof. unfold place. rewrite minus_IZR. ring. Qed.
Lemma place_ends n : place n 0 = - ((IZR n - 1) / 2) /\ place n (n - 1) = (IZR n - 1) / 2 /\ place n (-1) = - ((IZR n + 1) / 2) /\ place n n = (IZR n + 1) / 2.
Proof. unfold place. rewrite minus_IZR. repeat split; field. Qed.

Section Waves.
Variables (n : Z) (x : Z -> R) (mu rho : R).
Hypothesis Hn : (2 <= n)%Z.
Hypothesis Hrho : -1 < rho <= 1.
Hypothesis Hleft : x (-1)%Z = rho * x 0%Z.
Hypothesis Hright : x n = rho * x (n - 1)%Z.
Hypothesis Hrec : forall m, (0 <= m < n)%Z -> 2 * x m - x (m - 1)%Z - x (m + 1)%Z = mu * x m.
Hypothesis Hnz : exists m, (0 <= m < n)%Z /\ x m <> 0.

Lemma unique w : (forall m, (0 <= m < n)%Z -> 2 * w m - w (m - 1)%Z - w (m + 1)%Z = mu * w m) -> w (-1)%Z = x (-1)%Z -> w 0%Z = x 0%Z ->
  forall m, (-1 <= m <= n)%Z -> x m = w m.
Proof using Hn Hrec.
  intros Hw E1 E0. assert (P : forall k, (Z.of_nat k < n)%Z -> x (Z.of_nat k) = w (Z.of_nat k) /\ x (Z.of_nat k + 1)%Z = w (Z.of_nat k + 1)%Z).
  { induction k as [|k IH]; intros Hk.
    - split; [auto|]. pose proof (Hrec 0%Z ltac:(lia)) as A. pose proof (Hw 0%Z ltac:(lia)) as B. change (0 - 1)%Z with (-1)%Z in A, B. change (Z.of_nat 0 + 1)%Z with (0 + 1)%Z. rewrite E1, E0 in B. lra.
    - destruct IH as [I1 I2]; [lia|]. rewrite Nat2Z.inj_succ. unfold Z.succ. split; [exact I2|].
      pose proof (Hrec (Z.of_nat k + 1)%Z ltac:(lia)) as A. pose proof (Hw (Z.of_nat k + 1)%Z ltac:(lia)) as B. replace (Z.of_nat k + 1 - 1)%Z with (Z.of_nat k) in A, B by lia.
      rewrite I2, I1 in A. lra. }
  intros m Hm. destruct (Z.eq_dec m (-1)) as [-> | N1]; [auto|]. destruct (Z.eq_dec m 0) as [-> | N0]; [auto|].
  destruct (P (Z.to_nat (m - 1)) ltac:(lia)) as [_ Q]. rewrite Z2Nat.id in Q by lia. replace (m - 1 + 1)%Z with m in Q by lia. exact Q.
Qed.

Lemma mu_range : 0 <= mu <= 4.
Proof using Hn Hrho Hleft Hright Hrec Hnz.
  destruct (argmax (fun m => Rabs (x m)) (Z.to_nat n) ltac:(lia)) as (i & Hi & Hmax). rewrite Z2Nat.id in Hi, Hmax by lia. destruct Hnz as (q & Hq & Nq).
  set (X := Rabs (x i)) in *. assert (HX : 0 < X) by (pose proof (Rabs_pos_lt _ Nq); specialize (Hmax q Hq); lra).
  assert (Hr : Rabs rho <= 1) by (apply Rabs_le; lra).
  assert (B : forall m, (-1 <= m <= n)%Z -> Rabs (x m) <= X).
  { intros m Hm. destruct (Z.eq_dec m (-1)) as [-> | N1].
    { rewrite Hleft, Rabs_mult. specialize (Hmax 0%Z ltac:(lia)). pose proof (Rabs_pos (x 0%Z)). nra. }
    destruct (Z.eq_dec m n) as [-> | N2]; [|apply Hmax; lia].
    rewrite Hright, Rabs_mult. specialize (Hmax (n - 1)%Z ltac:(lia)). pose proof (Rabs_pos (x (n - 1)%Z)). nra. }
  pose proof (Hrec i Hi) as E. assert (A : Rabs ((2 - mu) * x i) <= 2 * X).
  { replace ((2 - mu) * x i) with (x (i - 1)%Z + x (i + 1)%Z) by lra. eapply Rle_trans; [apply Rabs_triang|]. pose proof (B (i - 1)%Z ltac:(lia)). pose proof (B (i + 1)%Z ltac:(lia)). lra. }
  rewrite Rabs_mult in A. fold X in A. assert (A' : Rabs (2 - mu) <= 2) by nra. unfold Rabs in A'. destruct (Rcase_abs (2 - mu)); lra.
Qed.

Lemma zero_all A : (forall m, (-1 <= m <= n)%Z -> x m = A m * 0) -> False.
Proof using Hnz. intros Z. destruct Hnz as (m & Hm & N). apply N. rewrite Z by lia. ring. Qed.

(* the two limits of the range: straight lines *)
Lemma line_0 : mu = 0 -> rho = 1 /\ exists A, A <> 0 /\ forall m, (-1 <= m <= n)%Z -> x m = A.
Proof using Hn Hrho Hleft Hright Hrec Hnz.
  intros E. assert (N : 2 <= IZR n) by (apply (IZR_le 2); lia). destruct (place_ends n) as (P0 & P1 & P2 & P3).
  set (B := x 0%Z - x (-1)%Z). set (A := x 0%Z - B * place n 0).
  assert (U : forall m, (-1 <= m <= n)%Z -> x m = A + B * place n m).
  { apply unique.
    - intros m _. rewrite place_next, place_prev, E. ring.
    - unfold A. replace (place n (-1)) with (place n 0 - 1) by (rewrite P0, P2; field). unfold B. ring.
    - unfold A. ring. }
  pose proof Hleft as L. pose proof Hright as R. rewrite !U in L, R by lia. rewrite P0, P2 in L. rewrite P1, P3 in R.
  assert (B0 : B = 0). { assert (Q : B * (IZR n + 1 - rho * (IZR n - 1)) = 0) by lra. apply Rmult_integral in Q. destruct Q as [Q | Q]; [exact Q|]. exfalso. nra. }
  rewrite B0 in L, U. assert (A0 : A <> 0) by (intros Z; apply (zero_all (fun _ => 0)); intros m Hm; rewrite U by exact Hm; rewrite Z; ring).
  split; [|exists A; split; [exact A0|intros m Hm; rewrite U by exact Hm; ring]].
  assert (Q : (1 - rho) * A = 0) by lra. apply Rmult_integral in Q. destruct Q as [Q | Q]; [lra|contradiction].
Qed.

Lemma no_line_4 : mu <> 4.
Proof using Hn Hrho Hleft Hright Hrec Hnz.
  intros E. assert (N : 2 <= IZR n) by (apply (IZR_le 2); lia). destruct (place_ends n) as (P0 & P1 & P2 & P3).
  set (s m := cos (PI * IZR m)).
  assert (S1 : forall m, s (m + 1)%Z = - s m) by (intros m; unfold s; rewrite plus_IZR; replace (PI * (IZR m + 1)) with (PI * IZR m + PI) by ring; apply neg_cos).
  assert (S2 : forall m, s (m - 1)%Z = - s m) by (intros m; pose proof (S1 (m - 1)%Z) as Q; replace (m - 1 + 1)%Z with m in Q by lia; lra).
  assert (S3 : forall m, s m <> 0).
  { intros m Q. unfold s in Q. pose proof (sin2_cos2 (PI * IZR m)) as T. unfold Rsqr in T. rewrite (sin_eq_0_1 (PI * IZR m)) in T by (exists m; ring). rewrite Q in T. lra. }
  assert (S0 : s 0%Z = 1) by (unfold s; rewrite Rmult_0_r; apply cos_0).
  set (B := x 0%Z + x (-1)%Z). set (A := x 0%Z - B * place n 0).
  assert (U : forall m, (-1 <= m <= n)%Z -> x m = s m * (A + B * place n m)).
  { apply unique.
    - intros m _. rewrite place_next, place_prev, S1, S2, E. ring.
    - change (-1)%Z with (0 - 1)%Z at 1. rewrite S2, S0. unfold A. replace (place n (-1)) with (place n 0 - 1) by (rewrite P0, P2; field). unfold B. ring.
    - rewrite S0. unfold A. ring. }
  pose proof Hleft as L. pose proof Hright as R. rewrite !U in L, R by lia. rewrite P0, P2 in L. rewrite P1, P3 in R.
  change (-1)%Z with (0 - 1)%Z in L. rewrite S2, S0 in L.
  assert (R' : - (A + B * ((IZR n + 1) / 2)) = rho * (A + B * ((IZR n - 1) / 2))).
  { apply Rmult_eq_reg_l with (s (n - 1)%Z); [|apply S3]. pose proof (S2 n) as Q. rewrite Q in R |- *. lra. }
  assert (B0 : B = 0). { assert (Q : B * (IZR n + 1 + rho * (IZR n - 1)) = 0) by lra. apply Rmult_integral in Q. destruct Q as [Q | Q]; [exact Q|]. exfalso. nra. }
  assert (A0 : A = 0). { assert (Q : A * (1 + rho) = 0) by lra. apply Rmult_integral in Q. destruct Q as [Q | Q]; [exact Q|lra]. }
  apply (zero_all s). intros m Hm. rewrite U by exact Hm. rewrite A0, B0. ring.
Qed.

(* the standing waves *)
Lemma waves : exists theta A, 0 <= theta < PI /\ mu = 2 * (1 - cos theta) /\ A <> 0 /\
  ((cos (theta * ((IZR n + 1) / 2)) = rho * cos (theta * ((IZR n - 1) / 2)) /\ forall m, (-1 <= m <= n)%Z -> x m = A * cos (theta * place n m)) \/
   (0 < theta /\ sin (theta * ((IZR n + 1) / 2)) = rho * sin (theta * ((IZR n - 1) / 2)) /\ forall m, (-1 <= m <= n)%Z -> x m = A * sin (theta * place n m))).
Proof using Hn Hrho Hleft Hright Hrec Hnz.
  pose proof mu_range as HR. pose proof no_line_4 as N4. assert (N : 2 <= IZR n) by (apply (IZR_le 2); lia).
  destruct (Req_dec mu 0) as [E0 | N0].
  { destruct (line_0 E0) as (-> & A & HA & U). exists 0, A. split; [pose proof PI_RGT_0; lra|]. split; [rewrite cos_0, E0; ring|]. split; [exact HA|].
    left. rewrite !Rmult_0_l, cos_0. split; [ring|]. intros m Hm. rewrite Rmult_0_l, cos_0, U by exact Hm. ring. }
  set (theta := acos (1 - mu / 2)). assert (Ct : cos theta = 1 - mu / 2) by (apply cos_acos; lra).
  pose proof (acos_bound (1 - mu / 2)) as Bt. fold theta in Bt.
  assert (T0 : 0 < theta) by (destruct (proj1 Bt) as [Q | Q]; [exact Q|]; rewrite <- Q, cos_0 in Ct; exfalso; apply N0; lra).
  assert (T1 : theta < PI) by (destruct (proj2 Bt) as [Q | Q]; [exact Q|]; rewrite Q, cos_PI in Ct; exfalso; apply N4; lra).
  assert (S : 0 < sin theta) by (apply sin_gt_0; assumption).
  destruct (place_ends n) as (P0 & P1 & P2 & P3). set (al := theta * place n (-1)). set (be := theta * place n 0).
  assert (Eb : be = al + theta) by (unfold be, al; rewrite P0, P2; field).
  assert (Ed : sin be * cos al - cos be * sin al = sin theta) by (rewrite <- sin_minus; f_equal; lra).
  set (A := (x (-1)%Z * sin be - x 0%Z * sin al) / sin theta). set (B := (x 0%Z * cos al - x (-1)%Z * cos be) / sin theta).
  assert (U : forall m, (-1 <= m <= n)%Z -> x m = A * cos (theta * place n m) + B * sin (theta * place n m)).
  { apply unique.
    - intros m _. rewrite place_next, place_prev. set (t := place n m). replace (theta * (t - 1)) with (theta * t - theta) by ring. replace (theta * (t + 1)) with (theta * t + theta) by ring.
      rewrite cos_minus, cos_plus, sin_minus, sin_plus. replace mu with (2 * (1 - cos theta)) by lra. ring.
    - fold al. unfold A, B. rewrite <- Ed. field. lra.
    - fold be. unfold A, B. rewrite <- Ed. field. lra. }
  set (u := theta * ((IZR n + 1) / 2)). set (v := theta * ((IZR n - 1) / 2)).
  pose proof Hleft as L. pose proof Hright as R. rewrite !U in L, R by lia. rewrite P0, P2 in L. rewrite P1, P3 in R.
  rewrite <- !Ropp_mult_distr_r, !cos_neg, !sin_neg in L. fold u v in L, R.
  assert (QA : A * (cos u - rho * cos v) = 0) by lra. assert (QB : B * (sin u - rho * sin v) = 0) by lra.
  apply Rmult_integral in QA. apply Rmult_integral in QB. exists theta.
  assert (Fin : A = 0 \/ B = 0).
  { destruct QA as [QA | QA]; [auto|]. destruct QB as [QB | QB]; [auto|]. exfalso.
    pose proof (sin2_cos2 u) as U1. pose proof (sin2_cos2 v) as V1. unfold Rsqr in U1, V1.
    assert (Eu : cos theta = cos u * cos v + sin u * sin v) by (rewrite <- cos_minus; f_equal; unfold u, v; field).
    assert (Eq : cos u = rho * cos v) by lra. assert (Eq' : sin u = rho * sin v) by lra. rewrite Eq, Eq' in U1, Eu.
    assert (Er : rho * rho = 1) by (transitivity (rho * rho * (sin v * sin v + cos v * cos v)); [rewrite V1; ring|lra]). assert (rho = 1) by nra. assert (cos theta = rho) by (rewrite Eu; transitivity (rho * (sin v * sin v + cos v * cos v)); [ring|rewrite V1; ring]). apply N0. lra. }
  destruct Fin as [A0 | B0].
  - exists B. assert (Bn : B <> 0) by (intros Z; apply (zero_all (fun _ => 0)); intros m Hm; rewrite U by exact Hm; rewrite A0, Z; ring).
    split; [lra|]. split; [lra|]. split; [exact Bn|]. right. split; [exact T0|]. split; [fold u v; destruct QB; [contradiction|lra]|]. intros m Hm. rewrite U by exact Hm. rewrite A0. ring.
  - exists A. assert (An : A <> 0) by (intros Z; apply (zero_all (fun _ => 0)); intros m Hm; rewrite U by exact Hm; rewrite B0, Z; ring).
    split; [lra|]. split; [lra|]. split; [exact An|]. left. split; [fold u v; destruct QA; [contradiction|lra]|]. intros m Hm. rewrite U by exact Hm. rewrite B0. ring.
Qed.
End Waves.
