(* Square real systems of any size: an injective system is solvable, and
   dominant matrices with non-positive off-diagonal entries have non-negative
   inverses. *)
From Coq Require Import ZArith Lia Reals Lra Bool.
From Verif Require Import Base BaseLemmas NumR.
Local Open Scope R_scope.

Definition app (n : Z) (A : Z -> Z -> R) (x : Z -> R) (i : Z) : R :=
  rsum 0 n (fun j => A i j * x j).

Definition injective (n : Z) (A : Z -> Z -> R) : Prop :=
  forall x, (forall i, (0 <= i < n)%Z -> app n A x i = 0) -> forall i, (0 <= i < n)%Z -> x i = 0.
Definition solvable (n : Z) (A : Z -> Z -> R) : Prop :=
  forall b, exists x, forall i, (0 <= i < n)%Z -> app n A x i = b i.
Definition monotone (n : Z) (A : Z -> Z -> R) : Prop :=
  forall x, (forall i, (0 <= i < n)%Z -> 0 <= app n A x i) -> forall i, (0 <= i < n)%Z -> 0 <= x i.

Lemma app_ext n A B x y i :
  (forall j, (0 <= j < n)%Z -> A i j = B i j) -> (forall j, (0 <= j < n)%Z -> x j = y j) ->
  app n A x i = app n B y i.
Proof. intros HA Hx. apply rsum_ext. intros k Hk. rewrite HA, Hx by auto. reflexivity. Qed.

Lemma bounded_exists_dec (P : Z -> Prop) (Pdec : forall i, {P i} + {~ P i}) (n : nat) :
  {i | (0 <= i < Z.of_nat n)%Z /\ P i} + {forall i, (0 <= i < Z.of_nat n)%Z -> ~ P i}.
Proof.
  induction n as [|n [[i [Hi Hp]]|IH]].
  - right. intros; lia.
  - left. exists i. split; auto. lia.
  - destruct (Pdec (Z.of_nat n)) as [Hp|Hp].
    + left. exists (Z.of_nat n). split; auto. lia.
    + right. intros i Hi. destruct (Z.eq_dec i (Z.of_nat n)) as [->|]; auto. apply IH. lia.
Qed.

Lemma injective_solvable_nat (n : nat) : forall A, injective (Z.of_nat n) A -> solvable (Z.of_nat n) A.
Proof.
  induction n as [|n IH]; intros A Hinj b.
  - exists (fun _ => 0). intros; lia.
  - set (N := Z.of_nat n). replace (Z.of_nat (S n)) with (N + 1)%Z in * by (unfold N; lia).
    assert (HN : (0 <= N)%Z) by (unfold N; lia).
    destruct (bounded_exists_dec (fun p => A p N <> 0)
      (fun p => match Req_EM_T (A p N) 0 with left e => right (fun H => H e) | right h => left h end) (S n))
      as [[p [Hp Hpiv]]|Hnone].
    2:{ exfalso. specialize (Hinj (fun j => if (j =? N)%Z then 1 else 0)).
        cut (1 = 0); [lra|]. rewrite <- (Hinj) with (i := N); [rewrite Z.eqb_refl; auto| |lia].
        intros i Hi. unfold app. rewrite rsum_last by lia. rewrite Z.eqb_refl.
        rewrite rsum_0.
        - destruct (Req_EM_T (A i N) 0) as [->|Hne]; [lra|]. exfalso. apply (Hnone i); auto. lia.
        - intros k Hk. replace (k =? N)%Z with false by lia. ring. }
    replace (Z.of_nat (S n)) with (N + 1)%Z in Hp by (unfold N; lia).
    set (s := fun i : Z => if (i <? p)%Z then i else (i + 1)%Z).
    set (A' := fun i j => A (s i) j - A (s i) N / A p N * A p j).
    assert (Hs : forall i, (0 <= i < N)%Z -> (0 <= s i < N + 1)%Z /\ s i <> p).
    { intros i Hi. unfold s. destruct (i <? p)%Z eqn:E; lia. }
    assert (Hsurj : forall i, (0 <= i < N + 1)%Z -> i <> p -> exists i', (0 <= i' < N)%Z /\ s i' = i).
    { intros i Hi Hne. destruct (Z_lt_dec i p).
      - exists i. split; [lia|]. unfold s. replace (i <? p)%Z with true by lia. auto.
      - exists (i - 1)%Z. split; [lia|]. unfold s. replace (i - 1 <? p)%Z with false by lia. lia. }
    assert (Hrow : forall x' c i, (0 <= i < N)%Z ->
      let x := fun j => if (j =? N)%Z then (c - rsum 0 N (fun j => A p j * x' j)) / A p N else x' j in
      app (N + 1) A x (s i) = app N A' x' i + A (s i) N / A p N * c).
    { intros x' c i Hi x. unfold app. rewrite rsum_last by lia.
      unfold x at 2. rewrite Z.eqb_refl.
      rewrite (rsum_ext 0 N (fun j => A (s i) j * x j) (fun j => A (s i) j * x' j)).
      2:{ intros k Hk. unfold x. replace (k =? N)%Z with false by lia. auto. }
      unfold A'. rewrite (rsum_ext 0 N (fun j => (A (s i) j - A (s i) N / A p N * A p j) * x' j)
         (fun j => A (s i) j * x' j - A (s i) N / A p N * (A p j * x' j))) by (intros; ring).
      rewrite rsum_minus, rsum_scal. field. auto. }
    assert (Hprow : forall x' c,
      let x := fun j => if (j =? N)%Z then (c - rsum 0 N (fun j => A p j * x' j)) / A p N else x' j in
      app (N + 1) A x p = c).
    { intros x' c x. unfold app. rewrite rsum_last by lia. unfold x at 2. rewrite Z.eqb_refl.
      rewrite (rsum_ext 0 N (fun j => A p j * x j) (fun j => A p j * x' j)).
      2:{ intros k Hk. unfold x. replace (k =? N)%Z with false by lia. auto. }
      field. auto. }
    assert (Hinj' : injective N A').
    { intros x' Hx' i Hi.
      set (x := fun j => if (j =? N)%Z then (0 - rsum 0 N (fun j => A p j * x' j)) / A p N else x' j).
      assert (Hx : x i = 0).
      { apply Hinj; [|lia]. intros r Hr. destruct (Z.eq_dec r p) as [->|Hne]; [apply Hprow|].
        destruct (Hsurj r Hr Hne) as [i' [Hi' <-]]. unfold x. rewrite Hrow by auto. rewrite Hx' by auto. ring. }
      unfold x in Hx. replace (i =? N)%Z with false in Hx by lia. auto. }
    destruct (IH A' Hinj' (fun i => b (s i) - A (s i) N / A p N * b p)) as [x' Hx'].
    exists (fun j => if (j =? N)%Z then (b p - rsum 0 N (fun j => A p j * x' j)) / A p N else x' j).
    intros r Hr. destruct (Z.eq_dec r p) as [->|Hne]; [apply Hprow|].
    destruct (Hsurj r Hr Hne) as [i' [Hi' <-]]. rewrite Hrow by auto. rewrite Hx' by auto. ring.
Qed.

Lemma injective_solvable n A : injective n A -> solvable n A.
Proof.
  intros H. destruct (Z_lt_dec n 0).
  - intros b. exists (fun _ => 0). intros; lia.
  - replace n with (Z.of_nat (Z.to_nat n)) in * by lia. apply injective_solvable_nat; auto.
Qed.

Lemma app_opp n A x i : app n A (fun j => - x j) i = - app n A x i.
Proof.
  unfold app. rewrite <- rsum_opp. apply rsum_ext. intros; ring.
Qed.

Lemma monotone_injective n A : monotone n A -> injective n A.
Proof.
  intros H x Hx i Hi.
  assert (0 <= x i) by (apply H; auto; intros; rewrite Hx by auto; lra).
  assert (0 <= - x i); [|lra].
  apply (H (fun j => - x j)); auto. intros k Hk. rewrite app_opp, Hx by auto. lra.
Qed.

Lemma argmin_nat (x : Z -> R) (n : nat) :
  exists k, (0 <= k < Z.of_nat (S n))%Z /\ forall i, (0 <= i < Z.of_nat (S n))%Z -> x k <= x i.
Proof.
  induction n as [|n [k [Hk H]]].
  - exists 0%Z. split; [lia|]. intros i Hi. replace i with 0%Z by lia. lra.
  - destruct (Rle_dec (x k) (x (Z.of_nat (S n)))).
    + exists k. split; [lia|]. intros i Hi. destruct (Z.eq_dec i (Z.of_nat (S n))) as [->|]; auto. apply H. lia.
    + exists (Z.of_nat (S n)). split; [lia|]. intros i Hi.
      destruct (Z.eq_dec i (Z.of_nat (S n))) as [->|]; [lra|].
      assert (x k <= x i) by (apply H; lia). lra.
Qed.

Lemma argmin (x : Z -> R) n : (0 < n)%Z ->
  exists k, (0 <= k < n)%Z /\ forall i, (0 <= i < n)%Z -> x k <= x i.
Proof.
  intros Hn. destruct (argmin_nat x (Z.to_nat (n - 1))) as [k H]. exists k.
  replace (Z.of_nat (S (Z.to_nat (n - 1)))) with n in H by lia. auto.
Qed.

(* Row of a matrix with non-positive off-diagonal entries at a minimum. *)
Lemma app_at_min n A x k :
  (0 <= k < n)%Z -> (forall i, (0 <= i < n)%Z -> x k <= x i) ->
  (forall j, (0 <= j < n)%Z -> j <> k -> A k j <= 0) ->
  app n A x k <= x k * rsum 0 n (A k).
Proof.
  intros Hk Hmin Hoff. rewrite <- rsum_scal. apply rsum_le. intros j Hj.
  destruct (Z.eq_dec j k) as [->|]; [lra|]. specialize (Hoff j Hj n0). specialize (Hmin j Hj). nra.
Qed.

(* Off-diagonal entries non-positive, row sums positive. *)
Lemma row_dominant_monotone n A :
  (forall i j, (0 <= i < n)%Z -> (0 <= j < n)%Z -> i <> j -> A i j <= 0) ->
  (forall i, (0 <= i < n)%Z -> 0 < rsum 0 n (A i)) ->
  monotone n A.
Proof.
  intros Hoff Hsum x Hx i Hi.
  destruct (argmin x n ltac:(lia)) as [k [Hk Hmin]].
  apply Rle_trans with (x k); [|auto].
  assert (H := app_at_min n A x k Hk Hmin ltac:(intros j Hj Hne; apply Hoff; auto)).
  specialize (Hx k Hk). specialize (Hsum k Hk).
  destruct (Rle_dec 0 (x k)); auto. exfalso. nra.
Qed.

Lemma app_transpose n A x y :
  rsum 0 n (fun i => y i * app n A x i) = rsum 0 n (fun j => app n (fun i j => A j i) y j * x j).
Proof.
  unfold app.
  rewrite (rsum_ext 0 n _ (fun i => rsum 0 n (fun j => y i * (A i j * x j)))) by (intros; rewrite rsum_scal; auto).
  rewrite rsum_swap. apply rsum_ext. intros j Hj. rewrite <- rsum_scal_r. apply rsum_ext. intros; ring.
Qed.

(* A matrix whose transpose has a non-negative inverse has one too. *)
Lemma transpose_monotone n A : monotone n (fun i j => A j i) -> monotone n A.
Proof.
  intros H x Hx i Hi.
  destruct (injective_solvable n _ (monotone_injective n _ H) (fun j => if (j =? i)%Z then 1 else 0)) as [y Hy].
  assert (Hy0 : forall j, (0 <= j < n)%Z -> 0 <= y j).
  { apply H. intros j Hj. rewrite Hy by auto. destruct (j =? i)%Z; lra. }
  assert (E := app_transpose n A x y).
  rewrite (rsum_single 0 n (fun j => app n (fun i j => A j i) y j * x j) i) in E; auto.
  - rewrite Hy in E by auto. rewrite Z.eqb_refl in E. rewrite Rmult_1_l in E. rewrite <- E.
    apply rsum_nonneg. intros k Hk. apply Rmult_le_pos; auto.
  - intros j Hj Hne. rewrite Hy by auto. replace (j =? i)%Z with false by lia. ring.
Qed.

Lemma column_dominant_monotone n A :
  (forall i j, (0 <= i < n)%Z -> (0 <= j < n)%Z -> i <> j -> A i j <= 0) ->
  (forall j, (0 <= j < n)%Z -> 0 < rsum 0 n (fun i => A i j)) ->
  monotone n A.
Proof.
  intros Hoff Hsum. apply transpose_monotone. apply row_dominant_monotone; auto.
Qed.

(* Every cell with a strictly positive inverse row: used for positivity. *)
Lemma solvable_unique n A : injective n A ->
  forall b, exists x, (forall i, (0 <= i < n)%Z -> app n A x i = b i) /\
    forall y, (forall i, (0 <= i < n)%Z -> app n A y i = b i) -> forall i, (0 <= i < n)%Z -> y i = x i.
Proof.
  intros H b. destruct (injective_solvable n A H b) as [x Hx]. exists x. split; auto.
  intros y Hy i Hi.
  assert (y i - x i = 0); [|lra].
  apply (H (fun j => y j - x j)); auto. intros k Hk.
  unfold app. rewrite (rsum_ext 0 n _ (fun j => A k j * y j - A k j * x j)) by (intros; ring).
  rewrite rsum_minus. fold (app n A y k). fold (app n A x k). rewrite Hx, Hy by auto. ring.
Qed.

(* Weakly dominant chains: neighbours are coupled, no row sum is negative and
   one is positive. *)
Lemma chain_monotone n A :
  (forall i j, (0 <= i < n)%Z -> (0 <= j < n)%Z -> i <> j -> A i j <= 0) ->
  (forall i, (0 <= i < n - 1)%Z -> A i (i + 1)%Z < 0 /\ A (i + 1)%Z i < 0) ->
  (forall i, (0 <= i < n)%Z -> 0 <= rsum 0 n (A i)) ->
  (exists i, (0 <= i < n)%Z /\ 0 < rsum 0 n (A i)) ->
  monotone n A.
Proof.
  intros Hoff Hnb Hrow [p [Hp Hpos]] x Hx i0 Hi0.
  destruct (argmin x n ltac:(lia)) as [k [Hk Hmin]].
  destruct (Rle_lt_dec 0 (x k)) as [|Hneg]; [specialize (Hmin i0 Hi0); lra|exfalso].
  (* a row where the minimum is attained has zero sum, and its neighbours attain it *)
  assert (Key : forall i, (0 <= i < n)%Z -> x i = x k -> rsum 0 n (A i) = 0 /\
     forall j, (0 <= j < n)%Z -> A i j < 0 -> x j = x k).
  { intros i Hi Ei.
    assert (E : app n A x i = x k * rsum 0 n (A i) + rsum 0 n (fun j => A i j * (x j - x k))).
    { unfold app. rewrite <- rsum_scal, <- rsum_plus. apply rsum_ext. intros; ring. }
    specialize (Hx i Hi). rewrite E in Hx.
    assert (Hle : forall j, (0 <= j < n)%Z -> 0 <= - (A i j * (x j - x k))).
    { intros j Hj. destruct (Z.eq_dec j i) as [->|Hne]; [rewrite Ei; nra|].
      pose proof (Hoff i j Hi Hj ltac:(lia)). pose proof (Hmin j Hj). nra. }
    assert (Hs : 0 <= - rsum 0 n (fun j => A i j * (x j - x k))).
    { rewrite <- rsum_opp. apply rsum_nonneg. exact Hle. }
    pose proof (Hrow i Hi) as Hr.
    assert (rsum 0 n (A i) = 0) by nra. split; auto.
    intros j Hj Hlt.
    assert (Z0 : rsum 0 n (fun j => - (A i j * (x j - x k))) = 0) by (rewrite rsum_opp; nra).
    pose proof (rsum_nonneg_0 0 n _ j Hle Z0 Hj) as Hz. cbn beta in Hz. nra. }
  assert (All : forall i, (0 <= i < n)%Z -> x i = x k).
  { assert (Up : forall d, forall i, (k <= i < n)%Z -> (i - k = Z.of_nat d)%Z -> x i = x k).
    { induction d as [|d IH]; intros i Hi Hd; [f_equal; lia|].
      assert (E : x (i - 1)%Z = x k) by (apply IH; lia).
      destruct (Hnb (i - 1)%Z ltac:(lia)) as [H1 _]. replace (i - 1 + 1)%Z with i in H1 by lia.
      apply (proj2 (Key (i - 1)%Z ltac:(lia) E)); [lia|exact H1]. }
    assert (Down : forall d, forall i, (0 <= i <= k)%Z -> (k - i = Z.of_nat d)%Z -> x i = x k).
    { induction d as [|d IH]; intros i Hi Hd; [f_equal; lia|].
      assert (E : x (i + 1)%Z = x k) by (apply IH; lia).
      destruct (Hnb i ltac:(lia)) as [_ H1].
      apply (proj2 (Key (i + 1)%Z ltac:(lia) E)); [lia|exact H1]. }
    intros i Hi. destruct (Z_le_dec k i).
    - apply (Up (Z.to_nat (i - k))); lia.
    - apply (Down (Z.to_nat (k - i))); lia. }
  destruct (Key p Hp (All p Hp)) as [H0 _]. lra.
Qed.
