(* Point kinetics as an ordinary differential equation: modal solution. *)
From Coq Require Import ZArith List Bool Lia Reals Lra.
From Coquelicot Require Import Coquelicot.
From Verif Require Import Base NumR LinAlg.
Local Open Scope R_scope.

Lemma is_derive_rsum (n : Z) (f : Z -> R -> R) (df : Z -> R) t : (0 <= n)%Z ->
  (forall i, (0 <= i < n)%Z -> is_derive (f i) t (df i)) ->
  is_derive (fun t => rsum 0 n (fun i => f i t)) t (rsum 0 n df).
Proof.
  intros Hn. pattern n; apply (zint_ind _ 0); [| |exact Hn].
  - intros _. apply (is_derive_ext (fun _ => 0)); [intros; rewrite rsum_empty by lia; reflexivity|].
    rewrite rsum_empty by lia. apply @is_derive_const.
  - intros k Hk IH H. rewrite rsum_last by lia.
    apply (is_derive_ext (fun t => rsum 0 k (fun i => f i t) + f k t)); [intros; rewrite rsum_last by lia; reflexivity|].
    apply @is_derive_plus; [apply IH; intros; apply H; lia|apply H; lia].
Qed.
Lemma continuity_rsum (n : Z) (f : Z -> R -> R) t : (0 <= n)%Z ->
  (forall i, (0 <= i < n)%Z -> continuity_pt (f i) t) -> continuity_pt (fun t => rsum 0 n (fun i => f i t)) t.
Proof.
  intros Hn. pattern n; apply (zint_ind _ 0); [| |exact Hn].
  - intros _. apply (continuity_pt_ext (fun _ => 0)); [intros; rewrite rsum_empty by lia; reflexivity|].
    apply continuity_pt_const. intros ? ?; reflexivity.
  - intros k Hk IH H. apply (continuity_pt_ext (fun t => rsum 0 k (fun i => f i t) + f k t)); [intros; rewrite rsum_last by lia; reflexivity|].
    apply continuity_pt_plus; [apply IH; intros; apply H; lia|apply H; lia].
Qed.

Lemma exp_flow (s : R) (y : R -> R) a b :
  (forall t, Rmin a b < t < Rmax a b -> is_derive y t (s * y t)) ->
  (forall t, Rmin a b <= t <= Rmax a b -> continuity_pt y t) ->
  y b = exp (s * (b - a)) * y a.
Proof.
  intros Hd Hc.
  destruct (MVT_gen (fun t => exp (- (s * t)) * y t) a b (fun _ => 0)) as (c & _ & E).
  - intros t Ht. pose proof (Hd t Ht) as D.
    replace 0 with (- s * exp (- (s * t)) * y t + exp (- (s * t)) * (s * y t)) by ring.
    apply (is_derive_mult (fun t => exp (- (s * t))) y t (- s * exp (- (s * t))) (s * y t)); [|exact D|intros; apply Rmult_comm].
    auto_derive; [exact I|ring].
  - intros t Ht. apply (continuity_pt_mult (fun t => exp (- (s * t))) y); [|apply Hc, Ht].
    apply derivable_continuous_pt. apply ex_derive_Reals_0. auto_derive. exact I.
  - rewrite Rmult_0_l in E.
    assert (Q : exp (- (s * b)) * y b = exp (- (s * a)) * y a) by lra.
    replace (s * (b - a)) with (s * b + - (s * a)) by ring. rewrite exp_plus, Rmult_assoc, <- Q, <- Rmult_assoc, <- exp_plus.
    replace (s * b + - (s * b)) with 0 by ring. rewrite exp_0. ring.
Qed.

Section Modes.
Variables (n : Z) (la be s : Z -> R) (al ka : R).
Hypothesis Hn : (0 <= n)%Z.
Hypothesis Hal : 0 < al.
Hypothesis Hla : forall i, (0 <= i < n)%Z -> 0 < la i.
Hypothesis Hbe : forall i, (0 <= i < n)%Z -> 0 < be i.
Hypothesis Hs : forall j k, (0 <= j < n + 1)%Z -> (0 <= k < n + 1)%Z -> j <> k -> s j <> s k.
Hypothesis Hp : forall i j, (0 <= i < n)%Z -> (0 <= j < n + 1)%Z -> la i + s j <> 0.
Hypothesis Hr : forall j, (0 <= j < n + 1)%Z -> al * s j = ka + rsum 0 n (fun i => la i * be i / (la i + s j)).

Definition v (i j : Z) : R := be i / (al * (la i + s j)).
Definition wdot (j : Z) (p : R) (c : Z -> R) : R := p + rsum 0 n (fun i => la i / (la i + s j) * c i).
Definition den (j : Z) : R := wdot j 1 (fun i => v i j).

Lemma den_pos j : (0 <= j < n + 1)%Z -> 0 < den j.
Proof.
  intros Hj. unfold den, wdot.
  assert (0 <= rsum 0 n (fun i => la i / (la i + s j) * v i j)); [|lra].
  apply rsum_nonneg. intros i Hi. pose proof (Hla i Hi). pose proof (Hbe i Hi). pose proof (Hp i j Hi Hj).
  unfold v. replace (la i / (la i + s j) * (be i / (al * (la i + s j)))) with (la i * be i * / (al * ((la i + s j) * (la i + s j)))).
  - apply Rmult_le_pos; [apply Rmult_le_pos; lra|]. left. apply Rinv_0_lt_compat. apply Rmult_lt_0_compat; [exact Hal|].
    apply Rsqr_pos_lt in H1. exact H1.
  - field. lra.
Qed.

Lemma biorthogonal j k : (0 <= j < n + 1)%Z -> (0 <= k < n + 1)%Z -> j <> k -> wdot j 1 (fun i => v i k) = 0.
Proof.
  intros Hj Hk D. pose proof (Hs j k Hj Hk D) as Ds. pose proof (Hr j Hj) as E1. pose proof (Hr k Hk) as E2.
  assert (E : (s j - s k) * (al * wdot j 1 (fun i => v i k)) = 0).
  { unfold wdot. rewrite Rmult_plus_distr_l, <- rsum_scal, Rmult_plus_distr_l, <- rsum_scal.
    rewrite (rsum_ext 0 n _ (fun i => la i * be i / (la i + s k) - la i * be i / (la i + s j))).
    - rewrite rsum_minus. lra.
    - intros i Hi. pose proof (Hp i j Hi Hj). pose proof (Hp i k Hi Hk). unfold v. field. repeat split; lra. }
  apply Rmult_integral in E as [E|E]; [lra|]. apply Rmult_integral in E as [E|E]; lra.
Qed.

Lemma wdot_lin j m (a : Z -> R) (p : Z -> R) (c : Z -> Z -> R) :
  wdot j (rsum 0 m (fun k => a k * p k)) (fun i => rsum 0 m (fun k => a k * c i k)) = rsum 0 m (fun k => a k * wdot j (p k) (fun i => c i k)).
Proof.
  unfold wdot. rewrite (rsum_ext 0 m (fun k => a k * (p k + _)) (fun k => a k * p k + rsum 0 n (fun i => la i / (la i + s j) * (a k * c i k)))).
  - rewrite rsum_plus. f_equal. rewrite rsum_swap. apply rsum_ext. intros i Hi. rewrite rsum_scal. reflexivity.
  - intros k Hk. rewrite Rmult_plus_distr_l, <- rsum_scal. f_equal. apply rsum_ext. intros; ring.
Qed.

Lemma expansion (a : Z -> R) j : (0 <= j < n + 1)%Z ->
  wdot j (rsum 0 (n + 1) a) (fun i => rsum 0 (n + 1) (fun k => a k * v i k)) = a j * den j.
Proof.
  intros Hj. rewrite (rsum_ext 0 (n + 1) a (fun k => a k * 1)) by (intros; ring).
  rewrite wdot_lin. rewrite (rsum_single 0 (n + 1) _ j); [reflexivity|exact Hj|].
  intros k Hk D. rewrite biorthogonal by auto. ring.
Qed.

Definition amp (p : R) (c : Z -> R) (j : Z) : R := wdot j p c / den j.

Lemma complete p c : rsum 0 (n + 1) (amp p c) = p /\
  forall i, (0 <= i < n)%Z -> rsum 0 (n + 1) (fun j => amp p c j * v i j) = c i.
Proof.
  set (V := fun r j => if (r =? 0)%Z then 1 else v (r - 1) j).
  assert (Inj : injective (n + 1) V).
  { intros a Ha j Hj.
    assert (E : a j * den j = 0).
    { rewrite <- expansion by exact Hj.
      replace (rsum 0 (n + 1) a) with 0.
      - unfold wdot. rewrite Rplus_0_l. apply rsum_0.
        intros i Hi. cbv beta. pose proof (Ha (i + 1)%Z ltac:(lia)) as H. unfold app, V in H.
        rewrite (rsum_ext 0 (n + 1) (fun k => a k * v i k) (fun j => (if (i + 1 =? 0)%Z then 1 else v (i + 1 - 1) j) * a j)).
        + rewrite H. ring.
        + intros k Hk. destruct (Z.eqb_spec (i + 1) 0); [lia|]. replace (i + 1 - 1)%Z with i by lia. ring.
      - pose proof (Ha 0%Z ltac:(lia)) as H. unfold app, V in H. cbn in H. rewrite <- H. apply rsum_ext. intros; ring. }
    pose proof (den_pos j Hj). apply Rmult_integral in E as [E|E]; [exact E|lra]. }
  destruct (injective_solvable _ _ Inj (fun r => if (r =? 0)%Z then p else c (r - 1)%Z)) as (a & Ha).
  assert (E0 : rsum 0 (n + 1) a = p).
  { pose proof (Ha 0%Z ltac:(lia)) as H. unfold app, V in H. cbn in H. rewrite <- H. apply rsum_ext. intros; ring. }
  assert (Ei : forall i, (0 <= i < n)%Z -> rsum 0 (n + 1) (fun j => a j * v i j) = c i).
  { intros i Hi. pose proof (Ha (i + 1)%Z ltac:(lia)) as H. unfold app, V in H. destruct (Z.eqb_spec (i + 1) 0); [lia|].
    replace (i + 1 - 1)%Z with i in H by lia. rewrite <- H. apply rsum_ext. intros; ring. }
  assert (Ea : forall j, (0 <= j < n + 1)%Z -> amp p c j = a j).
  { intros j Hj. unfold amp. pose proof (den_pos j Hj). apply (Rmult_eq_reg_r (den j)); [|lra].
    unfold Rdiv. rewrite Rmult_assoc, Rinv_l, Rmult_1_r by lra. rewrite <- expansion by exact Hj.
    rewrite <- E0 at 1. unfold wdot. f_equal. apply rsum_ext. intros i Hi. f_equal. symmetry. apply Ei, Hi. }
  split.
  - rewrite <- E0 at 2. apply rsum_ext. exact Ea.
  - intros i Hi. rewrite <- (Ei i Hi). apply rsum_ext. intros j Hj. rewrite Ea by exact Hj. reflexivity.
Qed.

Lemma wdot_injective p c : (forall j, (0 <= j < n + 1)%Z -> wdot j p c = 0) -> p = 0 /\ forall i, (0 <= i < n)%Z -> c i = 0.
Proof.
  intros H. destruct (complete p c) as [E1 E2].
  assert (A : forall j, (0 <= j < n + 1)%Z -> amp p c j = 0) by (intros j Hj; unfold amp; rewrite H by exact Hj; unfold Rdiv; ring).
  split.
  - rewrite <- E1. apply rsum_0. exact A.
  - intros i Hi. rewrite <- (E2 i Hi). apply rsum_0.
    intros j Hj. rewrite A by exact Hj. ring.
Qed.

(* right-hand sides of the point kinetics equations *)
Definition dP (p : R) (c : Z -> R) : R := ka / al * p + rsum 0 n (fun i => la i * c i).
Definition dC (p : R) (c : Z -> R) (i : Z) : R := be i / al * p - la i * c i.

Lemma left_mode j p c : (0 <= j < n + 1)%Z -> wdot j (dP p c) (dC p c) = s j * wdot j p c.
Proof.
  intros Hj. unfold wdot, dP, dC.
  rewrite (rsum_ext 0 n (fun i => la i / (la i + s j) * (be i / al * p - la i * c i))
    (fun i => p / al * (la i * be i / (la i + s j)) + (s j * (la i / (la i + s j) * c i) - la i * c i))).
  - rewrite rsum_plus, rsum_minus, !rsum_scal. pose proof (Hr j Hj) as E.
    replace (rsum 0 n (fun i => la i * be i / (la i + s j))) with (al * s j - ka) by lra. field. lra.
  - intros i Hi. pose proof (Hp i j Hi Hj). field. split; lra.
Qed.
Lemma right_mode j : (0 <= j < n + 1)%Z ->
  dP 1 (fun i => v i j) = s j /\ forall i, (0 <= i < n)%Z -> dC 1 (fun i => v i j) i = s j * v i j.
Proof.
  intros Hj. unfold dP, dC, v. split.
  - rewrite (rsum_ext 0 n _ (fun i => / al * (la i * be i / (la i + s j)))).
    + rewrite rsum_scal. pose proof (Hr j Hj) as E.
      replace (rsum 0 n (fun i => la i * be i / (la i + s j))) with (al * s j - ka) by lra. field. lra.
    + intros i Hi. pose proof (Hp i j Hi Hj). field. split; lra.
  - intros i Hi. pose proof (Hp i j Hi Hj). field. split; lra.
Qed.

(* the modal trajectory *)
Definition modalP (p : R) (c : Z -> R) (t : R) : R := rsum 0 (n + 1) (fun j => amp p c j * exp (s j * t)).
Definition modalC (p : R) (c : Z -> R) (i : Z) (t : R) : R := rsum 0 (n + 1) (fun j => amp p c j * v i j * exp (s j * t)).

Lemma modal_start p c : modalP p c 0 = p /\ forall i, (0 <= i < n)%Z -> modalC p c i 0 = c i.
Proof.
  destruct (complete p c) as [E1 E2]. unfold modalP, modalC. split.
  - transitivity (rsum 0 (n + 1) (amp p c)); [|exact E1]. apply rsum_ext. intros j Hj. rewrite Rmult_0_r, exp_0. ring.
  - intros i Hi. rewrite <- (E2 i Hi). apply rsum_ext. intros j Hj. rewrite Rmult_0_r, exp_0. ring.
Qed.

Lemma modal_solves p c t :
  is_derive (modalP p c) t (dP (modalP p c t) (fun i => modalC p c i t)) /\
  forall i, (0 <= i < n)%Z -> is_derive (modalC p c i) t (dC (modalP p c t) (fun i => modalC p c i t) i).
Proof.
  assert (D1 : is_derive (modalP p c) t (rsum 0 (n + 1) (fun j => amp p c j * (s j * exp (s j * t))))).
  { unfold modalP. apply is_derive_rsum; [lia|]. intros j Hj. auto_derive; [exact I|ring]. }
  assert (D2 : forall i, is_derive (modalC p c i) t (rsum 0 (n + 1) (fun j => amp p c j * v i j * (s j * exp (s j * t))))).
  { intros i. unfold modalC. apply is_derive_rsum; [lia|]. intros j Hj. auto_derive; [exact I|ring]. }
  split.
  - replace (dP (modalP p c t) (fun i => modalC p c i t)) with (rsum 0 (n + 1) (fun j => amp p c j * (s j * exp (s j * t)))); [exact D1|].
    unfold dP, modalP, modalC. rewrite <- rsum_scal.
    rewrite (rsum_ext 0 n _ (fun i => rsum 0 (n + 1) (fun j => la i * (amp p c j * v i j * exp (s j * t))))) by (intros; rewrite rsum_scal; reflexivity).
    rewrite rsum_swap, <- rsum_plus. apply rsum_ext. intros j Hj. destruct (right_mode j Hj) as [E _]. rewrite <- E at 1.
    unfold dP. rewrite Rmult_1_r, Rmult_plus_distr_r, Rmult_plus_distr_l. f_equal; [ring|].
    rewrite <- rsum_scal_r, <- rsum_scal. apply rsum_ext. intros; ring.
  - intros i Hi. replace (dC (modalP p c t) (fun i => modalC p c i t) i) with (rsum 0 (n + 1) (fun j => amp p c j * v i j * (s j * exp (s j * t)))); [apply D2|].
    unfold dC, modalP, modalC. rewrite <- !rsum_scal, <- rsum_minus. apply rsum_ext. intros j Hj.
    destruct (right_mode j Hj) as [_ E]. pose proof (E i Hi) as Q. unfold dC in Q.
    replace (amp p c j * v i j * (s j * exp (s j * t))) with (amp p c j * exp (s j * t) * (s j * v i j)) by ring.
    rewrite <- Q. ring.
Qed.

(* every continuous solution on an interval is the modal trajectory *)
Lemma modal_unique (P : R -> R) (C : Z -> R -> R) a b :
  (forall t, Rmin a b < t < Rmax a b -> is_derive P t (dP (P t) (fun i => C i t)) /\
     forall i, (0 <= i < n)%Z -> is_derive (C i) t (dC (P t) (fun i => C i t) i)) ->
  (forall t, Rmin a b <= t <= Rmax a b -> continuity_pt P t /\ forall i, (0 <= i < n)%Z -> continuity_pt (C i) t) ->
  P b = modalP (P a) (fun i => C i a) (b - a) /\
  forall i, (0 <= i < n)%Z -> C i b = modalC (P a) (fun i => C i a) i (b - a).
Proof.
  intros Hd Hc.
  set (x := modalP (P a) (fun i => C i a) (b - a)). set (y := fun i => modalC (P a) (fun i => C i a) i (b - a)).
  assert (F : forall j, (0 <= j < n + 1)%Z -> wdot j (P b) (fun i => C i b) = exp (s j * (b - a)) * wdot j (P a) (fun i => C i a)).
  { intros j Hj. apply (exp_flow (s j) (fun t => wdot j (P t) (fun i => C i t)) a b).
    - intros t Ht. rewrite <- left_mode by exact Hj. destruct (Hd t Ht) as [D1 D2]. unfold wdot.
      apply @is_derive_plus; [exact D1|].
      apply (is_derive_rsum n (fun i t => la i / (la i + s j) * C i t) (fun i => la i / (la i + s j) * dC (P t) (fun i => C i t) i)); [exact Hn|].
      intros i Hi. apply @is_derive_scal. apply D2, Hi.
    - intros t Ht. destruct (Hc t Ht) as [C1 C2]. unfold wdot. apply continuity_pt_plus; [exact C1|].
      apply (continuity_rsum n (fun i t => la i / (la i + s j) * C i t)); [exact Hn|]. intros i Hi.
      apply (continuity_pt_scal (C i)). apply C2, Hi. }
  assert (G : forall j, (0 <= j < n + 1)%Z -> wdot j x y = exp (s j * (b - a)) * wdot j (P a) (fun i => C i a)).
  { intros j Hj. unfold x, y, modalP, modalC.
    set (am := amp (P a) (fun i => C i a)).
    pose proof (expansion (fun k => am k * exp (s k * (b - a))) j Hj) as E. cbv beta in E.
    replace (am j * exp (s j * (b - a)) * den j) with (exp (s j * (b - a)) * wdot j (P a) (fun i => C i a)) in E.
    - rewrite <- E. unfold wdot. f_equal. apply rsum_ext. intros i Hi. f_equal. apply rsum_ext. intros; ring.
    - unfold am, amp. pose proof (den_pos j Hj). field. lra. }
  destruct (wdot_injective (P b - x) (fun i => C i b - y i)) as [Z1 Z2].
  - intros j Hj. unfold wdot. rewrite (rsum_ext 0 n _ (fun i => la i / (la i + s j) * C i b - la i / (la i + s j) * y i)) by (intros; ring).
    rewrite rsum_minus. pose proof (F j Hj) as E1. pose proof (G j Hj) as E2. unfold wdot in E1, E2. lra.
  - split; [lra|]. intros i Hi. pose proof (Z2 i Hi). cbv beta in *. unfold y in *. lra.
Qed.
End Modes.
