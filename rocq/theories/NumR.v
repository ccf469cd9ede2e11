(* Ideal arithmetic: the Num instance on Coq's real numbers, and finite sums. *)
From Coq Require Import String ZArith List Bool Lia Reals Lra.
From Verif Require Import Base BaseLemmas.
Import ListNotations.
Local Open Scope R_scope.

Definition Rltb (x y : R) : bool := if Rlt_dec x y then true else false.
Definition Rleb (x y : R) : bool := if Rle_dec x y then true else false.

#[global] Instance NumR : Num R := {|
  nofZ := IZR;
  nadd := Rplus;
  nsub := Rminus;
  nmul := Rmult;
  ndiv := Rdiv;
  nopp := Ropp;
  nabs := Rabs;
  nltb := Rltb;
  nleb := Rleb
|}.

Lemma Rltb_true x y : Rltb x y = true <-> x < y.
Proof. unfold Rltb. destruct (Rlt_dec x y); split; intros; auto; discriminate. Qed.
Lemma Rltb_false x y : Rltb x y = false <-> y <= x.
Proof. unfold Rltb. destruct (Rlt_dec x y); split; intros; auto; try discriminate; lra. Qed.
Lemma Rleb_true x y : Rleb x y = true <-> x <= y.
Proof. unfold Rleb. destruct (Rle_dec x y); split; intros; auto; discriminate. Qed.
Lemma Rleb_false x y : Rleb x y = false <-> y < x.
Proof. unfold Rleb. destruct (Rle_dec x y); split; intros; auto; try discriminate; lra. Qed.

(* Turn the generic operations into those of R. *)
Ltac rnum := unfold nlit, n0, n1 in *; cbn [nofZ nadd nsub nmul ndiv nopp nabs nltb nleb NumR] in *.

Notation rsum := (nsum (T := R) (N := NumR)).

Lemma rsum_up_acc n i f acc : nsum_up (T := R) n i f acc = acc + nsum_up (T := R) n i f 0.
Proof.
  revert i acc; induction n as [|n IH]; intros i acc; simpl; [lra|].
  rewrite IH, (IH _ (0 + f i)). lra.
Qed.

Lemma rsum_empty lo hi f : (hi <= lo)%Z -> rsum lo hi f = 0.
Proof. intros H. unfold nsum. replace (Z.to_nat (hi - lo)) with O by lia. reflexivity. Qed.

Lemma rsum_first lo hi f : (lo < hi)%Z -> rsum lo hi f = f lo + rsum (lo + 1) hi f.
Proof.
  intros H. unfold nsum.
  replace (Z.to_nat (hi - lo)) with (S (Z.to_nat (hi - (lo + 1)))) by lia.
  cbn [nsum_up]. rewrite rsum_up_acc. unfold n0. simpl. lra.
Qed.

Lemma rsum_split lo mid hi f :
  (lo <= mid <= hi)%Z -> rsum lo hi f = rsum lo mid f + rsum mid hi f.
Proof.
  intros H. remember (Z.to_nat (mid - lo)) as n eqn:En.
  revert lo H En; induction n as [|n IH]; intros lo H En.
  - replace mid with lo by lia. rewrite (rsum_empty lo lo) by lia. lra.
  - rewrite (rsum_first lo hi) by lia. rewrite (rsum_first lo mid) by lia.
    rewrite (IH (lo + 1)%Z) by lia. lra.
Qed.

Lemma rsum_last lo hi f : (lo <= hi)%Z -> rsum lo (hi + 1) f = rsum lo hi f + f hi.
Proof.
  intros H. rewrite (rsum_split lo hi (hi + 1)) by lia.
  rewrite (rsum_first hi) by lia. rewrite (rsum_empty (hi + 1)) by lia. lra.
Qed.

Lemma rsum_one lo f : rsum lo (lo + 1) f = f lo.
Proof. rewrite rsum_last by lia. rewrite rsum_empty by lia. lra. Qed.

(* Induction on the length of a sum. *)
Lemma zint_ind (P : Z -> Prop) lo :
  P lo -> (forall k, (lo <= k)%Z -> P k -> P (k + 1)%Z) -> forall hi, (lo <= hi)%Z -> P hi.
Proof.
  intros H0 HS hi Hh. remember (Z.to_nat (hi - lo)) as n eqn:En.
  revert hi Hh En; induction n as [|n IH]; intros hi Hh En.
  - replace hi with lo by lia. exact H0.
  - replace hi with (hi - 1 + 1)%Z by lia. apply HS; [lia|]. apply IH; lia.
Qed.

Lemma rsum_ext lo hi f g :
  (forall k, (lo <= k < hi)%Z -> f k = g k) -> rsum lo hi f = rsum lo hi g.
Proof. apply nsum_ext. Qed.

Lemma rsum_0 lo hi f : (forall k, (lo <= k < hi)%Z -> f k = 0) -> rsum lo hi f = 0.
Proof.
  intros H. destruct (Z_le_gt_dec hi lo) as [L|G]; [apply rsum_empty; lia|].
  revert H. apply (zint_ind (fun hi => (forall k, (lo <= k < hi)%Z -> f k = 0) -> rsum lo hi f = 0) lo); [| |lia].
  - intros; apply rsum_empty; lia.
  - intros k Hk IH H. rewrite rsum_last, IH, H by (try intros; try apply H; lia). lra.
Qed.

Lemma rsum_plus lo hi f g : rsum lo hi (fun k => f k + g k) = rsum lo hi f + rsum lo hi g.
Proof.
  destruct (Z_le_gt_dec hi lo) as [L|G].
  - rewrite !rsum_empty by lia. lra.
  - apply (zint_ind (fun hi => rsum lo hi (fun k => f k + g k) = rsum lo hi f + rsum lo hi g) lo); [| |lia].
    + rewrite !rsum_empty by lia. lra.
    + intros k Hk IH. rewrite !rsum_last, IH by lia. lra.
Qed.

Lemma rsum_scal lo hi c f : rsum lo hi (fun k => c * f k) = c * rsum lo hi f.
Proof.
  destruct (Z_le_gt_dec hi lo) as [L|G].
  - rewrite !rsum_empty by lia. lra.
  - apply (zint_ind (fun hi => rsum lo hi (fun k => c * f k) = c * rsum lo hi f) lo); [| |lia].
    + rewrite !rsum_empty by lia. lra.
    + intros k Hk IH. rewrite !rsum_last, IH by lia. lra.
Qed.

Lemma rsum_scal_r lo hi c f : rsum lo hi (fun k => f k * c) = rsum lo hi f * c.
Proof.
  rewrite (rsum_ext lo hi (fun k => f k * c) (fun k => c * f k)) by (intros; lra).
  rewrite rsum_scal. lra.
Qed.

Lemma rsum_opp lo hi f : rsum lo hi (fun k => - f k) = - rsum lo hi f.
Proof.
  rewrite (rsum_ext lo hi (fun k => - f k) (fun k => (-1) * f k)) by (intros; lra).
  rewrite rsum_scal. lra.
Qed.

Lemma rsum_minus lo hi f g : rsum lo hi (fun k => f k - g k) = rsum lo hi f - rsum lo hi g.
Proof.
  unfold Rminus. rewrite rsum_plus, rsum_opp. reflexivity.
Qed.

Lemma rsum_const lo hi c : (lo <= hi)%Z -> rsum lo hi (fun _ => c) = IZR (hi - lo) * c.
Proof.
  intros H. apply (zint_ind (fun hi => rsum lo hi (fun _ => c) = IZR (hi - lo) * c) lo); [| |lia].
  - rewrite rsum_empty by lia. replace (lo - lo)%Z with 0%Z by lia. simpl. lra.
  - intros k Hk IH. rewrite rsum_last, IH by lia.
    replace (k + 1 - lo)%Z with (k - lo + 1)%Z by lia. rewrite plus_IZR. lra.
Qed.

Lemma rsum_le lo hi f g :
  (forall k, (lo <= k < hi)%Z -> f k <= g k) -> rsum lo hi f <= rsum lo hi g.
Proof.
  intros H. destruct (Z_le_gt_dec hi lo) as [L|G].
  - rewrite !rsum_empty by lia. lra.
  - revert H. apply (zint_ind (fun hi => (forall k, (lo <= k < hi)%Z -> f k <= g k) -> rsum lo hi f <= rsum lo hi g) lo); [| |lia].
    + intros; rewrite !rsum_empty by lia; lra.
    + intros k Hk IH H. rewrite !rsum_last by lia.
      apply Rplus_le_compat; [apply IH; intros; apply H; lia|apply H; lia].
Qed.

Lemma rsum_nonneg lo hi f : (forall k, (lo <= k < hi)%Z -> 0 <= f k) -> 0 <= rsum lo hi f.
Proof.
  intros H. replace 0 with (rsum lo hi (fun _ => 0)) by (apply rsum_0; auto).
  apply rsum_le; auto.
Qed.

Lemma rsum_pos lo hi f :
  (lo < hi)%Z -> (forall k, (lo <= k < hi)%Z -> 0 < f k) -> 0 < rsum lo hi f.
Proof.
  intros Hl H. rewrite rsum_first by lia.
  apply Rplus_lt_le_0_compat; [apply H; lia|apply rsum_nonneg; intros; left; apply H; lia].
Qed.

Lemma rsum_term_le lo hi f k :
  (forall k, (lo <= k < hi)%Z -> 0 <= f k) -> (lo <= k < hi)%Z -> f k <= rsum lo hi f.
Proof.
  intros H Hk. rewrite (rsum_split lo k hi) by lia. rewrite (rsum_first k) by lia.
  assert (0 <= rsum lo k f) by (apply rsum_nonneg; intros; apply H; lia).
  assert (0 <= rsum (k + 1) hi f) by (apply rsum_nonneg; intros; apply H; lia).
  lra.
Qed.

Lemma rsum_nonneg_0 lo hi f k :
  (forall k, (lo <= k < hi)%Z -> 0 <= f k) -> rsum lo hi f = 0 -> (lo <= k < hi)%Z -> f k = 0.
Proof.
  intros H H0 Hk. pose proof (rsum_term_le lo hi f k H Hk). pose proof (H k Hk). lra.
Qed.

Lemma rsum_Rabs lo hi f : Rabs (rsum lo hi f) <= rsum lo hi (fun k => Rabs (f k)).
Proof.
  destruct (Z_le_gt_dec hi lo) as [L|G].
  - rewrite !rsum_empty by lia. rewrite Rabs_R0; lra.
  - apply (zint_ind (fun hi => Rabs (rsum lo hi f) <= rsum lo hi (fun k => Rabs (f k))) lo); [| |lia].
    + rewrite !rsum_empty by lia. rewrite Rabs_R0; lra.
    + intros k Hk IH. rewrite !rsum_last by lia.
      eapply Rle_trans; [apply Rabs_triang|]. lra.
Qed.

(* Telescoping. *)
Lemma rsum_tele lo hi f :
  (lo <= hi)%Z -> rsum lo hi (fun k => f (k + 1)%Z - f k) = f hi - f lo.
Proof.
  intros H. apply (zint_ind (fun hi => rsum lo hi (fun k => f (k + 1)%Z - f k) = f hi - f lo) lo); [| |lia].
  - rewrite rsum_empty by lia. lra.
  - intros k Hk IH. rewrite rsum_last, IH by lia. lra.
Qed.

(* Only one index contributes. *)
Lemma rsum_single lo hi f k :
  (lo <= k < hi)%Z -> (forall j, (lo <= j < hi)%Z -> j <> k -> f j = 0) -> rsum lo hi f = f k.
Proof.
  intros Hk H. rewrite (rsum_split lo k hi) by lia. rewrite (rsum_first k) by lia.
  rewrite (rsum_0 lo k) by (intros; apply H; lia).
  rewrite (rsum_0 (k + 1) hi) by (intros; apply H; lia). lra.
Qed.

Lemma rsum_delta lo hi f k :
  (lo <= k < hi)%Z -> rsum lo hi (fun j => if (j =? k)%Z then f j else 0) = f k.
Proof.
  intros Hk. rewrite (rsum_single lo hi _ k Hk).
  - rewrite Z.eqb_refl. reflexivity.
  - intros j Hj Hne. destruct (Z.eqb_spec j k); [contradiction|reflexivity].
Qed.

(* Two indices contribute. *)
Lemma rsum_extract lo hi f k :
  (lo <= k < hi)%Z ->
  rsum lo hi f = f k + rsum lo hi (fun j => if (j =? k)%Z then 0 else f j).
Proof.
  intros Hk.
  rewrite (rsum_ext lo hi f (fun j => (if (j =? k)%Z then f j else 0) + (if (j =? k)%Z then 0 else f j))).
  - rewrite rsum_plus, rsum_delta by lia. reflexivity.
  - intros j _. destruct (j =? k)%Z; lra.
Qed.

Lemma rsum_swap a b c d (f : Z -> Z -> R) :
  rsum a b (fun i => rsum c d (fun j => f i j)) = rsum c d (fun j => rsum a b (fun i => f i j)).
Proof.
  destruct (Z_le_gt_dec b a) as [L|G].
  - rewrite rsum_empty by lia. symmetry. apply rsum_0. intros; apply rsum_empty; lia.
  - apply (zint_ind (fun b => rsum a b (fun i => rsum c d (fun j => f i j))
                       = rsum c d (fun j => rsum a b (fun i => f i j))) a); [| |lia].
    + rewrite rsum_empty by lia. symmetry. apply rsum_0. intros; apply rsum_empty; lia.
    + intros k Hk IH. rewrite rsum_last, IH by lia. rewrite <- rsum_plus.
      apply rsum_ext. intros j _. rewrite rsum_last by lia. reflexivity.
Qed.

Lemma rsum_shift lo hi d f : rsum lo hi (fun k => f (k + d)%Z) = rsum (lo + d) (hi + d) f.
Proof.
  destruct (Z_le_gt_dec hi lo) as [L|G].
  - rewrite !rsum_empty by lia. reflexivity.
  - apply (zint_ind (fun hi => rsum lo hi (fun k => f (k + d)%Z) = rsum (lo + d) (hi + d) f) lo); [| |lia].
    + rewrite !rsum_empty by lia. reflexivity.
    + intros k Hk IH. replace (k + 1 + d)%Z with (k + d + 1)%Z by lia.
      rewrite !rsum_last by lia. rewrite IH. reflexivity.
Qed.

(* A sum over blocks of equal length. *)
Lemma rsum_blocks (a b : Z) f :
  (0 <= a)%Z -> (0 <= b)%Z ->
  rsum 0 (a * b) f = rsum 0 a (fun g => rsum 0 b (fun i => f (i + g * b)%Z)).
Proof.
  intros Ha Hb.
  apply (zint_ind (fun a => rsum 0 (a * b) f = rsum 0 a (fun g => rsum 0 b (fun i => f (i + g * b)%Z))) 0%Z); [| |lia].
  - rewrite !rsum_empty by lia. reflexivity.
  - intros k Hk IH. rewrite rsum_last by lia. rewrite <- IH.
    replace ((k + 1) * b)%Z with (k * b + b)%Z by ring.
    rewrite (rsum_split 0 (k * b) (k * b + b)) by nia.
    f_equal. rewrite rsum_shift. f_equal; lia.
Qed.

(* A sum over a triangle, by rows or by columns. *)
Lemma rsum_mult_distr a b c d f g :
  rsum a b f * rsum c d g = rsum a b (fun i => rsum c d (fun j => f i * g j)).
Proof.
  rewrite <- rsum_scal_r. apply rsum_ext. intros i _. rewrite rsum_scal. reflexivity.
Qed.

(* Unfold sums between literal bounds. *)
Ltac run_sums :=
  unfold nsum;
  repeat match goal with
  | |- context [Z.to_nat ?x] =>
      let v := eval compute in (Z.to_nat x) in change (Z.to_nat x) with v end;
  cbn [nsum_up]; rnum;
  cbn [Z.eqb Z.add Z.sub Z.opp Z.pos_sub Pos.add Pos.eqb Z.mul Pos.mul Z.leb Z.ltb Z.compare Pos.compare Pos.compare_cont].
