(* tridiag_solver and diagonalDominanceCheck over the reals. *)
From Coq Require Import String ZArith List Bool Lia Reals Lra.
From Verif Require Import Base BaseLemmas NumR ModelNumTools ProofsNumTools.
Import ListNotations.
Local Open Scope R_scope.

(* Specification: equation number i of the tridiagonal system of size n with
   lower diagonal a, diagonal b, upper diagonal c and right-hand side d. *)
Definition tri_row (a b c d : Z -> R) (n : Z) (x : Z -> R) (i : Z) : Prop :=
  (if (0 <? i)%Z then a (i - 1)%Z * x (i - 1)%Z else 0) + b i * x i +
  (if (i <? n - 1)%Z then c i * x (i + 1)%Z else 0) = d i.
Definition tri_solves a b c d n x : Prop := forall i, (0 <= i < n)%Z -> tri_row a b c d n x i.

(* Pivots of Gaussian elimination without exchange. *)
Fixpoint pivot (a b c : Z -> R) (k : nat) : R :=
  match k with
  | O => b 0%Z
  | S j => b (Z.of_nat k) - a (Z.of_nat j) * c (Z.of_nat j) / pivot a b c j
  end.

(* The upper diagonal the code really uses. *)
Definition shifted_upper (c : Z -> R) (i : Z) : R := if (i =? 0)%Z then c 0%Z else c (i - 1)%Z.

Lemma pivot_step a b c i : (1 <= i)%Z ->
  pivot a b c (Z.to_nat i) = b i - a (i - 1)%Z * c (i - 1)%Z / pivot a b c (Z.to_nat (i - 1)).
Proof.
  intros H. replace (Z.to_nat i) with (S (Z.to_nat (i - 1))) by lia.
  cbn [pivot]. replace (Z.of_nat (S (Z.to_nat (i - 1)))) with i by lia.
  replace (Z.of_nat (Z.to_nat (i - 1))) with (i - 1)%Z by lia. reflexivity.
Qed.

Lemma tridiag_wp (a b c d : vec R) n :
  (1 <= n)%Z -> vlen d = n -> vlen b = n -> (n - 1 <= vlen a)%Z ->
  (n - 1 <= vlen c)%Z -> (1 <= vlen c)%Z ->
  (forall k, (k < Z.to_nat n)%nat -> pivot (vat a) (vat b) (shifted_upper (vat c)) k <> 0) ->
  wp (tridiag_solver a b c d) (fun x => vlen x = n /\
     tri_solves (vat a) (vat b) (shifted_upper (vat c)) (vat d) n (vat x)).
Proof.
  intros Hn Hd Hb Ha Hc Hc1 Hp. unfold tridiag_solver. rewrite Hd.
  rewrite (vget_ok c 0) by lia. cbn [bind].
  rewrite (vget_ok b 0) by lia. cbn [bind].
  rewrite (vget_ok d 0) by lia. cbn [bind].
  unfold vzeros, vconst.
  rewrite vset_ok by (simpl; lia). cbn [bind].
  rewrite vset_ok by (simpl; lia). cbn [bind].
  set (piv := pivot (vat a) (vat b) (shifted_upper (vat c))) in *.
  set (cs := shifted_upper (vat c)) in *.
  apply wp_bind.
  eapply zfor_wp' with (I := fun k (st : vec R * vec R) =>
     vlen (fst st) = n /\ vlen (snd st) = n /\
     (forall i, (0 <= i < k)%Z -> vat (fst st) i = - cs i / piv (Z.to_nat i)) /\
     (forall i, (0 <= i < k)%Z -> vat (snd st) i =
         ((vat d i) - (if (0 <? i)%Z then vat a (i - 1)%Z * vat (snd st) (i - 1)%Z else 0)) / piv (Z.to_nat i))).
  - lia.
  - cbn [fst snd vlen vat]. split; [reflexivity|]. split; [reflexivity|]. split.
    + intros i Hi. replace i with 0%Z by lia. simpl. rnum.
      unfold piv, cs, shifted_upper. simpl. reflexivity.
    + intros i Hi. replace i with 0%Z by lia. simpl. rnum. unfold piv. simpl.
      rewrite Rminus_0_r. reflexivity.
  - intros k [P Q] Hk (HlP & HlQ & HP & HQ). cbn [fst snd] in *.
    rewrite (vget_ok b k) by lia. cbn [bind].
    rewrite (vget_ok a (k - 1)) by lia. cbn [bind].
    rewrite (vget_ok P (k - 1)) by lia. cbn [bind].
    rewrite (vget_ok c (k - 1)) by lia. cbn [bind].
    rewrite vset_ok by lia. cbn [bind].
    rewrite (vget_ok d k) by lia. cbn [bind].
    rewrite (vget_ok Q (k - 1)) by lia. cbn [bind].
    rewrite vset_ok by lia. cbn [bind wp fst snd vlen].
    assert (Hden : vat b k + vat a (k - 1)%Z * vat P (k - 1)%Z = piv (Z.to_nat k)).
    { rewrite HP by lia. unfold piv. rewrite (pivot_step _ _ _ k) by lia. fold piv cs.
      unfold Rdiv. ring. }
    split; [auto|]. split; [auto|]. rnum. rewrite Hden. split.
    + intros i Hi. cbn [vat]. destruct (Z.eqb_spec i k) as [E|E].
      * subst i. unfold cs, shifted_upper. destruct (Z.eqb_spec k 0); [lia|]. reflexivity.
      * apply HP. lia.
    + intros i Hi. cbn [vat]. destruct (Z.eqb_spec i k) as [E|E].
      * subst i. destruct (Z.ltb_spec 0 k); [|lia]. destruct (Z.eqb_spec (k - 1) k); [lia|]. reflexivity.
      * rewrite HQ by lia. destruct (Z.ltb_spec 0 i); [|reflexivity].
        destruct (Z.eqb_spec (i - 1) k); [lia|]. reflexivity.
  - intros [P Q] (HlP & HlQ & HP & HQ). cbn [fst snd] in *.
    rewrite (vget_ok Q (n - 1)) by lia. cbn [bind].
    rewrite vset_ok by (simpl; lia). cbn [bind].
    assert (HpZ : forall i, (0 <= i < n)%Z -> piv (Z.to_nat i) <> 0) by (intros; apply Hp; lia).
    eapply wp_mono.
    + apply (zfor_down_wp (fun k x => vlen x = n /\
         vat x (n - 1)%Z = vat Q (n - 1)%Z /\
         (forall i, (k < i < n - 1)%Z -> vat x i = vat P i * vat x (i + 1)%Z + vat Q i))).
      * lia.
      * cbn [vlen vat]. split; [reflexivity|]. split.
        -- rewrite Z.eqb_refl. reflexivity.
        -- intros; lia.
      * intros k x Hk (Hl & HxN & Hx).
        rewrite (vget_ok P k) by lia. cbn [bind].
        rewrite (vget_ok x (k + 1)) by lia. cbn [bind].
        rewrite (vget_ok Q k) by lia. cbn [bind].
        rewrite vset_ok by lia. cbn [wp vlen vat]. split; [auto|]. split.
        -- destruct (Z.eqb_spec (n - 1) k); [lia|auto].
        -- intros i Hi. rnum. destruct (Z.eqb_spec i k) as [E|E].
           ++ subst i. destruct (Z.eqb_spec (k + 1) k); [lia|reflexivity].
           ++ destruct (Z.eqb_spec (i + 1) k); [lia|]. apply Hx; lia.
    + cbv beta. intros x (Hl & HxN & Hx). split; [exact Hl|].
      intros i Hi. unfold tri_row.
      assert (Hpi := HpZ i ltac:(lia)).
      assert (E1 : piv (Z.to_nat i) * vat x i + (if (i <? n - 1)%Z then cs i * vat x (i + 1)%Z else 0)
               = vat d i - (if (0 <? i)%Z then vat a (i - 1)%Z * vat Q (i - 1)%Z else 0)).
      { destruct (Z.ltb_spec i (n - 1)).
        - rewrite (Hx i) by lia. rewrite HP, HQ by lia. field. auto.
        - replace i with (n - 1)%Z in * by lia. rewrite HxN, HQ by lia. field. auto. }
      destruct (Z.ltb_spec 0 i).
      * assert (E2 : vat x (i - 1)%Z = vat P (i - 1)%Z * vat x i + vat Q (i - 1)%Z).
        { rewrite (Hx (i - 1)%Z) by lia. replace (i - 1 + 1)%Z with i by lia. reflexivity. }
        rewrite E2, HP by lia.
        assert (E3 : piv (Z.to_nat i) = vat b i - vat a (i - 1)%Z * cs (i - 1)%Z / piv (Z.to_nat (i - 1))).
        { unfold piv. apply pivot_step. lia. }
        rewrite E3 in E1.
        assert (Hpi' := HpZ (i - 1)%Z ltac:(lia)).
        transitivity ((vat b i - vat a (i - 1)%Z * cs (i - 1)%Z / piv (Z.to_nat (i - 1))) * vat x i
           + (if (i <? n - 1)%Z then cs i * vat x (i + 1)%Z else 0) + vat a (i - 1)%Z * vat Q (i - 1)%Z).
        { unfold Rdiv. ring. }
        rewrite E1. lra.
      * assert (E3 : piv (Z.to_nat i) = vat b i) by (replace i with 0%Z by lia; reflexivity).
        rewrite E3 in E1. lra.
Qed.

Lemma pivot_ext a b c c' n :
  (forall i, (0 <= i < Z.of_nat n)%Z -> c i = c' i) ->
  forall k, (k <= n)%nat -> pivot a b c k = pivot a b c' k.
Proof.
  intros H k. induction k as [|k IH]; intros Hk; [reflexivity|].
  cbn [pivot]. rewrite IH by lia. rewrite H by lia. reflexivity.
Qed.

(* Constant upper diagonal: the code is right. *)
Lemma tridiag_constant_upper (a b c d : vec R) n :
  (1 <= n)%Z -> vlen d = n -> vlen b = n -> (n - 1 <= vlen a)%Z ->
  (n - 1 <= vlen c)%Z -> (1 <= vlen c)%Z ->
  (forall i, (0 <= i < n - 1)%Z -> vat c i = vat c 0%Z) ->
  (forall k, (k < Z.to_nat n)%nat -> pivot (vat a) (vat b) (vat c) k <> 0) ->
  exists x, tridiag_solver a b c d = Ok x /\ vlen x = n /\
     tri_solves (vat a) (vat b) (vat c) (vat d) n (vat x).
Proof.
  intros Hn Hd Hb Ha Hc Hc1 Hcc Hp.
  assert (Hs : forall i, (0 <= i < n - 1)%Z -> shifted_upper (vat c) i = vat c i).
  { intros i Hi. unfold shifted_upper. destruct (Z.eqb_spec i 0); [subst; auto|].
    rewrite (Hcc (i - 1)%Z), (Hcc i) by lia. reflexivity. }
  destruct (wp_ok _ _ (tridiag_wp a b c d n Hn Hd Hb Ha Hc Hc1
     ltac:(intros k Hk; rewrite (pivot_ext _ _ _ (vat c) (Z.to_nat (n - 1))) by (try intros; try apply Hs; lia); auto)))
    as [x [Hx [Hl Hsol]]].
  exists x. split; auto. split; auto.
  intros i Hi. specialize (Hsol i Hi). unfold tri_row in *.
  destruct (Z.ltb_spec i (n - 1)); [rewrite Hs in Hsol by lia|]; auto.
Qed.

(* A system with distinct upper entries the code gets wrong. *)
Definition bad_a := vec_of_list 0 [0; 0].
Definition bad_b := vec_of_list 0 [1; 1; 1].
Definition bad_c := vec_of_list 0 [1; 0].
Definition bad_d := vec_of_list 0 [1; 1; 1].

Ltac run_nth := cbn; repeat (progress (change (Pos.to_nat 1) with 1%nat; change (Pos.to_nat 2) with 2%nat; cbn)).

Lemma tridiag_refutation :
  (forall k, (k < 3)%nat -> pivot (vat bad_a) (vat bad_b) (vat bad_c) k <> 0) /\
  exists x, tridiag_solver bad_a bad_b bad_c bad_d = Ok x /\
     ~ tri_solves (vat bad_a) (vat bad_b) (vat bad_c) (vat bad_d) 3 (vat x).
Proof.
  split.
  - intros [|[|[|k]]] Hk; try lia; run_nth; lra.
  - destruct (wp_ok _ _ (tridiag_wp bad_a bad_b bad_c bad_d 3 ltac:(lia) eq_refl eq_refl ltac:(cbn; lia) ltac:(cbn; lia) ltac:(cbn; lia)
      ltac:(intros [|[|[|k]]] Hk; try lia; run_nth; lra))) as [x [Hx [Hl Hs]]].
    exists x. split; auto. intros Hbad.
    pose proof (Hs 1%Z ltac:(lia)) as E1. pose proof (Hs 2%Z ltac:(lia)) as E2.
    pose proof (Hbad 1%Z ltac:(lia)) as E3.
    revert E1 E2 E3. unfold tri_row, shifted_upper. run_nth. lra.
Qed.

(* n = 0 reads c(0) of an empty vector. *)
Lemma tridiag_empty_ub (a b c d : vec R) :
  vlen c = 0%Z -> tridiag_solver a b c d = UB "vector index".
Proof. intros H. unfold tridiag_solver. rewrite vget_ub by lia. reflexivity. Qed.

(* ---------- diagonal dominance ---------- *)

(* Row i is weakly diagonally dominant up to the tolerance. *)
Definition row_dominant (m : mat R) (i : Z) : Prop :=
  rsum 0 (mrows m) (fun j => if (j =? i)%Z then 0 else Rabs (mat_at m i j)) + Rabs (mat_at m i i) - mat_at m i i
   <= mat_at m i i + tolR.

Lemma diagdom_wp (m : mat R) :
  (0 <= mrows m)%Z -> mrows m = mcols m ->
  wp (diagonalDominanceCheck m) (fun c =>
     (c = 0%Z /\ forall i, (0 <= i < mrows m)%Z -> row_dominant m i) \/
     (c = 1%Z /\ exists i, (0 <= i < mrows m)%Z /\ ~ row_dominant m i)).
Proof.
  intros Hn Hsq. unfold diagonalDominanceCheck. set (n := mrows m) in *.
  apply wp_bind.
  eapply zfor_wp' with (I := fun k (rs : vec R) => vlen rs = n /\
     forall i, (0 <= i < n)%Z -> vat rs i = if (i <? k)%Z then rsum 0 n (fun j => Rabs (mat_at m i j)) else 0).
  - lia.
  - split; [reflexivity|]. intros i Hi. destruct (Z.ltb_spec i 0); [lia|reflexivity].
  - intros k rs Hk [Hl Hv].
    eapply zfor_wp' with (I := fun j (r : vec R) => vlen r = n /\
       forall i, (0 <= i < n)%Z -> vat r i =
         if (i =? k)%Z then rsum 0 j (fun j => Rabs (mat_at m i j)) else vat rs i).
    + lia.
    + split; auto. intros i Hi. destruct (Z.eqb_spec i k); auto.
      subst. rewrite Hv by lia. destruct (Z.ltb_spec k k); [lia|]. rewrite rsum_empty by lia. reflexivity.
    + intros j r Hj [Hlr Hr].
      rewrite mget_ok by (fold n; lia). cbn [bind]. unfold vadd_at.
      rewrite (vget_ok r k) by lia. cbn [bind].
      rewrite vset_ok by lia. cbn [wp vlen vat]. split; auto.
      intros i Hi. rnum. destruct (Z.eqb_spec i k) as [E|E].
      * subst i. rewrite Hr by lia. rewrite Z.eqb_refl. rewrite rsum_last by lia. reflexivity.
      * rewrite Hr by lia. destruct (Z.eqb_spec i k); [lia|reflexivity].
    + intros r [Hlr Hr]. split; auto. intros i Hi. rewrite Hr by lia.
      destruct (Z.eqb_spec i k) as [E|E].
      * subst. destruct (Z.ltb_spec k (k + 1)); [reflexivity|lia].
      * rewrite Hv by lia. destruct (Z.ltb_spec i k), (Z.ltb_spec i (k + 1)); auto; lia.
  - intros rs [Hl Hv].
    assert (Hrow : forall i, (0 <= i < n)%Z ->
       (is_lower (mat_at m i i) (vat rs i - mat_at m i i) = true <-> ~ row_dominant m i)).
    { intros i Hi. rewrite is_lower_R. rewrite Hv by lia. destruct (Z.ltb_spec i n); [|lia].
      unfold row_dominant. fold n. rewrite (rsum_extract 0 n _ i) by lia.
      split; intros; lra. }
    apply wp_bind.
    eapply zfor_wp' with (I := fun k st =>
       (st = (false, 0%Z) /\ forall i, (0 <= i < k)%Z -> row_dominant m i) \/
       (st = (true, 1%Z) /\ exists i, (0 <= i < n)%Z /\ ~ row_dominant m i)).
    + lia.
    + left. split; auto. intros; lia.
    + intros k st Hk Hst.
      rewrite mget_ok by (fold n; lia). cbn [bind].
      rewrite (vget_ok rs k) by lia. cbn [bind].
      pose proof (Hrow k ltac:(lia)) as Hk'. rnum.
      destruct Hst as [[-> Hall]|[-> Hex]].
      * cbn [fst snd negb]. rewrite andb_true_r.
        destruct (is_lower (mat_at m k k) (vat rs k - mat_at m k k)) eqn:E; simpl.
        -- right. split; auto. exists k. split; [lia|]. apply Hk'; auto.
        -- left. split; auto. intros i Hi. destruct (Z.eq_dec i k) as [->|Hne]; [|apply Hall; lia].
           unfold row_dominant. apply Rnot_lt_le. intros Hlt.
           assert (~ row_dominant m k) by (unfold row_dominant; lra).
           apply Hk' in H. congruence.
      * cbn [fst snd negb]. rewrite andb_false_r. simpl. right. auto.
    + intros st [[-> Hall]|[-> Hex]]; simpl.
      * left. split; auto.
      * right. split; auto.
Qed.

Lemma diagdom_spec (m : mat R) :
  (0 <= mrows m)%Z -> mrows m = mcols m ->
  (forall i, (0 <= i < mrows m)%Z -> 0 <= mat_at m i i) ->
  exists c, diagonalDominanceCheck m = Ok c /\
    (c = 0%Z \/ c = 1%Z) /\
    (c = 1%Z <-> exists i, (0 <= i < mrows m)%Z /\
       mat_at m i i + tolR <
       rsum 0 (mrows m) (fun j => if (j =? i)%Z then 0 else Rabs (mat_at m i j))).
Proof.
  intros Hn Hsq Hd. destruct (wp_ok _ _ (diagdom_wp m Hn Hsq)) as [c [Hc H]].
  exists c. split; auto. split; [destruct H as [[-> _]|[-> _]]; auto|].
  destruct H as [[-> Hall]|[-> [i [Hi Hbad]]]].
  - split; [discriminate|]. intros [i [Hi Hlt]]. exfalso.
    pose proof (Hall i Hi) as Hr. unfold row_dominant in Hr.
    rewrite (Rabs_pos_eq (mat_at m i i)) in Hr by (apply Hd; auto). lra.
  - split; auto. intros _. exists i. split; auto.
    unfold row_dominant in Hbad. rewrite (Rabs_pos_eq (mat_at m i i)) in Hbad by (apply Hd; auto). lra.
Qed.

Lemma diagdom_negative (m : mat R) :
  (0 <= mrows m)%Z -> mrows m = mcols m ->
  (exists i, (0 <= i < mrows m)%Z /\ mat_at m i i < - tolR) ->
  diagonalDominanceCheck m = Ok 1%Z.
Proof.
  intros Hn Hsq [i [Hi Hneg]]. destruct (wp_ok _ _ (diagdom_wp m Hn Hsq)) as [c [Hc H]].
  rewrite Hc. destruct H as [[-> Hall]|[-> _]]; auto. exfalso.
  pose proof (Hall i Hi) as Hr. unfold row_dominant in Hr.
  pose proof tolR_pos.
  rewrite (Rabs_left (mat_at m i i)) in Hr by lra.
  assert (0 <= rsum 0 (mrows m) (fun j => if (j =? i)%Z then 0 else Rabs (mat_at m i j))).
  { apply rsum_nonneg. intros k _. destruct (k =? i)%Z; [lra|apply Rabs_pos]. }
  lra.
Qed.

Lemma diagdom_example :
  let m := mkmat 2 2 (fun i j => if (i =? j)%Z then 2 else -1) in
  (0 <= mrows m)%Z /\ mrows m = mcols m /\ forall i, (0 <= i < mrows m)%Z -> 0 <= mat_at m i i.
Proof. cbn. split; [lia|]. split; auto. intros i _. rewrite Z.eqb_refl. lra. Qed.

Lemma poisson_pivots k :
  (k < 3)%nat -> pivot (fun _ => -1) (fun _ => 2) (fun _ => -1) k <> 0.
Proof. destruct k as [|[|[|k]]]; intros H; try lia; cbn [pivot]; lra. Qed.
