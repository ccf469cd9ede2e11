(* Proofs about ModelNumTools.v. *)
From Coq Require Import String ZArith List Bool Lia Reals Lra.
From Verif Require Import Base BaseLemmas NumR ModelNumTools.
Import ListNotations.
Local Open Scope Z_scope.

(* ---------- vector operators, for every Num ---------- *)
Section Vec.
Context {T : Type} {N : Num T}.

Lemma map2_length (f : T -> T -> T) a b :
  length a = length b -> length (map2 f a b) = length a.
Proof. revert b; induction a; intros [|y b] H; simpl in *; try lia; auto. Qed.

Lemma map2_nth (f : T -> T -> T) a b i d :
  length a = length b -> (i < length a)%nat ->
  nth i (map2 f a b) d = f (nth i a d) (nth i b d).
Proof.
  revert b i; induction a as [|x a IH]; intros [|y b] [|i] H Hi; simpl in *; try lia; auto.
  apply IH; lia.
Qed.

(* A loop rewriting every element from its old value. *)
Lemma map_in_place (g : Z -> T -> T) (body : Z -> list T -> res (list T)) (a0 : list T) (d : T) :
  (forall i l, 0 <= i < zlen a0 -> length l = length a0 ->
     body i l = lset l i (g i (nth (Z.to_nat i) l d))) ->
  wp (zfor 0 (zlen a0) body a0)
     (fun l => length l = length a0 /\
        forall i, (i < length a0)%nat -> nth i l d = g (Z.of_nat i) (nth i a0 d)).
Proof.
  intros Hb.
  eapply zfor_wp' with (I := fun k l => length l = length a0 /\
     forall i, (i < length a0)%nat ->
        nth i l d = if (Z.of_nat i <? k)%Z then g (Z.of_nat i) (nth i a0 d) else nth i a0 d).
  - apply zlen_nonneg.
  - split; [reflexivity|]. intros i Hi. destruct (Z.ltb_spec (Z.of_nat i) 0); [lia|reflexivity].
  - intros k l Hk [Hl Hn]. rewrite Hb by auto.
    unfold zlen in Hk.
    rewrite lset_ok by (unfold zlen; lia). simpl. split.
    + rewrite list_upd_length; auto.
    + intros i Hi. rewrite nth_list_upd by lia.
      destruct (Nat.eqb_spec i (Z.to_nat k)) as [E|E].
      * subst i. rewrite Z2Nat.id by lia.
        destruct (Z.ltb_spec k (k + 1)); [|lia].
        rewrite Hn by lia. rewrite Z2Nat.id by lia.
        destruct (Z.ltb_spec k k); [lia|reflexivity].
      * rewrite Hn by lia.
        destruct (Z.ltb_spec (Z.of_nat i) k), (Z.ltb_spec (Z.of_nat i) (k + 1)); auto; lia.
  - intros l [Hl Hn]. split; auto. intros i Hi. rewrite Hn by auto.
    destruct (Z.ltb_spec (Z.of_nat i) (zlen a0)); auto. unfold zlen in *; lia.
Qed.

Lemma list_eq_nth (l1 l2 : list T) (d : T) :
  length l1 = length l2 -> (forall i, (i < length l1)%nat -> nth i l1 d = nth i l2 d) -> l1 = l2.
Proof. intros; eapply nth_ext; eauto. Qed.

Lemma zlen_eqb (a b : list T) : negb (zlen a =? zlen b) = false <-> length a = length b.
Proof. unfold zlen. rewrite negb_false_iff, Z.eqb_eq. lia. Qed.

Lemma zlen_neqb (a b : list T) : negb (zlen a =? zlen b) = true <-> length a <> length b.
Proof. unfold zlen. rewrite negb_true_iff, Z.eqb_neq. lia. Qed.

(* Elementwise application, stated by positions. *)
Definition elementwise2 (f : T -> T -> T) (a b r : list T) : Prop :=
  length r = length a /\
  forall i x y, nth_error a i = Some x -> nth_error b i = Some y ->
     nth_error r i = Some (f x y).
Definition elementwise1 (f : T -> T) (a r : list T) : Prop :=
  length r = length a /\
  forall i x, nth_error a i = Some x -> nth_error r i = Some (f x).

Lemma map2_elementwise f a b : length a = length b -> elementwise2 f a b (map2 f a b).
Proof.
  intros H; split; [apply map2_length; auto|].
  revert b H; induction a as [|x a IH]; intros [|y b] H [|i] u v Hu Hv; simpl in *; try discriminate; try congruence.
  eapply IH; eauto.
Qed.

Lemma map_elementwise f a : elementwise1 f a (map f a).
Proof.
  split; [apply map_length|]. intros i x H. rewrite nth_error_map, H. reflexivity.
Qed.

Lemma in_place2 (f : T -> T -> T) a b :
  length a = length b ->
  zfor 0 (zlen a) (fun i l => x <- lget l i ;; y <- lget b i ;; lset l i (f x y)) a = Ok (map2 f a b).
Proof.
  intros H. destruct a as [|x0 a'].
  - destruct b; [reflexivity|discriminate].
  - set (a := x0 :: a') in *. 
    assert (W := map_in_place (fun i x => f x (nth (Z.to_nat i) b x0))
       (fun i l => x <- lget l i ;; y <- lget b i ;; lset l i (f x y)) a x0).
    cbv beta in W.
    apply wp_ok in W.
    + destruct W as [l [-> [Hl Hn]]]. f_equal.
      apply (list_eq_nth _ _ x0).
      * rewrite map2_length by auto. auto.
      * intros i Hi. rewrite Hn by lia. rewrite map2_nth by (auto; lia).
        rewrite Nat2Z.id. reflexivity.
    + intros i l Hi Hl. unfold zlen in Hi.
      rewrite (lget_ok l i x0) by (unfold zlen; lia). cbn [bind].
      rewrite (lget_ok b i x0) by (unfold zlen; lia). reflexivity.
Qed.

Lemma in_place1 (f : T -> T) a :
  zfor 0 (zlen a) (fun i l => x <- lget l i ;; lset l i (f x)) a = Ok (map f a).
Proof.
  destruct a as [|x0 a']; [reflexivity|].
  set (a := x0 :: a') in *.
  assert (W := map_in_place (fun i x => f x) (fun i l => x <- lget l i ;; lset l i (f x)) a x0).
  cbv beta in W. apply wp_ok in W.
  - destruct W as [l [-> [Hl Hn]]]. f_equal. apply (list_eq_nth _ _ (f x0)).
    + rewrite map_length; auto.
    + intros i Hi. rewrite map_nth. rewrite <- Hn by lia. apply nth_indep; lia.
  - intros i l Hi Hl. unfold zlen in Hi.
    rewrite (lget_ok l i x0) by (unfold zlen; lia). reflexivity.
Qed.

Lemma vplus_spec a b :
  (length a = length b -> exists r, vplus a b = Ok r /\ elementwise2 nadd a b r /\ vplus_eq a b = Ok r) /\
  (length a <> length b ->
     vplus a b = Throw "vectors have different lengths" /\
     vplus_eq a b = Throw "vectors have different lengths").
Proof.
  split; intros H.
  - exists (map2 nadd a b). unfold vplus, vplus_eq. rewrite (proj2 (zlen_eqb a b) H).
    split; [reflexivity|]. split; [apply map2_elementwise; auto|]. apply in_place2; auto.
  - unfold vplus, vplus_eq. rewrite (proj2 (zlen_neqb a b) H). auto.
Qed.

Lemma vminus_spec a b :
  (length a = length b -> exists r, vminus a b = Ok r /\ elementwise2 nsub a b r /\ vminus_eq a b = Ok r) /\
  (length a <> length b ->
     vminus a b = Throw "vectors have different lengths" /\
     vminus_eq a b = Throw "vectors have different lengths").
Proof.
  split; intros H.
  - exists (map2 nsub a b). unfold vminus, vminus_eq. rewrite (proj2 (zlen_eqb a b) H).
    split; [reflexivity|]. split; [apply map2_elementwise; auto|]. apply in_place2; auto.
  - unfold vminus, vminus_eq. rewrite (proj2 (zlen_neqb a b) H). auto.
Qed.

Lemma vmults_spec a m :
  elementwise1 (fun x => x [*] m) a (vmults a m) /\ vmults_eq a m = Ok (vmults a m).
Proof.
  split; [apply map_elementwise|]. unfold vmults_eq, vmults.
  exact (in_place1 (fun x => x [*] m) a).
Qed.

Lemma vdivides_spec a d :
  (is_equal d n0 = true ->
     vdivides a d = Throw "division by zero" /\ vdivides_eq a d = Throw "division by zero") /\
  (is_equal d n0 = false ->
     exists r, vdivides a d = Ok r /\ elementwise1 (fun x => x [/] d) a r /\ vdivides_eq a d = Ok r).
Proof.
  unfold vdivides, vdivides_eq. split; intros ->; [auto|].
  eexists; split; [reflexivity|]. split; [apply map_elementwise|].
  exact (in_place1 (fun x => x [/] d) a).
Qed.

(* slice *)
Lemma slice_spec (v : list T) m n :
  (0 <= m /\ m <= n + 1 /\ n + 1 <= zlen v ->
     exists r, slice v m n = Ok r /\ zlen r = n + 1 - m /\
        forall i, 0 <= i < n + 1 - m -> nth_error r (Z.to_nat i) = nth_error v (Z.to_nat (m + i))) /\
  (~ (0 <= m /\ m <= n + 1 /\ n + 1 <= zlen v) -> slice v m n = UB "iterator range").
Proof.
  unfold slice. split.
  - intros (H1 & H2 & H3).
    destruct (Z.leb_spec 0 m); [|lia]. destruct (Z.leb_spec m (n + 1)); [|lia].
    destruct (Z.leb_spec (n + 1) (zlen v)); [|lia]. simpl.
    eexists; split; [reflexivity|]. unfold zlen in *. split.
    + rewrite firstn_length, skipn_length. lia.
    + intros i Hi.
      assert (Hfn : forall (l : list T) k j, (j < k)%nat -> nth_error (firstn k l) j = nth_error l j).
      { induction l as [|y l IHl]; intros [|k] [|j] Hj; simpl; try lia; auto. apply IHl; lia. }
      assert (Hsk : forall (l : list T) k j, nth_error (skipn k l) j = nth_error l (k + j)).
      { induction l as [|y l IHl]; intros [|k] j; simpl; auto. destruct j; reflexivity. }
      rewrite Hfn by lia. rewrite Hsk. f_equal. lia.
  - intros H.
    destruct (Z.leb_spec 0 m); simpl; auto. destruct (Z.leb_spec m (n + 1)); simpl; auto.
    destruct (Z.leb_spec (n + 1) (zlen v)); auto. lia.
Qed.
End Vec.

(* ---------- tolerant comparisons over R ---------- *)
Local Open Scope R_scope.

Definition tolR : R := 10 / 2 ^ 52.
Lemma eps10_R : (eps10 : R) = tolR.
Proof. unfold eps10, tolR. rnum. lra. Qed.
Lemma tolR_pos : 0 < tolR.
Proof. unfold tolR. lra. Qed.

Lemma is_equal_R x y : is_equal x y = true <-> Rabs (x - y) < tolR.
Proof. unfold is_equal. rewrite eps10_R. rnum. apply Rltb_true. Qed.
Lemma is_greater_R x y : is_greater x y = true <-> y + tolR < x.
Proof. unfold is_greater. rewrite eps10_R. rnum. apply Rltb_true. Qed.
Lemma is_lower_R x y : is_lower x y = true <-> x < y - tolR.
Proof. unfold is_lower. rewrite eps10_R. rnum. apply Rltb_true. Qed.
Lemma is_lower_equal_R x y : is_lower_equal x y = true <-> x < y + tolR.
Proof. unfold is_lower_equal. rewrite eps10_R. rnum. apply Rltb_true. Qed.
Lemma is_greater_equal_R x y : is_greater_equal x y = true <-> y - tolR < x.
Proof. unfold is_greater_equal. rewrite eps10_R. rnum. apply Rltb_true. Qed.

Lemma cmp_trichotomy (x y : R) :
  (is_equal x y = true -> is_greater x y = false /\ is_lower x y = false) /\
  (is_greater x y = true -> is_equal x y = false /\ is_lower x y = false) /\
  (is_lower x y = true -> is_equal x y = false /\ is_greater x y = false) /\
  (Rabs (x - y) <> tolR -> is_equal x y = true \/ is_greater x y = true \/ is_lower x y = true).
Proof.
  pose proof tolR_pos.
  assert (NT : forall b, b <> true -> b = false) by (intros []; auto; congruence).
  refine (conj _ (conj _ (conj _ _))); intros H0; [split|split|split|];
    try (apply NT; intros H1);
    rewrite ?is_equal_R, ?is_greater_R, ?is_lower_R in *;
    unfold Rabs in *; destruct (Rcase_abs (x - y)); try lra.
Qed.

Lemma cmp_swap (x y : R) :
  is_equal x y = is_equal y x /\ is_greater x y = is_lower y x /\
  is_greater_equal x y = is_lower_equal y x.
Proof.
  assert (B : forall a b : bool, (a = true <-> b = true) -> a = b).
  { intros [] [] H; auto; destruct H as [H1 H2]; try (symmetry; auto; fail); auto. }
  split; [|split]; apply B; rewrite ?is_equal_R, ?is_greater_R, ?is_lower_R, ?is_greater_equal_R, ?is_lower_equal_R.
  - rewrite (Rabs_minus_sym x y). tauto.
  - lra.
  - lra.
Qed.

Lemma cmp_refl (x : R) :
  is_equal x x = true /\ is_greater_equal x x = true /\ is_lower_equal x x = true /\
  is_greater x x = false /\ is_lower x x = false.
Proof.
  pose proof tolR_pos.
  assert (NT : forall b, b <> true -> b = false) by (intros []; auto; congruence).
  repeat split; try (apply NT; intro H1);
   rewrite ?is_equal_R, ?is_greater_R, ?is_lower_R, ?is_greater_equal_R, ?is_lower_equal_R in *; try lra.
  replace (x - x) with 0 by lra. rewrite Rabs_R0. lra.
Qed.

Lemma cmp_mono (x x' y y' : R) :
  x <= x' -> y' <= y -> is_greater x y = true -> is_greater x' y' = true.
Proof. rewrite !is_greater_R. lra. Qed.

Lemma cmp_nonstrict (x y : R) :
  is_greater_equal x y = true <-> (is_equal x y = true \/ is_greater x y = true \/ x - y = tolR).
Proof.
  pose proof tolR_pos.
  rewrite is_greater_equal_R, is_equal_R, is_greater_R.
  unfold Rabs. destruct (Rcase_abs (x - y)); split; intros; try lra.
Qed.

(* ---------- polynomials over R ---------- *)

(* Value of the coefficient list c0 c1 c2 ... at x, by Horner's rule: the
   specification, independent of the loops of the model. *)
Fixpoint peval (p : list R) (x : R) : R :=
  match p with [] => 0 | c :: p' => c + x * peval p' x end.

Lemma peval_sum p x : peval p x = rsum 0 (zlen p) (fun i => nth (Z.to_nat i) p 0 * x ^ (Z.to_nat i)).
Proof.
  induction p as [|c p IH].
  - reflexivity.
  - cbn [peval]. rewrite IH, zlen_cons.
    rewrite (rsum_first 0 (1 + zlen p)) by (pose proof (zlen_nonneg p); lia).
    replace (nth (Z.to_nat 0) (c :: p) 0 * x ^ Z.to_nat 0) with c by (simpl; lra).
    f_equal. rewrite <- rsum_scal.
    replace (1 + zlen p)%Z with (zlen p + 1)%Z by lia.
    rewrite <- (rsum_shift 0 (zlen p) 1).
    apply rsum_ext. intros k Hk.
    replace (Z.to_nat (k + 1)) with (S (Z.to_nat k)) by lia. simpl. ring.
Qed.

Lemma peval_app p q x : peval (p ++ q) x = peval p x + x ^ length p * peval q x.
Proof. induction p as [|c p IH]; simpl; [ring|]. rewrite IH. ring. Qed.

Lemma list_upd_peval l n v x :
  (n < length l)%nat -> peval (list_upd l n v) x = peval l x + (v - nth n l 0) * x ^ n.
Proof.
  revert n; induction l as [|c l IH]; intros [|n] H; simpl in *; try lia; [ring|].
  rewrite IH by lia. ring.
Qed.

Lemma peval_repeat0 n x : peval (repeat 0 n) x = 0.
Proof. induction n; simpl; [reflexivity|]. rewrite IHn. ring. Qed.

Lemma multiply_poly_wp (a b : list R) :
  (1 <= length a + length b)%nat ->
  wp (multiply_poly a b) (fun r =>
     length r = (length a + length b - 1)%nat /\
     forall x, peval r x = peval a x * peval b x).
Proof.
  intros Hne. unfold multiply_poly.
  assert (Za : zlen a = Z.of_nat (length a)) by reflexivity.
  assert (Zb : zlen b = Z.of_nat (length b)) by reflexivity.
  destruct (Z.eqb_spec (zlen a + zlen b) 0); [lia|].
  set (L := (length a + length b - 1)%nat).
  eapply zfor_wp' with (I := fun i (r : list R) => length r = L /\
     forall x, peval r x = rsum 0 i (fun i => nth (Z.to_nat i) a 0 * x ^ (Z.to_nat i)) * peval b x).
  - apply zlen_nonneg.
  - split.
    + rewrite repeat_length. lia.
    + intros x. rnum. rewrite peval_repeat0. rewrite rsum_empty by lia. ring.
  - intros i r Hi [Hl Hv].
    eapply zfor_wp' with (I := fun j (s : list R) => length s = L /\
      forall x, peval s x = peval r x +
         nth (Z.to_nat i) a 0 * x ^ (Z.to_nat i) *
         rsum 0 j (fun j => nth (Z.to_nat j) b 0 * x ^ (Z.to_nat j))).
    + apply zlen_nonneg.
    + split; auto. intros x. rewrite (rsum_empty 0 0) by lia. ring.
    + intros j s Hj [Hsl Hsv].
      rewrite (lget_ok a i 0) by lia. cbn [bind].
      rewrite (lget_ok b j 0) by lia. cbn [bind].
      rewrite (lget_ok s (i + j) 0) by (unfold zlen; lia). cbn [bind].
      rewrite lset_ok by (unfold zlen; lia). simpl. split.
      * rewrite list_upd_length. auto.
      * intros x. rewrite list_upd_peval by lia. rewrite Hsv. rewrite rsum_last by lia.
        replace (Z.to_nat (i + j)) with (Z.to_nat i + Z.to_nat j)%nat by lia.
        rewrite pow_add. ring.
    + intros s [Hsl Hsv]. split; auto. intros x. rewrite Hsv, Hv.
      rewrite rsum_last by lia. rewrite (peval_sum b x). ring.
  - intros r [Hl Hv]. split; auto. intros x. rewrite Hv. rewrite (peval_sum a x). reflexivity.
Qed.

Lemma multiply_poly_spec (a b : list R) :
  a <> [] -> b <> [] ->
  exists r, multiply_poly a b = Ok r /\
     length r = (length a + length b - 1)%nat /\
     forall x, peval r x = peval a x * peval b x.
Proof.
  intros Ha Hb. destruct (wp_ok _ _ (multiply_poly_wp a b ltac:(destruct a; [congruence|simpl; lia]))) as [r [-> Hr]].
  eauto.
Qed.

(* Product of (c + x) over a list. *)
Fixpoint linprod (l : list R) (x : R) : R :=
  match l with [] => 1 | c :: l' => (c + x) * linprod l' x end.

Lemma linprod_app l1 l2 x : linprod (l1 ++ l2) x = linprod l1 x * linprod l2 x.
Proof. induction l1; simpl; [ring|]. rewrite IHl1. ring. Qed.

Lemma linprod_zero l x : linprod l x = 0 <-> In (- x) l.
Proof.
  induction l as [|c l IH]; simpl.
  - split; [intros; lra|tauto].
  - split.
    + intros H. apply Rmult_integral in H as [H|H]; [left; lra|right; apply IH; auto].
    + intros [H|H]; [subst; ring|]. apply IH in H. rewrite H. ring.
Qed.

Definition last_coeff (l : list R) : R := last l 0.

Lemma last_nth (l : list R) : last l 0 = nth (length l - 1) l 0.
Proof.
  induction l as [|x l IH]; [reflexivity|].
  destruct l as [|y l']; [reflexivity|].
  change (last (x :: y :: l') 0) with (last (y :: l') 0). rewrite IH. simpl.
  rewrite Nat.sub_0_r. reflexivity.
Qed.

(* Leading coefficient from values: two lists of equal length with the same
   values have the same coefficients. *)
Lemma peval_zero_coeffs (p : list R) :
  (forall x, peval p x = 0) -> Forall (fun c => c = 0) p.
Proof.
  (* by continuity at 0: c0 = peval p 0, then divide by x *)
  assert (G : forall p, (forall x, x <> 0 -> peval p x = 0) -> Forall (fun c => c = 0) p).
  { clear p. induction p as [|c p IH]; intros H; [constructor|].
    assert (Hcont : forall p, continuity (peval p)).
    { clear. induction p as [|c p IH]; simpl.
      - apply continuity_const. intros ? ?; reflexivity.
      - apply continuity_plus; [apply continuity_const; intros ? ?; reflexivity|].
        apply continuity_mult; [apply derivable_continuous, derivable_id|exact IH]. }
    assert (Hc : c = 0).
    { destruct (Req_dec c 0) as [|Hc]; auto. exfalso.
      assert (P0 : peval (c :: p) 0 = c) by (simpl; ring).
      pose proof (Hcont (c :: p) 0) as Hlim.
      unfold continuity_pt, continue_in, limit1_in, limit_in in Hlim.
      destruct (Hlim (Rabs c)) as [d [Hd Hx]]; [apply Rabs_pos_lt; auto|].
      specialize (Hx (d / 2)).
      simpl in Hx. unfold R_dist in Hx.
      assert (Hz : c + d / 2 * peval p (d / 2) = 0) by (apply (H (d / 2)); lra).
      rewrite Hz in Hx. 
      replace (0 - (c + 0 * peval p 0)) with (- c) in Hx by ring.
      rewrite Rabs_Ropp in Hx.
      apply (Rlt_irrefl (Rabs c)). apply Hx. split.
      - unfold D_x, no_cond. split; auto. lra.
      - rewrite Rminus_0_r. rewrite Rabs_pos_eq; lra. }
    constructor; auto. apply IH. intros x Hx.
    specialize (H x Hx). simpl in H. rewrite Hc in H.
    apply (Rmult_eq_reg_l x); auto. lra. }
  intros H. apply G. auto.
Qed.

Lemma list_sub_peval p q x :
  length p = length q -> peval (map2 Rminus p q) x = peval p x - peval q x.
Proof.
  revert q; induction p as [|a p IH]; intros [|b q] H; simpl in *; try lia; [ring|].
  rewrite IH by lia. ring.
Qed.

Lemma peval_ext (p q : list R) :
  length p = length q -> (forall x, peval p x = peval q x) -> p = q.
Proof.
  intros Hl He.
  assert (Hz : Forall (fun c => c = 0) (map2 Rminus p q)).
  { apply peval_zero_coeffs. intros x. rewrite list_sub_peval by auto. rewrite He. ring. }
  clear He. revert q Hl Hz. induction p as [|a p IH]; intros [|b q] Hl Hz; simpl in *; try lia; auto.
  inversion Hz; subst. f_equal; [lra|apply IH; auto].
Qed.

(* prod_poly *)
Lemma foreach_prod (l : list R) : forall acc, acc <> [] ->
  wp (foreach l (fun a_i result => multiply_poly result [a_i; n1]) acc)
     (fun r => length r = (length acc + length l)%nat /\
        forall x, peval r x = peval acc x * linprod l x).
Proof.
  induction l as [|c l IH]; intros acc Hacc; simpl foreach.
  - simpl. split; [lia|]. intros; ring.
  - apply wp_bind. eapply wp_mono; [apply multiply_poly_wp; simpl; lia|].
    cbv beta. intros r [Hl Hv]. simpl in Hl.
    eapply wp_mono; [apply IH; destruct r; [simpl in Hl; destruct acc; [congruence|simpl in Hl; lia]|discriminate]|].
    cbv beta. intros r' [Hl' Hv']. split.
    + destruct acc; [congruence|simpl in *; lia].
    + intros x. rewrite Hv', Hv. simpl. rnum. ring.
Qed.

Lemma prod_poly_wp (l : list R) :
  wp (prod_poly l) (fun r => length r = S (length l) /\ forall x, peval r x = linprod l x).
Proof.
  unfold prod_poly. eapply wp_mono; [apply foreach_prod; discriminate|].
  cbv beta. intros r [Hl Hv]. split; auto. intros x. rewrite Hv. simpl. rnum. ring.
Qed.

(* Coefficient-level specification of the product, to get monicity. *)
Fixpoint linprod_coeffs (l : list R) : list R :=
  match l with
  | [] => [1]
  | c :: l' => let p := linprod_coeffs l' in
               map2 Rplus (map (Rmult c) p ++ [0]) (0 :: p)
  end.

Lemma linprod_coeffs_length l : length (linprod_coeffs l) = S (length l).
Proof.
  induction l as [|c l IH]; auto. cbn [linprod_coeffs]. cbv zeta.
  rewrite map2_length; rewrite app_length, map_length, IH; simpl; try lia.
Qed.

Lemma map2_plus_peval p q x :
  length p = length q -> peval (map2 Rplus p q) x = peval p x + peval q x.
Proof.
  revert q; induction p as [|a p IH]; intros [|b q] H; simpl in *; try lia; [ring|].
  rewrite IH by lia. ring.
Qed.

Lemma map_scal_peval c p x : peval (map (Rmult c) p) x = c * peval p x.
Proof. induction p as [|a p IH]; simpl; [ring|]. rewrite IH; ring. Qed.

Lemma linprod_coeffs_peval l x : peval (linprod_coeffs l) x = linprod l x.
Proof.
  induction l as [|c l IH]; [simpl; ring|]. cbn [linprod_coeffs linprod]. cbv zeta.
  rewrite map2_plus_peval.
  - rewrite peval_app, map_scal_peval. simpl. rewrite IH. ring.
  - rewrite app_length, map_length. simpl. lia.
Qed.

Lemma linprod_coeffs_last l : last (linprod_coeffs l) 0 = 1.
Proof.
  induction l as [|c l IH]; [reflexivity|].
  cbn [linprod_coeffs]. cbv zeta. rewrite last_nth in *.
  pose proof (linprod_coeffs_length l) as HL.
  rewrite map2_length by (rewrite app_length, map_length; simpl; lia).
  rewrite app_length, map_length. simpl length. rewrite HL in *.
  rewrite map2_nth by (rewrite ?app_length, ?map_length; simpl; lia).
  rewrite app_nth2 by (rewrite map_length; lia).
  rewrite map_length, HL.
  replace (S (length l) + 1 - 1 - S (length l))%nat with 0%nat by lia.
  replace (S (length l) + 1 - 1)%nat with (S (S (length l) - 1)) by lia.
  cbn [nth]. rewrite IH. ring.
Qed.

Lemma prod_poly_spec (l : list R) :
  exists r, prod_poly l = Ok r /\
    length r = S (length l) /\ last r 0 = 1 /\
    (forall x, peval r x = linprod l x) /\
    (forall x, peval r x = 0 <-> In (- x) l).
Proof.
  destruct (wp_ok _ _ (prod_poly_wp l)) as [r [Hr [Hl Hv]]].
  exists r. split; auto. split; auto. split.
  - rewrite (peval_ext r (linprod_coeffs l)).
    + apply linprod_coeffs_last.
    + rewrite linprod_coeffs_length; auto.
    + intros; rewrite Hv, linprod_coeffs_peval; auto.
  - split; auto. intros x. rewrite Hv. apply linprod_zero.
Qed.

(* The list without its i-th element. *)
Definition remove_nth (i : nat) (l : list R) : list R := firstn i l ++ skipn (S i) l.

Lemma firstn_snoc (l : list R) n d : (n < length l)%nat -> firstn (S n) l = firstn n l ++ [nth n l d].
Proof.
  revert n; induction l as [|x l IH]; intros [|n] H; simpl in *; try lia; auto.
  f_equal. apply IH; lia.
Qed.

(* The prefix of l of length k without position i. *)
Definition remove_upto (i k : nat) (l : list R) : list R :=
  if Nat.ltb i k then firstn i l ++ firstn (k - S i) (skipn (S i) l) else firstn k l.

Lemma remove_upto_step i k l :
  (k < length l)%nat ->
  remove_upto i (S k) l = if Nat.eqb k i then remove_upto i k l else remove_upto i k l ++ [nth k l 0].
Proof.
  intros Hk. unfold remove_upto.
  destruct (Nat.eqb_spec k i) as [E|E].
  - subst. destruct (Nat.ltb_spec i (S i)); [|lia]. destruct (Nat.ltb_spec i i); [lia|].
    rewrite Nat.sub_diag. simpl. rewrite app_nil_r. reflexivity.
  - destruct (Nat.ltb_spec i (S k)), (Nat.ltb_spec i k); try lia.
    + rewrite <- app_assoc. f_equal.
      replace (S k - S i)%nat with (S (k - S i)) by lia.
      rewrite (firstn_snoc _ _ 0) by (rewrite skipn_length; lia).
      f_equal. f_equal. rewrite <- (firstn_skipn (S i) l) at 2.
      rewrite app_nth2; rewrite firstn_length; [|lia]. f_equal. lia.
    + apply firstn_snoc; lia.
Qed.

Lemma prod_poly_i_wp (l : list R) (i : Z) :
  wp (prod_poly_i l i) (fun r =>
     (forall x, peval r x = linprod (if (0 <=? i)%Z then remove_upto (Z.to_nat i) (length l) l else l) x) /\
     length r = S (if ((0 <=? i) && (i <? zlen l))%Z then length l - 1 else length l)%nat).
Proof.
  unfold prod_poly_i.
  eapply zfor_wp' with (I := fun k r =>
     (forall x, peval r x = linprod (if (0 <=? i)%Z then remove_upto (Z.to_nat i) (Z.to_nat k) l else firstn (Z.to_nat k) l) x) /\
     length r = S (if ((0 <=? i) && (i <? k))%Z then Z.to_nat k - 1 else Z.to_nat k)%nat).
  - apply zlen_nonneg.
  - split.
    + intros x. rnum. unfold remove_upto.
      destruct (0 <=? i)%Z; simpl; ring.
    + destruct (Z.leb_spec 0 i), (Z.ltb_spec i 0); simpl; try lia.
  - intros k r Hk [Hv Hl]. unfold zlen in Hk.
    destruct (Z.eqb_spec k i) as [E|E].
    + subst i. simpl. split.
      * intros x. rewrite Hv. destruct (Z.leb_spec 0 k); [|lia].
        replace (Z.to_nat (k + 1)) with (S (Z.to_nat k)) by lia.
        rewrite remove_upto_step by lia. rewrite Nat.eqb_refl. reflexivity.
      * rewrite Hl. destruct (Z.leb_spec 0 k), (Z.ltb_spec k k), (Z.ltb_spec k (k + 1)); simpl; try lia.
    + rewrite (lget_ok l k 0) by (unfold zlen; lia). cbn [bind].
      eapply wp_mono; [apply multiply_poly_wp; simpl; lia|]. cbv beta.
      intros r' [Hl' Hv']. split.
      * intros x. rewrite Hv', Hv. 
        replace (Z.to_nat (k + 1)) with (S (Z.to_nat k)) by lia.
        destruct (Z.leb_spec 0 i).
        -- rewrite remove_upto_step by lia.
           destruct (Nat.eqb_spec (Z.to_nat k) (Z.to_nat i)); [lia|].
           rewrite linprod_app. simpl. rnum. ring.
        -- rewrite (firstn_snoc l _ 0) by lia. rewrite linprod_app. simpl. rnum. ring.
      * rewrite Hl', Hl. simpl length.
        destruct (Z.leb_spec 0 i), (Z.ltb_spec i k), (Z.ltb_spec i (k + 1)); simpl; lia.
  - intros r [Hv Hl]. split.
    + intros x. rewrite Hv. unfold zlen. rewrite Nat2Z.id. rewrite firstn_all. reflexivity.
    + rewrite Hl. unfold zlen. rewrite Nat2Z.id. reflexivity.
Qed.

Lemma remove_upto_all i l : (i < length l)%nat -> remove_upto i (length l) l = remove_nth i l.
Proof.
  intros H. unfold remove_upto, remove_nth. destruct (Nat.ltb_spec i (length l)); [|lia].
  f_equal. rewrite firstn_all2; auto. rewrite skipn_length. lia.
Qed.

Lemma prod_poly_i_spec (l : list R) (i : nat) :
  (i < length l)%nat ->
  exists r, prod_poly_i l (Z.of_nat i) = Ok r /\
     length r = length l /\
     forall x, peval r x = linprod (remove_nth i l) x.
Proof.
  intros Hi. destruct (wp_ok _ _ (prod_poly_i_wp l (Z.of_nat i))) as [r [Hr [Hv Hl]]].
  exists r. split; auto. unfold zlen in Hl.
  destruct (Z.leb_spec 0 (Z.of_nat i)); [|lia].
  destruct (Z.ltb_spec (Z.of_nat i) (Z.of_nat (length l))); [|lia]. simpl in Hl. split; [lia|].
  intros x. rewrite Hv. rewrite Nat2Z.id. rewrite remove_upto_all by auto. reflexivity.
Qed.

(* ---------- PolynomialFunction ---------- *)

Lemma npow_pow (x : R) n : npow x n = x ^ n.
Proof. induction n; simpl; rnum; [reflexivity|]. rewrite IHn. reflexivity. Qed.

Lemma poly_calc_spec (c : list R) x : poly_calc c x = Ok (peval c x).
Proof.
  unfold poly_calc.
  assert (W : wp (zfor 0 (zlen c) (fun i result => c0 <- lget c i ;; Ok (result [+] c0 [*] npow x (Z.to_nat i))) n0)
     (fun r => r = peval c x)).
  { eapply zfor_wp' with (I := fun i r => r = rsum 0 i (fun i => nth (Z.to_nat i) c 0 * x ^ (Z.to_nat i))).
    - apply zlen_nonneg.
    - rewrite rsum_empty by lia. reflexivity.
    - intros k r Hk ->. rewrite (lget_ok c k 0) by lia. simpl. rewrite npow_pow.
      rewrite rsum_last by lia. rnum. reflexivity.
    - intros r ->. symmetry. apply peval_sum. }
  apply wp_ok in W. destruct W as [r [Hr ->]]. exact Hr.
Qed.

Lemma poly_calc_base_spec round6 (c : list R) x base :
  (round6 (x - base) < - tolR -> poly_calc_base round6 c x base = Exit "x lower than base value") /\
  (- tolR <= round6 (x - base) -> poly_calc_base round6 c x base = Ok (peval c (round6 (x - base)))).
Proof.
  assert (E : poly_calc_base round6 c x base =
     if is_lower (round6 (x - base)) (0:R) then Exit "x lower than base value"
     else poly_calc c (round6 (x - base))) by reflexivity.
  rewrite E. split; intros H.
  - rewrite (proj2 (is_lower_R (round6 (x - base)) 0)); [reflexivity|lra].
  - destruct (is_lower (round6 (x - base)) 0) eqn:L.
    + apply is_lower_R in L. lra.
    + apply poly_calc_spec.
Qed.

Lemma poly_calc_additive (c c' : list R) x :
  length c = length c' ->
  exists s, vplus c c' = Ok s /\ poly_calc s x = Ok (peval c x + peval c' x).
Proof.
  intros H. exists (map2 Rplus c c'). unfold vplus. rewrite (proj2 (zlen_eqb c c') H).
  split; [reflexivity|]. rewrite poly_calc_spec. f_equal. apply map2_plus_peval. auto.
Qed.
