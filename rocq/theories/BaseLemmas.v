(* Reasoning principles for the vocabulary of Base.v. *)
From Coq Require Import String ZArith List Bool Lia.
From Verif Require Import Base.
Import ListNotations.
Local Open Scope Z_scope.

Lemma wp_ok {A} (m : res A) Q : wp m Q -> exists a, m = Ok a /\ Q a.
Proof. destruct m; simpl; intros H; try contradiction; eauto. Qed.

Lemma wp_intro {A} (m : res A) (Q : A -> Prop) a : m = Ok a -> Q a -> wp m Q.
Proof. intros ->; auto. Qed.

Lemma wp_bind {A B} (m : res A) (f : A -> res B) Q :
  wp m (fun a => wp (f a) Q) -> wp (bind m f) Q.
Proof. destruct m; simpl; auto. Qed.

Lemma wp_bind_inv {A B} (m : res A) (f : A -> res B) Q :
  wp (bind m f) Q -> wp m (fun a => wp (f a) Q).
Proof. destruct m; simpl; auto. Qed.

Lemma wp_mono {A} (m : res A) (P Q : A -> Prop) :
  wp m P -> (forall a, P a -> Q a) -> wp m Q.
Proof. destruct m; simpl; auto. Qed.

Lemma bind_ok_inv {A B} (m : res A) (f : A -> res B) b :
  bind m f = Ok b -> exists a, m = Ok a /\ f a = Ok b.
Proof. destruct m; simpl; intros H; try discriminate; eauto. Qed.

Lemma bind_assoc {A B C} (m : res A) (f : A -> res B) (g : B -> res C) :
  bind (bind m f) g = bind m (fun x => bind (f x) g).
Proof. destruct m; reflexivity. Qed.

(* ---------- loops ---------- *)

Lemma iter_up_wp {S} (I : Z -> S -> Prop) (body : Z -> S -> res S) :
  forall n i s,
    I i s ->
    (forall k s, i <= k < i + Z.of_nat n -> I k s -> wp (body k s) (I (k + 1))) ->
    wp (iter_up n i body s) (I (i + Z.of_nat n)).
Proof.
  induction n as [|n IH]; intros i s Hs Hb.
  - simpl. replace (i + 0) with i by lia. exact Hs.
  - cbn [iter_up]. apply wp_bind.
    eapply wp_mono; [apply Hb; [lia|exact Hs]|].
    intros s' Hs'. replace (i + Z.of_nat (Datatypes.S n)) with (i + 1 + Z.of_nat n) by lia.
    apply IH; [exact Hs'|]. intros k s0 Hk. apply Hb. lia.
Qed.

Lemma zfor_wp {S} (I : Z -> S -> Prop) (body : Z -> S -> res S) lo hi s :
  lo <= hi ->
  I lo s ->
  (forall k s, lo <= k < hi -> I k s -> wp (body k s) (I (k + 1))) ->
  wp (zfor lo hi body s) (I hi).
Proof.
  intros Hle H0 Hb. unfold zfor.
  replace hi with (lo + Z.of_nat (Z.to_nat (hi - lo))) at 2 by lia.
  apply iter_up_wp; [exact H0|]. intros k s0 Hk. apply Hb. lia.
Qed.

Lemma zfor_wp' {S} (I : Z -> S -> Prop) (Q : S -> Prop) (body : Z -> S -> res S) lo hi s :
  lo <= hi ->
  I lo s ->
  (forall k s, lo <= k < hi -> I k s -> wp (body k s) (I (k + 1))) ->
  (forall s, I hi s -> Q s) ->
  wp (zfor lo hi body s) Q.
Proof.
  intros; eapply wp_mono; [eapply zfor_wp; eauto | auto].
Qed.

Lemma zfor_empty {S} lo hi (body : Z -> S -> res S) s : hi <= lo -> zfor lo hi body s = Ok s.
Proof. intros H. unfold zfor. replace (Z.to_nat (hi - lo)) with O by lia. reflexivity. Qed.

Lemma zfor_step {S} lo hi (body : Z -> S -> res S) s :
  lo < hi -> zfor lo hi body s = bind (body lo s) (zfor (lo + 1) hi body).
Proof.
  intros H. unfold zfor.
  replace (Z.to_nat (hi - lo)) with (Datatypes.S (Z.to_nat (hi - (lo + 1)))) by lia.
  reflexivity.
Qed.

Lemma iter_down_wp {S} (I : Z -> S -> Prop) (body : Z -> S -> res S) :
  forall n i s,
    I i s ->
    (forall k s, i - Z.of_nat n < k <= i -> I k s -> wp (body k s) (I (k - 1))) ->
    wp (iter_down n i body s) (I (i - Z.of_nat n)).
Proof.
  induction n as [|n IH]; intros i s Hs Hb.
  - simpl. replace (i - 0) with i by lia. exact Hs.
  - cbn [iter_down]. apply wp_bind.
    eapply wp_mono; [apply Hb; [lia|exact Hs]|].
    intros s' Hs'. replace (i - Z.of_nat (Datatypes.S n)) with (i - 1 - Z.of_nat n) by lia.
    apply IH; [exact Hs'|]. intros k s0 Hk. apply Hb. lia.
Qed.

Lemma zfor_down_wp {S} (I : Z -> S -> Prop) (body : Z -> S -> res S) hi lo s :
  lo <= hi + 1 ->
  I hi s ->
  (forall k s, lo <= k <= hi -> I k s -> wp (body k s) (I (k - 1))) ->
  wp (zfor_down hi lo body s) (I (lo - 1)).
Proof.
  intros Hle H0 Hb. unfold zfor_down.
  replace (lo - 1) with (hi - Z.of_nat (Z.to_nat (hi - lo + 1))) by lia.
  apply iter_down_wp; [exact H0|]. intros k s0 Hk. apply Hb. lia.
Qed.

Lemma foreach_app {A S} (l1 l2 : list A) (body : A -> S -> res S) s :
  foreach (l1 ++ l2) body s = bind (foreach l1 body s) (foreach l2 body).
Proof.
  revert s; induction l1 as [|x l1 IH]; intros s; simpl; [reflexivity|].
  destruct (body x s); simpl; auto.
Qed.

(* ---------- containers ---------- *)

Lemma inb_true i n : inb i n = true <-> 0 <= i < n.
Proof. unfold inb. rewrite andb_true_iff, Z.leb_le, Z.ltb_lt. lia. Qed.

Lemma inb_false i n : inb i n = false <-> (i < 0 \/ n <= i).
Proof. unfold inb. rewrite andb_false_iff, Z.leb_gt, Z.ltb_ge. lia. Qed.

Section C.
Context {T : Type}.

Lemma vget_ok (v : vec T) i : 0 <= i < vlen v -> vget v i = Ok (vat v i).
Proof. intros H. unfold vget. rewrite (proj2 (inb_true _ _) H). reflexivity. Qed.

Lemma vget_ub (v : vec T) i : (i < 0 \/ vlen v <= i) -> vget v i = UB "vector index".
Proof. intros H. unfold vget. rewrite (proj2 (inb_false _ _) H). reflexivity. Qed.

Lemma vset_ok (v : vec T) i x :
  0 <= i < vlen v ->
  vset v i x = Ok (mkvec (vlen v) (fun k => if k =? i then x else vat v k)).
Proof. intros H. unfold vset. rewrite (proj2 (inb_true _ _) H). reflexivity. Qed.

Lemma vset_ub (v : vec T) i x : (i < 0 \/ vlen v <= i) -> vset v i x = UB "vector index".
Proof. intros H. unfold vset. rewrite (proj2 (inb_false _ _) H). reflexivity. Qed.

Lemma mget_ok (m : mat T) i j :
  0 <= i < mrows m -> 0 <= j < mcols m -> mget m i j = Ok (mat_at m i j).
Proof.
  intros Hi Hj. unfold mget.
  rewrite (proj2 (inb_true _ _) Hi), (proj2 (inb_true _ _) Hj). reflexivity.
Qed.

Lemma mget_ub (m : mat T) i j :
  (i < 0 \/ mrows m <= i \/ j < 0 \/ mcols m <= j) -> mget m i j = UB "matrix index".
Proof.
  intros H. unfold mget.
  destruct (inb i (mrows m)) eqn:E1; [|reflexivity].
  destruct (inb j (mcols m)) eqn:E2; [|reflexivity].
  apply inb_true in E1. apply inb_true in E2. lia.
Qed.

Lemma mset_ok (m : mat T) i j x :
  0 <= i < mrows m -> 0 <= j < mcols m ->
  mset m i j x = Ok (mkmat (mrows m) (mcols m)
     (fun a b => if (a =? i) && (b =? j) then x else mat_at m a b)).
Proof.
  intros Hi Hj. unfold mset.
  rewrite (proj2 (inb_true _ _) Hi), (proj2 (inb_true _ _) Hj). reflexivity.
Qed.

Lemma t3get_ok (t : ten3 T) i j k :
  0 <= i < td0 t -> 0 <= j < td1 t -> 0 <= k < td2 t -> t3get t i j k = Ok (t3_at t i j k).
Proof.
  intros Hi Hj Hk. unfold t3get.
  rewrite (proj2 (inb_true _ _) Hi), (proj2 (inb_true _ _) Hj), (proj2 (inb_true _ _) Hk).
  reflexivity.
Qed.

Lemma t3get_ub (t : ten3 T) i j k :
  (i < 0 \/ td0 t <= i \/ j < 0 \/ td1 t <= j \/ k < 0 \/ td2 t <= k) ->
  t3get t i j k = UB "tensor index".
Proof.
  intros H. unfold t3get.
  destruct (inb i (td0 t)) eqn:E1; [|reflexivity].
  destruct (inb j (td1 t)) eqn:E2; [|reflexivity].
  destruct (inb k (td2 t)) eqn:E3; [|reflexivity].
  apply inb_true in E1. apply inb_true in E2. apply inb_true in E3. lia.
Qed.

Lemma t3set_ok (t : ten3 T) i j k x :
  0 <= i < td0 t -> 0 <= j < td1 t -> 0 <= k < td2 t ->
  t3set t i j k x = Ok (mkten3 (td0 t) (td1 t) (td2 t)
     (fun a b c => if (a =? i) && (b =? j) && (c =? k) then x else t3_at t a b c)).
Proof.
  intros Hi Hj Hk. unfold t3set.
  rewrite (proj2 (inb_true _ _) Hi), (proj2 (inb_true _ _) Hj), (proj2 (inb_true _ _) Hk).
  reflexivity.
Qed.

Lemma lget_ok (l : list T) i d :
  0 <= i < zlen l -> lget l i = Ok (nth (Z.to_nat i) l d).
Proof.
  intros H. unfold lget, zlen in *.
  destruct (0 <=? i) eqn:E; [|lia].
  rewrite (nth_error_nth' l d) by lia. reflexivity.
Qed.

Lemma lget_ub (l : list T) i :
  (i < 0 \/ zlen l <= i) -> lget l i = UB "std::vector index".
Proof.
  intros H. unfold lget, zlen in *.
  destruct (0 <=? i) eqn:E; [|reflexivity].
  destruct (nth_error l (Z.to_nat i)) eqn:E2; [|reflexivity].
  assert (Z.to_nat i < length l)%nat by (apply nth_error_Some; congruence). lia.
Qed.

Lemma list_upd_length (l : list T) n x : length (list_upd l n x) = length l.
Proof. revert n; induction l; intros [|n]; simpl; auto. Qed.

Lemma nth_list_upd (l : list T) n x m d :
  (n < length l)%nat ->
  nth m (list_upd l n x) d = if Nat.eqb m n then x else nth m l d.
Proof.
  revert n m; induction l as [|y l IH]; intros [|n] [|m] H; simpl in *; try lia; auto.
  apply IH. lia.
Qed.

Lemma lset_ok (l : list T) i x :
  0 <= i < zlen l -> lset l i x = Ok (list_upd l (Z.to_nat i) x).
Proof. intros H. unfold lset. unfold zlen in H. rewrite (proj2 (inb_true _ _) H). reflexivity. Qed.

Lemma lset_ub (l : list T) i x :
  (i < 0 \/ zlen l <= i) -> lset l i x = UB "std::vector index".
Proof. intros H. unfold lset. unfold zlen in H. rewrite (proj2 (inb_false _ _) H). reflexivity. Qed.

Lemma zlen_nonneg (l : list T) : 0 <= zlen l.
Proof. unfold zlen; lia. Qed.

Lemma zlen_app (l1 l2 : list T) : zlen (l1 ++ l2) = zlen l1 + zlen l2.
Proof. unfold zlen; rewrite app_length; lia. Qed.

Lemma zlen_cons (x : T) l : zlen (x :: l) = 1 + zlen l.
Proof. unfold zlen; simpl length; lia. Qed.

End C.

Lemma nsum_up_ext {T} {N : Num T} n i f g acc :
  (forall k, i <= k < i + Z.of_nat n -> f k = g k) ->
  nsum_up n i f acc = nsum_up n i g acc.
Proof.
  revert i acc; induction n as [|n IH]; intros i acc H; simpl; [reflexivity|].
  rewrite (H i) by lia. apply IH. intros; apply H; lia.
Qed.

Lemma nsum_ext {T} {N : Num T} lo hi f g :
  (forall k, lo <= k < hi -> f k = g k) -> nsum lo hi f = nsum lo hi g.
Proof. intros H. apply nsum_up_ext. intros; apply H; lia. Qed.

(* One access of a straight-line program: reduce it and move on. *)
Ltac wacc :=
  first
  [ rewrite vget_ok by (simpl; lia)
  | rewrite vset_ok by (simpl; lia)
  | rewrite mget_ok by (simpl; lia)
  | rewrite mset_ok by (simpl; lia)
  | rewrite t3get_ok by (simpl; lia)
  | rewrite t3set_ok by (simpl; lia) ];
  cbn [bind].

(* ---------- loops that fill a container ---------- *)

Section Fill.
Context {T : Type}.

(* for(i = lo; i < hi; i++) v(i - d) = g(i) *)
Lemma vfill_off n lo hi d (g : Z -> T) (body : Z -> vec T -> res (vec T)) v0 :
  lo <= hi -> 0 <= lo - d -> hi - d <= n -> vlen v0 = n ->
  (forall i v, lo <= i < hi -> vlen v = n -> body i v = vset v (i - d) (g i)) ->
  wp (zfor lo hi body v0) (fun v => vlen v = n /\
     forall k, vat v k = if (lo - d <=? k) && (k <? hi - d) then g (k + d) else vat v0 k).
Proof.
  intros Hle Hlo Hhi Hl Hb.
  eapply (zfor_wp' (fun j v => vlen v = n /\
     forall k, vat v k = if (lo - d <=? k) && (k <? j - d) then g (k + d) else vat v0 k)).
  - lia.
  - split; auto. intros k. destruct (lo - d <=? k) eqn:E1, (k <? lo - d) eqn:E2; simpl; auto; lia.
  - intros i v Hi [L H]. rewrite Hb by auto. rewrite vset_ok by lia. cbn [wp vlen vat].
    split; auto. intros k. rewrite H.
    destruct (k =? i - d) eqn:E.
    + replace ((lo - d <=? k) && (k <? i + 1 - d)) with true by lia. f_equal. lia.
    + replace (k <? i + 1 - d) with (k <? i - d) by lia. reflexivity.
  - auto.
Qed.

Lemma vfill n lo hi (g : Z -> T) (body : Z -> vec T -> res (vec T)) v0 :
  lo <= hi -> 0 <= lo -> hi <= n -> vlen v0 = n ->
  (forall i v, lo <= i < hi -> vlen v = n -> body i v = vset v i (g i)) ->
  wp (zfor lo hi body v0) (fun v => vlen v = n /\
     forall k, vat v k = if (lo <=? k) && (k <? hi) then g k else vat v0 k).
Proof.
  intros Hle Hlo Hhi Hl Hb.
  eapply wp_mono; [apply (vfill_off n lo hi 0 g); try lia; auto|].
  - intros i v Hi Hv. rewrite Z.sub_0_r. auto.
  - intros v [L H]. split; auto. intros k. rewrite H, !Z.sub_0_r, Z.add_0_r. reflexivity.
Qed.

(* for(i = lo; i < hi; i++) m(i, c) = g(i) *)
Lemma mfill_col r c lo hi j (g : Z -> T) (body : Z -> mat T -> res (mat T)) m0 :
  lo <= hi -> 0 <= lo -> hi <= r -> 0 <= j < c -> mrows m0 = r -> mcols m0 = c ->
  (forall i m, lo <= i < hi -> mrows m = r -> mcols m = c -> body i m = mset m i j (g i)) ->
  wp (zfor lo hi body m0) (fun m => mrows m = r /\ mcols m = c /\
     forall a b, mat_at m a b = if (b =? j) && ((lo <=? a) && (a <? hi)) then g a else mat_at m0 a b).
Proof.
  intros Hle Hlo Hhi Hj Hr Hc Hb.
  eapply (zfor_wp' (fun i m => mrows m = r /\ mcols m = c /\
     forall a b, mat_at m a b = if (b =? j) && ((lo <=? a) && (a <? i)) then g a else mat_at m0 a b)).
  - lia.
  - repeat split; auto. intros a b.
    replace ((b =? j) && ((lo <=? a) && (a <? lo))) with false by lia. reflexivity.
  - intros i m Hi [R [C H]]. rewrite Hb by auto. rewrite mset_ok by lia. cbn [wp mrows mcols mat_at].
    repeat split; auto. intros a b. rewrite H.
    destruct (a =? i) eqn:E1, (b =? j) eqn:E2; cbn [andb]; auto.
    + replace ((lo <=? a) && (a <? i + 1)) with true by lia. f_equal. lia.
    + replace (a <? i + 1) with (a <? i) by lia. reflexivity.
  - auto.
Qed.

(* nested loops writing m(j, i) = g(i, j), outer index i = column *)
Lemma mfill_ji r c (g : Z -> Z -> T) (body : Z -> Z -> mat T -> res (mat T)) m0 :
  0 <= r -> 0 <= c -> mrows m0 = r -> mcols m0 = c ->
  (forall i j m, 0 <= i < c -> 0 <= j < r -> mrows m = r -> mcols m = c ->
     body i j m = mset m j i (g i j)) ->
  wp (zfor 0 c (fun i m => zfor 0 r (body i) m) m0)
     (fun m => mrows m = r /\ mcols m = c /\
        forall a b, 0 <= a < r -> 0 <= b < c -> mat_at m a b = g b a).
Proof.
  intros Hr Hc R0 C0 Hb.
  eapply (zfor_wp' (fun i m => mrows m = r /\ mcols m = c /\
        forall a b, 0 <= a < r -> 0 <= b < i -> mat_at m a b = g b a)).
  - lia.
  - repeat split; auto. intros; lia.
  - intros i m Hi [R [C H]].
    eapply wp_mono; [apply (mfill_col r c 0 r i (g i)); auto; lia|].
    cbn beta. intros m' [R' [C' H']]. repeat split; auto.
    intros a b Ha Hb'. rewrite H'. destruct (b =? i) eqn:E; cbn [andb].
    + replace ((0 <=? a) && (a <? r)) with true by lia. f_equal. lia.
    + apply H; lia.
  - intros m [R [C H]]. repeat split; auto.
Qed.

End Fill.
