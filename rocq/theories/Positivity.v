(* Componentwise positivity of solutions of quasi-positive differential systems. *)
From Coq Require Import ZArith List Bool Lia Reals Lra.
From Coquelicot Require Import Coquelicot.
From Verif Require Import Base NumR.
Local Open Scope R_scope.

Lemma grows (a : R) (y d : R -> R) T : 0 <= T ->
  (forall t, 0 < t < T -> is_derive y t (d t)) -> (forall t, 0 <= t <= T -> continuity_pt y t) ->
  (forall t, 0 < t < T -> a * y t <= d t) -> exp (a * T) * y 0 <= y T.
Proof.
  intros HT Hd Hc Hg.
  set (e := fun t => exp (- (a * t)) * y t).
  assert (K : e 0 <= e T).
  { set (df := fun t => if Rlt_dec 0 t then if Rlt_dec t T then exp (- (a * t)) * (d t - a * y t) else 0 else 0).
    destruct (MVT_gen e 0 T df) as (c & _ & E).
    - rewrite Rmin_left, Rmax_right by lra. intros t Ht. unfold df.
      destruct (Rlt_dec 0 t); [|lra]. destruct (Rlt_dec t T); [|lra].
      replace (exp (- (a * t)) * (d t - a * y t)) with (- a * exp (- (a * t)) * y t + exp (- (a * t)) * d t) by ring.
      apply (is_derive_mult (fun t => exp (- (a * t))) y t (- a * exp (- (a * t))) (d t)); [|apply Hd, Ht|intros; apply Rmult_comm].
      auto_derive; [exact I|ring].
    - rewrite Rmin_left, Rmax_right by lra. intros t Ht. apply (continuity_pt_mult (fun t => exp (- (a * t))) y); [|apply Hc, Ht].
      apply derivable_continuous_pt. apply ex_derive_Reals_0. auto_derive. exact I.
    - assert (0 <= df c).
      { unfold df. destruct (Rlt_dec 0 c); [|lra]. destruct (Rlt_dec c T); [|lra].
        apply Rmult_le_pos; [left; apply exp_pos|]. pose proof (Hg c (conj r r0)). lra. }
      assert (0 <= df c * (T - 0)) by (apply Rmult_le_pos; lra). lra. }
  unfold e in K. rewrite Rmult_0_r, Ropp_0, exp_0, Rmult_1_l in K.
  apply Rmult_le_compat_l with (r := exp (a * T)) in K; [|left; apply exp_pos].
  rewrite <- Rmult_assoc, <- exp_plus in K. replace (a * T + - (a * T)) with 0 in K by ring. rewrite exp_0 in K. lra.
Qed.

Lemma locally_all (m : Z) (Q : Z -> R -> Prop) s : (0 <= m)%Z ->
  (forall i, (0 <= i < m)%Z -> locally s (Q i)) -> locally s (fun t => forall i, (0 <= i < m)%Z -> Q i t).
Proof.
  intros Hm. pattern m; apply (zint_ind _ 0); [| |exact Hm].
  - intros _. apply filter_forall. intros; lia.
  - intros k Hk IH H.
    apply (filter_imp (fun t => (forall i, (0 <= i < k)%Z -> Q i t) /\ Q k t)).
    + intros t [A B] i Hi. destruct (Z.eq_dec i k) as [->|]; [exact B|apply A; lia].
    + apply filter_and; [apply IH; intros; apply H; lia|apply H; lia].
Qed.

Lemma quasi_positive (m : Z) (x d : Z -> R -> R) (a : Z -> R) T : (0 <= m)%Z -> 0 <= T ->
  (forall i t, (0 <= i < m)%Z -> 0 < t < T -> is_derive (x i) t (d i t)) ->
  (forall i t, (0 <= i < m)%Z -> 0 <= t <= T -> continuity_pt (x i) t) ->
  (forall i, (0 <= i < m)%Z -> 0 < x i 0) ->
  (forall t, 0 < t < T -> (forall j, (0 <= j < m)%Z -> 0 < x j t) -> forall i, (0 <= i < m)%Z -> a i * x i t <= d i t) ->
  forall i t, (0 <= i < m)%Z -> 0 <= t <= T -> 0 < x i t /\ exp (a i * t) * x i 0 <= x i t.
Proof.
  intros Hm HT Hd Hc H0 Hq.
  set (E := fun t => 0 <= t <= T /\ forall t', 0 <= t' <= t -> forall i, (0 <= i < m)%Z -> 0 < x i t').
  assert (A : forall t, 0 <= t <= T -> (forall t', 0 < t' < t -> forall i, (0 <= i < m)%Z -> 0 < x i t') ->
            forall i, (0 <= i < m)%Z -> exp (a i * t) * x i 0 <= x i t).
  { intros t Ht Hp i Hi. apply (grows (a i) (x i) (d i) t); [lra| | |].
    - intros t' Ht'. apply Hd; [exact Hi|lra].
    - intros t' Ht'. apply Hc; [exact Hi|lra].
    - intros t' Ht'. apply Hq; [lra|apply Hp, Ht'|exact Hi]. }
  assert (ET : E T).
  { destruct (completeness E) as (s & Ub & Lub).
    - exists T. intros t [Ht _]. lra.
    - exists 0. split; [lra|]. intros t' Ht' i Hi. replace t' with 0 by lra. apply H0, Hi.
    - assert (E0 : E 0) by (split; [lra|]; intros t' Ht' i Hi; replace t' with 0 by lra; apply H0, Hi).
      assert (Hs : 0 <= s <= T).
      { split; [apply Ub, E0|]. apply Lub. intros t [Ht _]. lra. }
      assert (B : forall t', 0 <= t' < s -> forall i, (0 <= i < m)%Z -> 0 < x i t').
      { intros t' Ht' i Hi. destruct (Rle_lt_dec (x i t') 0) as [N|N]; [|exact N]. exfalso.
        assert (s <= t'); [|lra]. apply Lub. intros t [Ht Pt]. destruct (Rle_lt_dec t t') as [|L]; [assumption|].
        exfalso. pose proof (Pt t' ltac:(lra) i Hi). lra. }
      assert (Ps : forall i, (0 <= i < m)%Z -> 0 < x i s).
      { intros i Hi. apply Rlt_le_trans with (exp (a i * s) * x i 0); [apply Rmult_lt_0_compat; [apply exp_pos|apply H0, Hi]|].
        apply A; [exact Hs| |exact Hi]. intros; apply B; [lra|assumption]. }
      assert (Es : E s).
      { split; [exact Hs|]. intros t' Ht' i Hi. destruct (Req_dec t' s) as [->|]; [apply Ps, Hi|apply B; [lra|exact Hi]]. }
      destruct (Req_dec s T) as [<-|Ne]; [exact Es|exfalso].
      assert (Loc : locally s (fun t => forall i, (0 <= i < m)%Z -> 0 < x i t)).
      { apply locally_all; [exact Hm|]. intros i Hi.
        pose proof (proj1 (continuity_pt_locally (x i) s) (Hc i s Hi Hs) (mkposreal _ (Ps i Hi))) as L.
        apply (filter_imp _ _) with (2 := L). intros t Ht. cbn in Ht. apply Rabs_def2 in Ht. lra. }
      destruct Loc as [eps Heps].
      set (h := Rmin (eps / 2) (T - s)). pose proof (cond_pos eps).
      assert (0 < h) by (unfold h; apply Rmin_glb_lt; lra).
      assert (h <= eps / 2) by apply Rmin_l. assert (h <= T - s) by apply Rmin_r.
      assert (s + h <= s); [|lra]. apply Ub. split; [lra|]. intros t' Ht' i Hi.
      destruct (Rle_lt_dec t' s) as [L|L].
      + apply (proj2 Es); [lra|exact Hi].
      + apply Heps; [|exact Hi]. change (Rabs (t' - s) < eps). rewrite Rabs_right by lra. lra. }
  intros i t Hi Ht. destruct ET as [_ PT]. split; [apply PT; assumption|].
  apply A; [exact Ht| |exact Hi]. intros t' Ht' i' Hi'. apply PT; [lra|exact Hi'].
Qed.
