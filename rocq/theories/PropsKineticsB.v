(* Property C102: the units of time and reactivity and the order of the delayed
   neutron groups do not matter for point kinetics. *)
From Coq Require Import String ZArith List Bool Lia Reals Lra Permutation.
From Coquelicot Require Import Coquelicot.
From Verif Require Import Base BaseLemmas NumR ModelNumTools ModelReactor ProofsNumTools InHour Modes Positivity ModelKinetics
  ProofsKinetics ProofsKineticsB ProofsKineticsC ProofsKineticsD ProofsSymmetry PropsKinetics.
Import ListNotations.
Local Open Scope R_scope.

(* ks' is ks with times u times as large (decay constants divided by u, the
   generation time multiplied), reactivities and delayed fractions v times as
   large, and group i being group (s i) of ks *)
Record rephrased (u v : R) (s : Z -> Z) (ks ks' : kineticsSet R) : Prop := {
  ph_power : ks_power ks' = ks_power ks;
  ph_alpha : ks_alpha ks' = u * v * ks_alpha ks;
  ph_llen : length (ks_lambda ks') = length (ks_lambda ks);
  ph_blen : length (ks_beta ks') = length (ks_beta ks);
  ph_lambda : forall i, (0 <= i < zlen (ks_lambda ks))%Z -> (ks_lambda ks')@i = (ks_lambda ks)@(s i) / u;
  ph_beta : forall i, (0 <= i < zlen (ks_lambda ks))%Z -> (ks_beta ks')@i = v * (ks_beta ks)@(s i);
  ph_reacts : ks_reacts ks' = map (Rmult v) (ks_reacts ks);
  ph_times : ks_times ks' = map (Rmult u) (ks_times ks)
}.

Lemma at_map c l i : (map (Rmult c) l)@i = c * l@i.
Proof.
  destruct (Nat.lt_ge_cases (Z.to_nat i) (length l)) as [L|L].
  - rewrite (nth_indep _ 0 (c * 0)) by (rewrite map_length; exact L). apply map_nth.
  - rewrite !nth_overflow by (rewrite ?map_length; exact L). ring.
Qed.
Lemma instant_map c l m : instant (map (Rmult c) l) m = c * instant l m.
Proof. unfold instant. destruct (m =? 0)%Z; [ring|apply at_map]. Qed.

Lemma derive_slow (f : R -> R) u t d : 0 < u -> is_derive f (t / u) d -> is_derive (fun x => f (x / u)) t (d / u).
Proof.
  intros Hu D. replace (d / u) with (/ u * d) by (field; lra).
  apply (is_derive_comp f (fun x => x / u) t d (/ u) D). auto_derive; [exact I|field; lra].
Qed.
Lemma continuity_slow (f : R -> R) u t : continuity_pt f (t / u) -> continuity_pt (fun x => f (x / u)) t.
Proof. intros H. apply (continuity_pt_comp (fun x => x / u) f t); [|exact H]. unfold Rdiv. reg. Qed.

Section Rephrased.
Variables (u v : R) (s t : Z -> Z) (ks ks' : kineticsSet R).
Hypotheses (Hu : 0 < u) (Hv : 0 < v).
Hypothesis Hs : reorders (zlen (ks_lambda ks)) s t.
Hypothesis H : rephrased u v s ks ks'.
Hypothesis G : group_data (ks_lambda ks) (ks_beta ks) (ks_alpha ks).

Let n := zlen (ks_lambda ks).
Lemma ph_n : zlen (ks_lambda ks') = n.
Proof. unfold n, zlen. rewrite (ph_llen _ _ _ _ _ H). reflexivity. Qed.
Lemma ph_range i : (0 <= i < n)%Z -> (0 <= s i < n)%Z.
Proof. apply Hs. Qed.

Lemma ph_group : group_data (ks_lambda ks') (ks_beta ks') (ks_alpha ks').
Proof.
  destruct G as (A & L & D & P). split; [|split; [|split]].
  - rewrite (ph_alpha _ _ _ _ _ H). repeat apply Rmult_lt_0_compat; assumption.
  - rewrite (ph_llen _ _ _ _ _ H), (ph_blen _ _ _ _ _ H). exact L.
  - apply (NoDup_nth _ 0). intros i j Hi Hj E. rewrite (ph_llen _ _ _ _ _ H) in Hi, Hj.
    assert (Ri : (0 <= Z.of_nat i < n)%Z) by (unfold n, zlen; lia). assert (Rj : (0 <= Z.of_nat j < n)%Z) by (unfold n, zlen; lia).
    rewrite <- (Nat2Z.id i), <- (Nat2Z.id j) in E. rewrite !(ph_lambda _ _ _ _ _ H) in E by assumption.
    assert (E' : (ks_lambda ks)@(s (Z.of_nat i)) = (ks_lambda ks)@(s (Z.of_nat j))).
    { apply Rmult_eq_reg_r with (/ u); [exact E|]. apply Rinv_neq_0_compat. lra. }
    pose proof (ph_range _ Ri) as Si. pose proof (ph_range _ Rj) as Sj. unfold n, zlen in Si, Sj.
    rewrite NoDup_nth in D. apply D in E'; [|lia|lia].
    assert (S : s (Z.of_nat i) = s (Z.of_nat j)) by lia. apply (f_equal t) in S.
    destruct (Hs _ Ri) as (_ & _ & S1 & _). destruct (Hs _ Rj) as (_ & _ & S2 & _). rewrite S1, S2 in S. lia.
  - intros i Hi. rewrite ph_n in Hi. rewrite (ph_lambda _ _ _ _ _ H), (ph_beta _ _ _ _ _ H) by exact Hi.
    destruct (P (s i) (ph_range i Hi)) as [P1 P2]. split; [apply Rdiv_lt_0_compat; assumption|apply Rmult_lt_0_compat; assumption].
Qed.

Lemma ph_kdP rho p c : kdP (ks_lambda ks') (ks_beta ks') (ks_alpha ks') (v * rho) p (fun i => c (s i)) =
  kdP (ks_lambda ks) (ks_beta ks) (ks_alpha ks) rho p c / u.
Proof.
  unfold kdP. rewrite ph_n. fold n.
  rewrite (rsum_ext 0 n (fun i => (ks_beta ks')@i) (fun i => v * (ks_beta ks)@(s i))) by (intros i Hi; apply (ph_beta _ _ _ _ _ H); exact Hi).
  rewrite (rsum_ext 0 n (fun i => (ks_lambda ks')@i * c (s i)) (fun i => / u * ((ks_lambda ks)@(s i) * c (s i))))
    by (intros i Hi; rewrite (ph_lambda _ _ _ _ _ H) by exact Hi; field; lra).
  rewrite !rsum_scal, (rsum_reorder n s t (fun i => (ks_beta ks)@i) Hs), (rsum_reorder n s t (fun i => (ks_lambda ks)@i * c i) Hs).
  rewrite (ph_alpha _ _ _ _ _ H). destruct G as (A & _). field. repeat split; lra.
Qed.
Lemma ph_kdC p c i : (0 <= i < n)%Z -> kdC (ks_lambda ks') (ks_beta ks') (ks_alpha ks') p (fun i => c (s i)) i =
  kdC (ks_lambda ks) (ks_beta ks) (ks_alpha ks) p c (s i) / u.
Proof.
  intros Hi. unfold kdC. rewrite (ph_lambda _ _ _ _ _ H), (ph_beta _ _ _ _ _ H), (ph_alpha _ _ _ _ _ H) by exact Hi.
  destruct G as (A & _). field. repeat split; lra.
Qed.

Lemma ph_trajectory P C :
  trajectory (ks_lambda ks) (ks_beta ks) (ks_alpha ks) (ks_reacts ks) (ks_times ks) (zlen (ks_reacts ks)) P C ->
  trajectory (ks_lambda ks') (ks_beta ks') (ks_alpha ks') (ks_reacts ks') (ks_times ks') (zlen (ks_reacts ks'))
    (fun x => P (x / u)) (fun i x => C (s i) (x / u)).
Proof.
  intros [Hc Ho]. split.
  - intros x. destruct (Hc (x / u)) as [c1 c2]. split; [apply continuity_slow, c1|]. intros i Hi. rewrite ph_n in Hi.
    apply (continuity_slow (C (s i))), c2, ph_range, Hi.
  - intros m Hm x Hx. rewrite (ph_reacts _ _ _ _ _ H) in Hm. unfold zlen in Hm. rewrite map_length in Hm. fold (zlen (ks_reacts ks)) in Hm.
    rewrite (ph_times _ _ _ _ _ H), !instant_map in Hx.
    assert (Hx' : Rmin (instant (ks_times ks) m) (instant (ks_times ks) (m + 1)) < x / u < Rmax (instant (ks_times ks) m) (instant (ks_times ks) (m + 1))).
    { set (a := instant (ks_times ks) m) in *. set (b := instant (ks_times ks) (m + 1)) in *.
      assert (X : x = u * (x / u)) by (field; lra). remember (x / u) as y eqn:Ey. clear Ey. subst x.
      assert (M : forall a b, u * a < u * b -> a < b) by (intros a0 b0 Hab; apply Rmult_lt_reg_l with u; assumption).
      unfold Rmin, Rmax in *. destruct (Rle_dec a b) as [L|L], (Rle_dec (u * a) (u * b)) as [L'|L'].
      - split; apply M; apply Hx.
      - exfalso. apply L'. apply Rmult_le_compat_l; lra.
      - exfalso. apply L. apply Rmult_le_reg_l with u; assumption.
      - split; apply M; apply Hx. }
    destruct (Ho m Hm (x / u) Hx') as [d1 d2]. rewrite (ph_reacts _ _ _ _ _ H), at_map. split.
    + rewrite (ph_kdP (ks_reacts ks)@m (P (x / u)) (fun i => C i (x / u))). apply derive_slow; assumption.
    + intros i Hi. rewrite ph_n in Hi. rewrite (ph_kdC (P (x / u)) (fun i => C i (x / u)) i Hi). apply (derive_slow (C (s i))); [exact Hu|]. apply d2, ph_range, Hi.
Qed.

Lemma ph_equilibrium P C : equilibrium ks P C -> equilibrium ks' (fun x => P (x / u)) (fun i x => C (s i) (x / u)).
Proof.
  intros [E1 E2]. assert (Z : 0 / u = 0) by (field; lra). split; [rewrite Z, (ph_power _ _ _ _ _ H); exact E1|].
  intros i Hi. rewrite ph_n in Hi. rewrite Z, E2 by (apply ph_range, Hi).
  rewrite (ph_lambda _ _ _ _ _ H), (ph_beta _ _ _ _ _ H), (ph_alpha _ _ _ _ _ H), (ph_power _ _ _ _ _ H) by exact Hi.
  destruct G as (A & _ & _ & P0). destruct (P0 (s i) (ph_range i Hi)). field. repeat split; lra.
Qed.
End Rephrased.

(* The same reactor and history described with another unit of time, another
   unit of reactivity or the delayed groups in another order: the powers
   reported are the same. *)
Theorem C102_same_powers croots (r r' : reactor R) u v s t : finds_roots croots ->
  0 < u -> 0 < v -> reorders (zlen (ks_lambda (rx_kin r))) s t -> rephrased u v s (rx_kin r) (rx_kin r') ->
  group_data (ks_lambda (rx_kin r)) (ks_beta (rx_kin r)) (ks_alpha (rx_kin r)) ->
  (length (ks_reacts (rx_kin r)) <= length (ks_times (rx_kin r)))%nat ->
  nondecreasing_times (ks_times (rx_kin r)) (zlen (ks_reacts (rx_kin r))) ->
  exists res, kineticsSolve exp croots r = Ok res /\ kineticsSolve exp croots r' = Ok res /\ length res = length (ks_reacts (rx_kin r)).
Proof.
  intros HR Hu Hv Hs H G Hl Hm. destruct (C62_kinetics_calculation croots r HR G Hl) as [A B].
  destruct (B Hm) as (P & C & E & T). destruct (A P C E T) as (res & F & L & V).
  assert (Hl' : (length (ks_reacts (rx_kin r')) <= length (ks_times (rx_kin r')))%nat).
  { rewrite (ph_reacts _ _ _ _ _ H), (ph_times _ _ _ _ _ H), !map_length. exact Hl. }
  destruct (C62_kinetics_calculation croots r' HR (ph_group u v s t _ _ Hu Hv Hs H G) Hl') as [A' _].
  destruct (A' _ _ (ph_equilibrium u v s t _ _ Hu Hv Hs H G P C E) (ph_trajectory u v s t _ _ Hu Hv Hs H G P C T)) as (res' & F' & L' & V').
  exists res. split; [exact F|]. split; [|exact L]. rewrite F'. f_equal.
  assert (N : length (ks_reacts (rx_kin r')) = length (ks_reacts (rx_kin r))) by (rewrite (ph_reacts _ _ _ _ _ H), map_length; reflexivity).
  apply (nth_ext _ _ 0 0); [congruence|]. intros i Hi. rewrite <- (Nat2Z.id i). rewrite V, V' by (unfold zlen; lia).
  rewrite (ph_times _ _ _ _ _ H), at_map. f_equal. field. lra.
Qed.
Print Assumptions C102_same_powers.

(* minutes instead of seconds, per cent instead of absolute numbers, and the two
   groups exchanged *)
Example C102_met : exists croots s t, finds_roots croots /\ reorders 2 s t /\
  let ks := mkKinetics 1 6 [1; 2] [1; 3] [0; 1 / 2] [1; 3] in
  let ks' := mkKinetics (100 / 60) 6 [120; 60] [300; 100] [0; 50] [1 / 60; 3 / 60] in
  rephrased (1 / 60) 100 s ks ks' /\
  group_data (ks_lambda ks) (ks_beta ks) (ks_alpha ks) /\ (length (ks_reacts ks) <= length (ks_times ks))%nat /\
  nondecreasing_times (ks_times ks) (zlen (ks_reacts ks)).
Proof.
  destruct finds_roots_exists as (c & Hc). exists c, (fun i => (1 - i)%Z), (fun i => (1 - i)%Z). split; [exact Hc|].
  split; [intros i Hi; repeat split; lia|]. cbn zeta. split; [|split; [|split]].
  - constructor; cbn; try reflexivity; try lra.
    + intros i Hi. change (zlen _) with 2%Z in Hi. assert (i = 0 \/ i = 1)%Z as [-> | ->] by lia; cbn; change (Pos.to_nat 1) with 1%nat; cbn; field.
    + intros i Hi. change (zlen _) with 2%Z in Hi. assert (i = 0 \/ i = 1)%Z as [-> | ->] by lia; cbn; change (Pos.to_nat 1) with 1%nat; cbn; lra.
    + repeat (apply (f_equal2 cons); [lra|]). reflexivity.
    + repeat (apply (f_equal2 cons); [lra|]). reflexivity.
  - cbn. split; [lra|]. split; [reflexivity|]. split.
    + constructor; [intros [Q|[]]; lra|]. constructor; [intros []|constructor].
    + intros i Hi. change (zlen _) with 2%Z in Hi. assert (i = 0 \/ i = 1)%Z as [-> | ->] by lia; cbn; change (Pos.to_nat 1) with 1%nat; cbn; lra.
  - cbn; lia.
  - intros m Hm. change (zlen _) with 2%Z in Hm. assert (m = 0 \/ m = 1)%Z as [-> | ->] by lia; cbv -[Rle IZR]; lra.
Qed.
