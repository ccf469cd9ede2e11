(* Property theorems C109: the properties of metallic uranium. *)
From Coq Require Import ZArith Bool Reals Lra Lia.
From Verif Require Import Base BaseLemmas NumR NumF ModelNumTools ProofsNumTools ModelUranium.
Local Open Scope R_scope.

(* a temperature in degrees Celsius at which uranium is solid and in one phase: not
   within the tolerance of 10/2^52 of freezing water (where the data begin), of the
   two transitions and of melting *)
Definition one_phase (t : R) : Prop :=
  let u := t + 273.15 in
  273 + 10 / 2 ^ 52 < u < 1405 - 10 / 2 ^ 52 /\ (u < 942 - 10 / 2 ^ 52 \/ 942 + 10 / 2 ^ 52 < u) /\ (u < 1049 - 10 / 2 ^ 52 \/ 1049 + 10 / 2 ^ 52 < u).

Lemma tol_small : 0 < tolR < 1 / 1000.
Proof.
  unfold tolR. assert (P : 0 < 2 ^ 52) by (apply pow_lt; lra). split; [apply Rdiv_lt_0_compat; lra|].
  apply Rmult_lt_reg_r with (2 ^ 52); [exact P|]. unfold Rdiv at 1. rewrite Rmult_assoc, Rinv_l by lra.
  assert (Q : 2 ^ 14 <= 2 ^ 52) by (apply Rle_pow; [lra|lia]). simpl in Q |- *. lra.
Qed.
Lemma kelvin_R (t : R) : kelvin t = t + 273.15.
Proof. unfold kelvin, nlit. rnum. lra. Qed.

Ltac tests := repeat match goal with
  | |- context [is_lower ?x ?y] => let H := fresh in let b := fresh in
      pose proof (is_lower_R x y) as H; destruct (is_lower x y) eqn:b; [assert (x < y - tolR) by (apply H; reflexivity)|assert (~ x < y - tolR) by (intros Q; apply H in Q; discriminate)]; clear H b
  | |- context [is_greater ?x ?y] => let H := fresh in let b := fresh in
      pose proof (is_greater_R x y) as H; destruct (is_greater x y) eqn:b; [assert (y + tolR < x) by (apply H; reflexivity)|assert (~ y + tolR < x) by (intros Q; apply H in Q; discriminate)]; clear H b
  end; cbn [andb].

Definition den (u : R) : R := if Rlt_dec u 942 then 19360 - 1.03347 * u else if Rlt_dec u 1049 then 19092 - 0.9807 * u else 18447 - 0.5166 * u.
Definition cap (u : R) : R := if Rlt_dec u 942 then 104.82 + 0.0053686 * u + 0.000101823 * (u * u) else if Rlt_dec u 1049 then 176.4 else 156.8.

Lemma density_R t : one_phase t -> density t = den (t + 273.15).
Proof.
  intros ((A & B) & C & D). pose proof tol_small as E. change (10 / 2 ^ 52) with tolR in *. unfold density, den. rewrite kelvin_R. set (u := t + 273.15) in *. rnum.
  tests; unfold nlit; rnum; destruct (Rlt_dec u 942), (Rlt_dec u 1049); lra.
Qed.
Lemma heatCapacity_R t : one_phase t -> heatCapacity t = cap (t + 273.15).
Proof.
  intros ((A & B) & C & D). pose proof tol_small as E. change (10 / 2 ^ 52) with tolR in *. unfold heatCapacity, cap. rewrite kelvin_R. set (u := t + 273.15) in *. rnum.
  tests; unfold nlit; rnum; destruct (Rlt_dec u 942), (Rlt_dec u 1049); lra.
Qed.
Lemma thermalConductivity_R t : 273 + tolR < t + 273.15 < 1405 - tolR -> thermalConductivity t = 22 + 0.023 * (t + 0.15).
Proof.
  intros (A & B). pose proof tol_small as E. unfold thermalConductivity. rewrite kelvin_R. set (u := t + 273.15) in *. rnum. tests; unfold nlit; rnum; unfold u in *; lra.
Qed.

(* Within its phases uranium has a density that falls with the temperature, a
   positive heat capacity that rises in the alpha phase, and a conductivity that
   rises.  The full claim is for every temperature of the solid, and in Kelvin as the
   comment of the code has it; what is missing is refuted below. *)
Theorem C109_uranium_partial : 
  (forall t, one_phase t -> 17721 < density t < 19078 /\ 113 < heatCapacity t < 201 /\ 22 < thermalConductivity t < 49) /\
  (forall t t', one_phase t -> one_phase t' -> t < t' -> density t' < density t /\ thermalConductivity t < thermalConductivity t' /\
     (t' + 273.15 < 942 -> heatCapacity t < heatCapacity t')).
Proof.
  pose proof tol_small as E. split.
  - intros t H. rewrite density_R, heatCapacity_R, thermalConductivity_R by (exact H || exact (proj1 H)). destruct H as ((A & B) & _). change (10 / 2 ^ 52) with tolR in *.
    unfold den, cap. set (u := t + 273.15) in *. replace (t + 0.15) with (u - 273) by (unfold u; lra). destruct (Rlt_dec u 942), (Rlt_dec u 1049); repeat split; try lra; nra.
  - intros t t' H H' L. rewrite !density_R, !heatCapacity_R, !thermalConductivity_R by (exact H || exact H' || exact (proj1 H) || exact (proj1 H')). destruct H as ((A & B) & _), H' as ((A' & B') & _). change (10 / 2 ^ 52) with tolR in *.
    unfold den, cap. set (u := t + 273.15) in *. set (u' := t' + 273.15) in *. assert (u < u') by (unfold u, u'; lra).
    replace (t + 0.15) with (u - 273) by (unfold u; lra). replace (t' + 0.15) with (u' - 273) by (unfold u'; lra).
    destruct (Rlt_dec u 942), (Rlt_dec u 1049), (Rlt_dec u' 942), (Rlt_dec u' 1049); repeat split; intros; try lra; nra.
Qed.
Print Assumptions C109_uranium_partial.
Example C109_met : one_phase 20 /\ one_phase 700 /\ one_phase 900 /\ 20 < 700 /\ 20 + 273.15 < 942.
Proof. pose proof tol_small as E. unfold one_phase. change (10 / 2 ^ 52) with tolR. lra. Qed.

(* Below the freezing point of water and above the melting point of uranium all
   three are zero. *)
Theorem C109_outside t : t + 273.15 <= 273 \/ 1405 <= t + 273.15 -> density t = 0 /\ heatCapacity t = 0 /\ thermalConductivity t = 0.
Proof.
  intros H. pose proof tol_small as E. unfold density, heatCapacity, thermalConductivity. rewrite kelvin_R. set (u := t + 273.15) in *. rnum. repeat split; tests; rnum; lra.
Qed.
Print Assumptions C109_outside.
Example C109_outside_met : (- (20)) + 273.15 <= 273 /\ 1405 <= 1200 + 273.15.
Proof. lra. Qed.

(* At the transition temperatures, 942 K and 1049 K, solid uranium has no density and
   no heat capacity, though it conducts. *)
Theorem C109_transition_refuted : forall t, t + 273.15 = 942 \/ t + 273.15 = 1049 -> density t = 0 /\ heatCapacity t = 0 /\ 37 < thermalConductivity t.
Proof.
  intros t H. pose proof tol_small as E. rewrite thermalConductivity_R by lra. unfold density, heatCapacity. rewrite kelvin_R. set (u := t + 273.15) in *. rnum. repeat split; try (tests; rnum; lra). unfold u in *. lra.
Qed.
Print Assumptions C109_transition_refuted.
Example C109_transition_met : 668.85 + 273.15 = 942 /\ 775.85 + 273.15 = 1049.
Proof. lra. Qed.

(* The temperature is not in Kelvin: at 600 the function has the density of 873.15 K. *)
Theorem C109_kelvin_refuted : density 600 = 19360 - 1.03347 * 873.15 /\ density 600 < 19360 - 1.03347 * 600.
Proof.
  assert (O : one_phase 600) by (pose proof tol_small as E; unfold one_phase; change (10 / 2 ^ 52) with tolR; lra).
  rewrite density_R by exact O. unfold den. destruct (Rlt_dec (600 + 273.15) 942); lra.
Qed.
Print Assumptions C109_kelvin_refuted.

(* The same in double precision, where 668.85 + 273.15 is 942. *)
Theorem C109_transition_double_refuted :
  let zero (x : f64) := nleb x n0 && nleb n0 x in
  let t : f64 := nlit 66885 100 in
  zero (density t) = true /\ zero (heatCapacity t) = true /\ nltb (nofZ 37) (thermalConductivity t) = true.
Proof. repeat split; vm_compute; reflexivity. Qed.
Print Assumptions C109_transition_double_refuted.
