(* Facts about the tolerant comparisons on IEEE doubles. *)
From Coq Require Import ZArith Reals Lra Bool.
From Flocq Require Import IEEE754.BinarySingleNaN Core.
From Verif Require Import Base NumF ModelNumTools.
Local Open Scope R_scope.

Lemma eps10_f64 : is_finite (eps10 : f64) = true /\ B2R (eps10 : f64) = 10 / 2 ^ 52.
Proof.
  split; [vm_compute; reflexivity|].
  assert (E : B2SF (eps10 : f64) = SpecFloat.S754_finite false 5629499534213120 (-101))
    by (vm_compute; reflexivity).
  assert (F : forall x : f64, B2R x = SF2R radix2 (B2SF x)) by (intros []; reflexivity).
  rewrite F, E. unfold SF2R, F2R. simpl. lra.
Qed.

Lemma B2R_minus_self (x : f64) :
  is_finite x = true -> B2R (Bminus mode_NE x x) = 0 /\ is_finite (Bminus mode_NE x x) = true.
Proof.
  intros Hx. pose proof (Bminus_correct prec64 emax64 _ _ mode_NE x x Hx Hx) as H.
  replace (B2R x - B2R x) with 0 in H by lra.
  rewrite round_0 in H by (apply valid_rnd_N || typeclasses eauto).
  rewrite Rabs_R0 in H. rewrite Rlt_bool_true in H by apply bpow_gt_0.
  destruct H as [H1 [H2 _]]. auto.
Qed.

Lemma is_equal_refl_f64 (x : f64) : is_finite x = true -> is_equal x x = true.
Proof.
  intros Hx. unfold is_equal. cbn [nltb nabs nsub NumF].
  destruct (B2R_minus_self x Hx) as [E F]. destruct eps10_f64 as [Fe Re].
  rewrite Bltb_correct; [|rewrite is_finite_Babs; exact F|exact Fe].
  rewrite B2R_Babs, E, Rabs_R0, Re. apply Rlt_bool_true. lra.
Qed.

Lemma is_equal_nan_f64 (x : f64) : is_equal f64_nan x = false /\ is_equal x f64_nan = false.
Proof. split; [|destruct x as [[]|[]| |[]]]; reflexivity. Qed.

Lemma nonstrict_refl_fails_f64 :
  exists x : f64, is_finite x = true /\ is_greater_equal x x = false /\ is_lower_equal x x = false.
Proof. exists (f64_of_Z 100). vm_compute. auto. Qed.
