(* The eight nodes and weights of the ray integration. *)
From Coq Require Import String ZArith List Bool Lia Reals Lra.
From Coquelicot Require Import Coquelicot.
From Verif Require Import Base BaseLemmas NumR ModelSpectrum ProofsSpectrum ProofsSpectrumB.
Import ListNotations.
Local Open Scope R_scope.

Fixpoint poly (c : list R) (x : R) : R := match c with [] => 0 | a :: c => a + x * poly c x end.
Fixpoint size1 (c : list R) : R := match c with [] => 0 | a :: c => Rabs a + size1 c end.

(* the moments in integers: nodes and weights are multiples of 1e-10 *)
Definition zw : list Z := [32951914; 178429027; 454393195; 791995995; 1060473594; 1125057995; 911190236; 445508044]%Z.
Definition zx : list Z := [446339553; 1443662570; 2868247571; 4548133152; 6280678354; 7856915206; 9086763921; 9822200849]%Z.
Definition unit10 : Z := 10000000000.
Definition zmoment (p : nat) : Z := fold_right Z.add 0%Z (map (fun '(w, x) => (w * x ^ Z.of_nat p)%Z) (combine zw zx)).
Definition moment_ok (p : nat) : bool :=
  (Z.abs ((Z.of_nat p + 2) * zmoment p - unit10 ^ (Z.of_nat p + 1)) * unit10 <=? (Z.of_nat p + 2) * unit10 ^ (Z.of_nat p + 1))%Z.
Lemma moments_ok : forallb moment_ok (seq 0 16) = true.
Proof. vm_compute. reflexivity. Qed.

Lemma zterm w x p : IZR w / IZR unit10 * (IZR x / IZR unit10) ^ p = IZR (w * x ^ Z.of_nat p) / IZR (unit10 ^ (Z.of_nat p + 1)).
Proof.
  rewrite mult_IZR, <- pow_IZR. replace (Z.of_nat p + 1)%Z with (Z.of_nat (S p)) by lia. rewrite <- pow_IZR.
  assert (U : IZR unit10 <> 0) by (apply IZR_neq; discriminate). pose proof (pow_nonzero _ p U) as Up.
  unfold Rdiv. rewrite Rpow_mult_distr, pow_inv. cbn [pow]. field. split; assumption.
Qed.
Lemma moment p : (p < 16)%nat -> Rabs (rsum 0 8 (fun k => wgt k * absc k ^ p) - 1 / (INR p + 2)) <= 1 / 10 ^ 10.
Proof.
  intros Hp. pose proof moments_ok as H. rewrite forallb_forall in H. specialize (H p ltac:(apply in_seq; lia)).
  unfold moment_ok in H. apply Z.leb_le, IZR_le in H.
  set (D := (unit10 ^ (Z.of_nat p + 1))%Z) in *.
  assert (HD : 0 < IZR D) by (apply IZR_lt; unfold D; apply Z.pow_pos_nonneg; unfold unit10; lia).
  assert (E : rsum 0 8 (fun k => wgt k * absc k ^ p) = IZR (zmoment p) / IZR D).
  { rewrite sum8. unfold wgt, absc, weights, abscissa; rnum.
    repeat match goal with |- context [Z.to_nat ?q] => let v := eval compute in (Z.to_nat q) in change (Z.to_nat q) with v end.
    cbn [nth map]. change 10000000000%Z with unit10. rewrite !zterm. fold D.
    unfold zmoment, zw, zx. cbn [combine map fold_right]. rewrite !plus_IZR. field. lra. }
  rewrite E. rewrite INR_IZR_INZ. rewrite !mult_IZR, abs_IZR, minus_IZR, !mult_IZR, plus_IZR in H.
  set (q := IZR (Z.of_nat p) + 2) in *. assert (Hq : 0 < q) by (unfold q; pose proof (IZR_le 0 (Z.of_nat p) ltac:(lia)); lra).
  assert (HU : IZR unit10 = 10 ^ 10) by (change 10 with (IZR 10); rewrite pow_IZR; reflexivity).
  assert (U : 0 < 10 ^ 10) by (apply pow_lt; lra). rewrite HU in H.
  replace (IZR (zmoment p) / IZR D - 1 / q) with ((q * IZR (zmoment p) - IZR D) / (q * IZR D)) by (field; lra).
  assert (Hqd : 0 < q * IZR D) by (apply Rmult_lt_0_compat; lra).
  unfold Rdiv. rewrite Rabs_mult, (Rabs_right (/ _)) by (left; apply Rinv_0_lt_compat, Hqd).
  apply Rmult_le_reg_r with (q * IZR D * 10 ^ 10); [apply Rmult_lt_0_compat; lra|].
  set (x := Rabs _) in *. set (u := 10 ^ 10) in *.
  replace (x * / (q * IZR D) * (q * IZR D * u)) with (x * u) by (field; lra).
  replace (1 * / u * (q * IZR D * u)) with (q * IZR D) by (field; lra). exact H.
Qed.

Lemma poly_continuous c x : continuous (poly c) x.
Proof.
  induction c as [|a c IH]; cbn [poly].
  - apply continuous_const.
  - apply (continuous_plus (fun _ => a) (fun x => x * poly c x)); [apply continuous_const|].
    apply (continuous_mult (fun x => x) (poly c)); [apply continuous_id|exact IH].
Qed.
Lemma pow_continuous p x : continuous (fun x : R => x ^ p) x.
Proof. apply (ex_derive_continuous (fun x : R => x ^ p)). auto_derive. auto. Qed.
Lemma xpoly_integrable p c a b : ex_RInt (fun x => x ^ p * poly c x) a b.
Proof.
  apply (@ex_RInt_continuous R_CompleteNormedModule). intros x _.
  apply (continuous_mult (fun x => x ^ p) (poly c)); [apply pow_continuous|apply poly_continuous].
Qed.
Lemma RInt_pow01 p : RInt (fun x : R => x ^ p) 0 1 = 1 / (INR p + 1).
Proof.
  pose proof (pos_INR p) as HP.
  apply is_RInt_unique.
  replace (1 / (INR p + 1)) with (minus ((fun x => x ^ (S p) / (INR p + 1)) 1) ((fun x => x ^ (S p) / (INR p + 1)) 0)).
  - apply (is_RInt_derive (fun x => x ^ (S p) / (INR p + 1)) (fun x => x ^ p)).
    + intros x _. auto_derive; auto. change (match p with O => 1 | S _ => INR p + 1 end) with (INR (S p)).
      rewrite ?S_INR. cbn [pred]. field. lra.
    + intros x _. apply pow_continuous.
  - unfold minus, plus, opp; cbn [pow]; cbn. rewrite pow1. field. lra.
Qed.

Lemma quadrature c : forall p, (p + length c <= 16)%nat ->
  Rabs (rsum 0 8 (fun k => wgt k * (absc k ^ p * poly c (absc k))) - RInt (fun x => x ^ S p * poly c x) 0 1)
  <= size1 c / 10 ^ 10.
Proof.
  induction c as [|a c IH]; intros p Hp; cbn [poly size1].
  - rewrite rsum_0 by (intros; ring).
    rewrite (RInt_ext _ (fun _ => 0)) by (intros; change (@eq R (x ^ S p * 0) 0); ring).
    rewrite RInt_const. unfold scal; cbn; unfold mult; cbn. rewrite Rmult_0_r, Rminus_0_r, Rabs_R0. lra.
  - cbn [length] in Hp. specialize (IH (S p) ltac:(lia)).
    rewrite (rsum_ext 0 8 _ (fun k => a * (wgt k * absc k ^ p) + wgt k * (absc k ^ S p * poly c (absc k))))
      by (intros; cbn [pow]; ring).
    rewrite rsum_plus, rsum_scal.
    assert (E : RInt (fun x => x ^ S p * (a + x * poly c x)) 0 1 = a * (1 / (INR p + 2)) + RInt (fun x => x ^ S (S p) * poly c x) 0 1).
    { rewrite (RInt_ext _ (fun x => plus (scal a (x ^ S p)) (x ^ S (S p) * poly c x))).
      - assert (I : ex_RInt (fun x : R => x ^ S p) 0 1)
          by (apply (@ex_RInt_continuous R_CompleteNormedModule); intros; apply pow_continuous).
        apply (eq_trans (RInt_plus (V := R_CompleteNormedModule) (fun x => scal a (x ^ S p)) (fun x => x ^ S (S p) * poly c x) 0 1
          (ex_RInt_scal (V := R_NormedModule) (fun x : R => x ^ S p) 0 1 a I) (xpoly_integrable (S (S p)) c 0 1))).
        match goal with |- AbelianGroup.plus _ _ ?x ?y = _ => change (x + y = a * (1 / (INR p + 2)) + y)
        | |- plus ?x ?y = _ => change (x + y = a * (1 / (INR p + 2)) + y) end.
        apply (f_equal (fun q => q + RInt (fun x => x ^ S (S p) * poly c x) 0 1)).
        apply (eq_trans (RInt_scal (V := R_CompleteNormedModule) (fun x : R => x ^ S p) 0 1 a I)).
        rewrite RInt_pow01. rewrite S_INR. change (@eq R (a * (1 / (INR p + 1 + 1))) (a * (1 / (INR p + 2)))). f_equal. f_equal. ring.
      - intros x _. change (@eq R (x ^ S p * (a + x * poly c x)) (a * x ^ S p + x ^ S (S p) * poly c x)). cbn [pow]. ring. }
    rewrite E. pose proof (moment p ltac:(lia)) as Hm.
    replace (_ + _ - _) with (a * (rsum 0 8 (fun k => wgt k * absc k ^ p) - 1 / (INR p + 2)) +
      (rsum 0 8 (fun k => wgt k * (absc k ^ S p * poly c (absc k))) - RInt (fun x => x ^ S (S p) * poly c x) 0 1)) by ring.
    eapply Rle_trans; [apply Rabs_triang|]. rewrite Rabs_mult.
    apply Rle_trans with (Rabs a * (1 / 10 ^ 10) + size1 c / 10 ^ 10).
    + apply Rplus_le_compat; [apply Rmult_le_compat_l; [apply Rabs_pos|exact Hm]|exact IH].
    + right. field.
Qed.
