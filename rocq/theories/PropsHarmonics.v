(* Property theorems C110: the harmonics of a homogeneous slab are its standing waves,
   and all of them are reported. [one_group_slab] is in ProofsSlab.v, [finds_modes] in
   ProofsDominant.v. *)
From Coq Require Import String ZArith List Bool Lia Reals Lra Permutation Sorted.
From Verif Require Import Base BaseLemmas NumR LinAlg Blocks PowerMethod ModelNumTools ModelEigen ModelMesh
  ModelReactor ModelDiffusion ProofsEigen ProofsMesh ProofsDiffusion ProofsDiffusionR PropsDiffusion
  ProofsConverge ProofsConvergeD PropsConverge ProofsInfinite ProofsSlab PropsSlabFactor ProofsDominant PropsDominant ProofsWaves.
Import ListNotations.
Local Open Scope R_scope.

(* What the albedo asks of the wave number theta per cell, for waves that are even and
   odd about the middle of n cells of h cm. *)
Definition even_wave (a h df : R) (n : Z) (theta : R) : Prop := 0 <= theta < PI /\
  2 * (1 + a) * (2 * df / h) * (sin (theta / 2) * sin (IZR n * theta / 2)) = (1 - a) * (cos (theta / 2) * cos (IZR n * theta / 2)).
Definition odd_wave (a h df : R) (n : Z) (theta : R) : Prop := 0 < theta < PI /\
  2 * (1 + a) * (2 * df / h) * (sin (theta / 2) * cos (IZR n * theta / 2)) = - (1 - a) * (cos (theta / 2) * sin (IZR n * theta / 2)).

(* flux behind the face over flux in the cell before it *)
Definition ratio (a h df : R) : R := (2 * (1 + a) * df / h - (1 - a) / 2) / (2 * (1 + a) * df / h + (1 - a) / 2).

Lemma ratio_den a h df : 0 <= a <= 1 -> 0 < h -> 0 < df -> 0 < 2 * (1 + a) * df / h /\ 0 < 2 * (1 + a) * df / h + (1 - a) / 2.
Proof. intros Ha Hh Hd. assert (0 < 2 * (1 + a) * df / h) by (apply Rdiv_lt_0_compat; nra). lra. Qed.
Lemma ratio_range a h df : 0 <= a <= 1 -> 0 < h -> 0 < df -> -1 < ratio a h df <= 1.
Proof.
  intros Ha Hh Hd. destruct (ratio_den a h df Ha Hh Hd) as [C D]. unfold ratio. set (c := 2 * (1 + a) * df / h) in *. set (b := (1 - a) / 2) in *. assert (0 <= b) by (unfold b; lra).
  split; apply Rmult_lt_reg_r with (c + b) || apply Rmult_le_reg_r with (c + b); try exact D; unfold Rdiv; rewrite Rmult_assoc, Rinv_l by lra; lra.
Qed.
Lemma ratio_iff a h df p q : 0 <= a <= 1 -> 0 < h -> 0 < df -> (p = ratio a h df * q <-> 2 * (1 + a) * (2 * df / h) * (q - p) = (1 - a) * (q + p)).
Proof.
  intros Ha Hh Hd. destruct (ratio_den a h df Ha Hh Hd) as [C D]. unfold ratio. replace (2 * (1 + a) * (2 * df / h)) with (2 * (2 * (1 + a) * df / h)) by (field; lra).
  set (c := 2 * (1 + a) * df / h) in *. set (b := (1 - a) / 2) in *. replace (1 - a) with (2 * b) by (unfold b; field). split; intros E.
  - rewrite E. field. lra.
  - apply Rmult_eq_reg_l with (c + b); [|lra]. replace ((c + b) * ((c - b) / (c + b) * q)) with ((c - b) * q) by (field; lra). lra.
Qed.
Lemma even_face a h df n theta : 0 <= a <= 1 -> 0 < h -> 0 < df ->
  (cos (theta * ((IZR n + 1) / 2)) = ratio a h df * cos (theta * ((IZR n - 1) / 2)) <->
   2 * (1 + a) * (2 * df / h) * (sin (theta / 2) * sin (IZR n * theta / 2)) = (1 - a) * (cos (theta / 2) * cos (IZR n * theta / 2))).
Proof.
  intros Ha Hh Hd. rewrite ratio_iff by assumption. replace (theta * ((IZR n + 1) / 2)) with (IZR n * theta / 2 + theta / 2) by field. replace (theta * ((IZR n - 1) / 2)) with (IZR n * theta / 2 - theta / 2) by field.
  rewrite cos_plus, cos_minus. split; intros E; lra.
Qed.
Lemma odd_face a h df n theta : 0 <= a <= 1 -> 0 < h -> 0 < df ->
  (sin (theta * ((IZR n + 1) / 2)) = ratio a h df * sin (theta * ((IZR n - 1) / 2)) <->
   2 * (1 + a) * (2 * df / h) * (sin (theta / 2) * cos (IZR n * theta / 2)) = - (1 - a) * (cos (theta / 2) * sin (IZR n * theta / 2))).
Proof.
  intros Ha Hh Hd. rewrite ratio_iff by assumption. replace (theta * ((IZR n + 1) / 2)) with (IZR n * theta / 2 + theta / 2) by field. replace (theta * ((IZR n - 1) / 2)) with (IZR n * theta / 2 - theta / 2) by field.
  rewrite sin_plus, sin_minus. split; intros E; lra.
Qed.

Section Slab.
Variables (ms : mesh R) (sd : solverData R) (a h df st ss nsf : R).
Hypothesis H : one_group_slab ms sd a h df st ss nsf.
Notation n := (ms_cells ms).
Notation d := (mesh_tables ms).

(* the loss matrix on fluxes that go on behind the faces *)
Lemma slab_apply M F X : diffusionSystem PI ms sd = Ok (M, F) -> X (-1)%Z = ratio a h df * X 0%Z -> X n = ratio a h df * X (n - 1)%Z ->
  forall m, (0 <= m < n)%Z -> app n (mat_at M) X m = df / h * (2 * X m - X (m - 1)%Z - X (m + 1)%Z) + h * (st - ss) * X m /\
    app n (mat_at F) X m = h * nsf * X m.
Proof using H.
  intros E XL XR. destruct (slab_system _ _ _ _ _ _ _ _ H) as (M1 & F1 & E1 & R1 & C1 & R2 & C2 & L & P). rewrite E in E1. injection E1 as <- <-.
  pose proof (og_cells _ _ _ _ _ _ _ _ H) as Hn. pose proof (og_diff _ _ _ _ _ _ _ _ H) as Hd. pose proof (og_width _ _ _ _ _ _ _ _ H) as Hh. pose proof (og_albedo _ _ _ _ _ _ _ _ H) as Ha.
  pose proof (og_energies _ _ _ _ _ _ _ _ H) as He. pose proof (og_tables _ _ _ _ _ _ _ _ H) as T. cbn zeta in T.
  apply (ratio_iff a h df _ _ Ha Hh Hd) in XL. apply (ratio_iff a h df _ _ Ha Hh Hd) in XR.
  set (x := mkvec n X).
  assert (HJ : currents ms sd d a a (phi_of ms (vat x)) (fun _ m => df / h * (X (m - 1)%Z - X m)) (fun _ m => (X (m - 1)%Z + X m) / 2)).
  { unfold currents, phi_of. cbn [x vat]. split; [|split].
    - intros e m He' Hm. assert (e = 0)%Z as -> by lia. rewrite Z.mul_0_l, !Z.add_0_r.
      destruct (T (m - 1)%Z ltac:(lia)) as (-> & -> & _). destruct (T m ltac:(lia)) as (-> & -> & _). split; field; lra.
    - intros e He'. assert (e = 0)%Z as -> by lia. rewrite Z.mul_0_l, !Z.add_0_r. destruct (T 0%Z ltac:(lia)) as (-> & -> & _).
      change (0 - 1)%Z with (-1)%Z. split; [field; lra|].
      replace (- (df / h * (X (-1)%Z - X 0%Z)) * (2 * (1 + a))) with (2 * (1 + a) * (2 * df / h) * (X 0%Z - X (-1)%Z) / 2) by (field; lra). rewrite XL. field.
    - intros e He'. assert (e = 0)%Z as -> by lia. rewrite Z.mul_0_l, !Z.add_0_r. destruct (T (n - 1)%Z ltac:(lia)) as (-> & -> & _).
      split; [field; lra|].
      replace (df / h * (X (n - 1)%Z - X n) * (2 * (1 + a))) with (2 * (1 + a) * (2 * df / h) * (X (n - 1)%Z - X n) / 2) by (field; lra). rewrite XR. field. }
  intros m Hm. pose proof (L x _ _ HJ m Hm) as Q. pose proof (P x m Hm) as Q'. rewrite mvmul_at, C1 in Q. rewrite mvmul_at, C2 in Q'. cbn [x vat] in Q, Q'.
  unfold app. split; [|exact Q']. rewrite Q. replace (m + 1 - 1)%Z with m by lia. ring.
Qed.

Lemma slab_source m : (0 <= m < n)%Z -> tchi d 0 m * (tni d 0 m * tfis d 0 m * tV d m) = h * nsf.
Proof using H.
  intros Hm. destruct (slab_sizes _ _ _ _ _ _ _ _ H) as [_ HV]. pose proof (og_tables _ _ _ _ _ _ _ _ H) as T. cbn zeta in T. destruct (T m Hm) as (Tx & _ & _ & _ & X & N).
  rewrite X, N, HV, Tx. ring.
Qed.

(* a solution is a wave *)
Lemma slab_waves M F k x : diffusionSystem PI ms sd = Ok (M, F) -> 0 < k -> (exists m, (0 <= m < n)%Z /\ x m <> 0) ->
  (forall m, (0 <= m < n)%Z -> app n (mat_at M) x m = 1 / k * (h * nsf * x m)) ->
  exists theta A, A <> 0 /\ k = nsf / (st - ss + df * (2 * (1 - cos theta) / (h * h))) /\
   (even_wave a h df n theta /\ (forall m, (0 <= m < n)%Z -> x m = A * cos (theta * (IZR m - (IZR n - 1) / 2))) \/
    odd_wave a h df n theta /\ (forall m, (0 <= m < n)%Z -> x m = A * sin (theta * (IZR m - (IZR n - 1) / 2)))).
Proof using H.
  intros E Hk Nz Hx. pose proof (og_cells _ _ _ _ _ _ _ _ H) as Hn. pose proof (og_diff _ _ _ _ _ _ _ _ H) as Hd. pose proof (og_width _ _ _ _ _ _ _ _ H) as Hh. pose proof (og_albedo _ _ _ _ _ _ _ _ H) as Ha.
  pose proof (og_fiss _ _ _ _ _ _ _ _ H) as Hf. pose proof (og_scatt _ _ _ _ _ _ _ _ H) as Hs.
  set (rho := ratio a h df). set (X m := if (m =? -1)%Z then rho * x 0%Z else if (m =? n)%Z then rho * x (n - 1)%Z else x m).
  assert (XE : forall m, (0 <= m < n)%Z -> X m = x m) by (intros m Hm; unfold X; destruct (Z.eqb_spec m (-1)) as [Q|_]; [lia|]; destruct (Z.eqb_spec m (ms_cells ms)) as [Q|_]; [lia|reflexivity]).
  assert (XL : X (-1)%Z = rho * X 0%Z) by (rewrite (XE 0%Z) by lia; reflexivity).
  assert (XR : X n = rho * X (n - 1)%Z) by (rewrite (XE (n - 1)%Z) by lia; unfold X; destruct (Z.eqb_spec n (-1)) as [Q|_]; [lia|]; rewrite Z.eqb_refl; reflexivity).
  set (mu := (nsf / k - (st - ss)) * (h * h) / df).
  destruct (waves n X mu rho Hn (ratio_range a h df Ha Hh Hd) XL XR) as (theta & A & Ht & Em & HA & W).
  - intros m Hm. destruct (slab_apply M F X E XL XR m Hm) as [Q _]. assert (Q' : app n (mat_at M) X m = 1 / k * (h * nsf * X m)).
    { rewrite XE by exact Hm. rewrite <- Hx by exact Hm. apply rsum_ext. intros j Hj. rewrite XE by exact Hj. reflexivity. }
    rewrite Q in Q'. unfold mu. apply Rmult_eq_reg_l with (df / h); [|apply Rgt_not_eq; apply Rdiv_lt_0_compat; assumption].
    replace (df / h * ((nsf / k - (st - ss)) * (h * h) / df * X m)) with (1 / k * (h * nsf * X m) - h * (st - ss) * X m) by (field; lra). lra.
  - destruct Nz as (m & Hm & Nm). exists m. split; [exact Hm|]. rewrite XE by exact Hm. exact Nm.
  - exists theta, A. split; [exact HA|]. split.
    + replace (st - ss + df * (2 * (1 - cos theta) / (h * h))) with (nsf / k); [field; lra|]. rewrite <- Em. unfold mu. field. lra.
    + destruct W as [[B W] | (T0 & B & W)]; [left|right].
      * split; [split; [exact Ht|apply even_face; assumption]|]. intros m Hm. rewrite <- XE by exact Hm. rewrite W by lia. reflexivity.
      * split; [split; [lra|apply odd_face; assumption]|]. intros m Hm. rewrite <- XE by exact Hm. rewrite W by lia. reflexivity.
Qed.

(* a wave is a solution *)
Lemma wave_solves M F theta X : diffusionSystem PI ms sd = Ok (M, F) -> X (-1)%Z = ratio a h df * X 0%Z -> X n = ratio a h df * X (n - 1)%Z ->
  (forall m, X (m - 1)%Z + X (m + 1)%Z = 2 * cos theta * X m) -> (exists m, (0 <= m < n)%Z /\ X m <> 0) ->
  complex_mode M F ((st - ss + df * (2 * (1 - cos theta) / (h * h))) / nsf, 0) X (fun _ => 0).
Proof using H.
  intros E XL XR Rec (q & Hq & Nq). destruct (slab_system _ _ _ _ _ _ _ _ H) as (M1 & F1 & E1 & R1 & C1 & R2 & C2 & _). rewrite E in E1. injection E1 as <- <-.
  pose proof (og_diff _ _ _ _ _ _ _ _ H) as Hd. pose proof (og_width _ _ _ _ _ _ _ _ H) as Hh. pose proof (og_fiss _ _ _ _ _ _ _ _ H) as Hf.
  unfold complex_mode. rewrite R1, C1, C2. split; [exists q; auto|]. intros m Hm. cbn [fst snd]. destruct (slab_apply M F X E XL XR m Hm) as [Q Q']. rewrite Q, Q'.
  assert (Z : forall A : mat R, app n (mat_at A) (fun _ => 0) m = 0) by (intros A; apply rsum_0; intros; ring). rewrite !Z. split; [|ring].
  replace (2 * X m - X (m - 1)%Z - X (m + 1)%Z) with (2 * (1 - cos theta) * X m) by (pose proof (Rec m); lra). field. lra.
Qed.

Lemma wave_exists M F theta : diffusionSystem PI ms sd = Ok (M, F) -> even_wave a h df n theta \/ odd_wave a h df n theta ->
  exists X, complex_mode M F ((st - ss + df * (2 * (1 - cos theta) / (h * h))) / nsf, 0) X (fun _ => 0).
Proof using H.
  intros E W. pose proof (og_cells _ _ _ _ _ _ _ _ H) as Hn. pose proof (og_diff _ _ _ _ _ _ _ _ H) as Hd. pose proof (og_width _ _ _ _ _ _ _ _ H) as Hh. pose proof (og_albedo _ _ _ _ _ _ _ _ H) as Ha.
  destruct (place_ends n) as (P0 & P1 & P2 & P3). destruct W as [[HT W] | [HT W]].
  - apply (even_face a h df n theta Ha Hh Hd) in W. exists (fun m => cos (theta * place n m)). apply wave_solves; [exact E| | | |].
    + rewrite P0, P2, <- !Ropp_mult_distr_r, !cos_neg. exact W.
    + rewrite P1, P3. exact W.
    + intros m. rewrite place_next, place_prev. set (t := place n m). replace (theta * (t - 1)) with (theta * t - theta) by ring. replace (theta * (t + 1)) with (theta * t + theta) by ring.
      rewrite cos_minus, cos_plus. ring.
    + destruct (Req_dec (cos (theta * place n 0)) 0) as [Z0 | N0]; [|exists 0%Z; split; [lia|exact N0]]. exists 1%Z. split; [lia|]. intros Z1.
      change 1%Z with (0 + 1)%Z in Z1. rewrite place_next in Z1. replace (theta * (place n 0 + 1)) with (theta * place n 0 + theta) in Z1 by ring. rewrite cos_plus, Z0 in Z1.
      pose proof (sin2_cos2 (theta * place n 0)) as T. unfold Rsqr in T. rewrite Z0 in T. assert (Q : sin (theta * place n 0) * sin theta = 0) by lra.
      apply Rmult_integral in Q. destruct Q as [Q | Q]; [rewrite Q in T; lra|]. destruct (proj1 HT) as [T0 | T0].
      * pose proof (sin_gt_0 theta T0 (proj2 HT)). lra.
      * rewrite <- T0, Rmult_0_l, cos_0 in Z0. lra.
  - apply (odd_face a h df n theta Ha Hh Hd) in W. exists (fun m => sin (theta * place n m)). apply wave_solves; [exact E| | | |].
    + rewrite P0, P2, <- !Ropp_mult_distr_r, !sin_neg, W. ring.
    + rewrite P1, P3. exact W.
    + intros m. rewrite place_next, place_prev. set (t := place n m). replace (theta * (t - 1)) with (theta * t - theta) by ring. replace (theta * (t + 1)) with (theta * t + theta) by ring.
      rewrite sin_minus, sin_plus. ring.
    + destruct (Req_dec (sin (theta * place n 0)) 0) as [Z0 | N0]; [|exists 0%Z; split; [lia|exact N0]]. exists 1%Z. split; [lia|]. intros Z1.
      change 1%Z with (0 + 1)%Z in Z1. rewrite place_next in Z1. replace (theta * (place n 0 + 1)) with (theta * place n 0 + theta) in Z1 by ring. rewrite sin_plus, Z0 in Z1.
      pose proof (sin2_cos2 (theta * place n 0)) as T. unfold Rsqr in T. rewrite Z0 in T. assert (Q : cos (theta * place n 0) * sin theta = 0) by lra.
      apply Rmult_integral in Q. destruct Q as [Q | Q]; [rewrite Q in T; lra|]. pose proof (sin_gt_0 theta (proj1 HT) (proj2 HT)). lra.
Qed.
End Slab.

(* Every mode in the list is a standing wave, and every standing wave with a factor
   above the tolerance of the program is in the list. *)
Theorem C110_harmonics solver sort eig ms sd a h df st ss nsf M F k phi : one_group_slab ms sd a h df st ss nsf -> diffusionSystem PI ms sd = Ok (M, F) ->
  settles solver M F k phi -> sorts sort -> finds_modes eig M F -> 10 / 2 ^ 52 < k -> sd_eig sd = EigALL ->
  let n := ms_cells ms in let factor theta := nsf / (st - ss + df * (2 * (1 - cos theta) / (h * h))) in
  exists er, solveEigen solver sort eig M F sd = Ok er /\
  (forall k' x, In (k', x) (er_modes er) -> 10 / 2 ^ 52 < k' /\ vlen x = n /\ vnorm1 x = 1 /\ exists theta A, A <> 0 /\ k' = factor theta /\
     (even_wave a h df n theta /\ (forall m, (0 <= m < n)%Z -> vat x m = A * cos (theta * (IZR m - (IZR n - 1) / 2))) \/
      odd_wave a h df n theta /\ (forall m, (0 <= m < n)%Z -> vat x m = A * sin (theta * (IZR m - (IZR n - 1) / 2))))) /\
  (forall theta, even_wave a h df n theta \/ odd_wave a h df n theta -> 10 / 2 ^ 52 < factor theta -> exists x, In (factor theta, x) (er_modes er)).
Proof.
  intros H E Hs Hsort Heig Hk Hall n factor. pose proof (og_energies _ _ _ _ _ _ _ _ H) as He. pose proof (og_dir _ _ _ _ _ _ _ _ H) as Hdir.
  destruct (one_group_list solver sort eig ms sd _ a a M F k phi (slab_case _ _ _ _ _ _ _ _ H) He Hdir E Hs Hsort Heig Hk Hall) as (_ & er & Er & _ & Pm & L). fold n in L.
  exists er. split; [exact Er|]. split.
  - intros k' x Hin. destruct (L _ _ Hin) as (Hk' & Lx & Nx & Ex). split; [exact Hk'|]. split; [exact Lx|]. assert (Ev0 : 0 < 10 / 2 ^ 52) by (apply Rdiv_lt_0_compat; [lra|apply pow_lt; lra]). split; [exact Nx|].
    apply (slab_waves ms sd a h df st ss nsf H M F k' (vat x) E ltac:(lra)).
    + destruct (bounded_exists_dec (fun r => vat x r <> 0) (fun r => match Req_EM_T (vat x r) 0 with left e => right (fun c => c e) | right c => left c end) (Z.to_nat n)) as [(r & Hr & Nr) | No].
      * exists r. split; [fold n; lia|exact Nr].
      * exfalso. assert (Z : vnorm1 x = 0); [|lra]. unfold vnorm1. rewrite Lx. apply rsum_0. intros j Hj. destruct (Req_dec (vat x j) 0) as [-> | Nj]; [apply Rabs_R0|]. exfalso. apply (No j); [lia|exact Nj].
    + intros m Hm. fold n in Hm |- *. rewrite Ex by exact Hm. rewrite (slab_source _ _ _ _ _ _ _ _ H) by exact Hm. reflexivity.
  - intros theta W Hf. destruct (wave_exists _ _ _ _ _ _ _ _ H M F theta E W) as (X & HX). destruct Heig as (_ & _ & _ & HC). destruct (HC _ _ HX) as (i & Hi & Ei).
    set (vals := mkvec (vlen (fst (eig M F))) (fun i => cinv (vat (fst (eig M F)) i))) in *.
    assert (Ef : fst (vat vals i) = factor theta).
    { cbn [vals vat]. rewrite Ei. cbn [cinv fst snd]. rnum. unfold factor. pose proof (og_fiss _ _ _ _ _ _ _ _ H) as Hnf. pose proof (og_scatt _ _ _ _ _ _ _ _ H) as Hsc.
      pose proof (leakage_nonneg _ _ _ _ _ _ _ _ H theta) as HL. unfold leakage in HL. field. split; [pose proof (og_width _ _ _ _ _ _ _ _ H); lra|split; [|lra]].
      pose proof (og_width _ _ _ _ _ _ _ _ H) as Hh. apply Rgt_not_eq. replace ((st - ss) * (h * h) + df * (2 * (1 - cos theta))) with ((st - ss + df * (2 * (1 - cos theta) / (h * h))) * (h * h)) by (field; lra).
      apply Rmult_lt_0_compat; nra. }
    exists (snd (scaled_mode vals (snd (eig M F)) i)). apply (Permutation_in _ (Permutation_sym Pm)). rewrite <- Ef. change (In (scaled_mode vals (snd (eig M F)) i) (map (scaled_mode vals (snd (eig M F))) (filter (keep vals) (zseq (vlen (fst (eig M F))))))).
    apply in_map. apply filter_In. split; [apply zseq_in; exact Hi|]. unfold keep. apply Rltb_true. rewrite Ef. exact Hf.
Qed.
Print Assumptions C110_harmonics.

(* A slab with reflecting faces: half waves that fit into the slab. *)
Theorem C110_reflected solver sort eig ms sd h df st ss nsf M F k phi : one_group_slab ms sd 1 h df st ss nsf -> diffusionSystem PI ms sd = Ok (M, F) ->
  settles solver M F k phi -> sorts sort -> finds_modes eig M F -> 10 / 2 ^ 52 < k -> sd_eig sd = EigALL ->
  exists er, solveEigen solver sort eig M F sd = Ok er /\
  forall k', (exists x, In (k', x) (er_modes er)) <->
    10 / 2 ^ 52 < k' /\ exists j, (0 <= j < ms_cells ms)%Z /\ k' = nsf / (st - ss + df * (2 * (1 - cos (IZR j * PI / IZR (ms_cells ms))) / (h * h))).
Proof.
  intros H E Hs Hsort Heig Hk Hall. destruct (C110_harmonics solver sort eig ms sd 1 h df st ss nsf M F k phi H E Hs Hsort Heig Hk Hall) as (er & Er & L & C).
  exists er. split; [exact Er|]. set (n := ms_cells ms) in *. pose proof (og_cells _ _ _ _ _ _ _ _ H) as Hn. fold n in Hn. assert (N : 2 <= IZR n) by (apply (IZR_le 2); lia).
  pose proof (og_diff _ _ _ _ _ _ _ _ H) as Hd. pose proof (og_width _ _ _ _ _ _ _ _ H) as Hh. pose proof PI_RGT_0 as HP.
  assert (Cf : 0 < 2 * (1 + 1) * (2 * df / h)) by (apply Rmult_lt_0_compat; [lra|apply Rdiv_lt_0_compat; lra]).
  assert (InR : forall j theta, 0 <= theta < PI -> theta = IZR j * PI / IZR n -> (0 <= j < n)%Z).
  { intros j theta Ht Ej. assert (Q : IZR j * PI = theta * IZR n) by (rewrite Ej; field; lra). split; apply Znot_gt_le || apply Z.nle_gt; intros G.
    - assert (J : IZR j <= -1) by (apply (IZR_le j (-1)); lia). pose proof (Rmult_le_pos theta (IZR n) ltac:(lra) ltac:(lra)). apply (Rmult_le_compat_r PI) in J; lra.
    - assert (J : IZR n <= IZR j) by (apply IZR_le; lia). apply (Rmult_le_compat_r PI) in J; [|lra]. pose proof (Rmult_lt_compat_r (IZR n) theta PI ltac:(lra) (proj2 Ht)). lra. }
  intros k'. split.
  - intros (x & Hin). destruct (L _ _ Hin) as (Hk' & _ & _ & theta & A & _ & Ek & W). split; [exact Hk'|].
    assert (J : exists j, (0 <= j < n)%Z /\ theta = IZR j * PI / IZR n); [|destruct J as (j & Hj & Ej); exists j; split; [exact Hj|]; rewrite <- Ej; exact Ek].
    destruct W as [[[HT W] _] | [[HT W] _]].
    + replace ((1 - 1) * (cos (theta / 2) * cos (IZR n * theta / 2))) with 0 in W by ring. apply Rmult_integral in W. destruct W as [W | W]; [lra|]. apply Rmult_integral in W. destruct W as [W | W].
      * assert (T0 : theta = 0) by (destruct (proj1 HT) as [T0 | T0]; [|auto]; pose proof (sin_gt_0 (theta / 2) ltac:(lra) ltac:(lra)); lra).
        exists 0%Z. split; [lia|]. rewrite T0. field. lra.
      * apply sin_eq_0_0 in W. destruct W as (q & Eq). assert (Ej : theta = IZR (2 * q) * PI / IZR n) by (rewrite mult_IZR; replace (IZR 2 * IZR q * PI) with (2 * (IZR n * theta / 2)) by (rewrite Eq; ring); field; lra).
        exists (2 * q)%Z. split; [exact (InR _ _ HT Ej)|exact Ej].
    + replace (- (1 - 1) * (cos (theta / 2) * sin (IZR n * theta / 2))) with 0 in W by ring. apply Rmult_integral in W. destruct W as [W | W]; [lra|]. apply Rmult_integral in W. destruct W as [W | W].
      * pose proof (sin_gt_0 (theta / 2) ltac:(lra) ltac:(lra)). lra.
      * apply cos_eq_0_0 in W. destruct W as (q & Eq). assert (Ej : theta = IZR (2 * q + 1) * PI / IZR n) by (rewrite plus_IZR, mult_IZR; replace ((IZR 2 * IZR q + 1) * PI) with (2 * (IZR n * theta / 2)) by (rewrite Eq; field); field; lra).
        exists (2 * q + 1)%Z. split; [exact (InR _ _ (conj (Rlt_le _ _ (proj1 HT)) (proj2 HT)) Ej)|exact Ej].
  - intros (Hk' & j & Hj & Ej). rewrite Ej in Hk' |- *. apply C; [|exact Hk']. set (theta := IZR j * PI / IZR n).
    assert (J0 : 0 <= IZR j) by (apply (IZR_le 0); lia). assert (J1 : IZR j + 1 <= IZR n) by (rewrite <- plus_IZR; apply IZR_le; lia).
    assert (HT : 0 <= theta < PI).
    { unfold theta. split; [apply Rmult_le_pos; [nra|left; apply Rinv_0_lt_compat; lra]|]. apply Rmult_lt_reg_r with (IZR n); [lra|]. unfold Rdiv. rewrite Rmult_assoc, Rinv_l by lra. nra. }
    assert (En : IZR n * theta / 2 = IZR j * PI / 2) by (unfold theta; field; lra).
    destruct (Z.Even_or_Odd j) as [[q Eq] | [q Eq]].
    + left. split; [exact HT|]. rewrite En, (sin_eq_0_1 (IZR j * PI / 2)); [ring|]. exists q. rewrite Eq, mult_IZR. field.
    + right. split.
      * split; [|lra]. destruct (proj1 HT) as [Q | Q]; [exact Q|]. exfalso. assert (1 <= IZR j) by (apply (IZR_le 1); lia). assert (IZR j * PI = 0) by (replace (IZR j * PI) with (theta * IZR n) by (unfold theta; field; lra); rewrite <- Q; ring). nra.
      * rewrite En, (cos_eq_0_1 (IZR j * PI / 2)); [ring|]. exists q. rewrite Eq, plus_IZR, mult_IZR. field.
Qed.
Print Assumptions C110_reflected.

(* two cells between reflecting faces: the factors 4 and 2 *)
Example C110_met : exists solver M F phi er,
  let sd := mkSolverData DIFFUSION (1 / 1000) 100 1 [1; 1] [] 1 FORWARD EigALL in
  one_group_slab (cells_of 2 4) sd 1 2 1 1 (1 / 2) 2 /\ diffusionSystem PI (cells_of 2 4) sd = Ok (M, F) /\ settles solver M F 4 phi /\ sorts isort /\ finds_modes two_eig M F /\
  10 / 2 ^ 52 < 4 /\ sd_eig sd = EigALL /\ solveEigen solver isort two_eig M F sd = Ok er /\ (exists x, In (4, x) (er_modes er)) /\ (exists x, In (2, x) (er_modes er)) /\
  forall k' x, In (k', x) (er_modes er) -> k' = 4 \/ k' = 2.
Proof.
  destruct C108_met as (solver & M & F & phi & _ & _ & _ & E & Hs & So & Fi & Hk & Ha & _). exists solver, M, F, phi.
  pose proof (cells_slab 2 4 1 ltac:(lia) ltac:(lra) ltac:(lra)) as H0. replace (4 / 2) with 2 in H0 by lra.
  set (sd := mkSolverData DIFFUSION (1 / 1000) 100 1 [1; 1] [] 1 FORWARD EigALL) in *.
  assert (H : one_group_slab (cells_of 2 4) sd 1 2 1 1 (1 / 2) 2) by (destruct H0; split; assumption).
  destruct (C110_reflected solver isort two_eig (cells_of 2 4) sd 2 1 1 (1 / 2) 2 M F 4 phi H E Hs So Fi Hk Ha) as (er & Er & L). exists er. cbv zeta.
  cbn [cells_of ms_cells] in L. assert (Sm : 10 / 2 ^ 52 < 2). { apply Rmult_lt_reg_r with (2 ^ 52); [apply pow_lt; lra|]. unfold Rdiv. rewrite Rmult_assoc, Rinv_l by (apply pow_nonzero; lra). assert (16 <= 2 ^ 52) by (replace 16 with (2 ^ 4) by ring; apply Rle_pow; [lra|lia]). lra. }
  assert (F0 : 2 / (1 - 1 / 2 + 1 * (2 * (1 - cos (0 * PI / 2)) / (2 * 2))) = 4) by (replace (0 * PI / 2) with 0 by field; rewrite cos_0; field).
  assert (F1 : 2 / (1 - 1 / 2 + 1 * (2 * (1 - cos (1 * PI / 2)) / (2 * 2))) = 2) by (replace (1 * PI / 2) with (PI / 2) by field; rewrite cos_PI2; field).
  split; [exact H|]. split; [exact E|]. split; [exact Hs|]. split; [exact So|]. split; [exact Fi|]. split; [exact Hk|]. split; [exact Ha|]. split; [exact Er|]. split; [|split].
  - apply L. split; [lra|]. exists 0%Z. split; [lia|]. symmetry. exact F0.
  - apply L. split; [exact Sm|]. exists 1%Z. split; [lia|]. symmetry. exact F1.
  - intros k' x Hin. destruct (proj1 (L k') (ex_intro _ x Hin)) as (_ & j & Hj & Ej). assert (J : j = 0%Z \/ j = 1%Z) by lia. destruct J as [-> | ->]; [left; rewrite Ej; exact F0|right; rewrite Ej; exact F1].
Qed.
