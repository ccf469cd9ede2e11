(* Property theorems C106: the multiplication factor of a homogeneous slab in one
   group diffusion, against the differential equation. [one_group_slab] and
   [face_condition] are in ProofsSlab.v. *)
From Coq Require Import String ZArith List Bool Lia Reals Lra.
From Verif Require Import Base BaseLemmas NumR LinAlg Blocks PowerMethod ModelNumTools ModelEigen ModelMesh
  ModelReactor ModelDiffusion ProofsEigen ProofsMesh ProofsDiffusion ProofsDiffusionR PropsDiffusion
  ProofsConverge ProofsConvergeD PropsConverge ProofsInfinite ProofsSlab.
Import ListNotations.
Local Open Scope R_scope.

(* The diffusion equation of a slab of L cm: - df f'' + sa f = nsf f / K, with f
   positive, and at both faces the outward current - df f' to the flux as (1 - a) to
   2 (1 + a). *)
Definition diffuses (df sa nsf L a K : R) (f : R -> R) : Prop :=
  0 < K /\ exists f', (forall x, 0 <= x <= L -> 0 < f x /\ derivable_pt_lim f x (f' x) /\
    derivable_pt_lim f' x ((sa * f x - nsf * f x / K) / df)) /\
  2 * (1 + a) * (df * f' 0) = (1 - a) * f 0 /\ 2 * (1 + a) * (- df * f' L) = (1 - a) * f L.

(* ---------- the cosine that solves it ---------- *)

Definition buckles (df L a B : R) : Prop := 0 <= B < PI / L /\ 2 * (1 + a) * (df * B * sin (B * L / 2)) = (1 - a) * cos (B * L / 2).

Lemma buckles_exists df L a : 0 < df -> 0 < L -> 0 <= a <= 1 -> exists B, buckles df L a B.
Proof.
  intros Hd HL Ha. pose proof PI_RGT_0 as HP.
  set (g := fun B => 2 * (1 + a) * (df * (B * sin (L / 2 * B))) - (1 - a) * cos (L / 2 * B)).
  assert (Cs : continuity (fun B => sin (L / 2 * B))) by (apply (continuity_comp _ _ (cont_lin _)), continuity_sin).
  assert (Cc : continuity (fun B => cos (L / 2 * B))) by (apply (continuity_comp _ _ (cont_lin _)), continuity_cos).
  assert (Cg : continuity g).
  { apply continuity_minus; [|exact (continuity_scal _ (1 - a) Cc)]. apply (continuity_scal _ (2 * (1 + a))). apply (continuity_scal _ df).
    apply (continuity_mult id _); [exact (derivable_continuous _ derivable_id)|exact Cs]. }
  assert (Pn : 0 < PI / L) by (apply Rdiv_lt_0_compat; lra).
  assert (Ge : 0 < g (PI / L)).
  { unfold g. replace (L / 2 * (PI / L)) with (PI / 2) by (field; lra). rewrite sin_PI2, cos_PI2. rewrite Rmult_0_r, Rmult_1_r, Rminus_0_r.
    apply Rmult_lt_0_compat; [lra|]. apply Rmult_lt_0_compat; [exact Hd|exact Pn]. }
  assert (G0 : g 0 <= 0) by (unfold g; rewrite Rmult_0_r, cos_0; lra).
  destruct (IVT_cor g 0 (PI / L) Cg ltac:(lra) ltac:(nra)) as (t & Ht & Et). exists t. split.
  - split; [apply Ht|]. destruct (proj2 Ht) as [Y|Y]; [exact Y|]. subst t. lra.
  - unfold g in Et. replace (t * L / 2) with (L / 2 * t) by field. lra.
Qed.

Lemma buckles_range df L a B : 0 < L -> buckles df L a B -> 0 <= B /\ 0 <= B * L / 2 < PI / 2.
Proof.
  intros HL [[B0 B1] _]. split; [exact B0|]. apply Rmult_lt_compat_r with (r := L) in B1; [|lra].
  unfold Rdiv in B1. rewrite Rmult_assoc, Rinv_l in B1 by lra. split; [|lra]. apply Rmult_le_pos; [|lra]. apply Rmult_le_pos; lra.
Qed.

Definition wave (B L x : R) : R := cos (B * (x - L / 2)).
Definition wave' (B L x : R) : R := - B * sin (B * (x - L / 2)).
Lemma wave_lin B L x : derivable_pt_lim (fun x => B * (x - L / 2)) x B.
Proof.
  pose proof (derivable_pt_lim_scal _ B x _ (derivable_pt_lim_minus id (fct_cte (L / 2)) x 1 0 (derivable_pt_lim_id x) (derivable_pt_lim_const _ x))) as Q.
  replace (B * (1 - 0)) with B in Q by ring. exact Q.
Qed.
Lemma wave_derive B L x : derivable_pt_lim (wave B L) x (wave' B L x) /\ derivable_pt_lim (wave' B L) x (- (B * B) * wave B L x).
Proof.
  pose proof (wave_lin B L x) as W. unfold wave, wave'. split.
  - replace (- B * sin (B * (x - L / 2))) with (- sin (B * (x - L / 2)) * B) by ring.
    exact (derivable_pt_lim_comp _ cos x _ _ W (derivable_pt_lim_cos _)).
  - replace (- (B * B) * cos (B * (x - L / 2))) with (- B * (cos (B * (x - L / 2)) * B)) by ring.
    apply (derivable_pt_lim_scal (comp sin (fun x => B * (x - L / 2))) (- B)).
    exact (derivable_pt_lim_comp _ sin x _ _ W (derivable_pt_lim_sin _)).
Qed.
Lemma wave_pos df L a B x : 0 < L -> buckles df L a B -> 0 <= x <= L -> 0 < wave B L x.
Proof. intros HL HB Hx. destruct (buckles_range _ _ _ _ HL HB) as [B0 [B1 B2]]. unfold wave. apply cos_gt_0; nra. Qed.
Lemma wave_faces df L a B : buckles df L a B ->
  2 * (1 + a) * (df * wave' B L 0) = (1 - a) * wave B L 0 /\ 2 * (1 + a) * (- df * wave' B L L) = (1 - a) * wave B L L.
Proof.
  intros [_ E]. unfold wave, wave'. replace (B * (0 - L / 2)) with (- (B * L / 2)) by field. replace (B * (L - L / 2)) with (B * L / 2) by field.
  rewrite sin_neg, cos_neg. split; rewrite <- E; ring.
Qed.

Lemma wave_diffuses df sa nsf L a B : 0 < df -> 0 < sa -> 0 < nsf -> 0 < L -> buckles df L a B ->
  diffuses df sa nsf L a (nsf / (sa + df * (B * B))) (wave B L).
Proof.
  intros Hd Hs Hf HL HB. assert (0 <= B * B) by nra. assert (0 < sa + df * (B * B)) by nra. split; [apply Rdiv_lt_0_compat; lra|].
  exists (wave' B L). split; [|exact (wave_faces _ _ _ _ HB)]. intros x Hx. destruct (wave_derive B L x) as [D1 D2].
  split; [exact (wave_pos _ _ _ _ _ HL HB Hx)|]. split; [exact D1|].
  replace ((sa * wave B L x - nsf * wave B L x / (nsf / (sa + df * (B * B)))) / df) with (- (B * B) * wave B L x); [exact D2|]. field. repeat split; lra.
Qed.

(* every positive solution has the factor of the cosine *)
Lemma diffuses_factor df sa nsf L a B K f : 0 < df -> 0 < L -> 0 <= a -> buckles df L a B -> diffuses df sa nsf L a K f -> nsf / K - sa = df * (B * B).
Proof.
  intros Hd HL Ha HB (HK & f' & Hf & F0 & F1). destruct (wave_faces _ _ _ _ HB) as [W0 W1].
  set (w := fun x => f' x * wave B L x - f x * wave' B L x).
  set (w' := fun x => ((sa - nsf / K) / df + B * B) * (f x * wave B L x)).
  assert (D : forall x, 0 <= x <= L -> derivable_pt_lim w x (w' x)).
  { intros x Hx. destruct (Hf x Hx) as (_ & D1 & D2). destruct (wave_derive B L x) as [V1 V2].
    pose proof (derivable_pt_lim_minus _ _ _ _ _ (derivable_pt_lim_mult _ _ _ _ _ D2 V1) (derivable_pt_lim_mult _ _ _ _ _ D1 V2)) as D.
    replace (w' x) with ((sa * f x - nsf * f x / K) / df * wave B L x + f' x * wave' B L x - (f' x * wave' B L x + f x * (- (B * B) * wave B L x)));
      [exact D|]. unfold w'. field. lra. }
  destruct (MVT_cor2 w w' 0 L HL D) as (c & E & Hc).
  assert (Z : 2 * (1 + a) * df <> 0) by (apply Rgt_not_eq; repeat apply Rmult_lt_0_compat; lra).
  assert (Z0 : w 0 = 0).
  { apply Rmult_eq_reg_l with (2 * (1 + a) * df); [|exact Z]. unfold w.
    replace (2 * (1 + a) * df * (f' 0 * wave B L 0 - f 0 * wave' B L 0)) with (2 * (1 + a) * (df * f' 0) * wave B L 0 - f 0 * (2 * (1 + a) * (df * wave' B L 0))) by ring.
    rewrite F0, W0. ring. }
  assert (Z1 : w L = 0).
  { apply Rmult_eq_reg_l with (2 * (1 + a) * df); [|exact Z]. unfold w.
    replace (2 * (1 + a) * df * (f' L * wave B L L - f L * wave' B L L)) with (f L * (2 * (1 + a) * (- df * wave' B L L)) - 2 * (1 + a) * (- df * f' L) * wave B L L) by ring.
    rewrite F1, W1. ring. }
  assert (P : 0 < f c * wave B L c) by (apply Rmult_lt_0_compat; [apply Hf; lra|apply (wave_pos df L a); [lra|exact HB|lra]]).
  rewrite Z0, Z1, Rminus_0_r in E. symmetry in E. apply Rmult_integral in E. destruct E as [E|E]; [|lra]. unfold w' in E.
  apply Rmult_integral in E. destruct E as [E|E]; [|lra].
  assert (Q : df * ((sa - nsf / K) / df + B * B) = 0) by (rewrite E; ring). replace (df * ((sa - nsf / K) / df + B * B)) with (sa - nsf / K + df * (B * B)) in Q by (field; lra). lra.
Qed.

(* The equation has exactly one factor. *)
Theorem C106_equation df sa nsf L a : 0 < df -> 0 < sa -> 0 < nsf -> 0 < L -> 0 <= a <= 1 ->
  exists K f, diffuses df sa nsf L a K f /\ forall K' f', diffuses df sa nsf L a K' f' -> K' = K.
Proof.
  intros Hd Hs Hf HL Ha. destruct (buckles_exists df L a Hd HL Ha) as (B & HB).
  exists (nsf / (sa + df * (B * B))), (wave B L). split; [exact (wave_diffuses _ _ _ _ _ _ Hd Hs Hf HL HB)|].
  intros K' f' HK. pose proof (diffuses_factor _ _ _ _ _ _ _ _ Hd HL (proj1 Ha) HB HK) as E. destruct HK as (HK & _).
  assert (0 <= B * B) by nra. assert (0 < sa + df * (B * B)) by nra.
  assert (Q : nsf / K' = sa + df * (B * B)) by lra. rewrite <- Q. field. split; lra.
Qed.
Print Assumptions C106_equation.

(* ---------- tangents ---------- *)

Lemma tan_pos u : 0 <= u < PI / 2 -> u <= tan u.
Proof.
  intros [U0 U1]. destruct U0 as [U0 | <-]; [|rewrite tan_0; lra].
  destruct (MVT_cor2 tan (fun x => 1 + tan x ^ 2) 0 u U0) as (c & E & Hc).
  - intros c Hc. pose proof PI_RGT_0. assert (P : - PI / 2 < c < PI / 2) by lra. exact (derive_pt_eq_1 _ _ _ _ (derive_pt_tan c P)).
  - rewrite tan_0 in E. pose proof (pow2_ge_0 (tan c)). nra.
Qed.
Lemma tan_mono u v : 0 <= u <= v -> v < PI / 2 -> tan u <= tan v.
Proof. intros [U0 [U1 | <-]] V; [|lra]. left. apply tan_increasing; pose proof PI_RGT_0; lra. Qed.

Lemma by_tangents c g u v : 0 <= u < PI / 2 -> 0 <= v < PI / 2 -> c * (sin u * sin v) = g * (cos u * cos v) -> c * (tan u * tan v) = g.
Proof.
  intros U V E. pose proof PI_RGT_0. assert (0 < cos u) by (apply cos_gt_0; lra). assert (0 < cos v) by (apply cos_gt_0; lra).
  unfold tan. replace (c * (sin u / cos u * (sin v / cos v))) with (c * (sin u * sin v) / (cos u * cos v)) by (field; lra). rewrite E. field. lra.
Qed.

Lemma face_range a h df n theta : (2 <= n)%Z -> face_condition a h df n theta ->
  0 <= theta / 2 < PI / 2 /\ 0 <= IZR n * theta / 2 < PI / 2 /\ theta / 2 <= IZR n * theta / 2.
Proof.
  intros Hn [[T0 T1] _]. assert (N : 2 <= IZR n) by (apply (IZR_le 2); lia).
  assert (B : theta * IZR n < PI).
  { apply Rmult_lt_compat_r with (r := IZR n) in T1; [|lra]. unfold Rdiv in T1. rewrite Rmult_assoc, Rinv_l, Rmult_1_r in T1 by lra. exact T1. }
  repeat split; nra.
Qed.

Lemma face_unique a h df n t t' : 0 <= a -> 0 < h -> 0 < df -> (2 <= n)%Z -> face_condition a h df n t -> face_condition a h df n t' -> t = t'.
Proof.
  intros Ha Hh Hd Hn. assert (N : 2 <= IZR n) by (apply (IZR_le 2); lia).
  assert (W : forall t t', face_condition a h df n t -> face_condition a h df n t' -> ~ t < t').
  { intros u v HU HV L. destruct (face_range _ _ _ _ _ Hn HU) as (U1 & U2 & _). destruct (face_range _ _ _ _ _ Hn HV) as (V1 & V2 & _).
    pose proof (by_tangents _ _ _ _ U1 U2 (proj2 HU)) as E. pose proof (by_tangents _ _ _ _ V1 V2 (proj2 HV)) as E'.
    pose proof PI_RGT_0. assert (A : tan (u / 2) < tan (v / 2)) by (apply tan_increasing; lra).
    assert (A' : tan (IZR n * u / 2) < tan (IZR n * v / 2)) by (apply tan_increasing; nra).
    pose proof (tan_pos _ U1). pose proof (tan_pos _ U2).
    assert (0 < 2 * (1 + a) * (2 * df / h)) by (apply Rmult_lt_0_compat; [lra|apply Rdiv_lt_0_compat; lra]).
    assert (tan (u / 2) * tan (IZR n * u / 2) < tan (v / 2) * tan (IZR n * v / 2)) by (apply Rmult_le_0_lt_compat; lra). nra. }
  intros H1 H2. destruct (Rtotal_order t t') as [L|[E|L]]; [destruct (W _ _ H1 H2 L)|exact E|destruct (W _ _ H2 H1 L)].
Qed.

(* the discrete angle lies between 2 atan (h B / 2) and h B *)
Lemma compare_angles a h df n theta B : 0 <= a -> 0 < h -> 0 < df -> (2 <= n)%Z ->
  face_condition a h df n theta -> buckles df (IZR n * h) a B -> theta <= h * B /\ h * B / 2 <= tan (theta / 2).
Proof.
  intros Ha Hh Hd Hn HT HB. assert (N : 2 <= IZR n) by (apply (IZR_le 2); lia). pose proof PI_RGT_0 as HP.
  assert (HL : 0 < IZR n * h) by nra. destruct (buckles_range _ _ _ _ HL HB) as [B0 B1]. destruct (face_range _ _ _ _ _ Hn HT) as (T1 & T2 & _).
  pose proof (by_tangents _ _ _ _ T1 T2 (proj2 HT)) as E.
  assert (E' : 2 * (1 + a) * (df * B * tan (B * (IZR n * h) / 2)) = 1 - a).
  { destruct HB as [_ HB]. unfold tan. assert (0 < cos (B * (IZR n * h) / 2)) by (apply cos_gt_0; lra).
    replace (2 * (1 + a) * (df * B * (sin (B * (IZR n * h) / 2) / cos (B * (IZR n * h) / 2)))) with (2 * (1 + a) * (df * B * sin (B * (IZR n * h) / 2)) / cos (B * (IZR n * h) / 2)) by (field; lra).
    rewrite HB. field. lra. }
  set (t := tan (theta / 2)) in *. set (p := tan (IZR n * theta / 2)) in *. set (q := tan (B * (IZR n * h) / 2)) in *.
  pose proof (tan_pos _ T1) as P1. fold t in P1. pose proof (tan_pos _ T2) as P2. fold p in P2. pose proof (tan_pos _ B1) as P3. fold q in P3.
  assert (S : t * p = h * B / 2 * q).
  { apply Rmult_eq_reg_l with (2 * (1 + a) * (2 * df / h)); [|apply Rgt_not_eq, Rmult_lt_0_compat; [lra|apply Rdiv_lt_0_compat; lra]].
    rewrite E, <- E'. field. lra. }
  split.
  - apply Rnot_lt_le. intros L.
    assert (Q : q < p) by (apply tan_increasing; nra).
    assert (h * B / 2 * q < t * p) by (apply Rmult_le_0_lt_compat; nra). lra.
  - apply Rnot_lt_le. intros L.
    assert (Q : p <= q) by (apply tan_mono; nra).
    assert (0 < q) by nra. nra.
Qed.

Lemma sin_by_tan u : 0 <= u < PI / 2 -> sin u * sin u * (1 + tan u * tan u) = tan u * tan u.
Proof.
  intros U. pose proof PI_RGT_0. assert (0 < cos u) by (apply cos_gt_0; lra). pose proof (sin2_cos2 u) as Q. unfold Rsqr in Q.
  unfold tan. replace (sin u * sin u * (1 + sin u / cos u * (sin u / cos u))) with (sin u * sin u * (sin u * sin u + cos u * cos u) / (cos u * cos u)) by (field; lra).
  rewrite Q. field. lra.
Qed.

Lemma leakage_bounds a h df n theta B : 0 <= a -> 0 < h -> 0 < df -> (2 <= n)%Z ->
  face_condition a h df n theta -> buckles df (IZR n * h) a B ->
  leakage h df theta <= df * (B * B) /\ df * (B * B) <= leakage h df theta * (1 + (h * h) * (df * (B * B)) / (4 * df)).
Proof.
  intros Ha Hh Hd Hn HT HB. destruct (compare_angles _ _ _ _ _ _ Ha Hh Hd Hn HT HB) as [U L]. destruct (face_range _ _ _ _ _ Hn HT) as (T1 & _ & _).
  pose proof (proj1 HB) as [B0 _]. pose proof (sin_by_tan _ T1) as S. pose proof PI_RGT_0.
  set (u := theta / 2) in *. set (s := sin u) in *. set (t := tan u) in *.
  assert (C : 2 * (1 - cos theta) = 4 * (s * s)).
  { replace theta with (2 * u) by (unfold u; field). rewrite cos_2a_sin. fold s. ring. }
  assert (S0 : 0 <= s) by (apply sin_ge_0; lra).
  assert (S1 : s <= u) by (destruct (proj1 T1) as [Z|Z]; [left; apply sin_lt_x; exact Z|unfold s; rewrite <- Z, sin_0; lra]).
  assert (D : leakage h df theta = df * (4 * (s * s) / (h * h))) by (unfold leakage; rewrite C; reflexivity).
  set (v := h * B / 2) in *. assert (V0 : 0 <= v) by (unfold v; nra). assert (Bv : B * B = 4 * (v * v) / (h * h)) by (unfold v; field; lra).
  assert (Hh2 : 0 < h * h) by nra. rewrite D. split.
  - apply Rmult_le_compat_l; [lra|]. rewrite Bv. apply Rmult_le_compat_r; [left; apply Rinv_0_lt_compat; lra|]. assert (u <= v) by (unfold u, v; lra). nra.
  - replace (h * h * (df * (B * B)) / (4 * df)) with (v * v) by (unfold v; field; lra). rewrite Bv.
    replace (df * (4 * (s * s) / (h * h)) * (1 + v * v)) with (df * (4 * (s * s * (1 + v * v)) / (h * h))) by (field; lra).
    apply Rmult_le_compat_l; [lra|]. apply Rmult_le_compat_r; [left; apply Rinv_0_lt_compat; lra|]. apply Rmult_le_compat_l; [lra|].
    assert (T : v * v <= t * t) by nra.
    apply Rmult_le_reg_r with (1 + t * t); [nra|]. replace (s * s * (1 + v * v) * (1 + t * t)) with (s * s * (1 + t * t) * (1 + v * v)) by ring. rewrite S. nra.
Qed.

(* ---------- the theorems ---------- *)

(* The source iteration settles on production over absorption and leakage; the flux
   is the cosine whose angle meets the condition at the faces, the only such angle. *)
Theorem C106_slab_factor solver ms sd a h df st ss nsf : one_group_slab ms sd a h df st ss nsf ->
  exists M F theta, diffusionSystem PI ms sd = Ok (M, F) /\ (exists solve, exact_solver M solve) /\
    face_condition a h df (ms_cells ms) theta /\ (forall theta', face_condition a h df (ms_cells ms) theta' -> theta' = theta) /\
    (exact_solver M (solver M) -> exists phi c, 0 < c /\
      settles solver M F (nsf / (st - ss + df * (2 * (1 - cos theta) / (h * h)))) phi /\
      forall m, (0 <= m < ms_cells ms)%Z -> vat phi m = c * cos (theta * (IZR m - (IZR (ms_cells ms) - 1) / 2))).
Proof.
  intros H. destruct (slab_settles _ _ _ _ _ _ _ _ H solver) as (M & F & E & X & S). pose proof H as [_ _ Hn _ _ _ _ Ha Hh Hd _ _ _].
  destruct (face_exists a h df (ms_cells ms) Ha Hh Hd Hn) as (theta & HT). exists M, F, theta. split; [exact E|]. split; [exact X|]. split; [exact HT|].
  split; [intros t' HT'; exact (face_unique _ _ _ _ _ _ (proj1 Ha) Hh Hd Hn HT' HT)|].
  intros Y. destruct (S Y) as (k & phi & HS). pose proof (slab_mode _ _ _ _ _ _ _ _ H M F theta E HT) as Hm.
  pose proof HS as (_ & _ & _ & U & _). destruct (U _ _ Hm) as (Ek & c & Hc & Ec). exists phi, (/ c). split; [apply Rinv_0_lt_compat, Hc|].
  split; [change (df * (2 * (1 - cos theta) / (h * h))) with (leakage h df theta); rewrite Ek; exact HS|].
  intros m Hmm. destruct (slab_system _ _ _ _ _ _ _ _ H) as (M1 & F1 & E1 & _ & C & _). rewrite E in E1. injection E1 as <- <-.
  specialize (Ec m). rewrite C in Ec. specialize (Ec Hmm). cbn [vat] in Ec. change (cos (theta * (IZR m - (IZR (ms_cells ms) - 1) / 2))) with (cosine (ms_cells ms) theta m).
  rewrite Ec. field. lra.
Qed.
Print Assumptions C106_slab_factor.

(* Against the equation: the factor of the program is never below the exact one, the
   two leakages differ by at most h^2 / 4 df times their product, and the factors by
   at most the square of the width of the cells times a constant of the reactor. *)
Theorem C106_accuracy solver ms sd a h df st ss nsf M F k phi K f : one_group_slab ms sd a h df st ss nsf ->
  diffusionSystem PI ms sd = Ok (M, F) -> settles solver M F k phi ->
  diffuses df (st - ss) nsf (IZR (ms_cells ms) * h) a K f ->
  let exact := nsf / K - (st - ss) in let computed := nsf / k - (st - ss) in
  0 <= computed <= exact /\ exact - computed <= h * h / (4 * df) * (exact * computed) /\
  0 <= k - K <= h * h * (K * (exact * exact) / (4 * df * (st - ss))).
Proof.
  intros H E HS HK exact computed. pose proof H as [_ _ Hn _ _ _ _ Ha Hh Hd Hs Hf _]. set (n := ms_cells ms) in *.
  assert (N : 2 <= IZR n) by (apply (IZR_le 2); lia). assert (HL : 0 < IZR n * h) by nra.
  destruct (face_exists a h df n Ha Hh Hd Hn) as (theta & HT). pose proof HS as (_ & _ & _ & U & _).
  destruct (U _ _ (slab_mode _ _ _ _ _ _ _ _ H M F theta E HT)) as (Ek & _).
  destruct (buckles_exists df _ a Hd HL Ha) as (B & HB). pose proof (diffuses_factor _ _ _ _ _ _ _ _ Hd HL (proj1 Ha) HB HK) as EK.
  destruct (leakage_bounds _ _ _ _ _ _ (proj1 Ha) Hh Hd Hn HT HB) as [U1 U2]. pose proof (leakage_nonneg _ _ _ _ _ _ _ _ H theta) as L0.
  assert (EC : computed = leakage h df theta) by (unfold computed; rewrite <- Ek; field; split; lra).
  fold exact in EK. rewrite <- EK, <- EC in *. destruct HK as (HK & _).
  assert (Q : exact - computed <= h * h / (4 * df) * (exact * computed)).
  { replace (h * h / (4 * df) * (exact * computed)) with (computed * (1 + h * h * exact / (4 * df)) - computed) by (field; lra). lra. }
  split; [lra|]. split; [exact Q|].
  assert (A1 : nsf / K = exact + (st - ss)) by (unfold exact; ring). assert (A2 : nsf / k = computed + (st - ss)) by (unfold computed; ring).
  assert (K1 : K = nsf / (exact + (st - ss))) by (rewrite <- A1; field; lra).
  assert (Hk : 0 < k) by (rewrite <- Ek; apply Rdiv_lt_0_compat; lra).
  assert (k1 : k = nsf / (computed + (st - ss))) by (rewrite <- A2; field; lra).
  assert (Df : k - K = K * ((exact - computed) / (computed + (st - ss)))) by (rewrite k1, K1; field; lra).
  rewrite Df. split.
  - apply Rmult_le_pos; [lra|]. apply Rmult_le_pos; [lra|left; apply Rinv_0_lt_compat; lra].
  - replace (h * h * (K * (exact * exact) / (4 * df * (st - ss)))) with (K * (h * h / (4 * df) * (exact * exact) / (st - ss))) by (field; lra).
    apply Rmult_le_compat_l; [lra|].
    assert (0 < h * h / (4 * df)) by (apply Rdiv_lt_0_compat; nra).
    apply Rle_trans with (h * h / (4 * df) * (exact * exact) / (computed + (st - ss))).
    + apply Rmult_le_compat_r; [left; apply Rinv_0_lt_compat; lra|]. apply Rle_trans with (1 := Q). apply Rmult_le_compat_l; [lra|]. nra.
    + apply Rmult_le_compat_l; [apply Rmult_le_pos; [lra|nra]|]. apply Rinv_le_contravar; lra.
Qed.
Print Assumptions C106_accuracy.

(* A perfectly reflecting slab does not leak, and its flux is flat. *)
Theorem C106_reflected ms sd h df st ss nsf theta : one_group_slab ms sd 1 h df st ss nsf ->
  face_condition 1 h df (ms_cells ms) theta -> theta = 0.
Proof.
  intros H HT. pose proof H as [_ _ Hn _ _ _ _ Ha Hh Hd _ _ _]. assert (N : 2 <= IZR (ms_cells ms)) by (apply (IZR_le 2); lia).
  apply (face_unique 1 h df (ms_cells ms)); try assumption; try lra. split.
  - split; [lra|]. pose proof PI_RGT_0. apply Rdiv_lt_0_compat; lra.
  - unfold Rdiv. rewrite !Rmult_0_l, Rmult_0_r, Rmult_0_l, sin_0. ring.
Qed.
Print Assumptions C106_reflected.

(* Refining the mesh of one slab: the factors come down to the exact one. *)
Theorem C106_refinement df sa nsf L a K f eps : 0 < df -> 0 < sa -> diffuses df sa nsf L a K f -> 0 < eps ->
  exists hmax, 0 < hmax /\ forall solver ms sd h st ss M F k phi, one_group_slab ms sd a h df st ss nsf ->
    st - ss = sa -> IZR (ms_cells ms) * h = L -> h < hmax ->
    diffusionSystem PI ms sd = Ok (M, F) -> settles solver M F k phi -> 0 <= k - K < eps.
Proof.
  intros Hd Hs HK He. set (c := K * ((nsf / K - sa) * (nsf / K - sa)) / (4 * df * sa)). assert (K0 : 0 < K) by apply HK.
  assert (C0 : 0 <= c). { apply Rmult_le_pos; [apply Rmult_le_pos; [lra|apply Rle_0_sqr]|]. left. apply Rinv_0_lt_compat. nra. }
  exists (Rmin 1 (eps / (c + 1))). assert (P : 0 < eps / (c + 1)) by (apply Rdiv_lt_0_compat; lra).
  split; [apply Rmin_pos; lra|]. intros solver ms sd h st ss M F k phi H Esa EL Hh E HS. rewrite <- EL in HK. rewrite <- Esa in HK.
  destruct (C106_accuracy _ _ _ _ _ _ _ _ _ _ _ _ _ _ _ H E HS HK) as (_ & _ & B0 & B1). rewrite Esa in B1. fold c in B1. split; [exact B0|].
  apply Rle_lt_trans with (1 := B1). pose proof (og_width _ _ _ _ _ _ _ _ H). pose proof (Rmin_l 1 (eps / (c + 1))). pose proof (Rmin_r 1 (eps / (c + 1))).
  assert (Q : eps / (c + 1) * (c + 1) = eps) by (field; lra). apply Rle_lt_trans with (h * (c + 1)); [nra|]. apply Rlt_le_trans with (eps / (c + 1) * (c + 1)); [nra|lra].
Qed.
Print Assumptions C106_refinement.

(* ---------- the hypotheses are met: any number of cells of any slab ---------- *)

Definition cells_of (n : Z) (L : R) : mesh R :=
  mkMesh (mkvec (n + 1) (fun i => IZR i * (L / IZR n / 100))) SLAB n 1 (repeat (ex_material 1 1) (Z.to_nat n)) 1 1.
Lemma cells_material n L m : (0 <= m < n)%Z -> cell_material (cells_of n L) m = ex_material 1 1.
Proof.
  intros Hm. unfold cell_material. cbn [cells_of ms_mats]. replace (Z.to_nat n) with (Z.to_nat m + (1 + Z.to_nat (n - m - 1)))%nat by lia.
  rewrite repeat_app, app_nth2 by (rewrite repeat_length; lia). rewrite repeat_length, Nat.sub_diag. reflexivity.
Qed.
Lemma cells_slab n L a : (2 <= n)%Z -> 0 < L -> 0 <= a <= 1 ->
  one_group_slab (cells_of n L) (ex_solver a a FORWARD) a (L / IZR n) 1 1 (1 / 2) 2.
Proof.
  intros Hn HL Ha. assert (N : 2 <= IZR n) by (apply (IZR_le 2); lia).
  assert (Hc : forall c t, law_value (T := R) [c] t = c) by (intros; rewrite law_value_R; exact (eq_trans (rsum_one 0 _) (Rmult_1_r c))).
  split; try reflexivity; try assumption; try lra.
  - split; [discriminate|]. cbn [cells_of ms_cells ms_bounds vlen ms_groups ms_mats]. split; [lia|]. split; [reflexivity|]. split; [lia|].
    split; [unfold zlen; rewrite repeat_length; lia|]. intros m Hm. rewrite cells_material by exact Hm. cbn [ex_material mt_energies mt_totXS mt_fisXS mt_diff mt_ni mt_chi mt_scatt].
    repeat split; try reflexivity; try (right; unfold zlen; cbn; lia); unfold zlen; cbn; lia.
  - split; reflexivity.
  - apply Rdiv_lt_0_compat; lra.
  - intros d m Hm. cbn [cells_of ms_cells] in Hm. unfold d. cbn [mesh_tables tD ttot tsc tfis tni tchi tdx]. unfold law_at, law_at0, law_at. rewrite cells_material by exact Hm.
    cbn [ex_material mt_diff mt_totXS mt_scatt mt_fisXS mt_ni mt_chi mt_temp cells_of ms_groups ms_geom ms_bounds vat].
    change (Z.to_nat (0 + 0 * 1)) with 0%nat. change (Z.to_nat 0) with 0%nat. cbn [nth]. rewrite !Hc, plus_IZR. repeat split; field; lra.
Qed.

(* a bare slab of 10 cm in 100 cells: the iteration settles, on less than the
   infinite factor 4, and above the factor of the equation *)
Example C106_met : exists solver M F theta k phi K f,
  diffusionSystem PI (cells_of 100 10) (ex_solver 0 0 FORWARD) = Ok (M, F) /\ face_condition 0 (10 / 100) 1 100 theta /\
  settles solver M F k phi /\ diffuses 1 (1 - 1 / 2) 2 (100 * (10 / 100)) 0 K f /\ 0 < theta /\ K <= k < 4.
Proof.
  pose proof (cells_slab 100 10 0 ltac:(lia) ltac:(lra) ltac:(lra)) as H.
  destruct (C106_slab_factor (fun _ => fun b => b) _ _ _ _ _ _ _ _ H) as (M & F & theta & E & (s & X) & HT & _ & _).
  destruct (C106_slab_factor (fun _ => s) _ _ _ _ _ _ _ _ H) as (M1 & F1 & theta1 & E1 & _ & HT1 & U & S). rewrite E in E1. injection E1 as <- <-.
  pose proof (U _ HT) as <-. destruct (S X) as (phi & c & _ & HS & _).
  destruct (C106_equation 1 (1 - 1 / 2) 2 (100 * (10 / 100)) 0 ltac:(lra) ltac:(lra) ltac:(lra) ltac:(lra) ltac:(lra)) as (K & f & HK & _).
  destruct (C106_accuracy _ _ _ _ _ _ _ _ _ _ _ _ _ _ _ H E HS HK) as (_ & _ & B0 & _).
  assert (T0 : 0 < theta).
  { destruct HT as [[T0 _] HT]. destruct T0 as [T0 | <-]; [exact T0|]. exfalso. cbn [cells_of ms_cells] in HT.
    unfold Rdiv in HT. rewrite !Rmult_0_l, Rmult_0_r, Rmult_0_l, sin_0, cos_0 in HT. lra. }
  eexists (fun _ => s), M, F, theta, _, phi, K, f. split; [exact E|]. split; [exact HT|]. split; [exact HS|]. split; [exact HK|]. split; [exact T0|]. split; [lra|].
  pose proof (proj2 (proj1 HT)) as T1. cbn [cells_of ms_cells] in T1. pose proof PI_RGT_0.
  assert (C : cos theta < cos 0) by (apply cos_decreasing_1; lra). rewrite cos_0 in C.
  assert (0 < 1 * (2 * (1 - cos theta) / (10 / 100 * (10 / 100)))) by lra.
  apply Rmult_lt_reg_r with (1 - 1 / 2 + 1 * (2 * (1 - cos theta) / (10 / 100 * (10 / 100)))); [lra|].
  unfold Rdiv at 1. rewrite Rmult_assoc, Rinv_l by lra. lra.
Qed.
