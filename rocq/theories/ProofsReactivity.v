(* What changes of the data do to the multiplication factor. *)
From Coq Require Import String ZArith List Bool Lia Reals Lra.
From Verif Require Import Base BaseLemmas NumR LinAlg Blocks PowerMethod ModelNumTools ModelEigen ModelMesh
  ModelReactor ModelDiffusion ModelSpectrum ProofsSpectrum ProofsSpectrumR ProofsEigen ProofsMesh ProofsDiffusion ProofsDiffusionR Kernels PropsDiffusion PropsSpectrum
  PropsSpectrumB ProofsConverge ProofsConvergeD ProofsConvergeT.
Import ListNotations.
Local Open Scope R_scope.

Lemma argmax (f : Z -> R) (n : nat) : (0 < n)%nat -> exists i, (0 <= i < Z.of_nat n)%Z /\ forall j, (0 <= j < Z.of_nat n)%Z -> f j <= f i.
Proof.
  induction n as [|n IH]; [lia|]. intros _. destruct n as [|n].
  - exists 0%Z. split; [lia|]. intros j Hj. assert (j = 0)%Z as -> by lia. lra.
  - destruct (IH ltac:(lia)) as (i & Hi & Hmax). destruct (Rle_dec (f (Z.of_nat (S n))) (f i)) as [L | G].
    + exists i. split; [lia|]. intros j Hj. destruct (Z.eq_dec j (Z.of_nat (S n))) as [-> | Hne]; [exact L|]. apply Hmax. lia.
    + exists (Z.of_nat (S n)). split; [lia|]. intros j Hj. destruct (Z.eq_dec j (Z.of_nat (S n))) as [-> | Hne]; [lra|]. pose proof (Hmax j ltac:(lia)). lra.
Qed.

Section Compare.
Variables (M1 F1 M2 F2 : mat R) (size : Z) (k1 k2 : R) (phi1 phi2 : vec R).
Hypothesis HM1r : mrows M1 = size.
Hypothesis HM1c : mcols M1 = size.
Hypothesis HF1r : mrows F1 = size.
Hypothesis HF1c : mcols F1 = size.
Hypothesis HM2r : mrows M2 = size.
Hypothesis HM2c : mcols M2 = size.
Hypothesis HF2r : mrows F2 = size.
Hypothesis HF2c : mcols F2 = size.
Hypothesis Hmon : monotone size (mat_at M2).
Hypothesis HM : forall i j, (0 <= i < size)%Z -> (0 <= j < size)%Z -> mat_at M2 i j <= mat_at M1 i j.
Hypothesis HF : forall i j, (0 <= i < size)%Z -> (0 <= j < size)%Z -> 0 <= mat_at F1 i j <= mat_at F2 i j.
Hypothesis Hm1 : mode M1 F1 k1 phi1.
Hypothesis Hm2 : mode M2 F2 k2 phi2.
Hypothesis Hpos : forall i j, (0 <= i < size)%Z -> (0 <= j < size)%Z -> 0 < mat_at F2 i j -> 0 < vat (mvmul F2 phi2) i.
Notation s1 := (vat (mvmul F1 phi1)).
Notation s2 := (vat (mvmul F2 phi2)).

Lemma app_vat (A : mat R) x i : mcols A = size -> app size (mat_at A) (vat x) i = vat (mvmul A x) i.
Proof. intros H. rewrite mvmul_at, H. reflexivity. Qed.
Lemma phi1_nonneg i : (0 <= i < size)%Z -> 0 <= vat phi1 i.
Proof using HM1c Hm1. intros Hi. destruct Hm1 as (_ & _ & N & _). apply N. lia. Qed.
Lemma phi2_nonneg i : (0 <= i < size)%Z -> 0 <= vat phi2 i.
Proof using HM2c Hm2. intros Hi. destruct Hm2 as (_ & _ & N & _). apply N. lia. Qed.
Lemma F1_le i : (0 <= i < size)%Z -> 0 <= s1 i <= vat (mvmul F2 phi1) i.
Proof using HF1c HF2c HF HM1c Hm1.
  intros Hi. rewrite !mvmul_at, HF1c, HF2c. split.
  - apply rsum_nonneg. intros j Hj. apply Rmult_le_pos; [apply HF; auto|apply phi1_nonneg; auto].
  - apply rsum_le. intros j Hj. apply Rmult_le_compat_r; [apply phi1_nonneg; auto|apply HF; auto].
Qed.
Lemma s2_nonneg i : (0 <= i < size)%Z -> 0 <= s2 i.
Proof using HF2c HF HM2c Hm2.
  intros Hi. rewrite mvmul_at, HF2c. apply rsum_nonneg. intros j Hj. destruct (HF i j Hi Hj). apply Rmult_le_pos; [lra|apply phi2_nonneg; auto].
Qed.
Lemma s1_s2 i : (0 <= i < size)%Z -> 0 < s1 i -> 0 < s2 i.
Proof using HF1c HF HM1c Hm1 Hpos.
  intros Hi Hp. rewrite mvmul_at, HF1c in Hp.
  assert (N : forall j, (0 <= j < size)%Z -> 0 <= mat_at F1 i j * vat phi1 j) by (intros j Hj; apply Rmult_le_pos; [apply HF; auto|apply phi1_nonneg; auto]).
  destruct (rsum_pos_term _ _ N Hp) as (j & Hj & Hpj).
  apply (Hpos i j Hi Hj). destruct (HF i j Hi Hj) as [A B]. pose proof (phi1_nonneg j Hj). destruct A as [A | A]; [lra|]. rewrite <- A in Hpj. lra.
Qed.

(* the smallest multiple of s2 above s1 *)
Lemma touch : exists c i, 0 < c /\ (0 <= i < size)%Z /\ 0 < s2 i /\ s1 i = c * s2 i /\ forall j, (0 <= j < size)%Z -> s1 j <= c * s2 j.
Proof using HF1c HF1r HF2c HF HM1c HM2c Hm1 Hm2 Hpos.
  destruct Hm1 as (_ & _ & _ & (i0 & Hi0 & Hne) & _). rewrite HF1r in Hi0.
  destruct (argmax (fun i => s1 i / s2 i) (Z.to_nat size) ltac:(lia)) as (i & Hi & Hmax). rewrite Z2Nat.id in Hi, Hmax by lia.
  assert (P0 : 0 < s1 i0) by (destruct (proj1 (F1_le i0 Hi0)) as [P | P]; [exact P|congruence]).
  assert (C : 0 < s1 i / s2 i) by (apply Rlt_le_trans with (s1 i0 / s2 i0); [apply Rdiv_lt_0_compat; [exact P0|apply s1_s2; auto]|apply Hmax; auto]).
  assert (S1 : 0 < s1 i). { destruct (proj1 (F1_le i Hi)) as [P | P]; [exact P|]. rewrite <- P in C. unfold Rdiv in C. lra. }
  pose proof (s1_s2 i Hi S1) as S2. exists (s1 i / s2 i), i. repeat split; auto; try lia; [field; lra|].
  intros j Hj. destruct (proj1 (F1_le j Hj)) as [P | P].
  - pose proof (s1_s2 j Hj P) as Q. replace (s1 j) with (s1 j / s2 j * s2 j) by (field; lra). apply Rmult_le_compat_r; [lra|]. apply Hmax; auto.
  - rewrite <- P. apply Rmult_le_pos; [lra|apply s2_nonneg; auto].
Qed.

Lemma difference c i : (0 <= i < size)%Z ->
  app size (mat_at M2) (fun j => c * k2 * vat phi2 j - k1 * vat phi1 j) i =
    (c * s2 i - s1 i) + k1 * (vat (mvmul M1 phi1) i - vat (mvmul M2 phi1) i).
Proof using HM1r HM2r HM2c Hm1 Hm2.
  intros Hi. destruct Hm1 as (K1 & _ & _ & _ & E1). destruct Hm2 as (K2 & _ & _ & _ & E2). rewrite HM1r in E1. rewrite HM2r in E2.
  unfold app. rewrite (rsum_ext 0 size _ (fun j => c * k2 * (mat_at M2 i j * vat phi2 j) - k1 * (mat_at M2 i j * vat phi1 j))) by (intros; ring).
  rewrite rsum_minus, !rsum_scal. pose proof (E1 i Hi) as X1. pose proof (E2 i Hi) as X2.
  rewrite (mvmul_at M2 phi2 i), HM2c in X2. rewrite X2, X1, (mvmul_at M2 phi1 i), HM2c. field. lra.
Qed.
Lemma extra i : (0 <= i < size)%Z -> 0 <= vat (mvmul M1 phi1) i - vat (mvmul M2 phi1) i.
Proof using HM1c HM2c HM Hm1.
  intros Hi. rewrite !mvmul_at, HM1c, HM2c, <- rsum_minus. apply rsum_nonneg. intros j Hj. pose proof (HM i j Hi Hj). pose proof (phi1_nonneg j Hj).
  replace (mat_at M1 i j * vat phi1 j - mat_at M2 i j * vat phi1 j) with ((mat_at M1 i j - mat_at M2 i j) * vat phi1 j) by ring. apply Rmult_le_pos; lra.
Qed.
Lemma F2_diff c i : rsum 0 size (fun j => mat_at F2 i j * (c * k2 * vat phi2 j - k1 * vat phi1 j)) = c * k2 * s2 i - k1 * vat (mvmul F2 phi1) i.
Proof using HF2c. rewrite !mvmul_at, HF2c, <- !rsum_scal, <- rsum_minus. apply rsum_ext. intros; ring. Qed.

Lemma compare : k1 <= k2.
Proof using HM1r HM1c HF1r HF1c HM2r HM2c HF2c Hmon HM HF Hm1 Hm2 Hpos.
  destruct touch as (c & i & C & Hi & P & E & Hle). pose proof Hm1 as (K1 & _). pose proof Hm2 as (K2 & _).
  assert (W : forall j, (0 <= j < size)%Z -> 0 <= c * k2 * vat phi2 j - k1 * vat phi1 j).
  { apply Hmon. intros j Hj. rewrite difference by exact Hj. pose proof (Hle j Hj). pose proof (extra j Hj). nra. }
  assert (Q : 0 <= rsum 0 size (fun j => mat_at F2 i j * (c * k2 * vat phi2 j - k1 * vat phi1 j))).
  { apply rsum_nonneg. intros j Hj. destruct (HF i j Hi Hj). apply Rmult_le_pos; [lra|auto]. }
  rewrite F2_diff in Q. destruct (F1_le i Hi) as [_ L]. rewrite E in L.
  assert (k1 * (c * s2 i) <= k2 * (c * s2 i)) by nra. assert (0 < c * s2 i) by nra. nra.
Qed.

(* strictly, when the change is felt at a site from which every fission source is fed *)
Lemma compare_strict j0 : (0 <= j0 < size)%Z ->
  0 < vat (mvmul M1 phi1) j0 - vat (mvmul M2 phi1) j0 \/ s1 j0 < vat (mvmul F2 phi1) j0 ->
  (forall w, (forall j, (0 <= j < size)%Z -> 0 <= w j) -> (forall j, (0 <= j < size)%Z -> 0 <= app size (mat_at M2) w j) -> 0 < app size (mat_at M2) w j0 ->
     forall i, (0 <= i < size)%Z -> 0 < s2 i -> 0 < app size (mat_at F2) w i) ->
  k1 < k2.
Proof using HM1r HM1c HF1r HF1c HM2r HM2c HF2c Hmon HM HF Hm1 Hm2 Hpos.
  intros Hj0 Hbad Hfeed. destruct compare as [L | Ek]; [exact L|exfalso].
  destruct touch as (c & i & C & Hi & P & E & Hle). pose proof Hm1 as (K1 & _).
  set (w := fun j => c * k2 * vat phi2 j - k1 * vat phi1 j).
  assert (B : forall j, (0 <= j < size)%Z -> 0 <= app size (mat_at M2) w j).
  { intros j Hj. unfold w. rewrite difference by exact Hj. pose proof (Hle j Hj). pose proof (extra j Hj). nra. }
  pose proof (Hmon w B) as W.
  assert (G : forall j, (0 <= j < size)%Z -> app size (mat_at F2) w j = k1 * (c * s2 j - vat (mvmul F2 phi1) j)).
  { intros j Hj. unfold app, w. rewrite F2_diff, <- Ek. ring. }
  assert (N : forall j, (0 <= j < size)%Z -> 0 <= app size (mat_at F2) w j).
  { intros j Hj. apply rsum_nonneg. intros l Hl. destruct (HF j l Hj Hl). apply Rmult_le_pos; [lra|auto]. }
  assert (P0 : 0 < app size (mat_at M2) w j0).
  { unfold w. rewrite difference by exact Hj0. pose proof (Hle j0 Hj0). pose proof (extra j0 Hj0). destruct Hbad as [X | X]; [nra|].
    pose proof (N j0 Hj0) as N0. rewrite G in N0 by exact Hj0. assert (0 <= c * s2 j0 - vat (mvmul F2 phi1) j0) by nra. nra. }
  pose proof (Hfeed w W B P0 i Hi P) as Q. rewrite G in Q by exact Hi. destruct (F1_le i Hi) as [_ L]. rewrite E in L. nra.
Qed.
End Compare.

(* ---------- diffusion ---------- *)

(* two reactors with the same cells and the same diffusion coefficients; the first
   collides no less, scatters no more, makes no more fission neutrons and is behind
   boundaries that send back no more *)
Record no_better (n en : Z) (d1 d2 : data R) (aL1 aR1 aL2 aR2 : R) : Prop := {
  nb_diff : forall e m, (0 <= e < en)%Z -> (0 <= m < n)%Z -> tD d1 e m = tD d2 e m;
  nb_width : forall m, (0 <= m < n)%Z -> tdx d1 m = tdx d2 m;
  nb_area : forall k, (0 <= k <= n)%Z -> tS d1 k = tS d2 k;
  nb_volume : forall m, (0 <= m < n)%Z -> tV d1 m = tV d2 m;
  nb_total : forall e m, (0 <= e < en)%Z -> (0 <= m < n)%Z -> ttot d2 e m <= ttot d1 e m;
  nb_scatt : forall e e' m, (0 <= e < en)%Z -> (0 <= e' < en)%Z -> (0 <= m < n)%Z -> tsc d1 e e' m <= tsc d2 e e' m;
  nb_chi : forall e m, (0 <= e < en)%Z -> (0 <= m < n)%Z -> tchi d1 e m <= tchi d2 e m;
  nb_fission : forall e m, (0 <= e < en)%Z -> (0 <= m < n)%Z -> tni d1 e m * tfis d1 e m <= tni d2 e m * tfis d2 e m;
  nb_left : aL1 <= aL2;
  nb_right : aR1 <= aR2 }.

(* neutrons get into group e; neutrons of group e come to make fissions in every fissile cell *)
Definition populated (ms : mesh R) (sd : solverData R) (d : data R) (e : Z) : Prop :=
  exists e0 m0, emits ms sd d e0 m0 /\ fissile ms sd d m0 /\ scatters_to d (sd_energies sd) (ms_cells ms) e0 e.
Definition useful (ms : mesh R) (sd : solverData R) (d : data R) (e : Z) : Prop :=
  forall m, fissile ms sd d m -> exists e', scatters_to d (sd_energies sd) (ms_cells ms) e e' /\ fissions ms sd d e' m.

Lemma bcoef_le D S x a b : 0 < D -> 0 <= S -> 0 < x -> 0 <= a -> a <= b -> b <= 1 -> bcoef D b S x <= bcoef D a S x.
Proof.
  intros HD HS Hx Ha Hab Hb. unfold bcoef. rnum.
  assert (Pa : 0 < 4 * D * (1 + a) + x * (1 - a)) by nra. assert (Pb : 0 < 4 * D * (1 + b) + x * (1 - b)) by nra.
  assert (0 <= D * (1 - a) * S / (4 * D * (1 + a) + x * (1 - a)) - D * (1 - b) * S / (4 * D * (1 + b) + x * (1 - b))); [|lra].
  replace (D * (1 - a) * S / (4 * D * (1 + a) + x * (1 - a)) - D * (1 - b) * S / (4 * D * (1 + b) + x * (1 - b)))
    with (8 * D * D * S * (b - a) / ((4 * D * (1 + a) + x * (1 - a)) * (4 * D * (1 + b) + x * (1 - b)))) by (field; lra).
  apply Rmult_le_pos; [|left; apply Rinv_0_lt_compat; nra]. repeat apply Rmult_le_pos; lra.
Qed.
Lemma bcoef_lt D S x a b : 0 < D -> 0 < S -> 0 < x -> 0 <= a -> a < b -> b <= 1 -> bcoef D b S x < bcoef D a S x.
Proof.
  intros HD HS Hx Ha Hab Hb. unfold bcoef. rnum.
  assert (Pa : 0 < 4 * D * (1 + a) + x * (1 - a)) by nra. assert (Pb : 0 < 4 * D * (1 + b) + x * (1 - b)) by nra.
  assert (0 < D * (1 - a) * S / (4 * D * (1 + a) + x * (1 - a)) - D * (1 - b) * S / (4 * D * (1 + b) + x * (1 - b))); [|lra].
  replace (D * (1 - a) * S / (4 * D * (1 + a) + x * (1 - a)) - D * (1 - b) * S / (4 * D * (1 + b) + x * (1 - b)))
    with (8 * D * D * S * (b - a) / ((4 * D * (1 + a) + x * (1 - a)) * (4 * D * (1 + b) + x * (1 - b)))) by (field; lra).
  apply Rdiv_lt_0_compat; [|nra]. repeat apply Rmult_lt_0_compat; lra.
Qed.

Section DiffusionCompare.
Variables (ms1 ms2 : mesh R) (sd1 sd2 : solverData R) (d1 d2 : data R) (aL1 aR1 aL2 aR2 : R) (M1 F1 M2 F2 : mat R).
Hypothesis D1 : diffusion_case ms1 sd1 d1 aL1 aR1.
Hypothesis D2 : diffusion_case ms2 sd2 d2 aL2 aR2.
Hypothesis Hdir1 : sd_dir sd1 = FORWARD.
Hypothesis Hdir2 : sd_dir sd2 = FORWARD.
Hypothesis Hcells : ms_cells ms1 = ms_cells ms2.
Hypothesis Hgroups : sd_energies sd1 = sd_energies sd2.
Hypothesis E1 : diffusionSystem PI ms1 sd1 = Ok (M1, F1).
Hypothesis E2 : diffusionSystem PI ms2 sd2 = Ok (M2, F2).
Notation n := (ms_cells ms2).
Notation en := (sd_energies sd2).
Hypothesis B : no_better n en d1 d2 aL1 aR1 aL2 aR2.

Lemma c_M1 : bl n en M1 (lossB d1 (tri d1 (dgA ms1 d1 aL1 aR1)) (fun e e' m => tsc d1 e' e m)).
Proof using D1 Hdir1 Hcells Hgroups E1.
  destruct D1 as [Hn Hen Hdata Hal HaL HaR HD Hx HS HS1 HV Hsc Habs Hchi Hfis].
  destruct (system_bl ms1 sd1 d1 aL1 aR1 Hn Hen Hdata Hal HaL ltac:(rewrite Hdir1; discriminate)) as (M & F & E & HM & _). rewrite E1 in E. injection E as <- <-.
  unfold transfer in HM. rewrite Hdir1, Hcells, Hgroups in HM. exact HM.
Qed.
Lemma c_M2 : bl n en M2 (lossB d2 (tri d2 (dgA ms2 d2 aL2 aR2)) (fun e e' m => tsc d2 e' e m)).
Proof using D2 Hdir2 E2.
  destruct D2 as [Hn Hen Hdata Hal HaL HaR HD Hx HS HS1 HV Hsc Habs Hchi Hfis].
  destruct (system_bl ms2 sd2 d2 aL2 aR2 Hn Hen Hdata Hal HaL ltac:(rewrite Hdir2; discriminate)) as (M & F & E & HM & _). rewrite E2 in E. injection E as <- <-.
  unfold transfer in HM. rewrite Hdir2 in HM. exact HM.
Qed.
Lemma c_F1 e m e' m' : (0 <= e < en)%Z -> (0 <= m < n)%Z -> (0 <= e' < en)%Z -> (0 <= m' < n)%Z ->
  mat_at F1 (m + e * n) (m' + e' * n) = if (m' =? m)%Z then tchi d1 e m * (tni d1 e' m * tfis d1 e' m * tV d2 m) else 0.
Proof using D1 Hdir1 Hcells Hgroups E1 B.
  intros He Hm He' Hm'. destruct D1 as [Hn Hen Hdata Hal HaL HaR HD Hx HS HS1 HV Hsc Habs Hchi Hfis].
  destruct (fission_entries ms1 sd1 d1 aL1 aR1 Hn Hen Hdata Hal HaL Hdir1) as (M & F & E & _ & _ & H). rewrite E1 in E. injection E as <- <-.
  rewrite Hcells, Hgroups in H. rewrite H by auto. destruct (m' =? m)%Z; [|reflexivity]. rewrite (nb_volume _ _ _ _ _ _ _ _ B) by auto. reflexivity.
Qed.
Lemma c_F2 e m e' m' : (0 <= e < en)%Z -> (0 <= m < n)%Z -> (0 <= e' < en)%Z -> (0 <= m' < n)%Z ->
  mat_at F2 (m + e * n) (m' + e' * n) = if (m' =? m)%Z then tchi d2 e m * (tni d2 e' m * tfis d2 e' m * tV d2 m) else 0.
Proof using D2 Hdir2 E2.
  intros He Hm He' Hm'. destruct D2 as [Hn Hen Hdata Hal HaL HaR HD Hx HS HS1 HV Hsc Habs Hchi Hfis].
  destruct (fission_entries ms2 sd2 d2 aL2 aR2 Hn Hen Hdata Hal HaL Hdir2) as (M & F & E & _ & _ & H). rewrite E2 in E. injection E as <- <-.
  apply H; auto.
Qed.
Lemma c_dif e m : (0 <= e < en)%Z -> (0 <= m < n - 1)%Z -> dif d1 e m = dif d2 e m.
Proof using B. intros He Hm. destruct B as [A1 A2 A3 _ _ _ _ _ _ _]. unfold dif. rewrite !A1, !A2, !A3 by lia. reflexivity. Qed.

(* collisions, or a boundary, take more from this cell *)
Definition taken (e m : Z) : Prop :=
  ttot d2 e m < ttot d1 e m \/ (m = 0%Z /\ aL1 < aL2 /\ 0 < tS d2 0) \/ (m = (n - 1)%Z /\ aR1 < aR2 /\ 0 < tS d2 n).
Lemma c_diagonal e m : (0 <= e < en)%Z -> (0 <= m < n)%Z ->
  dgA ms2 d2 aL2 aR2 e m <= dgA ms1 d1 aL1 aR1 e m /\ (taken e m -> dgA ms2 d2 aL2 aR2 e m < dgA ms1 d1 aL1 aR1 e m).
Proof using D1 D2 Hcells B.
  intros He Hm. pose proof B as [A1 A2 A3 A4 A5 _ _ _ A9 A10]. destruct D2 as [Hn _ _ _ HaL HaR HD Hx HS HS1 HV _ _ _ _].
  pose proof (dcs_left _ _ _ _ _ D1) as HL1. pose proof (dcs_right _ _ _ _ _ D1) as HR1.
  assert (R : rem d2 e m <= rem d1 e m /\ (ttot d2 e m < ttot d1 e m -> rem d2 e m < rem d1 e m)).
  { unfold rem, nlit. rnum. rewrite A4 by exact Hm. pose proof (HV m Hm). pose proof (A5 e m He Hm). split; [|intros ?]; nra. }
  destruct R as [R1 R2]. unfold dgA, taken. rewrite Hcells.
  destruct (Z.eqb_spec m 0) as [-> | N0].
  - rewrite c_dif by lia. rewrite A1, A2, A3 by lia. unfold two. rnum.
    pose proof (bcoef_le (tD d2 e 0) (tS d2 0) (tdx d2 0) aL1 aL2 (HD e 0%Z He Hm) ltac:(apply HS; lia) (Hx 0%Z Hm) ltac:(lra) A9 ltac:(lra)) as L.
    split; [rnum; lra|]. intros [T | [(_ & T & S) | (T & _)]]; [specialize (R2 T); rnum; lra| |lia].
    pose proof (bcoef_lt (tD d2 e 0) (tS d2 0) (tdx d2 0) aL1 aL2 (HD e 0%Z He Hm) S (Hx 0%Z Hm) ltac:(lra) T ltac:(lra)). rnum. lra.
  - destruct (Z.eqb_spec m (n - 1)) as [-> | N1].
    + rewrite c_dif by lia. rewrite A1, A2, A3 by lia. unfold two. rnum.
      pose proof (bcoef_le (tD d2 e (n - 1)) (tS d2 n) (tdx d2 (n - 1)) aR1 aR2 (HD e _ He Hm) ltac:(apply HS; lia) (Hx _ Hm) ltac:(lra) A10 ltac:(lra)) as L.
      split; [rnum; lra|]. intros [T | [(T & _) | (_ & T & S)]]; [specialize (R2 T); rnum; lra|lia|].
      pose proof (bcoef_lt (tD d2 e (n - 1)) (tS d2 n) (tdx d2 (n - 1)) aR1 aR2 (HD e _ He Hm) S (Hx _ Hm) ltac:(lra) T ltac:(lra)). rnum. lra.
    + unfold dgI, two. rewrite !c_dif by lia. rnum. split; [lra|]. intros [T | [(T & _) | (T & _)]]; [specialize (R2 T); lra|lia|lia].
Qed.

Lemma c_M i j : (0 <= i < n * en)%Z -> (0 <= j < n * en)%Z -> mat_at M2 i j <= mat_at M1 i j.
Proof using D1 D2 Hdir1 Hdir2 Hcells Hgroups E1 E2 B.
  intros Hi Hj. pose proof (dcs_cells _ _ _ _ _ D2) as Hn.
  destruct (idx_decode n en i ltac:(lia) Hi) as (e & m & He & Hm & ->). destruct (idx_decode n en j ltac:(lia) Hj) as (e' & m' & He' & Hm' & ->).
  pose proof (proj2 (proj2 c_M1) e m e' m' He Hm He' Hm') as X1. pose proof (proj2 (proj2 c_M2) e m e' m' He Hm He' Hm') as X2. unfold blk in X1, X2. rewrite X1, X2.
  unfold lossB, tri. rnum. destruct (c_diagonal e m He Hm) as [Dg _].
  assert (S : (if (m' =? m)%Z then tsc d1 e' e m * tV d1 m else 0) <= (if (m' =? m)%Z then tsc d2 e' e m * tV d2 m else 0)).
  { destruct (m' =? m)%Z; [|lra]. rewrite (nb_volume _ _ _ _ _ _ _ _ B) by auto. apply Rmult_le_compat_r; [left; apply (dcs_volume _ _ _ _ _ D2); auto|].
    apply (nb_scatt _ _ _ _ _ _ _ _ B); auto. }
  destruct (e' =? e)%Z; [|lra]. destruct (Z.eqb_spec m' (m - 1)) as [Em|]; [rewrite c_dif by lia; lra|].
  destruct (Z.eqb_spec m' (m + 1)) as [Em|]; [rewrite c_dif by lia; lra|]. destruct (m' =? m)%Z; lra.
Qed.
Lemma c_M_strict e m : (0 <= e < en)%Z -> (0 <= m < n)%Z -> taken e m -> mat_at M2 (m + e * n) (m + e * n) < mat_at M1 (m + e * n) (m + e * n).
Proof using D1 D2 Hdir1 Hdir2 Hcells Hgroups E1 E2 B.
  intros He Hm T. pose proof (proj2 (proj2 c_M1) e m e m He Hm He Hm) as X1. pose proof (proj2 (proj2 c_M2) e m e m He Hm He Hm) as X2. unfold blk in X1, X2. rewrite X1, X2.
  unfold lossB, tri. rnum. rewrite !Z.eqb_refl. replace (m =? m - 1)%Z with false by lia. replace (m =? m + 1)%Z with false by lia.
  rewrite (nb_volume _ _ _ _ _ _ _ _ B) by auto. pose proof (nb_scatt _ _ _ _ _ _ _ _ B e e m He He Hm). pose proof (dcs_volume _ _ _ _ _ D2 m Hm).
  destruct (c_diagonal e m He Hm) as [_ Dg]. specialize (Dg T). nra.
Qed.
Lemma c_F i j : (0 <= i < n * en)%Z -> (0 <= j < n * en)%Z -> 0 <= mat_at F1 i j <= mat_at F2 i j.
Proof using D1 D2 Hdir1 Hdir2 Hcells Hgroups E1 E2 B.
  intros Hi Hj. pose proof (dcs_cells _ _ _ _ _ D2) as Hn.
  destruct (idx_decode n en i ltac:(lia) Hi) as (e & m & He & Hm & ->). destruct (idx_decode n en j ltac:(lia) Hj) as (e' & m' & He' & Hm' & ->).
  rewrite c_F1, c_F2 by auto. destruct (m' =? m)%Z; [|lra].
  pose proof (dcs_chi _ _ _ _ _ D1 e m ltac:(lia) ltac:(lia)). pose proof (dcs_fis _ _ _ _ _ D1 e' m ltac:(lia) ltac:(lia)). pose proof (dcs_volume _ _ _ _ _ D2 m Hm).
  pose proof (nb_chi _ _ _ _ _ _ _ _ B e m He Hm). pose proof (nb_fission _ _ _ _ _ _ _ _ B e' m He' Hm).
  split; [apply Rmult_le_pos; [lra|]; apply Rmult_le_pos; lra|]. apply Rmult_le_compat; try lra; [apply Rmult_le_pos; lra|]. apply Rmult_le_compat_r; lra.
Qed.
Lemma c_monotone : monotone (n * en) (mat_at M2).
Proof using D2 Hdir2 E2.
  destruct D2 as [Hn Hen Hdata Hal HaL HaR HD Hx HS HS1 HV Hsc Habs Hchi Hfis].
  destruct (loss_monotone ms2 sd2 d2 aL2 aR2 Hn Hen Hdata Hal HaL HaR HD Hx Hdir2 HS HV Hsc Habs) as (M & F & E & Hmon). rewrite E2 in E. injection E as <- <-. exact Hmon.
Qed.

Variables (solver1 solver2 : mat R -> vec R -> vec R) (k1 k2 : R) (phi1 phi2 : vec R).
Hypothesis S1 : settles solver1 M1 F1 k1 phi1.
Hypothesis S2 : settles solver2 M2 F2 k2 phi2.
Lemma c_dims : (mrows M1 = n * en /\ mcols M1 = n * en /\ mrows F1 = n * en /\ mcols F1 = n * en)%Z /\
  (mrows M2 = n * en /\ mcols M2 = n * en /\ mrows F2 = n * en /\ mcols F2 = n * en)%Z.
Proof using D1 D2 Hdir1 Hdir2 Hcells Hgroups E1 E2.
  split.
  - destruct D1 as [Hn Hen Hdata Hal HaL HaR HD Hx HS HS1 HV Hsc Habs Hchi Hfis].
    destruct (system_bl ms1 sd1 d1 aL1 aR1 Hn Hen Hdata Hal HaL ltac:(rewrite Hdir1; discriminate)) as (M & F & E & (A & A' & _) & (A'' & A3 & _)). rewrite E1 in E. injection E as <- <-.
    rewrite Hcells, Hgroups in *. auto.
  - destruct D2 as [Hn Hen Hdata Hal HaL HaR HD Hx HS HS1 HV Hsc Habs Hchi Hfis].
    destruct (system_bl ms2 sd2 d2 aL2 aR2 Hn Hen Hdata Hal HaL ltac:(rewrite Hdir2; discriminate)) as (M & F & E & (A & A' & _) & (A'' & A3 & _)). rewrite E2 in E. injection E as <- <-. auto.
Qed.
Lemma c_pos2 i j : (0 <= i < n * en)%Z -> (0 <= j < n * en)%Z -> 0 < mat_at F2 i j -> 0 < vat (mvmul F2 phi2) i.
Proof using D1 D2 Hdir1 Hdir2 Hcells Hgroups E1 E2 S2.
  destruct c_dims as (_ & _ & _ & R & C). destruct S2 as (_ & _ & P & _). rewrite R, C in P. apply P.
Qed.
Lemma diffusion_compare : k1 <= k2.
Proof using D1 D2 Hdir1 Hdir2 Hcells Hgroups E1 E2 B S1 S2.
  destruct c_dims as ((A1 & A2 & A3 & A4) & B1 & B2 & B3 & B4).
  apply (compare M1 F1 M2 F2 (n * en) k1 k2 phi1 phi2 A1 A2 A3 A4 B1 B2 B4 c_monotone c_M c_F (proj1 S1) (proj1 S2) c_pos2).
Qed.

Lemma populated_flux e m : populated ms1 sd1 d1 e -> (0 <= m < n)%Z -> (0 <= e < en)%Z /\ 0 < vat phi1 (m + e * n)%Z.
Proof using D1 D2 Hdir1 Hdir2 Hcells Hgroups E1 E2 B S1.
  intros (e0 & m0 & Hem & (_ & ef & Hef) & Hs) Hm. destruct c_dims as ((A1 & A2 & A3 & A4) & _).
  destruct Hem as (He0 & Hm0 & Hc). destruct Hef as (Hef & _ & Hf). rewrite Hcells, Hgroups in *.
  assert (He : (0 <= e < en)%Z) by (destruct Hs; auto). split; [exact He|].
  destruct S1 as ((K & _ & N & _ & Eq) & _ & P & _). rewrite A1 in Eq. rewrite A2 in N. rewrite A3, A4 in P.
  assert (Pi : 0 < vat (mvmul F1 phi1) (m0 + e0 * n)%Z).
  { apply (P _ (m0 + ef * n)%Z); [apply idx_range; auto|apply idx_range; auto|]. rewrite c_F1, Z.eqb_refl by auto.
    apply Rmult_lt_0_compat; [exact Hc|]. apply Rmult_lt_0_compat; [exact Hf|]. apply (dcs_volume _ _ _ _ _ D2); auto. }
  destruct D1 as [Hn Hen Hdata Hal HaL HaR HD Hx HS HS1 HV Hsc Habs Hchi Hfis]. rewrite Hcells, Hgroups in *.
  assert (HF0 : forall i, (0 <= i < n * en)%Z -> 0 <= app (n * en) (mat_at M1) (vat phi1) i).
  { intros i Hi. rewrite app_vat, Eq by auto. apply Rmult_le_pos; [|left; apply Rinv_0_lt_compat, K]. rewrite mvmul_at, A4. apply rsum_nonneg. intros l Hl. apply Rmult_le_pos; [apply c_F; auto|auto]. }
  assert (Hoff : forall i j, (0 <= i < n * en)%Z -> (0 <= j < n * en)%Z -> i <> j -> mat_at M1 i j <= 0).
  { intros i j Hi Hj Hne. pose proof c_M1 as Q. rewrite <- Hcells, <- Hgroups in Q, Hi, Hj.
    eapply (off_diagonal ms1 sd1 d1 aL1 aR1); [lia| | | | | |exact Q|exact Hi|exact Hj|exact Hne]; cbn beta; rewrite ?Hcells, ?Hgroups; auto. }
  apply (leads_pos M1 (n * en) Hoff (vat phi1) N HF0 (m0 + e0 * n)%Z).
  - pose proof c_M1 as Q. rewrite <- Hcells, <- Hgroups in Q |- *.
    eapply (lead_chain ms1 sd1 d1 aL1 aR1); [lia| | | | |exact Q| | | | |]; rewrite ?Hcells, ?Hgroups; auto.
  - apply (source_pos M1 (n * en) Hoff (vat phi1)); [exact N|apply idx_range; auto|]. rewrite app_vat, Eq by (auto; apply idx_range; auto). apply Rdiv_lt_0_compat; assumption.
Qed.

Lemma fed e m : useful ms2 sd2 d2 e -> (0 <= e < en)%Z -> (0 <= m < n)%Z ->
  forall w, (forall j, (0 <= j < n * en)%Z -> 0 <= w j) -> (forall j, (0 <= j < n * en)%Z -> 0 <= app (n * en) (mat_at M2) w j) ->
  0 < app (n * en) (mat_at M2) w (m + e * n)%Z ->
  forall i, (0 <= i < n * en)%Z -> 0 < vat (mvmul F2 phi2) i -> 0 < app (n * en) (mat_at F2) w i.
Proof using D1 D2 Hdir1 Hdir2 Hcells Hgroups E1 E2 B S2.
  intros Hu He Hm w W Wm Wp i Hi Hs. destruct c_dims as (_ & A1 & A2 & A3 & A4). pose proof (dcs_cells _ _ _ _ _ D2) as Hn.
  destruct (idx_decode n en i ltac:(lia) Hi) as (ei & mi & Hei & Hmi & ->).
  assert (N2 : forall j, (0 <= j < n * en)%Z -> 0 <= vat phi2 j) by (destruct S2 as ((_ & _ & X & _) & _); rewrite A2 in X; exact X).
  assert (F0 : forall a b, (0 <= a < n * en)%Z -> (0 <= b < n * en)%Z -> 0 <= mat_at F2 a b) by (intros a b Ha Hb; destruct (c_F a b Ha Hb); lra).
  assert (Hfi : fissile ms2 sd2 d2 mi /\ 0 < tchi d2 ei mi).
  { rewrite mvmul_at, A4 in Hs.
    assert (Q : forall j, (0 <= j < n * en)%Z -> 0 <= mat_at F2 (mi + ei * n) j * vat phi2 j) by (intros j Hj; apply Rmult_le_pos; auto).
    destruct (rsum_pos_term _ _ Q Hs) as (j & Hj & Hp). destruct (idx_decode n en j ltac:(lia) Hj) as (ej & mj & Hej & Hmj & ->).
    rewrite c_F2 in Hp by auto. destruct (Z.eqb_spec mj mi) as [Em | Em]; [subst mj|rewrite Rmult_0_l in Hp; lra].
    assert (C : 0 < tchi d2 ei mi) by (destruct (dcs_chi _ _ _ _ _ D2 ei mi Hei Hmi) as [P | P]; [exact P|rewrite <- P in Hp; lra]).
    assert (G : 0 < tni d2 ej mi * tfis d2 ej mi) by (destruct (dcs_fis _ _ _ _ _ D2 ej mi Hej Hmi) as [P | P]; [exact P|rewrite <- P in Hp; lra]).
    split; [|exact C]. split; [exists ei|exists ej]; repeat split; auto; lia. }
  destruct Hfi as [Hfi Hc]. destruct (Hu mi Hfi) as (e' & Hsc' & (He' & _ & Hf')).
  destruct D2 as [_ Hen Hdata Hal HaL HaR HD Hx HS HS1 HV Hsc Habs Hchi Hfis].
  assert (Hoff : forall i j, (0 <= i < n * en)%Z -> (0 <= j < n * en)%Z -> i <> j -> mat_at M2 i j <= 0).
  { intros a b Ha Hb Hne. eapply (off_diagonal ms2 sd2 d2 aL2 aR2); [lia| | | | | |exact c_M2|exact Ha|exact Hb|exact Hne]; cbn beta; auto. }
  assert (P : 0 < w (mi + e' * n)%Z).
  { apply (leads_pos M2 (n * en) Hoff w W Wm (m + e * n)%Z).
    - eapply (lead_chain ms2 sd2 d2 aL2 aR2); [lia| | | | |exact c_M2| | | | |]; auto.
    - apply (source_pos M2 (n * en) Hoff w _ W); [apply idx_range; auto|exact Wp]. }
  unfold app. apply Rlt_le_trans with (mat_at F2 (mi + ei * n) (mi + e' * n) * w (mi + e' * n)%Z).
  - apply Rmult_lt_0_compat; [|exact P]. rewrite c_F2, Z.eqb_refl by auto. apply Rmult_lt_0_compat; [exact Hc|]. apply Rmult_lt_0_compat; auto.
  - apply (rsum_term_le 0 (n * en) (fun l => mat_at F2 (mi + ei * n) l * w l)); [|apply idx_range; auto]. intros l Hl. apply Rmult_le_pos; auto.
Qed.

(* more is taken from a group that matters *)
Lemma diffusion_taken e m : (0 <= m < n)%Z -> taken e m -> populated ms1 sd1 d1 e -> useful ms2 sd2 d2 e -> k1 < k2.
Proof using D1 D2 Hdir1 Hdir2 Hcells Hgroups E1 E2 B S1 S2.
  intros Hm Ht Hp Hu. destruct c_dims as ((A1 & A2 & A3 & A4) & B1 & B2 & B3 & B4). destruct (populated_flux e m Hp Hm) as [He P].
  assert (Hi : (0 <= m + e * n < n * en)%Z) by (apply idx_range; auto).
  assert (N1 : forall j, (0 <= j < n * en)%Z -> 0 <= vat phi1 j) by (destruct S1 as ((_ & _ & X & _) & _); rewrite A2 in X; exact X).
  apply (compare_strict M1 F1 M2 F2 (n * en) k1 k2 phi1 phi2 A1 A2 A3 A4 B1 B2 B4 c_monotone c_M c_F (proj1 S1) (proj1 S2) c_pos2 (m + e * n)%Z); [exact Hi| |exact (fed e m Hu He Hm)].
  left. rewrite !mvmul_at, A2, B2, <- rsum_minus.
  apply Rlt_le_trans with ((mat_at M1 (m + e * n) (m + e * n) - mat_at M2 (m + e * n) (m + e * n)) * vat phi1 (m + e * n)%Z).
  - apply Rmult_lt_0_compat; [|exact P]. pose proof (c_M_strict e m He Hm Ht). lra.
  - rewrite Rmult_minus_distr_r. apply (rsum_term_le 0 (n * en) (fun j => mat_at M1 (m + e * n) j * vat phi1 j - mat_at M2 (m + e * n) j * vat phi1 j)); [|exact Hi].
    intros j Hj. pose proof (c_M _ j Hi Hj). pose proof (N1 j Hj). nra.
Qed.

(* a populated group makes fewer fission neutrons *)
Lemma diffusion_made e e' m : emits ms2 sd2 d2 e m -> useful ms2 sd2 d2 e -> populated ms1 sd1 d1 e' ->
  tni d1 e' m * tfis d1 e' m < tni d2 e' m * tfis d2 e' m -> k1 < k2.
Proof using D1 D2 Hdir1 Hdir2 Hcells Hgroups E1 E2 B S1 S2.
  intros (He & Hm & Hc) Hu Hp Hl. destruct c_dims as ((A1 & A2 & A3 & A4) & B1 & B2 & B3 & B4). destruct (populated_flux e' m Hp Hm) as [He' P].
  assert (Hi : (0 <= m + e * n < n * en)%Z) by (apply idx_range; auto). assert (Hj : (0 <= m + e' * n < n * en)%Z) by (apply idx_range; auto).
  assert (N1 : forall j, (0 <= j < n * en)%Z -> 0 <= vat phi1 j) by (destruct S1 as ((_ & _ & X & _) & _); rewrite A2 in X; exact X).
  apply (compare_strict M1 F1 M2 F2 (n * en) k1 k2 phi1 phi2 A1 A2 A3 A4 B1 B2 B4 c_monotone c_M c_F (proj1 S1) (proj1 S2) c_pos2 (m + e * n)%Z); [exact Hi| |exact (fed e m Hu He Hm)].
  right. rewrite !mvmul_at, A4, B4. apply Rminus_gt_0_lt. rewrite <- rsum_minus.
  apply Rlt_le_trans with ((mat_at F2 (m + e * n) (m + e' * n) - mat_at F1 (m + e * n) (m + e' * n)) * vat phi1 (m + e' * n)%Z).
  - apply Rmult_lt_0_compat; [|exact P]. rewrite c_F1, c_F2, Z.eqb_refl by auto. pose proof (dcs_volume _ _ _ _ _ D2 m Hm).
    pose proof (nb_chi _ _ _ _ _ _ _ _ B e m He Hm). pose proof (dcs_fis _ _ _ _ _ D1 e' m ltac:(lia) ltac:(lia)).
    assert (tchi d1 e m * (tni d1 e' m * tfis d1 e' m * tV d2 m) <= tchi d2 e m * (tni d1 e' m * tfis d1 e' m * tV d2 m)) by (apply Rmult_le_compat_r; [apply Rmult_le_pos; lra|lra]).
    assert (tchi d2 e m * (tni d1 e' m * tfis d1 e' m * tV d2 m) < tchi d2 e m * (tni d2 e' m * tfis d2 e' m * tV d2 m)) by (apply Rmult_lt_compat_l; [exact Hc|]; apply Rmult_lt_compat_r; auto).
    lra.
  - rewrite Rmult_minus_distr_r. apply (rsum_term_le 0 (n * en) (fun j => mat_at F2 (m + e * n) j * vat phi1 j - mat_at F1 (m + e * n) j * vat phi1 j)); [|exact Hj].
    intros j Hj'. pose proof (c_F _ j Hi Hj'). pose proof (N1 j Hj'). nra.
Qed.
End DiffusionCompare.
