(* Lemmas for C97: the source iteration when both matrices are multiplied by the same
   number, and the diffusion equations in another unit of length. *)
From Coq Require Import String ZArith List Bool Lia Reals Lra.
From Verif Require Import Base BaseLemmas NumR LinAlg Blocks ModelNumTools ModelEigen ModelMesh ModelReactor
  ModelDiffusion ProofsEigen ProofsMesh ProofsPower ProofsDiffusion ProofsDiffusionR ProofsSymmetry.
Import ListNotations.
Local Open Scope R_scope.

Definition vec_scaled (n : Z) (c : R) (a b : vec R) : Prop :=
  vlen a = n /\ vlen b = n /\ forall i, (0 <= i < n)%Z -> vat b i = c * vat a i.
Definition mat_scaled (n : Z) (c : R) (A B : mat R) : Prop :=
  mrows A = n /\ mcols A = n /\ mrows B = n /\ mcols B = n /\
  forall i j, (0 <= i < n)%Z -> (0 <= j < n)%Z -> mat_at B i j = c * mat_at A i j.

Section Scale.
Variables (n : Z) (c : R).
Hypothesis Hc : c <> 0.

Lemma scaled_eq d d' a b : d' = d -> vec_scaled n d a b -> vec_scaled n d' a b.
Proof. intros ->. trivial. Qed.
Lemma scaled_mul d A B a b : mat_scaled n c A B -> vec_scaled n d a b -> vec_scaled n (c * d) (mvmul A a) (mvmul B b).
Proof.
  intros (R1 & C1 & R2 & C2 & H) (La & Lb & Hab). split; [exact R1|]. split; [exact R2|]. intros i Hi. rewrite !mvmul_at, C1, C2.
  rewrite <- rsum_scal. apply rsum_ext. intros j Hj. rewrite H, Hab by assumption. ring.
Qed.
Lemma scaled_dot d e a b a' b' : vec_scaled n d a a' -> vec_scaled n e b b' -> vdot a' b' = d * e * vdot a b.
Proof.
  intros (La & La' & Ha) (Lb & Lb' & Hb). unfold vdot. rewrite La, La'.
  transitivity (rsum 0 n (fun i => d * e * (vat a i * vat b i))); [|apply rsum_scal].
  apply rsum_ext. intros i Hi. rewrite Ha, Hb by exact Hi. rnum. ring.
Qed.
Lemma scaled_divs d e a a' k : e <> 0 -> vec_scaled n d a a' -> vec_scaled n (d / e) (vdivs a k) (vdivs a' (k * e)).
Proof.
  intros He (La & Lb & H). split; [exact La|]. split; [exact Lb|]. intros i Hi. cbn [vdivs vat]. rewrite H by exact Hi. rnum.
  unfold Rdiv. rewrite Rinv_mult. ring.
Qed.
Lemma scaled_norm d a a' : vec_scaled n d a a' -> vnorm1 a' = Rabs d * vnorm1 a.
Proof.
  intros (La & Lb & H). unfold vnorm1. rewrite La, Lb. transitivity (rsum 0 n (fun i => Rabs d * Rabs (vat a i))); [|apply rsum_scal].
  apply rsum_ext. intros i Hi. rewrite H by exact Hi. rnum. apply Rabs_mult.
Qed.
Lemma scaled_same a a' : vec_scaled n 1 a a' -> vec_like n (fun i => i) a a'.
Proof. intros (La & Lb & H). split; [exact La|]. split; [exact Lb|]. intros i Hi. rewrite H by exact Hi. ring. Qed.
Lemma scaled_injective A B : mat_scaled n c A B -> injective n (mat_at A) -> injective n (mat_at B).
Proof using Hc.
  intros (_ & _ & _ & _ & H) HA x Hx j Hj. apply (HA x); [|exact Hj]. intros i Hi. apply (Rmult_eq_reg_l c); [|exact Hc].
  rewrite Rmult_0_r, <- (Hx i Hi). unfold app. rewrite <- rsum_scal. apply rsum_ext. intros k Hk. rewrite H by assumption. ring.
Qed.
Lemma scaled_solve d A B sA sB a b : mat_scaled n c A B -> injective n (mat_at A) -> exact_solver A sA -> exact_solver B sB ->
  vec_scaled n d a b -> vec_scaled n (d / c) (sA a) (sB b).
Proof using Hc.
  intros HAB HA XA XB (La & Lb & Hab). pose proof HAB as (R1 & C1 & R2 & C2 & H).
  destruct (XA a ltac:(congruence)) as (L1 & _ & Q1). destruct (XB b ltac:(congruence)) as (L2 & _ & Q2).
  split; [congruence|]. split; [congruence|]. intros i Hi.
  assert (Z : forall j, (0 <= j < n)%Z -> c * vat (sB b) j - d * vat (sA a) j = 0).
  { apply (HA (fun j => c * vat (sB b) j - d * vat (sA a) j)). intros j Hj.
    assert (E1 : vat (mvmul B (sB b)) j = vat b j) by (apply Q2; change (vlen (mvmul B (sB b))) with (mrows B); lia).
    assert (E2 : vat (mvmul A (sA a)) j = vat a j) by (apply Q1; change (vlen (mvmul A (sA a))) with (mrows A); lia).
    rewrite Hab in E1 by exact Hj. rewrite mvmul_at, C2 in E1. rewrite mvmul_at, C1 in E2.
    unfold app. transitivity (rsum 0 n (fun k => mat_at B j k * vat (sB b) k) - rsum 0 n (fun k => d * (mat_at A j k * vat (sA a) k))).
    - rewrite <- rsum_minus. apply rsum_ext. intros k Hk. rewrite H by assumption. ring.
    - rewrite rsum_scal, E1, E2. ring. }
  specialize (Z i Hi). unfold Rdiv. apply (Rmult_eq_reg_l c); [|exact Hc]. transitivity (d * vat (sA a) i); [lra|]. field. exact Hc.
Qed.

Variables (M F M' F' : mat R) (solver : mat R -> vec R -> vec R).
Hypothesis Hn : (0 <= n)%Z.
Hypothesis HM : mat_scaled n c M M'.
Hypothesis HF : mat_scaled n c F F'.
Hypothesis Hinj : injective n (mat_at M).
Hypothesis HX : exact_solver M (solver M).
Hypothesis HX' : exact_solver M' (solver M').
Let P j := power (solver M) F n j.
Let P' j := power (solver M') F' n j.

(* one step: fluxes off by d, factors by e and sources by g *)
Lemma scaled_step d e g j : d <> 0 -> e <> 0 -> g <> 0 ->
  vec_scaled n d (pi_flux (P j)) (pi_flux (P' j)) -> pi_k (P' j) = pi_k (P j) * e -> vec_scaled n g (pi_src (P j)) (pi_src (P' j)) ->
  vec_scaled n (g / c) (pi_flux (P (S j))) (pi_flux (P' (S j))) /\ pi_k (P' (S j)) = pi_k (P (S j)) * (e * g / (c * d)) /\
  vec_scaled n (c * d / e) (pi_src (P (S j))) (pi_src (P' (S j))).
Proof using Hc HM HF Hinj HX HX'.
  intros Hd He Hg H1 H2 H3. unfold P, P' in *. cbn [power pi_flux pi_k pi_src].
  set (p := power (solver M) F n j) in *. set (p' := power (solver M') F' n j) in *.
  assert (S1 : vec_scaled n (g / c) (solver M (pi_src p)) (solver M' (pi_src p'))) by (apply (scaled_solve g M M'); assumption).
  assert (S2 := scaled_mul _ _ _ _ _ HF S1). assert (S3 := scaled_mul _ _ _ _ _ HF H1).
  assert (D1 := scaled_dot _ _ _ _ _ _ S2 S2). assert (D2 := scaled_dot _ _ _ _ _ _ S3 S2).
  assert (Hk : pi_k p' [*] (vdot (mvmul F' (solver M' (pi_src p'))) (mvmul F' (solver M' (pi_src p'))) [/] vdot (mvmul F' (pi_flux p')) (mvmul F' (solver M' (pi_src p'))))
    = (pi_k p [*] (vdot (mvmul F (solver M (pi_src p))) (mvmul F (solver M (pi_src p))) [/] vdot (mvmul F (pi_flux p)) (mvmul F (solver M (pi_src p))))) * (e * g / (c * d))).
  { rewrite D1, D2, H2. rnum. unfold Rdiv. rewrite !Rinv_mult, Rinv_inv. generalize (/ vdot (mvmul F (pi_flux p)) (mvmul F (solver M (pi_src p)))). intros y. field. auto. }
  split; [exact S1|]. rewrite Hk. split; [reflexivity|].
  eapply scaled_eq; [|apply scaled_divs; [|exact S2]]; [field; auto|]. unfold Rdiv. apply Rmult_integral_contrapositive_currified; [|apply Rinv_neq_0_compat]; apply Rmult_integral_contrapositive_currified; assumption.
Qed.
Lemma scaled_first : vec_scaled n (1 / c) (pi_flux (P 1)) (pi_flux (P' 1)) /\ pi_k (P' 1) = pi_k (P 1) * (1 / c) /\ vec_scaled n c (pi_src (P 1)) (pi_src (P' 1)).
Proof using Hc HM HF Hinj HX HX'.
  destruct (scaled_step 1 1 1 0) as (A & B & C); try lra.
  - split; [reflexivity|]. split; [reflexivity|]. intros. cbn. rnum. ring.
  - cbn. rnum. ring.
  - split; [reflexivity|]. split; [reflexivity|]. intros. cbn. rnum. ring.
  - split; [exact A|]. split; [rewrite B; f_equal; field; exact Hc|]. eapply scaled_eq; [|exact C]. field.
Qed.
Lemma scaled_later j : vec_scaled n 1 (pi_flux (P (S (S j)))) (pi_flux (P' (S (S j)))) /\ pi_k (P' (S (S j))) = pi_k (P (S (S j))) /\ vec_scaled n c (pi_src (P (S (S j)))) (pi_src (P' (S (S j)))).
Proof using Hc HM HF Hinj HX HX'.
  induction j as [|j (I1 & I2 & I3)].
  - destruct scaled_first as (A & B & C). destruct (scaled_step (1 / c) (1 / c) c 1) as (A2 & B2 & C2); try assumption.
    1,2: unfold Rdiv; rewrite Rmult_1_l; apply Rinv_neq_0_compat; exact Hc.
    split; [eapply scaled_eq; [|exact A2]; field; exact Hc|]. split; [rewrite B2; field; exact Hc|]. eapply scaled_eq; [|exact C2]. field. exact Hc.
  - destruct (scaled_step 1 1 c (S (S j))) as (A2 & B2 & C2); try assumption; try lra.
    split; [eapply scaled_eq; [|exact A2]; field; exact Hc|]. split; [rewrite B2; field; exact Hc|]. eapply scaled_eq; [|exact C2]. field.
Qed.
Lemma scaled_change j : (2 <= j)%nat -> pi_change (solver M') F' n j = pi_change (solver M) F n j.
Proof using Hc HM HF Hinj HX HX'.
  intros Hj. destruct j as [|[|j]]; [lia|lia|]. unfold pi_change. destruct (scaled_later j) as (_ & E1 & _). destruct (scaled_later (S j)) as (_ & E2 & _).
  unfold P, P' in *. rewrite E1, E2. reflexivity.
Qed.

(* when neither iteration stops within the first two steps, both stop after the same step
   with the same results or both give up *)
Lemma scaled_iteration max acc dir :
  (forall j, (j < 2)%nat -> Z.of_nat j < max -> pi_change (solver M) F n j [<] acc = false /\ pi_change (solver M') F' n j [<] acc = false)%Z ->
  same_outcome n (fun i => i) (sourceIteration solver M F max acc dir) (sourceIteration solver M' F' max acc dir).
Proof using Hc HM HF Hinj HX HX' Hn.
  intros H0. pose proof HM as (R1 & C1 & R2 & C2 & _). pose proof HF as (R3 & C3 & R4 & C4 & _).
  assert (L1 : forall b, vlen b = n -> vlen (solver M b) = n) by (intros b Hb; rewrite <- C1; apply HX; congruence).
  assert (L2 : forall b, vlen b = n -> vlen (solver M' b) = n) by (intros b Hb; rewrite <- C2; apply HX'; congruence).
  assert (Eq : forall j, (Z.of_nat j < max)%Z -> (pi_change (solver M') F' n j [<] acc) = (pi_change (solver M) F n j [<] acc)).
  { intros j Hj. destruct (le_lt_dec 2 j) as [G | G]; [rewrite scaled_change by exact G; reflexivity|]. destruct (H0 j G Hj) as [-> ->]. reflexivity. }
  destruct (sourceIteration_spec solver M F n max acc dir Hn R1 C1 R3 C3 L1) as [(j & J1 & J2 & J3 & ->) | [Z ->]];
  destruct (sourceIteration_spec solver M' F' n max acc dir Hn R2 C2 R4 C4 L2) as [(j' & J1' & J2' & J3' & ->) | [Z' ->]].
  - assert (j = j') as <-.
    { destruct (Nat.lt_trichotomy j j') as [H | [H | H]]; [|exact H|].
      - specialize (J3' j H). rewrite Eq in J3' by exact J1. rewrite J2 in J3'. discriminate.
      - specialize (J3 j' H). rewrite <- Eq in J3 by exact J1'. rewrite J2' in J3. discriminate. }
    destruct j as [|[|j]].
    + destruct (H0 0%nat ltac:(lia) J1). congruence.
    + destruct (H0 1%nat ltac:(lia) J1). congruence.
    + destruct (scaled_later (S j)) as (A & B & _). unfold P, P' in *. unfold same_outcome. cbn [er_single er_k er_flux er_modes er_dir].
      split; [reflexivity|]. split; [symmetry; exact B|]. split; [|auto].
      assert (Ln := scaled_norm _ _ _ A). rewrite Rabs_R1, Rmult_1_l in Ln. rewrite Ln.
      apply scaled_same. replace (vdivs (pi_flux (power (solver M') F' n (S (S (S j))))) (vnorm1 (pi_flux (power (solver M) F n (S (S (S j)))))))
        with (vdivs (pi_flux (power (solver M') F' n (S (S (S j))))) (vnorm1 (pi_flux (power (solver M) F n (S (S (S j))))) * 1)) by (f_equal; ring).
      eapply scaled_eq; [|apply scaled_divs; [|exact A]]; [field|lra].
  - specialize (Z' j J1). rewrite Eq, J2 in Z' by exact J1. discriminate.
  - specialize (Z j' J1'). rewrite <- Eq, J2' in Z by exact J1'. discriminate.
  - reflexivity.
Qed.
End Scale.

(* ---------- diffusion in another unit of length ---------- *)

(* lengths s times as large, areas c times *)
Record data_scaled (n en : Z) (s c : R) (d d' : data R) : Prop := {
  sc_tot : forall e m, (0 <= e < en)%Z -> (0 <= m < n)%Z -> ttot d' e m = ttot d e m / s;
  sc_fis : forall e m, (0 <= e < en)%Z -> (0 <= m < n)%Z -> tfis d' e m = tfis d e m / s;
  sc_ni : forall e m, (0 <= e < en)%Z -> (0 <= m < n)%Z -> tni d' e m = tni d e m;
  sc_chi : forall e m, (0 <= e < en)%Z -> (0 <= m < n)%Z -> tchi d' e m = tchi d e m;
  sc_D : forall e m, (0 <= e < en)%Z -> (0 <= m < n)%Z -> tD d' e m = tD d e m * s;
  sc_sc : forall e e' m, (0 <= e < en)%Z -> (0 <= e' < en)%Z -> (0 <= m < n)%Z -> tsc d' e e' m = tsc d e e' m / s;
  sc_dx : forall m, (0 <= m < n)%Z -> tdx d' m = tdx d m * s;
  sc_S : forall k, (0 <= k <= n)%Z -> tS d' k = tS d k * c;
  sc_V : forall m, (0 <= m < n)%Z -> tV d' m = tV d m * (c * s)
}.

Lemma frac_scaled s c x y z w : s <> 0 -> z = x * (s * s * c) -> w = y * (s * s) -> z / w = c * (x / y).
Proof. intros Hs -> ->. unfold Rdiv. rewrite !Rinv_mult. generalize (/ y). intros. field. exact Hs. Qed.
Lemma frac_scaled1 s c x y z w : s <> 0 -> z = x * (s * c) -> w = y * s -> z / w = c * (x / y).
Proof. intros Hs -> ->. unfold Rdiv. rewrite !Rinv_mult. generalize (/ y). intros. field. exact Hs. Qed.

Lemma scaled_blocks n en c A B SA SB : (0 <= n)%Z -> bl n en A SA -> bl n en B SB ->
  (forall e m e' m', (0 <= e < en)%Z -> (0 <= m < n)%Z -> (0 <= e' < en)%Z -> (0 <= m' < n)%Z -> SB e m e' m' = c * SA e m e' m') ->
  mat_scaled (n * en) c A B.
Proof.
  intros Hn (R1 & C1 & H1) (R2 & C2 & H2) HS. repeat split; auto. intros i j Hi Hj.
  destruct (idx_decode n en i Hn Hi) as (e & m & He & Hm & ->). destruct (idx_decode n en j Hn Hj) as (e' & m' & He' & Hm' & ->).
  change (blk n B e m e' m' = c * blk n A e m e' m'). rewrite H1, H2 by assumption. apply HS; assumption.
Qed.

Section Unit.
Variables (ms ms' : mesh R) (sd : solverData R) (d d' : data R) (aL aR s c : R).
Let n := ms_cells ms.
Let en := sd_energies sd.
Hypothesis Hn : (2 <= n)%Z.
Hypothesis Hen : (0 <= en)%Z.
Hypothesis Hs : s <> 0.
Hypothesis Hd : mesh_data PI ms en d.
Hypothesis Hd' : mesh_data PI ms' en d'.
Hypothesis Hal : albedos ms sd aL aR.
Hypothesis Hal' : albedos ms' sd aL aR.
Hypothesis Hn' : ms_cells ms' = n.
Hypothesis Hdir : sd_dir sd <> DirUNDEFINED.
Hypothesis Hsc : data_scaled n en s c d d'.

Lemma unit_boundary e m e' m' : (0 <= e < en)%Z -> (0 <= m < n)%Z -> (0 <= e' < en)%Z -> (0 <= m' < n)%Z ->
  boundaryB ms' d' aL aR e m e' m' = c * boundaryB ms d aL aR e m e' m'.
Proof using Hn Hs Hn' Hsc.
  destruct Hsc as [T1 T2 T3 T4 T5 T6 T7 T8 T9]. intros He Hm He' Hm'.
  assert (D : forall i, (0 <= i < n - 1)%Z -> dif d' e i = c * dif d e i).
  { intros i Hi. unfold dif. rnum. rewrite !T5, !T7, T8 by lia. apply (frac_scaled s); [exact Hs|ring|ring]. }
  assert (Rm : forall i, (0 <= i < n)%Z -> rem d' e i = c * rem d e i) by (intros i Hi; unfold rem; rnum; rewrite T1, T9 by lia; field; exact Hs).
  assert (Bc : forall i a k, (0 <= i < n)%Z -> (0 <= k <= n)%Z -> bcoef (tD d' e i) a (tS d' k) (tdx d' i) = c * bcoef (tD d e i) a (tS d k) (tdx d i)).
  { intros i a k Hi Hk. unfold bcoef. rnum. rewrite T5, T7, T8 by lia. apply (frac_scaled1 s); [exact Hs|ring|ring]. }
  assert (I : forall i, (1 <= i < n - 1)%Z -> dgI d' e i = c * dgI d e i) by (intros i Hi; unfold dgI, two; rnum; rewrite !D, Rm by lia; ring).
  assert (Tri : forall dg dg', (forall i, (0 <= i < n)%Z -> dg' e i = c * dg e i) -> tri d' dg' e m e' m' = c * tri d dg e m e' m').
  { intros dg dg' Hdg. unfold tri, mtwo. rnum. destruct (e' =? e)%Z; [|ring].
    destruct (Z.eqb_spec m' (m - 1)); [rewrite D by lia; ring|]. destruct (Z.eqb_spec m' (m + 1)); [rewrite D by lia; ring|].
    destruct (Z.eqb_spec m' m); [apply Hdg; exact Hm|ring]. }
  unfold boundaryB. destruct (is_equal aL (nofZ 2) && is_equal aR (nofZ 2)).
  - unfold periodicM. rewrite Hn'. fold n. rewrite !D by lia.
    destruct ((e' =? e)%Z && (m =? 0)%Z && (m' =? n - 1)%Z); [unfold mtwo; rnum; ring|]. destruct ((e' =? e)%Z && (m =? n - 1)%Z && (m' =? 0)%Z); [unfold mtwo; rnum; ring|].
    apply Tri. intros i Hi. unfold dgP, two. rewrite Hn'. fold n. rewrite !D, !Rm by lia. destruct (i =? 0)%Z eqn:E0; [rnum; ring|].
    destruct (i =? n - 1)%Z eqn:E1; [rnum; ring|]. apply I. lia.
  - apply Tri. intros i Hi. unfold dgA, two. rewrite Hn'. fold n. rewrite !D, !Rm, !Bc by lia.
    destruct (i =? 0)%Z eqn:E0; [rnum; ring|]. destruct (i =? n - 1)%Z eqn:E1; [rnum; ring|]. apply I. lia.
Qed.

Lemma unit_system : exists M F M' F', diffusionSystem PI ms sd = Ok (M, F) /\ diffusionSystem PI ms' sd = Ok (M', F') /\
  mat_scaled (n * en) c M M' /\ mat_scaled (n * en) c F F'.
Proof using Hn Hen Hs Hd Hd' Hal Hal' Hn' Hdir Hsc.
  pose proof (system_wp PI ms sd d Hn Hen Hd aL aR Hal Hdir) as H1.
  assert (Hn2 : (2 <= ms_cells ms')%Z) by lia.
  pose proof (system_wp PI ms' sd d' Hn2 Hen Hd' aL aR Hal' Hdir) as H2. rewrite Hn' in H2. fold n en in H1, H2.
  destruct (wp_ok _ _ H1) as ([M F] & E1 & G1). destruct (wp_ok _ _ H2) as ([M' F'] & E2 & G2). cbn [fst snd] in G1, G2. clear H1 H2.
  exists M, F, M', F'. split; [exact E1|]. split; [exact E2|]. pose proof Hsc as [T1 T2 T3 T4 T5 T6 T7 T8 T9].
  assert (Hn0 : (0 <= n)%Z) by lia.
  assert (L : forall sel e m e' m', (0 <= e < en)%Z -> (0 <= m < n)%Z -> (0 <= e' < en)%Z -> (0 <= m' < n)%Z -> sel d' e e' m = sel d e e' m / s ->
    lossB d' (boundaryB ms' d' aL aR) (sel d') e m e' m' = c * lossB d (boundaryB ms d aL aR) (sel d) e m e' m').
  { intros sel e m e' m' He Hm He' Hm' E. unfold lossB. rewrite unit_boundary by assumption. rnum. destruct (m' =? m)%Z; [rewrite E, T9 by assumption; field; exact Hs|ring]. }
  assert (FP : forall e m, (0 <= e < en)%Z -> (0 <= m < n)%Z -> fp d' e m = c * fp d e m) by (intros e m He Hm; unfold fp; rnum; rewrite T2, T3, T9 by assumption; field; exact Hs).
  destruct (sd_dir sd); [congruence| |]; destruct G1 as [A1 B1]; destruct G2 as [A2 B2].
  - split; [apply (scaled_blocks n en c _ _ _ _ Hn0 A1 A2) | apply (scaled_blocks n en c _ _ _ _ Hn0 B1 B2)]; intros e m e' m' He Hm He' Hm'.
    + apply (L (fun d e e' m => tsc d e' e m)); auto.
    + rnum. rewrite FP, T4 by assumption. destruct (m' =? m)%Z; ring.
  - split; [apply (scaled_blocks n en c _ _ _ _ Hn0 A1 A2) | apply (scaled_blocks n en c _ _ _ _ Hn0 B1 B2)]; intros e m e' m' He Hm He' Hm'.
    + apply (L (fun d e e' m => tsc d e e' m)); auto.
    + rnum. rewrite FP, T4 by assumption. destruct (m' =? m)%Z; ring.
Qed.
End Unit.
