(* Convergence of the source iteration for the operators that the code builds:
   which unknowns the neutrons of a source reach. *)
From Coq Require Import ZArith Reals Lra Lia List Bool.
From Verif Require Import Base NumR LinAlg PowerMethod Blocks ModelNumTools ModelEigen ModelMesh ModelReactor ModelDiffusion
  ProofsEigen ProofsConverge ProofsDiffusion ProofsDiffusionR.
Local Open Scope R_scope.

(* an exact solver exists for every invertible matrix *)
Lemma finite_choice (Q : Z -> (Z -> R) -> Prop) (n : nat) : (forall j, (0 <= j < Z.of_nat n)%Z -> exists x, Q j x) ->
  exists X : Z -> Z -> R, forall j, (0 <= j < Z.of_nat n)%Z -> Q j (X j).
Proof.
  induction n as [|n IH]; intros H; [exists (fun _ _ => 0); intros; lia|].
  destruct IH as [X HX]; [intros j Hj; apply H; lia|]. destruct (H (Z.of_nat n)) as [x Hx]; [lia|].
  exists (fun j => if (j =? Z.of_nat n)%Z then x else X j). intros j Hj. destruct (Z.eqb_spec j (Z.of_nat n)) as [-> | Hne]; [exact Hx|]. apply HX. lia.
Qed.
Lemma exact_exists (M : mat R) size : (0 <= size)%Z -> mrows M = size -> mcols M = size -> injective size (mat_at M) -> exists solve, exact_solver M solve.
Proof.
  intros Hs HMr HMc Hinj.
  destruct (finite_choice (fun j x => forall i, (0 <= i < size)%Z -> app size (mat_at M) x i = if (i =? j)%Z then 1 else 0) (Z.to_nat size)) as [X HX].
  - intros j _. destruct (solvable_unique _ _ Hinj (fun i => if (i =? j)%Z then 1 else 0)) as [x [H _]]. exists x. exact H.
  - rewrite Z2Nat.id in HX by lia. exists (fun b => mkvec size (fun i => rsum 0 size (fun j => X j i * vat b j))). intros b Hb. split; [exact (eq_sym HMc)|].
    split; [cbn [mvmul vlen]; lia|]. intros i Hi. cbn [mvmul vlen] in Hi. rewrite HMr in Hi. rewrite mvmul_at, HMc. cbn [vat].
    rewrite (rsum_ext 0 size _ (fun l => rsum 0 size (fun j => mat_at M i l * X j l * vat b j))).
    2:{ intros l _. rewrite <- rsum_scal. apply rsum_ext. intros; ring. }
    rewrite rsum_swap. rewrite (rsum_ext 0 size _ (fun j => (if (i =? j)%Z then 1 else 0) * vat b j)).
    2:{ intros j Hj. rewrite rsum_scal_r. f_equal. rewrite <- (HX j Hj i) by lia. reflexivity. }
    rewrite (rsum_single 0 size _ i) by (lia || (intros j Hj Hne; destruct (Z.eqb_spec i j); [lia|ring])). rewrite Z.eqb_refl. ring.
Qed.

(* ---------- matrices without positive entries beside the diagonal ---------- *)
Section Leads.
Variables (solver : mat R -> vec R -> vec R) (M F : mat R) (size : Z).
Let solve := solver M.
Hypothesis HMr : mrows M = size.
Hypothesis HMc : mcols M = size.
Hypothesis HFr : mrows F = size.
Hypothesis HFc : mcols F = size.
Hypothesis Hex : exact_solver M solve.
Hypothesis Hmon : monotone size (mat_at M).
Hypothesis Hoff : forall i j, (0 <= i < size)%Z -> (0 <= j < size)%Z -> i <> j -> mat_at M i j <= 0.
Hypothesis HF0 : forall i j, (0 <= i < size)%Z -> (0 <= j < size)%Z -> 0 <= mat_at F i j.

Inductive leads : Z -> Z -> Prop :=
| leads_refl i : leads i i
| leads_step i j k : leads i j -> (0 <= j < size)%Z -> (0 <= k < size)%Z -> j <> k -> mat_at M k j < 0 -> leads i k.
Lemma leads_trans i j k : leads i j -> leads j k -> leads i k.
Proof. intros H1 H2. induction H2; [exact H1|]. apply leads_step with j; auto. Qed.
Lemma leads_range i k : leads i k -> (0 <= i < size)%Z -> (0 <= k < size)%Z.
Proof. intros H Hi. induction H; auto. Qed.

Lemma at_zero x i : (forall j, (0 <= j < size)%Z -> 0 <= x j) -> (0 <= i < size)%Z -> x i = 0 ->
  forall j, (0 <= j < size)%Z -> j <> i -> app size (mat_at M) x i <= mat_at M i j * x j.
Proof using Hoff.
  intros Hx Hi H0 j Hj Hne. unfold app.
  assert (H : rsum 0 size (fun l => - (mat_at M i l * x l)) = - rsum 0 size (fun l => mat_at M i l * x l)).
  { rewrite (rsum_ext 0 size _ (fun l => -1 * (mat_at M i l * x l))) by (intros; ring). rewrite rsum_scal. ring. }
  pose proof (rsum_term_le 0 size (fun l => - (mat_at M i l * x l)) j) as T. cbv beta in T.
  assert (- (mat_at M i j * x j) <= rsum 0 size (fun l => - (mat_at M i l * x l))); [|lra].
  apply T; [|exact Hj]. intros l Hl. destruct (Z.eq_dec l i) as [-> | Hn]; [rewrite H0; lra|]. pose proof (Hoff i l Hi Hl ltac:(lia)). pose proof (Hx l Hl). nra.
Qed.
Lemma leads_pos x : (forall j, (0 <= j < size)%Z -> 0 <= x j) -> (forall j, (0 <= j < size)%Z -> 0 <= app size (mat_at M) x j) ->
  forall i k, leads i k -> 0 < x i -> 0 < x k.
Proof using Hoff.
  intros Hx Hb i k H Hi. induction H as [i|i j k H IH Hj Hk Hne Hm]; [exact Hi|]. specialize (IH Hi).
  destruct (Hx k Hk) as [P | E]; [exact P|exfalso]. pose proof (at_zero x k Hx Hk (eq_sym E) j Hj Hne). pose proof (Hb k Hk). nra.
Qed.
Lemma source_pos x i : (forall j, (0 <= j < size)%Z -> 0 <= x j) -> (0 <= i < size)%Z -> 0 < app size (mat_at M) x i -> 0 < x i.
Proof using Hoff.
  intros Hx Hi Hb. destruct (Hx i Hi) as [P | E]; [exact P|exfalso].
  assert (app size (mat_at M) x i <= 0); [|lra].
  unfold app. apply Rle_trans with (rsum 0 size (fun _ => 0)); [|right; apply rsum_0; reflexivity]. apply rsum_le. intros j Hj. destruct (Z.eq_dec j i) as [-> | Hn]; [rewrite <- E; lra|]. pose proof (Hoff i j Hi Hj ltac:(lia)). pose proof (Hx j Hj). nra.
Qed.

Lemma chain : (forall i0 i, on size (births F size) i0 -> on size (births F size) i -> exists j, leads i0 j /\ 0 < mat_at F i j) ->
  forall b, vlen b = size -> (forall i, (0 <= i < size)%Z -> 0 <= vat b i) -> (exists i, on size (births F size) i /\ 0 < vat b i) ->
  forall i, on size (births F size) i -> 0 < vat (mvmul F (solve b)) i.
Proof using Hoff HMr HMc HFr HFc Hex Hmon HF0.
  intros Hreach b Lb Hb (i0 & Hi0 & Hp) i Hi.
  pose proof (solve_nonneg solver M size HMr HMc Hex Hmon b Lb Hb) as Hx. pose proof (fun i => solve_eq solver M size HMr HMc Hex b i Lb) as He.
  destruct (Hreach i0 i Hi0 Hi) as (j & Hl & Hf).
  assert (Hj : (0 <= j < size)%Z) by (apply (leads_range i0); [exact Hl|apply Hi0]).
  assert (0 < vat (solve b) j).
  { apply (leads_pos _ Hx ltac:(intros l Hll; rewrite He; auto) i0 j Hl). apply source_pos; [exact Hx|apply Hi0|]. rewrite He by apply Hi0. exact Hp. }
  rewrite mvmul_at, HFc. apply Rlt_le_trans with (mat_at F i j * vat (solve b) j); [apply Rmult_lt_0_compat; assumption|].
  apply (rsum_term_le 0 size (fun l => mat_at F i l * vat (solve b) l) j); [|exact Hj]. intros l Hl'. apply Rmult_le_pos; [apply HF0; [apply Hi|exact Hl']|auto].
Qed.
End Leads.

(* ---------- what the iteration settles on ---------- *)

(* a non-negative flux that makes fission neutrons and is reproduced with factor k *)
Definition mode (M F : mat R) (k : R) (phi : vec R) : Prop :=
  0 < k /\ vlen phi = mcols M /\ (forall i, (0 <= i < mcols M)%Z -> 0 <= vat phi i) /\
  (exists i, (0 <= i < mrows F)%Z /\ vat (mvmul F phi) i <> 0) /\
  forall i, (0 <= i < mrows M)%Z -> vat (mvmul M phi) i = vat (mvmul F phi) i / k.

(* there is exactly one such mode, it makes fission neutrons wherever they can be
   made, the iteration stops for every accuracy, and what
   it returns differs from the mode by an error falling geometrically with the
   number of iterations *)
Definition settles (solver : mat R -> vec R -> vec R) (M F : mat R) (k : R) (phi : vec R) : Prop :=
  mode M F k phi /\ vnorm1 phi = 1 /\
  (forall i j, (0 <= i < mrows F)%Z -> (0 <= j < mcols F)%Z -> 0 < mat_at F i j -> 0 < vat (mvmul F phi) i) /\
  (forall k' phi', mode M F k' phi' -> k' = k /\ exists c, 0 < c /\ forall i, (0 <= i < mcols M)%Z -> vat phi' i = c * vat phi i) /\
  (forall acc dir, 0 < acc -> exists N, forall max, (N <= max)%Z -> exists its er, sourceIteration solver M F max acc dir = Ok (its, er)) /\
  exists C rho, 0 <= C /\ 0 < rho < 1 /\
    forall max acc dir its er, sourceIteration solver M F max acc dir = Ok (its, er) ->
      Rabs (er_k er - k) <= C * rho ^ Z.to_nat its /\
      forall i, (0 <= i < mcols M)%Z -> Rabs (vat (er_flux er) i - vat phi i) <= C * rho ^ Z.to_nat its.

Lemma settling solver (M F : mat R) size : (0 <= size)%Z -> mrows M = size -> mcols M = size -> mrows F = size -> mcols F = size ->
  exact_solver M (solver M) -> monotone size (mat_at M) ->
  (forall i j, (0 <= i < size)%Z -> (0 <= j < size)%Z -> 0 <= mat_at F i j) ->
  (forall b, vlen b = size -> (forall i, (0 <= i < size)%Z -> 0 <= vat b i) -> (exists i, on size (births F size) i /\ 0 < vat b i) ->
    forall i, on size (births F size) i -> 0 < vat (mvmul F (solver M b)) i) ->
  (exists r, on size (births F size) r) -> exists k phi, settles solver M F k phi.
Proof.
  intros Hs HMr HMc HFr HFc Hex Hmon HF0 Hchain (r & Hr).
  destruct (limit solver M F size HMr HMc HFr HFc Hex Hmon HF0 Hchain r Hr) as (k & phi & C & rho & Hk & Hrho & HC & Lp & Np & P0 & Pb & Pe & Ek & Ef).
  exists k, phi. assert (Hm : mode M F k phi).
  { split; [exact Hk|]. split; [lia|]. split; [rewrite HMc; exact P0|]. split; [|rewrite HMr; exact Pe]. exists r. rewrite HFr. split; [apply Hr|]. pose proof (Pb r Hr). lra. }
  split; [exact Hm|]. split; [unfold vnorm1; rewrite Lp; exact Np|]. split; [|split; [|split]].
  - intros i j Hi Hj Hp. rewrite HFr in Hi. rewrite HFc in Hj. apply Pb. split; [exact Hi|]. unfold births. apply Rlt_le_trans with (mat_at F i j); [exact Hp|].
    apply (rsum_term_le 0 size (fun j => mat_at F i j)); [|exact Hj]. intros l Hl. apply HF0; assumption.
  - intros k' phi' (K' & L' & N' & (q & Hq & Q') & E'). rewrite HMc, HMr, HFr in *.
    destruct (mode_unique solver M F size HMr HMc HFr HFc Hex Hmon HF0 Hchain r Hr k' k phi' phi L' Lp K' Hk) as [A B]; [|exact E'|exact Pe|].
    + intros f [-> | ->]; (split; [assumption|]); [exists q|exists r]; (split; [first [exact Hq | apply Hr]|]); [exact Q'|]. pose proof (Pb r Hr). lra.
    + split; [exact A|exact B].
  - intros acc dir Ha. exact (iteration_stops solver M F size HMr HMc HFr HFc Hex Hmon HF0 Hchain r Hr acc dir Ha).
  - exists C, rho. split; [exact HC|]. split; [exact Hrho|]. intros max acc dir its er Hok.
    assert (Hlen : forall b, vlen b = size -> vlen (solver M b) = size) by (intros b Hb; rewrite <- HMc; apply Hex; lia).
    destruct (sourceIteration_spec solver M F size max acc dir Hs HMr HMc HFr HFc Hlen) as [(j & _ & _ & _ & E)|[_ E]]; rewrite E in Hok; [|discriminate].
    replace (Z.to_nat its) with (S j) by (injection Hok; intros; lia). injection Hok as _ <-. cbn [er_single er_k er_flux]. split; [exact (Ek (S j))|]. intros i Hi. cbn [vdivs vat].
    pose proof (Ef (S j) i ltac:(lia)) as H. refine (eq_rect _ (fun l => Rabs (_ / rsum 0 l _ - _) <= _) H _ (eq_sym (proj1 (power_len (solver M) F size HFc HFr Hlen (S j))))).
Qed.

(* ---------- diffusion ---------- *)

(* from group e neutrons scatter into group e', in one or more collisions or none *)
Inductive scatters_to (d : data R) (en n : Z) : Z -> Z -> Prop :=
| scatters_same e : scatters_to d en n e e
| scatters_on e e1 e2 m : scatters_to d en n e e1 -> (0 <= e1 < en)%Z -> (0 <= e2 < en)%Z -> (0 <= m < n)%Z -> 0 < tsc d e1 e2 m -> scatters_to d en n e e2.

Section Diffusion.
Variable ms : mesh R.
Variable sd : solverData R.
Variable d : data R.
Variables aL aR : R.
Notation n := (ms_cells ms).
Notation en := (sd_energies sd).
Hypothesis Hn : (2 <= n)%Z.
Hypothesis Hen : (0 <= en)%Z.
Hypothesis Hdata : mesh_data PI ms en d.
Hypothesis Hal : albedos ms sd aL aR.
Hypothesis HaL : 0 <= aL <= 1.
Hypothesis HaR : 0 <= aR <= 1.
Hypothesis HD : forall e m, (0 <= e < en)%Z -> (0 <= m < n)%Z -> 0 < tD d e m.
Hypothesis Hx : forall m, (0 <= m < n)%Z -> 0 < tdx d m.
Hypothesis HS : forall k, (0 <= k <= n)%Z -> 0 <= tS d k.
Hypothesis HS1 : forall k, (1 <= k < n)%Z -> 0 < tS d k.
Hypothesis HV : forall m, (0 <= m < n)%Z -> 0 < tV d m.
Hypothesis Hsc : forall e e' m, (0 <= e < en)%Z -> (0 <= e' < en)%Z -> (0 <= m < n)%Z -> 0 <= tsc d e e' m.
Hypothesis Habs : forall e m, (0 <= e < en)%Z -> (0 <= m < n)%Z -> rsum 0 en (fun e' => tsc d e e' m) < ttot d e m.
Hypothesis Hchi : forall e m, (0 <= e < en)%Z -> (0 <= m < n)%Z -> 0 <= tchi d e m.
Hypothesis Hfis : forall e m, (0 <= e < en)%Z -> (0 <= m < n)%Z -> 0 <= tni d e m * tfis d e m.

(* transfers into e from e' *)
Variable tr : Z -> Z -> Z -> R.
Hypothesis Htr : forall e e' m, (0 <= e < en)%Z -> (0 <= e' < en)%Z -> (0 <= m < n)%Z -> 0 <= tr e e' m.
Variable M : mat R.
Hypothesis HM : bl n en M (lossB d (tri d (dgA ms d aL aR)) tr).

Lemma dif_strict e m : (0 <= e < en)%Z -> (0 <= m < n - 1)%Z -> 0 < dif d e m.
Proof using HD Hx HS1.
  intros He Hm. unfold dif. rnum. pose proof (HD e m He ltac:(lia)). pose proof (HD e (m + 1)%Z He ltac:(lia)). pose proof (HS1 (m + 1)%Z ltac:(lia)).
  pose proof (Hx m ltac:(lia)). pose proof (Hx (m + 1)%Z ltac:(lia)).
  apply Rdiv_lt_0_compat; [repeat apply Rmult_lt_0_compat; auto|]. apply Rplus_lt_0_compat; apply Rmult_lt_0_compat; auto.
Qed.
Lemma entry e m e' m' : (0 <= e < en)%Z -> (0 <= m < n)%Z -> (0 <= e' < en)%Z -> (0 <= m' < n)%Z ->
  mat_at M (m + e * n) (m' + e' * n) = lossB d (tri d (dgA ms d aL aR)) tr e m e' m'.
Proof using HM. intros He Hm He' Hm'. exact (proj2 (proj2 HM) e m e' m' He Hm He' Hm'). Qed.
Lemma inside e m : (0 <= e < en)%Z -> (0 <= m < n)%Z -> (0 <= m + e * n < n * en)%Z.
Proof using Hn. intros. nia. Qed.

Lemma off_diagonal i j : (0 <= i < n * en)%Z -> (0 <= j < n * en)%Z -> i <> j -> mat_at M i j <= 0.
Proof using Hn HM HD Hx HS1 HV Htr.
  intros Hi Hj Hne.
  destruct (idx_decode n en i ltac:(lia) Hi) as (e & m & He & Hm & ->).
  destruct (idx_decode n en j ltac:(lia) Hj) as (e' & m' & He' & Hm' & ->).
  rewrite entry by auto. unfold lossB, tri, mtwo. rnum.
  assert (0 <= if (m' =? m)%Z then tr e e' m * tV d m else 0).
  { destruct (m' =? m)%Z; [|lra]. apply Rmult_le_pos; [auto|left; auto]. }
  destruct (Z.eqb_spec e' e); [|lra].
  destruct (Z.eqb_spec m' (m - 1)); [|destruct (Z.eqb_spec m' (m + 1))].
  + pose proof (dif_strict e (m - 1)%Z He ltac:(lia)). lra.
  + pose proof (dif_strict e m He ltac:(lia)). lra.
  + destruct (Z.eqb_spec m' m); [|lra]. subst. lia.
Qed.

Notation lead := (leads M (n * en)).
Lemma lead_next e m m' : (0 <= e < en)%Z -> (0 <= m < n)%Z -> (0 <= m' < n)%Z -> (m' = m + 1 \/ m' = m - 1)%Z -> lead (m + e * n)%Z (m' + e * n)%Z.
Proof using Hn HM HD Hx HS1.
  intros He Hm Hm' Hs. apply leads_step with (m + e * n)%Z; [apply leads_refl|apply inside; auto|apply inside; auto|lia|].
  rewrite entry by auto. unfold lossB, tri, mtwo. rnum. rewrite Z.eqb_refl.
  destruct Hs as [-> | ->].
  - replace (m =? m + 1 - 1)%Z with true by (symmetry; apply Z.eqb_eq; lia). replace (m =? m + 1)%Z with false by (symmetry; apply Z.eqb_neq; lia).
    replace (m + 1 - 1)%Z with m by lia. pose proof (dif_strict e m He ltac:(lia)). lra.
  - replace (m =? m - 1 - 1)%Z with false by (symmetry; apply Z.eqb_neq; lia). replace (m =? m - 1 + 1)%Z with true by (symmetry; apply Z.eqb_eq; lia).
    replace (m =? m - 1)%Z with false by (symmetry; apply Z.eqb_neq; lia). pose proof (dif_strict e (m - 1)%Z He ltac:(lia)). lra.
Qed.
Lemma lead_cells e m m' : (0 <= e < en)%Z -> (0 <= m < n)%Z -> (0 <= m' < n)%Z -> lead (m + e * n)%Z (m' + e * n)%Z.
Proof using Hn HM HD Hx HS1.
  intros He Hm.
  assert (U : forall k, (m + Z.of_nat k < n)%Z -> lead (m + e * n)%Z (m + Z.of_nat k + e * n)%Z).
  { induction k as [|k IH]; intros Hk; [rewrite Z.add_0_r; apply leads_refl|].
    apply leads_trans with (m + Z.of_nat k + e * n)%Z; [apply IH; lia|]. apply lead_next; lia. }
  assert (L : forall k, (0 <= m - Z.of_nat k)%Z -> lead (m + e * n)%Z (m - Z.of_nat k + e * n)%Z).
  { induction k as [|k IH]; intros Hk; [rewrite Z.sub_0_r; apply leads_refl|].
    apply leads_trans with (m - Z.of_nat k + e * n)%Z; [apply IH; lia|]. apply lead_next; lia. }
  intros Hm'. destruct (Z_le_gt_dec m m').
  - replace m' with (m + Z.of_nat (Z.to_nat (m' - m)))%Z by lia. apply U. lia.
  - replace m' with (m - Z.of_nat (Z.to_nat (m - m')))%Z by lia. apply L. lia.
Qed.
Lemma lead_group e e' m : (0 <= e < en)%Z -> (0 <= e' < en)%Z -> (0 <= m < n)%Z -> 0 < tr e' e m -> lead (m + e * n)%Z (m + e' * n)%Z.
Proof using Hn HM HV.
  intros He He' Hm Hp. destruct (Z.eq_dec e e') as [-> | Hne]; [apply leads_refl|].
  apply leads_step with (m + e * n)%Z; [apply leads_refl|apply inside; auto|apply inside; auto|nia|].
  rewrite entry by auto. unfold lossB, tri. rnum. rewrite Z.eqb_refl. replace (e =? e')%Z with false by (symmetry; apply Z.eqb_neq; lia).
  pose proof (Rmult_lt_0_compat _ _ Hp (HV m Hm)). lra.
Qed.

(* group to group, when the scattering chain d runs the way of tr *)
Lemma lead_chain e e' m m' : (forall a b l, (0 <= a < en)%Z -> (0 <= b < en)%Z -> (0 <= l < n)%Z -> tr b a l = tsc d a b l) ->
  scatters_to d en n e e' -> (0 <= e < en)%Z -> (0 <= m < n)%Z -> (0 <= m' < n)%Z -> lead (m + e * n)%Z (m' + e' * n)%Z.
Proof using Hn HM HD Hx HS1 HV.
  intros Hf H He Hm. revert m'. induction H as [e|e e1 e2 l H IH He1 He2 Hl Hp]; intros m' Hm'; [apply lead_cells; auto|].
  apply leads_trans with (l + e1 * n)%Z; [apply IH; auto|]. apply leads_trans with (l + e2 * n)%Z; [|apply lead_cells; auto].
  apply lead_group; auto. rewrite Hf; auto.
Qed.
Lemma lead_chain_adj e e' m m' : (forall a b l, (0 <= a < en)%Z -> (0 <= b < en)%Z -> (0 <= l < n)%Z -> tr a b l = tsc d a b l) ->
  scatters_to d en n e' e -> (0 <= e < en)%Z -> (0 <= e' < en)%Z -> (0 <= m < n)%Z -> (0 <= m' < n)%Z -> lead (m + e * n)%Z (m' + e' * n)%Z.
Proof using Hn HM HD Hx HS1 HV.
  intros Hf H. revert m m'. induction H as [e|e0 e1 e2 l H IH He1 He2 Hl Hp]; intros m m' He He' Hm Hm'; [apply lead_cells; auto|].
  apply leads_trans with (l + e2 * n)%Z; [apply lead_cells; auto|]. apply leads_trans with (l + e1 * n)%Z; [|apply IH; auto].
  apply lead_group; auto. rewrite Hf; auto.
Qed.
End Diffusion.

(* a subcritical-absorption problem with albedos between 0 and 1: the data are physical *)
Record diffusion_case (ms : mesh R) (sd : solverData R) (d : data R) (aL aR : R) : Prop := {
  dcs_cells : (2 <= ms_cells ms)%Z;
  dcs_groups : (0 <= sd_energies sd)%Z;
  dcs_data : mesh_data PI ms (sd_energies sd) d;
  dcs_albedos : albedos ms sd aL aR;
  dcs_left : 0 <= aL <= 1;
  dcs_right : 0 <= aR <= 1;
  dcs_diff : forall e m, (0 <= e < sd_energies sd)%Z -> (0 <= m < ms_cells ms)%Z -> 0 < tD d e m;
  dcs_width : forall m, (0 <= m < ms_cells ms)%Z -> 0 < tdx d m;
  dcs_area : forall k, (0 <= k <= ms_cells ms)%Z -> 0 <= tS d k;
  dcs_inner : forall k, (1 <= k < ms_cells ms)%Z -> 0 < tS d k;
  dcs_volume : forall m, (0 <= m < ms_cells ms)%Z -> 0 < tV d m;
  dcs_scatt : forall e e' m, (0 <= e < sd_energies sd)%Z -> (0 <= e' < sd_energies sd)%Z -> (0 <= m < ms_cells ms)%Z -> 0 <= tsc d e e' m;
  dcs_abs : forall e m, (0 <= e < sd_energies sd)%Z -> (0 <= m < ms_cells ms)%Z -> rsum 0 (sd_energies sd) (fun e' => tsc d e e' m) < ttot d e m;
  dcs_chi : forall e m, (0 <= e < sd_energies sd)%Z -> (0 <= m < ms_cells ms)%Z -> 0 <= tchi d e m;
  dcs_fis : forall e m, (0 <= e < sd_energies sd)%Z -> (0 <= m < ms_cells ms)%Z -> 0 <= tni d e m * tfis d e m }.

(* fission neutrons are born in group e of cell m; group e makes fissions in cell m *)
Definition emits (ms : mesh R) (sd : solverData R) (d : data R) (e m : Z) : Prop :=
  (0 <= e < sd_energies sd)%Z /\ (0 <= m < ms_cells ms)%Z /\ 0 < tchi d e m.
Definition fissions (ms : mesh R) (sd : solverData R) (d : data R) (e m : Z) : Prop :=
  (0 <= e < sd_energies sd)%Z /\ (0 <= m < ms_cells ms)%Z /\ 0 < tni d e m * tfis d e m.
Definition fissile (ms : mesh R) (sd : solverData R) (d : data R) (m : Z) : Prop :=
  (exists e, emits ms sd d e m) /\ (exists e, fissions ms sd d e m).

Lemma rsum_pos_term f n : (forall j, (0 <= j < n)%Z -> 0 <= f j) -> 0 < rsum 0 n f -> exists j, (0 <= j < n)%Z /\ 0 < f j.
Proof.
  intros H0 H. destruct (bounded_exists_dec (fun j => 0 < f j) (fun j => Rlt_dec 0 (f j)) (Z.to_nat n)) as [[j [Hj Hp]]|No].
  - exists j. split; [lia|exact Hp].
  - exfalso. rewrite rsum_0 in H; [lra|]. intros j Hj. destruct (H0 j Hj) as [P | <-]; [|reflexivity]. exfalso. apply (No j); [lia|exact P].
Qed.

Lemma diffusion_forward solver ms sd d aL aR : diffusion_case ms sd d aL aR -> sd_dir sd = FORWARD ->
  (exists m, fissile ms sd d m) ->
  (forall e0 m0 m, emits ms sd d e0 m0 -> fissile ms sd d m -> exists e, scatters_to d (sd_energies sd) (ms_cells ms) e0 e /\ fissions ms sd d e m) ->
  exists M F, diffusionSystem PI ms sd = Ok (M, F) /\ (exists solve, exact_solver M solve) /\
    (exact_solver M (solver M) -> exists k phi, settles solver M F k phi).
Proof.
  intros D Hdir Hsome Hreach. destruct D as [Hn Hen Hdata Hal HaL HaR HD Hx HS HS1 HV Hsc Habs Hchi Hfis].
  destruct (system_bl ms sd d aL aR Hn Hen Hdata Hal HaL ltac:(congruence)) as (M & F & E & HM & HF). unfold transfer in HM. rewrite Hdir in HM, HF.
  exists M, F. split; [exact E|].
  destruct (loss_monotone ms sd d aL aR Hn Hen Hdata Hal HaL HaR HD Hx Hdir HS HV Hsc Habs) as (M1 & F1 & E1 & Hmon). rewrite E in E1. injection E1 as <- <-.
  set (n := ms_cells ms) in *. set (en := sd_energies sd) in *.
  assert (Hsz : (0 <= n * en)%Z) by nia. pose proof HM as (HMr & HMc & _). pose proof HF as (HFr & HFc & HFe). fold n en in HMr, HMc, HFr, HFc.
  split; [exact (exact_exists M (n * en) Hsz HMr HMc (monotone_injective _ _ Hmon))|]. intros Hex.
  assert (Fe : forall e m e' m', (0 <= e < en)%Z -> (0 <= m < n)%Z -> (0 <= e' < en)%Z -> (0 <= m' < n)%Z ->
    mat_at F (m + e * n) (m' + e' * n) = if (m' =? m)%Z then tchi d e m * (tni d e' m * tfis d e' m * tV d m) else 0).
  { intros e m e' m' He Hm He' Hm'. specialize (HFe e m e' m' He Hm He' Hm'). unfold blk in HFe. rewrite HFe. unfold fp. rnum. destruct (m' =? m)%Z; lra. }
  assert (HF0 : forall i j, (0 <= i < n * en)%Z -> (0 <= j < n * en)%Z -> 0 <= mat_at F i j).
  { intros i j Hi Hj. destruct (idx_decode n en i ltac:(lia) Hi) as (e & m & He & Hm & ->). destruct (idx_decode n en j ltac:(lia) Hj) as (e' & m' & He' & Hm' & ->).
    rewrite Fe by auto. destruct (m' =? m)%Z; [|lra]. apply Rmult_le_pos; [auto|]. apply Rmult_le_pos; [auto|left; auto]. }
  assert (Born : forall e m, (0 <= e < en)%Z -> (0 <= m < n)%Z -> on (n * en) (births F (n * en)) (m + e * n)%Z -> emits ms sd d e m /\ fissile ms sd d m).
  { intros e m He Hm [Hi Hp]. destruct (rsum_pos_term _ _ (fun j Hj => HF0 _ j Hi Hj) Hp) as (j & Hj & Hpos).
    destruct (idx_decode n en j ltac:(lia) Hj) as (e' & m' & He' & Hm' & ->). rewrite Fe in Hpos by auto. destruct (Z.eqb_spec m' m) as [Em | Em]; [|lra]. subst m'.
    assert (C : 0 < tchi d e m) by (destruct (Hchi e m He Hm) as [P | Q]; [exact P|rewrite <- Q in Hpos; lra]).
    assert (G : 0 < tni d e' m * tfis d e' m) by (destruct (Hfis e' m He' Hm) as [P | Q]; [exact P|rewrite <- Q in Hpos; lra]).
    split; [repeat split; auto; lia|]. split; [exists e|exists e']; repeat split; auto; lia. }
  apply (settling solver M F (n * en) Hsz HMr HMc HFr HFc Hex Hmon HF0).
  - apply (chain solver M F (n * en) HMr HMc HFr HFc Hex Hmon); [|exact HF0|].
    + intros i j Hi Hj Hne. eapply (off_diagonal ms sd d aL aR Hn HD Hx HS1 HV); [|exact HM|exact Hi|exact Hj|exact Hne]. intros; apply Hsc; auto.
    + intros i0 i Hi0 Hi.
      destruct (idx_decode n en i0 ltac:(lia) (proj1 Hi0)) as (e0 & m0 & He0 & Hm0 & ->). destruct (idx_decode n en i ltac:(lia) (proj1 Hi)) as (e & m & He & Hm & ->).
      destruct (Born e0 m0 He0 Hm0 Hi0) as [B0 _]. destruct (Born e m He Hm Hi) as [B1 B2].
      destruct (Hreach e0 m0 m B0 B2) as (e' & Hs & (He' & _ & Hf)). exists (m + e' * n)%Z. split.
      * eapply (lead_chain ms sd d aL aR Hn HD Hx HS1 HV _ M HM); auto.
      * rewrite Fe, Z.eqb_refl by auto. apply Rmult_lt_0_compat; [apply B1|]. apply Rmult_lt_0_compat; [exact Hf|auto].
  - destruct Hsome as (m & (e & He & Hm & Hc) & (e' & He' & _ & Hf)). exists (m + e * n)%Z. fold n en in He, Hm, He'. split; [nia|].
    unfold births. apply Rlt_le_trans with (mat_at F (m + e * n) (m + e' * n)).
    + rewrite Fe, Z.eqb_refl by auto. apply Rmult_lt_0_compat; [exact Hc|]. apply Rmult_lt_0_compat; [exact Hf|auto].
    + apply (rsum_term_le 0 (n * en) (fun j => mat_at F (m + e * n) j)); [|nia]. intros j Hj. apply HF0; [nia|exact Hj].
Qed.

Lemma diffusion_adjoint solver ms sd d aL aR : diffusion_case ms sd d aL aR -> sd_dir sd = ADJOINT ->
  (exists m, fissile ms sd d m) ->
  (forall e0 m0 m, fissions ms sd d e0 m0 -> fissile ms sd d m -> exists e, scatters_to d (sd_energies sd) (ms_cells ms) e e0 /\ emits ms sd d e m) ->
  exists M F, diffusionSystem PI ms sd = Ok (M, F) /\ (exists solve, exact_solver M solve) /\
    (exact_solver M (solver M) -> exists k phi, settles solver M F k phi).
Proof.
  intros D Hdir Hsome Hreach. destruct D as [Hn Hen Hdata Hal HaL HaR HD Hx HS HS1 HV Hsc Habs Hchi Hfis].
  destruct (system_bl ms sd d aL aR Hn Hen Hdata Hal HaL ltac:(congruence)) as (M & F & E & HM & HF). unfold transfer in HM. rewrite Hdir in HM, HF.
  exists M, F. split; [exact E|].
  assert (Hmon : monotone (ms_cells ms * sd_energies sd) (mat_at M)).
  { set (sf := mkSolverData (sd_kind sd) (sd_acc sd) (sd_max sd) (sd_relax sd) (sd_albedo sd) (sd_heatbc sd) (sd_energies sd) FORWARD (sd_eig sd)).
    assert (Hp : is_equal aL (nofZ 2) && is_equal aR (nofZ 2) = false) by (apply not_periodic; assumption).
    destruct (adjoint_is_transpose PI ms sf sd d aL aR Hn Hen eq_refl eq_refl eq_refl Hdir Hdata Hal Hp) as (Mf & Ff & Ma & Fa & Ef & Ea & _ & _ & _ & _ & _ & _ & _ & _ & Ht).
    rewrite E in Ea. injection Ea as <- <-.
    destruct (loss_monotone ms sf d aL aR Hn Hen Hdata Hal HaL HaR HD Hx eq_refl HS HV Hsc Habs) as (M1 & F1 & E1 & Hmon). rewrite Ef in E1. injection E1 as <- <-.
    apply transpose_monotone. intros x H. apply Hmon. intros i Hi. rewrite (app_ext _ _ (fun i j => mat_at M j i) x x i); [apply H, Hi| |reflexivity]. intros j Hj. symmetry. apply Ht; assumption. }
  set (n := ms_cells ms) in *. set (en := sd_energies sd) in *.
  assert (Hsz : (0 <= n * en)%Z) by nia. pose proof HM as (HMr & HMc & _). pose proof HF as (HFr & HFc & HFe). fold n en in HMr, HMc, HFr, HFc.
  split; [exact (exact_exists M (n * en) Hsz HMr HMc (monotone_injective _ _ Hmon))|]. intros Hex.
  assert (Fe : forall e m e' m', (0 <= e < en)%Z -> (0 <= m < n)%Z -> (0 <= e' < en)%Z -> (0 <= m' < n)%Z ->
    mat_at F (m + e * n) (m' + e' * n) = if (m' =? m)%Z then tni d e m * tfis d e m * tV d m * tchi d e' m else 0).
  { intros e m e' m' He Hm He' Hm'. specialize (HFe e m e' m' He Hm He' Hm'). unfold blk in HFe. rewrite HFe. unfold fp. rnum. destruct (Z.eqb_spec m' m) as [Em | Em]; [subst m'|]; lra. }
  assert (HF0 : forall i j, (0 <= i < n * en)%Z -> (0 <= j < n * en)%Z -> 0 <= mat_at F i j).
  { intros i j Hi Hj. destruct (idx_decode n en i ltac:(lia) Hi) as (e & m & He & Hm & ->). destruct (idx_decode n en j ltac:(lia) Hj) as (e' & m' & He' & Hm' & ->).
    rewrite Fe by auto. destruct (m' =? m)%Z; [|lra]. apply Rmult_le_pos; [|auto]. apply Rmult_le_pos; [auto|left; auto]. }
  assert (Born : forall e m, (0 <= e < en)%Z -> (0 <= m < n)%Z -> on (n * en) (births F (n * en)) (m + e * n)%Z -> fissions ms sd d e m /\ fissile ms sd d m).
  { intros e m He Hm [Hi Hp]. destruct (rsum_pos_term _ _ (fun j Hj => HF0 _ j Hi Hj) Hp) as (j & Hj & Hpos).
    destruct (idx_decode n en j ltac:(lia) Hj) as (e' & m' & He' & Hm' & ->). rewrite Fe in Hpos by auto. destruct (Z.eqb_spec m' m) as [Em | Em]; [|lra]. subst m'.
    assert (C : 0 < tchi d e' m) by (destruct (Hchi e' m He' Hm) as [P | Q]; [exact P|rewrite <- Q in Hpos; lra]).
    assert (G : 0 < tni d e m * tfis d e m) by (destruct (Hfis e m He Hm) as [P | Q]; [exact P|rewrite <- Q in Hpos; lra]).
    split; [repeat split; auto; lia|]. split; [exists e'|exists e]; repeat split; auto; lia. }
  apply (settling solver M F (n * en) Hsz HMr HMc HFr HFc Hex Hmon HF0).
  - apply (chain solver M F (n * en) HMr HMc HFr HFc Hex Hmon); [|exact HF0|].
    + intros i j Hi Hj Hne. eapply (off_diagonal ms sd d aL aR Hn HD Hx HS1 HV); [|exact HM|exact Hi|exact Hj|exact Hne]. intros; apply Hsc; auto.
    + intros i0 i Hi0 Hi.
      destruct (idx_decode n en i0 ltac:(lia) (proj1 Hi0)) as (e0 & m0 & He0 & Hm0 & ->). destruct (idx_decode n en i ltac:(lia) (proj1 Hi)) as (e & m & He & Hm & ->).
      destruct (Born e0 m0 He0 Hm0 Hi0) as [B0 _]. destruct (Born e m He Hm Hi) as [B1 B2].
      destruct (Hreach e0 m0 m B0 B2) as (e' & Hs & (He' & _ & Hf)). exists (m + e' * n)%Z. split.
      * eapply (lead_chain_adj ms sd d aL aR Hn HD Hx HS1 HV _ M HM); auto.
      * rewrite Fe, Z.eqb_refl by auto. apply Rmult_lt_0_compat; [|exact Hf]. apply Rmult_lt_0_compat; [apply B1|auto].
  - destruct Hsome as (m & (e' & He' & Hm & Hf) & (e & He & _ & Hc)). exists (m + e * n)%Z. fold n en in He, Hm, He'. split; [nia|].
    unfold births. apply Rlt_le_trans with (mat_at F (m + e * n) (m + e' * n)).
    + rewrite Fe, Z.eqb_refl by auto. apply Rmult_lt_0_compat; [|exact Hf]. apply Rmult_lt_0_compat; [exact Hc|auto].
    + apply (rsum_term_le 0 (n * en) (fun j => mat_at F (m + e * n) j)); [|nia]. intros j Hj. apply HF0; [nia|exact Hj].
Qed.

(* a forward and an adjoint mode that meet have the same factor *)
Lemma same_factor (M F Ma Fa : mat R) size k ka phi psi : mrows M = size -> mcols M = size -> mrows F = size -> mcols F = size ->
  mrows Ma = size -> mcols Ma = size -> mrows Fa = size -> mcols Fa = size ->
  (forall i j, (0 <= i < size)%Z -> (0 <= j < size)%Z -> mat_at Ma i j = mat_at M j i /\ mat_at Fa i j = mat_at F j i) ->
  mode M F k phi -> mode Ma Fa ka psi -> 0 < vdot psi (mvmul F phi) -> k = ka.
Proof.
  intros HMr HMc HFr HFc HAr HAc HGr HGc Ht (K & Lp & Np & _ & E) (Ka & Lq & Nq & _ & Ea) Hp. rewrite HMr, HMc, HAr, HAc in *.
  unfold vdot in Hp. rewrite Lq in Hp.
  assert (L : rsum 0 size (fun i => vat psi i * vat (mvmul M phi) i) = rsum 0 size (fun i => vat psi i * vat (mvmul F phi) i) / k).
  { unfold Rdiv. rewrite <- rsum_scal_r. apply rsum_ext. intros i Hi. rewrite E by exact Hi. unfold Rdiv. ring. }
  assert (T : forall A B : mat R, mcols A = size -> mcols B = size -> (forall i j, (0 <= i < size)%Z -> (0 <= j < size)%Z -> mat_at B i j = mat_at A j i) ->
    rsum 0 size (fun i => vat psi i * vat (mvmul A phi) i) = rsum 0 size (fun j => vat (mvmul B psi) j * vat phi j)).
  { intros A B HA HB HAB. rewrite (rsum_ext 0 size _ (fun i => rsum 0 size (fun j => vat psi i * mat_at A i j * vat phi j))).
    2:{ intros i Hi. rewrite mvmul_at, HA, <- rsum_scal. apply rsum_ext. intros; ring. }
    rewrite rsum_swap. apply rsum_ext. intros j Hj. rewrite mvmul_at, HB, <- rsum_scal_r. apply rsum_ext. intros i Hi. rewrite (HAB j i Hj Hi). ring. }
  rewrite (T M Ma HMc HAc (fun i j Hi Hj => proj1 (Ht i j Hi Hj))) in L.
  assert (L2 : rsum 0 size (fun j => vat (mvmul Ma psi) j * vat phi j) = rsum 0 size (fun i => vat psi i * vat (mvmul F phi) i) / ka).
  { rewrite (T F Fa HFc HGc (fun i j Hi Hj => proj2 (Ht i j Hi Hj))). unfold Rdiv. rewrite <- rsum_scal_r. apply rsum_ext. intros i Hi. rewrite Ea by exact Hi. unfold Rdiv. ring. }
  rewrite L in L2. rnum. set (q := rsum 0 size (fun i => vat psi i * vat (mvmul F phi) i)) in *.
  assert (q * ka = q * k) by (apply (Rmult_eq_compat_r (k * ka)) in L2; field_simplify in L2; lra). nra.
Qed.

Lemma modes_meet (M F Ma Fa : mat R) solver size k ka phi psi : mrows F = size -> mcols F = size -> mrows Fa = size -> mcols Fa = size -> mcols Ma = size ->
  (forall i j, (0 <= i < size)%Z -> (0 <= j < size)%Z -> 0 <= mat_at F i j /\ mat_at Fa i j = mat_at F j i) ->
  mcols M = size -> settles solver M F k phi -> mode Ma Fa ka psi -> 0 < vdot psi (mvmul F phi).
Proof.
  intros HFr HFc HGr HGc HAc Ht HMc (Hm & _ & Hp & _) (Ka & Lq & Nq & (j & Hj & Nz) & _). rewrite HGr in Hj. rewrite HAc in *.
  assert (H0 : forall i, (0 <= i < size)%Z -> 0 <= mat_at Fa j i * vat psi i).
  { intros i Hi. rewrite (proj2 (Ht j i Hj Hi)). apply Rmult_le_pos; [apply Ht; assumption|apply Nq; assumption]. }
  destruct (rsum_pos_term _ _ H0) as (i & Hi & Hpos).
  { rewrite mvmul_at, HGc in Nz. destruct (rsum_nonneg 0 size (fun i => mat_at Fa j i * vat psi i) H0) as [P | P]; [exact P|congruence]. }
  rewrite (proj2 (Ht j i Hj Hi)) in Hpos. pose proof (proj1 (Ht i j Hi Hj)) as Hf. pose proof (Nq i Hi) as Hq.
  assert (F1 : 0 < mat_at F i j) by (destruct Hf as [P | P]; [exact P|rewrite <- P in Hpos; lra]).
  assert (Q1 : 0 < vat psi i) by (destruct Hq as [P | P]; [exact P|rewrite <- P in Hpos; lra]).
  rewrite HFr, HFc in Hp. unfold vdot. rewrite Lq.
  apply Rlt_le_trans with (vat psi i * vat (mvmul F phi) i); [apply Rmult_lt_0_compat; [exact Q1|apply (Hp i j); assumption]|].
  apply (rsum_term_le 0 size (fun i => vat psi i * vat (mvmul F phi) i)); [|exact Hi]. intros l Hl. apply Rmult_le_pos; [apply Nq, Hl|].
  rewrite mvmul_at, HFc. apply rsum_nonneg. intros q Hq'. apply Rmult_le_pos; [apply Ht; assumption|]. destruct Hm as (_ & _ & Np & _). apply Np. lia.
Qed.
