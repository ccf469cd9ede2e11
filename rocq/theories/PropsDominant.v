(* Property theorems C108: the two methods of solution agree.  The first of the modes
   that the eigenvalue routine finds is the mode on which the source iteration
   settles. *)
From Coq Require Import String ZArith List Bool Lia Reals Lra Permutation Sorted.
From Verif Require Import Base BaseLemmas NumR LinAlg Blocks PowerMethod ModelNumTools ModelEigen ModelMesh
  ModelReactor ModelDiffusion ModelSpectrum ProofsSpectrum ProofsSpectrumR ProofsEigen ProofsMesh ProofsDiffusion ProofsDiffusionR Kernels PropsDiffusion
  PropsSpectrum PropsSpectrumB ProofsConverge ProofsConvergeD ProofsConvergeT PropsConverge ProofsInfinite ProofsSlab PropsSlabFactor ProofsRayleigh PropsRising
  ProofsDominant.
Import ListNotations.
Local Open Scope R_scope.

(* what the two methods report: "harmonics all" stops with an error for a complex
   factor, or reports first the factor k and the flux phi on which "harmonics
   fundamental" settles *)
Definition agrees (solver : mat R -> vec R -> vec R) sort eig (M F : mat R) (size : Z) (k : R) (phi : vec R) (sd : solverData R) : Prop :=
  solveEigen solver sort eig M F sd = Exit "The Generalized Eigen Solver has found a complex eigenvalue!" \/
  exists er, solveEigen solver sort eig M F sd = Ok er /\ led_by size k phi er.

(* For every loss matrix whose inverse has no negative entry. *)
Theorem C108_first_mode solver sort eig (M F : mat R) size k phi sd :
  mrows M = size -> mcols M = size -> mrows F = size -> mcols F = size ->
  (forall x, (forall i, (0 <= i < size)%Z -> 0 <= rsum 0 size (fun j => mat_at M i j * x j)) -> forall i, (0 <= i < size)%Z -> 0 <= x i) ->
  (forall i j, (0 <= i < size)%Z -> (0 <= j < size)%Z -> 0 <= mat_at F i j) ->
  settles solver M F k phi -> sorts sort -> finds_modes eig M F -> 10 / 2 ^ 52 < k -> sd_eig sd = EigALL ->
  agrees solver sort eig M F size k phi sd.
Proof.
  intros R1 C1 R2 C2 Hmon HF0 Hs Hsort Heig Hk Hall. unfold agrees, solveEigen. rewrite Hall.
  exact (report_or_complex solver M F size k phi sort eig R1 C1 R2 C2 Hmon HF0 Hs Hsort Heig Hk (sd_dir sd)).
Qed.
Print Assumptions C108_first_mode.

(* So the results of the two methods come together with the number of iterations of
   the first. *)
Theorem C108_agree solver sort eig (M F : mat R) size k phi sd er : mcols M = size -> settles solver M F k phi ->
  agrees solver sort eig M F size k phi sd -> solveEigen solver sort eig M F sd = Ok er ->
  exists C rho, 0 <= C /\ 0 < rho < 1 /\ forall max acc dir its er', sourceIteration solver M F max acc dir = Ok (its, er') ->
    Rabs (er_k er' - er_k er) <= C * rho ^ Z.to_nat its /\
    forall i, (0 <= i < size)%Z -> Rabs (vat (er_flux er') i - vat (er_flux er) i) <= C * rho ^ Z.to_nat its.
Proof.
  intros HM (_ & _ & _ & _ & _ & C & rho & HC & Hr & B) [A | (er1 & A & Ek & _ & Ef & _)] E; rewrite A in E; [discriminate|]. injection E as ->.
  exists C, rho. split; [exact HC|]. split; [exact Hr|]. intros max acc dir its er' E. destruct (B _ _ _ _ _ E) as [B1 B2]. rewrite Ek. split; [exact B1|].
  intros i Hi. rewrite Ef by exact Hi. apply B2. rewrite HM. exact Hi.
Qed.
Print Assumptions C108_agree.

Lemma diffusion_operators ms sd d aL aR M F : diffusion_case ms sd d aL aR -> sd_dir sd <> DirUNDEFINED -> diffusionSystem PI ms sd = Ok (M, F) ->
  let size := (ms_cells ms * sd_energies sd)%Z in
  mrows M = size /\ mcols M = size /\ mrows F = size /\ mcols F = size /\ monotone size (mat_at M) /\
  forall i j, (0 <= i < size)%Z -> (0 <= j < size)%Z -> 0 <= mat_at F i j.
Proof.
  intros D Hdir E size. destruct D as [Hn Hen Hdata Hal HaL HaR HD Hx HS HS1 HV Hsc Habs Hchi Hfis].
  destruct (system_bl ms sd d aL aR Hn Hen Hdata Hal HaL Hdir) as (M1 & F1 & E1 & HM & HF). rewrite E in E1. injection E1 as <- <-.
  pose proof HM as (R1 & C1 & _). pose proof HF as (R2 & C2 & HFe). do 4 (split; [assumption|]). split.
  - destruct (sd_dir sd) eqn:Ed; [congruence| |].
    + destruct (loss_monotone ms sd d aL aR Hn Hen Hdata Hal HaL HaR HD Hx Ed HS HV Hsc Habs) as (M1 & F1 & E1 & Hmon). rewrite E in E1. injection E1 as <- <-. exact Hmon.
    + set (sf := mkSolverData (sd_kind sd) (sd_acc sd) (sd_max sd) (sd_relax sd) (sd_albedo sd) (sd_heatbc sd) (sd_energies sd) FORWARD (sd_eig sd)).
      assert (Hp : is_equal aL (nofZ 2) && is_equal aR (nofZ 2) = false) by (apply not_periodic; assumption).
      destruct (adjoint_is_transpose PI ms sf sd d aL aR Hn Hen eq_refl eq_refl eq_refl Ed Hdata Hal Hp) as (Mf & Ff & Ma & Fa & Ef & Ea & _ & _ & _ & _ & _ & _ & _ & _ & Ht).
      rewrite E in Ea. injection Ea as <- <-.
      destruct (loss_monotone ms sf d aL aR Hn Hen Hdata Hal HaL HaR HD Hx eq_refl HS HV Hsc Habs) as (M1 & F1 & E1 & Hmon). rewrite Ef in E1. injection E1 as <- <-.
      apply transpose_monotone. intros x H. apply Hmon. intros i Hi. rewrite (app_ext _ _ (fun i j => mat_at M j i) x x i); [apply H, Hi| |reflexivity]. intros j Hj. symmetry. apply Ht; assumption.
  - intros i j Hi Hj. destruct (idx_decode (ms_cells ms) (sd_energies sd) i ltac:(lia) Hi) as (e & m & He & Hm & ->). destruct (idx_decode (ms_cells ms) (sd_energies sd) j ltac:(lia) Hj) as (e' & m' & He' & Hm' & ->).
    specialize (HFe e m e' m' He Hm He' Hm'). unfold blk in HFe. rewrite HFe. unfold fp. rnum.
    destruct (sd_dir sd); (destruct (m' =? m)%Z; [|lra]); (apply Rmult_le_pos; [|auto]); (apply Rmult_le_pos; [rewrite Rmult_comm; auto|left; auto]).
Qed.

(* Every diffusion problem, forward and adjoint, in the three geometries. *)
Theorem C108_diffusion solver sort eig ms sd d aL aR M F k phi : diffusion_case ms sd d aL aR -> sd_dir sd <> DirUNDEFINED ->
  diffusionSystem PI ms sd = Ok (M, F) -> settles solver M F k phi -> sorts sort -> finds_modes eig M F -> 10 / 2 ^ 52 < k -> sd_eig sd = EigALL ->
  agrees solver sort eig M F (ms_cells ms * sd_energies sd) k phi sd.
Proof. intros D Hdir E. destruct (diffusion_operators _ _ _ _ _ _ _ D Hdir E) as (R1 & C1 & R2 & C2 & Hm & H0). exact (C108_first_mode solver sort eig M F _ k phi sd R1 C1 R2 C2 Hm H0). Qed.
Print Assumptions C108_diffusion.

(* Transport in slabs with the exact kernel. *)
Theorem C108_transport_slab solver sort eig kb ex sq ms sd a sc g g' check M F k phi :
  transport_ready ms sd a -> transport_run E3 kb ex sq ms sd sc g g' check M F -> ms_geom ms = SLAB -> 0 <= a <= 1 ->
  let n := ms_cells ms in let en := ms_groups ms in let d := mesh_tables ms in
  (forall e e' i, (0 <= e < en)%Z -> (0 <= e' < en)%Z -> (0 <= i < n)%Z -> 0 <= tsc d e e' i) ->
  (forall e i, (0 <= e < en)%Z -> (0 <= i < n)%Z -> rsum 0 en (fun e' => tsc d e e' i) < ttot d e i) ->
  (forall e i, (0 <= e < en)%Z -> (0 <= i < n)%Z -> 0 <= tchi d e i) ->
  (forall e i, (0 <= e < en)%Z -> (0 <= i < n)%Z -> 0 <= tni d e i * tfis d e i) ->
  settles solver M F k phi -> sorts sort -> finds_modes eig M F -> 10 / 2 ^ 52 < k -> sd_eig sd = EigALL ->
  agrees solver sort eig M F (n * en) k phi sd.
Proof.
  intros Hready Hrun Hslab Ha n en d Hsc Habs Hchi Hfis. destruct (C55_transport_operators _ _ _ _ _ _ _ _ _ _ _ _ _ Hready Hrun) as (R1 & C1 & R2 & C2 & HMF).
  apply (C108_first_mode solver sort eig M F (n * en) k phi sd R1 C1 R2 C2).
  - exact (transport_slab_monotone kb ex sq ms sd a sc g g' check M F Hready Hrun Hslab Ha Hsc Habs).
  - assert (Hn : (1 <= n)%Z) by apply Hready. intros i j Hi Hj. destruct (idx_decode n en i ltac:(lia) Hi) as (e & m & He & Hm & ->). destruct (idx_decode n en j ltac:(lia) Hj) as (e' & m' & He' & Hm' & ->).
    destruct (HMF e m e' m' He Hm He' Hm') as [_ Q]. unfold n, en in *. rewrite Q. apply Rmult_le_pos; [left; eapply reduced_pos; eauto|]. apply Rmult_le_pos; auto.
Qed.
Print Assumptions C108_transport_slab.

(* one group: the factors and fluxes in the list *)
Lemma one_group_list solver sort eig ms sd d aL aR M F k phi : diffusion_case ms sd d aL aR -> sd_energies sd = 1%Z -> sd_dir sd = FORWARD ->
  diffusionSystem PI ms sd = Ok (M, F) -> settles solver M F k phi -> sorts sort -> finds_modes eig M F -> 10 / 2 ^ 52 < k -> sd_eig sd = EigALL ->
  let n := ms_cells ms in let f m := tchi d 0 m * (tni d 0 m * tfis d 0 m * tV d m) in
  let vals := mkvec (vlen (fst (eig M F))) (fun i => cinv (vat (fst (eig M F)) i)) in
  (forall i j, (0 <= i < n)%Z -> (0 <= j < n)%Z -> mat_at M i j = mat_at M j i) /\
  exists er, solveEigen solver sort eig M F sd = Ok er /\ led_by n k phi er /\
  Permutation (er_modes er) (map (scaled_mode vals (snd (eig M F))) (filter (keep vals) (zseq (vlen (fst (eig M F)))))) /\
  forall k' x, In (k', x) (er_modes er) -> 10 / 2 ^ 52 < k' /\ vlen x = n /\ vnorm1 x = 1 /\ forall r, (0 <= r < n)%Z -> app n (mat_at M) (vat x) r = 1 / k' * (f r * vat x r).
Proof.
  intros D He Hdir E Hs Hsort Heig Hk Hall n0 f0 vals0. destruct (diffusion_operators _ _ _ _ _ _ _ D ltac:(congruence) E) as (R1 & C1 & R2 & C2 & Hmon & H0).
  destruct D as [Hn Hen Hdata Hal HaL HaR HD Hx HS HS1 HV Hsc Habs Hchi Hfis].
  destruct (fission_entries ms sd d aL aR Hn Hen Hdata Hal HaL Hdir) as (M1 & F1 & E1 & _ & _ & P). rewrite E in E1. injection E1 as <- <-.
  destruct (loss_entries ms sd d aL aR Hn Hen Hdata Hal HaL HD Hx ltac:(congruence)) as (M1 & F1 & E1 & S). rewrite E in E1. injection E1 as <- <-.
  rewrite He in *. rewrite Z.mul_1_r in *. subst n0. set (n := ms_cells ms) in *. set (f := f0).
  assert (HF : forall x i, (0 <= i < n)%Z -> app n (mat_at F) x i = f i * x i).
  { intros x i Hi. unfold app. rewrite (rsum_ext 0 n _ (fun j => if (j =? i)%Z then f j * x j else 0)); [exact (rsum_delta 0 n (fun j => f j * x j) i Hi)|].
    intros j Hj. specialize (P 0%Z i 0%Z j ltac:(lia) Hi ltac:(lia) Hj). rewrite !Z.mul_0_l, !Z.add_0_r in P. rewrite P. unfold f, f0. destruct (Z.eqb_spec j i) as [Q | Q]; [rewrite Q|]; ring. }
  assert (Sym : forall i j, (0 <= i < n)%Z -> (0 <= j < n)%Z -> mat_at M i j = mat_at M j i).
  { intros i j Hi Hj. destruct (Z.eq_dec j i) as [-> | Hne]; [reflexivity|].
    destruct (S 0%Z i 0%Z j ltac:(lia) Hi ltac:(lia) Hj) as (_ & _ & Q). rewrite !Z.mul_0_l, !Z.add_0_r in Q. exact (proj1 (Q Hne)). }
  assert (Hf : forall i, (0 <= i < n)%Z -> 0 <= f i).
  { intros i Hi. apply Rmult_le_pos; [apply Hchi; lia|]. apply Rmult_le_pos; [apply Hfis; lia|left; apply HV; exact Hi]. }
  split; [exact Sym|]. pose proof (monotone_injective _ _ Hmon) as Inj.
  set (ev := fst (eig M F)). set (evec := snd (eig M F)). set (vals := mkvec (vlen ev) (fun i => cinv (vat ev i))). change vals0 with vals. clear vals0.
  assert (Real : forall i, (0 <= i < vlen ev)%Z -> snd (vat vals i) = 0 /\
    (0 < fst (vat vals i) -> forall r, (0 <= r < n)%Z -> app n (mat_at M) (fun r => fst (mat_at evec r i)) r = 1 / fst (vat vals i) * (f r * fst (mat_at evec r i)))).
  { intros i Hi. pose proof Heig as (_ & _ & HE & _). fold ev evec in HE. destruct (HE i Hi) as [Z | (C & _)]; cbn [vals vat].
    - rewrite Z. split; [reflexivity|]. cbn [fst]. lra.
    - pose proof (all_real M F n f R1 C1 C2 Sym Inj HF Hf _ _ _ C) as L0. destruct (vat ev i) as [lr li]. cbn [snd] in L0. subst li. cbn [cinv fst snd]. rnum. split; [unfold Rdiv; ring|].
      intros Hp r Hr. assert (lr <> 0) by (intros ->; unfold Rdiv in Hp; lra). destruct C as (_ & C). rewrite R1, C1, C2 in C. destruct (C r Hr) as [Q _]. cbn [fst snd] in Q. rewrite HF in Q by exact Hr.
      rewrite Q. field. assumption. }
  assert (Ev0 : 0 < 10 / 2 ^ 52) by (apply Rdiv_lt_0_compat; [lra|apply pow_lt; lra]).
  assert (Him : forall i, (0 <= i < vlen ev)%Z -> snd (vat vals i) <= 10 / 2 ^ 52) by (intros i Hi; destruct (Real i Hi) as [-> _]; lra).
  destruct (report solver M F n k phi sort eig R1 C1 R2 C2 Hmon H0 Hs Hsort Heig Hk (sd_dir sd) Him) as (er & Er & Led).
  exists er. unfold solveEigen. rewrite Hall. split; [exact Er|]. split; [exact Led|]. fold ev evec.
  pose proof Heig as ((L1 & L2) & HR & HE & _).
  destruct (ges_report sort eig M F (sd_dir sd) Hsort L1 L2 Him) as (er' & Er' & Pm & _).
  { destruct (fundamental_listed solver M F n k phi eig R1 C1 R2 C2 Hs Heig Hk) as (i & Hi & Ei). exists i. split; [exact Hi|]. cbv zeta. rewrite Ei. exact Hk. }
  rewrite Er in Er'. injection Er' as <-.
  assert (Eig : forall k' x, In (k', x) (er_modes er) -> forall r, (0 <= r < n)%Z -> app n (mat_at M) (vat x) r = 1 / k' * (f r * vat x r)).
  { intros k' x Hin r Hr. apply (Permutation_in _ Pm) in Hin. apply in_map_iff in Hin. destruct Hin as (i & Ei & Hin). apply filter_In in Hin. destruct Hin as [Hi Hkeep].
    apply zseq_in in Hi. unfold keep in Hkeep. apply Rltb_true in Hkeep. cbv zeta in Ei, Hi, Hkeep. fold ev evec in Ei, Hi, Hkeep. fold vals in Ei, Hkeep.
    destruct (Real i Hi) as [_ Q]. specialize (Q ltac:(lra)).
    injection Ei as <- <-. cbn [vat]. set (c := copysign1 (vsum (mcol (fromComplexToDoubleM evec) i))). set (w := vnorm1 (mcol (fromComplexToDoubleM evec) i)).
    transitivity (c / w * app n (mat_at M) (fun r => fst (mat_at evec r i)) r).
    - unfold app. rewrite <- rsum_scal. apply rsum_ext. intros j Hj. unfold Rdiv. ring.
    - rewrite Q by exact Hr. cbn [vals vat cinv fst snd]. rnum. unfold Rdiv. ring. }
  assert (K0 : forall k' x, In (k', x) (er_modes er) -> 10 / 2 ^ 52 < k').
  { intros k' x Hin. apply (Permutation_in _ Pm) in Hin. apply in_map_iff in Hin. destruct Hin as (i & Ei & Hin). apply filter_In in Hin. destruct Hin as [_ Hkeep].
    unfold keep in Hkeep. apply Rltb_true in Hkeep. assert (Q : fst (vat vals i) = k') by exact (f_equal fst Ei). change (10 / 2 ^ 52 < fst (vat vals i)) in Hkeep. lra. }
  split; [exact Pm|]. intros k' x Hin. split; [exact (K0 _ _ Hin)|]. pose proof (Eig _ _ Hin) as Q.
  apply (Permutation_in _ Pm) in Hin. apply in_map_iff in Hin. destruct Hin as (i & Ei & Hin). apply filter_In in Hin. destruct Hin as [Hi Hkeep].
  apply zseq_in in Hi. unfold keep in Hkeep. apply Rltb_true in Hkeep. change (10 / 2 ^ 52 < fst (vat vals i)) in Hkeep.
  assert (Ex : snd (scaled_mode vals evec i) = x) by exact (f_equal snd Ei). destruct (HE i Hi) as [Z | (C & Rv)].
  { exfalso. change (10 / 2 ^ 52 < fst (cinv (vat ev i))) in Hkeep. unfold ev in Hkeep. rewrite Z in Hkeep. cbn [fst] in Hkeep. lra. }
  pose proof (all_real M F n f R1 C1 C2 Sym Inj HF Hf _ _ _ C) as L0. specialize (Rv L0). destruct C as ((r & Hr & Nr) & _). fold evec in Nr, Rv.
  destruct (scaled_mode_facts vals evec i) as (Nm & _).
  { exists r. fold evec in HR. rewrite HR. split; [exact Hr|]. destruct Nr as [Nr | Nr]; [exact Nr|]. exfalso. apply Nr. apply Rv. exact Hr. }
  rewrite Ex in Nm. split; [rewrite <- Ex; cbn [scaled_mode snd vlen]; fold evec in HR; rewrite HR; exact C1|]. split; [exact Nm|exact Q].
Qed.

(* In one group no factor is complex: the method reports its modes, and two modes
   with different factors are orthogonal, weighted with the fission neutrons. *)
Theorem C108_one_group solver sort eig ms sd d aL aR M F k phi : diffusion_case ms sd d aL aR -> sd_energies sd = 1%Z -> sd_dir sd = FORWARD ->
  diffusionSystem PI ms sd = Ok (M, F) -> settles solver M F k phi -> sorts sort -> finds_modes eig M F -> 10 / 2 ^ 52 < k -> sd_eig sd = EigALL ->
  exists er, solveEigen solver sort eig M F sd = Ok er /\ led_by (ms_cells ms) k phi er /\
  forall k1 x1 k2 x2, In (k1, x1) (er_modes er) -> In (k2, x2) (er_modes er) -> k1 <> k2 ->
    rsum 0 (ms_cells ms) (fun m => tchi d 0 m * (tni d 0 m * tfis d 0 m * tV d m) * vat x1 m * vat x2 m) = 0.
Proof.
  intros D He Hdir E Hs Hsort Heig Hk Hall. destruct (one_group_list _ _ _ _ _ _ _ _ _ _ _ _ D He Hdir E Hs Hsort Heig Hk Hall) as (Sym & er & Er & Led & _ & L).
  assert (Ev0 : 0 < 10 / 2 ^ 52) by (apply Rdiv_lt_0_compat; [lra|apply pow_lt; lra]).
  exists er. split; [exact Er|]. split; [exact Led|]. intros k1 x1 k2 x2 H1 H2 Hne. destruct (L _ _ H1) as (P1 & _ & _ & Q1). destruct (L _ _ H2) as (P2 & _ & _ & Q2).
  apply (orthogonal M (ms_cells ms) (fun m => tchi d 0 m * (tni d 0 m * tfis d 0 m * tV d m)) Sym (1 / k1) (1 / k2)); [|exact Q1|exact Q2].
  intros Q. apply Hne. apply Rmult_eq_reg_r with (1 / k1); [|unfold Rdiv; rewrite Rmult_1_l; apply Rinv_neq_0_compat; lra]. rewrite Q at 2. field. split; lra.
Qed.
Print Assumptions C108_one_group.

(* ---------- the hypotheses are met ---------- *)

(* the two modes of two equal cells that exchange neutrons: as many in both, and as
   many with the other sign *)
Definition two_eig (M F : mat R) : vec (R * R) * mat (R * R) :=
  (mkvec 2 (fun i => ((if (i =? 0)%Z then mat_at M 0 0 + mat_at M 0 1 else mat_at M 0 0 - mat_at M 0 1) / mat_at F 0 0, 0)),
   mkmat 2 2 (fun r i => (if (i =? 0)%Z then 1 else if (r =? 0)%Z then 1 else - (1), 0))).

Lemma two_sum f : rsum 0 2 f = f 0%Z + f 1%Z.
Proof. rewrite (rsum_last 0 1) by lia. rewrite (rsum_one 0). reflexivity. Qed.

Lemma two_finds (M F : mat R) f a b : mrows M = 2%Z -> mcols M = 2%Z -> mcols F = 2%Z -> f <> 0 ->
  mat_at M 0 0 = a -> mat_at M 1 1 = a -> mat_at M 0 1 = b -> mat_at M 1 0 = b ->
  mat_at F 0 0 = f -> mat_at F 1 1 = f -> mat_at F 0 1 = 0 -> mat_at F 1 0 = 0 -> finds_modes two_eig M F.
Proof.
  intros R1 C1 C2 Hf A0 A1 B0 B1 F0 F1 G0 G1. unfold finds_modes, two_eig. cbn [fst snd vlen mcols mrows vat mat_at]. rewrite A0, B0, F0, C1.
  assert (Two : forall i, (0 <= i < 2)%Z -> i = 0%Z \/ i = 1%Z) by (intros; lia).
  split; [lia|]. split; [reflexivity|]. split.
  - intros i Hi. right. split; [|auto]. unfold complex_mode. rewrite R1, C1, C2. cbn [fst snd]. split.
    + exists 0%Z. split; [lia|left]. destruct (i =? 0)%Z; cbn; lra.
    + intros r Hr. unfold app. rewrite !two_sum. destruct (Two i Hi) as [-> | ->], (Two r Hr) as [-> | ->]; cbn; rewrite ?A0, ?A1, ?B0, ?B1, ?F0, ?F1, ?G0, ?G1; split; field; exact Hf.
  - intros l re (N & E). rewrite R1, C1, C2 in E. rewrite C1 in N. cbn [fst snd] in E. destruct (E 0%Z ltac:(lia)) as [P0 _]. destruct (E 1%Z ltac:(lia)) as [P1 _].
    unfold app in P0, P1. rewrite !two_sum, A0, B0, F0, G0 in P0. rewrite !two_sum, A1, B1, F1, G1 in P1.
    assert (S : (a + b - l * f) * (re 0%Z + re 1%Z) = 0) by lra. assert (D : (a - b - l * f) * (re 0%Z - re 1%Z) = 0) by lra.
    apply Rmult_integral in S, D. destruct S as [S | S].
    + exists 0%Z. split; [lia|]. cbn. f_equal. replace l with (l * f / f) by (field; exact Hf). f_equal. lra.
    + destruct D as [D | D].
      * exists 1%Z. split; [lia|]. cbn. f_equal. replace l with (l * f / f) by (field; exact Hf). f_equal. lra.
      * exfalso. destruct N as (i & Hi & [N | N]); [|apply N; reflexivity]. apply N. destruct (Two i Hi) as [-> | ->]; lra.
Qed.

(* a reflected slab of two cells: both methods give 4 and half of the flux in each cell *)
Example C108_met : exists solver M F phi,
  let sd := mkSolverData DIFFUSION (1 / 1000) 100 1 [1; 1] [] 1 FORWARD EigALL in
  diffusion_case (cells_of 2 4) sd (mesh_tables (cells_of 2 4)) 1 1 /\ sd_energies sd = 1%Z /\ sd_dir sd = FORWARD /\
  diffusionSystem PI (cells_of 2 4) sd = Ok (M, F) /\ settles solver M F 4 phi /\ sorts isort /\ finds_modes two_eig M F /\ 10 / 2 ^ 52 < 4 /\ sd_eig sd = EigALL /\
  vat phi 0 = 1 / 2 /\ vat phi 1 = 1 / 2.
Proof.
  pose proof (cells_slab 2 4 1 ltac:(lia) ltac:(lra) ltac:(lra)) as H. replace (4 / 2) with 2 in H by lra.
  destruct (slab_settles _ _ _ _ _ _ _ _ H (fun _ => fun b => b)) as (M & F & E & (s & X) & _).
  assert (HT : face_condition 1 2 1 2 0).
  { split; [pose proof PI_RGT_0; lra|]. unfold Rdiv. rewrite Rmult_0_l, sin_0. ring. }
  pose proof (slab_mode _ _ _ _ _ _ _ _ H M F 0 E HT) as Hm.
  assert (L0 : leakage 2 1 0 = 0) by (unfold leakage; rewrite cos_0; field). rewrite L0 in Hm. replace (2 / (1 - 1 / 2 + 0)) with 4 in Hm by field.
  destruct (slab_settles _ _ _ _ _ _ _ _ H (fun _ => s)) as (M1 & F1 & E1 & _ & S). rewrite E in E1. injection E1 as <- <-. destruct (S X) as (k & phi & HS).
  destruct (slab_angle _ _ _ _ _ _ _ _ (fun _ => s) _ _ _ _ H E X Hm) as (psi & Hn & R1 & C1 & R2 & C2 & _ & P & Sy & _). cbn [cells_of ms_cells] in *.
  assert (C3 : forall j, cosine 2 0 j = 1) by (intros j; unfold cosine; rewrite Rmult_0_l; apply cos_0).
  pose proof HS as (Hmk & N1 & _ & U & _). destruct (U _ _ Hm) as (<- & c & Hc & Ec). rewrite C1 in Ec. cbn [vat] in Ec.
  pose proof (Ec 0%Z ltac:(lia)) as P0. pose proof (Ec 1%Z ltac:(lia)) as P1. rewrite C3 in P0, P1.
  assert (Pp : vat phi 0 = vat phi 1) by (apply Rmult_eq_reg_l with c; lra).
  assert (Np : vat phi 0 + vat phi 1 = 1).
  { rewrite <- N1. unfold vnorm1. replace (vlen phi) with 2%Z by (destruct Hmk as (_ & Q & _); congruence). rewrite two_sum. rewrite !Rabs_pos_eq; [reflexivity| |]; apply Hmk; lia. }
  exists (fun _ => s), M, F, phi. cbv zeta. split; [destruct (slab_case _ _ _ _ _ _ _ _ H); split; assumption|]. split; [reflexivity|]. split; [reflexivity|]. split; [exact E|]. split; [exact HS|].
  split; [exact isort_sorts|]. split; [|split; [|split; [reflexivity|split; lra]]].
  - assert (Fe : forall i j, (0 <= i < 2)%Z -> (0 <= j < 2)%Z -> mat_at F i j = if (j =? i)%Z then 4 else 0).
    { intros i j Hi Hj. pose proof (P (mkvec 2 (fun l => if (l =? j)%Z then 1 else 0)) i Hi) as Q. rewrite mvmul_at, C2, two_sum in Q. cbn [vat] in Q.
      assert (J : j = 0%Z \/ j = 1%Z) by lia. assert (I : i = 0%Z \/ i = 1%Z) by lia. destruct J as [-> | ->], I as [-> | ->]; cbn in Q |- *; lra. }
    destruct Hm as (_ & _ & _ & _ & Q). pose proof (Q 0%Z ltac:(lia)) as Q0. pose proof (Q 1%Z ltac:(lia)) as Q1. rewrite P in Q0, Q1 by lia. cbn [vat] in Q0, Q1. rewrite mvmul_at, C1, two_sum in Q0, Q1. cbn [vat] in Q0, Q1. rewrite !C3 in Q0, Q1.
    pose proof (Sy 0%Z 1%Z ltac:(lia) ltac:(lia)) as B.
    apply (two_finds M F 4 (mat_at M 0 0) (mat_at M 0 1)); try assumption; try reflexivity; try lra; rewrite Fe by lia; reflexivity.
  - apply Rmult_lt_reg_r with (2 ^ 52); [apply pow_lt; lra|]. unfold Rdiv. rewrite Rmult_assoc, Rinv_l by (apply pow_nonzero; lra). assert (1 <= 2 ^ 52) by (apply pow_R1_Rle; lra). simpl. lra.
Qed.
