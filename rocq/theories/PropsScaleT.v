(* Property theorems C98: the results of a transport calculation do not depend on
   the unit of length either, in any of the three geometries. *)
From Coq Require Import String ZArith List Bool Lia Reals Lra.
From Verif Require Import Base BaseLemmas NumR LinAlg Blocks ModelNumTools ModelEigen ModelMesh ModelReactor
  ModelDiffusion ModelSpectrum ProofsEigen ProofsMesh ProofsPower ProofsDiffusion ProofsSpectrum ProofsSpectrumR.
From Verif Require PropsSpectrum PropsSpectrumC.
From Verif Require Import ProofsDiffusionR ProofsConvergeD ProofsSymmetry ProofsScale PropsHeat PropsAccuracy PropsSymmetry PropsSymmetryT PropsScale.
Import ListNotations.
Local Open Scope R_scope.

(* ---------- the two systems are the same ---------- *)

Lemma map_id n i : (0 < n)%Z -> block_map n (fun e => e) (fun m => m) i = i.
Proof. intros Hn. unfold block_map. pose proof (Z.div_mod i n ltac:(lia)). lia. Qed.

Section Solve.
Variables (E3 Ki3 ex sq : R -> R).
Variables (solver : mat R -> vec R -> vec R) (sort : list (R * vec R) -> list (R * vec R)) (eig : mat R -> mat R -> vec (R * R) * mat (R * R)).
Variables (r r' : reactor R) (sd : solverData R) (s a : R).
Let ms := rx_mesh r.
Let ms' := rx_mesh r'.
Let n := ms_cells ms.
Let en := ms_groups ms.
Let v := s ^ dimension (ms_geom ms).
Hypothesis Hs : 0 < s.
Hypothesis Ht : transport_ready ms sd a.
Hypothesis Ht' : transport_ready ms' sd a.
Hypothesis Hre : rescaled s ms ms'.
Hypothesis Hpw : rx_power r' = rx_power r.
Hypothesis Hsq : forall x, sq (s ^ 2 * x) = s * sq x.
Hypothesis Heig : sd_eig sd = FUNDAMENTAL.

Lemma unit_transport : exists ch ch' M F M' F', spectrumSystem PI E3 Ki3 ex sq ms sd = Ok (ch, M, F) /\ spectrumSystem PI E3 Ki3 ex sq ms' sd = Ok (ch', M', F') /\
  mat_like (n * en) (fun i => i) M M' /\ mat_like (n * en) (fun i => i) F F'.
Proof.
  destruct (code_exists ms sd a Ht) as (sc & K). destruct (code_exists ms' sd a Ht') as (sc' & K').
  destruct (system_spec E3 Ki3 ex sq ms sd a sc Ht K) as (g & g1 & ch & M & F & _ & _ & E & _ & _ & _ & A & B).
  destruct (system_spec E3 Ki3 ex sq ms' sd a sc' Ht' K') as (g' & g1' & ch' & M' & F' & _ & _ & E' & _ & _ & _ & A' & B').
  exists ch, ch', M, F, M', F'. split; [exact E|]. split; [exact E'|].
  assert (Hgeo : ms_geom ms <> GeomUNDEFINED) by apply Ht.
  destruct (rescaled_data s ms ms' ltac:(lra) Hgeo Hre) as (D & _). pose proof Hre as [G Hc Hg Hb _]. rewrite Hc, Hg in A', B'. fold n en in A, B, A', B', D, Hb.
  assert (Hn : (0 < n)%Z) by (destruct Ht as (_ & ? & _); unfold n; lia).
  assert (Re : PropsSpectrumC.rescaled s ms ms').
  { split; [exact G|]. split; [exact Hc|]. split; [exact Hg|]. split.
    - intros i Hi. unfold PropsSpectrum.radius. pose proof (Hb i Hi) as X. fold ms ms' in X |- *. rewrite X. generalize (vat (ms_bounds ms) i). intros. ring.
    - intros h i Hh Hi. rewrite (ProofsScale.sc_tot _ _ _ _ _ _ D h i Hh Hi). field. lra. }
  assert (W : forall h i j, (0 <= h < en)%Z -> (0 <= i < n)%Z -> (0 <= j < n)%Z ->
    white sc' (vacuum_P E3 Ki3 ex sq sc') a h i j = white sc (vacuum_P E3 Ki3 ex sq sc) a h i j).
  { intros h i j Hh Hi Hj. apply (PropsSpectrumC.re_white E3 Ki3 ex sq s ms ms' sd sd a sc sc'); assumption. }
  assert (Sg : forall h j, (0 <= h < en)%Z -> (0 <= j < n)%Z -> sig_of sc' h j = sig_of sc h j / s).
  { intros h j Hh Hj. rewrite (co_sig _ _ _ K h j Hh Hj), (co_sig _ _ _ K' h j) by (rewrite ?Hg, ?Hc; assumption). rewrite (ProofsScale.sc_tot _ _ _ _ _ _ D h j Hh Hj). reflexivity. }
  assert (P : forall h j, (0 <= h < en)%Z -> (0 <= j < n)%Z -> 0 < sig_of sc h j) by (intros; apply (sig_pos ms sd a sc Ht K); assumption).
  assert (Id : forall X Y, mat_like (n * en) (block_map n (fun e => e) (fun m => m)) X Y -> mat_like (n * en) (fun i => i) X Y).
  { intros X Y (X1 & X2 & X3 & X4 & H). repeat split; try assumption. intros i j Hi Hj. rewrite <- (H i j Hi Hj), !map_id by exact Hn. reflexivity. }
  split; apply Id.
  - apply (block_like n en _ _ _ _ _ _ _ _ Hn (id_reorders en) (id_reorders n) A A'). intros e m e' m' He Hm He' Hm'. cbn beta.
    rewrite W, Sg, (ProofsScale.sc_sc _ _ _ _ _ _ D) by assumption. pose proof (P e m' He Hm'). f_equal. field. lra.
  - apply (block_like n en _ _ _ _ _ _ _ _ Hn (id_reorders en) (id_reorders n) B B'). intros e m e' m' He Hm He' Hm'. cbn beta.
    rewrite W, Sg, (ProofsScale.sc_chi _ _ _ _ _ _ D), (ProofsScale.sc_ni _ _ _ _ _ _ D), (ProofsScale.sc_fis _ _ _ _ _ _ D) by assumption. pose proof (P e m' He Hm'). field. lra.
Qed.

Variables (ch ch' M F M' F' : mat R).
Hypothesis Esys : spectrumSystem PI E3 Ki3 ex sq ms sd = Ok (ch, M, F).
Hypothesis Esys' : spectrumSystem PI E3 Ki3 ex sq ms' sd = Ok (ch', M', F').
Lemma solve_unit_transport : same_outcome (n * en) (fun i => i) (sourceIteration solver M F (sd_max sd) (sd_acc sd) (sd_dir sd)) (sourceIteration solver M' F' (sd_max sd) (sd_acc sd) (sd_dir sd)) ->
  results_in_unit v FORWARD n en (spectrumSolve PI E3 Ki3 ex sq solver sort eig sd r) (spectrumSolve PI E3 Ki3 ex sq solver sort eig sd r').
Proof.
  intros L. pose proof Hre as [_ Hcells Hgroups _ _]. fold n en in Hcells, Hgroups.
  assert (Hr : ready ms) by apply Ht. assert (Hr' : ready ms') by apply Ht'. assert (Hes : sd_energies sd = en) by apply Ht.
  assert (Hn : (1 <= n)%Z) by apply Ht.
  assert (Hm : (n <= zlen (ms_mats ms))%Z) by apply Hr. assert (Hm' : (ms_cells ms' <= zlen (ms_mats ms'))%Z) by apply Hr'.
  assert (Hb1 : (n + 1 = vlen (ms_bounds ms))%Z) by apply Hr. assert (Hb2 : (ms_cells ms' + 1 = vlen (ms_bounds ms'))%Z) by apply Hr'.
  assert (G1 : ms_geom ms <> GeomUNDEFINED) by apply Hr. assert (G2 : ms_geom ms' <> GeomUNDEFINED) by apply Hr'.
  destruct (wp_ok _ _ (getHeatSources_wp dm0 ms ltac:(fold n; lia) ltac:(fold n; lia))) as (old & Eo & _).
  destruct (wp_ok _ _ (getHeatSources_wp dm0 ms' ltac:(lia) ltac:(lia))) as (old' & Eo' & _).
  destruct (wp_ok _ _ (volumes_wp ms "cm" G1 ltac:(lia))) as (vol & Ev & _).
  destruct (wp_ok _ _ (volumes_wp ms' "cm" G2 ltac:(lia))) as (vol' & Ev' & _).
  unfold spectrumSolve. fold ms ms'. rewrite Eo, Eo', Ev, Ev', Esys, Esys'. cbn [bind]. unfold solveEigen. rewrite Heig, Hes.
  destruct (sourceIteration solver M F (sd_max sd) (sd_acc sd) (sd_dir sd)) as [[i x]|x|x|x];
  destruct (sourceIteration solver M' F' (sd_max sd) (sd_acc sd) (sd_dir sd)) as [[j y]|y|y|y]; cbn [same_outcome] in L; try contradiction; cbn [bind snd]; [|exact L].
  destruct L as (_ & Hk & Hf & Ha & Hb & _). rewrite Hcells. fold n.
  destruct (heat_unit r r' s ltac:(lra) Hr Hr' Hre Hpw x y Ha Hb Hk Hf vol vol' Ev Ev') as (r1 & r2 & E1 & E2 & Q1).
  fold ms n en in E1, E2. rewrite E1, E2. exact Q1.
Qed.
End Solve.

(* The whole transport calculation, for every geometry and without any condition on where
   the iteration stops: the two systems are the same system, so the two runs make the same
   steps. *)
Theorem C98_transport_units E3 Ki3 ex sq solver sort eig r r' sd s a :
  let ms := rx_mesh r in let ms' := rx_mesh r' in let n := ms_cells ms in let en := ms_groups ms in
  transport_ready ms sd a -> transport_ready ms' sd a -> rescaled s ms ms' -> 0 < s -> (forall x, sq (s ^ 2 * x) = s * sq x) ->
  rx_power r' = rx_power r -> sd_eig sd = FUNDAMENTAL ->
  exists ch ch' M F M' F', spectrumSystem PI E3 Ki3 ex sq ms sd = Ok (ch, M, F) /\ spectrumSystem PI E3 Ki3 ex sq ms' sd = Ok (ch', M', F') /\
    (injective (n * en) (mat_at M) -> injective (n * en) (mat_at M') /\
     (exact_solver M (solver M) -> exact_solver M' (solver M') ->
      results_in_unit (s ^ dimension (ms_geom ms)) FORWARD n en
        (spectrumSolve PI E3 Ki3 ex sq solver sort eig sd r) (spectrumSolve PI E3 Ki3 ex sq solver sort eig sd r'))).
Proof.
  intros ms ms' n en Ht Ht' Hre Hs Hsq Hpw Heig. assert (Hn : (1 <= n)%Z) by apply Ht. assert (Hen : (0 <= en)%Z) by apply Ht.
  destruct (unit_transport E3 Ki3 ex sq r r' sd s a Hs Ht Ht' Hre Hsq) as (ch & ch' & M & F & M' & F' & E & E' & HM & HF).
  exists ch, ch', M, F, M', F'. split; [exact E|]. split; [exact E'|]. fold ms n en in HM, HF.
  intros Hi. split; [exact (like_injective _ _ _ (id_reorders _) M M' HM Hi)|]. intros X X'.
  apply (solve_unit_transport E3 Ki3 ex sq solver sort eig r r' sd s a Hs Ht Ht' Hre Hpw Heig ch ch' M F M' F' E E').
  assert (Hne : (0 <= n * en)%Z) by nia. apply (like_iteration _ _ _ (id_reorders _) M F M' F' solver Hne HM HF Hi X X').
Qed.
Print Assumptions C98_transport_units.

(* The three layers of two groups, in two units. *)
From Verif Require Import ProofsConverge ProofsConvergeT PropsSpectrum PropsSpectrumB PropsConverge ProofsReactivity PropsReactivity ProofsReactivityT PropsReactivityT Kernels.
Example C98_transport_units_met : exists ch ch' M F M' F', let small := rescale (1 / 100) seen_left in let sd := layer_solver 100 (1 / 2) (1 / 2) in
  transport_ready seen_left sd (1 / 2) /\ transport_ready small sd (1 / 2) /\ PropsScale.rescaled (1 / 100) seen_left small /\
  (forall x, sqrt ((1 / 100) ^ 2 * x) = 1 / 100 * sqrt x) /\
  spectrumSystem PI E3 Ki3 exp sqrt seen_left sd = Ok (ch, M, F) /\ spectrumSystem PI E3 Ki3 exp sqrt small sd = Ok (ch', M', F') /\
  injective 6 (mat_at M) /\ exists solver, exact_solver M (solver M) /\ exact_solver M' (solver M').
Proof.
  assert (Hrd : ready seen_left) by apply layered_ready.
  pose proof (layered_transport _ _ _ 100 (1 / 2) seen_left_sound ltac:(cbn; lra)) as T. fold seen_left in T.
  assert (Re : PropsScale.rescaled (1 / 100) seen_left (rescale (1 / 100) seen_left)) by apply rescale_rescaled, Hrd.
  assert (T' : transport_ready (rescale (1 / 100) seen_left) (layer_solver 100 (1 / 2) (1 / 2)) (1 / 2)).
  { destruct T as (_ & T1 & T2 & T3 & T4 & T5 & T6). split; [apply rescale_ready, Hrd|]. split; [exact T1|]. split; [exact T2|]. split; [exact T3|].
    split; [intros i Hi Hl; cbn [rescale ms_bounds vat vlen] in *; pose proof (T4 i Hi Hl); nra|]. split; [cbn [rescale ms_bounds vat]; nra|].
    intros e i He Hi. destruct (rescaled_data (1 / 100) seen_left (rescale (1 / 100) seen_left) ltac:(lra) ltac:(discriminate) Re) as (D & _). rewrite (ProofsScale.sc_tot _ _ _ _ _ _ D e i He Hi). pose proof (T6 e i He Hi). lra. }
  assert (Q : forall x, sqrt ((1 / 100) ^ 2 * x) = 1 / 100 * sqrt x).
  { intros x. rewrite sqrt_mult_alt by nra. rewrite sqrt_pow2 by lra. reflexivity. }
  destruct PropsHeat.exact_exists as (solver & He).
  destruct (C98_transport_units E3 Ki3 exp sqrt solver (fun l => l) no_modes (with_mesh seen_left newReactor) (with_mesh (rescale (1 / 100) seen_left) newReactor) (layer_solver 100 (1 / 2) (1 / 2)) (1 / 100) (1 / 2) T T' Re ltac:(lra) Q eq_refl eq_refl)
    as (ch & ch' & M & F & M' & F' & E & E' & K). cbn [rx_mesh with_mesh] in E, E', K.
  destruct (C55_transport_defined E3 Ki3 exp sqrt _ _ _ T) as (sc & g & g1 & c0 & M0 & F0 & Hrun). pose proof Hrun as (_ & _ & _ & E0). rewrite E in E0. injection E0 as <- <- <-.
  destruct (C55_transport_defined E3 Ki3 exp sqrt _ _ _ T') as (sc' & g' & g1' & c0' & M0' & F0' & Hrun'). pose proof Hrun' as (_ & _ & _ & E0'). rewrite E' in E0'. injection E0' as <- <- <-.
  pose proof (layered_case _ _ _ 100 (1 / 2) (1 / 2) seen_left_sound ltac:(lra) ltac:(lra)) as [_ _ _ _ _ _ _ _ _ _ _ Hsc Habs _ _]. fold seen_left in Hsc, Habs.
  pose proof (monotone_injective _ _ (transport_slab_monotone _ _ _ _ _ _ _ _ _ _ _ _ T Hrun eq_refl ltac:(lra) Hsc Habs)) as Inj.
  destruct (K Inj) as [Inj' _]. change (injective 6 (mat_at M)) in Inj. change (injective 6 (mat_at M')) in Inj'.
  destruct (o_dims _ _ _ _ _ _ _ _ _ _ _ _ T Hrun) as (R1 & C1 & _). destruct (o_dims _ _ _ _ _ _ _ _ _ _ _ _ T' Hrun') as (R1' & C1' & _).
  exists ch, ch', M, F, M', F'. cbn zeta. repeat (split; [first [exact T|exact T'|exact Re|exact Q|exact E|exact E'|exact Inj]|]).
  exists solver. split; [apply (exact_any _ _ 6 He R1 C1 Inj)|apply (exact_any _ _ 6 He R1' C1' Inj')].
Qed.
