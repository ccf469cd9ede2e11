(* Property theorems C92 for transport in slabs: which changes of a reactor raise its
   multiplication factor.  [slab_physics] and [no_better_slab] (ProofsReactivityT.v),
   [populated] and [useful] (ProofsReactivity.v) speak of the data only. *)
From Coq Require Import String ZArith List Bool Lia Reals Lra.
From Verif Require Import Base BaseLemmas NumR LinAlg Blocks PowerMethod ModelNumTools ModelEigen ModelMesh
  ModelReactor ModelDiffusion ModelSpectrum ProofsSpectrum ProofsSpectrumR ProofsEigen ProofsMesh ProofsDiffusion ProofsDiffusionR Kernels PropsDiffusion PropsSpectrum
  PropsSpectrumB ProofsConverge ProofsConvergeD ProofsConvergeT PropsConverge ProofsInfinite PropsInfinite ProofsReactivity PropsReactivity ProofsReactivityT.
Import ListNotations.
Local Open Scope R_scope.

(* a transport calculation in a slab, with the exact kernel E3, and what it settles on *)
Definition slab_settles (kb ex sq : R -> R) (ms : mesh R) (sd : solverData R) (k : R) (phi : vec R) : Prop :=
  exists solver sc g g' check M F, transport_run E3 kb ex sq ms sd sc g g' check M F /\ settles solver M F k phi.
Record two_slabs (kb ex sq : R -> R) (ms1 ms2 : mesh R) (sd1 sd2 : solverData R) (a1 a2 k1 k2 : R) (phi1 phi2 : vec R) : Prop := {
  ts_ready1 : transport_ready ms1 sd1 a1;
  ts_ready2 : transport_ready ms2 sd2 a2;
  ts_physics1 : slab_physics ms1;
  ts_physics2 : slab_physics ms2;
  ts_albedos : 0 <= a1 /\ a1 <= a2 /\ a2 <= 1;
  ts_settle1 : slab_settles kb ex sq ms1 sd1 k1 phi1;
  ts_settle2 : slab_settles kb ex sq ms2 sd2 k2 phi2 }.

(* Less scattering, fewer fission neutrons and a smaller albedo, with the same
   collisions, never raise the factor. *)
Theorem C92_transport_never_raises kb ex sq ms1 ms2 sd1 sd2 a1 a2 k1 k2 phi1 phi2 :
  two_slabs kb ex sq ms1 ms2 sd1 sd2 a1 a2 k1 k2 phi1 phi2 -> no_better_slab ms1 ms2 -> k1 <= k2.
Proof.
  intros [R1 R2 P1 P2 A (s1 & c1 & g1 & h1 & ch1 & M1 & F1 & Q1 & S1) (s2 & c2 & g2 & h2 & ch2 & M2 & F2 & Q2 & S2)] B.
  exact (transport_compare kb ex sq ms1 ms2 sd1 sd2 a1 a2 c1 c2 g1 h1 g2 h2 ch1 M1 F1 ch2 M2 F2 R1 Q1 P1 R2 Q2 P2 A B s1 s2 k1 k2 phi1 phi2 S1 S2).
Qed.
Print Assumptions C92_transport_never_raises.

(* Turning scattering from a group that has neutrons to one that can use them into
   absorption lowers it, in any one cell. *)
Theorem C92_transport_scattering_raises kb ex sq ms1 ms2 sd1 sd2 a1 a2 k1 k2 phi1 phi2 e e' m :
  two_slabs kb ex sq ms1 ms2 sd1 sd2 a1 a2 k1 k2 phi1 phi2 -> no_better_slab ms1 ms2 ->
  (0 <= e < ms_groups ms2)%Z -> (0 <= m < ms_cells ms2)%Z ->
  tsc (mesh_tables ms1) e' e m < tsc (mesh_tables ms2) e' e m ->
  populated ms1 sd1 (mesh_tables ms1) e' -> useful ms2 sd2 (mesh_tables ms2) e -> k1 < k2.
Proof.
  intros [R1 R2 P1 P2 A (s1 & c1 & g1 & h1 & ch1 & M1 & F1 & Q1 & S1) (s2 & c2 & g2 & h2 & ch2 & M2 & F2 & Q2 & S2)] B He Hm L Hp Hu.
  exact (transport_scattered kb ex sq ms1 ms2 sd1 sd2 a1 a2 c1 c2 g1 h1 g2 h2 ch1 M1 F1 ch2 M2 F2 R1 Q1 P1 R2 Q2 P2 A B s1 s2 k1 k2 phi1 phi2 S1 S2 e e' m He Hm L Hp Hu).
Qed.
Print Assumptions C92_transport_scattering_raises.

(* So do fewer fission neutrons from a group that has neutrons. *)
Theorem C92_transport_fission_raises kb ex sq ms1 ms2 sd1 sd2 a1 a2 k1 k2 phi1 phi2 e e' m :
  two_slabs kb ex sq ms1 ms2 sd1 sd2 a1 a2 k1 k2 phi1 phi2 -> no_better_slab ms1 ms2 ->
  emits ms2 sd2 (mesh_tables ms2) e m -> useful ms2 sd2 (mesh_tables ms2) e -> populated ms1 sd1 (mesh_tables ms1) e' ->
  tni (mesh_tables ms1) e' m * tfis (mesh_tables ms1) e' m < tni (mesh_tables ms2) e' m * tfis (mesh_tables ms2) e' m -> k1 < k2.
Proof.
  intros [R1 R2 P1 P2 A (s1 & c1 & g1 & h1 & ch1 & M1 & F1 & Q1 & S1) (s2 & c2 & g2 & h2 & ch2 & M2 & F2 & Q2 & S2)] B Hem Hu Hp L.
  exact (transport_made kb ex sq ms1 ms2 sd1 sd2 a1 a2 c1 c2 g1 h1 g2 h2 ch1 M1 F1 ch2 M2 F2 R1 Q1 P1 R2 Q2 P2 A B s1 s2 k1 k2 phi1 phi2 S1 S2 e e' m Hem Hu Hp L).
Qed.
Print Assumptions C92_transport_fission_raises.

Lemma no_better_slab_refl ms : no_better_slab ms ms.
Proof. split; intros; auto; lra. Qed.

(* A boundary that sends back less lowers the factor. *)
Theorem C92_transport_leakage_lowers kb ex sq ms sd1 sd2 a1 a2 k1 k2 phi1 phi2 :
  two_slabs kb ex sq ms ms sd1 sd2 a1 a2 k1 k2 phi1 phi2 -> chain_reaction ms sd2 (mesh_tables ms) ->
  k1 <= k2 /\ (a1 < a2 -> k1 < k2).
Proof.
  intros T (Hs & Hr). pose proof (no_better_slab_refl ms) as B. split; [exact (C92_transport_never_raises _ _ _ _ _ _ _ _ _ _ _ _ _ T B)|]. intros L.
  destruct Hs as (m & Hf). pose proof Hf as ((e & Hem) & _). set (d := mesh_tables ms) in *.
  pose proof T as [R1 R2 P1 P2 A (s1 & c1 & g1 & h1 & ch1 & M1 & F1 & Q1 & S1) (s2 & c2 & g2 & h2 & ch2 & M2 & F2 & Q2 & S2)].
  assert (Hg : sd_energies sd1 = sd_energies sd2) by (transitivity (ms_groups ms); [|symmetry]; [apply R1|apply R2]).
  assert (Hp : populated ms sd1 d e).
  { assert (Q : forall e m, emits ms sd2 d e m -> emits ms sd1 d e m) by (unfold emits; rewrite Hg; auto).
    assert (Q' : forall e m, fissions ms sd2 d e m -> fissions ms sd1 d e m) by (unfold fissions; rewrite Hg; auto).
    exists e, m. split; [apply Q, Hem|]. split; [|constructor]. destruct Hf as ((x & Hx) & (y & Hy)). split; [exists x|exists y]; auto. }
  assert (Hu : useful ms sd2 d e) by (intros m' Hm'; apply (Hr e m m' Hem Hm')).
  exact (transport_leaks kb ex sq ms ms sd1 sd2 a1 a2 c1 c2 g1 h1 g2 h2 ch1 M1 F1 ch2 M2 F2 R1 Q1 P1 R2 Q2 P2 A B s1 s2 k1 k2 phi1 phi2 S1 S2 e L Hp Hu).
Qed.
Print Assumptions C92_transport_leakage_lowers.

(* A homogeneous slab never exceeds the infinite medium of its material, and falls
   short of it as soon as it leaks. *)
Lemma closed_ready ms sd a : transport_ready ms sd a -> transport_ready ms (closed_in sd) 1.
Proof. intros (A & B & C & D & E & F & G). split; [exact A|]. split; [exact B|]. split; [exact C|]. split; [reflexivity|]. auto. Qed.
Theorem C92_transport_below_infinite kb ex sq ms sd a k phi kinf f :
  transport_ready ms sd a -> slab_physics ms -> 0 <= a <= 1 ->
  homogeneous (mesh_tables ms) (ms_groups ms) (ms_cells ms) -> chain_reaction ms sd (mesh_tables ms) ->
  slab_settles kb ex sq ms sd k phi -> infinite_medium (mesh_tables ms) (ms_groups ms) kinf f ->
  k <= kinf /\ (a < 1 -> k < kinf).
Proof.
  intros R P Ha Hh Hch S I. pose proof (closed_ready _ _ _ R) as R'.
  destruct (C55_transport_defined E3 kb ex sq _ _ _ R') as (sc & g & g' & c & M & F & Hrun).
  assert (K : forall solver, (exists solve, exact_solver M solve) /\ (exact_solver M (solver M) -> exists k f, settles_flat solver (mesh_tables ms) (ms_cells ms) (ms_groups ms) M F k f)).
  { assert (Hn : (0 <= 0 < ms_cells ms)%Z) by (pose proof (o_n _ _ _ R); lia). destruct P as [P1 P2 P3 P4 P5 P6].
    intros solver. apply (C91_transport_slab solver kb ex sq ms (closed_in sd) sc g g' c M F R' Hrun P1 Hh); auto. }
  destruct (proj1 (K (fun _ => fun b => b))) as (s & Hs). destruct (proj2 (K (fun _ => s)) Hs) as (k' & f' & phi' & S' & _ & _ & U).
  destruct (U kinf f I) as (-> & _).
  assert (T : two_slabs kb ex sq ms ms sd (closed_in sd) a 1 k k' phi phi').
  { split; auto; [lra|]. exists (fun _ => s), sc, g, g', c, M, F. auto. }
  apply (C92_transport_leakage_lowers _ _ _ _ _ _ _ _ _ _ _ _ T Hch).
Qed.
Print Assumptions C92_transport_below_infinite.

(* ---------- the hypotheses are met ---------- *)
Lemma tuned_transport x y a : 1 <= x -> transport_ready (tuned x y) (edge_solver a) a.
Proof.
  intros Hx. split; [exact (tuned_ready x y)|]. split; [cbn; lia|]. split; [reflexivity|]. split; [reflexivity|]. split.
  { intros i Hi Hl. cbn [tuned ms_bounds vat]. apply Rmult_lt_compat_r; [lra|]. apply IZR_lt. lia. }
  split; [cbn; lra|]. intros e i He Hi. destruct (tuned_tables x y i Hi) as (_ & T0 & T1 & _). cbn in He. two_cases e; lra.
Qed.
Lemma tuned_physics x y : 1 <= x -> 0 < y -> slab_physics (tuned x y).
Proof.
  intros Hx Hy. pose proof (tuned_case x y 0 Hx Hy ltac:(lra)) as [_ _ _ _ _ _ _ _ _ _ _ Hsc Habs Hchi Hfis]. split; try assumption; try reflexivity.
  intros e m He Hm. cbn in He. destruct (tuned_tables x y m Hm) as (_ & _ & _ & _ & _ & _ & _ & S00 & _ & _ & S11 & _). two_cases e; lra.
Qed.
Lemma tuned_slab_settles x y a : 1 <= x -> 0 < y -> 0 <= a <= 1 -> exists k phi, slab_settles Ki3 exp sqrt (tuned x y) (edge_solver a) k phi.
Proof.
  intros Hx Hy Ha. pose proof (tuned_transport x y a Hx) as R. destruct (C55_transport_defined E3 Ki3 exp sqrt _ _ _ R) as (sc & g & g' & c & M & F & Hrun).
  destruct (tuned_physics x y Hx Hy) as [P1 P2 P3 P4 P5 P6]. destruct (tuned_chain x y a Hy) as [Hs Hr].
  assert (K : forall solver, (exists solve, exact_solver M solve) /\ (exact_solver M (solver M) -> exists k phi, settles solver M F k phi)).
  { intros solver. apply (C86_transport_slab solver _ _ _ _ _ _ _ _ _ _ _ _ R Hrun P1 Ha P2 P3 P4 P5 P6 Hs Hr). }
  destruct (proj1 (K (fun _ => fun b => b))) as (s & X). destruct (proj2 (K (fun _ => s)) X) as (k & phi & S).
  exists k, phi, (fun _ => s), sc, g, g', c, M, F. auto.
Qed.
Lemma tuned_no_better_slab x y1 y2 : y1 <= y2 -> no_better_slab (tuned x y1) (tuned x y2).
Proof.
  intros Hy. pose proof (tuned_no_better x y1 0 x y2 0 ltac:(lra) Hy ltac:(lra)) as [_ B _ C _ D E G _ _]. split; try assumption; try reflexivity.
  intros e m He Hm. cbn in He. destruct (tuned_tables x y1 m Hm) as (_ & A0 & A1 & _). destruct (tuned_tables x y2 m Hm) as (_ & B0 & B1 & _). two_cases e; lra.
Qed.
(* black boundaries, white ones, and three times the fission neutrons *)
Example C92_transport_met : exists k0 k1 ky p0 p1 py,
  slab_settles Ki3 exp sqrt (tuned 1 1) (edge_solver 0) k0 p0 /\ slab_settles Ki3 exp sqrt (tuned 1 1) (edge_solver 1) k1 p1 /\
  slab_settles Ki3 exp sqrt (tuned 1 3) (edge_solver 0) ky py /\ k0 < k1 /\ k0 < ky.
Proof.
  destruct (tuned_slab_settles 1 1 0 ltac:(lra) ltac:(lra) ltac:(lra)) as (k0 & p0 & S0). destruct (tuned_slab_settles 1 1 1 ltac:(lra) ltac:(lra) ltac:(lra)) as (k1 & p1 & S1).
  destruct (tuned_slab_settles 1 3 0 ltac:(lra) ltac:(lra) ltac:(lra)) as (ky & py & Sy). exists k0, k1, ky, p0, p1, py. split; [exact S0|]. split; [exact S1|]. split; [exact Sy|].
  split.
  - assert (T : two_slabs Ki3 exp sqrt (tuned 1 1) (tuned 1 1) (edge_solver 0) (edge_solver 1) 0 1 k0 k1 p0 p1) by (split; auto; try (apply tuned_transport; lra); try (apply tuned_physics; lra); lra).
    apply (C92_transport_leakage_lowers _ _ _ _ _ _ _ _ _ _ _ _ T); [apply tuned_chain|]; lra.
  - assert (T : two_slabs Ki3 exp sqrt (tuned 1 1) (tuned 1 3) (edge_solver 0) (edge_solver 0) 0 0 k0 ky p0 py) by (split; auto; try (apply tuned_transport; lra); try (apply tuned_physics; lra); lra).
    apply (C92_transport_fission_raises _ _ _ _ _ _ _ _ _ _ _ _ _ 0%Z 1%Z 0%Z T); [apply tuned_no_better_slab; lra|apply tuned_facts; [lra|lia|reflexivity]|apply tuned_groups; lra|apply tuned_groups; lra|].
    destruct (tuned_tables 1 1 0 ltac:(lia)) as (A & _ & _ & _ & -> & _). destruct (tuned_tables 1 3 0 ltac:(lia)) as (B & _ & _ & _ & -> & _).
    destruct (A 1%Z ltac:(lia)) as [_ ->]. destruct (B 1%Z ltac:(lia)) as [_ ->]. lra.
Qed.
(* the bound by the infinite medium: 8/3 *)
Example C92_transport_below_met : exists k phi, slab_settles Ki3 exp sqrt (tuned 1 1) (edge_solver 0) k phi /\ k < 8 / 3.
Proof.
  destruct (tuned_slab_settles 1 1 0 ltac:(lra) ltac:(lra) ltac:(lra)) as (k & p & S). exists k, p. split; [exact S|].
  apply (C92_transport_below_infinite Ki3 exp sqrt (tuned 1 1) (edge_solver 0) 0 k p (8 / 3) (fun _ => 1) (tuned_transport 1 1 0 ltac:(lra)) (tuned_physics 1 1 ltac:(lra) ltac:(lra)) ltac:(lra) mirror_homogeneous (tuned_chain 1 1 0 ltac:(lra)) S mirror_infinite). lra.
Qed.
