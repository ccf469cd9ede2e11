(* Property theorems C86: the source iteration stops, and on the right answer.
   [mode], [settles], [diffusion_case], [scatters_to], [emits], [fissions] and
   [fissile] (ProofsConvergeD.v) speak of the operators and of the data only. *)
From Coq Require Import String ZArith List Bool Lia Reals Lra.
From Verif Require Import Base BaseLemmas NumR LinAlg PowerMethod ModelNumTools ModelEigen ModelMesh
  ModelReactor ModelDiffusion ModelSpectrum ProofsSpectrum ProofsSpectrumR ProofsEigen ProofsMesh ProofsDiffusion ProofsDiffusionR Kernels PropsDiffusion PropsSpectrum
  ProofsConverge ProofsConvergeD ProofsConvergeT.
Import ListNotations.
Local Open Scope R_scope.

(* In exact arithmetic, with a loss operator whose inverse is non-negative and a
   production operator such that a source placed anywhere fission neutrons are
   born makes fission neutrons wherever they are born: there is exactly one
   non-negative mode, the iteration stops for every accuracy if it is given
   enough iterations, and the results tend to that mode geometrically. *)
Theorem C86_source_iteration solver (M F : mat R) size :
  (0 <= size)%Z -> mrows M = size -> mcols M = size -> mrows F = size -> mcols F = size ->
  exact_solver M (solver M) ->
  (forall x, (forall i, (0 <= i < size)%Z -> 0 <= rsum 0 size (fun j => mat_at M i j * x j)) -> forall i, (0 <= i < size)%Z -> 0 <= x i) ->
  (forall i j, (0 <= i < size)%Z -> (0 <= j < size)%Z -> 0 <= mat_at F i j) ->
  (let born i := (0 <= i < size)%Z /\ 0 < rsum 0 size (fun j => mat_at F i j) in
   (exists i, born i) /\
   forall b, vlen b = size -> (forall i, (0 <= i < size)%Z -> 0 <= vat b i) -> (exists i, born i /\ 0 < vat b i) ->
     forall i, born i -> 0 < vat (mvmul F (solver M b)) i) ->
  exists k phi, settles solver M F k phi.
Proof. intros Hs H1 H2 H3 H4 Hex Hm HF (Hb & Hc). exact (settling solver M F size Hs H1 H2 H3 H4 Hex Hm HF Hc Hb). Qed.
Print Assumptions C86_source_iteration.

(* The diffusion problem.  There is a fissile cell, and from every group in which
   fission neutrons are born somewhere, scattering leads to a group that makes
   fissions, in every fissile cell. *)
Theorem C86_diffusion solver ms sd d aL aR : diffusion_case ms sd d aL aR -> sd_dir sd = FORWARD ->
  (exists m, fissile ms sd d m) ->
  (forall e0 m0 m, emits ms sd d e0 m0 -> fissile ms sd d m -> exists e, scatters_to d (sd_energies sd) (ms_cells ms) e0 e /\ fissions ms sd d e m) ->
  exists M F, diffusionSystem PI ms sd = Ok (M, F) /\ (exists solve, exact_solver M solve) /\
    (exact_solver M (solver M) -> exists k phi, settles solver M F k phi).
Proof. exact (diffusion_forward solver ms sd d aL aR). Qed.
Print Assumptions C86_diffusion.

(* The adjoint problem: every group that makes fissions somewhere is reached from
   a group in which neutrons are born, for every fissile cell. *)
Theorem C86_diffusion_adjoint solver ms sd d aL aR : diffusion_case ms sd d aL aR -> sd_dir sd = ADJOINT ->
  (exists m, fissile ms sd d m) ->
  (forall e0 m0 m, fissions ms sd d e0 m0 -> fissile ms sd d m -> exists e, scatters_to d (sd_energies sd) (ms_cells ms) e e0 /\ emits ms sd d e m) ->
  exists M F, diffusionSystem PI ms sd = Ok (M, F) /\ (exists solve, exact_solver M solve) /\
    (exact_solver M (solver M) -> exists k phi, settles solver M F k phi).
Proof. exact (diffusion_adjoint solver ms sd d aL aR). Qed.
Print Assumptions C86_diffusion_adjoint.

(* The forward and the adjoint calculation settle on the same factor. *)
Theorem C86_same_factor solver ms sdf sda d aL aR M F Ma Fa k ka phi psi : diffusion_case ms sdf d aL aR ->
  sd_energies sda = sd_energies sdf -> sd_albedo sda = sd_albedo sdf -> sd_dir sdf = FORWARD -> sd_dir sda = ADJOINT ->
  diffusionSystem PI ms sdf = Ok (M, F) -> diffusionSystem PI ms sda = Ok (Ma, Fa) ->
  settles solver M F k phi -> settles solver Ma Fa ka psi -> k = ka.
Proof.
  intros D Ee Ea Hf Had E1 E2 Sf Sa. pose proof D as [Hn Hen Hdata Hal HaL HaR HD Hx HS HS1 HV Hsc Habs Hchi Hfis].
  assert (Hp : is_equal aL (nofZ 2) && is_equal aR (nofZ 2) = false) by (apply not_periodic; assumption).
  destruct (adjoint_is_transpose PI ms sdf sda d aL aR Hn Hen Ee Ea Hf Had Hdata Hal Hp) as (M' & F' & Ma' & Fa' & E1' & E2' & R1 & C1 & R2 & C2 & R3 & C3 & R4 & C4 & Ht).
  rewrite E1 in E1'. injection E1' as <- <-. rewrite E2 in E2'. injection E2' as <- <-.
  destruct (fission_entries ms sdf d aL aR Hn Hen Hdata Hal HaL Hf) as (M' & F' & E1' & _ & _ & Fe). rewrite E1 in E1'. injection E1' as <- <-.
  assert (HF0 : forall i j, (0 <= i < ms_cells ms * sd_energies sdf)%Z -> (0 <= j < ms_cells ms * sd_energies sdf)%Z -> 0 <= mat_at F i j).
  { intros i j Hi Hj. destruct (Blocks.idx_decode (ms_cells ms) (sd_energies sdf) i ltac:(lia) Hi) as (e & m & He & Hm & ->). destruct (Blocks.idx_decode (ms_cells ms) (sd_energies sdf) j ltac:(lia) Hj) as (e' & m' & He' & Hm' & ->).
    rewrite Fe by auto. destruct (m' =? m)%Z; [|lra]. apply Rmult_le_pos; [auto|]. apply Rmult_le_pos; [auto|left; auto]. }
  apply (same_factor M F Ma Fa (ms_cells ms * sd_energies sdf) k ka phi psi R1 C1 R2 C2 R3 C3 R4 C4 Ht); [apply Sf|apply Sa|].
  eapply (modes_meet M F Ma Fa solver (ms_cells ms * sd_energies sdf)); try eassumption; [|apply Sa]. intros i j Hi Hj. split; [apply HF0; assumption|apply Ht; assumption].
Qed.
Print Assumptions C86_same_factor.

(* Transport in slabs, with the exact kernel, when every material scatters within
   each group. *)
Theorem C86_transport_slab solver kb ex sq ms sd a sc g g' check M F :
  transport_ready ms sd a -> transport_run E3 kb ex sq ms sd sc g g' check M F -> ms_geom ms = SLAB -> 0 <= a <= 1 ->
  let n := ms_cells ms in let en := ms_groups ms in let d := mesh_tables ms in
  (forall e e' i, (0 <= e < en)%Z -> (0 <= e' < en)%Z -> (0 <= i < n)%Z -> 0 <= tsc d e e' i) ->
  (forall e i, (0 <= e < en)%Z -> (0 <= i < n)%Z -> rsum 0 en (fun e' => tsc d e e' i) < ttot d e i) ->
  (forall e i, (0 <= e < en)%Z -> (0 <= i < n)%Z -> 0 < tsc d e e i) ->
  (forall e i, (0 <= e < en)%Z -> (0 <= i < n)%Z -> 0 <= tchi d e i) ->
  (forall e i, (0 <= e < en)%Z -> (0 <= i < n)%Z -> 0 <= tni d e i * tfis d e i) ->
  (exists m, fissile ms sd d m) ->
  (forall e0 m0 m, emits ms sd d e0 m0 -> fissile ms sd d m -> exists e, scatters_to d en n e0 e /\ fissions ms sd d e m) ->
  (exists solve, exact_solver M solve) /\ (exact_solver M (solver M) -> exists k phi, settles solver M F k phi).
Proof. intros H1 H2 H3 H4 n en d H5 H6 H7 H8 H9. exact (transport_slab kb ex sq ms sd a sc g g' check M F H1 H2 H3 H4 H5 H6 H7 H8 H9 solver). Qed.
Print Assumptions C86_transport_slab.

(* ---------- the hypotheses are met ---------- *)

(* a slab of three cells and two groups: neutrons are born fast and fission is thermal *)
Definition two_material : material R :=
  mkMaterial "m" 2 20 0 (mzeros 0 0) (mzeros 0 0) (vzeros 0) None
    [[1]; [1]] [[0]; [1]] [[1]; [1]] [[1 / 4]; [1 / 2]; [0]; [1 / 2]] [[2]; [2]] [[1]; [0]].
Definition two_slab : mesh R :=
  mkMesh (mkvec 4 (fun i => IZR i / 100)) SLAB 3 2 [two_material; two_material; two_material] 1 1.
Definition two_solver (dir : DirectionKind) : solverData R :=
  mkSolverData DIFFUSION (1 / 1000) 100 1 [0; 0] [] 2 dir FUNDAMENTAL.

Lemma two_ready : ready two_slab.
Proof.
  repeat split; cbn; try lia; try congruence.
  all: assert (m = 0 \/ m = 1 \/ m = 2)%Z as [->|[->| ->]] by (cbn in *; lia);
    change (Z.to_nat 1) with 1%nat; change (Z.to_nat 2) with 2%nat; cbn;
    try reflexivity; try (right; unfold zlen; cbn; lia); unfold zlen; cbn; lia.
Qed.

Lemma two_tables : let d := mesh_tables two_slab in
  forall m, (0 <= m < 3)%Z ->
    (forall e, (0 <= e < 2)%Z -> tD d e m = 1 /\ ttot d e m = 1 /\ tni d e m = 2) /\
    tfis d 0 m = 0 /\ tfis d 1 m = 1 /\ tchi d 0 m = 1 /\ tchi d 1 m = 0 /\
    tsc d 0 0 m = 1 / 4 /\ tsc d 0 1 m = 1 / 2 /\ tsc d 1 0 m = 0 /\ tsc d 1 1 m = 1 / 2 /\
    tdx d m = 1 /\ tS d m = 1 /\ tS d (m + 1) = 1 /\ tV d m = 1.
Proof.
  intros d m Hm.
  assert (Hc : forall c t, law_value (T := R) [c] t = c) by (intros; rewrite law_value_R; exact (eq_trans (rsum_one 0 _) (Rmult_1_r c))).
  assert (Hmat : cell_material two_slab m = two_material).
  { assert (m = 0 \/ m = 1 \/ m = 2)%Z as [->|[->| ->]] by lia; reflexivity. }
  cbn [d mesh_tables tD ttot tsc tfis tni tchi tdx tS tV]. unfold law_at, law_at0, law_at. rewrite Hmat.
  cbn [two_material mt_diff mt_totXS mt_scatt mt_fisXS mt_ni mt_chi mt_temp two_slab ms_groups ms_geom ms_bounds vat].
  split.
  - intros e He. assert (e = 0 \/ e = 1)%Z as [->| ->] by lia; [change (Z.to_nat 0) with 0%nat|change (Z.to_nat 1) with 1%nat]; cbn [nth]; rewrite !Hc; auto.
  - change (Z.to_nat (0 + 0 * 2)) with 0%nat. change (Z.to_nat (1 + 0 * 2)) with 1%nat. change (Z.to_nat (0 + 1 * 2)) with 2%nat. change (Z.to_nat (1 + 1 * 2)) with 3%nat.
    change (Z.to_nat 0) with 0%nat. change (Z.to_nat 1) with 1%nat. cbn [nth]. rewrite !Hc. rewrite plus_IZR. cbn. repeat split; lra.
Qed.

Ltac two_cases e := assert (e = 0 \/ e = 1)%Z as [-> | ->] by lia.

Lemma two_case dir : diffusion_case two_slab (two_solver dir) (mesh_tables two_slab) 0 0.
Proof.
  split; cbn [two_slab two_solver ms_cells sd_energies]; try lia; try lra.
  - exact (ready_data two_slab two_ready).
  - split; reflexivity.
  - intros e m He Hm. destruct (two_tables m Hm) as (A & _). destruct (A e He) as [-> _]. lra.
  - intros m Hm. destruct (two_tables m Hm) as (_ & _ & _ & _ & _ & _ & _ & _ & _ & B & _). rewrite B. lra.
  - intros k Hk. destruct (Z.eq_dec k 3) as [-> | Hne].
    + destruct (two_tables 2 ltac:(lia)) as (_ & _ & _ & _ & _ & _ & _ & _ & _ & _ & _ & B & _). change (2 + 1)%Z with 3%Z in B. rewrite B. lra.
    + destruct (two_tables k ltac:(lia)) as (_ & _ & _ & _ & _ & _ & _ & _ & _ & _ & B & _). rewrite B. lra.
  - intros k Hk. destruct (two_tables k ltac:(lia)) as (_ & _ & _ & _ & _ & _ & _ & _ & _ & _ & B & _). rewrite B. lra.
  - intros m Hm. destruct (two_tables m Hm) as (_ & _ & _ & _ & _ & _ & _ & _ & _ & _ & _ & _ & B). rewrite B. lra.
  - intros e e' m He He' Hm. destruct (two_tables m Hm) as (_ & _ & _ & _ & _ & S00 & S01 & S10 & S11 & _). two_cases e; two_cases e'; lra.
  - intros e m He Hm. destruct (two_tables m Hm) as (A & _ & _ & _ & _ & S00 & S01 & S10 & S11 & _). destruct (A e He) as (_ & -> & _).
    rewrite !rsum_first by lia. rewrite rsum_empty by lia. cbn [Z.add Pos.add]. two_cases e; lra.
  - intros e m He Hm. destruct (two_tables m Hm) as (_ & _ & _ & X0 & X1 & _). two_cases e; lra.
  - intros e m He Hm. destruct (two_tables m Hm) as (A & F0 & F1 & _). destruct (A e He) as (_ & _ & ->). two_cases e; lra.
Qed.

Lemma two_facts dir m : (0 <= m < 3)%Z ->
  (forall e, emits two_slab (two_solver dir) (mesh_tables two_slab) e m <-> e = 0%Z) /\
  (forall e, fissions two_slab (two_solver dir) (mesh_tables two_slab) e m <-> e = 1%Z) /\
  scatters_to (mesh_tables two_slab) 2 3 0 1.
Proof.
  intros Hm. destruct (two_tables m Hm) as (A & F0 & F1 & X0 & X1 & _ & S01 & _). unfold emits, fissions. cbn [two_slab two_solver ms_cells sd_energies].
  split; [|split].
  - intros e. split; [intros (He & _ & H); two_cases e; [reflexivity|lra]|intros ->; repeat split; try lia; lra].
  - intros e. split.
    + intros (He & _ & H). two_cases e; [rewrite F0, Rmult_0_r in H; lra|reflexivity].
    + intros ->. destruct (A 1%Z ltac:(lia)) as (_ & _ & ->). rewrite F1. repeat split; try lia; lra.
  - apply (scatters_on _ _ _ 0 0 1 m)%Z; [constructor|lia|lia|lia|lra].
Qed.

Example C86_two_groups : exists solver M F Ma Fa k phi psi,
  diffusionSystem PI two_slab (two_solver FORWARD) = Ok (M, F) /\ diffusionSystem PI two_slab (two_solver ADJOINT) = Ok (Ma, Fa) /\
  settles solver M F k phi /\ settles solver Ma Fa k psi.
Proof.
  assert (Hs : forall dir, exists m, fissile two_slab (two_solver dir) (mesh_tables two_slab) m).
  { intros dir. exists 0%Z. destruct (two_facts dir 0 ltac:(lia)) as (E & F & _). split; [exists 0%Z; apply E|exists 1%Z; apply F]; reflexivity. }
  assert (Hr : forall dir e0 m0 m, emits two_slab (two_solver dir) (mesh_tables two_slab) e0 m0 -> fissile two_slab (two_solver dir) (mesh_tables two_slab) m ->
    exists e, scatters_to (mesh_tables two_slab) (sd_energies (two_solver dir)) (ms_cells two_slab) e0 e /\ fissions two_slab (two_solver dir) (mesh_tables two_slab) e m).
  { intros dir e0 m0 m He ((e1 & _ & Hm & _) & _). cbn [two_slab ms_cells] in Hm. pose proof (proj1 (proj2 He)) as Hm0. cbn [two_slab ms_cells] in Hm0.
    destruct (two_facts dir m0 Hm0) as (E & _ & S). destruct (two_facts dir m Hm) as (_ & F & _). exists 1%Z. apply E in He. subst e0. split; [exact S|apply F; reflexivity]. }
  assert (Hr' : forall dir e0 m0 m, fissions two_slab (two_solver dir) (mesh_tables two_slab) e0 m0 -> fissile two_slab (two_solver dir) (mesh_tables two_slab) m ->
    exists e, scatters_to (mesh_tables two_slab) (sd_energies (two_solver dir)) (ms_cells two_slab) e e0 /\ emits two_slab (two_solver dir) (mesh_tables two_slab) e m).
  { intros dir e0 m0 m He ((e1 & _ & Hm & _) & _). cbn [two_slab ms_cells] in Hm. pose proof (proj1 (proj2 He)) as Hm0. cbn [two_slab ms_cells] in Hm0.
    destruct (two_facts dir m0 Hm0) as (_ & F & S). destruct (two_facts dir m Hm) as (E & _ & _). exists 0%Z. apply F in He. subst e0. split; [exact S|apply E; reflexivity]. }
  destruct (C86_diffusion (fun _ => fun b => b) _ _ _ _ _ (two_case FORWARD) eq_refl (Hs FORWARD) (Hr FORWARD)) as (M & F & E1 & (s1 & X1) & _).
  destruct (C86_diffusion_adjoint (fun _ => fun b => b) _ _ _ _ _ (two_case ADJOINT) eq_refl (Hs ADJOINT) (Hr' ADJOINT)) as (Ma & Fa & E2 & (s2 & X2) & _).
  (* the two matrices differ in the entry of thermal row, fast column *)
  assert (D : mat_at M 3 0 <> mat_at Ma 3 0).
  { pose proof (two_case FORWARD) as [Hn Hen Hdata Hal HaL HaR HD Hx HS HS1 HV Hsc Habs Hchi Hfis].
    destruct (loss_entries two_slab (two_solver FORWARD) _ 0 0 Hn Hen Hdata Hal HaL HD Hx ltac:(discriminate)) as (M' & F' & E' & L). rewrite E1 in E'. injection E' as <- <-.
    destruct (loss_entries two_slab (two_solver ADJOINT) _ 0 0 Hn Hen Hdata Hal HaL HD Hx ltac:(discriminate)) as (M' & F' & E' & L'). rewrite E2 in E'. injection E' as <- <-.
    destruct (L 1 0 0 0 ltac:(cbn; lia) ltac:(cbn; lia) ltac:(cbn; lia) ltac:(cbn; lia))%Z as [Q _]. specialize (Q ltac:(lia)).
    destruct (L' 1 0 0 0 ltac:(cbn; lia) ltac:(cbn; lia) ltac:(cbn; lia) ltac:(cbn; lia))%Z as [Q' _]. specialize (Q' ltac:(lia)).
    destruct (two_tables 0 ltac:(lia)) as (_ & _ & _ & _ & _ & _ & S01 & S10 & _ & _ & _ & _ & V).
    change (mat_at M 3 0 = - (tsc (mesh_tables two_slab) 0 1 0 * tV (mesh_tables two_slab) 0)) in Q.
    change (mat_at Ma 3 0 = - (tsc (mesh_tables two_slab) 1 0 0 * tV (mesh_tables two_slab) 0)) in Q'.
    rewrite Q, Q', S01, S10, V. lra. }
  set (solver := fun A : mat R => if Req_EM_T (mat_at A 3 0) (mat_at M 3 0) then s1 else s2).
  assert (Y1 : exact_solver M (solver M)) by (unfold solver; destruct (Req_EM_T (mat_at M 3 0) (mat_at M 3 0)); [exact X1|congruence]).
  assert (Y2 : exact_solver Ma (solver Ma)) by (unfold solver; destruct (Req_EM_T (mat_at Ma 3 0) (mat_at M 3 0)); [congruence|exact X2]).
  destruct (C86_diffusion solver _ _ _ _ _ (two_case FORWARD) eq_refl (Hs FORWARD) (Hr FORWARD)) as (M' & F' & E' & _ & Z1). rewrite E1 in E'. injection E' as <- <-.
  destruct (C86_diffusion_adjoint solver _ _ _ _ _ (two_case ADJOINT) eq_refl (Hs ADJOINT) (Hr' ADJOINT)) as (M' & F' & E' & _ & Z2). rewrite E2 in E'. injection E' as <- <-.
  destruct (Z1 Y1) as (k & phi & S1). destruct (Z2 Y2) as (ka & psi & S2).
  pose proof (C86_same_factor solver _ _ (two_solver ADJOINT) _ _ _ _ _ _ _ _ _ _ _ (two_case FORWARD) eq_refl eq_refl eq_refl eq_refl E1 E2 S1 S2) as <-.
  exists solver, M, F, Ma, Fa, k, phi, psi. auto.
Qed.

(* transport in the three cells of [three], one group *)
Example C86_transport_met : exists solver sc g g' check M F k phi,
  transport_run E3 Ki3 exp sqrt (three SLAB) (ex_solver 1 1 FORWARD) sc g g' check M F /\ settles solver M F k phi.
Proof.
  pose proof (three_ready SLAB 1 1 FORWARD ltac:(discriminate)) as H.
  destruct (C55_transport_defined E3 Ki3 exp sqrt _ _ _ H) as (sc & g & g' & c & M & F & Hrun).
  assert (T : forall i, (0 <= i < 3)%Z -> let d := mesh_tables (three SLAB) in ttot d 0 i = 1 /\ tsc d 0 0 i = 1 / 2 /\ tfis d 0 i = 1 /\ tni d 0 i = 2 /\ tchi d 0 i = 1).
  { intros i Hi d. change d with (mesh_tables ex_slab). destruct (ex_slab_tables i Hi) as (_ & A & B & C & D & E & _). auto. }
  assert (K : forall solver, (exists solve, exact_solver M solve) /\ (exact_solver M (solver M) -> exists k phi, settles solver M F k phi)).
  { intros solver. apply (C86_transport_slab solver _ _ _ _ _ _ _ _ _ _ _ _ H Hrun eq_refl ltac:(lra)).
    - intros e e' i He He' Hi. cbn in He, He'. assert (e = 0)%Z as -> by lia. assert (e' = 0)%Z as -> by lia. destruct (T i Hi) as (_ & -> & _). lra.
    - intros e i He Hi. cbn in He. assert (e = 0)%Z as -> by lia. destruct (T i Hi) as (-> & B & _). pose proof (rsum_one 0 (fun e' => tsc (mesh_tables (three SLAB)) 0 e' i)) as Q.
      cbn [Z.add] in Q. change (ms_groups (three SLAB)) with 1%Z. rewrite Q, B. lra.
    - intros e i He Hi. cbn in He. assert (e = 0)%Z as -> by lia. destruct (T i Hi) as (_ & -> & _). lra.
    - intros e i He Hi. cbn in He. assert (e = 0)%Z as -> by lia. destruct (T i Hi) as (_ & _ & _ & _ & ->). lra.
    - intros e i He Hi. cbn in He. assert (e = 0)%Z as -> by lia. destruct (T i Hi) as (_ & _ & -> & -> & _). lra.
    - exists 0%Z. destruct (T 0%Z ltac:(lia)) as (_ & _ & A & B & C). split; exists 0%Z; (split; [cbn; lia|]); (split; [cbn; lia|]); rewrite ?A, ?B, ?C; lra.
    - intros e0 m0 m (He0 & _ & _) (_ & e & He & Hm & _). cbn in He0. assert (e0 = 0)%Z as -> by lia. exists 0%Z. split; [constructor|].
      cbn in Hm. destruct (T m Hm) as (_ & _ & A & B & _). split; [cbn; lia|]. split; [exact Hm|]. rewrite A, B. lra. }
  destruct (proj1 (K (fun _ => fun b => b))) as (s & Hs). destruct (proj2 (K (fun _ => s)) Hs) as (k & phi & S).
  exists (fun _ => s), sc, g, g', c, M, F, k, phi. auto.
Qed.
