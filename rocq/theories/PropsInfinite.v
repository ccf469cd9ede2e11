(* Property theorems C91: a homogeneous reactor behind reflecting boundaries is an
   infinite medium. [homogeneous], [fission_neutrons] and [infinite_medium]
   (ProofsInfinite.v) speak of the cross sections only: no mesh, no geometry. *)
From Coq Require Import String ZArith List Bool Lia Reals Lra.
From Verif Require Import Base BaseLemmas NumR LinAlg Blocks PowerMethod ModelNumTools ModelEigen ModelMesh
  ModelReactor ModelDiffusion ModelSpectrum ProofsSpectrum ProofsSpectrumR ProofsEigen ProofsMesh ProofsDiffusion ProofsDiffusionR Kernels PropsDiffusion PropsSpectrum
  PropsSpectrumB ProofsConverge ProofsConvergeD ProofsConvergeT PropsConverge ProofsInfinite.
Import ListNotations.
Local Open Scope R_scope.

(* neutrons are born, and whatever they are born with they can come to make fissions *)
Definition chain_reaction (ms : mesh R) (sd : solverData R) (d : data R) : Prop :=
  (exists m, fissile ms sd d m) /\
  forall e0 m0 m, emits ms sd d e0 m0 -> fissile ms sd d m -> exists e, scatters_to d (sd_energies sd) (ms_cells ms) e0 e /\ fissions ms sd d e m.

(* the iteration settles on k and phi; k and the spectrum f of phi are those of the
   infinite medium, the only ones; phi is the same in every cell *)
Definition settles_flat (solver : mat R -> vec R -> vec R) (d : data R) (n en : Z) (M F : mat R) (k : R) (f : Z -> R) : Prop :=
  exists phi, settles solver M F k phi /\
  (forall e m, (0 <= e < en)%Z -> (0 <= m < n)%Z -> vat phi (m + e * n) = f e) /\
  infinite_medium d en k f /\
  forall k' f', infinite_medium d en k' f' -> k' = k /\ exists c, 0 < c /\ forall e, (0 <= e < en)%Z -> f' e = c * f e.

Lemma flat_of_modes solver d n en M F : (1 <= n)%Z -> mcols M = (n * en)%Z ->
  (forall k f, infinite_medium d en k f -> mode M F k (flat n en f)) ->
  (forall k phi, mode M F k phi -> exists f, infinite_medium d en k f) ->
  (exists k phi, settles solver M F k phi) -> exists k f, settles_flat solver d n en M F k f.
Proof.
  intros Hn HM Hf Ha (k & phi & S). pose proof S as (Hm & _ & _ & U & _).
  destruct (Ha k phi Hm) as (f0 & H0). destruct (U k _ (Hf k f0 H0)) as (_ & c0 & C0 & E0). rewrite HM in *.
  set (f := fun e => f0 e / c0).
  assert (Hphi : forall e m, (0 <= e < en)%Z -> (0 <= m < n)%Z -> vat phi (m + e * n) = f e).
  { intros e m He Hm'. pose proof (E0 (m + e * n)%Z ltac:(apply idx_range; auto)) as X. rewrite flat_at in X by lia. unfold f. rewrite X. field. lra. }
  assert (Hs : forall g, fission_neutrons d en (fun e => g e / c0) = fission_neutrons d en g / c0).
  { intros g. unfold fission_neutrons, Rdiv. rewrite <- rsum_scal_r. apply rsum_ext. intros. ring. }
  exists k, f, phi. split; [exact S|]. split; [exact Hphi|]. split.
  - destruct H0 as (Hk & P & (e0 & He0 & Hne) & B). split; [exact Hk|]. split; [|split].
    + intros e He. unfold f. apply Rmult_le_pos; [auto|left; apply Rinv_0_lt_compat, C0].
    + exists e0. split; [exact He0|]. unfold f. rewrite Hs. unfold Rdiv. rewrite <- Rmult_assoc.
      apply Rmult_integral_contrapositive_currified; [exact Hne|apply Rinv_neq_0_compat; lra].
    + intros e He. unfold f at 1 3. rewrite Hs.
      rewrite (rsum_ext 0 en _ (fun e' => tsc d e' e 0 * f0 e' * / c0)) by (intros; unfold f, Rdiv; ring). rewrite rsum_scal_r.
      replace (ttot d e 0 * (f0 e / c0)) with (ttot d e 0 * f0 e / c0) by (unfold Rdiv; ring). rewrite (B e He). field. lra.
  - intros k' f' H'. destruct (U k' _ (Hf k' f' H')) as (-> & c & C & E'). split; [reflexivity|]. exists c. split; [exact C|].
    intros e He. pose proof (E' (0 + e * n)%Z ltac:(apply idx_range; lia)) as X. rewrite flat_at, Hphi in X by lia. exact X.
Qed.

(* diffusion, any geometry and mesh; diffusion coefficients may differ from cell to cell *)
Theorem C91_diffusion solver ms sd d : diffusion_case ms sd d 1 1 -> sd_dir sd = FORWARD -> homogeneous d (sd_energies sd) (ms_cells ms) ->
  chain_reaction ms sd d ->
  exists M F, diffusionSystem PI ms sd = Ok (M, F) /\ (exists solve, exact_solver M solve) /\
    (exact_solver M (solver M) -> exists k f, settles_flat solver d (ms_cells ms) (sd_energies sd) M F k f).
Proof.
  intros D Hdir Hh (Hs & Hr). destruct (C86_diffusion solver ms sd d 1 1 D Hdir Hs Hr) as (M & F & E & X & S).
  exists M, F. split; [exact E|]. split; [exact X|]. intros Y. destruct (dims ms sd d M F D Hdir E) as (_ & C & _).
  apply flat_of_modes; [destruct D; lia|exact C| | |exact (S Y)].
  - intros k f. apply (diffusion_flat ms sd d M F D Hdir E Hh).
  - intros k phi Hm. eexists. exact (diffusion_average ms sd d M F D Hdir E Hh k phi Hm).
Qed.
Print Assumptions C91_diffusion.

(* collision probabilities, any geometry, any kernels and square root: the flat flux
   is a mode, and the volume average of every mode is an infinite medium *)
Theorem C91_transport k3 kb ex sq ms sd sc g g' check M F S :
  transport_ready ms sd 1 -> transport_run k3 kb ex sq ms sd sc g g' check M F -> getExternalSurface PI ms "cm" = Ok S ->
  let n := ms_cells ms in let en := ms_groups ms in let d := mesh_tables ms in
  (forall h, (0 <= h < en)%Z -> surface_to_surface ms S g h <> 1) -> homogeneous d en n ->
  (forall e, (0 <= e < en)%Z -> 0 <= tni d e 0 * tfis d e 0) ->
  (forall k f phi, infinite_medium d en k f -> vlen phi = (n * en)%Z ->
     (forall e m, (0 <= e < en)%Z -> (0 <= m < n)%Z -> vat phi (m + e * n) = f e) -> mode M F k phi) /\
  (forall k phi, mode M F k phi -> infinite_medium d en k (fun e => rsum 0 n (fun m => tV d m * vat phi (m + e * n)%Z))).
Proof.
  intros H Hrun HS n en d Hp Hh Hf.
  assert (Hrow : forall h i, (0 <= h < en)%Z -> (0 <= i < n)%Z -> rsum 0 n (fun j => t3_at g' i j h * ttot d h j) = 1).
  { intros h i Hh' Hi. destruct (C53_albedo_balance _ _ _ _ _ _ _ _ _ _ _ _ _ _ H Hrun HS h i Hh' Hi) as (A & _ & B & _).
    rewrite A in B. apply B; [reflexivity|]. apply Hp, Hh'. }
  split; [|intros k phi; exact (transport_average _ _ _ _ _ _ _ _ _ _ _ _ _ H Hrun Hrow Hh k phi Hf)].
  intros k f phi Hk L E. pose proof (transport_flat _ _ _ _ _ _ _ _ _ _ _ _ _ H Hrun Hrow Hh k f Hk) as (A & B & C & (i & Hi & D) & G).
  destruct (t_dims _ _ _ _ _ _ _ _ _ _ _ _ _ H Hrun) as (R1 & C1 & R2 & C2). pose proof (t_cells _ _ _ H) as Hn. fold n en d in R1, C1, R2, C2, Hn.
  assert (Q : forall i, (0 <= i < n * en)%Z -> vat phi i = vat (flat n en f) i).
  { intros j Hj. destruct (idx_decode n en j ltac:(lia) Hj) as (e & m & He & Hm & ->). rewrite flat_at, E by (auto; lia). reflexivity. }
  assert (QM : forall A i, mcols A = (n * en)%Z -> vat (mvmul A phi) i = vat (mvmul A (flat n en f)) i).
  { intros A' j HA. rewrite !mvmul_at, HA. apply rsum_ext. intros l Hl. rewrite Q by exact Hl. reflexivity. }
  split; [exact A|]. split; [congruence|]. split; [|split].
  - intros j Hj. rewrite C1 in Hj. rewrite Q by exact Hj. apply C. rewrite C1. exact Hj.
  - exists i. split; [exact Hi|]. rewrite QM by exact C2. exact D.
  - intros j Hj. rewrite !QM by assumption. apply G, Hj.
Qed.
Print Assumptions C91_transport.

(* in a slab, with the exact kernel, the iteration settles on it *)
Theorem C91_transport_slab solver kb ex sq ms sd sc g g' check M F :
  transport_ready ms sd 1 -> transport_run E3 kb ex sq ms sd sc g g' check M F -> ms_geom ms = SLAB ->
  let n := ms_cells ms in let en := ms_groups ms in let d := mesh_tables ms in
  homogeneous d en n ->
  (forall e e', (0 <= e < en)%Z -> (0 <= e' < en)%Z -> 0 <= tsc d e e' 0) ->
  (forall e, (0 <= e < en)%Z -> rsum 0 en (fun e' => tsc d e e' 0) < ttot d e 0) ->
  (forall e, (0 <= e < en)%Z -> 0 < tsc d e e 0) ->
  (forall e, (0 <= e < en)%Z -> 0 <= tchi d e 0) ->
  (forall e, (0 <= e < en)%Z -> 0 <= tni d e 0 * tfis d e 0) ->
  chain_reaction ms sd d ->
  (exists solve, exact_solver M solve) /\
  (exact_solver M (solver M) -> exists k f, settles_flat solver d n en M F k f).
Proof.
  intros H Hrun Hslab n en d Hh Hsc Habs Hin Hchi Hfis (Hs & Hr).
  assert (Een : sd_energies sd = en) by apply H. rewrite Een in Hr. pose proof (t_cells _ _ _ H) as Hn. fold n in Hn.
  destruct (C86_transport_slab solver kb ex sq ms sd 1 sc g g' check M F H Hrun Hslab ltac:(lra)) as (X & S); fold n en d.
  1: intros e e' i He He' Hi; destruct (Hh e i He Hi) as (_ & _ & _ & A); rewrite (A e' He'); auto.
  1: { intros e i He Hi. destruct (Hh e i He Hi) as (-> & _ & _ & A). rewrite (rsum_ext 0 en _ (fun e' => tsc d e e' 0)) by (intros e' He'; apply A, He'). auto. }
  1: intros e i He Hi; destruct (Hh e i He Hi) as (_ & _ & _ & A); rewrite (A e He); auto.
  1: intros e i He Hi; destruct (Hh e i He Hi) as (_ & -> & _); auto.
  1: intros e i He Hi; destruct (Hh e i He Hi) as (_ & _ & -> & _); auto.
  1, 2: assumption.
  split; [exact X|]. intros Y. destruct (run_spec _ _ _ _ _ _ _ _ _ _ _ _ _ H Hrun) as (Hc & _).
  pose proof (spec_surface_ok ms ltac:(apply H) ltac:(apply H)) as ES. unfold spec_surface in ES. rewrite Hslab in ES.
  assert (Hpss : forall h, (0 <= h < en)%Z -> surface_to_surface ms 1 g h <> 1).
  { intros h Hh'. rewrite (C54_slab_value _ _ _ _ _ _ _ _ _ _ _ _ _ _ H Hrun Hslab E3_0 ES h Hh').
    assert (Ht : 0 < rsum 0 n (thickness ms h)).
    { apply rsum_pos; [lia|]. intros l Hl. unfold thickness. rewrite <- (co_width _ _ _ Hc), <- (co_sig _ _ _ Hc) by auto. apply (own_pos ms sd 1 sc H Hc); auto. }
    fold n. set (t := rsum 0 n (thickness ms h)) in *. pose proof (E3_exp t ltac:(lra)).
    assert (exp (- t) < 1) by (rewrite <- exp_0; apply exp_increasing; lra). lra. }
  destruct (C91_transport _ _ _ _ _ _ _ _ _ _ _ _ _ H Hrun ES Hpss Hh Hfis) as (Fl & Av).
  destruct (t_dims _ _ _ _ _ _ _ _ _ _ _ _ _ H Hrun) as (_ & C1 & _).
  apply flat_of_modes; [exact Hn|exact C1| | |exact (S Y)].
  - intros k f Hk. apply (Fl k f); [exact Hk|reflexivity|]. intros e m He Hm. apply flat_at; [fold n; lia|exact Hm].
  - intros k phi Hm. eexists. exact (Av k phi Hm).
Qed.
Print Assumptions C91_transport_slab.

(* the same cross sections, whatever the diffusion coefficients, meshes and geometries *)
Definition same_sections (d d' : data R) (en : Z) : Prop :=
  forall e, (0 <= e < en)%Z -> ttot d e 0 = ttot d' e 0 /\ tchi d e 0 = tchi d' e 0 /\ tni d e 0 * tfis d e 0 = tni d' e 0 * tfis d' e 0 /\
    forall e', (0 <= e' < en)%Z -> tsc d e e' 0 = tsc d' e e' 0.
Lemma same_infinite d d' en k f : same_sections d d' en -> infinite_medium d en k f -> infinite_medium d' en k f.
Proof.
  intros Hs (Hk & Hf & (e0 & He0 & Hne) & Hb).
  assert (HN : fission_neutrons d' en f = fission_neutrons d en f).
  { apply rsum_ext. intros e He. destruct (Hs e He) as (_ & _ & -> & _). reflexivity. }
  split; [exact Hk|]. split; [exact Hf|]. split.
  - exists e0. split; [exact He0|]. rewrite HN. destruct (Hs e0 He0) as (_ & <- & _). exact Hne.
  - intros e He. rewrite HN. destruct (Hs e He) as (<- & <- & _). rewrite (Hb e He). f_equal. apply rsum_ext. intros e' He'.
    destruct (Hs e' He') as (_ & _ & _ & S). rewrite (S e He). reflexivity.
Qed.

(* Any two such calculations - two meshes, two geometries, two sets of diffusion
   coefficients, or diffusion and transport - settle on one factor and one spectrum. *)
Theorem C91_solvers_agree solver solver' d d' n n' en M F M' F' k k' f f' :
  settles_flat solver d n en M F k f -> settles_flat solver' d' n' en M' F' k' f' -> same_sections d d' en ->
  k = k' /\ exists c, 0 < c /\ forall e, (0 <= e < en)%Z -> f' e = c * f e.
Proof.
  intros (_ & _ & _ & I & U) (_ & _ & _ & I' & U') Hs.
  destruct (U' k f (same_infinite _ _ _ _ _ Hs I)) as (-> & c & C & E). split; [reflexivity|].
  exists (/ c). split; [apply Rinv_0_lt_compat, C|]. intros e He. rewrite (E e He). field. lra.
Qed.
Print Assumptions C91_solvers_agree.

(* One group: production over absorption. *)
Theorem C91_one_group solver d n M F k f : settles_flat solver d n 1 M F k f -> tchi d 0 0 = 1 ->
  k = tni d 0 0 * tfis d 0 0 / (ttot d 0 0 - tsc d 0 0 0).
Proof.
  intros (_ & _ & _ & (Hk & Hf & (e0 & He0 & Hne) & Hb) & _) Hchi. assert (e0 = 0)%Z as -> by lia.
  assert (S1 : forall h, rsum 0 1 h = h 0%Z) by (intros h; exact (rsum_one 0 h)).
  specialize (Hb 0%Z ltac:(lia)). unfold fission_neutrons in Hb, Hne. rewrite !S1 in Hb. rewrite S1 in Hne. rewrite Hchi in Hb, Hne.
  set (nf := tni d 0 0 * tfis d 0 0) in *. set (x := f 0%Z) in *. assert (Hx : x <> 0) by (intros X; apply Hne; rewrite X; ring).
  assert (Q : (ttot d 0 0 - tsc d 0 0 0) * k = nf).
  { apply Rmult_eq_reg_r with x; [|exact Hx]. replace ((ttot d 0 0 - tsc d 0 0 0) * k * x) with ((ttot d 0 0 * x - tsc d 0 0 0 * x) * k) by ring. rewrite Hb. field. lra. }
  assert (ttot d 0 0 - tsc d 0 0 0 <> 0). { intros Z. rewrite Z in Q. apply Hne. rewrite <- Q. ring. }
  rewrite <- Q. field. assumption.
Qed.
Print Assumptions C91_one_group.

(* ---------- the hypotheses are met: two groups, k = 8/3, flat ---------- *)

Definition mirror_solver : solverData R := mkSolverData DIFFUSION (1 / 1000) 100 1 [1; 1] [] 2 FORWARD FUNDAMENTAL.
Lemma mirror_case : diffusion_case two_slab mirror_solver (mesh_tables two_slab) 1 1.
Proof. destruct (two_case FORWARD). split; try assumption; try lra. split; reflexivity. Qed.
Lemma mirror_homogeneous : homogeneous (mesh_tables two_slab) 2 3.
Proof.
  intros e m He Hm. destruct (two_tables m Hm) as (A & B & C & D & E & F & G & H & I & _). destruct (two_tables 0 ltac:(lia)) as (A' & B' & C' & D' & E' & F' & G' & H' & I' & _).
  destruct (A e He) as (_ & -> & ->). destruct (A' e He) as (_ & -> & ->).
  two_cases e; (repeat split; try congruence); intros e' He'; two_cases e'; congruence.
Qed.
Lemma mirror_chain : chain_reaction two_slab mirror_solver (mesh_tables two_slab).
Proof.
  split.
  - exists 0%Z. destruct (two_facts FORWARD 0 ltac:(lia)) as (E & F & _). split; [exists 0%Z; apply E|exists 1%Z; apply F]; reflexivity.
  - intros e0 m0 m He ((e1 & _ & Hm & _) & _). pose proof (proj1 (proj2 He)) as Hm0. cbn [two_slab ms_cells] in Hm, Hm0.
    destruct (two_facts FORWARD m0 Hm0) as (E & _ & S). destruct (two_facts FORWARD m Hm) as (_ & F & _).
    exists 1%Z. apply E in He. subst e0. split; [exact S|apply F; reflexivity].
Qed.
Lemma mirror_ready : transport_ready two_slab mirror_solver 1.
Proof.
  split; [exact two_ready|]. split; [cbn; lia|]. split; [reflexivity|]. split; [reflexivity|]. split.
  { intros i Hi Hl. cbn [two_slab ms_bounds vat]. apply Rmult_lt_compat_r; [lra|]. apply IZR_lt. lia. }
  split; [cbn; lra|]. intros e i He Hi. destruct (two_tables i Hi) as (A & _). destruct (A e He) as (_ & -> & _). lra.
Qed.
Lemma mirror_infinite : infinite_medium (mesh_tables two_slab) 2 (8 / 3) (fun _ => 1).
Proof.
  destruct (two_tables 0 ltac:(lia)) as (A & F0 & F1 & X0 & X1 & S00 & S01 & S10 & S11 & _).
  destruct (A 0%Z ltac:(lia)) as (_ & T0 & N0). destruct (A 1%Z ltac:(lia)) as (_ & T1 & N1).
  assert (S2 : forall h, rsum 0 2 h = h 0%Z + h 1%Z) by (intros h; rewrite !rsum_first, rsum_empty by lia; cbn [Z.add Pos.add]; ring).
  assert (HN : fission_neutrons (mesh_tables two_slab) 2 (fun _ => 1) = 2) by (unfold fission_neutrons; rewrite S2, N0, N1, F0, F1; ring).
  split; [lra|]. split; [intros; lra|]. split.
  - exists 0%Z. split; [lia|]. rewrite HN, X0. lra.
  - intros e He. rewrite HN, S2. two_cases e.
    + rewrite T0, S00, S10, X0. field.
    + rewrite T1, S01, S11, X1. field.
Qed.

(* diffusion and transport of that slab: both settle, on 8/3 *)
Example C91_met : exists solver M F solver' sc g g' check M' F' f f',
  diffusionSystem PI two_slab mirror_solver = Ok (M, F) /\ settles_flat solver (mesh_tables two_slab) 3 2 M F (8 / 3) f /\
  transport_run E3 Ki3 exp sqrt two_slab mirror_solver sc g g' check M' F' /\ settles_flat solver' (mesh_tables two_slab) 3 2 M' F' (8 / 3) f'.
Proof.
  destruct (C91_diffusion (fun _ => fun b => b) _ _ _ mirror_case eq_refl mirror_homogeneous mirror_chain) as (M & F & E & (s & X) & _).
  destruct (C91_diffusion (fun _ => s) _ _ _ mirror_case eq_refl mirror_homogeneous mirror_chain) as (M1 & F1 & E1 & _ & S).
  rewrite E in E1. injection E1 as <- <-. destruct (S X) as (k & f & Sf).
  pose proof Sf as (_ & _ & _ & _ & U). destruct (U _ _ mirror_infinite) as (<- & _).
  destruct (C55_transport_defined E3 Ki3 exp sqrt _ _ _ mirror_ready) as (sc & g & g' & c & M' & F' & Hrun).
  destruct (two_tables 0 ltac:(lia)) as (A & F0 & F1 & X0 & X1 & S00 & S01 & S10 & S11 & _).
  assert (T : forall solver, (exists solve, exact_solver M' solve) /\ (exact_solver M' (solver M') -> exists k f, settles_flat solver (mesh_tables two_slab) 3 2 M' F' k f)).
  { intros solver. refine (C91_transport_slab solver _ _ _ _ _ _ _ _ _ _ _ mirror_ready Hrun eq_refl mirror_homogeneous _ _ _ _ _ mirror_chain); cbn [two_slab ms_groups].
    - intros e e' He He'. two_cases e; two_cases e'; lra.
    - intros e He. destruct (A e He) as (_ & -> & _). rewrite !rsum_first by lia. rewrite rsum_empty by lia. cbn [Z.add Pos.add]. two_cases e; lra.
    - intros e He. two_cases e; lra.
    - intros e He. two_cases e; lra.
    - intros e He. destruct (A e He) as (_ & _ & ->). two_cases e; lra. }
  destruct (proj1 (T (fun _ => fun b => b))) as (s' & X'). destruct (proj2 (T (fun _ => s')) X') as (k' & f' & Sf').
  pose proof Sf' as (_ & _ & _ & _ & U'). destruct (U' _ _ mirror_infinite) as (<- & _).
  exists (fun _ => s), M, F, (fun _ => s'), sc, g, g', c, M', F', f, f'. auto.
Qed.

(* one group: 2 neutrons a fission, fission 1, total 1, scattering 1/2: k = 4 *)
Example C91_one_group_met : exists solver sc g g' check M F f,
  transport_run E3 Ki3 exp sqrt (three SLAB) (ex_solver 1 1 FORWARD) sc g g' check M F /\
  settles_flat solver (mesh_tables (three SLAB)) 3 1 M F 4 f.
Proof.
  pose proof (three_ready SLAB 1 1 FORWARD ltac:(discriminate)) as H.
  destruct (C55_transport_defined E3 Ki3 exp sqrt _ _ _ H) as (sc & g & g' & c & M & F & Hrun).
  assert (T : forall i, (0 <= i < 3)%Z -> let d := mesh_tables (three SLAB) in ttot d 0 i = 1 /\ tsc d 0 0 i = 1 / 2 /\ tfis d 0 i = 1 /\ tni d 0 i = 2 /\ tchi d 0 i = 1).
  { intros i Hi d. change d with (mesh_tables ex_slab). destruct (ex_slab_tables i Hi) as (_ & A & B & C & D & E & _). auto. }
  destruct (T 0%Z ltac:(lia)) as (T0 & S0 & F0 & N0 & X0).
  assert (Hh : homogeneous (mesh_tables (three SLAB)) 1 3).
  { intros e m He Hm. assert (e = 0)%Z as -> by lia. destruct (T m Hm) as (T1 & S1 & F1 & N1 & X1). repeat split; try congruence.
    intros e' He'. assert (e' = 0)%Z as -> by lia. congruence. }
  assert (K : forall solver, (exists solve, exact_solver M solve) /\ (exact_solver M (solver M) -> exists k f, settles_flat solver (mesh_tables (three SLAB)) 3 1 M F k f)).
  { intros solver. refine (C91_transport_slab solver _ _ _ _ _ _ _ _ _ _ _ H Hrun eq_refl Hh _ _ _ _ _ _); cbn [three ms_groups].
    - intros e e' He He'. assert (e = 0)%Z as -> by lia. assert (e' = 0)%Z as -> by lia. rewrite S0. lra.
    - intros e He. assert (e = 0)%Z as -> by lia. rewrite T0. pose proof (rsum_one 0 (fun e' => tsc (mesh_tables (three SLAB)) 0 e' 0)) as Q. cbn [Z.add] in Q. rewrite Q, S0. lra.
    - intros e He. assert (e = 0)%Z as -> by lia. rewrite S0. lra.
    - intros e He. assert (e = 0)%Z as -> by lia. rewrite X0. lra.
    - intros e He. assert (e = 0)%Z as -> by lia. rewrite N0, F0. lra.
    - split.
      + exists 0%Z. split; exists 0%Z; (split; [cbn; lia|]); (split; [cbn; lia|]); rewrite ?F0, ?N0, ?X0; lra.
      + intros e0 m0 m (He0 & _ & _) (_ & e & He & Hm & _). cbn in He0. assert (e0 = 0)%Z as -> by lia. exists 0%Z. split; [constructor|].
        cbn in Hm. destruct (T m Hm) as (_ & _ & A & B & _). split; [cbn; lia|]. split; [exact Hm|]. rewrite A, B. lra. }
  destruct (proj1 (K (fun _ => fun b => b))) as (s & Hs). destruct (proj2 (K (fun _ => s)) Hs) as (k & f & S).
  pose proof (C91_one_group _ _ _ _ _ _ _ S X0) as Q. rewrite T0, S0, F0, N0 in Q. assert (k = 4) as -> by (rewrite Q; field).
  exists (fun _ => s), sc, g, g', c, M, F, f. auto.
Qed.
