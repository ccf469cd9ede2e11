(* Property theorems C93: the factor shown in the log against the factor of the reactor.
   [power], [pi_change] (ProofsEigen.v) are the iterates of the source iteration and the
   relative change of the factor, stated apart from the model's loop (C23). *)
From Coq Require Import String ZArith List Bool Lia Arith Reals Lra.
From Verif Require Import Base BaseLemmas NumR LinAlg Blocks PowerMethod ModelNumTools ModelEigen ModelMesh
  ModelReactor ModelDiffusion ModelHeat ModelSpectrum ModelKinetics ModelOutput ModelCalculation ModelLog ProofsFrame ProofsReport PropsReport
  ProofsSpectrum ProofsSpectrumR ProofsEigen ProofsMesh ProofsDiffusion ProofsDiffusionR Kernels PropsDiffusion PropsSpectrum PropsSpectrumB
  PropsEigen ProofsConverge ProofsConvergeD ProofsConvergeT PropsConverge ProofsInfinite PropsInfinite ProofsReactivity PropsReactivity
  PropsCalculation ProofsHeatLoop ProofsUncoupled PropsUncoupled.
Import ListNotations.
Local Open Scope string_scope.

Section Logged.
Local Open Scope Z_scope.
Context {T : Type} {N : Num T}.
Variable fmt : T -> string.
Variable zfmt : Z -> string.
Variable thr : TraceLevel.
Variable mpi : T.
Variable solver : mat T -> vec T -> vec T.
Variable sort : list (T * vec T) -> list (T * vec T).
Variable eig : mat T -> mat T -> vec (T * T) * mat (T * T).
Variable croots : list T -> list (T * T).
Variables expint3 bickley3f nexp nsqrt : T -> T.
Variable to_unsigned : T -> res Z.
Let run := problemSolve mpi solver sort eig croots expint3 bickley3f nexp nsqrt to_unsigned.
Let lines := logLines fmt zfmt thr.

Lemma setNewHeatSource_fwd vol e c er (r r' : reactor T) : setNewHeatSource mpi vol e c er r = Ok r' -> rx_fwd r' = er_eigenvalues er.
Proof.
  unfold setNewHeatSource. intros H. destruct (bind_ok_inv _ _ _ H) as (t & _ & H1). destruct (bind_ok_inv _ _ _ H1) as (ms & _ & H2).
  cbn zeta in H2. destruct (bind_ok_inv _ _ _ H2) as (p & _ & H3). destruct (bind_ok_inv _ _ _ H3) as (vm & _ & H4).
  destruct (negb (vlen p =? vlen vm)); [discriminate|]. destruct (bind_ok_inv _ _ _ H4) as (ms' & E & H5). injection H5 as <-. reflexivity.
Qed.
Lemma setAdjointModes_adj e c er (r r' : reactor T) : setAdjointModes e c er r = Ok r' -> rx_adj r' = er_eigenvalues er.
Proof.
  unfold setAdjointModes. intros H. destruct (bind_ok_inv _ _ _ H) as (t & _ & H1). destruct (bind_ok_inv _ _ _ H1) as (ms & _ & H2). injection H2 as <-. reflexivity.
Qed.

(* the system a solver sets up *)
Definition system_of (sd : solverData T) (ms : mesh T) (M F : mat T) : Prop :=
  match sd_kind sd with
  | DIFFUSION => diffusionSystem mpi ms sd = Ok (M, F)
  | TRANSPORT => exists x, spectrumSystem mpi expint3 bickley3f nexp nsqrt ms sd = Ok (x, M, F)
  | _ => False
  end.

(* the first line of the log of a calculation of the fundamental mode shows the factor
   on which the source iteration stopped *)
Theorem C93_logged o pk sd r oc : run o pk [sd] r = Ok oc ->
  sd_kind sd = TRANSPORT \/ sd_kind sd = DIFFUSION /\ sd_dir sd <> DirUNDEFINED -> sd_eig sd = FUNDAMENTAL ->
  exists M F its er rest, system_of sd (rx_mesh r) M F /\
    sourceIteration solver M F (sd_max sd) (sd_acc sd) (sd_dir sd) = Ok (its, er) /\
    lines (oc_log oc) = ("Fundamental K-factor: " ++ fmt (er_k er))%string :: rest.
Proof.
  intros H Hk He.
  assert (Ha : sd_kind sd <> ADS) by (destruct Hk as [-> | [-> _]]; discriminate).
  assert (Hk' : sd_kind sd <> KINETICS) by (destruct Hk as [-> | [-> _]]; discriminate).
  pose proof (C83_single_report fmt zfmt thr mpi solver sort eig croots expint3 bickley3f nexp nsqrt to_unsigned o pk sd r oc H Ha Hk') as L.
  fold lines in L. rewrite L. clear L. unfold run, problemSolve in H.
  assert (S : singleCalculation mpi solver sort eig croots expint3 bickley3f nexp nsqrt o pk sd r = Ok oc) by (destruct (sd_kind sd); try exact H; congruence).
  clear H Ha Hk'. unfold singleCalculation in S. destruct (bind_ok_inv _ _ _ S) as ([old r1] & E1 & S0).
  destruct (bind_ok_inv _ _ _ S0) as (kl & _ & S1). destruct (bind_ok_inv _ _ _ S1) as (a & _ & S2).
  destruct (bind_ok_inv _ _ _ S2) as (b & _ & S3). destruct (bind_ok_inv _ _ _ S3) as (p & _ & S4). injection S4 as <-. cbn [oc_reactor].
  unfold solve1 in E1. unfold modes, results, system_of.
  assert (G : forall M F er, solveEigen solver sort eig M F sd = Ok er ->
    exists its, sourceIteration solver M F (sd_max sd) (sd_acc sd) (sd_dir sd) = Ok (its, er) /\ er_eigenvalues er = [er_k er]).
  { intros M F er E. unfold solveEigen in E. rewrite He in E. destruct (bind_ok_inv _ _ _ E) as ([its er'] & E2 & E3). cbn [snd] in E3. injection E3 as <-.
    exists its. split; [exact E2|]. unfold sourceIteration in E2. destruct (bind_ok_inv _ _ _ E2) as (w & _ & E4).
    destruct (negb (mrows M * mcols M =? mrows F * mcols F)); [discriminate|]. destruct (bind_ok_inv _ _ _ E4) as ([[[i f] k]|] & _ & E5); [|discriminate].
    injection E5 as _ <-. reflexivity. }
  destruct Hk as [Hk | [Hk Hd]]; rewrite Hk in E1 |- *.
  - unfold spectrumSolve in E1. destruct (bind_ok_inv _ _ _ E1) as (o' & _ & H1). destruct (bind_ok_inv _ _ _ H1) as ([[x M] F] & Es & H2).
    destruct (bind_ok_inv _ _ _ H2) as (v & _ & H3). destruct (bind_ok_inv _ _ _ H3) as (er & Ee & H4).
    destruct (bind_ok_inv _ _ _ H4) as (r2 & E & H5). injection H5 as _ <-. destruct (G _ _ _ Ee) as (its & Ei & Ev).
    apply setNewHeatSource_fwd in E. rewrite E, Ev. exists M, F, its, er. cbn [hd modesReport zlen length Z.of_nat Z.ltb Z.compare app].
    eexists. split; [exists x; exact Es|]. split; [exact Ei|]. reflexivity.
  - unfold diffusionSolve in E1. destruct (bind_ok_inv _ _ _ E1) as (o' & _ & H1). destruct (bind_ok_inv _ _ _ H1) as (v & _ & H2).
    destruct (bind_ok_inv _ _ _ H2) as ([M F] & Es & H3). destruct (bind_ok_inv _ _ _ H3) as (er & Ee & H4). destruct (G _ _ _ Ee) as (its & Ei & Ev).
    destruct (sd_dir sd); [congruence| |].
    + destruct (bind_ok_inv _ _ _ H4) as (r2 & E & H5). injection H5 as _ <-. apply setNewHeatSource_fwd in E. rewrite E, Ev. exists M, F, its, er.
      eexists. split; [exact Es|]. split; [exact Ei|]. reflexivity.
    + destruct (bind_ok_inv _ _ _ H4) as (r2 & E & H5). injection H5 as _ <-. apply setAdjointModes_adj in E. rewrite E, Ev. exists M, F, its, er.
      eexists. split; [exact Es|]. split; [exact Ei|]. reflexivity.
Qed.
End Logged.
Print Assumptions C93_logged.

Local Open Scope R_scope.

(* the positive ones among finitely many numbers have a positive lower bound *)
Lemma positive_floor (c : nat -> R) n : (forall i, 0 <= c i) -> exists a, 0 < a /\ forall i, (i < n)%nat -> c i < a -> c i = 0.
Proof.
  intros Hc. induction n as [|n (a & Ha & H)]; [exists 1; split; [lra|lia]|].
  destruct (Hc n) as [P | P].
  - exists (Rmin a (c n)). split; [apply Rmin_glb_lt; assumption|]. intros i Hi L.
    pose proof (Rmin_l a (c n)). pose proof (Rmin_r a (c n)). destruct (Nat.eq_dec i n) as [-> | Hne]; [lra|]. apply H; [lia|lra].
  - exists a. split; [exact Ha|]. intros i Hi L. destruct (Nat.eq_dec i n) as [-> | Hne]; [auto|]. apply H; [lia|lra].
Qed.

Lemma settles_accuracy solver (M F : mat R) size k phi eps : (0 <= size)%Z -> mrows M = size -> mcols M = size -> mrows F = size -> mcols F = size ->
  exact_solver M (solver M) -> settles solver M F k phi -> 0 < eps ->
  exists acc0, 0 < acc0 /\ forall acc max dir its er, acc < acc0 -> sourceIteration solver M F max acc dir = Ok (its, er) ->
    pi_change (solver M) F size (Z.to_nat (its - 1)) = 0 \/
    (Rabs (er_k er - k) < eps /\ forall i, (0 <= i < size)%Z -> Rabs (vat (er_flux er) i - vat phi i) < eps).
Proof.
  intros Hs R1 C1 R2 C2 Hex (_ & _ & _ & _ & _ & (C & rho & HC & Hrho & Herr)) Heps.
  assert (Hlen : forall b, vlen b = size -> vlen (solver M b) = size) by (intros b Hb; rewrite <- C1; apply Hex; congruence).
  destruct (pow_lt_1_zero rho ltac:(rewrite Rabs_pos_eq; lra) (eps / (C + 1)) ltac:(apply Rdiv_lt_0_compat; lra)) as (n & Hn).
  assert (Pc : forall i, 0 <= pi_change (solver M) F size i) by (intros; apply Rabs_pos).
  destruct (positive_floor (pi_change (solver M) F size) n Pc) as (a & Ha & Hf).
  exists a. split; [exact Ha|]. intros acc max dir its er Hacc E.
  destruct (sourceIteration_spec solver M F size max acc dir Hs R1 C1 R2 C2 Hlen) as [(j & Hj & Hc & _ & E') | [_ E']]; [|congruence].
  rewrite E in E'. assert (its = Z.of_nat (S j)) as -> by congruence. replace (Z.to_nat (Z.of_nat (S j) - 1)) with j by lia.
  rnum. apply Rltb_true in Hc. destruct (le_lt_dec n (S j)) as [Hle | Hlt].
  - right. destruct (Herr _ _ _ _ _ E) as [Hk Hp]. rewrite Nat2Z.id in Hk, Hp. specialize (Hn (S j) Hle). rewrite Rabs_pos_eq in Hn by (apply pow_le; lra).
    assert (Q : C * rho ^ S j < eps).
    { apply Rle_lt_trans with ((C + 1) * rho ^ S j); [pose proof (pow_le rho (S j) ltac:(lra)); nra|].
      apply Rlt_le_trans with ((C + 1) * (eps / (C + 1))); [apply Rmult_lt_compat_l; lra|]. right. field. lra. }
    split; [lra|]. intros i Hi. specialize (Hp i ltac:(lia)). lra.
  - left. apply Hf; [lia|]. lra.
Qed.

(* the solver of an input with other accuracy and number of iterations *)
Definition asked (sd : solverData R) (acc : R) (max : Z) : solverData R :=
  mkSolverData (sd_kind sd) acc max (sd_relax sd) (sd_albedo sd) (sd_heatbc sd) (sd_energies sd) (sd_dir sd) (sd_eig sd).

Section Accuracy.
Variable fmt : R -> string.
Variable zfmt : Z -> string.
Variable thr : TraceLevel.
Variable solver : mat R -> vec R -> vec R.
Variable sort : list (R * vec R) -> list (R * vec R).
Variable eig : mat R -> mat R -> vec (R * R) * mat (R * R).
Variable croots : list R -> list (R * R).
Variables expint3 bickley3f nexp nsqrt : R -> R.
Variable to_unsigned : R -> res Z.
Let run := problemSolve PI solver sort eig croots expint3 bickley3f nexp nsqrt to_unsigned.
Let lines := logLines fmt zfmt thr.

(* Asking for a small enough accuracy makes the factor in the log as close as wished to
   the factor of the reactor, unless two factors in a row happen to be equal.  That
   exception is real: C93_accuracy_refuted. *)
Theorem C93_accuracy_partial r sd d aL aR :
  diffusion_case (rx_mesh r) sd d aL aR -> sd_kind sd = DIFFUSION -> sd_dir sd = FORWARD -> sd_eig sd = FUNDAMENTAL ->
  chain_reaction (rx_mesh r) sd d ->
  exists M F, diffusionSystem PI (rx_mesh r) sd = Ok (M, F) /\ (exists solve, exact_solver M solve) /\
  (exact_solver M (solver M) -> exists k phi, mode M F k phi /\
    (forall k' phi', mode M F k' phi' -> k' = k) /\
    forall eps, 0 < eps -> exists acc0, 0 < acc0 /\
      forall acc max o pk oc, acc < acc0 -> run o pk [asked sd acc max] r = Ok oc ->
        exists its x rest, lines (oc_log oc) = ("Fundamental K-factor: " ++ fmt x)%string :: rest /\
          (exists flux, sourceIteration solver M F max acc FORWARD = Ok (Z.of_nat (S its), er_single flux x FORWARD)) /\
          (pi_change (solver M) F (ms_cells (rx_mesh r) * sd_energies sd) its = 0 \/ Rabs (x - k) < eps)).
Proof.
  intros D Hk Hdir He [Hs Hr]. destruct (C86_diffusion solver _ _ _ _ _ D Hdir Hs Hr) as (M & F & E & Hex & Sx). exists M, F. split; [exact E|]. split; [exact Hex|].
  intros X. destruct (Sx X) as (k & phi & St). exists k, phi. split; [apply St|]. split.
  { destruct St as (_ & _ & _ & U & _). intros k' phi' Hm. apply (U k' phi' Hm). }
  intros eps Heps.
  destruct D as [Hn Hen Hdata Hal HaL HaR HD Hx HS HS1 HV Hsc Habs Hchi Hfis].
  destruct (system_bl (rx_mesh r) sd d aL aR Hn Hen Hdata Hal HaL ltac:(congruence)) as (M' & F' & E' & HM & HF). rewrite E in E'. injection E' as <- <-.
  pose proof HM as (HMr & HMc & _). pose proof HF as (HFr & HFc & _).
  assert (Hsz : (0 <= ms_cells (rx_mesh r) * sd_energies sd)%Z) by nia.
  assert (Hlen : forall b, vlen b = (ms_cells (rx_mesh r) * sd_energies sd)%Z -> vlen (solver M b) = (ms_cells (rx_mesh r) * sd_energies sd)%Z) by (intros b Hb; transitivity (mcols M); [apply X; congruence|exact HMc]).
  destruct (settles_accuracy solver M F _ k phi eps Hsz HMr HMc HFr HFc X St Heps) as (a & Ha & G). exists a. split; [exact Ha|].
  intros acc max o pk oc Hacc Hrun.
  assert (Hu : sd_dir (asked sd acc max) <> DirUNDEFINED) by (cbn [asked sd_dir]; rewrite Hdir; discriminate).
  destruct (C93_logged fmt zfmt thr PI solver sort eig croots expint3 bickley3f nexp nsqrt to_unsigned o pk (asked sd acc max) r oc Hrun
    (or_intror (conj Hk Hu)) He) as (M' & F' & its & er & rest & Sy & Ei & L).
  unfold system_of in Sy. cbn [asked sd_kind] in Sy. rewrite Hk in Sy.
  change (diffusionSystem PI (rx_mesh r) (asked sd acc max)) with (diffusionSystem PI (rx_mesh r) sd) in Sy. rewrite E in Sy. injection Sy as <- <-.
  cbn [asked sd_max sd_acc sd_dir] in Ei. rewrite Hdir in Ei.
  pose proof (sourceIteration_spec solver M F _ max acc FORWARD Hsz HMr HMc HFr HFc Hlen) as [(j & _ & _ & _ & Q) | [_ Q]]; [|rewrite Ei in Q; discriminate].
  pose proof (G _ _ _ _ _ Hacc Ei) as G'. rewrite Ei in Q.
  assert (Q1 : its = Z.of_nat (S j)) by congruence. exists j, (er_k er), rest. split; [exact L|]. split.
  - eexists. rewrite Ei, Q. f_equal. f_equal. apply (f_equal (fun z => match z with Ok p => er_k (snd p) | _ => 0 end)) in Q. cbn [snd er_k er_single] in Q. rewrite Q. reflexivity.
  - rewrite Q1 in G'. replace (Z.to_nat (Z.of_nat (S j) - 1)) with j in G' by lia. destruct G' as [G' | [G' _]]; [left; exact G'|right; exact G'].
Qed.
End Accuracy.
Print Assumptions C93_accuracy_partial.

(* The hypotheses are met by a reactor whose calculation ends. *)
Example C93_met : exists solver oc M F, exact solver /\
  problemSolve PI solver (fun l => l) no_eig (fun _ => []) (fun x => x) (fun x => x) (fun x => x) (fun x => x) (fun _ => Ok 0%Z)
    newOutput [] [asked hot_diff (1 / 1000) 100] hot_reactor = Ok oc /\
  diffusion_case hot_slab hot_diff (mesh_tables hot_slab) 1 1 /\ chain_reaction hot_slab hot_diff (mesh_tables hot_slab) /\
  diffusionSystem PI hot_slab hot_diff = Ok (M, F) /\ exact_solver M (solver M).
Proof.
  destruct PropsHeat.exact_exists as (solver & He). exists solver.
  destruct (hot_fluxes solver He hot_reactor (same_reactor_refl _)) as (oc & E & _). exists oc.
  assert (Tb : forall m, (0 <= m < 3)%Z -> let d := mesh_tables hot_slab in
    tD d 0 m = 1 /\ ttot d 0 m = 2 /\ tsc d 0 0 m = 1 /\ tfis d 0 m = 1 /\ tni d 0 m = 2 /\ tchi d 0 m = 1 /\
    tdx d m = 1 /\ tS d m = 1 /\ tS d (m + 1) = 1 /\ tV d m = 1) by (intros m Hm; exact (hot_tables hot_slab (proj1 (same_reactor_refl hot_reactor)) m Hm)).
  assert (Ta : forall k, (0 <= k <= 3)%Z -> tS (mesh_tables hot_slab) k = 1).
  { intros k Hk. destruct (Z.eq_dec k 3) as [-> | Hne].
    - destruct (Tb 2%Z ltac:(lia)) as (_ & _ & _ & _ & _ & _ & _ & _ & B & _). exact B.
    - destruct (Tb k ltac:(lia)) as (_ & _ & _ & _ & _ & _ & _ & B & _). exact B. }
  assert (S1 : forall h, rsum 0 1 h = h 0%Z) by (intros h; exact (rsum_one 0 h)).
  assert (D : diffusion_case hot_slab hot_diff (mesh_tables hot_slab) 1 1).
  { split; cbn [hot_slab hot_diff ms_cells sd_energies]; try lia; try lra.
    - exact (ready_data hot_slab hot_ready).
    - split; reflexivity.
    - intros e m Hee Hm. assert (e = 0)%Z as -> by lia. destruct (Tb m Hm) as (-> & _). lra.
    - intros m Hm. destruct (Tb m Hm) as (_ & _ & _ & _ & _ & _ & -> & _). lra.
    - intros k Hk. rewrite Ta by exact Hk. lra.
    - intros k Hk. rewrite Ta by lia. lra.
    - intros m Hm. destruct (Tb m Hm) as (_ & _ & _ & _ & _ & _ & _ & _ & _ & ->). lra.
    - intros e e' m Hee He' Hm. assert (e = 0)%Z as -> by lia. assert (e' = 0)%Z as -> by lia. destruct (Tb m Hm) as (_ & _ & -> & _). lra.
    - intros e m Hee Hm. assert (e = 0)%Z as -> by lia. rewrite S1. destruct (Tb m Hm) as (_ & -> & -> & _). lra.
    - intros e m Hee Hm. assert (e = 0)%Z as -> by lia. destruct (Tb m Hm) as (_ & _ & _ & _ & _ & -> & _). lra.
    - intros e m Hee Hm. assert (e = 0)%Z as -> by lia. destruct (Tb m Hm) as (_ & _ & _ & -> & -> & _). lra. }
  assert (Hf : forall m, (0 <= m < 3)%Z -> emits hot_slab hot_diff (mesh_tables hot_slab) 0 m /\ fissions hot_slab hot_diff (mesh_tables hot_slab) 0 m).
  { intros m Hm. destruct (Tb m Hm) as (_ & _ & _ & A & B & C & _). unfold emits, fissions. cbn [hot_slab hot_diff ms_cells sd_energies]. rewrite A, B, C.
    repeat split; try lia; lra. }
  assert (Hch : chain_reaction hot_slab hot_diff (mesh_tables hot_slab)).
  { split.
    - exists 0%Z. destruct (Hf 0%Z ltac:(lia)). split; exists 0%Z; assumption.
    - intros e0 m0 m (Hee & _) ((e1 & _ & Hm & _) & _). cbn in Hee, Hm. assert (e0 = 0)%Z as -> by lia. exists 0%Z. split; [constructor|apply Hf; auto]. }
  destruct (C86_diffusion solver _ _ _ _ _ D eq_refl (proj1 Hch) (proj2 Hch)) as (M & F & EMF & _). exists M, F.
  split; [exact He|]. split; [exact E|]. split; [exact D|]. split; [exact Hch|]. split; [exact EMF|].
  destruct D as [Hn Hen Hdata Hal HaL HaR HD Hx HS HS1 HV Hsc Habs Hchi Hfis].
  destruct (loss_monotone _ _ _ 1 1 Hn Hen Hdata Hal HaL HaR HD Hx eq_refl HS HV Hsc Habs) as (M1 & F1 & E1 & Hmon). rewrite EMF in E1. injection E1 as <- <-.
  destruct (system_bl _ _ _ 1 1 Hn Hen Hdata Hal HaL ltac:(discriminate)) as (M' & F' & E' & HM & HF). rewrite EMF in E'. injection E' as <- <-.
  pose proof HM as (HMr & HMc & _).
  change (ms_cells hot_slab * sd_energies hot_diff)%Z with 3%Z in *.
  intros b Hb. assert (Hb3 : vlen b = 3%Z) by congruence. destruct He as [Hfit Hsol].
  assert (L : vlen (solver M b) = 3%Z) by (rewrite <- Hb3; apply Hfit; congruence).
  split; [congruence|]. split; [transitivity (mrows M); [reflexivity|congruence]|]. change (vlen (mvmul M (solver M b))) with (mrows M). rewrite HMr. intros i Hi.
  rewrite <- app_vat with (size := 3%Z) by exact HMc. apply Hsol; [repeat split; auto|exact Hb3|apply monotone_injective, Hmon|exact Hi].
Qed.

(* Every homogeneous reactor behind reflecting boundaries whose cells have the volume
   1 / removal is reported with the factor one, after one iteration, whatever its
   fission cross sections and the accuracy asked for. *)
Theorem C93_unit_cells solver sort eig ms sd d M F :
  diffusion_case ms sd d 1 1 -> sd_dir sd = FORWARD -> sd_eig sd = FUNDAMENTAL -> 0 < sd_acc sd -> (0 < sd_max sd)%Z ->
  let n := ms_cells ms in let en := sd_energies sd in
  homogeneous d en n -> (exists m, fissile ms sd d m) ->
  (forall e m, (0 <= e < en)%Z -> (0 <= m < n)%Z -> tV d m * (ttot d e 0 - rsum 0 en (fun e' => tsc d e' e 0)) = 1) ->
  diffusionSystem PI ms sd = Ok (M, F) -> exact_solver M (solver M) ->
  exists er, solveEigen solver sort eig M F sd = Ok er /\ er_k er = 1.
Proof.
  intros D Hdir He Hacc Hmax n en Hh Hsome Hunit E X. pose proof D as [Hn Hen Hdata Hal HaL HaR HD Hx HS HS1 HV Hsc Habs Hchi Hfis].
  destruct (system_bl ms sd d 1 1 Hn Hen Hdata Hal HaL ltac:(congruence)) as (M' & F' & E' & HM & HF). rewrite E in E'. injection E' as <- <-.
  pose proof HM as (HMr & HMc & _). pose proof HF as (HFr & HFc & _). fold n en in HMr, HMc, HFr, HFc, Hn, Hen, HV.
  destruct (loss_monotone ms sd d 1 1 Hn Hen Hdata Hal HaL HaR HD Hx Hdir HS HV Hsc Habs) as (M1 & F1 & E1 & Hmon). rewrite E in E1. injection E1 as <- <-. fold n en in Hmon.
  destruct Hsome as (m0 & (e0 & He0 & Hm0 & Hc0) & (e1 & He1 & _ & Hf1)). fold n in Hm0. fold en in He0, He1.
  assert (Hsz : (0 < n * en)%Z) by nia.
  assert (Hlen : forall b, vlen b = (n * en)%Z -> vlen (solver M b) = (n * en)%Z) by (intros b Hb; transitivity (mcols M); [apply X; congruence|exact HMc]).
  assert (Ones : forall i, vat (vones (N := NumR) (n * en)) i = 1) by reflexivity.
  (* the loss operator maps ones to ones *)
  assert (HM1 : forall i, (0 <= i < n * en)%Z -> app (n * en) (mat_at M) (fun _ => 1) i = 1).
  { intros i Hi. destruct (idx_decode n en i ltac:(lia) Hi) as (e & m & Hei & Hm & ->).
    change (fun _ : Z => 1) with (vat (mkvec (n * en) (fun _ : Z => 1))). rewrite app_vat by exact HMc.
    rewrite (loss_row_flux ms sd d M F D Hdir E Hh (mkvec (n * en) (fun _ => 1)) (fun _ _ => 0) (fun _ _ => 1)); [|repeat split; intros; unfold phi_of; cbn [vat]; unfold Rdiv; ring|exact Hei|exact Hm].
    fold n en. cbn [vat]. rewrite (rsum_ext 0 en (fun e' => tsc d e' e 0 * 1) (fun e' => tsc d e' e 0)) by (intros; ring). rewrite Rmult_1_r, (Hunit e m Hei Hm). ring. }
  assert (Hone : forall i, (0 <= i < n * en)%Z -> vat (solver M (vones (n * en))) i = 1).
  { destruct (solvable_unique (n * en) (mat_at M) (monotone_injective _ _ Hmon) (fun _ => 1)) as (x & _ & U). intros i Hi. rewrite (U (vat (solver M (vones (n * en))))); [symmetry; apply (U (fun _ => 1)); auto| |exact Hi].
    intros l Hl. rewrite app_vat by exact HMc. destruct (X (vones (n * en)) ltac:(rewrite HMr; reflexivity)) as [_ [_ Q]]. rewrite Q by (change (vlen (mvmul M (solver M (vones (n * en))))) with (mrows M); lia). apply Ones. }
  assert (Hdot : vdot (mvmul F (vones (n * en))) (mvmul F (vones (n * en))) <> 0).
  { apply Rgt_not_eq. set (q := mvmul F (vones (n * en))) in *. change (0 < rsum 0 (mrows F) (fun i => vat q i * vat q i)). rewrite HFr.
    assert (P : 0 < vat q (m0 + e0 * n)%Z).
    { unfold q. rewrite (fission_row ms sd d M F D Hdir E Hh) by assumption. fold n en. apply Rmult_lt_0_compat; [apply HV; exact Hm0|].
      destruct (Hh e0 m0 He0 Hm0) as (_ & Ec & _). destruct (Hh e1 m0 He1 Hm0) as (_ & _ & Ef & _). rewrite <- Ec. apply Rmult_lt_0_compat; [exact Hc0|].
      apply Rlt_le_trans with (tni d e1 0 * tfis d e1 0 * vat (vones (N := NumR) (n * en)) (m0 + e1 * n)%Z); [rewrite Ones, <- Ef; lra|]. unfold fission_neutrons.
      apply (rsum_term_le 0 en (fun e => tni d e 0 * tfis d e 0 * vat (vones (n * en)) (m0 + e * n)%Z)); [|exact He1].
      intros e Hee. rewrite Ones, Rmult_1_r. apply Hfis; [exact Hee|fold n; lia]. }
    apply Rlt_le_trans with (vat q (m0 + e0 * n)%Z * vat q (m0 + e0 * n)%Z); [apply Rmult_lt_0_compat; exact P|].
    apply (rsum_term_le 0 (n * en) (fun i => vat q i * vat q i)); [intros; nra|apply idx_range; assumption]. }
  destruct (C24_flat_start solver M F (n * en) (sd_max sd) (sd_acc sd) (sd_dir sd) Hsz HMr HMc HFr HFc Hlen Hone Hdot Hmax Hacc) as (flux & Ei & _).
  exists (er_single flux 1 (sd_dir sd)). split; [|reflexivity]. unfold solveEigen. rewrite He, Ei. reflexivity.
Qed.
Print Assumptions C93_unit_cells.

(* one group, cells of 1 cm, total cross section 3/2, scattering 1/2, two neutrons from
   each of y fissions *)
Definition plain_material (y : R) : material R :=
  mkMaterial "m" 1 20 0 (mzeros 0 0) (mzeros 0 0) (vzeros 0) None [[3 / 2]] [[y]] [[1]] [[1 / 2]] [[2]] [[1]].
Definition plain (y : R) : mesh R :=
  mkMesh (mkvec 4 (fun i => IZR i / 100)) SLAB 3 1 [plain_material y; plain_material y; plain_material y] 1 1.
Definition plain_solver (acc : R) (max : Z) : solverData R := mkSolverData DIFFUSION acc max 1 [1; 1] [] 1 FORWARD FUNDAMENTAL.

Lemma plain_ready y : ready (plain y).
Proof.
  repeat split; cbn; try lia; try congruence.
  all: assert (m = 0 \/ m = 1 \/ m = 2)%Z as [->|[->| ->]] by (cbn in *; lia);
    change (Z.to_nat 1) with 1%nat; change (Z.to_nat 2) with 2%nat; cbn;
    try reflexivity; try (right; unfold zlen; cbn; lia); unfold zlen; cbn; lia.
Qed.
Lemma plain_tables y : let d := mesh_tables (plain y) in
  forall m, (0 <= m < 3)%Z -> tD d 0 m = 1 /\ ttot d 0 m = 3 / 2 /\ tsc d 0 0 m = 1 / 2 /\ tfis d 0 m = y /\ tni d 0 m = 2 /\ tchi d 0 m = 1 /\
    tdx d m = 1 /\ tS d m = 1 /\ tS d (m + 1) = 1 /\ tV d m = 1.
Proof.
  intros d m Hm.
  assert (Hc : forall c t, law_value (T := R) [c] t = c) by (intros; rewrite law_value_R; exact (eq_trans (rsum_one 0 _) (Rmult_1_r c))).
  assert (Hmat : cell_material (plain y) m = plain_material y) by (assert (m = 0 \/ m = 1 \/ m = 2)%Z as [->|[->| ->]] by lia; reflexivity).
  cbn [d mesh_tables tD ttot tsc tfis tni tchi tdx tS tV]. unfold law_at, law_at0, law_at. rewrite Hmat.
  cbn [plain_material mt_diff mt_totXS mt_scatt mt_fisXS mt_ni mt_chi mt_temp plain ms_groups ms_geom ms_bounds vat].
  change (Z.to_nat (0 + 0 * 1)) with 0%nat. change (Z.to_nat 0) with 0%nat. cbn [nth]. rewrite !Hc, plus_IZR. cbn. repeat split; lra.
Qed.
Lemma plain_area y k : (0 <= k <= 3)%Z -> tS (mesh_tables (plain y)) k = 1.
Proof.
  intros Hk. destruct (Z.eq_dec k 3) as [-> | Hne].
  - destruct (plain_tables y 2 ltac:(lia)) as (_ & _ & _ & _ & _ & _ & _ & _ & B & _). exact B.
  - destruct (plain_tables y k ltac:(lia)) as (_ & _ & _ & _ & _ & _ & _ & B & _). exact B.
Qed.
Lemma plain_case y acc max : 0 < y -> diffusion_case (plain y) (plain_solver acc max) (mesh_tables (plain y)) 1 1.
Proof.
  intros Hy. assert (S1 : forall h, rsum 0 1 h = h 0%Z) by (intros h; exact (rsum_one 0 h)).
  split; cbn [plain plain_solver ms_cells sd_energies]; try lia; try lra.
  - exact (ready_data (plain y) (plain_ready y)).
  - split; reflexivity.
  - intros e m He Hm. assert (e = 0)%Z as -> by lia. destruct (plain_tables y m Hm) as (-> & _). lra.
  - intros m Hm. destruct (plain_tables y m Hm) as (_ & _ & _ & _ & _ & _ & -> & _). lra.
  - intros k Hk. rewrite plain_area by exact Hk. lra.
  - intros k Hk. rewrite plain_area by lia. lra.
  - intros m Hm. destruct (plain_tables y m Hm) as (_ & _ & _ & _ & _ & _ & _ & _ & _ & ->). lra.
  - intros e e' m He He' Hm. assert (e = 0)%Z as -> by lia. assert (e' = 0)%Z as -> by lia. destruct (plain_tables y m Hm) as (_ & _ & -> & _). lra.
  - intros e m He Hm. assert (e = 0)%Z as -> by lia. rewrite S1. destruct (plain_tables y m Hm) as (_ & -> & -> & _). lra.
  - intros e m He Hm. assert (e = 0)%Z as -> by lia. destruct (plain_tables y m Hm) as (_ & _ & _ & _ & _ & -> & _). lra.
  - intros e m He Hm. assert (e = 0)%Z as -> by lia. destruct (plain_tables y m Hm) as (_ & _ & _ & -> & -> & _). lra.
Qed.
Lemma plain_homogeneous y : homogeneous (mesh_tables (plain y)) 1 3.
Proof.
  intros e m He Hm. assert (e = 0)%Z as -> by lia. destruct (plain_tables y m Hm) as (_ & A & B & C & D & E & _). destruct (plain_tables y 0 ltac:(lia)) as (_ & A' & B' & C' & D' & E' & _).
  repeat split; try congruence. intros e' He'. assert (e' = 0)%Z as -> by lia. congruence.
Qed.
Lemma plain_facts y acc max m : 0 < y -> (0 <= m < 3)%Z ->
  emits (plain y) (plain_solver acc max) (mesh_tables (plain y)) 0 m /\ fissions (plain y) (plain_solver acc max) (mesh_tables (plain y)) 0 m.
Proof.
  intros Hy Hm. destruct (plain_tables y m Hm) as (_ & _ & _ & A & B & C & _). unfold emits, fissions. cbn [plain plain_solver ms_cells sd_energies]. rewrite A, B, C.
  repeat split; try lia; lra.
Qed.
Lemma plain_chain y acc max : 0 < y -> chain_reaction (plain y) (plain_solver acc max) (mesh_tables (plain y)).
Proof.
  intros Hy. split.
  - exists 0%Z. destruct (plain_facts y acc max 0 Hy ltac:(lia)). split; exists 0%Z; assumption.
  - intros e0 m0 m (He & _) ((e1 & _ & Hm & _) & _). cbn in He, Hm. assert (e0 = 0)%Z as -> by lia. exists 0%Z. split; [constructor|apply plain_facts; auto].
Qed.

(* A physical reactor with the factor 2 y, for any y, is reported as exactly critical,
   whatever the accuracy. *)
Theorem C93_accuracy_refuted sort eig y acc max : 0 < y -> 0 < acc -> (0 < max)%Z ->
  diffusion_case (plain y) (plain_solver acc max) (mesh_tables (plain y)) 1 1 /\
  exists solver M F phi, diffusionSystem PI (plain y) (plain_solver acc max) = Ok (M, F) /\ exact_solver M (solver M) /\
    settles solver M F (2 * y) phi /\
    exists er, solveEigen solver sort eig M F (plain_solver acc max) = Ok er /\ er_k er = 1.
Proof.
  intros Hy Ha Hm. pose proof (plain_case y acc max Hy) as D. split; [exact D|]. pose proof (plain_homogeneous y) as Hh. pose proof (plain_chain y acc max Hy) as Hch.
  destruct (C91_diffusion (fun _ => fun b => b) _ _ _ D eq_refl Hh Hch) as (M & F & E & (s & X) & _).
  destruct (C91_diffusion (fun _ => s) _ _ _ D eq_refl Hh Hch) as (M' & F' & E' & _ & Z). rewrite E in E'. injection E' as <- <-.
  destruct (Z X) as (k & f & phi & S & Ef & I & U). destruct (plain_tables y 0 ltac:(lia)) as (_ & A & B & C & G & H & _ & _ & _ & V).
  assert (k = 2 * y) as ->.
  { rewrite (C91_one_group (fun _ => s) (mesh_tables (plain y)) 3 M F k f (ex_intro _ phi (conj S (conj Ef (conj I U)))) H), A, B, C, G. field. }
  exists (fun _ => s), M, F, phi. split; [exact E|]. split; [exact X|]. split; [exact S|].
  apply (C93_unit_cells (fun _ => s) sort eig (plain y) (plain_solver acc max) (mesh_tables (plain y)) M F D eq_refl eq_refl Ha Hm Hh (proj1 Hch)); [|exact E|exact X].
  intros e m He Hm'. cbn in He. assert (e = 0)%Z as -> by lia. destruct (plain_tables y m Hm') as (_ & _ & _ & _ & _ & _ & _ & _ & _ & ->). rewrite A.
  change (sd_energies (plain_solver acc max)) with 1%Z. pose proof (rsum_one 0 (fun e' => tsc (mesh_tables (plain y)) e' 0 0)) as Q. cbn [Z.add] in Q. rewrite Q, B. lra.
Qed.
Print Assumptions C93_accuracy_refuted.
