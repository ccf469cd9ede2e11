(* Property theorems C48 (transport), C74 and C75: power normalisation by the
   whole transport solver, invariance under a change of the unit of length, and
   the second albedo of a slab. *)
From Coq Require Import String ZArith List Bool Lia Reals Lra.
From Verif Require Import Base BaseLemmas NumR LinAlg Blocks ModelNumTools ModelEigen ModelMesh ModelReactor
  ModelDiffusion ModelSpectrum ProofsEigen ProofsMesh ProofsDiffusion ProofsDiffusionR ProofsPower ProofsSpectrum
  ProofsSpectrumR Kernels PropsDiffusion PropsPower PropsSpectrum ProofsSpectrumB PropsSpectrumB.
Import ListNotations.
Local Open Scope R_scope.

(* ---------- C48 ---------- *)

Theorem C48_spectrum_solve k3 kb ex sq solver sort eig (sd : solverData R) (r r' : reactor R) a old :
  let ms := rx_mesh r in
  transport_ready ms sd a -> (forall M b, vlen b = mrows M -> vlen (solver M b) = mrows M) ->
  sd_dir sd = FORWARD -> sd_eig sd = FUNDAMENTAL ->
  spectrumSolve PI k3 kb ex sq solver sort eig sd r = Ok (old, r') ->
  let ms' := rx_mesh r' in let rate := fission_rate ms' (stored_flux ms') in
  same_shape ms ms' /\ rx_power r' = rx_power r /\ length (rx_fwd r') = 1%nat /\
  (forall i, (0 <= i < ms_cells ms')%Z ->
     stored_heat ms' i * cell_volume ms' i = rx_power r * rate i / rsum 0 (ms_cells ms') rate) /\
  (rsum 0 (ms_cells ms') rate <> 0 -> total_power ms' = rx_power r).
Proof.
  intros ms H Hs Hd He Hok. unfold spectrumSolve in Hok.
  destruct (bind_ok_inv _ _ _ Hok) as (o & _ & H1). clear Hok.
  destruct (bind_ok_inv _ _ _ H1) as ([[c M] F] & HMF & H2). clear H1.
  destruct (bind_ok_inv _ _ _ H2) as (vol & Hv & H3). clear H2.
  destruct (bind_ok_inv _ _ _ H3) as (result & HR & H4). clear H3.
  destruct (bind_ok_inv _ _ _ H4) as (r2 & HS & H5). injection H5 as <- <-.
  assert (Hr : ready ms) by apply H. assert (Hn : (1 <= ms_cells ms)%Z) by apply H.
  assert (Hen : sd_energies sd = ms_groups ms) by apply H.
  assert (Hge : (0 <= ms_groups ms)%Z) by (destruct (ready_fissile ms Hr) as (_ & _ & _ & X & _); exact X).
  destruct (C55_transport_defined k3 kb ex sq _ _ _ H) as (sc & g & g' & c0 & M0 & F0 & Hrun).
  destruct (run_spec _ _ _ _ _ _ _ _ _ _ _ _ _ H Hrun) as (_ & _ & _ & _ & [RM [CM _]] & [RF [CF _]]).
  destruct Hrun as (_ & _ & _ & E4). fold ms in HMF. rewrite HMF in E4. injection E4 as <- <- <-.
  set (size := (ms_cells ms * ms_groups ms)%Z) in *.
  destruct (fundamental_result solver sort eig M F size sd result ltac:(nia) RM CM RF CF
    ltac:(intros b Hlb; rewrite Hs; congruence) He HR) as (k & phi & Em & Lp).
  destruct (setNewHeatSource_normalised r vol result (ready_fissile ms Hr) Hv
    ltac:(rewrite Em; unfold zlen; cbn; lia)
    ltac:(rewrite Em; intros k0 Hk0; unfold zlen in Hk0; cbn in Hk0; assert (k0 = 0)%Z as -> by lia; cbn [nth Z.to_nat snd];
          fold ms; unfold size in Lp; rewrite Lp; lia) ltac:(apply H) ltac:(apply H))
    as (r3 & E3' & Sh & HP & Hfw & _ & _ & HN).
  fold ms in E3'. rewrite <- Hen in E3'. fold ms in HS. rewrite HS in E3'. injection E3' as <-.
  split; [exact Sh|]. split; [exact HP|]. split; [rewrite Hfw; unfold er_eigenvalues; rewrite Em; reflexivity|exact HN].
Qed.
Print Assumptions C48_spectrum_solve.

(* ---------- C74 ---------- *)

(* the same body with lengths multiplied and total cross sections divided by c *)
Definition rescaled (c : R) (m1 m2 : mesh R) : Prop :=
  ms_geom m2 = ms_geom m1 /\ ms_cells m2 = ms_cells m1 /\ ms_groups m2 = ms_groups m1 /\
  (forall i, (0 <= i <= ms_cells m1)%Z -> radius m2 i = c * radius m1 i) /\
  (forall h i, (0 <= h < ms_groups m1)%Z -> (0 <= i < ms_cells m1)%Z ->
     c * ttot (mesh_tables m2) h i = ttot (mesh_tables m1) h i).

Section Rescale.
Variables (k3 kb ex sq : R -> R) (c : R) (m1 m2 : mesh R) (d1 d2 : solverData R) (a : R) (s1 s2 : specCode R).
Hypothesis H1 : transport_ready m1 d1 a.
Hypothesis H2 : transport_ready m2 d2 a.
Hypothesis C1 : code_ok m1 d1 s1.
Hypothesis C2 : code_ok m2 d2 s2.
Hypothesis Hc : 0 < c.
Hypothesis Hs : rescaled c m1 m2.
Hypothesis Hsq : forall x, sq (c ^ 2 * x) = c * sq x.
Let n := ms_cells m1.
Let en := ms_groups m1.
Let d := dimension (ms_geom m1).
Variable h : Z.
Hypothesis Hh : (0 <= h < en)%Z.

Lemma re_radius i : (0 <= i <= n)%Z -> vat (sc_radii s2) i = c * vat (sc_radii s1) i.
Proof. intros Hi. rewrite !(co_radii _ _ _ C1), !(co_radii _ _ _ C2). apply Hs, Hi. Qed.
Lemma re_width m : (0 <= m < n)%Z -> width_of s2 m = c * width_of s1 m.
Proof. intros. unfold width_of. rewrite !re_radius by lia. ring. Qed.
Lemma re_ray m k : (0 <= m < n)%Z -> ray s2 m k = c * ray s1 m k.
Proof. intros. unfold ray. rewrite re_radius, re_width by lia. ring. Qed.
Lemma re_chord m j k : (0 <= m < n)%Z -> (0 <= j < n)%Z -> chord sq s2 m j k = c * chord sq s1 m j k.
Proof.
  intros. unfold chord. rewrite re_radius, re_ray by lia. rewrite <- Hsq. f_equal. ring.
Qed.
Lemma re_sig i : (0 <= i < n)%Z -> sig_of s2 h i = sig_of s1 h i / c.
Proof.
  intros Hi. destruct Hs as (_ & En & Eg & _ & Ht). rewrite (co_sig _ _ _ C1), (co_sig _ _ _ C2) by (rewrite ?En, ?Eg; auto).
  rewrite <- (Ht h i Hh Hi). field. lra.
Qed.
Lemma re_opt m j k : (0 <= m <= j)%Z -> (j < n)%Z -> opt sq s2 h m j k = opt sq s1 h m j k.
Proof.
  intros. unfold opt. apply rsum_ext. intros l Hl. unfold seg. rewrite re_sig by lia. rewrite (re_chord m l k) by lia.
  destruct (l =? m)%Z eqn:E; [field; lra|]. rewrite (re_chord m (l - 1) k) by lia. field. lra.
Qed.
Lemma re_tb m j k : (0 <= m)%Z -> (j < n)%Z -> tb (opt sq s2) h m j k = tb (opt sq s1) h m j k.
Proof. intros. unfold tb. destruct (j <? m)%Z eqn:E; [reflexivity|]. apply re_opt; lia. Qed.
Lemma re_vol i : (0 <= i < n)%Z -> vol_of s2 i = c ^ d * vol_of s1 i.
Proof.
  intros Hi. destruct Hs as (Eg & En & _ & Hr & _). rewrite (co_volume _ _ _ C1), (co_volume _ _ _ C2) by (rewrite ?En; auto).
  cbn [mesh_tables tV]. rewrite Eg. unfold d.
  pose proof (Hr i ltac:(unfold n in *; lia)) as A. pose proof (Hr (i + 1)%Z ltac:(unfold n in *; lia)) as B. unfold radius in A, B.
  assert (A' : vat (ms_bounds m2) i = c * vat (ms_bounds m1) i) by lra.
  assert (B' : vat (ms_bounds m2) (i + 1) = c * vat (ms_bounds m1) (i + 1)) by lra.
  rewrite A', B'. destruct (ms_geom m1); cbn [body_volume dimension]; ring.
Qed.
Lemma re_pos i : (0 <= i < n)%Z -> 0 < vol_of s1 i /\ 0 < sig_of s1 h i.
Proof. intros Hi. split; [apply (vol_pos m1 d1 a s1 H1 C1); exact Hi|apply (sig_pos m1 d1 a s1 H1 C1); auto]. Qed.

Lemma re_ratio i j : (0 <= i < n)%Z -> (0 <= j < n)%Z ->
  sig_of s2 h j / sig_of s2 h i = sig_of s1 h j / sig_of s1 h i /\ vol_of s2 j / vol_of s2 i = vol_of s1 j / vol_of s1 i.
Proof.
  intros Hi Hj. destruct (re_pos i Hi). pose proof (pow_lt c d Hc). rewrite !re_sig, !re_vol by assumption.
  split; field; repeat split; lra.
Qed.

Lemma re_own i : (0 <= i < n)%Z -> own s2 h i = own s1 h i.
Proof. intros Hi. unfold own. rewrite re_width, re_sig by exact Hi. field. lra. Qed.
Lemma re_gap i j : (0 <= i <= j)%Z -> (j < n)%Z -> gap s2 h i j = gap s1 h i j.
Proof.
  intros. unfold gap. destruct (i =? j)%Z; [apply re_own; lia|]. apply rsum_ext. intros. apply re_own. lia.
Qed.
Lemma re_slab i j : (0 <= i < n)%Z -> (0 <= j < n)%Z -> slab_P k3 s2 (gap s2) h i j = slab_P k3 s1 (gap s1) h i j.
Proof.
  intros Hi Hj. assert (U : forall i j, (0 <= i <= j)%Z -> (j < n)%Z -> slab_up k3 (gap s2) h i j = slab_up k3 (gap s1) h i j).
  { clear i j Hi Hj. intros i j Hi Hj. unfold slab_up. rewrite !re_gap by lia. reflexivity. }
  unfold slab_P. destruct (i <=? j)%Z eqn:E; [apply U; lia|]. rewrite U by lia.
  destruct (re_ratio i j Hi Hj) as [-> ->]. reflexivity.
Qed.

Lemma re_omega (sph : bool) m k : (0 <= m < n)%Z ->
  omega s2 sph (ray s2) m k = (if sph then c ^ 2 else c) * omega s1 sph (ray s1) m k.
Proof. intros. unfold omega. rewrite re_width, re_ray by assumption. destruct sph; ring. Qed.
Lemma re_fac (sph : bool) i : (0 <= i < n)%Z -> d = (if sph then 3%nat else 2%nat) ->
  fac s2 sph PI h i = fac s1 sph PI h i / (if sph then c ^ 2 else c).
Proof.
  intros Hi Hd. unfold fac. rewrite re_vol, re_sig, Hd by exact Hi. destruct (re_pos i Hi).
  destruct sph; field; repeat split; lra.
Qed.
Lemma re_curved (sph : bool) i j : d = (if sph then 3%nat else 2%nat) -> (0 <= i < n)%Z -> (0 <= j < n)%Z ->
  curved_P kb ex s2 sph PI (opt sq s2) (ray s2) h i j = curved_P kb ex s1 sph PI (opt sq s1) (ray s1) h i j.
Proof.
  intros Hd Hi Hj.
  assert (Hf : 0 < if sph then c ^ 2 else c) by (destruct sph; [apply pow_lt|]; exact Hc).
  assert (E1 : forall i j, (0 <= i <= j)%Z -> (j < n)%Z -> S1 kb ex s2 sph PI (opt sq s2) (ray s2) h i j = S1 kb ex s1 sph PI (opt sq s1) (ray s1) h i j).
  { clear i j Hi Hj. intros i j Hi Hj. unfold S1. apply rsum_ext. intros m Hm. unfold G1. rewrite re_fac by (auto; lia).
    rewrite (rsum_ext 0 8 _ (fun k : Z => (if sph then c ^ 2 else c) * (D1 kb ex sph (opt sq s1) h m i j k * omega s1 sph (ray s1) m k))).
    - rewrite rsum_scal. field. lra.
    - intros k Hk. rewrite re_omega by lia. unfold D1. rewrite !re_tb by lia. ring. }
  assert (E2 : forall i, (0 <= i < n)%Z -> S2 kb ex s2 sph PI (opt sq s2) (ray s2) h i = S2 kb ex s1 sph PI (opt sq s1) (ray s1) h i).
  { clear i j Hi Hj. intros i Hi. unfold S2. apply rsum_ext. intros m Hm. unfold G2. rewrite re_fac by (auto; lia).
    rewrite (rsum_ext 0 8 _ (fun k : Z => (if sph then c ^ 2 else c) * (D2 kb ex sph (opt sq s1) h m i k * omega s1 sph (ray s1) m k))).
    - rewrite rsum_scal. field. lra.
    - intros k Hk. rewrite re_omega by lia. unfold D2. rewrite !re_tb by lia. ring. }
  assert (U : forall i j, (0 <= i <= j)%Z -> (j < n)%Z ->
    curved_up kb ex s2 sph PI (opt sq s2) (ray s2) h i j = curved_up kb ex s1 sph PI (opt sq s1) (ray s1) h i j).
  { clear i j Hi Hj. intros i j Hi Hj. unfold curved_up. destruct (j =? i)%Z eqn:E; [rewrite E2 by lia|rewrite !E1 by lia]; reflexivity. }
  unfold curved_P. destruct (i <=? j)%Z eqn:E; [apply U; lia|]. rewrite U by lia.
  destruct (re_ratio i j Hi Hj) as [-> ->]. reflexivity.
Qed.

Lemma re_vacuum i j : (0 <= i < n)%Z -> (0 <= j < n)%Z -> vacuum_P k3 kb ex sq s2 h i j = vacuum_P k3 kb ex sq s1 h i j.
Proof.
  intros Hi Hj. unfold vacuum_P. rewrite (co_mesh _ _ _ C1), (co_mesh _ _ _ C2). destruct Hs as (Eg & _). rewrite Eg.
  pose proof (re_slab i j Hi Hj) as U. pose proof (fun X => re_curved false i j X Hi Hj) as V.
  pose proof (fun X => re_curved true i j X Hi Hj) as W. unfold d in V, W.
  destruct (ms_geom m1); first [reflexivity|exact U|apply V; reflexivity|apply W; reflexivity].
Qed.

Lemma re_white i j : (0 <= i < n)%Z -> (0 <= j < n)%Z ->
  white s2 (vacuum_P k3 kb ex sq s2) a h i j = white s1 (vacuum_P k3 kb ex sq s1) a h i j.
Proof.
  intros Hi Hj. pose proof (co_cells _ _ _ C1) as N1. pose proof (co_cells _ _ _ C2) as N2.
  assert (En : ms_cells m2 = n) by apply Hs. rewrite En in N2. fold n in N1.
  assert (Ee : forall i, (0 <= i < n)%Z -> esc s2 (vacuum_P k3 kb ex sq s2) h i = esc s1 (vacuum_P k3 kb ex sq s1) h i).
  { intros k Hk. unfold esc. rewrite N1, N2. f_equal. apply rsum_ext. intros. apply re_vacuum; auto. }
  assert (Hsf : 0 < sc_surface s1 /\ sc_surface s2 = c ^ (d - 1) * sc_surface s1).
  { rewrite (co_surface _ _ _ C1), (co_surface _ _ _ C2). unfold spec_surface. rewrite En.
    destruct Hs as (Eg & _ & _ & Hr & _). rewrite Eg. unfold d. assert (Hg : ms_geom m1 <> GeomUNDEFINED) by apply H1.
    pose proof (Hr n ltac:(unfold n in *; lia)) as A. unfold radius in A. fold n. rewrite A.
    pose proof (radius_out_pos m1 d1 a H1) as P. unfold radius in P. fold n in P. pose proof PI_RGT_0.
    set (r := vat (ms_bounds m1) n * 100) in *.
    destruct (ms_geom m1); [contradiction| | |]; cbn [dimension Nat.sub].
    - split; [lra|ring].
    - split; [|ring]. apply Rmult_lt_0_compat; lra.
    - split; [|ring]. apply Rmult_lt_0_compat; [|lra]. apply Rmult_lt_0_compat; [lra|apply pow_lt, P]. }
  destruct Hsf as [Sp Se]. pose proof (pow_lt c (d - 1) Hc) as Cp.
  assert (Ed : c ^ d = c * c ^ (d - 1)).
  { assert (exists k, d = S k) as [k ->].
    { unfold d. assert (Hg : ms_geom m1 <> GeomUNDEFINED) by apply H1. destruct (ms_geom m1); cbn; eauto. contradiction. }
    cbn [Nat.sub]. rewrite Nat.sub_0_r. reflexivity. }
  assert (Eb : forall i, (0 <= i < n)%Z -> back s2 (vacuum_P k3 kb ex sq s2) h i * sig_of s2 h i =
     back s1 (vacuum_P k3 kb ex sq s1) h i * sig_of s1 h i).
  { intros k Hk. unfold back. rewrite Ee, re_vol, re_sig, Se, Ed by exact Hk. field. repeat split; lra. }
  assert (Ep : pss s2 (vacuum_P k3 kb ex sq s2) h = pss s1 (vacuum_P k3 kb ex sq s1) h).
  { unfold pss. rewrite N1, N2. f_equal. apply rsum_ext. exact Eb. }
  unfold white. rewrite Ep, Ee, re_vacuum by assumption. f_equal.
  pose proof (Eb j Hj) as X. set (q := a / _).
  match goal with |- ?e * ?b * q * ?s = ?e * ?b1 * q * ?s1 =>
    replace (e * b * q * s) with (e * q * (b * s)) by ring; replace (e * b1 * q * s1) with (e * q * (b1 * s1)) by ring end.
  rewrite X. reflexivity.
Qed.
End Rescale.

(* The collision probabilities and the balance printed for each cell do not
   depend on the unit of length; sqrt satisfies the hypothesis. *)
Theorem C74_unit_of_length k3 kb ex sq c m1 m2 d1 d2 a s1 s2 g1 g2 w1 w2 check1 check2 M1 M2 F1 F2 :
  transport_ready m1 d1 a -> transport_ready m2 d2 a ->
  transport_run k3 kb ex sq m1 d1 s1 g1 w1 check1 M1 F1 -> transport_run k3 kb ex sq m2 d2 s2 g2 w2 check2 M2 F2 ->
  0 < c -> (forall x, sq (c ^ 2 * x) = c * sq x) -> rescaled c m1 m2 ->
  forall h i, (0 <= h < ms_groups m1)%Z -> (0 <= i < ms_cells m1)%Z ->
    (forall j, (0 <= j < ms_cells m1)%Z -> t3_at g2 i j h = t3_at g1 i j h /\ t3_at w2 i j h = c * t3_at w1 i j h) /\
    mat_at check2 h i = mat_at check1 h i.
Proof.
  intros H1 H2 R1 R2 Hc Hsq Hs h i Hh Hi.
  destruct (run_spec _ _ _ _ _ _ _ _ _ _ _ _ _ H1 R1) as (C1 & G1 & W1 & K1 & _).
  destruct (run_spec _ _ _ _ _ _ _ _ _ _ _ _ _ H2 R2) as (C2 & G2 & W2 & K2 & _).
  pose proof Hs as (_ & En & Eg & _ & Ht). rewrite En, Eg in *.
  split.
  - intros j Hj. split.
    + rewrite G1, G2 by auto. apply (re_vacuum k3 kb ex sq c m1 m2 d1 d2 a s1 s2); auto.
    + rewrite W1, W2 by auto. rewrite (re_white k3 kb ex sq c m1 m2 d1 d2 a s1 s2) by auto.
      rewrite <- (Ht h j Hh Hj). assert (P : 0 < ttot (mesh_tables m1) h j) by (apply H1; auto).
      rewrite <- (Ht h j Hh Hj) in P. field. split; [|lra]. intros Z. rewrite Z in P. lra.
  - rewrite K1, K2 by auto. apply rsum_ext. intros j Hj. apply (re_white k3 kb ex sq c m1 m2 d1 d2 a s1 s2); auto.
Qed.
Print Assumptions C74_unit_of_length.
Example C74_hypotheses_met : forall gk, gk <> GeomUNDEFINED ->
  transport_ready (pair gk 1 2 3) (ex_solver 1 0 FORWARD) 1 /\ transport_ready (pair gk 10 20 (3 / 10)) (ex_solver 1 0 FORWARD) 1 /\
  rescaled 10 (pair gk 1 2 3) (pair gk 10 20 (3 / 10)) /\ (forall x, sqrt (10 ^ 2 * x) = 10 * sqrt x) /\
  thickness (pair gk 1 2 3) 0 1 = 3.
Proof.
  intros gk Hg. split; [apply pair_ready; auto; lra|]. split; [apply pair_ready; auto; lra|]. split; [|split].
  - split; [reflexivity|]. split; [reflexivity|]. split; [reflexivity|]. split.
    + intros i Hi. change (ms_cells (pair gk 1 2 3)) with 2%Z in Hi.
      destruct (pair_radius gk 1 2 3) as (A0 & A1 & A2). destruct (pair_radius gk 10 20 (3 / 10)) as (B0 & B1 & B2).
      assert (i = 0 \/ i = 1 \/ i = 2)%Z as [->|[->| ->]] by lia; rewrite ?A0, ?A1, ?A2, ?B0, ?B1, ?B2; lra.
    + intros h i Hh Hi. cbn in Hh, Hi. assert (h = 0)%Z as -> by lia. rewrite !pair_tot by exact Hi. lra.
  - intros x. rewrite sqrt_mult_alt by (apply pow2_ge_0). rewrite sqrt_pow2 by lra. reflexivity.
  - unfold thickness. rewrite pair_tot by lia. cbn [mesh_tables tdx pair ms_bounds vec_of_list vat].
    cbn [Z.add Pos.add]. change (Z.to_nat 1) with 1%nat; change (Z.to_nat 2) with 2%nat. cbn [nth]. lra.
Qed.

(* ---------- C75 ---------- *)

Section SecondAlbedo.
Context {T : Type} {N : Num T}.
Lemma white_albedo ms (al al' : list T) r v t n e s g : lget al 0 = lget al' 0 ->
  whiteBoundary (mkSpecCode ms al r v t n e s) g = whiteBoundary (mkSpecCode ms al' r v t n e s) g.
Proof.
  intros H. unfold whiteBoundary, whiteGroup. cbn [sc_albedo sc_cells sc_en sc_tot sc_vol sc_surface]. rewrite H. reflexivity.
Qed.
End SecondAlbedo.

(* Only the first albedo is read, in every geometry and every number type: of
   the two values a slab takes, the one of the right face changes nothing. *)
Theorem C75_second_albedo_refuted {T : Type} {N : Num T} (mpi : T) (k3 kb ex sq : T -> T) ms (sd sd' : solverData T) :
  sd_energies sd = sd_energies sd' -> lget (sd_albedo sd) 0 = lget (sd_albedo sd') 0 ->
  spectrumSystem mpi k3 kb ex sq ms sd = spectrumSystem mpi k3 kb ex sq ms sd'.
Proof.
  intros He Ha. unfold spectrumSystem, newSpecCode. rewrite He.
  destruct (ms_geom ms) eqn:G; try reflexivity;
  (destruct (getVolumes mpi ms "cm") as [v| | |]; cbn [bind]; try reflexivity;
   destruct (getTotalXSs ms) as [t| | |]; cbn [bind]; try reflexivity;
   destruct (getExternalSurface mpi ms "cm") as [s| | |]; cbn [bind]; try reflexivity;
   unfold vacuumCPs; cbn [sc_mesh]; rewrite G).
  - match goal with |- bind ?x _ = bind ?y _ => change y with x; destruct x as [g| | |] end; cbn [bind]; try reflexivity.
    rewrite (white_albedo _ _ _ _ _ _ _ _ _ _ Ha). reflexivity.
  - match goal with |- bind ?x _ = bind ?y _ => change y with x; destruct x as [g| | |] end; cbn [bind]; try reflexivity.
    rewrite (white_albedo _ _ _ _ _ _ _ _ _ _ Ha). reflexivity.
  - match goal with |- bind ?x _ = bind ?y _ => change y with x; destruct x as [g| | |] end; cbn [bind]; try reflexivity.
    rewrite (white_albedo _ _ _ _ _ _ _ _ _ _ Ha). reflexivity.
Qed.
Print Assumptions C75_second_albedo_refuted.
Example C75_hypotheses_met :
  sd_albedo (ex_solver 1 0 FORWARD) <> sd_albedo (ex_solver 1 1 FORWARD) /\
  spectrumSystem PI E3 Ki3 exp sqrt (three SLAB) (ex_solver 1 0 FORWARD) =
  spectrumSystem PI E3 Ki3 exp sqrt (three SLAB) (ex_solver 1 1 FORWARD) /\
  exists x, spectrumSystem PI E3 Ki3 exp sqrt (three SLAB) (ex_solver 1 0 FORWARD) = Ok x.
Proof.
  split; [intros E; injection E; lra|]. split; [apply C75_second_albedo_refuted; reflexivity|].
  destruct (C55_transport_defined E3 Ki3 exp sqrt _ _ _ (three_ready SLAB 1 0 FORWARD ltac:(discriminate)))
    as (sc & g & g' & c & M & F & _ & _ & _ & E). eexists. exact E.
Qed.
