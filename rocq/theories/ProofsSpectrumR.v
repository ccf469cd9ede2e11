(* Reciprocity, conservation and the albedo correction of the collision
   probabilities. *)
From Coq Require Import String ZArith List Bool Lia Reals Lra.
From Verif Require Import Base BaseLemmas NumR Blocks ModelNumTools ModelEigen ModelMesh ModelReactor
  ModelSpectrum ProofsMesh ProofsDiffusion ProofsDiffusionR ProofsSpectrum.
Import ListNotations.
Local Open Scope R_scope.

Lemma rsum_triangle n (f : Z -> Z -> R) : (0 <= n)%Z ->
  rsum 0 n (fun j => rsum 0 (j + 1) (fun m => f m j)) = rsum 0 n (fun m => rsum m n (fun j => f m j)).
Proof.
  intros Hn.
  apply (zint_ind (fun n => rsum 0 n (fun j => rsum 0 (j + 1) (fun m => f m j)) =
                            rsum 0 n (fun m => rsum m n (fun j => f m j))) 0%Z); [| |lia].
  - rewrite !rsum_empty by lia. reflexivity.
  - intros k Hk IH. rewrite rsum_last by lia. rewrite IH. rewrite rsum_last by lia.
    rewrite (rsum_last 0 k (fun m => rsum m (k + 1) (fun j => f m j))) by lia. rewrite rsum_one.
    rewrite (rsum_ext 0 k (fun m => rsum m (k + 1) (fun j => f m j)) (fun m => rsum m k (fun j => f m j) + f m k)).
    + rewrite rsum_plus. ring.
    + intros m Hm. rewrite rsum_last by lia. reflexivity.
Qed.

Section Slab.
Variable E3 : R -> R.
Variable sc : specCode R.
Variable h : Z.
Let n := sc_cells sc.
Let V := vol_of sc.
Let S := sig_of sc h.
Let t i := own sc h i.
Hypothesis Ht : forall i, (0 <= i < n)%Z -> 0 < t i.
Hypothesis HV : forall i, (0 <= i < n)%Z -> V i <> 0.
Hypothesis HS : forall i, (0 <= i < n)%Z -> S i <> 0.

Let P := slab_P E3 sc (gap sc) h.

Lemma slab_reciprocity i j : (0 <= i < n)%Z -> (0 <= j < n)%Z -> V i * S i * P i j = V j * S j * P j i.
Proof.
  assert (W : forall i j, (0 <= i < j)%Z -> (j < n)%Z -> V i * S i * P i j = V j * S j * P j i).
  { intros a b Ha Hb. unfold P, slab_P. zdec. fold (S a) (S b) (V a) (V b). field.
    split; first [apply HS; lia|apply HV; lia]. }
  intros Hi Hj. destruct (Z.lt_trichotomy i j) as [L|[->|L]]; [apply W; lia|reflexivity|symmetry; apply W; lia].
Qed.

(* optical distances to the faces *)
Let L i := rsum 0 i t.
Let Rt i := rsum (i + 1) n t.

Hypothesis HE0 : E3 0 = 1 / 2.
(* the volume is the thickness *)
Hypothesis Hvol : forall i, (0 <= i < n)%Z -> V i = width_of sc i.

Lemma VS i : (0 <= i < n)%Z -> V i * S i = t i.
Proof. intros Hi. rewrite Hvol by exact Hi. reflexivity. Qed.

Let F x y z := E3 x - E3 (x + y) - E3 (x + z) + E3 (x + z + y).

Lemma slab_upper i j : (0 <= i < j)%Z -> (j < n)%Z -> 2 * t i * P i j = F (rsum (i + 1) j t) (t i) (t j).
Proof.
  intros Hi Hj. unfold P, slab_P, slab_up. zdec. unfold gap. zdec. fold (t i) (t j).
  change (own sc h) with t. unfold F. field. apply Rgt_not_eq, Ht. lia.
Qed.
Lemma slab_lower i j : (0 <= j < i)%Z -> (i < n)%Z -> 2 * t i * P i j = F (rsum (j + 1) i t) (t j) (t i).
Proof.
  intros Hi Hj. rewrite <- (slab_upper j i) by lia.
  pose proof (slab_reciprocity i j ltac:(lia) ltac:(lia)) as Hr. rewrite !VS in Hr by lia. lra.
Qed.

Lemma slab_conservation i : (0 <= i < n)%Z ->
  1 - rsum 0 n (P i) = 1 / (2 * t i) * (E3 (L i) - E3 (L i + t i) + E3 (Rt i) - E3 (Rt i + t i)).
Proof.
  intros Hi. pose proof (Ht i Hi) as Hti.
  assert (U : 2 * t i * rsum (i + 1) n (P i) = 1 / 2 - E3 (t i) - (E3 (Rt i) - E3 (Rt i + t i))).
  { rewrite <- rsum_scal.
    rewrite (rsum_ext (i + 1) n _ (fun j =>
      (fun q => E3 (rsum (i + 1) q t + t i) - E3 (rsum (i + 1) q t)) (j + 1)%Z -
      (fun q => E3 (rsum (i + 1) q t + t i) - E3 (rsum (i + 1) q t)) j)).
    - rewrite (rsum_tele (i + 1) n (fun q => E3 (rsum (i + 1) q t + t i) - E3 (rsum (i + 1) q t))) by lia.
      rewrite (rsum_empty (i + 1) (i + 1)) by lia. fold (Rt i). rewrite HE0, Rplus_0_l. lra.
    - intros j Hj. rewrite slab_upper by lia. cbn beta. rewrite rsum_last by lia. unfold F. lra. }
  assert (W : 2 * t i * rsum 0 i (P i) = 1 / 2 - E3 (t i) - (E3 (L i) - E3 (L i + t i))).
  { rewrite <- rsum_scal.
    rewrite (rsum_ext 0 i _ (fun j =>
      (fun q => E3 (rsum q i t) - E3 (rsum q i t + t i)) (j + 1)%Z -
      (fun q => E3 (rsum q i t) - E3 (rsum q i t + t i)) j)).
    - rewrite (rsum_tele 0 i (fun q => E3 (rsum q i t) - E3 (rsum q i t + t i))) by lia.
      rewrite (rsum_empty i i) by lia. fold (L i). rewrite HE0, Rplus_0_l. lra.
    - intros j Hj. rewrite slab_lower by lia. cbn beta. rewrite (rsum_first j i) by lia. unfold F.
      replace (t j + rsum (j + 1) i t) with (rsum (j + 1) i t + t j) by ring.
      replace (rsum (j + 1) i t + t i + t j) with (rsum (j + 1) i t + t j + t i) by ring. lra. }
  assert (C : 2 * t i * P i i = 2 * t i - (1 - 2 * E3 (t i))).
  { unfold P, slab_P, slab_up. zdec. unfold gap. zdec. fold (t i). field. lra. }
  rewrite (rsum_split 0 i n), (rsum_first i n) by lia.
  apply (Rmult_eq_reg_l (2 * t i)); [|lra].
  replace (2 * t i * (1 / (2 * t i) * (E3 (L i) - E3 (L i + t i) + E3 (Rt i) - E3 (Rt i + t i))))
    with (E3 (L i) - E3 (L i + t i) + E3 (Rt i) - E3 (Rt i + t i)) by (field; lra).
  lra.
Qed.

(* all neutrons crossing the faces *)
Lemma slab_escape_total : (1 <= n)%Z ->
  rsum 0 n (fun i => V i * S i * (1 - rsum 0 n (P i))) = 1 / 2 - E3 (rsum 0 n t).
Proof.
  intros Hn.
  rewrite (rsum_ext 0 n _ (fun i =>
      (fun q => / 2 * (E3 (rsum q n t) - E3 (rsum 0 q t))) (i + 1)%Z -
      (fun q => / 2 * (E3 (rsum q n t) - E3 (rsum 0 q t))) i)).
  - rewrite (rsum_tele 0 n (fun q => / 2 * (E3 (rsum q n t) - E3 (rsum 0 q t)))) by lia.
    rewrite (rsum_empty n n), (rsum_empty 0 0) by lia. rewrite HE0. lra.
  - intros i Hi. rewrite VS, slab_conservation by exact Hi. pose proof (Ht i Hi). cbn beta.
    rewrite (rsum_last 0 i), (rsum_first i n) by lia. fold (L i) (Rt i).
    replace (t i + Rt i) with (Rt i + t i) by ring. field. lra.
Qed.
End Slab.

Section Curved.
Variables (bickley3f nexp : R -> R).
Variable sc : specCode R.
Variable sph : bool.
Variable mpi : R.
Variable t : Z -> Z -> Z -> Z -> R.
Variable z : Z -> Z -> R.
Variable h : Z.
Let n := sc_cells sc.
Let V := vol_of sc.
Let S := sig_of sc h.
Let K := kernel bickley3f nexp sph.
Hypothesis HV : forall i, (0 <= i < n)%Z -> V i <> 0.
Hypothesis HS : forall i, (0 <= i < n)%Z -> S i <> 0.
Let P := curved_P bickley3f nexp sc sph mpi t z h.
Let om := omega sc sph z.
Let T m i k := tb t h m i k.
Definition cst : R := if sph then mpi * 4 else 4.

Lemma curved_reciprocity i j : (0 <= i < n)%Z -> (0 <= j < n)%Z -> V i * S i * P i j = V j * S j * P j i.
Proof.
  assert (W : forall i j, (0 <= i < j)%Z -> (j < n)%Z -> V i * S i * P i j = V j * S j * P j i).
  { intros a b Ha Hb. unfold P, curved_P. zdec. fold (S a) (S b) (V a) (V b). field.
    split; first [apply HS; lia|apply HV; lia]. }
  intros Hi Hj. destruct (Z.lt_trichotomy i j) as [L|[->|L]]; [apply W; lia|reflexivity|symmetry; apply W; lia].
Qed.

Lemma fac_VS i : (0 <= i < n)%Z -> V i * S i * fac sc sph mpi h i = cst.
Proof.
  intros Hi. pose proof (HV i Hi). pose proof (HS i Hi). unfold fac, cst. fold (S i) (V i).
  destruct sph; field; auto.
Qed.

Let d1 m i j k := D1 bickley3f nexp sph t h m i j k.
Let d2 m i k := D2 bickley3f nexp sph t h m i k.

Lemma S1_VS i j : (0 <= i < n)%Z ->
  V i * S i * S1 bickley3f nexp sc sph mpi t z h i j =
  cst * rsum 0 (i + 1) (fun m => rsum 0 8 (fun k => d1 m i j k * om m k)).
Proof.
  intros Hi. unfold S1, G1. rewrite rsum_scal_r. rewrite <- (fac_VS i Hi). unfold d1, om. ring.
Qed.
Lemma S2_VS i : (0 <= i < n)%Z ->
  V i * S i * S2 bickley3f nexp sc sph mpi t z h i =
  cst * rsum 0 (i + 1) (fun m => rsum 0 8 (fun k => d2 m i k * om m k)).
Proof.
  intros Hi. unfold S2, G2. rewrite rsum_scal_r. rewrite <- (fac_VS i Hi). unfold d2, om. ring.
Qed.

(* along one ray *)
Lemma ray_tele m i j k : (m <= i)%Z ->
  rsum m i (fun l => d1 m l j k) = K (T m j k - T m (i - 1) k) - K (T m j k + T m (i - 1) k).
Proof.
  intros Hm. unfold d1, D1.
  rewrite (rsum_ext m i _ (fun l =>
     (fun q => K (T m j k - T m (q - 1) k) - K (T m j k + T m (q - 1) k)) (l + 1)%Z -
     (fun q => K (T m j k - T m (q - 1) k) - K (T m j k + T m (q - 1) k)) l)).
  - rewrite (rsum_tele m i (fun q => K (T m j k - T m (q - 1) k) - K (T m j k + T m (q - 1) k))) by exact Hm.
    unfold T at 6 8, tb. zdec. rewrite Rminus_0_r, Rplus_0_r. ring.
  - intros l Hl. cbn beta. replace (l + 1 - 1)%Z with l by ring. fold (T m j k) (T m l k) (T m (l - 1) k) K. ring.
Qed.

Lemma diag_balance i : (0 <= i < n)%Z ->
  rsum 0 i (fun j => rsum 0 (j + 1) (fun m => rsum 0 8 (fun k => (d1 m j (i - 1)%Z k - d1 m j i k) * om m k))) =
  rsum 0 (i + 1) (fun m => rsum 0 8 (fun k => (d2 m i k - d1 m i i k) * om m k)).
Proof.
  intros Hi. rewrite rsum_triangle by lia. rewrite rsum_last by lia.
  rewrite (rsum_0 0 8 (fun k => (d2 i i k - d1 i i i k) * om i k)).
  - rewrite Rplus_0_r. apply rsum_ext. intros m Hm.
    rewrite (rsum_swap m i 0 8 (fun l k => (d1 m l (i - 1)%Z k - d1 m l i k) * om m k)).
    apply rsum_ext. intros k Hk. rewrite rsum_scal_r. rewrite rsum_minus.
    rewrite !ray_tele by lia. f_equal.
    unfold d1, d2, D1, D2. fold (T m i k) (T m (i - 1) k) K.
    replace (T m (i - 1) k - T m (i - 1) k) with 0 by ring. replace (T m i k - T m i k) with 0 by ring.
    ring.
  - intros k Hk. unfold d1, d2, D1, D2. fold K. unfold tb. zdec.
    rewrite !Rplus_0_r, !Rminus_0_r. replace (t h i i k - t h i i k) with 0 by ring. ring.
Qed.

Lemma curved_conservation i : (0 <= i < n)%Z ->
  V i * S i * (1 - rsum 0 n (P i)) =
  cst * rsum 0 (i + 1) (fun m => rsum 0 8 (fun k => d1 m i (n - 1)%Z k * om m k)).
Proof.
  intros Hi. set (s1 := S1 bickley3f nexp sc sph mpi t z h). set (s2 := S2 bickley3f nexp sc sph mpi t z h).
  assert (U : rsum i n (P i) = 1 - s2 i + s1 i i - s1 i (n - 1)%Z).
  { rewrite rsum_first by lia.
    replace (P i i) with (1 - s2 i) by (unfold P, curved_P, curved_up; zdec; reflexivity).
    rewrite (rsum_ext (i + 1) n _ (fun j => (fun q => - s1 i (q - 1)%Z) (j + 1)%Z - (fun q => - s1 i (q - 1)%Z) j)).
    - rewrite (rsum_tele (i + 1) n (fun q => - s1 i (q - 1)%Z)) by lia. cbn beta. replace (i + 1 - 1)%Z with i by ring. ring.
    - intros j Hj. unfold P, curved_P, curved_up. zdec. cbn beta. replace (j + 1 - 1)%Z with j by ring. fold s1. ring. }
  assert (W : V i * S i * rsum 0 i (P i) = V i * S i * (s2 i - s1 i i)).
  { rewrite <- rsum_scal.
    rewrite (rsum_ext 0 i _ (fun j => cst * rsum 0 (j + 1) (fun m => rsum 0 8 (fun k => (d1 m j (i - 1)%Z k - d1 m j i k) * om m k)))).
    - rewrite rsum_scal, diag_balance by exact Hi. unfold s1, s2.
      rewrite Rmult_minus_distr_l, S2_VS, S1_VS by exact Hi. rewrite <- Rmult_minus_distr_l. f_equal.
      rewrite <- rsum_minus. apply rsum_ext. intros m Hm. rewrite <- rsum_minus. apply rsum_ext. intros k Hk. ring.
    - intros j Hj. rewrite curved_reciprocity by lia.
      replace (P j i) with (s1 j (i - 1)%Z - s1 j i) by (unfold P, curved_P, curved_up; zdec; reflexivity).
      unfold s1. rewrite Rmult_minus_distr_l, !S1_VS by lia. rewrite <- Rmult_minus_distr_l. f_equal.
      rewrite <- rsum_minus. apply rsum_ext. intros m Hm. rewrite <- rsum_minus. apply rsum_ext. intros k Hk. ring. }
  rewrite (rsum_split 0 i n) by lia.
  replace (V i * S i * (1 - (rsum 0 i (P i) + rsum i n (P i))))
    with (V i * S i * (1 - rsum i n (P i)) - V i * S i * rsum 0 i (P i)) by ring.
  rewrite U, W. rewrite <- S1_VS by exact Hi. fold s1. ring.
Qed.

Lemma curved_escape_total : (1 <= n)%Z ->
  rsum 0 n (fun i => V i * S i * (1 - rsum 0 n (P i))) =
  cst * rsum 0 n (fun m => rsum 0 8 (fun k => (K 0 - K (2 * t h m (n - 1)%Z k)) * om m k)).
Proof.
  intros Hn.
  rewrite (rsum_ext 0 n _ (fun i => cst * rsum 0 (i + 1) (fun m => rsum 0 8 (fun k => d1 m i (n - 1)%Z k * om m k))))
    by (intros; apply curved_conservation; lia).
  rewrite rsum_scal, rsum_triangle by lia. f_equal. apply rsum_ext. intros m Hm.
  rewrite (rsum_swap m n 0 8 (fun i k => d1 m i (n - 1)%Z k * om m k)).
  apply rsum_ext. intros k Hk. rewrite rsum_scal_r. rewrite ray_tele by lia. f_equal.
  unfold T, tb. zdec. f_equal; f_equal; ring.
Qed.
End Curved.

Section White.
Variable sc : specCode R.
Variable P : Z -> Z -> Z -> R.
Variable a : R.
Variable h : Z.
Let n := sc_cells sc.
Let V := vol_of sc.
Let S := sig_of sc h.

Lemma white_row i : 1 - pss sc P h * a <> 0 ->
  rsum 0 n (white sc P a h i) = 1 - esc sc P h i * (1 - a) / (1 - a * pss sc P h).
Proof.
  intros Hd. unfold white. rewrite rsum_plus.
  rewrite (rsum_ext 0 n (fun j => esc sc P h i * back sc P h j * (a / (1 - pss sc P h * a)) * sig_of sc h j)
    (fun j => esc sc P h i * (a / (1 - pss sc P h * a)) * (back sc P h j * sig_of sc h j))) by (intros; ring).
  rewrite rsum_scal.
  assert (E1 : rsum 0 n (fun j => back sc P h j * sig_of sc h j) = 1 - pss sc P h)
    by (unfold pss; fold n; ring).
  assert (E2 : rsum 0 n (P h i) = 1 - esc sc P h i) by (unfold esc; fold n; ring).
  change (rsum 0 n (fun k => P h i k)) with (rsum 0 n (P h i)).
  rewrite E1, E2. generalize (pss sc P h) (esc sc P h i) Hd. intros p e Hd'. field. lra.
Qed.

Lemma white_reciprocity i j : (0 <= i < n)%Z -> (0 <= j < n)%Z ->
  V i * S i * P h i j = V j * S j * P h j i ->
  V i * S i * white sc P a h i j = V j * S j * white sc P a h j i.
Proof.
  intros Hi Hj Hr. unfold white. fold (S i) (S j). rewrite !Rmult_plus_distr_l, Hr. unfold back. fold (V i) (V j).
  unfold Rdiv. ring.
Qed.
End White.

(* ---------- the code object built from a mesh ---------- *)

(* outer surface handed to the albedo correction, in cm2 *)
Definition spec_surface (ms : mesh R) : R :=
  let r := vat (ms_bounds ms) (ms_cells ms) * 100 in
  match ms_geom ms with
  | SLAB => 1 | CYLINDER => 2 * PI * r | SPHERE => 4 * PI * r ^ 2 * 10000 | GeomUNDEFINED => 0 end.

(* a mesh the transport solver accepts, albedo a *)
Definition transport_ready (ms : mesh R) (sd : solverData R) (a : R) : Prop :=
  ready ms /\ (1 <= ms_cells ms)%Z /\ sd_energies sd = ms_groups ms /\ lget (sd_albedo sd) 0 = Ok a /\
  increasing (ms_bounds ms) /\ 0 <= vat (ms_bounds ms) 0 /\
  forall e i, (0 <= e < ms_groups ms)%Z -> (0 <= i < ms_cells ms)%Z -> 0 < ttot (mesh_tables ms) e i.

Record code_ok (ms : mesh R) (sd : solverData R) (sc : specCode R) : Prop := {
  co_new : newSpecCode PI ms sd = Ok sc;
  co_mesh : sc_mesh sc = ms;
  co_albedo : sc_albedo sc = sd_albedo sd;
  co_cells : sc_cells sc = ms_cells ms;
  co_en : sc_en sc = ms_groups ms;
  co_rad : vlen (sc_radii sc) = (sc_cells sc + 1)%Z;
  co_vol : vlen (sc_vol sc) = sc_cells sc;
  co_tr : (sc_en sc <= mrows (sc_tot sc))%Z;
  co_tc : mcols (sc_tot sc) = sc_cells sc;
  co_radii : forall i, vat (sc_radii sc) i = vat (ms_bounds ms) i * 100;
  co_width : forall i, width_of sc i = tdx (mesh_tables ms) i;
  co_volume : forall i, (0 <= i < ms_cells ms)%Z -> vol_of sc i = tV (mesh_tables ms) i;
  co_sig : forall h i, (0 <= h < ms_groups ms)%Z -> (0 <= i < ms_cells ms)%Z ->
             sig_of sc h i = ttot (mesh_tables ms) h i;
  co_surface : sc_surface sc = spec_surface ms }.

Lemma spec_surface_ok ms : ready ms -> (1 <= ms_cells ms)%Z ->
  getExternalSurface PI ms "cm" = Ok (spec_surface ms).
Proof.
  intros (Hg & Hc & Hl & _) H1.
  destruct (wp_ok _ _ (surfaces_wp ms "cm" Hg ltac:(lia))) as (s & Es & Ls & Hs).
  unfold getSurfaces in Es. unfold getExternalSurface, spec_surface.
  destruct (ms_geom ms) eqn:G; try (exfalso; apply Hg; reflexivity);
    unfold slab_externalSurface, cyl_externalSurface, sph_externalSurface; rewrite Es; cbn [bind];
    rewrite vget_ok by lia; cbn [bind]; rewrite Hs by lia; unfold body_surface, unit_factor; cbn [String.eqb Ascii.eqb];
    try (rewrite Ls, <- Hl; replace (ms_cells ms + 1 - 1)%Z with (ms_cells ms) by lia); cbn; f_equal; rnum; ring.
Qed.

Lemma code_exists ms sd a : transport_ready ms sd a -> exists sc, code_ok ms sd sc.
Proof.
  intros (Hr & H1 & He & _). pose proof (ready_data ms Hr) as D.
  pose proof (spec_surface_ok ms Hr H1) as ES. destruct Hr as (Hg & Hc & Hl & Hgr & _).
  destruct D as (_ & (tot & Et & Rt & Ct & Ht) & _ & _ & _ & _ & _ & _ & (vol & Ev & Lv & Hv)).
  eexists. assert (E : newSpecCode PI ms sd = Ok (mkSpecCode ms (sd_albedo sd) (getBoundaries ms "cm") vol tot
      (ms_cells ms) (sd_energies sd) (spec_surface ms))).
  { unfold newSpecCode. rewrite Ev, Et, ES. reflexivity. }
  split; [exact E|..]; try reflexivity; cbn [sc_cells sc_en sc_radii sc_vol sc_tot sc_surface]; auto; try lia.
  intros i. unfold width_of. cbn [sc_radii]. unfold getBoundaries. rewrite !by_unit_at.
    cbn [mesh_tables tdx]. unfold unit_factor. cbn. rnum. ring.
Qed.

(* the vacuum probabilities in closed form *)
Definition vacuum_P (E3 Ki3 ex sq : R -> R) (sc : specCode R) (h i j : Z) : R :=
  match ms_geom (sc_mesh sc) with
  | SLAB => slab_P E3 sc (gap sc) h i j
  | CYLINDER => curved_P Ki3 ex sc false PI (opt sq sc) (ray sc) h i j
  | SPHERE => curved_P Ki3 ex sc true PI (opt sq sc) (ray sc) h i j
  | GeomUNDEFINED => 0
  end.

Section System.
Variables (E3 Ki3 ex sq : R -> R).
Variables (ms : mesh R) (sd : solverData R) (a : R) (sc : specCode R).
Hypothesis Hready : transport_ready ms sd a.
Hypothesis Hcode : code_ok ms sd sc.
Let n := ms_cells ms.
Let en := ms_groups ms.
Let d := mesh_tables ms.

Lemma sig_pos h i : (0 <= h < en)%Z -> (0 <= i < n)%Z -> 0 < sig_of sc h i.
Proof. intros Hh Hi. rewrite (co_sig _ _ _ Hcode) by auto. apply Hready; auto. Qed.

Lemma width_pos i : (0 <= i < n)%Z -> 0 < width_of sc i.
Proof.
  intros Hi. rewrite (co_width _ _ _ Hcode). cbn [mesh_tables tdx].
  destruct Hready as (Hr & _ & _ & _ & Hinc & _). destruct Hr as (_ & _ & Hl & _).
  assert (vat (ms_bounds ms) i < vat (ms_bounds ms) (i + 1)) by (apply Hinc; unfold n in Hi; lia). lra.
Qed.

Lemma vol_pos i : (0 <= i < n)%Z -> 0 < vol_of sc i.
Proof.
  intros Hi. rewrite (co_volume _ _ _ Hcode) by exact Hi. cbn [mesh_tables tV].
  destruct Hready as (Hr & _ & _ & _ & Hinc & H0 & _). destruct Hr as (Hg & _ & Hl & _).
  assert (0 <= vat (ms_bounds ms) i) by (apply increasing_nonneg; auto; unfold n in Hi; lia).
  assert (vat (ms_bounds ms) i < vat (ms_bounds ms) (i + 1)) by (apply Hinc; unfold n in Hi; lia).
  pose proof (body_volume_mono (ms_geom ms) (vat (ms_bounds ms) i) (vat (ms_bounds ms) (i + 1)) Hg ltac:(lra)).
  apply Rmult_lt_0_compat; [lra|apply pow_lt; lra].
Qed.

Lemma own_pos h i : (0 <= h < en)%Z -> (0 <= i < n)%Z -> 0 < own sc h i.
Proof. intros. apply Rmult_lt_0_compat; [apply width_pos|apply sig_pos]; auto. Qed.

Lemma vacuum_wp :
  wp (vacuumCPs PI E3 Ki3 ex sq sc) (fun g => dims3 sc g /\
    forall h i j, (0 <= h < en)%Z -> (0 <= i < n)%Z -> (0 <= j < n)%Z ->
      t3_at g i j h = vacuum_P E3 Ki3 ex sq sc h i j).
Proof.
  destruct Hcode. destruct Hready as (Hr & H1 & He & _). destruct Hr as (Hg & Hc & Hl & Hgr & _).
  assert (Hn0 : (0 <= sc_cells sc)%Z) by lia. assert (He0 : (0 <= sc_en sc)%Z) by lia.
  assert (Ec : forall (g : ten3 R) X, (forall h i j, (0 <= h < sc_en sc)%Z -> (0 <= i < sc_cells sc)%Z -> (0 <= j < sc_cells sc)%Z -> t3_at g i j h = X h i j) ->
     forall h i j, (0 <= h < en)%Z -> (0 <= i < n)%Z -> (0 <= j < n)%Z -> t3_at g i j h = X h i j).
  { intros g X HX h i j ? ? ?. unfold en, n in *. apply HX; lia. }
  unfold vacuumCPs, vacuum_P. rewrite co_mesh0. destruct (ms_geom ms) eqn:G; try (exfalso; apply Hg; reflexivity).
  - apply wp_bind. eapply wp_mono; [apply slabTracks_wp; auto|].
    + intros h i Hh Hi. left. apply own_pos; unfold en, n; lia.
    + cbv beta. intros tau [D A]. eapply wp_mono; [apply (slabCPs_wp E3 sc Hn0 He0 co_vol0 co_tr0 co_tc0 tau (gap sc) D A)|].
      cbv beta. intros g [Dg Hgg]. split; [exact Dg|]. apply Ec. exact Hgg.
  - apply wp_bind. eapply wp_mono; [apply curvedTracks_wp; auto|].
    cbv beta. intros [zz tau] (Dz & Hz & D & A). cbn [fst snd] in *.
    eapply wp_mono; [apply (curvedCPs_wp Ki3 ex sc Hn0 He0 co_rad0 co_vol0 co_tr0 co_tc0 false PI (opt sq sc) (ray sc) zz tau Dz Hz D A)|].
    + lia.
    + cbv beta. intros g [Dg Hgg]. split; [exact Dg|]. apply Ec. exact Hgg.
  - apply wp_bind. eapply wp_mono; [apply curvedTracks_wp; auto|].
    cbv beta. intros [zz tau] (Dz & Hz & D & A). cbn [fst snd] in *.
    eapply wp_mono; [apply (curvedCPs_wp Ki3 ex sc Hn0 He0 co_rad0 co_vol0 co_tr0 co_tc0 true PI (opt sq sc) (ray sc) zz tau Dz Hz D A)|].
    + lia.
    + cbv beta. intros g [Dg Hgg]. split; [exact Dg|]. apply Ec. exact Hgg.
Qed.

Let P := vacuum_P E3 Ki3 ex sq sc.

Lemma system_spec :
  exists g g' check M F,
    vacuumCPs PI E3 Ki3 ex sq sc = Ok g /\ whiteBoundary sc g = Ok g' /\
    spectrumSystem PI E3 Ki3 ex sq ms sd = Ok (check, M, F) /\
    (forall h i j, (0 <= h < en)%Z -> (0 <= i < n)%Z -> (0 <= j < n)%Z -> t3_at g i j h = P h i j) /\
    (forall h i j, (0 <= h < en)%Z -> (0 <= i < n)%Z -> (0 <= j < n)%Z ->
       t3_at g' i j h = white sc P a h i j / sig_of sc h j) /\
    (forall h i, (0 <= h < en)%Z -> (0 <= i < n)%Z -> mat_at check h i = rsum 0 n (white sc P a h i)) /\
    bl n en M (fun e i e' j => (if (e' =? e)%Z && (j =? i)%Z then 1 else 0) - white sc P a e i j / sig_of sc e j * tsc d e' e j) /\
    bl n en F (fun e i e' j => white sc P a e i j / sig_of sc e j * (tchi d e j * tni d e' j * tfis d e' j)).
Proof.
  pose proof Hcode as C. destruct C. pose proof Hready as HR. destruct HR as (Hr & H1 & He & Ha & _).
  pose proof (ready_data ms Hr) as (_ & _ & Df & Dn & Dc & Ds & _).
  destruct Hr as (Hg & Hc & Hl & Hgr & _).
  assert (Hn0 : (0 <= sc_cells sc)%Z) by lia. assert (He0 : (0 <= sc_en sc)%Z) by lia.
  destruct (wp_ok _ _ vacuum_wp) as (g & Eg & Dg & HG). fold P in HG.
  assert (HG' : forall h i j, (0 <= h < sc_en sc)%Z -> (0 <= i < sc_cells sc)%Z -> (0 <= j < sc_cells sc)%Z -> t3_at g i j h = P h i j)
    by (intros; apply HG; unfold en, n; lia).
  assert (Hsig : forall h i, (0 <= h < sc_en sc)%Z -> (0 <= i < sc_cells sc)%Z -> sig_of sc h i <> 0)
    by (intros; apply Rgt_not_eq, sig_pos; unfold en, n; lia).
  rewrite <- co_albedo0 in Ha.
  destruct (wp_ok _ _ (whiteBoundary_wp sc Hn0 He0 co_vol0 co_tr0 co_tc0 P a Hsig Ha g Dg HG')) as (g' & Eg' & Dg' & HW).
  destruct (wp_ok _ _ (particleBalanceCheck_wp sc Hn0 He0 co_tr0 co_tc0 g' _ Dg' HW)) as (check & Ek & Rk & Ck & HK).
  destruct (wp_ok _ _ (calcCPMMatrix_wp sc Hn0 He0 g' _ Dg' HW)) as (c & Ecc & HC).
  assert (Hs : has_ten (getScattMatrices (sc_mesh sc)) (sc_en sc) (sc_en sc) (sc_cells sc) (tsc d)) by (rewrite co_mesh0, co_en0, co_cells0; exact Ds).
  assert (Hf : has_mat (getFissionXSs (sc_mesh sc)) (sc_en sc) (sc_cells sc) (tfis d)) by (rewrite co_mesh0, co_en0, co_cells0; exact Df).
  assert (Hch : has_mat (getChis (sc_mesh sc)) (sc_en sc) (sc_cells sc) (tchi d)) by (rewrite co_mesh0, co_en0, co_cells0; exact Dc).
  assert (Hni : has_mat (getNis (sc_mesh sc)) (sc_en sc) (sc_cells sc) (tni d)) by (rewrite co_mesh0, co_en0, co_cells0; exact Dn).
  destruct (wp_ok _ _ (specMMatrix_wp sc Hn0 He0 _ c (tsc d) HC Hs)) as (M & EM & HM).
  destruct (wp_ok _ _ (specFMatrix_wp sc Hn0 He0 _ c (tfis d) (tchi d) (tni d) HC Hf Hch Hni)) as (F & EF & HF).
  exists g, g', check, M, F. split; [exact Eg|]. split; [exact Eg'|]. split.
  { unfold spectrumSystem. rewrite co_new0. cbn [bind]. rewrite Eg. cbn [bind]. rewrite Eg'. cbn [bind].
    rewrite Ek. cbn [bind]. rewrite Ecc. cbn [bind]. rewrite EM. cbn [bind]. rewrite EF. cbn [bind].
    destruct (ms_geom ms) eqn:G; try (exfalso; apply Hg; reflexivity); reflexivity. }
  split; [exact HG|]. split; [intros; apply HW; unfold en, n in *; lia|]. split.
  { intros h i Hh Hi. rewrite HK by (unfold en, n in *; lia). unfold n. rewrite <- co_cells0. apply rsum_ext. intros j Hj.
    field. apply Hsig; unfold en in *; lia. }
  unfold n, en. rewrite <- co_cells0, <- co_en0. split; [exact HM|exact HF].
Qed.

End System.
