(* Property theorems C94, continued: the transport calculation of a slab described from
   the other side, and of a reactor whose groups are numbered differently. *)
From Coq Require Import String ZArith List Bool Lia Reals Lra.
From Verif Require Import Base BaseLemmas NumR LinAlg Blocks ModelNumTools ModelEigen ModelMesh ModelReactor
  ModelDiffusion ModelSpectrum ProofsEigen ProofsMesh ProofsPower ProofsDiffusion ProofsSpectrum ProofsSpectrumR ProofsDiffusionR
  ProofsSymmetry PropsSymmetry.
Import ListNotations.
Local Open Scope R_scope.

(* ---------- the probabilities of the two descriptions ---------- *)

Section Curves.
Variables (K ex sq : R -> R) (sc sc' : specCode R) (h h' n : Z).
Hypothesis Hrad : forall k, (0 <= k <= n)%Z -> vat (sc_radii sc') k = vat (sc_radii sc) k.
Hypothesis Hvol : forall i, (0 <= i < n)%Z -> vol_of sc' i = vol_of sc i.
Hypothesis Hsig : forall i, (0 <= i < n)%Z -> sig_of sc' h' i = sig_of sc h i.

Lemma same_width i : (0 <= i < n)%Z -> width_of sc' i = width_of sc i.
Proof using Hrad. intros Hi. unfold width_of. rewrite !Hrad by lia. reflexivity. Qed.
Lemma same_ray k i : (0 <= k < n)%Z -> ray sc' k i = ray sc k i.
Proof using Hrad. intros Hk. unfold ray. rewrite same_width, Hrad by lia. reflexivity. Qed.
Lemma same_chord k j i : (0 <= k < n)%Z -> (0 <= j < n)%Z -> chord sq sc' k j i = chord sq sc k j i.
Proof using Hrad. intros Hk Hj. unfold chord. rewrite same_ray, Hrad by lia. reflexivity. Qed.
Lemma same_opt k j i : (0 <= k < n)%Z -> (j < n)%Z -> opt sq sc' h' k j i = opt sq sc h k j i.
Proof using Hrad Hsig.
  intros Hk Hj. unfold opt. apply rsum_ext. intros l Hl. rewrite Hsig by lia. f_equal. unfold seg. rewrite same_chord by lia.
  destruct (l =? k)%Z eqn:E; [reflexivity|]. rewrite same_chord by lia. reflexivity.
Qed.
Variable sph : bool.
Lemma same_tb m i k : (0 <= m < n)%Z -> (i < n)%Z -> tb (opt sq sc') h' m i k = tb (opt sq sc) h m i k.
Proof using Hrad Hsig. intros Hm Hi. unfold tb. rewrite same_opt by assumption. reflexivity. Qed.
Lemma same_omega m k : (0 <= m < n)%Z -> omega sc' sph (ray sc') m k = omega sc sph (ray sc) m k.
Proof using Hrad. intros Hm. unfold omega. rewrite same_width, same_ray by exact Hm. reflexivity. Qed.
Lemma same_fac i : (0 <= i < n)%Z -> fac sc' sph PI h' i = fac sc sph PI h i.
Proof using Hvol Hsig. intros Hi. unfold fac. rewrite Hvol, Hsig by exact Hi. reflexivity. Qed.
Lemma same_S1 i j : (0 <= i < n)%Z -> (j < n)%Z -> S1 K ex sc' sph PI (opt sq sc') (ray sc') h' i j = S1 K ex sc sph PI (opt sq sc) (ray sc) h i j.
Proof using Hrad Hvol Hsig.
  intros Hi Hj. unfold S1. apply rsum_ext. intros m Hm. unfold G1. rewrite same_fac by exact Hi. f_equal. apply rsum_ext. intros k Hk.
  rewrite same_omega by lia. f_equal. unfold D1. rewrite !same_tb by lia. reflexivity.
Qed.
Lemma same_S2 i : (0 <= i < n)%Z -> S2 K ex sc' sph PI (opt sq sc') (ray sc') h' i = S2 K ex sc sph PI (opt sq sc) (ray sc) h i.
Proof using Hrad Hvol Hsig.
  intros Hi. unfold S2. apply rsum_ext. intros m Hm. unfold G2. rewrite same_fac by exact Hi. f_equal. apply rsum_ext. intros k Hk.
  rewrite same_omega by lia. f_equal. unfold D2. rewrite !same_tb by lia. reflexivity.
Qed.
Lemma same_curved i j : (0 <= i < n)%Z -> (0 <= j < n)%Z ->
  curved_P K ex sc' sph PI (opt sq sc') (ray sc') h' i j = curved_P K ex sc sph PI (opt sq sc) (ray sc) h i j.
Proof using Hrad Hvol Hsig.
  intros Hi Hj. assert (U : forall i j, (0 <= i < n)%Z -> (0 <= j < n)%Z -> curved_up K ex sc' sph PI (opt sq sc') (ray sc') h' i j = curved_up K ex sc sph PI (opt sq sc) (ray sc) h i j).
  { intros u v Hu Hv. unfold curved_up. rewrite same_S2, !same_S1 by lia. reflexivity. }
  unfold curved_P. rewrite !U, !Hvol, !Hsig by assumption. reflexivity.
Qed.
Lemma same_slab i j : (0 <= i < n)%Z -> (0 <= j < n)%Z -> slab_P K sc' (gap sc') h' i j = slab_P K sc (gap sc) h i j.
Proof using Hrad Hvol Hsig.
  assert (O : forall l, (0 <= l < n)%Z -> own sc' h' l = own sc h l) by (intros l Hl; unfold own; rewrite same_width, Hsig by exact Hl; reflexivity).
  assert (G : forall u v, (0 <= u < n)%Z -> (0 <= v < n)%Z -> gap sc' h' u v = gap sc h u v).
  { intros u v Hu Hv. unfold gap. rewrite O by exact Hu. destruct (u =? v)%Z; [reflexivity|]. apply rsum_ext. intros l Hl. apply O. lia. }
  intros Hi Hj. unfold slab_P, slab_up. rewrite !G, !Hvol, !Hsig by assumption. reflexivity.
Qed.
End Curves.

(* sums read backwards *)
Lemma rsum_back n f g : (forall i, (0 <= i < n)%Z -> g (back n i) = f i) ->
  forall i j, (0 <= i <= j)%Z -> (j <= n)%Z -> rsum (n - j) (n - i) g = rsum i j f.
Proof.
  intros H i j [Hi Hij] Hn. replace j with (i + Z.of_nat (Z.to_nat (j - i)))%Z in * by lia. clear Hij. induction (Z.to_nat (j - i)) as [|k IH].
  - rewrite !rsum_empty by lia. reflexivity.
  - rewrite Nat2Z.inj_succ in *. unfold Z.succ in *. rewrite Z.add_assoc in *. rewrite rsum_last by lia. rewrite rsum_first by lia.
    replace (n - (i + Z.of_nat k + 1) + 1)%Z with (n - (i + Z.of_nat k))%Z by lia. rewrite IH by lia.
    rewrite <- (H (i + Z.of_nat k)%Z) by lia. unfold back. replace (n - 1 - (i + Z.of_nat k))%Z with (n - (i + Z.of_nat k + 1))%Z by lia. ring.
Qed.

Lemma mirror_slab K sc sc' h n : sc_cells sc = n -> sc_cells sc' = n ->
  (forall i, (0 <= i < n)%Z -> 0 < width_of sc i /\ 0 < sig_of sc h i /\ vol_of sc i = width_of sc i /\ vol_of sc' i = width_of sc' i /\
     width_of sc' (back n i) = width_of sc i /\ sig_of sc' h (back n i) = sig_of sc h i) ->
  forall i j, (0 <= i < n)%Z -> (0 <= j < n)%Z -> slab_P K sc' (gap sc') h (back n i) (back n j) = slab_P K sc (gap sc) h i j.
Proof.
  intros Hc Hc' H i j Hi Hj.
  assert (O : forall l, (0 <= l < n)%Z -> own sc' h (back n l) = own sc h l) by (intros l Hl; destruct (H l Hl) as (_ & _ & _ & _ & E1 & E2); unfold own; rewrite E1, E2; reflexivity).
  assert (B : forall l, (0 <= l < n)%Z -> (0 <= back n l < n)%Z /\ back n (back n l) = l) by (unfold back; lia).
  assert (W' : forall l, (0 <= l < n)%Z -> 0 < width_of sc' l /\ 0 < sig_of sc' h l).
  { intros l Hl. destruct (B l Hl) as [Hb Eb]. destruct (H _ Hb) as (w & s & _ & _ & E1 & E2). rewrite Eb in E1, E2. rewrite E1, E2. auto. }
  assert (T : forall l, (0 <= l < n)%Z -> 0 < own sc h l) by (intros l Hl; destruct (H l Hl) as (w & s & _); unfold own; apply Rmult_lt_0_compat; assumption).
  assert (T' : forall l, (0 <= l < n)%Z -> 0 < own sc' h l) by (intros l Hl; destruct (W' l Hl); unfold own; apply Rmult_lt_0_compat; assumption).
  assert (V : forall l, (0 <= l < n)%Z -> vol_of sc l = width_of sc l) by (intros l Hl; apply (H l Hl)).
  assert (V' : forall l, (0 <= l < n)%Z -> vol_of sc' l = width_of sc' l) by (intros l Hl; apply (H l Hl)).
  assert (V0 : forall l, (0 <= l < n)%Z -> vol_of sc l <> 0) by (intros l Hl; rewrite V by exact Hl; destruct (H l Hl); lra).
  assert (V0' : forall l, (0 <= l < n)%Z -> vol_of sc' l <> 0) by (intros l Hl; rewrite V' by exact Hl; destruct (W' l Hl); lra).
  assert (S0 : forall l, (0 <= l < n)%Z -> sig_of sc h l <> 0) by (intros l Hl; destruct (H l Hl) as (_ & ? & _); lra).
  assert (S0' : forall l, (0 <= l < n)%Z -> sig_of sc' h l <> 0) by (intros l Hl; destruct (W' l Hl); lra).
  assert (Sum : forall u v, (0 <= u < v)%Z -> (v < n)%Z -> rsum (back n v + 1) (back n u) (own sc' h) = rsum (u + 1) v (own sc h)).
  { intros u v Hu Hv. unfold back. replace (n - 1 - v + 1)%Z with (n - v)%Z by lia. replace (n - 1 - u)%Z with (n - (u + 1))%Z by lia. apply rsum_back; [exact O|lia|lia]. }
  apply (Rmult_eq_reg_l (2 * own sc h i)); [|pose proof (T i Hi); lra].
  destruct (B i Hi) as [Bi _]. destruct (B j Hj) as [Bj _].
  rewrite <- Hc in T, V, V0, S0. rewrite <- Hc' in T', V', V0', S0'.
  destruct (Z.lt_trichotomy i j) as [L|[<-|L]].
  - rewrite (slab_upper K sc h T i j) by lia. rewrite <- (O i Hi) at 1. rewrite (slab_lower K sc' h T' V0' S0' V' (back n i) (back n j)) by (unfold back in *; lia).
    change (fun i0 => own sc' h i0) with (own sc' h). change (fun i0 => own sc h i0) with (own sc h). rewrite Sum, !O by lia.
    replace (rsum (i + 1) j (own sc h) + own sc h i + own sc h j) with (rsum (i + 1) j (own sc h) + own sc h j + own sc h i) by ring. ring.
  - unfold slab_P, slab_up. rewrite !Z.leb_refl, !Z.eqb_refl. unfold gap. rewrite !Z.eqb_refl, O by exact Hi. reflexivity.
  - rewrite (slab_lower K sc h T V0 S0 V i j) by lia. rewrite <- (O i Hi) at 1. rewrite (slab_upper K sc' h T' (back n i) (back n j)) by (unfold back in *; lia).
    change (fun i0 => own sc' h i0) with (own sc' h). change (fun i0 => own sc h i0) with (own sc h). rewrite Sum, !O by lia.
    replace (rsum (j + 1) i (own sc h) + own sc h i + own sc h j) with (rsum (j + 1) i (own sc h) + own sc h j + own sc h i) by ring. ring.
Qed.

(* ---------- the systems of the two descriptions ---------- *)

Section Image.
Variables (E3 Ki3 ex sq : R -> R) (ms ms' : mesh R) (sd sd' : solverData R) (a : R) (sc sc' : specCode R) (p p' c c' : Z -> Z).
Let n := ms_cells ms.
Let en := ms_groups ms.
Hypothesis Hr : transport_ready ms sd a.
Hypothesis Hr' : transport_ready ms' sd' a.
Hypothesis Hk : code_ok ms sd sc.
Hypothesis Hk' : code_ok ms' sd' sc'.
Hypothesis Hn' : ms_cells ms' = n.
Hypothesis Hen' : ms_groups ms' = en.
Hypothesis Hp : reorders en p p'.
Hypothesis Hc : reorders n c c'.
Hypothesis Hd : data_like n en p c (mesh_tables ms) (mesh_tables ms').
Hypothesis HP : forall h i j, (0 <= h < en)%Z -> (0 <= i < n)%Z -> (0 <= j < n)%Z ->
  vacuum_P E3 Ki3 ex sq sc' (p h) (c i) (c j) = vacuum_P E3 Ki3 ex sq sc h i j.
Hypothesis Hsurf : spec_surface ms' = spec_surface ms.
Let P := vacuum_P E3 Ki3 ex sq sc.
Let P' := vacuum_P E3 Ki3 ex sq sc'.

Lemma im_sig h i : (0 <= h < en)%Z -> (0 <= i < n)%Z -> sig_of sc' (p h) (c i) = sig_of sc h i.
Proof using Hk Hk' Hn' Hen' Hp Hc Hd.
  intros Hh Hi. rewrite (co_sig _ _ _ Hk), (co_sig _ _ _ Hk') by (first [assumption|rewrite Hen'; apply Hp; assumption|rewrite Hn'; apply Hc; assumption]).
  apply (dl_tot _ _ _ _ _ _ Hd); assumption.
Qed.
Lemma im_vol i : (0 <= i < n)%Z -> vol_of sc' (c i) = vol_of sc i.
Proof using Hk Hk' Hn' Hc Hd.
  intros Hi. rewrite (co_volume _ _ _ Hk), (co_volume _ _ _ Hk') by (first [assumption|rewrite Hn'; apply Hc; assumption]). apply (dl_V _ _ _ _ _ _ Hd), Hi.
Qed.
Lemma im_esc h i : (0 <= h < en)%Z -> (0 <= i < n)%Z -> esc sc' P' (p h) (c i) = esc sc P h i.
Proof using Hk Hk' Hn' Hc HP.
  intros Hh Hi. unfold esc. rewrite (co_cells _ _ _ Hk), (co_cells _ _ _ Hk'), Hn'. fold n. f_equal.
  apply (like_sum n c c' Hc (P h i) (P' (p h) (c i))). intros j Hj. apply HP; assumption.
Qed.
Lemma im_back h i : (0 <= h < en)%Z -> (0 <= i < n)%Z -> ProofsSpectrum.back sc' P' (p h) (c i) = ProofsSpectrum.back sc P h i.
Proof using Hk Hk' Hn' Hc Hd HP Hsurf.
  intros Hh Hi. unfold ProofsSpectrum.back. rewrite im_esc, im_vol, (co_surface _ _ _ Hk), (co_surface _ _ _ Hk'), Hsurf by assumption. reflexivity.
Qed.
Lemma im_pss h : (0 <= h < en)%Z -> pss sc' P' (p h) = pss sc P h.
Proof using Hk Hk' Hn' Hen' Hp Hc Hd HP Hsurf.
  intros Hh. unfold pss. rewrite (co_cells _ _ _ Hk), (co_cells _ _ _ Hk'), Hn'. fold n. f_equal.
  apply (like_sum n c c' Hc (fun i => ProofsSpectrum.back sc P h i * sig_of sc h i) (fun i => ProofsSpectrum.back sc' P' (p h) i * sig_of sc' (p h) i)).
  intros i Hi. rewrite im_back, im_sig by assumption. reflexivity.
Qed.
Lemma im_white h i j : (0 <= h < en)%Z -> (0 <= i < n)%Z -> (0 <= j < n)%Z -> white sc' P' a (p h) (c i) (c j) = white sc P a h i j.
Proof using Hk Hk' Hn' Hen' Hp Hc Hd HP Hsurf.
  intros Hh Hi Hj. unfold white. unfold P' at 1, P at 1. rewrite HP, im_esc, im_back, im_pss, im_sig by assumption. reflexivity.
Qed.
Lemma image_transport : exists ch ch' M F M' F', spectrumSystem PI E3 Ki3 ex sq ms sd = Ok (ch, M, F) /\ spectrumSystem PI E3 Ki3 ex sq ms' sd' = Ok (ch', M', F') /\
  mat_like (n * en) (block_map n p c) M M' /\ mat_like (n * en) (block_map n p c) F F'.
Proof.
  destruct (system_spec E3 Ki3 ex sq ms sd a sc Hr Hk) as (g & g1 & ch & M & F & _ & _ & E & _ & _ & _ & A & B).
  destruct (system_spec E3 Ki3 ex sq ms' sd' a sc' Hr' Hk') as (g' & g1' & ch' & M' & F' & _ & _ & E' & _ & _ & _ & A' & B').
  exists ch, ch', M, F, M', F'. split; [exact E|]. split; [exact E'|]. rewrite Hn', Hen' in A', B'. fold n en in A, B.
  assert (Hn0 : (0 < n)%Z) by (destruct Hr as (_ & ? & _); unfold n; lia).
  split; [apply (block_like n en p p' c c' _ _ _ _ Hn0 Hp Hc A A')|apply (block_like n en p p' c c' _ _ _ _ Hn0 Hp Hc B B')]; intros e m e' m' He Hm He' Hm'; fold P P'.
  - rewrite im_white, im_sig, (dl_sc _ _ _ _ _ _ Hd), (reorders_eqb n c c' m' m Hc), (reorders_eqb en p p' e' e Hp) by assumption. reflexivity.
  - rewrite im_white, im_sig, (dl_chi _ _ _ _ _ _ Hd), (dl_ni _ _ _ _ _ _ Hd), (dl_fis _ _ _ _ _ _ Hd) by assumption. reflexivity.
Qed.
End Image.

Section Solve.
Variables (E3 Ki3 ex sq : R -> R).
Variables (solver : mat R -> vec R -> vec R) (sort : list (R * vec R) -> list (R * vec R)) (eig : mat R -> mat R -> vec (R * R) * mat (R * R)).
Variables (r r' : reactor R) (sd sd' : solverData R) (p p' c c' : Z -> Z) (ch ch' M F M' F' : mat R).
Let ms := rx_mesh r.
Let ms' := rx_mesh r'.
Let n := ms_cells ms.
Let en := ms_groups ms.
Hypothesis Hr : ready ms.
Hypothesis Hr' : ready ms'.
Hypothesis Hcells : ms_cells ms' = n.
Hypothesis Hgroups : ms_groups ms' = en.
Hypothesis Hn : (0 < n)%Z.
Hypothesis Hen : (0 <= en)%Z.
Hypothesis Hpw : rx_power r' = rx_power r.
Hypothesis Hp : reorders en p p'.
Hypothesis Hc : reorders n c c'.
Hypothesis Hvol : forall m, (0 <= m < n)%Z -> cell_volume ms' (c m) = cell_volume ms m.
Hypothesis Hfis : forall e m, (0 <= e < en)%Z -> (0 <= m < n)%Z -> law_at mt_fisXS ms' (p e) (c m) = law_at mt_fisXS ms e m.
Hypothesis Esys : spectrumSystem PI E3 Ki3 ex sq ms sd = Ok (ch, M, F).
Hypothesis Esys' : spectrumSystem PI E3 Ki3 ex sq ms' sd' = Ok (ch', M', F').
Hypothesis HM : mat_like (n * en) (block_map n p c) M M'.
Hypothesis HF : mat_like (n * en) (block_map n p c) F F'.
Hypothesis Hinj : injective (n * en) (mat_at M).
Hypothesis HX : exact_solver M (solver M).
Hypothesis HX' : exact_solver M' (solver M').
Hypothesis Hsd : sd' = mkSolverData (sd_kind sd) (sd_acc sd) (sd_max sd) (sd_relax sd) (sd_albedo sd') (sd_heatbc sd) (sd_energies sd) (sd_dir sd) (sd_eig sd).
Hypothesis Heig : sd_eig sd = FUNDAMENTAL.
Hypothesis Hes : sd_energies sd = en.

(* whatever the direction asked for, the spectrum solver stores fluxes and heat *)
Lemma spectrum_like : same_results FORWARD n en p c (spectrumSolve PI E3 Ki3 ex sq solver sort eig sd r) (spectrumSolve PI E3 Ki3 ex sq solver sort eig sd' r').
Proof.
  assert (Hm : (n <= zlen (ms_mats ms))%Z) by apply Hr. assert (Hm' : (ms_cells ms' <= zlen (ms_mats ms'))%Z) by apply Hr'.
  assert (Hb1 : (n + 1 = vlen (ms_bounds ms))%Z) by apply Hr. assert (Hb2 : (ms_cells ms' + 1 = vlen (ms_bounds ms'))%Z) by apply Hr'.
  assert (G1 : ms_geom ms <> GeomUNDEFINED) by apply Hr. assert (G2 : ms_geom ms' <> GeomUNDEFINED) by apply Hr'.
  destruct (wp_ok _ _ (getHeatSources_wp dm0 ms ltac:(fold n; lia) ltac:(fold n; lia))) as (old & Eo & _).
  destruct (wp_ok _ _ (getHeatSources_wp dm0 ms' ltac:(lia) ltac:(lia))) as (old' & Eo' & _).
  destruct (wp_ok _ _ (volumes_wp ms "cm" G1 ltac:(lia))) as (vol & Ev & _).
  destruct (wp_ok _ _ (volumes_wp ms' "cm" G2 ltac:(lia))) as (vol' & Ev' & _).
  assert (Hord : reorders (n * en) (block_map n p c) (block_map n p' c')) by (apply block_reorders; assumption).
  pose proof (like_iteration (n * en) (block_map n p c) (block_map n p' c') Hord M F M' F' solver ltac:(nia) HM HF Hinj HX HX' (sd_max sd) (sd_acc sd) (sd_dir sd)) as L.
  unfold spectrumSolve. fold ms ms'. rewrite Eo, Eo', Ev, Ev', Esys, Esys'. cbn [bind]. unfold solveEigen. rewrite Hsd. cbn [sd_eig sd_max sd_acc sd_dir sd_energies]. rewrite Heig, Hes.
  destruct (sourceIteration solver M F (sd_max sd) (sd_acc sd) (sd_dir sd)) as [[i a]|x|x|x];
  destruct (sourceIteration solver M' F' (sd_max sd) (sd_acc sd) (sd_dir sd)) as [[j b]|y|y|y]; cbn [same_outcome] in L; try contradiction; cbn [bind snd]; [|exact L].
  destruct L as (_ & Hk & Hf & Ha & Hb & _). rewrite Hcells. fold n.
  destruct (stored_heat_like r r' p p' c c' Hr Hr' Hcells Hgroups Hpw Hp Hc Hvol Hfis a b Ha Hb Hk Hf vol vol' Ev Ev') as (r1 & r2 & E1 & E2 & Q1).
  fold ms n en in E1, E2, Q1. rewrite E1, E2. exact Q1.
Qed.
End Solve.

(* The transport calculation of a slab seen from the other side: the code reads only the
   first albedo (C75), so the two sides must reflect alike. *)
Theorem C94_transport_mirror_partial E3 Ki3 ex sq solver sort eig r r' sd a :
  let ms := rx_mesh r in let ms' := rx_mesh r' in let n := ms_cells ms in let en := ms_groups ms in
  sd_albedo sd = [a; a] -> transport_ready ms sd a -> transport_ready ms' sd a -> mirrored ms ms' -> rx_power r' = rx_power r -> sd_eig sd = FUNDAMENTAL ->
  exists ch ch' M F M' F', spectrumSystem PI E3 Ki3 ex sq ms sd = Ok (ch, M, F) /\ spectrumSystem PI E3 Ki3 ex sq ms' sd = Ok (ch', M', F') /\
    (injective (n * en) (mat_at M) -> injective (n * en) (mat_at M') /\
     (exact_solver M (solver M) -> exact_solver M' (solver M') ->
      same_results FORWARD n en (fun e => e) (fun m => n - 1 - m)%Z
        (spectrumSolve PI E3 Ki3 ex sq solver sort eig sd r) (spectrumSolve PI E3 Ki3 ex sq solver sort eig sd r'))).
Proof.
  intros ms ms' n en _ Ht Ht' Hmi Hpw Heig. pose proof Hmi as [[G G'] Hc Hg _ _].
  assert (Hr : ready ms) by apply Ht. assert (Hr' : ready ms') by apply Ht'.
  destruct (mirrored_data ms ms' Hr Hr' Hmi) as (D & _ & V & Lf). assert (Hn : (1 <= n)%Z) by apply Ht. assert (Hen : (0 <= en)%Z) by apply Hr.
  assert (Hes : sd_energies sd = en) by apply Ht.
  destruct (code_exists ms sd a Ht) as (sc & K). destruct (code_exists ms' sd a Ht') as (sc' & K').
  fold n en in D, V, Lf. assert (Hcl : forall m, (0 <= m < n)%Z -> (0 <= back n m < n)%Z) by (unfold back; lia).
  destruct (image_transport E3 Ki3 ex sq ms ms' sd sd a sc sc' (fun e => e) (fun e => e) (back n) (back n) Ht Ht' K K' Hc Hg (id_reorders _) (back_reorders n) D) as (ch & ch' & M & F & M' & F' & E & E' & HM & HF).
  - intros h i j Hh Hi Hj. unfold vacuum_P. rewrite (co_mesh _ _ _ K), (co_mesh _ _ _ K'), G, G'.
    apply mirror_slab; [apply (co_cells _ _ _ K)|rewrite (co_cells _ _ _ K'); exact Hc| |exact Hi|exact Hj].
    intros l Hl. fold n in Hl. split; [apply (ProofsSpectrumR.width_pos ms sd a sc Ht K l Hl)|]. split; [apply (sig_pos ms sd a sc Ht K h l Hh Hl)|].
    rewrite (co_volume _ _ _ K l Hl), (co_volume _ _ _ K' l ltac:(rewrite Hc; exact Hl)), !(co_width _ _ _ K), !(co_width _ _ _ K').
    rewrite (co_sig _ _ _ K h l Hh Hl), (co_sig _ _ _ K' h (back n l)) by (rewrite ?Hg, ?Hc; auto).
    rewrite (dl_tot _ _ _ _ _ _ D h l Hh Hl), (dl_dx _ _ _ _ _ _ D l Hl). cbn [mesh_tables tV tdx]. rewrite G, G'. cbn [body_volume]. repeat split; cbn; rnum; try ring; reflexivity.
  - unfold spec_surface. rewrite G, G'. reflexivity.
  - exists ch, ch', M, F, M', F'. split; [exact E|]. split; [exact E'|]. fold n en in HM, HF.
    assert (Hord : reorders (n * en) (block_map n (fun e => e) (back n)) (block_map n (fun e => e) (back n))) by (apply block_reorders; [lia|apply id_reorders|apply back_reorders]).
    intros Hinj. split; [exact (like_injective _ _ _ Hord M M' HM Hinj)|]. intros X X'.
    apply (spectrum_like E3 Ki3 ex sq solver sort eig r r' sd sd (fun e => e) (fun e => e) (back n) (back n) ch ch' M F M' F'); try assumption.
    + fold ms n. lia.
    + apply id_reorders.
    + apply back_reorders.
    + intros e m _ Hm. apply Lf. exact Hm.
    + destruct sd; reflexivity.
Qed.
Print Assumptions C94_transport_mirror_partial.

(* The numbering of the groups does not matter either, in all three geometries. *)
Theorem C94_transport_groups E3 Ki3 ex sq solver sort eig r r' sd a p p' :
  let ms := rx_mesh r in let ms' := rx_mesh r' in let n := ms_cells ms in let en := ms_groups ms in
  transport_ready ms sd a -> transport_ready ms' sd a -> reorders en p p' -> relabelled p ms ms' -> rx_power r' = rx_power r -> sd_eig sd = FUNDAMENTAL ->
  exists ch ch' M F M' F', spectrumSystem PI E3 Ki3 ex sq ms sd = Ok (ch, M, F) /\ spectrumSystem PI E3 Ki3 ex sq ms' sd = Ok (ch', M', F') /\
    (injective (n * en) (mat_at M) -> injective (n * en) (mat_at M') /\
     (exact_solver M (solver M) -> exact_solver M' (solver M') ->
      same_results FORWARD n en p (fun m => m)
        (spectrumSolve PI E3 Ki3 ex sq solver sort eig sd r) (spectrumSolve PI E3 Ki3 ex sq solver sort eig sd r'))).
Proof.
  intros ms ms' n en Ht Ht' Hp Hre Hpw Heig. pose proof Hre as [G Hc Hg Hb _ _ _ _].
  assert (Hr : ready ms) by apply Ht. assert (Hr' : ready ms') by apply Ht'.
  destruct (relabelled_data p ms ms' Hre) as (D & _ & V & Lf). assert (Hn : (1 <= n)%Z) by apply Ht. assert (Hen : (0 <= en)%Z) by apply Hr.
  assert (Hes : sd_energies sd = en) by apply Ht. assert (Hgeo : ms_geom ms <> GeomUNDEFINED) by apply Hr.
  destruct (code_exists ms sd a Ht) as (sc & K). destruct (code_exists ms' sd a Ht') as (sc' & K').
  fold n en in D, V, Lf.
  assert (Rad : forall k, (0 <= k <= n)%Z -> vat (sc_radii sc') k = vat (sc_radii sc) k) by (intros k Hk; rewrite (co_radii _ _ _ K), (co_radii _ _ _ K'), Hb by exact Hk; reflexivity).
  assert (Vol : forall i, (0 <= i < n)%Z -> vol_of sc' i = vol_of sc i).
  { intros i Hi. rewrite (co_volume _ _ _ K i Hi), (co_volume _ _ _ K' i ltac:(rewrite Hc; exact Hi)). apply (dl_V _ _ _ _ _ _ D i Hi). }
  assert (Sig : forall h i, (0 <= h < en)%Z -> (0 <= i < n)%Z -> sig_of sc' (p h) i = sig_of sc h i).
  { intros h i Hh Hi. rewrite (co_sig _ _ _ K h i Hh Hi), (co_sig _ _ _ K' (p h) i) by (rewrite ?Hg, ?Hc; first [apply Hp; exact Hh|exact Hi]). apply (dl_tot _ _ _ _ _ _ D h i Hh Hi). }
  destruct (image_transport E3 Ki3 ex sq ms ms' sd sd a sc sc' p p' (fun m => m) (fun m => m) Ht Ht' K K' Hc Hg Hp (id_reorders _) D) as (ch & ch' & M & F & M' & F' & E & E' & HM & HF).
  - intros h i j Hh Hi Hj. unfold vacuum_P. rewrite (co_mesh _ _ _ K), (co_mesh _ _ _ K'), G. fold ms.
    destruct (ms_geom ms); [reflexivity|apply (same_slab E3 sc sc' h (p h) n); auto|apply (same_curved Ki3 ex sq sc sc' h (p h) n); auto|apply (same_curved Ki3 ex sq sc sc' h (p h) n); auto].
  - unfold spec_surface. fold ms ms'. rewrite G, Hc, Hb by lia. reflexivity.
  - exists ch, ch', M, F, M', F'. split; [exact E|]. split; [exact E'|]. fold n en in HM, HF.
    assert (Hord : reorders (n * en) (block_map n p (fun m => m)) (block_map n p' (fun m => m))) by (apply block_reorders; [lia|exact Hp|apply id_reorders]).
    intros Hinj. split; [exact (like_injective _ _ _ Hord M M' HM Hinj)|]. intros X X'.
    apply (spectrum_like E3 Ki3 ex sq solver sort eig r r' sd sd p p' (fun m => m) (fun m => m) ch ch' M F M' F'); try assumption.
    + fold ms n. lia.
    + apply id_reorders.
    + destruct sd; reflexivity.
Qed.
Print Assumptions C94_transport_groups.

(* ---------- the hypotheses are met; different albedos ---------- *)
From Verif Require PropsHeat.
From Verif Require Import ProofsConverge ProofsConvergeD ProofsConvergeT PropsSpectrum PropsSpectrumB PropsConverge ProofsReactivity PropsReactivity ProofsReactivityT PropsReactivityT Kernels.

Lemma layered_transport w x y max a : sound w x y -> 0 <= w 0%Z -> transport_ready (layered w x y) (layer_solver max a a) a.
Proof.
  intros Hs H0. split; [exact (layered_ready w x y)|]. split; [cbn; lia|]. split; [reflexivity|]. split; [reflexivity|]. split.
  { intros i Hi Hl. cbn [layered ms_bounds vat vlen] in *. apply Rmult_lt_compat_r; [lra|]. apply Hs. lia. }
  split; [cbn; lra|]. intros e i He Hi. destruct (layered_tables w x y i Hi) as (_ & T0 & T1 & _). destruct (Hs i Hi) as (_ & ? & _). cbn in He. two_cases e; lra.
Qed.
Lemma seen_right_sound : sound (fun k => if (k =? 0)%Z then 0 else IZR k + 1) (fun m => if (m =? 0)%Z then 2 else 1) (fun m => if (m =? 0)%Z then 3 else 1).
Proof. intros m Hm. assert (m = 0 \/ m = 1 \/ m = 2)%Z as [->|[->| ->]] by lia; cbn; lra. Qed.
Example C94_transport_mirror_met : exists ch ch' M F M' F',
  transport_ready seen_left (layer_solver 100 (1 / 2) (1 / 2)) (1 / 2) /\ transport_ready seen_right (layer_solver 100 (1 / 2) (1 / 2)) (1 / 2) /\ mirrored seen_left seen_right /\
  spectrumSystem PI E3 Ki3 exp sqrt seen_left (layer_solver 100 (1 / 2) (1 / 2)) = Ok (ch, M, F) /\ spectrumSystem PI E3 Ki3 exp sqrt seen_right (layer_solver 100 (1 / 2) (1 / 2)) = Ok (ch', M', F') /\
  injective 6 (mat_at M) /\ exists solver, exact_solver M (solver M) /\ exact_solver M' (solver M').
Proof.
  pose proof (layered_transport _ _ _ 100 (1 / 2) seen_left_sound ltac:(cbn; lra)) as T. pose proof (layered_transport _ _ _ 100 (1 / 2) seen_right_sound ltac:(cbn; lra)) as T'. fold seen_left in T. fold seen_right in T'.
  destruct PropsHeat.exact_exists as (solver & He).
  destruct (C94_transport_mirror_partial E3 Ki3 exp sqrt solver (fun l => l) no_modes (with_mesh seen_left newReactor) (with_mesh seen_right newReactor) (layer_solver 100 (1 / 2) (1 / 2)) (1 / 2) eq_refl T T' seen_mirrored eq_refl eq_refl)
    as (ch & ch' & M & F & M' & F' & E & E' & K). cbn [rx_mesh with_mesh] in E, E', K.
  destruct (C55_transport_defined E3 Ki3 exp sqrt _ _ _ T) as (sc & g & g1 & c0 & M0 & F0 & Hrun). pose proof Hrun as (_ & _ & _ & E0). rewrite E in E0. injection E0 as <- <- <-.
  destruct (C55_transport_defined E3 Ki3 exp sqrt _ _ _ T') as (sc' & g' & g1' & c0' & M0' & F0' & Hrun'). pose proof Hrun' as (_ & _ & _ & E0'). rewrite E' in E0'. injection E0' as <- <- <-.
  pose proof (layered_case _ _ _ 100 (1 / 2) (1 / 2) seen_left_sound ltac:(lra) ltac:(lra)) as [_ _ _ _ _ _ _ _ _ _ _ Hsc Habs _ _]. fold seen_left in Hsc, Habs.
  pose proof (monotone_injective _ _ (transport_slab_monotone _ _ _ _ _ _ _ _ _ _ _ _ T Hrun eq_refl ltac:(lra) Hsc Habs)) as Inj.
  destruct (K Inj) as [Inj' _]. change (injective 6 (mat_at M)) in Inj. change (injective 6 (mat_at M')) in Inj'.
  destruct (o_dims _ _ _ _ _ _ _ _ _ _ _ _ T Hrun) as (R1 & C1 & _). destruct (o_dims _ _ _ _ _ _ _ _ _ _ _ _ T' Hrun') as (R1' & C1' & _).
  exists ch, ch', M, F, M', F'. repeat (split; [first [exact T|exact T'|exact seen_mirrored|exact E|exact E'|exact Inj]|]).
  exists solver. split; [apply (exact_any _ _ 6 He R1 C1 Inj)|apply (exact_any _ _ 6 He R1' C1' Inj')].
Qed.

(* With a black side and a white one the two descriptions differ: the slab of three equal
   cells is its own mirror image, and its factor depends on which side is named first. *)
Definition two_sided (aL aR : R) : solverData R := with_albedo [aL; aR] (edge_solver 0).
Lemma two_sided_ready aL aR : transport_ready (tuned 1 1) (two_sided aL aR) aL.
Proof. destruct (tuned_transport 1 1 aL ltac:(lra)) as (A & B & C & D & E & F & G). split; [exact A|]. split; [exact B|]. split; [reflexivity|]. split; [reflexivity|]. split; [exact E|]. split; [exact F|exact G]. Qed.
Lemma two_sided_settles aL aR : 0 <= aL <= 1 -> exists k phi, slab_settles Ki3 exp sqrt (tuned 1 1) (two_sided aL aR) k phi.
Proof.
  intros Ha. pose proof (two_sided_ready aL aR) as T. destruct (C55_transport_defined E3 Ki3 exp sqrt _ _ _ T) as (sc & g & g' & c & M & F & Hrun).
  destruct (tuned_physics 1 1 ltac:(lra) ltac:(lra)) as [P1 P2 P3 P4 P5 P6]. destruct (tuned_chain 1 1 aL ltac:(lra)) as [Hs Hr].
  assert (K : forall solver, (exists solve, exact_solver M solve) /\ (exact_solver M (solver M) -> exists k phi, settles solver M F k phi)).
  { intros solver. apply (C86_transport_slab solver _ _ _ _ _ _ _ _ _ _ _ _ T Hrun P1 Ha P2 P3 P4 P5 P6 Hs Hr). }
  destruct (proj1 (K (fun _ => fun b => b))) as (s & X). destruct (proj2 (K (fun _ => s)) X) as (k & phi & S).
  exists k, phi, (fun _ => s), sc, g, g', c, M, F. auto.
Qed.
Theorem C94_transport_refuted : exists k k' phi phi', mirrored (tuned 1 1) (tuned 1 1) /\
  transport_ready (tuned 1 1) (two_sided 0 1) 0 /\ transport_ready (tuned 1 1) (two_sided 1 0) 1 /\
  slab_settles Ki3 exp sqrt (tuned 1 1) (two_sided 0 1) k phi /\ slab_settles Ki3 exp sqrt (tuned 1 1) (two_sided 1 0) k' phi' /\ k < k'.
Proof.
  destruct (two_sided_settles 0 1 ltac:(lra)) as (k & phi & S). destruct (two_sided_settles 1 0 ltac:(lra)) as (k' & phi' & S').
  pose proof (two_sided_ready 0 1) as T. pose proof (two_sided_ready 1 0) as T'.
  exists k, k', phi, phi'. split.
  { split; try reflexivity; [split; reflexivity| |].
    - intros m Hm. cbn in Hm. assert (m = 0 \/ m = 1 \/ m = 2)%Z as [->|[->| ->]] by lia; cbn; lra.
    - intros m Hm. cbn in Hm. assert (m = 0 \/ m = 1 \/ m = 2)%Z as [->|[->| ->]] by lia; repeat split; reflexivity. }
  split; [exact T|]. split; [exact T'|]. split; [exact S|]. split; [exact S'|].
  assert (W : two_slabs Ki3 exp sqrt (tuned 1 1) (tuned 1 1) (two_sided 0 1) (two_sided 1 0) 0 1 k k' phi phi') by (split; auto; try (apply tuned_physics; lra); lra).
  apply (C92_transport_leakage_lowers _ _ _ _ _ _ _ _ _ _ _ _ W); [|lra]. exact (tuned_chain 1 1 1 ltac:(lra)).
Qed.
Print Assumptions C94_transport_refuted.
Example C94_transport_groups_met : let sd := layer_solver 100 (1 / 2) (1 / 2) in
  transport_ready seen_left sd (1 / 2) /\ transport_ready seen_swapped sd (1 / 2) /\ reorders 2 (fun e => 1 - e)%Z (fun e => 1 - e)%Z /\ relabelled (fun e => 1 - e)%Z seen_left seen_swapped.
Proof.
  intros sd. destruct C94_groups_met as (A & B & C).
  pose proof (layered_transport _ _ _ 100 (1 / 2) seen_left_sound ltac:(cbn; lra)) as T. fold seen_left sd in T.
  split; [exact T|]. split; [|split; [exact B|exact C]].
  split; [exact A|]. split; [cbn; lia|]. split; [reflexivity|]. split; [reflexivity|].
  destruct T as (_ & _ & _ & _ & I & _ & P). split; [exact I|]. split; [cbn; lra|].
  intros e i He Hi. change (0 <= e < 2)%Z in He. change (0 <= i < 3)%Z in Hi.
  destruct (relabelled_data _ _ _ C) as (D & _). change (ms_groups seen_left) with 2%Z in D. change (ms_cells seen_left) with 3%Z in D.
  assert (E : ttot (mesh_tables seen_swapped) (1 - (1 - e)) i = ttot (mesh_tables seen_left) (1 - e) i) by (apply (dl_tot _ _ _ _ _ _ D); lia). replace (1 - (1 - e))%Z with e in E by lia.
  rewrite E. apply P; [change (0 <= 1 - e < 2)%Z|change (0 <= i < 3)%Z]; lia.
Qed.
