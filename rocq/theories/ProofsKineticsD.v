(* Piecewise trajectories, positivity and the sign of the reactivity. *)
From Coq Require Import String ZArith List Bool Lia Reals Lra Permutation.
From Coquelicot Require Import Coquelicot.
From Verif Require Import Base BaseLemmas NumR ModelNumTools ProofsNumTools InHour Modes Positivity ModelKinetics ProofsKinetics ProofsKineticsB ProofsKineticsC.
Import ListNotations.
Local Open Scope R_scope.

(* ---------- gluing ---------- *)

Definition glue (c : R) (f g : R -> R) (t : R) : R := if Rle_dec t c then f t else g t.

Lemma glue_left c f g t : t <= c -> glue c f g t = f t.
Proof. intros H. unfold glue. destruct (Rle_dec t c); [reflexivity|lra]. Qed.
Lemma glue_right c f g t : c < t -> glue c f g t = g t.
Proof. intros H. unfold glue. destruct (Rle_dec t c); [lra|reflexivity]. Qed.
Lemma locally_below (c t : R) : t < c -> locally t (fun u => u < c).
Proof. intros H. apply (open_lt c). exact H. Qed.
Lemma locally_above (c t : R) : c < t -> locally t (fun u => c < u).
Proof. intros H. apply (open_gt c). exact H. Qed.
Lemma glue_derive_left c f g t d : t < c -> is_derive f t d -> is_derive (glue c f g) t d.
Proof.
  intros H D. apply (is_derive_ext_loc f); [|exact D].
  apply (filter_imp (fun u => u < c)); [|apply locally_below, H]. intros u Hu. rewrite glue_left by lra. reflexivity.
Qed.
Lemma glue_derive_right c f g t d : c < t -> is_derive g t d -> is_derive (glue c f g) t d.
Proof.
  intros H D. apply (is_derive_ext_loc g); [|exact D].
  apply (filter_imp (fun u => c < u)); [|apply locally_above, H]. intros u Hu. rewrite glue_right by lra. reflexivity.
Qed.
Lemma glue_continuity c f g t : continuity_pt f t -> continuity_pt g t -> f c = g c -> continuity_pt (glue c f g) t.
Proof.
  intros Hf Hg E. apply continuity_pt_locally. intros eps.
  pose proof (proj1 (continuity_pt_locally f t) Hf eps) as Lf. pose proof (proj1 (continuity_pt_locally g t) Hg eps) as Lg.
  destruct (Rlt_le_dec t c) as [L|L]; [|destruct (Req_dec t c) as [->|N]].
  - generalize (filter_and _ _ Lf (locally_below c t L)). apply filter_imp. intros u [A B].
    rewrite !glue_left by lra. exact A.
  - generalize (filter_and _ _ Lf Lg). apply filter_imp. intros u [A B].
    rewrite (glue_left c f g c) by lra. unfold glue. destruct (Rle_dec u c); [exact A|]. rewrite E. exact B.
  - generalize (filter_and _ _ Lg (locally_above c t ltac:(lra))). apply filter_imp. intros u [A B].
    rewrite !glue_right by lra. exact A.
Qed.

Definition nondecreasing_times (times : list R) (n : Z) : Prop :=
  forall m, (0 <= m < n)%Z -> instant times m <= instant times (m + 1).

(* P and C solve the equations driven by the reactivity history *)
Definition trajectory (la be : list R) (al : R) (rhos times : list R) (n : Z) (P : R -> R) (C : Z -> R -> R) : Prop :=
  (forall t, continuity_pt P t /\ forall i, (0 <= i < zlen la)%Z -> continuity_pt (C i) t) /\
  forall m, (0 <= m < n)%Z -> obeys la be al rhos@m P C (instant times m) (instant times (m + 1)).

Lemma is_derive_comp_shift (f : R -> R) a t d : is_derive f (t - a) d -> is_derive (fun u => f (u - a)) t d.
Proof.
  intros D. replace d with (1 * d) by ring.
  apply (is_derive_comp f (fun u => u - a) t d 1 D). auto_derive; [exact I|ring].
Qed.

Section Traj.
Variable croots : list R -> list (R * R).
Hypothesis Hroots : finds_roots croots.

Lemma trajectory_exists k rhos times : consistent k ->
  forall n, (0 <= n)%Z -> nondecreasing_times times n ->
  exists P C, trajectory (kn_lambda k) (kn_beta k) (kn_alpha k) rhos times n P C /\
    P 0 = kn_power k /\ forall i, (0 <= i < zlen (kn_lambda k))%Z -> C i 0 = (kn_conc k)@i.
Proof.
  intros Hk n Hn. pattern n; apply (zint_ind _ 0); [| |exact Hn]; clear n Hn.
  - intros _. exists (fun _ => kn_power k), (fun i _ => (kn_conc k)@i). split; [|split; [reflexivity|reflexivity]]. split.
    + intros t. split; [|intros i _]; apply continuity_pt_const; intros ? ?; reflexivity.
    + intros; lia.
  - intros n Hn IH Hm. destruct IH as (P & C & [HC HT] & P0 & C0); [intros m Hm'; apply Hm; lia|].
    set (c := instant times n). set (r := rhos@n).
    (* the solution starting at the values reached at c *)
    set (la := kn_lambda k) in *. set (be := kn_beta k) in *. set (al := kn_alpha k) in *.
    set (conc := map (fun i => C (Z.of_nat i) c) (seq 0 (length la))).
    assert (Ec : forall i, (0 <= i < zlen la)%Z -> conc@i = C i c).
    { intros i Hi. unfold conc. unfold zlen in Hi. rewrite (nth_indep _ 0 ((fun i => C (Z.of_nat i) c) 0%nat)) by (rewrite map_length, seq_length; lia).
      rewrite (map_nth (fun i => C (Z.of_nat i) c)). rewrite seq_nth by lia. f_equal. lia. }
    set (dev := map (fun i => be@(Z.of_nat i) / al * P c - la@(Z.of_nat i) * conc@(Z.of_nat i)) (seq 0 (length la))).
    set (k1 := mkKin la be dev conc al (P c) 0).
    assert (Hk1 : consistent k1).
    { destruct Hk as (G & _). split; [exact G|]. cbn [k1 kn_conc kn_lambda kn_dev].
      split; [unfold conc; rewrite map_length, seq_length; reflexivity|]. split; [unfold dev; rewrite map_length, seq_length; reflexivity|].
      intros i Hi. cbn [k1 kn_conc kn_lambda kn_dev kn_beta kn_alpha kn_power] in *. unfold zlen in Hi. unfold dev.
      set (h := fun i => be@(Z.of_nat i) / al * P c - la@(Z.of_nat i) * conc@(Z.of_nat i)).
      rewrite (nth_indep _ 0 (h 0%nat)) by (rewrite map_length, seq_length; lia).
      rewrite (map_nth h), seq_nth by lia. unfold h. rewrite Nat.add_0_l, Z2Nat.id by lia. reflexivity. }
    destruct (solution_exists croots Hroots k1 r Hk1) as (Q & D & Q0 & D0 & S).
    cbn [k1 kn_conc kn_lambda kn_dev kn_beta kn_alpha kn_power] in *.
    set (G := fun t => Q (t - c)). set (H := fun i t => D i (t - c)).
    assert (EG : P c = G c) by (unfold G; replace (c - c) with 0 by ring; rewrite Q0; reflexivity).
    assert (EH : forall i, (0 <= i < zlen la)%Z -> C i c = H i c).
    { intros i Hi. unfold H. replace (c - c) with 0 by ring. rewrite D0, Ec by exact Hi. reflexivity. }
    assert (SG : forall t, is_derive G t (kdP la be al r (G t) (fun i => H i t)) /\
      forall i, (0 <= i < zlen la)%Z -> is_derive (H i) t (kdC la be al (G t) (fun i => H i t) i)).
    { intros t. destruct (S (t - c)) as [S1 S2]. split; [|intros i Hi]; apply is_derive_comp_shift; [exact S1|apply S2, Hi]. }
    exists (glue c P G), (fun i => glue c (C i) (H i)).
    assert (Pos : forall m, (0 <= m <= n)%Z -> 0 <= instant times m).
    { intros m [Hm0 Hm1]. revert Hm1. pattern m; apply (zint_ind _ 0); [| |exact Hm0].
      - intros _. unfold instant; cbn; lra.
      - intros j Hj IHj Hj1. pose proof (IHj ltac:(lia)). pose proof (Hm j ltac:(lia)). lra. }
    assert (Mono : forall m, (0 <= m <= n)%Z -> instant times m <= c).
    { intros m [Hm0 Hm1]. unfold c. clear - Hm Hm0 Hm1. assert (L := Hm1). revert Hm1 Hm. pattern n; apply (zint_ind _ m); [| |exact L].
      - intros; lra.
      - intros j Hj IHj Hj1 Hmm. pose proof (IHj ltac:(lia) ltac:(intros q Hq; apply Hmm; lia)). pose proof (Hmm j ltac:(lia)). lra. }
    split; [split|split].
    + intros t. destruct (HC t) as [c1 c2]. destruct (SG t) as [s1 s2].
      split; [apply glue_continuity; [exact c1|eapply is_derive_continuity; exact s1|exact EG]|].
      intros i Hi. apply glue_continuity; [apply c2, Hi|eapply is_derive_continuity; apply s2, Hi|apply EH, Hi].
    + intros m Hm'. destruct (Z.eq_dec m n) as [->|Dm].
      * fold c r. pose proof (Hm n ltac:(lia)) as Hc. fold c in Hc. intros t Ht. rewrite Rmin_left, Rmax_right in Ht by lra.
        destruct (SG t) as [s1 s2].
        assert (Ek : forall i, (0 <= i < zlen la)%Z -> glue c (C i) (H i) t = H i t) by (intros; apply glue_right; lra).
        rewrite (glue_right c P G t) by lra. split.
        -- apply glue_derive_right; [lra|]. unfold kdP in *.
           rewrite (rsum_ext 0 (zlen la) (fun i => la@i * glue c (C i) (H i) t) (fun i => la@i * H i t)) by (intros i Hi; cbv beta; rewrite Ek by exact Hi; reflexivity). exact s1.
        -- intros i Hi. apply glue_derive_right; [lra|]. unfold kdC in *. cbv beta. rewrite Ek by exact Hi. apply s2, Hi.
      * pose proof (HT m ltac:(lia)) as Ho. intros t Ht. pose proof (Hm m ltac:(lia)) as Hc.
        destruct (Ho t Ht) as [s1 s2]. rewrite Rmin_left, Rmax_right in Ht by lra.
        pose proof (Mono (m + 1)%Z ltac:(lia)).
        assert (Ek : forall i, (0 <= i < zlen la)%Z -> glue c (C i) (H i) t = C i t) by (intros; apply glue_left; lra).
        rewrite (glue_left c P G t) by lra. split.
        -- apply glue_derive_left; [lra|]. unfold kdP in *.
           rewrite (rsum_ext 0 (zlen la) (fun i => la@i * glue c (C i) (H i) t) (fun i => la@i * C i t)) by (intros i Hi; cbv beta; rewrite Ek by exact Hi; reflexivity). exact s1.
        -- intros i Hi. apply glue_derive_left; [lra|]. unfold kdC in *. cbv beta. rewrite Ek by exact Hi. apply s2, Hi.
    + rewrite glue_left; [exact P0|]. apply Pos. lia.
    + intros i Hi. rewrite glue_left; [apply C0, Hi|]. apply Pos. lia.
Qed.

Lemma history_exact k rhos times P C : consistent k -> (length rhos <= length times)%nat ->
  trajectory (kn_lambda k) (kn_beta k) (kn_alpha k) rhos times (zlen rhos) P C ->
  P 0 = kn_power k -> (forall i, (0 <= i < zlen (kn_lambda k))%Z -> C i 0 = (kn_conc k)@i) ->
  exists res k', powers exp croots k rhos times = Ok (res, k') /\ consistent k' /\ same_reactor k k' /\
    length res = length rhos /\ (forall m, (0 <= m < zlen rhos)%Z -> res@m = P times@m) /\
    kn_time k' = kn_time k + instant times (zlen rhos) /\ kn_power k' = P (instant times (zlen rhos)) /\
    forall i, (0 <= i < zlen (kn_lambda k))%Z -> (kn_conc k')@i = C i (instant times (zlen rhos)).
Proof.
  intros Hk Hl [HC HT] HP0 HC0.
  destruct (powers_history croots Hroots k rhos times (fun m k1 => kn_power k1 = P (instant times m) /\
     forall i, (0 <= i < zlen (kn_lambda k))%Z -> (kn_conc k1)@i = C i (instant times m)) Hk Hl) as (res & k' & E & H1 & H2 & H3 & H4 & _ & [H5 H6] & H7).
  - unfold instant; cbn. split; [congruence|]. intros i Hi. symmetry. apply HC0, Hi.
  - intros m k1 Hm Hk1 Hs Ht [I1 I2] k2 E2 Hk2 Hs2. destruct Hs as (e1 & e2 & e3).
    destruct (step_exact croots Hroots k1 rhos@m (instant times m) (instant times (m + 1)) P C Hk1) as (k2' & E2' & _ & _ & _ & J1 & J2).
    + rewrite e1, e2, e3. apply HT, Hm.
    + rewrite e1. intros t _. apply HC.
    + congruence.
    + rewrite e1. intros i Hi. symmetry. apply I2, Hi.
    + rewrite E2 in E2'. injection E2' as Ep Ek. subst k2'. split; [exact J1|]. rewrite <- e1. exact J2.
  - exists res, k'. repeat (split; [assumption|]). split; [|split; [exact H4|split; assumption]].
    intros m Hm. destruct (H7 m Hm) as (km & -> & K & _). rewrite K. f_equal. unfold instant.
    destruct (Z.eqb_spec (m + 1) 0); [lia|]. f_equal. f_equal. lia.
Qed.
End Traj.

(* ---------- positivity ---------- *)

Section Pos.
Variables (la be : list R) (al rho : R) (P : R -> R) (C : Z -> R -> R).
Hypothesis G : group_data la be al.
Let n := zlen la.
Let x (r : Z) (t : R) : R := if (r =? 0)%Z then P t else C (r - 1)%Z t.
Let d (r : Z) (t : R) : R := if (r =? 0)%Z then kdP la be al rho (P t) (fun i => C i t) else kdC la be al (P t) (fun i => C i t) (r - 1)%Z.

Lemma positive_solution a b : a <= b -> obeys la be al rho P C a b -> continuous_between la P C a b ->
  0 < P a -> (forall i, (0 <= i < n)%Z -> 0 < C i a) ->
  forall t, a <= t <= b -> 0 < P t /\ forall i, (0 <= i < n)%Z -> 0 < C i t.
Proof.
  intros Hab Ho Hc HP HC t Ht.
  pose proof (zlen_nonneg la) as Hn. fold n in Hn. pose proof G as (Ha & Hl & Hnd & Hpos). fold n in Hpos.
  assert (K : forall r, (0 <= r < n + 1)%Z -> 0 < x r t).
  { intros r Hr.
    destruct (quasi_positive (n + 1) (fun r u => x r (u + a)) (fun r u => d r (u + a))
      (fun r => if (r =? 0)%Z then (rho - rsum 0 n (fun i => be@i)) / al else - la@(r - 1)) (b - a) ltac:(lia) ltac:(lra)) with (i := r) (t := t - a) as [K _].
    - intros i u Hi Hu. unfold x, d.
      assert (Ht' : Rmin a b < u + a < Rmax a b) by (rewrite Rmin_left, Rmax_right by lra; lra).
      destruct (Ho (u + a) Ht') as [D1 D2].
      destruct (Z.eqb_spec i 0).
      + replace (u + a) with (u - - a) in D1 |- * by ring.
        apply (is_derive_ext (fun v => P (v - - a))); [intros; f_equal; ring|]. apply is_derive_comp_shift. exact D1.
      + replace (u + a) with (u - - a) in D2 |- * by ring.
        apply (is_derive_ext (fun v => C (i - 1)%Z (v - - a))); [intros; f_equal; ring|]. apply is_derive_comp_shift. apply D2. unfold n in *. lia.
    - intros i u Hi Hu. destruct (Hc (u + a)) as [c1 c2]; [rewrite Rmin_left, Rmax_right by lra; lra|]. unfold x.
      assert (Sh : continuity_pt (fun v => v + a) u) by (apply derivable_continuous_pt, ex_derive_Reals_0; auto_derive; exact I).
      destruct (Z.eqb_spec i 0).
      + apply (continuity_pt_comp (fun v => v + a) P); assumption.
      + apply (continuity_pt_comp (fun v => v + a) (C (i - 1)%Z)); [exact Sh|apply c2; unfold n in *; lia].
    - intros i Hi. unfold x. rewrite Rplus_0_l. destruct (Z.eqb_spec i 0); [exact HP|apply HC; lia].
    - intros u Hu Hj i Hi. unfold d, x. destruct (Z.eqb_spec i 0).
      + unfold kdP. fold n.
        assert (0 <= rsum 0 n (fun i => la@i * C i (u + a))); [|lra].
        apply rsum_nonneg. intros q Hq. pose proof (Hj (q + 1)%Z ltac:(lia)) as Hx. unfold x in Hx.
        destruct (Z.eqb_spec (q + 1) 0); [lia|]. replace (q + 1 - 1)%Z with q in Hx by lia.
        apply Rmult_le_pos; [left; apply Hpos, Hq|lra].
      + unfold kdC. pose proof (Hj 0%Z ltac:(lia)) as Hx. unfold x in Hx. cbn in Hx.
        assert (0 <= be@(i - 1) / al * P (u + a)); [|lra].
        apply Rmult_le_pos; [|lra]. apply Rmult_le_pos; [left; apply Hpos; lia|left; apply Rinv_0_lt_compat, Ha].
    - exact Hr.
    - lra.
    - replace (t - a + a) with t in K by ring. exact K. }
  split; [exact (K 0%Z ltac:(lia))|]. intros i Hi. pose proof (K (i + 1)%Z ltac:(lia)) as Kx. unfold x in Kx.
  destruct (Z.eqb_spec (i + 1) 0); [lia|]. replace (i + 1 - 1)%Z with i in Kx by lia. exact Kx.
Qed.
End Pos.

(* ---------- superposition, and the sign of the reactivity ---------- *)

Definition solves (la be : list R) (al rho : R) (P : R -> R) (C : Z -> R -> R) : Prop :=
  forall t, is_derive P t (kdP la be al rho (P t) (fun i => C i t)) /\
    forall i, (0 <= i < zlen la)%Z -> is_derive (C i) t (kdC la be al (P t) (fun i => C i t) i).

Lemma kdP_lin la be al rho a b p q (c e : Z -> R) :
  kdP la be al rho (a * p + b * q) (fun i => a * c i + b * e i) = a * kdP la be al rho p c + b * kdP la be al rho q e.
Proof.
  unfold kdP. rewrite (rsum_ext 0 (zlen la) (fun i => la@i * (a * c i + b * e i)) (fun i => a * (la@i * c i) + b * (la@i * e i))) by (intros; ring).
  rewrite rsum_plus, !rsum_scal. ring.
Qed.
Lemma kdC_lin la be al a b p q (c e : Z -> R) i :
  kdC la be al (a * p + b * q) (fun i => a * c i + b * e i) i = a * kdC la be al p c i + b * kdC la be al q e i.
Proof. unfold kdC. ring. Qed.

Lemma is_derive_lin (f g : R -> R) a b t df dg : is_derive f t df -> is_derive g t dg ->
  is_derive (fun t => a * f t + b * g t) t (a * df + b * dg).
Proof. intros H1 H2. apply @is_derive_plus; apply @is_derive_scal; assumption. Qed.

Lemma solves_lin la be al rho a b P C Q D : solves la be al rho P C -> solves la be al rho Q D ->
  solves la be al rho (fun t => a * P t + b * Q t) (fun i t => a * C i t + b * D i t).
Proof.
  intros H1 H2 t. destruct (H1 t) as [A1 A2]. destruct (H2 t) as [B1 B2]. split.
  - rewrite kdP_lin. apply is_derive_lin; assumption.
  - intros i Hi. rewrite kdC_lin. apply is_derive_lin; auto.
Qed.

Lemma solves_derivative la be al rho P C : solves la be al rho P C ->
  solves la be al rho (fun t => kdP la be al rho (P t) (fun i => C i t)) (fun i t => kdC la be al (P t) (fun i => C i t) i).
Proof.
  intros H t. destruct (H t) as [A1 A2]. split.
  - unfold kdP at 2 3. apply @is_derive_plus; [apply @is_derive_scal; exact A1|].
    apply (is_derive_rsum (zlen la) (fun i t => la@i * C i t) (fun i => la@i * kdC la be al (P t) (fun i => C i t) i)); [apply zlen_nonneg|].
    intros i Hi. apply @is_derive_scal. apply A2, Hi.
  - intros i Hi. unfold kdC at 1 3.
    apply @is_derive_minus; [apply @is_derive_scal; exact A1|apply @is_derive_scal; apply A2, Hi].
Qed.

Lemma reactivity_sign la be al rho sg P C T : group_data la be al -> solves la be al rho P C ->
  0 < P 0 -> (forall i, (0 <= i < zlen la)%Z -> C i 0 = be@i * P 0 / (la@i * al)) ->
  0 < sg * rho -> 0 < T -> 0 < sg * (P T - P 0).
Proof.
  intros G S HP HC Hsg HT. pose proof G as (Ha & Hl & Hnd & Hpos).
  set (yP := fun t => kdP la be al rho (P t) (fun i => C i t)). set (yC := fun i t => kdC la be al (P t) (fun i => C i t) i).
  pose proof (solves_derivative _ _ _ _ _ _ S) as Sy. fold yP yC in Sy.
  assert (C0 : forall i, (0 <= i < zlen la)%Z -> 0 < C i 0).
  { intros i Hi. rewrite HC by exact Hi. destruct (Hpos i Hi). apply Rmult_lt_0_compat; [apply Rmult_lt_0_compat; assumption|].
    apply Rinv_0_lt_compat, Rmult_lt_0_compat; assumption. }
  assert (yC0 : forall i, (0 <= i < zlen la)%Z -> yC i 0 = 0).
  { intros i Hi. unfold yC, kdC. rewrite HC by exact Hi. destruct (Hpos i Hi). field. split; lra. }
  assert (yP0 : yP 0 = rho / al * P 0).
  { unfold yP, kdP. rewrite (rsum_ext 0 (zlen la) (fun i => la@i * C i 0) (fun i => P 0 / al * be@i)).
    - rewrite rsum_scal. field. lra.
    - intros i Hi. rewrite HC by exact Hi. destruct (Hpos i Hi). field. split; lra. }
  assert (B : forall Q D, solves la be al rho Q D -> 0 < Q 0 -> (forall i, (0 <= i < zlen la)%Z -> 0 < D i 0) ->
     forall t, 0 <= t <= T -> 0 < Q t /\ forall i, (0 <= i < zlen la)%Z -> 0 < D i t).
  { intros Q D SQ Q0 D0 t Ht. destruct (global_obeys la be al rho Q D 0 T SQ) as [Ho Hc].
    apply (positive_solution la be al rho Q D G 0 T); auto. lra. }
  assert (N : forall t, 0 <= t <= T -> forall i, (0 <= i < zlen la)%Z -> 0 <= sg * yC i t).
  { intros t Ht i Hi. destruct (Rle_lt_dec 0 (sg * yC i t)) as [L|L]; [exact L|exfalso].
    destruct (B P C S HP C0 t Ht) as [_ Cp]. pose proof (Cp i Hi) as Ci.
    set (e := - (sg * yC i t) / (2 * C i t)).
    assert (He : 0 < e) by (unfold e; apply Rmult_lt_0_compat; [lra|apply Rinv_0_lt_compat; lra]).
    destruct (B _ _ (solves_lin _ _ _ _ sg e _ _ _ _ Sy S)) with (t := t) as [_ K].
    - cbv beta. rewrite yP0. assert (0 < sg * (rho / al * P 0)).
      { replace (sg * (rho / al * P 0)) with (sg * rho * (P 0 / al)) by (field; lra).
        apply Rmult_lt_0_compat; [exact Hsg|]. apply Rmult_lt_0_compat; [exact HP|apply Rinv_0_lt_compat, Ha]. }
      assert (0 < e * P 0) by (apply Rmult_lt_0_compat; assumption). lra.
    - intros j Hj. cbv beta. rewrite yC0 by exact Hj. rewrite Rmult_0_r, Rplus_0_l. apply Rmult_lt_0_compat; [exact He|apply C0, Hj].
    - exact Ht.
    - pose proof (K i Hi) as Ki. cbv beta in Ki. replace (e * C i t) with (- (sg * yC i t) / 2) in Ki by (unfold e; field; lra). lra. }
  assert (Y : forall t, 0 <= t <= T -> 0 < sg * yP t).
  { intros t Ht. apply Rlt_le_trans with (exp ((rho - rsum 0 (zlen la) (fun i => be@i)) / al * t) * (sg * yP 0)).
    - apply Rmult_lt_0_compat; [apply exp_pos|]. rewrite yP0.
      replace (sg * (rho / al * P 0)) with (sg * rho * (P 0 / al)) by (field; lra).
      apply Rmult_lt_0_compat; [exact Hsg|]. apply Rmult_lt_0_compat; [exact HP|apply Rinv_0_lt_compat, Ha].
    - apply (grows _ (fun t => sg * yP t) (fun t => sg * kdP la be al rho (yP t) (fun i => yC i t)) t); [lra| | |].
      + intros u Hu. apply (is_derive_scal yP u sg). exact (proj1 (Sy u)).
      + intros u Hu. apply (continuity_pt_scal yP). exact (is_derive_continuity _ _ _ (proj1 (Sy u))).
      + intros u Hu. unfold kdP.
        assert (0 <= rsum 0 (zlen la) (fun i => la@i * (sg * yC i u))).
        { apply rsum_nonneg. intros i Hi. apply Rmult_le_pos; [left; apply Hpos, Hi|apply N; [lra|exact Hi]]. }
        rewrite (rsum_ext 0 (zlen la) (fun i => la@i * (sg * yC i u)) (fun i => sg * (la@i * yC i u))) in H by (intros; ring).
        rewrite rsum_scal in H. lra. }
  destruct (MVT_gen P 0 T yP) as (c & Hc & E).
  - intros t _. exact (proj1 (S t)).
  - intros t _. exact (is_derive_continuity _ _ _ (proj1 (S t))).
  - rewrite Rmin_left, Rmax_right in Hc by lra. rewrite E, Rminus_0_r, <- Rmult_assoc.
    apply Rmult_lt_0_compat; [apply Y, Hc|exact HT].
Qed.
