(* Source iteration on a problem in which every fission neutron can cause
   fission wherever fission neutrons are born: the iteration stops for every
   accuracy, and its result tends to the only positive mode. *)
From Coq Require Import String ZArith List Bool Lia Reals Lra.
From Verif Require Import Base BaseLemmas NumR LinAlg ModelNumTools ProofsNumTools ModelEigen ProofsEigen PowerMethod.
Local Open Scope R_scope.

Lemma Rdiv_le_0_compat a b : 0 <= a -> 0 < b -> 0 <= a / b.
Proof. intros Ha Hb. apply Rmult_le_pos; [exact Ha|]. left. apply Rinv_0_lt_compat. exact Hb. Qed.

Lemma extend (a : nat -> R) C rho m : 0 <= rho < 1 -> 0 <= C -> (forall t, Rabs (a (m + t)%nat) <= C * rho ^ t) ->
  exists C' rho', 0 < rho' < 1 /\ 0 <= C' /\ forall t, Rabs (a t) <= C' * rho' ^ t.
Proof.
  intros Hrho HC Ha. set (q := Rmax rho (1 / 2)). assert (Hq : 0 < q < 1).
  { unfold q. split; [eapply Rlt_le_trans; [|apply Rmax_r]; lra|apply Rmax_lub_lt; lra]. }
  assert (G : exists C', 0 <= C' /\ forall t, Rabs (a t) <= C' * q ^ t); [|destruct G as (C' & H1 & H2); exists C', q; auto].
  assert (H0 : forall t, Rabs (a (m + t)%nat) <= C * q ^ t).
  { intros t. eapply Rle_trans; [apply Ha|]. apply Rmult_le_compat_l; [exact HC|]. apply pow_incr. split; [lra|apply Rmax_l]. }
  clear Ha Hrho. revert C HC H0. induction m as [|m IH]; intros C HC H0; [exists C; auto|].
  apply (IH (C / q + Rabs (a m))).
  - pose proof (Rabs_pos (a m)). assert (0 <= C / q) by (apply Rdiv_le_0_compat; lra). lra.
  - intros t. assert (0 <= C / q) by (apply Rdiv_le_0_compat; lra). pose proof (Rabs_pos (a m)). destruct t as [|t].
    + rewrite Nat.add_0_r. cbn. lra.
    + replace (m + S t)%nat with (S m + t)%nat by lia. eapply Rle_trans; [apply H0|]. pose proof (pow_lt q t ltac:(lra)). cbn [pow].
      replace ((C / q + Rabs (a m)) * (q * q ^ t)) with (C * q ^ t + Rabs (a m) * (q * q ^ t)) by (field; lra).
      assert (0 <= Rabs (a m) * (q * q ^ t)) by (repeat apply Rmult_le_pos; lra). lra.
Qed.

Section Converge.
Variables (solver : mat R -> vec R -> vec R) (M F : mat R) (size : Z).
Let solve := solver M.
Hypothesis HMr : mrows M = size.
Hypothesis HMc : mcols M = size.
Hypothesis HFr : mrows F = size.
Hypothesis HFc : mcols F = size.
Hypothesis Hex : exact_solver M solve.
Hypothesis Hmon : monotone size (mat_at M).
Hypothesis HF0 : forall i j, (0 <= i < size)%Z -> (0 <= j < size)%Z -> 0 <= mat_at F i j.

(* where fission neutrons are born *)
Definition births (i : Z) : R := rsum 0 size (fun j => mat_at F i j).
Notation born := (on size births).
(* a source where they are born makes fission neutrons wherever they are born *)
Hypothesis Hchain : forall b, vlen b = size -> (forall i, (0 <= i < size)%Z -> 0 <= vat b i) -> (exists i, born i /\ 0 < vat b i) ->
  forall i, born i -> 0 < vat (mvmul F (solve b)) i.
Variable r : Z.
Hypothesis Hr : born r.
Let P := power solve F size.

Lemma solve_len b : vlen b = size -> vlen (solve b) = size.
Proof using Hex HMr HMc. intros Hb. rewrite <- HMc. apply Hex. lia. Qed.
Lemma solve_eq b i : vlen b = size -> (0 <= i < size)%Z -> app size (mat_at M) (vat (solve b)) i = vat b i.
Proof using Hex HMr HMc.
  intros Hb Hi. destruct (Hex b) as [_ [_ H]]; [lia|]. rewrite <- H by (cbn; lia). rewrite mvmul_at, HMc. reflexivity.
Qed.
Lemma inj : injective size (mat_at M).
Proof using Hmon. apply monotone_injective, Hmon. Qed.
Lemma solve_nonneg b : vlen b = size -> (forall i, (0 <= i < size)%Z -> 0 <= vat b i) -> forall i, (0 <= i < size)%Z -> 0 <= vat (solve b) i.
Proof using Hex HMr HMc Hmon. intros Hb H0. apply Hmon. intros i Hi. rewrite solve_eq by auto. auto. Qed.
Lemma same_source x y : (forall i, (0 <= i < size)%Z -> app size (mat_at M) x i = app size (mat_at M) y i) -> forall i, (0 <= i < size)%Z -> x i = y i.
Proof using Hmon.
  intros H i Hi. assert (E : x i - y i = 0); [|lra]. apply (inj (fun j => x j - y j)); [|exact Hi]. intros l Hl.
  transitivity (app size (mat_at M) x l - app size (mat_at M) y l); [|rewrite H by auto; ring]. unfold app. rewrite <- rsum_minus. apply rsum_ext. intros; ring.
Qed.

(* the solver is linear *)
Definition unitv (j : Z) : vec R := mkvec size (fun i => if (i =? j)%Z then 1 else 0).
Definition Sm (l j : Z) : R := vat (solve (unitv j)) l.
Lemma solve_linear b l : vlen b = size -> (0 <= l < size)%Z -> vat (solve b) l = rsum 0 size (fun j => Sm l j * vat b j).
Proof using Hex HMr HMc Hmon.
  intros Hb Hl. apply (same_source (vat (solve b)) (fun l => rsum 0 size (fun j => Sm l j * vat b j))); [|exact Hl]. intros i Hi. rewrite solve_eq by auto.
  unfold app. rewrite (rsum_ext 0 size _ (fun l => rsum 0 size (fun j => mat_at M i l * Sm l j * vat b j))).
  2:{ intros l' _. rewrite <- rsum_scal. apply rsum_ext. intros; ring. }
  rewrite rsum_swap. rewrite (rsum_ext 0 size _ (fun j => (if (i =? j)%Z then 1 else 0) * vat b j)).
  2:{ intros j Hj. rewrite rsum_scal_r. f_equal. exact (solve_eq (unitv j) i eq_refl Hi). }
  rewrite (rsum_single 0 size _ i Hi); [rewrite Z.eqb_refl; ring|]. intros j Hj Ne. destruct (Z.eqb_spec i j); [lia|ring].
Qed.
Definition Bm (i j : Z) : R := rsum 0 size (fun l => mat_at F i l * Sm l j).
Lemma F_solve b i : vlen b = size -> vat (mvmul F (solve b)) i = app size Bm (vat b) i.
Proof using Hex HMr HMc Hmon HFc.
  intros Hb. rewrite mvmul_at, HFc. rewrite (rsum_ext 0 size _ (fun l => rsum 0 size (fun j => mat_at F i l * Sm l j * vat b j))).
  2:{ intros l Hl. rewrite solve_linear by auto. rewrite <- rsum_scal. apply rsum_ext. intros; ring. }
  rewrite rsum_swap. apply rsum_ext. intros j _. unfold Bm. rewrite rsum_scal_r. reflexivity.
Qed.
Lemma Bm_pos i j : born i -> born j -> 0 < Bm i j.
Proof using Hex HMr HMc Hmon HFc Hchain.
  intros Hi Hj. pose proof (Hchain (unitv j) eq_refl) as H. rewrite (F_solve (unitv j) i eq_refl) in H || idtac.
  specialize (H ltac:(intros l _; cbn; destruct (l =? j)%Z; lra)). specialize (H ltac:(exists j; split; [exact Hj|cbn; rewrite Z.eqb_refl; lra]) i Hi).
  rewrite F_solve in H by reflexivity. unfold app in H. rewrite (rsum_single 0 size _ j (proj1 Hj)) in H.
  - cbn in H. rewrite Z.eqb_refl in H. lra.
  - intros l Hl Ne. cbn. destruct (Z.eqb_spec l j); [lia|ring].
Qed.
Lemma Bm_bounds : exists lo hi, 0 < lo /\ forall i j, born i -> born j -> lo <= Bm i j <= hi.
Proof using Hex HMr HMc Hmon HFc Hchain Hr.
  assert (Hs : (0 < size)%Z) by (destruct Hr; lia).
  destruct (finite_bounds (fun p => born (p / size) /\ born (p mod size))) with (f := fun p => Bm (p / size) (p mod size)) (m := Z.to_nat (size * size)) as (lo & hi & H1 & _ & H3).
  - intros p. destruct (on_dec size births (p / size)) as [Y | No]; [|right; tauto]. destruct (on_dec size births (p mod size)) as [Y' | No]; [left; auto|right; tauto].
  - intros p _ [A1 A2]. apply Bm_pos; assumption.
  - exists lo, hi. split; [exact H1|]. intros i j Hi Hj. specialize (H3 (i * size + j)%Z).
    assert (E1 : ((i * size + j) / size = i)%Z) by (rewrite Z.div_add_l by lia; rewrite Z.div_small by (destruct Hj; lia); lia).
    assert (E2 : ((i * size + j) mod size = j)%Z) by (rewrite Z.add_comm, Z.mod_add by lia; apply Z.mod_small; destruct Hj; lia).
    rewrite E1, E2 in H3. apply H3; [|auto]. destruct Hi as [Hi _], Hj as [Hj _]. rewrite Z2Nat.id by nia. nia.
Qed.

(* ---------- the iterates ---------- *)
Definition ys (t : nat) (i : Z) : R := vat (mvmul F (pi_flux (P (S t)))) i.
Definition ks (t : nat) : R := pi_k (P (S t)).

Lemma len n : vlen (pi_flux (P n)) = size /\ vlen (pi_src (P n)) = size.
Proof using Hex HMr HMc HFr HFc. apply power_len; auto. exact solve_len. Qed.
Lemma off_row x i : (0 <= i < size)%Z -> ~ born i -> vat (mvmul F x) i = 0.
Proof using HF0 HFc.
  intros Hi No. rewrite mvmul_at, HFc. apply rsum_0. intros j Hj.
  assert (E : mat_at F i j = 0); [|rewrite E; ring]. apply (rsum_nonneg_0 0 size (mat_at F i) j); [intros l Hl; auto| |exact Hj].
  destruct (Rlt_le_dec 0 (births i)) as [Y | Le]; [exfalso; apply No; split; auto|]. apply Rle_antisym; [exact Le|]. apply rsum_nonneg. intros l Hl. auto.
Qed.
Lemma src_cone n : (forall i, (0 <= i < size)%Z -> 0 <= vat (pi_src (P n)) i) /\ 0 < vat (pi_src (P n)) r /\ 0 < pi_k (P n) /\
  (forall i, (0 <= i < size)%Z -> 0 <= vat (pi_flux (P n)) i) /\ (forall i, born i -> 0 < vat (mvmul F (pi_flux (P n))) i).
Proof using Hex HMr HMc Hmon HF0 HFr HFc Hchain Hr.
  induction n as [|n IH].
  - cbn [P power pi_src pi_k pi_flux]. split; [intros; cbn; lra|]. split; [cbn; lra|]. split; [cbn; lra|]. split; [intros; cbn; lra|].
    intros i [Hi Hb]. rewrite mvmul_at, HFc. unfold births in Hb. rewrite (rsum_ext 0 size _ (fun j => mat_at F i j)); [exact Hb|]. intros j _. cbn. ring.
  - destruct IH as (H1 & H2 & H3 & H4 & H5). destruct (len n) as [_ Ls].
    assert (Hf : forall i, (0 <= i < size)%Z -> 0 <= vat (pi_flux (P (S n))) i) by (apply (solve_nonneg (pi_src (P n)) Ls H1)).
    assert (Hb : forall i, born i -> 0 < vat (mvmul F (pi_flux (P (S n)))) i) by (apply (Hchain (pi_src (P n)) Ls H1); exists r; auto).
    assert (Hq : forall i, (0 <= i < size)%Z -> 0 <= vat (mvmul F (pi_flux (P (S n)))) i).
    { intros i Hi. destruct (on_dec size births i) as [Y | No]; [left; auto|]. rewrite off_row by auto. lra. }
    assert (Hq' : forall i, (0 <= i < size)%Z -> 0 <= vat (mvmul F (pi_flux (P n))) i).
    { intros i Hi. destruct (on_dec size births i) as [Y | No]; [left; auto|]. rewrite off_row by auto. lra. }
    assert (Hk : 0 < pi_k (P (S n))).
    { change (0 < pi_k (P n) * (vdot (mvmul F (pi_flux (P (S n)))) (mvmul F (pi_flux (P (S n)))) / vdot (mvmul F (pi_flux (P n))) (mvmul F (pi_flux (P (S n)))))).
      apply Rmult_lt_0_compat; [exact H3|]. apply Rdiv_lt_0_compat; unfold vdot; cbn [vlen mvmul]; rewrite HFr.
      - eapply Rlt_le_trans; [apply (Rmult_lt_0_compat _ _ (Hb r Hr) (Hb r Hr))|].
        apply (rsum_term_le 0 size (fun i => vat (mvmul F (pi_flux (P (S n)))) i * vat (mvmul F (pi_flux (P (S n)))) i) r); [|apply Hr]. intros i Hi. apply Rmult_le_pos; auto.
      - eapply Rlt_le_trans; [apply (Rmult_lt_0_compat _ _ (H5 r Hr) (Hb r Hr))|].
        apply (rsum_term_le 0 size (fun i => vat (mvmul F (pi_flux (P n))) i * vat (mvmul F (pi_flux (P (S n)))) i) r); [|apply Hr]. intros i Hi. apply Rmult_le_pos; auto. }
    split; [|split; [|auto]]; change (pi_src (P (S n))) with (vdivs (mvmul F (pi_flux (P (S n)))) (pi_k (P (S n)))); cbn [vdivs vat]; rnum.
    + intros i Hi. apply Rdiv_le_0_compat; [apply (Hq i Hi)|exact Hk].
    + apply Rdiv_lt_0_compat; [apply (Hb r Hr)|exact Hk].
Qed.
Lemma ys_cone t : cone size births (ys t).
Proof using Hex HMr HMc Hmon HF0 HFr HFc Hchain Hr.
  split; [intros i Hi; apply (src_cone (S t)); exact Hi|]. intros i Hi No. apply off_row; auto.
Qed.
Lemma ks_pos t : 0 < ks t.
Proof using Hex HMr HMc Hmon HF0 HFr HFc Hchain Hr. apply (src_cone (S t)). Qed.
Lemma src_S t i : vat (pi_src (P (S t))) i = ys t i / ks t.
Proof. reflexivity. Qed.
Lemma ys_step t i : (0 <= i < size)%Z -> ks t * ys (S t) i = app size Bm (ys t) i.
Proof using Hex HMr HMc Hmon HF0 HFr HFc Hchain Hr.
  intros Hi. unfold ys at 1. change (pi_flux (P (S (S t)))) with (solve (pi_src (P (S t)))). rewrite F_solve by apply len.
  unfold app. rewrite <- rsum_scal. apply rsum_ext. intros j _. rewrite src_S. pose proof (ks_pos t). field. lra.
Qed.
Lemma ks_step t : ks (S t) * rsum 0 size (fun i => ys t i * ys (S t) i) = ks t * rsum 0 size (fun i => ys (S t) i * ys (S t) i).
Proof using Hex HMr HMc Hmon HF0 HFr HFc Hchain Hr.
  assert (Hd : 0 < rsum 0 size (fun i => ys t i * ys (S t) i)).
  { eapply Rlt_le_trans; [apply (Rmult_lt_0_compat (ys t r) (ys (S t) r)); apply ys_cone; exact Hr|].
    apply (rsum_term_le 0 size (fun i => ys t i * ys (S t) i) r); [|apply Hr]. intros i Hi. apply Rmult_le_pos; eapply cone_nonneg; try apply ys_cone; auto. }
  change (ks (S t)) with (ks t * (vdot (mvmul F (pi_flux (P (S (S t))))) (mvmul F (pi_flux (P (S (S t))))) / vdot (mvmul F (pi_flux (P (S t)))) (mvmul F (pi_flux (P (S (S t))))))).
  unfold vdot. cbn [vlen mvmul]. rewrite HFr.
  change (nsum 0 size (fun i : Z => nmul (vat (mvmul F (pi_flux (P (S t)))) i) (vat (mvmul F (pi_flux (P (S (S t))))) i))) with (rsum 0 size (fun i => ys t i * ys (S t) i)).
  change (nsum 0 size (fun i : Z => nmul (vat (mvmul F (pi_flux (P (S (S t))))) i) (vat (mvmul F (pi_flux (P (S (S t))))) i))) with (rsum 0 size (fun i => ys (S t) i * ys (S t) i)).
  field. lra.
Qed.

(* the iteration stops *)
Lemma iteration_stops acc dir : 0 < acc -> exists N, forall max, (N <= max)%Z -> exists its er, sourceIteration solver M F max acc dir = Ok (its, er).
Proof using Hex HMr HMc Hmon HF0 HFr HFc Hchain Hr.
  intros Ha. destruct Bm_bounds as (lo & hi & Hlo & HB).
  destruct (power_stops size Bm births lo hi r Hlo HB Hr ys ks ys_cone ks_pos ys_step ks_step acc Ha) as [T HT].
  exists (Z.of_nat (S T) + 1)%Z. intros max Hmax.
  destruct (sourceIteration_spec solver M F size max acc dir ltac:(destruct Hr; lia) HMr HMc HFr HFc solve_len) as [(j & _ & _ & _ & E) | [H _]]; [eauto|].
  exfalso. specialize (H (S T) ltac:(lia)). specialize (HT T (le_n T)). unfold pi_change in H. rnum.
  change (Rltb (Rabs ((ks (S T) - ks T) / ks (S T))) acc = false) in H. apply Rltb_false in H. lra.
Qed.

(* ---------- the limit ---------- *)
Definition vecof (x : Z -> R) : vec R := mkvec size x.
Definition nrm (x : Z -> R) : R := rsum 0 size (fun i => Rabs (x i)).
Lemma nrm_nonneg x : 0 <= nrm x.
Proof. apply rsum_nonneg. intros; apply Rabs_pos. Qed.
Lemma nrm_scale c x : nrm (fun i => c * x i) = Rabs c * nrm x.
Proof. unfold nrm. rewrite <- rsum_scal. apply rsum_ext. intros; apply Rabs_mult. Qed.
Lemma nrm_tri x y : Rabs (nrm x - nrm y) <= nrm (fun i => x i - y i).
Proof.
  assert (T : forall x y, nrm x <= nrm y + nrm (fun i => x i - y i)).
  { clear. intros x y. unfold nrm. rewrite <- rsum_plus. apply rsum_le. intros i _. replace (x i) with (y i + (x i - y i)) at 1 by ring. apply Rabs_triang. }
  pose proof (T x y) as H1. pose proof (T y x) as H2. replace (nrm (fun i => y i - x i)) with (nrm (fun i => x i - y i)) in H2; [apply Rabs_le; lra|].
  apply rsum_ext. intros i _. apply Rabs_minus_sym.
Qed.
(* normalised vectors are close when the vectors are *)
Lemma nrm_quot x y : 0 < nrm x -> 0 < nrm y -> nrm (fun i => x i / nrm x - y i / nrm y) <= 2 * nrm (fun i => x i - y i) / nrm x.
Proof.
  intros Hx Hy.
  assert (T : forall u a b, nrm (fun i => u i * a + y i * b) <= nrm u * Rabs a + nrm y * Rabs b).
  { intros u a b. unfold nrm. rewrite <- !rsum_scal_r, <- rsum_plus. apply rsum_le. intros i _. rewrite <- !Rabs_mult. apply Rabs_triang. }
  apply Rle_trans with (nrm (fun i => x i - y i) * / nrm x + nrm y * (Rabs (nrm y - nrm x) / (nrm x * nrm y))).
  - replace (nrm (fun i => x i / nrm x - y i / nrm y)) with (nrm (fun i => (x i - y i) * / nrm x + y i * ((nrm y - nrm x) / (nrm x * nrm y)))) by (apply rsum_ext; intros i _; f_equal; field; lra).
    eapply Rle_trans; [apply (T (fun i => x i - y i))|]. rewrite (Rabs_pos_eq (/ nrm x)) by (left; apply Rinv_0_lt_compat; lra).
    unfold Rdiv. rewrite Rabs_mult. rewrite (Rabs_pos_eq (/ (nrm x * nrm y))) by (left; apply Rinv_0_lt_compat; apply Rmult_lt_0_compat; lra). lra.
  - replace (nrm y * (Rabs (nrm y - nrm x) / (nrm x * nrm y))) with (Rabs (nrm x - nrm y) * / nrm x) by (rewrite Rabs_minus_sym; field; lra).
    unfold Rdiv. rewrite (Rmult_comm 2), Rmult_assoc. pose proof (nrm_tri x y). pose proof (Rinv_0_lt_compat _ Hx). nra.
Qed.

Lemma limit : exists kl phi C rho, 0 < kl /\ 0 < rho < 1 /\ 0 <= C /\ vlen phi = size /\ nrm (vat phi) = 1 /\
  (forall i, (0 <= i < size)%Z -> 0 <= vat phi i) /\ (forall i, born i -> 0 < vat (mvmul F phi) i) /\
  (forall i, (0 <= i < size)%Z -> vat (mvmul M phi) i = vat (mvmul F phi) i / kl) /\
  (forall t, Rabs (pi_k (P t) - kl) <= C * rho ^ t) /\
  (forall t i, (0 <= i < size)%Z -> Rabs (vat (pi_flux (P t)) i / nrm (vat (pi_flux (P t))) - vat phi i) <= C * rho ^ t).
Proof using Hex HMr HMc Hmon HF0 HFr HFc Hchain Hr.
  destruct Bm_bounds as (lo & hi & Hlo & HB).
  destruct (power_method size Bm births lo hi r Hlo HB Hr ys ks ys_cone ks_pos ys_step ks_step) as (kl & ul & C & rh & Hkl & Hrh & HC & Cu & Ur & Eu & Lk & Lu).
  set (v := vat (solve (vecof ul))).
  assert (Vn : forall i, (0 <= i < size)%Z -> 0 <= v i) by (apply (solve_nonneg (vecof ul) eq_refl); intros i Hi; exact (cone_nonneg _ _ _ _ Cu Hi)).
  assert (Ev : forall i, (0 <= i < size)%Z -> app size (mat_at M) v i = ul i) by (intros i Hi; exact (solve_eq (vecof ul) i eq_refl Hi)).
  assert (Fv : forall i, (0 <= i < size)%Z -> app size (mat_at F) v i = kl * ul i).
  { intros i Hi. rewrite <- Eu by exact Hi. change (app size Bm ul i) with (app size Bm (vat (vecof ul)) i). rewrite <- (F_solve (vecof ul) i eq_refl). rewrite mvmul_at, HFc. reflexivity. }
  (* a lower bound of the norms *)
  set (mr := rsum 0 size (fun j => Rabs (mat_at M r j))).
  assert (Low : forall x, app size (mat_at M) x r = 1 -> 1 <= mr * nrm x).
  { intros x Hx. rewrite <- Rabs_R1 at 1. rewrite <- Hx. unfold app. eapply Rle_trans; [apply rsum_Rabs|]. unfold nrm. rewrite <- rsum_scal. apply rsum_le. intros j Hj.
    rewrite Rabs_mult. apply Rmult_le_compat_r; [apply Rabs_pos|]. apply (rsum_term_le 0 size (fun j => Rabs (mat_at M r j)) j); [intros; apply Rabs_pos|exact Hj]. }
  assert (Nv : 0 < nrm v). { pose proof (Low v ltac:(rewrite Ev by apply Hr; exact Ur)). pose proof (nrm_nonneg v). destruct H0; [assumption|]. rewrite <- H0 in H. lra. }
  assert (Hmr : 0 < mr). { pose proof (Low v ltac:(rewrite Ev by apply Hr; exact Ur)). nra. }
  (* the fluxes of the iterates are solutions for the scaled sources *)
  set (ut t i := ys (S t) i / ys (S t) r). set (vt t := vat (solve (vecof (ut t)))).
  assert (Lv : forall t i, (0 <= i < size)%Z -> Rabs (vt t i - v i) <= rsum 0 size (fun j => Rabs (Sm i j)) * (C * rh ^ t)).
  { intros t i Hi. unfold vt, v. rewrite !solve_linear by (reflexivity || exact Hi). rewrite <- rsum_minus. eapply Rle_trans; [apply rsum_Rabs|].
    rewrite <- rsum_scal_r. apply rsum_le. intros j Hj. cbn [vat vecof].
    replace (Sm i j * ut t j - Sm i j * ul j) with (Sm i j * (ut t j - ul j)) by ring. rewrite Rabs_mult. apply Rmult_le_compat_l; [apply Rabs_pos|]. apply Lu. exact Hj. }
  set (Cs := rsum 0 size (fun i => rsum 0 size (fun j => Rabs (Sm i j))) * C).
  assert (Ln : forall t, nrm (fun i => vt t i - v i) <= Cs * rh ^ t).
  { intros t. unfold nrm, Cs. rewrite Rmult_assoc, <- rsum_scal_r. apply rsum_le. intros i Hi. apply Lv. exact Hi. }
  assert (HCs : 0 <= Cs) by (apply Rmult_le_pos; [apply rsum_nonneg; intros; apply rsum_nonneg; intros; apply Rabs_pos|exact HC]).
  assert (Lt : forall t, 1 <= mr * nrm (vt t)).
  { intros t. apply Low. unfold vt. rewrite solve_eq by (reflexivity || apply Hr). cbn [vat vecof]. unfold ut. field. pose proof (proj1 (ys_cone (S t)) r Hr). lra. }
  assert (Nt : forall t, 0 < nrm (vt t)) by (intros t; pose proof (Lt t); nra).
  assert (Qt : forall t, nrm (fun i => vt t i / nrm (vt t) - v i / nrm v) <= 2 * mr * Cs * rh ^ t).
  { intros t. eapply Rle_trans; [apply nrm_quot; auto|]. pose proof (Ln t) as H1. pose proof (Lt t) as H2. pose proof (Nt t) as H3.
    pose proof (nrm_nonneg (fun i => vt t i - v i)) as H4. apply (Rmult_le_reg_r (nrm (vt t))); [exact H3|].
    unfold Rdiv. rewrite Rmult_assoc, Rinv_l, Rmult_1_r by lra.
    assert (0 <= Cs * rh ^ t) by (apply Rmult_le_pos; [exact HCs|apply pow_le; lra]). nra. }
  (* the flux of iterate t + 3 is a multiple of vt t *)
  assert (Ft : forall t i, (0 <= i < size)%Z -> vat (pi_flux (P (S (S (S t))))) i = ys (S t) r / ks (S t) * vt t i).
  { intros t i Hi. change (pi_flux (P (S (S (S t))))) with (solve (pi_src (P (S (S t))))). unfold vt. rewrite !solve_linear by (reflexivity || apply len || exact Hi).
    rewrite <- rsum_scal. apply rsum_ext. intros j _. rewrite src_S. cbn [vat vecof]. unfold ut. pose proof (proj1 (ys_cone (S t)) r Hr). pose proof (ks_pos (S t)). field. lra. }
  assert (Fq : forall t i, (0 <= i < size)%Z -> vat (pi_flux (P (S (S (S t))))) i / nrm (vat (pi_flux (P (S (S (S t)))))) = vt t i / nrm (vt t)).
  { intros t i Hi. set (c := ys (S t) r / ks (S t)). assert (Hc : 0 < c) by (apply Rdiv_lt_0_compat; [apply ys_cone; exact Hr|apply ks_pos]).
    assert (E : nrm (vat (pi_flux (P (S (S (S t)))))) = c * nrm (vt t)).
    { rewrite <- (Rabs_pos_eq c) by lra. rewrite <- nrm_scale. apply rsum_ext. intros j Hj. rewrite Ft by exact Hj. reflexivity. }
    rewrite E, Ft by exact Hi. fold c. field. pose proof (Nt t). lra. }
  (* both errors as one sequence *)
  set (err t := Rabs (pi_k (P t) - kl) + nrm (fun i => vat (pi_flux (P t)) i / nrm (vat (pi_flux (P t))) - v i / nrm v)).
  destruct (extend err (C + 2 * mr * Cs) rh 3 Hrh) as (C' & rho & Hrho & HC' & He).
  - assert (0 <= 2 * mr * Cs) by (apply Rmult_le_pos; [lra|exact HCs]). lra.
  - intros t. assert (P0 : 0 <= err (3 + t)%nat) by (unfold err; pose proof (Rabs_pos (pi_k (P (3 + t)%nat) - kl)); pose proof (nrm_nonneg (fun i => vat (pi_flux (P (3 + t)%nat)) i / nrm (vat (pi_flux (P (3 + t)%nat))) - v i / nrm v)); lra).
    rewrite Rabs_pos_eq by exact P0. unfold err. rewrite Rmult_plus_distr_r. apply Rplus_le_compat; [exact (Lk t)|].
    eapply Rle_trans; [|exact (Qt t)]. apply Req_le. apply rsum_ext. intros i Hi. f_equal. f_equal. exact (Fq t i Hi).
  - exists kl, (vecof (fun i => v i / nrm v)), C', rho. split; [exact Hkl|]. split; [exact Hrho|]. split; [exact HC'|]. split; [reflexivity|].
    assert (Mv : forall A : mat R, mcols A = size -> forall i, vat (mvmul A (vecof (fun i => v i / nrm v))) i = app size (mat_at A) v i / nrm v).
    { intros A HA i. rewrite mvmul_at, HA. unfold app, Rdiv. rewrite <- rsum_scal_r. apply rsum_ext. intros j _. cbn [vat vecof]. ring. }
    split; [|split; [|split; [|split; [|split]]]].
    + transitivity (nrm (fun i => / nrm v * v i)); [apply rsum_ext; intros i _; cbn [vat vecof]; f_equal; unfold Rdiv; ring|].
      rewrite nrm_scale, Rabs_pos_eq by (left; apply Rinv_0_lt_compat; exact Nv). field. lra.
    + intros i Hi. cbn [vat vecof]. apply Rdiv_le_0_compat; auto.
    + intros i Hi. rewrite Mv by exact HFc. rewrite Fv by apply Hi. apply Rdiv_lt_0_compat; [|exact Nv]. apply Rmult_lt_0_compat; [exact Hkl|]. apply Cu. exact Hi.
    + intros i Hi. rewrite !Mv by assumption. rewrite Ev, Fv by exact Hi. field. lra.
    + intros t. eapply Rle_trans; [|exact (He t)]. eapply Rle_trans; [|apply RRle_abs]. unfold err. pose proof (nrm_nonneg (fun i => vat (pi_flux (P t)) i / nrm (vat (pi_flux (P t))) - v i / nrm v)). lra.
    + intros t i Hi. eapply Rle_trans; [|exact (He t)]. eapply Rle_trans; [|apply RRle_abs]. unfold err. cbn [vat vecof].
      pose proof (Rabs_pos (pi_k (P t) - kl)).
      assert (Rabs (vat (pi_flux (P t)) i / nrm (vat (pi_flux (P t))) - v i / nrm v) <= nrm (fun i => vat (pi_flux (P t)) i / nrm (vat (pi_flux (P t))) - v i / nrm v)); [|lra].
      apply (rsum_term_le 0 size (fun i => Rabs (vat (pi_flux (P t)) i / nrm (vat (pi_flux (P t))) - v i / nrm v)) i); [intros; apply Rabs_pos|exact Hi].
Qed.

(* modes of the problem with non-negative flux: there is only one *)
Lemma mode_unique k1 k2 f1 f2 : vlen f1 = size -> vlen f2 = size -> 0 < k1 -> 0 < k2 ->
  (forall f, f = f1 \/ f = f2 -> (forall i, (0 <= i < size)%Z -> 0 <= vat f i) /\ exists i, (0 <= i < size)%Z /\ vat (mvmul F f) i <> 0) ->
  (forall i, (0 <= i < size)%Z -> vat (mvmul M f1) i = vat (mvmul F f1) i / k1) ->
  (forall i, (0 <= i < size)%Z -> vat (mvmul M f2) i = vat (mvmul F f2) i / k2) ->
  k1 = k2 /\ exists c, 0 < c /\ forall i, (0 <= i < size)%Z -> vat f1 i = c * vat f2 i.
Proof using Hex HMr HMc Hmon HF0 HFr HFc Hchain Hr.
  intros L1 L2 K1 K2 Hf E1 E2.
  assert (G : forall f k, vlen f = size -> 0 < k -> (forall i, (0 <= i < size)%Z -> 0 <= vat f i) -> (exists i, (0 <= i < size)%Z /\ vat (mvmul F f) i <> 0) ->
    (forall i, (0 <= i < size)%Z -> vat (mvmul M f) i = vat (mvmul F f) i / k) ->
    cone size births (vat (mvmul F f)) /\ (forall i, (0 <= i < size)%Z -> app size Bm (vat (mvmul F f)) i = k * vat (mvmul F f) i) /\
    (forall i, (0 <= i < size)%Z -> vat f i = vat (solve (mvmul F f)) i / k)).
  { clear f1 f2 k1 k2 L1 L2 K1 K2 Hf E1 E2. intros f k L K Hn (q & Hq & Nq) E.
    assert (Hs : forall i, (0 <= i < size)%Z -> vat f i = vat (solve (mvmul F f)) i / k).
    { intros i Hi. apply (same_source (vat f) (fun i => vat (solve (mvmul F f)) i / k)); [|exact Hi]. intros l Hl.
      transitivity (vat (mvmul F f) l / k); [rewrite <- (E l Hl), mvmul_at, HMc; reflexivity|].
      rewrite <- (solve_eq (mvmul F f) l HFr Hl). unfold app, Rdiv. rewrite <- rsum_scal_r. apply rsum_ext. intros; ring. }
    assert (Hq0 : forall i, (0 <= i < size)%Z -> 0 <= vat (mvmul F f) i).
    { intros i Hi. rewrite mvmul_at, HFc. apply rsum_nonneg. intros j Hj. apply Rmult_le_pos; auto. }
    assert (Hb : forall i, (0 <= i < size)%Z -> app size Bm (vat (mvmul F f)) i = k * vat (mvmul F f) i).
    { intros i Hi. rewrite <- (F_solve (mvmul F f) i HFr). rewrite !mvmul_at, HFc, <- rsum_scal. apply rsum_ext. intros j Hj. rewrite (Hs j Hj). field. lra. }
    split; [|split; assumption]. split; [|intros i Hi No; apply off_row; assumption].
    intros i Hi. assert (0 < vat (mvmul F (solve (mvmul F f))) i).
    { apply Hchain; [exact HFr|exact Hq0| |exact Hi]. exists q. assert (Hb' : born q) by (destruct (on_dec size births q) as [Y | No]; [exact Y|exfalso; apply Nq, off_row; assumption]).
      split; [exact Hb'|]. destruct (Hq0 q Hq); [assumption|congruence]. }
    rewrite (F_solve (mvmul F f) i HFr), Hb in H by apply Hi. nra. }
  destruct (Hf f1 (or_introl eq_refl)) as [N1 Q1]. destruct (Hf f2 (or_intror eq_refl)) as [N2 Q2].
  destruct (G f1 k1 L1 K1 N1 Q1 E1) as (C1 & B1 & S1). destruct (G f2 k2 L2 K2 N2 Q2 E2) as (C2 & B2 & S2).
  destruct (one_positive_mode size Bm births r Bm_pos Hr _ _ k1 k2 C1 C2 B1 B2) as (<- & c & Hc & Hcc). split; [reflexivity|]. exists c. split; [exact Hc|].
  intros i Hi. rewrite S1, S2 by exact Hi. rewrite !solve_linear by (exact HFr || exact Hi). unfold Rdiv. rewrite <- Rmult_assoc. f_equal. rewrite <- rsum_scal. apply rsum_ext.
  intros j Hj. rewrite (Hcc j Hj). ring.
Qed.
End Converge.
