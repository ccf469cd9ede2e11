(* The power method on a positive operator: geometric convergence, the positive
   mode and its uniqueness. Nothing here is about the code. *)
From Coq Require Import ZArith Lia Reals Lra.
From Coquelicot Require Import Coquelicot.
From Verif Require Import Base BaseLemmas NumR LinAlg.
Local Open Scope R_scope.

(* ---------- sequences ---------- *)

Lemma geo_limit (a : nat -> R) C rho : 0 <= rho < 1 -> 0 <= C -> (forall t, Rabs (a (S t) - a t) <= C * rho ^ t) ->
  forall t, Rabs (a t - real (Lim_seq a)) <= C / (1 - rho) * rho ^ t.
Proof.
  intros Hr HC Ha.
  assert (D : forall p t, Rabs (a (t + p)%nat - a t) <= C / (1 - rho) * rho ^ t * (1 - rho ^ p)).
  { induction p as [|p IH]; intros t.
    - rewrite Nat.add_0_r. replace (a t - a t) with 0 by ring. rewrite Rabs_R0. cbn. lra.
    - replace (t + S p)%nat with (S (t + p)) by lia. replace (a (S (t + p)) - a t) with ((a (S (t + p)%nat) - a (t + p)%nat) + (a (t + p)%nat - a t)) by ring.
      eapply Rle_trans; [apply Rabs_triang|]. eapply Rle_trans; [apply Rplus_le_compat; [apply Ha|apply IH]|].
      rewrite pow_add. cbn [pow]. apply Req_le. field. lra. }
  assert (D' : forall p t, Rabs (a (t + p)%nat - a t) <= C / (1 - rho) * rho ^ t).
  { intros p t. eapply Rle_trans; [apply D|]. rewrite <- (Rmult_1_r (C / (1 - rho) * rho ^ t)) at 2. apply Rmult_le_compat_l.
    - apply Rmult_le_pos; [apply Rdiv_le_0_compat; lra|apply pow_le; lra].
    - pose proof (pow_le rho p ltac:(lra)). lra. }
  assert (E : ex_finite_lim_seq a).
  { apply ex_lim_seq_cauchy_corr. intros eps.
    assert (exists N, C / (1 - rho) * rho ^ N < eps / 2) as [N HN].
    { destruct (pow_lt_1_zero rho ltac:(rewrite Rabs_pos_eq; lra) (eps / 2 / (C / (1 - rho) + 1))) as [N HN].
      - apply Rdiv_lt_0_compat; [destruct eps; cbn; lra|]. assert (0 <= C / (1 - rho)) by (apply Rdiv_le_0_compat; lra). lra.
      - exists N. specialize (HN N ltac:(lia)). rewrite Rabs_pos_eq in HN by (apply pow_le; lra).
        assert (H0 : 0 <= C / (1 - rho)) by (apply Rdiv_le_0_compat; lra). pose proof (pow_le rho N ltac:(lra)) as Hp. destruct eps as [eps Heps]. cbn [pos] in *.
        apply (Rmult_lt_compat_r (C / (1 - rho) + 1)) in HN; [|lra].
        replace (eps / 2 / (C / (1 - rho) + 1) * (C / (1 - rho) + 1)) with (eps / 2) in HN by (field; lra). nra. }
    exists N. intros p q Hp Hq.
    replace (a p - a q) with ((a (N + (p - N))%nat - a N) - (a (N + (q - N))%nat - a N)) by (replace (N + (p - N))%nat with p by lia; replace (N + (q - N))%nat with q by lia; ring).
    eapply Rle_lt_trans; [apply Rabs_triang|]. rewrite Rabs_Ropp. pose proof (D' (p - N)%nat N). pose proof (D' (q - N)%nat N). lra. }
  intros t. apply Lim_seq_correct' in E.
  assert (L : is_lim_seq (fun p => Rabs (a t - a (t + p)%nat)) (Rabs (a t - real (Lim_seq a)))).
  { apply (is_lim_seq_abs _ (Finite (a t - real (Lim_seq a)))). apply is_lim_seq_minus'; [apply is_lim_seq_const|].
    apply (is_lim_seq_ext (fun p => a (p + t)%nat)); [intros p; f_equal; lia|]. apply (is_lim_seq_incr_n a t). exact E. }
  assert (is_lim_seq (fun _ : nat => C / (1 - rho) * rho ^ t) (C / (1 - rho) * rho ^ t)) as L2 by apply is_lim_seq_const.
  refine (is_lim_seq_le _ _ _ _ _ L L2). intros p. rewrite Rabs_minus_sym. apply D'.
Qed.

Lemma geo_zero x C rho : 0 <= rho < 1 -> (forall t, Rabs x <= C * rho ^ t) -> x = 0.
Proof.
  intros Hr H. destruct (Req_dec x 0) as [E | Nx]; [exact E|]. exfalso. pose proof (Rabs_pos_lt x Nx) as Hx.
  pose proof (H 0%nat) as H0. cbn in H0. assert (HC : 0 < C) by lra.
  destruct (pow_lt_1_zero rho ltac:(rewrite Rabs_pos_eq; lra) (Rabs x / C)) as [N HN]; [apply Rdiv_lt_0_compat; lra|].
  specialize (HN N ltac:(lia)). rewrite Rabs_pos_eq in HN by (apply pow_le; lra). specialize (H N).
  apply (Rmult_lt_compat_l C) in HN; [|lra]. replace (C * (Rabs x / C)) with (Rabs x) in HN by (field; lra). lra.
Qed.

(* ---------- finite families ---------- *)

Lemma finite_bounds (P : Z -> Prop) (Pdec : forall i, {P i} + {~ P i}) (f : Z -> R) (m : nat) :
  (forall i, (0 <= i < Z.of_nat m)%Z -> P i -> 0 < f i) ->
  exists lo hi, 0 < lo /\ lo <= hi /\ forall i, (0 <= i < Z.of_nat m)%Z -> P i -> lo <= f i <= hi.
Proof.
  induction m as [|m IH]; intros H; [exists 1, 1; repeat split; try lra; lia|].
  destruct IH as (lo & hi & H1 & H2 & H3); [intros i Hi; apply H; lia|].
  destruct (Pdec (Z.of_nat m)) as [Y | No].
  - pose proof (H (Z.of_nat m) ltac:(lia) Y) as Hf. exists (Rmin lo (f (Z.of_nat m))), (Rmax hi (f (Z.of_nat m))).
    pose proof (Rmin_l lo (f (Z.of_nat m))). pose proof (Rmin_r lo (f (Z.of_nat m))).
    pose proof (Rmax_l hi (f (Z.of_nat m))). pose proof (Rmax_r hi (f (Z.of_nat m))).
    split; [apply Rmin_glb_lt; assumption|]. split; [lra|]. intros i Hi Pi.
    destruct (Z.eq_dec i (Z.of_nat m)) as [-> | Ne]; [lra|]. pose proof (H3 i ltac:(lia) Pi). lra.
  - exists lo, hi. split; [exact H1|]. split; [exact H2|]. intros i Hi Pi.
    destruct (Z.eq_dec i (Z.of_nat m)) as [-> | Ne]; [contradiction|]. apply H3; [lia|exact Pi].
Qed.

Section Power.
Variables (n : Z) (B : Z -> Z -> R) (w : Z -> R).
Definition on (i : Z) : Prop := (0 <= i < n)%Z /\ 0 < w i.
Lemma on_dec i : {on i} + {~ on i}.
Proof.
  destruct (Z_le_dec 0 i); [|right; intros [? ?]; lia]. destruct (Z_lt_dec i n); [|right; intros [? ?]; lia].
  destruct (Rlt_dec 0 (w i)); [left; split; [lia|assumption]|right; intros [_ ?]; contradiction].
Qed.
Variables (lo hi : R) (r : Z).
Hypothesis Hlo : 0 < lo.
Hypothesis HB : forall i j, on i -> on j -> lo <= B i j <= hi.
Hypothesis Hr : on r.

(* positive where w is, zero elsewhere *)
Definition cone (y : Z -> R) : Prop := (forall i, on i -> 0 < y i) /\ (forall i, (0 <= i < n)%Z -> ~ on i -> y i = 0).
Lemma cone_nonneg y i : cone y -> (0 <= i < n)%Z -> 0 <= y i.
Proof. intros [H1 H2] Hi. destruct (on_dec i) as [Y | No]; [left; auto|]. rewrite H2 by auto. lra. Qed.
Lemma cone_sum y : cone y -> 0 < rsum 0 n y.
Proof.
  intros C. eapply Rlt_le_trans; [apply (proj1 C r Hr)|]. apply rsum_term_le; [|apply Hr]. intros k Hk. apply cone_nonneg; auto.
Qed.
Lemma app_between y i : cone y -> on i -> lo * rsum 0 n y <= app n B y i <= hi * rsum 0 n y.
Proof.
  intros C Hi. unfold app. rewrite <- !rsum_scal. split; apply rsum_le; intros j Hj.
  - destruct (on_dec j) as [Y | No]; [|rewrite (proj2 C j Hj No); lra]. apply Rmult_le_compat_r; [apply cone_nonneg; auto|]. apply HB; auto.
  - destruct (on_dec j) as [Y | No]; [|rewrite (proj2 C j Hj No); lra]. apply Rmult_le_compat_r; [apply cone_nonneg; auto|]. apply HB; auto.
Qed.
Lemma hi_pos : lo <= hi.
Proof. pose proof (HB r r Hr Hr). lra. Qed.

(* z = B y lies between m y and M y: so does B z between m' z and M' z *)
Definition bracket (y : Z -> R) (m M : R) : Prop := forall i, on i -> m * y i <= app n B y i <= M * y i.
Lemma bracket_step y z m M delta : cone y -> cone z -> (forall i, (0 <= i < n)%Z -> z i = app n B y i) -> 0 <= delta ->
  (forall i, on i -> delta * z i <= B i r * y r) -> bracket y m M ->
  exists m' M', m <= m' /\ M' <= M /\ M' - m' = (1 - delta) * (M - m) /\ bracket z m' M'.
Proof.
  intros Cy Cz Ez Hd Hdel Hb. pose proof (proj1 Cy r Hr) as Hyr. set (t := z r / y r).
  assert (Et : z r = t * y r) by (unfold t; field; lra).
  assert (Ht : m <= t <= M).
  { pose proof (Hb r Hr) as H. rewrite <- Ez in H by apply Hr. rewrite Et in H. split; apply (Rmult_le_reg_r (y r)); tauto. }
  assert (Hbz : forall j, (0 <= j < n)%Z -> m * y j <= z j <= M * y j).
  { intros j Hj. destruct (on_dec j) as [Y | No]; [rewrite Ez by auto; apply Hb; auto|]. rewrite (proj2 Cy j Hj No), (proj2 Cz j Hj No). lra. }
  exists (m + delta * (t - m)), (M - delta * (M - t)). split; [assert (0 <= delta * (t - m)) by (apply Rmult_le_pos; lra); lra|].
  split; [assert (0 <= delta * (M - t)) by (apply Rmult_le_pos; lra); lra|]. split; [ring|]. intros i Hi.
  assert (S1 : B i r * (M * y r - z r) <= M * z i - app n B z i).
  { rewrite (Ez i) by apply Hi. unfold app. rewrite <- rsum_scal, <- rsum_minus.
    rewrite (rsum_ext 0 n (fun k => M * (B i k * y k) - B i k * z k) (fun j => B i j * (M * y j - z j))) by (intros; ring).
    apply (rsum_term_le 0 n (fun j => B i j * (M * y j - z j)) r); [|apply Hr]. intros j Hj.
    destruct (on_dec j) as [Y | No]; [|rewrite (proj2 Cy j Hj No), (proj2 Cz j Hj No); lra].
    apply Rmult_le_pos; [pose proof (HB i j Hi Y); lra|]. pose proof (Hbz j Hj). lra. }
  assert (S2 : B i r * (z r - m * y r) <= app n B z i - m * z i).
  { rewrite (Ez i) by apply Hi. unfold app. rewrite <- rsum_scal, <- rsum_minus.
    rewrite (rsum_ext 0 n (fun k => B i k * z k - m * (B i k * y k)) (fun j => B i j * (z j - m * y j))) by (intros; ring).
    apply (rsum_term_le 0 n (fun j => B i j * (z j - m * y j)) r); [|apply Hr]. intros j Hj.
    destruct (on_dec j) as [Y | No]; [|rewrite (proj2 Cy j Hj No), (proj2 Cz j Hj No); lra].
    apply Rmult_le_pos; [pose proof (HB i j Hi Y); lra|]. pose proof (Hbz j Hj). lra. }
  rewrite Et in S1, S2. replace (B i r * (M * y r - t * y r)) with (B i r * y r * (M - t)) in S1 by ring.
  replace (B i r * (t * y r - m * y r)) with (B i r * y r * (t - m)) in S2 by ring.
  pose proof (Hdel i Hi) as Hdi.
  pose proof (Rmult_le_compat_r (M - t) _ _ ltac:(lra) Hdi). pose proof (Rmult_le_compat_r (t - m) _ _ ltac:(lra) Hdi). split; nra.
Qed.

(* ---------- the iteration ---------- *)
Variables (y : nat -> Z -> R) (k : nat -> R).
Hypothesis Hy : forall t, cone (y t).
Hypothesis Hk : forall t, 0 < k t.
Hypothesis Hstep : forall t i, (0 <= i < n)%Z -> k t * y (S t) i = app n B (y t) i.
Hypothesis Hks : forall t, k (S t) * rsum 0 n (fun i => y t i * y (S t) i) = k t * rsum 0 n (fun i => y (S t) i * y (S t) i).

Definition delta : R := lo * lo / (IZR n * (hi * hi)).
Lemma delta_pos : 0 < delta <= 1.
Proof.
  pose proof hi_pos. assert (Hn : 1 <= IZR n) by (apply IZR_le; destruct Hr; lia). unfold delta.
  assert (0 < hi * hi) by nra. assert (0 < IZR n * (hi * hi)) by nra. split; [apply Rdiv_lt_0_compat; nra|].
  apply (Rmult_le_reg_r (IZR n * (hi * hi))); [assumption|]. unfold Rdiv. rewrite Rmult_assoc, Rinv_l by lra. nra.
Qed.
Lemma app_scale c x i : app n B (fun j => c * x j) i = c * app n B x i.
Proof. unfold app. rewrite <- rsum_scal. apply rsum_ext. intros; ring. Qed.

(* every entry carries its share *)
Lemma share t i : on i -> delta * app n B (y (S t)) i <= B i r * y (S t) r.
Proof using Hlo HB Hr Hy Hk Hstep.
  intros Hi. pose proof delta_pos as Hd. pose proof (Hk t) as Hkt. set (s := rsum 0 n (y t)). assert (Hs : 0 < s) by (apply cone_sum, Hy).
  assert (L : lo * s <= k t * y (S t) r) by (rewrite Hstep by apply Hr; apply app_between; auto).
  assert (U : forall j, (0 <= j < n)%Z -> k t * y (S t) j <= hi * s).
  { intros j Hj. destruct (on_dec j) as [Y | No]; [rewrite Hstep by auto; apply app_between; auto|].
    rewrite (proj2 (Hy (S t)) j Hj No). pose proof hi_pos. nra. }
  assert (Us : k t * rsum 0 n (y (S t)) <= IZR n * (hi * s)).
  { rewrite <- rsum_scal. eapply Rle_trans; [apply rsum_le; intros j Hj; apply U; exact Hj|]. rewrite rsum_const by (destruct Hr; lia). rewrite Z.sub_0_r. lra. }
  apply (Rmult_le_reg_l (k t)); [exact Hkt|].
  pose proof (proj2 (app_between (y (S t)) i (Hy (S t)) Hi)) as A. pose proof (HB i r Hi Hr) as Hir. pose proof hi_pos as Hh.
  apply Rle_trans with (delta * (IZR n * (hi * hi) * s)).
  - replace (k t * (delta * app n B (y (S t)) i)) with (delta * (k t * app n B (y (S t)) i)) by ring. apply Rmult_le_compat_l; [lra|].
    apply Rle_trans with (hi * (k t * rsum 0 n (y (S t)))); [nra|]. apply Rle_trans with (hi * (IZR n * (hi * s))); [apply Rmult_le_compat_l; lra|]. apply Req_le. ring.
  - assert (Hn : 1 <= IZR n) by (apply IZR_le; destruct Hr; lia). replace (delta * (IZR n * (hi * hi) * s)) with (lo * (lo * s)) by (unfold delta; field; split; nra).
    apply Rle_trans with (B i r * (lo * s)); [apply Rmult_le_compat_r; nra|]. replace (k t * (B i r * y (S t) r)) with (B i r * (k t * y (S t) r)) by ring.
    apply Rmult_le_compat_l; lra.
Qed.

Lemma bracket_scale c x m M : 0 < c -> bracket x m M -> bracket (fun i => c * x i) m M.
Proof. intros Hc Hb i Hi. rewrite app_scale. pose proof (Hb i Hi). split; nra. Qed.
Lemma app_ext' x x' i : (forall j, (0 <= j < n)%Z -> x j = x' j) -> app n B x i = app n B x' i.
Proof. intros H. apply rsum_ext. intros j Hj. rewrite H by auto. reflexivity. Qed.
Lemma bracket_ext x x' m M : (forall j, (0 <= j < n)%Z -> x j = x' j) -> bracket x m M -> bracket x' m M.
Proof. intros H Hb i Hi. rewrite <- (app_ext' x x') by auto. rewrite <- H by apply Hi. apply Hb, Hi. Qed.

Lemma bracket_next t m M : bracket (y (S t)) m M ->
  exists m' M', m <= m' /\ M' <= M /\ M' - m' = (1 - delta) * (M - m) /\ bracket (y (S (S t))) m' M'.
Proof using Hlo HB Hr Hy Hk Hstep.
  intros Hb. pose proof (Hk (S t)) as Hkt.
  destruct (bracket_step (y (S t)) (fun i => k (S t) * y (S (S t)) i) m M delta) as (m' & M' & H1 & H2 & H3 & H4).
  - apply Hy.
  - split; [intros i Hi; apply Rmult_lt_0_compat; [exact Hkt|apply (proj1 (Hy (S (S t)))); exact Hi]|].
    intros i Hi No. rewrite (proj2 (Hy (S (S t))) i Hi No). ring.
  - intros i Hi. apply Hstep. exact Hi.
  - pose proof delta_pos. lra.
  - intros i Hi. rewrite Hstep by apply Hi. apply share. exact Hi.
  - exact Hb.
  - exists m', M'. split; [exact H1|]. split; [exact H2|]. split; [exact H3|].
    apply (bracket_scale (/ k (S t))) in H4; [|apply Rinv_0_lt_compat; exact Hkt]. revert H4. apply bracket_ext. intros j _. field. lra.
Qed.
Lemma bracket_later t m M p : bracket (y (S t)) m M -> bracket (y (S t + p)%nat) m M.
Proof using Hlo HB Hr Hy Hk Hstep.
  intros Hb. induction p as [|p IH]; [rewrite Nat.add_0_r; exact Hb|].
  replace (S t + S p)%nat with (S (S (t + p))) by lia. replace (S t + p)%nat with (S (t + p)) in IH by lia.
  destruct (bracket_next _ _ _ IH) as (m' & M' & H1 & H2 & _ & H4). intros i Hi. pose proof (H4 i Hi) as H.
  pose proof (proj1 (Hy (S (S (t + p)))) i Hi). split; nra.
Qed.

(* the first bracket, and the following ones *)
Definition start (m M : R) : Prop := 0 < m /\ m <= M /\ bracket (y 1) m M.
Lemma start_exists : exists m M, start m M.
Proof using Hlo HB Hr Hy Hk Hstep.
  destruct (finite_bounds on on_dec (fun i => app n B (y 1%nat) i / y 1%nat i) (Z.to_nat n)) as (m & M & H1 & H2 & H3).
  - intros i _ Hi. apply Rdiv_lt_0_compat; [|apply Hy; exact Hi]. pose proof (app_between _ _ (Hy 1%nat) Hi). pose proof (cone_sum _ (Hy 1%nat)). nra.
  - exists m, M. split; [exact H1|]. split; [exact H2|]. intros i Hi. pose proof (proj1 (Hy 1%nat) i Hi) as Hp.
    specialize (H3 i ltac:(destruct Hi; lia) Hi). replace (app n B (y 1%nat) i) with (app n B (y 1%nat) i / y 1%nat i * y 1%nat i) by (field; lra). split; nra.
Qed.
Definition rho : R := 1 - delta.
Lemma rho_range : 0 <= rho < 1.
Proof. pose proof delta_pos. unfold rho. lra. Qed.
Lemma brackets m0 M0 t : start m0 M0 -> exists m M, m0 <= m /\ M <= M0 /\ m <= M /\ M - m = rho ^ t * (M0 - m0) /\ bracket (y (S t)) m M.
Proof using Hlo HB Hr Hy Hk Hstep.
  intros (H1 & H2 & H3). induction t as [|t IH].
  - exists m0, M0. repeat split; try lra; try apply H3; assumption.
  - destruct IH as (m & M & A1 & A2 & A3 & A4 & A5). destruct (bracket_next _ _ _ A5) as (m' & M' & B1 & B2 & B3 & B4).
    exists m', M'. split; [lra|]. split; [lra|]. pose proof delta_pos. split; [|split; [|exact B4]].
    + assert (0 <= M' - m') by (rewrite B3; apply Rmult_le_pos; lra). lra.
    + rewrite B3, A4. cbn [pow]. unfold rho. ring.
Qed.

(* the factor lies in the bracket *)
Lemma k_between t m M : bracket (y t) m M -> m <= k (S t) <= M.
Proof using Hr Hy Hk Hstep Hks.
  intros Hb. set (d := rsum 0 n (fun i => y t i * y (S t) i)).
  assert (Hd : 0 < d).
  { eapply Rlt_le_trans; [apply (Rmult_lt_0_compat (y t r) (y (S t) r)); apply Hy; exact Hr|].
    apply (rsum_term_le 0 n (fun i => y t i * y (S t) i) r); [|apply Hr]. intros j Hj. apply Rmult_le_pos; apply cone_nonneg; auto. }
  pose proof (Hks t) as E. fold d in E. rewrite <- rsum_scal in E.
  rewrite (rsum_ext 0 n _ (fun i => app n B (y t) i * y (S t) i)) in E by (intros i Hi; rewrite <- Hstep by auto; ring).
  assert (Hb' : forall i, (0 <= i < n)%Z -> m * y t i <= app n B (y t) i <= M * y t i).
  { intros i Hi. destruct (on_dec i) as [Y | No]; [apply Hb; exact Y|]. rewrite <- Hstep by auto. rewrite (proj2 (Hy t) i Hi No), (proj2 (Hy (S t)) i Hi No). lra. }
  assert (L : m * d <= k (S t) * d).
  { rewrite E. unfold d. rewrite <- rsum_scal. apply rsum_le. intros i Hi. pose proof (cone_nonneg (y (S t)) i (Hy (S t)) Hi). pose proof (Hb' i Hi). nra. }
  assert (U : k (S t) * d <= M * d).
  { rewrite E. unfold d. rewrite <- rsum_scal. apply rsum_le. intros i Hi. pose proof (cone_nonneg (y (S t)) i (Hy (S t)) Hi). pose proof (Hb' i Hi). nra. }
  split; apply (Rmult_le_reg_r d); assumption.
Qed.

(* ---------- the limits ---------- *)
Definition u (t : nat) (i : Z) : R := y (S t) i / y (S t) r.
Definition kinf : R := real (Lim_seq (fun t => k (S (S t)))).
Definition uinf (i : Z) : R := real (Lim_seq (fun t => u t i)).

Lemma u_between t i : on i -> lo / hi <= u t i <= hi / lo.
Proof using Hlo HB Hr Hy Hk Hstep.
  intros Hi. pose proof hi_pos as Hh. pose proof (Hk t) as Hkt. set (s := rsum 0 n (y t)). assert (Hs : 0 < s) by (apply cone_sum, Hy).
  pose proof (app_between _ _ (Hy t) Hi) as A. pose proof (app_between _ _ (Hy t) Hr) as A'. fold s in A, A'.
  rewrite <- Hstep in A, A' by (apply Hi || apply Hr). pose proof (proj1 (Hy (S t)) r Hr) as Yr. pose proof (proj1 (Hy (S t)) i Hi) as Yi.
  unfold u. replace (y (S t) i / y (S t) r) with ((k t * y (S t) i) / (k t * y (S t) r)) by (field; lra).
  assert (0 < k t * y (S t) r) by (apply Rmult_lt_0_compat; assumption).
  split.
  - apply (Rmult_le_reg_r (k t * y (S t) r)); [assumption|]. unfold Rdiv at 2. rewrite Rmult_assoc, Rinv_l, Rmult_1_r by lra.
    apply Rle_trans with (lo / hi * (hi * s)); [apply Rmult_le_compat_l; [apply Rdiv_le_0_compat; lra|tauto]|].
    replace (lo / hi * (hi * s)) with (lo * s) by (field; lra). tauto.
  - apply (Rmult_le_reg_r (k t * y (S t) r)); [assumption|]. unfold Rdiv at 1. rewrite Rmult_assoc, Rinv_l, Rmult_1_r by lra.
    apply Rle_trans with (hi / lo * (lo * s)); [replace (hi / lo * (lo * s)) with (hi * s) by (field; lra); tauto|].
    apply Rmult_le_compat_l; [apply Rdiv_le_0_compat; lra|tauto].
Qed.
Lemma u_off t i : (0 <= i < n)%Z -> ~ on i -> u t i = 0.
Proof using Hy. intros Hi No. unfold u. rewrite (proj2 (Hy (S t)) i Hi No). unfold Rdiv. ring. Qed.
Lemma app_u t i : app n B (u t) i = app n B (y (S t)) i / y (S t) r.
Proof.
  rewrite (app_ext' (u t) (fun j => / y (S t) r * y (S t) j)) by (intros j _; unfold u, Rdiv; ring). rewrite app_scale. unfold Rdiv. ring.
Qed.

Section Limits.
Variables m0 M0 : R.
Hypothesis H0 : start m0 M0.
Let g := M0 - m0.

Lemma k_steps t : Rabs (k (S (S (S t))) - k (S (S t))) <= g * rho ^ t.
Proof using Hlo HB Hr Hy Hk Hstep Hks H0.
  destruct (brackets m0 M0 t H0) as (m & M & _ & _ & A3 & A4 & A5).
  pose proof (k_between _ _ _ A5) as K1. pose proof (bracket_later t m M 1 A5) as B1. replace (S t + 1)%nat with (S (S t)) in B1 by lia.
  pose proof (k_between _ _ _ B1) as K2. fold g in A4. apply Rabs_le. lra.
Qed.
Lemma k_limit t : Rabs (k (S (S t)) - kinf) <= g / (1 - rho) * rho ^ t.
Proof using Hlo HB Hr Hy Hk Hstep Hks H0.
  apply (geo_limit (fun t => k (S (S t)))); [apply rho_range|unfold g; destruct H0; lra|apply k_steps].
Qed.
Lemma u_steps t i : (0 <= i < n)%Z -> Rabs (u (S t) i - u t i) <= hi / lo * (g / m0) * rho ^ t.
Proof using Hlo HB Hr Hy Hk Hstep H0.
  intros Hi. pose proof hi_pos as Hh. pose proof rho_range as Hrho. assert (Hg : 0 <= g) by (unfold g; destruct H0; lra). assert (Hm0 : 0 < m0) by apply H0.
  destruct (on_dec i) as [Y | No].
  2:{ rewrite !u_off by auto. replace (0 - 0) with 0 by ring. rewrite Rabs_R0. repeat apply Rmult_le_pos; try (apply Rdiv_le_0_compat; lra); try lra; try (apply pow_le; lra).
      left. apply Rinv_0_lt_compat. lra. left; apply Rinv_0_lt_compat; lra. }
  destruct (brackets m0 M0 t H0) as (m & M & A1 & _ & A3 & A4 & A5). fold g in A4.
  pose proof (proj1 (Hy (S t)) i Y) as Yi. pose proof (proj1 (Hy (S t)) r Hr) as Yr.
  pose proof (proj1 (Hy (S (S t))) i Y) as Zi. pose proof (proj1 (Hy (S (S t))) r Hr) as Zr. pose proof (Hk (S t)) as Hkt.
  set (a := k (S t) * y (S (S t)) i / y (S t) i). set (b := k (S t) * y (S (S t)) r / y (S t) r).
  assert (Ea : m <= a <= M).
  { pose proof (A5 i Y) as H. rewrite <- Hstep in H by apply Y. unfold a. split; apply (Rmult_le_reg_r (y (S t) i)); try assumption;
      replace (k (S t) * y (S (S t)) i / y (S t) i * y (S t) i) with (k (S t) * y (S (S t)) i) by (field; lra); tauto. }
  assert (Eb : m <= b <= M).
  { pose proof (A5 r Hr) as H. rewrite <- Hstep in H by apply Hr. unfold b. split; apply (Rmult_le_reg_r (y (S t) r)); try assumption;
      replace (k (S t) * y (S (S t)) r / y (S t) r * y (S t) r) with (k (S t) * y (S (S t)) r) by (field; lra); tauto. }
  assert (E : u (S t) i - u t i = u t i * ((a - b) / b)).
  { unfold u, a, b. field. repeat split; lra. }
  rewrite E, Rabs_mult. pose proof (u_between t i Y) as Ut. assert (0 < lo / hi) by (apply Rdiv_lt_0_compat; lra). rewrite (Rabs_pos_eq (u t i)) by lra.
  rewrite Rmult_assoc. apply Rmult_le_compat; [lra|apply Rabs_pos|lra|]. unfold Rdiv at 1. rewrite Rabs_mult, (Rabs_pos_eq (/ b)) by (left; apply Rinv_0_lt_compat; lra).
  replace (g / m0 * rho ^ t) with (rho ^ t * g * / m0) by (unfold Rdiv; ring). apply Rmult_le_compat; [apply Rabs_pos|left; apply Rinv_0_lt_compat; lra| |apply Rinv_le_contravar; lra].
  rewrite <- A4. apply Rabs_le. lra.
Qed.
Definition Cu : R := hi / lo * (g / m0) / (1 - rho).
Lemma u_limit t i : (0 <= i < n)%Z -> Rabs (u t i - uinf i) <= Cu * rho ^ t.
Proof using Hlo HB Hr Hy Hk Hstep H0.
  intros Hi. apply (geo_limit (fun t => u t i)); [apply rho_range| |intros t'; apply u_steps; exact Hi].
  pose proof hi_pos. unfold g. destruct H0 as (? & ? & _). apply Rmult_le_pos; apply Rdiv_le_0_compat; lra.
Qed.
Lemma uinf_r : uinf r = 1.
Proof using Hlo HB Hr Hy Hk Hstep H0.
  assert (E : 1 - uinf r = 0); [|lra]. apply (geo_zero _ Cu rho); [apply rho_range|]. intros t. pose proof (u_limit t r (proj1 Hr)) as H.
  replace (u t r) with 1 in H; [exact H|]. unfold u. field. pose proof (proj1 (Hy (S t)) r Hr). lra.
Qed.
Lemma uinf_cone : cone uinf.
Proof using Hlo HB Hr Hy Hk Hstep H0.
  split.
  - intros i Hi. pose proof hi_pos. assert (0 < lo / hi) by (apply Rdiv_lt_0_compat; lra).
    destruct (Rlt_le_dec 0 (uinf i)) as [Y | No]; [exact Y|exfalso]. assert (E : lo / hi - uinf i = 0); [|lra].
    apply (geo_zero _ Cu rho); [apply rho_range|]. intros t. pose proof (u_limit t i (proj1 Hi)) as Hl. pose proof (u_between t i Hi) as Hu.
    rewrite Rabs_pos_eq in Hl |- * by lra. lra.
  - intros i Hi No. assert (E : 0 - uinf i = 0); [|lra]. apply (geo_zero _ Cu rho); [apply rho_range|]. intros t.
    pose proof (u_limit t i Hi) as Hl. rewrite u_off in Hl by auto. exact Hl.
Qed.
Lemma uinf_eigen i : (0 <= i < n)%Z -> app n B uinf i = kinf * uinf i.
Proof using Hlo HB Hr Hy Hk Hstep Hks H0.
  intros Hi. assert (E : app n B uinf i - kinf * uinf i = 0); [|lra].
  pose proof rho_range as Hrho. pose proof hi_pos as Hh.
  set (b := rsum 0 n (fun j => Rabs (B i j))). set (U := hi / lo).
  apply (geo_zero _ (b * Cu + (U * (g + g / (1 - rho)) + Rabs kinf * Cu)) rho); [exact Hrho|]. intros t.
  assert (Hut : 0 <= u t i <= U).
  { destruct (on_dec i) as [Y | No]; [pose proof (u_between t i Y); assert (0 < lo / hi) by (apply Rdiv_lt_0_compat; lra); unfold U; lra|].
    rewrite u_off by auto. split; [lra|]. apply Rdiv_le_0_compat; lra. }
  replace (app n B uinf i - kinf * uinf i) with
    ((app n B uinf i - app n B (u t) i) + ((app n B (u t) i - kinf * u t i) + kinf * (u t i - uinf i))) by ring.
  assert (P1 : Rabs (app n B uinf i - app n B (u t) i) <= b * Cu * rho ^ t).
  { unfold app. rewrite <- rsum_minus. eapply Rle_trans; [apply rsum_Rabs|]. unfold b. rewrite Rmult_assoc, <- rsum_scal_r. apply rsum_le. intros j Hj.
    replace (B i j * uinf j - B i j * u t j) with (B i j * - (u t j - uinf j)) by ring. rewrite Rabs_mult, Rabs_Ropp.
    apply Rmult_le_compat_l; [apply Rabs_pos|]. apply u_limit. exact Hj. }
  assert (P2 : Rabs (app n B (u t) i - kinf * u t i) <= U * (g + g / (1 - rho)) * rho ^ t).
  { destruct (brackets m0 M0 t H0) as (m & M & _ & _ & A3 & A4 & A5). fold g in A4. pose proof (k_between _ _ _ A5) as K1. pose proof (k_limit t) as K2.
    assert (V : m * u t i <= app n B (u t) i <= M * u t i).
    { rewrite app_u. pose proof (proj1 (Hy (S t)) r Hr) as Yr. pose proof (Rinv_0_lt_compat _ Yr). unfold u, Rdiv.
      destruct (on_dec i) as [Y | No]; [pose proof (A5 i Y)|rewrite <- Hstep by auto; rewrite (proj2 (Hy (S t)) i Hi No), (proj2 (Hy (S (S t))) i Hi No); lra].
      split; nra. }
    replace (app n B (u t) i - kinf * u t i) with ((app n B (u t) i - k (S (S t)) * u t i) + (k (S (S t)) - kinf) * u t i) by ring.
    eapply Rle_trans; [apply Rabs_triang|]. rewrite Rabs_mult, (Rabs_pos_eq (u t i)) by lra.
    replace (U * (g + g / (1 - rho)) * rho ^ t) with (U * (rho ^ t * g) + (g / (1 - rho) * rho ^ t) * U) by ring. apply Rplus_le_compat.
    - rewrite <- A4. apply Rle_trans with (u t i * (M - m)); [|apply Rmult_le_compat_r; lra]. apply Rabs_le. nra.
    - apply Rmult_le_compat; [apply Rabs_pos|lra|exact K2|lra]. }
  assert (P3 : Rabs (kinf * (u t i - uinf i)) <= Rabs kinf * Cu * rho ^ t).
  { rewrite Rabs_mult, Rmult_assoc. apply Rmult_le_compat_l; [apply Rabs_pos|]. apply u_limit. exact Hi. }
  eapply Rle_trans; [apply Rabs_triang|]. eapply Rle_trans; [apply Rplus_le_compat; [exact P1|eapply Rle_trans; [apply Rabs_triang|apply Rplus_le_compat; [exact P2|exact P3]]]|].
  apply Req_le. ring.
Qed.
End Limits.

Theorem power_method : exists kl ul C rh, 0 < kl /\ 0 <= rh < 1 /\ 0 <= C /\ cone ul /\ ul r = 1 /\
  (forall i, (0 <= i < n)%Z -> app n B ul i = kl * ul i) /\
  (forall t, Rabs (k (S (S t)) - kl) <= C * rh ^ t) /\
  (forall t i, (0 <= i < n)%Z -> Rabs (y (S t) i / y (S t) r - ul i) <= C * rh ^ t).
Proof using Hlo HB Hr Hy Hk Hstep Hks.
  destruct start_exists as (m0 & M0 & H0). pose proof rho_range as Hrho. pose proof hi_pos as Hh.
  set (C1 := (M0 - m0) / (1 - rho)). set (C2 := Cu m0 M0).
  assert (HC1 : 0 <= C1) by (destruct H0 as (? & ? & _); apply Rdiv_le_0_compat; lra).
  assert (HC2 : 0 <= C2).
  { destruct H0 as (? & ? & _). unfold C2, Cu. apply Rmult_le_pos; [|left; apply Rinv_0_lt_compat; lra]. apply Rmult_le_pos; apply Rdiv_le_0_compat; lra. }
  exists kinf, uinf, (C1 + C2), rho. pose proof (uinf_cone m0 M0 H0) as Cn. split; [|split; [exact Hrho|split; [lra|split; [exact Cn|split; [exact (uinf_r m0 M0 H0)|split; [|split]]]]]].
  - pose proof (uinf_eigen m0 M0 H0 r (proj1 Hr)) as E. rewrite (uinf_r m0 M0 H0) in E. pose proof (app_between _ _ Cn Hr) as A. pose proof (cone_sum _ Cn). nra.
  - intros i Hi. exact (uinf_eigen m0 M0 H0 i Hi).
  - intros t. eapply Rle_trans; [exact (k_limit m0 M0 H0 t)|]. apply Rmult_le_compat_r; [apply pow_le; lra|fold C1; lra].
  - intros t i Hi. fold (u t i). eapply Rle_trans; [exact (u_limit m0 M0 H0 t i Hi)|]. apply Rmult_le_compat_r; [apply pow_le; lra|fold C2; lra].
Qed.

(* the factor changes by less than any given fraction from some iteration on *)
Theorem power_stops acc : 0 < acc -> exists T, forall t, (T <= t)%nat -> Rabs ((k (S t) - k t) / k (S t)) < acc.
Proof using Hlo HB Hr Hy Hk Hstep Hks.
  intros Ha. destruct start_exists as (m0 & M0 & H0). pose proof rho_range as Hrho. assert (Hm : 0 < m0) by apply H0. assert (Hg : 0 <= M0 - m0) by (destruct H0; lra).
  destruct (pow_lt_1_zero rho ltac:(rewrite Rabs_pos_eq; lra) (acc * m0 / (M0 - m0 + 1))) as [N HN]; [apply Rdiv_lt_0_compat; nra|].
  exists (S (S N)). intros t Ht. destruct t as [|[|t]]; try lia. specialize (HN t ltac:(lia)). rewrite Rabs_pos_eq in HN by (apply pow_le; lra).
  pose proof (k_steps m0 M0 H0 t) as K. destruct (brackets m0 M0 t H0) as (m & M & A1 & _ & _ & _ & A5).
  pose proof (bracket_later t m M 1 A5) as B1. replace (S t + 1)%nat with (S (S t)) in B1 by lia. pose proof (k_between _ _ _ B1) as K2.
  unfold Rdiv. rewrite Rabs_mult, (Rabs_pos_eq (/ _)) by (left; apply Rinv_0_lt_compat; lra). apply (Rmult_lt_reg_r (k (S (S (S t))))); [lra|].
  rewrite Rmult_assoc, Rinv_l, Rmult_1_r by lra. eapply Rle_lt_trans; [exact K|]. apply Rlt_le_trans with (acc * m0); [|nra].
  pose proof (pow_le rho t ltac:(lra)) as Hp. apply Rle_lt_trans with (rho ^ t * (M0 - m0 + 1)); [nra|].
  apply (Rmult_lt_compat_r (M0 - m0 + 1)) in HN; [|lra]. unfold Rdiv in HN. rewrite Rmult_assoc, Rinv_l, Rmult_1_r in HN by lra. exact HN.
Qed.
End Power.

(* ---------- one positive mode ---------- *)
Section Unique.
Variables (n : Z) (B : Z -> Z -> R) (w : Z -> R) (r : Z).
Hypothesis HB : forall i j, on n w i -> on n w j -> 0 < B i j.
Hypothesis Hr : on n w r.

Lemma min_ratio (a b : Z -> R) : cone n w a -> cone n w b ->
  exists q c, on n w q /\ 0 < c /\ a q = c * b q /\ forall i, (0 <= i < n)%Z -> c * b i <= a i.
Proof using Hr.
  intros Ca Cb.
  destruct (argmin (fun i => if on_dec n w i then a i / b i else a r / b r) n ltac:(destruct Hr; lia)) as (q & Hq & Hmin).
  assert (G : forall q, on n w q -> (forall i, on n w i -> a q / b q <= a i / b i) -> exists q c, on n w q /\ 0 < c /\ a q = c * b q /\ forall i, (0 <= i < n)%Z -> c * b i <= a i).
  { clear q Hq Hmin. intros q Hq Hmin. exists q, (a q / b q). pose proof (proj1 Ca q Hq). pose proof (proj1 Cb q Hq). split; [exact Hq|]. split; [apply Rdiv_lt_0_compat; assumption|].
    split; [field; lra|]. intros i Hi. destruct (on_dec n w i) as [Y | No]; [|rewrite (proj2 Ca i Hi No), (proj2 Cb i Hi No); lra].
    pose proof (proj1 Cb i Y). pose proof (Hmin i Y) as H3. apply (Rmult_le_compat_r (b i)) in H3; [|lra].
    replace (a i / b i * b i) with (a i) in H3 by (field; lra). exact H3. }
  destruct (on_dec n w q) as [Y | No].
  - apply (G q Y). intros i Hi. specialize (Hmin i (proj1 Hi)). cbn beta in Hmin. destruct (on_dec n w q); [|contradiction]. destruct (on_dec n w i); [exact Hmin|contradiction].
  - apply (G r Hr). intros i Hi. specialize (Hmin i (proj1 Hi)). cbn beta in Hmin. destruct (on_dec n w q); [contradiction|]. destruct (on_dec n w i); [exact Hmin|contradiction].
Qed.
Lemma one_factor_le (a b : Z -> R) ka kb : cone n w a -> cone n w b -> (forall i, (0 <= i < n)%Z -> app n B a i = ka * a i) ->
  (forall i, (0 <= i < n)%Z -> app n B b i = kb * b i) -> kb <= ka.
Proof using HB Hr.
  intros Ca Cb Ea Eb. destruct (min_ratio a b Ca Cb) as (q & c & Hq & Hc & Eq & Hle). pose proof (proj1 Ca q Hq) as Pa.
  assert (H : c * app n B b q <= app n B a q).
  { unfold app. rewrite <- rsum_scal. apply rsum_le. intros j Hj. destruct (on_dec n w j) as [Y | No]; [|rewrite (proj2 Ca j Hj No), (proj2 Cb j Hj No); lra].
    pose proof (HB q j Hq Y). pose proof (Hle j Hj). nra. }
  rewrite Ea, Eb in H by apply Hq. replace (c * (kb * b q)) with (kb * a q) in H by (rewrite Eq; ring). apply (Rmult_le_reg_r (a q)); assumption.
Qed.
Theorem one_positive_mode (a b : Z -> R) ka kb : cone n w a -> cone n w b -> (forall i, (0 <= i < n)%Z -> app n B a i = ka * a i) ->
  (forall i, (0 <= i < n)%Z -> app n B b i = kb * b i) -> ka = kb /\ exists c, 0 < c /\ forall i, (0 <= i < n)%Z -> a i = c * b i.
Proof using HB Hr.
  intros Ca Cb Ea Eb. assert (ka = kb) as <- by (apply Rle_antisym; [exact (one_factor_le b a kb ka Cb Ca Eb Ea)|exact (one_factor_le a b ka kb Ca Cb Ea Eb)]). split; [reflexivity|].
  destruct (min_ratio a b Ca Cb) as (q & c & Hq & Hc & Eq & Hle). exists c. split; [exact Hc|]. intros i Hi.
  destruct (on_dec n w i) as [Y | No]; [|rewrite (proj2 Ca i Hi No), (proj2 Cb i Hi No); ring].
  assert (Z0 : rsum 0 n (fun j => B q j * (a j - c * b j)) = 0).
  { rewrite (rsum_ext 0 n _ (fun j => B q j * a j - c * (B q j * b j))) by (intros; ring). rewrite rsum_minus, rsum_scal. fold (app n B a q). fold (app n B b q).
    rewrite Ea, Eb by apply Hq. rewrite Eq. ring. }
  assert (Z1 : B q i * (a i - c * b i) = 0).
  { apply (rsum_nonneg_0 0 n (fun j => B q j * (a j - c * b j)) i); [|exact Z0|exact Hi]. intros j Hj.
    destruct (on_dec n w j) as [Yj | Nj]; [|rewrite (proj2 Ca j Hj Nj), (proj2 Cb j Hj Nj); lra]. apply Rmult_le_pos; [left; apply HB; auto|]. pose proof (Hle j Hj). lra. }
  pose proof (HB q i Hq Y). apply Rmult_integral in Z1. destruct Z1; lra.
Qed.
End Unique.
