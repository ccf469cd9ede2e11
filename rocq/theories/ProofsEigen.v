(* Proofs about source iteration and the generalised eigenvalue solver. *)
From Coq Require Import String ZArith List Bool Lia Reals Lra Permutation Sorted.
From Verif Require Import Base BaseLemmas NumR ModelNumTools ProofsNumTools ModelEigen.
Import ListNotations.
Local Open Scope Z_scope.

(* ---------- the power iteration, as a specification ---------- *)

Section PowerSpec.
Context {T : Type} {N : Num T}.

Record piter := mkpi { pi_flux : vec T; pi_k : T; pi_src : vec T }.

(* Iterate n: flux n solves M flux_n = src_(n-1); the factor is multiplied by
   the ratio of the new to the old fission rate; the source is the fission
   rate over the factor. *)
Fixpoint power (solve : vec T -> vec T) (F : mat T) (size : Z) (n : nat) : piter :=
  match n with
  | O => mkpi (vones size) n1 (vones size)
  | S n' =>
      let p := power solve F size n' in
      let f := solve (pi_src p) in
      let q := mvmul F f in
      let k := pi_k p [*] (vdot q q [/] vdot (mvmul F (pi_flux p)) q) in
      mkpi f k (vdivs q k)
  end.

(* Relative change of the factor between iterates n and n+1. *)
Definition pi_change solve F size (n : nat) : T :=
  nabs ((pi_k (power solve F size (S n)) [-] pi_k (power solve F size n))
        [/] pi_k (power solve F size (S n))).

End PowerSpec.
Arguments piter : clear implicits.

Section SourceIteration.
Context {T : Type} {N : Num T}.

Lemma diagdom_ok (m : mat T) :
  0 <= mrows m -> mrows m = mcols m -> exists c, diagonalDominanceCheck m = Ok c.
Proof.
  intros Hn Hsq.
  assert (W : wp (diagonalDominanceCheck m) (fun _ => True)).
  { unfold diagonalDominanceCheck. apply wp_bind.
    eapply (zfor_wp' (fun _ (rs : vec T) => vlen rs = mrows m)); [lia|reflexivity| |].
    - intros i rs Hi Hl.
      eapply (zfor_wp (fun _ (rs : vec T) => vlen rs = mrows m)); [lia|exact Hl|].
      intros j rs' Hj Hl'. rewrite mget_ok by lia. cbn [bind]. unfold vadd_at.
      rewrite vget_ok by lia. cbn [bind]. rewrite vset_ok by lia. exact Hl'.
    - intros rs Hl. apply wp_bind.
      eapply (zfor_wp' (fun _ _ => True)); [lia|exact I| |].
      + intros i st Hi _. rewrite mget_ok by lia. cbn [bind].
        rewrite vget_ok by lia. cbn [bind].
        destruct (_ && _); exact I.
      + intros [? ?] _. exact I. }
  destruct (wp_ok _ _ W) as [c [H _]]. eauto.
Qed.

Variables (solve : vec T -> vec T) (F : mat T) (acc : T) (size : Z).
Hypothesis HF : mcols F = size.
Hypothesis HFr : mrows F = size.
Hypothesis Hsolve : forall b, vlen b = size -> vlen (solve b) = size.

Let P := power solve F size.

Lemma power_len n : vlen (pi_flux (P n)) = size /\ vlen (pi_src (P n)) = size.
Proof using HF HFr Hsolve.
  induction n as [|n [IH1 IH2]]; [split; reflexivity|].
  unfold P in *. cbn [power pi_flux pi_src vlen vdivs mvmul]. split; auto.
Qed.

Lemma si_loop_spec m : forall h,
  (exists j, (h <= j < h + m)%nat /\ pi_change solve F size j [<] acc = true /\
     (forall i, (h <= i < j)%nat -> pi_change solve F size i [<] acc = false) /\
     si_loop solve F acc m (Z.of_nat h) (pi_flux (P h)) (pi_src (P h)) (pi_k (P h))
       = Ok (Some (Z.of_nat (S j), pi_flux (P (S j)), pi_k (P (S j))))) \/
  ((forall i, (h <= i < h + m)%nat -> pi_change solve F size i [<] acc = false) /\
     si_loop solve F acc m (Z.of_nat h) (pi_flux (P h)) (pi_src (P h)) (pi_k (P h)) = Ok None).
Proof using HF HFr Hsolve.
  induction m as [|m IH]; intros h.
  - right. split; [intros; lia|reflexivity].
  - destruct (power_len h) as [L1 L2].
    assert (E : si_loop solve F acc (S m) (Z.of_nat h) (pi_flux (P h)) (pi_src (P h)) (pi_k (P h)) =
       if pi_change solve F size h [<] acc
       then Ok (Some (Z.of_nat (S h), pi_flux (P (S h)), pi_k (P (S h))))
       else si_loop solve F acc m (Z.of_nat (S h)) (pi_flux (P (S h))) (pi_src (P (S h))) (pi_k (P (S h)))).
    { cbn [si_loop]. unfold mvmul_c. rewrite HF, L1, Z.eqb_refl. cbn [bind].
      rewrite Hsolve by auto. rewrite Z.eqb_refl. cbn [bind].
      replace (Z.of_nat (S h)) with (Z.of_nat h + 1) by lia. reflexivity. }
    rewrite E. destruct (pi_change solve F size h [<] acc) eqn:C.
    + left. exists h. repeat split; try lia; auto.
    + destruct (IH (S h)) as [[j [Hj [Hc [Hn Hr]]]]|[Hn Hr]].
      * left. exists j. repeat split; try lia; auto.
        intros i Hi. destruct (Nat.eq_dec i h) as [->|]; auto. apply Hn. lia.
      * right. split; auto. intros i Hi. destruct (Nat.eq_dec i h) as [->|]; auto. apply Hn. lia.
Qed.

End SourceIteration.

Lemma sourceIteration_spec {T} {N : Num T} (solver : mat T -> vec T -> vec T) (M F : mat T) size max acc dir :
  0 <= size -> mrows M = size -> mcols M = size -> mrows F = size -> mcols F = size ->
  (forall b, vlen b = size -> vlen (solver M b) = size) ->
  let P := power (solver M) F size in
  let C := pi_change (solver M) F size in
  (exists j, Z.of_nat j < max /\ C j [<] acc = true /\
     (forall i, (i < j)%nat -> C i [<] acc = false) /\
     sourceIteration solver M F max acc dir =
       Ok (Z.of_nat (S j),
           er_single (vdivs (pi_flux (P (S j))) (vnorm1 (pi_flux (P (S j))))) (pi_k (P (S j))) dir)) \/
  ((forall i, Z.of_nat i < max -> C i [<] acc = false) /\
     sourceIteration solver M F max acc dir = Exit "The calculation did not converge!").
Proof.
  intros Hs HMr HMc HFr HFc Hsol P C.
  destruct (diagdom_ok M) as [c Hc]; [lia|lia|].
  unfold sourceIteration. rewrite Hc. cbn [bind].
  rewrite HMr, HMc, HFr, HFc, Z.eqb_refl. cbn [negb].
  replace (Z.sqrt (size * size)) with size by (rewrite Z.sqrt_square; lia).
  pose proof (si_loop_spec (solver M) F acc size HFc HFr Hsol (Z.to_nat max) 0) as H.
  cbn [power pi_flux pi_src pi_k] in H. change (Z.of_nat 0) with 0 in H.
  destruct H as [[j [Hj [Hcv [Hn Hr]]]]|[Hn Hr]]; rewrite Hr; cbn [bind].
  - left. exists j. split; [lia|]. split; [exact Hcv|]. split; [intros; apply Hn; lia|reflexivity].
  - right. split; auto. intros i Hi. apply Hn. lia.
Qed.

(* ---------- over the reals ---------- *)
Local Open Scope R_scope.

Lemma vnorm1_vdivs (v : vec R) : vnorm1 v <> 0 -> vnorm1 (vdivs v (vnorm1 v)) = 1.
Proof.
  intros H. unfold vnorm1 at 1. cbn [vlen vat vdivs]. rnum.
  assert (P : 0 < vnorm1 v).
  { assert (0 <= vnorm1 v) by (apply rsum_nonneg; intros; rnum; apply Rabs_pos). lra. }
  rewrite (rsum_ext _ _ _ (fun k => / vnorm1 v * Rabs (vat v k))).
  - rewrite rsum_scal. change (rsum 0 (vlen v) (fun k => Rabs (vat v k))) with (vnorm1 v). field. lra.
  - intros k _. unfold Rdiv. rewrite Rabs_mult, Rabs_inv, (Rabs_pos_eq (vnorm1 v)) by lra. lra.
Qed.

(* entrywise equality of vectors of the same length *)
Definition veq (a b : vec R) : Prop :=
  vlen a = vlen b /\ forall i, (0 <= i < vlen a)%Z -> vat a i = vat b i.

(* solve is an exact solver for M *)
Definition exact_solver (M : mat R) (solve : vec R -> vec R) : Prop :=
  forall b, vlen b = mrows M -> vlen (solve b) = mcols M /\ veq (mvmul M (solve b)) b.

Lemma mvmul_at (M : mat R) v i : vat (mvmul M v) i = rsum 0 (mcols M) (fun j => mat_at M i j * vat v j).
Proof. reflexivity. Qed.

Section FixedPoint.
Variables (solve : vec R -> vec R) (M F : mat R) (size : Z).
Hypothesis HMr : mrows M = size.
Hypothesis HMc : mcols M = size.
Hypothesis HFr : mrows F = size.
Hypothesis HFc : mcols F = size.
Hypothesis Hex : exact_solver M solve.
Let P := power solve F size.

Lemma power_equation n i :
  (0 <= i < size)%Z ->
  vat (mvmul M (pi_flux (P (S (S n))))) i = vat (mvmul F (pi_flux (P (S n)))) i / pi_k (P (S n)).
Proof using HMr HMc HFr HFc Hex.
  intros Hi. pose proof (power_len solve F size HFc HFr) as L.
  assert (Hs : forall b, vlen b = size -> vlen (solve b) = size).
  { intros b Hb. rewrite <- HMc. apply Hex. lia. }
  specialize (L Hs (S n)). destruct L as [_ L].
  destruct (Hex (pi_src (P (S n)))) as [_ [_ H]]; [unfold P; lia|].
  change (pi_flux (P (S (S n)))) with (solve (pi_src (P (S n)))).
  rewrite H by (cbn; lia). reflexivity.
Qed.

(* The residual is the difference of two successive normalised sources. *)
Lemma power_residual n i :
  (0 <= i < size)%Z ->
  vat (mvmul M (pi_flux (P (S (S n))))) i - vat (mvmul F (pi_flux (P (S (S n))))) i / pi_k (P (S (S n)))
  = vat (pi_src (P (S n))) i - vat (pi_src (P (S (S n)))) i.
Proof using HMr HMc HFr HFc Hex. intros Hi. rewrite power_equation by auto. reflexivity. Qed.

Lemma mvmul_scale (A : mat R) u v c :
  (forall i, (0 <= i < mcols A)%Z -> vat u i = c * vat v i) ->
  forall i, vat (mvmul A u) i = c * vat (mvmul A v) i.
Proof.
  intros H i. rewrite !mvmul_at, <- rsum_scal. apply rsum_ext. intros j Hj. rewrite H by lia. ring.
Qed.

Lemma power_fixed_point n c :
  c <> 0 -> pi_k (P (S n)) <> 0 ->
  vdot (mvmul F (pi_flux (P (S (S n))))) (mvmul F (pi_flux (P (S (S n))))) <> 0 ->
  (forall i, (0 <= i < size)%Z -> vat (pi_flux (P (S (S n)))) i = c * vat (pi_flux (P (S n))) i) ->
  pi_k (P (S (S n))) = c * pi_k (P (S n)) /\
  forall i, (0 <= i < size)%Z ->
    vat (mvmul M (pi_flux (P (S (S n))))) i
    = vat (mvmul F (pi_flux (P (S (S n))))) i / pi_k (P (S (S n))).
Proof using HMr HMc HFr HFc Hex.
  intros Hc Hk Hd Hpar.
  assert (Q : forall i, vat (mvmul F (pi_flux (P (S (S n))))) i = c * vat (mvmul F (pi_flux (P (S n)))) i).
  { apply mvmul_scale. rewrite HFc. exact Hpar. }
  assert (D : vdot (mvmul F (pi_flux (P (S (S n))))) (mvmul F (pi_flux (P (S (S n))))) =
              c * vdot (mvmul F (pi_flux (P (S n)))) (mvmul F (pi_flux (P (S (S n)))))).
  { unfold vdot. cbn [vlen mvmul]. rewrite <- rsum_scal. apply rsum_ext. intros i _. rnum.
    change (fun i0 => nsum 0 (mcols F) (fun j => mat_at F i0 j * vat (pi_flux (P (S (S n)))) j))
      with (vat (mvmul F (pi_flux (P (S (S n)))))).
    change (nsum 0 (mcols F) (fun j => mat_at F i j * vat (pi_flux (P (S (S n)))) j))
      with (vat (mvmul F (pi_flux (P (S (S n))))) i).
    change (nsum 0 (mcols F) (fun j => mat_at F i j * vat (pi_flux (P (S n))) j))
      with (vat (mvmul F (pi_flux (P (S n)))) i).
    rewrite Q at 1. ring. }
  assert (K : pi_k (P (S (S n))) = c * pi_k (P (S n))).
  { change (pi_k (P (S (S n)))) with
     (pi_k (P (S n)) * (vdot (mvmul F (pi_flux (P (S (S n))))) (mvmul F (pi_flux (P (S (S n))))) /
        vdot (mvmul F (pi_flux (P (S n)))) (mvmul F (pi_flux (P (S (S n))))))).
    rewrite D. rewrite D in Hd. field. intros E. apply Hd. rewrite E. ring. }
  split; auto. intros i Hi. rewrite power_equation by auto. rewrite Q, K. field. auto.
Qed.

End FixedPoint.

(* Whatever F is, a loss operator whose rows sum to one ends the iteration at
   once with factor one and a flat flux. *)
Lemma vones_at n i : vat (vones n : vec R) i = 1.
Proof. reflexivity. Qed.

Lemma si_first_iteration (solver : mat R -> vec R -> vec R) (M F : mat R) size max acc dir :
  (0 < size)%Z -> mrows M = size -> mcols M = size -> mrows F = size -> mcols F = size ->
  (forall b, vlen b = size -> vlen (solver M b) = size) ->
  (forall i, (0 <= i < size)%Z -> vat (solver M (vones size)) i = 1) ->
  vdot (mvmul F (vones size)) (mvmul F (vones size)) <> 0 ->
  (0 < max)%Z -> 0 < acc ->
  exists flux, sourceIteration solver M F max acc dir = Ok (1%Z, er_single flux 1 dir) /\
     vlen flux = size /\ forall i, (0 <= i < size)%Z -> vat flux i = / IZR size.
Proof.
  intros Hs HMr HMc HFr HFc Hsol H1 Hd Hmax Hacc.
  set (P := power (solver M) F size).
  assert (E : forall i, vat (mvmul F (pi_flux (P 1%nat))) i = vat (mvmul F (vones size)) i).
  { intros i. rewrite !mvmul_at. apply rsum_ext. intros j Hj. f_equal.
    cbn [P power pi_flux pi_src]. rewrite H1 by lia. reflexivity. }
  assert (D1 : vdot (mvmul F (pi_flux (P 1%nat))) (mvmul F (pi_flux (P 1%nat))) =
               vdot (mvmul F (vones size)) (mvmul F (vones size))).
  { unfold vdot. change (vlen (mvmul F (pi_flux (P 1%nat)))) with (mrows F).
    change (vlen (mvmul F (vones size))) with (mrows F).
    apply rsum_ext. intros i _. rewrite E. reflexivity. }
  assert (D2 : vdot (mvmul F (vones size)) (mvmul F (pi_flux (P 1%nat))) =
               vdot (mvmul F (vones size)) (mvmul F (vones size))).
  { unfold vdot. apply rsum_ext. intros i _. rewrite E. reflexivity. }
  assert (K : pi_k (P 1%nat) = 1).
  { change (pi_k (P 1%nat)) with (1 * (vdot (mvmul F (pi_flux (P 1%nat))) (mvmul F (pi_flux (P 1%nat))) /
        vdot (mvmul F (vones size)) (mvmul F (pi_flux (P 1%nat))))).
    rewrite D1, D2. field. auto. }
  assert (C0 : nltb (pi_change (solver M) F size 0) acc = true).
  { unfold pi_change. fold P. rewrite K. change (pi_k (P 0%nat)) with 1. rnum.
    apply Rltb_true. replace ((1 - 1) / 1) with 0 by field. rewrite Rabs_R0. auto. }
  pose proof (sourceIteration_spec solver M F size max acc dir ltac:(lia) HMr HMc HFr HFc Hsol) as [H|[H _]].
  - destruct H as [j [Hj [Hc [Hn Hr]]]].
    assert (j = 0%nat) as ->.
    { destruct j; auto. rewrite (Hn 0%nat) in C0 by lia. discriminate. }
    fold P in Hr. rewrite K in Hr. rewrite Hr. eexists. split; [reflexivity|].
    destruct (power_len (solver M) F size HFc HFr Hsol 1) as [L _]. fold P in L.
    assert (Nn : vnorm1 (pi_flux (P 1%nat)) = IZR size).
    { unfold vnorm1. rewrite L. rewrite (rsum_ext _ _ _ (fun _ => 1)).
      - rewrite rsum_const by lia. rewrite Z.sub_0_r. ring.
      - intros i Hi. cbn [P power pi_flux pi_src]. rewrite H1 by lia. rnum. apply Rabs_R1. }
    split; [exact L|]. intros i Hi. cbn [vdivs vat]. rewrite Nn.
    cbn [P power pi_flux pi_src]. rewrite H1 by lia. rnum. unfold Rdiv. ring.
  - exfalso. rewrite H in C0 by lia. discriminate.
Qed.

(* ---------- positivity ---------- *)

Section Positivity.
Variables (solve : vec R -> vec R) (F : mat R) (size : Z).
Hypothesis HFr : mrows F = size.
Hypothesis HFc : mcols F = size.
Hypothesis Hlen : forall b, vlen b = size -> vlen (solve b) = size.
(* the inverse of the loss operator is positive *)
Hypothesis Hpos : forall b, vlen b = size ->
  (forall i, (0 <= i < size)%Z -> 0 <= vat b i) -> (exists i, (0 <= i < size)%Z /\ 0 < vat b i) ->
  forall i, (0 <= i < size)%Z -> 0 < vat (solve b) i.
Hypothesis HF0 : forall i j, (0 <= i < size)%Z -> (0 <= j < size)%Z -> 0 <= mat_at F i j.
Variables (r s : Z).
Hypothesis Hr : (0 <= r < size)%Z.
Hypothesis Hs : (0 <= s < size)%Z.
Hypothesis HF1 : 0 < mat_at F r s.
Let P := power solve F size.

Definition allpos (v : vec R) := vlen v = size /\ forall i, (0 <= i < size)%Z -> 0 < vat v i.

Lemma F_nonneg v i : allpos v -> (0 <= i < size)%Z -> 0 <= vat (mvmul F v) i.
Proof using HFr HFc HF0.
  intros [Hl Hv] Hi. rewrite mvmul_at. apply rsum_nonneg. intros j Hj.
  apply Rmult_le_pos; [apply HF0; lia|left; apply Hv; lia].
Qed.

Lemma F_pos v : allpos v -> 0 < vat (mvmul F v) r.
Proof using HFr HFc HF0 HF1 Hr Hs.
  intros [Hl Hv]. rewrite mvmul_at.
  eapply Rlt_le_trans; [|apply (rsum_term_le 0 (mcols F) (fun j => mat_at F r j * vat v j) s); [|lia]].
  - apply Rmult_lt_0_compat; auto.
  - intros j Hj. apply Rmult_le_pos; [apply HF0; lia|left; apply Hv; lia].
Qed.

Lemma F_dot_pos u v : allpos u -> allpos v -> 0 < vdot (mvmul F u) (mvmul F v).
Proof using HFr HFc HF0 HF1 Hr Hs.
  intros Hu Hv. unfold vdot. change (vlen (mvmul F u)) with (mrows F). rewrite HFr.
  eapply Rlt_le_trans; [|apply (rsum_term_le 0 size (fun i => nmul (vat (mvmul F u) i) (vat (mvmul F v) i)) r); [|lia]].
  - rnum. apply Rmult_lt_0_compat; apply F_pos; auto.
  - intros i Hi. rnum. apply Rmult_le_pos; apply F_nonneg; auto.
Qed.

Lemma power_positive n :
  allpos (pi_flux (P n)) /\ 0 < pi_k (P n) /\
  vlen (pi_src (P n)) = size /\ (forall i, (0 <= i < size)%Z -> 0 <= vat (pi_src (P n)) i) /\
  exists i, (0 <= i < size)%Z /\ 0 < vat (pi_src (P n)) i.
Proof using HFr HFc Hlen Hpos HF0 HF1 Hr Hs.
  induction n as [|n [Hf [Hk [Hl [H0 H1]]]]].
  - cbn [P power pi_flux pi_k pi_src]. split; [split; [reflexivity|intros; cbn; lra]|].
    split; [rnum; lra|]. split; [reflexivity|]. split; [intros; cbn; lra|].
    exists r. split; auto. cbn. lra.
  - assert (Hf' : allpos (pi_flux (P (S n)))).
    { cbn [P power pi_flux]. split; [apply Hlen; auto|]. intros i Hi. apply Hpos; auto. }
    assert (Hk' : 0 < pi_k (P (S n))).
    { change (0 < pi_k (P n) * (vdot (mvmul F (pi_flux (P (S n)))) (mvmul F (pi_flux (P (S n)))) /
         vdot (mvmul F (pi_flux (P n))) (mvmul F (pi_flux (P (S n)))))).
      apply Rmult_lt_0_compat; auto. apply Rdiv_lt_0_compat; apply F_dot_pos; auto. }
    split; auto. split; auto. split; [exact HFr|].
    change (pi_src (P (S n))) with (vdivs (mvmul F (pi_flux (P (S n)))) (pi_k (P (S n)))).
    split.
    + intros i Hi. cbn [vdivs vat]. rnum.
      apply Rmult_le_pos; [apply (F_nonneg _ i Hf' Hi)|left; apply Rinv_0_lt_compat; auto].
    + exists r. split; auto. cbn [vdivs vat]. rnum. apply Rdiv_lt_0_compat; auto.
      apply (F_pos _ Hf').
Qed.

End Positivity.

Lemma sourceIteration_positive (solver : mat R -> vec R -> vec R) (M F : mat R) size max acc dir its er :
  (0 <= size)%Z -> mrows M = size -> mcols M = size -> mrows F = size -> mcols F = size ->
  (forall b, vlen b = size -> vlen (solver M b) = size) ->
  (forall b, vlen b = size ->
    (forall i, (0 <= i < size)%Z -> 0 <= vat b i) -> (exists i, (0 <= i < size)%Z /\ 0 < vat b i) ->
    forall i, (0 <= i < size)%Z -> 0 < vat (solver M b) i) ->
  (forall i j, (0 <= i < size)%Z -> (0 <= j < size)%Z -> 0 <= mat_at F i j) ->
  (exists r s, (0 <= r < size)%Z /\ (0 <= s < size)%Z /\ 0 < mat_at F r s) ->
  sourceIteration solver M F max acc dir = Ok (its, er) ->
  0 < er_k er /\ vlen (er_flux er) = size /\ vnorm1 (er_flux er) = 1 /\
  forall i, (0 <= i < size)%Z -> 0 < vat (er_flux er) i.
Proof.
  intros Hsz HMr HMc HFr HFc Hlen Hpos HF0 [r [s [Hr [Hs HF1]]]] Hok.
  destruct (sourceIteration_spec solver M F size max acc dir Hsz HMr HMc HFr HFc Hlen) as [H|[_ H]];
    [|rewrite H in Hok; discriminate].
  destruct H as [j [_ [_ [_ H]]]]. rewrite H in Hok.
  match type of Hok with Ok (_, ?e) = _ => assert (Her : er = e) by congruence end.
  clear Hok H. subst er.
  cbn [er_single er_k er_flux].
  destruct (power_positive (solver M) F size HFr HFc Hlen Hpos HF0 r s Hr Hs HF1 (S j)) as [[L Hf] [Hk _]].
  set (v := pi_flux (power (solver M) F size (S j))) in *.
  assert (Np : 0 < vnorm1 v).
  { unfold vnorm1. rewrite L. apply rsum_pos; [lia|]. intros i Hi. rnum.
    rewrite Rabs_pos_eq; [apply Hf|left; apply Hf]; auto. }
  split; auto. split; [exact L|]. split; [apply vnorm1_vdivs; lra|].
  intros i Hi. cbn [vdivs vat]. rnum. apply Rdiv_lt_0_compat; auto.
Qed.

(* ---------- sorted eigenmodes ---------- *)

Definition desc {A} (a b : R * A) : Prop := fst b <= fst a.

(* What std::sort guarantees. *)
Definition sorts (sort : list (R * vec R) -> list (R * vec R)) : Prop :=
  forall l, Permutation l (sort l) /\ StronglySorted desc (sort l).

(* indices 0..n-1 *)
Definition zseq (n : Z) : list Z := map Z.of_nat (seq 0 (Z.to_nat n)).

Lemma zseq_in n i : In i (zseq n) <-> (0 <= i < n)%Z.
Proof.
  unfold zseq. rewrite in_map_iff. split.
  - intros [k [<- Hk]]. apply in_seq in Hk. lia.
  - intros H. exists (Z.to_nat i). split; [lia|]. apply in_seq. lia.
Qed.

Lemma zseq_snoc n : (0 <= n)%Z -> zseq (n + 1) = zseq n ++ [n].
Proof.
  intros H. unfold zseq. replace (Z.to_nat (n + 1)) with (S (Z.to_nat n)) by lia.
  rewrite seq_S, map_app. simpl. rewrite Z2Nat.id by lia. reflexivity.
Qed.

(* Mode number i: its value and its vector scaled to unit L1 norm with
   non-negative sum. *)
Definition scaled_mode (ev : vec (R * R)) (evec : mat (R * R)) (i : Z) : R * vec R :=
  (fst (vat ev i),
   mkvec (mrows evec) (fun r =>
     copysign1 (vsum (mcol (fromComplexToDoubleM evec) i)) * fst (mat_at evec r i)
     / vnorm1 (mcol (fromComplexToDoubleM evec) i))).

Definition keep (ev : vec (R * R)) (i : Z) : bool := Rltb (10 / 2 ^ 52) (fst (vat ev i)).

Lemma hasImag_false ev :
  hasImagValues ev = false <-> forall i, (0 <= i < vlen ev)%Z -> snd (vat ev i) <= 10 / 2 ^ 52.
Proof.
  unfold hasImagValues. split.
  - intros H i Hi. destruct (Rle_or_lt (snd (vat ev i)) (10 / 2 ^ 52)) as [L|L]; auto.
    exfalso. assert (existsb (fun z => is_greater (snd z) n0) (list_of_vec ev) = true); [|congruence].
    apply existsb_exists. exists (vat ev i). split.
    + unfold list_of_vec. apply in_map_iff. exists (Z.to_nat i). split; [f_equal; lia|].
      apply in_seq. lia.
    + apply is_greater_R. rnum. unfold tolR in *. lra.
  - intros H. destruct (existsb _ _) eqn:E; auto. exfalso.
    apply existsb_exists in E. destruct E as [z [Hz Hg]].
    unfold list_of_vec in Hz. apply in_map_iff in Hz. destruct Hz as [k [<- Hk]].
    apply in_seq in Hk. specialize (H (Z.of_nat k) ltac:(lia)).
    apply is_greater_R in Hg. rnum. unfold tolR in *. lra.
Qed.

Lemma keep_code ev i :
  negb (nisnan (fst (vat ev i))) && is_greater (fst (vat ev i)) n0 = keep ev i.
Proof.
  unfold keep, nisnan. rnum. rewrite (proj2 (Rleb_true _ _) (Rle_refl _)). cbn [negb andb].
  destruct (Rltb (10 / 2 ^ 52) (fst (vat ev i))) eqn:E.
  - apply is_greater_R. apply Rltb_true in E. unfold tolR. lra.
  - destruct (is_greater _ _) eqn:G; auto. apply is_greater_R in G. apply Rltb_false in E.
    unfold tolR in G. lra.
Qed.

Lemma sortEigenmodes_spec sort (ev : vec (R * R)) (evec : mat (R * R)) :
  (0 <= vlen ev)%Z -> (vlen ev <= mcols evec)%Z ->
  (exists i, (0 <= i < vlen ev)%Z /\ 10 / 2 ^ 52 < snd (vat ev i)) /\
    sortEigenmodes sort ev evec = Exit "The Generalized Eigen Solver has found a complex eigenvalue!" \/
  (forall i, (0 <= i < vlen ev)%Z -> snd (vat ev i) <= 10 / 2 ^ 52) /\
    sortEigenmodes sort ev evec =
      Ok (sort (map (scaled_mode ev evec) (filter (keep ev) (zseq (vlen ev))))).
Proof.
  intros Hn Hc. unfold sortEigenmodes.
  destruct (hasImagValues ev) eqn:E.
  - left. split; auto.
    unfold hasImagValues in E. apply existsb_exists in E. destruct E as [z [Hz Hg]].
    unfold list_of_vec in Hz. apply in_map_iff in Hz. destruct Hz as [k [<- Hk]].
    apply in_seq in Hk. exists (Z.of_nat k). split; [lia|].
    apply is_greater_R in Hg. unfold n0 in Hg. cbn [nofZ NumR] in Hg. unfold tolR in Hg. lra.
  - right. split; [apply hasImag_false; auto|].
    match goal with |- bind ?m _ = _ =>
      assert (W : wp m (fun l => l = map (scaled_mode ev evec) (filter (keep ev) (zseq (vlen ev))))) end.
    { eapply (zfor_wp' (fun k l => l = map (scaled_mode ev evec) (filter (keep ev) (zseq k)))).
      - exact Hn.
      - reflexivity.
      - intros k l Hk ->. rewrite vget_ok by (cbn in *; lia). cbn [bind].
        cbn [fromComplexToDoubleV vat vlen]. rewrite keep_code.
        rewrite zseq_snoc by lia. rewrite filter_app, map_app. cbn [filter].
        destruct (keep ev k).
        + cbn [fromComplexToDoubleM mcols]. cbn [fromComplexToDoubleV vlen] in Hk.
          rewrite (proj2 (inb_true _ _)) by lia. reflexivity.
        + cbn [map]. rewrite app_nil_r. reflexivity.
      - intros l ->. reflexivity. }
    destruct (wp_ok _ _ W) as [l [H1 H2]]. rewrite H1, H2. reflexivity.
Qed.

(* Each mode: unit norm, non-negative sum, proportional to its own column. *)
Lemma scaled_mode_facts ev evec i :
  (exists r, (0 <= r < mrows evec)%Z /\ fst (mat_at evec r i) <> 0) ->
  vnorm1 (snd (scaled_mode ev evec i)) = 1 /\
  0 <= vsum (snd (scaled_mode ev evec i)) /\
  exists c, c <> 0 /\ forall r, (0 <= r < mrows evec)%Z ->
     vat (snd (scaled_mode ev evec i)) r = c * fst (mat_at evec r i).
Proof.
  intros [r0 [Hr0 Hne]].
  set (c := mcol (fromComplexToDoubleM evec) i).
  assert (Np : 0 < vnorm1 c).
  { unfold vnorm1. cbn [c mcol vlen fromComplexToDoubleM mrows vat mat_at]. rnum.
    eapply Rlt_le_trans; [|apply (rsum_term_le _ _ (fun r => Rabs (fst (mat_at evec r i))) r0)]; auto.
    - apply Rabs_pos_lt; auto.
    - intros; apply Rabs_pos. }
  assert (S : copysign1 (vsum c) = 1 \/ copysign1 (vsum c) = -1).
  { unfold copysign1. destruct (nltb _ _); rnum; [right; lra|left; lra]. }
  assert (Sp : 0 <= copysign1 (vsum c) * vsum c).
  { unfold copysign1. rnum. destruct (Rltb (vsum c) 0) eqn:E.
    - apply Rltb_true in E. lra.
    - apply Rltb_false in E. lra. }
  unfold scaled_mode. cbn [snd]. fold c.
  split; [|split].
  - unfold vnorm1 at 1. cbn [vlen vat]. rnum.
    rewrite (rsum_ext _ _ _ (fun r => / vnorm1 c * Rabs (fst (mat_at evec r i)))).
    + rewrite rsum_scal. change (rsum 0 (mrows evec) (fun r => Rabs (fst (mat_at evec r i)))) with (vnorm1 c).
      field. lra.
    + intros r _. unfold Rdiv. rewrite !Rabs_mult, Rabs_inv, (Rabs_pos_eq (vnorm1 c)) by lra.
      destruct S as [-> | ->]; [rewrite Rabs_R1|rewrite (Rabs_left (-1)) by lra]; ring.
  - unfold vsum at 1. cbn [vlen vat].
    rewrite (rsum_ext _ _ _ (fun r => (copysign1 (vsum c) / vnorm1 c) * fst (mat_at evec r i)))
      by (intros; field; lra).
    rewrite rsum_scal.
    change (rsum 0 (mrows evec) (fun r => fst (mat_at evec r i))) with (vsum c).
    unfold Rdiv. replace (copysign1 (vsum c) * / vnorm1 c * vsum c) with
      (copysign1 (vsum c) * vsum c * / vnorm1 c) by ring.
    apply Rmult_le_pos; auto. left; apply Rinv_0_lt_compat; auto.
  - exists (copysign1 (vsum c) / vnorm1 c). split.
    + unfold Rdiv. apply Rmult_integral_contrapositive. split.
      * destruct S as [-> | ->]; lra.
      * apply Rinv_neq_0_compat; lra.
    + intros r Hr. cbn [vat]. field. lra.
Qed.

(* Real and imaginary part of M v - lambda F v = 0. *)
Definition is_eigenpair (M F : mat R) (l : R * R) (re im : Z -> R) : Prop :=
  forall r, (0 <= r < mrows M)%Z ->
    rsum 0 (mcols M) (fun j => mat_at M r j * re j) =
      fst l * rsum 0 (mcols F) (fun j => mat_at F r j * re j) -
      snd l * rsum 0 (mcols F) (fun j => mat_at F r j * im j).

Lemma mode_is_eigenpair M F ev evec i :
  let vals := mkvec (vlen ev) (fun i => cinv (vat ev i)) in
  mcols M = mrows evec -> mcols F = mrows evec ->
  snd (vat ev i) = 0 -> fst (vat ev i) <> 0 ->
  is_eigenpair M F (vat ev i) (fun r => fst (mat_at evec r i)) (fun r => snd (mat_at evec r i)) ->
  (exists r, (0 <= r < mrows evec)%Z /\ fst (mat_at evec r i) <> 0) ->
  forall r, (0 <= r < mrows M)%Z ->
    fst (scaled_mode vals evec i) * vat (mvmul M (snd (scaled_mode vals evec i))) r
    = vat (mvmul F (snd (scaled_mode vals evec i))) r.
Proof.
  intros vals HM HF Him Hre Heig Hnz r Hr.
  destruct (scaled_mode_facts vals evec i Hnz) as [_ [_ [c [Hc Hv]]]].
  rewrite !mvmul_at.
  rewrite (rsum_ext 0 (mcols M) _ (fun j => c * (mat_at M r j * fst (mat_at evec j i))))
    by (intros; rewrite Hv by lia; ring).
  rewrite (rsum_ext 0 (mcols F) _ (fun j => c * (mat_at F r j * fst (mat_at evec j i))))
    by (intros; rewrite Hv by lia; ring).
  rewrite !rsum_scal. rewrite (Heig r Hr), Him.
  unfold scaled_mode, vals. cbn [fst vat cinv]. unfold cinv. rewrite Him. cbn [fst]. rnum. field. auto.
Qed.

Lemma filter_none {A} (f : A -> bool) l : (forall x, In x l -> f x = false) -> filter f l = [].
Proof.
  induction l as [|x l IH]; intros H; simpl; auto.
  rewrite (H x) by (left; auto). apply IH. intros; apply H; right; auto.
Qed.

Lemma sorts_nil sort : sorts sort -> sort [] = [].
Proof. intros H. destruct (H []) as [Hp _]. apply Permutation_nil in Hp. auto. Qed.

Lemma ges_empty_ub sort eig (M F : mat R) dir :
  sorts sort ->
  (0 <= vlen (fst (eig M F)))%Z -> (vlen (fst (eig M F)) <= mcols (snd (eig M F)))%Z ->
  (forall i, (0 <= i < vlen (fst (eig M F)))%Z ->
      fst (cinv (vat (fst (eig M F)) i)) <= 10 / 2 ^ 52 /\
      snd (cinv (vat (fst (eig M F)) i)) <= 10 / 2 ^ 52) ->
  GeneralizedEigenSolver sort eig M F dir = UB "front() of empty vector".
Proof.
  intros Hsort Hn Hc H. unfold GeneralizedEigenSolver.
  destruct (eig M F) as [ev evec]. cbn [fst snd] in *.
  destruct (sortEigenmodes_spec sort (mkvec (vlen ev) (fun i => cinv (vat ev i))) evec) as [[[i [Hi Hl]] _]|[_ E]];
    cbn [vlen vat] in *; auto.
  - specialize (H i Hi). lra.
  - rewrite E. cbn [bind]. rewrite filter_none.
    + cbn [map]. rewrite sorts_nil by auto. reflexivity.
    + intros i Hi. apply zseq_in in Hi. unfold keep. cbn [vat]. apply Rltb_false. apply H. auto.
Qed.

(* The other direction: with a kept mode and no complex value a report is made. *)
Lemma ges_report sort eig (M F : mat R) dir :
  let ev := fst (eig M F) in let evec := snd (eig M F) in
  let vals := mkvec (vlen ev) (fun i => cinv (vat ev i)) in
  sorts sort ->
  (0 <= vlen ev)%Z -> (vlen ev <= mcols evec)%Z ->
  (forall i, (0 <= i < vlen ev)%Z -> snd (vat vals i) <= 10 / 2 ^ 52) ->
  (exists i, (0 <= i < vlen ev)%Z /\ 10 / 2 ^ 52 < fst (vat vals i)) ->
  exists er, GeneralizedEigenSolver sort eig M F dir = Ok er /\
    Permutation (er_modes er) (map (scaled_mode vals evec) (filter (keep vals) (zseq (vlen ev)))) /\
    StronglySorted desc (er_modes er) /\
    er_modes er <> [] /\ hd_error (er_modes er) = Some (er_k er, er_flux er) /\ er_dir er = dir.
Proof.
  intros ev evec vals Hsort Hn Hc Him [i [Hi Hpos]]. unfold GeneralizedEigenSolver.
  destruct (eig M F) as [ev' evec'] eqn:EE. cbn [fst snd] in *. subst ev evec.
  fold vals.
  destruct (sortEigenmodes_spec sort vals evec') as [[[k [Hk Hl]] _]|[_ E]]; auto.
  - specialize (Him k Hk). lra.
  - rewrite E. cbn [bind]. cbn [vals vlen]. fold vals.
    destruct (Hsort (map (scaled_mode vals evec') (filter (keep vals) (zseq (vlen ev'))))) as [Hp Hss].
    set (L := map (scaled_mode vals evec') (filter (keep vals) (zseq (vlen ev')))) in *.
    assert (HL : L <> []).
    { intros HL. assert (In (scaled_mode vals evec' i) L) as Hin; [|rewrite HL in Hin; destruct Hin].
      apply in_map. apply filter_In. split; [apply zseq_in; auto|]. unfold keep. apply Rltb_true; auto. }
    destruct (sort L) as [|[k phi] l] eqn:ES.
    + apply Permutation_sym, Permutation_nil in Hp. contradiction.
    + cbn [er_many]. eexists. split; [reflexivity|]. cbn [er_modes er_k er_flux er_dir].
      repeat split; auto; [apply Permutation_sym; auto|discriminate].
Qed.

(* Returned pair at a fixed point. *)
Lemma sourceIteration_fixed_point (solver : mat R -> vec R -> vec R) (M F : mat R) size max acc dir its er c :
  (0 <= size)%Z -> mrows M = size -> mcols M = size -> mrows F = size -> mcols F = size ->
  exact_solver M (solver M) ->
  sourceIteration solver M F max acc dir = Ok (its, er) ->
  let P := power (solver M) F size in
  let last := pi_flux (P (Z.to_nat its)) in
  let prev := pi_flux (P (Z.to_nat (its - 1))) in
  (2 <= its)%Z -> c <> 0 -> er_k er <> 0 ->
  vdot (mvmul F last) (mvmul F last) <> 0 ->
  (forall i, (0 <= i < size)%Z -> vat last i = c * vat prev i) ->
  forall i, (0 <= i < size)%Z ->
    vat (mvmul M (er_flux er)) i = vat (mvmul F (er_flux er)) i / er_k er.
Proof.
  intros Hsz HMr HMc HFr HFc Hex Hok P last prev Hits Hc Hk Hd Hpar.
  assert (Hlen : forall b, vlen b = size -> vlen (solver M b) = size).
  { intros b Hb. rewrite <- HMc. apply Hex. lia. }
  destruct (sourceIteration_spec solver M F size max acc dir Hsz HMr HMc HFr HFc Hlen) as [H|[_ H]];
    [|rewrite H in Hok; discriminate].
  destruct H as [j [_ [_ [_ H]]]]. rewrite H in Hok.
  match type of Hok with Ok (?a, ?e) = _ => assert (Her : er = e) by congruence;
    assert (Hi : its = a) by congruence end.
  clear Hok H. subst er. unfold er_single, er_flux, er_k in Hk |- *. fold P in Hk |- *.
  subst its. destruct j as [|n]; [lia|].
  unfold last, prev in *. rewrite Nat2Z.id in *.
  replace (Z.to_nat (Z.of_nat (S (S n)) - 1)) with (S n) in Hpar by lia.
  assert (Hkn : pi_k (P (S n)) <> 0).
  { intros E. apply Hk.
    change (pi_k (P (S (S n)))) with
     (pi_k (P (S n)) * (vdot (mvmul F (pi_flux (P (S (S n))))) (mvmul F (pi_flux (P (S (S n))))) /
        vdot (mvmul F (pi_flux (P (S n)))) (mvmul F (pi_flux (P (S (S n))))))).
    rewrite E. ring. }
  destruct (power_fixed_point (solver M) M F size HMr HMc HFr HFc Hex n c Hc Hkn Hd Hpar) as [_ E].
  fold P in E. intros i Hi.
  set (phi := pi_flux (P (S (S n)))) in *. set (nn := vnorm1 phi) in *.
  rewrite (mvmul_scale M (vdivs phi nn) phi (/ nn)) by (intros; cbn [vdivs vat]; rnum; unfold Rdiv; ring).
  rewrite (mvmul_scale F (vdivs phi nn) phi (/ nn)) by (intros; cbn [vdivs vat]; rnum; unfold Rdiv; ring).
  rewrite E by auto. unfold Rdiv. ring.
Qed.

(* ---------- witnesses ---------- *)

Definition idmat (n : Z) : mat R := mkmat n n (fun i j => if (i =? j)%Z then 1 else 0).
Definition idsolve (M : mat R) (b : vec R) : vec R := b.

Lemma idmat_solves n : (0 <= n)%Z -> exact_solver (idmat n) (idsolve (idmat n)).
Proof.
  intros Hn b Hb. cbn [idmat mrows mcols] in *. unfold idsolve. split; auto. split; [cbn; auto|].
  cbn [mvmul vlen idmat mrows mcols]. intros i Hi. rewrite mvmul_at. cbn [idmat mcols mat_at].
  rewrite (rsum_single 0 n _ i); [rewrite Z.eqb_refl; ring|lia|].
  intros j Hj Hne. destruct (Z.eqb_spec i j); [congruence|ring].
Qed.

Definition bad_F : mat R := mkmat 2 2 (fun i j => if (i =? j)%Z then (if (i =? 0)%Z then 2 else 1) else 0).

Lemma sourceIteration_refutation (acc : R) :
  0 < acc ->
  exists er, sourceIteration idsolve (idmat 2) bad_F 10 acc FORWARD = Ok (1%Z, er) /\
    exact_solver (idmat 2) (idsolve (idmat 2)) /\
    vat (mvmul (idmat 2) (er_flux er)) 0 <> vat (mvmul bad_F (er_flux er)) 0 / er_k er.
Proof.
  intros Hacc.
  destruct (si_first_iteration idsolve (idmat 2) bad_F 2 10 acc FORWARD) as [flux [H [Hl Hv]]];
    try reflexivity; try lia; auto.
  - unfold vdot, mvmul. cbn [vlen vat bad_F mrows mcols mat_at vones vconst]. rnum.
    run_sums. lra.
  - exists (er_single flux 1 FORWARD). split; auto. split; [apply idmat_solves; lia|].
    cbn [er_single er_flux er_k]. rewrite !mvmul_at.
    cbn [idmat bad_F mcols mat_at].
    run_sums.
    rewrite !Hv by lia. lra.
Qed.

(* A positive operator for the positivity hypotheses. *)
Definition ones_solve (M : mat R) (b : vec R) : vec R := mkvec (vlen b) (fun _ => vsum b).

Lemma ones_solve_positive size (b : vec R) :
  vlen b = size -> (forall i, (0 <= i < size)%Z -> 0 <= vat b i) ->
  (exists i, (0 <= i < size)%Z /\ 0 < vat b i) ->
  forall i, (0 <= i < size)%Z -> 0 < vat (ones_solve (idmat size) b) i.
Proof.
  intros Hl H0 [k [Hk Hp]] i Hi. cbn [ones_solve vat]. unfold vsum. rewrite Hl.
  eapply Rlt_le_trans; [exact Hp|]. apply rsum_term_le; auto.
Qed.

(* Insertion sort is a possible std::sort. *)
Fixpoint insert_desc (x : R * vec R) (l : list (R * vec R)) : list (R * vec R) :=
  match l with
  | [] => [x]
  | y :: l' => if Rltb (fst x) (fst y) then y :: insert_desc x l' else x :: l
  end.
Fixpoint isort (l : list (R * vec R)) : list (R * vec R) :=
  match l with [] => [] | x :: l' => insert_desc x (isort l') end.

Lemma insert_perm x l : Permutation (x :: l) (insert_desc x l).
Proof.
  induction l as [|y l IH]; simpl; auto. destruct (Rltb (fst x) (fst y)); auto.
  eapply Permutation_trans; [apply perm_swap|]. constructor; auto.
Qed.

Lemma insert_sorted x l : StronglySorted desc l -> StronglySorted desc (insert_desc x l).
Proof.
  induction 1 as [|y l Hs IH Hf]; simpl; [repeat constructor|].
  destruct (Rltb (fst x) (fst y)) eqn:E.
  - apply Rltb_true in E. constructor; auto.
    eapply Permutation_Forall; [apply insert_perm|]. constructor; auto. unfold desc. lra.
  - apply Rltb_false in E. constructor; [constructor; auto|]. constructor; [exact E|].
    eapply Forall_impl; [|exact Hf]. unfold desc. intros; lra.
Qed.

Lemma isort_sorts : sorts isort.
Proof.
  intros l. induction l as [|x l [IH1 IH2]]; simpl; [split; constructor|]. split.
  - eapply Permutation_trans; [apply perm_skip; exact IH1|apply insert_perm].
  - apply insert_sorted; auto.
Qed.

(* A one-cell absorber with negative production has no reported mode. *)
Definition neg_eig (M F : mat R) : vec (R * R) * mat (R * R) :=
  (mkvec 1 (fun _ => (-1, 0)), mkmat 1 1 (fun _ _ => (1, 0))).

Lemma ges_refutation :
  let M := idmat 1 in let F := mkmat 1 1 (fun _ _ => -1) in
  is_eigenpair M F (vat (fst (neg_eig M F)) 0) (fun r => fst (mat_at (snd (neg_eig M F)) r 0))
     (fun r => snd (mat_at (snd (neg_eig M F)) r 0)) /\
  GeneralizedEigenSolver isort neg_eig M F FORWARD = UB "front() of empty vector".
Proof.
  split.
  - intros r Hr. cbn [idmat mrows mcols mat_at neg_eig fst snd vat] in *.
    assert (r = 0%Z) by lia. subst r. run_sums. lra.
  - apply ges_empty_ub; [apply isort_sorts|cbn; lia|cbn; lia|].
    intros i Hi. cbn [neg_eig fst snd vat cinv]. unfold cinv. cbn [fst snd]. rnum. lra.
Qed.

Lemma complex_rejected sort (ev : vec (R * R)) (evec : mat (R * R)) i j :
  (0 <= vlen ev)%Z -> (vlen ev <= mcols evec)%Z ->
  (0 <= i < vlen ev)%Z -> (0 <= j < vlen ev)%Z ->
  vat ev j = (fst (vat ev i), - snd (vat ev i)) ->
  10 / 2 ^ 52 < Rabs (snd (vat ev i)) ->
  sortEigenmodes sort ev evec = Exit "The Generalized Eigen Solver has found a complex eigenvalue!".
Proof.
  intros Hn Hc Hi Hj Hconj Him.
  destruct (sortEigenmodes_spec sort ev evec Hn Hc) as [[_ H]|[H _]]; auto. exfalso.
  pose proof (H i Hi) as H1. pose proof (H j Hj) as H2. rewrite Hconj in H2. cbn [snd] in H2.
  unfold Rabs in Him. destruct (Rcase_abs _); lra.
Qed.

(* A one-cell problem that converges at its second iteration: M = 2, F = 1. *)
Definition ex_M : mat R := mkmat 1 1 (fun _ _ => 2).
Definition ex_F : mat R := mkmat 1 1 (fun _ _ => 1).
Definition ex_solver (M : mat R) (b : vec R) : vec R := mkvec 1 (fun i => vat b i / 2).

Lemma ex_solver_exact : exact_solver ex_M (ex_solver ex_M).
Proof.
  intros b Hb. split; [reflexivity|]. split; [symmetry; exact Hb|].
  intros i Hi. cbn in Hi. assert (i = 0%Z) by lia. subst i. rewrite mvmul_at.
  cbn [ex_M ex_solver mcols mat_at vat]. run_sums. lra.
Qed.

Lemma ex_converges :
  exists er, sourceIteration ex_solver ex_M ex_F 10 (1 / 10) FORWARD = Ok (2%Z, er) /\ er_k er = 1 / 2 /\
    vat (pi_flux (power (ex_solver ex_M) ex_F 1 2)) 0 = 1 * vat (pi_flux (power (ex_solver ex_M) ex_F 1 1)) 0 /\
    vdot (mvmul ex_F (pi_flux (power (ex_solver ex_M) ex_F 1 2)))
         (mvmul ex_F (pi_flux (power (ex_solver ex_M) ex_F 1 2))) <> 0.
Proof.
  set (P := power (ex_solver ex_M) ex_F 1).
  assert (F1 : vat (pi_flux (P 1%nat)) 0 = 1 / 2) by (cbn; lra).
  assert (D : forall u v : vec R, vdot (mvmul ex_F u) (mvmul ex_F v) = vat u 0 * vat v 0).
  { intros u v. unfold vdot. cbn [mvmul vlen vat ex_F mrows mcols mat_at]. run_sums. ring. }
  assert (K1 : pi_k (P 1%nat) = 1 / 2).
  { change (pi_k (P 1%nat)) with
      (1 * (vdot (mvmul ex_F (pi_flux (P 1%nat))) (mvmul ex_F (pi_flux (P 1%nat))) /
        vdot (mvmul ex_F (vones 1)) (mvmul ex_F (pi_flux (P 1%nat))))).
    rewrite !D, F1, vones_at. field. }
  assert (S1 : vat (pi_src (P 1%nat)) 0 = 1).
  { change (vat (pi_src (P 1%nat)) 0) with (rsum 0 1 (fun j => 1 * vat (pi_flux (P 1%nat)) j) / pi_k (P 1%nat)).
    rewrite K1. run_sums. rewrite F1. field. }
  assert (F2 : vat (pi_flux (P 2%nat)) 0 = 1 / 2).
  { change (vat (pi_flux (P 2%nat)) 0) with (vat (pi_src (P 1%nat)) 0 / 2). rewrite S1. lra. }
  assert (K2 : pi_k (P 2%nat) = 1 / 2).
  { change (pi_k (P 2%nat)) with
      (pi_k (P 1%nat) * (vdot (mvmul ex_F (pi_flux (P 2%nat))) (mvmul ex_F (pi_flux (P 2%nat))) /
        vdot (mvmul ex_F (pi_flux (P 1%nat))) (mvmul ex_F (pi_flux (P 2%nat))))).
    rewrite !D, K1, F1, F2. field. }
  destruct (sourceIteration_spec ex_solver ex_M ex_F 1 10 (1 / 10) FORWARD) as [H|[H _]];
    try reflexivity; try lia.
  - destruct H as [j [Hj [Hc [Hn Hr]]]]. fold P in Hr.
    assert (C0 : nltb (pi_change (ex_solver ex_M) ex_F 1 0) (1 / 10) = false).
    { unfold pi_change. fold P. rewrite K1. change (pi_k (P 0%nat)) with 1. rnum.
      apply Rltb_false. rewrite Rabs_left by lra. lra. }
    assert (C1 : nltb (pi_change (ex_solver ex_M) ex_F 1 1) (1 / 10) = true).
    { unfold pi_change. fold P. rewrite K1, K2. rnum. apply Rltb_true.
      replace ((1 / 2 - 1 / 2) / (1 / 2)) with 0 by field. rewrite Rabs_R0. lra. }
    assert (j = 1%nat) as ->.
    { destruct j as [|[|j]]; auto; [congruence|]. rewrite (Hn 1%nat) in C1 by lia. discriminate. }
    eexists. split; [exact Hr|]. unfold er_single, er_k. rewrite K2, F2, F1.
    repeat split; try lra. rewrite D, F2. lra.
  - exfalso. specialize (H 1%nat ltac:(lia)).
    assert (C1 : nltb (pi_change (ex_solver ex_M) ex_F 1 1) (1 / 10) = true); [|congruence].
    unfold pi_change. fold P. rewrite K1, K2. rnum. apply Rltb_true.
    replace ((1 / 2 - 1 / 2) / (1 / 2)) with 0 by field. rewrite Rabs_R0. lra.
Qed.
