(* Histories of kinetics steps and trajectories of the point kinetics equations. *)
From Coq Require Import String ZArith List Bool Lia Reals Lra Permutation ClassicalChoice.
From Coquelicot Require Import Coquelicot.
From Verif Require Import Base BaseLemmas NumR ModelNumTools ProofsNumTools InHour Modes Positivity ModelKinetics ProofsKinetics ProofsKineticsB.
Import ListNotations.
Local Open Scope R_scope.

(* ---------- factorisation, and existence of the root lists ---------- *)

Lemma ceval_scal c p z : ceval (map (Rmult c) p) z = Cmult (RtoC c) (ceval p z).
Proof.
  induction p as [|a p IH]; cbn [map ceval]; [ring|]. rewrite IH, RtoC_mult. ring.
Qed.
Lemma ceval_plus p q z : length p = length q -> ceval (map2 Rplus p q) z = Cplus (ceval p z) (ceval q z).
Proof.
  revert q; induction p as [|a p IH]; intros [|b q] H; cbn [length] in H; try lia; cbn [map2 ceval]; [ring|].
  rewrite IH by lia. rewrite RtoC_plus. ring.
Qed.
Lemma ceval_snoc0 p z : ceval (p ++ [0]) z = ceval p z.
Proof. induction p as [|a p IH]; cbn [List.app ceval]; [ring|]. rewrite IH. reflexivity. Qed.
Lemma ceval_linprod l z : ceval (linprod_coeffs (map Ropp l)) z = cprod z (map RtoC l).
Proof.
  induction l as [|r l IH]; cbn [map linprod_coeffs cprod]; [cbn; ring|]. cbv zeta.
  rewrite ceval_plus by (rewrite app_length, map_length; cbn; lia).
  rewrite ceval_snoc0, ceval_scal. cbn [ceval]. rewrite IH, RtoC_opp. ring.
Qed.
Lemma ceval_factor p xs z : NoDup xs -> length p = S (length xs) -> (forall x, In x xs -> peval p x = 0) ->
  ceval p z = Cmult (RtoC (last p 0)) (cprod z (map RtoC xs)).
Proof.
  intros Hn Hl Hr.
  assert (E : p = map (Rmult (last p 0)) (linprod_coeffs (map Ropp xs))).
  { apply peval_ext; [rewrite map_length, linprod_coeffs_length, map_length; exact Hl|].
    intros x. rewrite map_scal_peval, linprod_coeffs_peval. apply factor; assumption. }
  rewrite E at 1. rewrite ceval_scal, ceval_linprod. reflexivity.
Qed.

Lemma poly_real_roots (k : kinetics R) rho : group_data (kn_lambda k) (kn_beta k) (kn_alpha k) ->
  exists p xs, inHourPoly k rho = Ok p /\ length p = S (S (length (kn_lambda k))) /\ last p 0 = - kn_alpha k /\
    NoDup xs /\ length xs = S (length (kn_lambda k)) /\
    (forall z, ceval p z = Cmult (RtoC (- kn_alpha k)) (cprod z (map RtoC xs))).
Proof.
  intros (Ha & Hl & Hn & Hpos).
  destruct (inHourPoly_spec k rho ltac:(lia)) as (p & Ep & Lp & Last & Pv).
  set (ka := rho - rsum 0 (zlen (kn_beta k)) (fun i => (kn_beta k)@i)) in *.
  destruct (inhour_roots ka (kn_alpha k) (combine (kn_lambda k) (kn_beta k)) Ha) as (xs & Lx & Nx & Rx).
  { intros g Hg. destruct (combine_in _ _ g (or_intror I) Hg Hl) as (i & Hi & ->). apply Hpos, Hi. }
  { rewrite map_fst_combine by lia. exact Hn. }
  rewrite combine_length, Hl, Nat.min_id in Lx.
  exists p, xs. do 3 (split; [assumption|]). split; [exact Nx|]. split; [exact Lx|].
  intros z. rewrite <- Last. apply ceval_factor; [exact Nx|congruence|]. intros x Hx. rewrite Pv. apply Rx, Hx.
Qed.

(* croots returns the complex roots, with multiplicity, of every inhour polynomial *)
Definition finds_roots (croots : list R -> list (R * R)) : Prop :=
  forall (k : kinetics R) rho p, group_data (kn_lambda k) (kn_beta k) (kn_alpha k) ->
    inHourPoly k rho = Ok p -> root_list p (croots p).

Lemma finds_roots_exists : exists croots, finds_roots croots.
Proof.
  destruct (choice (fun (p : list R) (rs : list C) =>
    forall (k : kinetics R) rho, group_data (kn_lambda k) (kn_beta k) (kn_alpha k) -> inHourPoly k rho = Ok p -> root_list p rs)) as (f & Hf).
  - intros p.
    destruct (Classical_Prop.classic (exists (k : kinetics R) rho, group_data (kn_lambda k) (kn_beta k) (kn_alpha k) /\ inHourPoly k rho = Ok p))
      as [(k & rho & G & E)|N].
    + destruct (poly_real_roots k rho G) as (p' & xs & E' & Lp & La & Nx & Lx & F).
      rewrite E in E'. injection E' as <-. exists (map RtoC xs). intros _ _ _ _. split.
      * rewrite map_length. lia.
      * rewrite La. exact F.
    + exists []. intros k rho G E. exfalso. apply N. exists k, rho. auto.
  - exists f. intros k rho p G E. exact (Hf p k rho G E).
Qed.

(* ---------- trajectories ---------- *)

Definition kdP (la be : list R) (al rho p : R) (c : Z -> R) : R :=
  (rho - rsum 0 (zlen la) (fun i => be@i)) / al * p + rsum 0 (zlen la) (fun i => la@i * c i).
Definition kdC (la be : list R) (al p : R) (c : Z -> R) (i : Z) : R := be@i / al * p - la@i * c i.

(* P and C satisfy the point kinetics equations with reactivity rho strictly between a and b *)
Definition obeys (la be : list R) (al rho : R) (P : R -> R) (C : Z -> R -> R) (a b : R) : Prop :=
  forall t, Rmin a b < t < Rmax a b ->
    is_derive P t (kdP la be al rho (P t) (fun i => C i t)) /\
    forall i, (0 <= i < zlen la)%Z -> is_derive (C i) t (kdC la be al (P t) (fun i => C i t) i).
Definition continuous_between (la : list R) (P : R -> R) (C : Z -> R -> R) (a b : R) : Prop :=
  forall t, Rmin a b <= t <= Rmax a b -> continuity_pt P t /\ forall i, (0 <= i < zlen la)%Z -> continuity_pt (C i) t.

Section Hist.
Variable croots : list R -> list (R * R).
Hypothesis Hroots : finds_roots croots.

Definition same_reactor (k k' : kinetics R) : Prop :=
  kn_lambda k' = kn_lambda k /\ kn_beta k' = kn_beta k /\ kn_alpha k' = kn_alpha k.

Lemma step_exact k rho a b P C : consistent k ->
  obeys (kn_lambda k) (kn_beta k) (kn_alpha k) rho P C a b -> continuous_between (kn_lambda k) P C a b ->
  P a = kn_power k -> (forall i, (0 <= i < zlen (kn_lambda k))%Z -> C i a = (kn_conc k)@i) ->
  exists k', power1 exp croots k rho (b - a) = Ok (P b, k') /\ consistent k' /\ same_reactor k k' /\
    kn_time k' = kn_time k + (b - a) /\ kn_power k' = P b /\
    forall i, (0 <= i < zlen (kn_lambda k))%Z -> (kn_conc k')@i = C i b.
Proof.
  intros Hk Ho Hc HP HC. pose proof Hk as (G & _). pose proof G as (Ha & Hl & Hn & Hpos).
  destruct (roots_spec croots k rho G (fun p => Hroots k rho p G)) as (roots & Er & Lr & Nr & _ & Po & Ch).
  destruct (power1_spec croots k rho (b - a) roots Hk Er Lr Nr Po Ch) as (k' & E & Hk' & E1 & E2 & E3 & E4 & E5 & E6).
  set (n := zlen (kn_lambda k)) in *.
  assert (ext : forall la be s al p c c' t, (forall i, (0 <= i < n)%Z -> c i = c' i) ->
     modalP n la be s al p c t = modalP n la be s al p c' t /\ forall i, modalC n la be s al p c i t = modalC n la be s al p c' i t).
  { intros la be s al p c c' t Ec.
    assert (Ea : forall j, amp n la be s al p c j = amp n la be s al p c' j).
    { intros j. unfold amp, wdot. f_equal. f_equal. apply rsum_ext. intros i Hi. rewrite Ec by exact Hi. reflexivity. }
    unfold modalP, modalC. split; [|intros i]; apply rsum_ext; intros j Hj; rewrite Ea; reflexivity. }
  destruct (modal_unique n (fun i => (kn_lambda k)@i) (fun i => (kn_beta k)@i) (fun j => roots@j) (kn_alpha k)
     (rho - rsum 0 n (fun i => (kn_beta k)@i)) (zlen_nonneg _) Ha (fun i Hi => proj1 (Hpos i Hi)) (fun i Hi => proj2 (Hpos i Hi))) with
     (P := P) (C := C) (a := a) (b := b) as [U1 U2].
  { intros i j Hi Hj D. apply nth_inj; auto; rewrite Lr; assumption. }
  { intros i j Hi Hj. apply Po; [exact Hi|rewrite Lr; exact Hj]. }
  { intros j Hj. apply Ch. rewrite Lr. exact Hj. }
  { exact Ho. }
  { exact Hc. }
  rewrite HP in U1, U2.
  assert (Q1 : kn_power k' = P b).
  { rewrite E5, U1. symmetry. apply (ext _ _ _ _ _ _ _ (b - a) HC). }
  exists k'. rewrite <- Q1. split; [exact E|]. split; [exact Hk'|]. split; [repeat split; assumption|]. split; [exact E4|]. split; [reflexivity|].
  intros i Hi. rewrite E6, U2 by exact Hi. symmetry. apply (ext _ _ _ _ _ _ _ (b - a) HC).
Qed.

(* a solution through any state, for all times *)
Lemma solution_exists k rho : consistent k ->
  exists P C, P 0 = kn_power k /\ (forall i, (0 <= i < zlen (kn_lambda k))%Z -> C i 0 = (kn_conc k)@i) /\
    forall t, is_derive P t (kdP (kn_lambda k) (kn_beta k) (kn_alpha k) rho (P t) (fun i => C i t)) /\
      forall i, (0 <= i < zlen (kn_lambda k))%Z -> is_derive (C i) t (kdC (kn_lambda k) (kn_beta k) (kn_alpha k) (P t) (fun i => C i t) i).
Proof.
  intros Hk. pose proof Hk as (G & _). pose proof G as (Ha & Hl & Hn & Hpos).
  destruct (roots_spec croots k rho G (fun p => Hroots k rho p G)) as (roots & Er & Lr & Nr & _ & Po & Ch).
  set (n := zlen (kn_lambda k)) in *.
  exists (modalP n (fun i => (kn_lambda k)@i) (fun i => (kn_beta k)@i) (fun j => roots@j) (kn_alpha k) (kn_power k) (fun i => (kn_conc k)@i)).
  exists (modalC n (fun i => (kn_lambda k)@i) (fun i => (kn_beta k)@i) (fun j => roots@j) (kn_alpha k) (kn_power k) (fun i => (kn_conc k)@i)).
  assert (A1 : forall i j, (0 <= i < n + 1)%Z -> (0 <= j < n + 1)%Z -> i <> j -> roots@i <> roots@j)
    by (intros i j Hi Hj D; apply nth_inj; auto; rewrite Lr; assumption).
  assert (A2 : forall i j, (0 <= i < n)%Z -> (0 <= j < n + 1)%Z -> (kn_lambda k)@i + roots@j <> 0)
    by (intros i j Hi Hj; apply Po; [exact Hi|rewrite Lr; exact Hj]).
  assert (A3 : forall j, (0 <= j < n + 1)%Z -> kn_alpha k * roots@j = rho - rsum 0 n (fun i => (kn_beta k)@i) +
     rsum 0 n (fun i => (kn_lambda k)@i * (kn_beta k)@i / ((kn_lambda k)@i + roots@j))) by (intros j Hj; apply Ch; rewrite Lr; exact Hj).
  pose proof (modal_start n (fun i => (kn_lambda k)@i) (fun i => (kn_beta k)@i) (fun j => roots@j) (kn_alpha k)
     (rho - rsum 0 n (fun i => (kn_beta k)@i)) (zlen_nonneg _) Ha (fun i Hi => proj1 (Hpos i Hi)) (fun i Hi => proj2 (Hpos i Hi)) A1 A2 A3
     (kn_power k) (fun i => (kn_conc k)@i)) as [S1 S2].
  split; [exact S1|]. split; [exact S2|]. intros t.
  apply (modal_solves n (fun i => (kn_lambda k)@i) (fun i => (kn_beta k)@i) (fun j => roots@j) (kn_alpha k)
     (rho - rsum 0 n (fun i => (kn_beta k)@i)) (zlen_nonneg _) Ha A2 A3).
Qed.

Lemma is_derive_continuity (f : R -> R) t d : is_derive f t d -> continuity_pt f t.
Proof. intros H. apply derivable_continuous_pt. apply ex_derive_Reals_0. exists d. exact H. Qed.

Lemma global_obeys la be al rho P (C : Z -> R -> R) a b :
  (forall t, is_derive P t (kdP la be al rho (P t) (fun i => C i t)) /\
      forall i, (0 <= i < zlen la)%Z -> is_derive (C i) t (kdC la be al (P t) (fun i => C i t) i)) ->
  obeys la be al rho P C a b /\ continuous_between la P C a b.
Proof.
  intros H. split.
  - intros t _. apply H.
  - intros t _. destruct (H t) as [D1 D2]. split; [eapply is_derive_continuity; exact D1|].
    intros i Hi. eapply is_derive_continuity; apply D2, Hi.
Qed.

Lemma step_ok k rho dt : consistent k ->
  exists k', power1 exp croots k rho dt = Ok (kn_power k', k') /\ consistent k' /\ same_reactor k k' /\ kn_time k' = kn_time k + dt.
Proof.
  intros Hk. destruct (solution_exists k rho Hk) as (P & C & P0 & C0 & D).
  destruct (global_obeys _ _ _ _ _ _ 0 dt D) as [Ho Hc].
  destruct (step_exact k rho 0 dt P C Hk Ho Hc P0 C0) as (k' & E & H1 & H2 & H3 & H4 & _).
  rewrite Rminus_0_r in *. rewrite <- H4 in E. exists k'. auto.
Qed.

Definition instant (times : list R) (m : Z) : R := if (m =? 0)%Z then 0 else times@(m - 1).

Lemma powers_history k rhos times (Inv : Z -> kinetics R -> Prop) : consistent k -> (length rhos <= length times)%nat ->
  Inv 0%Z k ->
  (forall m k1, (0 <= m < zlen rhos)%Z -> consistent k1 -> same_reactor k k1 -> kn_time k1 = kn_time k + instant times m -> Inv m k1 ->
     forall k2, power1 exp croots k1 rhos@m (instant times (m + 1) - instant times m) = Ok (kn_power k2, k2) -> consistent k2 -> same_reactor k k2 ->
       Inv (m + 1)%Z k2) ->
  exists res k', powers exp croots k rhos times = Ok (res, k') /\ consistent k' /\ same_reactor k k' /\
    length res = length rhos /\ kn_time k' = kn_time k + instant times (zlen rhos) /\
    (rhos <> [] -> kn_power k' = last res 0) /\ Inv (zlen rhos) k' /\
    forall m, (0 <= m < zlen rhos)%Z -> exists km, res@m = kn_power km /\ Inv (m + 1)%Z km.
Proof.
  intros Hk Hl H0 Hstep. unfold powers.
  assert (W : wp (zfor 0 (zlen rhos) (fun i st =>
    let '(results, k) := st in
    deltaT <- (if (0 <? i)%Z then t <- lget times i ;; t' <- lget times (i - 1) ;; Ok (t [-] t')
               else lget times i) ;;
    rho <- lget rhos i ;;
    ' (p, k) <- power1 exp croots k rho deltaT ;;
    Ok (results ++ [p], k)) ([], k))
   (fun st => consistent (snd st) /\ same_reactor k (snd st) /\ length (fst st) = length rhos /\
      kn_time (snd st) = kn_time k + instant times (zlen rhos) /\ (rhos <> [] -> kn_power (snd st) = last (fst st) 0) /\
      Inv (zlen rhos) (snd st) /\ forall m, (0 <= m < zlen rhos)%Z -> exists km, (fst st)@m = kn_power km /\ Inv (m + 1)%Z km)).
  { eapply zfor_wp' with (I := fun m st => consistent (snd st) /\ same_reactor k (snd st) /\ length (fst st) = Z.to_nat m /\
      kn_time (snd st) = kn_time k + instant times m /\ ((0 < m)%Z -> kn_power (snd st) = last (fst st) 0) /\
      Inv m (snd st) /\ forall i, (0 <= i < m)%Z -> exists km, (fst st)@i = kn_power km /\ Inv (i + 1)%Z km).
    - apply zlen_nonneg.
    - cbn [fst snd]. split; [exact Hk|]. split; [repeat split|]. split; [reflexivity|]. split; [unfold instant; cbn; ring|].
      split; [lia|]. split; [exact H0|]. intros; lia.
    - intros m [results k1] Hm (I1 & I2 & I3 & I4 & I5 & I6 & I7). cbn [fst snd] in *. unfold zlen in Hm.
      assert (Edt : (if (0 <? m)%Z then t <- lget times m ;; t' <- lget times (m - 1) ;; Ok (t [-] t') else lget times m)
                    = Ok (instant times (m + 1) - instant times m)).
      { unfold instant. destruct (Z.eqb_spec (m + 1) 0); [lia|]. replace (m + 1 - 1)%Z with m by lia.
        destruct (Z.ltb_spec 0 m); destruct (Z.eqb_spec m 0); try lia.
        - rewrite (lget_ok times m 0) by (unfold zlen; lia). cbn [bind]. rewrite (lget_ok times (m - 1) 0) by (unfold zlen; lia). reflexivity.
        - rewrite (lget_ok times m 0) by (unfold zlen; lia). rewrite Rminus_0_r. reflexivity. }
      rewrite Edt. cbn [bind]. rewrite (lget_ok rhos m 0) by (unfold zlen; lia). cbn [bind].
      destruct (step_ok k1 rhos@m (instant times (m + 1) - instant times m) I1) as (k2 & E & J1 & J2 & J3).
      rewrite E. cbn [bind wp fst snd].
      assert (J2' : same_reactor k k2) by (destruct I2 as (a & b & c), J2 as (a' & b' & c'); repeat split; congruence).
      split; [exact J1|]. split; [exact J2'|]. split; [rewrite app_length; cbn; lia|]. split; [rewrite J3, I4; ring|].
      split; [intros _; rewrite last_last; reflexivity|].
      assert (K : Inv (m + 1)%Z k2) by (eapply (Hstep m k1); eauto; unfold zlen; lia).
      split; [exact K|]. intros i Hi. destruct (Z.eq_dec i m) as [->|D].
      + exists k2. rewrite app_nth2 by lia. rewrite I3, Nat.sub_diag. split; [reflexivity|exact K].
      + rewrite app_nth1 by lia. apply I7. lia.
    - intros [results k1] (I1 & I2 & I3 & I4 & I5 & I6 & I7). cbn [fst snd] in *. repeat (split; [assumption|]).
      split; [unfold zlen in I3; rewrite Nat2Z.id in I3; exact I3|]. split; [exact I4|]. split; [|split; assumption].
      intros Ne. apply I5. destruct rhos; [congruence|]. unfold zlen; cbn; lia. }
  apply wp_ok in W as ([res k'] & -> & W). cbn [fst snd] in W. exists res, k'. split; [reflexivity|exact W].
Qed.
End Hist.
