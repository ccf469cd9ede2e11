(* A step of the kinetics model is the modal solution. *)
From Coq Require Import String ZArith List Bool Lia Reals Lra Permutation.
From Coquelicot Require Import Coquelicot.
From Verif Require Import Base BaseLemmas NumR LinAlg ModelNumTools ProofsNumTools InHour Modes ModelKinetics ProofsKinetics.
Import ListNotations.
Local Open Scope R_scope.

Lemma frac_sum (la be : list R) s : (length la <= length be)%nat ->
  frac (combine la be) s = rsum 0 (zlen la) (fun i => la@i * be@i / (la@i + s)).
Proof.
  revert be. induction la as [|a la IH]; intros [|b be] H; cbn [length] in H; try lia; cbn [combine frac].
  - rewrite rsum_empty by (cbn; lia). reflexivity.
  - rewrite rsum_empty by (cbn; lia). reflexivity.
  - replace (zlen (a :: la)) with (zlen la + 1)%Z by (unfold zlen; cbn [length]; lia).
    pose proof (zlen_nonneg la). rewrite (rsum_first 0 (zlen la + 1)) by lia. f_equal.
    rewrite IH by lia. rewrite <- (rsum_shift 0 (zlen la) 1). apply rsum_ext. intros i Hi.
    replace (Z.to_nat (i + 1)) with (S (Z.to_nat i)) by lia. reflexivity.
Qed.

(* what the class keeps true of its fields *)
Definition group_data (la be : list R) (al : R) : Prop :=
  0 < al /\ length be = length la /\ NoDup la /\ forall i, (0 <= i < zlen la)%Z -> 0 < la@i /\ 0 < be@i.
Definition deviations (k : kinetics R) : Prop :=
  forall i, (0 <= i < zlen (kn_lambda k))%Z ->
    (kn_dev k)@i = (kn_beta k)@i / kn_alpha k * kn_power k - (kn_lambda k)@i * (kn_conc k)@i.
Definition consistent (k : kinetics R) : Prop :=
  group_data (kn_lambda k) (kn_beta k) (kn_alpha k) /\
  length (kn_conc k) = length (kn_lambda k) /\ length (kn_dev k) = length (kn_lambda k) /\ deviations k.

Lemma combine_in la be g : group_data la be 1 \/ True -> In g (combine la be) -> (length be = length la) ->
  exists i, (0 <= i < zlen la)%Z /\ g = (la@i, be@i).
Proof.
  intros _ Hg Hl. apply (In_nth _ _ (0, 0)) in Hg as (i & Hi & <-). rewrite combine_length in Hi.
  exists (Z.of_nat i). rewrite Nat2Z.id. split; [unfold zlen; lia|]. apply combine_nth. congruence.
Qed.
Lemma nth_inj (l : list R) i j : NoDup l -> (0 <= i < zlen l)%Z -> (0 <= j < zlen l)%Z -> i <> j -> l@i <> l@j.
Proof.
  intros H Hi Hj D E. unfold zlen in *. apply (proj1 (NoDup_nth l 0) H) in E; lia.
Qed.

Section Step.
Variable croots : list R -> list (R * R).

Lemma roots_spec k rho : group_data (kn_lambda k) (kn_beta k) (kn_alpha k) ->
  (forall p, inHourPoly k rho = Ok p -> root_list p (croots p)) ->
  exists roots, inHourEqRoots croots k rho = Ok roots /\ zlen roots = (zlen (kn_lambda k) + 1)%Z /\ NoDup roots /\
    (forall p, inHourPoly k rho = Ok p -> croots p = map RtoC roots) /\
    (forall i j, (0 <= i < zlen (kn_lambda k))%Z -> (0 <= j < zlen roots)%Z -> (kn_lambda k)@i + roots@j <> 0) /\
    (forall j, (0 <= j < zlen roots)%Z -> kn_alpha k * roots@j =
       rho - rsum 0 (zlen (kn_lambda k)) (fun i => (kn_beta k)@i) +
       rsum 0 (zlen (kn_lambda k)) (fun i => (kn_lambda k)@i * (kn_beta k)@i / ((kn_lambda k)@i + roots@j))).
Proof.
  intros (Ha & Hl & Hn & Hpos) Hro.
  destruct (inHourPoly_spec k rho ltac:(lia)) as (p & Ep & Lp & Last & Pv).
  pose proof (Hro p Ep) as HR.
  set (la := kn_lambda k) in *. set (be := kn_beta k) in *. set (al := kn_alpha k) in *.
  assert (Zb : zlen be = zlen la) by (unfold zlen; congruence). rewrite Zb in Pv.
  set (ka := rho - rsum 0 (zlen la) (fun i => be@i)) in *.
  assert (Pg : forall g, In g (combine la be) -> 0 < fst g /\ 0 < snd g).
  { intros g Hg. destruct (combine_in la be g (or_intror I) Hg Hl) as (i & Hi & ->). cbn [fst snd]. apply Hpos, Hi. }
  destruct (inhour_roots ka al (combine la be) Ha Pg) as (xs & Lx & Nx & Rx).
  { rewrite map_fst_combine by lia. exact Hn. }
  rewrite combine_length, Hl, Nat.min_id in Lx.
  assert (Perm : Permutation (map RtoC xs) (croots p)).
  { apply (real_roots p); [exact HR|rewrite Last; lra|exact Nx|lia|]. intros x Hx. rewrite Pv. apply Rx, Hx. }
  assert (Perm' : Permutation xs (map fst (croots p))).
  { apply (Permutation_map fst) in Perm. rewrite map_map in Perm. cbn in Perm. rewrite map_id in Perm. exact Perm. }
  exists (map fst (croots p)). unfold inHourEqRoots. rewrite Ep. cbn [bind]. split; [reflexivity|].
  assert (Lr : zlen (map fst (croots p)) = (zlen la + 1)%Z) by (unfold zlen; rewrite <- (Permutation_length Perm'), Lx; lia).
  assert (Rr : forall j, (0 <= j < zlen (map fst (croots p)))%Z -> inhour ka al (combine la be) (map fst (croots p))@j = 0).
  { intros j Hj. apply Rx. eapply Permutation_in; [symmetry; exact Perm'|]. apply nth_In. unfold zlen in Hj. lia. }
  assert (Po : forall i j, (0 <= i < zlen la)%Z -> (0 <= j < zlen (map fst (croots p)))%Z -> la@i + (map fst (croots p))@j <> 0).
  { intros i j Hi Hj E. pose proof (Rr j Hj) as Q. replace ((map fst (croots p))@j) with (- la@i) in Q by lra.
    assert (S : combine la be = firstn (Z.to_nat i) (combine la be) ++ (la@i, be@i) :: skipn (S (Z.to_nat i)) (combine la be)).
    { rewrite <- (combine_nth la be (Z.to_nat i) 0 0) by congruence.
      rewrite <- (firstn_skipn (Z.to_nat i) (combine la be)) at 1. f_equal.
      assert (Li : (Z.to_nat i < length (combine la be))%nat) by (rewrite combine_length; unfold zlen in Hi; lia).
      revert Li. generalize (combine la be). generalize (Z.to_nat i). clear.
      intros m. induction m as [|m IH]; intros [|g q] H; cbn in *; try lia; [reflexivity|]. apply IH. lia. }
    rewrite S, inhour_pole in Q.
    pose proof (f_equal (map fst) S) as S'. rewrite map_fst_combine, map_app in S' by lia. cbn [map fst] in S'.
    rewrite S' in Hn. apply NoDup_remove_2 in Hn.
    destruct (Hpos i Hi) as [p1 p2].
    apply Rmult_integral in Q as [Q|Q]; [apply Rmult_integral in Q as [Q|Q]; lra|].
    apply Rmult_integral in Q as [Q|Q]; apply linprod_zero in Q; rewrite Ropp_involutive in Q; apply Hn; apply in_or_app; [left|right]; exact Q. }
  split; [exact Lr|]. split; [eapply Permutation_NoDup; [exact Perm'|exact Nx]|]. split; [|split; [exact Po|]].
  - intros p' E'. injection E' as <-. rewrite map_map. rewrite <- (map_id (croots p)) at 1.
    apply map_ext_in. intros z Hz. apply (Permutation_in z (Permutation_sym Perm)) in Hz.
    apply in_map_iff in Hz as (x & <- & _). reflexivity.
  - intros j Hj. pose proof (Rr j Hj) as Q. rewrite inhour_frac in Q.
    + apply Rmult_integral in Q as [Q|Q].
      * exfalso. rewrite map_fst_combine in Q by lia. apply linprod_zero in Q.
        apply (In_nth _ _ 0) in Q as (i & Hi & Q). apply (Po (Z.of_nat i) j); [unfold zlen; lia|exact Hj|]. rewrite Nat2Z.id, Q. ring.
      * rewrite frac_sum in Q by lia. lra.
    + intros g Hg. destruct (combine_in la be g (or_intror I) Hg Hl) as (i & Hi & ->). cbn [fst]. apply Po; assumption.
Qed.

Lemma list_build (f : Z -> R) (m : nat) (body : Z -> list R -> res (list R)) (l0 : list R) :
  length l0 = m ->
  (forall i l, (0 <= i < Z.of_nat m)%Z -> length l = m -> body i l = lset l i (f i)) ->
  wp (zfor 0 (Z.of_nat m) body l0) (fun l => length l = m /\ forall i, (0 <= i < Z.of_nat m)%Z -> l@i = f i).
Proof.
  intros L0 Hb. eapply zfor_wp' with (I := fun k l => length l = m /\ forall i, (0 <= i < k)%Z -> l@i = f i).
  - lia.
  - split; [exact L0|]. intros; lia.
  - intros k l Hk [Ll Hl]. rewrite Hb by (auto; lia). rewrite lset_ok by (unfold zlen; lia). cbn [wp].
    split; [rewrite list_upd_length; exact Ll|]. intros i Hi. rewrite nth_list_upd by lia.
    destruct (Nat.eqb_spec (Z.to_nat i) (Z.to_nat k)) as [E|E].
    + f_equal. lia.
    + apply Hl. lia.
  - auto.
Qed.

Lemma zsum_ok (n : Z) (g : Z -> R) (body : Z -> R -> res R) : (0 <= n)%Z ->
  (forall i x, (0 <= i < n)%Z -> body i x = Ok (x + g i)) -> zfor 0 n body 0 = Ok (rsum 0 n g).
Proof.
  intros Hn Hb. assert (W : wp (zfor 0 n body 0) (fun x => x = rsum 0 n g)).
  { eapply zfor_wp' with (I := fun k x => x = rsum 0 k g).
    - exact Hn.
    - rewrite rsum_empty by lia. reflexivity.
    - intros k x Hk ->. rewrite Hb by exact Hk. cbn [wp]. rewrite rsum_last by lia. reflexivity.
    - auto. }
  apply wp_ok in W as (x & -> & ->). reflexivity.
Qed.

Section At.
Variables (k : kinetics R) (roots : list R).
Hypothesis Hk : consistent k.
Let n := zlen (kn_lambda k).
Let la i := (kn_lambda k)@i.
Let be i := (kn_beta k)@i.
Let s j := roots@j.
Hypothesis Hrl : zlen roots = (n + 1)%Z.
Hypothesis Hpo : forall i j, (0 <= i < n)%Z -> (0 <= j < zlen roots)%Z -> la i + s j <> 0.

Lemma amplitudes_spec : exists R, amplitudes k roots = Ok R /\ length R = length roots /\
  forall j, (0 <= j < zlen roots)%Z -> R@j = amp n la be s (kn_alpha k) (kn_power k) (fun i => (kn_conc k)@i) j.
Proof.
  destruct Hk as ((Ha & Hl & Hn & Hpos) & Lc & Ld & Dv).
  assert (W : wp (amplitudes k roots) (fun R => length R = length roots /\
    forall j, (0 <= j < Z.of_nat (length roots))%Z -> R@j = amp n la be s (kn_alpha k) (kn_power k) (fun i => (kn_conc k)@i) j)).
  { unfold amplitudes, zlen at 1. apply list_build; [apply repeat_length|].
    intros j l Hj Ll. rewrite (lget_ok roots j 0) by (unfold zlen; lia). cbn [bind]. fold (s j).
    assert (W : wp (zfor 0 (zlen (kn_lambda k)) (fun j0 st => let '(sum1, sum2, sum3) := st in
        l0 <- lget (kn_lambda k) j0 ;; b <- lget (kn_beta k) j0 ;; d <- lget (kn_dev k) j0 ;;
        Ok (sum1 [+] b [/] (s j [+] l0), sum2 [+] d [/] (s j [+] l0), sum3 [+] b [*] l0 [/] npow (s j [+] l0) 2)) (n0, n0, n0))
      (fun st => st = (rsum 0 n (fun i => be i / (s j + la i)), rsum 0 n (fun i => (kn_dev k)@i / (s j + la i)),
         rsum 0 n (fun i => be i * la i / (s j + la i) ^ 2)))).
    { eapply zfor_wp' with (I := fun m st => st = (rsum 0 m (fun i => be i / (s j + la i)), rsum 0 m (fun i => (kn_dev k)@i / (s j + la i)),
         rsum 0 m (fun i => be i * la i / (s j + la i) ^ 2))).
      - apply zlen_nonneg.
      - rewrite !rsum_empty by lia. reflexivity.
      - intros i st Hi ->. rewrite (lget_ok (kn_lambda k) i 0) by lia. cbn [bind].
        rewrite (lget_ok (kn_beta k) i 0) by (unfold zlen in *; lia). cbn [bind].
        rewrite (lget_ok (kn_dev k) i 0) by (unfold zlen in *; lia). cbn [bind wp].
        rewrite !rsum_last by lia. rnum. unfold la, be. rewrite npow_pow. reflexivity.
      - auto. }
    apply wp_ok in W as (st & -> & ->). cbn [bind]. f_equal. rnum.
    unfold amp, den, wdot, v.
    assert (Hj' : (0 <= j < zlen roots)%Z) by (unfold zlen; lia).
    f_equal.
    - rewrite Rmult_plus_distr_l, Rmult_1_r. unfold Rminus. rewrite Rplus_assoc. f_equal.
      rewrite <- !rsum_scal, <- rsum_opp, <- rsum_plus. apply rsum_ext. intros i Hi.
      pose proof (Hpo i j Hi Hj'). rewrite (Dv i Hi). unfold la, be in *. field. split; lra.
    - f_equal. rewrite <- rsum_scal. apply rsum_ext. intros i Hi. pose proof (Hpo i j Hi Hj'). field. repeat split; lra. }
  apply wp_ok in W as (R & -> & L & E). exists R. split; [reflexivity|]. split; [exact L|]. exact E.
Qed.
End At.

Lemma power1_spec k rho dt roots : consistent k ->
  inHourEqRoots croots k rho = Ok roots -> zlen roots = (zlen (kn_lambda k) + 1)%Z -> NoDup roots ->
  (forall i j, (0 <= i < zlen (kn_lambda k))%Z -> (0 <= j < zlen roots)%Z -> (kn_lambda k)@i + roots@j <> 0) ->
  (forall j, (0 <= j < zlen roots)%Z -> kn_alpha k * roots@j =
       rho - rsum 0 (zlen (kn_lambda k)) (fun i => (kn_beta k)@i) +
       rsum 0 (zlen (kn_lambda k)) (fun i => (kn_lambda k)@i * (kn_beta k)@i / ((kn_lambda k)@i + roots@j))) ->
  exists k', power1 exp croots k rho dt = Ok (kn_power k', k') /\ consistent k' /\
    kn_lambda k' = kn_lambda k /\ kn_beta k' = kn_beta k /\ kn_alpha k' = kn_alpha k /\ kn_time k' = kn_time k + dt /\
    kn_power k' = modalP (zlen (kn_lambda k)) (fun i => (kn_lambda k)@i) (fun i => (kn_beta k)@i) (fun j => roots@j) (kn_alpha k)
                    (kn_power k) (fun i => (kn_conc k)@i) dt /\
    forall i, (0 <= i < zlen (kn_lambda k))%Z -> (kn_conc k')@i =
      modalC (zlen (kn_lambda k)) (fun i => (kn_lambda k)@i) (fun i => (kn_beta k)@i) (fun j => roots@j) (kn_alpha k)
                    (kn_power k) (fun i => (kn_conc k)@i) i dt.
Proof.
  intros Hk Er Lr Nr Po Ch. pose proof Hk as ((Ha & Hl & Hn & Hpos) & Lc & Ld & Dv).
  unfold power1. rewrite Er. cbn [bind].
  destruct (amplitudes_spec k roots Hk Po) as (R & -> & LR & AR). cbn [bind].
  set (n := zlen (kn_lambda k)) in *. set (la := fun i => (kn_lambda k)@i) in *. set (be := fun i => (kn_beta k)@i) in *.
  set (s := fun j => roots@j) in *. set (al := kn_alpha k) in *.
  set (c0 := fun i => (kn_conc k)@i) in *.
  assert (Z0 : (0 <= n)%Z) by apply zlen_nonneg.
  rewrite (zsum_ok (zlen roots) (fun j => amp n la be s al (kn_power k) c0 j * exp (s j * dt))).
  2:{ lia. }
  2:{ intros i x Hi. rewrite (lget_ok R i 0) by (unfold zlen in *; lia). cbn [bind]. rewrite (lget_ok roots i 0) by exact Hi. cbn [bind].
      rewrite AR by exact Hi. rnum. reflexivity. }
  cbn [bind]. rewrite Lr. fold (modalP n la be s al (kn_power k) c0 dt). set (P := modalP n la be s al (kn_power k) c0 dt).
  destruct (complete n la be s al (rho - rsum 0 n be) Z0 Ha (fun i Hi => proj1 (Hpos i Hi)) (fun i Hi => proj2 (Hpos i Hi))) with
    (p := kn_power k) (c := c0) as [E1 E2].
  { intros i j Hi Hj D. apply nth_inj; auto; rewrite Lr; assumption. }
  { intros i j Hi Hj. apply Po; [exact Hi|rewrite Lr; exact Hj]. }
  { intros j Hj. apply Ch. rewrite Lr. exact Hj. }
  set (nc := fun i => modalC n la be s al (kn_power k) c0 i dt).
  assert (W : wp (zfor 0 n (fun i st => let '(conc, dev) := st in
      l <- lget (kn_lambda k) i ;;
      sum4 <- zfor 0 (n + 1) (fun j x =>
                r <- lget R j ;; s <- lget roots j ;;
                Ok (x [+] r [*] (exp (s [*] dt) [-] exp (nopp l [*] dt)) [/] (l [+] s))) n0 ;;
      b <- lget (kn_beta k) i ;; c <- lget conc i ;;
      conc <- lset conc i ((b [/] al) [*] sum4 [+] c [*] exp (nopp l [*] dt)) ;;
      c <- lget conc i ;;
      dev <- lset dev i ((b [/] al) [*] P [-] l [*] c) ;;
      Ok (conc, dev)) (kn_conc k, kn_dev k))
    (fun st => length (fst st) = length (kn_lambda k) /\ length (snd st) = length (kn_lambda k) /\
       forall i, (0 <= i < n)%Z -> (fst st)@i = nc i /\ (snd st)@i = be i / al * P - la i * nc i)).
  { eapply zfor_wp' with (I := fun m st => length (fst st) = length (kn_lambda k) /\ length (snd st) = length (kn_lambda k) /\
       (forall i, (0 <= i < m)%Z -> (fst st)@i = nc i /\ (snd st)@i = be i / al * P - la i * nc i) /\
       (forall i, (m <= i < n)%Z -> (fst st)@i = c0 i)).
    - exact Z0.
    - split; [exact Lc|]. split; [exact Ld|]. split; [intros; lia|]. intros; reflexivity.
    - intros i [conc dev] Hi (L1 & L2 & H1 & H2). cbn [fst snd] in *.
      rewrite (lget_ok (kn_lambda k) i 0) by exact Hi. cbn [bind]. fold (la i).
      rewrite (zsum_ok (n + 1) (fun j => amp n la be s al (kn_power k) c0 j * (exp (s j * dt) - exp (- la i * dt)) / (la i + s j))).
      2:{ lia. }
      2:{ intros j x Hj. rewrite (lget_ok R j 0) by (unfold zlen in *; lia). cbn [bind]. rewrite (lget_ok roots j 0) by lia. cbn [bind].
          rewrite AR by lia. rnum. reflexivity. }
      cbn [bind]. rewrite (lget_ok (kn_beta k) i 0) by (unfold n, zlen in *; lia). cbn [bind].
      rewrite (lget_ok conc i 0) by (unfold n, zlen in *; lia). cbn [bind].
      rewrite lset_ok by (unfold n, zlen in *; lia). cbn [bind].
      rewrite (lget_ok _ i 0) by (unfold zlen; rewrite list_upd_length; unfold n, zlen in *; lia). cbn [bind].
      rewrite lset_ok by (unfold n, zlen in *; lia). cbn [bind wp fst snd].
      rewrite nth_list_upd by (unfold n, zlen in *; lia). rewrite Nat.eqb_refl. rewrite H2 by lia. fold (be i).
      assert (V : be i [/] al [*] rsum 0 (n + 1) (fun j => amp n la be s al (kn_power k) c0 j * (exp (s j * dt) - exp (- la i * dt)) / (la i + s j))
                   [+] c0 i [*] exp (nopp (la i) [*] dt) = nc i).
      { rnum. unfold nc, modalC. rewrite <- (E2 i Hi). rewrite <- rsum_scal_r, <- rsum_scal, <- rsum_plus. apply rsum_ext.
        intros j Hj. pose proof (Po i j Hi ltac:(lia)) as D. unfold v. fold (la i) (s j) in D. field. split; lra. }
      rewrite V. split; [rewrite list_upd_length; exact L1|]. split; [rewrite list_upd_length; exact L2|]. split.
      + intros i' Hi'. rewrite !nth_list_upd by (unfold n, zlen in *; lia).
        destruct (Nat.eqb_spec (Z.to_nat i') (Z.to_nat i)) as [E|E].
        * replace i' with i by lia. rnum. split; reflexivity.
        * apply H1. lia.
      + intros i' Hi'. rewrite nth_list_upd by (unfold n, zlen in *; lia).
        destruct (Nat.eqb_spec (Z.to_nat i') (Z.to_nat i)); [lia|]. apply H2. lia.
    - intros st (A & B & C & _). auto. }
  apply wp_ok in W as ([conc dev] & -> & L1 & L2 & H). cbn [bind fst snd] in *.
  eexists (mkKin _ _ dev conc _ P _). cbn [kn_power kn_lambda kn_beta kn_alpha kn_time kn_conc].
  split; [reflexivity|]. split; [|repeat split; intros; apply H; assumption].
  repeat split; cbn [kn_power kn_lambda kn_beta kn_alpha kn_time kn_conc kn_dev]; auto; try (apply Hpos; assumption).
  intros i Hi. cbn [kn_power kn_lambda kn_beta kn_alpha kn_time kn_conc kn_dev] in *. destruct (H i Hi) as [-> ->]. reflexivity.
Qed.
End Step.
