(* Properties C56-C63, C76-C78: point kinetics. *)
From Coq Require Import String ZArith List Bool Lia Reals Lra Permutation.
From Coquelicot Require Import Coquelicot.
From Verif Require Import Base BaseLemmas NumR ModelNumTools ModelReactor ProofsNumTools InHour Modes Positivity ModelKinetics
  ProofsKinetics ProofsKineticsB ProofsKineticsC ProofsKineticsD.
Import ListNotations.
Local Open Scope R_scope.

Lemma zfor_split {S} lo mid hi (body : Z -> S -> res S) s : (lo <= mid <= hi)%Z ->
  zfor lo hi body s = bind (zfor lo mid body s) (zfor mid hi body).
Proof.
  intros H. remember (Z.to_nat (mid - lo)) as n eqn:En. revert lo s H En. induction n as [|n IH]; intros lo s H En.
  - replace mid with lo by lia. rewrite (zfor_empty lo lo) by lia. reflexivity.
  - rewrite (zfor_step lo hi), (zfor_step lo mid) by lia. destruct (body lo s) as [s'| | |]; cbn [bind]; try reflexivity.
    apply IH; lia.
Qed.

Lemma zfor_ext {S} lo hi (body body' : Z -> S -> res S) s :
  (forall i s, (lo <= i < hi)%Z -> body i s = body' i s) -> zfor lo hi body s = zfor lo hi body' s.
Proof.
  intros H. destruct (Z_le_gt_dec hi lo) as [L|L]; [rewrite !zfor_empty by lia; reflexivity|].
  remember (Z.to_nat (hi - lo)) as n eqn:En. assert (L' : (lo <= hi)%Z) by lia. clear L. revert lo s H L' En.
  induction n as [|n IH]; intros lo s H L En; [rewrite !zfor_empty by lia; reflexivity|].
  rewrite !zfor_step by lia. rewrite H by lia. destruct (body' lo s) as [s'| | |]; cbn [bind]; try reflexivity.
  apply IH; [intros; apply H; lia|lia|lia].
Qed.

(* one and two group reactors used in the examples *)
Definition ex_k1 : kinetics R := mkKin [1] [1] [0] [3] 1 3 0.
Definition ex_k2 : kinetics R := mkKin [1; 2] [1; 1] [0; 0] [6; 3] 1 6 0.
Lemma ex_k1_consistent : consistent ex_k1.
Proof.
  split; [split; [cbn; lra|split; [reflexivity|split; [cbn; repeat constructor; cbn; tauto|]]]|split; [reflexivity|split; [reflexivity|]]].
  - intros i Hi. cbn in Hi. assert (i = 0%Z) as -> by lia. cbn. lra.
  - intros i Hi. cbn in Hi. assert (i = 0%Z) as -> by lia. cbn. lra.
Qed.
Lemma ex_k2_consistent : consistent ex_k2.
Proof.
  split; [split; [cbn; lra|split; [reflexivity|split; [cbn; repeat constructor; cbn; intuition lra|]]]|split; [reflexivity|split; [reflexivity|]]].
  - intros i Hi. cbn in Hi. assert (i = 0 \/ i = 1)%Z as [-> | ->] by lia; change (Z.to_nat 1) with 1%nat; cbn; lra.
  - intros i Hi. cbn in Hi. assert (i = 0 \/ i = 1)%Z as [-> | ->] by lia; change (Z.to_nat 1) with 1%nat; cbn; lra.
Qed.

(* ---------- C56 ---------- *)
Theorem C56_inhour_polynomial : forall (k : kinetics R) rho, length (kn_beta k) = length (kn_lambda k) ->
  exists p, inHourPoly k rho = Ok p /\ length p = (length (kn_lambda k) + 2)%nat /\ last p 0 = - kn_alpha k /\
    forall s, (forall i, (0 <= i < zlen (kn_lambda k))%Z -> s + (kn_lambda k)@i <> 0) ->
      (peval p s = 0 <->
       rho = kn_alpha k * s + rsum 0 (zlen (kn_lambda k)) (fun i => (kn_beta k)@i * s / (s + (kn_lambda k)@i))).
Proof.
  intros k rho Hl. destruct (inHourPoly_spec k rho ltac:(lia)) as (p & Ep & Lp & La & Pv).
  exists p. split; [exact Ep|]. split; [lia|]. split; [exact La|]. intros s Hs. rewrite Pv.
  assert (Zb : zlen (kn_beta k) = zlen (kn_lambda k)) by (unfold zlen; congruence). rewrite Zb.
  assert (Hg : forall g, In g (combine (kn_lambda k) (kn_beta k)) -> fst g + s <> 0).
  { intros g Hg. destruct (combine_in _ _ g (or_intror I) Hg Hl) as (i & Hi & ->). cbn [fst]. rewrite Rplus_comm. apply Hs, Hi. }
  rewrite inhour_frac by exact Hg. rewrite frac_sum by lia.
  assert (L : linprod (map fst (combine (kn_lambda k) (kn_beta k))) s <> 0).
  { rewrite map_fst_combine by lia. intros Q. apply linprod_zero in Q. apply (In_nth _ _ 0) in Q as (i & Hi & Q).
    apply (Hs (Z.of_nat i)); [unfold zlen; lia|]. rewrite Nat2Z.id, Q. ring. }
  assert (E : rsum 0 (zlen (kn_lambda k)) (fun i => (kn_lambda k)@i * (kn_beta k)@i / ((kn_lambda k)@i + s)) =
    rsum 0 (zlen (kn_lambda k)) (fun i => (kn_beta k)@i) - rsum 0 (zlen (kn_lambda k)) (fun i => (kn_beta k)@i * s / (s + (kn_lambda k)@i))).
  { rewrite <- rsum_minus. apply rsum_ext. intros i Hi. pose proof (Hs i Hi). field. lra. }
  rewrite E. split.
  - intros Q. apply Rmult_integral in Q as [Q|Q]; [contradiction|]. lra.
  - intros Q. rewrite Q. ring.
Qed.
Print Assumptions C56_inhour_polynomial.
Example C56_example : length (kn_beta ex_k2) = length (kn_lambda ex_k2) /\ inHourPoly ex_k2 0 = Ok [0; -5; -5; -1] /\
  rsum 0 2 (fun i => (kn_beta ex_k2)@i * 0 / (0 + (kn_lambda ex_k2)@i)) = 0 /\
  (forall i, (0 <= i < 2)%Z -> 0 + (kn_lambda ex_k2)@i <> 0).
Proof.
  split; [reflexivity|]. split; [|split].
  - cbv -[Rplus Rminus Rmult Ropp Rinv Rdiv IZR]. apply f_equal. repeat (apply (f_equal2 cons); [ring|]). reflexivity.
  - apply rsum_0. intros i _. unfold Rdiv. ring.
  - intros i Hi. assert (i = 0 \/ i = 1)%Z as [-> | ->] by lia; change (Z.to_nat 1) with 1%nat; cbn; lra.
Qed.

(* ---------- C57 ---------- *)
Theorem C57_roots_real_distinct : forall (k : kinetics R) rho, group_data (kn_lambda k) (kn_beta k) (kn_alpha k) ->
  exists p xs, inHourPoly k rho = Ok p /\ NoDup xs /\ length xs = (length (kn_lambda k) + 1)%nat /\
    (forall z, ceval p z = RtoC 0 <-> In z (map RtoC xs)) /\
    forall croots, root_list p (croots p) ->
      exists roots, inHourEqRoots croots k rho = Ok roots /\ Permutation xs roots /\ croots p = map RtoC roots.
Proof.
  intros k rho G. destruct (poly_real_roots k rho G) as (p & xs & Ep & Lp & La & Nx & Lx & F).
  pose proof G as (Ha & _).
  assert (Hz : forall z, ceval p z = RtoC 0 <-> In z (map RtoC xs)).
  { intros z. rewrite F. split.
    - intros Q. apply cprod_zero. destruct (Ceq_dec (cprod z (map RtoC xs)) (RtoC 0)) as [E|E]; [exact E|exfalso].
      apply (Cmult_neq_0 (RtoC (- kn_alpha k)) (cprod z (map RtoC xs))); [|exact E|exact Q].
      intros Q'. apply RtoC_inj in Q'. lra.
    - intros I. enough (cprod z (map RtoC xs) = RtoC 0) as -> by ring.
      revert I. generalize (map RtoC xs). intros l. induction l as [|r l IH]; intros []; cbn [cprod].
      + subst. ring.
      + rewrite IH by assumption. ring. }
  exists p, xs. split; [exact Ep|]. split; [exact Nx|]. split; [lia|]. split; [exact Hz|].
  intros croots HR.
  assert (Perm : Permutation (map RtoC xs) (croots p)).
  { apply (real_roots p); [exact HR|rewrite La; lra|exact Nx|lia|]. intros x Hx.
    apply RtoC_inj. rewrite <- ceval_real. apply Hz. apply in_map. exact Hx. }
  destruct (roots_spec croots k rho G) as (roots & Er & Lr & Nr & Ecr & _).
  { intros p' E'. rewrite Ep in E'. injection E' as <-. exact HR. }
  exists roots. split; [exact Er|]. rewrite (Ecr p Ep) in *. split; [|reflexivity].
  apply (Permutation_map fst) in Perm. rewrite !map_map in Perm. cbn in Perm. rewrite !map_id in Perm. exact Perm.
Qed.
Print Assumptions C57_roots_real_distinct.
Theorem C57_root_finder_exists : exists croots, finds_roots croots.
Proof. exact finds_roots_exists. Qed.
Example C57_example : group_data (kn_lambda ex_k1) (kn_beta ex_k1) (kn_alpha ex_k1) /\
  inHourPoly ex_k1 0 = Ok [0; -2; -1] /\ root_list [0; -2; -1] [RtoC 0; RtoC (-2)].
Proof.
  split; [apply ex_k1_consistent|]. split.
  - cbv -[Rplus Rminus Rmult Ropp Rinv Rdiv IZR]. apply f_equal. repeat (apply (f_equal2 cons); [ring|]). reflexivity.
  - split; [reflexivity|]. intros z. cbn [ceval cprod last].
    destruct z as [a b]. apply injective_projections; cbn; ring.
Qed.
Print Assumptions C57_root_finder_exists.

(* ---------- C58 ---------- *)
(* Any continuous solution P, C of the point kinetics equations on the step
   which starts from the stored state ends where the step puts the state. *)
Theorem C58_step_is_exact : forall croots k rho dt P C, finds_roots croots -> consistent k ->
  obeys (kn_lambda k) (kn_beta k) (kn_alpha k) rho P C 0 dt -> continuous_between (kn_lambda k) P C 0 dt ->
  P 0 = kn_power k -> (forall i, (0 <= i < zlen (kn_lambda k))%Z -> C i 0 = (kn_conc k)@i) ->
  exists k', power1 exp croots k rho dt = Ok (P dt, k') /\ kn_power k' = P dt /\
    (forall i, (0 <= i < zlen (kn_lambda k))%Z -> (kn_conc k')@i = C i dt) /\
    consistent k' /\ same_reactor k k' /\ kn_time k' = kn_time k + dt.
Proof.
  intros croots k rho dt P C HR Hk Ho Hc HP HC.
  destruct (step_exact croots HR k rho 0 dt P C Hk Ho Hc HP HC) as (k' & E & H1 & H2 & H3 & H4 & H5).
  rewrite Rminus_0_r in *. exists k'. auto 10.
Qed.
Print Assumptions C58_step_is_exact.
(* and there is such a solution, defined for all times *)
Theorem C58_solution_exists : forall k rho, consistent k ->
  exists P C, P 0 = kn_power k /\ (forall i, (0 <= i < zlen (kn_lambda k))%Z -> C i 0 = (kn_conc k)@i) /\
    solves (kn_lambda k) (kn_beta k) (kn_alpha k) rho P C /\
    forall a b, obeys (kn_lambda k) (kn_beta k) (kn_alpha k) rho P C a b /\ continuous_between (kn_lambda k) P C a b.
Proof.
  intros k rho Hk. destruct finds_roots_exists as (croots & HR).
  destruct (solution_exists croots HR k rho Hk) as (P & C & P0 & C0 & S). exists P, C.
  split; [exact P0|]. split; [exact C0|]. split; [exact S|]. intros a b. apply global_obeys, S.
Qed.
Print Assumptions C58_solution_exists.
Definition ex_k3 : kinetics R := mkKin [1] [1] [2] [4] 1 6 0.
Example C58_example : consistent ex_k3 /\ consistent ex_k2 /\
  solves (kn_lambda ex_k3) (kn_beta ex_k3) (kn_alpha ex_k3) 0 (fun t => 5 + exp (-2 * t)) (fun _ t => 5 - exp (-2 * t)) /\
  5 + exp (-2 * 0) = kn_power ex_k3 /\ 5 - exp (-2 * 0) = (kn_conc ex_k3)@0.
Proof.
  split; [|split; [apply ex_k2_consistent|split]].
  - split; [apply ex_k1_consistent|split; [reflexivity|split; [reflexivity|]]].
    intros i Hi. cbn in Hi. assert (i = 0%Z) as -> by lia. cbn. lra.
  - intros t. cbn [kn_lambda kn_beta kn_alpha ex_k3]. unfold kdP, kdC. replace (zlen [1]) with 1%Z by reflexivity. split.
    + rewrite !rsum_one. cbn [nth Z.to_nat]. auto_derive; [exact I|]. field.
    + intros i Hi. assert (i = 0%Z) as -> by lia. cbn [nth Z.to_nat]. auto_derive; [exact I|]. field.
  - cbn. rewrite Rmult_0_r, exp_0. lra.
Qed.

(* the constructor *)
Lemma newKinetics_spec (la be : list R) al p0 : group_data la be al ->
  exists k, newKinetics la be al p0 = Ok k /\ consistent k /\ kn_lambda k = la /\ kn_beta k = be /\ kn_alpha k = al /\
    kn_power k = p0 /\ kn_time k = 0 /\ forall i, (0 <= i < zlen la)%Z -> (kn_conc k)@i = be@i * p0 / (la@i * al).
Proof.
  intros G. pose proof G as (Ha & Hl & Hn & Hpos). unfold newKinetics.
  assert (W : wp (zfor 0 (zlen la) (fun i conc => b <- lget be i ;; l <- lget la i ;; Ok (conc ++ [b [*] p0 [/] (l [*] al)])) [])
    (fun conc => length conc = length la /\ forall i, (0 <= i < zlen la)%Z -> conc@i = be@i * p0 / (la@i * al))).
  { eapply zfor_wp' with (I := fun m conc => length conc = Z.to_nat m /\ forall i, (0 <= i < m)%Z -> conc@i = be@i * p0 / (la@i * al)).
    - apply zlen_nonneg.
    - split; [reflexivity|]. intros; lia.
    - intros m conc Hm [Lc Hc]. unfold zlen in Hm. rewrite (lget_ok be m 0) by (unfold zlen; lia). cbn [bind].
      rewrite (lget_ok la m 0) by (unfold zlen; lia). cbn [bind wp]. split; [rewrite app_length; cbn; lia|].
      intros i Hi. destruct (Z.eq_dec i m) as [->|].
      + rewrite app_nth2 by lia. rewrite Lc, Nat.sub_diag. rnum. reflexivity.
      + rewrite app_nth1 by lia. apply Hc. lia.
    - intros conc [Lc Hc]. split; [unfold zlen in Lc; lia|exact Hc]. }
  apply wp_ok in W as (conc & -> & Lc & Hc). cbn [bind]. eexists. split; [reflexivity|].
  cbn [kn_lambda kn_beta kn_alpha kn_power kn_time kn_conc]. split; [|rnum; auto 10].
  split; [exact G|]. split; [exact Lc|]. split; [apply repeat_length|].
  intros i Hi. cbn [kn_lambda kn_beta kn_alpha kn_power kn_time kn_conc kn_dev] in *. rewrite Hc by exact Hi.
  destruct (Hpos i Hi). rnum. rewrite nth_repeat. field. split; lra.
Qed.

(* ---------- C59 ---------- *)
Theorem C59_deviations_consistent : forall croots la be al p0 rhos times, finds_roots croots ->
  group_data la be al -> (length rhos <= length times)%nat ->
  exists k0 res k, newKinetics la be al p0 = Ok k0 /\ deviations k0 /\
    powers exp croots k0 rhos times = Ok (res, k) /\ deviations k /\
    kn_lambda k = la /\ kn_beta k = be /\ kn_alpha k = al.
Proof.
  intros croots la be al p0 rhos times HR G Hl.
  destruct (newKinetics_spec la be al p0 G) as (k0 & E0 & C0 & e1 & e2 & e3 & _).
  destruct (powers_history croots HR k0 rhos times (fun _ _ => True) C0 Hl I (fun _ _ _ _ _ _ _ _ _ _ _ => I))
    as (res & k & E & C & (s1 & s2 & s3) & _).
  exists k0, res, k. split; [exact E0|]. split; [apply C0|]. split; [exact E|]. split; [apply C|]. repeat split; congruence.
Qed.
Print Assumptions C59_deviations_consistent.
(* and from any state of the class, not only the initial one *)
Theorem C59_deviations_preserved : forall croots k rho dt p k', finds_roots croots -> consistent k ->
  power1 exp croots k rho dt = Ok (p, k') -> deviations k' /\ p = kn_power k'.
Proof.
  intros croots k rho dt p k' HR Hk E. destruct (step_ok croots HR k rho dt Hk) as (k2 & E2 & H & _).
  rewrite E in E2. injection E2 as -> ->. split; [apply H|reflexivity].
Qed.
Print Assumptions C59_deviations_preserved.
Example C59_example : group_data [1; 2] [1; 1] 1 /\ (length [0; 1 / 2] <= length [1; 3])%nat /\ (exists croots, finds_roots croots).
Proof. split; [apply ex_k2_consistent|]. split; [cbn; lia|apply finds_roots_exists]. Qed.

(* ---------- C60 ---------- *)
Theorem C60_critical_constant : forall croots la be al p0 rhos times, finds_roots croots -> group_data la be al ->
  (length rhos <= length times)%nat -> (forall r, In r rhos -> r = 0) ->
  exists k0 k, newKinetics la be al p0 = Ok k0 /\
    powers exp croots k0 rhos times = Ok (repeat p0 (length rhos), k) /\ kn_power k = p0 /\
    forall i, (0 <= i < zlen la)%Z -> (kn_conc k)@i = (kn_conc k0)@i.
Proof.
  intros croots la be al p0 rhos times HR G Hl H0. pose proof G as (Ha & Hlen & Hn & Hpos).
  destruct (newKinetics_spec la be al p0 G) as (k0 & E0 & C0 & e1 & e2 & e3 & e4 & e5 & e6).
  destruct (history_exact croots HR k0 rhos times (fun _ => p0) (fun i _ => (kn_conc k0)@i) C0 Hl) as (res & k & E & _ & _ & Lr & Hr & _ & Hp & Hc).
  - rewrite e1, e2, e3. split.
    + intros t. split; [|intros i _]; apply continuity_pt_const; intros ? ?; reflexivity.
    + intros m Hm t _. assert (Z0 : rhos@m = 0) by (apply H0, nth_In; unfold zlen in Hm; lia). rewrite Z0. split.
      * replace (kdP la be al 0 p0 (fun i => (kn_conc k0)@i)) with 0; [apply @is_derive_const|].
        unfold kdP. rewrite (rsum_ext 0 (zlen la) (fun i => la@i * (kn_conc k0)@i) (fun i => p0 / al * be@i)).
        -- rewrite rsum_scal. field. lra.
        -- intros i Hi. rewrite e6 by exact Hi. destruct (Hpos i Hi). field. split; lra.
      * intros i Hi. replace (kdC la be al p0 (fun i => (kn_conc k0)@i) i) with 0; [apply @is_derive_const|].
        unfold kdC. rewrite e6 by exact Hi. destruct (Hpos i Hi). field. split; lra.
  - symmetry. exact e4.
  - reflexivity.
  - exists k0, k. split; [exact E0|]. split; [|split; [exact Hp|]].
    + rewrite E. do 2 f_equal. apply (nth_ext _ _ 0 0); [rewrite repeat_length; exact Lr|].
      intros m Hm. rewrite Lr in Hm.
      pose proof (Hr (Z.of_nat m) ltac:(unfold zlen; lia)) as Q. rewrite Nat2Z.id in Q. rewrite Q.
      symmetry. rewrite (nth_indep _ 0 p0) by (rewrite repeat_length; exact Hm). apply nth_repeat.
    + intros i Hi. apply Hc. rewrite e1. exact Hi.
Qed.
Print Assumptions C60_critical_constant.
Example C60_example : group_data [1; 2] [1; 1] 1 /\ (length [0; 0; 0] <= length [1; 3; 2])%nat /\ (forall r, In r [0; 0; 0] -> r = 0).
Proof. split; [apply ex_k2_consistent|]. split; [cbn; lia|]. cbn. intuition. Qed.

(* ---------- C61 ---------- *)
Theorem C61_step_splitting : forall croots k rho a b p1 k1 p2 k2, finds_roots croots -> consistent k ->
  power1 exp croots k rho a = Ok (p1, k1) -> power1 exp croots k1 rho b = Ok (p2, k2) ->
  power1 exp croots k rho (a + b) = Ok (p2, k2).
Proof.
  intros croots k rho a b p1 k1 p2 k2 HR Hk E1 E2.
  destruct (solution_exists croots HR k rho Hk) as (P & C & P0 & C0 & S).
  destruct (global_obeys _ _ _ _ _ _ 0 a S) as [o1 c1].
  destruct (step_exact croots HR k rho 0 a P C Hk o1 c1 P0 C0) as (k1' & F1 & G1 & (s1 & s2 & s3) & T1 & Q1 & R1).
  rewrite Rminus_0_r in F1. rewrite E1 in F1. injection F1 as -> <-.
  destruct (global_obeys _ _ _ _ _ _ a (a + b) S) as [o2 c2].
  destruct (step_exact croots HR k1 rho a (a + b) P C G1) as (k2' & F2 & G2 & (s1' & s2' & s3') & T2 & Q2 & R2).
  { rewrite s1, s2, s3. exact o2. }
  { rewrite s1. exact c2. }
  { congruence. }
  { intros i Hi. rewrite s1 in Hi. symmetry. apply R1, Hi. }
  replace (a + b - a) with b in F2, T2 by ring. rewrite E2 in F2. injection F2 as -> <-.
  destruct (global_obeys _ _ _ _ _ _ 0 (a + b) S) as [o3 c3].
  destruct (step_exact croots HR k rho 0 (a + b) P C Hk o3 c3 P0 C0) as (k3 & F3 & G3 & (t1 & t2 & t3) & T3 & Q3 & R3).
  rewrite Rminus_0_r in *. rewrite F3. do 2 f_equal.
  destruct G2 as (_ & L2 & D2 & V2). destruct G3 as (_ & L3 & D3 & V3).
  rewrite s1 in *. rewrite s1' in *. rewrite t1 in *.
  assert (EC : kn_conc k3 = kn_conc k2).
  { apply (nth_ext _ _ 0 0); [congruence|]. intros i Hi.
    pose proof (R3 (Z.of_nat i) ltac:(unfold zlen; lia)) as A. pose proof (R2 (Z.of_nat i) ltac:(unfold zlen; lia)) as B.
    rewrite Nat2Z.id in A, B. congruence. }
  assert (ED : kn_dev k3 = kn_dev k2).
  { apply (nth_ext _ _ 0 0); [congruence|]. intros i Hi.
    pose proof (V3 (Z.of_nat i) ltac:(rewrite t1; unfold zlen; lia)) as A. pose proof (V2 (Z.of_nat i) ltac:(rewrite s1'; unfold zlen; lia)) as B.
    rewrite Nat2Z.id in A, B. rewrite t1, t2, t3, EC, Q3 in A. rewrite s1', s2', s3', s2, s3, Q2 in B. congruence. }
  destruct k2, k3. cbn in *. subst. f_equal; try congruence. lra.
Qed.
Print Assumptions C61_step_splitting.
Example C61_example : exists croots, finds_roots croots /\ consistent ex_k2 /\
  exists p1 k1 p2 k2, power1 exp croots ex_k2 (1 / 2) 1 = Ok (p1, k1) /\ power1 exp croots k1 (1 / 2) 2 = Ok (p2, k2).
Proof.
  destruct finds_roots_exists as (croots & HR). exists croots. split; [exact HR|]. split; [apply ex_k2_consistent|].
  destruct (step_ok croots HR ex_k2 (1 / 2) 1 ex_k2_consistent) as (k1 & E1 & C1 & _).
  destruct (step_ok croots HR k1 (1 / 2) 2 C1) as (k2 & E2 & _). exists (kn_power k1), k1, (kn_power k2), k2. auto.
Qed.

(* ---------- C62 ---------- *)
(* P and C follow the point kinetics equations with reactivity rho_m between
   times m-1 and m (time -1 being 0): the m-th power is the value of P there. *)
Theorem C62_history_follows_trajectory : forall croots k rhos times P C, finds_roots croots -> consistent k ->
  (length rhos <= length times)%nat ->
  trajectory (kn_lambda k) (kn_beta k) (kn_alpha k) rhos times (zlen rhos) P C ->
  P 0 = kn_power k -> (forall i, (0 <= i < zlen (kn_lambda k))%Z -> C i 0 = (kn_conc k)@i) ->
  exists res k', powers exp croots k rhos times = Ok (res, k') /\ length res = length rhos /\
    (forall m, (0 <= m < zlen rhos)%Z -> res@m = P times@m) /\
    kn_time k' = kn_time k + instant times (zlen rhos) /\ kn_power k' = P (instant times (zlen rhos)) /\
    forall i, (0 <= i < zlen (kn_lambda k))%Z -> (kn_conc k')@i = C i (instant times (zlen rhos)).
Proof.
  intros croots k rhos times P C HR Hk Hl HT HP HC.
  destruct (history_exact croots HR k rhos times P C Hk Hl HT HP HC) as (res & k' & E & _ & _ & H1 & H2 & H3 & H4 & H5).
  exists res, k'. auto 10.
Qed.
Print Assumptions C62_history_follows_trajectory.
(* for increasing times there is exactly such a trajectory *)
Theorem C62_trajectory_exists : forall k rhos times, consistent k -> nondecreasing_times times (zlen rhos) ->
  exists P C, trajectory (kn_lambda k) (kn_beta k) (kn_alpha k) rhos times (zlen rhos) P C /\
    P 0 = kn_power k /\ forall i, (0 <= i < zlen (kn_lambda k))%Z -> C i 0 = (kn_conc k)@i.
Proof.
  intros k rhos times Hk Hm. destruct finds_roots_exists as (croots & HR).
  apply (trajectory_exists croots HR k rhos times Hk (zlen rhos) (zlen_nonneg _) Hm).
Qed.
Print Assumptions C62_trajectory_exists.
(* The whole calculation on the data of the reactor: the powers printed are
   those of the trajectory which starts at the requested power with precursors
   in equilibrium, follows the reactivities of the reactor and is read at the
   times of the reactor.  For increasing times there is such a trajectory. *)
Definition equilibrium (ks : kineticsSet R) (P : R -> R) (C : Z -> R -> R) : Prop :=
  P 0 = ks_power ks /\ forall i, (0 <= i < zlen (ks_lambda ks))%Z ->
    C i 0 = (ks_beta ks)@i * ks_power ks / ((ks_lambda ks)@i * ks_alpha ks).
Theorem C62_kinetics_calculation : forall croots (r : reactor R), finds_roots croots ->
  let ks := rx_kin r in
  group_data (ks_lambda ks) (ks_beta ks) (ks_alpha ks) -> (length (ks_reacts ks) <= length (ks_times ks))%nat ->
  (forall P C, equilibrium ks P C ->
     trajectory (ks_lambda ks) (ks_beta ks) (ks_alpha ks) (ks_reacts ks) (ks_times ks) (zlen (ks_reacts ks)) P C ->
     exists res, kineticsSolve exp croots r = Ok res /\ length res = length (ks_reacts ks) /\
       forall m, (0 <= m < zlen (ks_reacts ks))%Z -> res@m = P (ks_times ks)@m) /\
  (nondecreasing_times (ks_times ks) (zlen (ks_reacts ks)) -> exists P C, equilibrium ks P C /\
     trajectory (ks_lambda ks) (ks_beta ks) (ks_alpha ks) (ks_reacts ks) (ks_times ks) (zlen (ks_reacts ks)) P C).
Proof.
  intros croots r HR ks G Hl.
  destruct (newKinetics_spec (ks_lambda ks) (ks_beta ks) (ks_alpha ks) (ks_power ks) G) as (k & E & Hk & e1 & e2 & e3 & e4 & _ & e5).
  split.
  - intros P C [HP HC] HT.
    destruct (history_exact croots HR k (ks_reacts ks) (ks_times ks) P C Hk Hl) as (res & k' & Ep & _ & _ & H1 & H2 & _).
    + rewrite e1, e2, e3. exact HT.
    + congruence.
    + intros i Hi. rewrite e1 in Hi. rewrite HC, e5 by auto. reflexivity.
    + exists res. unfold kineticsSolve. fold ks. rewrite E. cbn [bind]. rewrite Ep. auto.
  - intros Hm. destruct (trajectory_exists croots HR k (ks_reacts ks) (ks_times ks) Hk (zlen (ks_reacts ks)) (zlen_nonneg _) Hm)
      as (P & C & HT & HP & HC).
    rewrite e1, e2, e3 in HT. exists P, C. split; [|exact HT]. split; [congruence|].
    intros i Hi. rewrite HC, e5 by (rewrite ?e1; auto). reflexivity.
Qed.
Print Assumptions C62_kinetics_calculation.
Example C62_calculation_met : exists croots, finds_roots croots /\
  let ks := mkKinetics 1 6 [1; 2] [1; 1] [0; 1 / 2] [1; 3] in
  group_data (ks_lambda ks) (ks_beta ks) (ks_alpha ks) /\ (length (ks_reacts ks) <= length (ks_times ks))%nat /\
  nondecreasing_times (ks_times ks) (zlen (ks_reacts ks)).
Proof.
  destruct finds_roots_exists as (c & Hc). exists c. split; [exact Hc|]. cbn zeta. split; [apply ex_k2_consistent|]. split; [cbn; lia|].
  intros m Hm. change (zlen _) with 2%Z in Hm. assert (m = 0 \/ m = 1)%Z as [-> | ->] by lia; cbv -[Rle IZR]; lra.
Qed.
(* too few times is an out of range read, extra times are ignored *)
Theorem C62_times_missing : forall croots (k : kinetics R) rhos times, finds_roots croots -> consistent k ->
  (length times < length rhos)%nat -> exists m, powers exp croots k rhos times = UB m.
Proof.
  intros croots k rhos times HR Hk Hl. unfold powers.
  rewrite (zfor_split 0 (zlen times) (zlen rhos)) by (unfold zlen; lia).
  set (body := fun i st => _).
  assert (W : wp (zfor 0 (zlen times) body ([], k)) (fun st => consistent (snd st))).
  { eapply zfor_wp' with (I := fun _ st => consistent (snd st)).
    - apply zlen_nonneg.
    - exact Hk.
    - intros m [results k1] Hm Hk1. cbn [snd] in Hk1. unfold zlen in Hm. unfold body.
      assert (Edt : exists dt, (if (0 <? m)%Z then t <- lget times m ;; t' <- lget times (m - 1) ;; Ok (t [-] t') else lget times m) = Ok dt).
      { destruct (Z.ltb_spec 0 m).
        - rewrite (lget_ok times m 0) by (unfold zlen; lia). cbn [bind]. rewrite (lget_ok times (m - 1) 0) by (unfold zlen; lia). eexists; reflexivity.
        - rewrite (lget_ok times m 0) by (unfold zlen; lia). eexists; reflexivity. }
      destruct Edt as (dt & ->). cbn [bind]. rewrite (lget_ok rhos m 0) by (unfold zlen; lia). cbn [bind].
      destruct (step_ok croots HR k1 rhos@m dt Hk1) as (k2 & E & J1 & _). rewrite E. cbn [bind wp snd]. exact J1.
    - auto. }
  apply wp_ok in W as ([results k1] & -> & _). cbn [bind].
  rewrite zfor_step by (unfold zlen; lia). unfold body at 1.
  assert (U : exists m, lget times (zlen times) = UB m).
  { unfold lget. pose proof (zlen_nonneg times). destruct (Z.leb_spec 0 (zlen times)); [|lia].
    rewrite (proj2 (nth_error_None times (Z.to_nat (zlen times)))) by (unfold zlen; lia). eexists; reflexivity. }
  destruct U as (m & U). destruct (0 <? zlen times)%Z; rewrite U; cbn [bind]; eexists; reflexivity.
Qed.
Print Assumptions C62_times_missing.
Example C62_example : consistent ex_k2 /\ nondecreasing_times [1; 3] 2 /\ (length [0; 1 / 2] <= length [1; 3])%nat /\
  (length [1] < length [0; 1 / 2])%nat /\ instant [1; 3] 0 = 0 /\ instant [1; 3] 2 = 3.
Proof.
  split; [apply ex_k2_consistent|]. split; [|split; [cbn; lia|split; [cbn; lia|split; reflexivity]]].
  intros m Hm. assert (m = 0 \/ m = 1)%Z as [-> | ->] by lia; cbv -[Rle IZR]; lra.
Qed.

(* ---------- C63 ---------- *)
(* The constructor does not compare the two group tables: fewer fractions than
   decay constants is an out of range read, more are silently accepted and
   counted in the total fraction. *)
Theorem C63_group_arity_refuted : forall (T : Type) (N : Num T) nexp croots (r : reactor T),
  (length (ks_beta (rx_kin r)) < length (ks_lambda (rx_kin r)))%nat ->
  exists m, kineticsSolve nexp croots r = UB m.
Proof.
  intros T N nexp croots r Hl. unfold kineticsSolve, newKinetics.
  set (la := ks_lambda (rx_kin r)) in *. set (be := ks_beta (rx_kin r)) in *.
  destruct la as [|d0 la'] eqn:Ela; [cbn in Hl; lia|]. rewrite <- Ela in *. clear Ela la'.
  rewrite (zfor_split 0 (zlen be) (zlen la)) by (unfold zlen; lia).
  set (body := fun i conc => _).
  assert (W : wp (zfor 0 (zlen be) body []) (fun _ => True)).
  { eapply zfor_wp' with (I := fun _ _ => True); auto.
    - apply zlen_nonneg.
    - intros m conc Hm _. unfold body. rewrite (lget_ok be m d0) by lia. cbn [bind].
      rewrite (lget_ok la m d0) by (unfold zlen in *; lia). exact I. }
  apply wp_ok in W as (conc & -> & _). cbn [bind].
  rewrite zfor_step by (unfold zlen; lia). unfold body at 1.
  assert (U : exists m, lget be (zlen be) = UB m).
  { unfold lget. pose proof (zlen_nonneg be). destruct (Z.leb_spec 0 (zlen be)); [|lia].
    rewrite (proj2 (nth_error_None be (Z.to_nat (zlen be)))) by (unfold zlen; lia). eexists; reflexivity. }
  destruct U as (m & ->). cbn [bind]. eexists; reflexivity.
Qed.
Print Assumptions C63_group_arity_refuted.

Lemma combine_app_l (la be be' : list R) : length be = length la -> combine la (be ++ be') = combine la be.
Proof. revert be. induction la as [|a la IH]; intros [|b be] H; cbn in *; try lia; [reflexivity|]. f_equal. apply IH. lia. Qed.
Theorem C63_extra_fractions_counted : forall (la be be' : list R) al p0 rho, group_data la be al ->
  exists k k' p p', newKinetics la be al p0 = Ok k /\ newKinetics la (be ++ be') al p0 = Ok k' /\
    kn_conc k' = kn_conc k /\
    inHourPoly k (rho - rsum 0 (zlen be') (fun i => be'@i)) = Ok p /\ inHourPoly k' rho = Ok p' /\
    forall s, peval p' s = peval p s.
Proof.
  intros la be be' al p0 rho G. pose proof G as (Ha & Hl & Hn & Hpos).
  destruct (newKinetics_spec la be al p0 G) as (k & E & _ & e1 & e2 & e3 & _).
  assert (E' : newKinetics la (be ++ be') al p0 = Ok (mkKin la (be ++ be') (kn_dev k) (kn_conc k) al p0 0)).
  { revert E. unfold newKinetics. rewrite (zfor_ext 0 (zlen la) (fun i conc => b <- lget (be ++ be') i ;; l <- lget la i ;; Ok (conc ++ [b [*] p0 [/] (l [*] al)]))
      (fun i conc => b <- lget be i ;; l <- lget la i ;; Ok (conc ++ [b [*] p0 [/] (l [*] al)]))).
    - destruct (zfor 0 (zlen la) _ []) as [c| | |]; cbn [bind]; try discriminate. intros E. injection E as <-. reflexivity.
    - intros i st Hi. unfold zlen in Hi. rewrite (lget_ok be i 0), (lget_ok (be ++ be') i 0) by (unfold zlen; rewrite ?app_length; lia).
      rewrite app_nth1 by lia. reflexivity. }
  exists k. eexists. 
  destruct (inHourPoly_spec k (rho - rsum 0 (zlen be') (fun i => be'@i)) ltac:(rewrite e1, e2; lia)) as (p & Ep & _ & _ & Pv).
  destruct (inHourPoly_spec (mkKin la (be ++ be') (kn_dev k) (kn_conc k) al p0 0) rho ltac:(cbn; rewrite app_length; lia)) as (p' & Ep' & _ & _ & Pv').
  exists p, p'. split; [exact E|]. split; [exact E'|]. split; [reflexivity|]. split; [exact Ep|]. split; [exact Ep'|].
  intros s. rewrite Pv, Pv'. cbn [kn_lambda kn_beta kn_alpha]. rewrite e1, e2, e3, combine_app_l by exact Hl. f_equal.
  replace (zlen (be ++ be')) with (zlen be' + zlen be)%Z by (unfold zlen; rewrite app_length; lia).
  pose proof (zlen_nonneg be). pose proof (zlen_nonneg be').
  rewrite (rsum_split 0 (zlen be) (zlen be' + zlen be)) by lia.
  replace (zlen be) with (0 + zlen be)%Z at 3 by lia.
  rewrite <- (rsum_shift 0 (zlen be') (zlen be)).
  rewrite (rsum_ext 0 (zlen be) (fun i => (be ++ be')@i) (fun i => be@i)).
  - rewrite (rsum_ext 0 (zlen be') (fun i => (be ++ be')@(i + zlen be)) (fun i => be'@i)); [ring|].
    intros i Hi. rewrite app_nth2 by (unfold zlen; lia). f_equal. unfold zlen. lia.
  - intros i Hi. apply app_nth1. unfold zlen in Hi. lia.
Qed.
Print Assumptions C63_extra_fractions_counted.
Example C63_example :
  (length (ks_beta (mkKinetics 1 1 [1; 2] [1] [0] [1])) < length (ks_lambda (mkKinetics 1 1 [1; 2] [1] [0] [1])))%nat /\
  group_data [1; 2] [1; 1] 1.
Proof. split; [cbn; lia|apply ex_k2_consistent]. Qed.

(* ---------- C76 ---------- *)
Theorem C76_power_stays_positive : forall croots k rhos times, finds_roots croots -> consistent k ->
  (length rhos <= length times)%nat -> nondecreasing_times times (zlen rhos) ->
  0 < kn_power k -> (forall i, (0 <= i < zlen (kn_lambda k))%Z -> 0 < (kn_conc k)@i) ->
  exists res k', powers exp croots k rhos times = Ok (res, k') /\ length res = length rhos /\
    (forall p, In p res -> 0 < p) /\ 0 < kn_power k' /\ forall i, (0 <= i < zlen (kn_lambda k))%Z -> 0 < (kn_conc k')@i.
Proof.
  intros croots k rhos times HR Hk Hl Hm HP HC. pose proof Hk as (G & _).
  destruct (powers_history croots HR k rhos times (fun _ k1 => 0 < kn_power k1 /\ forall i, (0 <= i < zlen (kn_lambda k))%Z -> 0 < (kn_conc k1)@i) Hk Hl)
    as (res & k' & E & _ & _ & Lr & _ & _ & [I1 I2] & I3).
  - auto.
  - intros m k1 Hi Hk1 (s1 & s2 & s3) Ht [J1 J2] k2 E2 _ _.
    destruct (solution_exists croots HR k1 rhos@m Hk1) as (P & C & P0 & C0 & S).
    set (dt := instant times (m + 1) - instant times m) in *. pose proof (Hm m Hi) as Hd.
    destruct (global_obeys _ _ _ _ _ _ 0 dt S) as [o c].
    destruct (step_exact croots HR k1 rhos@m 0 dt P C Hk1 o c P0 C0) as (k2' & E2' & _ & _ & _ & Q1 & Q2).
    rewrite Rminus_0_r in E2'. rewrite E2 in E2'. injection E2' as _ <-.
    destruct (positive_solution _ _ _ _ P C (proj1 Hk1) 0 dt ltac:(unfold dt; lra) o c) with (t := dt) as [K1 K2].
    + rewrite P0. exact J1.
    + intros i Hi'. rewrite C0 by exact Hi'. apply J2. rewrite <- s1. exact Hi'.
    + unfold dt. lra.
    + rewrite Q1. split; [exact K1|]. intros i Hi'. rewrite <- s1 in Hi'. rewrite Q2 by exact Hi'. apply K2, Hi'.
  - exists res, k'. split; [exact E|]. split; [exact Lr|]. split; [|auto].
    intros p Hp. apply (In_nth _ _ 0) in Hp as (m & Hm' & <-).
    destruct (I3 (Z.of_nat m) ltac:(unfold zlen; lia)) as (km & Q & Q' & _). rewrite Nat2Z.id in Q. rewrite Q. exact Q'.
Qed.
Print Assumptions C76_power_stays_positive.
Example C76_example : consistent ex_k2 /\ nondecreasing_times [1; 3] 2 /\ 0 < kn_power ex_k2 /\
  forall i, (0 <= i < 2)%Z -> 0 < (kn_conc ex_k2)@i.
Proof.
  split; [apply ex_k2_consistent|]. split; [apply C62_example|]. split; [cbn; lra|].
  intros i Hi. assert (i = 0 \/ i = 1)%Z as [-> | ->] by lia; cbv -[Rlt IZR]; lra.
Qed.

(* ---------- C77 ---------- *)
Theorem C77_reactivity_sign : forall croots la be al p0 rho dt, finds_roots croots -> group_data la be al ->
  0 < p0 -> 0 < dt ->
  exists k0 p k, newKinetics la be al p0 = Ok k0 /\ power1 exp croots k0 rho dt = Ok (p, k) /\
    (0 < rho <-> p0 < p) /\ (rho < 0 <-> p < p0) /\ (rho = 0 <-> p = p0).
Proof.
  intros croots la be al p0 rho dt HR G Hp Hdt.
  destruct (newKinetics_spec la be al p0 G) as (k0 & E0 & C0 & e1 & e2 & e3 & e4 & e5 & e6).
  destruct (solution_exists croots HR k0 rho C0) as (P & C & P0 & Cc & S).
  destruct (global_obeys _ _ _ _ _ _ 0 dt S) as [o c].
  destruct (step_exact croots HR k0 rho 0 dt P C C0 o c P0 Cc) as (k & E & _ & _ & _ & Q & _).
  rewrite Rminus_0_r in E. exists k0, (P dt), k. split; [exact E0|]. split; [exact E|].
  rewrite e1, e2, e3 in *.
  assert (A : forall sg, 0 < sg * rho -> 0 < sg * (P dt - p0)).
  { intros sg Hs. rewrite <- e4, <- P0. apply (reactivity_sign la be al rho sg P C dt G S); auto.
    - rewrite P0, e4. exact Hp.
    - intros i Hi. rewrite Cc, e6, P0, e4 by exact Hi. reflexivity. }
  assert (Z : rho = 0 -> P dt = p0).
  { intros ->. destruct (C60_critical_constant croots la be al p0 [0] [dt] HR G ltac:(cbn; lia)) as (k0' & k' & F0 & F & _).
    - cbn. intuition.
    - rewrite E0 in F0. injection F0 as <-. unfold powers in F. change (zlen [0]) with 1%Z in F.
      rewrite zfor_step in F by lia. cbn [Z.ltb Z.compare lget] in F. cbn in F. rewrite E in F. cbn in F.
      injection F as F _. exact F. }
  pose proof (A 1) as A1. pose proof (A (-1)) as A2.
  destruct (Rtotal_order rho 0) as [L|[L|L]].
  - specialize (A2 ltac:(lra)). lra.
  - specialize (Z L). lra.
  - specialize (A1 ltac:(lra)). lra.
Qed.
Print Assumptions C77_reactivity_sign.
Example C77_example : group_data [1; 2] [1; 1] 1 /\ 0 < 6 /\ 0 < 2.
Proof. split; [apply ex_k2_consistent|]. lra. Qed.

(* ---------- C78 ---------- *)
Theorem C78_power_scales : forall croots la be al p0 c rhos times, finds_roots croots -> group_data la be al ->
  (length rhos <= length times)%nat -> nondecreasing_times times (zlen rhos) ->
  exists k0 k1 res res' k k', newKinetics la be al p0 = Ok k0 /\ newKinetics la be al (c * p0) = Ok k1 /\
    powers exp croots k0 rhos times = Ok (res, k) /\ powers exp croots k1 rhos times = Ok (res', k') /\
    res' = map (Rmult c) res.
Proof.
  intros croots la be al p0 c rhos times HR G Hl Hm. pose proof G as (Ha & _ & _ & Hpos).
  destruct (newKinetics_spec la be al p0 G) as (k0 & E0 & C0 & e1 & e2 & e3 & e4 & e5 & e6).
  destruct (newKinetics_spec la be al (c * p0) G) as (k1 & E1 & C1 & f1 & f2 & f3 & f4 & f5 & f6).
  destruct (trajectory_exists croots HR k0 rhos times C0 (zlen rhos) (zlen_nonneg _) Hm) as (P & C & T & P0 & Cc).
  destruct (history_exact croots HR k0 rhos times P C C0 Hl T P0 Cc) as (res & k & E & _ & _ & L1 & V1 & _).
  destruct (history_exact croots HR k1 rhos times (fun t => c * P t) (fun i t => c * C i t) C1 Hl) as (res' & k' & E' & _ & _ & L2 & V2 & _).
  - rewrite f1, f2, f3. rewrite e1, e2, e3 in T. destruct T as [TC TO]. split.
    + intros t. destruct (TC t) as [t1 t2]. split; [apply (continuity_pt_scal P), t1|]. intros i Hi. apply (continuity_pt_scal (C i)), t2, Hi.
    + intros m Hmm t Ht. destruct (TO m Hmm t Ht) as [D1 D2]. split.
      * replace (kdP la be al rhos@m (c * P t) (fun i => c * C i t)) with (c * kdP la be al rhos@m (P t) (fun i => C i t)).
        -- apply @is_derive_scal. exact D1.
        -- unfold kdP. rewrite (rsum_ext 0 (zlen la) (fun i => la@i * (c * C i t)) (fun i => c * (la@i * C i t))) by (intros; ring).
           rewrite rsum_scal. ring.
      * intros i Hi. replace (kdC la be al (c * P t) (fun i => c * C i t) i) with (c * kdC la be al (P t) (fun i => C i t) i) by (unfold kdC; ring).
        apply @is_derive_scal. apply D2, Hi.
  - rewrite P0, e4, f4. reflexivity.
  - intros i Hi. rewrite f1 in Hi. rewrite Cc by (rewrite e1; exact Hi). rewrite e6, f6 by exact Hi. unfold Rdiv. ring.
  - exists k0, k1, res, res', k, k'. split; [exact E0|]. split; [exact E1|]. split; [exact E|]. split; [exact E'|].
    apply (nth_ext _ _ 0 0); [rewrite map_length; congruence|]. intros m Hm'. rewrite L2 in Hm'.
    pose proof (V2 (Z.of_nat m) ltac:(unfold zlen; lia)) as A. pose proof (V1 (Z.of_nat m) ltac:(unfold zlen; lia)) as B.
    rewrite Nat2Z.id in A, B. rewrite A, <- B. rewrite (nth_indep (map (Rmult c) res) 0 (Rmult c 0)) by (rewrite map_length; lia).
    rewrite (map_nth (Rmult c)). reflexivity.
Qed.
Print Assumptions C78_power_scales.
Example C78_example : group_data [1; 2] [1; 1] 1 /\ nondecreasing_times [1; 3] 2.
Proof. split; [apply ex_k2_consistent|apply C62_example]. Qed.
