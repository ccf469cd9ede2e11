(* Property theorems C88: a coupled calculation of neutrons and temperatures
   when no cross section and no conductivity depends on the temperature.
   [flat_mesh]: every cross section law is one number.  [heatable]: the mesh
   conducts, its conductivities are positive numbers, its faces are well posed
   (see C87) and there is a material for every cell.  [neutronic]: transport or
   forward diffusion. *)
From Coq Require Import String ZArith List Bool Lia Reals Lra.
From Verif Require Import Base BaseLemmas NumR LinAlg Blocks ModelNumTools ModelEigen ModelMesh ModelReactor ModelDiffusion
  ModelHeat ModelSpectrum ModelKinetics ModelOutput ModelCalculation ProofsNumTools ProofsMesh ProofsDiffusion ProofsDiffusionR
  ProofsPower ProofsHeat ProofsHeatLoop ProofsHeatConstant ProofsCoupled ProofsInputG ProofsReport ProofsFrame ProofsEigen ProofsPowerB PropsDiffusion PropsHeat PropsHeatConstant
  PropsCalculation ProofsDiffusionR ProofsUncoupled.
Import ListNotations.
Local Open Scope R_scope.

Lemma heatable_same L Rt (a b : mesh R) : same_input a b -> heatable L Rt a -> heatable L Rt b.
Proof.
  intros (b' & g & c & e & K) (Hc & Hkc & Hg & Hw & Hlen). unfold heatable.
  assert (Kc : forall i, (0 <= i < ms_cells a)%Z -> mt_cond (cell_material b i) = mt_cond (cell_material a i)).
  { intros i Hi. apply (keeps_nth mt_cond); [|lia]. unfold keeps in *.
    pose proof (f_equal (map (fun x => snd (fst x))) K) as K'. rewrite !map_map in K'. exact K'. }
  assert (Kl : length (ms_mats b) = length (ms_mats a)).
  { pose proof (f_equal (@length _) K) as K'. rewrite !map_length in K'. exact K'. }
  split; [|split; [|split; [|split]]].
  - destruct Hc as (H1 & H2 & H3 & H4 & H5). unfold conducting. rewrite b', g, c. unfold zlen in *. rewrite Kl.
    repeat split; auto. intros m Hm0. rewrite Kc by exact Hm0. apply H5. exact Hm0.
  - intros i Hi. rewrite c in Hi. rewrite Kc by exact Hi. apply Hkc. exact Hi.
  - unfold good_geometry. rewrite b'. exact Hg.
  - unfold well_posed, is_slab. rewrite g. exact Hw.
  - unfold zlen in *. rewrite Kl, c. exact Hlen.
Qed.
Lemma same_temperatures {T} {N : Num T} (a b : mesh T) : ms_cells b = ms_cells a -> keeps mt_temp a b ->
  getTemperatures b "C" = getTemperatures a "C".
Proof.
  intros Ec K. unfold getTemperatures. rewrite Ec.
  match goal with |- bind ?x _ = bind ?y _ => assert (E : x = y) end.
  { rewrite <- Ec at 1.
    apply (cells_view mt_temp (fun _ => True) a b (fun i r m => vset r i (mt_temp m))); [exact K|exact Ec|apply Forall_forall; auto|].
    intros i s x y _ Hy. rewrite Hy. reflexivity. }
  rewrite E. reflexivity.
Qed.

Section Coupled.
Variables (solver : mat R -> vec R -> vec R) (sort : list (R * vec R) -> list (R * vec R))
  (eig : mat R -> mat R -> vec (R * R) * mat (R * R)) (croots : list R -> list (R * R)) (expint3 bickley3f nexp nsqrt : R -> R).
Let single := singleCalculation PI solver sort eig croots expint3 bickley3f nexp nsqrt.
Let double := doubleCalculation PI solver sort eig croots expint3 bickley3f nexp nsqrt.
Let solve := solve1 PI solver sort eig croots expint3 bickley3f nexp nsqrt.
Let step := half_step PI solver sort eig croots expint3 bickley3f nexp nsqrt.

Lemma single_inv o pk sd r oc : single o pk sd r = Ok oc -> exists old a p, solve sd r = Ok (old, oc_reactor oc) /\
  printResults sd CRITICAL (oc_reactor oc) = Ok a /\ plots o pk (rx_mesh (oc_reactor oc)) = Ok p /\ oc_plots oc = p.
Proof.
  unfold single, singleCalculation. fold solve. intros H.
  destruct (bind_ok_inv _ _ _ H) as ([old r'] & E & H1). destruct (bind_ok_inv _ _ _ H1) as (k & _ & H2).
  destruct (bind_ok_inv _ _ _ H2) as (a & _ & H3). destruct (bind_ok_inv _ _ _ H3) as (b & Eb & H4).
  destruct (bind_ok_inv _ _ _ H4) as (p & Ep & H5). injection H5 as <-. exists old, b, p. auto.
Qed.

Lemma no_difference_number k : k <> 0 -> getDifference (PDouble k) (PDouble k) = Ok 0.
Proof. intros Hk. cbn. f_equal. rnum. replace ((k - k) / k) with 0 by (field; exact Hk). apply Rabs_R0. Qed.
Lemma max_zero l : l <> [] -> (forall x, In x l -> x = 0) -> maxCoeff l = Ok 0.
Proof.
  destruct l as [|x l]; [congruence|]. intros _ H. cbn [maxCoeff]. f_equal.
  assert (G : forall l, (forall x, In x l -> x = 0) -> fold_left (fun m y : R => if m [<] y then y else m) l 0 = 0).
  { induction l0 as [|y l0 IH]; intros Hl; [reflexivity|]. cbn [fold_left]. rewrite (Hl y (or_introl eq_refl)).
    destruct (0 [<] 0); apply IH; intros; apply Hl; right; assumption. }
  rewrite (H x (or_introl eq_refl)). apply G. intros; apply H; right; assumption.
Qed.
Lemma no_difference_vector (t : vec R) : (0 < vlen t)%Z -> getDifference (PVector t) (PVector t) = Ok 0.
Proof.
  intros Hl. cbn [getDifference]. rewrite Z.eqb_refl. apply max_zero.
  - rewrite list_of_vec_zrange. cbn [vlen]. rewrite zrange_step by lia. discriminate.
  - intros x Hx. rewrite list_of_vec_zrange in Hx. apply in_map_iff in Hx as (i & <- & _). cbn [vat]. rnum.
    replace (vat t i - vat t i) with 0 by ring. apply Rabs_R0.
Qed.

Variables (s1 s2 cs : solverData R) (L Rt : bc).

(* Fluxes first: the coupled calculation leaves the reactor that the flux
   calculation followed by the temperature calculation leaves, whatever the
   relaxation parameter, in two iterations. *)
Theorem C88_fluxes_first o pk (r : reactor R) oc1 oc2 k :
  neutronic s1 -> sd_kind s2 = HEAT -> sd_kind cs = COUPLED ->
  flat_mesh (rx_mesh r) -> heatable L Rt (rx_mesh r) -> boundaries s2 L Rt -> exact solver ->
  0 < sd_acc s2 -> (2 <= sd_max s2)%Z -> 0 <= sd_acc cs < 1 -> (2 <= sd_max cs)%Z ->
  single o pk s1 r = Ok oc1 -> getKFactor (oc_reactor oc1) = Ok k -> k <> 0 -> single o pk s2 (oc_reactor oc1) = Ok oc2 ->
  exists oc, double o pk [s1; s2; cs] r = Ok oc /\ oc_reactor oc = oc_reactor oc2 /\
    oc_plots oc = (oc_plots oc2 ++ oc_plots oc2)%list /\
    In (CRITICAL, ICount "Number of coupled iteration" 2) (oc_log oc).
Proof.
  intros Hn Hh Hcs F Hht Hb He Ha Hm Hacc Hmax E1 Ek Hk E2.
  destruct (single_inv _ _ _ _ _ E1) as (old1 & a1 & p1 & S1 & P1 & _ & _).
  destruct (single_inv _ _ _ _ _ E2) as (old2 & a2 & p2 & S2 & P2 & Pl & Epl).
  set (r1 := oc_reactor oc1) in *. set (r2 := oc_reactor oc2) in *.
  pose proof (solve_only _ _ _ _ _ _ _ _ _ _ _ _ _ S1) as Fr1.
  assert (Fo : forward_only r r1).
  { unfold solve_frame in Fr1. destruct Hn as [X|[X Y]]; rewrite X in Fr1; [exact Fr1|]. rewrite Y in Fr1. exact Fr1. }
  pose proof Fo as ((I1 & _) & _ & _ & Kt & _).
  (* the mesh after the fluxes *)
  pose proof Hht as (Hc & Hkc & Hg & Hw & Hlen).
  pose proof (heatable_same L Rt _ _ I1 Hht) as Hht1.
  pose proof (solve_only _ _ _ _ _ _ _ _ _ _ _ _ _ S2) as Fr2. unfold solve_frame in Fr2. rewrite Hh in Fr2.
  destruct Fr2 as (ms2 & Er2 & O2).
  assert (Sh : heatSolve PI solver s2 r1 = Ok (old2, r2)) by (unfold solve, solve1 in S2; rewrite Hh in S2; exact S2).
  destruct (heat_anywhere solver s2 L Rt Hb He Ha Hm r1 r2 old2 ms2 Hht1 O2 Sh) as (t & Et & Sh2). rewrite <- Er2 in Sh2.
  pose proof Hht1 as (Hc1 & _ & _ & _ & Hlen1). pose proof Hc1 as (_ & Hn1 & _ & Hl1 & _).
  assert (Ec2 : ms_cells ms2 = ms_cells (rx_mesh r1)) by (destruct O2 as (Rr & _); unfold rest in Rr; congruence).
  assert (El2 : zlen (ms_mats ms2) = zlen (ms_mats (rx_mesh r1))).
  { destruct O2 as (_ & K & _). pose proof (f_equal (@length _) K) as K'. rewrite !map_length in K'. unfold zlen. congruence. }
  destruct (wp_ok _ _ (getHeatSources_wp dm0 ms2 ltac:(lia) ltac:(lia))) as (h & Eh & _).
  pose proof (neutronic_again PI solver sort eig croots expint3 bickley3f nexp nsqrt s1 r r1 old1 ms2 h Hn F S1 O2 Eh) as S3.
  rewrite <- Er2 in S3.
  assert (Em2 : rx_mesh r2 = ms2) by (rewrite Er2; reflexivity).
  assert (Hkind : forall sd', neutronic sd' -> mainParameter sd' r1 = Ok (PDouble k)).
  { intros sd' [X|[X _]]; unfold mainParameter; rewrite X, Ek; reflexivity. }
  assert (Hpar1 : mainParameter s1 r1 = Ok (PDouble k)) by auto.
  assert (Hpar2 : mainParameter s1 r2 = Ok (PDouble k)) by (rewrite Er2, (parameter_same s1 r1 ms2 Hn); exact Hpar1).
  assert (Hpar3 : mainParameter s2 r2 = Ok (PVector t)) by (unfold mainParameter; rewrite Hh, Em2, Et; reflexivity).
  assert (Lt : vlen t = ms_cells ms2).
  { destruct (wp_ok _ _ (getTemperatures_wp dm0 ms2 "C" ltac:(lia) ltac:(lia))) as (w & Ew & Lw & _). congruence. }
  set (par := sd_relax cs).
  assert (H1 : step s1 false par r r1 (PDouble k)) by (exists old1, r1; auto).
  assert (H2 : step s2 false par r1 r2 (PVector t)) by (exists old2, r2; auto).
  assert (H3 : step s1 true par r2 r2 (PDouble k)).
  { exists h, r2. split; [exact S3|]. split; [exact Hpar2|].
    replace (relaxResults s1 par h r2) with (relaxPowers par h r2) by (unfold relaxResults; destruct Hn as [X|[X _]]; rewrite X; reflexivity).
    apply relaxPowers_same; rewrite Em2; [lia|lia|exact Eh]. }
  assert (H4 : step s2 true par r2 r2 (PVector t)).
  { exists t, r2. split; [unfold solve1; rewrite Hh; exact Sh2|]. split; [exact Hpar3|].
    unfold relaxResults. rewrite Hh. apply relaxTemperatures_same; rewrite Em2; [lia|lia|exact Et]. }
  assert (Pr1 : forall l, exists b, printResults s1 l r1 = Ok b) by (intros l; apply (print_level s1 r1 a1 l); auto).
  assert (Pr2 : forall l, exists b, printResults s1 l r2 = Ok b) by (intros l; rewrite Er2, (print_same s1 r1 ms2 Hn O2); apply Pr1).
  assert (Pr3 : forall l, exists b, printResults s2 l r2 = Ok b) by (intros l; apply (print_level s2 r2 a2 l); auto).
  assert (D : forall sd rel p r r' r'', step sd rel par r r' p -> solve sd r = Ok r'' -> (exists b, printResults sd INFO (snd r'') = Ok b) ->
     exists l, coupledHalf PI solver sort eig croots expint3 bickley3f nexp nsqrt sd rel par r = Ok (p, r', l)).
  { intros sd rel p q q' q'' St So Pp. apply (half_ok _ _ _ _ _ _ _ _ _ _ _ _ _ _ _ St).
    intros old r0 E. fold solve in E. rewrite E in So. injection So as <-. exact Pp. }
  destruct (D _ _ _ _ _ _ H1 S1 (Pr1 INFO)) as (l1 & D1). destruct (D _ _ _ _ _ _ H2 S2 (Pr3 INFO)) as (l2 & D2).
  destruct (D _ _ _ _ _ _ H3 S3 (Pr2 INFO)) as (l3 & D3).
  destruct (D s2 true (PVector t) r2 r2 (t, r2) H4 ltac:(unfold solve, solve1; rewrite Hh; exact Sh2) (Pr3 INFO)) as (l4 & D4).
  unfold double, doubleCalculation.
  assert (Ecs : getCoupledSolver [s1; s2; cs] = Ok cs).
  { unfold getCoupledSolver. cbn [find]. rewrite Hh, Hcs. destruct Hn as [X|[X _]]; rewrite X; reflexivity. }
  destruct (Z.to_nat (sd_max cs)) as [|[|n]] eqn:En; [lia|lia|].
  destruct (Pr2 CRITICAL) as (pa & Ppa). destruct (Pr3 CRITICAL) as (pb & Ppb).
  eexists. split; [|split; [|split]].
  - change (lget [s1; s2; cs] 0) with (Ok s1). cbn [bind]. change (lget [s1; s2; cs] 1) with (Ok s2). cbn [bind].
    rewrite Ecs. cbn [bind]. rewrite En. cbn [doubleLoop]. change (negb (0 =? 0)%Z) with false. change (negb (0 + 1 =? 0)%Z) with true.
    fold par. rewrite D1. cbn [bind]. rewrite D2. cbn [bind].
    replace (n1 [<=] sd_acc cs) with false.
    2:{ symmetry. change (Rleb 1 (sd_acc cs) = false). apply Rleb_false. lra. }
    cbn [andb]. rewrite D3. cbn [bind]. rewrite D4. cbn [bind].
    rewrite (no_difference_number k Hk). cbn [bind]. rewrite no_difference_vector by lia. cbn [bind].
    replace (0 [<=] sd_acc cs) with true.
    2:{ symmetry. change (Rleb 0 (sd_acc cs) = true). apply Rleb_true. lra. }
    cbn [andb bind]. rewrite Ppa. cbn [bind]. rewrite Ppb. cbn [bind]. rewrite Pl. cbn [bind]. reflexivity.
  - reflexivity.
  - cbn [oc_plots]. rewrite Epl. reflexivity.
  - cbn [oc_log]. apply in_or_app. right. left. reflexivity.
Qed.
(* Temperatures first: the first temperatures are those of the heat sources of
   the input, r0.  The calculation ends in the third iteration, or in the
   second if the true temperatures, those of r1, are within the accuracy of the
   first ones; the temperatures it leaves are then still a mixture of both. *)
Theorem C88_temperatures_first_partial o pk (r r0 : reactor R) old0 oc2 k :
  sd_kind s1 = HEAT -> neutronic s2 -> sd_kind cs = COUPLED ->
  flat_mesh (rx_mesh r) -> heatable L Rt (rx_mesh r) -> boundaries s1 L Rt -> exact solver ->
  0 < sd_acc s1 -> (2 <= sd_max s1)%Z -> 0 <= sd_acc cs < 1 -> (3 <= sd_max cs)%Z ->
  heatSolve PI solver s1 r = Ok (old0, r0) -> single o pk s2 r0 = Ok oc2 -> getKFactor (oc_reactor oc2) = Ok k -> k <> 0 ->
  (forall ms', only_temp (rx_mesh (oc_reactor oc2)) ms' -> exists p, plots o pk ms' = Ok p) ->
  exists oc ms' old1 r1 n, double o pk [s1; s2; cs] r = Ok oc /\ In (CRITICAL, ICount "Number of coupled iteration" n) (oc_log oc) /\
    oc_reactor oc = with_mesh ms' (oc_reactor oc2) /\ only_temp (rx_mesh (oc_reactor oc2)) ms' /\
    heatSolve PI solver s1 (oc_reactor oc) = Ok (old1, r1) /\
    (n = 2%Z /\ (forall i, (0 <= i < ms_cells (rx_mesh r))%Z -> Rabs (temp (rx_mesh r1) i - temp (rx_mesh r0) i) <= sd_acc cs) \/
     n = 3%Z /\ ~ (forall i, (0 <= i < ms_cells (rx_mesh r))%Z -> Rabs (temp (rx_mesh r1) i - temp (rx_mesh r0) i) <= sd_acc cs)) /\
    forall i, (0 <= i < ms_cells (rx_mesh r))%Z ->
      temp ms' i - temp (rx_mesh r1) i = (1 - sd_relax cs) ^ Z.to_nat (n - 1) * (temp (rx_mesh r0) i - temp (rx_mesh r1) i).
Proof.
  intros Hh Hn Hcs F Hht Hb He Ha Hm Hacc Hmax E0 E2 Ek Hk Hplots.
  destruct (single_inv _ _ _ _ _ E2) as (old2 & a2 & p2 & S2 & P2 & _ & _).
  set (rA := oc_reactor oc2) in *.
  assert (Sv : forall q, solve s1 q = heatSolve PI solver s1 q) by (intros q; unfold solve, solve1; rewrite Hh; reflexivity).
  destruct (heatSolve_only _ _ _ _ _ _ E0) as (ms0 & Er0 & O0).
  pose proof (only_temp_input _ _ O0) as I0. assert (Em0 : rx_mesh r0 = ms0) by (rewrite Er0; reflexivity).
  assert (F0 : flat_mesh (rx_mesh r0)) by (rewrite Em0; apply (flat_same (rx_mesh r)); [exact F|apply O0]).
  pose proof (heatable_same L Rt _ _ I0 Hht) as Hht0. rewrite <- Em0 in Hht0, I0.
  pose proof (solve_only _ _ _ _ _ _ _ _ _ _ _ _ _ S2) as Fr1.
  assert (Fo : forward_only r0 rA).
  { unfold solve_frame in Fr1. destruct Hn as [X|[X Y]]; rewrite X in Fr1; [exact Fr1|]. rewrite Y in Fr1. exact Fr1. }
  pose proof Fo as ((IA & _) & _ & _ & Kt & _).
  pose proof (heatable_same L Rt _ _ IA Hht0) as HhtA.
  assert (FA : flat_mesh (rx_mesh rA)) by (apply (flat_same (rx_mesh r0)); [exact F0|apply IA]).
  pose proof HhtA as (HcA & HkA & HgA & HwA & HlenA). pose proof HcA as (_ & HnA & _ & HlA & _).
  assert (Ec0 : ms_cells (rx_mesh r0) = ms_cells (rx_mesh r)) by apply I0.
  assert (EcA : ms_cells (rx_mesh rA) = ms_cells (rx_mesh r)) by (rewrite <- Ec0; apply IA).
  (* the temperatures with the new heat sources *)
  destruct (constant_solve solver s1 L Rt rA HcA HkA HgA Hb He HwA Ha Hm) as (t0 & mB & Et0 & EB & _).
  set (rB := with_mesh mB rA) in *.
  destruct (heatSolve_only _ _ _ _ _ _ EB) as (mB' & EmB & OB). apply (f_equal rx_mesh) in EmB. cbn in EmB. subst mB'.
  assert (Cell : forall ms', only_temp (rx_mesh rA) ms' -> ms_cells ms' = ms_cells (rx_mesh rA) /\ zlen (ms_mats ms') = ms_cells (rx_mesh rA)).
  { intros ms' (Rr & K & _). unfold rest in Rr. injection Rr as _ _ X _ _ _. split; [exact X|].
    pose proof (f_equal (@length _) K) as K'. rewrite !map_length in K'. rewrite <- HlenA. unfold zlen. congruence. }
  destruct (Cell mB OB) as [cB lB].
  assert (Vt : forall ms' v, (ms_cells ms' = ms_cells (rx_mesh rA)) -> (zlen (ms_mats ms') = ms_cells (rx_mesh rA)) ->
     getTemperatures ms' "C" = Ok v -> vlen v = ms_cells (rx_mesh rA) /\ forall i, (0 <= i < ms_cells (rx_mesh rA))%Z -> vat v i = temp ms' i).
  { intros ms' v X Y E. destruct (wp_ok _ _ (getTemperatures_wp dm0 ms' "C" ltac:(lia) ltac:(lia))) as (w & Ew & Lw & Hw).
    assert (w = v) by congruence. subst w. split; [congruence|]. intros i Hi. rewrite Hw by lia. reflexivity. }
  destruct (Vt (rx_mesh rA) t0 eq_refl HlenA Et0) as [Lt0 Ht0].
  destruct (wp_ok _ _ (getTemperatures_wp dm0 mB "C" ltac:(lia) ltac:(lia))) as (t1 & Et1 & _).
  destruct (Vt mB t1 cB lB Et1) as [Lt1 Ht1].
  assert (T0 : forall i, (0 <= i < ms_cells (rx_mesh rA))%Z -> temp (rx_mesh rA) i = temp (rx_mesh r0) i).
  { intros i Hi. unfold temp. apply (keeps_nth mt_temp); [exact Kt|]. destruct Hht0 as (_ & _ & _ & _ & X). lia. }
  set (par := sd_relax cs) in *.
  (* relaxing the new temperatures against those before *)
  assert (Rel : forall old, vlen old = ms_cells (rx_mesh rA) -> exists m, relaxTemperatures par old rB = Ok (with_mesh m rA) /\
     only_temp (rx_mesh rA) m /\ forall i, (0 <= i < ms_cells (rx_mesh rA))%Z -> temp m i = temp mB i * par + vat old i * (1 - par)).
  { intros old Lo. destruct (relaxTemperatures_spec par old rB) as (m & Er & _ & _ & _ & _ & V); cbn [rB rx_mesh with_mesh]; try lia.
    exists m. split; [exact Er|]. destruct (relaxTemperatures_only _ _ _ _ Er) as (m' & Em' & Om).
    apply (f_equal rx_mesh) in Em'. cbn in Em'. subst m'. cbn [rB rx_mesh with_mesh] in Om, V. split; [eapply only_temp_trans; eassumption|].
    intros i Hi. unfold temp at 1. rewrite V by lia. reflexivity. }
  destruct (Rel t0 Lt0) as (mC & EC & OC & TC). set (rC := with_mesh mC rA) in *.
  destruct (Cell mC OC) as [cC lC].
  destruct (heat_anywhere solver s1 L Rt Hb He Ha Hm rA rB t0 mC HhtA OC EB) as (tC & EtC & EBC). fold rC in EBC.
  destruct (Vt mC tC cC lC EtC) as [LtC HtC].
  destruct (Rel tC LtC) as (mD & ED & OD & TD). set (rD := with_mesh mD rA) in *.
  destruct (Cell mD OD) as [cD lD].
  destruct (heat_anywhere solver s1 L Rt Hb He Ha Hm rA rB t0 mD HhtA OD EB) as (tD & EtD & EBD). fold rD in EBD.
  (* the fluxes found again *)
  assert (Again : forall m, only_temp (rx_mesh rA) m -> exists h, getHeatSources m = Ok h /\ solve s2 (with_mesh m rA) = Ok (h, with_mesh m rA) /\
     relaxResults s2 par h (with_mesh m rA) = Ok (with_mesh m rA)).
  { intros m Om. destruct (Cell m Om) as [X Y].
    destruct (wp_ok _ _ (getHeatSources_wp dm0 m ltac:(lia) ltac:(lia))) as (h & Eh & _). exists h. split; [exact Eh|].
    split; [exact (neutronic_again PI solver sort eig croots expint3 bickley3f nexp nsqrt s2 r0 rA old2 m h Hn F0 S2 Om Eh)|].
    replace (relaxResults s2 par h (with_mesh m rA)) with (relaxPowers par h (with_mesh m rA))
      by (unfold relaxResults; destruct Hn as [Z|[Z _]]; rewrite Z; reflexivity).
    apply relaxPowers_same; cbn [rx_mesh with_mesh]; [lia|lia|exact Eh]. }
  destruct (Again mC OC) as (hC & _ & SC & XC). destruct (Again mD OD) as (hD & _ & SD & XD).
  assert (Par : forall m, mainParameter s2 (with_mesh m rA) = Ok (PDouble k)).
  { intros m. unfold mainParameter. destruct Hn as [Z|[Z _]]; rewrite Z; unfold getKFactor in *; cbn [rx_fwd with_mesh]; rewrite Ek; reflexivity. }
  assert (ParA : mainParameter s2 rA = Ok (PDouble k)) by (rewrite <- (with_mesh_same rA); apply Par).
  assert (Et00 : getTemperatures (rx_mesh r0) "C" = Ok t0).
  { rewrite <- Et0. symmetry. apply same_temperatures; [congruence|exact Kt]. }
  assert (Ph : forall q v, getTemperatures (rx_mesh q) "C" = Ok v -> mainParameter s1 q = Ok (PVector v)).
  { intros q v E. unfold mainParameter. rewrite Hh, E. reflexivity. }
  assert (H1 : step s1 false par r r0 (PVector t0)) by (exists old0, r0; fold solve; rewrite Sv; auto).
  assert (H2 : step s2 false par r0 rA (PDouble k)) by (exists old2, rA; auto).
  assert (H3 : step s1 true par rA rC (PVector t1)).
  { exists t0, rB. fold solve. rewrite Sv. split; [exact EB|]. split; [apply Ph; exact Et1|]. unfold relaxResults. rewrite Hh. exact EC. }
  assert (H4 : step s2 true par rC rC (PDouble k)) by (exists hC, rC; split; [exact SC|]; split; [apply Par|exact XC]).
  assert (H5 : step s1 true par rC rD (PVector t1)).
  { exists tC, rB. fold solve. rewrite Sv. split; [exact EBC|]. split; [apply Ph; exact Et1|]. unfold relaxResults. rewrite Hh. exact ED. }
  assert (H6 : step s2 true par rD rD (PDouble k)) by (exists hD, rD; split; [exact SD|]; split; [apply Par|exact XD]).
  assert (PrH : forall q v l, getTemperatures (rx_mesh q) "C" = Ok v -> exists b, printResults s1 l q = Ok b).
  { intros q v l E. unfold printResults. rewrite Hh, E. eexists; reflexivity. }
  assert (PrA : forall l, exists b, printResults s2 l rA = Ok b) by (intros l; apply (print_level s2 rA a2 l); auto).
  assert (PrN : forall m l, only_temp (rx_mesh rA) m -> exists b, printResults s2 l (with_mesh m rA) = Ok b).
  { intros m l Om. rewrite (print_same s2 rA m Hn Om). apply PrA. }
  assert (D : forall sd rel p r r' r'', step sd rel par r r' p -> solve sd r = Ok r'' -> (exists b, printResults sd INFO (snd r'') = Ok b) ->
     exists l, coupledHalf PI solver sort eig croots expint3 bickley3f nexp nsqrt sd rel par r = Ok (p, r', l)).
  { intros sd rel p q q' q'' St So Pp. apply (half_ok _ _ _ _ _ _ _ _ _ _ _ _ _ _ _ St).
    intros old rr E. fold solve in E. rewrite E in So. injection So as <-. exact Pp. }
  destruct (D s1 false _ r r0 (old0, r0) H1 ltac:(rewrite Sv; exact E0) (PrH r0 t0 INFO Et00)) as (l1 & D1).
  destruct (D s2 false _ r0 rA _ H2 S2 (PrA INFO)) as (l2 & D2).
  destruct (D s1 true _ rA rC (t0, rB) H3 ltac:(rewrite Sv; exact EB) (PrH rB t1 INFO Et1)) as (l3 & D3).
  destruct (D s2 true _ rC rC _ H4 SC (PrN mC INFO OC)) as (l4 & D4).
  destruct (D s1 true _ rC rD (tC, rB) H5 ltac:(rewrite Sv; exact EBC) (PrH rB t1 INFO Et1)) as (l5 & D5).
  destruct (D s2 true _ rD rD _ H6 SD (PrN mD INFO OD)) as (l6 & D6).
  assert (Ecs : getCoupledSolver [s1; s2; cs] = Ok cs).
  { unfold getCoupledSolver. cbn [find]. rewrite Hh, Hcs. destruct Hn as [X|[X _]]; rewrite X; reflexivity. }
  assert (Diff : exists d, getDifference (PVector t1) (PVector t0) = Ok d).
  { cbn [getDifference]. rewrite Lt1, Lt0, Z.eqb_refl. rewrite list_of_vec_zrange. cbn [vlen]. rewrite zrange_step by lia. eexists; reflexivity. }
  destruct Diff as (d & Ed). pose proof (getDifference_R (sd_acc cs) (PVector t1) (PVector t0) d I Ed) as Hd.
  assert (Hd' : d [<=] sd_acc cs = true <-> forall i, (0 <= i < ms_cells (rx_mesh r))%Z -> Rabs (temp mB i - temp (rx_mesh r0) i) <= sd_acc cs).
  { rewrite Hd. cbn [change_within]. rewrite Lt1, Lt0, EcA. split.
    - intros [_ H] i Hi. rewrite <- T0, <- Ht0, <- Ht1 by lia. apply H. exact Hi.
    - intros H. split; [reflexivity|]. intros i Hi. rewrite Ht0, Ht1, T0 by lia. apply H. exact Hi. }
  assert (Hz : 0 [<=] sd_acc cs = true) by (change (Rleb 0 (sd_acc cs) = true); apply Rleb_true; lra).
  assert (H1z : n1 [<=] sd_acc cs = false) by (change (Rleb 1 (sd_acc cs) = false); apply Rleb_false; lra).
  destruct (Z.to_nat (sd_max cs)) as [|[|[|n]]] eqn:En; [lia|lia|lia|].
  destruct (d [<=] sd_acc cs) eqn:Edd.
  - destruct (PrH rC tC CRITICAL EtC) as (pa & Ppa). destruct (PrN mC CRITICAL OC) as (pb & Ppb). destruct (Hplots mC OC) as (pl & Epl).
    eexists. exists mC, tC, rB, 2%Z. split; [|split; [|split; [|split; [|split; [|split]]]]].
    + unfold double, doubleCalculation. change (lget [s1; s2; cs] 0) with (Ok s1). cbn [bind].
      change (lget [s1; s2; cs] 1) with (Ok s2). cbn [bind]. rewrite Ecs. cbn [bind]. rewrite En. cbn [doubleLoop].
      change (negb (0 =? 0)%Z) with false. change (negb (0 + 1 =? 0)%Z) with true. fold par.
      rewrite D1. cbn [bind]. rewrite D2. cbn [bind]. rewrite H1z. cbn [andb]. rewrite D3. cbn [bind]. rewrite D4. cbn [bind].
      rewrite Ed. cbn [bind]. rewrite (no_difference_number k Hk). cbn [bind]. rewrite Edd, Hz. cbn [andb bind].
      rewrite Ppa. cbn [bind]. change (with_mesh mC rA) with rC in Ppb. rewrite Ppb. cbn [bind].
      change (rx_mesh rC) with mC. rewrite Epl. cbn [bind]. reflexivity.
    + cbn [oc_log]. apply in_or_app. right. left. reflexivity.
    + reflexivity.
    + exact OC.
    + exact EBC.
    + left. split; [reflexivity|]. apply Hd'. reflexivity.
    + intros i Hi. cbn [rB rx_mesh with_mesh]. rewrite TC, Ht0, T0 by lia. change (Z.to_nat (2 - 1)) with 1%nat. ring.
  - destruct (PrH rD tD CRITICAL EtD) as (pa & Ppa). destruct (PrN mD CRITICAL OD) as (pb & Ppb). destruct (Hplots mD OD) as (pl & Epl).
    eexists. exists mD, tD, rB, 3%Z. split; [|split; [|split; [|split; [|split; [|split]]]]].
    + unfold double, doubleCalculation. change (lget [s1; s2; cs] 0) with (Ok s1). cbn [bind].
      change (lget [s1; s2; cs] 1) with (Ok s2). cbn [bind]. rewrite Ecs. cbn [bind]. rewrite En. cbn [doubleLoop].
      change (negb (0 =? 0)%Z) with false. change (negb (0 + 1 =? 0)%Z) with true. change (negb (0 + 1 + 1 =? 0)%Z) with true. fold par.
      rewrite D1. cbn [bind]. rewrite D2. cbn [bind]. rewrite H1z. cbn [andb]. rewrite D3. cbn [bind]. rewrite D4. cbn [bind].
      rewrite Ed. cbn [bind]. rewrite (no_difference_number k Hk). cbn [bind]. rewrite Edd. cbn [andb bind].
      rewrite D5. cbn [bind]. rewrite D6. cbn [bind]. rewrite no_difference_vector by lia. cbn [bind].
      rewrite (no_difference_number k Hk). cbn [bind]. rewrite Hz. cbn [andb bind].
      rewrite Ppa. cbn [bind]. change (with_mesh mD rA) with rD in Ppb. rewrite Ppb. cbn [bind].
      change (rx_mesh rD) with mD. rewrite Epl. cbn [bind]. reflexivity.
    + cbn [oc_log]. apply in_or_app. right. left. reflexivity.
    + reflexivity.
    + exact OD.
    + exact EBD.
    + right. split; [reflexivity|]. intros C. apply Hd' in C. discriminate C.
    + intros i Hi. cbn [rB rx_mesh with_mesh]. rewrite TD, HtC, TC, Ht0, T0 by lia. change (Z.to_nat (3 - 1)) with 2%nat. ring.
Qed.
End Coupled.
Print Assumptions C88_temperatures_first_partial.
Print Assumptions C88_fluxes_first.

(* ---------- a reactor for both theorems ---------- *)

(* three equal fissile cells of 1 cm between mirrors, both faces held at 20 C,
   no heat source before the first calculation *)
Definition hot_material : material R := set_cond [1] (ex_material 1 2).
Definition hot_slab : mesh R :=
  mkMesh (mkvec 4 (fun i => IZR i / 100)) SLAB 3 1 [hot_material; hot_material; hot_material] 1 1.
Definition hot_reactor : reactor R := mkReactor hot_slab 8 [] [] (mkKinetics 0 0 [] [] [] []) (0, 0%Z, 0%Z).
Definition hot_diff : solverData R := mkSolverData DIFFUSION (1 / 1000) 100 1 [1; 1] [] 1 FORWARD FUNDAMENTAL.
Definition hot_heat : solverData R := mkSolverData HEAT (1 / 1000) 100 0 [] [1; 0; 20; 1; 0; 20] 1 FORWARD FUNDAMENTAL.
Definition face20 : bc := mkbc 1 0 20.

Lemma hot_cell m : (0 <= m < 3)%Z -> cell_material hot_slab m = hot_material.
Proof. intros Hm. assert (m = 0 \/ m = 1 \/ m = 2)%Z as [->|[->| ->]] by lia; reflexivity. Qed.
Lemma hot_ready : ready hot_slab.
Proof.
  repeat split; cbn; try lia; try congruence.
  all: assert (m = 0 \/ m = 1 \/ m = 2)%Z as [->|[->| ->]] by (cbn in *; lia);
    change (Z.to_nat 1) with 1%nat; change (Z.to_nat 2) with 2%nat; cbn;
    try reflexivity; try (right; unfold zlen; cbn; lia); unfold zlen; cbn; lia.
Qed.
Lemma hot_increasing : increasing (ms_bounds hot_slab).
Proof. intros i Hi. cbn in *. rewrite plus_IZR. lra. Qed.
Lemma hot_flat : flat_mesh hot_slab.
Proof.
  assert (F : ProofsUncoupled.flat hot_material) by (repeat split; repeat constructor; eexists; reflexivity).
  apply Forall_cons; [exact F|]. apply Forall_cons; [exact F|]. apply Forall_cons; [exact F|]. apply Forall_nil.
Qed.
Lemma hot_heatable : heatable face20 face20 hot_slab.
Proof.
  split; [|split; [|split; [|split]]].
  - repeat split; try discriminate; try (cbn; lia); try (change (3 <= 3)%Z; lia).
    intros m Hm. rewrite hot_cell by exact Hm. discriminate.
  - intros i Hi. exists 1. split; [lra|]. rewrite hot_cell by exact Hi. reflexivity.
  - split; [exact hot_increasing|]. cbn. lra.
  - split; [|split; [|left]]; unfold admissible; cbn; lra.
  - reflexivity.
Qed.

Lemma hot_tables ms : same_input hot_slab ms -> let d := mesh_tables ms in
  forall m, (0 <= m < 3)%Z ->
    tD d 0 m = 1 /\ ttot d 0 m = 2 /\ tsc d 0 0 m = 1 /\ tfis d 0 m = 1 /\ tni d 0 m = 2 /\ tchi d 0 m = 1 /\
    tdx d m = 1 /\ tS d m = 1 /\ tS d (m + 1) = 1 /\ tV d m = 1.
Proof.
  intros S d m Hm. destruct (input_laws _ _ m S) as (_ & _ & A1 & A2 & A3 & A4 & A5 & A6). destruct S as (b & g & c & e & _).
  rewrite hot_cell in A1, A2, A3, A4, A5, A6 by exact Hm.
  cbn [d mesh_tables tD ttot tsc tfis tni tchi tdx tS tV]. unfold law_at, law_at0, law_at. rewrite A1, A2, A3, A4, A5, A6, b, g, e.
  cbn [hot_material set_cond ex_material mt_diff mt_totXS mt_scatt mt_fisXS mt_ni mt_chi hot_slab ms_groups ms_geom ms_bounds vat].
  change (Z.to_nat (0 + 0 * 1)) with 0%nat. change (Z.to_nat 0) with 0%nat. cbn [nth]. rewrite !constant_law.
  rewrite plus_IZR. cbn. repeat split; lra.
Qed.

Section Hot.
Variable solver : mat R -> vec R -> vec R.
Hypothesis He : exact solver.
Let run := solve1 PI solver (fun l => l) no_eig (fun _ => []) (fun x => x) (fun x => x) (fun x => x) (fun x => x).
Let single := singleCalculation PI solver (fun l => l) no_eig (fun _ => []) (fun x => x) (fun x => x) (fun x => x) (fun x => x).

Lemma hot_system ms : same_input hot_slab ms -> exists M F, diffusionSystem PI ms hot_diff = Ok (M, F) /\
  mrows M = 3%Z /\ mcols M = 3%Z /\ mrows F = 3%Z /\ mcols F = 3%Z /\
  (forall i, (0 <= i < 3)%Z -> vat (solver M (vones 3)) i = 1) /\
  forall i j, (0 <= i < 3)%Z -> (0 <= j < 3)%Z -> mat_at F i j = if (j =? i)%Z then 2 else 0.
Proof.
  intros S. pose proof S as (b & g & c & e & K). cbn [hot_slab ms_cells ms_groups ms_bounds ms_geom] in b, g, c, e.
  pose proof (ready_data ms (input_ready _ _ S hot_ready)) as Hdat. rewrite e in Hdat.
  assert (Hal : albedos ms hot_diff 1 1) by (unfold albedos; rewrite g; split; reflexivity).
  pose proof (hot_tables ms S) as Tb. cbn zeta in Tb. set (d := mesh_tables ms) in *.
  assert (Z0 : forall x, (0 <= x < sd_energies hot_diff)%Z -> x = 0%Z) by (cbn; lia).
  assert (HD : forall e m, (0 <= e < sd_energies hot_diff)%Z -> (0 <= m < ms_cells ms)%Z -> 0 < tD d e m).
  { intros x m Hx Hm. rewrite (Z0 x Hx). destruct (Tb m ltac:(lia)) as (-> & _). lra. }
  assert (Hx : forall m, (0 <= m < ms_cells ms)%Z -> 0 < tdx d m).
  { intros m Hm. destruct (Tb m ltac:(lia)) as (_ & _ & _ & _ & _ & _ & -> & _). lra. }
  assert (HS : forall k, (0 <= k <= ms_cells ms)%Z -> 0 <= tS d k).
  { intros k Hk. destruct (Z.eq_dec k 0) as [->|].
    - destruct (Tb 0%Z ltac:(lia)) as (_ & _ & _ & _ & _ & _ & _ & -> & _). lra.
    - destruct (Tb (k - 1)%Z ltac:(lia)) as (_ & _ & _ & _ & _ & _ & _ & _ & H & _). replace (k - 1 + 1)%Z with k in H by lia. lra. }
  destruct (C41_row_sums ms hot_diff d 1 1 ltac:(lia) ltac:(cbn; lia) Hdat Hal ltac:(lra) ltac:(lra) HD Hx (HS 0%Z ltac:(lia))
    (HS (ms_cells ms) ltac:(lia)) ltac:(discriminate)) as (M & F & lk & E & Row & Lk).
  destruct (loss_monotone ms hot_diff d 1 1 ltac:(lia) ltac:(cbn; lia) Hdat Hal ltac:(lra) ltac:(lra) HD Hx eq_refl HS) as (M' & F' & E' & Mono).
  { intros m Hm. destruct (Tb m ltac:(lia)) as (_ & _ & _ & _ & _ & _ & _ & _ & _ & ->). lra. }
  { intros x y m X Y Hm. rewrite (Z0 x X), (Z0 y Y). destruct (Tb m ltac:(lia)) as (_ & _ & -> & _). lra. }
  { intros x m X Hm. rewrite (Z0 x X). change (sd_energies hot_diff) with 1%Z. rewrite (rsum_one 0). destruct (Tb m ltac:(lia)) as (_ & -> & -> & _). lra. }
  rewrite E in E'. injection E' as <- <-.
  destruct (C44_fission_operator ms hot_diff d 1 1 ltac:(lia) ltac:(cbn; lia) Hdat Hal ltac:(lra) eq_refl) as (M' & F' & E' & RF & CF & HF).
  rewrite E in E'. injection E' as <- <-.
  pose proof (system_wp PI ms hot_diff d ltac:(lia) ltac:(cbn; lia) Hdat 1 1 Hal ltac:(discriminate)) as HW.
  destruct (wp_ok _ _ HW) as ([M' F'] & E' & [[RM [CM _]] _]). rewrite E in E'. injection E' as <- <-. cbn [fst] in RM, CM.
  change (sd_energies hot_diff) with 1%Z in *. rewrite c in *. change (3 * 1)%Z with 3%Z in *.
  exists M, F. split; [exact E|]. split; [exact RM|]. split; [exact CM|]. split; [exact RF|]. split; [exact CF|]. split.
  - assert (Sol : forall i, (0 <= i < 3)%Z -> app 3 (mat_at M) (vat (solver M (vones 3))) i = 1).
    { intros i Hi. rewrite (proj2 He 3%Z M (vones 3) (mat_at M)); [apply vones_at|repeat split; auto|reflexivity|apply monotone_injective, Mono|exact Hi]. }
    apply (injective_equal 3 (mat_at M) (vat (solver M (vones 3))) (fun _ => 1)); [apply monotone_injective, Mono|].
    intros i Hi. rewrite Sol by exact Hi. unfold app.
    rewrite (rsum_ext _ _ _ (mat_at M (i + 0 * 3))) by (intros j Hj; replace (i + 0 * 3)%Z with i by lia; ring).
    rewrite Row by lia. destruct (Lk 0%Z i ltac:(lia) Hi) as (_ & _ & L0). rewrite L0 by reflexivity.
    rewrite (rsum_one 0). unfold transfer. cbn [hot_diff sd_dir]. destruct (Tb i Hi) as (_ & -> & -> & _ & _ & _ & _ & _ & _ & ->). lra.
  - intros i j Hi Hj. pose proof (HF 0 i 0 j ltac:(lia) Hi ltac:(lia) Hj)%Z as Hv.
    replace (i + 0 * 3)%Z with i in Hv by lia. replace (j + 0 * 3)%Z with j in Hv by lia. rewrite Hv.
    destruct (Tb i Hi) as (_ & _ & _ & -> & -> & -> & _ & _ & _ & ->). destruct (j =? i)%Z; lra.
Qed.

Lemma hot_fluxes r : same_reactor hot_reactor r -> exists oc, single newOutput [] hot_diff r = Ok oc /\
  getKFactor (oc_reactor oc) = Ok 1 /\ same_input hot_slab (rx_mesh (oc_reactor oc)) /\
  forall i, (0 <= i < 3)%Z -> stored_heat (rx_mesh (oc_reactor oc)) i = 800 / 3.
Proof.
  intros (S & Pw & _). cbn [hot_reactor rx_mesh rx_power] in S, Pw. set (ms := rx_mesh r). fold ms in S.
  pose proof (input_ready _ _ S hot_ready) as Hr. pose proof S as (b & g & c & e & K).
  cbn [hot_slab ms_cells ms_groups ms_bounds ms_geom] in b, g, c, e.
  assert (Hm : (ms_cells ms <= zlen (ms_mats ms))%Z) by apply Hr.
  destruct (wp_ok _ _ (getHeatSources_wp dm0 ms ltac:(lia) Hm)) as (old & Eo & _).
  destruct (wp_ok _ _ (volumes_wp ms "cm" ltac:(congruence) ltac:(rewrite b; cbn; lia))) as (vol & Ev & _).
  destruct (hot_system ms S) as (M & F & EMF & RM & CM & RF & CF & Hs1 & HFv).
  assert (Hs : vdot (mvmul F (vones 3)) (mvmul F (vones 3)) <> 0).
  { assert (V : forall i, (0 <= i < 3)%Z -> vat (mvmul F (vones 3)) i = 2).
    { intros i Hi. rewrite mvmul_at. rewrite CF. rewrite (rsum_ext _ _ _ (fun j => if (j =? i)%Z then 2 else 0)).
      - rewrite (rsum_single 0 3 _ i); [rewrite Z.eqb_refl; reflexivity|lia|]. intros k Hk Hk2. destruct (Z.eqb_spec k i); [lia|reflexivity].
      - intros j Hj. rewrite HFv by lia. rewrite vones_at. ring. }
    unfold vdot. change (vlen (mvmul F (vones 3))) with (mrows F). rewrite RF.
    rewrite (rsum_ext _ _ _ (fun _ => 2 * 2)) by (intros i Hi; rewrite V by lia; reflexivity).
    rewrite rsum_const by lia. cbn. lra. }
  destruct (si_first_iteration solver M F 3 100 (1 / 1000) FORWARD ltac:(lia) RM CM RF CF
    ltac:(intros q Hq; rewrite <- Hq; apply (proj1 He); congruence) Hs1 Hs ltac:(lia) ltac:(lra)) as (flux & Ef & Lf & Hf).
  destruct (setNewHeatSource_spec r vol (er_single flux 1 FORWARD) (ready_fissile _ Hr) Ev
     ltac:(unfold zlen; cbn; lia)
     ltac:(unfold zlen; cbn; intros k Hk; assert (k = 0)%Z as -> by lia; cbn; fold ms; rewrite c, e, Lf; lia))
    as (r1 & E1 & Sh & Hw & _ & _ & _ & _ & Hn & _ & _ & Hc1).
  fold ms in E1, Hn, Hc1. rewrite e in E1.
  assert (S1 : same_input ms (rx_mesh r1)) by (apply (setNewHeatSource_only _ _ _ _ _ _ _ E1)).
  pose proof (same_input_trans _ _ _ S S1) as S2. pose proof S2 as (_ & _ & c2 & e2 & _). cbn [hot_slab ms_cells ms_groups] in c2, e2.
  pose proof (input_ready _ _ S2 hot_ready) as Hr2.
  assert (Hm2 : (ms_cells (rx_mesh r1) <= zlen (ms_mats (rx_mesh r1)))%Z) by apply Hr2.
  assert (Er : run hot_diff r = Ok (old, r1)).
  { unfold run, solve1. cbn [hot_diff sd_kind]. fold hot_diff. unfold diffusionSolve. fold ms. rewrite Eo. cbn [bind]. rewrite Ev. cbn [bind].
    rewrite EMF. cbn [bind]. unfold solveEigen. cbn [sd_eig sd_max sd_acc sd_dir hot_diff]. rewrite Ef. cbn [bind snd sd_energies].
    change (sd_energies hot_diff) with 1%Z. rewrite E1. reflexivity. }
  assert (Hfl : forall m, (0 <= m < ms_cells (rx_mesh r1))%Z -> let f := mt_flux (nth (Z.to_nat m) (ms_mats (rx_mesh r1)) dm0) in
     (ms_groups (rx_mesh r1) <= mrows f)%Z /\ (1 <= mcols f)%Z).
  { intros m Hmm. destruct (Hc1 m ltac:(lia)) as (f & q & Em & (Rf & Cf & _) & _). cbn zeta.
    change (nth (Z.to_nat m) (ms_mats (rx_mesh r1)) dm0) with (cell_material (rx_mesh r1) m). rewrite Em. cbn [set_heat set_flux mt_flux].
    rewrite Rf, Cf, e2, e. unfold zlen. cbn. lia. }
  destruct (wp_ok _ _ (get_modes_wp dm0 mt_flux 1 (rx_mesh r1) ltac:(lia) ltac:(lia) ltac:(lia) Hm2 Hfl)) as (t & Et & _).
  destruct (wp_ok _ _ (get_fundamental_wp dm0 mt_flux (rx_mesh r1) ltac:(lia) ltac:(lia) Hm2 Hfl)) as (ft & Eft & _).
  destruct (wp_ok _ _ (getHeatSources_wp dm0 (rx_mesh r1) ltac:(lia) Hm2)) as (hs & Ehs & Lhs & _).
  assert (Ek : getKFactor r1 = Ok 1) by (unfold getKFactor; rewrite Hw; reflexivity).
  assert (Epr : exists l, printResults hot_diff CRITICAL r1 = Ok l).
  { unfold printResults, printForward, printPower, getFundamentalNeutronFluxes. cbn [hot_diff sd_kind sd_dir]. rewrite Ek. cbn [bind]. rewrite Eft. cbn [bind].
    rewrite Ehs. cbn [bind]. rewrite list_of_vec_zrange, Lhs, c2. rewrite zrange_step by lia. cbn [map maxCoeff bind].
    destruct (is_greater _ _); eexists; reflexivity. }
  destruct Epr as (lp & Epr).
  assert (Eem : printEigenmodesResults hot_diff CRITICAL r1 = Ok []).
  { unfold printEigenmodesResults, getNeutronFluxes. cbn [hot_diff sd_kind sd_dir]. rewrite Hn. change (zlen (er_modes (er_single flux 1 FORWARD))) with 1%Z.
    rewrite Et. cbn [bind]. rewrite Hw. reflexivity. }
  eexists. split.
  { unfold single, singleCalculation. fold run. rewrite Er. cbn [bind]. unfold solveLog. cbn [hot_diff sd_kind]. fold hot_diff. cbn [bind].
    rewrite Eem. cbn [bind]. rewrite Epr. cbn [bind]. unfold plots. cbn. reflexivity. }
  cbn [oc_reactor]. split; [exact Ek|]. split; [exact S2|]. intros i Hi.
  destruct (Hc1 i ltac:(lia)) as (f & q & Em & _ & Eq). unfold stored_heat. rewrite Em. cbn [set_heat mt_heat]. rewrite Eq.
  assert (Vol : forall i, cell_volume ms i = 1 / 100).
  { intros j. rewrite (input_volume _ _ _ S). unfold cell_volume, body_volume. cbn [hot_slab ms_geom ms_bounds vat]. rewrite plus_IZR. lra. }
  set (rate := fission_rate ms (mode_flux ms (er_modes (er_single flux 1 FORWARD)) 0)) in *.
  assert (Rate : forall j, (0 <= j < 3)%Z -> rate j = / 3 / 100).
  { intros j Hj. unfold rate, fission_rate. rewrite e, Vol. rewrite (rsum_one 0).
    pose proof (hot_tables ms S j Hj) as (_ & _ & _ & Tf & _). cbn [mesh_tables tfis] in Tf. rewrite Tf.
    unfold mode_flux. cbn [er_single er_modes nth Z.to_nat snd]. rewrite Hf by lia. lra. }
  rewrite Rate by exact Hi. rewrite c. rewrite (rsum_ext _ _ _ (fun _ => / 3 / 100)) by (intros; apply Rate; lia).
  rewrite rsum_const by lia. rewrite Vol, Pw. cbn [Z.sub]. change (3 - 0)%Z with 3%Z. field.
Qed.
End Hot.

(* The hypotheses of the first theorem are met: the fluxes of this reactor and
   then its temperatures. *)
Example C88_fluxes_first_met : exists solver oc1 oc2, exact solver /\
  let single := singleCalculation PI solver (fun l => l) no_eig (fun _ => []) (fun x => x) (fun x => x) (fun x => x) (fun x => x) in
  single newOutput [] hot_diff hot_reactor = Ok oc1 /\ getKFactor (oc_reactor oc1) = Ok 1 /\
  single newOutput [] hot_heat (oc_reactor oc1) = Ok oc2 /\
  neutronic hot_diff /\ flat_mesh hot_slab /\ heatable face20 face20 hot_slab /\ boundaries hot_heat face20 face20.
Proof.
  destruct exact_exists as (solver & He). exists solver.
  destruct (hot_fluxes solver He hot_reactor (same_reactor_refl _)) as (oc1 & E1 & K1 & S1 & _). exists oc1.
  pose proof (heatable_same _ _ _ _ S1 hot_heatable) as (Hc & Hk & Hg & Hw & Hl). pose proof Hc as (_ & Hn & _ & Hlm & _).
  assert (Hb : boundaries hot_heat face20 face20) by (left; reflexivity).
  destruct (constant_solve solver hot_heat face20 face20 (oc_reactor oc1) Hc Hk Hg Hb He Hw ltac:(cbn; lra) ltac:(cbn; lia)) as (t & mB & _ & EB & RB & _).
  destruct (reheated_facts _ _ RB Hc) as (Hc' & c' & _). pose proof Hc' as (_ & Hn' & _ & Hl' & _).
  destruct (wp_ok _ _ (getTemperatures_wp dm0 mB "C" ltac:(lia) Hl')) as (t1 & Et1 & _).
  eexists. split; [exact He|]. cbn zeta. split; [exact E1|]. split; [exact K1|]. split.
  { unfold singleCalculation, solve1. cbn [hot_heat sd_kind]. fold hot_heat. rewrite EB. cbn [bind]. unfold solveLog, printEigenmodesResults, printResults.
    cbn [hot_heat sd_kind bind]. cbn [rx_mesh with_mesh]. rewrite Et1. cbn [bind]. unfold plots. cbn. reflexivity. }
  split; [right; split; reflexivity|]. split; [exact hot_flat|]. split; [exact hot_heatable|exact Hb].
Qed.

(* Temperatures first, as the text does not forbid: the calculation ends and
   reports temperatures that miss those of its own power by more than its
   accuracy, since only the temperatures before the relaxation are compared. *)
Theorem C88_temperatures_first_refuted : exists solver cs oc old r1 i, exact solver /\
  let double := doubleCalculation PI solver (fun l => l) no_eig (fun _ => []) (fun x => x) (fun x => x) (fun x => x) (fun x => x) in
  sd_kind cs = COUPLED /\ 0 < sd_acc cs /\ sd_relax cs = 1 / 2 /\
  double newOutput [] [hot_heat; hot_diff; cs] hot_reactor = Ok oc /\
  heatSolve PI solver hot_heat (oc_reactor oc) = Ok (old, r1) /\
  (0 <= i < 3)%Z /\ sd_acc cs < Rabs (temp (rx_mesh (oc_reactor oc)) i - temp (rx_mesh r1) i).
Proof.
  destruct exact_exists as (solver & He). exists solver.
  pose proof hot_heatable as (Hc & Hk & Hg & Hw & Hl). assert (Hb : boundaries hot_heat face20 face20) by (left; reflexivity).
  destruct (body_solve solver hot_reactor face20 face20 Hc Hk Hg He Hw hot_heat face20 face20 hot_reactor) as (old0 & m0 & E0 & Sol0);
    [repeat split; try reflexivity; change (3 <= 3)%Z; lia|exact Hb|apply same_bc_refl|apply same_bc_refl|cbn; lra|cbn; lia|].
  set (r0 := with_mesh m0 hot_reactor) in *.
  destruct (heatSolve_only _ _ _ _ _ _ E0) as (m0' & Er0 & O0). apply (f_equal rx_mesh) in Er0. cbn in Er0. subst m0'.
  cbn [rx_mesh hot_reactor] in O0, Sol0.
  assert (SR : same_reactor hot_reactor r0) by (split; [apply only_temp_input, O0|repeat split]).
  destruct (hot_fluxes solver He r0 SR) as (oc2 & E2 & K2 & S2 & Heat).
  assert (Sb : same_body hot_slab (rx_mesh (oc_reactor oc2))).
  { pose proof S2 as (b & g & c & _). split; [exact c|]. split; [exact b|]. split; [exact g|].
    pose proof (heatable_same _ _ _ _ S2 hot_heatable) as (_ & _ & _ & _ & L2). split; [rewrite L2, c; change (3 <= 3)%Z; lia|].
    intros i Hi. apply (input_laws _ _ i S2). }
  destruct (body_solve solver hot_reactor face20 face20 Hc Hk Hg He Hw hot_heat face20 face20 (oc_reactor oc2) Sb Hb
     (same_bc_refl _) (same_bc_refl _) ltac:(cbn; lra) ltac:(cbn; lia)) as (oldB & mB & EB & SolB).
  cbn [rx_mesh hot_reactor] in SolB.
  (* the power changes some temperature *)
  assert (Ex : exists i, (0 <= i < 3)%Z /\ temp mB i <> temp m0 i).
  { destruct (Req_dec (temp mB 0) (temp m0 0)) as [A0|A0]; [|exists 0%Z; split; [lia|exact A0]].
    destruct (Req_dec (temp mB 1) (temp m0 1)) as [A1|A1]; [|exists 1%Z; split; [lia|exact A1]].
    destruct (Req_dec (temp mB 2) (temp m0 2)) as [A2|A2]; [|exists 2%Z; split; [lia|exact A2]].
    exfalso. assert (Eq : forall j, (0 <= j < 3)%Z -> temp mB j = temp m0 j)
      by (intros j Hj; assert (j = 0 \/ j = 1 \/ j = 2)%Z as [->|[->| ->]] by lia; assumption).
    pose proof (Sol0 0%Z ltac:(cbn; lia)) as X. pose proof (SolB 0%Z ltac:(cbn; lia)) as Y.
    rewrite (Heat 0%Z ltac:(lia)) in Y.
    assert (App : app (ms_cells hot_slab) (fullmat hot_slab face20 face20) (temp mB) 0
                = app (ms_cells hot_slab) (fullmat hot_slab face20 face20) (temp m0) 0).
    { unfold app. apply rsum_ext. intros j Hj. rewrite Eq by exact Hj. reflexivity. }
    assert (V : cell_volume hot_slab 0 = 1 / 100) by (unfold cell_volume, body_volume; cbn [hot_slab ms_geom ms_bounds vat]; cbn; lra).
    change (stored_heat hot_slab 0) with 0 in X. rewrite V in X, Y. lra. }
  destruct Ex as (i & Hi & Ne). assert (Dp : 0 < Rabs (temp mB i - temp m0 i)) by (apply Rabs_pos_lt; lra).
  set (acc := Rmin (1 / 2) (Rabs (temp mB i - temp m0 i) / 8)).
  assert (Acc : 0 < acc /\ acc <= 1 / 2 /\ acc <= Rabs (temp mB i - temp m0 i) / 8).
  { unfold acc. split; [apply Rmin_pos; lra|]. split; [apply Rmin_l|apply Rmin_r]. }
  set (cs := mkSolverData COUPLED acc 100 (1 / 2) [] [] 1 FORWARD FUNDAMENTAL : solverData R).
  destruct (C88_temperatures_first_partial solver (fun l => l) no_eig (fun _ => []) (fun x => x) (fun x => x) (fun x => x) (fun x => x)
     hot_heat hot_diff cs face20 face20 newOutput [] hot_reactor r0 old0 oc2 1)
    as (oc & ms' & old1 & r1 & n & E & _ & Eoc & O & Eh & Hn & Ht);
    [reflexivity|right; split; reflexivity|reflexivity|exact hot_flat|exact hot_heatable|exact Hb|exact He|cbn; lra|cbn; lia
    |cbn; lra|cbn; lia|exact E0|exact E2|exact K2|lra|intros; eexists; reflexivity|].
  assert (ErB : r1 = with_mesh mB (oc_reactor oc2)).
  { pose proof (heatable_same _ _ _ _ S2 hot_heatable) as Hh2.
    destruct (heat_anywhere solver hot_heat face20 face20 Hb He ltac:(cbn; lra) ltac:(cbn; lia) _ _ _ ms' Hh2 O EB) as (o' & _ & E').
    rewrite Eoc, E' in Eh. injection Eh as _ <-. reflexivity. }
  assert (Far : ~ Rabs (temp (rx_mesh r1) i - temp (rx_mesh r0) i) <= sd_acc cs).
  { rewrite ErB. cbn [rx_mesh with_mesh r0 cs sd_acc]. lra. }
  assert (En : n = 3%Z) by (destruct Hn as [[_ C]|[-> _]]; [destruct Far; apply C; exact Hi|reflexivity]). subst n.
  exists cs, oc, old1, r1, i. split; [exact He|]. cbn zeta. split; [reflexivity|]. split; [cbn; lra|]. split; [reflexivity|].
  split; [exact E|]. split; [exact Eh|]. split; [exact Hi|].
  rewrite Eoc. change (rx_mesh (with_mesh ms' (oc_reactor oc2))) with ms'. rewrite (Ht i Hi). rewrite ErB. cbn [rx_mesh with_mesh r0 cs sd_relax sd_acc].
  change (Z.to_nat (3 - 1)) with 2%nat. replace ((1 - 1 / 2) ^ 2 * (temp m0 i - temp mB i)) with (- ((temp mB i - temp m0 i) / 4)) by field.
  rewrite Rabs_Ropp. unfold Rdiv. rewrite Rabs_mult, (Rabs_pos_eq (/ 4)) by lra. lra.
Qed.
Print Assumptions C88_temperatures_first_refuted.
