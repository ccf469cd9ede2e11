(* The modal flux of ADSCalculation.cpp over the reals. *)
From Coq Require Import String ZArith List Bool Lia Reals Lra.
From Verif Require Import Base BaseLemmas NumR Blocks LinAlg ModelNumTools ModelEigen ModelMesh ModelReactor
  ModelDiffusion ModelHeat ModelSpectrum ModelKinetics ModelOutput ModelCalculation
  ProofsMesh ProofsDiffusion ProofsDiffusionR ProofsPower.
Import ListNotations.
Local Open Scope R_scope.

(* the modes stored in the mesh: group e, cell m, mode n *)
Definition forward_mode (ms : mesh R) (n e m : Z) : R := mat_at (mt_flux (cell_material ms m)) e n.
Definition adjoint_mode (ms : mesh R) (n e m : Z) : R := mat_at (mt_adj (cell_material ms m)) e n.

(* the reactor holds nm forward and adjoint modes and a source in cell p and group g (from 0) *)
Definition ads_ready (r : reactor R) (nm p g : Z) (strength : R) : Prop :=
  let ms := rx_mesh r in
  ready ms /\ (0 <= nm)%Z /\ ms_nfwd ms = nm /\ ms_nadj ms = nm /\ (nm <= zlen (rx_fwd r))%Z /\
  (forall m, (0 <= m < ms_cells ms)%Z -> let mt := cell_material ms m in
     (ms_groups ms <= mrows (mt_flux mt))%Z /\ (nm <= mcols (mt_flux mt))%Z /\
     (ms_groups ms <= mrows (mt_adj mt))%Z /\ (nm <= mcols (mt_adj mt))%Z) /\
  rx_ext r = (strength, (p + 1)%Z, (g + 1)%Z) /\
  (0 <= p < ms_cells ms)%Z /\ (0 <= g < ms_groups ms)%Z /\ (p < 2 ^ 32)%Z /\ (g < 2 ^ 32)%Z.

Lemma production_wp (ms : mesh R) : ready ms ->
  let d := mesh_tables ms in
  wp (getProductionOperator ms) (fun P => mrows P = ms_groups ms /\ mcols P = ms_cells ms /\
    forall e m, (0 <= e < ms_groups ms)%Z -> (0 <= m < ms_cells ms)%Z ->
      mat_at P e m = tchi d e m * rsum 0 (ms_groups ms) (fun e' => tni d e' m * tfis d e' m)).
Proof.
  intros (_ & Hc & _ & Hg & Hl & Hmat) d. unfold getProductionOperator.
  set (V := fun e m => tchi d e m * rsum 0 (ms_groups ms) (fun e' => tni d e' m * tfis d e' m)).
  eapply (zfor_wp' (fun k P => mrows P = ms_groups ms /\ mcols P = ms_cells ms /\
    forall e m, (0 <= e < ms_groups ms)%Z -> (0 <= m < k)%Z -> mat_at P e m = V e m)).
  - lia.
  - repeat split; auto. intros; lia.
  - intros m P Hm (R1 & C1 & H1). rewrite (lget_ok (ms_mats ms) m dm0) by lia. cbn [bind].
    destruct (Hmat m Hm) as (A1 & A2 & A3 & A4 & A5 & A6 & A7). fold (cell_material ms m).
    set (mt := cell_material ms m) in *.
    apply wp_bind; eapply wp_mono; [apply (law_table0_wp (mt_ni mt) mt); rewrite ?A1; auto|].
    cbn beta. intros ni [Ln Hni]. rewrite A1 in *.
    apply wp_bind; eapply wp_mono; [apply (law_table0_wp (mt_chi mt) mt); rewrite ?A1; auto|].
    cbn beta. intros chi [Lc Hchi]. rewrite A1 in *.
    apply wp_bind; eapply wp_mono; [apply (law_table_wp (mt_fisXS mt) mt); rewrite ?A1; auto|].
    cbn beta. intros fis [Lf Hfis]. rewrite A1 in *.
    apply wp_bind. eapply wp_mono.
    { eapply (zfor_wp' (fun k acc => acc = rsum 0 k (fun e' => tni d e' m * tfis d e' m)))
        with (Q := fun acc => acc = rsum 0 (ms_groups ms) (fun e' => tni d e' m * tfis d e' m)).
      - lia.
      - rewrite rsum_empty by lia. reflexivity.
      - intros e acc He ->. rewrite vget_ok by lia. cbn [bind]. rewrite vget_ok by lia. cbn [bind wp].
        rewrite rsum_last by lia. rnum. f_equal. f_equal.
        + rewrite Hni by lia. cbn [d mesh_tables tni]. unfold law_at0, law_at. fold mt. destruct (mt_ni mt); reflexivity.
        + rewrite Hfis by lia. reflexivity.
      - auto. }
    cbn beta. intros tot ->.
    eapply (zfor_wp' (fun k P => mrows P = ms_groups ms /\ mcols P = ms_cells ms /\
      (forall e m', (0 <= e < ms_groups ms)%Z -> (0 <= m' < m)%Z -> mat_at P e m' = V e m') /\
      forall e, (0 <= e < k)%Z -> mat_at P e m = V e m)).
    + lia.
    + repeat split; auto. intros; lia.
    + intros e Q He (R2 & C2 & H2 & H3). rewrite vget_ok by lia. cbn [bind]. rewrite mset_ok by lia. cbn [wp mrows mcols mat_at].
      repeat split; auto.
      * intros e' m' He' Hm'. replace (m' =? m)%Z with false by lia. rewrite andb_false_r. auto.
      * intros e' He'. rewrite Z.eqb_refl, andb_true_r. destruct (Z.eqb_spec e' e) as [->|]; [|apply H3; lia].
        unfold V. rnum. f_equal. rewrite Hchi by lia. cbn [d mesh_tables tchi]. unfold law_at0, law_at. fold mt. destruct (mt_chi mt); reflexivity.
    + intros Q (R2 & C2 & H2 & H3). repeat split; auto. intros e m' He Hm'.
      destruct (Z.eq_dec m' m) as [->|]; [apply H3|apply H2]; lia.
  - auto.
Qed.

Section Spec.
Variable to_unsigned : R -> res Z.
Variable r : reactor R.
Variables nm s p g : Z.
Variable strength : R.
Hypothesis Hr : ads_ready r nm p g strength.
Hypothesis Hs : to_unsigned strength = Ok s.
Let ms := rx_mesh r.
Let d := mesh_tables ms.
Let phi := forward_mode ms.
Let psi := adjoint_mode ms.

(* the diagonal of <adjoint, P forward> as the code takes it *)
Definition ads_weight (n : Z) : R :=
  rsum 0 (ms_cells ms) (fun m => rsum 0 (ms_groups ms) (fun e =>
    psi n e m * (tchi d e m * rsum 0 (ms_groups ms) (fun e' => tni d e' m * tfis d e' m)) * phi n e m * tV d m)).
Definition ads_coefficient (n : Z) : R :=
  let k := nth (Z.to_nat n) (rx_fwd r) 0 in
  k / (1 - k) * (IZR s * tV d p * psi n g p / ads_weight n).

Lemma adsWeights_wp : wp (adsWeights PI to_unsigned r) (fun qw =>
  vlen (fst qw) = nm /\ vlen (snd qw) = nm /\
  forall n, (0 <= n < nm)%Z -> vat (fst qw) n = IZR s * tV d p * psi n g p /\ vat (snd qw) n = ads_weight n).
Proof.
  destruct Hr as (Hrd & Hnm & Hnf & Hna & Hk & Hm & Hext & Hp & Hg & Hp2 & Hg2). fold ms in Hrd, Hnf, Hna, Hm, Hp, Hg.
  pose proof Hrd as (Hgeo & Hc & Hlen & Hgr & Hmats & _).
  unfold adsWeights. rewrite Hext. cbn zeta beta iota. rewrite Hs. cbn [bind]. fold ms.
  replace ((p + 1 - 1) mod 2 ^ 32)%Z with p by (rewrite Z.mod_small; lia).
  replace ((g + 1 - 1) mod 2 ^ 32)%Z with g by (rewrite Z.mod_small; lia).
  destruct (ready_data ms Hrd) as (_ & _ & _ & _ & _ & _ & _ & _ & V & EV & LV & HV). rewrite EV. cbn [bind].
  apply wp_bind. eapply wp_mono.
  { apply (get_modes_wp dm0 mt_adj (ms_nadj ms) ms); try lia. intros m H. destruct (Hm m H) as (? & ? & ? & ?).
    fold (cell_material ms m). cbn zeta. split; lia. }
  cbn beta. intros A (A0 & A1 & A2 & HA). rewrite Hna in *.
  unfold inb. rewrite A0, A1. replace ((0 <=? g)%Z && (g <? ms_groups ms)%Z) with true by lia.
  replace ((0 <=? p)%Z && (p <? ms_cells ms)%Z) with true by lia. cbn [negb].
  rewrite vget_ok by lia. cbn [bind].
  apply wp_bind. eapply wp_mono.
  { apply (get_modes_wp dm0 mt_flux (ms_nfwd ms) ms); try lia. intros m H. destruct (Hm m H) as (? & ? & ? & ?).
    fold (cell_material ms m). cbn zeta. split; lia. }
  cbn beta. intros F (F0 & F1 & F2 & HF). rewrite Hnf in *.
  apply wp_bind; eapply wp_mono; [apply production_wp; exact Hrd|]. cbn beta. intros P (P0 & P1 & HP).
  cbn [vlen]. rewrite F0, F1, F2, A2.
  set (term := fun n m e => psi n e m * (tchi d e m * rsum 0 (ms_groups ms) (fun e' => tni d e' m * tfis d e' m)) * phi n e m * tV d m).
  apply wp_bind. eapply wp_mono.
  { eapply (zfor_wp' (fun k a => vlen a = nm /\ (forall n, (0 <= n < k)%Z -> vat a n = ads_weight n) /\
       forall n, (k <= n < nm)%Z -> vat a n = 0)) with (Q := fun a => vlen a = nm /\ forall n, (0 <= n < nm)%Z -> vat a n = ads_weight n).
    - lia.
    - repeat split. intros; lia.
    - intros n a Hn (L & H1 & H2).
      eapply (zfor_wp' (fun k a => vlen a = nm /\ (forall n', (0 <= n' < n)%Z -> vat a n' = ads_weight n') /\
         (forall n', (n < n' < nm)%Z -> vat a n' = 0) /\ vat a n = rsum 0 k (fun m => rsum 0 (ms_groups ms) (term n m)))).
      + lia.
      + repeat split; auto. { intros; apply H2; lia. } rewrite rsum_empty by lia. apply H2. lia.
      + clear a L H1 H2. intros m a Hm' (L & H1 & H2 & H3).
        eapply (zfor_wp' (fun k a => vlen a = nm /\ (forall n', (0 <= n' < n)%Z -> vat a n' = ads_weight n') /\
           (forall n', (n < n' < nm)%Z -> vat a n' = 0) /\
           vat a n = rsum 0 m (fun m => rsum 0 (ms_groups ms) (term n m)) + rsum 0 k (term n m))).
        * lia.
        * repeat split; auto. rewrite (rsum_empty 0 0) by lia. lra.
        * clear a L H1 H2 H3. intros e a He (L & H1 & H2 & H3).
          rewrite vget_ok by lia. cbn [bind]. rewrite t3get_ok by lia. cbn [bind]. rewrite mget_ok by lia. cbn [bind].
          rewrite t3get_ok by lia. cbn [bind]. rewrite vget_ok by lia. cbn [bind]. rewrite vset_ok by lia. cbn [wp vlen vat].
          repeat split; auto.
          -- intros n' Hn'. replace (n' =? n)%Z with false by lia. auto.
          -- intros n' Hn'. replace (n' =? n)%Z with false by lia. auto.
          -- rewrite Z.eqb_refl, H3, rsum_last by lia. rnum. rewrite HA, HP, HF, HV by lia. unfold term. fold d.
             unfold psi, phi, adjoint_mode, forward_mode, cell_material. ring.
        * clear a L H1 H2 H3. intros a (L & H1 & H2 & H3). repeat split; auto. rewrite H3, rsum_last by lia. reflexivity.
      + clear a L H1 H2. intros a (L & H1 & H2 & H3). repeat split; auto.
        * intros n' Hn'. destruct (Z.eq_dec n' n) as [->|]; [exact H3|apply H1; lia].
        * intros n' Hn'. apply H2. lia.
    - intros a (L & H1 & _). auto. }
  cbn beta. intros a [La Ha]. cbn [wp fst snd vlen vat]. split; [reflexivity|]. split; [exact La|]. intros n Hn. split; [|apply Ha; exact Hn].
  rewrite HA, HV by lia. rnum. fold d. unfold psi, adjoint_mode, cell_material. ring.
Qed.

Lemma adsFlux_wp : wp (adsFlux PI to_unsigned r) (fun f =>
  mrows f = ms_groups ms /\ mcols f = ms_cells ms /\
  forall e m, (0 <= e < ms_groups ms)%Z -> (0 <= m < ms_cells ms)%Z ->
    mat_at f e m = rsum 0 nm (fun n => ads_coefficient n * phi n e m)).
Proof.
  unfold adsFlux. apply wp_bind. eapply wp_mono; [exact adsWeights_wp|]. cbn beta. intros [q a] (Lq & La & Hqa). cbn [fst snd] in *.
  destruct Hr as (Hrd & Hnm & Hnf & Hna & Hk & Hm & Hext & Hp & Hg & Hp2 & Hg2). fold ms in Hrd, Hnf, Hna, Hm, Hp, Hg.
  pose proof Hrd as (Hgeo & Hc & Hlen & Hgr & Hmats & _). cbn zeta.
  apply wp_bind. eapply wp_mono.
  { apply (get_modes_wp dm0 mt_flux (ms_nfwd ms) ms); try lia. intros m H. destruct (Hm m H) as (? & ? & ? & ?).
    fold (cell_material ms m). cbn zeta. split; lia. }
  cbn beta. intros F (F0 & F1 & F2 & HF). rewrite Hnf in *. rewrite F0, F1, F2.
  set (val := fun e m => rsum 0 nm (fun n => ads_coefficient n * phi n e m)).
  eapply (zfor_wp' (fun k f => mrows f = ms_groups ms /\ mcols f = ms_cells ms /\
    (forall e m, (0 <= e < k)%Z -> (0 <= m < ms_cells ms)%Z -> mat_at f e m = val e m) /\
    forall e m, (k <= e < ms_groups ms)%Z -> mat_at f e m = 0)).
  - lia.
  - repeat split; auto. intros; lia.
  - intros e f He (R1 & C1 & H1 & H2).
    eapply (zfor_wp' (fun k f => mrows f = ms_groups ms /\ mcols f = ms_cells ms /\
      (forall e' m, (0 <= e' < e)%Z -> (0 <= m < ms_cells ms)%Z -> mat_at f e' m = val e' m) /\
      (forall e' m, (e < e' < ms_groups ms)%Z -> mat_at f e' m = 0) /\
      (forall m, (0 <= m < k)%Z -> mat_at f e m = val e m) /\ forall m, (k <= m < ms_cells ms)%Z -> mat_at f e m = 0)).
    + lia.
    + repeat split; auto; intros; try (apply H2; lia); lia.
    + clear f R1 C1 H1 H2. intros m f Hm' (R1 & C1 & H1 & H2 & H3 & H4).
      eapply (zfor_wp' (fun k f => mrows f = ms_groups ms /\ mcols f = ms_cells ms /\
        (forall e' m, (0 <= e' < e)%Z -> (0 <= m < ms_cells ms)%Z -> mat_at f e' m = val e' m) /\
        (forall e' m, (e < e' < ms_groups ms)%Z -> mat_at f e' m = 0) /\
        (forall m', (0 <= m' < m)%Z -> mat_at f e m' = val e m') /\ (forall m', (m < m' < ms_cells ms)%Z -> mat_at f e m' = 0) /\
        mat_at f e m = rsum 0 k (fun n => ads_coefficient n * phi n e m))).
      * lia.
      * repeat split; auto. { intros; apply H4; lia. } rewrite rsum_empty by lia. apply H4. lia.
      * clear f R1 C1 H1 H2 H3 H4. intros n f Hn (R1 & C1 & H1 & H2 & H3 & H4 & H5).
        rewrite mget_ok by lia. cbn [bind]. rewrite (lget_ok (rx_fwd r) n 0) by lia. cbn [bind].
        rewrite vget_ok by (unfold adsRatio; cbn [vlen]; lia). cbn [bind]. rewrite t3get_ok by lia. cbn [bind]. rewrite mset_ok by lia.
        cbn [wp mrows mcols mat_at]. repeat split; auto.
        -- intros e' m' He' Hm''. replace (e' =? e)%Z with false by lia. cbn [andb]. auto.
        -- intros e' m' He'. replace (e' =? e)%Z with false by lia. cbn [andb]. auto.
        -- intros m' Hm''. replace (m' =? m)%Z with false by lia. rewrite andb_false_r. auto.
        -- intros m' Hm''. replace (m' =? m)%Z with false by lia. rewrite andb_false_r. auto.
        -- rewrite !Z.eqb_refl. cbn [andb]. rewrite rsum_last by lia. rewrite H5. cbn [vat]. rnum. f_equal.
           unfold ads_coefficient, adsRatio. cbn [vlen vat]. destruct (Hqa n Hn) as [-> ->]. rewrite HF by lia.
           unfold psi at 1, phi at 1, adjoint_mode, forward_mode, cell_material. reflexivity.
      * clear f R1 C1 H1 H2 H3 H4. intros f (R1 & C1 & H1 & H2 & H3 & H4 & H5). repeat split; auto.
        -- intros m' Hm''. destruct (Z.eq_dec m' m) as [->|]; [exact H5|apply H3; lia].
        -- intros m' Hm''. apply H4. lia.
    + clear f R1 C1 H1 H2. intros f (R1 & C1 & H1 & H2 & H3 & H4). repeat split; auto.
      * intros e' m He' Hm'. destruct (Z.eq_dec e' e) as [->|]; [apply H3; lia|apply H1; lia].
      * intros e' m He'. apply H2. lia.
  - intros f (R1 & C1 & H1 & _). auto.
Qed.
End Spec.

(* ---------- modal expansions ---------- *)

Definition dot (n : Z) (x y : Z -> R) : R := rsum 0 n (fun i => x i * y i).

Section Modes.
Variables (n nm : Z) (M F : Z -> Z -> R) (phi psi : Z -> Z -> R) (k : Z -> R).
Hypothesis Hfwd : forall a i, (0 <= a < nm)%Z -> (0 <= i < n)%Z -> app n F (phi a) i = k a * app n M (phi a) i.
Hypothesis Hadj : forall a j, (0 <= a < nm)%Z -> (0 <= j < n)%Z ->
  app n (fun j i => F i j) (psi a) j = k a * app n (fun j i => M i j) (psi a) j.
Hypothesis Hdist : forall a b, (0 <= a < nm)%Z -> (0 <= b < nm)%Z -> a <> b -> k a <> k b.
Hypothesis Hk1 : forall a, (0 <= a < nm)%Z -> k a <> 0 /\ k a <> 1.

Lemma dot_transpose A x y : dot n x (app n A y) = dot n (app n (fun j i => A i j) x) y.
Proof.
  unfold dot, app.
  rewrite (rsum_ext 0 n (fun i => x i * rsum 0 n (fun j => A i j * y j)) (fun i => rsum 0 n (fun j => x i * (A i j * y j))))
    by (intros; rewrite rsum_scal; reflexivity).
  rewrite rsum_swap. apply rsum_ext. intros j Hj. rewrite <- rsum_scal_r. apply rsum_ext. intros; ring.
Qed.

Lemma biorthogonal a b : (0 <= a < nm)%Z -> (0 <= b < nm)%Z -> a <> b ->
  dot n (psi a) (app n M (phi b)) = 0 /\ dot n (psi a) (app n F (phi b)) = 0.
Proof.
  intros Ha Hb Hne.
  assert (E1 : dot n (psi a) (app n F (phi b)) = k b * dot n (psi a) (app n M (phi b))).
  { unfold dot. rewrite <- rsum_scal. apply rsum_ext. intros i Hi. rewrite Hfwd by auto. ring. }
  assert (E2 : dot n (psi a) (app n F (phi b)) = k a * dot n (psi a) (app n M (phi b))).
  { rewrite !dot_transpose. unfold dot. rewrite <- rsum_scal. apply rsum_ext. intros i Hi. rewrite Hadj by auto. ring. }
  assert (E3 : (k a - k b) * dot n (psi a) (app n M (phi b)) = 0) by lra.
  apply Rmult_integral in E3 as [E3|E3]; [exfalso; apply (Hdist a b); auto; lra|].
  split; [exact E3|]. rewrite E1, E3. ring.
Qed.

Lemma app_expansion A (c : Z -> R) f i : (0 <= i < n)%Z ->
  (forall j, (0 <= j < n)%Z -> f j = rsum 0 nm (fun a => c a * phi a j)) ->
  app n A f i = rsum 0 nm (fun a => c a * app n A (phi a) i).
Proof.
  intros Hi Hf. unfold app.
  rewrite (rsum_ext 0 n (fun j => A i j * f j) (fun j => rsum 0 nm (fun a => A i j * (c a * phi a j)))).
  2:{ intros j Hj. rewrite Hf by auto. rewrite rsum_scal. reflexivity. }
  rewrite rsum_swap. apply rsum_ext. intros a Ha. rewrite <- rsum_scal. apply rsum_ext. intros; ring.
Qed.

Lemma dot_residual c f a : (0 <= a < nm)%Z ->
  (forall j, (0 <= j < n)%Z -> f j = rsum 0 nm (fun b => c b * phi b j)) ->
  dot n (psi a) (fun i => app n M f i - app n F f i) =
  c a * ((1 - k a) / k a) * dot n (psi a) (app n F (phi a)).
Proof.
  intros Ha Hf.
  assert (E : forall A, dot n (psi a) (app n A f) = rsum 0 nm (fun b => c b * dot n (psi a) (app n A (phi b)))).
  { intros A. unfold dot.
    rewrite (rsum_ext 0 n (fun i => psi a i * app n A f i) (fun i => rsum 0 nm (fun b => psi a i * (c b * app n A (phi b) i)))).
    2:{ intros i Hi. rewrite (app_expansion A c f i Hi Hf), rsum_scal. reflexivity. }
    rewrite rsum_swap. apply rsum_ext. intros b Hb. rewrite <- rsum_scal. apply rsum_ext. intros; ring. }
  unfold dot at 1. rewrite (rsum_ext 0 n _ (fun i => psi a i * app n M f i - psi a i * app n F f i)) by (intros; ring).
  rewrite rsum_minus. fold (dot n (psi a) (app n M f)). fold (dot n (psi a) (app n F f)). rewrite !E.
  rewrite !(rsum_single 0 nm _ a Ha).
  2,3: intros b Hb Hne; destruct (biorthogonal a b Ha Hb (not_eq_sym Hne)) as [E1 E2]; rewrite ?E1, ?E2; ring.
  assert (EF : dot n (psi a) (app n F (phi a)) = k a * dot n (psi a) (app n M (phi a))).
  { unfold dot. rewrite <- rsum_scal. apply rsum_ext. intros i Hi. rewrite Hfwd by auto. ring. }
  rewrite EF. destruct (Hk1 a Ha) as [K0 _]. field. exact K0.
Qed.

(* as many modes as unknowns: only the zero vector is orthogonal to all adjoint modes *)
Lemma complete x : nm = n -> (forall a, (0 <= a < nm)%Z -> dot n (psi a) (app n F (phi a)) <> 0) ->
  (forall a, (0 <= a < nm)%Z -> dot n (psi a) x = 0) -> forall i, (0 <= i < n)%Z -> x i = 0.
Proof.
  intros Hnm Hw Hx.
  set (B := fun i a => app n F (phi a) i).
  assert (Hd : forall y a, (0 <= a < nm)%Z -> dot n (psi a) (app n B y) = y a * dot n (psi a) (app n F (phi a))).
  { intros y a Ha. unfold dot, app at 1. 
    rewrite (rsum_ext 0 n (fun i => psi a i * rsum 0 n (fun b => B i b * y b)) (fun i => rsum 0 n (fun b => psi a i * (B i b * y b))))
      by (intros; rewrite rsum_scal; reflexivity).
    rewrite rsum_swap, (rsum_single 0 n _ a) by
      (try lia; intros b Hb Hne;
       rewrite (rsum_ext 0 n _ (fun i => psi a i * app n F (phi b) i * y b)) by (intros; unfold B; ring);
       rewrite rsum_scal_r; change (dot n (psi a) (app n F (phi b)) * y b = 0);
       rewrite (proj2 (biorthogonal a b Ha ltac:(lia) (not_eq_sym Hne))); ring).
    rewrite <- rsum_scal. apply rsum_ext. intros; unfold B; ring. }
  assert (Hinj : injective n B).
  { intros y Hy a Ha. assert (E : y a * dot n (psi a) (app n F (phi a)) = 0).
    { rewrite <- Hd by lia. unfold dot. apply rsum_0. intros i Hi. rewrite Hy by auto. ring. }
    apply Rmult_integral in E as [E|E]; auto. exfalso. apply (Hw a); [lia|exact E]. }
  destruct (injective_solvable n B Hinj x) as [y Hy].
  assert (Y : forall a, (0 <= a < n)%Z -> y a = 0).
  { intros a Ha. assert (E : y a * dot n (psi a) (app n F (phi a)) = 0).
    { rewrite <- Hd by lia. transitivity (dot n (psi a) x); [|apply Hx; lia].
      unfold dot. apply rsum_ext. intros i Hi. rewrite Hy by auto. reflexivity. }
    apply Rmult_integral in E as [E|E]; auto. exfalso. apply (Hw a); [lia|exact E]. }
  intros i Hi. rewrite <- Hy by auto. unfold app. apply rsum_0. intros b Hb. rewrite Y by auto. ring.
Qed.
End Modes.
