(* Property theorems C34 to C40: heat conduction.
   n is the number of cells.  [conducting ms]: every cell has a thermal
   conductivity, there are at least two cells and the tables are long enough.
   [physical ms]: conductivities are positive and the boundaries increase from
   0.  [width], [face], [conductivity]: cell size, interface area and cell
   conductivity, read off the mesh. *)
From Coq Require Import String ZArith List Bool Lia Reals Lra ClassicalChoice.
From Verif Require Import Base BaseLemmas NumR NumF LinAlg Blocks ModelNumTools ModelEigen ModelMesh ModelReactor
  ModelHeat ProofsMesh ProofsDiffusion ProofsDiffusionR ProofsPower ProofsHeat ProofsHeatLoop.
Import ListNotations.
Local Open Scope R_scope.

(* Slabs with constant conductivities, all cells at 20 degrees. *)
Definition hot (k q : R) : material R :=
  mkMaterial "m" 1 20 q (mzeros 0 0) (mzeros 0 0) (vzeros 0) (Some [k]) [] [] [] [] [] [].
Definition hot_slab (b : list R) (m : list (material R)) : mesh R :=
  mkMesh (vec_of_list 0 b) SLAB (zlen m) 1 m 1 1.
Definition heat_data (bcs : list R) : solverData R :=
  mkSolverData HEAT (1 / 1000) 100 1 [] bcs 1 FORWARD FUNDAMENTAL.

Definition slab3 : mesh R := hot_slab [0; 1; 2; 3] [hot 1 5; hot 2 0; hot 3 7].
(* widths 1, 1, 3 *)
Definition slab113 : mesh R := hot_slab [0; 1; 2; 5] [hot 1 0; hot 1 0; hot 1 0].
(* widths 1, 2, 2 and two conductivities *)
Definition slab122 : mesh R := hot_slab [0; 1; 3; 5] [hot 1 0; hot 3 0; hot 3 0].

Ltac cells3 i := assert (i = 0 \/ i = 1 \/ i = 2)%Z as [->|[->| ->]] by (cbn in *; lia).

Ltac vals := cbn; cbv [Pos.to_nat Pos.iter_op Nat.add]; cbn.
Ltac vals_in H := cbn in H; cbv [Pos.to_nat Pos.iter_op Nat.add] in H; cbn in H.

Lemma law_const (c t : R) : law_value (T := R) [c] t = c.
Proof. rewrite law_value_R. exact (eq_trans (rsum_one 0 _) (Rmult_1_r c)). Qed.
Lemma hot_ok a b c d m0 m1 m2 k0 k1 k2 q0 q1 q2 : m0 = hot k0 q0 -> m1 = hot k1 q1 -> m2 = hot k2 q2 ->
  a = 0 -> a < b -> b < c -> c < d -> 0 < k0 -> 0 < k1 -> 0 < k2 ->
  let ms := hot_slab [a; b; c; d] [m0; m1; m2] in
  conducting ms /\ physical ms /\ good_material ms /\ good_geometry ms.
Proof.
  intros -> -> -> Ha Hab Hbc Hcd H0 H1 H2 ms.
  assert (Hi : increasing (ms_bounds ms)).
  { intros i Hi Hj. change (vlen (ms_bounds ms)) with 4%Z in *. cells3 i; vals; lra. }
  assert (Hg : good_material ms).
  { intros i t Hr. change (ms_cells ms) with 3%Z in *.
    cells3 i; eexists; (split; [reflexivity|]); rewrite law_const; assumption. }
  split; [|split; [|split; [exact Hg|split; [exact Hi|exact Ha]]]].
  - split; [discriminate|]. split; [change (ms_cells ms) with 3%Z; lia|]. split; [reflexivity|].
    split; [change (ms_cells ms) with 3%Z; unfold zlen; cbn; lia|].
    intros m Hm. destruct (Hg m 0 Hm) as (c' & -> & _). discriminate.
  - split; [|split; [exact Hi|exact Ha]]. intros i Hi'. unfold conductivity.
    destruct (Hg i (mt_temp (cell_material ms i)) Hi') as (c' & -> & H). exact H.
Qed.
Lemma slab3_ok : conducting slab3 /\ physical slab3 /\ good_material slab3 /\ good_geometry slab3.
Proof. apply (hot_ok 0 1 2 3 _ _ _ 1 2 3 5 0 7); try reflexivity; lra. Qed.
Lemma slab113_ok : conducting slab113 /\ physical slab113 /\ good_material slab113 /\ good_geometry slab113.
Proof. apply (hot_ok 0 1 2 5 _ _ _ 1 1 1 0 0 0); try reflexivity; lra. Qed.
Lemma slab122_ok : conducting slab122 /\ physical slab122 /\ good_material slab122 /\ good_geometry slab122.
Proof. apply (hot_ok 0 1 3 5 _ _ _ 1 3 3 0 0 0); try reflexivity; lra. Qed.

(* the matrix before boundary conditions *)
Definition conduction (ms : mesh R) : res (mat R) :=
  hc <- newHeatCode PI ms ;; setupSystem hc ms.

Lemma conduction_ok ms : conducting ms -> exists A, conduction ms = Ok A /\ mat_is (ms_cells ms) A (hmat ms).
Proof.
  intros Hc. unfold conduction.
  destruct (wp_ok _ _ (newHeatCode_wp ms Hc)) as (hc & -> & Hcode). cbn [bind].
  destruct (wp_ok _ _ (setup_wp ms hc Hc Hcode)) as (A & -> & HA). eauto.
Qed.

(* C34 *)
Theorem C34_rows_conservative ms : conducting ms -> physical ms ->
  let n := ms_cells ms in
  exists A, conduction ms = Ok A /\ mrows A = n /\ mcols A = n /\
    (forall i, (0 <= i < n)%Z -> rsum 0 n (mat_at A i) = 0) /\
    (forall i j, (0 <= i < n)%Z -> (0 <= j < n)%Z -> i <> j -> mat_at A i j <= 0) /\
    (forall i j, (0 <= i < n)%Z -> (0 <= j < n)%Z ->
       mat_at A i j <> 0 <-> (Z.abs (i - j) <= 1)%Z) /\
    (forall t i, (0 <= i < n)%Z -> rsum 0 n (fun j => mat_at A i j * t) = 0).
Proof.
  intros Hc Hp n. pose proof Hc as (_ & Hn & _). fold n in Hn.
  destruct (conduction_ok ms Hc) as (A & E & Hr & Hcl & HA). fold n in Hr, Hcl, HA. exists A.
  assert (Hrow : forall i, (0 <= i < n)%Z -> rsum 0 n (mat_at A i) = 0).
  { intros i Hi. rewrite (rsum_ext _ _ _ (hmat ms i)) by (intros; apply HA; auto). apply hmat_rows; auto. }
  split; [exact E|]. split; [exact Hr|]. split; [exact Hcl|]. split; [exact Hrow|]. split; [|split].
  - intros i j Hi Hj Hne. rewrite HA by auto. unfold hmat. fold n. zdec.
    destruct (Z.eqb_spec j (i + 1)); [pose proof (gright_pos ms i Hc Hp ltac:(fold n; lia)); lra|].
    destruct (Z.eqb_spec j (i - 1)); [|lra]. pose proof (gleft_pos ms i Hc Hp ltac:(fold n; lia)); lra.
  - intros i j Hi Hj. rewrite HA by auto. unfold hmat. fold n.
    destruct (Z.eqb_spec j i) as [->|].
    + split; [lia|]. intros _. apply Rgt_not_eq.
      destruct (Z.ltb_spec i (n - 1)) as [Ha|Ha]; destruct (Z.ltb_spec 0 i) as [Hb|Hb]; try lia.
      * pose proof (gright_pos ms i Hc Hp ltac:(fold n; lia)). pose proof (gleft_pos ms i Hc Hp ltac:(fold n; lia)). lra.
      * pose proof (gright_pos ms i Hc Hp ltac:(fold n; lia)). lra.
      * pose proof (gleft_pos ms i Hc Hp ltac:(fold n; lia)). lra.
    + destruct (Z.eqb_spec j (i + 1)).
      * split; [lia|]. intros _. pose proof (gright_pos ms i Hc Hp ltac:(fold n; lia)). apply Rlt_not_eq. lra.
      * destruct (Z.eqb_spec j (i - 1)).
        -- split; [lia|]. intros _. pose proof (gleft_pos ms i Hc Hp ltac:(fold n; lia)). apply Rlt_not_eq. lra.
        -- split; [intros H; exfalso; apply H; reflexivity|lia].
  - intros t i Hi. rewrite rsum_scal_r, Hrow by auto. ring.
Qed.
Print Assumptions C34_rows_conservative.
Example C34_hypotheses_met : conducting slab3 /\ physical slab3.
Proof. split; apply slab3_ok. Qed.

(* C35: with x the temperatures, the heat the system moves from cell i to
   cell i+1 is - A(i,i+1) (x_i - x_{i+1}) in row i and
   - A(i+1,i) (x_i - x_{i+1}) in row i+1.  They agree at every interface but
   the last; there they agree exactly when the last cell is as wide as the mean
   of the two cells before it (as wide as the other cell when there are two). *)
Definition reference_width (ms : mesh R) : R :=
  let n := ms_cells ms in
  if (n =? 2)%Z then width ms 0 else (width ms (n - 2) + width ms (n - 3)) / 2.

Theorem C35_interface_flow_partial ms : conducting ms -> physical ms ->
  let n := ms_cells ms in
  exists A, conduction ms = Ok A /\
    (forall i, (0 <= i < n - 2)%Z -> mat_at A i (i + 1) = mat_at A (i + 1) i) /\
    (mat_at A (n - 2) (n - 1) = mat_at A (n - 1) (n - 2) <-> width ms (n - 1) = reference_width ms) /\
    (width ms (n - 1) = reference_width ms -> forall x, rsum 0 n (fun i => rsum 0 n (fun j => mat_at A i j * x j)) = 0) /\
    forall x, rsum 0 n (fun i => rsum 0 n (fun j => mat_at A i j * x j)) =
      (mat_at A (n - 2) (n - 1) - mat_at A (n - 1) (n - 2)) * (x (n - 1)%Z - x (n - 2)%Z).
Proof.
  intros Hc Hp n. pose proof Hc as (_ & Hn & _). fold n in Hn.
  destruct (conduction_ok ms Hc) as (A & E & _ & _ & HA). fold n in HA. exists A. split; [exact E|].
  assert (Eu : mat_at A (n - 2) (n - 1) = - gright ms (n - 2)).
  { rewrite HA by lia. unfold hmat. zdec. reflexivity. }
  assert (El : mat_at A (n - 1) (n - 2) = - gleft ms (n - 1)).
  { rewrite HA by lia. unfold hmat. zdec. reflexivity. }
  assert (S : mat_at A (n - 2) (n - 1) = mat_at A (n - 1) (n - 2) <-> width ms (n - 1) = reference_width ms).
  { rewrite Eu, El. change (width ms (n - 1)) with (last_right ms). change (reference_width ms) with (last_left ms).
    rewrite <- last_symmetric_iff by auto. fold n. split; intros H; lra. }
  assert (D : forall x, rsum 0 n (fun i => rsum 0 n (fun j => mat_at A i j * x j)) =
      (mat_at A (n - 2) (n - 1) - mat_at A (n - 1) (n - 2)) * (x (n - 1)%Z - x (n - 2)%Z)).
  { intros x. transitivity (rsum 0 n (app n (hmat ms) x)).
    - apply rsum_ext. intros i Hi. unfold app. apply rsum_ext. intros j Hj. rewrite HA by auto. reflexivity.
    - unfold n. rewrite total_defect by auto. fold n. rewrite Eu, El. ring. }
  split; [|split; [exact S|split; [|exact D]]].
  - intros i Hi. rewrite !HA by lia. unfold hmat. fold n. zdec.
    replace (gleft ms (i + 1)) with (gright ms (i + 1 - 1)); [f_equal; f_equal; lia|].
    apply inner_symmetric. fold n. lia.
  - intros Hw x. rewrite D, (proj2 S Hw). ring.
Qed.
Print Assumptions C35_interface_flow_partial.
Example C35_uniform_mesh_balances : width slab3 (ms_cells slab3 - 1) = reference_width slab3.
Proof. unfold reference_width, width. vals. lra. Qed.

(* On an uneven mesh the last interface creates or destroys heat. *)
Theorem C35_interface_flow_refuted : conducting slab113 /\ physical slab113 /\
  exists A, conduction slab113 = Ok A /\ mat_at A 1 2 <> mat_at A 2 1 /\
    rsum 0 3 (fun i => rsum 0 3 (fun j => mat_at A i j * (if (j =? 2)%Z then 0 else 1))) <> 0.
Proof.
  destruct slab113_ok as (Hc & Hp & _). split; [exact Hc|]. split; [exact Hp|].
  destruct (C35_interface_flow_partial slab113 Hc Hp) as (A & E & _ & S & _ & D).
  change (ms_cells slab113) with 3%Z in *. cbn [Z.sub Z.add Z.opp Z.pos_sub Pos.pred_double] in *.
  exists A. split; [exact E|].
  assert (Hne : mat_at A 1 2 <> mat_at A 2 1).
  { intros H. apply S in H. unfold reference_width, width in H. vals_in H. lra. }
  split; [exact Hne|]. rewrite D. cbn. intros H. apply Hne. lra.
Qed.
Print Assumptions C35_interface_flow_refuted.

(* C36: resistance between the centres of cells i-1 and i *)
Definition half_cells_in_series (ms : mesh R) (i : Z) : R :=
  (width ms (i - 1) / 2 / conductivity ms (i - 1) + width ms i / 2 / conductivity ms i) / face ms i.

Theorem C36_series_resistance_partial ms : conducting ms -> physical ms ->
  let n := ms_cells ms in
  exists A, conduction ms = Ok A /\
    (forall i, (1 <= i < n - 1)%Z ->
      (1 / - mat_at A i (i - 1) = half_cells_in_series ms i <->
       width ms i = width ms (i - 1) \/ conductivity ms i = conductivity ms (i - 1))) /\
    (1 / - mat_at A (n - 2) (n - 1) = half_cells_in_series ms (n - 1) <->
     width ms (n - 1) * conductivity ms (n - 2) = width ms (n - 2) * conductivity ms (n - 1)).
Proof.
  intros Hc Hp n. pose proof Hc as (_ & Hn & _). fold n in Hn.
  destruct (conduction_ok ms Hc) as (A & E & _ & _ & HA). fold n in HA. exists A. split; [exact E|]. split.
  - intros i Hi. rewrite HA by lia. unfold hmat. fold n. zdec. rewrite Ropp_involutive.
    apply (inner_series_iff ms i); auto.
  - rewrite HA by lia. unfold hmat. fold n. zdec. rewrite Ropp_involutive. apply (last_series_iff ms); auto.
Qed.
Print Assumptions C36_series_resistance_partial.
Example C36_holds_somewhere : width slab3 1 = width slab3 0.
Proof. unfold width. vals. lra. Qed.

Theorem C36_series_resistance_refuted : conducting slab122 /\ physical slab122 /\
  exists A, conduction slab122 = Ok A /\
    1 / - mat_at A 1 0 = 7 / 6 /\ half_cells_in_series slab122 1 = 5 / 6.
Proof.
  destruct slab122_ok as (Hc & Hp & _). split; [exact Hc|]. split; [exact Hp|].
  destruct (conduction_ok slab122 Hc) as (A & E & _ & _ & HA). exists A. split; [exact E|].
  change (ms_cells slab122) with 3%Z in *.
  assert (K : forall i, (0 <= i < 3)%Z -> conductivity slab122 i = if (i =? 0)%Z then 1 else 3).
  { intros i Hi. cells3 i; unfold conductivity; cbn -[law_value]; apply law_const. }
  split.
  - rewrite HA by lia. unfold hmat. cbn [Z.eqb Z.add Z.sub Z.opp Z.pos_sub Pos.eqb Pos.pred_double].
    rewrite Ropp_involutive. rewrite inner_resistance by (auto; change (ms_cells slab122) with 3%Z; lia).
    cbn [Z.sub Z.add Z.opp Z.pos_sub]. rewrite !K by lia. unfold width, face. vals. lra.
  - unfold half_cells_in_series. cbn [Z.sub Z.add Z.opp Z.pos_sub]. rewrite !K by lia. unfold width, face. vals. lra.
Qed.
Print Assumptions C36_series_resistance_refuted.

(* C37: outflow o through a face of area S of a cell of width dx and
   conductivity k at temperature t, with surface temperature Ts:
   o = S k (t - Ts) / (dx / 2) and A Ts + B q = C, q = - o / S entering. *)
Definition outflow (b : bc) (k S dx t o : R) : Prop :=
  exists Ts, o = S * k * (t - Ts) / (dx / 2) /\ bcA b * Ts + bcB b * (- o / S) = bcC b.
(* the centre of a cylinder or a sphere has no face *)
Definition left_outflow (ms : mesh R) (b : bc) (t o : R) : Prop :=
  if is_slab ms then outflow b (conductivity ms 0) (face ms 0) (width ms 0) t o else o = 0.
Definition right_outflow (ms : mesh R) (b : bc) (t o : R) : Prop :=
  let n := ms_cells ms in outflow b (conductivity ms (n - 1)) (face ms n) (width ms (n - 1)) t o.

Lemma outflow_law b k S dx t o : dx <> 0 -> outflow b k S dx t o <-> face_law b k S dx t o.
Proof.
  intros Hd. unfold outflow, face_law. split; intros (Ts & Ho & Hc); exists Ts; (split; [rewrite Ho; field; auto|]);
    rewrite <- Hc; unfold Rdiv; ring.
Qed.

(* the coefficients do not make the surface temperature undetermined *)
Definition solvable_faces (ms : mesh R) (L Rt : bc) : Prop :=
  let n := ms_cells ms in
  (is_slab ms = true -> width ms 0 / (2 * conductivity ms 0) * bcA L + bcB L <> 0) /\
  width ms (n - 1) / (2 * conductivity ms (n - 1)) * bcA Rt + bcB Rt <> 0.

Theorem C37_boundary_rows ms sd L Rt : conducting ms -> physical ms -> boundaries sd L Rt ->
  solvable_faces ms L Rt ->
  let n := ms_cells ms in
  exists A M q, conduction ms = Ok A /\ heatSystem PI sd ms = Ok (M, q) /\
    forall x, exists oL oR,
      (forall o, left_outflow ms L (x 0%Z) o <-> o = oL) /\
      (forall o, right_outflow ms Rt (x (n - 1)%Z) o <-> o = oR) /\
      forall i, (0 <= i < n)%Z ->
        (rsum 0 n (fun j => mat_at M i j * x j) = vat q i <->
         rsum 0 n (fun j => mat_at A i j * x j)
           + (if (i =? 0)%Z then oL else 0) + (if (i =? n - 1)%Z then oR else 0)
         = stored_heat ms i * cell_volume ms i).
Proof.
  intros Hc Hp Hb [HrL HrR] n. pose proof Hc as (_ & Hn & _). fold n in Hn.
  destruct (conduction_ok ms Hc) as (A & E & _ & _ & HA). fold n in HA.
  destruct (wp_ok _ _ (heatSystem_wp ms sd L Rt Hc Hb)) as ([M q] & Es & (_ & _ & HM) & _ & Hq). cbn [fst snd] in *.
  exists A, M, q. split; [exact E|]. split; [exact Es|]. intros x.
  exists (alphaL ms L * x 0%Z + betaL ms L), (alphaR ms Rt * x (n - 1)%Z + betaR ms Rt).
  split; [|split].
  - intros o. rewrite <- left_law_iff by auto. unfold left_outflow, left_law. destruct (is_slab ms); [|tauto].
    apply outflow_law. apply Rgt_not_eq. apply width_pos; auto; fold n; lia.
  - intros o. rewrite <- (right_law_iff ms Rt) by auto. unfold right_outflow, right_law.
    apply outflow_law. apply Rgt_not_eq. apply width_pos; auto; fold n; lia.
  - intros i Hi.
    pose proof (system_balance ms L Rt x (alphaL ms L * x 0%Z + betaL ms L) (alphaR ms Rt * x (n - 1)%Z + betaR ms Rt)
       Hc Hp (conj HrL HrR)) as B.
    specialize (B ltac:(apply left_law_iff; auto) ltac:(apply right_law_iff; auto) i Hi). fold n in B.
    replace (rsum 0 n (fun j => mat_at M i j * x j)) with (app n (fullmat ms L Rt) x i)
      by (unfold app; apply rsum_ext; intros j Hj; rewrite HM by auto; reflexivity).
    replace (rsum 0 n (fun j => mat_at A i j * x j)) with (app n (hmat ms) x i)
      by (unfold app; apply rsum_ext; intros j Hj; rewrite HA by auto; reflexivity).
    rewrite Hq by auto. lra.
Qed.
Print Assumptions C37_boundary_rows.

(* special cases: insulated face, prescribed flux, prescribed temperature *)
Theorem C37_special_cases k S dx t o : 0 < k -> 0 < S -> 0 < dx ->
  (outflow (mkbc 0 1 0) k S dx t o <-> o = 0) /\
  (forall B q, B <> 0 -> (outflow (mkbc 0 B (B * q)) k S dx t o <-> o = - (S * q))) /\
  (forall T0, outflow (mkbc 1 0 T0) k S dx t o <-> o = S * k * (t - T0) / (dx / 2)).
Proof.
  intros Hk HS Hd.
  assert (F : forall B q, B <> 0 -> (outflow (mkbc 0 B (B * q)) k S dx t o <-> o = - (S * q))).
  { intros B q HB. rewrite outflow_law by lra. rewrite face_law_iff; auto; cbn [bcA bcB bcC]; [|rewrite Rmult_0_r, Rplus_0_l; exact HB].
    replace (dx / (2 * k) * 0 + B) with B by ring.
    replace (S * (0 * t - B * q) / B) with (- (S * q)) by (field; exact HB). tauto. }
  split; [|split; [exact F|]].
  - specialize (F 1 0 ltac:(lra)). rewrite !Rmult_0_r, Ropp_0 in F. exact F.
  - intros T0. rewrite outflow_law by lra. rewrite face_law_iff; auto; cbn.
    + replace (S * (1 * t - T0) / (dx / (2 * k) * 1 + 0)) with (S * k * (t - T0) / (dx / 2)); [tauto|].
      field. lra.
    + assert (0 < dx / (2 * k)) by (apply Rdiv_lt_0_compat; lra). lra.
Qed.
Print Assumptions C37_special_cases.

Example C37_hypotheses_met :
  boundaries (heat_data [1; 0; 20; 5; 1; 100]) (mkbc 1 0 20) (mkbc 5 1 100) /\
  solvable_faces slab3 (mkbc 1 0 20) (mkbc 5 1 100).
Proof.
  split; [left; reflexivity|]. destruct slab3_ok as (Hc & Hp & _).
  apply admissible_regular; auto; unfold admissible; cbn; intros; lra.
Qed.

(* C38 *)
Theorem C38_unique_temperatures ms sd L Rt : conducting ms -> physical ms -> boundaries sd L Rt ->
  (is_slab ms = true -> admissible L) -> admissible Rt ->
  (0 < bcA Rt \/ (is_slab ms = true /\ 0 < bcA L)) ->
  let n := ms_cells ms in
  exists M q, heatSystem PI sd ms = Ok (M, q) /\
    (exists x, forall i, (0 <= i < n)%Z -> rsum 0 n (fun j => mat_at M i j * x j) = vat q i) /\
    forall x y,
      (forall i, (0 <= i < n)%Z -> rsum 0 n (fun j => mat_at M i j * x j) = vat q i) ->
      (forall i, (0 <= i < n)%Z -> rsum 0 n (fun j => mat_at M i j * y j) = vat q i) ->
      forall i, (0 <= i < n)%Z -> x i = y i.
Proof.
  intros Hc Hp Hb HL HR Hfix n.
  destruct (wp_ok _ _ (heatSystem_wp ms sd L Rt Hc Hb)) as ([M q] & Es & (_ & _ & HM) & _ & Hq). cbn [fst snd] in *.
  exists M, q. split; [exact Es|].
  assert (A : forall x i, (0 <= i < n)%Z -> rsum 0 n (fun j => mat_at M i j * x j) = app n (fullmat ms L Rt) x i).
  { intros x i Hi. unfold app; apply rsum_ext; intros j Hj; rewrite HM by auto; reflexivity. }
  pose proof (monotone_injective _ _ (fullmat_monotone ms L Rt Hc Hp HL HR Hfix)) as Hinj. fold n in Hinj.
  split.
  - destruct (injective_solvable n _ Hinj (vat q)) as (x & Hx). exists x. intros i Hi. rewrite A by auto. apply Hx; auto.
  - intros x y Hx Hy i Hi. cut (x i - y i = 0); [lra|]. apply (Hinj (fun j => x j - y j)); auto.
    intros k Hk. specialize (Hx k Hk). specialize (Hy k Hk). rewrite A in Hx, Hy by auto.
    unfold app in *. rewrite (rsum_ext _ _ _ (fun j => fullmat ms L Rt k j * x j - fullmat ms L Rt k j * y j)) by (intros; ring).
    rewrite rsum_minus. lra.
Qed.
Print Assumptions C38_unique_temperatures.

Lemma cell_volume_pos ms i : conducting ms -> good_geometry ms -> (0 <= i < ms_cells ms)%Z -> 0 < cell_volume ms i.
Proof.
  intros (Hg & _ & Hb & _) [Hi H0] Hi'. unfold cell_volume.
  assert (body_volume (ms_geom ms) (vat (ms_bounds ms) i) < body_volume (ms_geom ms) (vat (ms_bounds ms) (i + 1))); [|lra].
  apply body_volume_mono; auto; [apply increasing_nonneg; auto; [lra|lia]|apply Hi; lia].
Qed.

(* What the heat solver returns stays within the reference temperatures: with
   A m <= C on both faces and no negative source nothing is colder than m; with
   C <= A m and no positive source nothing is hotter. The conductivities may
   depend on the temperature. *)
Theorem C38_maximum_principle solver sd L Rt r old r' :
  let ms := rx_mesh r in
  conducting ms -> good_material ms -> good_geometry ms -> boundaries sd L Rt -> exact solver ->
  (is_slab ms = true -> admissible L) -> admissible Rt ->
  (0 < bcA Rt \/ (is_slab ms = true /\ 0 < bcA L)) ->
  heatSolve PI solver sd r = Ok (old, r') ->
  (forall m, (forall i, (0 <= i < ms_cells ms)%Z -> 0 <= stored_heat ms i) ->
     (is_slab ms = true -> bcA L * m <= bcC L) -> bcA Rt * m <= bcC Rt ->
     forall i, (0 <= i < ms_cells ms)%Z -> m <= temp (rx_mesh r') i) /\
  (forall m, (forall i, (0 <= i < ms_cells ms)%Z -> stored_heat ms i <= 0) ->
     (is_slab ms = true -> bcC L <= bcA L * m) -> bcC Rt <= bcA Rt * m ->
     forall i, (0 <= i < ms_cells ms)%Z -> temp (rx_mesh r') i <= m).
Proof.
  intros ms Hc Hg Hge Hb He HL HR Hfix Hs.
  destruct (heatSolve_spec solver sd L Rt r Hc Hb (proj1 He)) as (o & _ & [(N & a & b & _ & Hs' & (Hr & Hst & _) & _)|[Hs' _]]);
    rewrite Hs in Hs'; [|discriminate]. injection Hs' as _ ->. fold ms in Hr. cbn [rx_mesh with_mesh].
  pose proof (run_reheated solver sd L Rt N ms a Hc Hb (proj1 He) Hr) as Rh.
  destruct (reheated_facts ms a Rh Hc) as (Hca & cc & bb & gg & F).
  pose proof (good_physical ms a Hc Hg Hge Rh) as Hpa.
  assert (Es : is_slab a = is_slab ms) by (unfold is_slab; rewrite gg; reflexivity).
  rewrite <- Es in HL, Hfix.
  pose proof (step_solves solver sd L Rt a b Hca Hpa Hb He
     (monotone_injective _ _ (fullmat_monotone a L Rt Hca Hpa HL HR Hfix)) Hst) as Sol.
  assert (V : forall i, (0 <= i < ms_cells ms)%Z -> 0 < cell_volume ms i) by (intros; apply cell_volume_pos; auto).
  rewrite cc in Sol. split; intros m Hq HmL HmR i Hi; rewrite <- Es in HmL.
  - apply (lower_bound a L Rt (temp b) m); auto; rewrite ?cc; auto.
    + intros j Hj. rewrite Sol by auto. lra.
    + intros j Hj. destruct (F j Hj) as (-> & -> & _). pose proof (Hq j Hj). pose proof (V j Hj). nra.
  - apply (upper_bound a L Rt (temp b) m); auto; rewrite ?cc; auto.
    + intros j Hj. rewrite Sol by auto. lra.
    + intros j Hj. destruct (F j Hj) as (-> & -> & _). pose proof (Hq j Hj). pose proof (V j Hj). nra.
Qed.
Print Assumptions C38_maximum_principle.

(* Two insulated faces are accepted although the temperatures are then
   determined up to a constant at best. *)
Theorem C38_insulated_slab_refuted ms sd : conducting ms -> physical ms -> ms_geom ms = SLAB ->
  boundaries sd (mkbc 0 1 0) (mkbc 0 1 0) ->
  let n := ms_cells ms in
  exists M q, heatSystem PI sd ms = Ok (M, q) /\
    forall x t i, (0 <= i < n)%Z ->
      rsum 0 n (fun j => mat_at M i j * (x j + t)) = rsum 0 n (fun j => mat_at M i j * x j).
Proof.
  intros Hc Hp Hs Hb n. pose proof Hc as (_ & Hn & _).
  destruct (wp_ok _ _ (heatSystem_wp ms sd _ _ Hc Hb)) as ([M q] & Es & (_ & _ & HM) & _ & _). cbn [fst snd] in *.
  exists M, q. split; [exact Es|]. intros x t i Hi.
  rewrite (rsum_ext _ _ _ (fun j => mat_at M i j * x j + mat_at M i j * t)) by (intros; ring).
  rewrite rsum_plus, rsum_scal_r.
  rewrite (rsum_ext 0 n (mat_at M i) (fullmat ms (mkbc 0 1 0) (mkbc 0 1 0) i)) by (intros; apply HM; auto).
  unfold n. rewrite fullmat_rows by auto. unfold alphaL, alphaR, is_slab. rewrite Hs. cbn [bcA].
  destruct (i =? 0)%Z, (i =? ms_cells ms - 1)%Z; unfold Rdiv; ring.
Qed.
Print Assumptions C38_insulated_slab_refuted.

Example C38_hypotheses_met :
  let L := mkbc 1 0 20 in let Rt := mkbc 5 1 100 in
  conducting slab3 /\ good_material slab3 /\ good_geometry slab3 /\
  boundaries (heat_data [1; 0; 20; 5; 1; 100]) L Rt /\ admissible L /\ admissible Rt /\
  bcA L * 20 <= bcC L /\ bcA Rt * 20 <= bcC Rt /\
  (forall i, (0 <= i < 3)%Z -> 0 <= stored_heat slab3 i).
Proof.
  destruct slab3_ok as (Hc & Hp & Hg & Hge). cbn zeta. split; [exact Hc|]. split; [exact Hg|]. split; [exact Hge|].
  split; [left; reflexivity|]. unfold admissible. cbn. repeat split; try lra.
  intros i Hi. unfold stored_heat, cell_material. cells3 i; vals; lra.
Qed.

(* C39: over the reals the solver returns after the first iteration whose
   temperatures are all within the accuracy of the previous ones, and exits
   with an error when none of the allowed iterations is.  [previous] is the
   vector of ones for the first iteration. *)
Theorem C39_iteration_partial solver sd L Rt r :
  conducting (rx_mesh r) -> boundaries sd L Rt -> fits solver ->
  let ms := rx_mesh r in let n := ms_cells ms in
  let converged N ms1 ms2 :=
    run solver sd N ms ms1 /\ heatStep PI solver sd ms1 = Ok ms2 /\ 0 < sd_acc sd /\
    forall i, (0 <= i < n)%Z ->
      Rabs (temp ms2 i - match N with O => 1 | S _ => temp ms1 i end) < sd_acc sd in
  exists old, getTemperatures ms "C" = Ok old /\
  ((exists N ms1 ms2, (Z.of_nat N < sd_max sd)%Z /\
     heatSolve PI solver sd r = Ok (old, with_mesh ms2 r) /\ converged N ms1 ms2 /\
     forall N' a b, (N' < N)%nat -> ~ converged N' a b) \/
  (heatSolve PI solver sd r = Exit "The heat calculation did not converge!" /\
     forall N a b, (Z.of_nat N < sd_max sd)%Z -> ~ converged N a b)).
Proof.
  intros Hc Hb Hf ms n converged.
  assert (Eq : forall N a b, stops solver sd ms (fun _ => 1) N a b <-> converged N a b).
  { intros [|N] a b; unfold stops, close, converged; cbn [previous]; tauto. }
  destruct (heatSolve_spec solver sd L Rt r Hc Hb Hf) as (old & Eo & [(N & a & b & HN & Hs & Hst & Hmin)|[Hs Hno]]);
    exists old; (split; [exact Eo|]).
  - left. exists N, a, b. split; [exact HN|]. split; [exact Hs|]. split; [apply Eq; exact Hst|].
    intros N' a' b' HN' H. apply (Hmin N' a' b' HN'). apply Eq. exact H.
  - right. split; [exact Hs|]. intros N a b HN H. apply (Hno N a b HN). apply Eq. exact H.
Qed.
Print Assumptions C39_iteration_partial.

Lemma exact_exists : exists solver, exact solver.
Proof.
  assert (C : forall (A : mat R) (q : vec R), exists x : vec R, vlen x = vlen q /\
    forall f, mat_is (vlen q) A f -> injective (vlen q) f -> forall i, (0 <= i < vlen q)%Z ->
      app (vlen q) f (vat x) i = vat q i).
  { intros A q.
    destruct (Classical_Prop.classic (injective (vlen q) (mat_at A))) as [Hi|Hi].
    - destruct (injective_solvable _ _ Hi (vat q)) as (x & Hx). exists (mkvec (vlen q) x). split; [reflexivity|].
      intros f (_ & _ & HA) _ i Hi'. rewrite <- Hx by auto. apply app_ext; auto. intros; symmetry; apply HA; auto.
    - exists q. split; [reflexivity|]. intros f (_ & _ & HA) Hf. exfalso. apply Hi. intros x Hx.
      apply Hf. intros i Hi'. rewrite <- (Hx i Hi'). apply app_ext; auto. intros; symmetry; apply HA; auto. }
  destruct (ClassicalChoice.choice (fun (p : mat R * vec R) (x : vec R) => vlen x = vlen (snd p) /\
    forall f, mat_is (vlen (snd p)) (fst p) f -> injective (vlen (snd p)) f -> forall i, (0 <= i < vlen (snd p))%Z ->
      app (vlen (snd p)) f (vat x) i = vat (snd p) i)) as (g & Hg).
  { intros [A q]. apply C. }
  exists (fun A q => g (A, q)). split.
  - intros A q _ _. apply (Hg (A, q)).
  - intros n A q f HA Hq Hf i Hi. subst n. apply (Hg (A, q)); auto.
Qed.

(* The first iteration is compared with ones, not with the temperatures it
   started from: a solution of 1 degree is accepted at once, after a change of
   19 degrees, and the accuracy asked for is 0.001. *)
Definition slab_cold : mesh R := hot_slab [0; 1; 2; 3] [hot 1 0; hot 2 0; hot 3 0].
Definition cold_reactor : reactor R := with_mesh slab_cold newReactor.

Theorem C39_last_change_refuted solver : exact solver ->
  let sd := heat_data [1; 0; 1; 1; 0; 1] in
  exists old r', heatSolve PI solver sd cold_reactor = Ok (old, r') /\ sd_acc sd = 1 / 1000 /\
    run solver sd 1 slab_cold (rx_mesh r') /\
    forall i, (0 <= i < 3)%Z -> Rabs (temp (rx_mesh r') i - temp slab_cold i) = 19.
Proof.
  intros He sd. set (b := mkbc 1 0 1).
  assert (Hok : conducting slab_cold /\ physical slab_cold /\ good_material slab_cold /\ good_geometry slab_cold).
  { apply (hot_ok 0 1 2 3 _ _ _ 1 2 3 0 0 0); try reflexivity; lra. }
  destruct Hok as (Hc & Hp & Hg & Hge).
  assert (Hb : boundaries sd b b) by (left; reflexivity).
  assert (Hadm : admissible b) by (unfold admissible; cbn; lra).
  destruct (heatStep_ok solver sd slab_cold b b Hc Hb (proj1 He)) as (ms1 & E1 & R1 & _).
  assert (Hfix : 0 < bcA b \/ (is_slab slab_cold = true /\ 0 < bcA b)) by (left; cbn; lra).
  pose proof (step_solves solver sd b b slab_cold ms1 Hc Hp Hb He
    (monotone_injective _ _ (fullmat_monotone slab_cold b b Hc Hp (fun _ => Hadm) Hadm Hfix)) E1) as Sol.
  assert (T1 : forall i, (0 <= i < 3)%Z -> temp ms1 i = 1).
  { intros i Hi. apply Rle_antisym.
    - apply (upper_bound slab_cold b b (temp ms1) 1); auto; try (intros; cbn; lra).
      + intros j Hj. rewrite Sol by auto. lra.
      + intros j Hj. change (ms_cells slab_cold) with 3%Z in Hj. cells3 j; unfold stored_heat, cell_material; vals; lra.
    - apply (lower_bound slab_cold b b (temp ms1) 1); auto; try (intros; cbn; lra).
      + intros j Hj. rewrite Sol by auto. lra.
      + intros j Hj. change (ms_cells slab_cold) with 3%Z in Hj. cells3 j; unfold stored_heat, cell_material; vals; lra. }
  assert (Run : run solver sd 1 slab_cold ms1) by (econstructor; [exact E1|constructor]).
  assert (St : stops solver sd slab_cold (fun _ => 1) 0 slab_cold ms1).
  { split; [constructor|]. split; [exact E1|]. split; [cbn; lra|].
    intros i Hi. cbn [previous]. rewrite T1 by exact Hi. replace (1 - 1) with 0 by ring. rewrite Rabs_R0. cbn. lra. }
  destruct (heatSolve_spec solver sd b b cold_reactor Hc Hb (proj1 He)) as (old & _ & [(N & a & c & _ & Hs & Hst & Hmin)|[_ Hno]]).
  - destruct N as [|N]; [|exfalso; apply (Hmin 0%nat slab_cold ms1 ltac:(lia)); exact St].
    destruct Hst as (Hr & Hs' & _). inversion Hr; subst a.
    assert (c = ms1) by (change (rx_mesh cold_reactor) with slab_cold in Hs'; congruence). subst c.
    exists old, (with_mesh ms1 cold_reactor). split; [exact Hs|]. split; [reflexivity|]. split; [exact Run|].
    intros i Hi. cbn [rx_mesh with_mesh]. rewrite T1 by auto.
    replace (temp slab_cold i) with 20 by (cells3 i; reflexivity).
    rewrite Rabs_left; lra.
  - exfalso. apply (Hno 0%nat slab_cold ms1); [cbn; lia|]. exact St.
Qed.
Print Assumptions C39_last_change_refuted.
Example C39_hypotheses_met : exists solver, exact solver.
Proof. exact exact_exists. Qed.

(* In double precision: boundary coefficients 0 0 0 put a NaN in the matrix, a
   solver that divides by it returns NaN, and NaN temperatures count as
   converged because no comparison with NaN is true. *)
Definition nan_material : material f64 :=
  mkMaterial "m" 1 (f64_of_Z 20) (f64_of_Z 5) (mzeros 0 0) (mzeros 0 0) (vzeros 0) (Some [f64_of_Z 1]) [] [] [] [] [] [].
Definition nan_reactor : reactor f64 :=
  with_mesh (mkMesh (vec_of_list n0 [f64_of_Z 0; f64_of_Z 1; f64_of_Z 2]) SLAB 2 1 [nan_material; nan_material] 1 1) newReactor.
Definition nan_data : solverData f64 :=
  mkSolverData HEAT (f64_of_Z 1) 100 (f64_of_Z 1) []
    [f64_of_Z 1; f64_of_Z 0; f64_of_Z 20; f64_of_Z 0; f64_of_Z 0; f64_of_Z 0] 1 FORWARD FUNDAMENTAL.
Definition pivot_solver (A : mat f64) (q : vec f64) : vec f64 :=
  mkvec (vlen q) (fun i => vat q i [/] mat_at A 1 1).

Theorem C39_nan_refuted (mpi : f64) :
  exists old r', heatSolve mpi pivot_solver nan_data nan_reactor = Ok (old, r') /\
    map (fun m => mt_temp m) (ms_mats (rx_mesh r')) = [f64_nan; f64_nan].
Proof.
  destruct (heatSolve mpi pivot_solver nan_data nan_reactor) as [[old r']| | |] eqn:E.
  - exists old, r'. split; [reflexivity|].
    assert (H : match heatSolve mpi pivot_solver nan_data nan_reactor with
      | Ok (_, r') => map (fun m => mt_temp m) (ms_mats (rx_mesh r')) | _ => [] end = [f64_nan; f64_nan])
      by (vm_compute; reflexivity).
    rewrite E in H. exact H.
  - exfalso. assert (H : match heatSolve mpi pivot_solver nan_data nan_reactor with Ok _ => true | _ => false end = true)
      by (vm_compute; reflexivity). rewrite E in H. discriminate.
  - exfalso. assert (H : match heatSolve mpi pivot_solver nan_data nan_reactor with Ok _ => true | _ => false end = true)
      by (vm_compute; reflexivity). rewrite E in H. discriminate.
  - exfalso. assert (H : match heatSolve mpi pivot_solver nan_data nan_reactor with Ok _ => true | _ => false end = true)
      by (vm_compute; reflexivity). rewrite E in H. discriminate.
Qed.
Print Assumptions C39_nan_refuted.

(* C40 *)
Theorem C40_relaxation_interpolates par (new old : vec R) : vlen new = vlen old ->
  exists v, relax par new old = Ok v /\ vlen v = vlen new /\
    (forall i, (0 <= i < vlen new)%Z -> 0 <= par <= 1 ->
       Rmin (vat new i) (vat old i) <= vat v i <= Rmax (vat new i) (vat old i)) /\
    (par = 1 -> forall i, vat v i = vat new i) /\
    (par = 0 -> forall i, vat v i = vat old i) /\
    forall w c, rsum 0 (vlen new) (fun i => w i * vat new i) = c ->
      rsum 0 (vlen new) (fun i => w i * vat old i) = c ->
      rsum 0 (vlen new) (fun i => w i * vat v i) = c.
Proof.
  intros H. rewrite relax_ok by exact H. eexists. split; [reflexivity|]. cbn [vlen vat]. rnum.
  split; [reflexivity|]. split; [|split; [|split]].
  - intros i Hi Hp. set (x := vat new i). set (y := vat old i).
    unfold Rmin, Rmax. destruct (Rle_dec x y); split; nra.
  - intros -> i. ring.
  - intros -> i. ring.
  - intros w c Hn Ho.
    rewrite (rsum_ext _ _ _ (fun i => par * (w i * vat new i) + (1 - par) * (w i * vat old i))) by (intros; ring).
    rewrite rsum_plus, !rsum_scal, Hn, Ho. ring.
Qed.
Print Assumptions C40_relaxation_interpolates.

(* the two users: stored heat sources and temperatures *)
Theorem C40_stored_fields par (old : vec R) (r : reactor R) :
  let ms := rx_mesh r in
  (0 <= ms_cells ms)%Z -> (ms_cells ms <= zlen (ms_mats ms))%Z -> vlen old = ms_cells ms ->
  (exists ms', relaxTemperatures par old r = Ok (with_mesh ms' r) /\
     forall i, (0 <= i < ms_cells ms)%Z ->
       cell_material ms' i = set_temp (temp ms i * par + vat old i * (1 - par)) (cell_material ms i)) /\
  (exists ms', relaxPowers par old r = Ok (with_mesh ms' r) /\
     forall i, (0 <= i < ms_cells ms)%Z ->
       cell_material ms' i = set_heat (stored_heat ms i * par + vat old i * (1 - par)) (cell_material ms i)).
Proof.
  intros ms Hc Hm Ho. split.
  - destruct (relaxTemperatures_spec par old r Hc Hm Ho) as (ms' & E & _ & _ & _ & _ & H). eauto.
  - destruct (relaxPowers_spec par old r Hc Hm Ho) as (ms' & E & _ & _ & _ & _ & H). eauto.
Qed.
Print Assumptions C40_stored_fields.

(* vectors of different lengths are an Eigen assertion (undefined in release) *)
Theorem C40_length_mismatch_refuted par (new old : vec R) : vlen new <> vlen old ->
  exists m, relax par new old = UB m.
Proof. intros H. unfold relax. apply Z.eqb_neq in H. rewrite H. eauto. Qed.
Print Assumptions C40_length_mismatch_refuted.

Example C40_hypotheses_met :
  vlen (vec_of_list 0 [1; 2; 3]) = vlen (vec_of_list 0 [3; 2; 1]) /\ 0 <= 1 / 2 <= 1.
Proof. split; [reflexivity|lra]. Qed.
