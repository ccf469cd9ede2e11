(* Property theorem C104 for diffusion: from the text of the input file to the factor
   and the fluxes in the log file. [face_condition] is in ProofsSlab.v, [settles] in
   ProofsConvergeD.v. *)
From Coq Require Import String ZArith List Bool Lia Reals Lra.
From Verif Require Import Base BaseLemmas NumR LinAlg PowerMethod ModelNumTools ModelEigen ModelMesh ModelReactor ModelText ModelDiffusion ModelHeat ModelSpectrum
  ModelKinetics ModelOutput ModelCalculation ModelInput ModelLog ModelEcho ModelMain ModelProgram.
From Verif Require Import PropsSymmetry ProofsNumTools ProofsInputG ProofsEigen ProofsMesh ProofsInput ProofsInputB ProofsInputD ProofsInputI ProofsInputJ ProofsInputK ProofsDiffusion ProofsDiffusionR ProofsPower ProofsHeatLoop ProofsHeatConstant
  ProofsReport ProofsConverge ProofsConvergeD ProofsSlab PropsInput PropsInputB PropsInputC PropsInputD PropsReading PropsReport PropsEcho PropsProgram PropsEndToEnd PropsEndToEndB PropsSlabFactor PropsRising ProofsInputC.
Import ListNotations.
Local Open Scope string_scope.
Local Open Scope Z_scope.

Section EndToEndDiffusion.
Variable stod_opt : string -> option R.
Variable solver : mat R -> vec R -> vec R.
Variable sort : list (R * vec R) -> list (R * vec R).
Variable eig : mat R -> mat R -> vec (R * R) * mat (R * R).
Variable croots : list R -> list (R * R).
Variables (E3 Ki3 sq : R -> R).
Variable to_unsigned : R -> res Z.
Variables (fmt : R -> string) (zfmt : Z -> string).
Variable version : string.
Variable stamp : Z -> string.
Let run := program PI stod_opt solver sort eig croots E3 Ki3 exp sq to_unsigned fmt zfmt version stamp.
Let solves := problemSolve PI solver sort eig croots E3 Ki3 exp sq to_unsigned.

(* ---------- the results of one forward calculation ---------- *)

Lemma eigen_run r sd M F er flux k rest : let ms := rx_mesh r in
  ready ms -> 1 <= ms_cells ms -> sd_kind sd = DIFFUSION -> sd_dir sd = FORWARD -> sd_energies sd = ms_groups ms ->
  diffusionSystem PI ms sd = Ok (M, F) -> solveEigen solver sort eig M F sd = Ok er ->
  er_modes er = (k, flux) :: rest -> (forall q, In q (er_modes er) -> vlen (snd q) = ms_cells ms * ms_groups ms) ->
  exists oc, (forall o, solves o [] [sd] r = Ok oc) /\ rx_fwd (oc_reactor oc) = map fst (er_modes er) /\
    let ms' := rx_mesh (oc_reactor oc) in ms_cells ms' = ms_cells ms /\ ms_groups ms' = ms_groups ms /\ ms_cells ms <= zlen (ms_mats ms') /\
    (forall e i, 0 <= e < ms_groups ms -> 0 <= i < ms_cells ms -> mat_at (mt_flux (cell_material ms' i)) e 0 = vat flux (i + e * ms_cells ms)) /\
    (forall q e i, 0 <= q < zlen (er_modes er) -> 0 <= e < ms_groups ms -> 0 <= i < ms_cells ms ->
       mat_at (mt_flux (cell_material ms' i)) e q = vat (snd (nth (Z.to_nat q) (er_modes er) dmode)) (i + e * ms_cells ms)) /\
    (* a power of - 1, as in a file without heat, gives no positive power density *)
    (rx_power r = (-1)%R -> (forall i, 0 <= i < ms_cells ms -> (0 < cell_volume ms i)%R) ->
     (forall e i, 0 <= e < ms_groups ms -> 0 <= i < ms_cells ms -> (0 <= law_at mt_fisXS ms e i)%R /\ (0 <= vat flux (i + e * ms_cells ms))%R) ->
     powerReport fmt (oc_reactor oc) = []).
Proof.
  intros ms Hr Hn K Hdir Hes E Hs Hmodes L.
  assert (Hm : 0 <= ms_cells ms <= zlen (ms_mats ms)) by (split; apply Hr). assert (Hb1 : ms_cells ms + 1 = vlen (ms_bounds ms)) by apply Hr.
  assert (G1 : ms_geom ms <> GeomUNDEFINED) by apply Hr. assert (G2 : 0 <= ms_groups ms) by apply Hr.
  destruct (wp_ok _ _ (getHeatSources_wp dm0 ms ltac:(lia) ltac:(lia))) as (old & Eo & _).
  destruct (wp_ok _ _ (volumes_wp ms "cm" G1 ltac:(lia))) as (vol & Ev & _).
  assert (Z1 : 1 <= zlen (er_modes er)) by (rewrite Hmodes; unfold zlen; cbn [length]; lia).
  assert (Fit : forall q, 0 <= q < zlen (er_modes er) -> ms_cells ms * ms_groups ms <= vlen (snd (nth (Z.to_nat q) (er_modes er) dmode))).
  { intros q Hq. rewrite L; [lia|]. apply nth_In. unfold zlen in Hq. lia. }
  destruct (setNewHeatSource_spec r vol er (ready_fissile _ Hr) Ev Z1 Fit) as (r1 & E1 & Sh & Hw & _ & _ & _ & _ & Hnf & _ & _ & Hc1).
  fold ms in E1, Hnf, Hc1, Sh. destruct Sh as (c2 & e2 & _ & _ & l2).
  assert (Hm2 : ms_cells (rx_mesh r1) <= zlen (ms_mats (rx_mesh r1))) by (unfold zlen in *; rewrite c2, l2; lia).
  assert (Er : solve1 PI solver sort eig croots E3 Ki3 exp sq sd r = Ok (old, r1)).
  { unfold solve1. rewrite K. unfold diffusionSolve. fold ms. rewrite Eo, Ev, E. cbn [bind]. rewrite Hs. cbn [bind]. rewrite Hdir.
    rewrite Hes. rewrite E1. reflexivity. }
  assert (Hfl : forall m, 0 <= m < ms_cells (rx_mesh r1) -> let f := mt_flux (nth (Z.to_nat m) (ms_mats (rx_mesh r1)) dm0) in
     ms_groups (rx_mesh r1) <= mrows f /\ zlen (er_modes er) <= mcols f).
  { intros m Hmm. destruct (Hc1 m ltac:(lia)) as (f & q & Em & (Rf & Cf & _) & _). cbn zeta.
    change (nth (Z.to_nat m) (ms_mats (rx_mesh r1)) dm0) with (cell_material (rx_mesh r1) m). rewrite Em. cbn [set_heat set_flux mt_flux].
    rewrite Rf, Cf, e2. lia. }
  destruct (wp_ok _ _ (get_modes_wp dm0 mt_flux (zlen (er_modes er)) (rx_mesh r1) ltac:(lia) ltac:(lia) ltac:(lia) Hm2 Hfl)) as (t & Et & _ & _ & Dt & _).
  destruct (wp_ok _ _ (get_fundamental_wp dm0 mt_flux (rx_mesh r1) ltac:(lia) ltac:(lia) Hm2 ltac:(intros m Hmm; destruct (Hfl m Hmm); split; [assumption|lia]))) as (ft & Eft & _).
  destruct (wp_ok _ _ (getHeatSources_wp dm0 (rx_mesh r1) ltac:(lia) Hm2)) as (hs & Ehs & Lhs & _).
  assert (Ek : getKFactor r1 = Ok k) by (unfold getKFactor; rewrite Hw; unfold er_eigenvalues; rewrite Hmodes; reflexivity).
  assert (Epr : exists l, printResults sd CRITICAL r1 = Ok l).
  { unfold printResults, printForward, printPower, getFundamentalNeutronFluxes. rewrite K, Hdir, Ek. cbn [bind]. rewrite Eft. cbn [bind].
    rewrite Ehs. cbn [bind]. rewrite list_of_vec_zrange, Lhs, c2. rewrite zrange_step by lia. cbn [map maxCoeff bind].
    destruct (is_greater _ _); eexists; reflexivity. }
  destruct Epr as (lp & Epr).
  assert (Eem : exists l, printEigenmodesResults sd CRITICAL r1 = Ok l).
  { unfold printEigenmodesResults, getNeutronFluxes. rewrite K, Hdir, Hnf, Et. cbn [bind]. destruct (1 <? zlen (rx_fwd r1)); [|eexists; reflexivity].
    unfold printModes. rewrite Dt. match goal with |- exists l, ?m = Ok l => assert (P : wp m (fun _ => True)); [|destruct (wp_ok _ _ P) as (l & Q & _); exists l; exact Q] end.
    apply (zfor_wp' (fun _ _ => True)); auto; [lia|]. intros q l Hq _. rewrite Hw. unfold er_eigenvalues. rewrite (lget_ok _ _ 0%R) by (unfold zlen in *; rewrite map_length; lia). exact I. }
  destruct Eem as (lm & Eem).
  eexists. split.
  { intros o. unfold solves, problemSolve, singleCalculation. rewrite K, Er. cbn [bind]. unfold solveLog. rewrite K. cbn [bind].
    rewrite Eem. cbn [bind]. rewrite Epr. cbn [bind]. unfold plots. cbn. reflexivity. }
  cbn [oc_reactor]. split; [exact Hw|]. cbv zeta. split; [exact c2|]. split; [exact e2|]. split; [lia|].
  split; [|split].
  - intros e i He Hi. destruct (Hc1 i Hi) as (f & q & Em & (_ & _ & Hf) & _). rewrite Em. cbn [set_heat set_flux mt_flux].
    rewrite Hf by (try exact He; lia). rewrite Hmodes. reflexivity.
  - intros q e i Hq He Hi. destruct (Hc1 i Hi) as (f & q' & Em & (_ & _ & Hf) & _). rewrite Em. cbn [set_heat set_flux mt_flux].
    rewrite Hf by (try exact He; lia). reflexivity.
  - intros Hpw Hvol Hpos. set (rate := fission_rate ms (mode_flux ms (er_modes er) 0)) in *.
    assert (Rp : forall i, 0 <= i < ms_cells ms -> (0 <= rate i)%R).
    { intros i Hi. unfold rate, fission_rate. apply Rmult_le_pos; [|apply Rlt_le, Hvol, Hi]. apply rsum_nonneg. intros e He.
      destruct (Hpos e i He Hi) as (A & B). apply Rmult_le_pos; [|exact A]. unfold mode_flux. rewrite Hmodes. exact B. }
    assert (Hq : forall m, In m (firstn (Z.to_nat (ms_cells (rx_mesh r1))) (ms_mats (rx_mesh r1))) -> (mt_heat m <= 0)%R).
    { intros m Hin. apply In_nth_error in Hin. destruct Hin as (j & Nj).
      assert (Hj : (j < Z.to_nat (ms_cells (rx_mesh r1)))%nat).
      { assert (X : (j < length (firstn (Z.to_nat (ms_cells (rx_mesh r1))) (ms_mats (rx_mesh r1))))%nat) by (apply nth_error_Some; congruence). rewrite firstn_length in X. lia. }
      assert (Nj' : nth_error (ms_mats (rx_mesh r1)) j = Some m).
      { rewrite <- Nj. rewrite <- (firstn_skipn (Z.to_nat (ms_cells (rx_mesh r1))) (ms_mats (rx_mesh r1))) at 1. apply nth_error_app1. apply nth_error_Some. congruence. }
      rewrite c2 in Hj. destruct (Hc1 (Z.of_nat j) ltac:(lia)) as (f & q & Em & _ & Eq). unfold cell_material in Em at 1. rewrite Nat2Z.id, (nth_error_nth _ _ dm0 Nj') in Em.
      rewrite Em. cbn [set_heat mt_heat]. rewrite Eq. rewrite Hpw. pose proof (Rp (Z.of_nat j) ltac:(lia)) as R0. pose proof (Hvol (Z.of_nat j) ltac:(lia)) as V0.
      assert (S0 : (0 <= rsum 0 (ms_cells ms) rate)%R) by (apply rsum_nonneg; intros i Hi; apply Rp; lia).
      assert (Q0 : (0 <= rate (Z.of_nat j) / rsum 0 (ms_cells ms) rate)%R).
      { destruct S0 as [S0|S0]; [apply Rmult_le_pos; [exact R0|apply Rlt_le, Rinv_0_lt_compat, S0]|].
        assert (Z0 : rate (Z.of_nat j) = 0%R) by (apply (rsum_nonneg_0 0 (ms_cells ms) rate); [intros; apply Rp; lia|symmetry; exact S0|lia]).
        rewrite Z0. unfold Rdiv. rewrite Rmult_0_l. apply Rle_refl. }
      replace (-1 * rate (Z.of_nat j) / rsum 0 (ms_cells ms) rate / cell_volume ms (Z.of_nat j))%R
        with (- (rate (Z.of_nat j) / rsum 0 (ms_cells ms) rate * / cell_volume ms (Z.of_nat j)))%R by (unfold Rdiv; ring).
      assert (0 <= rate (Z.of_nat j) / rsum 0 (ms_cells ms) rate * / cell_volume ms (Z.of_nat j))%R by (apply Rmult_le_pos; [exact Q0|apply Rlt_le, Rinv_0_lt_compat, V0]). lra. }
    unfold powerReport. destruct (maxCoeff _) as [x| | |] eqn:Ex; try reflexivity.
    assert (Hx : (x <= 0)%R).
    { revert Ex Hq. generalize (firstn (Z.to_nat (ms_cells (rx_mesh r1))) (ms_mats (rx_mesh r1))). intros [|m l] Ex Hq; [discriminate Ex|].
      cbn [map maxCoeff] in Ex. injection Ex as <-. pose proof (Hq m (or_introl eq_refl)) as H0. assert (Hl : forall y, In y l -> (mt_heat y <= 0)%R) by (intros y Hy; apply Hq; right; exact Hy).
      clear Hq. revert H0. generalize (mt_heat m). induction l as [|y l IH]; intros z Hz; [exact Hz|]. cbn [map fold_left].
      apply IH; [intros; apply Hl; right; assumption|]. match goal with |- context [if ?b then _ else _] => destruct b end; [apply Hl; left; reflexivity|exact Hz]. }
    match goal with |- (if ?b then _ else _) = _ => destruct b eqn:G end; [|reflexivity]. apply is_greater_R in G. revert G. unfold tolR. rnum. lra.
Qed.

Lemma forward_run r sd M F its flux k : let ms := rx_mesh r in
  ready ms -> 1 <= ms_cells ms -> sd_kind sd = DIFFUSION -> sd_dir sd = FORWARD -> sd_eig sd = FUNDAMENTAL -> sd_energies sd = ms_groups ms ->
  diffusionSystem PI ms sd = Ok (M, F) -> sourceIteration solver M F (sd_max sd) (sd_acc sd) FORWARD = Ok (its, er_single flux k FORWARD) ->
  vlen flux = ms_cells ms * ms_groups ms ->
  exists oc, (forall o, solves o [] [sd] r = Ok oc) /\ rx_fwd (oc_reactor oc) = [k] /\
    let ms' := rx_mesh (oc_reactor oc) in ms_cells ms' = ms_cells ms /\ ms_groups ms' = ms_groups ms /\ ms_cells ms <= zlen (ms_mats ms') /\
    (forall e i, 0 <= e < ms_groups ms -> 0 <= i < ms_cells ms -> mat_at (mt_flux (cell_material ms' i)) e 0 = vat flux (i + e * ms_cells ms)) /\
    (* a power of - 1, as in a file without heat, gives no positive power density *)
    (rx_power r = (-1)%R -> (forall i, 0 <= i < ms_cells ms -> (0 < cell_volume ms i)%R) ->
     (forall e i, 0 <= e < ms_groups ms -> 0 <= i < ms_cells ms -> (0 <= law_at mt_fisXS ms e i)%R /\ (0 <= vat flux (i + e * ms_cells ms))%R) ->
     powerReport fmt (oc_reactor oc) = []).
Proof.
  intros ms Hr Hn K Hdir Heig Hes E Hs L.
  assert (S : solveEigen solver sort eig M F sd = Ok (er_single flux k FORWARD)) by (unfold solveEigen; rewrite Heig, Hdir, Hs; reflexivity).
  destruct (eigen_run r sd M F _ flux k [] Hr Hn K Hdir Hes E S eq_refl) as (oc & A1 & A2 & A3 & A4 & A5 & A6 & _ & A7); [intros q [<- | []]; exact L|].
  exists oc. repeat (split; [assumption|]). exact A7.
Qed.

Lemma forward_stop r sd M F m : let ms := rx_mesh r in
  ready ms -> sd_kind sd = DIFFUSION -> sd_dir sd = FORWARD -> sd_eig sd = FUNDAMENTAL ->
  diffusionSystem PI ms sd = Ok (M, F) -> sourceIteration solver M F (sd_max sd) (sd_acc sd) FORWARD = Exit m ->
  forall o, solves o [] [sd] r = Exit m.
Proof.
  intros ms Hr K Hdir Heig E Hs o.
  assert (Hm : 0 <= ms_cells ms <= zlen (ms_mats ms)) by (split; apply Hr). assert (Hb1 : ms_cells ms + 1 = vlen (ms_bounds ms)) by apply Hr.
  assert (G1 : ms_geom ms <> GeomUNDEFINED) by apply Hr.
  destruct (wp_ok _ _ (getHeatSources_wp dm0 ms ltac:(lia) ltac:(lia))) as (old & Eo & _).
  destruct (wp_ok _ _ (volumes_wp ms "cm" G1 ltac:(lia))) as (vol & Ev & _).
  unfold solves, problemSolve, singleCalculation, solve1. rewrite K. unfold diffusionSolve. fold ms. rewrite Eo, Ev, E. cbn [bind]. unfold solveEigen. rewrite Heig, Hdir, Hs. reflexivity.
Qed.

(* the program stops when the calculation does *)
Lemma run_exit fs input output level inp m : input <> output -> readData PI stod_opt (fs input) = Ok inp ->
  (forall o, solves o (in_plots inp) (in_solvers inp) (in_rx inp) = Exit m) -> run fs [input; output; level] = Exit m.
Proof.
  intros Hne HR Hp. destruct (arguments input output level) as (o & l & dir & name & out & HA & Ho & El & _).
  assert (exists lines, storeInput (fs input) = Ok lines) as (lines & Hs).
  { unfold readData in HR. apply bind_ok_inv in HR. destruct HR as (lines & Hs & _). exists lines. exact Hs. }
  destruct (C89_log PI stod_opt fmt (fs input) lines inp Hs HR) as (ws & props & words & row & scatt & mesh & heating & temps & EL & _).
  unfold run, program, starting. rewrite HA. cbn [bind]. rewrite Ho.
  assert (W : forall text, write output text fs input = fs input).
  { intros text. unfold write. destruct (String.eqb_spec input output); [contradiction|reflexivity]. }
  rewrite W, EL. cbn [bind]. rewrite Hp. reflexivity.
Qed.

(* ---------- the file ---------- *)

(* one number behind the first [skip] words of an entry of a material *)
Definition material_number (lines : list string) (m key : string) (skip : nat) (v : R) : Prop :=
  exists first w, length first = skip /\ section_words lines "material" m key (first ++ [w]) /\ stod_opt w = Some v.

(* what a file with a slab of one region in one group says *)
Record slab_file (lines : list string) (harmonics : string) (n : Z) (W a df st ss nu fi acc : R) (mx : Z) : Prop := {
  sf_solver : entry lines "solvers" ["diffusion"];
  sf_plots : no_plots lines;
  sf_named : named_first lines [DIFFUSION];
  sf_geometry : entry lines "geometry" ["slab"];
  sf_mesh : exists c w m, entry lines "mesh" [c; w; m] /\ stoi c = Ok n /\ stod_opt w = Some W /\ printable stod_opt m /\
    material_number lines m "ni(1)" 1 nu /\ material_number lines m "chi(1)" 1 1 /\ material_number lines m "fission(1)" 1 fi /\
    material_number lines m "total(1)" 1 st /\ material_number lines m "diffCoeff(1)" 1 df /\ material_number lines m "scattMatrix(1, 1)" 2 ss;
  sf_groups : exists w, section_words lines "solver" "diffusion" "energies" ["energies"; w] /\ stoi w = Ok 1;
  sf_albedo : exists w w', section_words lines "solver" "diffusion" "albedo" ["albedo"; w; w'] /\ stod_opt w = Some a /\ stod_opt w' = Some a;
  sf_direction : section_words lines "solver" "diffusion" "direction" ["direction"; "forward"];
  sf_modes : section_words lines "solver" "diffusion" "eigenmodes" ["eigenmodes"; harmonics];
  sf_acc : exists w, section_words lines "solver" "diffusion" "accuracy" ["accuracy"; w] /\ stod_opt w = Some acc;
  sf_max : exists w, section_words lines "solver" "diffusion" "max_iteration_number" ["max_iteration_number"; w] /\ stoi w = Ok mx }.

Lemma material_number_law lines m key skip v c : material_number lines m key skip v -> material_line stod_opt lines m key skip c -> c = [v].
Proof.
  intros (f & w & L & S & E) (f' & ws & L' & S' & Nw). pose proof (section_words_fun _ _ _ _ _ _ S S') as Q.
  assert (f = f' /\ [w] = ws) as (_ & <-).
  { clear -L L' Q. subst skip. revert f' L' Q. induction f as [|x f IH]; intros [|y f'] L' Q; cbn in *; try discriminate L'; [auto|].
    injection Q as -> Q. destruct (IH f' ltac:(lia) Q) as (-> & ->). auto. }
  refine (numbers_fun stod_opt _ _ [v] Nw _). repeat constructor. exact E.
Qed.

Lemma slab_read file lines inp harmonics n W a df st ss nu fi acc mx : storeInput file = Ok lines -> readData PI stod_opt file = Ok inp ->
  slab_file lines harmonics n W a df st ss nu fi acc mx -> 2 <= n < 2147483647 -> (0 < W)%R -> (0 <= a <= 1)%R -> (0 < df)%R -> (0 <= ss < st)%R -> (0 < nu * fi)%R ->
  exists sd, in_solvers inp = [sd] /\ sd_kind sd = DIFFUSION /\ in_plots inp = [] /\ sd_acc sd = acc /\ sd_max sd = mx /\ (harmonics = "fundamental" /\ sd_eig sd = FUNDAMENTAL \/ harmonics = "all" /\ sd_eig sd = EigALL) /\
    ms_cells (in_mesh inp) = n /\ one_group_slab (in_mesh inp) sd a (100 * W / IZR n) df st ss (nu * fi) /\
    forall i, 0 <= i < n -> law_at mt_fisXS (in_mesh inp) 0 i = fi.
Proof.
  intros H1 H2 [Us Up Un Ug (c & w & m & Um & Uc & Uw & Upr & M1 & M2 & M3 & M4 & M5 & M6) (we & Ue & Ewe) (wl & wr & Ual & Ewl & Ewr) Ud Uei (wa & Uac & Ewa) (wm & Umx & Ewm)] Hn HW Ha Hd Hs Hf.
  destruct (one_solver _ _ _ _ "diffusion" DIFFUSION H1 H2 Us ltac:(cbn; tauto)) as (sd & Es & K).
  exists sd. split; [exact Es|]. split; [exact K|]. split; [exact (no_plots_read _ _ _ _ H1 H2 Up)|].
  assert (Ek : map sd_kind (in_solvers inp) = [DIFFUSION]) by (rewrite Es; cbn; rewrite K; reflexivity).
  assert (InK : In DIFFUSION (map sd_kind (in_solvers inp))) by (rewrite Ek; left; reflexivity).
  destruct (C82_mesh_data PI stod_opt file lines inp H1 H2) as ((gw & Gw & Gi) & Me); [exists DIFFUSION; rewrite Ek; cbn; tauto|].
  set (ms := in_mesh inp) in *.
  assert (Eg : ms_geom ms = SLAB).
  { pose proof (entry_read _ _ _ false Gw) as E. rewrite (entry_read _ _ _ false Ug) in E. injection E as <-.
    cbn in Gi. destruct Gi as [Gi|[Gi|[Gi|[]]]]; congruence. }
  assert (Hsec : section_words lines "solver" (get_solver_name (sd_kind sd)) = section_words lines "solver" "diffusion") by (rewrite K; reflexivity).
  assert (Un' : named_first lines (map sd_kind (in_solvers inp))) by (rewrite Ek; exact Un).
  pose proof (C81_solver_properties PI stod_opt file lines inp H1 H2 Un' sd ltac:(rewrite Es; left; reflexivity)) as P.
  cbv zeta in P. rewrite Hsec in P. destruct P as ((wa' & Pa & Pa') & (wm' & Pm & Pm') & Pn & Pd & Pe & _).
  destruct (Pn ltac:(rewrite K; tauto)) as ((we' & Pg & Pg') & (wb & Pb & Pb')). destruct (Pd K) as (wd & Pdd & Pd'). destruct (Pe ltac:(rewrite K; tauto)) as (wi & Pi & Pi').
  pose proof (section_words_fun _ _ _ _ _ _ Pa Uac) as E1. injection E1 as ->. specialize (Pa' _ eq_refl).
  pose proof (section_words_fun _ _ _ _ _ _ Pm Umx) as E1. injection E1 as ->. specialize (Pm' _ eq_refl).
  pose proof (section_words_fun _ _ _ _ _ _ Pg Ue) as E1. injection E1 as ->. specialize (Pg' _ eq_refl).
  pose proof (section_words_fun _ _ _ _ _ _ Pb Ual) as E1. injection E1 as ->. destruct (Pb' ltac:(cbn; lia)) as (Pal & _).
  pose proof (section_words_fun _ _ _ _ _ _ Pdd Ud) as E1. injection E1 as ->.
  pose proof (section_words_fun _ _ _ _ _ _ Pi Uei) as E1. injection E1 as ->.
  split; [congruence|]. split; [congruence|].
  split; [exact (Pi' _ eq_refl)|].
  assert (Ggr : ms_groups ms = 1).
  { destruct (C81_reactor_properties PI stod_opt file lines inp H1 H2 Un') as (G & _).
    fold ms in G. rewrite (G DIFFUSION we 1 InK ltac:(right; left; split; [reflexivity|rewrite Ek; intros [X|[]]; discriminate X]) Ue Ewe). reflexivity. }
  assert (Hr : Forall2 (reads_region stod_opt) [(c, w, m)] [(n, W, m)]) by (constructor; [cbn; auto|constructor]).
  destruct (Me [(c, w, m)] [(n, W, m)] Um Hr ltac:(constructor; [cbn; lia|constructor]) ltac:(cbn; lia) ltac:(constructor; [exact Upr|constructor])) as (Z1 & Z2 & Z3 & Z4).
  cbn [counts map total fold_right] in Z1, Z2, Z3. rewrite Z.add_0_r in Z1, Z2, Z3.
  split; [exact Z2|].
  assert (Hb : forall i, 0 <= i <= n -> vat (ms_bounds ms) i = (IZR i * (W / IZR n))%R).
  { intros i Hi. pose proof (readLines_stored _ _ _ _ (readData_lines _ _ _ _ _ H1 H2)) as S.
    destruct (st_mesh _ _ _ _ S) as (i1 & i2 & w2 & A1 & A2 & A3 & A4 & _); [exists DIFFUSION; rewrite Ek; cbn; tauto|]. fold ms in A4. rewrite A4.
    rewrite <- A1 in Um. destruct (C06_partition stod_opt i1 [(c, w, m)] [(n, W, m)] Um Hr) as (i3 & E3' & C);
      [constructor; [cbn; lia|constructor]|constructor; [exact HW|constructor]|cbn; lia|constructor; [exact Upr|constructor]|exact A2|].
    rewrite A3 in E3'. injection E3' as <-. cbv zeta in C. destruct C as (_ & _ & _ & _ & _ & C).
    specialize (C 0%nat i ltac:(cbn; lia) ltac:(cbn; lia)). cbn in C. rewrite C. unfold depth. cbn. ring. }
  assert (SW : starts_with_name lines (map sd_kind (in_solvers inp))).
  { intros k' p ws Hk Hp Wd. apply (Un' k' p ws Hk); [unfold solver_words in Hp; exact Hp|exact (propertyWords_section _ _ _ _ Wd)]. }
  assert (Gd : grouped ms).
  { apply (readLines_grouped PI stod_opt lines inp DIFFUSION (readData_lines _ _ _ _ _ H1 H2) SW InK eq_refl).
    intros q ws Hq Wd. rewrite Ek in Hq. destruct Hq as [<-|[]]. apply propertyWords_section in Wd.
    pose proof (section_words_fun _ _ _ _ _ _ Wd Ue) as E1. injection E1 as ->. reflexivity. }
  assert (Laws : forall i, 0 <= i < n -> let mt := cell_material ms i in mt_energies mt = 1 /\
    nth_error (mt_ni mt) 0 = Some [nu] /\ nth_error (mt_chi mt) 0 = Some [1%R] /\ nth_error (mt_fisXS mt) 0 = Some [fi] /\ nth_error (mt_totXS mt) 0 = Some [st] /\
    nth_error (mt_diff mt) 0 = Some [df] /\ nth_error (mt_scatt mt) 0 = Some [ss]).
  { intros i Hi mt. pose proof (cell_nth ms i ltac:(lia)) as Ni. fold mt in Ni.
    destruct (Z4 0%nat i ltac:(cbn; lia) ltac:(cbn; lia)) as (mt' & Nt & Nn). cbn in Nt, Nn. rewrite Ni in Nt. injection Nt as <-.
    split; [rewrite (Gd (Z.to_nat i) mt ltac:(lia) Ni); exact Ggr|].
    pose proof (C80_cross_sections PI stod_opt file lines inp H1 H2 ltac:(tauto) _ mt Ni) as X. cbv zeta in X. fold ms in X. rewrite Ggr in X.
    destruct (X 1 ltac:(lia)) as (X1 & X2). destruct (X2 1 ltac:(lia)) as (c6 & N6 & L6). clear X X2. rewrite Nn in *.
    assert (Y : forall name table v, In (name, table) [("ni", mt_ni mt); ("chi", mt_chi mt); ("fission", mt_fisXS mt); ("total", mt_totXS mt)] \/
        ((name, table) = ("diffCoeff", mt_diff mt) /\ (In DIFFUSION (map sd_kind (in_solvers inp)) \/ In ADS (map sd_kind (in_solvers inp)))) ->
        material_number lines m (name ++ "(" ++ to_string 1 ++ ")") 1 v -> nth_error table 0 = Some [v]).
    { intros name table v Hi' Hv. destruct (X1 name table Hi') as (c0 & N0 & L0). rewrite <- (material_number_law _ _ _ _ _ _ Hv L0). exact N0. }
    split; [apply (Y "ni"); [cbn; tauto|exact M1]|]. split; [apply (Y "chi"); [cbn; tauto|exact M2]|]. split; [apply (Y "fission"); [cbn; tauto|exact M3]|].
    split; [apply (Y "total"); [cbn; tauto|exact M4]|]. split; [apply (Y "diffCoeff"); [right; tauto|exact M5]|].
    rewrite <- (material_number_law _ _ _ _ _ _ M6 L6). exact N6. }
  assert (Lz : forall (l : list (list R)) v, nth_error l 0 = Some v -> 1 <= zlen l).
  { intros [|x l] v Hv; [discriminate Hv|]. unfold zlen. cbn [length]. lia. }
  assert (Hn0 : (0 < IZR n)%R) by (apply (IZR_lt 0); lia).
  split; [split|].
  - split; [rewrite Eg; discriminate|]. split; [lia|]. split; [lia|]. split; [lia|]. split; [lia|]. rewrite Ggr.
    intros i Hi. cbn zeta. destruct (Laws i ltac:(lia)) as (A1 & A2 & A3 & A4 & A5 & A6 & A7). split; [exact A1|]. split; [exact (Lz _ _ A5)|].
    split; [exact (Lz _ _ A4)|]. split; [exact (Lz _ _ A6)|]. split; [right; exact (Lz _ _ A2)|]. split; [right; exact (Lz _ _ A3)|]. exact (Lz _ _ A7).
  - exact Eg.
  - lia.
  - exact Ggr.
  - congruence.
  - destruct (Pd' _ eq_refl) as [[_ X]|[X _]]; [exact X|discriminate X].
  - unfold albedos. rewrite Eg. pose proof (numbers_fun stod_opt _ _ [a; a] Pal ltac:(repeat constructor; assumption)) as ->. split; reflexivity.
  - exact Ha.
  - apply Rdiv_lt_0_compat; lra.
  - exact Hd.
  - exact Hs.
  - exact Hf.
  - cbn zeta. intros i Hi. destruct (Laws i ltac:(lia)) as (_ & A2 & A3 & A4 & A5 & A6 & A7).
    assert (V : forall (l : list (list R)) v t, nth_error l 0 = Some [v] -> law_value (nth 0 l []) t = v).
    { intros l v t Hv. rewrite (nth_error_nth _ _ [] Hv). apply constant_law. }
    assert (V0 : forall (l : list (list R)) v t, nth_error l 0 = Some [v] -> match l with [] => 0%R | _ => law_value (nth 0 l []) t end = v).
    { intros l v t Hv. destruct l as [|x l]; [discriminate Hv|exact (V _ _ t Hv)]. }
    cbn [mesh_tables tdx tD ttot tsc tchi tni tfis]. unfold law_at0, law_at. rewrite Ggr. change (Z.to_nat (0 + 0 * 1)) with 0%nat. change (Z.to_nat 0) with 0%nat.
    split; [rewrite !Hb, plus_IZR by lia; field; lra|]. split; [exact (V _ _ _ A6)|]. split; [exact (V _ _ _ A5)|]. split; [exact (V _ _ _ A7)|].
    split; [exact (V0 _ _ _ A3)|]. rewrite (V0 _ _ _ A2), (V _ _ _ A4). reflexivity.
  - intros i Hi. destruct (Laws i Hi) as (_ & _ & _ & A4 & _). unfold law_at. fold ms. change (Z.to_nat 0) with 0%nat. rewrite (nth_error_nth _ _ [] A4). apply constant_law.
Qed.

(* The diffusion calculation of such a slab. The iteration of the program settles on
   the factor and the cosine of C106, and the log ends with what the iteration returned,
   or the program stops because the iterations of the file were not enough. After three
   or more iterations the factor in the log encloses that of the diffusion equation, and
   two more iterations than the inverse of the accuracy are always enough. *)
Theorem C104_diffusion fs input output level lines inp n W a df st ss nu fi acc mx :
  let h := (100 * W / IZR n)%R in
  exact solver -> input <> output -> storeInput (fs input) = Ok lines -> readData PI stod_opt (fs input) = Ok inp ->
  slab_file lines "fundamental" n W a df st ss nu fi acc mx -> 2 <= n < 2147483647 -> (0 < W)%R -> (0 <= a <= 1)%R -> (0 < df)%R -> (0 <= ss < st)%R -> (0 < nu)%R -> (0 < fi)%R ->
  exists M F theta phi c, face_condition a h df n theta /\
    settles solver M F (nu * fi / (st - ss + df * (2 * (1 - cos theta) / (h * h)))) phi /\ (0 < c)%R /\
    (forall m, 0 <= m < n -> vat phi m = (c * cos (theta * (IZR m - (IZR n - 1) / 2)))%R) /\
    ((exists its er oc fs' head, sourceIteration solver M F mx acc FORWARD = Ok (its, er) /\
        (3 <= its -> forall K f, diffuses df (st - ss) (nu * fi) (100 * W) a K f -> let leak := (nu * fi / K - (st - ss))%R in
           (er_k er - h * h * (K * (leak * leak) / (4 * df * (st - ss))) <= K <= er_k er * (1 + sqrt (2 * acc)))%R) /\
        run fs [input; output; level] = Ok (oc, fs') /\ (forall p, p <> output -> fs' p = fs p) /\
        holds (fs' output) (head ++ ("Fundamental K-factor: " ++ fmt (er_k er))%string :: "Fundamental Neutron Flux [1/(cm2*s)]:" ::
          map (fun i => fmt (vat (er_flux er) i)) (zrange 0 n) ++ [" "; (stamp 5 ++ "End simulation")%string])%list) \/
     (sourceIteration solver M F mx acc FORWARD = Exit "The calculation did not converge!" /\ ((0 < acc)%R -> (IZR mx <= 2 + 1 / acc)%R) /\
        run fs [input; output; level] = Exit "The calculation did not converge!")).
Proof.
  intros h Hex Hne H1 H2 Sf Hn HW Ha Hd Hs Hnu Hfi. pose proof (Rmult_lt_0_compat _ _ Hnu Hfi) as Hf.
  destruct (slab_read _ _ _ _ _ _ _ _ _ _ _ _ _ _ H1 H2 Sf Hn HW Ha Hd Hs Hf) as (sd & Es & K & Ep & Eac & Emx & Eei' & En & Og & Efis). fold h in Og.
  assert (Eei : sd_eig sd = FUNDAMENTAL) by (destruct Eei' as [[_ Q] | [Q _]]; [exact Q|discriminate Q]).
  set (ms := in_mesh inp) in *.
  destruct (C106_slab_factor solver ms sd a h df st ss (nu * fi) Og) as (M & F & theta & E & _ & Ht & _ & St). rewrite En in *.
  destruct (slab_system _ _ _ _ _ _ _ _ Og) as (M1 & F1 & E1 & R1 & C1 & R2 & C2 & _). rewrite E in E1. injection E1 as <- <-. rewrite En in *.
  assert (Hinj : injective n (mat_at M)).
  { pose proof (slab_case _ _ _ _ _ _ _ _ Og) as D. destruct D as [Dn Den Ddata Dal DaL DaR DD Dx DS DS1 DV Dsc Dabs Dchi Dfis].
    destruct (loss_monotone ms sd (mesh_tables ms) a a Dn Den Ddata Dal DaL DaR DD Dx (og_dir _ _ _ _ _ _ _ _ Og) DS DV Dsc Dabs) as (M1 & F1 & E1 & Hm).
    rewrite E in E1. injection E1 as <- <-. rewrite (og_energies _ _ _ _ _ _ _ _ Og), En, Z.mul_1_r in Hm. apply monotone_injective, Hm. }
  pose proof (exact_any solver M n Hex R1 C1 Hinj) as X. destruct (St X) as (phi & c & Hc & Hset & Hphi).
  exists M, F, theta, phi, c. split; [exact Ht|]. split; [exact Hset|]. split; [exact Hc|]. split; [exact Hphi|].
  pose proof (og_ready _ _ _ _ _ _ _ _ Og) as Hr. pose proof (og_groups _ _ _ _ _ _ _ _ Og) as Gg. pose proof (og_energies _ _ _ _ _ _ _ _ Og) as Ge. pose proof (og_dir _ _ _ _ _ _ _ _ Og) as Gdir.
  assert (Hlen : forall b, vlen b = n -> vlen (solver M b) = n) by (intros b Hb; rewrite <- C1; apply X; congruence).
  destruct (sourceIteration_spec solver M F n mx acc FORWARD ltac:(lia) R1 C1 R2 C2 Hlen) as [(j & _ & _ & _ & Q)|[_ Q]]; [left|right].
  - match type of Q with _ = Ok (?i, er_single ?f ?k _) => set (its := i) in Q; set (flux := f) in Q; set (kk := k) in Q end.
    assert (Lf : vlen flux = n) by (exact (proj1 (power_len (solver M) F n C2 R2 Hlen (S j)))).
    destruct (forward_run (in_rx inp) sd M F its flux kk Hr) as (oc & Eoc & Efw & Ecn & Egn & Elm & Hfl & Hpr); try assumption.
    { change (rx_mesh (in_rx inp)) with ms. lia. }
    { change (rx_mesh (in_rx inp)) with ms. congruence. }
    { rewrite Emx, Eac. exact Q. }
    { change (rx_mesh (in_rx inp)) with ms. rewrite Gg, En. lia. }
    change (rx_mesh (in_rx inp)) with ms in Ecn, Egn, Elm, Hfl. rewrite En, Gg in *.
    assert (Eoc' : forall o, problemSolve PI solver sort eig croots E3 Ki3 exp sq to_unsigned o (in_plots inp) (in_solvers inp) (in_rx inp) = Ok oc) by (rewrite Es, Ep; exact Eoc).
    destruct (log_ends stod_opt solver sort eig croots E3 Ki3 sq to_unsigned fmt zfmt version stamp fs input output level inp oc Hne H2 Eoc') as (fs' & l & head & Hrun & Hf' & Hh').
    exists its, (er_single flux kk FORWARD), oc, fs', head. split; [exact Q|]. split.
    { intros H3 Ke f HK. assert (N0 : (0 < IZR n)%R) by (apply (IZR_lt 0); lia). apply (C107_equation solver ms sd a h df st ss (nu * fi) M F Ke f mx acc FORWARD its); try assumption.
      rewrite En. replace (IZR n * h)%R with (100 * W)%R by (unfold h; field; lra). exact HK. }
    split; [exact Hrun|]. split; [exact Hf'|].
    pose proof (C83_single_report fmt zfmt l _ _ _ _ _ _ _ _ _ _ _ _ sd _ oc (Eoc (mkOutput "" "" "" "" "" None)) ltac:(rewrite K; discriminate) ltac:(rewrite K; discriminate)) as Rep.
    unfold modes, results in Rep. rewrite K, Gdir, Efw in Rep. unfold modesReport, fluxReport, modeReport, perCell in Rep. rewrite Ecn, Egn in Rep.
    rewrite Rep in Hh'. change (1 <? zlen [kk]) with false in Hh'. change (zrange 0 1) with [0] in Hh'. cbn [flat_map List.app hd] in Hh'. rewrite app_nil_r in Hh'.
    cbn [er_single er_k er_flux].
    assert (Epr : powerReport fmt (oc_reactor oc) = []).
    { destruct (C14_untouched PI stod_opt _ _ H2) as (_ & _ & _ & _ & Pw & _).
      assert (Hbw : forall i, 0 <= i < n -> ((vat (ms_bounds ms) (i + 1) - vat (ms_bounds ms) i) * 100 = h)%R).
      { intros i Hi. pose proof (og_tables _ _ _ _ _ _ _ _ Og) as Tb. cbn zeta in Tb. exact (proj1 (Tb i ltac:(lia))). }
      change (rx_mesh (in_rx inp)) with ms in Hpr. rewrite En, Gg in Hpr. apply Hpr.
      - apply Pw. rewrite Es. cbn. rewrite K. intros ([X'|[]] & _). discriminate X'.
      - intros i Hi. unfold cell_volume. rewrite (og_slab _ _ _ _ _ _ _ _ Og). cbn [body_volume]. pose proof (Hbw i Hi). pose proof (og_width _ _ _ _ _ _ _ _ Og). lra.
      - intros e i He Hi. assert (e = 0) as -> by lia. rewrite Z.mul_0_l, Z.add_0_r. split.
        + assert (Fi : law_at mt_fisXS ms 0 i = fi) by (apply Efis; exact Hi). rewrite Fi. lra.
        + assert (Pf : forall i, 0 <= i < n -> (0 <= vat (pi_flux (power (solver M) F n (S j))) i)%R).
          { intros i' Hi'. rewrite <- En. apply (slab_fluxes _ _ _ _ _ _ _ _ _ _ _ Og E X). rewrite En. exact Hi'. }
          unfold flux. cbn [vdivs vat]. change (0 <= vat (pi_flux (power (solver M) F n (S j))) i / vnorm1 (pi_flux (power (solver M) F n (S j))))%R.
          assert (S0 : (0 <= vnorm1 (pi_flux (power (solver M) F n (S j))))%R) by (apply rsum_nonneg; intros; apply Rabs_pos).
          destruct S0 as [S0|S0]; [apply Rmult_le_pos; [apply Pf; exact Hi|apply Rlt_le, Rinv_0_lt_compat, S0]|].
          assert (Z0 : Rabs (vat (pi_flux (power (solver M) F n (S j))) i) = 0%R).
          { apply (rsum_nonneg_0 0 n (fun i => Rabs (vat (pi_flux (power (solver M) F n (S j))) i))); [intros; apply Rabs_pos| |exact Hi].
            unfold vnorm1 in S0. rewrite (proj1 (power_len (solver M) F n C2 R2 Hlen (S j))) in S0. symmetry. exact S0. }
          rewrite Rabs_pos_eq in Z0 by (apply Pf; exact Hi). rewrite Z0. unfold Rdiv. rewrite Rmult_0_l. apply Rle_refl. }
    rewrite Epr in Hh'.
    replace (map (fun i => fmt (vat flux i)) (zrange 0 n)) with (map (fun m => fmt (mat_at (mt_flux m) 0 0)) (firstn (Z.to_nat n) (ms_mats (rx_mesh (oc_reactor oc))))).
    + rewrite <- !app_assoc in Hh'. cbn [List.app] in Hh'. exact Hh'.
    + symmetry. apply zrange_firstn; [exact Elm|]. intros i mt Hi Ni. f_equal.
      rewrite <- (Z.add_0_r i) at 1. rewrite <- (Z.mul_0_l n). rewrite <- Hfl by lia. unfold cell_material. rewrite (nth_error_nth _ _ dm0 Ni). reflexivity.
  - split; [exact Q|]. split.
    { intros Hacc. apply Rnot_lt_le. intros Hmx. destruct (C107_stops solver ms sd a h df st ss (nu * fi) M F mx acc FORWARD Og E X Hacc Hmx) as (its & er & Q' & _). congruence. }
    apply (run_exit fs input output level inp _ Hne H2). rewrite Es, Ep.
    apply (forward_stop (in_rx inp) sd M F _ Hr K Gdir Eei E). rewrite Emx, Eac. exact Q.
Qed.
End EndToEndDiffusion.
Print Assumptions C104_diffusion.

(* a file with a slab of four cells *)
Definition slab_text : list string :=
  ["solvers diffusion"; "geometry slab"; "mesh 4 1.0 fuel"; "temperatures 300.0 4"; "solver diffusion"; "accuracy 0.001"; "max_iteration_number 100"; "albedo 0.5 0.5";
   "energies 1"; "direction forward"; "eigenmodes fundamental"; "material fuel"; "ni(1) 2.5"; "chi(1) 1.0"; "fission(1) 0.1"; "total(1) 0.6"; "diffCoeff(1) 1.5";
   "scattMatrix(1, 1) 0.4"].
Local Notation "'rat' n d" := (Q2R (QArith_base.Qmake n d)) (at level 0, n at level 0, d at level 0).
Example C104_diffusion_met : exists inp,
  storeInput (Some (Files.text slab_text)) = Ok (Data.lines_of slab_text) /\ readData PI stodR (Some (Files.text slab_text)) = Ok inp /\
  slab_file stodR (Data.lines_of slab_text) "fundamental" 4 (rat 1 1) (rat 1 2) (rat 3 2) (rat 3 5) (rat 2 5) (rat 5 2) (rat 1 10) (rat 1 1000) 100 /\
  (0 < rat 1 1)%R /\ (0 <= rat 1 2 <= 1)%R /\ (0 < rat 3 2)%R /\ (0 <= rat 2 5 < rat 3 5)%R /\ (0 < rat 5 2)%R /\ (0 < rat 1 10)%R.
Proof.
  assert (B : Files.is_ok (readData PI stodR (Some (Files.text slab_text))) = true) by (lazy; reflexivity).
  destruct (readData PI stodR (Some (Files.text slab_text))) as [inp| | |] eqn:E2; try discriminate B. clear B E2.
  exists inp. split; [vm_compute; reflexivity|]. split; [reflexivity|]. split; [|unfold Q2R; cbn; repeat split; lra].
  assert (One : (1 = rat 1 1)%R) by (unfold Q2R; cbn; lra).
  split.
  - entry_of.
  - intros l Hl Hm. apply mentions_contains in Hm. assert (F : forallb (fun l => negb (contains (lower "plots") (lower l))) (data_lines (Data.lines_of slab_text)) = true) by (vm_compute; reflexivity).
    rewrite forallb_forall in F. specialize (F _ Hl). rewrite Hm in F. discriminate F.
  - apply first_word_named. vm_compute. reflexivity.
  - entry_of.
  - exists "4", "1.0", "fuel". split; [entry_of|]. split; [vm_compute; reflexivity|]. split; [number|]. split; [left; vm_compute; reflexivity|].
    split; [exists ["ni(1)"], "2.5"; split; [reflexivity|]; split; [apply (findKeyword_section _ _ _ _ "ni(1) 2.5"); vm_compute; reflexivity|number]|].
    split; [rewrite One at 1; exists ["chi(1)"], "1.0"; split; [reflexivity|]; split; [apply (findKeyword_section _ _ _ _ "chi(1) 1.0"); vm_compute; reflexivity|number]|].
    split; [exists ["fission(1)"], "0.1"; split; [reflexivity|]; split; [apply (findKeyword_section _ _ _ _ "fission(1) 0.1"); vm_compute; reflexivity|number]|].
    split; [exists ["total(1)"], "0.6"; split; [reflexivity|]; split; [apply (findKeyword_section _ _ _ _ "total(1) 0.6"); vm_compute; reflexivity|number]|].
    split; [exists ["diffcoeff(1)"], "1.5"; split; [reflexivity|]; split; [apply (findKeyword_section _ _ _ _ "diffcoeff(1) 1.5"); vm_compute; reflexivity|number]|].
    exists ["scattmatrix(1,"; "1)"], "0.4"; split; [reflexivity|]; split; [apply (findKeyword_section _ _ _ _ "scattmatrix(1, 1) 0.4"); vm_compute; reflexivity|number].
  - exists "1". split; [apply (propertyWords_section _ _ DIFFUSION); vm_compute; reflexivity|vm_compute; reflexivity].
  - exists "0.5", "0.5". split; [apply (propertyWords_section _ _ DIFFUSION); vm_compute; reflexivity|split; number].
  - apply (propertyWords_section _ _ DIFFUSION); vm_compute; reflexivity.
  - apply (propertyWords_section _ _ DIFFUSION); vm_compute; reflexivity.
  - exists "0.001". split; [apply (propertyWords_section _ _ DIFFUSION); vm_compute; reflexivity|number].
  - exists "100". split; [apply (propertyWords_section _ _ DIFFUSION); vm_compute; reflexivity|vm_compute; reflexivity].
Qed.
