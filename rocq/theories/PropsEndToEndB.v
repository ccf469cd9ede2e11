(* Property theorem C104 for heat: from the text of the input file to the temperatures in
   the log file. *)
From Coq Require Import String ZArith List Bool Lia Reals Lra.
From Verif Require Import Base BaseLemmas NumR LinAlg ModelNumTools ModelEigen ModelMesh ModelReactor ModelText ModelDiffusion ModelHeat ModelSpectrum
  ModelKinetics ModelOutput ModelCalculation ModelInput ModelLog ModelEcho ModelMain ModelProgram.
From Verif Require Import ProofsMesh ProofsInput ProofsInputB ProofsInputC ProofsInputI ProofsInputJ ProofsDiffusion ProofsDiffusionR ProofsPower ProofsHeat ProofsHeatLoop ProofsHeatConstant
  ProofsReport PropsInput PropsInputB PropsInputC PropsInputD PropsReading PropsReport PropsProgram PropsHeat PropsHeatExact PropsEndToEnd.
Import ListNotations.
Local Open Scope string_scope.
Local Open Scope Z_scope.

Lemma cell_nth (ms : mesh R) i : 0 <= i < zlen (ms_mats ms) -> nth_error (ms_mats ms) (Z.to_nat i) = Some (cell_material ms i).
Proof. intros H. unfold cell_material. apply nth_error_nth'. unfold zlen in H. lia. Qed.

Section EndToEndHeat.
Variable stod_opt : string -> option R.
Variable solver : mat R -> vec R -> vec R.
Variable sort : list (R * vec R) -> list (R * vec R).
Variable eig : mat R -> mat R -> vec (R * R) * mat (R * R).
Variable croots : list R -> list (R * R).
Variables (E3 Ki3 sq : R -> R).
Variable to_unsigned : R -> res Z.
Variables (fmt : R -> string) (zfmt : Z -> string).
Variable version : string.
Variable stamp : Z -> string.
Let run := program PI stod_opt solver sort eig croots E3 Ki3 exp sq to_unsigned fmt zfmt version stamp.

(* the words behind heat_boundary_conditions *)
Definition bc_words (g : GeomKind) (L Rt : bc) (ws : list string) : Prop :=
  (g = SLAB /\ numbers stod_opt ws [bcA L; bcB L; bcC L; bcA Rt; bcB Rt; bcC Rt]) \/
  (g <> SLAB /\ L = mkbc 0 1 0 /\ numbers stod_opt ws [bcA Rt; bcB Rt; bcC Rt]).

(* what a file with one region, one conductivity and one heat source says *)
Record uniform_file (lines : list string) (g : GeomKind) (n : Z) (W k q acc : R) (mx : Z) (L Rt : bc) : Prop := {
  uf_solver : entry lines "solvers" ["heat"];
  uf_plots : no_plots lines;
  uf_named : named_first lines [HEAT];
  uf_geometry : exists w, entry lines "geometry" [w] /\ In (w, g) [("cylinder", CYLINDER); ("sphere", SPHERE); ("slab", SLAB)];
  uf_mesh : exists a b m ks, entry lines "mesh" [a; b; m] /\ stoi a = Ok n /\ stod_opt b = Some W /\ printable stod_opt m /\
    section_words lines "material" m "thermal_conductivity" ks /\ exists first w, ks = [first; w] /\ stod_opt w = Some k;
  uf_heat : listing stod_opt lines "heat_sources" (repeat q (Z.to_nat n));
  uf_acc : exists w, section_words lines "solver" "heat" "accuracy" ["accuracy"; w] /\ stod_opt w = Some acc;
  uf_max : exists w, section_words lines "solver" "heat" "max_iteration_number" ["max_iteration_number"; w] /\ stoi w = Ok mx;
  uf_bc : exists ws, section_words lines "solver" "heat" "heat_boundary_conditions" ("heat_boundary_conditions" :: ws) /\ bc_words g L Rt ws }.

Lemma numbers_len ws xs : numbers stod_opt ws xs -> length ws = length xs.
Proof. induction 1 as [|? ? ? ? _ _ IH]; [reflexivity|cbn; rewrite IH; reflexivity]. Qed.
Lemma numbers_fun ws xs ys : numbers stod_opt ws xs -> numbers stod_opt ws ys -> xs = ys.
Proof.
  intros H. revert ys. induction H as [|w x ws xs H _ IH]; intros ys Hy; inversion Hy; subst; [reflexivity|]. f_equal; [congruence|auto].
Qed.

(* what the reader makes of it *)
Lemma uniform_read file lines inp g n W k q acc mx L Rt : storeInput file = Ok lines -> readData PI stod_opt file = Ok inp ->
  uniform_file lines g n W k q acc mx L Rt -> 2 <= n < 2147483647 -> (0 < W)%R ->
  exists sd, in_solvers inp = [sd] /\ sd_kind sd = HEAT /\ in_plots inp = [] /\ sd_acc sd = acc /\ sd_max sd = mx /\ boundaries sd L Rt /\
    let ms := rx_mesh (in_rx inp) in ms_geom ms = g /\ ms_cells ms = n /\ zlen (ms_mats ms) = n /\ conducting ms /\ uniform ms (W / IZR n) k q.
Proof.
  intros H1 H2 [Us Up Un (gw & Ug & Ugi) (a & b & m & ks & Um & Ua & Ub & Upr & Uk & (first & wk & Eks & Ewk)) Uh (wa & Uac & Ewa) (wm & Umx & Ewm) (wb & Ubc & Ebc)] Hn HW.
  destruct (one_solver _ _ _ _ "heat" HEAT H1 H2 Us ltac:(cbn; tauto)) as (sd & Es & K).
  exists sd. split; [exact Es|]. split; [exact K|]. split; [exact (no_plots_read _ _ _ _ H1 H2 Up)|].
  assert (Ek : map sd_kind (in_solvers inp) = [HEAT]) by (rewrite Es; cbn; rewrite K; reflexivity).
  destruct (C82_mesh_data PI stod_opt file lines inp H1 H2) as ((w & Gw & Gi) & M); [exists HEAT; rewrite Ek; cbn; tauto|].
  set (ms := in_mesh inp) in *.
  assert (Eg : ms_geom ms = g).
  { pose proof (entry_read _ _ _ false Gw) as E. rewrite (entry_read _ _ _ false Ug) in E. injection E as ->.
    cbn in Gi, Ugi. destruct Gi as [Gi|[Gi|[Gi|[]]]], Ugi as [Ui|[Ui|[Ui|[]]]]; congruence. }
  assert (Hs : section_words lines "solver" (get_solver_name (sd_kind sd)) = section_words lines "solver" "heat") by (rewrite K; reflexivity).
  pose proof (C81_solver_properties PI stod_opt file lines inp H1 H2 ltac:(rewrite Ek; exact Un) sd ltac:(rewrite Es; left; reflexivity)) as P.
  cbv zeta in P. rewrite Hs in P. destruct P as ((wa' & Pa & Pa') & (wm' & Pm & Pm') & _ & _ & _ & Ph & _).
  destruct (Ph K) as (wb' & Pb & Pb').
  pose proof (section_words_fun _ _ _ _ _ _ Pa Uac) as E1. injection E1 as ->. specialize (Pa' _ eq_refl).
  pose proof (section_words_fun _ _ _ _ _ _ Pm Umx) as E1. injection E1 as ->. specialize (Pm' _ eq_refl).
  pose proof (section_words_fun _ _ _ _ _ _ Pb Ubc) as E1. injection E1 as ->.
  split; [congruence|]. split; [congruence|]. split.
  { destruct Ebc as [(_ & Ebc)|(_ & -> & Ebc)]; [left|right; split; [|reflexivity]];
      apply (numbers_fun _ _ _ (proj1 (Pb' ltac:(rewrite (numbers_len _ _ Ebc); cbn; tauto))) Ebc). }
  cbv zeta. change (rx_mesh (in_rx inp)) with ms.
  assert (Hr : Forall2 (reads_region stod_opt) [(a, b, m)] [(n, W, m)]) by (constructor; [cbn; auto|constructor]).
  destruct (M [(a, b, m)] [(n, W, m)] Um Hr ltac:(constructor; [cbn; lia|constructor]) ltac:(cbn; lia) ltac:(constructor; [exact Upr|constructor])) as (Z1 & Z2 & Z3 & Z4).
  cbn [counts map total fold_right] in Z1, Z2, Z3. rewrite Z.add_0_r in Z1, Z2, Z3.
  destruct (C82_heat_data PI stod_opt file lines inp H1 H2 ltac:(rewrite Ek; left; reflexivity)) as (Q1 & _ & Q3 & _). fold ms in Q1, Q3.
  assert (Cd : forall i, 0 <= i < n -> mt_cond (cell_material ms i) = Some [k]).
  { intros i Hi. pose proof (cell_nth ms i ltac:(lia)) as Ni. destruct (Q1 _ _ Ni) as (c & Ec & _ & (f' & ws & Lf & Sw & Nw)).
    destruct (Z4 0%nat i ltac:(cbn; lia) ltac:(cbn; lia)) as (mt & Nt & Nn). cbn in Nt, Nn. rewrite Ni in Nt. injection Nt as <-. rewrite Nn in Sw.
    pose proof (section_words_fun _ _ _ _ _ _ Sw Uk) as E. rewrite Eks in E. destruct f' as [|f1 [|? ?]]; try discriminate Lf. cbn in E. injection E as -> ->.
    rewrite Ec. f_equal. apply (numbers_fun _ _ _ Nw). repeat constructor. exact Ewk. }
  split; [exact Eg|]. split; [exact Z2|]. split; [exact Z1|]. split.
  { split; [rewrite Eg; cbn in Ugi; destruct Ugi as [E|[E|[E|[]]]]; injection E as _ <-; discriminate|]. split; [lia|]. split; [lia|]. split; [lia|].
    intros i Hi. rewrite Cd by lia. discriminate. }
  split.
  - intros i Hi. rewrite Z2 in Hi. pose proof (readLines_stored _ _ _ _ (readData_lines _ _ _ _ _ H1 H2)) as S.
    destruct (st_mesh _ _ _ _ S) as (i1 & i2 & w2 & A1 & A2 & A3 & A4 & _); [exists HEAT; rewrite Ek; cbn; tauto|]. fold ms in A4. rewrite A4.
    rewrite <- A1 in Um. destruct (C06_partition stod_opt i1 [(a, b, m)] [(n, W, m)] Um Hr) as (i3 & E3' & C);
      [constructor; [cbn; lia|constructor]|constructor; [exact HW|constructor]|cbn; lia|constructor; [exact Upr|constructor]|exact A2|].
    rewrite A3 in E3'. injection E3' as <-. cbv zeta in C. destruct C as (_ & _ & _ & _ & _ & C).
    specialize (C 0%nat i ltac:(cbn; lia) ltac:(cbn; lia)). cbn in C. rewrite C. unfold depth. cbn. ring.
  - intros i Hi. apply Cd. lia.
  - intros i Hi. destruct (Q3 ltac:(rewrite Ek; cbn; intros [[E|[]]|[E|[]]]; discriminate E) _ Uh) as (_ & Q). rewrite Z2 in Hi.
    destruct (Q _ _ (cell_nth ms i ltac:(lia))) as (Q' & _). rewrite repeat_length in Q'. specialize (Q' ltac:(lia)).
    rewrite nth_error_repeat in Q' by lia. congruence.
Qed.

(* The heat calculation of a uniform body: whatever the file, the log ends with the
   solution of the differential equation at the centres of the cells, raised by the
   error of the discretisation. *)
Theorem C104_heat fs input output level lines inp g n W k q acc mx L Rt P P' :
  let h := (W / IZR n)%R in let d := dimension g in
  exact solver -> input <> output -> storeInput (fs input) = Ok lines -> readData PI stod_opt (fs input) = Ok inp ->
  uniform_file lines g n W k q acc mx L Rt -> 2 <= n < 2147483647 -> (0 < W)%R -> (0 < k)%R -> (0 < acc)%R -> 2 <= mx ->
  (g = SLAB -> admissible L) -> admissible Rt -> ((0 < bcA Rt)%R \/ (g = SLAB /\ (0 < bcA L)%R)) ->
  conducts d k q W P P' ->
  (g = SLAB -> (bcA L * P 0 - bcB L * (k * P' 0) = bcC L)%R) -> (bcA Rt * P W + bcB Rt * (k * P' W) = bcC Rt)%R ->
  exists oc fs' head, run fs [input; output; level] = Ok (oc, fs') /\ (forall p, p <> output -> fs' p = fs p) /\
    holds (fs' output) (head ++ "Final temperatures [C]:" ::
      map (fun i => fmt (P ((IZR i + 1 / 2) * h) + q * h ^ 2 / (8 * INR d * k))%R) (zrange 0 n) ++ [" "; (stamp 5 ++ "End simulation")%string])%list.
Proof.
  intros h d Hex Hne H1 H2 Uf Hn HW Hk Hacc Hmx HL HR Hf HP BL BR.
  destruct (uniform_read _ _ _ _ _ _ _ _ _ _ _ _ H1 H2 Uf Hn HW) as (sd & Es & K & Ep & Ea & Em & Hb & Y). cbv zeta in Y.
  destruct Y as (Eg & En & El & Hc & Hu). set (ms := rx_mesh (in_rx inp)) in *. fold h in Hu.
  assert (Hn0 : (0 < IZR n)%R) by (apply (IZR_lt 0); lia).
  assert (Hh : (0 < h)%R) by (apply Rdiv_lt_0_compat; lra).
  assert (EW : (IZR n * h = W)%R) by (unfold h; field; lra).
  assert (Isl : is_slab ms = true <-> g = SLAB) by (unfold is_slab; rewrite Eg; destruct g; split; congruence).
  destruct (C105_uniform_body solver sd L Rt (in_rx inp) h k q P P' Hc Hu Hh Hk Hb Hex) as (old & ms' & Eh & Re & T).
  - fold ms. unfold well_posed. rewrite Isl. tauto.
  - rewrite Ea. exact Hacc.
  - rewrite Em. exact Hmx.
  - fold ms. rewrite Eg, En, EW. exact HP.
  - fold ms. rewrite Eg. exact BL.
  - fold ms. rewrite En, EW. exact BR.
  - fold ms in Eh, Re, T. rewrite En in T. rewrite Eg in T. fold d in T.
    destruct (reheated_facts ms ms' Re Hc) as (Hc' & Ec & _). rewrite En in Ec. pose proof Hc' as (_ & _ & _ & Lm & _). rewrite Ec in Lm.
    destruct (wp_ok _ _ (getTemperatures_wp dm0 ms' "C" ltac:(lia) ltac:(rewrite Ec; exact Lm))) as (v & Ev & Lv & Hv).
    assert (Ex : exists oc, (forall o, problemSolve PI solver sort eig croots E3 Ki3 exp sq to_unsigned o (in_plots inp) (in_solvers inp) (in_rx inp) = Ok oc) /\
      oc_reactor oc = with_mesh ms' (in_rx inp)).
    { rewrite Es, Ep. eexists. split.
      - intros o. unfold problemSolve. rewrite K. unfold singleCalculation, solve1, solveLog, printEigenmodesResults, printResults. rewrite K, Eh. cbn [bind].
        cbn [rx_mesh with_mesh]. rewrite Ev. cbn [bind]. unfold plots. cbn. reflexivity.
      - reflexivity. }
    destruct Ex as (oc & Eoc & Er).
    destruct (log_ends stod_opt solver sort eig croots E3 Ki3 sq to_unsigned fmt zfmt version stamp fs input output level inp oc Hne H2 Eoc) as (fs' & l & head & Hrun & Hf' & Hh').
    exists oc, fs', head. split; [exact Hrun|]. split; [exact Hf'|].
    pose proof (Eoc (mkOutput "" "" "" "" "" None)) as Eo. rewrite Es in Eo.
    pose proof (C83_single_report fmt zfmt l _ _ _ _ _ _ _ _ _ _ _ _ sd _ oc Eo ltac:(rewrite K; discriminate) ltac:(rewrite K; discriminate)) as Rep.
    unfold modes, results in Rep. rewrite K, Er in Rep. unfold heatReport, perCell in Rep. cbn [rx_mesh with_mesh] in Rep. rewrite Ec in Rep.
    rewrite Rep in Hh'. cbn [List.app] in Hh'. rewrite <- app_assoc in Hh'.
    replace (map (fun i => fmt (P ((IZR i + 1 / 2) * h) + q * h ^ 2 / (8 * INR d * k))%R) (zrange 0 n))
      with (map (fun m => fmt (mt_temp m)) (firstn (Z.to_nat n) (ms_mats ms'))); [exact Hh'|].
    symmetry. apply zrange_firstn; [exact Lm|].
    intros j m Hj Nj. f_equal. rewrite <- (T j Hj). unfold temp, cell_material. rewrite (nth_error_nth _ _ dm0 Nj). reflexivity.
Qed.
End EndToEndHeat.
Print Assumptions C104_heat.

(* a file with a slab of four cells *)
Definition heat_text : list string :=
  ["solvers heat"; "geometry slab"; "mesh 4 2.0 fuel"; "temperatures 300.0 4"; "heat_sources 6.0 4"; "solver heat"; "accuracy 0.001"; "max_iteration_number 10";
   "heat_boundary_conditions 1.0 0.0 20.0 1.0 0.0 50.0"; "material fuel"; "thermal_conductivity 2.0"].
Local Notation "'rat' n d" := (Q2R (QArith_base.Qmake n d)) (at level 0, n at level 0, d at level 0).
Ltac number := apply stodR_of; vm_compute; reflexivity.
Ltac entry_of := apply read_entry; [vm_compute; reflexivity|discriminate].
Example C104_heat_met : exists inp,
  storeInput (Some (Files.text heat_text)) = Ok (Data.lines_of heat_text) /\ readData PI stodR (Some (Files.text heat_text)) = Ok inp /\
  uniform_file stodR (Data.lines_of heat_text) SLAB 4 (rat 2 1) (rat 2 1) (rat 6 1) (rat 1 1000) 10
    (mkbc (rat 1 1) (rat 0 1) (rat 20 1)) (mkbc (rat 1 1) (rat 0 1) (rat 50 1)) /\
  admissible (mkbc (rat 1 1) (rat 0 1) (rat 20 1)) /\ (0 < rat 2 1)%R /\ (0 < rat 1 1000)%R /\ (0 < rat 1 1)%R.
Proof.
  assert (B : Files.is_ok (readData PI stodR (Some (Files.text heat_text))) = true) by (lazy; reflexivity).
  destruct (readData PI stodR (Some (Files.text heat_text))) as [inp| | |] eqn:E2; try discriminate B. clear B E2.
  exists inp. split; [vm_compute; reflexivity|]. split; [reflexivity|]. split; [|unfold admissible, Q2R; cbn; repeat split; lra].
  split.
  - entry_of.
  - intros l Hl Hm. apply mentions_contains in Hm. assert (F : forallb (fun l => negb (contains (lower "plots") (lower l))) (data_lines (Data.lines_of heat_text)) = true) by (vm_compute; reflexivity).
    rewrite forallb_forall in F. specialize (F _ Hl). rewrite Hm in F. discriminate F.
  - apply first_word_named. vm_compute. reflexivity.
  - exists "slab". split; [entry_of|cbn; tauto].
  - exists "4", "2.0", "fuel", ["thermal_conductivity"; "2.0"]. split; [entry_of|]. split; [vm_compute; reflexivity|]. split; [number|].
    split; [left; vm_compute; reflexivity|]. split; [|exists "thermal_conductivity", "2.0"; split; [reflexivity|number]].
    apply (findKeyword_section _ _ _ _ "thermal_conductivity 2.0"). vm_compute. reflexivity.
  - right. exists "6.0", "4", [], [(rat 6 1, 4)]. split; [entry_of|]. split; [vm_compute; reflexivity|].
    split; [vm_compute; reflexivity|]. split; [apply Forall2_cons; [split; [number|vm_compute; reflexivity]|apply Forall2_nil]|].
    split; [repeat constructor; cbn; lia|]. split; [cbn; lia|]. reflexivity.
  - exists "0.001". split; [apply (propertyWords_section _ _ HEAT); vm_compute; reflexivity|number].
  - exists "10". split; [apply (propertyWords_section _ _ HEAT); vm_compute; reflexivity|vm_compute; reflexivity].
  - exists ["1.0"; "0.0"; "20.0"; "1.0"; "0.0"; "50.0"]. split; [apply (propertyWords_section _ _ HEAT); vm_compute; reflexivity|].
    left. split; [reflexivity|]. unfold numbers. cbn [bcA bcB bcC]. repeat (apply Forall2_cons; [number|]). apply Forall2_nil.
Qed.
