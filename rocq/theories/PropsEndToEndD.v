(* Property theorem C104 for all harmonics: from the text of the input file to the
   factor and the fluxes in the log file when the eigenvalue routine is asked for all
   modes. [slab_file] is in PropsEndToEndC.v, [finds_modes] in ProofsDominant.v. *)
From Coq Require Import String ZArith List Bool Lia Reals Lra Permutation.
From Verif Require Import Base BaseLemmas NumR LinAlg PowerMethod ModelNumTools ModelEigen ModelMesh ModelReactor ModelText ModelDiffusion ModelHeat ModelSpectrum
  ModelKinetics ModelOutput ModelCalculation ModelInput ModelLog ModelEcho ModelMain ModelProgram.
From Verif Require Import PropsSymmetry ProofsNumTools ProofsInputG ProofsEigen ProofsMesh ProofsInput ProofsInputB ProofsInputD ProofsInputI ProofsInputJ ProofsInputK ProofsDiffusion ProofsDiffusionR ProofsPower ProofsHeatLoop ProofsHeatConstant
  ProofsReport ProofsConverge ProofsConvergeD ProofsSlab PropsInput PropsInputB PropsInputC PropsInputD PropsReading PropsReport PropsEcho PropsProgram PropsEndToEnd PropsEndToEndB PropsSlabFactor PropsRising
  ProofsDominant PropsDominant PropsHarmonics PropsEndToEndC ProofsInputC.
Import ListNotations.
Local Open Scope string_scope.
Local Open Scope Z_scope.

(* every mode has as many entries as the eigenvectors *)
Lemma ges_lengths sort eig (M F : mat R) dir er : sorts sort -> finds_modes eig M F -> GeneralizedEigenSolver sort eig M F dir = Ok er ->
  exists x, hd_error (er_modes er) = Some x /\ forall q, In q (er_modes er) -> vlen (snd q) = mcols M.
Proof.
  intros Hsort ((H1 & H2) & HR & _) E. unfold GeneralizedEigenSolver in E. destruct (eig M F) as [ev evec]. cbn [fst snd] in *.
  set (vals := mkvec (vlen ev) (fun i => cinv (vat ev i))) in E.
  destruct (sortEigenmodes_spec sort vals evec H1 H2) as [[_ Q] | [_ Q]]; rewrite Q in E; cbn [bind] in E; [discriminate|].
  set (l := map (scaled_mode vals evec) (filter (keep vals) (zseq (vlen vals)))) in E. destruct (Hsort l) as [P _].
  unfold er_many in E. destruct (sort l) as [|x rest] eqn:El; [discriminate E|]. destruct x as [k0 f0]. injection E as <-. cbn [er_modes].
  exists (k0, f0). split; [reflexivity|]. intros q Hq. apply (Permutation_in _ (Permutation_sym P)) in Hq. unfold l in Hq. apply in_map_iff in Hq. destruct Hq as (i & <- & _).
  cbn [scaled_mode snd vlen]. exact HR.
Qed.

Section EndToEndHarmonics.
Variable stod_opt : string -> option R.
Variable solver : mat R -> vec R -> vec R.
Variable sort : list (R * vec R) -> list (R * vec R).
Variable eig : mat R -> mat R -> vec (R * R) * mat (R * R).
Variable croots : list R -> list (R * R).
Variables (E3 Ki3 sq : R -> R).
Variable to_unsigned : R -> res Z.
Variables (fmt : R -> string) (zfmt : Z -> string).
Variable version : string.
Variable stamp : Z -> string.
Let run := program PI stod_opt solver sort eig croots E3 Ki3 exp sq to_unsigned fmt zfmt version stamp.

(* A slab in one group with all harmonics: the program ends, and the results in
   the log are the standing waves of the slab and, last, the factor and the cosine of
   C106, with no error of an iteration.  The factor in the log encloses that of the
   diffusion equation. *)
Theorem C104_harmonics fs input output level lines inp n W a df st ss nu fi acc mx :
  let h := (100 * W / IZR n)%R in
  sorts sort -> input <> output -> storeInput (fs input) = Ok lines -> readData PI stod_opt (fs input) = Ok inp ->
  slab_file stod_opt lines "all" n W a df st ss nu fi acc mx -> 2 <= n < 2147483647 -> (0 < W)%R -> (0 <= a <= 1)%R -> (0 < df)%R -> (0 <= ss < st)%R -> (0 < nu)%R -> (0 < fi)%R ->
  exists sd M F theta c, let factor th := (nu * fi / (st - ss + df * (2 * (1 - cos th) / (h * h))))%R in let k := factor theta in
    let flux i := (c * cos (theta * (IZR i - (IZR n - 1) / 2)))%R in
    in_solvers inp = [sd] /\ diffusionSystem PI (in_mesh inp) sd = Ok (M, F) /\ face_condition a h df n theta /\ (0 < c)%R /\ rsum 0 n flux = 1%R /\
    (forall K f, diffuses df (st - ss) (nu * fi) (100 * W) a K f -> let leak := (nu * fi / K - (st - ss))%R in
       (k - h * h * (K * (leak * leak) / (4 * df * (st - ss))) <= K <= k)%R) /\
    (finds_modes eig M F -> (10 / 2 ^ 52 < k)%R ->
     exists oc fs' head modes, run fs [input; output; level] = Ok (oc, fs') /\ (forall p, p <> output -> fs' p = fs p) /\
        (* the modes are the standing waves of the slab *)
        (forall k' x, In (k', x) modes -> exists th A, A <> 0%R /\ k' = factor th /\
           (even_wave a h df n th /\ (forall i, 0 <= i < n -> vat x i = (A * cos (th * (IZR i - (IZR n - 1) / 2)))%R) \/
            odd_wave a h df n th /\ (forall i, 0 <= i < n -> vat x i = (A * sin (th * (IZR i - (IZR n - 1) / 2)))%R))) /\
        (forall th, even_wave a h df n th \/ odd_wave a h df n th -> (10 / 2 ^ 52 < factor th)%R -> exists x, In (factor th, x) modes) /\
        (* the log ends with all of them, if there is more than one, and with the first *)
        holds (fs' output) (head ++
          (if 1 <? zlen modes then flat_map (fun q => let '(kq, x) := nth (Z.to_nat q) modes (0%R, vzeros 0) in
             ("Eigenvalue: " ++ fmt kq)%string :: ("Neutron Flux " ++ zfmt (q + 1))%string :: map (fun i => fmt (vat x i)) (zrange 0 n) ++ [" "])
             (zrange 0 (zlen modes)) else []) ++
          ("Fundamental K-factor: " ++ fmt k)%string :: "Fundamental Neutron Flux [1/(cm2*s)]:" ::
          map (fun i => fmt (flux i)) (zrange 0 n) ++ [" "; (stamp 5 ++ "End simulation")%string])%list).
Proof.
  intros h Hsort Hne H1 H2 Sf Hn HW Ha Hd Hs Hnu Hfi. pose proof (Rmult_lt_0_compat _ _ Hnu Hfi) as Hf.
  destruct (slab_read _ _ _ _ _ _ _ _ _ _ _ _ _ _ _ H1 H2 Sf Hn HW Ha Hd Hs Hf) as (sd & Es & K & Ep & Eac & Emx & Eei' & En & Og & Efis). fold h in Og.
  assert (Eei : sd_eig sd = EigALL) by (destruct Eei' as [[Q _] | [_ Q]]; [discriminate Q|exact Q]). clear Eei'.
  set (ms := in_mesh inp) in *.
  destruct (C106_slab_factor solver ms sd a h df st ss (nu * fi) Og) as (M & F & theta & E & (sv & X) & Ht & Hu & _).
  destruct (C106_slab_factor (fun _ => sv) ms sd a h df st ss (nu * fi) Og) as (M1 & F1 & theta1 & E1 & _ & Ht1 & _ & St). rewrite E in E1. injection E1 as <- <-.
  rewrite (Hu _ Ht1) in St. clear Ht1 theta1 Hu. destruct (St X) as (phi & c & Hc & Hset & Hphi). clear St. rewrite En in *.
  destruct (slab_system _ _ _ _ _ _ _ _ Og) as (M1 & F1 & E1 & R1 & C1 & R2 & C2 & _). rewrite E in E1. injection E1 as <- <-. rewrite En in *.
  exists sd, M, F, theta, c. cbv zeta. set (k := (nu * fi / (st - ss + df * (2 * (1 - cos theta) / (h * h))))%R) in *.
  split; [exact Es|]. split; [exact E|]. split; [exact Ht|]. split; [exact Hc|].
  pose proof Hset as (Hmode & Hnorm & _).
  assert (Lp : vlen phi = n) by (transitivity (mcols M); [apply Hmode|exact C1]).
  assert (Pp : forall i, 0 <= i < n -> (0 <= vat phi i)%R) by (intros i Hi; apply Hmode; lia).
  split.
  { etransitivity; [|exact Hnorm]. unfold vnorm1. rewrite Lp. apply rsum_ext. intros i Hi. cbv beta. rewrite <- Hphi by exact Hi. symmetry. apply Rabs_pos_eq, Pp, Hi. }
  split.
  { intros Ke f HK. assert (N0 : (0 < IZR n)%R) by (apply (IZR_lt 0); lia).
    destruct (C106_accuracy (fun _ => sv) ms sd a h df st ss (nu * fi) M F k phi Ke f Og E Hset) as (_ & _ & B).
    { rewrite En. replace (IZR n * h)%R with (100 * W)%R by (unfold h; field; lra). exact HK. }
    cbv zeta in B. lra. }
  intros Heig Hk.
  pose proof (og_ready _ _ _ _ _ _ _ _ Og) as Hr. pose proof (og_groups _ _ _ _ _ _ _ _ Og) as Gg. pose proof (og_energies _ _ _ _ _ _ _ _ Og) as Ge. pose proof (og_dir _ _ _ _ _ _ _ _ Og) as Gdir.
  destruct (C108_one_group (fun _ => sv) sort eig ms sd _ a a M F k phi (slab_case _ _ _ _ _ _ _ _ Og) Ge Gdir E Hset Hsort Heig Hk Eei) as (er & Eer & (Ek & Ehd & Efl & _) & _).
  rewrite En in Efl.
  destruct (C110_harmonics (fun _ => sv) sort eig ms sd a h df st ss (nu * fi) M F k phi Og E Hset Hsort Heig Hk Eei) as (er2 & Eer2 & Wv & Wc). rewrite Eer in Eer2. injection Eer2 as <-. rewrite En in Wv, Wc.
  assert (Eer' : solveEigen solver sort eig M F sd = Ok er) by (revert Eer; unfold solveEigen; rewrite Eei; exact (fun q => q)).
  destruct (ges_lengths sort eig M F (sd_dir sd) er Hsort Heig) as (_ & _ & Len); [revert Eer; unfold solveEigen; rewrite Eei; exact (fun q => q)|]. rewrite C1 in Len.
  destruct (er_modes er) as [|x rest] eqn:Emodes; [discriminate Ehd|]. injection Ehd as ->.
  destruct (eigen_run solver sort eig croots E3 Ki3 sq to_unsigned fmt (in_rx inp) sd M F er (er_flux er) (er_k er) rest Hr) as (oc & Eoc & Efw & Ecn & Egn & Elm & Hfl & Hall & Hpr); try assumption.
  { change (rx_mesh (in_rx inp)) with ms. lia. }
  { change (rx_mesh (in_rx inp)) with ms. congruence. }
  { change (rx_mesh (in_rx inp)) with ms. intros q Hq. rewrite Emodes in Hq. rewrite (Len q Hq), Gg, En. lia. }
  change (rx_mesh (in_rx inp)) with ms in Ecn, Egn, Elm, Hfl, Hall. rewrite En, Gg in *.
  assert (Eoc' : forall o, problemSolve PI solver sort eig croots E3 Ki3 exp sq to_unsigned o (in_plots inp) (in_solvers inp) (in_rx inp) = Ok oc) by (rewrite Es, Ep; exact Eoc).
  destruct (log_ends stod_opt solver sort eig croots E3 Ki3 sq to_unsigned fmt zfmt version stamp fs input output level inp oc Hne H2 Eoc') as (fs' & l & head & Hrun & Hf' & Hh').
  pose proof (C83_single_report fmt zfmt l _ _ _ _ _ _ _ _ _ _ _ _ sd _ oc (Eoc (mkOutput "" "" "" "" "" None)) ltac:(rewrite K; discriminate) ltac:(rewrite K; discriminate)) as Rep.
  assert (Epr : powerReport fmt (oc_reactor oc) = []).
  { destruct (C14_untouched PI stod_opt _ _ H2) as (_ & _ & _ & _ & Pw & _).
    assert (Hbw : forall i, 0 <= i < n -> ((vat (ms_bounds ms) (i + 1) - vat (ms_bounds ms) i) * 100 = h)%R).
    { intros i Hi. pose proof (og_tables _ _ _ _ _ _ _ _ Og) as Tb. cbn zeta in Tb. exact (proj1 (Tb i ltac:(lia))). }
    change (rx_mesh (in_rx inp)) with ms in Hpr. rewrite En, Gg in Hpr. apply Hpr.
    - apply Pw. rewrite Es. cbn. rewrite K. intros ([X'|[]] & _). discriminate X'.
    - intros i Hi. unfold cell_volume. rewrite (og_slab _ _ _ _ _ _ _ _ Og). cbn [body_volume]. pose proof (Hbw i Hi). pose proof (og_width _ _ _ _ _ _ _ _ Og). lra.
    - intros e i He Hi. assert (e = 0) as -> by lia. rewrite Z.mul_0_l, Z.add_0_r. split.
      + assert (Fi : law_at mt_fisXS ms 0 i = fi) by (apply Efis; exact Hi). rewrite Fi. lra.
      + rewrite Efl by exact Hi. apply Pp, Hi. }
  unfold PropsReport.modes, results in Rep. rewrite K, Gdir, Efw, Epr, app_nil_r in Rep.
  assert (Cell : forall q, 0 <= q < zlen (er_modes er) -> perCell fmt (fun m => mat_at (mt_flux m) 0 q) (oc_reactor oc) = map (fun i => fmt (vat (snd (nth (Z.to_nat q) (er_modes er) dmode)) i)) (zrange 0 n)).
  { intros q Hq. unfold perCell. rewrite Ecn. symmetry. apply zrange_firstn; [exact Elm|]. intros i mt Hi Ni. f_equal.
    rewrite <- (Z.add_0_r i) at 1. rewrite <- (Z.mul_0_l n). rewrite <- Hall by lia. unfold cell_material. rewrite (nth_error_nth _ _ dm0 Ni). reflexivity. }
  assert (Md : forall q, 0 <= q < zlen (er_modes er) -> modeReport fmt (fun m => mt_flux m) q (oc_reactor oc) = (map (fun i => fmt (vat (snd (nth (Z.to_nat q) (er_modes er) dmode)) i)) (zrange 0 n) ++ [" "])%list).
  { intros q Hq. unfold modeReport. rewrite Egn. change (zrange 0 1) with [0]. cbn [flat_map]. rewrite app_nil_r, Cell by exact Hq. reflexivity. }
  assert (Zl : 0 < zlen (er_modes er)) by (rewrite Emodes; unfold zlen; cbn [length]; lia).
  unfold fluxReport in Rep. rewrite Md in Rep by lia.
  assert (Ms : modesReport fmt zfmt "Neutron Flux" (map fst (er_modes er)) (fun m => mt_flux m) (oc_reactor oc) =
    (if 1 <? zlen (er_modes er) then flat_map (fun q => let '(kq, x) := nth (Z.to_nat q) (er_modes er) (0%R, vzeros 0) in
             ("Eigenvalue: " ++ fmt kq)%string :: ("Neutron Flux " ++ zfmt (q + 1))%string :: map (fun i => fmt (vat x i)) (zrange 0 n) ++ [" "])%list
             (zrange 0 (zlen (er_modes er))) else [])).
  { unfold modesReport. assert (Lm : zlen (map fst (er_modes er)) = zlen (er_modes er)) by (unfold zlen; rewrite map_length; reflexivity). rewrite Lm. destruct (1 <? zlen (er_modes er)); [|reflexivity].
    apply flat_map_ext_in. intros q Hq. apply zrange_In in Hq. rewrite Md by exact Hq. change (@n0 R NumR) with (fst dmode). rewrite map_nth. fold dmode. destruct (nth (Z.to_nat q) (er_modes er) dmode) as [kq x]. reflexivity. }
  rewrite Ms in Rep. clear Ms Md Cell.
  rewrite <- Emodes in Wv, Wc. exists oc, fs', head, (er_modes er). split; [exact Hrun|]. split; [exact Hf'|].
  split; [intros k' x Hin; destruct (Wv _ _ Hin) as (_ & _ & _ & Wq); exact Wq|]. split; [exact Wc|].
  rewrite Rep in Hh'. 
  replace (map (fun i => fmt (c * cos (theta * (IZR i - (IZR n - 1) / 2)))) (zrange 0 n)) with (map (fun i => fmt (vat (snd (nth (Z.to_nat 0) (er_modes er) dmode)) i)) (zrange 0 n)).
  - assert (Ehd : hd (@n0 R NumR) (map fst (er_modes er)) = k) by (rewrite Emodes; exact Ek). rewrite Ehd in Hh'.
    rewrite <- !app_assoc in Hh'. cbn [List.app] in Hh'. rewrite <- !app_assoc in Hh'. exact Hh'.
  - apply map_ext_in. intros i Hi. apply zrange_In in Hi. f_equal. rewrite Emodes. cbn [nth Z.to_nat snd]. rewrite Efl, Hphi by exact Hi. reflexivity.
Qed.
End EndToEndHarmonics.
Print Assumptions C104_harmonics.

(* a file with a slab of four cells that asks for all harmonics; eigenvalue routines that meet
   [finds_modes] are in C108_met *)
Definition slab_text_all : list string :=
  ["solvers diffusion"; "geometry slab"; "mesh 4 1.0 fuel"; "temperatures 300.0 4"; "solver diffusion"; "accuracy 0.001"; "max_iteration_number 100"; "albedo 0.5 0.5";
   "energies 1"; "direction forward"; "eigenmodes all"; "material fuel"; "ni(1) 2.5"; "chi(1) 1.0"; "fission(1) 0.1"; "total(1) 0.6"; "diffCoeff(1) 1.5";
   "scattMatrix(1, 1) 0.4"].
Local Notation "'rat' n d" := (Q2R (QArith_base.Qmake n d)) (at level 0, n at level 0, d at level 0).
Example C104_harmonics_met : exists inp,
  storeInput (Some (Files.text slab_text_all)) = Ok (Data.lines_of slab_text_all) /\ readData PI stodR (Some (Files.text slab_text_all)) = Ok inp /\
  slab_file stodR (Data.lines_of slab_text_all) "all" 4 (rat 1 1) (rat 1 2) (rat 3 2) (rat 3 5) (rat 2 5) (rat 5 2) (rat 1 10) (rat 1 1000) 100 /\
  (0 < rat 1 1)%R /\ (0 <= rat 1 2 <= 1)%R /\ (0 < rat 3 2)%R /\ (0 <= rat 2 5 < rat 3 5)%R /\ (0 < rat 5 2)%R /\ (0 < rat 1 10)%R.
Proof.
  assert (B : Files.is_ok (readData PI stodR (Some (Files.text slab_text_all))) = true) by (lazy; reflexivity).
  destruct (readData PI stodR (Some (Files.text slab_text_all))) as [inp| | |] eqn:E2; try discriminate B. clear B E2.
  exists inp. split; [vm_compute; reflexivity|]. split; [reflexivity|]. split; [|unfold Q2R; cbn; repeat split; lra].
  assert (One : (1 = rat 1 1)%R) by (unfold Q2R; cbn; lra).
  split.
  - entry_of.
  - intros l Hl Hm. apply mentions_contains in Hm. assert (F : forallb (fun l => negb (contains (lower "plots") (lower l))) (data_lines (Data.lines_of slab_text_all)) = true) by (vm_compute; reflexivity).
    rewrite forallb_forall in F. specialize (F _ Hl). rewrite Hm in F. discriminate F.
  - apply first_word_named. vm_compute. reflexivity.
  - entry_of.
  - exists "4", "1.0", "fuel". split; [entry_of|]. split; [vm_compute; reflexivity|]. split; [number|]. split; [left; vm_compute; reflexivity|].
    split; [exists ["ni(1)"], "2.5"; split; [reflexivity|]; split; [apply (findKeyword_section _ _ _ _ "ni(1) 2.5"); vm_compute; reflexivity|number]|].
    split; [rewrite One at 1; exists ["chi(1)"], "1.0"; split; [reflexivity|]; split; [apply (findKeyword_section _ _ _ _ "chi(1) 1.0"); vm_compute; reflexivity|number]|].
    split; [exists ["fission(1)"], "0.1"; split; [reflexivity|]; split; [apply (findKeyword_section _ _ _ _ "fission(1) 0.1"); vm_compute; reflexivity|number]|].
    split; [exists ["total(1)"], "0.6"; split; [reflexivity|]; split; [apply (findKeyword_section _ _ _ _ "total(1) 0.6"); vm_compute; reflexivity|number]|].
    split; [exists ["diffcoeff(1)"], "1.5"; split; [reflexivity|]; split; [apply (findKeyword_section _ _ _ _ "diffcoeff(1) 1.5"); vm_compute; reflexivity|number]|].
    exists ["scattmatrix(1,"; "1)"], "0.4"; split; [reflexivity|]; split; [apply (findKeyword_section _ _ _ _ "scattmatrix(1, 1) 0.4"); vm_compute; reflexivity|number].
  - exists "1". split; [apply (propertyWords_section _ _ DIFFUSION); vm_compute; reflexivity|vm_compute; reflexivity].
  - exists "0.5", "0.5". split; [apply (propertyWords_section _ _ DIFFUSION); vm_compute; reflexivity|split; number].
  - apply (propertyWords_section _ _ DIFFUSION); vm_compute; reflexivity.
  - apply (propertyWords_section _ _ DIFFUSION); vm_compute; reflexivity.
  - exists "0.001". split; [apply (propertyWords_section _ _ DIFFUSION); vm_compute; reflexivity|number].
  - exists "100". split; [apply (propertyWords_section _ _ DIFFUSION); vm_compute; reflexivity|vm_compute; reflexivity].
Qed.
