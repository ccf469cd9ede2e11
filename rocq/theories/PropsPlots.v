(* Plots: C70. *)
From Coq Require QArith_base DecimalString DecimalPos DecimalZ FinFun.
From Coq Require Import String Ascii ZArith List Bool Lia Arith Reals Lra.
From Verif Require Import Base BaseLemmas NumR ModelText ModelNumTools ModelEigen ModelMesh ModelReactor ModelDiffusion
  ModelHeat ModelSpectrum ModelKinetics ModelOutput ModelCalculation ProofsMesh ProofsText ProofsCoupled ProofsFrame NumQ ProofsDiffusionR ProofsHeat
  ProofsPowerB PropsCalculation.
Import ListNotations.
Local Open Scope string_scope.
Local Open Scope Z_scope.

Lemma contain_in l k : plotsContain l k = true <-> In k l.
Proof.
  unfold plotsContain. rewrite existsb_exists. split.
  - intros (x & Hx & E). destruct k, x; try discriminate; exact Hx.
  - intros H. exists k. split; [exact H|]. destruct k; reflexivity.
Qed.

Lemma in_zrange i lo hi : In i (zrange lo hi) <-> lo <= i < hi.
Proof.
  unfold zrange. rewrite in_map_iff. split.
  - intros (k & <- & Hk). apply in_seq in Hk. lia.
  - intros H. exists (Z.to_nat (i - lo)). split; [lia|]. apply in_seq. lia.
Qed.
Lemma zrange_nth {A} (f : Z -> A) n k : 0 <= k < n -> nth_error (map f (zrange 0 n)) (Z.to_nat k) = Some (f k).
Proof.
  intros H. unfold zrange. rewrite map_map, nth_error_map.
  assert (E : nth_error (seq 0 (Z.to_nat (n - 0))) (Z.to_nat k) = Some (Z.to_nat k)).
  { rewrite nth_error_nth' with (d := 0%nat) by (rewrite seq_length; lia). rewrite seq_nth by lia. reflexivity. }
  rewrite E. cbn. do 2 f_equal. lia.
Qed.
Lemma zrange_length n : 0 <= n -> zlen (zrange 0 n) = n.
Proof. intros H. unfold zlen, zrange. rewrite map_length, seq_length. lia. Qed.

Section Plots.
Context {T : Type} {N : Num T}.
Variable o : output.

(* what plots does for each kind *)
Definition part (ms : mesh T) (k : PlotKind) : res (list (plotFile T)) :=
  x <- getMeshMiddlePoints ms ;;
  match k with
  | TEMPERATURE => v <- getTemperatures ms "C" ;; plotEigenVectorXd o x v TEMPERATURE
  | POWERDENSITY => v <- getHeatSources ms ;; plotEigenVectorXd o x v POWERDENSITY
  | TOTALFLUX => f <- getTotalFluxes ms ;; plotEigenMatrixXd o x f TOTALFLUX
  | NEUTRONFLUX => t <- getNeutronFluxes ms ;; Ok (plot3DEigenTensor o x t NEUTRONFLUX 5)
  | ADJOINTFLUX => t <- getAdjointFluxes ms ;; Ok (plot3DEigenTensor o x t ADJOINTFLUX 5)
  | PlotUNDEFINED => Ok []
  end.

Lemma plots_parts l ms files : plots o l ms = Ok files ->
  forall f, In f files <-> exists k fs, k <> PlotUNDEFINED /\ In k l /\ part ms k = Ok fs /\ In f fs.
Proof.
  intros H. unfold plots in H.
  destruct (bind_ok_inv _ _ _ H) as (a & Ea & H1). destruct (bind_ok_inv _ _ _ H1) as (b & Eb & H2).
  destruct (bind_ok_inv _ _ _ H2) as (c & Ec & H3). destruct (bind_ok_inv _ _ _ H3) as (d & Ed & H4).
  destruct (bind_ok_inv _ _ _ H4) as (e & Ee & H5). injection H5 as <-.
  assert (G : forall k (m : res (list (plotFile T))) fs, (if plotsContain l k then m else Ok []) = Ok fs -> m = part ms k ->
     (In k l /\ part ms k = Ok fs) \/ (~ In k l /\ fs = [])).
  { intros k m fs E Em. destruct (plotsContain l k) eqn:C.
    - left. rewrite <- Em. split; [apply contain_in; exact C|exact E].
    - right. split; [intros Hi; apply contain_in in Hi; congruence|congruence]. }
  pose proof (G TEMPERATURE _ _ Ea eq_refl) as Ga. pose proof (G POWERDENSITY _ _ Eb eq_refl) as Gb.
  pose proof (G TOTALFLUX _ _ Ec eq_refl) as Gc. pose proof (G NEUTRONFLUX _ _ Ed eq_refl) as Gd.
  pose proof (G ADJOINTFLUX _ _ Ee eq_refl) as Ge. clear - Ga Gb Gc Gd Ge.
  intros f. rewrite !in_app_iff. split.
  - intros [Hf|[Hf|[Hf|[Hf|Hf]]]].
    + destruct Ga as [[A B]|[A ->]]; [|destruct Hf]. exists TEMPERATURE, a. repeat split; auto; discriminate.
    + destruct Gb as [[A B]|[A ->]]; [|destruct Hf]. exists POWERDENSITY, b. repeat split; auto; discriminate.
    + destruct Gc as [[A B]|[A ->]]; [|destruct Hf]. exists TOTALFLUX, c. repeat split; auto; discriminate.
    + destruct Gd as [[A B]|[A ->]]; [|destruct Hf]. exists NEUTRONFLUX, d. repeat split; auto; discriminate.
    + destruct Ge as [[A B]|[A ->]]; [|destruct Hf]. exists ADJOINTFLUX, e. repeat split; auto; discriminate.
  - intros (k & fs & Hk & Hi & E & Hf). destruct k; try congruence.
    + destruct Gd as [[_ B]|[A _]]; [|contradiction]. assert (fs = d) as -> by congruence. tauto.
    + destruct Ge as [[_ B]|[A _]]; [|contradiction]. assert (fs = e) as -> by congruence. tauto.
    + destruct Gc as [[_ B]|[A _]]; [|contradiction]. assert (fs = c) as -> by congruence. tauto.
    + destruct Ga as [[_ B]|[A _]]; [|contradiction]. assert (fs = a) as -> by congruence. tauto.
    + destruct Gb as [[_ B]|[A _]]; [|contradiction]. assert (fs = b) as -> by congruence. tauto.
Qed.

Definition limit (n : Z) : Z := if n <? 5 then n else 5.
Lemma limit_bounds n : 0 <= n -> 0 <= limit n <= 5 /\ limit n <= n.
Proof. unfold limit. destruct (Z.ltb_spec n 5); lia. Qed.

Lemma part_files ms k fs f : part ms k = Ok fs -> In f fs ->
  (exists suffix, pl_name f = getInputNameNoExt o ++ "_" ++ get_plot_name k ++ suffix) /\
  getMeshMiddlePoints ms = Ok (pl_x f) /\ zlen (pl_curves f) <= 5.
Proof.
  unfold part. intros H Hf. destruct (bind_ok_inv _ _ _ H) as (x & Ex & H1). clear H. rewrite Ex.
  assert (V : forall v k, plotEigenVectorXd o x v k = Ok fs ->
    (exists suffix, pl_name f = getInputNameNoExt o ++ "_" ++ get_plot_name k ++ suffix) /\ Ok x = Ok (pl_x f) /\ zlen (pl_curves f) <= 5).
  { clear H1. intros v k' H. unfold plotEigenVectorXd in H. destruct (bind_ok_inv _ _ _ H) as (m & _ & H1).
    destruct (is_equal m n0); injection H1 as <-; [destruct Hf|]. destruct Hf as [<-|[]]. cbn [pl_name pl_x pl_curves].
    split; [|split; [reflexivity|unfold zlen; cbn; lia]]. exists ".pdf". unfold plotName. rewrite !append_assoc. reflexivity. }
  assert (W : forall t k, In f (plot3DEigenTensor o x t k 5) ->
    (exists suffix, pl_name f = getInputNameNoExt o ++ "_" ++ get_plot_name k ++ suffix) /\ Ok x = Ok (pl_x f) /\ zlen (pl_curves f) <= 5).
  { clear. intros t k Hf. unfold plot3DEigenTensor in Hf. destruct (td2 t =? 0); [destruct Hf|].
    apply in_map_iff in Hf as (e & <- & _). cbn [pl_name pl_x pl_curves]. split; [|split; [reflexivity|]].
    - eexists. unfold plotName. rewrite !append_assoc. reflexivity.
    - unfold zlen. rewrite map_length. unfold zrange. rewrite map_length, seq_length. destruct (Z.ltb_spec (td2 t) 5); lia. }
  destruct k.
  - injection H1 as <-. destruct Hf.
  - destruct (bind_ok_inv _ _ _ H1) as (t & _ & H2). injection H2 as <-. apply (W t). exact Hf.
  - destruct (bind_ok_inv _ _ _ H1) as (t & _ & H2). injection H2 as <-. apply (W t). exact Hf.
  - destruct (bind_ok_inv _ _ _ H1) as (a & _ & H2). unfold plotEigenMatrixXd in H2. destruct (bind_ok_inv _ _ _ H2) as (m & _ & H3).
    destruct (is_equal m n0); injection H3 as <-; [destruct Hf|]. apply in_map_iff in Hf as (e & <- & _).
    cbn [pl_name pl_x pl_curves]. split; [|split; [reflexivity|unfold zlen; cbn; lia]].
    eexists. unfold plotName. rewrite !append_assoc. reflexivity.
  - destruct (bind_ok_inv _ _ _ H1) as (v & _ & H2). apply (V v). exact H2.
  - destruct (bind_ok_inv _ _ _ H1) as (v & _ & H2). apply (V v). exact H2.
Qed.

(* Nothing is plotted but the kinds asked for, against the middles of the
   cells and with at most five curves. *)
Theorem C70_nothing_else l (ms : mesh T) files : plots o l ms = Ok files ->
  forall f, In f files -> exists k suffix, In k l /\ k <> PlotUNDEFINED /\
    pl_name f = getInputNameNoExt o ++ "_" ++ get_plot_name k ++ suffix /\
    getMeshMiddlePoints ms = Ok (pl_x f) /\ zlen (pl_curves f) <= 5.
Proof.
  intros H f Hf. apply (plots_parts _ _ _ H) in Hf as (k & fs & Hk & Hi & E & Hf).
  destruct (part_files _ _ _ _ E Hf) as ((s & Es) & Ex & Hc). exists k, s. auto.
Qed.

(* A flux plot that is asked for is made: one file for each group, whose curves
   are the first five modes, or all of them if there are fewer. *)
Theorem C70_flux_plotted_partial l (ms : mesh T) files k modes :
  plots o l ms = Ok files -> In k l ->
  (k = NEUTRONFLUX /\ getNeutronFluxes ms = Ok modes) \/ (k = ADJOINTFLUX /\ getAdjointFluxes ms = Ok modes) ->
  0 < td2 modes ->
  forall e, 0 <= e < td0 modes -> exists f, In f files /\
    pl_name f = getInputNameNoExt o ++ "_" ++ get_plot_name k ++ "_" ++ to_string (e + 1) ++ ".pdf" /\
    zlen (pl_curves f) = Z.min 5 (td2 modes) /\
    forall n, 0 <= n < Z.min 5 (td2 modes) -> exists label v, nth_error (pl_curves f) (Z.to_nat n) = Some (label, v) /\
      label = (if n =? 0 then "fundamental" else to_string (n + 1)) /\
      vlen v = td1 modes /\ forall m, vat v m = t3_at modes e m n.
Proof.
  intros H Hi Hk Hm e He.
  assert (Hx : exists x, getMeshMiddlePoints ms = Ok x).
  { unfold plots in H. destruct (bind_ok_inv _ _ _ H) as (a & Ea & H1). destruct (bind_ok_inv _ _ _ H1) as (b & Eb & H2).
    destruct (bind_ok_inv _ _ _ H2) as (c & Ec & H3). destruct (bind_ok_inv _ _ _ H3) as (d & Ed & H4).
    destruct (bind_ok_inv _ _ _ H4) as (f & Ef & _).
    destruct Hk as [[-> _]|[-> _]]; apply contain_in in Hi; rewrite Hi in *.
    - destruct (bind_ok_inv _ _ _ Ed) as (x & E & _). eauto.
    - destruct (bind_ok_inv _ _ _ Ef) as (x & E & _). eauto. }
  destruct Hx as (x & Ex).
  assert (Ep : part ms k = Ok (plot3DEigenTensor o x modes k 5)).
  { unfold part. rewrite Ex. cbn [bind]. destruct Hk as [[-> E]|[-> E]]; rewrite E; reflexivity. }
  assert (El : (if td2 modes <? 5 then td2 modes else 5) = Z.min 5 (td2 modes)) by (destruct (Z.ltb_spec (td2 modes) 5); lia).
  set (file := mkPlot (plotName o k ++ "_" ++ to_string (e + 1) ++ ".pdf")
        (match k with NEUTRONFLUX => "Neutron Flux [1/cm2/s]" | ADJOINTFLUX => "Adjoint Flux [arbitrary]" | _ => "" end) x
        (map (fun n => (if n =? 0 then "fundamental" else to_string (n + 1), mkvec (td1 modes) (fun m => t3_at modes e m n)))
           (zrange 0 (Z.min 5 (td2 modes))))).
  exists file. split; [|split; [|split]].
  - apply (plots_parts _ _ _ H). exists k, (plot3DEigenTensor o x modes k 5).
    split; [destruct Hk as [[-> _]|[-> _]]; discriminate|]. split; [exact Hi|]. split; [exact Ep|].
    unfold plot3DEigenTensor. replace (td2 modes =? 0) with false by lia. rewrite El.
    apply in_map_iff. exists e. split; [reflexivity|]. apply in_zrange. exact He.
  - cbn [file pl_name]. unfold plotName. rewrite !append_assoc. reflexivity.
  - cbn [file pl_curves]. unfold zlen. rewrite map_length. apply zrange_length. lia.
  - intros n Hn. cbn [file pl_curves]. eexists. eexists. rewrite zrange_nth by exact Hn.
    split; [reflexivity|]. split; [reflexivity|]. split; [reflexivity|]. intros m. reflexivity.
Qed.

(* Temperatures and power densities asked for are plotted as they are, unless
   the smallest of them is zero. *)
Theorem C70_values_plotted_partial l (ms : mesh T) files k v low :
  plots o l ms = Ok files -> In k l ->
  (k = TEMPERATURE /\ getTemperatures ms "C" = Ok v) \/ (k = POWERDENSITY /\ getHeatSources ms = Ok v) ->
  minCoeff (list_of_vec v) = Ok low ->
  (is_equal low n0 = false -> exists f, In f files /\
     pl_name f = getInputNameNoExt o ++ "_" ++ get_plot_name k ++ ".pdf" /\ pl_curves f = [("", v)]) /\
  (is_equal low n0 = true -> forall f, In f files -> pl_curves f <> [("", v)] \/
     pl_name f <> getInputNameNoExt o ++ "_" ++ get_plot_name k ++ ".pdf").
Proof.
  intros H Hi Hk Hl. pose proof (plots_parts _ _ _ H) as Hp.
  assert (Hx : exists x, getMeshMiddlePoints ms = Ok x).
  { unfold plots in H. destruct (bind_ok_inv _ _ _ H) as (a & Ea & H1). destruct (bind_ok_inv _ _ _ H1) as (b & Eb & H2).
    destruct Hk as [[-> _]|[-> _]]; apply contain_in in Hi; rewrite Hi in *.
    - destruct (bind_ok_inv _ _ _ Ea) as (x & E & _). eauto.
    - destruct (bind_ok_inv _ _ _ Eb) as (x & E & _). eauto. }
  destruct Hx as (x & Ex).
  assert (Ep : part ms k = plotEigenVectorXd o x v k).
  { unfold part. rewrite Ex. cbn [bind]. destruct Hk as [[-> E]|[-> E]]; rewrite E; reflexivity. }
  unfold plotEigenVectorXd in Ep. rewrite Hl in Ep. cbn [bind] in Ep. split; intros Hz; rewrite Hz in Ep.
  - set (fs := [_]) in Ep. eexists. split; [apply Hp; exists k, fs; split; [destruct Hk as [[-> _]|[-> _]]; discriminate|];
      split; [exact Hi|]; split; [exact Ep|left; reflexivity]|].
    cbn [pl_name pl_curves]. split; [unfold plotName; rewrite !append_assoc; reflexivity|reflexivity].
  - intros f Hf. right. intros En. apply Hp in Hf as (k' & fs & Hk' & Hi' & E' & Hf).
    destruct (part_files _ _ _ _ E' Hf) as ((s & Es) & _).
    rewrite En in Es. apply append_inv_l in Es. injection Es as Es.
    assert (k' = k).
    { destruct Hk as [[-> _]|[-> _]], k'; try congruence; cbn in Es; try discriminate; reflexivity. }
    subst k'. rewrite Ep in E'. injection E' as <-. destruct Hf.
Qed.
(* No file of a call replaces another: the names are all different. *)
Lemma to_string_inj a b : to_string a = to_string b -> a = b.
Proof.
  intros H. apply (f_equal DecimalString.NilZero.int_of_string) in H. unfold to_string in H.
  assert (K : forall z, DecimalString.NilZero.int_of_string (DecimalString.NilZero.string_of_int (Z.to_int z)) = Some (Z.to_int z)).
  { intros z. apply DecimalString.NilZero.isi; destruct z; cbn; try discriminate;
      intros E; injection E as E; apply (DecimalPos.Unsigned.to_uint_nonnil p E). }
  rewrite !K in H. injection H as H. apply (f_equal Z.of_int) in H. rewrite !DecimalZ.of_to in H. exact H.
Qed.
Lemma part_nodup ms k fs : part ms k = Ok fs -> NoDup (map (@pl_name T) fs).
Proof.
  unfold part. intros H. destruct (bind_ok_inv _ _ _ H) as (x & _ & H1). clear H.
  assert (J : forall n p, NoDup (map (fun e => p ++ "_" ++ to_string (e + 1) ++ ".pdf") (zrange 0 n))).
  { intros n p. apply FinFun.Injective_map_NoDup.
    - intros a b E. apply append_inv_l, append_inv_l, append_inv_r, to_string_inj in E. lia.
    - apply FinFun.Injective_map_NoDup; [|apply seq_NoDup]. intros a b E. lia. }
  assert (V : forall v k, plotEigenVectorXd o x v k = Ok fs -> NoDup (map (@pl_name T) fs)).
  { intros v k' H. unfold plotEigenVectorXd in H. destruct (bind_ok_inv _ _ _ H) as (m & _ & H2).
    destruct (is_equal m n0); injection H2 as <-; repeat constructor. intros []. }
  assert (W : forall t k, NoDup (map (@pl_name T) (plot3DEigenTensor o x t k 5))).
  { intros t k'. unfold plot3DEigenTensor. destruct (td2 t =? 0); [constructor|]. rewrite map_map. apply J. }
  destruct k.
  - injection H1 as <-. constructor.
  - destruct (bind_ok_inv _ _ _ H1) as (t & _ & H2). injection H2 as <-. apply W.
  - destruct (bind_ok_inv _ _ _ H1) as (t & _ & H2). injection H2 as <-. apply W.
  - destruct (bind_ok_inv _ _ _ H1) as (a & _ & H2). unfold plotEigenMatrixXd in H2. destruct (bind_ok_inv _ _ _ H2) as (m & _ & H3).
    destruct (is_equal m n0); injection H3 as <-; [constructor|]. rewrite map_map. apply J.
  - destruct (bind_ok_inv _ _ _ H1) as (v & _ & H2). apply (V v _ H2).
  - destruct (bind_ok_inv _ _ _ H1) as (v & _ & H2). apply (V v _ H2).
Qed.
Lemma nodup_app {A} (a b : list A) : NoDup a -> NoDup b -> (forall x, In x a -> ~ In x b) -> NoDup (a ++ b)%list.
Proof.
  intros Ha Hb H. induction Ha as [|x a Hx Ha IH]; [exact Hb|]. cbn. constructor.
  - rewrite in_app_iff. intros [C|C]; [exact (Hx C)|exact (H x (or_introl eq_refl) C)].
  - apply IH. intros y Hy. apply H. right. exact Hy.
Qed.
Theorem C70_distinct_files l (ms : mesh T) files : plots o l ms = Ok files -> NoDup (map (@pl_name T) files).
Proof.
  intros H. unfold plots in H.
  destruct (bind_ok_inv _ _ _ H) as (a & Ea & H1). destruct (bind_ok_inv _ _ _ H1) as (b & Eb & H2).
  destruct (bind_ok_inv _ _ _ H2) as (c & Ec & H3). destruct (bind_ok_inv _ _ _ H3) as (d & Ed & H4).
  destruct (bind_ok_inv _ _ _ H4) as (e & Ee & H5). injection H5 as <-.
  assert (G : forall k (m : res (list (plotFile T))) fs, (if plotsContain l k then m else Ok []) = Ok fs -> m = part ms k ->
     NoDup (map (@pl_name T) fs) /\ forall n, In n (map (@pl_name T) fs) -> exists s, n = getInputNameNoExt o ++ "_" ++ get_plot_name k ++ s).
  { intros k m fs E ->. destruct (plotsContain l k); [|injection E as <-; split; [constructor|intros n []]].
    split; [exact (part_nodup _ _ _ E)|]. intros n Hn. apply in_map_iff in Hn as (f & <- & Hf).
    exact (proj1 (part_files _ _ _ _ E Hf)). }
  destruct (G TEMPERATURE _ _ Ea eq_refl) as [Na Ga]. destruct (G POWERDENSITY _ _ Eb eq_refl) as [Nb Gb].
  destruct (G TOTALFLUX _ _ Ec eq_refl) as [Nc Gc]. destruct (G NEUTRONFLUX _ _ Ed eq_refl) as [Nd Gd].
  destruct (G ADJOINTFLUX _ _ Ee eq_refl) as [Ne Ge]. clear - Na Ga Nb Gb Nc Gc Nd Gd Ne Ge.
  rewrite !map_app.
  assert (D : forall n k k' s s', n = getInputNameNoExt o ++ "_" ++ get_plot_name k ++ s ->
     n = getInputNameNoExt o ++ "_" ++ get_plot_name k' ++ s' -> get_plot_name k ++ s = get_plot_name k' ++ s').
  { intros n k k' s s' -> E. apply append_inv_l, append_inv_l in E. exact E. }
  repeat apply nodup_app; auto; intros n Hn; rewrite ?in_app_iff; intros Hm;
    repeat (destruct Hm as [Hm|Hm]);
    repeat match goal with
    | [ I : In n (map _ ?x), G : forall n, In n (map _ ?x) -> _ |- _ ] => apply G in I as (? & I)
    end;
    match goal with [ A : n = _, B : n = _ |- _ ] => pose proof (D _ _ _ _ _ A B) as E; cbn in E; discriminate E end.
Qed.

(* The total flux has a file for each group if it is plotted at all. *)
Theorem C70_total_flux_plotted_partial l (ms : mesh T) files t low :
  plots o l ms = Ok files -> In TOTALFLUX l -> getTotalFluxes ms = Ok t -> minCoeff (list_of_mat t) = Ok low ->
  is_equal low n0 = false -> forall e, 0 <= e < mrows t -> exists f v, In f files /\
    pl_name f = getInputNameNoExt o ++ "_totalflux_" ++ to_string (e + 1) ++ ".pdf" /\ pl_curves f = [("", v)] /\
    vlen v = mcols t /\ forall m, vat v m = mat_at t e m.
Proof.
  intros H Hi Et Hl Hz e He. pose proof (plots_parts _ _ _ H) as Hp.
  assert (Hx : exists x, getMeshMiddlePoints ms = Ok x).
  { unfold plots in H. destruct (bind_ok_inv _ _ _ H) as (a & Ea & H1). destruct (bind_ok_inv _ _ _ H1) as (b & Eb & H2).
    destruct (bind_ok_inv _ _ _ H2) as (c & Ec & H3).
    apply contain_in in Hi; rewrite Hi in *. destruct (bind_ok_inv _ _ _ Ec) as (x & E & _). eauto. }
  destruct Hx as (x & Ex).
  assert (Ep : part ms TOTALFLUX = plotEigenMatrixXd o x t TOTALFLUX).
  { unfold part. rewrite Ex. cbn [bind]. rewrite Et. reflexivity. }
  unfold plotEigenMatrixXd in Ep. rewrite Hl in Ep. cbn [bind] in Ep. rewrite Hz in Ep.
  exists (mkPlot (plotName o TOTALFLUX ++ "_" ++ to_string (e + 1) ++ ".pdf") "Total Flux [1/cm2/s]" x
            [("", mkvec (mcols t) (fun m => mat_at t e m))]), (mkvec (mcols t) (fun m => mat_at t e m)).
  split; [|split; [|split; [reflexivity|split; [reflexivity|intros; reflexivity]]]].
  - apply Hp. exists TOTALFLUX. eexists. split; [discriminate|]. split; [exact Hi|]. split; [exact Ep|].
    apply in_map_iff. exists e. split; [reflexivity|]. apply in_zrange. exact He.
  - cbn [pl_name]. unfold plotName. rewrite !append_assoc. reflexivity.
Qed.
End Plots.
Print Assumptions C70_distinct_files.
Print Assumptions C70_total_flux_plotted_partial.
Print Assumptions C70_nothing_else.
Print Assumptions C70_flux_plotted_partial.
Print Assumptions C70_values_plotted_partial.

(* two cells with two groups and six modes, at 300 and 320 degrees *)
Definition plotted (t : Z) : material QArith_base.Q :=
  mkMaterial "fuel" 2 (QArith_base.inject_Z t) (QArith_base.inject_Z 0) (mkmat 2 6 (fun e n => QArith_base.inject_Z (10 * e + n + 1))) (mzeros 0 0) (vzeros 0) None [] [] [] [] [] [].
Definition plotted_mesh : mesh QArith_base.Q :=
  mkMesh (mkvec 3 QArith_base.inject_Z) SLAB 2 2 [plotted 300; plotted 320] 6 0.
Example C70_hypotheses_met : exists files modes v low,
  plots newOutput [NEUTRONFLUX; TEMPERATURE] plotted_mesh = Ok files /\ length files = 3%nat /\
  getNeutronFluxes plotted_mesh = Ok modes /\ (0 < td2 modes)%Z /\ td0 modes = 2%Z /\
  getTemperatures plotted_mesh "C" = Ok v /\ minCoeff (list_of_vec v) = Ok low /\ is_equal low n0 = false.
Proof.
  eexists. eexists. eexists. eexists. split; [vm_compute; reflexivity|]. split; [reflexivity|].
  split; [vm_compute; reflexivity|]. split; [reflexivity|]. split; [reflexivity|].
  split; [vm_compute; reflexivity|]. split; vm_compute; reflexivity.
Qed.

(* and the same with total fluxes, which no solver stores *)
Definition flowing (t : Z) : material QArith_base.Q :=
  mkMaterial "fuel" 2 (QArith_base.inject_Z t) (QArith_base.inject_Z 0) (mzeros 0 0) (mzeros 0 0) (mkvec 2 (fun e => QArith_base.inject_Z (e + t))) None [] [] [] [] [] [].
Example C70_total_flux_hypotheses_met : exists files t low,
  plots newOutput [TOTALFLUX] (mkMesh (mkvec 3 QArith_base.inject_Z) SLAB 2 2 [flowing 3; flowing 5] 0 0) = Ok files /\ length files = 2%nat /\
  getTotalFluxes (mkMesh (mkvec 3 QArith_base.inject_Z) SLAB 2 2 [flowing 3; flowing 5] 0 0) = Ok t /\ mrows t = 2%Z /\
  minCoeff (list_of_mat t) = Ok low /\ is_equal low n0 = false.
Proof.
  eexists. eexists. eexists. split; [vm_compute; reflexivity|]. split; [reflexivity|].
  split; [vm_compute; reflexivity|]. split; [reflexivity|]. split; vm_compute; reflexivity.
Qed.

Local Open Scope R_scope.

(* temperatures of 0 and 20 degrees *)
Definition cold (t : R) : material R := set_temp t (newMaterial "water").
Definition cold_mesh : mesh R := mkMesh (mkvec 3 (fun i => IZR i)) SLAB 2 1 [cold 0; cold 20] 0 0.

(* A temperature plot asked for is not made when a cell is at zero degrees,
   although the data are there. *)
Theorem C70_zero_minimum_refuted o :
  exists v, getTemperatures cold_mesh "C" = Ok v /\ list_of_vec v = [0; 20] /\ plots o [TEMPERATURE] cold_mesh = Ok [].
Proof.
  destruct (wp_ok _ _ (getTemperatures_wp (cold 0) cold_mesh "C" ltac:(cbn; lia) ltac:(unfold zlen; cbn; lia))) as (v & Ev & Lv & Hv).
  exists v. split; [exact Ev|].
  assert (El : list_of_vec v = [0; 20]).
  { unfold list_of_vec. rewrite Lv. cbn [cold_mesh ms_cells]. change (Z.to_nat 2) with 2%nat. cbn [seq map].
    change (Z.of_nat 0) with 0%Z. change (Z.of_nat 1) with 1%Z.
    rewrite (Hv 0%Z), (Hv 1%Z) by (cbn; lia). reflexivity. }
  split; [exact El|]. unfold plots. cbn [plotsContain existsb plot_eqb orb].
  destruct (wp_ok _ _ (middle_points_wp cold_mesh ltac:(cbn; lia))) as (x & Ex & _). rewrite Ex. cbn [bind]. rewrite Ev. cbn [bind].
  unfold plotEigenVectorXd. rewrite El. cbn [minCoeff fold_left bind]. change (20 [<] 0) with (Rltb 20 0).
  replace (Rltb 20 0) with false by (symmetry; apply Rltb_false; lra).
  unfold is_equal. change (nabs ((0:R) [-] n0) [<] eps10) with (Rltb (Rabs (0 - 0)) eps10).
  replace (Rltb (Rabs (0 - 0)) eps10) with true; [reflexivity|]. symmetry. apply Rltb_true.
  rewrite Rminus_diag_eq, Rabs_R0 by reflexivity. unfold eps10. rnum. lra.
Qed.
Print Assumptions C70_zero_minimum_refuted.

Section TotalFlux.
Variable solver : mat R -> vec R -> vec R.
Variable sort : list (R * vec R) -> list (R * vec R).
Variable eig : mat R -> mat R -> vec (R * R) * mat (R * R).
Variable croots : list R -> list (R * R).
Variables (expint3 bickley3f nexp nsqrt : R -> R).
Variable to_unsigned : R -> res Z.

Definition no_total (ms : mesh R) : Prop := Forall (fun v => vlen v = 0%Z) (map mt_totflux (ms_mats ms)).

Lemma no_total_plot o l ms files : no_total ms -> plots o l ms = Ok files ->
  forall f, In f files -> pl_ylabel f <> "Total Flux [1/cm2/s]".
Proof.
  intros Hn H f Hf. apply (plots_parts o _ _ _ H) in Hf as (k & fs & Hk & Hi & E & Hf).
  unfold part in E. destruct (bind_ok_inv _ _ _ E) as (x & _ & E1). clear E. destruct k; try congruence.
  - destruct (bind_ok_inv _ _ _ E1) as (t & _ & E2). injection E2 as <-. unfold plot3DEigenTensor in Hf.
    destruct (td2 t =? 0)%Z; [destruct Hf|]. apply in_map_iff in Hf as (e & <- & _). discriminate.
  - destruct (bind_ok_inv _ _ _ E1) as (t & _ & E2). injection E2 as <-. unfold plot3DEigenTensor in Hf.
    destruct (td2 t =? 0)%Z; [destruct Hf|]. apply in_map_iff in Hf as (e & <- & _). discriminate.
  - exfalso. destruct (bind_ok_inv _ _ _ E1) as (a & Ea & E2). unfold plotEigenMatrixXd in E2.
    assert (Za : forall i j, mat_at a i j = 0).
    { unfold getTotalFluxes in Ea.
      refine (zfor_keeps (fun a : mat R => forall i j, mat_at a i j = 0) _ _ _ _ _ _ Ea (fun _ _ => eq_refl)).
      intros m a1 b Ha Hb. destruct (bind_ok_inv _ _ _ Hb) as (mt & Em & Hb').
      assert (Hv : vlen (mt_totflux mt) = 0%Z).
      { unfold lget in Em. destruct (0 <=? m)%Z; [|discriminate]. destruct (nth_error (ms_mats ms) (Z.to_nat m)) eqn:En; [|discriminate].
        injection Em as ->. apply nth_error_In in En. unfold no_total in Hn. rewrite Forall_forall in Hn. apply Hn.
        apply in_map. exact En. }
      rewrite Hv in Hb'. cbn in Hb'. injection Hb' as <-. exact Ha. }
    destruct (bind_ok_inv _ _ _ E2) as (m & Em & E3).
    assert (m = 0).
    { assert (Hall : forall y, In y (list_of_mat a) -> y = 0).
      { intros y Hy. unfold list_of_mat in Hy. apply in_flat_map in Hy as (j & _ & Hy). apply in_map_iff in Hy as (i & <- & _). apply Za. }
      unfold minCoeff in Em. destruct (list_of_mat a) as [|y l']; [discriminate|]. injection Em as <-.
      rewrite (Hall y) by (left; reflexivity).
      assert (G : forall l', (forall y, In y l' -> y = 0) -> fold_left (fun m y : R => if y [<] m then y else m) l' 0 = 0).
      { clear. induction l' as [|z l' IH]; intros Hl; [reflexivity|]. cbn [fold_left]. rewrite (Hl z) by (left; reflexivity).
        replace (if (0:R) [<] 0 then 0 else 0) with 0 by (destruct ((0:R) [<] 0); reflexivity). apply IH. intros w Hw. apply Hl. right. exact Hw. }
      apply G. intros z Hz. apply Hall. right. exact Hz. }
    subst m. unfold is_equal in E3. change (nabs ((0:R) [-] n0) [<] eps10) with (Rltb (Rabs (0 - 0)) eps10) in E3.
    replace (Rltb (Rabs (0 - 0)) eps10) with true in E3; [injection E3 as <-; destruct Hf|].
    symmetry. apply Rltb_true. rewrite Rminus_diag_eq, Rabs_R0 by reflexivity. unfold eps10. rnum. lra.
  - destruct (bind_ok_inv _ _ _ E1) as (v & _ & E2). unfold plotEigenVectorXd in E2. destruct (bind_ok_inv _ _ _ E2) as (m & _ & E3).
    destruct (is_equal m n0); injection E3 as <-; [destruct Hf|]. destruct Hf as [<-|[]]. discriminate.
  - destruct (bind_ok_inv _ _ _ E1) as (v & _ & E2). unfold plotEigenVectorXd in E2. destruct (bind_ok_inv _ _ _ E2) as (m & _ & E3).
    destruct (is_equal m n0); injection E3 as <-; [destruct Hf|]. destruct Hf as [<-|[]]. discriminate.
Qed.

Let solve := solve1 PI solver sort eig croots expint3 bickley3f nexp nsqrt.
Lemma solve_total sd r old r' : solve sd r = Ok (old, r') -> keeps mt_totflux (rx_mesh r) (rx_mesh r').
Proof.
  intros H. pose proof (solve_only _ _ _ _ _ _ _ _ _ _ _ _ _ H) as F. unfold solve_frame in F.
  destruct (sd_kind sd); try (subst; reflexivity).
  - apply F.
  - destruct F as (ms' & -> & F). apply F.
  - destruct (sd_dir sd); [subst; reflexivity|apply F|apply F].
Qed.
Lemma relax_total sd par old (r r' : reactor R) : relaxResults sd par old r = Ok r' -> keeps mt_totflux (rx_mesh r) (rx_mesh r').
Proof.
  unfold relaxResults. destruct (sd_kind sd); intros H; try discriminate; try (injection H as <-; reflexivity).
  - destruct (relaxPowers_only _ _ _ _ H) as (ms' & -> & F). apply F.
  - destruct (relaxTemperatures_only _ _ _ _ H) as (ms' & -> & F). apply F.
  - destruct (relaxPowers_only _ _ _ _ H) as (ms' & -> & F). apply F.
Qed.

(* The total flux plot is never made: the only calculation that finds a total
   flux, the ADS one, plots nothing, and the others have no total flux. *)
Theorem C70_total_flux_refuted o l solvers (r : reactor R) oc :
  Forall (fun m => vlen (mt_totflux m) = 0%Z) (ms_mats (rx_mesh r)) -> In TOTALFLUX l ->
  problemSolve PI solver sort eig croots expint3 bickley3f nexp nsqrt to_unsigned o l solvers r = Ok oc ->
  forall f, In f (oc_plots oc) -> pl_ylabel f <> "Total Flux [1/cm2/s]".
Proof.
  intros Hn _ H.
  assert (Hr : no_total (rx_mesh r)) by (unfold no_total; rewrite Forall_map; exact Hn).
  assert (K : forall ms ms', no_total ms -> keeps mt_totflux ms ms' -> no_total ms') by (unfold no_total, keeps; intros ? ? ? ->; assumption).
  unfold problemSolve in H. destruct solvers as [|s [|s' [|s'' [|? ?]]]]; try discriminate.
  - assert (S : singleCalculation PI solver sort eig croots expint3 bickley3f nexp nsqrt o l s r = Ok oc ->
      forall f, In f (oc_plots oc) -> pl_ylabel f <> "Total Flux [1/cm2/s]").
    { clear H. intros H. unfold singleCalculation in H.
      destruct (bind_ok_inv _ _ _ H) as ([o1 r1] & E1 & H0). clear H.
      destruct (bind_ok_inv _ _ _ H0) as (k & _ & H1). clear H0.
      destruct (bind_ok_inv _ _ _ H1) as (a & _ & H2). clear H1.
      destruct (bind_ok_inv _ _ _ H2) as (b & _ & H3). clear H2.
      destruct (bind_ok_inv _ _ _ H3) as (p & Ep & H4). clear H3.
      injection H4 as <-. cbn [oc_plots]. eapply no_total_plot; [|exact Ep]. eapply K; [exact Hr|]. eapply solve_total; exact E1. }
    destruct (sd_kind s); auto. clear S. unfold adsCalculation in H.
    destruct (bind_ok_inv _ _ _ H) as ([o1 r1] & _ & H1). clear H.
    destruct (bind_ok_inv _ _ _ H1) as (a & _ & H2). clear H1.
    destruct (bind_ok_inv _ _ _ H2) as ([o2 r2] & _ & H3). clear H2.
    destruct (bind_ok_inv _ _ _ H3) as (b & _ & H4). clear H3.
    destruct (bind_ok_inv _ _ _ H4) as ([q w] & _ & H4'). clear H4.
    destruct (bind_ok_inv _ _ _ H4') as (f & _ & H5). clear H4'.
    destruct (bind_ok_inv _ _ _ H5) as (ms & _ & H6). injection H6 as <-. cbn. tauto.
  - pose proof H as H0. destruct (doubleCalculation_run _ _ _ _ _ _ _ _ _ _ _ _ _ _ H)
      as (t1 & t2 & cs & n & st & p & q & _ & _ & _ & _ & _ & Run & S0 & Sn & _).
    assert (Hst : forall i, (i <= n)%nat -> no_total (rx_mesh (st i))).
    { induction i as [|i IH]; intros Hi; [rewrite S0; exact Hr|]. specialize (IH ltac:(lia)).
      destruct (Run i ltac:(lia)) as (rm & (o1 & r1 & A1 & _ & B1) & (o2 & r2 & A2 & _ & B2)).
      assert (C1 : no_total (rx_mesh r1)) by (eapply K; [exact IH|eapply solve_total; exact A1]).
      assert (Cm : no_total (rx_mesh rm)).
      { destruct (negb (i =? 0)%nat); [|subst; exact C1]. eapply K; [exact C1|eapply relax_total; exact B1]. }
      assert (C2 : no_total (rx_mesh r2)) by (eapply K; [exact Cm|eapply solve_total; exact A2]).
      destruct (negb (i =? 0)%nat); [|subst; exact C2]. eapply K; [exact C2|eapply relax_total; exact B2]. }
    specialize (Hst n ltac:(lia)). rewrite <- Sn in Hst. clear - H0 Hst. unfold doubleCalculation in H0.
    destruct (bind_ok_inv _ _ _ H0) as (s1 & _ & H1). destruct (bind_ok_inv _ _ _ H1) as (s2 & _ & H2).
    destruct (bind_ok_inv _ _ _ H2) as (cs' & _ & H3). destruct (bind_ok_inv _ _ _ H3) as ([[[iter r'] l']|] & _ & H4); [|discriminate].
    destruct (bind_ok_inv _ _ _ H4) as (a & _ & H5). destruct (bind_ok_inv _ _ _ H5) as (b & _ & H6).
    destruct (bind_ok_inv _ _ _ H6) as (pa & Ea & H7). destruct (bind_ok_inv _ _ _ H7) as (pb & Eb & H8).
    injection H8 as <-. cbn [oc_reactor oc_plots] in *. intros f Hf. apply in_app_iff in Hf as [Hf|Hf];
      [exact (no_total_plot _ _ _ _ Hst Ea f Hf)|exact (no_total_plot _ _ _ _ Hst Eb f Hf)].
Qed.
End TotalFlux.
Print Assumptions C70_total_flux_refuted.

(* a heat calculation with a total flux plot returns *)
Example C70_total_flux_met : exists oc,
  problemSolve PI flat (fun l => l) no_eig (fun _ => []) (fun x => x) (fun x => x) (fun x => x) (fun x => x)
    (fun _ => Ok 0%Z) newOutput [TOTALFLUX] [run_heat] run_reactor = Ok oc /\
  Forall (fun m => vlen (mt_totflux m) = 0%Z) (ms_mats (rx_mesh run_reactor)).
Proof.
  destruct (run_heating run_reactor (same_reactor_refl _)) as (old & r1 & E & _).
  pose proof (solve_same _ _ _ _ _ _ _ _ _ _ _ _ _ E) as (S & _). cbn [run_reactor rx_mesh] in S.
  pose proof (solve_total _ _ _ _ _ _ _ _ _ _ _ _ E) as K. cbn [run_reactor rx_mesh] in K.
  pose proof (run_input_conducting _ S) as (_ & Hc & Hb & Hm & _). pose proof S as (b & g & c & e & _). cbn in b, c, e.
  destruct (wp_ok _ _ (getTemperatures_wp dm0 (rx_mesh r1) "C" ltac:(lia) Hm)) as (t & Et & _).
  destruct (wp_ok _ _ (middle_points_wp (rx_mesh r1) ltac:(lia))) as (x & Ex & _).
  assert (Hn : no_total (rx_mesh r1)) by (unfold no_total; rewrite K; repeat constructor).
  assert (Ef : getTotalFluxes (rx_mesh r1) = Ok (mzeros 1 3)).
  { unfold getTotalFluxes. rewrite c, e.
    assert (W : wp (zfor 0 3 (fun m r =>
       mt <- lget (ms_mats (rx_mesh r1)) m ;;
       if (vlen (mt_totflux mt) =? 0)%Z then Ok r
       else zfor 0 1 (fun i r => x <- vget (mt_totflux mt) i ;; mset r i m x) r) (mzeros 1 3)) (fun r => r = mzeros 1 3)).
    { apply (zfor_wp (fun _ r => r = mzeros 1 3)); [lia|reflexivity|]. intros m r Hm' ->.
      rewrite (lget_ok _ m dm0) by lia. cbn [bind].
      replace (vlen (mt_totflux (nth (Z.to_nat m) (ms_mats (rx_mesh r1)) dm0))) with 0%Z; [reflexivity|].
      symmetry. unfold no_total in Hn. rewrite Forall_forall in Hn. apply Hn. apply in_map. apply nth_In.
      unfold zlen in Hm. lia. }
    destruct (wp_ok _ _ W) as (? & E' & ->). exact E'. }
  unfold problemSolve. cbn [run_heat sd_kind]. fold run_heat. unfold singleCalculation.
  unfold run_solve in E. rewrite E. cbn [bind]. unfold solveLog, printEigenmodesResults, printResults. cbn [run_heat sd_kind].
  rewrite Et. cbn [bind]. unfold plots. cbn [plotsContain existsb plot_eqb orb]. rewrite Ex. cbn [bind]. rewrite Ef. cbn [bind].
  unfold plotEigenMatrixXd. change (minCoeff (list_of_mat (mzeros 1 3 : mat R))) with (minCoeff [0; 0; 0]).
  cbn [minCoeff fold_left bind]. match goal with |- context [is_equal ?a ?b] => destruct (is_equal a b) end;
    (eexists; split; [reflexivity|repeat constructor]).
Qed.
