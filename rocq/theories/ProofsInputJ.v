(* Lemmas on the data of the cells, the kinetics data and the plots of an accepted file. *)
From Coq Require Import String Ascii ZArith List Bool Lia Arith.
From Verif Require Import Base BaseLemmas ModelNumTools ModelEigen ModelMesh ModelReactor ModelOutput ModelCalculation ModelText ModelInput
  ProofsInput ProofsInputB ProofsInputC ProofsInputD ProofsInputE ProofsInputF ProofsInputG ProofsInputH ProofsInputI.
Import ListNotations.
Local Open Scope string_scope.
Local Open Scope Z_scope.

(* w is the only word behind the first word of the first data line that mentions key *)
Definition entry_one (lines : list string) (key w : string) : Prop := entry lines key [w].
Lemma one_entry lines key w : readOneParameter lines key = Ok w -> entry_one lines key w.
Proof.
  intros H. apply read_entry.
  - unfold readOneParameter in H. unfold readManyParameters. apply bind_ok_inv in H. destruct H as (l & Hl & H). rewrite Hl. cbn [bind].
    destruct (splitLine l) as [|a [|b [|c r]]]; try discriminate H. injection H as ->. reflexivity.
  - unfold readOneParameter in H. apply bind_ok_inv in H. destruct H as (l & Hl & H).
    destruct (splitLine l) as [|a [|b [|c r]]] eqn:E; try discriminate H. injection H as ->. intros F. injection F as ->.
    pose proof (words_solid (before_percent l)) as S. unfold splitLine in E. rewrite E in S. inversion S as [|? ? _ S']. subst.
    inversion S' as [|? ? [S'' _] _]. subst. contradiction.
Qed.
Lemma entry_fun lines key ws ws' : entry lines key ws -> entry lines key ws' -> ws = ws'.
Proof. intros H H'. pose proof (entry_read _ _ _ false H) as E. rewrite (entry_read _ _ _ false H') in E. congruence. Qed.

Section Stored.
Context {T : Type} {N : Num T}.
Variable mpi : T.
Variable stod_opt : string -> option T.
Notation kinds inp := (map sd_kind (in_solvers inp)).
Notation setMany := (setManyParameters stod_opt).

Definition geometry_words : list (string * GeomKind) := [("cylinder", CYLINDER); ("sphere", SPHERE); ("slab", SLAB)].
Definition plot_words : list (string * PlotKind) :=
  [("neutronflux", NEUTRONFLUX); ("adjointflux", ADJOINTFLUX); ("totalflux", TOTALFLUX); ("temperature", TEMPERATURE);
   ("powerdensity", POWERDENSITY)].

Lemma setGeometryKind_word inp inp' : setGeometryKind inp = Ok inp' ->
  exists w g, readOneParameter (in_lines inp) "geometry" = Ok w /\ In (w, g) geometry_words /\
    inp' = put_mesh (setMeshKind g (in_mesh inp)) (inp : input T).
Proof.
  unfold setGeometryKind. intros H. apply bind_ok_inv in H. destruct H as (w & Hw & H). exists w.
  destruct (String.eqb_spec w "cylinder") as [->|_]; [injection H as <-; eexists; cbn; eauto|].
  destruct (String.eqb_spec w "sphere") as [->|_]; [injection H as <-; eexists; cbn; eauto 6|].
  destruct (String.eqb_spec w "slab") as [->|_]; [injection H as <-; eexists; cbn; eauto 7|]. discriminate H.
Qed.
Lemma setMesh_geometry inp inp' : setMesh mpi stod_opt inp = Ok inp' -> ms_geom (in_mesh inp') = ms_geom (in_mesh inp).
Proof. intros H. apply setMesh_solvers in H. tauto. Qed.

Record stored (lines : list string) (inp : input T) : Prop := mkStored {
  st_mesh : (exists k, In k [TRANSPORT; DIFFUSION; ADS; HEAT] /\ In k (kinds inp)) ->
    exists a b w, in_lines a = lines /\ in_map a = [] /\ setMesh mpi stod_opt a = Ok b /\
      ms_bounds (in_mesh inp) = ms_bounds (in_mesh b) /\ ms_cells (in_mesh inp) = ms_cells (in_mesh b) /\
      Forall2 (fun x y => mt_name y = mt_name x) (ms_mats (in_mesh b)) (ms_mats (in_mesh inp)) /\
      readOneParameter lines "geometry" = Ok w /\ In (w, ms_geom (in_mesh inp)) geometry_words;
  st_heat : In HEAT (kinds inp) ->
    (forall m mt, nth_error (ms_mats (in_mesh inp)) m = Some mt ->
       exists ks, mt_cond mt = Some ks /\ law stod_opt lines (mt_name mt) "thermal_conductivity" 1 ks /\ (1 <= length ks <= 3)%nat) /\
    (exists xs, setMany lines "temperatures" = Ok xs /\ listed mt_temp xs (ms_mats (in_mesh inp))) /\
    (~ In TRANSPORT (kinds inp) -> ~ In DIFFUSION (kinds inp) ->
       exists xs, setMany lines "heat_sources" = Ok xs /\ listed mt_heat xs (ms_mats (in_mesh inp))) /\
    (In TRANSPORT (kinds inp) \/ In DIFFUSION (kinds inp) -> single stod_opt lines "thermal_power" (rx_power (in_rx inp)));
  st_kinetics : In KINETICS (kinds inp) ->
    let k := rx_kin (in_rx inp) in
    single stod_opt lines "generation_time" (ks_alpha k) /\ single stod_opt lines "initial_power" (ks_power k) /\
    setMany lines "delayed_constants" = Ok (ks_lambda k) /\ setMany lines "delayed_fractions" = Ok (ks_beta k) /\
    setMany lines "times" = Ok (ks_times k) /\ setMany lines "reactivities" = Ok (ks_reacts k);
  st_plots : exists ws, readManyParameters lines "plots" true = Ok ws /\ in_plots inp = flat_map plot_of_word ws
}.

Lemma readLines_stored lines inp : readLines mpi stod_opt (mkInput lines newReactor [] [] [] []) = Ok inp -> stored lines inp.
Proof.
  intros H. apply readLines_stages in H. destruct H as (a & b & c & d & l & Ha & Hb & Hl & Hc & Hd & Hp).
  apply setSolvers_spec in Ha. destruct Ha as (ws & ks & Hw & Hks & ->). cbn [in_lines] in Hw.
  set (a := with_solvers (map newSolverData ks) (mkInput lines newReactor [] [] [] [])) in *.
  pose proof (chain_kinds _ _ _ _ Hc) as Kc. pose proof (chain_same _ _ _ _ Hc) as (C1 & C2 & _).
  pose proof (chain_laws _ _ _ _ Hc) as CL.
  assert (Pd : in_rx inp = in_rx d /\ in_solvers inp = in_solvers d /\
    exists pw, readManyParameters (in_lines d) "plots" true = Ok pw /\ in_plots inp = (in_plots d ++ flat_map plot_of_word pw)%list).
  { unfold setPlots in Hp. apply bind_ok_inv in Hp. destruct Hp as (pw & Hw' & Hp). injection Hp as <-. eauto. }
  destruct Pd as (P1 & P2 & pw & P3 & P4).
  pose proof (readSolverInputs_spec stod_opt (fun x y => mt_name y = mt_name x) (fun m => eq_refl) (fun a b c H1 H2 => eq_trans H2 H1) (in_solvers c) c d) as D.
  cbv zeta in D. specialize (D (fun k H => H)).
  destruct D as (D1 & D2 & (D3 & D3') & _); [intros _ ? ? ?; apply name_push|intros _; repeat split|exact Hd|].
  destruct (mesh_stage_lines _ _ _ _ Hb) as [B1 B2].
  assert (Lc : in_lines c = lines) by (destruct C1 as (F1 & _); rewrite F1, B1; reflexivity).
  assert (Ld : in_lines d = lines) by (destruct D1 as (F1 & _); rewrite F1; exact Lc).
  assert (Ki : kinds inp = kinds c) by (rewrite P2, D2; reflexivity).
  assert (Gm : in_mesh inp = in_mesh d) by (unfold in_mesh; rewrite P1; reflexivity).
  assert (MS : (exists k, In k [TRANSPORT; DIFFUSION; ADS; HEAT] /\ In k (kinds inp)) ->
    exists g w gk, in_lines g = lines /\ in_map g = [] /\ setMesh mpi stod_opt g = Ok b /\
      readOneParameter lines "geometry" = Ok w /\ In (w, gk) geometry_words /\ ms_geom (in_mesh g) = gk).
  { intros (k & K1 & K2). destruct Hb as [(_ & g & Hg & Hm)|(Hno & Eb)].
    - apply setGeometryKind_word in Hg. destruct Hg as (w & gk & G1 & G2 & ->).
      exists (put_mesh (setMeshKind gk (in_mesh a)) a), w, gk. repeat (split; [solve [reflexivity|assumption]|]). reflexivity.
    - exfalso. subst b. rewrite Ki, Kc in K2. exact (Hno k K1 K2). }
  constructor.
  - intros K. destruct (MS K) as (g & w & gk & G1 & G2 & G3 & G4 & G5 & G6). exists g, b, w. rewrite Gm.
    destruct D3 as (M1 & M2 & M3 & _). destruct C2 as (_ & _ & _ & _ & Q1 & Q2 & Q3 & _). fold (in_mesh b) (in_mesh c) in Q1, Q2, Q3.
    split; [exact G1|]. split; [exact G2|]. split; [exact G3|]. split; [congruence|]. split; [congruence|]. split; [|split; [exact G4|]].
    + apply (Forall2_trans _ _ (ms_mats (in_mesh c)) _ (fun x y z (P1 : mt_name y = mt_name x) (P2 : mt_name z = mt_name y) => eq_trans P2 P1)); [|exact D3'].
      clear -CL. unfold lawful in CL. fold (in_mesh b) (in_mesh c) in CL. induction CL as [|x y l l' L _ IH]; constructor; [apply L|exact IH].
    + rewrite M2, Q1, (setMesh_geometry _ _ G3), G6. exact G5.
  - intros K. destruct (MS (ex_intro _ HEAT (conj (or_intror (or_intror (or_intror (or_introl eq_refl)))) K))) as (g & w & gk & G1 & G2 & G3 & G4 & G5 & G6).
    destruct (setMesh_cells _ _ _ _ G3 G2) as (M1 & M2 & M3).
    destruct C1 as (F1 & F2 & F3 & F4). destruct C2 as (_ & _ & _ & _ & _ & _ & G7 & G8). fold (in_mesh b) (in_mesh c) in G7, G8.
    assert (Zc : forall m mt, nth_error (ms_mats (in_mesh c)) m = Some mt ->
      mt_temp mt = n0 /\ mt_heat mt = n0 /\ nth_error (in_map c) m = Some (mt_name mt)).
    { intros m mt E. destruct (Forall2_nth_r _ _ _ CL m mt E) as (x0 & E0 & L0). destruct (M3 m x0 E0) as (nm & En & ->).
      destruct L0 as (L1 & L2 & L3 & _). rewrite L1, L2, L3, F2, En. auto. }
    assert (Cc : cold stod_opt c c).
    { constructor; [apply steady_refl| |]; intros xs _ m mt _ E; apply (Zc m mt E). }
    assert (Kd : In HEAT (map sd_kind (in_solvers c))) by (rewrite <- Ki; exact K).
    assert (Hc1 : forall m, (m < length (ms_mats (in_mesh c)))%nat -> Z.of_nat m < ms_cells (in_mesh c)) by (rewrite G8, G7; exact M1).
    assert (Hc2 : forall nm, In nm (in_map c) -> In nm (in_list c)) by (rewrite F2, F3; exact M2).
    destruct (heat_loop stod_opt c Hc1 Hc2 (in_solvers c) d Cc Hd Kd) as [H1 H2 H3 H4].
    rewrite Lc in *. rewrite Gm, Ki, P1. split; [|split; [exact H2|split]].
    + intros m mt E. destruct (Forall2_nth_r _ _ _ D3' m mt E) as (mt0 & E0 & N0). destruct (Zc m mt0 E0) as (_ & _ & En).
      rewrite <- N0 in En. destruct (H1 m (mt_name mt) mt En E) as (kk & Q1 & Q2 & Q3). rewrite Lc in Q2. eauto.
    + intros K1 K2. apply H3. intros [F|F]; contradiction.
    + intros K1. destruct (H4 K1) as (w' & p & Q1 & Q2 & Q3). exists w'. rewrite Q3. auto.
  - intros K. rewrite Ki in K. pose proof (kinetics_loop stod_opt c (in_solvers c) d Hd K) as Q. unfold kinetic in Q. rewrite Lc, <- P1 in Q. exact Q.
  - exists pw. rewrite Ld in P3. split; [exact P3|]. rewrite P4. destruct D1 as (_ & _ & _ & D1). rewrite D1.
    destruct C1 as (_ & _ & _ & C1). rewrite C1.
    assert (in_plots b = []) as ->; [|reflexivity].
    destruct Hb as [(_ & g & Hg & Hm)|(_ & ->)]; [|reflexivity]. apply setGeometryKind_word in Hg. destruct Hg as (w & gk & _ & _ & ->).
    apply setMesh_solvers in Hm. destruct Hm as (_ & _ & E & _). rewrite E. reflexivity.
Qed.
End Stored.
