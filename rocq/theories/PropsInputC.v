(* Properties C12-C14, C63, C65: the solver list and what is read for it. *)
From Coq Require Import String Ascii ZArith List Bool Lia Arith QArith.
From Verif Require Import Base BaseLemmas NumQ ModelNumTools ModelEigen ModelMesh ModelReactor ModelOutput ModelCalculation
  ModelText ModelInput ModelMain ProofsInput ProofsInputB ProofsInputC ProofsInputD ProofsInputE ProofsInputF PropsInputB.
Import ListNotations.
Local Open Scope string_scope.
Local Open Scope Z_scope.

Section Any.
Context {T : Type} {N : Num T}.
Variable mpi : T.
Variable stod_opt : string -> option T.
Notation kinds inp := (map sd_kind (in_solvers inp)).

Lemma readData_reading file lines inp : storeInput file = Ok lines -> readData mpi stod_opt file = Ok inp -> reading lines inp.
Proof. intros H1 H2. unfold readData in H2. rewrite H1 in H2. cbn [bind] in H2. exact (readLines_reading _ _ _ _ H2). Qed.

(* ---------- C12 ---------- *)

Definition names_of (l : list (string * SolverKind)) : list string := map fst l.
(* Every accepted file names known solvers behind the first data line that
   mentions "solvers"; those are run, in that order, and a coupled one is added
   exactly when there are two or more. *)
Theorem C12_solvers file lines inp : storeInput file = Ok lines -> readData mpi stod_opt file = Ok inp ->
  exists named, entry lines "solvers" (names_of named) /\
    (forall w k, In (w, k) named ->
       In (w, k) [("transport", TRANSPORT); ("kinetics", KINETICS); ("heat", HEAT); ("diffusion", DIFFUSION); ("ads", ADS)]) /\
    ((length named < 2)%nat -> kinds inp = map snd named) /\
    ((2 <= length named)%nat -> kinds inp = (map snd named ++ [COUPLED])%list).
Proof.
  intros H1 H2. pose proof (readData_reading file lines inp H1 H2) as R. destruct (rd_solvers _ _ R) as (ws & Hw & named & Hn & E).
  exists (combine ws named). pose proof (forall2_len _ _ _ Hn) as L.
  assert (E1 : names_of (combine ws named) = ws /\ map snd (combine ws named) = named /\ length (combine ws named) = length named).
  { clear -L. unfold names_of. revert named L. induction ws as [|w ws IH]; intros [|k named] L; try discriminate L; [auto|].
    injection L as L. destruct (IH named L) as (A & B & C). cbn. rewrite A, B, C. auto. }
  destruct E1 as (E1 & E2 & E3). rewrite E1, E2, E3. split.
  { apply read_entry; [exact Hw|]. intros ->. inversion Hn as [|w k ? ? Hk _]. subst. cbn in Hk.
    repeat (destruct Hk as [Hk|Hk]; [discriminate Hk|]). contradiction. }
  split.
  { clear -Hn. induction Hn as [|w k ws named H _ IH]; intros w' k' Hi; [contradiction|].
    destruct Hi as [Hi|Hi]; [injection Hi as <- <-; exact H|exact (IH _ _ Hi)]. }
  rewrite E. split; intros Hl; destruct (Nat.leb_spec 2 (length named)); try lia; [apply app_nil_r|reflexivity].
Qed.
(* A word that names no solver ends the program. *)
Theorem C12_unknown file lines ws : storeInput file = Ok lines -> entry lines "solvers" ws ->
  (exists w, In w ws /\ ~ In w ["transport"; "kinetics"; "heat"; "diffusion"; "ads"]) ->
  exists w, In w ws /\ ~ In w ["transport"; "kinetics"; "heat"; "diffusion"; "ads"] /\
    readData mpi stod_opt file = Exit (w ++ " solver kind not recognized!").
Proof.
  intros H1 H2 (w & Hw & Hn).
  assert (U : exists pre u post ks, ws = (pre ++ u :: post)%list /\ Forall2 (fun w k => In (w, k) solver_names) pre ks /\
    ~ In u (map fst solver_names)).
  { clear H2. induction ws as [|x ws IH]; [contradiction|]. destruct (solver_of_word_cases x) as [[k Hk]|Hk].
    - destruct Hw as [<-|Hw].
      + exfalso. apply Hn. change (In x (map fst solver_names)). apply in_map_iff. exists (x, k). auto.
      + destruct (IH Hw) as (pre & u & post & ks & -> & A & B). exists (x :: pre), u, post, (k :: ks).
        split; [reflexivity|]. split; [constructor; assumption|exact B].
    - exists [], x, ws, []. split; [reflexivity|]. split; [constructor|]. intros F. apply in_map_iff in F.
      destruct F as ([x' k] & E & F). cbn in E. subst. exact (Hk k F). }
  destruct U as (pre & u & post & ks & -> & A & B). exists u. split; [apply in_or_app; right; left; reflexivity|]. split; [exact B|].
  unfold readData. rewrite H1. cbn [bind]. unfold readLines, setSolvers. cbn [in_lines]. rewrite (entry_read _ _ _ false H2). cbn [bind].
  rewrite (solvers_unknown pre ks u post [] A); [reflexivity|].
  intros k F. apply B. apply in_map_iff. exists (u, k). auto.
Qed.

(* ---------- C13 ---------- *)

(* If every data line that mentions "albedo" starts with that word and has at
   most two values, a diffusion or ads solver of an accepted file has two
   albedos on a slab and one elsewhere, a transport solver one. Missing: lines
   with three or six values, or where another word comes first, are accepted
   and skipped (C13_refuted). *)
Theorem C13_albedo_count_partial file lines inp : storeInput file = Ok lines -> readData mpi stod_opt file = Ok inp ->
  (forall x, In x (data_lines lines) -> mentions "albedo" x ->
     exists rest, splitLine (lower x) = "albedo" :: rest /\ (length rest <= 2)%nat) ->
  forall s, In s (in_solvers inp) ->
    (sd_kind s = TRANSPORT -> length (sd_albedo s) = 1%nat) /\
    (sd_kind s = DIFFUSION \/ sd_kind s = ADS ->
       length (sd_albedo s) = match ms_geom (in_mesh inp) with SLAB => 2%nat | _ => 1%nat end).
Proof.
  intros H1 H2 W s Hs. pose proof (readData_reading file lines inp H1 H2) as R.
  pose proof (rd_albedo _ _ R) as A. rewrite Forall_forall in A.
  assert (G : good (ms_geom (in_mesh inp)) s).
  { apply A; [|exact Hs]. intros k values Hv. apply propertyWords_has in Hv. destruct Hv as (_ & x & X1 & X2 & ->). exact (W x X1 X2). }
  unfold good in G. split.
  - intros E. rewrite E in G. exact (G eq_refl).
  - intros [E|E]; rewrite E in G; rewrite (G eq_refl); cbn; destruct (ms_geom (in_mesh inp)); reflexivity.
Qed.

(* ---------- C14 ---------- *)

(* What the requested solvers do not need is left as it was at the start. *)
Theorem C14_untouched file inp : readData mpi stod_opt file = Ok inp ->
  let r := in_rx inp in let ms := rx_mesh r in let ks := kinds inp in
  (* results of solvers *)
  rx_fwd r = [] /\ rx_adj r = [] /\
  (~ In KINETICS ks -> rx_kin r = mkKinetics n0 n0 [] [] [] []) /\
  (~ In ADS ks -> rx_ext r = (n0, 0, 0)) /\
  (* the thermal power: only for heat together with a neutronic solver *)
  (~ (In HEAT ks /\ (In TRANSPORT ks \/ In DIFFUSION ks)) -> rx_power r = nopp n1) /\
  (* the mesh *)
  (~ In TRANSPORT ks -> ~ In DIFFUSION ks -> ~ In ADS ks -> ~ In HEAT ks ->
     ms_geom ms = GeomUNDEFINED /\ ms_bounds ms = vzeros 0 /\ ms_cells ms = 0 /\ ms_mats ms = []) /\
  (* the materials *)
  Forall (fun m =>
    (~ In TRANSPORT ks -> ~ In DIFFUSION ks -> ~ In ADS ks ->
       mt_totXS m = [] /\ mt_fisXS m = [] /\ mt_diff m = [] /\ mt_scatt m = [] /\ mt_ni m = [] /\ mt_chi m = []) /\
    (~ In HEAT ks -> mt_cond m = None /\ mt_temp m = n0) /\
    (~ In HEAT ks \/ In TRANSPORT ks \/ In DIFFUSION ks -> mt_heat m = n0)) (ms_mats ms).
Proof.
  intros H. assert (exists lines, storeInput file = Ok lines) as [lines Hl].
  { unfold readData in H. apply bind_ok_inv in H. destruct H as (lines & Hl & _). eauto. }
  pose proof (readData_reading file lines inp Hl H) as R. cbv zeta.
  split; [exact (rd_fwd _ _ R)|]. split; [exact (rd_adj _ _ R)|]. split; [exact (rd_kin _ _ R)|]. split; [exact (rd_ext _ _ R)|].
  split; [exact (rd_power _ _ R)|]. split.
  { intros A B C D. apply (rd_nomesh _ _ R). intros k Hk. cbn in Hk. destruct Hk as [<-|[<-|[<-|[<-|[]]]]]; assumption. }
  apply (rd_mats _ _ R).
  - intros name. cbn. repeat split.
  - intros a b (_ & A2 & A3 & A4 & A5 & A6 & A7 & A8 & A9 & A10). rewrite A2, A3, A4, A5, A6, A7, A8, A9, A10. auto.
  - intros (k & Hk & Hn) name c mt (A & B & C). split.
    + intros N1 N2 N3. exfalso. destruct k; try discriminate Hn; contradiction.
    + unfold push_law. repeat (match goal with |- context [if ?b then _ else _] => destruct b end); split; assumption.
  - intros Hh. split; [|split].
    + intros c mt (A & B & C). split; [exact A|]. split; [intros F; contradiction|exact C].
    + intros t mt (A & B & C). split; [exact A|]. split; [intros F; contradiction|exact C].
    + intros [NT ND] t mt (A & B & C). split; [exact A|]. split; [exact B|]. intros [F|[F|F]]; contradiction.
Qed.

(* What they need is in the file: the section of every solver, the keywords of
   every section, and for the materials of the mesh a section each. *)
Theorem C14_required file lines inp : storeInput file = Ok lines -> readData mpi stod_opt file = Ok inp ->
  let ks := kinds inp in
  (In TRANSPORT ks \/ In DIFFUSION ks \/ In ADS ks \/ In HEAT ks ->
     has lines "geometry" /\ has lines "mesh" /\ In (ms_geom (in_mesh inp)) [SLAB; CYLINDER; SPHERE] /\
     forall m, In m (in_list inp) -> has lines ("material " ++ m)) /\
  (forall k, In k ks -> has lines ("solver " ++ get_solver_name k) /\
     has lines "accuracy" /\ has lines "max_iteration_number" /\
     (k = TRANSPORT \/ k = DIFFUSION \/ k = ADS -> has lines "albedo" /\ has lines "energies") /\
     (k = TRANSPORT \/ k = DIFFUSION -> has lines "eigenmodes") /\
     (k = DIFFUSION -> has lines "direction") /\
     (k = ADS -> has lines "ext_source") /\
     (k = HEAT -> has lines "heat_boundary_conditions" /\ has lines "temperatures" /\
        (In TRANSPORT ks \/ In DIFFUSION ks -> has lines "thermal_power" /\ has lines "relaxation_parameter") /\
        (~ In TRANSPORT ks -> ~ In DIFFUSION ks -> has lines "heat_sources")) /\
     (k = KINETICS -> forall key, In key ["generation_time"; "initial_power"; "delayed_constants"; "delayed_fractions"; "times"; "reactivities"] ->
        has lines key)).
Proof.
  intros H1 H2. pose proof (readData_reading file lines inp H1 H2) as R. cbv zeta.
  pose proof (rd_lines _ _ R) as L. pose proof (rd_needs _ _ R) as Nd. unfold needs in Nd. rewrite L in Nd. split.
  - intros Hk.
    assert (exists k, In k [TRANSPORT; DIFFUSION; ADS; HEAT] /\ In k (kinds inp)) as (k & K1 & K2).
    { destruct Hk as [Hk|[Hk|[Hk|Hk]]]; eexists; (split; [|exact Hk]); cbn; tauto. }
    destruct (rd_mesh _ _ R) as (A & B & C); [eauto|]. split; [exact A|]. split; [exact B|]. split; [exact C|].
    specialize (Nd k K2). cbn in K1. destruct K1 as [<-|[<-|[<-|[<-|[]]]]]; apply Nd.
  - destruct (rd_props _ _ R) as (l & Hl & P).
    assert (Q : forall name k k', In (name, k) base_properties -> In k' (kinds inp) -> k = SolUNDEFINED \/ k = k' -> has lines name).
    { intros name k k' Hi Hk Hs. destruct (P name k k') as [values Hv]; [|exact Hk|exact Hs|].
      - destruct Hl as [[_ ->]|[_ ->]]; [apply in_or_app; left; exact Hi|exact Hi].
      - apply propertyWords_has in Hv. destruct Hv as (_ & x & X1 & X2 & _). exists x. auto. }
    intros k Hk.
    assert (B0 : forall name, In (name, SolUNDEFINED) base_properties -> has lines name) by (intros name Hi; apply (Q name SolUNDEFINED k Hi Hk); auto).
    assert (B1 : forall name, In (name, k) base_properties -> has lines name) by (intros name Hi; apply (Q name k k Hi Hk); auto).
    split.
    { destruct (P "accuracy" SolUNDEFINED k) as [values Hv]; [|exact Hk|auto|].
      - destruct Hl as [[_ ->]|[_ ->]]; cbn; auto.
      - apply propertyWords_has in Hv. apply Hv. }
    split; [apply B0; cbn; tauto|]. split; [apply B0; cbn; tauto|].
    split; [intros [->|[->| ->]]; split; apply B1; cbn; tauto|].
    split; [intros [->| ->]; apply B1; cbn; tauto|].
    split; [intros ->; apply B1; cbn; tauto|]. split; [intros ->; apply B1; cbn; tauto|].
    split.
    + intros ->. specialize (Nd HEAT Hk). destruct Nd as (N1 & N2 & N3 & _). split; [apply B1; cbn; tauto|]. split; [exact N1|].
      split; [|exact N3]. intros F. split; [exact (N2 F)|].
      assert (Co : In COUPLED (kinds inp)).
      { destruct (rd_solvers _ _ R) as (ws & _ & named & Hn & E). rewrite E in *.
        assert (Hc : ~ In COUPLED named).
        { clear -Hn. intros Hi. induction Hn as [|w k ws named H _ IH]; [contradiction|]. destruct Hi as [->|Hi]; [|auto].
          cbn in H. repeat (destruct H as [H|H]; [discriminate H|]). contradiction. }
        destruct named as [|a [|b named]]; cbn [List.app length Nat.leb] in *.
        - contradiction.
        - exfalso. cbn in Hk, F. destruct Hk as [->|[]]. destruct F as [[F|[]]|[F|[]]]; discriminate F.
        - right. right. apply in_or_app. right. left. reflexivity. }
      destruct Hl as [[_ ->]|[Nc _]]; [|exfalso; apply Nc; tauto].
      destruct (P "relaxation_parameter" COUPLED COUPLED) as [values Hv]; [|exact Co|auto|].
      * apply in_or_app. right. left. reflexivity.
      * apply propertyWords_has in Hv. destruct Hv as (_ & x & X1 & X2 & _). exists x. auto.
    + intros ->. exact (Nd KINETICS Hk).
Qed.

(* ---------- C63 ---------- *)

(* A file asking for kinetics is accepted only with as many times as
   reactivities. The other half of the property fails: see PropsKinetics. *)
Theorem C63_times_partial file inp : readData mpi stod_opt file = Ok inp -> In KINETICS (kinds inp) ->
  length (ks_times (rx_kin (in_rx inp))) = length (ks_reacts (rx_kin (in_rx inp))).
Proof.
  intros H. assert (exists lines, storeInput file = Ok lines) as [lines Hl].
  { unfold readData in H. apply bind_ok_inv in H. destruct H as (lines & Hl & _). eauto. }
  exact (rd_times _ _ (readData_reading file lines inp Hl H)).
Qed.

(* ---------- C65 ---------- *)

Section Run.
Variable solver : mat T -> vec T -> vec T.
Variable sort : list (T * vec T) -> list (T * vec T).
Variable eig : mat T -> mat T -> vec (T * T) * mat (T * T).
Variable croots : list T -> list (T * T).
Variables (expint3 bickley3f nexp nsqrt : T -> T).
Variable to_unsigned : T -> res Z.
Notation run fs args := (main mpi stod_opt solver sort eig croots expint3 bickley3f nexp nsqrt to_unsigned fs args).

(* The program's three arguments, a file that is accepted and the names in it
   decide what is run. *)
Theorem C65_dispatch fs a b c lines inp ws o :
  storeInput (fs a) = Ok lines -> readData mpi stod_opt (fs a) = Ok inp -> entry lines "solvers" ws ->
  getArguments [a; b; c] newOutput = Ok (a, o) ->
  (* one name *)
  (forall w, ws = [w] -> exists s, in_solvers inp = [s] /\
     run fs [a; b; c] =
       if String.eqb w "ads"
       then adsCalculation mpi solver sort eig croots expint3 bickley3f nexp nsqrt to_unsigned s (in_rx inp)
       else singleCalculation mpi solver sort eig croots expint3 bickley3f nexp nsqrt o (in_plots inp) s (in_rx inp)) /\
  (* two names *)
  (forall w1 w2, ws = [w1; w2] -> exists s1 s2 cs, in_solvers inp = [s1; s2; cs] /\ sd_kind cs = COUPLED /\
     In (w1, sd_kind s1) solver_names /\ In (w2, sd_kind s2) solver_names /\
     run fs [a; b; c] = doubleCalculation mpi solver sort eig croots expint3 bickley3f nexp nsqrt o (in_plots inp) [s1; s2; cs] (in_rx inp)) /\
  (* more *)
  ((3 <= length ws)%nat -> run fs [a; b; c] = Exit "Not ready to couple more than two calculations!").
Proof.
  intros H1 H2 He Ha. pose proof (readData_reading _ lines inp H1 H2) as R.
  destruct (rd_solvers _ _ R) as (ws' & Hw & named & Hn & E). rewrite (entry_read _ _ _ false He) in Hw. injection Hw as <-.
  pose proof (forall2_len _ _ _ Hn) as L. unfold main. rewrite Ha. cbn [bind]. rewrite H2. cbn [bind]. split; [|split].
  - intros w ->. destruct named as [|k [|? ?]]; try discriminate L. cbn in E.
    destruct (in_solvers inp) as [|s [|? ?]]; try discriminate E. injection E as E. exists s. split; [reflexivity|].
    cbn [problemSolve]. inversion Hn as [|? ? ? ? Hk _]; subst. cbn in Hk.
    repeat (destruct Hk as [Hk|Hk]; [injection Hk as <- Ek; rewrite <- Ek; reflexivity|]). contradiction.
  - intros w1 w2 ->. destruct named as [|k1 [|k2 [|? ?]]]; try discriminate L. cbn in E.
    destruct (in_solvers inp) as [|s1 [|s2 [|cs [|? ?]]]]; try discriminate E. injection E as E1 E2 E3. exists s1, s2, cs.
    split; [reflexivity|]. split; [exact E3|]. rewrite E1, E2.
    inversion Hn as [|? ? ? ? Hk1 Hn']; subst. inversion Hn' as [|? ? ? ? Hk2 _]; subst. auto.
  - intros Hl. rewrite L in Hl. destruct named as [|k1 [|k2 [|k3 named]]]; cbn in Hl; try lia. cbn in E.
    destruct (in_solvers inp) as [|s1 [|s2 [|s3 [|s4 l]]]]; try discriminate E; cbn in E.
    + exfalso. injection E as _ _ _ E. destruct named; discriminate E.
    + reflexivity.
Qed.
End Run.
End Any.
Print Assumptions C12_solvers.
Print Assumptions C12_unknown.
Print Assumptions C13_albedo_count_partial.
Print Assumptions C14_untouched.
Print Assumptions C14_required.
Print Assumptions C63_times_partial.
Print Assumptions C65_dispatch.

(* ---------- files ---------- *)

Module Files.
Definition stodQ (s : string) : option Q :=
  match decimal s with Some (m, e) => Some (Qred (inject_Z m * Qpower (inject_Z 10) e)%Q) | None => None end.
Definition lf : string := String (ascii_of_nat 10) "".
Definition text (ls : list string) : string := String.concat lf ls.
Definition diffusion (albedo : string) : list string :=
  ["% a slab of two cells"; "  Solvers   Diffusion"; "geometry slab"; "mesh 2 2.0 fuel"; "";
   "solver Diffusion"; "accuracy 0.001"; "max_iteration_number 10"; albedo; "energies 1"; "direction forward";
   "eigenmodes fundamental"; "material fuel"; "ni(1) 2.5"; "chi(1) 1.0"; "fission(1) 0.1"; "total(1) 0.3";
   "diffCoeff(1) 1.0"; "scattMatrix(1, 1) 0.2"].
Definition read (ls : list string) : res (input Q) := readData (355 # 113)%Q stodQ (Some (text ls)).
Definition none (_ _ : mat Q) := (mkvec 0 (fun _ : Z => (0%Q, 0%Q)), mkmat 0 0 (fun _ _ : Z => (0%Q, 0%Q))).
(* the whole program on the only file of the disk *)
Definition program (ls : list string) : res (outcome Q) :=
  main (355 # 113)%Q stodQ (fun _ b => b) (fun l => l) none (fun _ => [])
    (fun x => x) (fun x => x) (fun x => x) (fun x => x) (fun _ => Ok 0)
    (fun p => if String.eqb p "dir/in.txt" then Some (text ls) else None) ["dir/in.txt"; "dir/out.txt"; "summary"].
Definition is_ok {A} (r : res A) : bool := match r with Ok _ => true | _ => false end.
Definition coupled : list string :=
  ["solvers diffusion HEAT"; "geometry slab"; "mesh 2 2.0 fuel"; "thermal_power 5.0"; "temperatures 300.0 2";
   "solver diffusion"; "accuracy 0.001"; "max_iteration_number 10"; "albedo 0.0 0.0"; "energies 1"; "direction forward";
   "eigenmodes fundamental";
   "solver heat"; "accuracy 0.001"; "max_iteration_number 10"; "heat_boundary_conditions 1.0 0.0 20.0 1.0 0.0 20.0";
   "solver coupled"; "accuracy 0.001"; "max_iteration_number 10"; "relaxation_parameter 0.5";
   "material fuel"; "thermal_conductivity 10.0"; "ni(1) 2.5"; "chi(1) 1.0"; "fission(1) 0.1"; "total(1) 0.3";
   "diffCoeff(1) 1.0"; "scattMatrix(1, 1) 0.2"].
Definition kinetics : list string :=
  ["solvers kinetics"; "solver kinetics"; "accuracy 0.001"; "max_iteration_number 10"; "generation_time 0.0001";
   "initial_power 1.0"; "delayed_constants 0.1"; "delayed_fractions 0.005"; "times 0.0 1.0"; "reactivities 0.001 2"].
End Files.

(* A slab whose albedo line has three values, or six, or where the word comes
   second, is accepted with one albedo; the diffusion solver then reads the
   second one, past the end. *)
Theorem C13_refuted : exists l1 l2 l3, forall l, In l [l1; l2; l3] ->
  exists inp s, Files.read l = Ok inp /\ in_solvers inp = [s] /\ sd_kind s = DIFFUSION /\
    ms_geom (in_mesh inp) = SLAB /\ length (sd_albedo s) = 1%nat /\
    exists m, Files.program l = UB m.
Proof.
  exists (Files.diffusion "albedo 0.5 0.5 0.5"), (Files.diffusion "albedo 0.5 0.5 0.5 0.5 0.5 0.5"), (Files.diffusion "the_albedo 0.5 0.5").
  assert (G : forall l,
    (match Files.read l with
     | Ok inp => match in_solvers inp with
                 | [s] => kind_eqb (sd_kind s) DIFFUSION && geom_eqb (ms_geom (in_mesh inp)) SLAB && Nat.eqb (length (sd_albedo s)) 1
                 | _ => false end
     | _ => false end && match Files.program l with UB _ => true | _ => false end)%bool = true ->
    exists inp s, Files.read l = Ok inp /\ in_solvers inp = [s] /\ sd_kind s = DIFFUSION /\
    ms_geom (in_mesh inp) = SLAB /\ length (sd_albedo s) = 1%nat /\ exists m, Files.program l = UB m).
  { intros l H. apply andb_true_iff in H. destruct H as [H H']. destruct (Files.read l) as [inp| | |]; try discriminate H.
    exists inp. destruct (in_solvers inp) as [|s [|? ?]]; try discriminate H. exists s.
    rewrite !andb_true_iff in H. destruct H as [[A B] C]. split; [reflexivity|]. split; [reflexivity|].
    split; [apply kind_eqb_eq, A|]. split; [destruct (ms_geom (in_mesh inp)); try discriminate B; reflexivity|].
    split; [apply Nat.eqb_eq, C|]. destruct (Files.program l) as [| | |m]; try discriminate H'. exists m. reflexivity. }
  intros l Hi. apply G. destruct Hi as [<-|[<-|[<-|[]]]]; vm_compute; reflexivity.
Qed.
Print Assumptions C13_refuted.

Example C12_example :
  (exists inp named, Files.read Files.coupled = Ok inp /\ named = [("diffusion", DIFFUSION); ("heat", HEAT)] /\
     map sd_kind (in_solvers inp) = [DIFFUSION; HEAT; COUPLED]) /\
  Files.read ["solvers diffusion hot"] = Exit "hot solver kind not recognized!" /\
  entry ["solvers diffusion hot"] "solvers" ["diffusion"; "hot"].
Proof.
  split; [|split; [reflexivity|apply read_entry; [reflexivity|discriminate]]].
  destruct (Files.read Files.coupled) as [inp| | |] eqn:E; [|exfalso; revert E; vm_compute; discriminate..].
  exists inp, [("diffusion", DIFFUSION); ("heat", HEAT)]. split; [reflexivity|]. split; [reflexivity|].
  assert (H : match Files.read Files.coupled with Ok i => map sd_kind (in_solvers i) | _ => [] end = [DIFFUSION; HEAT; COUPLED])
    by (vm_compute; reflexivity).
  rewrite E in H. exact H.
Qed.
Example C13_example : Files.is_ok (Files.read (Files.diffusion "albedo 0.5 0.25")) = true /\
  match Files.read (Files.diffusion "albedo 0.5 0.25") with
  | Ok inp => map sd_albedo (in_solvers inp) = [[(1 # 2)%Q; (1 # 4)%Q]]
  | _ => False
  end.
Proof. split; vm_compute; reflexivity. Qed.
Example C14_example :
  match Files.read Files.coupled with
  | Ok inp => rx_power (in_rx inp) = 5%Q /\ map mt_temp (ms_mats (in_mesh inp)) = [300%Q; 300%Q] /\ in_list inp = ["fuel"]
  | _ => False
  end.
Proof. vm_compute. repeat split. Qed.
Example C63_example :
  match Files.read Files.kinetics with
  | Ok inp => map sd_kind (in_solvers inp) = [KINETICS] /\ length (ks_times (rx_kin (in_rx inp))) = 2%nat
  | _ => False
  end /\
  Files.read (firstn 9 Files.kinetics ++ ["reactivities 0.001 3"])%list = Exit "times and reactivities must have equal sizes!".
Proof. split; vm_compute; repeat split. Qed.
Example C65_example :
  (exists o, getArguments ["dir/in.txt"; "dir/out.txt"; "summary"] newOutput = Ok ("dir/in.txt", o)) /\
  (let three := ("solvers kinetics kinetics kinetics" :: tl Files.kinetics ++
                   ["solver coupled"; "accuracy 0.001"; "max_iteration_number 10"])%list in
   Files.is_ok (Files.read three) = true /\
   Files.program three = Exit "Not ready to couple more than two calculations!") /\
  Files.is_ok (Files.program (Files.diffusion "albedo 0.5 0.25")) = true.
Proof. split; [eexists; reflexivity|]. split; [vm_compute; split; reflexivity|]. vm_compute. reflexivity. Qed.
