(* Property theorems C104: from the text of the input file to the text of the log file. *)
From Coq Require Import String ZArith List Bool Lia Reals Lra.
From Verif Require Import Base BaseLemmas NumR LinAlg ModelNumTools ModelEigen ModelMesh ModelReactor ModelText ModelDiffusion ModelHeat ModelSpectrum
  ModelKinetics ModelOutput ModelCalculation ModelInput ModelLog ModelEcho ModelMain ModelProgram.
From Verif Require Import ProofsInput ProofsInputC ProofsInputI ProofsInputJ ProofsKineticsB ProofsKineticsC ProofsKineticsD
  PropsInput PropsInputC PropsInputD PropsReading PropsReport PropsProgram PropsKinetics.
Import ListNotations.
Local Open Scope string_scope.
Local Open Scope Z_scope.

Section EndToEnd.
Variable stod_opt : string -> option R.
Variable solver : mat R -> vec R -> vec R.
Variable sort : list (R * vec R) -> list (R * vec R).
Variable eig : mat R -> mat R -> vec (R * R) * mat (R * R).
Variable croots : list R -> list (R * R).
Variables (E3 Ki3 sq : R -> R).
Variable to_unsigned : R -> res Z.
Variables (fmt : R -> string) (zfmt : Z -> string).
Variable version : string.
Variable stamp : Z -> string.
Let run := program PI stod_opt solver sort eig croots E3 Ki3 exp sq to_unsigned fmt zfmt version stamp.

(* the word plots is nowhere in the data *)
Definition no_plots (lines : list string) : Prop := forall l, In l (data_lines lines) -> ~ mentions "plots" l.
Lemma no_plots_read file lines inp : storeInput file = Ok lines -> readData PI stod_opt file = Ok inp -> no_plots lines -> in_plots inp = [].
Proof.
  intros H1 H2 Hn. destruct (st_plots _ _ _ _ (readLines_stored _ _ _ _ (readData_lines _ _ _ _ _ H1 H2))) as (ws & A & B). rewrite B.
  unfold readManyParameters in A. rewrite findKeyword_missing in A; [cbn in A; injection A as <-; reflexivity|].
  intros k x (K & X & _). apply (Hn x); [eapply nth_error_In; exact K|exact X].
Qed.

(* one solver named in the file *)
Lemma one_solver file lines inp w k : storeInput file = Ok lines -> readData PI stod_opt file = Ok inp -> entry lines "solvers" [w] ->
  In (w, k) [("transport", TRANSPORT); ("kinetics", KINETICS); ("heat", HEAT); ("diffusion", DIFFUSION); ("ads", ADS)] ->
  exists sd, in_solvers inp = [sd] /\ sd_kind sd = k.
Proof.
  intros H1 H2 He Hk. destruct (C12_solvers _ _ _ _ _ H1 H2) as (named & A & B & C & _).
  pose proof (entry_read _ _ _ false He) as E. rewrite (entry_read _ _ _ false A) in E. injection E as E.
  destruct named as [|[w' k'] [|? ?]]; try discriminate E. injection E as ->. specialize (C ltac:(cbn; lia)). cbn in C.
  assert (k' = k) as ->.
  { specialize (B w k' (or_introl eq_refl)). cbn in B, Hk.
    destruct Hk as [Hk|[Hk|[Hk|[Hk|[Hk|[]]]]]]; injection Hk as <- <-; destruct B as [B|[B|[B|[B|[B|[]]]]]]; congruence. }
  destruct (in_solvers inp) as [|sd [|? ?]]; try discriminate C. injection C as C. exists sd. auto.
Qed.

(* the log ends with the results *)
Lemma log_ends fs input output level inp oc : input <> output -> readData PI stod_opt (fs input) = Ok inp ->
  (forall o, problemSolve PI solver sort eig croots E3 Ki3 exp sq to_unsigned o (in_plots inp) (in_solvers inp) (in_rx inp) = Ok oc) ->
  exists fs' l head, run fs [input; output; level] = Ok (oc, fs') /\ (forall p, p <> output -> fs' p = fs p) /\
    holds (fs' output) (head ++ logLines fmt zfmt l (oc_log oc) ++ [(stamp 5 ++ "End simulation")%string])%list.
Proof.
  intros Hne Hr Hp.
  destruct (arguments input output level) as (o & l0 & d0 & nm & ou & Ha & _).
  assert (M : main PI stod_opt solver sort eig croots E3 Ki3 exp sq to_unsigned fs [input; output; level] = Ok oc).
  { unfold main. rewrite Ha. cbn [bind]. rewrite Hr. cbn [bind]. apply Hp. }
  destruct (C90_files_partial PI stod_opt solver sort eig croots E3 Ki3 exp sq to_unsigned fmt zfmt version stamp fs input output level Hne) as (_ & C).
  destruct (C oc M) as (inp' & reading & l & dir & name & out & fs' & Hrun & _ & _ & _ & _ & Hf & Hh).
  exists fs', l. match type of Hh with holds _ (?a ++ ?b ++ reading ++ _)%list => exists (a ++ b ++ reading)%list end.
  split; [exact Hrun|]. split; [exact Hf|]. rewrite <- !app_assoc. exact Hh.
Qed.

Lemma one_number lines key x y : number_line stod_opt lines key x -> number_line stod_opt lines key y -> x = y.
Proof.
  intros (w & A & B) (w' & A' & B'). pose proof (entry_read _ _ _ false A) as E. rewrite (entry_read _ _ _ false A') in E. injection E as <-. congruence.
Qed.

Lemma tail_line (a : string) l c d : ((a :: l ++ [c]) ++ [d] = a :: l ++ [c; d])%list.
Proof. exact (f_equal (cons a) (eq_sym (app_assoc l [c] [d]))). Qed.

(* The kinetics calculation: whatever the file, the log ends with the power of the
   solution of the point kinetics equations that starts in equilibrium, at the times
   of the file. *)
Theorem C104_kinetics fs input output level lines inp la be rs ts al p0 : finds_roots croots -> input <> output ->
  storeInput (fs input) = Ok lines -> readData PI stod_opt (fs input) = Ok inp ->
  entry lines "solvers" ["kinetics"] -> no_plots lines ->
  number_line stod_opt lines "generation_time" al -> number_line stod_opt lines "initial_power" p0 ->
  listing stod_opt lines "delayed_constants" la -> listing stod_opt lines "delayed_fractions" be ->
  listing stod_opt lines "times" ts -> listing stod_opt lines "reactivities" rs ->
  group_data la be al -> nondecreasing_times ts (zlen ts) ->
  exists oc fs' P C head, run fs [input; output; level] = Ok (oc, fs') /\ (forall p, p <> output -> fs' p = fs p) /\
    length rs = length ts /\ equilibrium (mkKinetics al p0 la be rs ts) P C /\ trajectory la be al rs ts (zlen ts) P C /\
    holds (fs' output) (head ++ "Output power [W]: " :: map (fun t => fmt (P t)) ts ++ [" "; (stamp 5 ++ "End simulation")%string])%list.
Proof.
  intros HR Hne H1 H2 He Hn Ha Hp Hla Hbe Hts Hrs G Hm.
  destruct (one_solver _ _ _ "kinetics" KINETICS H1 H2 He ltac:(cbn; tauto)) as (sd & Es & K).
  assert (HK : In KINETICS (map sd_kind (in_solvers inp))) by (rewrite Es; cbn; auto).
  destruct (C82_kinetics_data _ _ _ _ _ H1 H2 HK) as (A1 & A2 & A3 & A4 & A5 & A6).
  pose proof (C63_times_partial _ _ _ _ H2 HK) as Ln.
  set (ks := rx_kin (in_rx inp)) in *. rewrite (A5 _ Hts), (A6 _ Hrs) in Ln.
  assert (Eks : ks = mkKinetics al p0 la be rs ts).
  { rewrite <- (A3 _ Hla), <- (A4 _ Hbe), <- (A5 _ Hts), <- (A6 _ Hrs), <- (one_number _ _ _ _ A1 Ha), <- (one_number _ _ _ _ A2 Hp). destruct ks; reflexivity. }
  pose proof (C62_kinetics_calculation croots (in_rx inp) HR) as W. cbv zeta in W. change (rx_kin (in_rx inp)) with ks in W. rewrite Eks in W.
  cbn [ks_lambda ks_beta ks_alpha ks_reacts ks_times] in W. destruct (W G ltac:(lia)) as (X & Y).
  assert (Lz : zlen rs = zlen ts) by (unfold zlen; lia). rewrite Lz in X, Y.
  destruct (Y Hm) as (P & C & Q & Tr). destruct (X P C Q Tr) as (res & Ek & Lr & Hv).
  assert (Ex : exists oc, (forall o, problemSolve PI solver sort eig croots E3 Ki3 exp sq to_unsigned o (in_plots inp) (in_solvers inp) (in_rx inp) = Ok oc) /\
    forall l, logLines fmt zfmt l (oc_log oc) = ("Output power [W]: " :: map fmt res ++ [" "])%list).
  { rewrite Es, (no_plots_read _ _ _ H1 H2 Hn). eexists. split.
    - intros o. unfold problemSolve. rewrite K. unfold singleCalculation, solve1, solveLog, printEigenmodesResults, printResults. rewrite K, Ek. cbn [bind]. unfold plots. cbn. reflexivity.
    - intros l. cbn [oc_log app]. unfold logLines. cbn [flat_map fst snd]. rewrite app_nil_r. replace (shown l CRITICAL) with true by (destruct l; reflexivity).
      cbn [itemLines printVector]. rewrite ProofsReport.list_of_vec_of_list. reflexivity. }
  destruct Ex as (oc & Ep & El).
  destruct (log_ends fs input output level inp oc Hne H2 Ep) as (fs' & l & head & Hrun & Hf & Hh). exists oc, fs', P, C, head.
  split; [exact Hrun|]. split; [exact Hf|]. split; [congruence|]. split; [exact Q|]. split; [exact Tr|].
  rewrite El in Hh. replace (map (fun t => fmt (P t)) ts) with (map fmt res); [rewrite tail_line in Hh; exact Hh|].
  rewrite <- (map_map P fmt). f_equal. apply (nth_ext _ _ 0%R 0%R); [rewrite map_length; lia|].
  intros j Hj. specialize (Hv (Z.of_nat j) ltac:(unfold zlen; lia)). rewrite Nat2Z.id in Hv. rewrite (nth_indep (map P ts) 0%R (P 0%R)) by (rewrite map_length; lia). rewrite map_nth. exact Hv.
Qed.
End EndToEnd.
Print Assumptions C104_kinetics.

(* the file of the witnesses, with its numbers read as reals *)
Definition stodR (s : string) : option R := option_map Q2R (Files.stodQ s).
Local Notation "'rat' n d" := (Q2R (QArith_base.Qmake n d)) (at level 0, n at level 0, d at level 0).
Lemma stodR_of s x : Files.stodQ s = Some x -> stodR s = Some (Q2R x).
Proof. intros H. unfold stodR. rewrite H. reflexivity. Qed.
Ltac word := apply stodR_of; vm_compute; reflexivity.
Ltac words := repeat (apply Forall2_cons; [split; [vm_compute; reflexivity|word]|]); apply Forall2_nil.
Lemma listed lines key ws xs : entry lines key ws -> Forall2 (fun w x => isFloat w = Ok true /\ stodR w = Some x) ws xs -> listing stodR lines key xs.
Proof. intros H1 H2. left. exists ws. auto. Qed.
Example C104_kinetics_met : exists lines inp, let disk := Run.only "a/in.txt" Run.input in
  storeInput (disk "a/in.txt") = Ok lines /\ readData PI stodR (disk "a/in.txt") = Ok inp /\
  entry lines "solvers" ["kinetics"] /\ no_plots lines /\
  number_line stodR lines "generation_time" (rat 1 10000) /\ number_line stodR lines "initial_power" (rat 1 1) /\
  listing stodR lines "delayed_constants" [rat 1 10] /\ listing stodR lines "delayed_fractions" [rat 1 200] /\
  listing stodR lines "times" [rat 0 1; rat 1 1] /\ listing stodR lines "reactivities" [rat 1 1000; rat 1 1000] /\
  group_data [rat 1 10] [rat 1 200] (rat 1 10000) /\ nondecreasing_times [rat 0 1; rat 1 1] 2 /\ "a/in.txt" <> "b/out.txt" /\ exists croots, finds_roots croots.
Proof.
  cbv zeta. change (Run.only "a/in.txt" Run.input "a/in.txt") with (Some (Files.text Files.kinetics)). exists (Data.lines_of Files.kinetics).
  assert (B : Files.is_ok (readData PI stodR (Some (Files.text Files.kinetics))) = true) by (lazy; reflexivity).
  destruct (readData PI stodR (Some (Files.text Files.kinetics))) as [inp| | |] eqn:E2; try discriminate B. clear B.
  exists inp. split; [vm_compute; reflexivity|]. split; [reflexivity|].
  split; [apply read_entry; [vm_compute; reflexivity|discriminate]|].
  split.
  { intros l Hl Hm. apply mentions_contains in Hm. assert (F : forallb (fun l => negb (contains (lower "plots") (lower l))) (data_lines (Data.lines_of Files.kinetics)) = true) by (vm_compute; reflexivity).
    rewrite forallb_forall in F. specialize (F _ Hl). rewrite Hm in F. discriminate F. }
  split; [exists "0.0001"; split; [apply read_entry; [vm_compute; reflexivity|discriminate]|word]|].
  split; [exists "1.0"; split; [apply read_entry; [vm_compute; reflexivity|discriminate]|word]|].
  split; [apply (listed _ _ ["0.1"]); [apply read_entry; [vm_compute; reflexivity|discriminate]|words]|].
  split; [apply (listed _ _ ["0.005"]); [apply read_entry; [vm_compute; reflexivity|discriminate]|words]|].
  split; [apply (listed _ _ ["0.0"; "1.0"]); [apply read_entry; [vm_compute; reflexivity|discriminate]|words]|].
  split.
  { right. exists "0.001", "2", [], [(rat 1 1000, 2)]. split; [apply read_entry; [vm_compute; reflexivity|discriminate]|]. split; [vm_compute; reflexivity|].
    split; [vm_compute; reflexivity|]. split; [apply Forall2_cons; [split; [word|vm_compute; reflexivity]|apply Forall2_nil]|].
    split; [repeat constructor; cbn; lia|]. split; [cbn; lia|]. reflexivity. }
  split.
  { split; [unfold Q2R; cbn; lra|]. split; [reflexivity|]. split; [repeat constructor; intros []|].
    intros i Hi. unfold zlen in Hi. cbn in Hi. assert (i = 0) as -> by lia. unfold Q2R; cbn; lra. }
  split.
  { intros m Hm. assert (m = 0 \/ m = 1) as [-> | ->] by lia; unfold instant, Q2R; cbn; cbv [Pos.to_nat Pos.iter_op Nat.add]; cbn; lra. }
  split; [discriminate|]. exact finds_roots_exists.
Qed.
