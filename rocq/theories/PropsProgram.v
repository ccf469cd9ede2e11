(* The files of a run: C90. *)
From Coq Require Import String Ascii ZArith List Bool Lia Arith QArith.
From Verif Require Import Base BaseLemmas ProofsText NumQ ModelNumTools ModelEigen ModelMesh ModelReactor ModelOutput ModelCalculation
  ModelText ModelInput ModelLog ModelEcho ModelMain ModelProgram ProofsInput ProofsInputB ProofsInputC ProofsInputD ProofsInputE ProofsInputF
  ProofsInputG ProofsInputH ProofsInputI ProofsInputJ ProofsReport PropsOutput PropsInputB PropsInputC PropsInputD PropsReport PropsEcho PropsReading.
Import ListNotations.
Local Open Scope string_scope.
Local Open Scope Z_scope.

(* ---------- the reading with its log is the reading ---------- *)

Section Reading.
Context {T : Type} {N : Num T}.
Variable mpi : T.
Variable stod_opt : string -> option T.
Variable fmt : T -> string.
Notation both := (input T * list string)%type.

(* m does what n does, and logs it *)
Definition logs (m : res both) (n : res (input T)) : Prop := forall st, m = Ok st -> n = Ok (fst st).
Lemma logs_noting e g st : logs (noting e g st) (g (fst st)).
Proof.
  destruct st as [a l]. intros st' H. unfold noting in H. apply bind_ok_inv in H. destruct H as (x & _ & H).
  apply bind_ok_inv in H. destruct H as (b & Hb & H). injection H as <-. exact Hb.
Qed.
Lemma logs_ok st : logs (Ok st) (Ok (fst st)).
Proof. intros st' H. injection H as <-. reflexivity. Qed.
Lemma logs_bind m n (f : both -> res both) (g : input T -> res (input T)) :
  logs m n -> (forall st, logs (f st) (g (fst st))) -> logs (bind m f) (bind n g).
Proof. intros H H' st E. apply bind_ok_inv in E. destruct E as (x & Ex & E). rewrite (H _ Ex). exact (H' _ _ E). Qed.
Lemma logs_foreach {A} (l : list A) f g : (forall a st, logs (f a st) (g a (fst st))) ->
  forall st, logs (foreach l f st) (foreach l g (fst st)).
Proof. intros H. induction l as [|a l IH]; intros st; cbn [foreach]; [apply logs_ok|apply logs_bind; auto]. Qed.
Lemma logs_materials k st : logs (materialsLog stod_opt fmt k st) (setMaterials stod_opt k (fst st)).
Proof. destruct k; unfold materialsLog, setMaterials; repeat first [apply logs_noting | apply logs_ok | apply logs_bind; intros]. Qed.
Lemma logs_solver k st : logs (readSolverLog stod_opt fmt k st) (readSolverInput stod_opt (fst st) k).
Proof.
  destruct k; unfold readSolverLog, readSolverInput; cbv zeta;
    repeat first [apply logs_noting | apply logs_ok | apply logs_materials | apply logs_bind; intros].
  destruct (_ || _)%bool; apply logs_noting.
Qed.
Lemma logs_lines st : logs (readLinesLog mpi stod_opt fmt st) (readLines mpi stod_opt (fst st)).
Proof.
  unfold readLinesLog, readLines. apply logs_bind; [apply logs_noting|]. intros a. cbv zeta.
  apply logs_bind; [destruct (_ || _)%bool; [apply logs_bind; intros; apply logs_noting|apply logs_ok]|]. intros b.
  do 13 (apply logs_bind; [apply logs_noting|intros ?]).
  apply logs_bind; [destruct (_ && _)%bool; [apply logs_noting|apply logs_ok]|]. intros c.
  apply logs_bind; [apply logs_foreach; intros s u; apply logs_solver|]. intros d. apply logs_noting.
Qed.
Lemma logs_data file inp l : readDataLog mpi stod_opt fmt file = Ok (inp, l) -> readData mpi stod_opt file = Ok inp.
Proof.
  unfold readDataLog, readData. destruct (storeInput file) as [lines| | |]; try discriminate. cbn [bind].
  exact (logs_lines (mkInput lines newReactor [] [] [] [], []) (inp, l)).
Qed.
End Reading.

Section Any.
Context {T : Type} {N : Num T}.
Variable mpi : T.
Variable stod_opt : string -> option T.
Variable solver : mat T -> vec T -> vec T.
Variable sort : list (T * vec T) -> list (T * vec T).
Variable eig : mat T -> mat T -> vec (T * T) * mat (T * T).
Variable croots : list T -> list (T * T).
Variables (expint3 bickley3f nexp nsqrt : T -> T).
Variable to_unsigned : T -> res Z.
Variables (fmt : T -> string) (zfmt : Z -> string).
Variable version : string.
Variable stamp : Z -> string.
Notation main := (main mpi stod_opt solver sort eig croots expint3 bickley3f nexp nsqrt to_unsigned).
Notation program := (program mpi stod_opt solver sort eig croots expint3 bickley3f nexp nsqrt to_unsigned fmt zfmt version stamp).
Notation starting := (starting version stamp).

Lemma ok_pair {A B} (a a' : A) (b b' : B) : Ok (a, b) = Ok (a', b') -> a = a' /\ b = b'.
Proof. intros H. inversion H. auto. Qed.
(* what is in the file: every line followed by a line break *)
Definition holds (text : option string) (lines : list string) : Prop :=
  text = Some (String.concat "" (map (fun l => l ++ lineBreak) lines)).
Lemma holds_fileText lines : holds (Some (fileText lines)) lines.
Proof.
  unfold holds. f_equal. induction lines as [|l lines IH]; [reflexivity|]. cbn [fileText fold_right map].
  fold (fileText lines). rewrite IH. destruct lines as [|m lines]; cbn [map String.concat]; [rewrite append_empty_r|]; rewrite ?append_assoc; reflexivity.
Qed.

(* the level that a text stands for *)
Definition level_of (level : string) (l : TraceLevel) : Prop :=
  In (level, l) level_names \/ (~ In level (map fst level_names) /\ l = CRITICAL).

Lemma level_of_set level o : exists l, level_of level l /\ o_level (setLevel level o) = Some l.
Proof.
  destruct (in_dec string_dec level (map fst level_names)) as [H|H].
  - apply in_map_iff in H. destruct H as ([n l] & <- & H). exists l. split; [left; exact H|].
    exact (proj1 (C68_levels n o) l H).
  - exists CRITICAL. split; [right; auto|]. exact (proj1 (proj2 (C68_levels level o)) H).
Qed.
Lemma arguments input output level : exists o l dir name out,
  getArguments [input; output; level] newOutput = Ok (input, o) /\ o_fullName o = output /\
  o_level o = Some l /\ level_of level l /\
  o_inputPath o = dir /\ o_inputName o = name /\ o_outputName o = out /\
  (splits input dir name \/ (free is_separator input /\ dir = "" /\ name = "")) /\
  ((exists d, splits output d out) \/ (free is_separator output /\ out = "")).
Proof.
  set (i := setInputPath input newOutput). set (o := setOutputPath output i).
  destruct (level_of_set level o) as (l & Hl & El). destruct (C68_levels level o) as (_ & _ & L1 & L2 & L3 & L4 & L5).
  exists (setLevel level o), l, (o_inputPath i), (o_inputName i), (o_outputName o).
  split; [reflexivity|]. split; [rewrite L5; unfold o, setOutputPath; destruct (find_last_of _ output); reflexivity|].
  split; [exact El|]. split; [exact Hl|].
  split; [rewrite L1; unfold o, setOutputPath; destruct (find_last_of _ output); reflexivity|].
  split; [rewrite L2; unfold o, setOutputPath; destruct (find_last_of _ output); reflexivity|].
  split; [exact L4|]. split.
  - destruct (bool_dec (all_of (fun c => negb (is_separator c)) input) true) as [F|F]; [right|left; exact (proj1 (C68_paths_split input newOutput F))].
    destruct (C68_bare_name_refuted input F) as (A & B & _). auto.
  - destruct (bool_dec (all_of (fun c => negb (is_separator c)) output) true) as [F|F]; [right|left; exists (o_outputPath o); exact (proj1 (proj2 (C68_paths_split output i F)))].
    split; [exact F|]. unfold o, setOutputPath.
    destruct (find_last_of_spec is_separator output) as [[_ E]|(a & c & b & -> & Hc & _ & _)].
    + rewrite E. cbn [o_outputName]. unfold i, setInputPath. destruct (find_last_of _ input); reflexivity.
    + apply free_app in F as [_ F]. unfold free in F. cbn in F. rewrite Hc in F. discriminate.
Qed.

(* With an output file that is not the input file the program gives the results of
   main. The log file is then the complaint about the level, if it is none of the
   six names, the start, the lines of the reading of C89, the results at that level
   and the end; what was in it before is gone. No other file changes, in
   particular not the input file. *)
Theorem C90_files_partial fs input output level : input <> output ->
  (forall oc fs', program fs [input; output; level] = Ok (oc, fs') -> main fs [input; output; level] = Ok oc) /\
  (forall oc, main fs [input; output; level] = Ok oc -> exists inp reading l dir name out fs',
     program fs [input; output; level] = Ok (oc, fs') /\
     readDataLog mpi stod_opt fmt (fs input) = Ok (inp, reading) /\ level_of level l /\
     (splits input dir name \/ (free is_separator input /\ dir = "" /\ name = "")) /\
     ((exists d, splits output d out) \/ (free is_separator output /\ out = "")) /\
     (forall p, p <> output -> fs' p = fs p) /\
     holds (fs' output)
       ((if existsb (String.eqb level) (map fst level_names) then []
         else [(stamp 0 ++ "Trace Level not recognized")%string;
               (stamp 1 ++ "Please use capital letters: CRITICAL, ERR, WARN, INFO, DEBUG or TRACE")%string;
               (stamp 2 ++ "Trace Level defaulted to CRITICAL ")%string; ""]) ++
        [(stamp 3 ++ "Start simulation")%string; (stamp 4 ++ "ALMOST Version: " ++ version ++ " ")%string; "";
         ("Input file: " ++ dir ++ "/" ++ name)%string; ("Output file: " ++ out ++ " ")%string; ""] ++
        reading ++ logLines fmt zfmt l (oc_log oc) ++ [(stamp 5 ++ "End simulation")%string])%list).
Proof.
  intros Hne. destruct (arguments input output level) as (o & l & dir & name & out & HA & Ho & El & Hl & <- & <- & <- & HI & HO).
  assert (W : forall text, write output text fs input = fs input).
  { intros text. unfold write. destruct (String.eqb_spec input output); [contradiction|reflexivity]. }
  unfold program, starting, main. rewrite HA. cbn [bind]. rewrite Ho, W, El. split.
  - intros oc fs' H. apply bind_ok_inv in H. destruct H as ([inp reading] & HR & H). rewrite (logs_data _ _ _ _ _ _ HR). cbn [bind].
    apply bind_ok_inv in H. destruct H as (oc' & Hp & H). injection H as <- _. exact Hp.
  - intros oc H. apply bind_ok_inv in H. destruct H as (inp & HR & Hp).
    assert (exists lines, storeInput (fs input) = Ok lines) as (lines & Hs).
    { unfold readData in HR. apply bind_ok_inv in HR. destruct HR as (lines & Hs & _). exists lines. exact Hs. }
    destruct (C89_log mpi stod_opt fmt (fs input) lines inp Hs HR) as (ws & props & words & row & scatt & mesh & heating & temps & EL & _).
    rewrite EL. cbn [bind]. rewrite Hp. cbn [bind].
    eexists inp, _, l, _, _, _, _. split; [reflexivity|]. split; [reflexivity|]. split; [exact Hl|]. split; [exact HI|]. split; [exact HO|].
    split.
    + intros p Hp'. unfold write. destruct (String.eqb_spec p output); [contradiction|reflexivity].
    + unfold write at 1. rewrite String.eqb_refl. unfold levelLines, startLines, endLines. cbn [nth].
      rewrite <- app_assoc. exact (holds_fileText _).
Qed.

(* What the output file held before the run, and the other files, do not matter. *)
Theorem C90_old_files fs1 fs2 input output level oc d1 : input <> output -> fs1 input = fs2 input ->
  program fs1 [input; output; level] = Ok (oc, d1) ->
  exists d2, program fs2 [input; output; level] = Ok (oc, d2) /\ d2 output = d1 output.
Proof.
  intros Hne E. destruct (arguments input output level) as (o & l & dir & name & out & HA & Ho & El & _).
  assert (W : forall text fs, write output text fs input = fs input).
  { intros text fs. unfold write. destruct (String.eqb_spec input output); [contradiction|reflexivity]. }
  unfold program, starting. rewrite HA. cbn [bind]. rewrite Ho, !W, E. intros H.
  apply bind_ok_inv in H. destruct H as ([inp reading] & HR & H). rewrite HR. cbn [bind].
  apply bind_ok_inv in H. destruct H as (oc' & Hp & H). injection H as <- <-. rewrite Hp. cbn [bind].
  eexists. split; [reflexivity|]. unfold write. rewrite String.eqb_refl. reflexivity.
Qed.

(* A more verbose level gives the same results and only adds lines to the file. *)
Theorem C90_more_verbose fs input output i j a b la lb oc d1 : input <> output ->
  nth_error level_names i = Some (a, la) -> nth_error level_names j = Some (b, lb) -> (i <= j)%nat ->
  program fs [input; output; a] = Ok (oc, d1) ->
  exists d2 l1 l2, program fs [input; output; b] = Ok (oc, d2) /\ holds (d1 output) l1 /\ holds (d2 output) l2 /\ sublist l1 l2.
Proof.
  intros Hne Ha Hb Hij.
  set (X := setOutputPath output (setInputPath input newOutput)).
  assert (GA : forall c, getArguments [input; output; c] newOutput = Ok (input, setLevel c X)) by reflexivity.
  assert (FN : forall c, o_fullName (setLevel c X) = output).
  { intros c. unfold X, setOutputPath. destruct (find_last_of is_separator output); reflexivity. }
  assert (W : forall text, write output text fs input = fs input).
  { intros text. unfold write. destruct (String.eqb_spec input output); [contradiction|reflexivity]. }
  assert (LN : forall k n m, nth_error level_names k = Some (n, m) ->
    o_level (setLevel n X) = Some m /\ nth_error levels k = Some m /\ levelLines stamp n = []).
  { intros k n m Hk. do 6 (destruct k as [|k]; [injection Hk as <- <-; repeat split|]). destruct k; discriminate Hk. }
  destruct (LN _ _ _ Ha) as (Oa & Na & Ea). destruct (LN _ _ _ Hb) as (Ob & Nb & Eb).
  unfold program, starting. rewrite !GA. cbn [bind]. rewrite !FN, !W, Oa, Ob. cbn [nth]. rewrite Ea, Eb. cbn [app]. intros H.
  apply bind_ok_inv in H. destruct H as ([inp reading] & HR & H). rewrite HR. cbn [bind].
  apply bind_ok_inv in H. destruct H as (oc' & Hp & H). apply ok_pair in H. destruct H as [<- <-].
  assert (Hp' : problemSolve mpi solver sort eig croots expint3 bickley3f nexp nsqrt to_unsigned (setLevel b X) (in_plots inp) (in_solvers inp) (in_rx inp) = Ok oc') by exact Hp.
  rewrite Hp'. cbn [bind]. eexists _, _, _. split; [reflexivity|].
  assert (WO : forall text fs0, write output text fs0 output = Some text) by (intros; unfold write; rewrite String.eqb_refl; reflexivity).
  rewrite !WO. split; [apply holds_fileText|]. split; [apply holds_fileText|].
  apply sublist_app; [apply sublist_refl|]. apply sublist_app; [apply sublist_refl|]. apply sublist_app; [|apply sublist_refl].
  exact (proj1 (C84_levels fmt zfmt (oc_log oc')) i j la lb Na Nb Hij).
Qed.
End Any.
Print Assumptions C90_files_partial.
Print Assumptions C90_old_files.
Print Assumptions C90_more_verbose.

(* ---------- runs ---------- *)

Module Run.
Definition only (p text : string) : disk := fun q => if String.eqb q p then Some text else None.
Notation main := (ModelMain.main (355 # 113)%Q Files.stodQ (fun _ b => b) (fun l => l) Files.none (fun _ => [])
    (fun x => x) (fun x => x) (fun x => x) (fun x => x) (fun _ => Ok 0)).
Notation program := (ModelProgram.program (355 # 113)%Q Files.stodQ (fun _ b => b) (fun l => l) Files.none (fun _ => [])
    (fun x => x) (fun x => x) (fun x => x) (fun x => x) (fun _ => Ok 0) Shown.fmt to_string "1.2.3" (fun _ => "[now] ")).
Definition starting (fs : disk) (args : list string) := ModelProgram.starting "1.2.3" (fun _ => "[now] ") fs args.
Definition input : string := Files.text Files.kinetics.
Definition files := C90_files_partial (355 # 113)%Q Files.stodQ (fun _ b => b) (fun l => l) Files.none (fun _ => [])
    (fun x => x) (fun x => x) (fun x => x) (fun x => x) (fun _ => Ok 0) Shown.fmt to_string "1.2.3" (fun _ => "[now] ").
End Run.

(* a whole log file *)
Example C90_met : "a/in.txt" <> "b/out.txt" /\ exists oc fs,
  Run.program (Run.only "a/in.txt" Run.input) ["a/in.txt"; "b/out.txt"; "all"] = Ok (oc, fs) /\
  Run.main (Run.only "a/in.txt" Run.input) ["a/in.txt"; "b/out.txt"; "all"] = Ok oc /\
  holds (fs "b/out.txt")
    ["[now] Trace Level not recognized"; "[now] Please use capital letters: CRITICAL, ERR, WARN, INFO, DEBUG or TRACE";
     "[now] Trace Level defaulted to CRITICAL "; "";
     "[now] Start simulation"; "[now] ALMOST Version: 1.2.3 "; ""; "Input file: a/in.txt"; "Output file: out.txt "; "";
     "Solvers: kinetics "; "KINETICS solver accuracy: 0.001"; "KINETICS solver max_iteration_number: 10";
     "Mean generation time of the reactor [s]: 1/10000 "; "Initial power [W]: 1/10000 ";
     "Input delayed neutrons group decay constants [1/s]:"; "1/10"; " ";
     "Input delayed neutrons group fractions:"; "1/200"; " ";
     "Input times [s]:"; "0/1"; "1/1"; " "; "Input reactivities:"; "1/1000"; "1/1000"; " ";
     "Output power [W]: "; "0/1"; "0/1"; " "; "[now] End simulation"].
Proof.
  split; [discriminate|].
  destruct (Run.program (Run.only "a/in.txt" Run.input) ["a/in.txt"; "b/out.txt"; "all"]) as [[oc fs]| | |] eqn:E;
    [|exfalso; revert E; vm_compute; discriminate..].
  exists oc, fs. split; [reflexivity|]. split.
  - exact (proj1 (Run.files (Run.only "a/in.txt" Run.input) "a/in.txt" "b/out.txt" "all" ltac:(discriminate)) _ _ E).
  - assert (F : match Run.program (Run.only "a/in.txt" Run.input) ["a/in.txt"; "b/out.txt"; "all"] with Ok (_, d) => d "b/out.txt" | _ => None end = fs "b/out.txt")
      by (rewrite E; reflexivity).
    rewrite <- F. vm_compute. reflexivity.
Qed.

(* two levels and two disks for which the other theorems speak *)
Example C90_more_verbose_met : nth_error level_names 0 = Some ("CRITICAL", CRITICAL) /\ nth_error level_names 5 = Some ("TRACE", TRACE) /\
  Files.is_ok (Run.program (Run.only "a/in.txt" Run.input) ["a/in.txt"; "b/out.txt"; "CRITICAL"]) = true /\
  Run.only "a/in.txt" Run.input "a/in.txt" = write "b/out.txt" "old" (Run.only "a/in.txt" Run.input) "a/in.txt".
Proof. vm_compute. repeat split. Qed.

(* An output file with the name of the input file: the input file is removed
   before it is read. Whatever was in it, the program stops, and it is lost. *)
Theorem C90_input_lost_refuted : exists path level text,
  (exists oc, Run.main (Run.only path text) [path; "another.txt"; level] = Ok oc) /\
  forall fs, (exists m, Run.program fs [path; path; level] = Exit m) /\
    exists o head fs', Run.starting fs [path; path; level] = Ok (path, o, head, fs') /\ fs' path <> Some text.
Proof.
  exists "a/in.txt", "TRACE", Run.input. split.
  - destruct (Run.main (Run.only "a/in.txt" Run.input) ["a/in.txt"; "another.txt"; "TRACE"]) as [oc| | |] eqn:E;
      [eexists; reflexivity|exfalso; revert E; vm_compute; discriminate..].
  - intros fs. split; [eexists; vm_compute; reflexivity|]. eexists _, _, _. split; [reflexivity|]. vm_compute. discriminate.
Qed.
Print Assumptions C90_input_lost_refuted.

(* A bare name is not shown: the log says "/" for the input file and nothing for
   the output file. *)
Theorem C90_names_refuted : exists input output level oc fs' lines, free is_separator input /\ free is_separator output /\ input <> output /\
  Run.program (Run.only input Run.input) [input; output; level] = Ok (oc, fs') /\ holds (fs' output) lines /\
  nth_error lines 3 = Some "Input file: /" /\ nth_error lines 4 = Some "Output file:  ".
Proof.
  exists "in.txt", "out.txt", "TRACE".
  destruct (Run.program (Run.only "in.txt" Run.input) ["in.txt"; "out.txt"; "TRACE"]) as [[oc fs]| | |] eqn:E;
    [|exfalso; revert E; vm_compute; discriminate..].
  pose proof (proj1 (Run.files (Run.only "in.txt" Run.input) "in.txt" "out.txt" "TRACE" ltac:(discriminate)) _ _ E) as M.
  destruct (proj2 (Run.files (Run.only "in.txt" Run.input) "in.txt" "out.txt" "TRACE" ltac:(discriminate)) _ M)
    as (inp & reading & l & dir & name & out & fs' & P & _ & _ & I & O & _ & H).
  pose proof (eq_trans (eq_sym E) P) as P'. apply ok_pair in P'. destruct P' as [_ <-].
  assert (S : forall p d n, splits p d n -> ~ free is_separator p).
  { intros p d n (c & Hc & -> & _) F. apply free_app in F as [_ F]. unfold free in F. cbn in F. rewrite Hc in F. discriminate. }
  exists oc, fs. eexists. split; [reflexivity|]. split; [reflexivity|]. split; [discriminate|]. split; [reflexivity|]. split; [exact H|].
  destruct I as [I|(_ & -> & ->)]; [contradiction (S _ _ _ I); reflexivity|].
  destruct O as [[d O]|(_ & ->)]; [contradiction (S _ _ _ O); reflexivity|]. split; reflexivity.
Qed.
Print Assumptions C90_names_refuted.
