(* Command line, paths, log level, vector dumps and plots: C15, C68, C69, C70. *)
From Coq Require Import String Ascii ZArith List Bool Lia Arith Reals Lra.
From Verif Require Import Base BaseLemmas NumR ModelText ModelNumTools ModelMesh ModelReactor ModelOutput ProofsMesh ProofsText.
Import ListNotations.
Local Open Scope string_scope.
Local Open Scope Z_scope.

(* ---------- C68 ---------- *)

(* path is a directory, a separator and a name *)
Definition splits (path dir name : string) : Prop :=
  exists c, is_separator c = true /\ path = dir ++ String c name /\ free is_separator name.

(* A path with a separator is split into directory and name, losslessly and
   at the last separator; the file itself is opened under the full path. *)
Theorem C68_paths_split path o :
  ~ free is_separator path ->
  splits path (o_inputPath (setInputPath path o)) (o_inputName (setInputPath path o)) /\
  splits path (o_outputPath (setOutputPath path o)) (o_outputName (setOutputPath path o)) /\
  o_fullName (setOutputPath path o) = path.
Proof.
  intros Hf. unfold setInputPath, setOutputPath.
  destruct (find_last_of_spec is_separator path) as [[F _]|(a & c & b & Ep & Hc & F & E)]; [contradiction|].
  rewrite E. subst path. cbn [o_inputPath o_inputName o_outputPath o_outputName o_fullName].
  assert (A : substring 0 (String.length a) (a ++ String c b) = a) by apply substring_prefix.
  assert (B : substr_from (String.length a + 1) (a ++ String c b) = b).
  { pose proof (substr_from_app (a ++ String c "") b) as H. rewrite append_length, append_assoc in H. exact H. }
  rewrite A, B. repeat split; exists c; auto.
Qed.
Print Assumptions C68_paths_split.

Example C68_path_met : ~ free is_separator "run/cases/a.inp" /\
  o_inputPath (setInputPath "run/cases/a.inp" newOutput) = "run/cases" /\
  o_inputName (setInputPath "run/cases/a.inp" newOutput) = "a.inp".
Proof. split; [unfold free; vm_compute; discriminate|]. split; reflexivity. Qed.

(* Without a separator the name is lost: it keeps its old value, and the plots
   are named after the empty string. *)
Theorem C68_bare_name_refuted path :
  free is_separator path ->
  o_inputPath (setInputPath path newOutput) = "" /\ o_inputName (setInputPath path newOutput) = "" /\
  getInputNameNoExt (setInputPath path newOutput) = "" /\
  o_outputName (setOutputPath path newOutput) = "".
Proof.
  intros Hf. unfold setInputPath, setOutputPath.
  destruct (find_last_of_spec is_separator path) as [[_ E]|(a & c & b & -> & Hc & _ & _)].
  - rewrite E. repeat split.
  - apply free_app in Hf as [_ Hf]. unfold free in Hf. cbn in Hf. rewrite Hc in Hf. discriminate.
Qed.
Print Assumptions C68_bare_name_refuted.
Example C68_bare_name_met : free is_separator "a.inp".
Proof. reflexivity. Qed.

Definition level_names : list (string * TraceLevel) :=
  [("CRITICAL", CRITICAL); ("ERR", ERR); ("WARN", WARN); ("INFO", INFO); ("DEBUG", DEBUG); ("TRACE", TRACE)].

(* The six documented names give their level and every other text the critical one. *)
Theorem C68_levels s o :
  (forall l, In (s, l) level_names -> o_level (setLevel s o) = Some l) /\
  (~ In s (map fst level_names) -> o_level (setLevel s o) = Some CRITICAL) /\
  o_inputPath (setLevel s o) = o_inputPath o /\ o_inputName (setLevel s o) = o_inputName o /\
  o_outputPath (setLevel s o) = o_outputPath o /\ o_outputName (setLevel s o) = o_outputName o /\
  o_fullName (setLevel s o) = o_fullName o.
Proof.
  split; [|split].
  - intros l H. cbn in H. repeat (destruct H as [H|H]; [injection H as <- <-; reflexivity|]). contradiction.
  - intros H. unfold setLevel. cbn [o_level]. cbn in H.
    repeat (match goal with |- context [String.eqb s ?k] => destruct (String.eqb_spec s k); [exfalso; subst; tauto|] end).
    reflexivity.
  - repeat split.
Qed.
Print Assumptions C68_levels.
Example C68_levels_met : In ("WARN", WARN) level_names /\ ~ In "warn" (map fst level_names).
Proof. split; [cbn; tauto|]. cbn. intuition discriminate. Qed.

(* the name without its extension *)
Theorem C68_extension_removed dir base ext c :
  is_separator c = true -> free is_separator base -> free is_separator ext -> free (fun x => Ascii.eqb x ".") ext ->
  getInputNameNoExt (setInputPath (dir ++ String c (base ++ "." ++ ext)) newOutput) = base.
Proof.
  intros Hc Hb He Hd.
  destruct (C68_paths_split (dir ++ String c (base ++ "." ++ ext)) newOutput) as [(c' & Hc' & E & F) _].
  { intros H. apply free_app in H as [_ H]. unfold free in H. cbn in H. rewrite Hc in H. discriminate. }
  set (o := setInputPath _ newOutput) in *.
  assert (En : o_inputName o = base ++ "." ++ ext).
  { assert (G : forall a b x y u v, is_separator x = true -> is_separator y = true -> free is_separator u -> free is_separator v ->
        a ++ String x u = b ++ String y v -> u = v).
    { induction a as [|k a IH]; intros b x y u v Hx Hy Hu Hv H; destruct b as [|k' b]; cbn in H; injection H as H1 H2.
      - exact H2.
      - subst u. apply free_app in Hu as [_ Hu]. unfold free in Hu. cbn in Hu. rewrite Hy in Hu. discriminate.
      - subst v. apply free_app in Hv as [_ Hv]. unfold free in Hv. cbn in Hv. rewrite Hx in Hv. discriminate.
      - exact (IH b x y u v Hx Hy Hu Hv H2). }
    symmetry. eapply G; [| | | |exact E]; auto.
    apply free_app. split; [exact Hb|]. apply free_app. split; [reflexivity|exact He]. }
  unfold getInputNameNoExt. rewrite En.
  set (p := fun c : ascii => (Ascii.eqb c "." || Ascii.eqb c "\")%bool).
  destruct (find_last_of_spec p (base ++ "." ++ ext)) as [[F' _]|(a & x & b & Ea & Hx & Fb & E')].
  - apply free_app in F' as [_ F']. unfold free in F'. cbn in F'. discriminate.
  - rewrite E', Ea, substring_prefix.
    assert (Fext : free p ext).
    { clear - He Hd. unfold free in *. induction ext as [|y ext IH]; [reflexivity|]. cbn in *.
      apply andb_true_iff in He as [H1 H2]. apply andb_true_iff in Hd as [H3 H4]. rewrite (IH H2 H4), andb_true_r.
      unfold is_separator in H1. apply negb_true_iff in H1. apply orb_false_iff in H1 as [_ H1].
      apply negb_true_iff in H3. unfold p. rewrite H1, H3. reflexivity. }
    clear - Ea Hx Fb Fext. revert a Ea. induction base as [|k base IH]; intros a Ea; destruct a as [|k' a]; cbn in Ea.
    + reflexivity.
    + injection Ea as _ Ea. subst ext. apply free_app in Fext as [_ Fe]. unfold free in Fe. cbn [all_of] in Fe. rewrite Hx in Fe. discriminate.
    + injection Ea as _ Ea. subst b. apply free_app in Fb as [_ Fe]. unfold free in Fe. cbn in Fe. discriminate.
    + injection Ea as -> Ea. f_equal. apply IH. exact Ea.
Qed.
Print Assumptions C68_extension_removed.
Example C68_extension_met :
  is_separator "/" = true /\ free is_separator "core" /\ free is_separator "inp" /\ free (fun x => Ascii.eqb x ".") "inp".
Proof. repeat split. Qed.

(* ---------- C15 ---------- *)

(* The program goes on exactly with three arguments, kept as input path, output
   path and level; otherwise it ends with an error. *)
Theorem C15_command_line args o :
  (forall a b c, args = [a; b; c] ->
     exists o', getArguments args o = Ok (a, o') /\ o_fullName o' = b /\
       o_inputPath o' = o_inputPath (setInputPath a o) /\ o_inputName o' = o_inputName (setInputPath a o) /\
       o_level o' = o_level (setLevel c o)) /\
  (zlen args <> 3 -> exists m, getArguments args o = Exit m).
Proof.
  split.
  - intros a b c ->. eexists. split; [reflexivity|]. cbn [o_fullName setLevel setOutputPath o_level o_inputPath o_inputName].
    repeat split; unfold setOutputPath; destruct (find_last_of is_separator b); reflexivity.
  - intros H. unfold getArguments. destruct (zlen args + 1 <? 3); [eauto|].
    destruct args as [|a [|b [|c [|d l]]]]; eauto. exfalso. apply H. reflexivity.
Qed.
Print Assumptions C15_command_line.
Example C15_met : zlen ["in"; "out"] <> 3 /\ zlen (@nil string) <> 3 /\ zlen ["a"; "b"; "c"; "d"] <> 3.
Proof. repeat split; discriminate. Qed.

(* With two arguments, one too few, the message says too many. *)
Theorem C15_message_refuted a b o : getArguments [a; b] o = Exit "Too many input arguments!".
Proof. reflexivity. Qed.
Print Assumptions C15_message_refuted.

(* ---------- C69 ---------- *)

Section Dump.
Context {T : Type}.
Variable fmt : T -> string.

(* the values separated by a comma and a blank *)
Fixpoint joined (l : list T) : string :=
  match l with
  | [] => ""
  | [x] => fmt x
  | x :: l => fmt x ++ ", " ++ joined l
  end.

Lemma joined_row l : l <> [] -> dumpRow fmt l = joined l ++ ", ".
Proof.
  induction l as [|x [|y l] IH]; intros H; [contradiction| |].
  - reflexivity.
  - change (dumpRow fmt (x :: y :: l)) with (fmt x ++ ", " ++ dumpRow fmt (y :: l)). rewrite IH by discriminate.
    change (joined (x :: y :: l)) with (fmt x ++ ", " ++ joined (y :: l)). rewrite !append_assoc. reflexivity.
Qed.
Lemma row_app a b : dumpRow fmt (a ++ b)%list = dumpRow fmt a ++ dumpRow fmt b.
Proof. induction a as [|x a IH]; [reflexivity|]. cbn [List.app]. unfold dumpRow in *. cbn [fold_right]. rewrite IH, !append_assoc. reflexivity. Qed.

Definition comma (s : string) : Prop := exists x, s = x ++ ", ".
Lemma comma_row l : l <> [] -> comma (dumpRow fmt l).
Proof. intros H. exists (joined l). apply joined_row. exact H. Qed.

Lemma dump_tail l : forall i counter w res, 3 <= i -> 1 <= counter -> zlen w = (counter - 1) mod 5 ->
  Forall comma res ->
  exists z w' res', dumpLoop fmt l i counter (dumpRow fmt w) res = (dumpRow fmt w', res') /\
    (w ++ l = z ++ w')%list /\ zlen w' = (counter - 1 + zlen l) mod 5 /\
    cat res' = cat res ++ dumpRow fmt z /\ Forall comma res' /\ (res <> [] -> res' <> []).
Proof.
  induction l as [|x l IH]; intros i counter w res Hi Hc Hw Hr.
  - exists [], w, res. cbn [dumpLoop]. split; [reflexivity|]. rewrite app_nil_r. split; [reflexivity|].
    split; [rewrite Hw; f_equal; unfold zlen; cbn; lia|]. split; [cbn; rewrite append_empty_r; reflexivity|]. auto.
  - cbn [dumpLoop]. replace (i =? 0) with false by lia. replace (i <? 2) with false by lia. replace (i =? 2) with false by lia.
    assert (E : dumpRow fmt w ++ fmt x ++ ", " = dumpRow fmt (w ++ [x])).
    { rewrite row_app. reflexivity. }
    rewrite E. assert (Lw : zlen (w ++ [x]) = zlen w + 1) by (unfold zlen; rewrite app_length; cbn; lia).
    assert (Lx : zlen (x :: l) = zlen l + 1) by (unfold zlen; cbn; lia).
    destruct (Z.eqb_spec (counter mod 5) 0) as [E5|E5].
    + destruct (IH (i + 1) (counter + 1) [] (res ++ [dumpRow fmt (w ++ [x])])%list ltac:(lia) ltac:(lia))
        as (z & w' & res' & Ed & Ez & Lz & Cz & Fz & Nz).
      { unfold zlen. cbn. replace (counter + 1 - 1) with counter by lia. lia. }
      { apply Forall_app. split; [exact Hr|]. constructor; [|constructor]. apply comma_row. destruct w; discriminate. }
      exists ((w ++ [x]) ++ z)%list, w', res'. split; [exact Ed|]. cbn [app] in Ez.
      split; [rewrite <- !app_assoc, <- Ez; reflexivity|]. split; [rewrite Lz, Lx; f_equal; lia|].
      split; [rewrite Cz, cat_app, (row_app (w ++ [x])); cbn [cat]; rewrite append_empty_r, append_assoc; reflexivity|].
      split; [exact Fz|]. intros _. apply Nz. destruct res; discriminate.
    + destruct (IH (i + 1) (counter + 1) (w ++ [x])%list res ltac:(lia) ltac:(lia))
        as (z & w' & res' & Ed & Ez & Lz & Cz & Fz & Nz); [|exact Hr|].
      { rewrite Lw, Hw. replace (counter + 1 - 1) with counter by lia. clear - E5. Z.to_euclidean_division_equations; lia. }
      exists z, w', res'. split; [exact Ed|]. split; [rewrite <- Ez, <- app_assoc; reflexivity|].
      split; [rewrite Lz, Lx; f_equal; lia|]. auto.
Qed.

Lemma pop_comma x : pop_back (x ++ ", ") = Ok (x ++ ",").
Proof.
  unfold pop_back. assert (E : x ++ ", " = (x ++ ",") ++ " ") by (rewrite append_assoc; reflexivity).
  rewrite E. destruct ((x ++ ",") ++ " ") as [|c s] eqn:Es.
  - destruct x; discriminate.
  - rewrite <- Es. rewrite append_length. cbn [String.length].
    replace (String.length (x ++ ",") + 1 - 1)%nat with (String.length (x ++ ",")) by lia. rewrite substring_prefix. reflexivity.
Qed.
Lemma pop_comma2 x : pop_back (x ++ ",") = Ok x.
Proof.
  unfold pop_back. destruct (x ++ ",") as [|c s] eqn:Es; [destruct x; discriminate|].
  rewrite <- Es, append_length. cbn [String.length]. replace (String.length x + 1 - 1)%nat with (String.length x) by lia.
  rewrite substring_prefix. reflexivity.
Qed.

(* With three values or more the rows, put together, are the declaration of a
   vector holding the values in order. *)
Theorem C69_values_in_order l :
  3 <= zlen l < 2 ^ 32 ->
  exists rows, createCppVector fmt l = Ok rows /\ cat rows = "std::vector<double> ref {" ++ joined l ++ "};".
Proof.
  intros Hl. destruct l as [|a [|b [|c l]]]; try (unfold zlen in Hl; cbn in Hl; lia).
  unfold createCppVector. set (H := "std::vector<double> ref {").
  assert (E0 : dumpLoop fmt (a :: b :: c :: l) 0 1 "" [] = dumpLoop fmt l 3 1 "" [H ++ dumpRow fmt [a; b; c]]).
  { transitivity (dumpLoop fmt l 3 1 "" [((H ++ fmt a ++ ", ") ++ fmt b ++ ", ") ++ fmt c ++ ", "]); [reflexivity|].
    unfold dumpRow. cbn [fold_right]. rewrite !append_assoc. reflexivity. }
  rewrite E0. set (DL := dumpLoop fmt l 3 1 "" _).
  assert (Hrow : comma (H ++ dumpRow fmt [a; b; c])).
  { destruct (comma_row [a; b; c] ltac:(discriminate)) as (x & ->). exists (H ++ x). rewrite append_assoc. reflexivity. }
  destruct (dump_tail l 3 1 [] [H ++ dumpRow fmt [a; b; c]] ltac:(lia) ltac:(lia) eq_refl ltac:(constructor; [exact Hrow|constructor]))
    as (z & w & res & Ed & Ez & Lw & Cz & Fz & Nz).
  assert (Ed' : DL = (dumpRow fmt w, res)) by exact Ed. rewrite Ed'. clear Ed Ed' DL. cbn [snd].
  assert (Ls : zlen (a :: b :: c :: l) = zlen l + 3) by (unfold zlen; cbn; lia). rewrite Ls in *.
  replace (zlen l + 3 - 3) with (zlen l) by lia. rewrite (Z.mod_small (zlen l)) by lia.
  replace (1 - 1 + zlen l) with (zlen l) in Lw by lia. cbn [app] in Ez.
  assert (Lz : zlen l = zlen z + zlen w) by (rewrite Ez; unfold zlen; rewrite app_length; lia).
  assert (Zw : 0 <= zlen w) by (unfold zlen; lia). assert (Zz : 0 <= zlen z) by (unfold zlen; lia).
  rewrite <- Lw. rewrite (Z.mod_small (zlen l + 3 - zlen w)) by lia.
  assert (Hsk : skipn (Z.to_nat (zlen l + 3 - zlen w)) (a :: b :: c :: l) = w).
  { replace (Z.to_nat (zlen l + 3 - zlen w)) with (length (a :: b :: c :: z)) by (unfold zlen in *; cbn [length]; lia).
    rewrite Ez. change (a :: b :: c :: (z ++ w))%list with ((a :: b :: c :: z) ++ w)%list. rewrite skipn_app, skipn_all, Nat.sub_diag. reflexivity. }
  rewrite Hsk.
  set (all := if 0 <? zlen w then (res ++ [dumpRow fmt w])%list else res).
  assert (Ha : cat all = H ++ dumpRow fmt (a :: b :: c :: l) /\ Forall comma all /\ all <> []).
  { assert (Hd : dumpRow fmt (a :: b :: c :: l) = dumpRow fmt [a; b; c] ++ dumpRow fmt z ++ dumpRow fmt w).
    { rewrite <- row_app, <- Ez, <- row_app. reflexivity. }
    unfold all. destruct (Z.ltb_spec 0 (zlen w)).
    - split; [|split].
      + rewrite cat_app, Cz, Hd. cbn [cat]. rewrite !append_empty_r, !append_assoc. reflexivity.
      + apply Forall_app. split; [exact Fz|]. constructor; [|constructor]. apply comma_row. intros ->. unfold zlen in *; cbn in *; lia.
      + destruct res; discriminate.
    - assert (w = []) as -> by (destruct w; [reflexivity|unfold zlen in *; cbn in *; lia]).
      split; [|split; [exact Fz|apply Nz; discriminate]].
      rewrite Cz, Hd. cbn [cat dumpRow fold_right]. rewrite !append_empty_r, append_assoc. reflexivity. }
  destruct Ha as (Ca & Fa & Na).
  destruct (rev all) as [|last before] eqn:Er.
  { apply (f_equal (@rev string)) in Er. rewrite rev_involutive in Er. contradiction. }
  assert (Eall : all = (rev before ++ [last])%list).
  { apply (f_equal (@rev string)) in Er. rewrite rev_involutive in Er. exact Er. }
  rewrite Eall in Fa. apply Forall_app in Fa as [_ Fa]. inversion Fa as [|? ? (x & Ex) _]; subst last.
  rewrite pop_comma. cbn [bind]. rewrite pop_comma2. cbn [bind]. eexists. split; [reflexivity|].
  rewrite cat_app. cbn [cat]. rewrite append_empty_r.
  rewrite Eall, cat_app in Ca. cbn [cat] in Ca. rewrite append_empty_r, joined_row in Ca by discriminate.
  assert (Cb : cat (rev before) ++ x = H ++ joined (a :: b :: c :: l)).
  { apply (append_inv_r _ _ ", "). rewrite !append_assoc. exact Ca. }
  rewrite <- append_assoc, Cb, append_assoc. reflexivity.
Qed.

(* With fewer values the behaviour is undefined. *)
Theorem C69_short_refuted l : zlen l < 3 -> exists m, createCppVector fmt l = UB m.
Proof.
  intros Hl. destruct l as [|a [|b [|c l]]]; [| | |unfold zlen in Hl; cbn in Hl; lia]; eexists; reflexivity.
Qed.
End Dump.
Print Assumptions C69_values_in_order.
Print Assumptions C69_short_refuted.

Example C69_met : exists l : list Z, 3 <= zlen l < 2 ^ 32 /\
  createCppVector to_string l = Ok ["std::vector<double> ref {1, 2, 3, "; "4, 5, 6, 7, 8, "; "9, 10};"].
Proof. exists [1; 2; 3; 4; 5; 6; 7; 8; 9; 10]. split; [unfold zlen; cbn; lia|reflexivity]. Qed.
