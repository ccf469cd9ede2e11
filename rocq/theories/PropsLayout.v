(* Property C96: how the input file is laid out. *)
From Coq Require Import String Ascii ZArith QArith List Bool Lia.
From Verif Require Import Base BaseLemmas NumQ ModelNumTools ModelEigen ModelMesh ModelReactor ModelText ModelOutput ModelCalculation ModelInput
  ModelLog ModelEcho ModelMain ModelProgram ProofsText ProofsInput ProofsLayout ProofsEmpty PropsInputB PropsInputC PropsInputD.
Import ListNotations.
Local Open Scope string_scope.
Local Open Scope Z_scope.

(* ---------- texts that differ in their layout ---------- *)

(* the same characters up to the case of letters, where a space in one may be several in the other *)
Inductive alike : string -> string -> Prop :=
| alike_end : alike "" ""
| alike_char c c' s s' : tolower c = tolower c' -> alike s s' -> alike (String c s) (String c' s')
| alike_left s s' : alike (String " " s) s' -> alike (String " " (String " " s)) s'
| alike_right s s' : alike s (String " " s') -> alike s (String " " (String " " s')).
Fixpoint indent (n : nat) (s : string) : string := match n with O => s | S n' => String " " (indent n' s) end.
(* and any number of spaces in front *)
Definition same_line (l l' : string) : Prop := exists n n' s s', l = indent n s /\ l' = indent n' s' /\ alike s s'.
(* a line that is a comment *)
Definition comment_line (l : string) : Prop := exists n s, l = indent n (String "%" s).
(* the lines of two files, one of which may have comments the other lacks *)
Inductive same_lines : list string -> list string -> Prop :=
| same_end : same_lines [] []
| same_here l l' a b : same_line l l' -> same_lines a b -> same_lines (l :: a) (l' :: b)
| comment_here l a b : comment_line l -> same_lines a b -> same_lines (l :: a) b
| comment_there l a b : comment_line l -> same_lines a b -> same_lines a (l :: b).
(* the lines of a text; the last may have no line break after it *)
Inductive file_of : list string -> string -> Prop :=
| file_none : file_of [] ""
| file_last l : l <> "" -> line_free l -> file_of [l] l
| file_line l ls t : line_free l -> file_of ls t -> file_of (l :: ls) (l ++ String (ascii_of_nat 10) t).
Definition same_file (R : list string -> list string -> Prop) (f f' : option string) : Prop :=
  match f, f' with
  | Some t, Some t' => exists ls ls', file_of ls t /\ file_of ls' t' /\ R ls ls'
  | None, None => True
  | _, _ => False
  end.

(* ---------- what is left of a line ---------- *)
Lemma getlines_acc_last l : forall w, line_free l -> w ++ l <> "" -> getlines_acc w l = [w ++ l].
Proof.
  induction l as [|c l IH]; intros w H Hw; cbn [getlines_acc].
  - rewrite append_empty_r in *. destruct w; [congruence|reflexivity].
  - unfold line_free, free in H. cbn in H. apply andb_true_iff in H. destruct H as [H1 H2]. apply negb_true_iff in H1. rewrite H1.
    rewrite IH; [rewrite append_assoc; reflexivity|exact H2|]. rewrite append_assoc. exact Hw.
Qed.
Lemma file_lines ls t : file_of ls t -> getlines t = ls.
Proof.
  unfold getlines. induction 1 as [|l Hl F|l ls t F _ IH]; [reflexivity| |].
  - apply (getlines_acc_last l "" F Hl).
  - change (ascii_of_nat 10) with newline. rewrite getlines_acc_line by exact F. rewrite IH. reflexivity.
Qed.

Lemma tolower_space c : isspace (tolower c) = isspace c.
Proof. destruct c as [[] [] [] [] [] [] [] []]; reflexivity. Qed.
Lemma tolower_eq c d : tolower c = tolower d -> isspace c = isspace d.
Proof. intros H. rewrite <- (tolower_space c), H. apply tolower_space. Qed.
Lemma tolower_fixed x c : In x [" "; "%"]%char -> tolower c = x <-> c = x.
Proof. intros [<-|[<-|[]]]; destruct c as [[] [] [] [] [] [] [] []]; split; intros H; try reflexivity; discriminate H. Qed.
Lemma lower_unique k s : lower (unique_from k s) = unique_from (tolower k) (lower s).
Proof.
  revert k. induction s as [|c s IH]; intros k; [reflexivity|]. cbn [unique_from lower]. rewrite !tolower_space.
  destruct (_ && _)%bool; [apply IH|]. cbn [lower]. rewrite IH. reflexivity.
Qed.
Lemma unique_kept k k' s : isspace k = isspace k' -> unique_from k s = unique_from k' s.
Proof.
  intros H. induction s as [|c s IH]; [reflexivity|]. cbn [unique_from]. rewrite H. destruct (_ && _)%bool; [apply IH|reflexivity].
Qed.
Lemma alike_unique s s' : alike s s' -> forall k, unique_from k (lower s) = unique_from k (lower s').
Proof.
  induction 1 as [|c c' s s' E H IH|s s' H IH|s s' H IH]; intros k; [reflexivity| | |].
  - cbn [lower unique_from]. rewrite E. destruct (_ && _)%bool; [apply IH|rewrite IH; reflexivity].
  - rewrite <- IH. cbn. destruct (isspace k); cbn; reflexivity.
  - rewrite IH. cbn. destruct (isspace k); cbn; reflexivity.
Qed.
Lemma erase_indent n s : erase_leading (indent n s) = erase_leading s.
Proof. induction n as [|n IH]; [reflexivity|exact IH]. Qed.
Lemma erase_other c s : c <> " "%char -> erase_leading (String c s) = String c s.
Proof. intros H. destruct c as [[] [] [] [] [] [] [] []]; try reflexivity. congruence. Qed.
Lemma alike_erase s s' : alike s s' -> alike (erase_leading s) (erase_leading s').
Proof.
  induction 1 as [|c c' s s' E H IH|s s' H IH|s s' H IH]; [constructor| |exact IH|exact IH].
  destruct (ascii_dec c " ") as [->|Hc].
  - assert (c' = " "%char) as -> by (apply (tolower_fixed " "); [left; reflexivity|rewrite <- E; reflexivity]). exact IH.
  - rewrite !erase_other; [constructor; assumption| |exact Hc]. intros ->. apply Hc, (tolower_fixed " "); [left; reflexivity|]. rewrite E. reflexivity.
Qed.
(* lower-cased, normalised *)
Definition core (l : string) : string := lower (removeExtraSpaces (erase_leading l)).
Lemma core_head l : core l = match erase_leading l with "" => "" | String c s => String (tolower c) (unique_from (tolower c) (lower s)) end.
Proof. unfold core. destruct (erase_leading l) as [|c s]; [reflexivity|]. cbn. rewrite lower_unique. reflexivity. Qed.
Lemma removed_shape s s' : alike s s' -> lower (removeExtraSpaces s) = lower (removeExtraSpaces s').
Proof.
  assert (G : forall a, lower (removeExtraSpaces a) = match a with "" => "" | String c r => String (tolower c) (unique_from (tolower c) (lower r)) end)
    by (intros [|c a]; [reflexivity|]; cbn; rewrite lower_unique; reflexivity).
  induction 1 as [|c c' s s' E H IH|s s' H IH|s s' H IH]; [reflexivity| | |].
  - rewrite !G, E. f_equal. apply alike_unique, H.
  - rewrite <- IH, !G. reflexivity.
  - rewrite IH, !G. reflexivity.
Qed.
Lemma core_same l l' : same_line l l' -> core l = core l'.
Proof.
  intros (n & n' & s & s' & -> & -> & H). unfold core. rewrite !erase_indent. apply removed_shape, alike_erase, H.
Qed.
Lemma comment_core l : is_comment (removeExtraSpaces (erase_leading l)) = match core l with String "%" _ => true | _ => false end.
Proof.
  unfold core, is_comment. destruct (removeExtraSpaces _) as [|c s]; [reflexivity|]. cbn [front lower].
  destruct c as [[] [] [] [] [] [] [] []]; reflexivity.
Qed.
Lemma comment_line_core l : comment_line l -> is_comment (removeExtraSpaces (erase_leading l)) = true.
Proof. intros (n & s & ->). rewrite erase_indent. reflexivity. Qed.
Definition normal (l : string) : string := removeExtraSpaces (erase_leading l).
Lemma same_seen ls ls' : same_lines ls ls' -> seen (map normal ls) = seen (map normal ls').
Proof.
  unfold seen. induction 1 as [|l l' a b H _ IH|l a b H _ IH|l a b H _ IH]; [reflexivity| | |]; cbn [map filter].
  - change (is_comment (normal l)) with (is_comment (removeExtraSpaces (erase_leading l))).
    change (is_comment (normal l')) with (is_comment (removeExtraSpaces (erase_leading l'))). rewrite !comment_core, (core_same _ _ H). destruct (match core l' with String "%" _ => true | _ => false end); cbn [negb map]; [exact IH|].
    rewrite IH. f_equal. apply (core_same _ _ H).
  - change (is_comment (normal l)) with (is_comment (removeExtraSpaces (erase_leading l))). rewrite (comment_line_core _ H). exact IH.
  - change (is_comment (normal l)) with (is_comment (removeExtraSpaces (erase_leading l))). rewrite (comment_line_core _ H). exact IH.
Qed.

(* ---------- empty lines ---------- *)
Definition empty_line (l : string) : Prop := exists n, l = indent n "".
(* as same_lines, and one of the two may have empty lines the other lacks *)
Inductive spaced_lines : list string -> list string -> Prop :=
| spaced_end : spaced_lines [] []
| spaced_here l l' a b : same_line l l' -> spaced_lines a b -> spaced_lines (l :: a) (l' :: b)
| skip_here l a b : comment_line l \/ empty_line l -> spaced_lines a b -> spaced_lines (l :: a) b
| skip_there l a b : comment_line l \/ empty_line l -> spaced_lines a b -> spaced_lines a (l :: b).
(* the first line that is neither a comment nor empty does not begin a section:
   with small letters and single spaces it has no "material " and no "solver " *)
Inductive plain_first : list string -> Prop :=
| plain_none : plain_first []
| plain_skip l ls : comment_line l \/ empty_line l -> plain_first ls -> plain_first (l :: ls)
| plain_here l ls : ~ comment_line l -> ~ empty_line l -> (forall a b, core l <> a ++ "material " ++ b) -> (forall a b, core l <> a ++ "solver " ++ b) ->
    plain_first (l :: ls).
Lemma erase_shape l : exists n, l = indent n (erase_leading l).
Proof.
  induction l as [|c l [n IH]]; [exists O; reflexivity|]. destruct (ascii_dec c " ") as [->|Hc].
  - exists (S n). cbn. f_equal. exact IH.
  - exists O. rewrite (erase_other c l Hc). reflexivity.
Qed.
Lemma comment_of l : is_comment (normal l) = true -> comment_line l.
Proof.
  unfold normal, is_comment. destruct (erase_shape l) as [n Hn]. destruct (erase_leading l) as [|c s]; cbn; [discriminate|].
  intros H. apply Ascii.eqb_eq in H. subst c. exists n, s. exact Hn.
Qed.
Lemma empty_of l : core l = "" -> empty_line l.
Proof. rewrite core_head. destruct (erase_shape l) as [n Hn]. destruct (erase_leading l) as [|c s]; [|discriminate]. intros _. exists n. exact Hn. Qed.
Lemma empty_core l : empty_line l -> core l = "" /\ is_comment (normal l) = false.
Proof. intros [n ->]. unfold core, normal. rewrite erase_indent. split; reflexivity. Qed.
Definition stripped (ls : list string) : list string := strip (seen (map normal ls)).
Lemma stripped_skip l ls : comment_line l \/ empty_line l -> stripped (l :: ls) = stripped ls.
Proof.
  intros [H|H]; unfold stripped, seen; cbn [map filter].
  - change (is_comment (normal l)) with (is_comment (removeExtraSpaces (erase_leading l))). rewrite (comment_line_core _ H). reflexivity.
  - destruct (empty_core _ H) as [E ->]. cbn [negb map]. unfold strip at 1. cbn [filter]. change (lower (normal l)) with (core l). rewrite E. reflexivity.
Qed.
Lemma stripped_same l l' a b : same_line l l' -> stripped a = stripped b -> stripped (l :: a) = stripped (l' :: b).
Proof.
  intros H E. unfold stripped, seen in *. cbn [map filter]. change (is_comment (normal l)) with (is_comment (removeExtraSpaces (erase_leading l))).
  change (is_comment (normal l')) with (is_comment (removeExtraSpaces (erase_leading l'))). rewrite !comment_core, (core_same _ _ H).
  destruct (match core l' with String "%" _ => true | _ => false end); cbn [negb map]; [exact E|]. unfold strip in *. cbn [filter].
  change (lower (normal l)) with (core l). change (lower (normal l')) with (core l'). rewrite (core_same _ _ H).
  destruct (negb _); [rewrite E; reflexivity|exact E].
Qed.
Lemma spaced_stripped a b : spaced_lines a b -> stripped a = stripped b.
Proof.
  induction 1 as [|l l' a b H _ IH|l a b H _ IH|l a b H _ IH]; [reflexivity| | |].
  - apply stripped_same; assumption.
  - rewrite stripped_skip by exact H. exact IH.
  - rewrite stripped_skip by exact H. exact IH.
Qed.
Lemma plain_stripped ls : plain_first ls -> plain_start (seen (map normal ls)).
Proof.
  change (plain_start (seen (map normal ls))) with (match stripped ls with l :: _ => opens l = false | [] => True end).
  induction 1 as [|l ls H _ IH|l ls H1 H2 H3 H4]; [exact I| |].
  - rewrite stripped_skip by exact H. exact IH.
  - unfold stripped, seen. cbn [map filter]. destruct (is_comment (normal l)) eqn:E; [destruct (H1 (comment_of _ E))|]. cbn [negb map]. unfold strip. cbn [filter].
    change (lower (normal l)) with (core l). destruct (String.eqb_spec (core l) "") as [E'|_]; [destruct (H2 (empty_of _ E'))|]. cbn [negb].
    unfold opens. apply orb_false_iff. split; apply not_true_is_false; intros C; apply contains_spec in C; destruct C as (x & y & C); [exact (H3 _ _ C)|exact (H4 _ _ C)].
Qed.

(* ---------- the program ---------- *)
Definition alike_files (R : list string -> list string -> Prop) : Prop :=
  forall ls ls', R ls ls' -> same_searches (map normal ls) (map normal ls').
Lemma lines_alike : alike_files same_lines.
Proof. intros ls ls' H. apply seen_same, same_seen, H. Qed.
Definition spaced (ls ls' : list string) : Prop :=
  spaced_lines ls ls' /\ plain_first ls /\ Z.of_nat (length ls) < 2^32 - 1 /\ Z.of_nat (length ls') < 2^32 - 1.
Lemma spaced_alike : alike_files spaced.
Proof.
  intros ls ls' (H & P & L & L'). apply empty_same; [exact (spaced_stripped _ _ H)|exact (plain_stripped _ P)| |]; unfold zlen, umax; rewrite map_length; lia.
Qed.
Lemma reading_same {T} {N : Num T} mpi stod_opt fmt R f f' : alike_files R -> same_file R f f' ->
  res_rel same_both (readDataLog mpi stod_opt fmt f) (readDataLog mpi stod_opt fmt f').
Proof.
  intros HR H. unfold readDataLog, storeInput. destruct f as [t|], f' as [t'|]; cbn in H; try contradiction; [|reflexivity].
  destruct H as (ls & ls' & F & F' & H). cbn [bind]. apply readLinesLog_keeps. split; [|reflexivity]. apply same_mk.
  rewrite (file_lines _ _ F), (file_lines _ _ F'). apply HR, H.
Qed.
(* two runs with the same answers: the same results and the same log file, no other file changed, or the same message *)
Definition same_run {T} (fs fs' : disk) (r r' : res (outcome T * disk)) : Prop :=
  match r, r' with
  | Ok (oc, d), Ok (oc', d') => oc' = oc /\
      exists name text, d name = Some text /\ d' name = Some text /\ forall p, p <> name -> d p = fs p /\ d' p = fs' p
  | Exit e, Exit e' | Throw e, Throw e' | UB e, UB e' => e' = e
  | _, _ => False
  end.
Lemma run_same {T} {N : Num T} mpi stod_opt solver sort eig croots e3 b3 nexp nsqrt to_unsigned fmt zfmt version stamp R (fs fs' : disk) args :
  alike_files R -> (forall p, same_file R (fs p) (fs' p)) ->
  same_run fs fs' (program mpi stod_opt solver sort eig croots e3 b3 nexp nsqrt to_unsigned fmt zfmt version stamp fs args)
    (program mpi stod_opt solver sort eig croots e3 b3 nexp nsqrt to_unsigned fmt zfmt version stamp fs' args).
Proof.
  intros HR H. unfold same_run, program, starting. destruct (getArguments args newOutput) as [[path o]|e|e|e]; cbn [bind]; try reflexivity.
  set (head := (levelLines _ _ ++ startLines _ _ _)%list).
  change (write (o_fullName o) (fileText head) fs path) with (if String.eqb path (o_fullName o) then Some (fileText head) else fs path).
  change (write (o_fullName o) (fileText head) fs' path) with (if String.eqb path (o_fullName o) then Some (fileText head) else fs' path).
  assert (G : res_rel same_both
    (readDataLog mpi stod_opt fmt (if String.eqb path (o_fullName o) then Some (fileText head) else fs path))
    (readDataLog mpi stod_opt fmt (if String.eqb path (o_fullName o) then Some (fileText head) else fs' path))).
  { destruct (String.eqb path (o_fullName o)); [|exact (reading_same _ _ _ R _ _ HR (H path))].
    unfold readDataLog, storeInput. cbn [bind]. apply readLinesLog_keeps. split; [|reflexivity]. apply same_mk, seen_same. reflexivity. }
  destruct (readDataLog mpi stod_opt fmt (if String.eqb path (o_fullName o) then Some (fileText head) else fs path)) as [[inp reading]|e|e|e],
    (readDataLog mpi stod_opt fmt (if String.eqb path (o_fullName o) then Some (fileText head) else fs' path)) as [[inp' reading']|e'|e'|e'];
    cbn [res_rel] in G; try contradiction; cbn [bind]; try (symmetry; exact G).
  destruct G as [[_ E] E']. cbn [fst snd] in E, E'. subst reading'.
  assert (A : in_plots inp' = in_plots inp /\ in_solvers inp' = in_solvers inp /\ in_rx inp' = in_rx inp)
    by (rewrite E; repeat split; reflexivity).
  cbn beta iota. destruct A as (A1 & A2 & A3). rewrite A1, A2, A3.
  destruct (problemSolve _ _ _ _ _ _ _ _ _ _ _ _ _ _) as [oc|e|e|e]; cbn [bind]; try reflexivity.
  split; [reflexivity|]. eexists (o_fullName o), _. unfold write. rewrite String.eqb_refl. split; [reflexivity|]. split; [reflexivity|].
  intros p Hp. apply String.eqb_neq in Hp. rewrite Hp. split; reflexivity.
Qed.

(* The same files up to the case of letters, the number of spaces and the comment
   lines: the program computes the same results, writes the same log file and
   changes no other file, or stops with the same message. *)
Theorem C96_layout : forall {T} {N : Num T} mpi stod_opt solver sort eig croots e3 b3 nexp nsqrt to_unsigned fmt zfmt version stamp
    (fs fs' : disk) args,
  (forall p, same_file same_lines (fs p) (fs' p)) ->
  same_run fs fs' (program mpi stod_opt solver sort eig croots e3 b3 nexp nsqrt to_unsigned fmt zfmt version stamp fs args)
    (program mpi stod_opt solver sort eig croots e3 b3 nexp nsqrt to_unsigned fmt zfmt version stamp fs' args).
Proof. intros. apply (run_same _ _ _ _ _ _ _ _ _ _ _ _ _ _ _ same_lines); [exact lines_alike|assumption]. Qed.
Print Assumptions C96_layout.

(* Empty lines do not matter either, if the first line that says something does not
   begin a section. (Files have fewer lines than an unsigned int can count.) *)
Theorem C96_empty_lines_partial : forall {T} {N : Num T} mpi stod_opt solver sort eig croots e3 b3 nexp nsqrt to_unsigned fmt zfmt version stamp
    (fs fs' : disk) args,
  (forall p, same_file spaced (fs p) (fs' p)) ->
  same_run fs fs' (program mpi stod_opt solver sort eig croots e3 b3 nexp nsqrt to_unsigned fmt zfmt version stamp fs args)
    (program mpi stod_opt solver sort eig croots e3 b3 nexp nsqrt to_unsigned fmt zfmt version stamp fs' args).
Proof. intros. apply (run_same _ _ _ _ _ _ _ _ _ _ _ _ _ _ _ spaced); [exact spaced_alike|assumption]. Qed.
Print Assumptions C96_empty_lines_partial.

(* ---------- a file written in another way ---------- *)
Module Layout.
Import Files.
Definition tidy : list string :=
  ["solvers diffusion"; "geometry slab"; "mesh 2 2.0 fuel"; "solver diffusion"; "accuracy 0.001"; "max_iteration_number 10";
   "albedo 0.0 0.0"; "energies 1"; "direction forward"; "eigenmodes fundamental"; "material fuel"; "ni(1) 2.5"; "chi(1) 1.0"].
Definition untidy : list string :=
  ["% a slab"; "   Solvers   DIFFUSION"; "Geometry SLAB"; "mesh  2   2.0 FUEL"; "SOLVER Diffusion"; " accuracy 0.001"; "   % enough"; "max_iteration_number    10";
   "albedo 0.0 0.0"; "Energies 1"; "direction Forward"; "eigenmodes Fundamental"; "Material Fuel"; "  ni(1) 2.5"; "  CHI(1) 1.0"].
Definition rest : list string := ["fission(1) 0.1"; "total(1) 0.3"; "diffCoeff(1) 1.0"; "scattMatrix(1, 1) 0.2"].
Definition disk_of (ls : list string) : disk := fun p => if String.eqb p "dir/in.txt" then Some (text ls) else None.
(* the material of the first line lacks its conductivity *)
Definition short (first : list string) : list string :=
  first ++ ["material fuel"; "material water"; "thermal_conductivity 0.6"; "solvers heat"; "geometry slab"; "mesh 1 1.0 fuel 1 1.0 water";
    "temperatures 300.0 2"; "heat_sources 1.0 2"; "solver heat"; "accuracy 0.001"; "max_iteration_number 10";
    "heat_boundary_conditions 1.0 0.0 20.0 1.0 0.0 20.0"].
End Layout.

Ltac alike_tac := lazymatch goal with
  | |- alike "" "" => exact alike_end
  | |- alike (String " " (String " " _)) (String " " (String " " _)) => apply alike_char; [reflexivity|alike_tac]
  | |- alike (String " " (String " " _)) _ => apply alike_left; alike_tac
  | |- alike _ (String " " (String " " _)) => apply alike_right; alike_tac
  | |- _ => apply alike_char; [reflexivity|alike_tac]
  end.
Ltac unindent l k := lazymatch l with String " " ?r => unindent r ltac:(fun n s => k (S n) s) | _ => k O l end.
Ltac line_tac := lazymatch goal with |- same_line ?l ?l' =>
  unindent l ltac:(fun n s => unindent l' ltac:(fun n' s' => exists n, n', s, s'; split; [reflexivity|]; split; [reflexivity|alike_tac])) end.
Ltac comment_tac := lazymatch goal with |- comment_line ?l =>
  unindent l ltac:(fun n s => lazymatch s with String "%" ?r => exists n, r; reflexivity end) end.
Ltac lines_tac := lazymatch goal with
  | |- same_lines [] [] => exact same_end
  | |- same_lines (_ :: _) [] => apply comment_here; [comment_tac|lines_tac]
  | |- same_lines [] (_ :: _) => apply comment_there; [comment_tac|lines_tac]
  | |- _ => first [apply comment_here; [comment_tac|lines_tac] | apply comment_there; [comment_tac|lines_tac] | apply same_here; [line_tac|lines_tac]]
  end.
Lemma text_file ls : Forall (fun l => l <> "" /\ line_free l) ls -> file_of ls (Files.text ls).
Proof.
  unfold Files.text. induction 1 as [|l ls [H F] _ IH]; [constructor|]. destruct ls as [|l' ls]; [constructor; assumption|].
  change (String.concat Files.lf (l :: l' :: ls)) with (l ++ String (ascii_of_nat 10) (String.concat Files.lf (l' :: ls))). constructor; assumption.
Qed.
Example C96_example :
  (forall p, same_file same_lines (Layout.disk_of (Layout.tidy ++ Layout.rest) p) (Layout.disk_of (Layout.untidy ++ Layout.rest) p)) /\
  Files.is_ok (Files.read (Layout.tidy ++ Layout.rest)) = true.
Proof.
  split; [|vm_compute; reflexivity]. intros p. unfold Layout.disk_of. destruct (String.eqb p "dir/in.txt"); [|exact I].
  exists (Layout.tidy ++ Layout.rest)%list, (Layout.untidy ++ Layout.rest)%list. split; [|split].
  - apply text_file. repeat constructor; discriminate.
  - apply text_file. repeat constructor; discriminate.
  - cbn. lines_tac.
Qed.

(* and with empty lines between the sections *)
Definition airy (ls : list string) : list string := ["  "; ""] ++ firstn 3 ls ++ [""; "% ---"; "  "] ++ skipn 3 ls ++ [""].
Ltac skip_tac := first [left; comment_tac | right; lazymatch goal with |- empty_line ?l => unindent l ltac:(fun n s => lazymatch s with "" => exists n; reflexivity end) end].
Ltac spaced_tac := lazymatch goal with
  | |- spaced_lines [] [] => exact spaced_end
  | |- _ => first [apply skip_here; [skip_tac|spaced_tac] | apply skip_there; [skip_tac|spaced_tac] | apply spaced_here; [line_tac|spaced_tac]]
  end.
Lemma unlines_file ls : Forall line_free ls -> file_of ls (unlines ls).
Proof. induction 1; cbn; constructor; assumption. Qed.
Example C96_empty_lines_example :
  let ls := (Layout.tidy ++ Layout.rest)%list in
  same_file spaced (Some (unlines ls)) (Some (unlines (airy ls))) /\
  Files.is_ok (readData (355 # 113)%Q Files.stodQ (Some (unlines (airy ls)))) = true.
Proof.
  split; [|vm_compute; reflexivity]. exists (Layout.tidy ++ Layout.rest)%list, (airy (Layout.tidy ++ Layout.rest)).
  split; [apply unlines_file; repeat constructor|]. split; [apply unlines_file; repeat constructor|].
  split; [cbn; spaced_tac|]. split; [|split; vm_compute; reflexivity].
  apply plain_here.
  - intros (n & s & E). destruct n; discriminate E.
  - intros (n & E). destruct n; discriminate E.
  - intros a b E. assert (C : contains "material " (core "solvers diffusion") = true) by (apply contains_spec; eauto). revert C. vm_compute. discriminate.
  - intros a b E. assert (C : contains "solver " (core "solvers diffusion") = true) by (apply contains_spec; eauto). revert C. vm_compute. discriminate.
Qed.

(* An empty line is not a comment. A file whose first line names a material that
   lacks an entry is accepted, with the entry of another material; with an empty
   line before it the file is rejected. *)
Theorem C96_empty_line_refuted : exists ls,
  Data.accepted ls (fun inp => map (fun m => (mt_name m, mt_cond m)) (ms_mats (in_mesh inp)) =
    [("fuel", Some [(3 # 5)%Q]); ("water", Some [(3 # 5)%Q])]) /\
  Files.read ("" :: ls) = Exit "thermal_conductivity is missing from the input!".
Proof. exists (Layout.short []). split; vm_compute; reflexivity. Qed.
Print Assumptions C96_empty_line_refuted.

(* A tab instead of a space separates the same words, and the section is lost. *)
Theorem C96_tab_refuted : exists before l after l', words l = words l' /\
  Files.is_ok (Files.read (before ++ l :: after)) = true /\
  exists e, Files.read (before ++ l' :: after) = Exit e.
Proof.
  exists (firstn 3 Layout.tidy), "solver diffusion", (skipn 4 Layout.tidy ++ Layout.rest)%list, ("solver" ++ String (ascii_of_nat 9) "diffusion").
  split; [vm_compute; reflexivity|]. split; [vm_compute; reflexivity|]. eexists. vm_compute. reflexivity.
Qed.
Print Assumptions C96_tab_refuted.

(* A comment at the end of a line is searched for keywords. *)
Theorem C96_end_comment_refuted : exists before l after note,
  Files.is_ok (Files.read (before ++ l :: after)) = true /\
  exists e, Files.read (before ++ (l ++ " % " ++ note) :: after) = Throw e.
Proof.
  exists (firstn 1 Layout.tidy), "geometry slab", (skipn 2 Layout.tidy ++ Layout.rest)%list, "a uniform mesh".
  split; [vm_compute; reflexivity|]. eexists. vm_compute. reflexivity.
Qed.
Print Assumptions C96_end_comment_refuted.
