(* Reading two files that the searches cannot tell apart. *)
From Coq Require Import String Ascii ZArith List Bool Lia FunctionalExtensionality.
From Verif Require Import Base BaseLemmas ModelNumTools ModelEigen ModelMesh ModelReactor ModelText ModelOutput ModelCalculation ModelInput ModelLog ModelEcho ModelMain ModelProgram.
Import ListNotations.
Local Open Scope string_scope.
Local Open Scope Z_scope.

(* ---------- the searches ---------- *)

(* lines the searches see: no comments, small letters *)
Definition seen (lines : list string) : list string := map lower (filter (fun l => negb (is_comment l)) lines).

Lemma findBlock_seen k1 k2 lines n a b : findBlock_loop k1 k2 lines n a b =
  (fix go (ls : list string) (n start stop : Z) : Z * Z :=
    match ls with
    | [] => (start, stop)
    | l :: rest => go rest (n + 1) (if contains (k1 ++ " " ++ k2) l then n else start) (if contains k1 l then (if start =? 0 then umax else n) else stop)
    end) (seen lines) n a b.
Proof.
  unfold seen. revert n a b. induction lines as [|l lines IH]; intros n a b; cbn [findBlock_loop filter map]; [reflexivity|].
  destruct (is_comment l); cbn [negb map]; apply IH.
Qed.
Lemma findKeyword_seen key low top lines n : findKeyword_loop key low top lines n =
  (fix go (ls : list string) (counter : Z) : option string :=
    match ls with
    | [] => None
    | l :: rest => if (contains key l && (low <=? counter) && (counter <=? top))%bool then Some l else go rest (counter + 1)
    end) (seen lines) n.
Proof.
  unfold seen. revert n. induction lines as [|l lines IH]; intros n; cbn [findKeyword_loop filter map]; [reflexivity|].
  destruct (is_comment l); cbn [negb map]; [apply IH|]. destruct (_ && _)%bool; [reflexivity|apply IH].
Qed.

(* the searches of the program: in the whole file, and in a section that is there *)
Definition same_searches (ls ls' : list string) : Prop :=
  (forall key o, key <> "" -> findKeyword ls key 0 umax o = findKeyword ls' key 0 umax o) /\
  (forall k1 k2 v key o, In k1 ["material"; "solver"] -> key <> "" -> readOneParameter ls (k1 ++ " " ++ k2) = Ok v ->
     findKeyword ls key (fst (findBlock ls k1 k2)) (snd (findBlock ls k1 k2)) o =
     findKeyword ls' key (fst (findBlock ls' k1 k2)) (snd (findBlock ls' k1 k2)) o).
Lemma seen_same ls ls' : seen ls = seen ls' -> same_searches ls ls'.
Proof.
  intros H. assert (F : forall key low top o, findKeyword ls key low top o = findKeyword ls' key low top o)
    by (intros; unfold findKeyword; rewrite !findKeyword_seen, H; reflexivity).
  split; [intros; apply F|]. intros. rewrite F. unfold findBlock. rewrite !findBlock_seen, H. reflexivity.
Qed.

(* ---------- results that differ in the lines only ---------- *)
Section Same.
Context {T : Type} {N : Num T}.
Variable mpi : T.
Variable stod_opt : string -> option T.
Variable fmt : T -> string.

Definition res_rel {A B} (R : A -> B -> Prop) (m : res A) (m' : res B) : Prop :=
  match m, m' with
  | Ok x, Ok x' => R x x'
  | Exit e, Exit e' => e = e'
  | Throw e, Throw e' => e = e'
  | UB e, UB e' => e = e'
  | _, _ => False
  end.
Lemma rel_bind {A A' B B'} (R : A -> A' -> Prop) (Q : B -> B' -> Prop) m m' k k' :
  res_rel R m m' -> (forall x x', R x x' -> res_rel Q (k x) (k' x')) -> res_rel Q (bind m k) (bind m' k').
Proof. intros H K. destruct m, m'; cbn in *; try contradiction; auto. Qed.
Lemma rel_same {A} (m : res A) : res_rel eq m m.
Proof. destruct m; reflexivity. Qed.
Lemma rel_bind_same {A B B'} (Q : B -> B' -> Prop) (m : res A) k k' : (forall x, res_rel Q (k x) (k' x)) -> res_rel Q (bind m k) (bind m k').
Proof. intros K. destruct m; cbn; auto. Qed.
Lemma rel_foreach {A B B'} (Q : B -> B' -> Prop) (l : list A) body body' s s' :
  (forall x t t', Q t t' -> res_rel Q (body x t) (body' x t')) -> Q s s' -> res_rel Q (foreach l body s) (foreach l body' s').
Proof.
  intros Hb. revert s s'. induction l as [|x l IH]; intros s s' H; cbn [foreach]; [exact H|].
  apply (rel_bind Q); [apply Hb, H|exact IH].
Qed.

Definition relay (ls : list string) (inp : input T) : input T :=
  mkInput ls (in_rx inp) (in_solvers inp) (in_map inp) (in_list inp) (in_plots inp).
Definition same_input (inp inp' : input T) : Prop := same_searches (in_lines inp) (in_lines inp') /\ inp' = relay (in_lines inp') inp.
Lemma same_mk ls ls' r s m l p : same_searches ls ls' -> same_input (mkInput ls r s m l p) (mkInput ls' r s m l p).
Proof. intros H. split; [exact H|reflexivity]. Qed.

Section Lines.
Variables ls ls' : list string.
Hypothesis H : same_searches ls ls'.
Lemma one_same n : n <> "" -> readOneParameter ls n = readOneParameter ls' n.
Proof. intros Hn. unfold readOneParameter. rewrite (proj1 H) by exact Hn. reflexivity. Qed.
Lemma many_same n o : n <> "" -> readManyParameters ls n o = readManyParameters ls' n o.
Proof. intros Hn. unfold readManyParameters. rewrite (proj1 H) by exact Hn. reflexivity. Qed.
(* what is found in a section that is there *)
Lemma section_bind {A} k1 k2 (f : Z * Z -> res A) f' : In k1 ["material"; "solver"] ->
  (forall v, readOneParameter ls (k1 ++ " " ++ k2) = Ok v -> f (findBlock ls k1 k2) = f' (findBlock ls' k1 k2)) ->
  bind (readOneParameter ls (k1 ++ " " ++ k2)) (fun _ => f (findBlock ls k1 k2)) =
  bind (readOneParameter ls' (k1 ++ " " ++ k2)) (fun _ => f' (findBlock ls' k1 k2)).
Proof.
  intros Hk Hf. rewrite <- one_same by (destruct Hk as [<-|[<-|[]]]; discriminate).
  destruct (readOneParameter ls (k1 ++ " " ++ k2)) as [v|e|e|e]; cbn [bind]; try reflexivity. apply (Hf v eq_refl).
Qed.
Lemma law_same item v name key skip m ms : key <> "" -> readOneParameter ls ("material " ++ item) = Ok v ->
  readLaw stod_opt ls (findBlock ls "material" item) name key skip m ms = readLaw stod_opt ls' (findBlock ls' "material" item) name key skip m ms.
Proof. intros Hk Hv. unfold readLaw. rewrite (proj2 H "material" item v) by (try exact Hk; try exact Hv; left; reflexivity). reflexivity. Qed.
Lemma set_many_same n : n <> "" -> setManyParameters stod_opt ls n = setManyParameters stod_opt ls' n.
Proof. intros Hn. unfold setManyParameters. rewrite many_same by exact Hn. reflexivity. Qed.
Lemma property_same n k : n <> "" -> propertyWords ls n k = propertyWords ls' n k.
Proof.
  intros Hn. unfold propertyWords. apply (section_bind "solver" (get_solver_name k)
    (fun block => l <- findKeyword ls n (fst block) (snd block) false ;; Ok (splitLine l))
    (fun block => l <- findKeyword ls' n (fst block) (snd block) false ;; Ok (splitLine l))); [right; left; reflexivity|].
  intros v Hv. rewrite (proj2 H "solver" (get_solver_name k) v) by (try exact Hn; try exact Hv; right; left; reflexivity). reflexivity.
Qed.
Lemma lawLine_same item v key skip : key <> "" -> readOneParameter ls ("material " ++ item) = Ok v ->
  lawLine stod_opt fmt ls (findBlock ls "material" item) key skip = lawLine stod_opt fmt ls' (findBlock ls' "material" item) key skip.
Proof. intros Hk Hv. unfold lawLine. rewrite (proj2 H "material" item v) by (try exact Hk; try exact Hv; left; reflexivity). reflexivity. Qed.
Lemma manyEcho_same n t : n <> "" -> manyEcho stod_opt fmt ls n t = manyEcho stod_opt fmt ls' n t.
Proof. intros Hn. unfold manyEcho. rewrite set_many_same by exact Hn. reflexivity. Qed.
Lemma kineticsEcho_same : kineticsEcho stod_opt fmt ls = kineticsEcho stod_opt fmt ls'.
Proof. unfold kineticsEcho. rewrite !one_same, !manyEcho_same by discriminate. reflexivity. Qed.
Lemma powerEcho_same : powerEcho stod_opt fmt ls = powerEcho stod_opt fmt ls'.
Proof. unfold powerEcho. rewrite one_same by discriminate. reflexivity. Qed.
Lemma geometryEcho_same : geometryEcho ls = geometryEcho ls'.
Proof. unfold geometryEcho. rewrite one_same by discriminate. reflexivity. Qed.
Lemma solversEcho_same : solversEcho (N:=N) ls = solversEcho (N:=N) ls'.
Proof. unfold solversEcho. rewrite many_same by discriminate. reflexivity. Qed.
End Lines.
Lemma foreach_same {A B} (l : list A) (f g : A -> B -> res B) s : (forall x t, f x t = g x t) -> foreach l f s = foreach l g s.
Proof. intros E. replace f with g; [reflexivity|]. extensionality x. extensionality t. symmetry. apply E. Qed.
Lemma zfor_same {B} a b (f g : Z -> B -> res B) s : (forall i t, f i t = g i t) -> zfor a b f s = zfor a b g s.
Proof. intros E. replace f with g; [reflexivity|]. extensionality x. extensionality t. symmetry. apply E. Qed.
Lemma bind_same {A B} (m : res A) (k k' : A -> res B) : (forall x, k x = k' x) -> bind m k = bind m k'.
Proof. intros E. destruct m; cbn; auto. Qed.

Notation both := (input T * list string)%type.
Definition same_both (st st' : both) : Prop := same_input (fst st) (fst st') /\ snd st = snd st'.

Ltac open := intros [ls rx sv mp lt pl] inp' [H ->]; cbn [relay in_lines in_rx in_solvers in_map in_list in_plots] in *; generalize dependent (in_lines inp'); clear inp'; intros ls' H.
Ltac inp_cbn := cbn [in_lines in_rx in_solvers in_map in_list in_plots in_mesh relay with_rx put_mesh with_solvers].

Lemma setSolvers_same : forall inp inp', same_input inp inp' -> res_rel same_input (setSolvers (N:=N) inp) (setSolvers (N:=N) inp').
Proof. open. unfold setSolvers. inp_cbn. rewrite (many_same ls ls' H) by discriminate. do 2 (apply rel_bind_same; intros ?). apply same_mk, H. Qed.
Lemma setGeometryKind_same : forall inp inp', same_input inp inp' -> res_rel same_input (setGeometryKind (T:=T) inp) (setGeometryKind inp').
Proof.
  open. unfold setGeometryKind. inp_cbn. rewrite (one_same ls ls' H) by discriminate. apply rel_bind_same. intros g.
  repeat (match goal with |- context [if ?b then _ else _] => destruct b end; [apply same_mk, H|]). reflexivity.
Qed.
Lemma setThermalPower_same : forall inp inp', same_input inp inp' -> res_rel same_input (setThermalPower stod_opt inp) (setThermalPower stod_opt inp').
Proof. open. unfold setThermalPower. inp_cbn. rewrite (one_same ls ls' H) by discriminate. do 2 (apply rel_bind_same; intros ?). apply same_mk, H. Qed.
Lemma setMesh_same : forall inp inp', same_input inp inp' -> res_rel same_input (setMesh mpi stod_opt inp) (setMesh mpi stod_opt inp').
Proof.
  open. unfold setMesh. inp_cbn. rewrite (many_same ls ls' H) by discriminate. apply rel_bind_same. intros values. apply rel_bind_same. intros [[ns xs] mts]. cbv beta iota zeta.
  do 6 (apply rel_bind_same; intros ?). apply same_mk, H.
Qed.
Lemma forMaterials_same body body' : forall inp inp', same_input inp inp' ->
  (forall item v, readOneParameter (in_lines inp) ("material " ++ item) = Ok v ->
     forall m ms, body (findBlock (in_lines inp) "material" item) m ms = body' (findBlock (in_lines inp') "material" item) m ms) ->
  res_rel same_input (forMaterials inp body) (forMaterials inp' body').
Proof.
  open. intros Hb. unfold forMaterials. inp_cbn. cbv zeta.
  rewrite (foreach_same lt _ (fun item ms =>
      readOneParameter ls' ("material " ++ item) ;;;
      zfor 0 (ms_cells (rx_mesh rx)) (fun m ms =>
        nm <- lget mp m ;;
        if String.eqb nm item then body' (findBlock ls' "material" item) m ms else Ok ms) ms)).
  - apply rel_bind_same. intros ms. apply same_mk, H.
  - intros item t. apply (section_bind ls ls' H "material" item
      (fun block => zfor 0 (ms_cells (rx_mesh rx)) (fun m ms => nm <- lget mp m ;; if String.eqb nm item then body block m ms else Ok ms) t)
      (fun block => zfor 0 (ms_cells (rx_mesh rx)) (fun m ms => nm <- lget mp m ;; if String.eqb nm item then body' block m ms else Ok ms) t)); [left; reflexivity|].
    intros v Hv. apply zfor_same. intros m ms. apply bind_same. intros nm. destruct (String.eqb nm item); [apply (Hb item v Hv)|reflexivity].
Qed.
Lemma app_nonempty a b : b <> "" -> a ++ b <> "".
Proof. destruct a; [trivial|discriminate]. Qed.
Lemma setXS_same name : forall inp inp', same_input inp inp' -> res_rel same_input (setXS stod_opt name inp) (setXS stod_opt name inp').
Proof.
  intros inp inp' H. apply (forMaterials_same _ _ inp inp' H). intros item v Hv m ms. replace (in_mesh inp') with (in_mesh inp) by (rewrite (proj2 H); reflexivity).
  apply zfor_same. intros i t. apply (law_same _ _ (proj1 H) item v); [apply app_nonempty; discriminate|exact Hv].
Qed.
Lemma setMatrixXS_same name : forall inp inp', same_input inp inp' -> res_rel same_input (setMatrixXS stod_opt name inp) (setMatrixXS stod_opt name inp').
Proof.
  intros inp inp' H. apply (forMaterials_same _ _ inp inp' H). intros item v Hv m ms. replace (in_mesh inp') with (in_mesh inp) by (rewrite (proj2 H); reflexivity).
  apply zfor_same. intros i t. apply zfor_same. intros j u. apply (law_same _ _ (proj1 H) item v); [apply app_nonempty; discriminate|exact Hv].
Qed.
Lemma setMaterialProperties_same : forall inp inp', same_input inp inp' -> res_rel same_input (setMaterialProperties stod_opt inp) (setMaterialProperties stod_opt inp').
Proof.
  intros inp inp' H. apply (forMaterials_same _ _ inp inp' H). intros item v Hv m ms.
  rewrite (proj2 (proj1 H) "material" item v) by (try discriminate; try exact Hv; left; reflexivity). reflexivity.
Qed.
Lemma setTemperatures_same : forall inp inp', same_input inp inp' -> res_rel same_input (setTemperatures stod_opt inp) (setTemperatures stod_opt inp').
Proof. open. unfold setTemperatures. inp_cbn. rewrite (set_many_same ls ls' H) by discriminate. do 2 (apply rel_bind_same; intros ?). apply same_mk, H. Qed.
Lemma setHeatSources_same : forall inp inp', same_input inp inp' -> res_rel same_input (setHeatSources stod_opt inp) (setHeatSources stod_opt inp').
Proof. open. unfold setHeatSources. inp_cbn. rewrite (set_many_same ls ls' H) by discriminate. do 2 (apply rel_bind_same; intros ?). apply same_mk, H. Qed.
Lemma setKineticsParameters_same : forall inp inp', same_input inp inp' -> res_rel same_input (setKineticsParameters stod_opt inp) (setKineticsParameters stod_opt inp').
Proof.
  open. unfold setKineticsParameters. inp_cbn. cbv zeta. rewrite !(set_many_same ls ls' H), !(one_same ls ls' H) by discriminate. do 8 (apply rel_bind_same; intros ?).
  destruct (_ =? _); [apply same_mk, H|reflexivity].
Qed.
Lemma setSolverProperties_same name k : name <> "" -> forall inp inp', same_input inp inp' ->
  res_rel same_input (setSolverProperties stod_opt name k inp) (setSolverProperties stod_opt name k inp').
Proof.
  intros Hn. open. unfold setSolverProperties. inp_cbn. replace (propertyWords ls name) with (propertyWords ls' name).
  - apply rel_bind_same. intros [l r]. apply same_mk, H.
  - extensionality s. symmetry. apply (property_same ls ls' H), Hn.
Qed.
Lemma setPlots_same : forall inp inp', same_input inp inp' -> res_rel same_input (setPlots (T:=T) inp) (setPlots inp').
Proof. open. unfold setPlots. inp_cbn. rewrite (many_same ls ls' H) by discriminate. apply rel_bind_same; intros ?. apply same_mk, H. Qed.

(* ---------- the echo ---------- *)
Lemma meshEcho_same inp inp' : same_input inp inp' -> meshEcho mpi stod_opt fmt inp = meshEcho mpi stod_opt fmt inp'.
Proof. intros [H E]. unfold meshEcho. rewrite (many_same _ _ H) by discriminate. rewrite E. reflexivity. Qed.
Lemma materialsEcho_same inp inp' body body' : same_input inp inp' ->
  (forall item v, readOneParameter (in_lines inp) ("material " ++ item) = Ok v ->
     body (findBlock (in_lines inp) "material" item) = body' (findBlock (in_lines inp') "material" item)) ->
  materialsEcho inp body = materialsEcho inp' body'.
Proof.
  intros [H E] Hb. unfold materialsEcho. replace (in_list inp') with (in_list inp) by (rewrite E; reflexivity).
  replace (in_map inp') with (in_map inp) by (rewrite E; reflexivity). replace (in_mesh inp') with (in_mesh inp) by (rewrite E; reflexivity).
  apply foreach_same. intros item l. cbv zeta. apply (section_bind _ _ H "material" item
    (fun block => zfor 0 (ms_cells (in_mesh inp)) (fun m l => nm <- lget (in_map inp) m ;;
      if String.eqb nm item then e <- body block ;; Ok (l ++ e)%list else Ok l) l)
    (fun block => zfor 0 (ms_cells (in_mesh inp)) (fun m l => nm <- lget (in_map inp) m ;;
      if String.eqb nm item then e <- body' block ;; Ok (l ++ e)%list else Ok l) l)); [left; reflexivity|].
  intros v Hv. apply zfor_same. intros m t. rewrite (Hb item v Hv). reflexivity.
Qed.
Lemma conductivityEcho_same inp inp' : same_input inp inp' -> conductivityEcho stod_opt fmt inp = conductivityEcho stod_opt fmt inp'.
Proof.
  intros H. unfold conductivityEcho. rewrite (materialsEcho_same inp inp' _ (fun block => t <- lawLine stod_opt fmt (in_lines inp') block "thermal_conductivity" 1 ;; Ok [t]) H); [reflexivity|].
  intros item v Hv. rewrite (lawLine_same _ _ (proj1 H) item v) by (try discriminate; exact Hv). reflexivity.
Qed.
Lemma xsEcho_same name title inp inp' : same_input inp inp' -> xsEcho stod_opt fmt name title inp = xsEcho stod_opt fmt name title inp'.
Proof.
  intros H. unfold xsEcho. replace (in_mesh inp') with (in_mesh inp) by (rewrite (proj2 H); reflexivity).
  apply (f_equal (fun m => bind m (fun e => Ok (title :: e)))). apply materialsEcho_same; [exact H|]. intros item v Hv.
  apply (f_equal (fun m => bind m (fun e => Ok (e ++ [" "])%list))). apply zfor_same. intros i e.
  rewrite (lawLine_same _ _ (proj1 H) item v); [reflexivity|apply app_nonempty; discriminate|exact Hv].
Qed.
Lemma matrixEcho_same name title inp inp' : same_input inp inp' -> matrixEcho stod_opt fmt name title inp = matrixEcho stod_opt fmt name title inp'.
Proof.
  intros H. unfold matrixEcho. replace (in_mesh inp') with (in_mesh inp) by (rewrite (proj2 H); reflexivity).
  apply (f_equal (fun m => bind m (fun e => Ok (title :: e)))). apply materialsEcho_same; [exact H|]. intros item v Hv.
  apply zfor_same. intros i e. apply (f_equal (fun m => bind m (fun e => Ok (e ++ [" "])%list))). apply zfor_same. intros j e'.
  rewrite (lawLine_same _ _ (proj1 H) item v); [reflexivity|apply app_nonempty; discriminate|exact Hv].
Qed.
Lemma propertiesEcho_same name k : name <> "" -> forall inp inp', same_input inp inp' -> propertiesEcho name k inp = propertiesEcho name k inp'.
Proof.
  intros Hn inp inp' [H E]. unfold propertiesEcho. replace (propertyWords (in_lines inp) name) with (propertyWords (in_lines inp') name).
  - rewrite E. reflexivity.
  - extensionality s. symmetry. apply (property_same _ _ H), Hn.
Qed.

(* ---------- the whole reading ---------- *)
Definition keeps (f : both -> res both) : Prop := forall st st', same_both st st' -> res_rel same_both (f st) (f st').
Lemma noting_keeps e f : (forall inp inp', same_input inp inp' -> e inp = e inp') ->
  (forall inp inp', same_input inp inp' -> res_rel same_input (f inp) (f inp')) -> keeps (noting e f).
Proof.
  intros He Hf [inp log] [inp' log'] [H E]. cbn in H, E. subst log'. unfold noting. rewrite (He _ _ H). apply rel_bind_same. intros l.
  apply (rel_bind same_input); [apply Hf, H|]. intros x x' Hx. split; [exact Hx|reflexivity].
Qed.
Lemma keeps_bind (m m' : res both) k : res_rel same_both m m' -> keeps k -> res_rel same_both (bind m k) (bind m' k).
Proof. intros Hm Hk. apply (rel_bind same_both); [exact Hm|exact Hk]. Qed.
Lemma xs_keeps name title : keeps (notingXS stod_opt fmt name title).
Proof. apply noting_keeps; [apply xsEcho_same|apply setXS_same]. Qed.
Lemma matrix_keeps name title : keeps (notingMatrix stod_opt fmt name title).
Proof. apply noting_keeps; [apply matrixEcho_same|apply setMatrixXS_same]. Qed.
Lemma properties_keeps name k : name <> "" -> keeps (notingProperties stod_opt name k).
Proof. intros Hn. apply noting_keeps; [apply propertiesEcho_same, Hn|apply setSolverProperties_same, Hn]. Qed.
Lemma materialsLog_keeps k : keeps (materialsLog stod_opt fmt k).
Proof.
  intros st st' H. destruct k; cbn [materialsLog]; try exact H;
    try (apply noting_keeps; [apply conductivityEcho_same|apply setMaterialProperties_same|exact H]).
  all: repeat (apply keeps_bind; [apply xs_keeps; assumption| clear st st' H; intros st st' H]); apply matrix_keeps, H.
Qed.
Lemma same_solvers st st' : same_both st st' -> in_solvers (fst st) = in_solvers (fst st').
Proof. intros [[_ E] _]. rewrite E. reflexivity. Qed.
Lemma readSolverLog_keeps k : keeps (readSolverLog stod_opt fmt k).
Proof.
  intros st st' H. unfold readSolverLog. rewrite (same_solvers _ _ H). destruct k; try (apply materialsLog_keeps, H); try exact H.
  - apply noting_keeps; [|apply setKineticsParameters_same|exact H]. intros inp inp' [G _]. rewrite (kineticsEcho_same _ _ G). reflexivity.
  - apply keeps_bind.
    + destruct (_ || _)%bool; (apply noting_keeps; [| |exact H]); [|apply setThermalPower_same| |apply setHeatSources_same];
        intros inp inp' [G _]; [rewrite (powerEcho_same _ _ G)|rewrite (manyEcho_same _ _ G) by discriminate]; reflexivity.
    + clear st st' H. intros st st' H. apply keeps_bind; [apply materialsLog_keeps, H|]. apply noting_keeps; [|apply setTemperatures_same].
      intros inp inp' [G _]. rewrite (manyEcho_same _ _ G) by discriminate. reflexivity.
Qed.
Lemma readLinesLog_keeps : keeps (readLinesLog mpi stod_opt fmt).
Proof.
  intros st st' H. unfold readLinesLog. apply (rel_bind same_both).
  { apply noting_keeps; [|apply setSolvers_same|exact H]. intros inp inp' [G _]. rewrite (solversEcho_same _ _ G). reflexivity. }
  clear st st' H. intros st st' H. rewrite (same_solvers _ _ H). cbv zeta. apply (rel_bind same_both).
  { destruct (_ || _)%bool; [|exact H]. apply keeps_bind.
    - apply noting_keeps; [|apply setGeometryKind_same|exact H]. intros inp inp' [G _]. rewrite (geometryEcho_same _ _ G). reflexivity.
    - apply noting_keeps; [apply meshEcho_same|apply setMesh_same]. }
  generalize (isElementHere (in_solvers (fst st'))). clear st st' H. intros here st st' H.
  do 13 (apply (rel_bind same_both); [apply properties_keeps; [discriminate|exact H]|clear st st' H; intros st st' H]).
  apply (rel_bind same_both).
  { destruct (_ && _)%bool; [apply properties_keeps; [discriminate|exact H]|exact H]. }
  clear st st' H. intros st st' H. rewrite (same_solvers _ _ H). apply (rel_bind same_both).
  { apply rel_foreach; [|exact H]. intros s t t' Ht. apply readSolverLog_keeps, Ht. }
  clear st st' H. intros st st' H. apply noting_keeps; [reflexivity|apply setPlots_same|exact H].
Qed.
End Same.
