(* What the log shows of the input: C85. *)
From Coq Require Import String Ascii ZArith List Bool Lia Arith QArith Permutation FinFun.
From Verif Require Import Base BaseLemmas NumQ ModelNumTools ModelEigen ModelMesh ModelReactor ModelOutput ModelCalculation
  ModelText ModelInput ModelLog ModelEcho ProofsInput ProofsInputB ProofsInputC ProofsInputD ProofsInputE ProofsInputF
  ProofsInputG ProofsInputH ProofsInputI ProofsInputJ ProofsReport PropsInputB PropsInputC PropsInputD.
Import ListNotations.
Local Open Scope string_scope.
Local Open Scope Z_scope.

Section Any.
Context {T : Type} {N : Num T}.
Variable mpi : T.
Variable stod_opt : string -> option T.
Variable fmt : T -> string.
Notation kinds inp := (map sd_kind (in_solvers inp)).
Notation column title l := (title%string :: map fmt l ++ [" "])%list.

(* The kinetics data of an accepted file are shown as the reactor holds them,
   except the initial power, whose line shows the generation time. *)
Theorem C85_kinetics_echo file lines inp : storeInput file = Ok lines -> readData mpi stod_opt file = Ok inp ->
  In KINETICS (kinds inp) ->
  let k := rx_kin (in_rx inp) in
  kineticsEcho stod_opt fmt lines =
  Ok (("Mean generation time of the reactor [s]: " ++ fmt (ks_alpha k) ++ " ")%string ::
      ("Initial power [W]: " ++ fmt (ks_alpha k) ++ " ")%string ::
      column "Input delayed neutrons group decay constants [1/s]:" (ks_lambda k) ++
      column "Input delayed neutrons group fractions:" (ks_beta k) ++
      column "Input times [s]:" (ks_times k) ++ column "Input reactivities:" (ks_reacts k))%list.
Proof.
  intros H1 H2 K k. pose proof (readLines_stored _ _ _ _ (readData_lines _ _ _ _ _ H1 H2)) as S.
  destruct (st_kinetics _ _ _ _ S K) as ((wa & A1 & A2) & (wp & B1 & B2) & C & D & E & F). fold k in A2, B2, C, D, E, F.
  unfold kineticsEcho, manyEcho. rewrite A1. cbn [bind]. unfold stod at 1. rewrite A2. cbn [bind]. rewrite B1. cbn [bind].
  unfold stod at 1. rewrite B2. cbn [bind]. rewrite C. cbn [bind]. rewrite D. cbn [bind]. rewrite E. cbn [bind]. rewrite F. reflexivity.
Qed.

(* The temperatures, heat sources and thermal power of an accepted file are shown
   as they are stored: the shown value number m is the one of cell m. *)
Theorem C85_heat_echo file lines inp : storeInput file = Ok lines -> readData mpi stod_opt file = Ok inp ->
  In HEAT (kinds inp) ->
  let cells := ms_mats (in_mesh inp) in
  let neutronics := In TRANSPORT (kinds inp) \/ In DIFFUSION (kinds inp) in
  (forall title, exists xs, manyEcho stod_opt fmt lines "temperatures" title = Ok (column (title ++ ":") xs) /\
     (length xs <= length cells)%nat /\
     forall m mt x, nth_error cells m = Some mt -> nth_error xs m = Some x -> mt_temp mt = x) /\
  (~ neutronics -> forall title, exists xs, manyEcho stod_opt fmt lines "heat_sources" title = Ok (column (title ++ ":") xs) /\
     (length xs <= length cells)%nat /\
     forall m mt x, nth_error cells m = Some mt -> nth_error xs m = Some x -> mt_heat mt = x) /\
  (neutronics -> exists w, stod_opt w = Some (rx_power (in_rx inp)) /\
     powerEcho stod_opt fmt lines =
       Ok [("Input thermal power [W]: " ++ (if isString w then w else fmt (rx_power (in_rx inp))) ++ " ")%string]).
Proof.
  intros H1 H2 K cells neutronics. pose proof (readLines_stored _ _ _ _ (readData_lines _ _ _ _ _ H1 H2)) as S.
  destruct (st_heat _ _ _ _ S K) as (_ & (ts & B1 & B2) & C & D).
  assert (V : forall get xs, listed get xs cells -> (length xs <= length cells)%nat /\
    forall m mt x, nth_error cells m = Some mt -> nth_error xs m = Some x -> get mt = x).
  { intros get xs [L1 L2]. split; [exact L1|]. intros m mt x E Ex. rewrite (L2 m mt E). apply nth_error_nth. exact Ex. }
  split; [|split].
  - intros title. exists ts. split; [unfold manyEcho; rewrite B1; reflexivity|]. exact (V mt_temp ts B2).
  - intros Nn title. destruct C as (qs & C1 & C2); [intros F; apply Nn; left; exact F|intros F; apply Nn; right; exact F|].
    exists qs. split; [unfold manyEcho; rewrite C1; reflexivity|]. exact (V mt_heat qs C2).
  - intros Hn. destruct (D Hn) as (w & D1 & D2). exists w. split; [exact D2|]. unfold powerEcho. rewrite D1. cbn [bind].
    unfold stod at 1. rewrite D2. cbn [bind]. unfold wordText, stod. destruct (isString w); [reflexivity|]. rewrite D2. reflexivity.
Qed.

(* the words of a line, each as written when it starts with a letter and as a
   formatted number otherwise *)
Definition shown_words (l : list string) : string :=
  fold_left (fun msg s => (msg ++ (if isString s then s else match stod_opt s with Some x => fmt x | None => "" end) ++ " ")%string) l "".
Lemma wordsLine_inv l t : wordsLine stod_opt fmt l = Ok t -> t = shown_words l.
Proof.
  assert (G : forall l z t, foreach l (fun s msg => t <- wordText stod_opt fmt s ;; Ok (msg ++ t ++ " ")%string) z = Ok t ->
    t = fold_left (fun msg s => (msg ++ (if isString s then s else match stod_opt s with Some x => fmt x | None => "" end) ++ " ")%string) l z).
  { clear. induction l as [|s l IH]; intros z t H; [injection H as <-; reflexivity|].
    cbn [foreach] in H. apply bind_ok_inv in H. destruct H as (z' & E & H). apply bind_ok_inv in E. destruct E as (x & Ex & E).
    injection E as <-. cbn [fold_left]. rewrite (IH _ _ H). f_equal. f_equal. f_equal. unfold wordText in Ex. destruct (isString s); [congruence|].
    unfold stod in Ex. destruct (stod_opt s); [|discriminate Ex]. cbn [bind] in Ex. congruence. }
  intros H. exact (G l _ _ H).
Qed.
Lemma wordsLine_ok l : printStrings stod_opt l = Ok tt -> wordsLine stod_opt fmt l = Ok (shown_words l).
Proof.
  intros H. assert (G : forall z u, foreach l (fun s (_ : unit) => if isString s then Ok tt else stod stod_opt s ;;; Ok tt) u = Ok tt ->
    exists t, foreach l (fun s msg => t <- wordText stod_opt fmt s ;; Ok (msg ++ t ++ " ")%string) z = Ok t).
  { clear H. induction l as [|s l IH]; intros z u H; [eexists; reflexivity|]. cbn [foreach] in *. unfold wordText at 1.
    destruct (isString s); cbn [bind] in *; [exact (IH _ _ H)|].
    destruct (stod stod_opt s); try discriminate H. cbn [bind] in *. exact (IH _ _ H). }
  destruct (G "" tt H) as (t & Et). fold (wordsLine stod_opt fmt l) in Et. rewrite Et. f_equal. exact (wordsLine_inv _ _ Et).
Qed.

(* What is shown of the mesh is the mesh: its boundaries, the volumes of its
   cells, the name of the material of every cell, and its middle points. *)
Theorem C85_mesh_echo (a b : input T) : setMesh mpi stod_opt a = Ok b -> in_map a = [] ->
  let ms := in_mesh b in
  exists vol mid, getVolumes mpi ms "m" = Ok vol /\ getMeshMiddlePoints ms = Ok mid /\
    (forall m mt, nth_error (ms_mats ms) m = Some mt -> nth_error (in_map b) m = Some (mt_name mt)) /\
    meshEcho mpi stod_opt fmt a =
      Ok (column "Input boundaries [m]:" (list_of_vec (ms_bounds ms)) ++ column "Input volumes [m3]:" (list_of_vec vol) ++
          "Input meshes:" :: shown_words (in_map b) :: column "Mesh middle points [m]:" (list_of_vec mid))%list.
Proof.
  intros H H0. destruct (setMesh_cells _ _ _ _ H H0) as (_ & _ & M3).
  unfold setMesh in H. apply bind_ok_inv in H. destruct H as (values & Hv & H).
  apply bind_ok_inv in H. destruct H as ([[ns xs] mts] & Hr & H). cbv zeta in H.
  apply bind_ok_inv in H. destruct H as (bd & Hb & H). apply bind_ok_inv in H. destruct H as (vol & Hvol & H).
  apply bind_ok_inv in H. destruct H as (nms & Hn & H). apply bind_ok_inv in H. destruct H as (ms & Hc & H).
  apply bind_ok_inv in H. destruct H as (u & Hp & H). apply bind_ok_inv in H. destruct H as (mid & Hm & H). injection H as <-.
  unfold in_mesh in *. cbn [in_rx with_mesh rx_mesh in_map] in *. exists vol, mid.
  destruct (createMaterials_cells _ _ _ Hc) as (C1 & C2 & C3 & _).
  assert (Ev : getVolumes mpi ms "m" = Ok vol).
  { rewrite <- Hvol. unfold getVolumes. unfold createMaterials in Hc. apply bind_ok_inv in Hc. destruct Hc as (l & _ & Hc). injection Hc as <-. reflexivity. }
  assert (Eb : ms_bounds ms = bd).
  { unfold createMaterials in Hc. apply bind_ok_inv in Hc. destruct Hc as (l & _ & Hc). injection Hc as <-. reflexivity. }
  split; [exact Ev|]. split; [exact Hm|]. split.
  - intros m mt E. destruct (M3 m mt E) as (nm & E1 & ->). exact E1.
  - unfold meshEcho. rewrite Hv. cbn [bind]. rewrite Hr. cbn [bind]. cbv zeta. rewrite Hb. cbn [bind]. unfold in_mesh. rewrite Hvol. cbn [bind].
    rewrite Hn. cbn [bind]. rewrite Hc. cbn [bind]. destruct u. rewrite (wordsLine_ok _ Hp). cbn [bind]. rewrite Hm. cbn [bind]. rewrite Eb.
    unfold valueLines. cbn [app]. rewrite <- !app_assoc. reflexivity.
Qed.

(* The geometry is shown as it is stored. *)
Theorem C85_geometry_echo (a b : input T) : setGeometryKind a = Ok b ->
  In (ms_geom (in_mesh b), geometryEcho (in_lines a))
     [(SLAB, Ok ["Geometry: Cartesian "]); (CYLINDER, Ok ["Geometry: Cylindrical "]); (SPHERE, Ok ["Geometry: Spherical "])].
Proof.
  unfold setGeometryKind, geometryEcho. intros H. apply bind_ok_inv in H. destruct H as (g & Hg & H). rewrite Hg. cbn [bind].
  destruct (String.eqb g "cylinder"); [injection H as <-; cbn; auto|]. destruct (String.eqb g "sphere"); [injection H as <-; cbn; auto|].
  destruct (String.eqb g "slab"); [injection H as <-; cbn; auto|discriminate H].
Qed.

(* ---------- the material data ---------- *)

Lemma foreach_echo {A S} (l : list A) (f : A -> S -> res S) (g : A -> list string -> res (list string)) (shown : A -> list string) :
  (forall x s s' e, In x l -> f x s = Ok s' -> g x e = Ok (e ++ shown x)%list) ->
  forall s s' e, foreach l f s = Ok s' -> foreach l g e = Ok (e ++ flat_map shown l)%list.
Proof.
  induction l as [|x l IH]; intros Hx s s' e H; [cbn; rewrite app_nil_r; reflexivity|].
  cbn [foreach] in *. apply bind_ok_inv in H. destruct H as (s1 & H1 & H). rewrite (Hx x s s1 e (or_introl eq_refl) H1). cbn [bind flat_map].
  rewrite app_assoc. apply (IH (fun x s s' e Hi => Hx x s s' e (or_intror Hi)) s1 s'). exact H.
Qed.

(* the cells in the order in which their data are shown: the materials in the
   order of the list, the cells of each in the order of the mesh *)
Definition shown_cells (inp : input T) : list Z :=
  flat_map (fun item => filter (fun m => match nth_error (in_map inp) (Z.to_nat m) with Some nm => String.eqb nm item | None => false end)
    (zrange 0 (ms_cells (in_mesh inp)))) (in_list inp).
(* the material of cell m *)
Definition material_of (inp : input T) (m : Z) : string := nth (Z.to_nat m) (in_map inp) "".

Lemma materials_echo (a b : input T) body ebody (shown : string -> list string) : forMaterials a body = Ok b ->
  (forall item m ms ms', In item (in_list a) -> 0 <= m < ms_cells (in_mesh a) -> nth_error (in_map a) (Z.to_nat m) = Some item ->
    body (findBlock (in_lines a) "material" item) m ms = Ok ms' -> ebody (findBlock (in_lines a) "material" item) = Ok (shown item)) ->
  materialsEcho a ebody = Ok (flat_map (fun m => shown (material_of a m)) (shown_cells a)).
Proof.
  intros H Hb. unfold forMaterials in H. cbv zeta in H. apply bind_ok_inv in H. destruct H as (ms & H & _).
  assert (E : materialsEcho a ebody = Ok ([] ++ flat_map (fun item => flat_map
    (fun m => if match nth_error (in_map a) (Z.to_nat m) with Some nm => String.eqb nm item | None => false end then shown (material_of a m) else [])
    (zrange 0 (ms_cells (in_mesh a)))) (in_list a))%list).
  { unfold materialsEcho. revert H. apply foreach_echo. intros item s s' e Hi H. apply bind_ok_inv in H. destruct H as (w & Hw & H).
    rewrite Hw. cbn [bind]. rewrite zfor_list. rewrite zfor_list in H. revert H. apply foreach_echo. intros m s1 s2 e1 Hm H.
    apply bind_ok_inv in H. destruct H as (nm & Hn & H). rewrite Hn. cbn [bind]. apply lget_inv in Hn. destruct Hn as [Hm0 Hn]. rewrite Hn.
    destruct (String.eqb_spec nm item) as [-> | Ne]; [|rewrite app_nil_r; reflexivity].
    unfold zrange in Hm. apply in_map_iff in Hm. destruct Hm as (k & Ek & Hk). apply in_seq in Hk.
    rewrite (Hb item m s1 s2 Hi ltac:(lia) Hn H). cbn [bind]. unfold material_of. rewrite (nth_error_nth _ _ _ Hn). reflexivity. }
  rewrite E. cbn [app]. f_equal. unfold shown_cells. clear. induction (in_list a) as [|item l IH]; [reflexivity|].
  cbn [flat_map]. rewrite flat_map_app, IH. f_equal. clear. induction (zrange 0 (ms_cells (in_mesh a))) as [|m l IH]; [reflexivity|].
  cbn [flat_map filter]. rewrite IH. destruct (match nth_error _ _ with Some _ => _ | None => _ end); reflexivity.
Qed.

(* the line shown for a key of a material is made of the words behind the first
   words of the first line of its section with the key *)
Definition shows (lines : list string) (name key : string) (skip : nat) (t : string) : Prop :=
  exists first ws, length first = skip /\ section_words lines "material" name key (first ++ ws) /\ t = shown_words ws.

Lemma words_from_app skip all ws : words_from skip all = Ok ws -> exists first, length first = skip /\ all = (first ++ ws)%list.
Proof.
  revert all. induction skip as [|k IH]; intros all H; [exists []; cbn in H; injection H as <-; auto|].
  destruct all as [|w all]; [discriminate H|]. destruct (IH all H) as (f & <- & ->). exists (w :: f). auto.
Qed.
Lemma lawLine_shows lines item key skip t : lawLine stod_opt fmt lines (findBlock lines "material" item) key skip = Ok t ->
  shows lines item key skip t.
Proof.
  unfold lawLine. intros H. apply bind_ok_inv in H. destruct H as (l & Hl & H). apply bind_ok_inv in H. destruct H as (ws & Hw & H).
  apply findKeyword_section in Hl. destruct (words_from_app _ _ _ Hw) as (first & E1 & E2). exists first, ws. split; [exact E1|].
  rewrite <- E2. split; [exact Hl|]. exact (wordsLine_inv _ _ H).
Qed.
Definition text_of (r : res string) : string := match r with Ok t => t | _ => "" end.
Lemma readLaw_line lines block name key skip m ms ms' : readLaw stod_opt lines block name key skip m ms = Ok ms' ->
  lawLine stod_opt fmt lines block key skip = Ok (text_of (lawLine stod_opt fmt lines block key skip)).
Proof.
  unfold readLaw, lawLine. intros H. apply bind_ok_inv in H. destruct H as (l & Hl & H). apply bind_ok_inv in H. destruct H as (ws & Hw & H).
  apply bind_ok_inv in H. destruct H as (mt & _ & H). apply bind_ok_inv in H. destruct H as (c & _ & H).
  apply bind_ok_inv in H. destruct H as (mats & _ & H). apply bind_ok_inv in H. destruct H as ([] & Hp & _).
  rewrite Hl. cbn [bind]. rewrite Hw. cbn [bind]. rewrite (wordsLine_ok _ Hp). reflexivity.
Qed.

(* every shown cell was read *)
Lemma cells_read (a b : input T) body m : forMaterials a body = Ok b -> In m (shown_cells a) ->
  exists s s', body (findBlock (in_lines a) "material" (material_of a m)) m s = Ok s'.
Proof.
  intros H Hm. unfold shown_cells in Hm. apply in_flat_map in Hm. destruct Hm as (item & Hitem & Hm). apply filter_In in Hm. destruct Hm as [Hm Hn].
  destruct (nth_error (in_map a) (Z.to_nat m)) as [nm|] eqn:En; [|discriminate Hn]. apply String.eqb_eq in Hn. subst nm.
  unfold material_of. rewrite (nth_error_nth _ _ _ En). unfold forMaterials in H. cbv zeta in H. apply bind_ok_inv in H. destruct H as (ms & H & _).
  revert H. generalize (in_mesh a) at 2 as m0. induction (in_list a) as [|x l IH]; intros m0 H; [contradiction|]. cbn [foreach] in H.
  apply bind_ok_inv in H. destruct H as (s1 & H1 & H). destruct Hitem as [-> | Hitem]; [|exact (IH Hitem s1 H)].
  apply bind_ok_inv in H1. destruct H1 as (w & _ & H1). rewrite zfor_list in H1. clear -H1 Hm En. revert m0 H1.
  induction (zrange 0 (ms_cells (in_mesh a))) as [|j l IH]; intros m0 H1; [contradiction|]. cbn [foreach] in H1.
  apply bind_ok_inv in H1. destruct H1 as (s & H & H1). destruct Hm as [-> | Hm]; [|exact (IH Hm s H1)].
  apply bind_ok_inv in H. destruct H as (nm & Hn & H). apply lget_inv in Hn. destruct Hn as [_ Hn]. rewrite En in Hn. injection Hn as <-.
  rewrite String.eqb_refl in H. eauto.
Qed.

Lemma zrange_in lo hi i : In i (zrange lo hi) <-> lo <= i < hi.
Proof.
  unfold zrange. rewrite in_map_iff. split; [intros (k & <- & Hk); apply in_seq in Hk; lia|].
  intros Hi. exists (Z.to_nat (i - lo)). rewrite in_seq. lia.
Qed.
Lemma zfor_each {S} (f : Z -> S -> res S) lo hi s s' : zfor lo hi f s = Ok s' -> forall i, lo <= i < hi -> exists x y, f i x = Ok y.
Proof.
  rewrite zfor_list. intros H i Hi. apply zrange_in in Hi. revert s H. induction (zrange lo hi) as [|j l IH]; intros s H; [contradiction|].
  cbn [foreach] in H. apply bind_ok_inv in H. destruct H as (s1 & H1 & H). destruct Hi as [-> | Hi]; eauto.
Qed.
(* a loop that shows something at every turn *)
Lemma zfor_shows (g : Z -> list string -> res (list string)) (sh : Z -> list string) lo hi e :
  (forall i e, lo <= i < hi -> g i e = Ok (e ++ sh i)%list) -> zfor lo hi g e = Ok (e ++ flat_map sh (zrange lo hi))%list.
Proof.
  intros H. rewrite zfor_list. assert (A : forall i e, In i (zrange lo hi) -> g i e = Ok (e ++ sh i)%list) by (intros i e' Hi; apply H, zrange_in, Hi).
  revert e A. clear H. induction (zrange lo hi) as [|i l IH]; intros e A; [cbn; rewrite app_nil_r; reflexivity|].
  cbn [foreach flat_map]. rewrite (A i e (or_introl eq_refl)). cbn [bind]. rewrite app_assoc. apply IH. intros j e' Hj. apply A. right. exact Hj.
Qed.
Lemma flat_map_one {A} (f : A -> string) l : flat_map (fun x => [f x]) l = map f l.
Proof. induction l as [|x l IH]; [reflexivity|]. cbn. rewrite IH. reflexivity. Qed.

(* The cross sections of a kind are shown under its title, cell by cell in the
   order of the list of materials, one line for every group and then a blank. *)
Theorem C85_xs_echo (a b : input T) name title : setXS stod_opt name a = Ok b ->
  let G := ms_groups (in_mesh a) in
  exists row : string -> Z -> string,
    xsEcho stod_opt fmt name title a =
      Ok (title :: flat_map (fun m => map (row (material_of a m)) (zrange 1 (G + 1)) ++ [" "])%list (shown_cells a)) /\
    (forall m i, In m (shown_cells a) -> 1 <= i <= G ->
       shows (in_lines a) (material_of a m) (name ++ "(" ++ to_string i ++ ")") 1 (row (material_of a m) i)).
Proof.
  intros H G. pose (line item i := lawLine stod_opt fmt (in_lines a) (findBlock (in_lines a) "material" item) (name ++ "(" ++ to_string i ++ ")") 1).
  assert (P : forall item m s s', 
    zfor 1 (G + 1) (fun i ms => readLaw stod_opt (in_lines a) (findBlock (in_lines a) "material" item) name (name ++ "(" ++ to_string i ++ ")") 1 m ms) s = Ok s' ->
    forall i, 1 <= i <= G -> line item i = Ok (text_of (line item i))).
  { intros item m s s' Hz i Hi. destruct (zfor_each _ _ _ _ _ Hz i ltac:(lia)) as (x & y & E). exact (readLaw_line _ _ _ _ _ _ _ _ E). }
  exists (fun item i => text_of (line item i)). split.
  - unfold xsEcho. rewrite (materials_echo a b _ _ (fun item => map (fun i => text_of (line item i)) (zrange 1 (G + 1)) ++ [" "])%list H); [reflexivity|].
    intros item m s s' _ _ _ Hb. pose proof (P item m s s' Hb) as Hl. fold G.
    rewrite (zfor_shows _ (fun i => [text_of (line item i)])); [cbn [bind app]; rewrite flat_map_one; reflexivity|].
    intros i e Hi. fold (line item i). rewrite (Hl i) by lia. reflexivity.
  - intros m i Hm Hi. destruct (cells_read _ _ _ _ H Hm) as (s & s' & Hb). apply lawLine_shows. exact (P _ _ _ _ Hb i Hi).
Qed.

(* The same for the scattering matrices: a row of lines for every group, and a blank. *)
Theorem C85_matrix_echo (a b : input T) name title : setMatrixXS stod_opt name a = Ok b ->
  let G := ms_groups (in_mesh a) in
  exists entry : string -> Z -> Z -> string,
    matrixEcho stod_opt fmt name title a =
      Ok (title :: flat_map (fun m => flat_map (fun i => map (entry (material_of a m) i) (zrange 1 (G + 1)) ++ [" "]) (zrange 1 (G + 1)))%list (shown_cells a)) /\
    (forall m i j, In m (shown_cells a) -> 1 <= i <= G -> 1 <= j <= G ->
       shows (in_lines a) (material_of a m) (name ++ "(" ++ to_string i ++ ", " ++ to_string j ++ ")") 2 (entry (material_of a m) i j)).
Proof.
  intros H G. pose (line item i j := lawLine stod_opt fmt (in_lines a) (findBlock (in_lines a) "material" item) (name ++ "(" ++ to_string i ++ ", " ++ to_string j ++ ")") 2).
  assert (P : forall item m s s', zfor 1 (G + 1) (fun i ms => zfor 1 (G + 1) (fun j ms =>
      readLaw stod_opt (in_lines a) (findBlock (in_lines a) "material" item) name (name ++ "(" ++ to_string i ++ ", " ++ to_string j ++ ")") 2 m ms) ms) s = Ok s' ->
    forall i j, 1 <= i <= G -> 1 <= j <= G -> line item i j = Ok (text_of (line item i j))).
  { intros item m s s' Hz i j Hi Hj. destruct (zfor_each _ _ _ _ _ Hz i ltac:(lia)) as (x & y & E).
    destruct (zfor_each _ _ _ _ _ E j ltac:(lia)) as (x' & y' & E'). exact (readLaw_line _ _ _ _ _ _ _ _ E'). }
  exists (fun item i j => text_of (line item i j)). split.
  - unfold matrixEcho. rewrite (materials_echo a b _ _ (fun item => flat_map (fun i => map (fun j => text_of (line item i j)) (zrange 1 (G + 1)) ++ [" "]) (zrange 1 (G + 1)))%list H); [reflexivity|].
    intros item m s s' _ _ _ Hb. pose proof (P item m s s' Hb) as Hl. fold G.
    rewrite (zfor_shows _ (fun i => map (fun j => text_of (line item i j)) (zrange 1 (G + 1)) ++ [" "])%list); [reflexivity|].
    intros i e Hi. rewrite (zfor_shows _ (fun j => [text_of (line item i j)])); [cbn [bind]; rewrite flat_map_one, app_assoc; reflexivity|].
    intros j e' Hj. fold (line item i j). rewrite (Hl i j) by lia. reflexivity.
  - intros m i j Hm Hi Hj. destruct (cells_read _ _ _ _ H Hm) as (s & s' & Hb). apply lawLine_shows. exact (P _ _ _ _ Hb i j Hi Hj).
Qed.

(* And for the conductivities: one line for every cell. *)
Theorem C85_conductivity_echo (a b : input T) : setMaterialProperties stod_opt a = Ok b ->
  exists row : string -> string,
    conductivityEcho stod_opt fmt a = Ok ("Input thermal conductivity [W/(m*K)]:" :: map (fun m => row (material_of a m)) (shown_cells a)) /\
    (forall m, In m (shown_cells a) -> shows (in_lines a) (material_of a m) "thermal_conductivity" 1 (row (material_of a m))).
Proof.
  intros H. pose (line item := lawLine stod_opt fmt (in_lines a) (findBlock (in_lines a) "material" item) "thermal_conductivity" 1).
  assert (P : forall item m s s', (l <- findKeyword (in_lines a) "thermal_conductivity" (fst (findBlock (in_lines a) "material" item)) (snd (findBlock (in_lines a) "material" item)) false ;;
      setThermalConductivity stod_opt (splitLine l) m s) = Ok s' -> line item = Ok (text_of (line item))).
  { intros item m s s' Hz. unfold line, lawLine. apply bind_ok_inv in Hz. destruct Hz as (l & Hl & Hz). rewrite Hl. cbn [bind].
    unfold setThermalConductivity in Hz. destruct (splitLine l) as [|w [|w' ws]]; try discriminate Hz. destruct (Z.ltb _ _); [|discriminate Hz].
    apply bind_ok_inv in Hz. destruct Hz as (mt & _ & Hz). apply bind_ok_inv in Hz. destruct Hz as (c & _ & Hz).
    apply bind_ok_inv in Hz. destruct Hz as (mats & _ & Hz). apply bind_ok_inv in Hz. destruct Hz as ([] & Hp & _).
    cbn [words_from bind]. rewrite (wordsLine_ok _ Hp). reflexivity. }
  exists (fun item => text_of (line item)). split.
  - unfold conductivityEcho. rewrite (materials_echo a b _ _ (fun item => [text_of (line item)]) H); [cbn [bind]; rewrite flat_map_one; reflexivity|].
    intros item m s s' _ _ _ Hb. fold (line item). rewrite (P item m s s' Hb). reflexivity.
  - intros m Hm. destruct (cells_read _ _ _ _ H Hm) as (s & s' & Hb). apply lawLine_shows. exact (P _ _ _ _ Hb).
Qed.

(* Every cell is shown once: for the lists that the reader of the mesh leaves. *)
Theorem C85_cells_shown (a : input T) : NoDup (in_list a) -> (forall nm, In nm (in_map a) -> In nm (in_list a)) ->
  (Z.to_nat (ms_cells (in_mesh a)) <= length (in_map a))%nat ->
  Permutation (shown_cells a) (zrange 0 (ms_cells (in_mesh a))).
Proof.
  intros Hd Hl Hn. apply NoDup_Permutation.
  - unfold shown_cells. induction (in_list a) as [|item l IH]; [constructor|]. cbn [flat_map]. inversion Hd as [|? ? Hni Hd']; subst.
    assert (D : NoDup (zrange 0 (ms_cells (in_mesh a)))).
    { unfold zrange. apply FinFun.Injective_map_NoDup; [intros x y E; lia|apply seq_NoDup]. }
    assert (App : forall l1 l2 : list Z, NoDup l1 -> NoDup l2 -> (forall x, In x l1 -> In x l2 -> False) -> NoDup (l1 ++ l2)%list).
    { intros l1 l2 H1 H2. induction H1 as [|x l1 Hx H1 IH1]; intros Hf; [exact H2|]. cbn. constructor.
      - intros Hi. apply in_app_or in Hi. destruct Hi as [Hi | Hi]; [exact (Hx Hi)|]. apply (Hf x); [left; reflexivity|exact Hi].
      - apply IH1. intros y Hy. apply Hf. right. exact Hy. }
    clear Hl. apply App; [apply NoDup_filter; exact D|clear -Hd' D App; idtac|].
    + induction l as [|i2 l2 IH2]; [constructor|]. cbn [flat_map]. inversion Hd' as [|? ? Hn2 Hd2]; subst. apply App; [apply NoDup_filter, D|apply IH2, Hd2|].
      intros m H1 H2. apply filter_In in H1. destruct H1 as [_ H1]. apply in_flat_map in H2. destruct H2 as (y & Hy & H2). apply filter_In in H2. destruct H2 as [_ H2].
      destruct (nth_error (in_map a) (Z.to_nat m)) as [nm|]; [|discriminate H1]. apply String.eqb_eq in H1, H2. congruence.
    + intros m H1 H2. apply filter_In in H1. destruct H1 as [_ H1]. apply in_flat_map in H2. destruct H2 as (y & Hy & H2). apply filter_In in H2. destruct H2 as [_ H2].
      destruct (nth_error (in_map a) (Z.to_nat m)) as [nm|]; [|discriminate H1]. apply String.eqb_eq in H1, H2. congruence.
  - unfold zrange. apply FinFun.Injective_map_NoDup; [intros x y E; lia|apply seq_NoDup].
  - intros m. unfold shown_cells. rewrite in_flat_map. split; [intros (item & _ & Hm); apply filter_In in Hm; tauto|].
    intros Hm. pose proof Hm as Hm'. apply zrange_in in Hm'. destruct (nth_error (in_map a) (Z.to_nat m)) as [nm|] eqn:En.
    + exists nm. split; [apply Hl; exact (nth_error_In _ _ En)|]. apply filter_In. split; [exact Hm|]. rewrite En. apply String.eqb_refl.
    + apply nth_error_None in En. lia.
Qed.
End Any.
Print Assumptions C85_kinetics_echo.
Print Assumptions C85_heat_echo.
Print Assumptions C85_mesh_echo.
Print Assumptions C85_geometry_echo.
Print Assumptions C85_xs_echo.
Print Assumptions C85_matrix_echo.
Print Assumptions C85_conductivity_echo.
Print Assumptions C85_cells_shown.

Module Shown.
Definition fmt (q : Q) : string := to_string (Qnum q) ++ "/" ++ to_string (Zpos (Qden q)).
(* water in the first cell, fuel in the others *)
Definition slab : list string :=
  ["solvers diffusion"; "geometry slab"; "mesh 1 1.0 water 2 2.0 fuel";
   "solver diffusion"; "accuracy 0.001"; "max_iteration_number 10"; "albedo 0.0 0.0"; "energies 2"; "direction forward"; "eigenmodes fundamental";
   "material fuel"; "ni(1) 2.5"; "ni(2) 2.4"; "chi(1) 1.0"; "chi(2) 0.0"; "fission(1) 0.1"; "fission(2) 0.2 -0.001";
   "total(1) 0.3"; "total(2) 0.4"; "diffCoeff(1) 1.0"; "diffCoeff(2) 1.5";
   "scattMatrix(1, 1) 0.11"; "scattMatrix(1, 2) 0.12"; "scattMatrix(2, 1) 0.0"; "scattMatrix(2, 2) 0.22";
   "material water"; 
   "ni(1) 0.0"; "ni(2) 0.0"; "chi(1) 0.0"; "chi(2) 0.0"; "fission(1) 0.0"; "fission(2) 0.0";
   "total(1) 0.6"; "total(2) 0.7"; "diffCoeff(1) 0.5"; "diffCoeff(2) 0.4";
   "scattMatrix(1, 1) 0.31"; "scattMatrix(1, 2) 0.32"; "scattMatrix(2, 1) 0.01"; "scattMatrix(2, 2) 0.42"].
Definition start (ls : list string) : input Q :=
  match setGeometryKind (mkInput (Data.lines_of ls) newReactor [] [] [] []) with Ok a => a | _ => mkInput [] newReactor [] [] [] [] end.
Definition after_mesh (ls : list string) : res (input Q) := setMesh (355 # 113)%Q Files.stodQ (start ls).
End Shown.

Example C85_kinetics_met :
  Data.accepted Files.kinetics (fun inp => In KINETICS (map sd_kind (in_solvers inp)) /\
    kineticsEcho Files.stodQ Shown.fmt (Data.lines_of Files.kinetics) =
      Ok ["Mean generation time of the reactor [s]: 1/10000 "; "Initial power [W]: 1/10000 ";
          "Input delayed neutrons group decay constants [1/s]:"; "1/10"; " "; "Input delayed neutrons group fractions:"; "1/200"; " ";
          "Input times [s]:"; "0/1"; "1/1"; " "; "Input reactivities:"; "1/1000"; "1/1000"; " "]).
Proof. vm_compute. split; [left; reflexivity|reflexivity]. Qed.
Example C85_heat_met :
  Data.accepted Data.good (fun inp => In HEAT (map sd_kind (in_solvers inp)) /\ In DIFFUSION (map sd_kind (in_solvers inp)) /\
    powerEcho Files.stodQ Shown.fmt (Data.lines_of Data.good) = Ok ["Input thermal power [W]: 5/1 "] /\
    manyEcho Files.stodQ Shown.fmt (Data.lines_of Data.good) "temperatures" "Input temperatures [K]" =
      Ok ["Input temperatures [K]:"; "300/1"; "300/1"; "400/1"; " "]).
Proof. vm_compute. split; [right; left; reflexivity|]. split; [left; reflexivity|]. split; reflexivity. Qed.
Example C85_mesh_met :
  match Shown.after_mesh Shown.slab with
  | Ok b => geometryEcho (in_lines (Shown.start Shown.slab)) = Ok ["Geometry: Cartesian "] /\ in_map (Shown.start Shown.slab) = [] /\ in_map b = ["water"; "fuel"; "fuel"] /\
      meshEcho (355 # 113)%Q Files.stodQ Shown.fmt (Shown.start Shown.slab) =
        Ok ["Input boundaries [m]:"; "0/1"; "1/1"; "2/1"; "3/1"; " "; "Input volumes [m3]:"; "1/1"; "1/1"; "1/1"; " ";
            "Input meshes:"; "water fuel fuel "; "Mesh middle points [m]:"; "1/2"; "3/2"; "5/2"; " "]
  | _ => False
  end.
Proof. vm_compute. repeat split; reflexivity. Qed.

(* The line of the initial power shows the generation time. *)
Theorem C85_initial_power_refuted : exists ls lines inp rest,
  storeInput (Some (Files.text ls)) = Ok lines /\ Files.read ls = Ok inp /\ In KINETICS (map sd_kind (in_solvers inp)) /\
  ks_power (rx_kin (in_rx inp)) = 1%Q /\ Shown.fmt 1%Q = "1/1" /\
  kineticsEcho Files.stodQ Shown.fmt lines = Ok ("Mean generation time of the reactor [s]: 1/10000 " :: "Initial power [W]: 1/10000 " :: rest).
Proof.
  exists Files.kinetics, (Data.lines_of Files.kinetics), (Data.get Files.kinetics). eexists.
  split; [vm_compute; reflexivity|]. split; [vm_compute; reflexivity|]. split; [vm_compute; left; reflexivity|].
  split; [vm_compute; reflexivity|]. split; vm_compute; reflexivity.
Qed.

(* The material data are not shown in the order of the cells: with water in the
   first cell and fuel in the two others, the first lines are those of the fuel. *)
Theorem C85_cell_order_refuted : exists ls inp b, Files.read ls = Ok inp /\ setXS Files.stodQ "total" inp = Ok b /\
  NoDup (in_list inp) /\ (forall nm, In nm (in_map inp) -> In nm (in_list inp)) /\ (Z.to_nat (ms_cells (in_mesh inp)) <= length (in_map inp))%nat /\
  map mt_name (ms_mats (in_mesh inp)) = ["water"; "fuel"; "fuel"] /\
  map mt_totXS (ms_mats (in_mesh inp)) = [[[3 # 5]; [7 # 10]]; [[3 # 10]; [2 # 5]]; [[3 # 10]; [2 # 5]]]%Q /\
  shown_cells inp = [1; 2; 0] /\
  xsEcho Files.stodQ Shown.fmt "total" "Input total XS [1/cm]:" inp =
    Ok ["Input total XS [1/cm]:"; "3/10 "; "2/5 "; " "; "3/10 "; "2/5 "; " "; "3/5 "; "7/10 "; " "].
Proof.
  exists Shown.slab, (Data.get Shown.slab). eexists.
  split; [vm_compute; reflexivity|]. split; [vm_compute; reflexivity|].
  split; [vm_compute; repeat constructor; cbn; intuition discriminate|].
  split; [vm_compute; intuition|]. split; [vm_compute; repeat constructor|]. repeat (split; [vm_compute; reflexivity|]). vm_compute. reflexivity.
Qed.
Print Assumptions C85_initial_power_refuted.
Print Assumptions C85_cell_order_refuted.
Example C85_matrix_met :
  Data.accepted Data.good (fun inp => Files.is_ok (setMatrixXS Files.stodQ "scattMatrix" inp) = true /\ Files.is_ok (setMaterialProperties Files.stodQ inp) = true /\
    matrixEcho Files.stodQ Shown.fmt "scattMatrix" "t" inp =
      Ok ["t"; "11/100 "; "3/25 "; " "; "0/1 "; "11/50 "; " "; "11/100 "; "3/25 "; " "; "0/1 "; "11/50 "; " ";
          "31/100 "; "8/25 "; " "; "1/100 "; "21/50 "; " "] /\
    conductivityEcho Files.stodQ Shown.fmt inp = Ok ["Input thermal conductivity [W/(m*K)]:"; "10/1 1/2 "; "10/1 1/2 "; "3/5 "]).
Proof. vm_compute. repeat split; reflexivity. Qed.
