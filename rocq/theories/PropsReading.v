(* The log of a whole reading: C89. *)
From Coq Require Import String Ascii ZArith List Bool Lia Arith QArith.
From Verif Require Import Base BaseLemmas NumQ ModelNumTools ModelEigen ModelMesh ModelReactor ModelOutput ModelCalculation
  ModelText ModelInput ModelLog ModelEcho ProofsInput ProofsInputB ProofsInputC ProofsInputD ProofsInputE ProofsInputF
  ProofsInputG ProofsInputH ProofsInputI ProofsInputJ ProofsReport PropsInputB PropsInputC PropsInputD PropsEcho.
Import ListNotations.
Local Open Scope string_scope.
Local Open Scope Z_scope.

Section Any.
Context {T : Type} {N : Num T}.
Variable mpi : T.
Variable stod_opt : string -> option T.
Variable fmt : T -> string.
Notation kinds inp := (map sd_kind (in_solvers inp)).
Notation column title l := (title%string :: map fmt l ++ [" "])%list.
Notation shown_words := (shown_words stod_opt fmt).
Notation shows := (shows stod_opt fmt).

(* ---------- what the log should hold ---------- *)

(* the line of a property of a solver, ws being the words of its line of the file *)
Definition property_line (k : SolverKind) (ws : list string) : string :=
  get_solver_name k ++ " solver " ++ hd "" ws ++ ": " ++ String.concat " " (tl ws).
(* the geometry, the boundaries, the volumes, the cells and their middle points *)
Definition mesh_lines (inp : input T) (vol mid : vec T) : list string :=
  (match ms_geom (in_mesh inp) with
   | SLAB => "Geometry: Cartesian " | CYLINDER => "Geometry: Cylindrical " | SPHERE => "Geometry: Spherical " | GeomUNDEFINED => ""
   end :: column "Input boundaries [m]:" (list_of_vec (ms_bounds (in_mesh inp))) ++
   column "Input volumes [m3]:" (list_of_vec vol) ++
   "Input meshes:" :: shown_words (in_map inp) :: column "Mesh middle points [m]:" (list_of_vec mid))%list.
(* the cross sections of a solver and their titles *)
Definition xs_titles (k : SolverKind) : list (string * string) :=
  let common := [("ni", "Input ni:"); ("chi", "Input chi:"); ("fission", "Input fission XS [1/cm]:"); ("total", "Input total XS [1/cm]:")] in
  match k with
  | TRANSPORT => common
  | DIFFUSION | ADS => common ++ [("diffCoeff", "Input diffusion coefficients [cm]:")]
  | _ => []
  end%list.
Definition xs_key (name : string) (i : Z) : string := name ++ "(" ++ to_string i ++ ")".
Definition scatt_key (i j : Z) : string := "scattMatrix(" ++ to_string i ++ ", " ++ to_string j ++ ")".
Section Lines.
(* the texts shown for a key of a material: behind one word, behind two words *)
Variables row entry : string -> string -> string.
Definition xs_lines (inp : input T) (name title : string) : list string :=
  title :: flat_map (fun m => map (fun i => row (material_of inp m) (xs_key name i)) (zrange 1 (ms_groups (in_mesh inp) + 1)) ++ [" "])%list (shown_cells inp).
Definition scatt_lines (inp : input T) : list string :=
  "Input scattering matrix [1/cm]:" :: flat_map (fun m => flat_map (fun i =>
    map (fun j => entry (material_of inp m) (scatt_key i j)) (zrange 1 (ms_groups (in_mesh inp) + 1)) ++ [" "])%list
      (zrange 1 (ms_groups (in_mesh inp) + 1))) (shown_cells inp).
Definition cond_lines (inp : input T) : list string :=
  "Input thermal conductivity [W/(m*K)]:" :: map (fun m => row (material_of inp m) "thermal_conductivity") (shown_cells inp).
Definition kinetics_lines (inp : input T) : list string :=
  let k := rx_kin (in_rx inp) in
  (("Mean generation time of the reactor [s]: " ++ fmt (ks_alpha k) ++ " ")%string ::
      ("Initial power [W]: " ++ fmt (ks_alpha k) ++ " ")%string ::
      column "Input delayed neutrons group decay constants [1/s]:" (ks_lambda k) ++
      column "Input delayed neutrons group fractions:" (ks_beta k) ++
      column "Input times [s]:" (ks_times k) ++ column "Input reactivities:" (ks_reacts k))%list.
(* the lines of the data of a solver; heating is the power or the heat sources *)
Definition kind_lines (heating : list string) (temps : list T) (inp : input T) (k : SolverKind) : list string :=
  match k with
  | TRANSPORT | DIFFUSION | ADS => flat_map (fun p => xs_lines inp (fst p) (snd p)) (xs_titles k) ++ scatt_lines inp
  | KINETICS => kinetics_lines inp
  | HEAT => heating ++ cond_lines inp ++ column "Input temperatures [C]:" temps
  | SolUNDEFINED | COUPLED => []
  end%list.
End Lines.

(* ---------- the steps ---------- *)

Lemma noting_ok e f (a b : input T) log l : e a = Ok l -> f a = Ok b -> noting e f (a, log) = Ok (b, (log ++ l)%list).
Proof. intros H1 H2. unfold noting. rewrite H1. cbn [bind]. rewrite H2. reflexivity. Qed.

(* the texts themselves *)
Definition the_row (lines : list string) (mat key : string) : string :=
  text_of (lawLine stod_opt fmt lines (findBlock lines "material" mat) key 1).
Definition the_entry (lines : list string) (mat key : string) : string :=
  text_of (lawLine stod_opt fmt lines (findBlock lines "material" mat) key 2).
Definition the_words (lines : list string) (p : string) (k : SolverKind) : list string :=
  match propertyWords lines p k with Ok ws => ws | _ => [] end.

Lemma xs_echo (a b : input T) name title : setXS stod_opt name a = Ok b ->
  xsEcho stod_opt fmt name title a = Ok (xs_lines (the_row (in_lines a)) a name title) /\
  (forall m i, In m (shown_cells a) -> 1 <= i <= ms_groups (in_mesh a) ->
     shows (in_lines a) (material_of a m) (xs_key name i) 1 (the_row (in_lines a) (material_of a m) (xs_key name i))).
Proof.
  intros H. set (G := ms_groups (in_mesh a)).
  assert (P : forall item m s s',
    zfor 1 (G + 1) (fun i ms => readLaw stod_opt (in_lines a) (findBlock (in_lines a) "material" item) name (name ++ "(" ++ to_string i ++ ")") 1 m ms) s = Ok s' ->
    forall i, 1 <= i <= G -> lawLine stod_opt fmt (in_lines a) (findBlock (in_lines a) "material" item) (xs_key name i) 1 = Ok (the_row (in_lines a) item (xs_key name i))).
  { intros item m s s' Hz i Hi. destruct (zfor_each _ _ _ _ _ Hz i ltac:(lia)) as (x & y & E). exact (readLaw_line _ _ _ _ _ _ _ _ _ _ E). }
  split.
  - unfold xsEcho. rewrite (materials_echo a b _ _ (fun item => map (fun i => the_row (in_lines a) item (xs_key name i)) (zrange 1 (G + 1)) ++ [" "])%list H); [reflexivity|].
    intros item m ms ms' _ _ _ Hz. fold G.
    rewrite (zfor_shows _ (fun i => [the_row (in_lines a) item (xs_key name i)])).
    + cbn [bind app]. rewrite flat_map_one. reflexivity.
    + intros i e Hi. change (name ++ "(" ++ to_string i ++ ")")%string with (xs_key name i). rewrite (P _ _ _ _ Hz i ltac:(lia)). reflexivity.
  - intros m i Hm Hi. destruct (cells_read a b _ m H Hm) as (s & s' & E). apply lawLine_shows. exact (P _ _ _ _ E i Hi).
Qed.
Lemma matrix_echo (a b : input T) : setMatrixXS stod_opt "scattMatrix" a = Ok b ->
  matrixEcho stod_opt fmt "scattMatrix" "Input scattering matrix [1/cm]:" a = Ok (scatt_lines (the_entry (in_lines a)) a) /\
  (forall m i j, In m (shown_cells a) -> 1 <= i <= ms_groups (in_mesh a) -> 1 <= j <= ms_groups (in_mesh a) ->
     shows (in_lines a) (material_of a m) (scatt_key i j) 2 (the_entry (in_lines a) (material_of a m) (scatt_key i j))).
Proof.
  intros H. set (G := ms_groups (in_mesh a)).
  assert (P : forall item m s s',
    zfor 1 (G + 1) (fun i ms => zfor 1 (G + 1) (fun j ms =>
      readLaw stod_opt (in_lines a) (findBlock (in_lines a) "material" item) "scattMatrix" ("scattMatrix" ++ "(" ++ to_string i ++ ", " ++ to_string j ++ ")") 2 m ms) ms) s = Ok s' ->
    forall i j, 1 <= i <= G -> 1 <= j <= G ->
      lawLine stod_opt fmt (in_lines a) (findBlock (in_lines a) "material" item) (scatt_key i j) 2 = Ok (the_entry (in_lines a) item (scatt_key i j))).
  { intros item m s s' Hz i j Hi Hj. destruct (zfor_each _ _ _ _ _ Hz i ltac:(lia)) as (x & y & E).
    destruct (zfor_each _ _ _ _ _ E j ltac:(lia)) as (x' & y' & E'). exact (readLaw_line _ _ _ _ _ _ _ _ _ _ E'). }
  split.
  - unfold matrixEcho.
    rewrite (materials_echo a b _ _ (fun item => flat_map (fun i => map (fun j => the_entry (in_lines a) item (scatt_key i j)) (zrange 1 (G + 1)) ++ [" "]) (zrange 1 (G + 1)))%list H); [reflexivity|].
    intros item m ms ms' _ _ _ Hz. fold G.
    rewrite (zfor_shows _ (fun i => map (fun j => the_entry (in_lines a) item (scatt_key i j)) (zrange 1 (G + 1)) ++ [" "])%list); [reflexivity|].
    intros i e Hi. rewrite (zfor_shows _ (fun j => [the_entry (in_lines a) item (scatt_key i j)])).
    + cbn [bind]. rewrite flat_map_one, app_assoc. reflexivity.
    + intros j e' Hj. change ("scattMatrix" ++ "(" ++ to_string i ++ ", " ++ to_string j ++ ")")%string with (scatt_key i j).
      rewrite (P _ _ _ _ Hz i j ltac:(lia) ltac:(lia)). reflexivity.
  - intros m i j Hm Hi Hj. destruct (cells_read a b _ m H Hm) as (s & s' & E). apply lawLine_shows. exact (P _ _ _ _ E i j Hi Hj).
Qed.
Lemma cond_echo (a b : input T) : setMaterialProperties stod_opt a = Ok b ->
  conductivityEcho stod_opt fmt a = Ok (cond_lines (the_row (in_lines a)) a) /\
  (forall m, In m (shown_cells a) -> shows (in_lines a) (material_of a m) "thermal_conductivity" 1 (the_row (in_lines a) (material_of a m) "thermal_conductivity")).
Proof.
  intros H.
  assert (P : forall item m s s', (l <- findKeyword (in_lines a) "thermal_conductivity" (fst (findBlock (in_lines a) "material" item)) (snd (findBlock (in_lines a) "material" item)) false ;;
      setThermalConductivity stod_opt (splitLine l) m s) = Ok s' ->
      lawLine stod_opt fmt (in_lines a) (findBlock (in_lines a) "material" item) "thermal_conductivity" 1 = Ok (the_row (in_lines a) item "thermal_conductivity")).
  { intros item m s s' Hz. unfold the_row, lawLine. apply bind_ok_inv in Hz. destruct Hz as (l & Hl & Hz). rewrite Hl. cbn [bind].
    unfold setThermalConductivity in Hz. destruct (splitLine l) as [|w [|w' ws]]; try discriminate Hz. destruct (Z.ltb _ _); [|discriminate Hz].
    apply bind_ok_inv in Hz. destruct Hz as (mt & _ & Hz). apply bind_ok_inv in Hz. destruct Hz as (c & _ & Hz).
    apply bind_ok_inv in Hz. destruct Hz as (mats & _ & Hz). apply bind_ok_inv in Hz. destruct Hz as ([] & Hp & _).
    cbn [words_from bind]. rewrite (wordsLine_ok _ fmt _ Hp). reflexivity. }
  split.
  - unfold conductivityEcho. rewrite (materials_echo a b _ _ (fun item => [the_row (in_lines a) item "thermal_conductivity"]) H); [cbn [bind]; rewrite flat_map_one; reflexivity|].
    intros item m ms ms' _ _ _ Hz. rewrite (P _ _ _ _ Hz). reflexivity.
  - intros m Hm. destruct (cells_read a b _ m H Hm) as (s & s' & E). apply lawLine_shows. exact (P _ _ _ _ E).
Qed.

(* one property of every solver *)
Lemma property_words_count k ws s r s' r' : applyProperty stod_opt k ws s r = Ok (s', r') -> In (length ws) [2; 3; 4; 7]%nat.
Proof.
  unfold applyProperty. cbv zeta. intros H. destruct ws as [|a [|b [|c [|d [|e [|f [|g [|h l]]]]]]]]; try discriminate H; cbn; auto.
Qed.
Lemma propertyEcho_line k ws : In (length ws) [2; 3; 4; 7]%nat -> propertyEcho k ws = Ok [property_line k ws].
Proof.
  intros H. destruct ws as [|a [|b [|c [|d [|e [|f [|g [|h l]]]]]]]]; cbn in H; try (exfalso; lia); reflexivity.
Qed.
Definition properties_lines (lines : list string) (ks : list SolverKind) (p : string * SolverKind) : list string :=
  flat_map (fun k => if (kind_eqb (snd p) SolUNDEFINED || kind_eqb k (snd p))%bool then [property_line k (the_words lines (fst p) k)] else []) ks.
Lemma properties_echo (a b : input T) p k : setSolverProperties stod_opt p k a = Ok b ->
  propertiesEcho p k a = Ok (properties_lines (in_lines a) (kinds a) (p, k)) /\
  (forall k', In k' (kinds a) -> k = SolUNDEFINED \/ k = k' ->
     propertyWords (in_lines a) p k' = Ok (the_words (in_lines a) p k') /\ In (length (the_words (in_lines a) p k')) [2; 3; 4; 7]%nat).
Proof.
  intros H. apply setSolverProperties_spec in H. destruct H as (_ & _ & _ & _ & _ & _ & H).
  unfold propertiesEcho, properties_lines. cbn [fst snd].
  assert (G : forall s s', property_step stod_opt (in_lines a) p k (ms_geom (in_mesh a)) s s' -> selected k s = true ->
    propertyWords (in_lines a) p (sd_kind s) = Ok (the_words (in_lines a) p (sd_kind s)) /\ In (length (the_words (in_lines a) p (sd_kind s))) [2; 3; 4; 7]%nat).
  { intros s s' [[E _]|(_ & ws & r1 & r2 & W & A & _)] S; [rewrite E in S; discriminate S|]. unfold the_words. rewrite W.
    split; [reflexivity|]. exact (property_words_count _ _ _ _ _ _ A). }
  split.
  - revert H. generalize (in_solvers b). generalize (in_solvers a). intros l l' F.
    assert (E : forall e, foreach l (fun s l => if (kind_eqb k SolUNDEFINED || kind_eqb (sd_kind s) k)%bool
       then values <- propertyWords (in_lines a) p (sd_kind s) ;; e <- propertyEcho (sd_kind s) values ;; Ok (l ++ e)%list else Ok l) e =
      Ok (e ++ flat_map (fun k0 => if (kind_eqb k SolUNDEFINED || kind_eqb k0 k)%bool then [property_line k0 (the_words (in_lines a) p k0)] else []) (map sd_kind l))%list);
      [|exact (E [])].
    induction F as [|s s' l l' St _ IH]; intros e; [cbn; rewrite app_nil_r; reflexivity|]. cbn [foreach map flat_map].
    destruct (kind_eqb k SolUNDEFINED || kind_eqb (sd_kind s) k)%bool eqn:S.
    + destruct (G s s' St S) as [W L]. rewrite W. cbn [bind]. rewrite (propertyEcho_line _ _ L). cbn [bind]. rewrite app_assoc. apply IH.
    + cbn [bind app]. apply IH.
  - intros k' Hk Hs. apply in_map_iff in Hk. destruct Hk as (s & <- & Hk).
    assert (S : selected k s = true) by (unfold selected; apply orb_true_iff; destruct Hs as [-> | ->]; [left; reflexivity|right; apply kind_eqb_eq; reflexivity]).
    revert Hk. induction H as [|s0 s0' l l' St _ IH]; intros Hk; [contradiction|]. destruct Hk as [<-|Hk]; [exact (G _ _ St S)|exact (IH Hk)].
Qed.

(* what stays while the data are read *)
Definition still (a b : input T) : Prop :=
  in_lines b = in_lines a /\ in_map b = in_map a /\ in_list b = in_list a /\ in_solvers b = in_solvers a /\
  ms_cells (in_mesh b) = ms_cells (in_mesh a) /\ ms_groups (in_mesh b) = ms_groups (in_mesh a).
Lemma still_refl a : still a a.
Proof. repeat split. Qed.
Lemma still_trans a b c : still a b -> still b c -> still a c.
Proof. intros (A1 & A2 & A3 & A4 & A5 & A6) (B1 & B2 & B3 & B4 & B5 & B6). repeat split; etransitivity; eassumption. Qed.
Lemma put_still a (b : input T) : (exists ms, b = put_mesh ms a /\ mats_rel (fun _ _ => True) (in_mesh a) ms) -> still a b.
Proof.
  intros (ms & -> & [(M1 & M2 & M3 & M4 & _) _]). repeat split; assumption.
Qed.
Lemma still_xs row a b name title : still a b -> xs_lines row b name title = xs_lines row a name title.
Proof. intros (A1 & A2 & A3 & A4 & A5 & A6). unfold xs_lines, shown_cells, material_of. rewrite A2, A3, A5, A6. reflexivity. Qed.
Lemma still_scatt entry a b : still a b -> scatt_lines entry b = scatt_lines entry a.
Proof. intros (A1 & A2 & A3 & A4 & A5 & A6). unfold scatt_lines, shown_cells, material_of. rewrite A2, A3, A5, A6. reflexivity. Qed.
Lemma still_cond row a b : still a b -> cond_lines row b = cond_lines row a.
Proof. intros (A1 & A2 & A3 & A4 & A5 & A6). unfold cond_lines, shown_cells, material_of. rewrite A2, A3, A5. reflexivity. Qed.

(* the data of one solver, read at a, with the lines of the data as at c *)
Definition heatingEcho (inp : input T) : res (list string) :=
  if (isElementHere (in_solvers inp) TRANSPORT || isElementHere (in_solvers inp) DIFFUSION)%bool
  then powerEcho stod_opt fmt (in_lines inp)
  else manyEcho stod_opt fmt (in_lines inp) "heat_sources" "Input heat_source densities [W/m3]".
Definition shown_data (c : input T) (k : SolverKind) : Prop :=
  let lines := in_lines c in let G := ms_groups (in_mesh c) in
  (forall name title m i, In (name, title) (xs_titles k) -> In m (shown_cells c) -> 1 <= i <= G ->
     shows lines (material_of c m) (xs_key name i) 1 (the_row lines (material_of c m) (xs_key name i))) /\
  (In k [TRANSPORT; DIFFUSION; ADS] -> forall m i j, In m (shown_cells c) -> 1 <= i <= G -> 1 <= j <= G ->
     shows lines (material_of c m) (scatt_key i j) 2 (the_entry lines (material_of c m) (scatt_key i j))) /\
  (k = HEAT -> forall m, In m (shown_cells c) ->
     shows lines (material_of c m) "thermal_conductivity" 1 (the_row lines (material_of c m) "thermal_conductivity")).
Definition data_at (heating : list string) (temps : list T) (K : list string) (c : input T) (k : SolverKind) : list string :=
  match k with
  | KINETICS => K
  | _ => kind_lines (the_row (in_lines c)) (the_entry (in_lines c)) heating temps c k
  end.

Lemma xs_step (c a b : input T) name title log : still c a -> setXS stod_opt name a = Ok b ->
  notingXS stod_opt fmt name title (a, log) = Ok (b, (log ++ xs_lines (the_row (in_lines c)) c name title)%list) /\ still c b /\
  (forall m i, In m (shown_cells c) -> 1 <= i <= ms_groups (in_mesh c) ->
     shows (in_lines c) (material_of c m) (xs_key name i) 1 (the_row (in_lines c) (material_of c m) (xs_key name i))).
Proof.
  intros S H. destruct (xs_echo a b name title H) as [E1 E2].
  assert (S' : still a b) by (apply put_still; apply (setXS_rel stod_opt (fun _ _ => True) (fun _ => I) (fun _ _ _ _ _ => I) name); auto).
  split; [|split; [exact (still_trans _ _ _ S S')|]].
  - unfold notingXS. rewrite (noting_ok _ _ a b log _ E1 H). rewrite (still_xs _ c a name title S). destruct S as (-> & _). reflexivity.
  - intros m i Hm Hi. destruct S as (S1 & S2 & S3 & S4 & S5 & S6). rewrite S1, S6 in E2. unfold shown_cells, material_of in *. rewrite S2, S3, S5 in E2. exact (E2 m i Hm Hi).
Qed.
Lemma scatt_step (c a b : input T) log : still c a -> setMatrixXS stod_opt "scattMatrix" a = Ok b ->
  notingMatrix stod_opt fmt "scattMatrix" "Input scattering matrix [1/cm]:" (a, log) = Ok (b, (log ++ scatt_lines (the_entry (in_lines c)) c)%list) /\ still c b /\
  (forall m i j, In m (shown_cells c) -> 1 <= i <= ms_groups (in_mesh c) -> 1 <= j <= ms_groups (in_mesh c) ->
     shows (in_lines c) (material_of c m) (scatt_key i j) 2 (the_entry (in_lines c) (material_of c m) (scatt_key i j))).
Proof.
  intros S H. destruct (matrix_echo a b H) as [E1 E2].
  assert (S' : still a b) by (apply put_still; apply (setMatrixXS_rel stod_opt (fun _ _ => True) (fun _ => I) (fun _ _ _ _ _ => I) "scattMatrix"); auto).
  split; [|split; [exact (still_trans _ _ _ S S')|]].
  - unfold notingMatrix. rewrite (noting_ok _ _ a b log _ E1 H). rewrite (still_scatt _ c a S). destruct S as (-> & _). reflexivity.
  - intros m i j Hm Hi Hj. destruct S as (S1 & S2 & S3 & S4 & S5 & S6). rewrite S1, S6 in E2. unfold shown_cells, material_of in *. rewrite S2, S3, S5 in E2. exact (E2 m i j Hm Hi Hj).
Qed.
Lemma cond_step (c a b : input T) log : still c a -> setMaterialProperties stod_opt a = Ok b ->
  noting (conductivityEcho stod_opt fmt) (setMaterialProperties stod_opt) (a, log) = Ok (b, (log ++ cond_lines (the_row (in_lines c)) c)%list) /\ still c b /\
  (forall m, In m (shown_cells c) -> shows (in_lines c) (material_of c m) "thermal_conductivity" 1 (the_row (in_lines c) (material_of c m) "thermal_conductivity")).
Proof.
  intros S H. destruct (cond_echo a b H) as [E1 E2].
  assert (S' : still a b) by (apply put_still; apply (setMaterialProperties_rel stod_opt (fun _ _ => True) (fun _ => I) (fun _ _ _ _ _ => I)); auto).
  split; [|split; [exact (still_trans _ _ _ S S')|]].
  - rewrite (noting_ok _ _ a b log _ E1 H). rewrite (still_cond _ c a S). destruct S as (-> & _). reflexivity.
  - intros m Hm. destruct S as (S1 & S2 & S3 & S4 & S5 & S6). rewrite S1 in E2. unfold shown_cells, material_of in *. rewrite S2, S3, S5 in E2. exact (E2 m Hm).
Qed.

Lemma common_step (c a b : input T) log : still c a ->
  (inp <- setXS stod_opt "ni" a ;; inp <- setXS stod_opt "chi" inp ;; inp <- setXS stod_opt "fission" inp ;; setXS stod_opt "total" inp) = Ok b ->
  let put := fun p => xs_lines (the_row (in_lines c)) c (fst p) (snd p) in
  (forall k, (st <- notingXS stod_opt fmt "ni" "Input ni:" (a, log) ;; st <- notingXS stod_opt fmt "chi" "Input chi:" st ;;
   st <- notingXS stod_opt fmt "fission" "Input fission XS [1/cm]:" st ;; st <- notingXS stod_opt fmt "total" "Input total XS [1/cm]:" st ;; k st) =
   k (b, (log ++ flat_map put (xs_titles TRANSPORT))%list) :> res (input T * list string)) /\ still c b /\
  (forall name title m i, In (name, title) (xs_titles TRANSPORT) -> In m (shown_cells c) -> 1 <= i <= ms_groups (in_mesh c) ->
     shows (in_lines c) (material_of c m) (xs_key name i) 1 (the_row (in_lines c) (material_of c m) (xs_key name i))).
Proof.
  intros S H put. apply bind_ok_inv in H. destruct H as (a1 & H1 & H). apply bind_ok_inv in H. destruct H as (a2 & H2 & H).
  apply bind_ok_inv in H. destruct H as (a3 & H3 & H4).
  destruct (xs_step c a a1 "ni" "Input ni:" log S H1) as (E1 & S1 & W1).
  destruct (xs_step c a1 a2 "chi" "Input chi:" (log ++ put ("ni", "Input ni:"))%list S1 H2) as (E2 & S2 & W2).
  destruct (xs_step c a2 a3 "fission" "Input fission XS [1/cm]:" ((log ++ put ("ni", "Input ni:")) ++ put ("chi", "Input chi:"))%list S2 H3) as (E3 & S3 & W3).
  destruct (xs_step c a3 b "total" "Input total XS [1/cm]:" (((log ++ put ("ni", "Input ni:")) ++ put ("chi", "Input chi:")) ++ put ("fission", "Input fission XS [1/cm]:"))%list S3 H4) as (E4 & S4 & W4).
  split; [|split; [exact S4|]].
  - intros k. rewrite E1. cbn [bind]. unfold put in E2. cbn [fst snd] in E2. rewrite E2. cbn [bind]. unfold put in E3. cbn [fst snd] in E3. rewrite E3. cbn [bind].
    unfold put in E4. cbn [fst snd] in E4. rewrite E4. cbn [bind xs_titles flat_map]. unfold put. cbn [fst snd]. rewrite app_nil_r, <- !app_assoc. reflexivity.
  - intros name title m i Hin. cbn in Hin. destruct Hin as [E|[E|[E|[E|[]]]]]; injection E as <- <-; auto.
Qed.

Lemma data_step heating temps K (c a b : input T) k log : still c a -> readSolverInput stod_opt a k = Ok b ->
  (k = KINETICS -> kineticsEcho stod_opt fmt (in_lines c) = Ok K) ->
  (k = HEAT -> heatingEcho c = Ok heating /\
     manyEcho stod_opt fmt (in_lines c) "temperatures" "Input temperatures [C]" = Ok (column "Input temperatures [C]:" temps)) ->
  readSolverLog stod_opt fmt k (a, log) = Ok (b, (log ++ data_at heating temps K c k)%list) /\ still c b /\ shown_data c k.
Proof.
  intros S H HK HH.
  assert (X : forall k, In k [DIFFUSION; ADS] -> setMaterials stod_opt k a = Ok b ->
    materialsLog stod_opt fmt k (a, log) = Ok (b, (log ++ kind_lines (the_row (in_lines c)) (the_entry (in_lines c)) heating temps c k)%list) /\ still c b /\ shown_data c k).
  { intros k' Hk' H'.
    assert (M : (inp <- setXS stod_opt "ni" a ;; inp <- setXS stod_opt "chi" inp ;; inp <- setXS stod_opt "fission" inp ;; inp <- setXS stod_opt "total" inp ;;
      inp <- setXS stod_opt "diffCoeff" inp ;; setMatrixXS stod_opt "scattMatrix" inp) = Ok b) by (cbn in Hk'; destruct Hk' as [<-|[<-|[]]]; exact H').
    apply bind_ok_inv in M. destruct M as (a1 & M1 & M). apply bind_ok_inv in M. destruct M as (a2 & M2 & M).
    apply bind_ok_inv in M. destruct M as (a3 & M3 & M). apply bind_ok_inv in M. destruct M as (a4 & M4 & M).
    apply bind_ok_inv in M. destruct M as (a5 & M5 & M6).
    assert (M' : (inp <- setXS stod_opt "ni" a ;; inp <- setXS stod_opt "chi" inp ;; inp <- setXS stod_opt "fission" inp ;; setXS stod_opt "total" inp) = Ok a4)
      by (rewrite M1; cbn [bind]; rewrite M2; cbn [bind]; rewrite M3; cbn [bind]; exact M4).
    destruct (common_step c a a4 log S M') as (E1 & S1 & W1).
    set (l1 := (log ++ flat_map (fun p => xs_lines (the_row (in_lines c)) c (fst p) (snd p)) (xs_titles TRANSPORT))%list) in *.
    destruct (xs_step c a4 a5 "diffCoeff" "Input diffusion coefficients [cm]:" l1 S1 M5) as (E2 & S2 & W2).
    destruct (scatt_step c a5 b (l1 ++ xs_lines (the_row (in_lines c)) c "diffCoeff" "Input diffusion coefficients [cm]:")%list S2 M6) as (E3 & S3 & W3).
    assert (E : materialsLog stod_opt fmt k' (a, log) = Ok (b, ((l1 ++ xs_lines (the_row (in_lines c)) c "diffCoeff" "Input diffusion coefficients [cm]:") ++ scatt_lines (the_entry (in_lines c)) c)%list)).
    { transitivity (st <- notingXS stod_opt fmt "diffCoeff" "Input diffusion coefficients [cm]:" (a4, l1) ;;
        notingMatrix stod_opt fmt "scattMatrix" "Input scattering matrix [1/cm]:" st).
      - rewrite <- (E1 (fun st => st <- notingXS stod_opt fmt "diffCoeff" "Input diffusion coefficients [cm]:" st ;;
          notingMatrix stod_opt fmt "scattMatrix" "Input scattering matrix [1/cm]:" st)). cbn in Hk'. destruct Hk' as [<-|[<-|[]]]; reflexivity.
      - rewrite E2. cbn [bind]. exact E3. }
    assert (Ek : k' = DIFFUSION \/ k' = ADS) by (cbn in Hk'; destruct Hk' as [<-|[<-|[]]]; auto).
    split; [|split; [exact S3|split; [|split]]].
    - rewrite E. unfold l1. cbn in Ek. f_equal. f_equal. destruct Ek as [-> | ->]; cbn [kind_lines]; unfold xs_titles; rewrite flat_map_app; cbn [flat_map fst snd];
        rewrite ?app_nil_r, <- ?app_assoc; cbn [app]; rewrite <- ?app_assoc; reflexivity.
    - intros name title m i Hin. assert (Hin' : In (name, title) (xs_titles TRANSPORT) \/ name = "diffCoeff").
      { destruct Ek as [-> | ->]; cbn in Hin |- *; destruct Hin as [Hin|[Hin|[Hin|[Hin|[Hin|[]]]]]]; auto 7; injection Hin as <- _; auto. }
      destruct Hin' as [Hin'|Ed]; [exact (W1 name title m i Hin')|rewrite Ed; auto].
    - intros _. exact W3.
    - intros E'. destruct Ek as [-> | ->]; discriminate E'. }
  destruct k; cbn [readSolverInput readSolverLog data_at] in *.
  - injection H as <-. rewrite app_nil_r. split; [reflexivity|]. split; [exact S|]. split; [intros ? ? ? ? []|]. split; [intros [F|[F|[F|[]]]]; discriminate F|discriminate].
  - injection H as <-. rewrite app_nil_r. split; [reflexivity|]. split; [exact S|]. split; [intros ? ? ? ? []|]. split; [intros [F|[F|[F|[]]]]; discriminate F|discriminate].
  - cbn [setMaterials materialsLog] in *. clear X.
    apply bind_ok_inv in H. destruct H as (a1 & M1 & H). apply bind_ok_inv in H. destruct H as (a2 & M2 & H).
    apply bind_ok_inv in H. destruct H as (a3 & M3 & H). apply bind_ok_inv in H. destruct H as (a4 & M4 & M6).
    assert (M' : (inp <- setXS stod_opt "ni" a ;; inp <- setXS stod_opt "chi" inp ;; inp <- setXS stod_opt "fission" inp ;; setXS stod_opt "total" inp) = Ok a4)
      by (rewrite M1; cbn [bind]; rewrite M2; cbn [bind]; rewrite M3; cbn [bind]; exact M4).
    destruct (common_step c a a4 log S M') as (E1 & S1 & W1).
    set (l1 := (log ++ flat_map (fun p => xs_lines (the_row (in_lines c)) c (fst p) (snd p)) (xs_titles TRANSPORT))%list) in *.
    destruct (scatt_step c a4 b l1 S1 M6) as (E3 & S3 & W3).
    split; [|split; [exact S3|split; [exact W1|split; [intros _; exact W3|discriminate]]]].
    rewrite E1, E3. unfold l1. cbn [kind_lines]. rewrite <- app_assoc. reflexivity.
  - assert (S' : still a b).
    { unfold setKineticsParameters in H. repeat (apply bind_ok_inv in H; let x := fresh "x" in destruct H as (x & _ & H)).
      destruct (_ =? _); [|discriminate H]. injection H as <-. repeat split. }
    split; [|split; [exact (still_trans _ _ _ S S')|split; [intros ? ? ? ? []|split; [intros [F|[F|[F|[]]]]; discriminate F|discriminate]]]].
    apply noting_ok; [|exact H]. destruct S as (-> & _). exact (HK eq_refl).
  - clear X. destruct (HH eq_refl) as [H1' H3']. apply bind_ok_inv in H. destruct H as (a1 & H1 & H). apply bind_ok_inv in H. destruct H as (a2 & H2 & H3).
    assert (St : still a a1).
    { destruct (_ || _)%bool.
      - unfold setThermalPower in H1. apply bind_ok_inv in H1. destruct H1 as (w & _ & H1). apply bind_ok_inv in H1. destruct H1 as (p & _ & H1). injection H1 as <-. repeat split.
      - apply put_still. apply (setHeatSources_rel stod_opt (fun _ _ => True)) in H1; auto. }
    destruct (cond_step c a1 a2 (log ++ heating)%list (still_trans _ _ _ S St) H2) as (E2 & S2 & W2).
    assert (S3 : still a2 b) by (apply put_still; apply (setTemperatures_rel stod_opt (fun _ _ => True)) in H3; auto).
    split; [|split; [exact (still_trans _ _ _ S2 S3)|split; [intros ? ? ? ? []|split; [intros [F|[F|[F|[]]]]; discriminate F|intros _; exact W2]]]].
    assert (L1 : (if (isElementHere (in_solvers a) TRANSPORT || isElementHere (in_solvers a) DIFFUSION)%bool
       then noting (fun inp => powerEcho stod_opt fmt (in_lines inp)) (setThermalPower stod_opt) (a, log)
       else noting (fun inp => manyEcho stod_opt fmt (in_lines inp) "heat_sources" "Input heat_source densities [W/m3]") (setHeatSources stod_opt) (a, log)) = Ok (a1, (log ++ heating)%list)).
    { destruct S as (Sl & _ & _ & Ss & _). unfold heatingEcho in H1'. rewrite <- Sl, <- Ss in H1'. destruct (_ || _)%bool; apply noting_ok; assumption. }
    cbn [fst]. rewrite L1. cbn [bind materialsLog]. rewrite E2. cbn [bind].
    rewrite (noting_ok _ _ a2 b _ (column "Input temperatures [C]:" temps)); [|destruct S2 as (-> & _); exact H3'|exact H3].
    cbn [kind_lines]. rewrite <- !app_assoc. reflexivity.
  - exact (X DIFFUSION ltac:(cbn; auto) H).
  - exact (X ADS ltac:(cbn; auto) H).
Qed.

Lemma data_steps heating temps K (c : input T) (l : list (solverData T)) : forall a b log, still c a ->
  foreach l (fun s inp => readSolverInput stod_opt inp (sd_kind s)) a = Ok b ->
  (In KINETICS (map sd_kind l) -> kineticsEcho stod_opt fmt (in_lines c) = Ok K) ->
  (In HEAT (map sd_kind l) -> heatingEcho c = Ok heating /\
     manyEcho stod_opt fmt (in_lines c) "temperatures" "Input temperatures [C]" = Ok (column "Input temperatures [C]:" temps)) ->
  foreach l (fun s st => readSolverLog stod_opt fmt (sd_kind s) st) (a, log) = Ok (b, (log ++ flat_map (data_at heating temps K c) (map sd_kind l))%list) /\
  still c b /\ (forall k, In k (map sd_kind l) -> shown_data c k).
Proof.
  induction l as [|s l IH]; intros a b log S H HK HH.
  - cbn in *. injection H as <-. rewrite app_nil_r. split; [reflexivity|]. split; [exact S|]. intros k [].
  - cbn [foreach map flat_map] in *. apply bind_ok_inv in H. destruct H as (a1 & H1 & H).
    destruct (data_step heating temps K c a a1 (sd_kind s) log S H1) as (E1 & S1 & W1); [intros E; apply HK; left; exact E|intros E; apply HH; left; exact E|].
    destruct (IH a1 b (log ++ data_at heating temps K c (sd_kind s))%list S1 H) as (E2 & S2 & W2); [intros E; apply HK; right; exact E|intros E; apply HH; right; exact E|].
    rewrite E1. cbn [bind]. rewrite E2, <- app_assoc. split; [reflexivity|]. split; [exact S2|].
    intros k [<-|Hk]; [exact W1|exact (W2 k Hk)].
Qed.

(* ---------- the whole log ---------- *)

Definition spaced (ws : list string) : string := fold_left (fun t w => (t ++ w ++ " ")%string) ws "".
Lemma solvers_echo (a b : input T) : setSolvers a = Ok b -> exists ws, readManyParameters (in_lines a) "solvers" false = Ok ws /\
  requested ws (kinds b) /\ solversEcho (T := T) (in_lines a) = Ok ["Solvers: " ++ spaced ws] /\ b = with_solvers (in_solvers b) a.
Proof.
  intros H. destruct (setSolvers_spec a b H) as (ws & ks & Hw & Hr & ->). exists ws.
  cbn [in_solvers with_solvers]. rewrite map_map. cbn [newSolverData sd_kind]. rewrite map_id. split; [exact Hw|]. split; [exact Hr|].
  split; [|reflexivity]. unfold solversEcho. rewrite Hw. cbn [bind]. destruct Hr as (named & F & _). unfold spaced.
  assert (E : forall t, foreach ws (fun w t => solver_of_word (T := T) w ;;; Ok (t ++ w ++ " ")) t = Ok (fold_left (fun t w => (t ++ w ++ " ")%string) ws t));
    [|rewrite E; reflexivity].
  clear -F. induction F as [|w k ws named Hk _ IH]; intros t; [reflexivity|]. cbn [foreach fold_left]. rewrite (solver_of_word_known _ _ Hk). cbn [bind]. apply IH.
Qed.

Lemma property_stage lines ks p k (a b : input T) log : setSolverProperties stod_opt p k a = Ok b -> in_lines a = lines -> kinds a = ks ->
  notingProperties stod_opt p k (a, log) = Ok (b, (log ++ properties_lines lines ks (p, k))%list) /\ in_lines b = lines /\ kinds b = ks.
Proof.
  intros H <- <-. destruct (properties_echo a b p k H) as [E _]. split; [exact (noting_ok _ _ a b log _ E H)|].
  apply setSolverProperties_spec in H. destruct H as (L & _ & _ & _ & _ & _ & F). split; [exact L|]. exact (property_steps_kinds _ _ _ _ _ _ _ F).
Qed.
Lemma same_mesh_lines (a b : mesh T) : ms_bounds a = ms_bounds b -> ms_geom a = ms_geom b ->
  getVolumes mpi a "m" = getVolumes mpi b "m" /\ getMeshMiddlePoints a = getMeshMiddlePoints b.
Proof. intros H1 H2. unfold getVolumes, getMeshMiddlePoints. rewrite H1, H2. auto. Qed.

Definition meshed (ks : list SolverKind) : Prop := exists k, In k [TRANSPORT; DIFFUSION; ADS; HEAT] /\ In k ks.
(* the stages with their logs *)
Lemma log_stages (a0 inp : input T) : readLines mpi stod_opt a0 = Ok inp -> in_map a0 = [] ->
  exists ws a b c d l mesh,
    setSolvers a0 = Ok a /\ readManyParameters (in_lines a0) "solvers" false = Ok ws /\ requested ws (kinds a) /\
    properties (kinds a) l /\ chain stod_opt l b c /\ in_lines b = in_lines a0 /\ kinds b = kinds a /\
    in_lines c = in_lines a0 /\ kinds c = kinds a /\
    (meshed (kinds a) -> exists vol mid, getVolumes mpi (in_mesh b) "m" = Ok vol /\ getMeshMiddlePoints (in_mesh b) = Ok mid /\ mesh = mesh_lines b vol mid) /\
    (~ meshed (kinds a) -> mesh = []) /\
    foreach (in_solvers c) (fun s inp => readSolverInput stod_opt inp (sd_kind s)) c = Ok d /\ setPlots d = Ok inp /\
    forall data, foreach (in_solvers c) (fun s st => readSolverLog stod_opt fmt (sd_kind s) st)
        (c, ("Solvers: " ++ spaced ws)%string :: mesh ++ flat_map (properties_lines (in_lines a0) (kinds a)) l)%list =
        Ok (d, (("Solvers: " ++ spaced ws)%string :: mesh ++ flat_map (properties_lines (in_lines a0) (kinds a)) l) ++ data)%list ->
      readLinesLog mpi stod_opt fmt (a0, []) = Ok (inp, (("Solvers: " ++ spaced ws)%string :: mesh ++ flat_map (properties_lines (in_lines a0) (kinds a)) l) ++ data)%list.
Proof.
  intros H H0. unfold readLines in H. apply bind_ok_inv in H. destruct H as (a & Ha & H). cbv zeta in H.
  destruct (solvers_echo a0 a Ha) as (ws & Hw & Hr & Es & Ea).
  assert (La : in_lines a = in_lines a0) by (rewrite Ea; reflexivity). assert (Ma : in_map a = []) by (rewrite Ea; exact H0).
  apply bind_ok_inv in H. destruct H as (b & Hb & H). set (lines := in_lines a0) in *. set (ks := kinds a) in *.
  assert (MS : exists mesh, in_lines b = lines /\ kinds b = ks /\
    (meshed ks -> exists vol mid, getVolumes mpi (in_mesh b) "m" = Ok vol /\ getMeshMiddlePoints (in_mesh b) = Ok mid /\ mesh = mesh_lines b vol mid) /\
    (~ meshed ks -> mesh = []) /\ forall log,
    (if (isElementHere (in_solvers a) TRANSPORT || isElementHere (in_solvers a) DIFFUSION || isElementHere (in_solvers a) ADS || isElementHere (in_solvers a) HEAT)%bool
     then st <- noting (fun inp => geometryEcho (in_lines inp)) setGeometryKind (a, log) ;;
          noting (meshEcho mpi stod_opt fmt) (setMesh mpi stod_opt) st
     else Ok (a, log)) = Ok (b, (log ++ mesh)%list)).
  { assert (Hk : (isElementHere (in_solvers a) TRANSPORT || isElementHere (in_solvers a) DIFFUSION || isElementHere (in_solvers a) ADS || isElementHere (in_solvers a) HEAT)%bool = true <-> meshed ks).
    { rewrite !orb_true_iff, !here_in. fold ks. unfold meshed. split.
      - intros [[[E|E]|E]|E]; eexists; (split; [|exact E]); cbn; auto.
      - intros (k & Hk & E). cbn in Hk. destruct Hk as [<-|[<-|[<-|[<-|[]]]]]; auto. }
    destruct (_ || _)%bool in Hb, Hk |- *.
    - pose proof (proj1 Hk eq_refl) as M. apply bind_ok_inv in Hb. destruct Hb as (g & Hg & Hb).
      pose proof (C85_geometry_echo a g Hg) as Eg. rewrite La in Eg. fold lines in Eg.
      destruct (setGeometryKind_spec stod_opt a g Hg) as (gk & _ & -> & _).
      destruct (C85_mesh_echo mpi stod_opt fmt _ _ Hb Ma) as (vol & mid & V1 & V2 & _ & Em).
      pose proof (setMesh_solvers _ _ _ _ Hb) as (S1 & S2 & _ & _ & _ & _ & _ & _ & S3 & _).
      exists (mesh_lines b vol mid). split; [rewrite S2; exact La|]. split; [rewrite S1; reflexivity|].
      split; [intros _; exists vol, mid; auto|]. split; [intros F; contradiction (F M)|]. intros log.
      cbn [put_mesh with_rx with_mesh in_mesh in_rx rx_mesh setMeshKind ms_geom] in Eg, S3.
      assert (Eg' : geometryEcho lines = Ok [match ms_geom (in_mesh b) with
         | SLAB => "Geometry: Cartesian " | CYLINDER => "Geometry: Cylindrical " | SPHERE => "Geometry: Spherical " | GeomUNDEFINED => "" end]).
      { unfold in_mesh in S3 |- *. rewrite S3. cbn in Eg. destruct Eg as [E|[E|[E|[]]]]; injection E as <- <-; reflexivity. }
      rewrite (noting_ok _ _ a _ log _ (eq_trans (f_equal geometryEcho La) Eg') Hg). cbn [bind].
      rewrite (noting_ok _ _ _ b _ _ Em Hb). unfold mesh_lines. rewrite <- app_assoc. reflexivity.
    - injection Hb as <-. exists []. split; [exact La|]. split; [reflexivity|]. split; [intros M; pose proof (proj2 Hk M) as F; discriminate F|].
      split; [reflexivity|]. intros log. rewrite app_nil_r. reflexivity. }
  destruct MS as (mesh & Lb & Kb & M1 & M2 & ML).
  set (log0 := [("Solvers: " ++ spaced ws)%string] : list string) in *.
  do 13 (apply bind_ok_inv in H; let x := fresh "x" in let E := fresh "Q" in destruct H as (x & E & H)).
  apply bind_ok_inv in H. destruct H as (c & Hc & H). apply bind_ok_inv in H. destruct H as (d & Hd & H).
  assert (CH : chain stod_opt base_properties b x11) by (repeat (econstructor; [eassumption|]); constructor).
  pose proof (property_stage lines ks _ _ _ _ (log0 ++ mesh)%list Q Lb Kb) as (E0 & L0 & K0).
  pose proof (fun log => property_stage lines ks _ _ _ _ log Q0 L0 K0) as P1. destruct (P1 []) as (_ & L1 & K1).
  pose proof (fun log => property_stage lines ks _ _ _ _ log Q1 L1 K1) as P2. destruct (P2 []) as (_ & L2 & K2).
  pose proof (fun log => property_stage lines ks _ _ _ _ log Q2 L2 K2) as P3. destruct (P3 []) as (_ & L3 & K3).
  pose proof (fun log => property_stage lines ks _ _ _ _ log Q3 L3 K3) as P4. destruct (P4 []) as (_ & L4 & K4).
  pose proof (fun log => property_stage lines ks _ _ _ _ log Q4 L4 K4) as P5. destruct (P5 []) as (_ & L5 & K5).
  pose proof (fun log => property_stage lines ks _ _ _ _ log Q5 L5 K5) as P6. destruct (P6 []) as (_ & L6 & K6).
  pose proof (fun log => property_stage lines ks _ _ _ _ log Q6 L6 K6) as P7. destruct (P7 []) as (_ & L7 & K7).
  pose proof (fun log => property_stage lines ks _ _ _ _ log Q7 L7 K7) as P8. destruct (P8 []) as (_ & L8 & K8).
  pose proof (fun log => property_stage lines ks _ _ _ _ log Q8 L8 K8) as P9. destruct (P9 []) as (_ & L9 & K9).
  pose proof (fun log => property_stage lines ks _ _ _ _ log Q9 L9 K9) as P10. destruct (P10 []) as (_ & L10 & K10).
  pose proof (fun log => property_stage lines ks _ _ _ _ log Q10 L10 K10) as P11. destruct (P11 []) as (_ & L11 & K11).
  pose proof (fun log => property_stage lines ks _ _ _ _ log Q11 L11 K11) as P12. destruct (P12 []) as (_ & L12 & K12).
  set (pl := properties_lines lines ks) in *.
  assert (REL : exists l, properties ks l /\ chain stod_opt l b c /\ in_lines c = lines /\ kinds c = ks /\ forall log,
    (if ((isElementHere (in_solvers a) TRANSPORT || isElementHere (in_solvers a) DIFFUSION) && isElementHere (in_solvers a) HEAT && isElementHere (in_solvers a) COUPLED)%bool
     then notingProperties stod_opt "relaxation_parameter" COUPLED (x11, (log ++ flat_map pl base_properties)%list)
     else Ok (x11, (log ++ flat_map pl base_properties)%list)) = Ok (c, (log ++ flat_map pl l)%list)).
  { destruct ((isElementHere (in_solvers a) TRANSPORT || isElementHere (in_solvers a) DIFFUSION) &&
              isElementHere (in_solvers a) HEAT && isElementHere (in_solvers a) COUPLED)%bool eqn:E'.
    - exists (base_properties ++ [("relaxation_parameter", COUPLED)])%list. split.
      { left. rewrite !andb_true_iff, orb_true_iff, !here_in in E'. tauto. }
      split; [apply (chain_app _ _ _ _ _ _ CH); econstructor; [exact Hc|constructor]|].
      pose proof (fun log => property_stage lines ks _ _ _ _ log Hc L12 K12) as P. destruct (P []) as (_ & L & K).
      split; [exact L|]. split; [exact K|]. intros log. destruct (P (log ++ flat_map pl base_properties)%list) as (P' & _).
      rewrite P', flat_map_app. cbn [flat_map]. rewrite app_nil_r, <- app_assoc. reflexivity.
    - injection Hc as <-. exists base_properties. split.
      { right. split; [|reflexivity]. intros F. unfold ks in F. rewrite <- !here_in in F.
        assert (G : ((isElementHere (in_solvers a) TRANSPORT || isElementHere (in_solvers a) DIFFUSION) &&
                isElementHere (in_solvers a) HEAT && isElementHere (in_solvers a) COUPLED)%bool = true)
          by (rewrite !andb_true_iff, orb_true_iff; tauto). rewrite G in E'. discriminate E'. }
      split; [exact CH|]. split; [exact L12|]. split; [exact K12|]. reflexivity. }
  destruct REL as (l & Hl & HC & Lc & Kc & EL).
  exists ws, a, b, c, d, l, mesh. fold ks. fold pl. repeat (split; [assumption|]).
  intros data HD. unfold readLinesLog. rewrite (noting_ok (fun inp => solversEcho (in_lines inp)) setSolvers a0 a [] _ Es Ha). cbn [bind fst app]. fold log0.
  rewrite ML. cbn [bind]. rewrite E0. cbn [bind].
  Ltac next P := match goal with |- context [notingProperties _ ?p ?k (?a, ?log)] => rewrite (proj1 (P log)); cbn [bind] end.
  next P1. next P2. next P3. next P4. next P5. next P6. next P7. next P8. next P9. next P10. next P11. next P12.
  set (log1 := (log0 ++ mesh)%list) in *.
  match goal with |- context [(x11, ?L)] => assert (EQ : L = (log1 ++ flat_map pl base_properties)%list) end.
  { unfold base_properties. cbn [flat_map]. rewrite app_nil_r, <- !app_assoc. reflexivity. }
  rewrite EQ, EL. cbn [bind fst]. unfold log1, log0. cbn [app] in HD |- *. rewrite HD. cbn [bind].
  rewrite (noting_ok _ _ d inp _ [] eq_refl H). rewrite app_nil_r. reflexivity.
Qed.

Lemma still_kind_lines row entry heating temps (a b : input T) k : still a b -> k <> KINETICS ->
  kind_lines row entry heating temps b k = kind_lines row entry heating temps a k.
Proof.
  intros S Hk. destruct k; cbn [kind_lines xs_titles flat_map]; try reflexivity; try contradiction (Hk eq_refl);
    rewrite ?(still_xs row a b _ _ S), ?(still_scatt entry a b S), ?(still_cond row a b S); cbn [app flat_map];
    rewrite ?(still_xs row a b _ _ S); reflexivity.
Qed.

(* The log of an accepted file holds, in this order and nothing else: the names of
   the solvers; the geometry and the mesh if a solver needs them; one line for
   every property of every solver, made of the words of its line in the section of
   the solver; and the data of the solvers in the order of the list. *)
Theorem C89_log file lines inp : storeInput file = Ok lines -> readData mpi stod_opt file = Ok inp ->
  let ks := kinds inp in let cells := ms_mats (in_mesh inp) in let G := ms_groups (in_mesh inp) in
  let neutronics := In TRANSPORT ks \/ In DIFFUSION ks in
  exists ws props words row scatt mesh heating temps,
    readDataLog mpi stod_opt fmt file = Ok (inp,
      ("Solvers: " ++ spaced ws)%string :: mesh ++
      flat_map (fun p => flat_map (fun k => if (kind_eqb (snd p) SolUNDEFINED || kind_eqb k (snd p))%bool
        then [property_line k (words (fst p) k)] else []) ks) props ++
      flat_map (kind_lines row scatt heating temps inp) ks)%list /\
    (* the solvers *)
    entry lines "solvers" ws /\ requested ws ks /\
    (* the mesh *)
    (meshed ks -> exists vol mid, getVolumes mpi (in_mesh inp) "m" = Ok vol /\ getMeshMiddlePoints (in_mesh inp) = Ok mid /\
       mesh = mesh_lines inp vol mid) /\
    (~ meshed ks -> mesh = []) /\
    (* the properties *)
    properties ks props /\
    (forall p k k', In (p, k) props -> In k' ks -> k = SolUNDEFINED \/ k = k' ->
       section_words lines "solver" (get_solver_name k') p (words p k') /\ In (length (words p k')) [2; 3; 4; 7]%nat) /\
    (* the data *)
    (forall k name title m i, In k ks -> In (name, title) (xs_titles k) -> In m (shown_cells inp) -> 1 <= i <= G ->
       shows lines (material_of inp m) (xs_key name i) 1 (row (material_of inp m) (xs_key name i))) /\
    (forall k m i j, In k ks -> In k [TRANSPORT; DIFFUSION; ADS] -> In m (shown_cells inp) -> 1 <= i <= G -> 1 <= j <= G ->
       shows lines (material_of inp m) (scatt_key i j) 2 (scatt (material_of inp m) (scatt_key i j))) /\
    (In HEAT ks ->
       (forall m, In m (shown_cells inp) ->
          shows lines (material_of inp m) "thermal_conductivity" 1 (row (material_of inp m) "thermal_conductivity")) /\
       ((length temps <= length cells)%nat /\
         forall m mt x, nth_error cells m = Some mt -> nth_error temps m = Some x -> mt_temp mt = x) /\
       (neutronics -> exists w, stod_opt w = Some (rx_power (in_rx inp)) /\
         heating = [("Input thermal power [W]: " ++ (if isString w then w else fmt (rx_power (in_rx inp))) ++ " ")%string]) /\
       (~ neutronics -> exists xs, heating = column "Input heat_source densities [W/m3]:" xs /\ (length xs <= length cells)%nat /\
         forall m mt x, nth_error cells m = Some mt -> nth_error xs m = Some x -> mt_heat mt = x)).
Proof.
  intros H1 H2 ks cells G neutronics. pose proof (readData_lines _ _ _ _ _ H1 H2) as H.
  destruct (log_stages _ _ H eq_refl) as (ws & a & b & c & d & l & mesh & Ha & Hw & Hr & Hl & HC & Lb & Kb & Lc & Kc & M1 & M2 & Hd & Hp & HL).
  cbn [in_lines] in *.
  assert (Sp : still d inp).
  { unfold setPlots in Hp. apply bind_ok_inv in Hp. destruct Hp as (pw & _ & Hp). injection Hp as <-. repeat split. }
  pose proof (readSolverInputs_spec stod_opt (fun _ _ => True) (fun _ => I) (fun _ _ _ _ _ => I) (in_solvers c) c d
    (fun k Hk => Hk) (fun _ _ _ _ => I) (fun _ => conj (fun _ _ => I) (conj (fun _ _ => I) (fun _ _ _ => I))) Hd) as (F1 & F2 & [(N1 & N2 & N3 & N4 & _) _] & _).
  assert (Kd : kinds a = ks).
  { unfold ks. destruct Sp as (_ & _ & _ & Sp & _). rewrite Sp, F2. symmetry. exact Kc. }
  assert (HK : In KINETICS ks -> kineticsEcho stod_opt fmt lines = Ok (kinetics_lines inp))
    by (intros Hk; exact (C85_kinetics_echo mpi stod_opt fmt file lines inp H1 H2 Hk)).
  assert (HH : exists heating temps, In HEAT ks ->
    (heatingEcho c = Ok heating /\ manyEcho stod_opt fmt lines "temperatures" "Input temperatures [C]" = Ok (column "Input temperatures [C]:" temps)) /\
    ((length temps <= length cells)%nat /\
         forall m mt x, nth_error cells m = Some mt -> nth_error temps m = Some x -> mt_temp mt = x) /\
       (neutronics -> exists w, stod_opt w = Some (rx_power (in_rx inp)) /\
         heating = [("Input thermal power [W]: " ++ (if isString w then w else fmt (rx_power (in_rx inp))) ++ " ")%string]) /\
       (~ neutronics -> exists xs, heating = column "Input heat_source densities [W/m3]:" xs /\ (length xs <= length cells)%nat /\
         forall m mt x, nth_error cells m = Some mt -> nth_error xs m = Some x -> mt_heat mt = x)).
  { destruct (in_dec (fun x y : SolverKind => ltac:(decide equality)) HEAT ks) as [Hh|Hh]; [|exists [], []; intros F; contradiction (Hh F)].
    destruct (C85_heat_echo mpi stod_opt fmt file lines inp H1 H2 Hh) as (T1 & T2 & T3). fold ks in T2, T3. fold neutronics in T2, T3.
    destruct (T1 "Input temperatures [C]") as (temps & E1 & E2 & E3).
    assert (Hc : heatingEcho c = (if (isElementHere (in_solvers inp) TRANSPORT || isElementHere (in_solvers inp) DIFFUSION)%bool
      then powerEcho stod_opt fmt lines else manyEcho stod_opt fmt lines "heat_sources" "Input heat_source densities [W/m3]")).
    { unfold heatingEcho. rewrite Lc, <- F2. destruct Sp as (_ & _ & _ & -> & _). reflexivity. }
    destruct (isElementHere (in_solvers inp) TRANSPORT || isElementHere (in_solvers inp) DIFFUSION)%bool eqn:Eh.
    - assert (Hn : neutronics) by (apply orb_true_iff in Eh; rewrite !here_in in Eh; exact Eh).
      destruct (T3 Hn) as (w & W1 & W2). eexists _, temps. intros _. rewrite Hc, W2. split; [split; [reflexivity|exact E1]|].
      split; [split; [exact E2|exact E3]|]. split; [intros _; exists w; auto|intros F; contradiction (F Hn)].
    - assert (Hn : ~ neutronics) by (intros F; unfold neutronics, ks in F; rewrite <- !here_in in F; rewrite <- orb_true_iff in F; rewrite F in Eh; discriminate Eh).
      destruct (T2 Hn "Input heat_source densities [W/m3]") as (xs & W1 & W2 & W3). eexists _, temps. intros _. rewrite Hc, W1.
      split; [split; [reflexivity|exact E1]|]. split; [split; [exact E2|exact E3]|]. split; [intros F; contradiction (Hn F)|]. intros _. exists xs. auto. }
  destruct HH as (heating & temps & HH).
  destruct (data_steps heating temps (kinetics_lines inp) c (in_solvers c) c d
    (("Solvers: " ++ spaced ws)%string :: mesh ++ flat_map (properties_lines lines (kinds a)) l)%list (still_refl c) Hd) as (ED & SD & WD).
  { rewrite Kc, Kd, Lc. exact HK. }
  { rewrite Kc, Kd, Lc. intros Hh. exact (proj1 (HH Hh)). }
  pose proof (still_trans _ _ _ SD Sp) as SC. rewrite Kc, Kd in WD.
  specialize (HL _ ED). rewrite Kc, Kd in HL. rewrite Kd in *.
  exists ws, l, (the_words lines), (the_row lines), (the_entry lines), mesh, heating, temps.
  assert (SCe : shown_cells c = shown_cells inp /\ (forall m, material_of c m = material_of inp m) /\ ms_groups (in_mesh c) = G).
  { destruct SC as (S1 & S2 & S3 & S4 & S5 & S6). unfold shown_cells, material_of, G. rewrite S2, S3, S5, S6. auto. }
  destruct SCe as (SC1 & SC2 & SC3).
  split.
  { unfold readDataLog. rewrite H1. cbn [bind]. rewrite HL. f_equal. f_equal. cbn [app]. f_equal. rewrite <- app_assoc. f_equal. f_equal.
    apply flat_map_ext. intros k. unfold data_at. rewrite Lc. destruct k; try reflexivity; symmetry; apply still_kind_lines; try exact SC; discriminate. }
  split.
  { apply read_entry; [exact Hw|]. intros ->. destruct Hr as (named & F & _). inversion F as [|? k ? ? Hk _]; subst. cbn in Hk.
    repeat (destruct Hk as [Hk|Hk]; [discriminate Hk|]). exact Hk. }
  split; [exact Hr|]. split.
  { intros M. destruct (M1 M) as (vol & mid & V1 & V2 & ->). exists vol, mid.
    pose proof (chain_same _ _ _ _ HC) as ((_ & C1 & _) & (_ & _ & _ & _ & C2 & C3 & _) & _).
    unfold setPlots in Hp. apply bind_ok_inv in Hp. destruct Hp as (pw & _ & Hp).
    assert (Eb : ms_bounds (in_mesh inp) = ms_bounds (in_mesh b)).
    { injection Hp as <-. unfold in_mesh in *. cbn [in_rx]. rewrite N1. exact C3. }
    assert (Eg : ms_geom (in_mesh inp) = ms_geom (in_mesh b)).
    { injection Hp as <-. unfold in_mesh in *. cbn [in_rx]. rewrite N2. exact C2. }
    destruct (same_mesh_lines _ _ Eb Eg) as [-> ->]. split; [exact V1|]. split; [exact V2|].
    unfold mesh_lines. rewrite Eb, Eg. destruct SC as (_ & -> & _). rewrite C1. reflexivity. }
  split; [exact M2|]. split; [exact Hl|]. split.
  { assert (G' : forall l b c, chain stod_opt l b c -> in_lines b = lines -> kinds b = ks -> forall p k k', In (p, k) l -> In k' ks -> k = SolUNDEFINED \/ k = k' ->
      propertyWords lines p k' = Ok (the_words lines p k') /\ In (length (the_words lines p k')) [2; 3; 4; 7]%nat).
    { clear. induction 1 as [|name k l a b c H HC IH]; intros Lb Kb p q k' Hi Hk Hs; [contradiction|]. destruct Hi as [E|Hi].
      - injection E as <- <-. destruct (properties_echo _ _ _ _ H) as [_ E]. rewrite Lb, Kb in E. exact (E k' Hk Hs).
      - pose proof (property_stage lines ks _ _ _ _ [] H Lb Kb) as (_ & L & K). exact (IH L K p q k' Hi Hk Hs). }
    intros p k k' Hi Hk Hs. destruct (G' l b c HC Lb Kb p k k' Hi Hk Hs) as [W1 W2]. split; [exact (propertyWords_section _ _ _ _ W1)|exact W2]. }
  split.
  { intros k name title m i Hk Hi Hm Hr'. destruct (WD k Hk) as (W & _ & _). rewrite SC1, SC3, Lc in W. rewrite <- !SC2. exact (W name title m i Hi Hm Hr'). }
  split.
  { intros k m i j Hk Hi Hm Hr1 Hr2. destruct (WD k Hk) as (_ & W & _). rewrite SC1, SC3, Lc in W. rewrite <- !SC2. exact (W Hi m i j Hm Hr1 Hr2). }
  intros Hh. split; [|exact (proj2 (HH Hh))]. intros m Hm. destruct (WD HEAT Hh) as (_ & _ & W). rewrite SC1, Lc in W. rewrite <- !SC2. exact (W eq_refl m Hm).
Qed.

(* In an accepted file in which the line found for a property in the section of a
   solver starts with the name of the property, the log shows for every solver the
   properties it holds, as long as the line has the expected number of values. *)
Theorem C89_in_effect_partial file lines inp : storeInput file = Ok lines -> readData mpi stod_opt file = Ok inp ->
  named_first lines (kinds inp) ->
  exists log, readDataLog mpi stod_opt fmt file = Ok (inp, log) /\ forall s, In s (in_solvers inp) ->
  let k := sd_kind s in
  let line p ws := In (get_solver_name k ++ " solver " ++ p ++ ": " ++ String.concat " " ws)%string log in
  (exists ws, line "accuracy" ws /\ forall w, ws = [w] -> stod_opt w = Some (sd_acc s)) /\
  (exists ws, line "max_iteration_number" ws /\ forall w, ws = [w] -> stoi w = Ok (sd_max s)) /\
  (k = TRANSPORT \/ k = DIFFUSION \/ k = ADS ->
    (exists ws, line "energies" ws /\ forall w, ws = [w] -> stoi w = Ok (sd_energies s)) /\
    (exists ws, line "albedo" ws /\ ((length ws <= 2)%nat -> numbers stod_opt ws (sd_albedo s)))) /\
  (k = DIFFUSION -> exists ws, line "direction" ws /\ forall w, ws = [w] ->
    (w = "forward" /\ sd_dir s = FORWARD) \/ (w = "adjoint" /\ sd_dir s = ADJOINT)) /\
  (k = DIFFUSION \/ k = TRANSPORT -> exists ws, line "eigenmodes" ws /\ forall w, ws = [w] ->
    (w = "fundamental" /\ sd_eig s = FUNDAMENTAL) \/ (w = "all" /\ sd_eig s = EigALL)) /\
  (k = HEAT -> exists ws, line "heat_boundary_conditions" ws /\
    (length ws = 3%nat \/ length ws = 6%nat -> numbers stod_opt ws (sd_heatbc s))) /\
  (k = COUPLED -> In HEAT (kinds inp) -> In TRANSPORT (kinds inp) \/ In DIFFUSION (kinds inp) ->
    exists ws, line "relaxation_parameter" ws /\ forall w, ws = [w] -> stod_opt w = Some (sd_relax s)).
Proof.
  intros H1 H2 Hn. destruct (C89_log file lines inp H1 H2) as (ws & props & words & row & scatt & mesh & heating & temps & EL & _ & _ & _ & _ & Hl & Hw & _).
  eexists. split; [exact EL|]. intros s Hs k line.
  assert (Hk : In k (kinds inp)) by (apply List.in_map; exact Hs).
  assert (IN : forall p q us, In (p, q) props -> q = SolUNDEFINED \/ q = k ->
    section_words lines "solver" (get_solver_name k) p (p :: us) -> line p us).
  { intros p q us Hp Hq Hu. destruct (Hw p q k Hp Hk Hq) as [W _]. pose proof (section_words_fun _ _ _ _ _ _ Hu W) as E.
    right. apply in_or_app. right. apply in_or_app. left. apply in_flat_map. exists (p, q). split; [exact Hp|]. apply in_flat_map. exists k.
    split; [exact Hk|]. cbn [fst snd]. assert (S : (kind_eqb q SolUNDEFINED || kind_eqb k q)%bool = true).
    { apply orb_true_iff. destruct Hq as [-> | ->]; [left; reflexivity|right; apply kind_eqb_eq; reflexivity]. }
    rewrite S. left. unfold property_line. rewrite <- E. reflexivity. }
  assert (B : forall p q, In (p, q) base_properties -> In (p, q) props).
  { intros p q Hp. destruct Hl as [[_ ->]|[_ ->]]; [apply in_or_app; left|]; exact Hp. }
  destruct (C81_solver_properties mpi stod_opt file lines inp H1 H2 Hn s Hs) as (P1 & P2 & P3 & P4 & P5 & P6 & P7). fold k in P1, P2, P3, P4, P5, P6, P7.
  split; [|split; [|split; [|split; [|split; [|split]]]]].
  - destruct P1 as (us & L & E). exists us. split; [|exact E]. apply (IN "accuracy" SolUNDEFINED); [apply B; cbn; tauto|auto|exact L].
  - destruct P2 as (us & L & E). exists us. split; [|exact E]. apply (IN "max_iteration_number" SolUNDEFINED); [apply B; cbn; tauto|auto|exact L].
  - intros K. destruct (P3 K) as [(us & L & E) (vs & L' & E')]. split.
    + exists us. split; [|exact E]. apply (IN "energies" k); [apply B; destruct K as [K|[K|K]]; rewrite K; cbn; tauto|auto|exact L].
    + exists vs. split; [|intros Hv; exact (proj1 (E' Hv))]. apply (IN "albedo" k); [apply B; destruct K as [K|[K|K]]; rewrite K; cbn; tauto|auto|exact L'].
  - intros K. destruct (P4 K) as (us & L & E). exists us. split; [|exact E]. apply (IN "direction" k); [apply B; rewrite K; cbn; tauto|auto|exact L].
  - intros K. destruct (P5 K) as (us & L & E). exists us. split; [|exact E]. apply (IN "eigenmodes" k); [apply B; destruct K as [K|K]; rewrite K; cbn; tauto|auto|exact L].
  - intros K. destruct (P6 K) as (us & L & E). exists us. split; [|intros Hv; exact (proj1 (E Hv))]. apply (IN "heat_boundary_conditions" k); [apply B; rewrite K; cbn; tauto|auto|exact L].
  - intros K Kh Kn. destruct (P7 K Kh Kn) as (us & L & E). exists us. split; [|exact E]. apply (IN "relaxation_parameter" k); [|auto|exact L].
    destruct Hl as [[_ ->]|[F _]]; [apply in_or_app; right; rewrite K; left; reflexivity|]. contradiction F. rewrite K in Hk. auto.
Qed.
End Any.
Print Assumptions C89_log.
Print Assumptions C89_in_effect_partial.

Notation reading_log ls := (readDataLog (355 # 113)%Q Files.stodQ Shown.fmt (Some (Files.text ls))).
(* the log of the reading of a small sphere driven by a source, whole *)
Example C89_log_met :
  match reading_log Data.source with
  | Ok (inp, log) => Data.accepted Data.source (fun i => map sd_kind (in_solvers i) = [ADS]) /\
      meshed (map sd_kind (in_solvers inp)) /\ length (shown_cells inp) = 2%nat /\
      firstn 2 log = ["Solvers: ads "; "Geometry: Spherical "] /\
      skipn 17 log =
        ["ADS solver accuracy: 0.001"; "ADS solver max_iteration_number: 10"; "ADS solver albedo: 0.25"; "ADS solver energies: 1";
         "ADS solver ext_source: 7.5 1 1";
         "Input ni:"; "5/2 "; " "; "5/2 "; " "; "Input chi:"; "1/1 "; " "; "1/1 "; " ";
         "Input fission XS [1/cm]:"; "1/10 "; " "; "1/10 "; " "; "Input total XS [1/cm]:"; "3/10 "; " "; "3/10 "; " ";
         "Input diffusion coefficients [cm]:"; "1/1 "; " "; "1/1 "; " ";
         "Input scattering matrix [1/cm]:"; "1/5 "; " "; "1/5 "; " "]
  | _ => False
  end.
Proof.
  vm_compute. split; [reflexivity|]. split; [exists ADS; cbn; auto|]. repeat split; reflexivity.
Qed.
Example C89_in_effect_met : named_first (Data.lines_of Data.good) [DIFFUSION; HEAT; COUPLED] /\
  Data.accepted Data.good (fun inp => map sd_kind (in_solvers inp) = [DIFFUSION; HEAT; COUPLED] /\ map sd_acc (in_solvers inp) = [1 # 1000; 1 # 500; 3 # 1000]%Q).
Proof. split; [apply first_word_named; vm_compute; reflexivity|vm_compute; repeat split; reflexivity]. Qed.

(* Two accuracies on the line: the log shows them, and neither is in effect. *)
Theorem C89_in_effect_refuted : exists ls lines inp log s,
  storeInput (Some (Files.text ls)) = Ok lines /\ Files.read ls = Ok inp /\ named_first lines (map sd_kind (in_solvers inp)) /\
  reading_log ls = Ok (inp, log) /\ In s (in_solvers inp) /\ sd_kind s = DIFFUSION /\
  In "DIFFUSION solver accuracy: 0.001 0.0001" log /\ sd_acc s = 0%Q.
Proof.
  pose (ls := Data.slab "accuracy 0.001 0.0001" "temperatures 300.0 3").
  exists ls, (Data.lines_of ls), (Data.get ls). eexists. exists (Data.solver ls 0).
  split; [vm_compute; reflexivity|]. split; [vm_compute; reflexivity|].
  split; [apply first_word_named; vm_compute; reflexivity|]. split; [vm_compute; reflexivity|]. split; [vm_compute; left; reflexivity|].
  split; [vm_compute; reflexivity|]. split; [|vm_compute; reflexivity]. vm_compute. tauto.
Qed.
Print Assumptions C89_in_effect_refuted.
