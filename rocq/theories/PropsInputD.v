(* Properties C80-C82: the numbers of an accepted file and where they end up. *)
From Coq Require Import String Ascii ZArith List Bool Lia Arith QArith.
From Verif Require Import Base BaseLemmas NumQ ModelNumTools ModelEigen ModelMesh ModelReactor ModelOutput ModelCalculation
  ModelText ModelInput ModelMain ProofsInput ProofsInputB ProofsInputC ProofsInputD ProofsInputE ProofsInputF
  ProofsInputG ProofsInputH ProofsInputI ProofsInputJ PropsInputB PropsInputC.
Import ListNotations.
Local Open Scope string_scope.
Local Open Scope Z_scope.

Section Any.
Context {T : Type} {N : Num T}.
Variable mpi : T.
Variable stod_opt : string -> option T.
Notation kinds inp := (map sd_kind (in_solvers inp)).

(* the words read as numbers *)
Definition numbers (ws : list string) (c : list T) : Prop := Forall2 (fun w x => stod_opt w = Some x) ws c.

Lemma readData_lines file lines inp : storeInput file = Ok lines -> readData mpi stod_opt file = Ok inp ->
  readLines mpi stod_opt (mkInput lines newReactor [] [] [] []) = Ok inp.
Proof. intros H1 H2. unfold readData in H2. rewrite H1 in H2. exact H2. Qed.

(* ---------- C80 ---------- *)

(* c are the numbers behind the first words of the first line of the section of
   the material that mentions key *)
Definition material_line (lines : list string) (name key : string) (skip : nat) (c : list T) : Prop :=
  exists first ws, length first = skip /\ section_words lines "material" name key (first ++ ws) /\ numbers ws c.

Lemma law_line lines name key skip c : law stod_opt lines name key skip c -> material_line lines name key skip c.
Proof.
  intros (line & ws & H1 & H2 & H3). apply findKeyword_section in H1. revert H1 H2. generalize (splitLine line) as all. intros all H1 H2.
  assert (exists first, length first = skip /\ all = (first ++ ws)%list) as (first & E1 & E2).
  { clear -H2. revert all H2. induction skip as [|k IH]; intros all H; [exists []; cbn in H; injection H as <-; auto|].
    destruct all as [|w all]; [discriminate H|]. destruct (IH all H) as (f & <- & ->). exists (w :: f). auto. }
  exists first, ws. split; [exact E1|]. rewrite <- E2. split; [exact H1|]. apply stods_inv, H3.
Qed.

(* Every cell of an accepted neutronic problem holds, for every group, the
   numbers its material's section lists for that group, and for every pair of
   groups the numbers listed for the pair. *)
Theorem C80_cross_sections file lines inp : storeInput file = Ok lines -> readData mpi stod_opt file = Ok inp ->
  In TRANSPORT (kinds inp) \/ In DIFFUSION (kinds inp) \/ In ADS (kinds inp) ->
  forall m mt, nth_error (ms_mats (in_mesh inp)) m = Some mt ->
  let G := ms_groups (in_mesh inp) in
  (forall i, 1 <= i <= G ->
     (forall name table,
        In (name, table) [("ni", mt_ni mt); ("chi", mt_chi mt); ("fission", mt_fisXS mt); ("total", mt_totXS mt)] \/
        ((name, table) = ("diffCoeff", mt_diff mt) /\ (In DIFFUSION (kinds inp) \/ In ADS (kinds inp))) ->
        exists c, nth_error table (Z.to_nat (i - 1)) = Some c /\
                  material_line lines (mt_name mt) (name ++ "(" ++ to_string i ++ ")") 1 c) /\
     (forall j, 1 <= j <= G ->
        exists c, nth_error (mt_scatt mt) (Z.to_nat ((i - 1) * G + (j - 1))) = Some c /\
                  material_line lines (mt_name mt) ("scattMatrix(" ++ to_string i ++ ", " ++ to_string j ++ ")") 2 c)).
Proof.
  intros H1 H2 K m mt Em G i Hi. pose proof (readData_lines _ _ _ H1 H2) as H.
  assert (L : forall name, In name law_names -> (exists k, In k (kinds inp) /\ In name (reads k)) -> starts stod_opt lines G name (mt_name mt) mt).
  { intros name Hn Hk. exact (readLines_tables mpi stod_opt lines inp name Hn H Hk m mt Em). }
  assert (V : forall name, In name law_names -> name <> "scattMatrix" -> (exists k, In k (kinds inp) /\ In name (reads k)) ->
    exists c, nth_error (table name mt) (Z.to_nat (i - 1)) = Some c /\ material_line lines (mt_name mt) (name ++ "(" ++ to_string i ++ ")") 1 c).
  { intros name Hn Hs Hk. destruct (L name Hn Hk) as (cs & rest & E & F). rewrite E.
    unfold law_keys, law_skip in F. destruct (String.eqb_spec name "scattMatrix") as [Es|_]; [contradiction|].
    destruct (Forall2_nth_l _ _ _ F (Z.to_nat (i - 1)) (name ++ "(" ++ to_string i ++ ")")) as (c & Ec & Lc).
    - rewrite nth_error_map, zrange_nth by lia. replace (1 + Z.of_nat (Z.to_nat (i - 1))) with i by lia. reflexivity.
    - exists c. split; [|exact (law_line _ _ _ _ _ Lc)].
      rewrite nth_error_app1; [exact Ec|]. apply nth_error_Some. rewrite Ec. discriminate. }
  assert (K' : forall name, In name ["ni"; "chi"; "fission"; "total"; "scattMatrix"] -> exists k, In k (kinds inp) /\ In name (reads k)).
  { intros name Hn. destruct K as [K|[K|K]]; eexists; (split; [exact K|]); cbn in *; tauto. }
  split.
  - intros name tb [Hn|[Hn Kd]].
    + cbn in Hn. destruct Hn as [Hn|[Hn|[Hn|[Hn|[]]]]]; injection Hn as <- <-;
        (match goal with |- context [material_line _ _ (?n ++ _) _ _] => apply (V n); [cbn; tauto|discriminate|apply K'; cbn; tauto] end).
    + injection Hn as -> ->. apply (V "diffCoeff"); [cbn; tauto|discriminate|].
      destruct Kd as [Kd|Kd]; eexists; (split; [exact Kd|cbn; tauto]).
  - intros j Hj. destruct (L "scattMatrix") as (cs & rest & E & F); [cbn; tauto|apply K'; cbn; tauto|].
    change (table "scattMatrix" mt) with (mt_scatt mt) in E. rewrite E.
    change (law_skip "scattMatrix") with 2%nat in F.
    destruct (Forall2_nth_l _ _ _ F (Z.to_nat ((i - 1) * G + (j - 1))) ("scattMatrix(" ++ to_string i ++ ", " ++ to_string j ++ ")")) as (c & Ec & Lc).
    + unfold law_keys. cbn [String.eqb Ascii.eqb Bool.eqb]. 
      replace (Z.to_nat ((i - 1) * G + (j - 1))) with (Z.to_nat (i - 1) * Z.to_nat G + Z.to_nat (j - 1))%nat
        by (rewrite Z2Nat.inj_add by nia; rewrite Z2Nat.inj_mul by lia; reflexivity).
      rewrite (flat_map_nth _ (Z.to_nat G) _) with (x := i).
      * rewrite nth_error_map, zrange_nth by lia. replace (1 + Z.of_nat (Z.to_nat (j - 1))) with j by lia. reflexivity.
      * intros a. rewrite map_length, zrange_length. lia.
      * rewrite zrange_nth by lia. f_equal. lia.
      * lia.
    + exists c. split; [|exact (law_line _ _ _ _ _ Lc)].
      rewrite nth_error_app1; [exact Ec|]. apply nth_error_Some. rewrite Ec. discriminate.
Qed.

(* ---------- C81 ---------- *)

Lemma told_line lines g l s p k : told stod_opt lines g l s -> In (p, k) l -> k = SolUNDEFINED \/ k = sd_kind s ->
  exists ws, section_words lines "solver" (get_solver_name (sd_kind s)) p (p :: ws) /\ says stod_opt p g ws s.
Proof.
  intros H Hi Hk. destruct (H p k Hi) as (ws & H1 & H2).
  - unfold selected. rewrite orb_true_iff, !kind_eqb_eq. destruct Hk; auto.
  - exists ws. split; [exact (propertyWords_section _ _ _ _ H1)|exact H2].
Qed.
Lemma propertyWords_of_section lines p k ws ws' : section_words lines "solver" (get_solver_name k) p ws ->
  propertyWords lines p k = Ok ws' -> ws = ws'.
Proof. intros H1 H2. exact (section_words_fun _ _ _ _ _ _ H1 (propertyWords_section _ _ _ _ H2)). Qed.

(* In an accepted file in which the line found for a property in the section of
   a solver starts with the name of the property, every solver holds what its
   section says, as long as the line has the expected number of values. *)
Definition named_first (lines : list string) (ks : list SolverKind) : Prop :=
  forall k p ws, In k ks ->
    In p ["accuracy"; "max_iteration_number"; "relaxation_parameter"; "energies"; "albedo"; "direction"; "eigenmodes";
          "heat_boundary_conditions"; "ext_source"] ->
    section_words lines "solver" (get_solver_name k) p ws -> exists rest, ws = p :: rest.

Theorem C81_solver_properties file lines inp : storeInput file = Ok lines -> readData mpi stod_opt file = Ok inp ->
  named_first lines (kinds inp) -> forall s, In s (in_solvers inp) ->
  let g := ms_geom (in_mesh inp) in let k := sd_kind s in
  let line p ws := section_words lines "solver" (get_solver_name k) p (p :: ws) in
  (exists ws, line "accuracy" ws /\ forall w, ws = [w] -> stod_opt w = Some (sd_acc s)) /\
  (exists ws, line "max_iteration_number" ws /\ forall w, ws = [w] -> stoi w = Ok (sd_max s)) /\
  (k = TRANSPORT \/ k = DIFFUSION \/ k = ADS ->
    (exists ws, line "energies" ws /\ forall w, ws = [w] -> stoi w = Ok (sd_energies s)) /\
    (* one albedo, or the albedos of the two sides in the order of the line; two exactly on a slab and
       not for the transport solver *)
    (exists ws, line "albedo" ws /\
       ((length ws <= 2)%nat -> numbers ws (sd_albedo s) /\ (length ws = 2%nat <-> g = SLAB /\ k <> TRANSPORT)))) /\
  (k = DIFFUSION -> exists ws, line "direction" ws /\ forall w, ws = [w] ->
    (w = "forward" /\ sd_dir s = FORWARD) \/ (w = "adjoint" /\ sd_dir s = ADJOINT)) /\
  (k = DIFFUSION \/ k = TRANSPORT -> exists ws, line "eigenmodes" ws /\ forall w, ws = [w] ->
    (w = "fundamental" /\ sd_eig s = FUNDAMENTAL) \/ (w = "all" /\ sd_eig s = EigALL)) /\
  (* six values exactly on a slab, three otherwise *)
  (k = HEAT -> exists ws, line "heat_boundary_conditions" ws /\
    (length ws = 3%nat \/ length ws = 6%nat -> numbers ws (sd_heatbc s) /\ (length ws = 6%nat <-> g = SLAB))) /\
  (k = COUPLED -> In HEAT (kinds inp) -> In TRANSPORT (kinds inp) \/ In DIFFUSION (kinds inp) ->
    exists ws, line "relaxation_parameter" ws /\ forall w, ws = [w] -> stod_opt w = Some (sd_relax s)).
Proof.
  intros H1 H2 Hn s Hi g k line. pose proof (readData_lines _ _ _ H1 H2) as H.
  assert (SW : starts_with_name lines (kinds inp)).
  { intros k' p ws Hk Hp W. apply (Hn k' p ws Hk); [|exact (propertyWords_section _ _ _ _ W)].
    unfold solver_words in Hp. exact Hp. }
  destruct (readLines_told mpi stod_opt lines inp H SW) as (l & Hl & F & _). rewrite Forall_forall in F. specialize (F s Hi).
  assert (B : forall p q, In (p, q) base_properties -> q = SolUNDEFINED \/ q = k -> exists ws, line p ws /\ says stod_opt p g ws s).
  { intros p q Hpq Hq. apply (told_line lines g l s p q F); [|exact Hq].
    destruct Hl as [[_ ->]|[_ ->]]; [apply in_or_app; left|]; exact Hpq. }
  split; [|split; [|split; [|split; [|split; [|split]]]]].
  - destruct (B "accuracy" SolUNDEFINED) as (ws & L & S); [cbn; tauto|auto|]. exists ws. split; [exact L|apply (sy_acc _ _ _ _ _ S eq_refl)].
  - destruct (B "max_iteration_number" SolUNDEFINED) as (ws & L & S); [cbn; tauto|auto|]. exists ws. split; [exact L|apply (sy_max _ _ _ _ _ S eq_refl)].
  - intros K. split.
    + destruct (B "energies" k) as (ws & L & S); [destruct K as [K|[K|K]]; rewrite K; cbn; tauto|auto|].
      exists ws. split; [exact L|apply (sy_energies _ _ _ _ _ S eq_refl)].
    + destruct (B "albedo" k) as (ws & L & S); [destruct K as [K|[K|K]]; rewrite K; cbn; tauto|auto|].
      exists ws. split; [exact L|apply (sy_albedo _ _ _ _ _ S eq_refl)].
  - intros K. destruct (B "direction" k) as (ws & L & S); [rewrite K; cbn; tauto|auto|]. exists ws. split; [exact L|apply (sy_dir _ _ _ _ _ S eq_refl)].
  - intros K. destruct (B "eigenmodes" k) as (ws & L & S); [destruct K as [K|K]; rewrite K; cbn; tauto|auto|].
    exists ws. split; [exact L|apply (sy_eig _ _ _ _ _ S eq_refl)].
  - intros K. destruct (B "heat_boundary_conditions" k) as (ws & L & S); [rewrite K; cbn; tauto|auto|].
    exists ws. split; [exact L|apply (sy_heat _ _ _ _ _ S eq_refl)].
  - intros K K1 K2. destruct (told_line lines g l s "relaxation_parameter" COUPLED F) as (ws & L & S); [|auto|].
    + assert (Kc : In COUPLED (kinds inp)) by (rewrite <- K; apply List.in_map, Hi).
      destruct Hl as [[_ ->]|[Hno _]]; [apply in_or_app; right; left; reflexivity|]. exfalso. apply Hno. tauto.
    + exists ws. split; [exact L|apply (sy_relax _ _ _ _ _ S eq_refl)].
Qed.

(* What the sections say about the whole reactor: the number of groups is that
   of the ads solver, without one that of the diffusion solver, without one that
   of the transport solver; the external source is that of the ads solver. *)
Theorem C81_reactor_properties file lines inp : storeInput file = Ok lines -> readData mpi stod_opt file = Ok inp ->
  named_first lines (kinds inp) ->
  let line k p ws := section_words lines "solver" (get_solver_name k) p (p :: ws) in
  (forall k w n, In k (kinds inp) ->
     k = ADS \/ (k = DIFFUSION /\ ~ In ADS (kinds inp)) \/ (k = TRANSPORT /\ ~ In DIFFUSION (kinds inp) /\ ~ In ADS (kinds inp)) ->
     line k "energies" [w] -> stoi w = Ok n -> ms_groups (in_mesh inp) = to_u32 n) /\
  (In ADS (kinds inp) -> forall u v w, line ADS "ext_source" [u; v; w] ->
     exists x n m, stod_opt u = Some x /\ stoi v = Ok n /\ stoi w = Ok m /\ rx_ext (in_rx inp) = (x, to_u32 n, to_u32 m)).
Proof.
  intros H1 H2 Hn line. pose proof (readData_lines _ _ _ H1 H2) as H.
  assert (SW : starts_with_name lines (kinds inp)).
  { intros k' p ws Hk Hp W. apply (Hn k' p ws Hk); [|exact (propertyWords_section _ _ _ _ W)].
    unfold solver_words in Hp. exact Hp. }
  destruct (readLines_told mpi stod_opt lines inp H SW) as (l & Hl & F & HG & HE).
  assert (PW : forall p k ws, In (p, k) l -> In k (kinds inp) -> line k p ws -> propertyWords lines p k = Ok (p :: ws)).
  { intros p k ws Hi Hk L. apply in_map_iff in Hk. destruct Hk as (s & Ek & Hs). rewrite Forall_forall in F.
    destruct (F s Hs p k Hi) as (us & W & _); [unfold selected; rewrite orb_true_iff, !kind_eqb_eq; auto|].
    rewrite Ek in W. rewrite (propertyWords_of_section _ _ _ _ _ L W). exact W. }
  assert (Base : forall p k, In (p, k) base_properties -> In (p, k) l).
  { intros p k Hi. destruct Hl as [[_ ->]|[_ ->]]; [apply in_or_app; left|]; exact Hi. }
  split.
  - intros k w n Hk Last L Hw.
    assert (Hi : In ("energies", k) base_properties) by (destruct Last as [->|[[-> _]|[-> _]]]; cbn; tauto).
    assert (exists l1 l2, l = (l1 ++ ("energies", k) :: l2)%list /\ forall q, In ("energies", q) l2 -> ~ In q (kinds inp)) as (l1 & l2 & El & Hno).
    { assert (Q : exists l1 l2, base_properties = (l1 ++ ("energies", k) :: l2)%list /\ forall q, In ("energies", q) l2 -> ~ In q (kinds inp)).
      { destruct Last as [->|[[-> L1]|(-> & L1 & L2)]].
        - exists (firstn 8 base_properties), (skipn 9 base_properties). split; [reflexivity|]. intros q Fq. exfalso. cbn in Fq.
          repeat (destruct Fq as [Fq|Fq]; [discriminate Fq|]). exact Fq.
        - exists (firstn 7 base_properties), (skipn 8 base_properties). split; [reflexivity|]. intros q Fq. cbn in Fq.
          repeat (destruct Fq as [Fq|Fq]; [first [discriminate Fq|injection Fq as <-; exact L1]|]). contradiction.
        - exists (firstn 6 base_properties), (skipn 7 base_properties). split; [reflexivity|]. intros q Fq. cbn in Fq.
          repeat (destruct Fq as [Fq|Fq]; [first [discriminate Fq|injection Fq as <-; assumption]|]). contradiction. }
      destruct Q as (l1 & l2 & Q1 & Q2). destruct Hl as [[_ ->]|[_ ->]].
      - exists l1, (l2 ++ [("relaxation_parameter", COUPLED)])%list. split; [rewrite Q1, <- app_assoc; reflexivity|].
        intros q Fq. apply in_app_or in Fq. destruct Fq as [Fq|[Fq|[]]]; [exact (Q2 q Fq)|discriminate Fq].
      - exists l1, l2. auto. }
    exact (HG l1 k l2 w n El Hk Hno (PW _ _ _ (Base _ _ Hi) Hk L) Hw).
  - intros K u v w L. apply (HE K u v w). apply (PW "ext_source" ADS); [apply Base; cbn; tauto|exact K|exact L].
Qed.

(* ---------- C82 ---------- *)

(* what the line of key lists: numbers written out, or values with their counts *)
Definition listing (lines : list string) (key : string) (xs : list T) : Prop :=
  (exists ws, entry lines key ws /\ Forall2 (fun w x => isFloat w = Ok true /\ stod_opt w = Some x) ws xs) \/
  (exists v0 c0 ps vs, entry lines key (pair_words ((v0, c0) :: ps)) /\ isFloat v0 = Ok true /\ isFloat c0 = Ok false /\
     Forall2 (fun p v => stod_opt (fst p) = Some (fst v) /\ stoi (snd p) = Ok (snd v)) ((v0, c0) :: ps) vs /\
     Forall (fun v => 0 <= snd v) vs /\ total (map snd vs) <= 2147483647 /\
     xs = concat (map (fun v => repeat (fst v) (Z.to_nat (snd v))) vs)).
Lemma listing_read lines key xs : listing lines key xs -> setManyParameters stod_opt lines key = Ok xs.
Proof.
  intros [(ws & H1 & H2)|(v0 & c0 & ps & vs & H1 & H2 & H3 & H4 & H5 & H6 & ->)].
  - exact (C09_verbatim stod_opt lines key ws xs H1 H2).
  - exact (C09_repeat stod_opt lines key v0 c0 ps vs H1 H2 H3 H4 H5 H6).
Qed.
Definition number_line (lines : list string) (key : string) (x : T) : Prop :=
  exists w, entry lines key [w] /\ stod_opt w = Some x.
Lemma single_line lines key x : single stod_opt lines key x -> number_line lines key x.
Proof. intros (w & H1 & H2). exists w. split; [exact (one_entry _ _ _ H1)|exact H2]. Qed.

(* The conductivity of a cell is that of its material's section, the i-th
   temperature and the i-th source of the file go to cell i, and the power is
   the one of the file. *)
Theorem C82_heat_data file lines inp : storeInput file = Ok lines -> readData mpi stod_opt file = Ok inp ->
  In HEAT (kinds inp) ->
  let cells := ms_mats (in_mesh inp) in
  let neutronics := In TRANSPORT (kinds inp) \/ In DIFFUSION (kinds inp) in
  (forall m mt, nth_error cells m = Some mt ->
     exists c, mt_cond mt = Some c /\ (1 <= length c <= 3)%nat /\ material_line lines (mt_name mt) "thermal_conductivity" 1 c) /\
  (forall xs, listing lines "temperatures" xs -> (length xs <= length cells)%nat /\
     forall m mt, nth_error cells m = Some mt -> ((m < length xs)%nat -> nth_error xs m = Some (mt_temp mt)) /\
       ((length xs <= m)%nat -> mt_temp mt = n0)) /\
  (~ neutronics -> forall xs, listing lines "heat_sources" xs -> (length xs <= length cells)%nat /\
     forall m mt, nth_error cells m = Some mt -> ((m < length xs)%nat -> nth_error xs m = Some (mt_heat mt)) /\
       ((length xs <= m)%nat -> mt_heat mt = n0)) /\
  (neutronics -> number_line lines "thermal_power" (rx_power (in_rx inp))).
Proof.
  intros H1 H2 K cells neutronics. pose proof (readLines_stored _ _ _ _ (readData_lines _ _ _ H1 H2)) as S.
  destruct (st_heat _ _ _ _ S K) as (A & (ts & B1 & B2) & C & D).
  assert (V : forall get xs, listed get xs cells -> (length xs <= length cells)%nat /\
    forall m mt, nth_error cells m = Some mt -> ((m < length xs)%nat -> nth_error xs m = Some (get mt)) /\
      ((length xs <= m)%nat -> get mt = n0)).
  { intros get xs [L1 L2]. split; [exact L1|]. intros m mt E. rewrite (L2 m mt E). split; intros Hm.
    - apply nth_error_nth'. exact Hm.
    - apply nth_overflow. exact Hm. }
  split; [|split; [|split]].
  - intros m mt E. destruct (A m mt E) as (c & A1 & A2 & A3). exists c. split; [exact A1|]. split; [exact A3|exact (law_line _ _ _ _ _ A2)].
  - intros xs L. apply listing_read in L. rewrite B1 in L. injection L as <-. exact (V mt_temp ts B2).
  - intros Nn xs L. destruct C as (qs & C1 & C2); [intros F; apply Nn; left; exact F|intros F; apply Nn; right; exact F|].
    apply listing_read in L. rewrite C1 in L. injection L as <-. exact (V mt_heat qs C2).
  - intros Nn. apply single_line, D, Nn.
Qed.

(* The kinetics data are those of the file. *)
Theorem C82_kinetics_data file lines inp : storeInput file = Ok lines -> readData mpi stod_opt file = Ok inp ->
  In KINETICS (kinds inp) ->
  let k := rx_kin (in_rx inp) in
  number_line lines "generation_time" (ks_alpha k) /\ number_line lines "initial_power" (ks_power k) /\
  (forall xs, listing lines "delayed_constants" xs -> ks_lambda k = xs) /\
  (forall xs, listing lines "delayed_fractions" xs -> ks_beta k = xs) /\
  (forall xs, listing lines "times" xs -> ks_times k = xs) /\
  (forall xs, listing lines "reactivities" xs -> ks_reacts k = xs).
Proof.
  intros H1 H2 K k. pose proof (readLines_stored _ _ _ _ (readData_lines _ _ _ H1 H2)) as S.
  destruct (st_kinetics _ _ _ _ S K) as (A & B & C & D & E & F). fold k in A, B, C, D, E, F.
  split; [apply single_line, A|]. split; [apply single_line, B|].
  split; [|split; [|split]]; intros xs L; apply listing_read in L; congruence.
Qed.

(* Geometry, mesh and plots. *)
Theorem C82_mesh_data file lines inp : storeInput file = Ok lines -> readData mpi stod_opt file = Ok inp ->
  (exists k, In k [TRANSPORT; DIFFUSION; ADS; HEAT] /\ In k (kinds inp)) ->
  let ms := in_mesh inp in
  (exists w, entry lines "geometry" [w] /\ In (w, ms_geom ms) [("cylinder", CYLINDER); ("sphere", SPHERE); ("slab", SLAB)]) /\
  forall rs vs, entry lines "mesh" (region_words rs) -> Forall2 (reads_region stod_opt) rs vs ->
    Forall (fun n => 0 <= n) (counts vs) -> total (counts vs) < 2147483647 -> Forall (printable stod_opt) (names vs) ->
    zlen (ms_mats ms) = total (counts vs) /\ ms_cells ms = total (counts vs) /\ vlen (ms_bounds ms) = total (counts vs) + 1 /\
    (forall k j, (k < length vs)%nat -> 0 <= j < nth k (counts vs) 0 ->
       exists mt, nth_error (ms_mats ms) (Z.to_nat (cum (counts vs) k + j)) = Some mt /\ mt_name mt = nth k (names vs) "").
Proof.
  intros H1 H2 K ms. pose proof (readLines_stored _ _ _ _ (readData_lines _ _ _ H1 H2)) as S.
  destruct (st_mesh _ _ _ _ S K) as (a & b & w & A1 & A2 & A3 & A4 & A5 & A6 & A7 & A8). fold ms in A4, A5, A6, A8.
  split; [exists w; split; [exact (one_entry _ _ _ A7)|exact A8]|].
  intros rs vs He Hr Hn Ht Hp. rewrite <- A1 in He.
  destruct (C07_cell_material mpi stod_opt a rs vs He Hr Hn Ht Hp A2) as (b' & B1 & B). rewrite A3 in B1. injection B1 as <-.
  cbv zeta in B. destruct B as (B1 & B2 & B3 & _).
  destruct (wp_ok _ _ (setMesh_wp mpi stod_opt a rs vs (entry_read _ _ _ _ He) Hr Hn Ht A2 Hp)) as (b' & E & bd & Q1 & _ & _ & _ & _ & _ & _ & Q).
  rewrite A3 in E. injection E as <-.
  rewrite A4, A5. unfold zlen. rewrite <- (forall2_len _ _ _ A6). split; [|split; [exact B2|split]].
  - unfold zlen in B1. congruence.
  - unfold in_mesh. rewrite Q. cbn. exact Q1.
  - intros k j Hk Hj. destruct (B3 k j Hk Hj) as (mt & E1 & E2). destruct (Forall2_nth_l _ _ _ A6 _ _ E1) as (mt' & E3 & E4).
    exists mt'. split; [exact E3|congruence].
Qed.
(* The plots are the known words of the line, in order; unknown words are skipped. *)
Theorem C82_plots file lines inp ws : storeInput file = Ok lines -> readData mpi stod_opt file = Ok inp ->
  entry lines "plots" ws ->
  exists found, Forall2 (fun w p => In (w, p) [("neutronflux", NEUTRONFLUX); ("adjointflux", ADJOINTFLUX); ("totalflux", TOTALFLUX);
      ("temperature", TEMPERATURE); ("powerdensity", POWERDENSITY)])
    (filter (fun w => existsb (String.eqb w) ["neutronflux"; "adjointflux"; "totalflux"; "temperature"; "powerdensity"]) ws) found /\
    in_plots inp = found.
Proof.
  intros H1 H2 He. pose proof (readLines_stored _ _ _ _ (readData_lines _ _ _ H1 H2)) as S.
  destruct (st_plots _ _ _ _ S) as (us & A & B). rewrite (entry_read _ _ _ true He) in A. injection A as <-.
  exists (flat_map plot_of_word ws). split; [|exact B]. clear. induction ws as [|w ws IH]; [constructor|].
  cbn [filter flat_map existsb]. unfold plot_of_word at 1.
  destruct (String.eqb_spec w "neutronflux") as [->|_]; [cbn; constructor; [tauto|exact IH]|].
  destruct (String.eqb_spec w "adjointflux") as [->|_]; [cbn; constructor; [tauto|exact IH]|].
  destruct (String.eqb_spec w "totalflux") as [->|_]; [cbn; constructor; [tauto|exact IH]|].
  destruct (String.eqb_spec w "temperature") as [->|_]; [cbn; constructor; [tauto|exact IH]|].
  destruct (String.eqb_spec w "powerdensity") as [->|_]; [cbn; constructor; [tauto|exact IH]|]. exact IH.
Qed.
End Any.
Print Assumptions C80_cross_sections.
Print Assumptions C81_solver_properties.
Print Assumptions C81_reactor_properties.
Print Assumptions C82_heat_data.
Print Assumptions C82_kinetics_data.
Print Assumptions C82_mesh_data.
Print Assumptions C82_plots.

(* ---------- files that meet the hypotheses ---------- *)

Lemma section_find lines kind name key ws : section_words lines kind name key ws ->
  exists l, findKeyword lines key (fst (findBlock lines kind name)) (snd (findBlock lines kind name)) false = Ok l /\ ws = splitLine l.
Proof.
  intros H. pose proof H as (low & top & k & x & body & A1 & A2 & A3 & _). destruct (findBlock_spec lines kind name) as [B1 B2].
  rewrite (block_start_fun _ _ _ _ _ A1 B1) in A3. rewrite (block_stop_fun _ _ _ _ _ A2 B2) in A3.
  pose proof (findKeyword_found _ _ _ _ false _ _ A3) as F. exists (lower x). split; [exact F|].
  exact (section_words_fun _ _ _ _ _ _ H (findKeyword_section _ _ _ _ _ F)).
Qed.
Definition first_word (lines : list string) (k : SolverKind) (p : string) : bool :=
  match findKeyword lines p (fst (findBlock lines "solver" (get_solver_name k))) (snd (findBlock lines "solver" (get_solver_name k))) false with
  | Ok l => match splitLine l with w :: _ => String.eqb w p | [] => false end
  | _ => true
  end.
Lemma first_word_named lines ks : forallb (fun k => forallb (first_word lines k) solver_words) ks = true -> named_first lines ks.
Proof.
  intros H k p ws Hk Hp W. rewrite forallb_forall in H. specialize (H k Hk). rewrite forallb_forall in H. specialize (H p Hp).
  unfold first_word in H. destruct (section_find _ _ _ _ _ W) as (l & F & ->). rewrite F in H.
  destruct (splitLine l) as [|w rest]; [discriminate H|]. apply String.eqb_eq in H. subst w. eauto.
Qed.

Module Data.
(* two groups, two materials, a heated slab of three cells *)
Definition slab (accuracy temperatures : string) : list string :=
  ["Solvers diffusion heat"; "geometry slab"; "mesh 2 2.0 fuel 1 1.0 Water"; "thermal_power 5.0"; temperatures;
   "plots temperature Unknown neutronFlux";
   "solver diffusion"; accuracy; "max_iteration_number 10"; "albedo 0.25 0.5"; "energies 2"; "direction adjoint";
   "eigenmodes all";
   "solver heat"; "accuracy 0.002"; "max_iteration_number 20"; "heat_boundary_conditions 1.0 2.0 3.0 4.0 5.0 6.0";
   "solver coupled"; "accuracy 0.003"; "max_iteration_number 30"; "relaxation_parameter 0.5";
   "material fuel"; "thermal_conductivity 10.0 0.5 % W/m/K";
   "ni(1) 2.5"; "ni(2) 2.4"; "chi(1) 1.0"; "chi(2) 0.0"; "fission(1) 0.1"; "fission(2) 0.2 -0.001";
   "total(1) 0.3"; "total(2) 0.4"; "diffCoeff(1) 1.0"; "diffCoeff(2) 1.5";
   "scattMatrix(1, 1) 0.11"; "scattMatrix(1, 2) 0.12"; "scattMatrix(2, 1) 0.0"; "scattMatrix(2, 2) 0.22";
   "material water"; "thermal_conductivity 0.6";
   "ni(1) 0.0"; "ni(2) 0.0"; "chi(1) 0.0"; "chi(2) 0.0"; "fission(1) 0.0"; "fission(2) 0.0";
   "total(1) 0.6"; "total(2) 0.7"; "diffCoeff(1) 0.5"; "diffCoeff(2) 0.4";
   "scattMatrix(1, 1) 0.31"; "scattMatrix(1, 2) 0.32"; "scattMatrix(2, 1) 0.01"; "scattMatrix(2, 2) 0.42"].
Definition source : list string :=
  ["solvers ads"; "geometry sphere"; "mesh 2 2.0 fuel"; "solver ads"; "accuracy 0.001"; "max_iteration_number 10";
   "albedo 0.25"; "energies 1"; "ext_source 7.5 1 1"; "material fuel"; "ni(1) 2.5"; "chi(1) 1.0"; "fission(1) 0.1"; "total(1) 0.3";
   "diffCoeff(1) 1.0"; "scattMatrix(1, 1) 0.2"].
Definition good : list string := slab "accuracy 0.001" "temperatures 300.0 2 400.0 1".
Definition lines_of (ls : list string) : list string := match storeInput (Some (Files.text ls)) with Ok l => l | _ => [] end.
Definition get (ls : list string) : input Q :=
  match Files.read ls with Ok i => i | _ => mkInput [] newReactor [] [] [] [] end.
Definition cell (ls : list string) (m : nat) : material Q := nth m (ms_mats (in_mesh (get ls))) (newMaterial "").
Definition solver (ls : list string) (m : nat) : solverData Q := nth m (in_solvers (get ls)) (newSolverData SolUNDEFINED).
(* the file is accepted and P holds of what is read *)
Definition accepted (ls : list string) (P : input Q -> Prop) : Prop := match Files.read ls with Ok inp => P inp | _ => False end.
End Data.

Example C80_example :
  Data.accepted Data.good (fun inp => map sd_kind (in_solvers inp) = [DIFFUSION; HEAT; COUPLED] /\ ms_groups (in_mesh inp) = 2 /\
      map mt_name (ms_mats (in_mesh inp)) = ["fuel"; "fuel"; "water"] /\
      map mt_fisXS (ms_mats (in_mesh inp)) = [[[1 # 10]; [1 # 5; -1 # 1000]]; [[1 # 10]; [1 # 5; -1 # 1000]]; [[0]; [0]]]%Q /\
      map mt_diff (ms_mats (in_mesh inp)) = [[[1]; [3 # 2]]; [[1]; [3 # 2]]; [[1 # 2]; [2 # 5]]]%Q /\
      map mt_scatt (ms_mats (in_mesh inp)) = [[[11 # 100]; [3 # 25]; [0]; [11 # 50]]; [[11 # 100]; [3 # 25]; [0]; [11 # 50]];
        [[31 # 100]; [8 # 25]; [1 # 100]; [21 # 50]]]%Q).
Proof. vm_compute. repeat split; reflexivity. Qed.
Example C81_example :
  named_first (Data.lines_of Data.good) [DIFFUSION; HEAT; COUPLED] /\
  Data.accepted Data.good (fun inp => map sd_kind (in_solvers inp) = [DIFFUSION; HEAT; COUPLED] /\
      map sd_acc (in_solvers inp) = [1 # 1000; 1 # 500; 3 # 1000]%Q /\ map sd_max (in_solvers inp) = [10; 20; 30] /\
      map sd_albedo (in_solvers inp) = [[1 # 4; 1 # 2]; [0]; [0]]%Q /\ map sd_dir (in_solvers inp) = [ADJOINT; DirUNDEFINED; DirUNDEFINED] /\
      map sd_eig (in_solvers inp) = [EigALL; EigUNDEFINED; EigUNDEFINED] /\
      map sd_heatbc (in_solvers inp) = [[]; [1; 2; 3; 4; 5; 6]; []]%Q /\ map sd_relax (in_solvers inp) = [0; 0; 1 # 2]%Q) /\
  named_first (Data.lines_of Data.source) [ADS] /\
  Data.accepted Data.source (fun inp => map sd_kind (in_solvers inp) = [ADS] /\ map sd_albedo (in_solvers inp) = [[1 # 4]]%Q /\
      ms_groups (in_mesh inp) = 1 /\ rx_ext (in_rx inp) = ((15 # 2)%Q, 1, 1)).
Proof.
  split; [apply first_word_named; vm_compute; reflexivity|]. split; [vm_compute; repeat split; reflexivity|].
  split; [apply first_word_named; vm_compute; reflexivity|]. vm_compute. repeat split; reflexivity.
Qed.
Example C82_example :
  Data.accepted Data.good (fun inp => map mt_temp (ms_mats (in_mesh inp)) = [300; 300; 400]%Q /\
      map mt_cond (ms_mats (in_mesh inp)) = [Some [10; 1 # 2]; Some [10; 1 # 2]; Some [3 # 5]]%Q /\
      rx_power (in_rx inp) = 5%Q /\ ms_geom (in_mesh inp) = SLAB /\ in_plots inp = [TEMPERATURE; NEUTRONFLUX]) /\
  Data.accepted Files.kinetics (fun inp => ks_times (rx_kin (in_rx inp)) = [0; 1]%Q /\ ks_reacts (rx_kin (in_rx inp)) = [1 # 1000; 1 # 1000]%Q).
Proof. vm_compute. repeat split; reflexivity. Qed.

(* Two accuracies on the line: the file is accepted, and neither is used. *)
Theorem C81_value_count_refuted : exists ls lines inp s,
  storeInput (Some (Files.text ls)) = Ok lines /\ Files.read ls = Ok inp /\ named_first lines (map sd_kind (in_solvers inp)) /\
  In s (in_solvers inp) /\ section_words lines "solver" (get_solver_name (sd_kind s)) "accuracy" ["accuracy"; "0.001"; "0.0001"] /\
  sd_acc s = 0%Q.
Proof.
  pose (ls := Data.slab "accuracy 0.001 0.0001" "temperatures 300.0 3").
  exists ls, (Data.lines_of ls), (Data.get ls), (Data.solver ls 0).
  split; [vm_compute; reflexivity|]. split; [vm_compute; reflexivity|].
  split; [apply first_word_named; vm_compute; reflexivity|]. split; [vm_compute; left; reflexivity|]. split; [|vm_compute; reflexivity].
  apply propertyWords_section. vm_compute. reflexivity.
Qed.
(* Fewer temperatures than cells: the file is accepted, the last cell is at zero; one
   more than cells and the reader writes past the end of the cells. *)
Theorem C82_temperature_count_refuted :
  (exists ls inp, Files.read ls = Ok inp /\ entry (Data.lines_of ls) "temperatures" ["300.0"; "2"] /\
     length (ms_mats (in_mesh inp)) = 3%nat /\ map mt_temp (ms_mats (in_mesh inp)) = [300; 300; 0]%Q) /\
  (exists ls, entry (Data.lines_of ls) "temperatures" ["300.0"; "4"] /\ exists m, Files.read ls = UB m).
Proof.
  split.
  - exists (Data.slab "accuracy 0.001" "temperatures 300.0 2"). eexists. split; [vm_compute; reflexivity|].
    split; [apply read_entry; [vm_compute; reflexivity|discriminate]|]. split; vm_compute; reflexivity.
  - exists (Data.slab "accuracy 0.001" "temperatures 300.0 4").
    split; [apply read_entry; [vm_compute; reflexivity|discriminate]|]. eexists. vm_compute. reflexivity.
Qed.
Print Assumptions C81_value_count_refuted.
Print Assumptions C82_temperature_count_refuted.
