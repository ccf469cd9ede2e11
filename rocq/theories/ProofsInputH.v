(* Lemmas on the data of heat and kinetics solvers: from the lines to the reactor. *)
From Coq Require Import String Ascii ZArith List Bool Lia Arith.
From Verif Require Import Base BaseLemmas ModelNumTools ModelMesh ModelReactor ModelOutput ModelCalculation ModelText ModelInput
  ProofsInput ProofsInputB ProofsInputC ProofsInputD ProofsInputE ProofsInputF ProofsInputG.
Import ListNotations.
Local Open Scope string_scope.
Local Open Scope Z_scope.

Section Reading.
Context {T : Type} {N : Num T}.
Variable mpi : T.
Variable stod_opt : string -> option T.
Notation kinds inp := (map sd_kind (in_solvers inp)).
Notation setMany := (setManyParameters stod_opt).

(* ---------- values to cells ---------- *)

Lemma upd_cells (g : T -> material T -> material T) (xs : list T) (l l' : list (material T)) :
  zfor 0 (vlen (vec_of_list n0 xs)) (fun i l => t <- vget (vec_of_list n0 xs) i ;; upd_mat (g t) i l) l = Ok l' ->
  (length xs <= length l)%nat /\ length l' = length l /\
  forall m mt', nth_error l' m = Some mt' -> exists mt, nth_error l m = Some mt /\
    mt' = if (m <? length xs)%nat then g (nth m xs n0) mt else mt.
Proof.
  intros H. cbn [vlen vec_of_list] in H.
  assert (Q : (length xs <= length l)%nat /\ length l' = length l /\
    forall m mt', nth_error l' m = Some mt' -> exists mt, nth_error l m = Some mt /\
      mt' = if Z.of_nat m <? zlen xs then g (nth m xs n0) mt else mt).
  { enough (Q : zlen xs <= Z.of_nat (length l) /\ length l' = length l /\
      forall m mt', nth_error l' m = Some mt' -> exists mt, nth_error l m = Some mt /\
      mt' = if Z.of_nat m <? zlen xs then g (nth m xs n0) mt else mt) by (unfold zlen in Q at 1; split; [lia|apply Q]).
    refine (zfor_inv (fun k l' => k <= Z.of_nat (length l) /\ length l' = length l /\
      forall m mt', nth_error l' m = Some mt' -> exists mt, nth_error l m = Some mt /\
      mt' = if Z.of_nat m <? k then g (nth m xs n0) mt else mt) _ _ _ _ _ _ _ _ H).
    - unfold zlen. lia.
    - split; [lia|]. split; [reflexivity|]. intros m mt' E. exists mt'. split; [exact E|].
      destruct (Z.ltb_spec (Z.of_nat m) 0); [lia|reflexivity].
    - intros k a b Hk (I1 & I2 & I3) E. apply bind_ok_inv in E. destruct E as (t & Et & E). unfold upd_mat in E.
      apply bind_ok_inv in E. destruct E as (mt & Em & E). apply lget_inv in Em. destruct Em as [_ Em].
      apply lset_inv in E. destruct E as (_ & L & ->).
      assert (t = nth (Z.to_nat k) xs n0) as ->.
      { unfold vget in Et. destruct (inb _ _); [|discriminate Et]. injection Et as <-. reflexivity. }
      split; [lia|]. split; [rewrite list_upd_len; exact I2|]. intros m mt' E.
      destruct (Nat.eq_dec m (Z.to_nat k)) as [->|Hm].
      + rewrite list_upd_same in E by exact L. injection E as <-. destruct (I3 _ _ Em) as (mt0 & F1 & F2). exists mt0. split; [exact F1|].
        replace (Z.of_nat (Z.to_nat k)) with k in * by lia. rewrite Z.ltb_irrefl in F2. rewrite (proj2 (Z.ltb_lt k (k + 1))) by lia. congruence.
      + rewrite list_upd_other in E by exact Hm. destruct (I3 _ _ E) as (mt0 & F1 & F2). exists mt0. split; [exact F1|].
        rewrite F2. destruct (Z.ltb_spec (Z.of_nat m) k), (Z.ltb_spec (Z.of_nat m) (k + 1)); try reflexivity; lia. }
  destruct Q as (Q1 & Q2 & Q3). split; [exact Q1|]. split; [exact Q2|]. intros m mt' E. destruct (Q3 m mt' E) as (mt & F1 & F2).
  exists mt. split; [exact F1|]. rewrite F2. unfold zlen. destruct (Z.ltb_spec (Z.of_nat m) (Z.of_nat (length xs))), (Nat.ltb_spec m (length xs)); try reflexivity; lia.
Qed.

(* ---------- a datum that one kind of turn sets ---------- *)

Lemma loop_post (I Good : input T -> Prop) k0 (l : list (solverData T)) :
  (forall a k b, I a -> readSolverInput stod_opt a k = Ok b -> I b) ->
  (forall a b, I a -> readSolverInput stod_opt a k0 = Ok b -> Good b) ->
  (forall a k b, I a -> k <> k0 -> readSolverInput stod_opt a k = Ok b -> Good a -> Good b) ->
  forall inp inp', I inp -> foreach l (fun s inp => readSolverInput stod_opt inp (sd_kind s)) inp = Ok inp' ->
  In k0 (map sd_kind l) -> Good inp'.
Proof.
  intros HI HG HK. enough (Q : forall inp inp', I inp ->
    foreach l (fun s inp => readSolverInput stod_opt inp (sd_kind s)) inp = Ok inp' -> In k0 (map sd_kind l) \/ Good inp -> Good inp').
  { intros inp inp' H1 H2 H3. apply (Q inp inp' H1 H2). left. exact H3. }
  induction l as [|s l IH]; intros inp inp' Hi H Hk.
  - injection H as <-. destruct Hk as [[]|Hk]. exact Hk.
  - cbn [foreach] in H. apply bind_ok_inv in H. destruct H as (i1 & H1 & H2). apply (IH i1 inp' (HI _ _ _ Hi H1) H2).
    destruct (kind_eqb (sd_kind s) k0) eqn:E.
    + right. apply kind_eqb_eq in E. rewrite E in H1. exact (HG _ _ Hi H1).
    + assert (Hne : sd_kind s <> k0) by (intros F; apply kind_eqb_eq in F; congruence).
      destruct Hk as [[F|Hk]|Hk]; [contradiction|left; exact Hk|right; exact (HK _ _ _ Hi Hne H1 Hk)].
Qed.

(* what stays put while the turns are taken *)
Record steady (c a : input T) : Prop := {
  sy_fixed : fixed c a;
  sy_solvers : in_solvers a = in_solvers c;
  sy_mesh : mesh_same (in_mesh c) (in_mesh a);
  sy_names : Forall2 (fun x y => mt_name y = mt_name x) (ms_mats (in_mesh c)) (ms_mats (in_mesh a))
}.
Lemma steady_refl c : steady c c.
Proof. constructor; [apply fixed_refl|reflexivity|repeat split|apply forall2_refl; reflexivity]. Qed.
Lemma mesh_same_trans (a b c : mesh T) : mesh_same a b -> mesh_same b c -> mesh_same a c.
Proof.
  intros (? & ? & ? & ? & ? & ? & ?) (? & ? & ? & ? & ? & ? & ?). repeat split; etransitivity; eassumption.
Qed.
Lemma steady_turn c a k b : steady c a -> readSolverInput stod_opt a k = Ok b -> steady c b.
Proof.
  intros [A1 A2 A3 A4] H.
  apply (readSolverInput_spec stod_opt (fun x y => mt_name y = mt_name x)) in H.
  - destruct H as (B1 & B2 & (B3 & B4) & _). constructor.
    + exact (fixed_trans _ _ _ A1 B1).
    + congruence.
    + exact (mesh_same_trans _ _ _ A3 B3).
    + apply (Forall2_trans _ _ (ms_mats (in_mesh a)) _); [intros; congruence|exact A4|exact B4].
  - reflexivity.
  - intros; congruence.
  - intros _ ? ? ?. apply name_push.
  - intros _. repeat split.
Qed.

(* the materials of the turns of the other kinds *)
Lemma other_turn (R : material T -> material T -> Prop) k a b :
  (forall m, R m m) -> (forall a b c, R a b -> R b c -> R a c) -> (forall name c mt, R mt (push_law name c mt)) ->
  k <> HEAT -> readSolverInput stod_opt a k = Ok b -> Forall2 R (ms_mats (in_mesh a)) (ms_mats (in_mesh b)).
Proof.
  intros R1 R2 R3 Hk H. apply (readSolverInput_spec stod_opt R) in H; auto.
  - destruct H as (_ & _ & (_ & M) & _). exact M.
  - intros F. contradiction.
Qed.

(* ---------- heat ---------- *)

Section Heat.
Variable c : input T.
Let lines := in_lines c.
Hypothesis Hcells : forall m, (m < length (ms_mats (in_mesh c)))%nat -> Z.of_nat m < ms_cells (in_mesh c).
Hypothesis Hlist : forall nm, In nm (in_map c) -> In nm (in_list c).

Definition conduction (nm : string) (mt : material T) : Prop :=
  exists ks, mt_cond mt = Some ks /\ law stod_opt lines nm "thermal_conductivity" 1 ks /\ (1 <= length ks <= 3)%nat.

Lemma setMaterialProperties_gives a b : steady c a -> setMaterialProperties stod_opt a = Ok b ->
  cellwise (in_map c) conduction (ms_mats (in_mesh b)).
Proof.
  intros [(S1 & S2 & S3 & _) _ (_ & _ & S5 & _ & _ & _ & S6) _] H m nm mt E1 E2.
  assert (Lm : length (ms_mats (in_mesh b)) = length (ms_mats (in_mesh a))).
  { apply (setMaterialProperties_rel stod_opt (fun _ _ => True)) in H; auto. destruct H as (ms & -> & M & _). apply M. }
  assert (Lt : (m < length (ms_mats (in_mesh b)))%nat) by (apply nth_error_Some; rewrite E2; discriminate).
  rewrite <- S2 in E1.
  refine (proj2 (forMaterials_cells (fun _ _ => True) conduction a _ b _ _ H _ m nm mt E1 E2) _ _); auto.
  - intros nm0 i ms ms' Hi Hb. rewrite S1 in Hb. apply bind_ok_inv in Hb. destruct Hb as (line & Hl & Hb).
    unfold setThermalConductivity in Hb. destruct (splitLine line) as [|w [|v vs]] eqn:Ew; try discriminate Hb.
    destruct (Z.ltb_spec (zlen (w :: v :: vs)) 5) as [Lw|_]; [|discriminate Hb].
    apply bind_ok_inv in Hb. destruct Hb as (mt0 & Hm & Hb). apply bind_ok_inv in Hb. destruct Hb as (ks & Hk & Hb).
    apply bind_ok_inv in Hb. destruct Hb as (mats & Hs & Hb). apply bind_ok_inv in Hb. destruct Hb as (u & _ & Hb). injection Hb as <-.
    apply lget_inv in Hm. apply lset_inv in Hs. destruct Hm as [_ Hm]. destruct Hs as (_ & L & ->). cbn [ms_mats with_mats]. split.
    + intros j Hj. apply list_upd_other. exact Hj.
    + intros mt' E. rewrite list_upd_same in E by exact L. injection E as <-. exists mt0. split; [exact Hm|]. intros _.
      exists ks. split; [reflexivity|]. split.
      * exists line, (v :: vs). split; [exact Hl|]. rewrite Ew. split; [reflexivity|exact Hk].
      * apply stods_length in Hk. unfold zlen in Lw. cbn [length] in *. lia.
  - intros i x y _ _. exact I.
  - rewrite S5. apply Hcells. rewrite <- S6, <- Lm. exact Lt.
  - rewrite S3. apply Hlist. rewrite <- S2. exact (nth_error_In _ _ E1).
Qed.
Lemma cellwise_same (P : string -> material T -> Prop) names l l' (R : material T -> material T -> Prop) :
  (forall nm a b, R a b -> P nm a -> P nm b) -> Forall2 R l l' -> cellwise names P l -> cellwise names P l'.
Proof.
  intros HP HR H m nm mt E1 E2. destruct (Forall2_nth_r _ _ _ HR m mt E2) as (mt0 & E0 & R0). exact (HP nm mt0 mt R0 (H m nm mt0 E1 E0)).
Qed.

(* the values of the cells; xs is what the line lists *)
Definition listed (get : material T -> T) (xs : list T) (l : list (material T)) : Prop :=
  (length xs <= length l)%nat /\ forall m mt, nth_error l m = Some mt -> get mt = nth m xs n0.
Definition default (get : material T -> T) (xs : list T) (l : list (material T)) : Prop :=
  forall m mt, (length xs <= m)%nat -> nth_error l m = Some mt -> get mt = n0.
Lemma listed_upd get g xs l l' : (forall t m, get (g t m) = t) -> default get xs l ->
  zfor 0 (vlen (vec_of_list n0 xs)) (fun i l => t <- vget (vec_of_list n0 xs) i ;; upd_mat (g t) i l) l = Ok l' ->
  listed get xs l' /\ default get xs l'.
Proof.
  intros Hg Hd H. apply upd_cells in H. destruct H as (H1 & H2 & H3).
  assert (D : default get xs l').
  { intros m mt Hm E. destruct (H3 m mt E) as (mt0 & E0 & ->). destruct (Nat.ltb_spec m (length xs)); [lia|]. exact (Hd m mt0 Hm E0). }
  split; [|exact D]. split; [rewrite H2; exact H1|].
  intros m mt E. destruct (Nat.lt_ge_cases m (length xs)) as [L|L]; [|rewrite (D m mt L E), nth_overflow by exact L; reflexivity].
  destruct (H3 m mt E) as (mt0 & E0 & ->). destruct (Nat.ltb_spec m (length xs)); [|lia]. apply Hg.
Qed.
Lemma listed_same get xs l l' (R : material T -> material T -> Prop) : (forall a b, R a b -> get b = get a) -> Forall2 R l l' ->
  (listed get xs l -> listed get xs l') /\ (default get xs l -> default get xs l').
Proof.
  intros HR H. split.
  - intros [L1 L2]. split; [rewrite <- (forall2_len _ _ _ H); exact L1|]. intros m mt E.
    destruct (Forall2_nth_r _ _ _ H m mt E) as (mt0 & E0 & R0). rewrite (HR _ _ R0). exact (L2 m mt0 E0).
  - intros D m mt Hm E. destruct (Forall2_nth_r _ _ _ H m mt E) as (mt0 & E0 & R0). rewrite (HR _ _ R0). exact (D m mt0 Hm E0).
Qed.
Definition coupled_kinds : Prop := In TRANSPORT (kinds c) \/ In DIFFUSION (kinds c).

(* before any heat turn the cells beyond the lists hold zeros *)
Record cold (a : input T) : Prop := {
  cd_steady : steady c a;
  cd_temp : forall xs, setMany lines "temperatures" = Ok xs -> default mt_temp xs (ms_mats (in_mesh a));
  cd_heat : forall xs, setMany lines "heat_sources" = Ok xs -> default mt_heat xs (ms_mats (in_mesh a))
}.
(* after one *)
Record hot (a : input T) : Prop := {
  ht_cond : cellwise (in_map c) conduction (ms_mats (in_mesh a));
  ht_temp : exists xs, setMany lines "temperatures" = Ok xs /\ listed mt_temp xs (ms_mats (in_mesh a));
  ht_heat : ~ coupled_kinds -> exists xs, setMany lines "heat_sources" = Ok xs /\ listed mt_heat xs (ms_mats (in_mesh a));
  ht_power : coupled_kinds -> exists w p, readOneParameter lines "thermal_power" = Ok w /\ stod_opt w = Some p /\ rx_power (in_rx a) = p
}.
Definition not_heat (a b : material T) : Prop := mt_cond b = mt_cond a /\ mt_temp b = mt_temp a /\ mt_heat b = mt_heat a.
Lemma push_not_heat name k (mt : material T) : not_heat mt (push_law name k mt).
Proof. unfold push_law. repeat (match goal with |- context [if ?b then _ else _] => destruct b end); repeat split. Qed.
Lemma not_heat_trans a b d : not_heat a b -> not_heat b d -> not_heat a d.
Proof. unfold not_heat. intros (A1 & A2 & A3) (B1 & B2 & B3). repeat split; etransitivity; eassumption. Qed.

Lemma coupled_here a : steady c a ->
  (isElementHere (in_solvers a) TRANSPORT || isElementHere (in_solvers a) DIFFUSION)%bool = true <-> coupled_kinds.
Proof. intros S. rewrite (sy_solvers _ _ S), orb_true_iff, !here_in. reflexivity. Qed.

(* the three parts of a heat turn *)
Lemma heat_turn a b : readSolverInput stod_opt a HEAT = Ok b -> steady c a ->
  exists a1 a2, steady c a1 /\ steady c a2 /\
    (coupled_kinds -> (exists w p, readOneParameter lines "thermal_power" = Ok w /\ stod_opt w = Some p /\ rx_power (in_rx a1) = p) /\
       ms_mats (in_mesh a1) = ms_mats (in_mesh a)) /\
    (~ coupled_kinds -> exists xs, setMany lines "heat_sources" = Ok xs /\
       zfor 0 (vlen (vec_of_list n0 xs)) (fun i l => t <- vget (vec_of_list n0 xs) i ;; upd_mat (set_heat t) i l) (ms_mats (in_mesh a)) = Ok (ms_mats (in_mesh a1))) /\
    setMaterialProperties stod_opt a1 = Ok a2 /\ rx_power (in_rx a2) = rx_power (in_rx a1) /\
    (exists xs, setMany lines "temperatures" = Ok xs /\
       zfor 0 (vlen (vec_of_list n0 xs)) (fun i l => t <- vget (vec_of_list n0 xs) i ;; upd_mat (set_temp t) i l) (ms_mats (in_mesh a2)) = Ok (ms_mats (in_mesh b))) /\
    rx_power (in_rx b) = rx_power (in_rx a2).
Proof.
  intros H S. pose proof (coupled_here a S) as HC. cbn [readSolverInput] in H.
  apply bind_ok_inv in H. destruct H as (a1 & H1 & H). apply bind_ok_inv in H. destruct H as (a2 & H2 & H3).
  assert (La : in_lines a = lines) by apply (sy_fixed _ _ S).
  assert (S1 : steady c a1).
  { destruct S as [(F1 & F2 & F3 & F4) SS (M1 & M2 & M3 & M4 & M5 & M6 & M7) SN]. destruct (_ || _)%bool.
    - unfold setThermalPower in H1. apply bind_ok_inv in H1. destruct H1 as (w & _ & H1). apply bind_ok_inv in H1. destruct H1 as (p & _ & H1).
      injection H1 as <-. constructor; [repeat split; assumption|assumption|repeat split; assumption|assumption].
    - apply (setHeatSources_rel stod_opt (fun x y => mt_name y = mt_name x)) in H1; try (intros; congruence); try reflexivity.
      destruct H1 as (ms & -> & (Q1 & Q2 & Q3 & Q4 & Q5 & Q6 & Q7) & Q8). unfold in_mesh in *.
      constructor; [repeat split; assumption|assumption|unfold in_mesh; cbn; repeat split; congruence|].
      unfold in_mesh. cbn. apply (Forall2_trans _ _ _ _ (fun x y z (P1 : mt_name y = mt_name x) (P2 : mt_name z = mt_name y) => eq_trans P2 P1) SN Q8). }
  assert (S2 : steady c a2).
  { destruct S1 as [(F1 & F2 & F3 & F4) SS (M1 & M2 & M3 & M4 & M5 & M6 & M7) SN]. cbn [setMaterials] in H2.
    apply (setMaterialProperties_rel stod_opt (fun x y => mt_name y = mt_name x)) in H2; try (intros; congruence); try reflexivity.
    destruct H2 as (ms & -> & (Q1 & Q2 & Q3 & Q4 & Q5 & Q6 & Q7) & Q8). unfold in_mesh in *.
    constructor; [repeat split; assumption|assumption|unfold in_mesh; cbn; repeat split; congruence|].
    unfold in_mesh. cbn. apply (Forall2_trans _ _ _ _ (fun x y z (P1 : mt_name y = mt_name x) (P2 : mt_name z = mt_name y) => eq_trans P2 P1) SN Q8). }
  exists a1, a2. split; [exact S1|]. split; [exact S2|].
  split; [|split; [|split; [exact H2|split; [|split]]]].
  - intros Hk. apply HC in Hk. rewrite Hk in H1. unfold setThermalPower in H1. apply bind_ok_inv in H1. destruct H1 as (w & Hw & H1).
    apply bind_ok_inv in H1. destruct H1 as (p & Hp & H1). injection H1 as <-. split; [|reflexivity].
    exists w, p. rewrite <- La. split; [exact Hw|]. split; [|reflexivity]. unfold stod in Hp. destruct (stod_opt w); [congruence|discriminate Hp].
  - intros Hk. destruct (_ || _)%bool; [exfalso; apply Hk, HC; reflexivity|]. unfold setHeatSources in H1.
    apply bind_ok_inv in H1. destruct H1 as (xs & Hx & H1). apply bind_ok_inv in H1. destruct H1 as (ms & Hm & H1). injection H1 as <-.
    exists xs. rewrite <- La. split; [exact Hx|]. unfold ModelMesh.setHeatSources in Hm. apply bind_ok_inv in Hm. destruct Hm as (l & Hl & Hm).
    injection Hm as <-. exact Hl.
  - cbn [setMaterials] in H2. unfold setMaterialProperties, forMaterials in H2. apply bind_ok_inv in H2. destruct H2 as (ms & _ & H2).
    injection H2 as <-. reflexivity.
  - assert (L2 : in_lines a2 = lines) by apply (sy_fixed _ _ S2). unfold setTemperatures in H3.
    apply bind_ok_inv in H3. destruct H3 as (xs & Hx & H3). apply bind_ok_inv in H3. destruct H3 as (ms & Hm & H3). injection H3 as <-.
    exists xs. rewrite <- L2. split; [exact Hx|]. unfold ModelMesh.setTemperatures in Hm. apply bind_ok_inv in Hm. destruct Hm as (l & Hl & Hm).
    injection Hm as <-. exact Hl.
  - unfold setTemperatures in H3. apply bind_ok_inv in H3. destruct H3 as (xs & Hx & H3). apply bind_ok_inv in H3.
    destruct H3 as (ms & Hm & H3). injection H3 as <-. reflexivity.
Qed.

(* the materials behind each of the three parts *)
Lemma cond_rest a b : setMaterialProperties stod_opt a = Ok b ->
  Forall2 (fun x y => mt_temp y = mt_temp x /\ mt_heat y = mt_heat x) (ms_mats (in_mesh a)) (ms_mats (in_mesh b)).
Proof.
  intros H. apply (setMaterialProperties_rel stod_opt (fun x y => mt_temp y = mt_temp x /\ mt_heat y = mt_heat x)) in H; auto.
  - destruct H as (ms & -> & _ & M). exact M.
  - intros x y z [A1 A2] [B1 B2]. split; congruence.
Qed.
Lemma upd_rest (g : T -> material T -> material T) (R : material T -> material T -> Prop) xs l l' :
  (forall m, R m m) -> (forall t m, R m (g t m)) ->
  zfor 0 (vlen (vec_of_list n0 xs)) (fun i l => t <- vget (vec_of_list n0 xs) i ;; upd_mat (g t) i l) l = Ok l' -> Forall2 R l l'.
Proof.
  intros R1 R2 H. apply upd_cells in H. destruct H as (_ & L & H).
  revert l' L H. induction l as [|x l IH]; intros [|y l'] L H; try discriminate L; constructor.
  - destruct (H 0%nat y eq_refl) as (mt & E & ->). injection E as <-. destruct (_ <? _)%nat; auto.
  - clear IH. revert L H. generalize (length xs). intros n L H.
    assert (Q : forall m mt', nth_error l' m = Some mt' -> exists mt, nth_error l m = Some mt /\ R mt mt').
    { intros m mt' E. destruct (H (S m) mt' E) as (mt & F & ->). exists mt. split; [exact F|]. destruct (_ <? _)%nat; auto. }
    injection L as L. clear -L Q. revert l' L Q. induction l as [|a l IH]; intros [|b l'] L Q; try discriminate L; constructor.
    + destruct (Q 0%nat b eq_refl) as (mt & E & F). injection E as <-. exact F.
    + apply IH; [injection L; auto|]. intros m mt' E. exact (Q (S m) mt' E).
Qed.
Definition coupled_dec : {coupled_kinds} + {~ coupled_kinds}.
Proof.
  destruct (isElementHere (in_solvers c) TRANSPORT || isElementHere (in_solvers c) DIFFUSION)%bool eqn:E.
  - left. apply (coupled_here c (steady_refl c)). exact E.
  - right. intros F. apply (coupled_here c (steady_refl c)) in F. congruence.
Qed.
Lemma heat_turn_all a b : cold a -> readSolverInput stod_opt a HEAT = Ok b -> cold b /\ hot b.
Proof.
  intros [S Ct Ch] H. pose proof (steady_turn _ _ _ _ S H) as Sb.
  destruct (heat_turn a b H S) as (a1 & a2 & S1 & S2 & P1 & P2 & H2 & E2 & (ts & Ht & Hu) & Eb).
  pose proof (cond_rest _ _ H2) as R2.
  assert (T1 : default mt_temp ts (ms_mats (in_mesh a1)) /\
    forall xs, setMany lines "heat_sources" = Ok xs -> default mt_heat xs (ms_mats (in_mesh a1)) /\ (~ coupled_kinds -> listed mt_heat xs (ms_mats (in_mesh a1)))).
  { destruct coupled_dec as [K|K].
    - destruct (P1 K) as [_ E]. rewrite E. split; [exact (Ct ts Ht)|]. intros xs Hx. split; [exact (Ch xs Hx)|]. intros F. contradiction.
    - destruct (P2 K) as (qs & Hq & Hv). split.
      + apply (upd_rest _ (fun x y => mt_temp y = mt_temp x)) in Hv; auto.
        apply (proj2 (listed_same mt_temp ts _ _ _ (fun a b E => E) Hv)). exact (Ct ts Ht).
      + intros xs Hx. rewrite Hq in Hx. injection Hx as <-. apply (listed_upd mt_heat) in Hv; auto. tauto. }
  destruct T1 as [T1 T1'].
  assert (T2 : default mt_temp ts (ms_mats (in_mesh a2))).
  { apply (proj2 (listed_same mt_temp ts _ _ (fun x y => mt_temp y = mt_temp x /\ mt_heat y = mt_heat x) (fun a b E => proj1 E) R2)). exact T1. }
  pose proof (setMaterialProperties_gives _ _ S1 H2) as CW.
  assert (Rb : Forall2 (fun x y => mt_heat y = mt_heat x /\ mt_cond y = mt_cond x) (ms_mats (in_mesh a2)) (ms_mats (in_mesh b))).
  { refine (upd_rest _ _ _ _ _ _ _ Hu); auto. }
  apply (listed_upd mt_temp) in Hu; auto. destruct Hu as [U1 U2].
  assert (T3 : forall xs, setMany lines "heat_sources" = Ok xs -> default mt_heat xs (ms_mats (in_mesh b)) /\ (~ coupled_kinds -> listed mt_heat xs (ms_mats (in_mesh b)))).
  { intros xs Hx. destruct (T1' xs Hx) as [D1 D2].
    destruct (listed_same mt_heat xs _ _ (fun x y => mt_temp y = mt_temp x /\ mt_heat y = mt_heat x) (fun a b E => proj2 E) R2) as [L1 L2].
    destruct (listed_same mt_heat xs _ _ (fun x y => mt_heat y = mt_heat x /\ mt_cond y = mt_cond x) (fun a b E => proj1 E) Rb) as [L3 L4].
    split; [auto|]. intros K. auto. }
  split.
  - constructor; [exact Sb| |intros xs Hx; apply (T3 xs Hx)]. intros xs Hx. rewrite Ht in Hx. injection Hx as <-. exact U2.
  - constructor.
    + refine (cellwise_same conduction _ _ _ _ _ Rb CW). intros nm x y [_ E] (ks & Q1 & Q2). exists ks. rewrite E. auto.
    + exists ts. auto.
    + intros K. destruct (P2 K) as (qs & Hq & _). exists qs. split; [exact Hq|]. apply (T3 qs Hq). exact K.
    + intros K. destruct (P1 K) as ((w & p & Q1 & Q2 & Q3) & _). exists w, p. split; [exact Q1|]. split; [exact Q2|]. congruence.
Qed.
Lemma other_turn_cold a k b : k <> HEAT -> readSolverInput stod_opt a k = Ok b -> (cold a -> cold b) /\ (hot a -> hot b).
Proof.
  intros Hk H.
  pose proof (other_turn not_heat k a b (fun m => conj eq_refl (conj eq_refl eq_refl)) not_heat_trans push_not_heat Hk H) as R.
  assert (Ep : rx_power (in_rx b) = rx_power (in_rx a)).
  { apply (readSolverInput_spec stod_opt (fun _ _ => True)) in H; auto. destruct H as (_ & _ & _ & _ & _ & _ & _ & [E|[E _]]); [exact E|contradiction]. }
  split.
  - intros [S Ct Ch]. constructor; [exact (steady_turn _ _ _ _ S H)| |].
    + intros xs Hx. apply (proj2 (listed_same mt_temp xs _ _ not_heat (fun a b E => proj1 (proj2 E)) R)). exact (Ct xs Hx).
    + intros xs Hx. apply (proj2 (listed_same mt_heat xs _ _ not_heat (fun a b E => proj2 (proj2 E)) R)). exact (Ch xs Hx).
  - intros [A (ts & B1 & B2) C D]. constructor.
    + refine (cellwise_same conduction _ _ _ not_heat _ R A). intros nm x y [E _] (ks & Q1 & Q2). exists ks. rewrite E. auto.
    + exists ts. split; [exact B1|]. apply (proj1 (listed_same mt_temp ts _ _ not_heat (fun a b E => proj1 (proj2 E)) R)). exact B2.
    + intros K. destruct (C K) as (qs & C1 & C2). exists qs. split; [exact C1|].
      apply (proj1 (listed_same mt_heat qs _ _ not_heat (fun a b E => proj2 (proj2 E)) R)). exact C2.
    + rewrite Ep. exact D.
Qed.
Lemma heat_loop (l : list (solverData T)) d : cold c -> foreach l (fun s inp => readSolverInput stod_opt inp (sd_kind s)) c = Ok d ->
  In HEAT (map sd_kind l) -> hot d.
Proof.
  intros Hc. apply (loop_post cold hot HEAT l); [| | |exact Hc].
  - intros a k b Ha Hr. destruct (kind_eqb k HEAT) eqn:E.
    + apply kind_eqb_eq in E. subst k. exact (proj1 (heat_turn_all _ _ Ha Hr)).
    + assert (k <> HEAT) by (intros F; apply kind_eqb_eq in F; congruence). exact (proj1 (other_turn_cold _ _ _ H Hr) Ha).
  - intros a b Ha Hr. exact (proj2 (heat_turn_all _ _ Ha Hr)).
  - intros a k b _ Hk Hr. exact (proj2 (other_turn_cold _ _ _ Hk Hr)).
Qed.
End Heat.

(* ---------- kinetics ---------- *)

(* a number on its own line *)
Definition single (lines : list string) (key : string) (x : T) : Prop :=
  exists w, readOneParameter lines key = Ok w /\ stod_opt w = Some x.
Lemma single_ok lines key w x : readOneParameter lines key = Ok w -> stod stod_opt w = Ok x -> single lines key x.
Proof. intros H E. exists w. split; [exact H|]. unfold stod in E. destruct (stod_opt w); [congruence|discriminate E]. Qed.
Definition kinetic (lines : list string) (a : input T) : Prop :=
  let k := rx_kin (in_rx a) in
  single lines "generation_time" (ks_alpha k) /\ single lines "initial_power" (ks_power k) /\
  setMany lines "delayed_constants" = Ok (ks_lambda k) /\ setMany lines "delayed_fractions" = Ok (ks_beta k) /\
  setMany lines "times" = Ok (ks_times k) /\ setMany lines "reactivities" = Ok (ks_reacts k).
Lemma kinetics_loop c (l : list (solverData T)) d : foreach l (fun s inp => readSolverInput stod_opt inp (sd_kind s)) c = Ok d ->
  In KINETICS (map sd_kind l) -> kinetic (in_lines c) d.
Proof.
  apply (loop_post (steady c) (kinetic (in_lines c)) KINETICS l); [| | |apply steady_refl].
  - intros a k b. apply steady_turn.
  - intros a b S H. cbn [readSolverInput] in H. unfold setKineticsParameters in H.
    replace (in_lines a) with (in_lines c) in H by (symmetry; apply (sy_fixed _ _ S)).
    apply bind_ok_inv in H. destruct H as (x1 & H1 & H). apply bind_ok_inv in H. destruct H as (y1 & G1 & H).
    apply bind_ok_inv in H. destruct H as (x2 & H2 & H). apply bind_ok_inv in H. destruct H as (y2 & G2 & H).
    apply bind_ok_inv in H. destruct H as (x3 & H3 & H). apply bind_ok_inv in H. destruct H as (x4 & H4 & H).
    apply bind_ok_inv in H. destruct H as (x5 & H5 & H). apply bind_ok_inv in H. destruct H as (x6 & H6 & H).
    destruct (_ =? _); [|discriminate H]. injection H as <-. unfold kinetic. cbn. repeat split; eauto using single_ok.
  - intros a k b S Hk H Ha. apply (readSolverInput_spec stod_opt (fun _ _ => True)) in H; auto.
    destruct H as (_ & _ & _ & _ & _ & _ & [E|E] & _); [|contradiction]. unfold kinetic. rewrite E. exact Ha.
Qed.
End Reading.
