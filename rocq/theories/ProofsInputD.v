(* Lemmas on the solver list, the solver sections and the order of reading. *)
From Coq Require Import String Ascii ZArith List Bool Lia Arith.
From Verif Require Import Base BaseLemmas ModelNumTools ModelMesh ModelReactor ModelCalculation ModelText ModelInput
  ProofsInput ProofsInputB ProofsInputC.
Import ListNotations.
Local Open Scope string_scope.
Local Open Scope Z_scope.

Ltac crush H :=
  repeat (first
    [ discriminate H
    | match type of H with
      | Ok _ = Ok _ => injection H as <- <-
      | bind _ _ = Ok _ => let x := fresh "x" in let E := fresh "E" in apply bind_ok_inv in H; destruct H as (x & E & H)
      | (if ?b then _ else _) = Ok _ => let E := fresh "B" in destruct b eqn:E
      | (match ?k with _ => _ end) = Ok _ => destruct k
      end ]).

Section Reading.
Context {T : Type} {N : Num T}.
Variable mpi : T.
Variable stod_opt : string -> option T.

(* ---------- solver list ---------- *)

Definition solver_names : list (string * SolverKind) :=
  [("transport", TRANSPORT); ("kinetics", KINETICS); ("heat", HEAT); ("diffusion", DIFFUSION); ("ads", ADS)].
Lemma solver_of_word_known w k : In (w, k) solver_names -> solver_of_word (T := T) w = Ok (newSolverData k).
Proof. cbn. intros H. repeat (destruct H as [H|H]; [injection H as <- <-; reflexivity|]). contradiction. Qed.
Lemma solver_of_word_unknown w : (forall k, ~ In (w, k) solver_names) ->
  solver_of_word (T := T) w = Exit (w ++ " solver kind not recognized!").
Proof.
  intros H. unfold solver_of_word.
  repeat match goal with |- context [String.eqb w ?x] =>
    destruct (String.eqb_spec w x) as [->|?]; [exfalso; eapply H; cbn; eauto 7|] end. reflexivity.
Qed.
Lemma solver_of_word_cases w : (exists k, In (w, k) solver_names) \/ (forall k, ~ In (w, k) solver_names).
Proof.
  destruct (in_dec string_dec w (map fst solver_names)) as [H|H].
  - left. apply in_map_iff in H. destruct H as ([w' k] & <- & H). exists k. exact H.
  - right. intros k F. apply H. apply in_map_iff. exists (w, k). auto.
Qed.
Lemma solvers_known ws ks acc : Forall2 (fun w k => In (w, k) solver_names) ws ks ->
  foreach ws (fun w acc => s <- solver_of_word (T := T) w ;; Ok (acc ++ [s])%list) acc =
  Ok (acc ++ map newSolverData ks)%list.
Proof.
  intros H. revert acc. induction H as [|w k ws ks H _ IH]; intros acc; cbn [foreach map]; [rewrite app_nil_r; reflexivity|].
  rewrite (solver_of_word_known w k H). cbn [bind]. rewrite IH, <- app_assoc. reflexivity.
Qed.
Lemma solvers_unknown ws ks w rest acc : Forall2 (fun w k => In (w, k) solver_names) ws ks ->
  (forall k, ~ In (w, k) solver_names) ->
  foreach (ws ++ w :: rest)%list (fun w acc => s <- solver_of_word (T := T) w ;; Ok (acc ++ [s])%list) acc =
  Exit (w ++ " solver kind not recognized!").
Proof.
  intros H Hw. rewrite foreach_app, (solvers_known ws ks acc H). cbn [bind foreach].
  rewrite (solver_of_word_unknown w Hw). reflexivity.
Qed.
Lemma solvers_inv ws acc l : foreach ws (fun w acc => s <- solver_of_word (T := T) w ;; Ok (acc ++ [s])%list) acc = Ok l ->
  exists ks, Forall2 (fun w k => In (w, k) solver_names) ws ks.
Proof.
  revert acc. induction ws as [|w ws IH]; intros acc H; [exists []; constructor|]. cbn [foreach] in H.
  destruct (solver_of_word_cases w) as [[k Hk]|Hk].
  - rewrite (solver_of_word_known w k Hk) in H. cbn [bind] in H. destruct (IH _ H) as [ks Hks].
    exists (k :: ks). constructor; assumption.
  - rewrite (solver_of_word_unknown w Hk) in H. discriminate H.
Qed.

(* ---------- one property ---------- *)

(* what the geometry, the power, the fluxes and the kinetics data must keep *)
Definition rx_same (r r' : reactor T) : Prop :=
  rx_power r' = rx_power r /\ rx_fwd r' = rx_fwd r /\ rx_adj r' = rx_adj r /\ rx_kin r' = rx_kin r /\
  ms_geom (rx_mesh r') = ms_geom (rx_mesh r) /\ ms_bounds (rx_mesh r') = ms_bounds (rx_mesh r) /\
  ms_cells (rx_mesh r') = ms_cells (rx_mesh r) /\ length (ms_mats (rx_mesh r')) = length (ms_mats (rx_mesh r)).
Lemma rx_same_refl r : rx_same r r.
Proof. repeat split. Qed.
Lemma rx_same_trans r r' r'' : rx_same r r' -> rx_same r' r'' -> rx_same r r''.
Proof. unfold rx_same. intros H1 H2. repeat split; etransitivity; [apply H2|apply H1 | apply H2|apply H1 | apply H2|apply H1 | apply H2|apply H1 | apply H2|apply H1 | apply H2|apply H1 | apply H2|apply H1 | apply H2|apply H1]. Qed.

Lemma upd_mat_length f i (l l' : list (material T)) : upd_mat f i l = Ok l' -> length l' = length l.
Proof.
  unfold upd_mat. intros H. apply bind_ok_inv in H. destruct H as (m & _ & H).
  unfold lset in H. destruct (inb _ _); [|discriminate H]. injection H as <-. apply list_upd_length.
Qed.
Lemma zfor_upd_length (f : Z -> list (material T) -> res (list (material T))) lo hi l l' :
  (forall i l l', f i l = Ok l' -> length l' = length l) -> zfor lo hi f l = Ok l' -> length l' = length l.
Proof.
  intros Hf. unfold zfor. generalize (Z.to_nat (hi - lo)). intros n. revert lo l.
  induction n as [|n IH]; intros lo l H; cbn in H; [injection H as <-; reflexivity|].
  apply bind_ok_inv in H. destruct H as (l1 & H1 & H2). rewrite (IH _ _ H2). exact (Hf _ _ _ H1).
Qed.
Lemma setEnergyGroupsNumber_same n ms ms' : setEnergyGroupsNumber (T := T) n ms = Ok ms' ->
  ms_geom ms' = ms_geom ms /\ ms_bounds ms' = ms_bounds ms /\ ms_cells ms' = ms_cells ms /\
  length (ms_mats ms') = length (ms_mats ms) /\ ms_groups ms' = n.
Proof.
  unfold setEnergyGroupsNumber. intros H. apply bind_ok_inv in H. destruct H as (l & Hl & H). injection H as <-.
  cbn. repeat split. apply (zfor_upd_length _ _ _ _ _ (fun i l l' => upd_mat_length _ i l l') Hl).
Qed.

Definition arity (k : SolverKind) (g : GeomKind) : nat :=
  match k with DIFFUSION | ADS => if geom_eqb g SLAB then 2 else 1 | _ => 1 end.
Definition neutronic (k : SolverKind) : bool := match k with TRANSPORT | DIFFUSION | ADS => true | _ => false end.

Lemma stods_length l xs : stods stod_opt l = Ok xs -> length xs = length l.
Proof.
  revert xs. induction l as [|w l IH]; intros xs H; cbn in H; [injection H as <-; reflexivity|].
  apply bind_ok_inv in H. destruct H as (x & _ & H). apply bind_ok_inv in H. destruct H as (ys & Hy & H).
  injection H as <-. cbn. rewrite (IH _ Hy). reflexivity.
Qed.

Lemma applyProperty_spec k values s r s' r' :
  applyProperty stod_opt k values s r = Ok (s', r') ->
  sd_kind s' = sd_kind s /\ rx_same r r' /\
  (rx_ext r' = rx_ext r \/ k = ADS) /\
  (sd_albedo s' = sd_albedo s \/
     neutronic k = true /\ length (sd_albedo s') = arity k (ms_geom (rx_mesh r)) /\ exists rest, values = "albedo" :: rest) /\
  (* with three or six values the line is skipped *)
  ((exists rest, values = "albedo" :: rest /\ (length rest <= 2)%nat) ->
     neutronic k = true /\ length (sd_albedo s') = arity k (ms_geom (rx_mesh r))) /\
  (sd_relax s' = sd_relax s \/ exists w, values = ["relaxation_parameter"; w] /\ stod stod_opt w = Ok (sd_relax s')).
Proof.
  intros H. unfold applyProperty in H.
  destruct values as [|key [|a [|b [|c [|d [|e [|f [|g l]]]]]]]]; cbv zeta in H;
    try (match type of H with context [String.eqb] => idtac | _ => discriminate H end).
  all: crush H.
  all: repeat match goal with B : String.eqb _ _ = true |- _ => apply String.eqb_eq in B end; subst.
  all: repeat match goal with B : String.eqb _ _ = false |- _ => apply String.eqb_neq in B end.
  all: try match goal with E : setEnergyGroupsNumber _ _ = Ok _ |- _ => apply setEnergyGroupsNumber_same in E end.
  all: split; [reflexivity|].
  all: split; [first [apply rx_same_refl | (unfold rx_same; cbn; tauto)]|].
  all: split; [first [left; reflexivity | right; reflexivity]|].
  all: split; [first [left; reflexivity | right; cbn [neutronic arity sd_albedo set_albedo]; repeat match goal with B : geom_eqb _ _ = _ |- _ => rewrite B end; repeat split; eexists; reflexivity]|].
  all: split; [first [intros (rest & F & Fl); exfalso; first [congruence | injection F as _ <-; cbn in Fl; lia] | intros _; cbn [neutronic arity sd_albedo set_albedo]; repeat match goal with B : geom_eqb _ _ = _ |- _ => rewrite B end; split; reflexivity]|].
  all: first [left; reflexivity | right; eexists; split; [reflexivity|]; cbn; assumption].
Qed.

(* ---------- one property of every solver ---------- *)

Definition selected (k : SolverKind) (s : solverData T) : bool := (kind_eqb k SolUNDEFINED || kind_eqb (sd_kind s) k)%bool.

Lemma kind_eqb_eq a b : kind_eqb a b = true <-> a = b.
Proof. destruct a, b; cbn; split; intros; congruence. Qed.

Definition property_step (lines : list string) (name : string) (k : SolverKind) (g : GeomKind) (s s' : solverData T) : Prop :=
  (selected k s = false /\ s' = s) \/
  (selected k s = true /\ exists values r1 r2, propertyWords lines name (sd_kind s) = Ok values /\
     applyProperty stod_opt k values s r1 = Ok (s', r2) /\ ms_geom (rx_mesh r1) = g).

Lemma setSolverProperties_spec name k inp inp' : setSolverProperties stod_opt name k inp = Ok inp' ->
  in_lines inp' = in_lines inp /\ in_map inp' = in_map inp /\ in_list inp' = in_list inp /\ in_plots inp' = in_plots inp /\
  rx_same (in_rx inp) (in_rx inp') /\
  (rx_ext (in_rx inp') = rx_ext (in_rx inp) \/ (k = ADS /\ In ADS (map sd_kind (in_solvers inp)))) /\
  Forall2 (property_step (in_lines inp) name k (ms_geom (in_mesh inp))) (in_solvers inp) (in_solvers inp').
Proof.
  unfold setSolverProperties. intros H. apply bind_ok_inv in H. destruct H as ([l r] & H & E). injection E as <-.
  cbn [in_lines in_map in_list in_plots in_rx in_solvers with_rx with_solvers].
  assert (G : forall L l0 r0 l r, foreach L (fun s st =>
      let '(l, r) := st in
      if (kind_eqb k SolUNDEFINED || kind_eqb (sd_kind s) k)%bool
      then values <- propertyWords (in_lines inp) name (sd_kind s) ;;
           ' (s, r) <- applyProperty stod_opt k values s r ;;
           Ok (l ++ [s], r)%list
      else Ok (l ++ [s], r)%list) (l0, r0) = Ok (l, r) ->
    exists l1, l = (l0 ++ l1)%list /\ rx_same r0 r /\
      (rx_ext r = rx_ext r0 \/ (k = ADS /\ In ADS (map sd_kind L))) /\
      Forall2 (property_step (in_lines inp) name k (ms_geom (rx_mesh r0))) L l1).
  { clear l r H. induction L as [|s L IH]; intros l0 r0 l r H.
    - injection H as <- <-. exists []. rewrite app_nil_r. repeat split; auto using rx_same_refl.
    - cbn [foreach] in H. fold (selected k s) in H. apply bind_ok_inv in H. destruct H as ([l1 r1] & H1 & H2).
      destruct (selected k s) eqn:Es.
      + apply bind_ok_inv in H1. destruct H1 as (values & Hv & H1). apply bind_ok_inv in H1.
        destruct H1 as ([s1 r2] & Ha & H1). injection H1 as <- <-.
        destruct (applyProperty_spec _ _ _ _ _ _ Ha) as (A1 & A2 & A3 & _).
        destruct (IH _ _ _ _ H2) as (l2 & -> & B1 & B2 & B3).
        exists (s1 :: l2). rewrite <- app_assoc. split; [reflexivity|].
        split; [exact (rx_same_trans _ _ _ A2 B1)|]. split.
        * destruct B2 as [B2|[B2 B2']]; [|right; split; [exact B2|cbn; auto]].
          destruct A3 as [A3|A3]; [left; congruence|right]. split; [exact A3|]. left.
          unfold selected in Es. subst k. cbn in Es. apply kind_eqb_eq in Es. exact Es.
        * assert (Eg : ms_geom (rx_mesh r2) = ms_geom (rx_mesh r0)) by apply A2.
          constructor; [|rewrite <- Eg; exact B3]. right. split; [exact Es|]. exists values, r0, r2. auto.
      + injection H1 as <- <-. destruct (IH _ _ _ _ H2) as (l2 & -> & B1 & B2 & B3).
        exists (s :: l2). rewrite <- app_assoc. split; [reflexivity|]. split; [exact B1|]. split.
        * destruct B2 as [B2|[B2 B2']]; [left; exact B2|right; split; [exact B2|cbn; auto]].
        * constructor; [left; auto|exact B3]. }
  destruct (G _ _ _ _ _ H) as (l1 & -> & G1 & G2 & G3). cbn [List.app]. repeat split; try reflexivity; try apply G1; assumption.
Qed.
Lemma property_step_kind lines name k g s s' : property_step lines name k g s s' -> sd_kind s' = sd_kind s.
Proof.
  intros [[_ ->]|(_ & v & r1 & r2 & _ & H & _)]; [reflexivity|]. apply applyProperty_spec in H. apply H.
Qed.
Lemma property_steps_kinds lines name k g l l' : Forall2 (property_step lines name k g) l l' -> map sd_kind l' = map sd_kind l.
Proof.
  induction 1 as [|s s' l l' H _ IH]; [reflexivity|]. cbn. rewrite (property_step_kind _ _ _ _ _ _ H), IH. reflexivity.
Qed.

(* ---------- keywords an accepted file must contain ---------- *)

Definition has (lines : list string) (key : string) : Prop := exists x, In x (data_lines lines) /\ mentions key x.
Lemma findKeyword_has lines key low top l : findKeyword lines key low top false = Ok l -> 
  exists x, In x (data_lines lines) /\ mentions key x /\ l = lower x.
Proof.
  intros H. destruct (findKeyword_cases lines key low top) as [(k & x & F)|F].
  - rewrite (findKeyword_found lines key low top false k x F) in H. injection H as <-.
    exists x. destruct F as (F1 & F2 & _). split; [exact (nth_error_In _ _ F1)|]. auto.
  - rewrite (findKeyword_missing lines key low top false F) in H. discriminate H.
Qed.
Lemma readOne_has lines key w : readOneParameter lines key = Ok w -> has lines key.
Proof.
  intros H. apply bind_ok_inv in H. destruct H as (l & H & _). apply findKeyword_has in H.
  destruct H as (x & H1 & H2 & _). exists x. auto.
Qed.
Lemma readMany_has lines key w : readManyParameters lines key false = Ok w -> has lines key.
Proof.
  intros H. apply bind_ok_inv in H. destruct H as (l & H & _). apply findKeyword_has in H.
  destruct H as (x & H1 & H2 & _). exists x. auto.
Qed.
Lemma setMany_has lines key w : setManyParameters stod_opt lines key = Ok w -> has lines key.
Proof. intros H. apply bind_ok_inv in H. destruct H as (l & H & _). exact (readMany_has _ _ _ H). Qed.
Lemma propertyWords_has lines name k values : propertyWords lines name k = Ok values ->
  has lines ("solver " ++ get_solver_name k) /\
  exists x, In x (data_lines lines) /\ mentions name x /\ values = splitLine (lower x).
Proof.
  unfold propertyWords. intros H. apply bind_ok_inv in H. destruct H as (w & H1 & H).
  split; [exact (readOne_has _ _ _ H1)|]. cbv zeta in H. apply bind_ok_inv in H. destruct H as (l & H & E). injection E as <-.
  apply findKeyword_has in H. destruct H as (x & A & B & ->). exists x. auto.
Qed.

(* ---------- materials ---------- *)

Definition mesh_same (ms ms' : mesh T) : Prop :=
  ms_bounds ms' = ms_bounds ms /\ ms_geom ms' = ms_geom ms /\ ms_cells ms' = ms_cells ms /\
  ms_groups ms' = ms_groups ms /\ ms_nfwd ms' = ms_nfwd ms /\ ms_nadj ms' = ms_nadj ms /\
  length (ms_mats ms') = length (ms_mats ms).
(* every material of ms' comes from the material of the same cell by R *)
Definition mats_rel (R : material T -> material T -> Prop) (ms ms' : mesh T) : Prop :=
  mesh_same ms ms' /\ Forall2 R (ms_mats ms) (ms_mats ms').

Lemma mats_rel_refl (R : material T -> material T -> Prop) ms : (forall m, R m m) -> mats_rel R ms ms.
Proof.
  intros H. split; [repeat split|]. induction (ms_mats ms) as [|m l IH]; constructor; auto.
Qed.
Lemma forall2_len {A B} (R : A -> B -> Prop) l l' : Forall2 R l l' -> length l = length l'.
Proof. induction 1; cbn; congruence. Qed.
Lemma Forall2_trans {A} (R : A -> A -> Prop) l1 l2 l3 : (forall a b c, R a b -> R b c -> R a c) ->
  Forall2 R l1 l2 -> Forall2 R l2 l3 -> Forall2 R l1 l3.
Proof.
  intros Ht H. revert l3. induction H as [|a b l1 l2 H _ IH]; intros l3 H3; inversion H3; subst; constructor; eauto.
Qed.
Lemma mats_rel_trans (R : material T -> material T -> Prop) ms1 ms2 ms3 : (forall a b c, R a b -> R b c -> R a c) ->
  mats_rel R ms1 ms2 -> mats_rel R ms2 ms3 -> mats_rel R ms1 ms3.
Proof.
  intros Ht [A1 A2] [B1 B2]. split; [|exact (Forall2_trans R _ _ _ Ht A2 B2)].
  destruct A1 as (? & ? & ? & ? & ? & ? & ?), B1 as (? & ? & ? & ? & ? & ? & ?).
  repeat split; etransitivity; eassumption.
Qed.

Section Rel.
Variable R : material T -> material T -> Prop.
Hypothesis Rrefl : forall m, R m m.
Hypothesis Rtrans : forall a b c, R a b -> R b c -> R a c.

Lemma list_upd_rel (l : list (material T)) i x d : R (nth i l d) x -> Forall2 R l (list_upd l i x).
Proof.
  revert i. induction l as [|m l IH]; intros i H; [constructor|]. destruct i as [|i]; cbn in *.
  - constructor; [exact H|]. clear -Rrefl. induction l; constructor; auto.
  - constructor; [apply Rrefl|]. apply IH, H.
Qed.
Lemma lset_rel (l l' : list (material T)) i m x : lget l i = Ok m -> R m x -> lset l i x = Ok l' -> Forall2 R l l'.
Proof.
  unfold lget, lset. intros H1 H2 H3. destruct (0 <=? i); [|discriminate H1]. destruct (inb _ _); [|discriminate H3]. injection H3 as <-.
  destruct (nth_error l (Z.to_nat i)) as [m'|] eqn:En; [|discriminate H1]. injection H1 as ->.
  apply (list_upd_rel l _ x m). apply nth_error_nth with (d := m) in En. rewrite En. exact H2.
Qed.
Lemma with_mats_rel ms l : Forall2 R (ms_mats ms) l -> mats_rel R ms (with_mats ms l).
Proof.
  intros H. split; [repeat split; cbn; symmetry; exact (forall2_len _ _ _ H)|exact H].
Qed.
Lemma zfor_rel (f : Z -> mesh T -> res (mesh T)) lo hi ms ms' :
  (forall i a b, f i a = Ok b -> mats_rel R a b) -> zfor lo hi f ms = Ok ms' -> mats_rel R ms ms'.
Proof.
  intros Hf. unfold zfor. generalize (Z.to_nat (hi - lo)). intros n. revert lo ms.
  induction n as [|n IH]; intros lo ms H; cbn in H; [injection H as <-; apply mats_rel_refl, Rrefl|].
  apply bind_ok_inv in H. destruct H as (m1 & H1 & H2).
  exact (mats_rel_trans R _ _ _ Rtrans (Hf _ _ _ H1) (IH _ _ H2)).
Qed.
Lemma foreach_rel {A} (l : list A) (f : A -> mesh T -> res (mesh T)) ms ms' :
  (forall i a b, f i a = Ok b -> mats_rel R a b) -> foreach l f ms = Ok ms' -> mats_rel R ms ms'.
Proof.
  intros Hf. revert ms. induction l as [|x l IH]; intros ms H; cbn in H; [injection H as <-; apply mats_rel_refl, Rrefl|].
  apply bind_ok_inv in H. destruct H as (m1 & H1 & H2).
  exact (mats_rel_trans R _ _ _ Rtrans (Hf _ _ _ H1) (IH _ H2)).
Qed.
Lemma forMaterials_rel inp body inp' : (forall blk m a b, body blk m a = Ok b -> mats_rel R a b) ->
  forMaterials inp body = Ok inp' -> exists ms, inp' = put_mesh ms inp /\ mats_rel R (in_mesh inp) ms.
Proof.
  intros Hb H. unfold forMaterials in H. apply bind_ok_inv in H. destruct H as (ms & H & E). injection E as <-.
  exists ms. split; [reflexivity|]. revert H. apply foreach_rel. intros item a b H.
  apply bind_ok_inv in H. destruct H as (w & _ & H). revert H. apply zfor_rel. intros m a' b' H.
  apply bind_ok_inv in H. destruct H as (nm & _ & H). destruct (String.eqb nm item); [exact (Hb _ _ _ _ H)|].
  injection H as <-. apply mats_rel_refl, Rrefl.
Qed.
Lemma readLaw_rel lines blk name key skip m a b : (forall c mt, R mt (push_law name c mt)) ->
  readLaw stod_opt lines blk name key skip m a = Ok b -> mats_rel R a b.
Proof.
  intros Hp H. unfold readLaw in H. apply bind_ok_inv in H. destruct H as (l & _ & H).
  apply bind_ok_inv in H. destruct H as (nv & _ & H). apply bind_ok_inv in H. destruct H as (mt & Hm & H).
  apply bind_ok_inv in H. destruct H as (c & _ & H). apply bind_ok_inv in H. destruct H as (mats & Hs & H).
  apply bind_ok_inv in H. destruct H as (u & _ & H). injection H as <-.
  apply with_mats_rel. exact (lset_rel _ _ _ _ _ Hm (Hp c mt) Hs).
Qed.
Lemma setXS_rel name inp inp' : (forall c mt, R mt (push_law name c mt)) -> setXS stod_opt name inp = Ok inp' ->
  exists ms, inp' = put_mesh ms inp /\ mats_rel R (in_mesh inp) ms.
Proof.
  intros Hp. unfold setXS. apply forMaterials_rel. intros blk m a b. apply zfor_rel. intros i a' b'. apply readLaw_rel, Hp.
Qed.
Lemma setMatrixXS_rel name inp inp' : (forall c mt, R mt (push_law name c mt)) -> setMatrixXS stod_opt name inp = Ok inp' ->
  exists ms, inp' = put_mesh ms inp /\ mats_rel R (in_mesh inp) ms.
Proof.
  intros Hp. unfold setMatrixXS. apply forMaterials_rel. intros blk m a b. apply zfor_rel. intros i a' b'. apply zfor_rel.
  intros j a'' b''. apply readLaw_rel, Hp.
Qed.
Lemma setMaterialProperties_rel inp inp' : (forall c mt, R mt (set_cond c mt)) ->
  setMaterialProperties stod_opt inp = Ok inp' -> exists ms, inp' = put_mesh ms inp /\ mats_rel R (in_mesh inp) ms.
Proof.
  intros Hp. unfold setMaterialProperties. apply forMaterials_rel. intros blk m a b H.
  apply bind_ok_inv in H. destruct H as (l & _ & H). unfold setThermalConductivity in H.
  destruct (splitLine l) as [|w [|v vs]]; try discriminate H. destruct (_ <? _); [|discriminate H].
  apply bind_ok_inv in H. destruct H as (mt & Hm & H). apply bind_ok_inv in H. destruct H as (c & _ & H).
  apply bind_ok_inv in H. destruct H as (mats & Hs & H). apply bind_ok_inv in H. destruct H as (u & _ & H). injection H as <-.
  apply with_mats_rel. exact (lset_rel _ _ _ _ _ Hm (Hp c mt) Hs).
Qed.
Lemma upd_mats_rel (g : Z -> res (material T -> material T)) hi (l l' : list (material T)) :
  (forall i f mt, g i = Ok f -> R mt (f mt)) ->
  zfor 0 hi (fun i l => f <- g i ;; upd_mat f i l) l = Ok l' -> Forall2 R l l'.
Proof.
  intros Hg. unfold zfor. generalize (Z.to_nat (hi - 0)). intros n. generalize 0. revert l.
  induction n as [|n IH]; intros l lo H; cbn in H.
  - injection H as <-. clear -Rrefl. induction l; constructor; auto.
  - apply bind_ok_inv in H. destruct H as (l1 & H1 & H2). apply (Forall2_trans R l l1 l' Rtrans); [|exact (IH _ _ H2)].
    apply bind_ok_inv in H1. destruct H1 as (f & Hf & H1). unfold upd_mat in H1. apply bind_ok_inv in H1.
    destruct H1 as (mt & Hm & H1). exact (lset_rel _ _ _ _ _ Hm (Hg _ _ _ Hf) H1).
Qed.
Lemma zfor_body_ext {S} lo hi (f g : Z -> S -> res S) s : (forall i s, f i s = g i s) -> zfor lo hi f s = zfor lo hi g s.
Proof.
  intros H. unfold zfor. generalize (Z.to_nat (hi - lo)). intros n. revert lo s.
  induction n as [|n IH]; intros lo s; cbn; [reflexivity|]. rewrite H. destruct (g lo s); cbn; auto.
Qed.
Lemma setTemperatures_rel inp inp' : (forall t mt, R mt (set_temp t mt)) -> setTemperatures stod_opt inp = Ok inp' ->
  exists ms, inp' = put_mesh ms inp /\ mats_rel R (in_mesh inp) ms.
Proof.
  intros Hp H. unfold setTemperatures in H. apply bind_ok_inv in H. destruct H as (ts & _ & H).
  apply bind_ok_inv in H. destruct H as (ms & H & E). injection E as <-. exists ms. split; [reflexivity|].
  unfold ModelMesh.setTemperatures in H. apply bind_ok_inv in H. destruct H as (l & H & E). injection E as <-.
  apply with_mats_rel. revert H.
  rewrite (zfor_body_ext _ _ _ (fun i l => f <- (t <- vget (vec_of_list n0 ts) i ;; Ok (set_temp t)) ;; upd_mat f i l)).
  - apply upd_mats_rel. intros i f mt Hf. apply bind_ok_inv in Hf. destruct Hf as (t & _ & Hf). injection Hf as <-. apply Hp.
  - intros i s. destruct (vget _ i); reflexivity.
Qed.
Lemma setHeatSources_rel inp inp' : (forall t mt, R mt (set_heat t mt)) -> setHeatSources stod_opt inp = Ok inp' ->
  exists ms, inp' = put_mesh ms inp /\ mats_rel R (in_mesh inp) ms.
Proof.
  intros Hp H. unfold setHeatSources in H. apply bind_ok_inv in H. destruct H as (ts & _ & H).
  apply bind_ok_inv in H. destruct H as (ms & H & E). injection E as <-. exists ms. split; [reflexivity|].
  unfold ModelMesh.setHeatSources in H. apply bind_ok_inv in H. destruct H as (l & H & E). injection E as <-.
  apply with_mats_rel. revert H.
  rewrite (zfor_body_ext _ _ _ (fun i l => f <- (t <- vget (vec_of_list n0 ts) i ;; Ok (set_heat t)) ;; upd_mat f i l)).
  - apply upd_mats_rel. intros i f mt Hf. apply bind_ok_inv in Hf. destruct Hf as (t & _ & Hf). injection Hf as <-. apply Hp.
  - intros i s. destruct (vget _ i); reflexivity.
Qed.
Lemma put_put ms1 ms2 inp : put_mesh ms2 (put_mesh ms1 inp) = put_mesh ms2 (inp : input T).
Proof. reflexivity. Qed.
Lemma put_mesh_mesh ms inp : in_mesh (put_mesh ms (inp : input T)) = ms.
Proof. reflexivity. Qed.
Lemma put_mesh_self (inp : input T) : put_mesh (in_mesh inp) inp = inp.
Proof. destruct inp as [l r s m li p]. destruct r. reflexivity. Qed.

Definition is_put (inp inp' : input T) : Prop := exists ms, inp' = put_mesh ms inp /\ mats_rel R (in_mesh inp) ms.
Lemma is_put_refl inp : is_put inp inp.
Proof. exists (in_mesh inp). split; [symmetry; apply put_mesh_self|apply mats_rel_refl, Rrefl]. Qed.
Lemma is_put_trans a b c : is_put a b -> is_put b c -> is_put a c.
Proof.
  intros (m1 & -> & H1) (m2 & -> & H2). exists m2. split; [reflexivity|]. rewrite put_mesh_mesh in H2.
  exact (mats_rel_trans R _ _ _ Rtrans H1 H2).
Qed.
Lemma setMaterials_rel k inp inp' :
  (neutronic k = true -> forall name c mt, R mt (push_law name c mt)) ->
  (k = HEAT -> forall c mt, R mt (set_cond c mt)) ->
  setMaterials stod_opt k inp = Ok inp' -> is_put inp inp'.
Proof.
  intros Hx Hc H. unfold setMaterials in H. destruct k; try (injection H as <-; apply is_put_refl).
  1,3,4: repeat (apply bind_ok_inv in H; let x := fresh "x" in let E := fresh "E" in destruct H as (x & E & H);
      apply setXS_rel in E; [|apply Hx; reflexivity]);
    apply setMatrixXS_rel in H; [|apply Hx; reflexivity];
    repeat (eapply is_put_trans; [eassumption|]); apply is_put_refl.
  apply setMaterialProperties_rel in H; [exact H|auto].
Qed.
End Rel.
End Reading.
