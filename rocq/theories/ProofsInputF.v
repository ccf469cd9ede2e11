(* Lemmas on readData from the file to the problem. *)
From Coq Require Import String Ascii ZArith List Bool Lia Arith.
From Verif Require Import Base BaseLemmas ModelNumTools ModelMesh ModelReactor ModelCalculation ModelText ModelInput
  ProofsInput ProofsInputB ProofsInputC ProofsInputD ProofsInputE.
Import ListNotations.
Local Open Scope string_scope.
Local Open Scope Z_scope.

Section Reading.
Context {T : Type} {N : Num T}.
Variable mpi : T.
Variable stod_opt : string -> option T.
Notation kinds inp := (map sd_kind (in_solvers inp)).

(* ---------- materials through the properties ---------- *)

(* everything but the number of energies and the fluxes *)
Definition laws_same (a b : material T) : Prop :=
  mt_name b = mt_name a /\ mt_temp b = mt_temp a /\ mt_heat b = mt_heat a /\ mt_cond b = mt_cond a /\
  mt_totXS b = mt_totXS a /\ mt_fisXS b = mt_fisXS a /\ mt_diff b = mt_diff a /\ mt_scatt b = mt_scatt a /\
  mt_ni b = mt_ni a /\ mt_chi b = mt_chi a.
Lemma laws_refl a : laws_same a a.
Proof. repeat split. Qed.
Lemma laws_trans a b c : laws_same a b -> laws_same b c -> laws_same a c.
Proof.
  unfold laws_same. intros (A1 & A2 & A3 & A4 & A5 & A6 & A7 & A8 & A9 & A10) (B1 & B2 & B3 & B4 & B5 & B6 & B7 & B8 & B9 & B10).
  repeat split; etransitivity; eassumption.
Qed.
Definition lawful (r r' : reactor T) : Prop := Forall2 laws_same (ms_mats (rx_mesh r)) (ms_mats (rx_mesh r')).
Lemma forall2_refl {A} (P : A -> A -> Prop) l : (forall a, P a a) -> Forall2 P l l.
Proof. intros H. induction l; constructor; auto. Qed.
Lemma lawful_refl r : lawful r r.
Proof. apply forall2_refl, laws_refl. Qed.
Lemma lawful_trans a b c : lawful a b -> lawful b c -> lawful a c.
Proof. apply Forall2_trans, laws_trans. Qed.
Lemma setEnergyGroupsNumber_laws n ms ms' : setEnergyGroupsNumber (T := T) n ms = Ok ms' ->
  Forall2 laws_same (ms_mats ms) (ms_mats ms').
Proof.
  unfold setEnergyGroupsNumber. intros H. apply bind_ok_inv in H. destruct H as (l & Hl & H). injection H as <-. cbn.
  revert Hl. unfold zfor. generalize (Z.to_nat (ms_cells ms - 0)). intros k. generalize 0 as lo. generalize (ms_mats ms) as l0.
  induction k as [|k IH]; intros l0 lo H; cbn in H; [injection H as <-; apply forall2_refl, laws_refl|].
  apply bind_ok_inv in H. destruct H as (l1 & H1 & H2). apply (Forall2_trans laws_same l0 l1 l laws_trans); [|exact (IH _ _ H2)].
  unfold upd_mat in H1. apply bind_ok_inv in H1. destruct H1 as (m & G & H1).
  exact (lset_rel laws_same laws_refl l0 l1 lo m (set_energies n m) G (conj eq_refl (conj eq_refl (conj eq_refl (conj eq_refl (conj eq_refl (conj eq_refl (conj eq_refl (conj eq_refl (conj eq_refl eq_refl))))))))) H1).
Qed.
Lemma applyProperty_laws k values s r s' r' : applyProperty stod_opt k values s r = Ok (s', r') -> lawful r r'.
Proof.
  intros H. unfold applyProperty in H.
  destruct values as [|key [|a [|b [|c [|d [|e [|f [|g l]]]]]]]]; cbv zeta in H;
    try (match type of H with context [String.eqb] => idtac | _ => discriminate H end).
  all: crush H.
  all: try match goal with E : setEnergyGroupsNumber _ _ = Ok _ |- _ => exact (setEnergyGroupsNumber_laws _ _ _ E) end.
  all: exact (lawful_refl r).
Qed.
Lemma setSolverProperties_laws name k inp inp' : setSolverProperties stod_opt name k inp = Ok inp' ->
  lawful (in_rx inp) (in_rx inp').
Proof.
  unfold setSolverProperties. intros H. apply bind_ok_inv in H. destruct H as ([l r] & H & E). injection E as <-. cbn.
  revert H. match goal with |- foreach _ ?f _ = _ -> _ =>
    enough (G : forall L l0 r0, foreach L f (l0, r0) = Ok (l, r) -> lawful r0 r) by apply G end.
  induction L as [|s L IH]; intros l0 r0 H.
  - injection H as <- <-. apply lawful_refl.
  - cbn [foreach] in H. apply bind_ok_inv in H. destruct H as ([l1 r1] & H1 & H2). apply (lawful_trans r0 r1 r); [|exact (IH _ _ H2)].
    destruct (_ || _)%bool.
    + apply bind_ok_inv in H1. destruct H1 as (v & _ & H1). apply bind_ok_inv in H1. destruct H1 as ([s1 r2] & Ha & H1).
      injection H1 as <- <-. exact (applyProperty_laws _ _ _ _ _ _ Ha).
    + injection H1 as <- <-. apply lawful_refl.
Qed.
Lemma chain_laws l a b : chain stod_opt l a b -> lawful (in_rx a) (in_rx b).
Proof.
  induction 1 as [a|name k l a b c H _ IH]; [apply lawful_refl|].
  exact (lawful_trans _ _ _ (setSolverProperties_laws _ _ _ _ H) IH).
Qed.

(* ---------- the solver list ---------- *)

(* the kinds of the words, with the coupled one behind two or more *)
Definition requested (ws : list string) (ks : list SolverKind) : Prop :=
  exists named, Forall2 (fun w k => In (w, k) solver_names) ws named /\
    ks = (named ++ (if (2 <=? length named)%nat then [COUPLED] else []))%list.

Lemma setSolvers_spec inp inp' : setSolvers inp = Ok inp' ->
  exists ws ks, readManyParameters (in_lines inp) "solvers" false = Ok ws /\ requested ws ks /\
    inp' = with_solvers (map newSolverData ks) (inp : input T).
Proof.
  unfold setSolvers. intros H. apply bind_ok_inv in H. destruct H as (ws & Hw & H). apply bind_ok_inv in H.
  destruct H as (l & Hl & H). injection H as <-. destruct (solvers_inv ws _ _ Hl) as [ks Hk].
  rewrite (solvers_known ws ks [] Hk) in Hl. injection Hl as <-.
  eexists ws, _. split; [exact Hw|]. split; [exists ks; split; [exact Hk|reflexivity]|].
  unfold zlen. cbn [List.app]. rewrite map_length.
  destruct (Nat.leb_spec 2 (length ks)), (Z.leb_spec 2 (Z.of_nat (length ks))); try lia.
  - rewrite map_app. reflexivity.
  - rewrite app_nil_r. reflexivity.
Qed.

(* ---------- the whole ---------- *)

Lemma mesh_stage_spec a b : mesh_stage mpi stod_opt a b ->
  in_solvers b = in_solvers a /\ in_lines b = in_lines a /\ in_plots b = in_plots a /\
  rx_power (in_rx b) = rx_power (in_rx a) /\ rx_fwd (in_rx b) = rx_fwd (in_rx a) /\ rx_adj (in_rx b) = rx_adj (in_rx a) /\
  rx_kin (in_rx b) = rx_kin (in_rx a) /\ rx_ext (in_rx b) = rx_ext (in_rx a) /\
  (((exists k, In k [TRANSPORT; DIFFUSION; ADS; HEAT] /\ In k (kinds a)) /\
     In (ms_geom (in_mesh b)) [SLAB; CYLINDER; SPHERE] /\ has (in_lines a) "geometry" /\ has (in_lines a) "mesh" /\
     exists names, ms_mats (in_mesh b) = map newMaterial names) \/
   ((forall k, In k [TRANSPORT; DIFFUSION; ADS; HEAT] -> ~ In k (kinds a)) /\ b = a)).
Proof.
  intros [(K & g & H1 & H2)|(K & ->)]; [|repeat (split; [reflexivity|]); right; split; [exact K|reflexivity]].
  apply (setGeometryKind_spec stod_opt) in H1. destruct H1 as (gk & Hg & -> & Hgeo).
  apply setMesh_solvers in H2. destruct H2 as (A & B & C & D & E & F & G & I & J & _ & L & M).
  repeat (split; [assumption|]). left. split; [exact K|]. rewrite J. split; [exact Hg|]. split; [exact Hgeo|]. split; [exact L|exact M].
Qed.

Record reading (lines : list string) (inp : input T) : Prop := {
  rd_lines : in_lines inp = lines;
  rd_fwd : rx_fwd (in_rx inp) = [];
  rd_adj : rx_adj (in_rx inp) = [];
  rd_kin : ~ In KINETICS (kinds inp) -> rx_kin (in_rx inp) = rx_kin newReactor;
  rd_ext : ~ In ADS (kinds inp) -> rx_ext (in_rx inp) = rx_ext newReactor;
  rd_power : ~ coupled_heat (kinds inp) -> rx_power (in_rx inp) = rx_power newReactor;
  rd_solvers : exists ws, readManyParameters lines "solvers" false = Ok ws /\ requested ws (kinds inp);
  rd_mesh : (exists k, In k [TRANSPORT; DIFFUSION; ADS; HEAT] /\ In k (kinds inp)) ->
    has lines "geometry" /\ has lines "mesh" /\ In (ms_geom (in_mesh inp)) [SLAB; CYLINDER; SPHERE];
  rd_nomesh : (forall k, In k [TRANSPORT; DIFFUSION; ADS; HEAT] -> ~ In k (kinds inp)) ->
    ms_geom (in_mesh inp) = GeomUNDEFINED /\ ms_bounds (in_mesh inp) = vzeros 0 /\ ms_cells (in_mesh inp) = 0 /\ ms_mats (in_mesh inp) = [];
  rd_props : exists l, properties (kinds inp) l /\
    forall name k k', In (name, k) l -> In k' (kinds inp) -> k = SolUNDEFINED \/ k = k' ->
      exists values, propertyWords lines name k' = Ok values;
  rd_needs : forall k, In k (kinds inp) -> needs inp k;
  rd_times : In KINETICS (kinds inp) -> length (ks_times (rx_kin (in_rx inp))) = length (ks_reacts (rx_kin (in_rx inp)));
  rd_mats : forall P : material T -> Prop,
    (forall name, P (newMaterial name)) -> (forall a b, laws_same a b -> P a -> P b) ->
    ((exists k, In k (kinds inp) /\ neutronic k = true) -> forall name c mt, P mt -> P (push_law name c mt)) ->
    (In HEAT (kinds inp) -> (forall c mt, P mt -> P (set_cond c mt)) /\ (forall t mt, P mt -> P (set_temp t mt)) /\
      ((~ In TRANSPORT (kinds inp) /\ ~ In DIFFUSION (kinds inp)) -> forall t mt, P mt -> P (set_heat t mt))) ->
    Forall P (ms_mats (in_mesh inp));
  rd_albedo : (forall k values, propertyWords lines "albedo" k = Ok values ->
      exists rest, values = "albedo" :: rest /\ (length rest <= 2)%nat) ->
    Forall (good (ms_geom (in_mesh inp))) (in_solvers inp)
}.

Lemma readLines_reading lines inp : readLines mpi stod_opt (mkInput lines newReactor [] [] [] []) = Ok inp -> reading lines inp.
Proof.
  intros H. apply readLines_stages in H. destruct H as (a & b & c & d & l & Ha & Hb & Hl & Hc & Hd & Hp).
  apply setSolvers_spec in Ha. destruct Ha as (ws & ks & Hw & Hk & ->). cbn [in_lines] in Hw.
  set (a := with_solvers (map newSolverData ks) (mkInput lines newReactor [] [] [] [])) in *.
  assert (Ka : kinds a = ks) by (cbn; rewrite map_map; apply map_id).
  apply mesh_stage_spec in Hb. destruct Hb as (B1 & B2 & B3 & B4 & B5 & B6 & B7 & B8 & B9).
  pose proof (chain_kinds _ _ _ _ Hc) as Kc. pose proof (chain_same _ _ _ _ Hc) as (C1 & C2 & C3).
  pose proof (chain_laws _ _ _ Hc) as CL.
  rewrite B1, Ka in Kc. rewrite Ka in Hl, B9.
  assert (D : forall R : material T -> material T -> Prop, (forall m, R m m) -> (forall a b c, R a b -> R b c -> R a c) ->
    ((exists k, In k ks /\ neutronic k = true) -> forall name c mt, R mt (push_law name c mt)) ->
    (In HEAT ks -> (forall c mt, R mt (set_cond c mt)) /\ (forall t mt, R mt (set_temp t mt)) /\
     ((~ In TRANSPORT ks /\ ~ In DIFFUSION ks) -> forall t mt, R mt (set_heat t mt))) ->
    fixed c d /\ in_solvers d = in_solvers c /\ mats_rel R (in_mesh c) (in_mesh d) /\
    rx_fwd (in_rx d) = rx_fwd (in_rx c) /\ rx_adj (in_rx d) = rx_adj (in_rx c) /\ rx_ext (in_rx d) = rx_ext (in_rx c) /\
    (rx_kin (in_rx d) = rx_kin (in_rx c) \/ In KINETICS ks) /\
    (rx_power (in_rx d) = rx_power (in_rx c) \/ coupled_heat ks)).
  { intros R R1 R2 R3 R4. rewrite <- Kc.
    apply (readSolverInputs_spec stod_opt R R1 R2 (in_solvers c) c d); [auto|rewrite Kc; exact R3|rewrite Kc; exact R4|exact Hd]. }
  destruct (D (fun _ _ => True)) as (D1 & D2 & D3 & D4 & D5 & D6 & D7 & D8); auto.
  unfold setPlots in Hp. apply bind_ok_inv in Hp. destruct Hp as (pw & _ & Hp). injection Hp as <-.
  assert (Kd : kinds d = ks) by (rewrite D2; exact Kc).
  assert (Ld : in_lines d = lines).
  { destruct D1 as (D1 & _), C1 as (C1 & _). rewrite D1, C1, B2. reflexivity. }
  assert (Lc : in_lines c = lines) by (destruct C1 as (C1 & _); rewrite C1, B2; reflexivity).
  destruct C2 as (E1 & E2 & E3 & E4 & E5 & E6 & E7 & E8).
  destruct D3 as [D3 _]. destruct D3 as (M1 & M2 & M3 & M4 & M5 & M6 & M7).
  constructor; unfold in_mesh in *; cbn [in_lines in_rx in_solvers]; try rewrite Kd.
  - exact Ld.
  - rewrite D4, E2, B5. reflexivity.
  - rewrite D5, E3, B6. reflexivity.
  - intros Hn. destruct D7 as [D7|D7]; [|contradiction]. rewrite D7, E4, B7. reflexivity.
  - intros Hn. rewrite D6. destruct C3 as [C3|C3]; [|rewrite B1, Ka in C3; contradiction]. rewrite C3, B8. reflexivity.
  - intros Hn. destruct D8 as [D8|D8]; [|contradiction]. rewrite D8, E1, B4. reflexivity.
  - exists ws. auto.
  - intros Hm. destruct B9 as [(_ & B9 & G1 & G2 & _)|(B9 & _)].
    + split; [exact G1|]. split; [exact G2|]. rewrite M2, E5. exact B9.
    + destruct Hm as (k & Hk1 & Hk2). exfalso. exact (B9 k Hk1 Hk2).
  - intros Hm. destruct B9 as [((k & Hk1 & Hk2) & _)|(_ & ->)]; [exfalso; exact (Hm k Hk1 Hk2)|].
    rewrite M2, E5, M1, E6, M3, E7. split; [reflexivity|]. split; [reflexivity|]. split; [reflexivity|].
    apply length_zero_iff_nil. rewrite M7, E8. reflexivity.
  - exists l. split; [exact Hl|]. intros name k k' Hi Hk' Hs. change lines with (in_lines a). rewrite <- B2. apply (chain_words _ _ _ _ Hc name k k' Hi); [|exact Hs].
    rewrite B1, Ka. exact Hk'.
  - intros k Hi. change (needs d k). apply (needs_same c); [exact D1|rewrite Kc; exact Kd|].
    apply (readSolverInputs_needs stod_opt (in_solvers c) c d Hd). rewrite Kc. exact Hi.
  - intros Hi. apply (readSolverInputs_kinetics stod_opt (in_solvers c) c d Hd). rewrite Kc. exact Hi.
  - intros P P1 P2 P3 P4.
    assert (Pc : Forall P (ms_mats (rx_mesh (in_rx c)))).
    { assert (Pb : Forall P (ms_mats (rx_mesh (in_rx b)))).
      { destruct B9 as [(_ & _ & _ & _ & names & ->)|(_ & ->)]; [|constructor]. apply Forall_forall. intros x Hx.
        apply in_map_iff in Hx. destruct Hx as (n & <- & _). apply P1. }
      clear -CL Pb P2. unfold lawful in CL. induction CL as [|x y l l' H _ IH]; [constructor|]. inversion Pb; subst.
      constructor; [exact (P2 x y H H2)|auto]. }
    destruct (D (fun x y => P x -> P y)) as (_ & _ & [_ Q] & _); auto.
    clear -Q Pc. induction Q as [|x y l l' H _ IH]; [constructor|]. inversion Pc; subst. constructor; auto.
  - intros W. rewrite M2, D2.
    pose proof (chain_albedo stod_opt l b c Hc) as A. rewrite B2 in A. specialize (A W []). 
    assert (A' : Forall (fun s => In (sd_kind s) [] \/ In ("albedo", sd_kind s) l -> good (ms_geom (in_mesh c)) s) (in_solvers c)).
    { apply A. apply Forall_forall. intros s _ []. }
    eapply Forall_impl; [|exact A']. cbv beta. intros s Hs Hn. apply Hs; [|exact Hn]. right.
    assert (Hb' : In ("albedo", sd_kind s) base_properties) by (destruct (sd_kind s); try discriminate Hn; cbn; tauto).
    destruct Hl as [[_ ->]|[_ ->]]; [apply in_or_app; left; exact Hb'|exact Hb'].
Qed.
End Reading.
