(* Lemmas on the number of groups of the materials of a file that was read. *)
From Coq Require Import String ZArith List Bool Lia.
From Verif Require Import Base BaseLemmas ModelNumTools ModelEigen ModelMesh ModelReactor ModelCalculation ModelText ModelInput
  ProofsInput ProofsInputB ProofsInputC ProofsInputD ProofsInputE ProofsInputF ProofsInputG ProofsInputI ProofsInputJ.
Import ListNotations.
Local Open Scope string_scope.
Local Open Scope Z_scope.

Section Groups.
Context {T : Type} {N : Num T}.
Variable mpi : T.
Variable stod_opt : string -> option T.
Notation kinds inp := (map sd_kind (in_solvers inp)).

(* the material of every cell knows the number of groups *)
Definition grouped (ms : mesh T) : Prop :=
  forall j mt, 0 <= Z.of_nat j < ms_cells ms -> nth_error (ms_mats ms) j = Some mt -> mt_energies mt = ms_groups ms.

Lemma energies_loop n k : forall lo (l l' : list (material T)),
  zfor lo (lo + Z.of_nat k) (fun i l => upd_mat (set_energies n) i l) l = Ok l' ->
  forall j mt, (lo <= Z.of_nat j < lo + Z.of_nat k \/ (forall x, nth_error l j = Some x -> mt_energies x = n)) ->
  nth_error l' j = Some mt -> mt_energies mt = n.
Proof.
  unfold zfor. intros lo l l'. replace (Z.to_nat (lo + Z.of_nat k - lo)) with k by lia. revert lo l.
  induction k as [|k IH]; intros lo l H j mt Hj Hn.
  - cbn in H. injection H as <-. destruct Hj as [Hj|Hj]; [lia|exact (Hj _ Hn)].
  - cbn in H. apply bind_ok_inv in H. destruct H as (l1 & H1 & H2). refine (IH _ _ H2 j mt _ Hn).
    unfold upd_mat in H1. apply bind_ok_inv in H1. destruct H1 as (m & G & H1). apply lget_inv in G. destruct G as (G0 & G).
    unfold lset in H1. destruct (inb _ _); [|discriminate H1]. injection H1 as <-.
    destruct (Z.eq_dec (Z.of_nat j) lo) as [E|E].
    + right. intros x. subst lo. rewrite Nat2Z.id in *. rewrite list_upd_same; [intros H; injection H as <-; reflexivity|].
      apply nth_error_Some. rewrite G. discriminate.
    + destruct Hj as [Hj|Hj]; [left; lia|right]. rewrite list_upd_other by lia. exact Hj.
Qed.
Lemma setEnergyGroupsNumber_grouped n ms ms' : setEnergyGroupsNumber (T := T) n ms = Ok ms' -> grouped ms'.
Proof.
  intros H. pose proof (setEnergyGroupsNumber_same _ _ _ H) as (_ & _ & Ec & _ & Eg). intros j mt Hj Hn. rewrite Eg. rewrite Ec in Hj.
  unfold setEnergyGroupsNumber in H. apply bind_ok_inv in H. destruct H as (l & Hl & H). injection H as <-. cbn in Hn.
  refine (energies_loop n (Z.to_nat (ms_cells ms)) 0 _ _ _ j mt _ Hn); [|left; lia].
  replace (0 + Z.of_nat (Z.to_nat (ms_cells ms))) with (ms_cells ms) by lia. exact Hl.
Qed.
Lemma applyProperty_grouped k ws (s s' : solverData T) r r' : length ws = 1%nat -> applyProperty stod_opt k ("energies" :: ws) s r = Ok (s', r') -> grouped (rx_mesh r').
Proof.
  intros L H. destruct ws as [|w [|? ?]]; try discriminate L. unfold applyProperty in H. cbn in H.
  apply bind_ok_inv in H. destruct H as (n & _ & H). apply bind_ok_inv in H. destruct H as (ms & H & F). injection F as <- <-.
  exact (setEnergyGroupsNumber_grouped _ _ _ H).
Qed.

Lemma readLines_grouped lines inp k : readLines mpi stod_opt (mkInput lines newReactor [] [] [] []) = Ok inp ->
  starts_with_name lines (kinds inp) -> In k (kinds inp) -> neutronic k = true ->
  (forall q ws, In q (kinds inp) -> propertyWords lines "energies" q = Ok ("energies" :: ws) -> length ws = 1%nat) ->
  grouped (in_mesh inp).
Proof.
  intros H Hs Hk Nk HE. apply readLines_stages in H. destruct H as (a & b & c & d & l & Ha & Hb & Hl & Hc & Hd & Hp).
  apply setSolvers_spec in Ha. destruct Ha as (ws & ks & Hw & Hks & ->). cbn [in_lines] in Hw.
  set (a := with_solvers (map newSolverData ks) (mkInput lines newReactor [] [] [] [])) in *.
  destruct (mesh_stage_lines _ _ _ _ Hb) as [B1 B2].
  pose proof (chain_kinds _ _ _ _ Hc) as Kc. pose proof (chain_same _ _ _ _ Hc) as (C1 & C2 & _).
  assert (Pd : in_rx inp = in_rx d /\ in_solvers inp = in_solvers d).
  { unfold setPlots in Hp. apply bind_ok_inv in Hp. destruct Hp as (pw & _ & Hp). injection Hp as <-. auto. }
  destruct Pd as (P1 & P2).
  pose proof (readSolverInputs_spec stod_opt (fun x y => mt_energies y = mt_energies x) (fun m => eq_refl) (fun a b c H1 H2 => eq_trans H2 H1) (in_solvers c) c d) as D.
  cbv zeta in D. specialize (D (fun k H => H)).
  destruct D as (D1 & D2 & D3 & _).
  { intros _ name x mt. unfold push_law. repeat (match goal with |- context [if ?b then _ else _] => destruct b end); reflexivity. }
  { intros _. repeat split. }
  { exact Hd. }
  assert (Lb : in_lines b = lines) by (rewrite B1; reflexivity).
  assert (Kb : kinds inp = kinds b) by (rewrite P2, D2; exact Kc).
  assert (Sb : starts_with_name (in_lines b) (kinds b)) by (rewrite Lb, <- Kb; exact Hs).
  assert (Gc : grouped (rx_mesh (in_rx c))).
  { assert (Hi : exists l1 l2, l = (l1 ++ ("energies", k) :: l2)%list).
    { apply in_split. assert (Base : In ("energies", k) base_properties) by (destruct k; try discriminate Nk; cbn; tauto).
      destruct Hl as [[_ ->]|[_ ->]]; [apply in_or_app; left|]; exact Base. }
    destruct Hi as (l1 & l2 & El). assert (Hc' := Hc). rewrite El in Hc'.
    assert (Step : forall nm q kw values s s' r r', In (nm, q) l -> In kw (kinds b) -> selected q s = true -> sd_kind s = kw ->
      propertyWords (in_lines b) nm kw = Ok values -> applyProperty stod_opt q values s r = Ok (s', r') ->
      (nm = "energies" -> grouped (rx_mesh r')) /\ (nm <> "energies" -> rx_mesh r' = rx_mesh r)).
    { intros nm q kw values s s' r r' Hi Hkw Sl Ekw W A. assert (Hnm : In nm solver_words) by (apply (properties_words _ _ Hl nm q), Hi).
      destruct (Sb _ _ _ Hkw Hnm W) as [rest ->]. split; intros E.
      - subst nm. rewrite Lb in W. rewrite <- Kb in Hkw. exact (applyProperty_grouped _ _ _ _ _ _ (HE _ _ Hkw W) A).
      - exact (applyProperty_groups _ q nm rest s r s' r' Hnm E A). }
    apply (chain_post stod_opt (fun r => grouped (rx_mesh r)) "energies" k l1 l2 b c Hc').
    - intros kw values s s' r r' Hkw Sl Ekw W A. refine (proj1 (Step _ _ _ _ _ _ _ _ _ Hkw Sl Ekw W A) eq_refl). rewrite El. apply in_or_app. right. left. reflexivity.
    - intros nm q kw values s s' r r' Hi Hkw Sl Ekw W A G. destruct (Step nm q kw values s s' r r') as (S1 & S2); auto.
      { rewrite El. apply in_or_app. right. right. exact Hi. }
      destruct (string_dec nm "energies") as [E|E]; [exact (S1 E)|rewrite (S2 E); exact G].
    - exists k. split; [rewrite <- Kb; exact Hk|right; reflexivity]. }
  assert (Gd : grouped (in_mesh d)).
  { destruct D3 as ((_ & _ & E1 & E2 & _) & F). intros j mt Hj Hn. rewrite E2. rewrite E1 in Hj. fold (in_mesh c) in Gc.
    assert (X : exists m, nth_error (ms_mats (in_mesh c)) j = Some m /\ mt_energies mt = mt_energies m).
    { clear -F Hn. revert j Hn. induction F as [|x y l l' Hxy F IH]; intros j Hn; [destruct j; discriminate Hn|].
      destruct j as [|j]; cbn in *; [injection Hn as ->; exists x; auto|exact (IH _ Hn)]. }
    destruct X as (m & Nm & ->). exact (Gc j m Hj Nm). }
  unfold in_mesh in *. rewrite P1. exact Gd.
Qed.
End Groups.
