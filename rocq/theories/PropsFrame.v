(* What a calculation leaves alone: C79. *)
From Coq Require Import String ZArith List Bool Lia Reals.
From Verif Require Import Base BaseLemmas NumR NumF ModelNumTools ModelEigen ModelMesh ModelReactor ModelDiffusion ModelHeat
  ModelSpectrum ModelKinetics ModelOutput ModelCalculation ProofsCoupled ProofsFrame PropsCalculation.
Import ListNotations.
Local Open Scope Z_scope.

Section Frame.
Context {T : Type} {N : Num T}.

(* the data of one material that come from the input *)
Definition material_data (m : material T) :=
  (mt_name m, mt_energies m, mt_cond m, (mt_totXS m, mt_fisXS m, mt_diff m, mt_scatt m, mt_ni m, mt_chi m)).
(* everything in a reactor that comes from the input *)
Definition reactor_data (r : reactor T) :=
  let ms := rx_mesh r in
  (ms_bounds ms, ms_geom ms, ms_cells ms, ms_groups ms, map material_data (ms_mats ms),
   (rx_power r, rx_kin r, rx_ext r)).

Lemma same_data r r' : same_reactor r r' -> reactor_data r' = reactor_data r.
Proof.
  intros ((A & B & C & D & E) & F & G & H). unfold reactor_data. unfold keeps in E. change material_data with (@laws T).
  congruence.
Qed.

Variable mpi : T.
Variable solver : mat T -> vec T -> vec T.
Variable sort : list (T * vec T) -> list (T * vec T).
Variable eig : mat T -> mat T -> vec (T * T) * mat (T * T).
Variable croots : list T -> list (T * T).
Variables (expint3 bickley3f nexp nsqrt : T -> T).
Variable to_unsigned : T -> res Z.

Lemma double_same o pk solvers (r : reactor T) oc :
  doubleCalculation mpi solver sort eig croots expint3 bickley3f nexp nsqrt o pk solvers r = Ok oc ->
  same_reactor r (oc_reactor oc).
Proof.
  intros H. destruct (doubleCalculation_run _ _ _ _ _ _ _ _ _ _ _ _ _ _ H)
    as (s1 & s2 & cs & n & st & p & q & _ & _ & _ & _ & _ & Run & S0 & Sn & _).
  rewrite Sn, <- S0. eapply run_same; [exact Run|lia].
Qed.

Lemma ads_same sd (r : reactor T) oc :
  adsCalculation mpi solver sort eig croots expint3 bickley3f nexp nsqrt to_unsigned sd r = Ok oc ->
  same_reactor r (oc_reactor oc).
Proof.
  intros H. unfold adsCalculation in H.
  destruct (bind_ok_inv _ _ _ H) as ([o1 r1] & E1 & H1). clear H.
  destruct (bind_ok_inv _ _ _ H1) as (a & _ & H2). clear H1.
  destruct (bind_ok_inv _ _ _ H2) as ([o2 r2] & E2 & H3). clear H2.
  destruct (bind_ok_inv _ _ _ H3) as (b & _ & H4). clear H3.
  destruct (bind_ok_inv _ _ _ H4) as ([q w] & _ & H4'). clear H4.
  destruct (bind_ok_inv _ _ _ H4') as (f & _ & H5). clear H4'.
  destruct (bind_ok_inv _ _ _ H5) as (ms & E3 & H6). clear H5. injection H6 as <-. cbn [oc_reactor].
  eapply same_reactor_trans; [eapply solve_same; exact E1|].
  eapply same_reactor_trans; [eapply solve_same; exact E2|].
  split; [|cbn; auto]. cbn [with_mesh rx_mesh]. apply rest_input; [apply setters_rest; do 4 right; eauto|].
  eapply setTotalFluxes_keeps; [reflexivity|exact E3].
Qed.

(* A calculation of any kind ends with the geometry, the material laws, the
   requested power, the kinetics data and the external source it was given. *)
Theorem C79_input_unchanged o pk solvers (r : reactor T) oc :
  problemSolve mpi solver sort eig croots expint3 bickley3f nexp nsqrt to_unsigned o pk solvers r = Ok oc ->
  reactor_data (oc_reactor oc) = reactor_data r.
Proof.
  intros H. apply same_data. unfold problemSolve in H.
  destruct solvers as [|s [|s' [|s'' [|? ?]]]]; try discriminate.
  - assert (S : singleCalculation mpi solver sort eig croots expint3 bickley3f nexp nsqrt o pk s r = Ok oc ->
      same_reactor r (oc_reactor oc)).
    { clear H. intros H. unfold singleCalculation in H.
      destruct (bind_ok_inv _ _ _ H) as ([o1 r1] & E1 & H0). clear H.
      destruct (bind_ok_inv _ _ _ H0) as (k & _ & H1). clear H0.
      destruct (bind_ok_inv _ _ _ H1) as (a & _ & H2). clear H1.
      destruct (bind_ok_inv _ _ _ H2) as (b & _ & H3). clear H2.
      destruct (bind_ok_inv _ _ _ H3) as (p & _ & H4). clear H3.
      injection H4 as <-. eapply solve_same; exact E1. }
    destruct (sd_kind s); auto. eapply ads_same; exact H.
  - eapply double_same; exact H.
Qed.

(* A heat calculation changes the temperatures and nothing else; a neutronic
   one does not touch the temperatures. *)
Theorem C79_heat_leaves_neutronics sd (r r' : reactor T) old :
  sd_kind sd = HEAT -> solve1 mpi solver sort eig croots expint3 bickley3f nexp nsqrt sd r = Ok (old, r') ->
  rx_fwd r' = rx_fwd r /\ rx_adj r' = rx_adj r /\
  forall i, option_map (fun m => (material_data m, mt_heat m, mt_flux m, mt_adj m, mt_totflux m)) (nth_error (ms_mats (rx_mesh r')) i)
          = option_map (fun m => (material_data m, mt_heat m, mt_flux m, mt_adj m, mt_totflux m)) (nth_error (ms_mats (rx_mesh r)) i).
Proof.
  intros Hk H. pose proof (solve_only _ _ _ _ _ _ _ _ _ _ _ _ _ H) as F. unfold solve_frame in F. rewrite Hk in F.
  destruct F as (ms' & -> & (_ & K1 & K2 & K3 & K4 & K5)). split; [reflexivity|]. split; [reflexivity|].
  intros i. cbn [with_mesh rx_mesh].
  unfold keeps in *. apply (f_equal (fun l => nth_error l i)) in K1, K2, K3, K4, K5. rewrite !nth_error_map in *.
  destruct (nth_error (ms_mats ms') i), (nth_error (ms_mats (rx_mesh r)) i); cbn in *; try congruence.
  change (@laws T) with material_data in K1. congruence.
Qed.

Theorem C79_neutronics_leave_temperatures sd (r r' : reactor T) old :
  sd_kind sd = DIFFUSION \/ sd_kind sd = TRANSPORT ->
  solve1 mpi solver sort eig croots expint3 bickley3f nexp nsqrt sd r = Ok (old, r') ->
  map mt_temp (ms_mats (rx_mesh r')) = map mt_temp (ms_mats (rx_mesh r)).
Proof.
  intros Hk H. pose proof (solve_only _ _ _ _ _ _ _ _ _ _ _ _ _ H) as F. unfold solve_frame in F.
  destruct Hk as [Hk|Hk]; rewrite Hk in F; [destruct (sd_dir sd); [congruence| |]|]; apply F.
Qed.

End Frame.
Print Assumptions C79_input_unchanged.
Print Assumptions C79_heat_leaves_neutronics.
Print Assumptions C79_neutronics_leave_temperatures.

(* a calculation that returns *)
Lemma witness_run : Witness.run =
  problemSolve (Witness.q 355 113) Witness.cramer (fun l => l) Witness.none (fun _ => [])
    (fun x => x) (fun x => x) (fun x => x) (fun x => x) (fun _ => Ok 0) newOutput []
    [Witness.s1; Witness.s2; Witness.cs] Witness.rx.
Proof.
  exact (@eq_refl _ (problemSolve (Witness.q 355 113) Witness.cramer (fun l => l) Witness.none (fun _ => [])
    (fun x => x) (fun x => x) (fun x => x) (fun x => x) (fun _ => Ok 0) newOutput []
    [Witness.s1; Witness.s2; Witness.cs] Witness.rx)).
Qed.
Example C79_hypothesis_met : exists oc, Witness.run = Ok oc /\ reactor_data (oc_reactor oc) = reactor_data Witness.rx.
Proof.
  destruct C64_relative_change_refuted as (oc & _ & _ & E & _). exists oc. split; [exact E|].
  rewrite witness_run in E. exact (C79_input_unchanged _ _ _ _ _ _ _ _ _ _ _ _ _ _ _ E).
Qed.
