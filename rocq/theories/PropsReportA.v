(* What the log file shows of an accelerator driven calculation: C83. *)
From Coq Require Import String ZArith List Bool Lia Arith Reals Lra.
From Coq Require QArith_base.
From Verif Require Import Base BaseLemmas NumR NumQ ModelNumTools ModelEigen ModelMesh ModelReactor ModelDiffusion ModelHeat
  ModelSpectrum ModelKinetics ModelOutput ModelCalculation ModelLog ProofsNumTools ProofsMesh ProofsCoupled ProofsFrame ProofsInputG ProofsReport
  ProofsDiffusion ProofsDiffusionR ProofsADS PropsReport PropsADS.
Import ProofsFrame.
Import ListNotations.
Local Open Scope string_scope.
Local Open Scope Z_scope.

Section Frame.
Context {T : Type} {N : Num T}.

Lemma zfor_ext_ads {S} lo hi (body body' : Z -> S -> res S) s : (forall i s, body i s = body' i s) ->
  zfor lo hi body s = zfor lo hi body' s.
Proof. intros H. unfold zfor. generalize (Z.to_nat (hi - lo)). intros n. revert lo s. induction n as [|n IH]; intros lo s; [reflexivity|].
  cbn. rewrite H. destruct (body' lo s); cbn; auto. Qed.

(* the fields a setter of the total flux keeps *)
Definition others (m : material T) : material T := set_totflux (vzeros 0) m.

Lemma lget_others {B} (l l' : list (material T)) i (k : material T -> res B) : map others l' = map others l ->
  (forall m, k (others m) = k m) -> (m <- lget l' i ;; k m) = (m <- lget l i ;; k m).
Proof.
  intros H Hk. unfold lget. destruct (0 <=? i); [|reflexivity].
  pose proof (f_equal (fun l => nth_error l (Z.to_nat i)) H) as E. cbn beta in E. rewrite !nth_error_map in E.
  destruct (nth_error l' (Z.to_nat i)) as [x|], (nth_error l (Z.to_nat i)) as [y|]; try discriminate; [|reflexivity].
  cbn [option_map] in E. assert (E1 : others x = others y) by congruence. cbn [bind]. rewrite <- (Hk x), <- (Hk y), E1. reflexivity.
Qed.

Lemma get_modes_others (get : material T -> mat T) nm (ms ms' : mesh T) : rest ms' = rest ms -> keeps others ms ms' ->
  (forall m, get (others m) = get m) -> get_modes get nm ms' = get_modes get nm ms.
Proof.
  unfold rest, keeps, get_modes. intros R K H. injection R as _ _ -> -> _ _. apply zfor_ext_ads. intros m t.
  apply lget_others; [exact K|]. intros mt. rewrite H. reflexivity.
Qed.
Lemma production_others (ms ms' : mesh T) : rest ms' = rest ms -> keeps others ms ms' ->
  getProductionOperator ms' = getProductionOperator ms.
Proof.
  unfold rest, keeps, getProductionOperator. intros R K. injection R as _ _ -> -> _ _. apply zfor_ext_ads. intros m t.
  apply lget_others; [exact K|]. intros mt. reflexivity.
Qed.

Variable mpi : T.
Variable to_unsigned : T -> res Z.

Lemma weights_others (r : reactor T) ms' : rest ms' = rest (rx_mesh r) -> keeps others (rx_mesh r) ms' ->
  adsWeights mpi to_unsigned (with_mesh ms' r) = adsWeights mpi to_unsigned r.
Proof.
  intros R K. unfold adsWeights. cbn [with_mesh rx_mesh rx_ext]. unfold getAdjointFluxes, getNeutronFluxes.
  rewrite (production_others _ _ R K), !(get_modes_others _ _ _ _ R K) by reflexivity.
  assert (V : forall dim, getVolumes mpi ms' dim = getVolumes mpi (rx_mesh r) dim).
  { intros dim. unfold getVolumes. unfold rest in R. injection R as -> -> _ _ _ _. reflexivity. }
  unfold rest in R. injection R as _ _ _ _ -> ->. destruct (rx_ext r) as [[x p] g]. rewrite V. reflexivity.
Qed.
Lemma flux_others (r : reactor T) ms' : rest ms' = rest (rx_mesh r) -> keeps others (rx_mesh r) ms' ->
  adsFlux mpi to_unsigned (with_mesh ms' r) = adsFlux mpi to_unsigned r.
Proof.
  intros R K. unfold adsFlux. rewrite (weights_others r ms' R K). cbn [with_mesh rx_mesh rx_fwd]. unfold getNeutronFluxes.
  rewrite !(get_modes_others _ _ _ _ R K) by reflexivity. unfold rest in R. injection R as _ _ _ _ -> _. reflexivity.
Qed.
End Frame.

Section Report.
Context {T : Type} {N : Num T}.
Variable fmt : T -> string.
Variable zfmt : Z -> string.
Variable thr : TraceLevel.
Variable mpi : T.
Variable solver : mat T -> vec T -> vec T.
Variable sort : list (T * vec T) -> list (T * vec T).
Variable eig : mat T -> mat T -> vec (T * T) * mat (T * T).
Variable croots : list T -> list (T * T).
Variables expint3 bickley3f nexp nsqrt : T -> T.
Variable to_unsigned : T -> res Z.
Let run := problemSolve mpi solver sort eig croots expint3 bickley3f nexp nsqrt to_unsigned.
Let lines := logLines fmt zfmt thr.

(* one value per line, then a blank line *)
Definition column (title : string) (v : list T) : list string := (title :: map fmt v ++ [" "])%list.

(* the total flux stored in the cells, group after group *)
Definition totalReport (r : reactor T) : list string :=
  ("Total Flux:" :: flat_map (fun g => perCell fmt (fun m => vat (mt_totflux m) g) r) (zrange 0 (ms_groups (rx_mesh r))) ++ [" "])%list.

Lemma perCell_keeps {A} (f : material T -> A) (g : A -> T) (r r' : reactor T) :
  ms_cells (rx_mesh r') = ms_cells (rx_mesh r) -> keeps f (rx_mesh r) (rx_mesh r') ->
  perCell fmt (fun m => g (f m)) r' = perCell fmt (fun m => g (f m)) r.
Proof.
  unfold perCell, keeps. intros -> K. rewrite <- !(map_map f (fun x => fmt (g x))), <- !firstn_map, K. reflexivity.
Qed.
Lemma modesReport_keeps what ev (f : material T -> mat T) (r r' : reactor T) :
  ms_cells (rx_mesh r') = ms_cells (rx_mesh r) -> ms_groups (rx_mesh r') = ms_groups (rx_mesh r) -> keeps f (rx_mesh r) (rx_mesh r') ->
  modesReport fmt zfmt what ev f r' = modesReport fmt zfmt what ev f r.
Proof.
  intros C G K. unfold modesReport. destruct (1 <? zlen ev); [|reflexivity]. apply flat_map_ext. intros n. do 2 f_equal.
  unfold modeReport. rewrite G. f_equal. apply flat_map_ext. intros g. exact (perCell_keeps f (fun x => mat_at x g n) r r' C K).
Qed.

Lemma adsFlux_dims (r : reactor T) f : adsFlux mpi to_unsigned r = Ok f ->
  mrows f = ms_groups (rx_mesh r) /\ mcols f = ms_cells (rx_mesh r).
Proof.
  unfold adsFlux. intros H. destruct (bind_ok_inv _ _ _ H) as ([q w] & _ & H1). cbn zeta in H1.
  destruct (bind_ok_inv _ _ _ H1) as (F & EF & H2).
  assert (D : td0 F = ms_groups (rx_mesh r) /\ td1 F = ms_cells (rx_mesh r)).
  { unfold getNeutronFluxes, get_modes in EF.
    set (I := fun t : ten3 T => td0 t = ms_groups (rx_mesh r) /\ td1 t = ms_cells (rx_mesh r)). change (I F).
    refine (zfor_keeps I _ _ _ _ _ _ EF _); [|split; reflexivity].
    intros i a b Ha E. destruct (bind_ok_inv _ _ _ E) as (m & _ & E1). refine (zfor_keeps I _ _ _ _ _ _ E1 Ha).
    intros j c d Hc E2. refine (zfor_keeps I _ _ _ _ _ _ E2 Hc). intros k x y Hx E3.
    destruct (bind_ok_inv _ _ _ E3) as (z & _ & E4). apply t3set_inv in E4 as (A & B & _). unfold I. rewrite A, B. exact Hx. }
  destruct D as [<- <-]. set (I := fun t : mat T => mrows t = td0 F /\ mcols t = td1 F). change (I f).
  refine (zfor_keeps I _ _ _ _ _ _ H2 _); [|split; reflexivity].
  intros i a b Ha E. refine (zfor_keeps I _ _ _ _ _ _ E Ha). intros j c d Hc E0. refine (zfor_keeps I _ _ _ _ _ _ E0 Hc).
  intros k x y Hx E9. destruct (bind_ok_inv _ _ _ E9) as (x1 & _ & E1). destruct (bind_ok_inv _ _ _ E1) as (x2 & _ & E2).
  destruct (bind_ok_inv _ _ _ E2) as (x3 & _ & E3). destruct (bind_ok_inv _ _ _ E3) as (x4 & _ & E4).
  apply mset_inv in E4 as (A & B & _). unfold I. rewrite A, B. exact Hx.
Qed.

Lemma upd_mat_inv g i (l l' : list (material T)) : upd_mat g i l = Ok l' ->
  zlen l' = zlen l /\ 0 <= i < zlen l /\
  forall j m, nth_error l' j = Some m -> if (Z.of_nat j =? i)%Z then exists m0, m = g m0 else nth_error l j = Some m.
Proof.
  unfold upd_mat. intros H. destruct (bind_ok_inv _ _ _ H) as (x & Ex & H1). pose proof (lget_lt _ _ _ Ex) as Hi.
  unfold lset in H1. destruct (inb i (Z.of_nat (length l))); [|discriminate]. injection H1 as <-.
  assert (G : forall (l : list (material T)) k y, length (list_upd l k y) = length l /\
    forall j m, nth_error (list_upd l k y) j = Some m -> if (j =? k)%nat then m = y else nth_error l j = Some m).
  { clear. induction l as [|a l IH]; intros k y.
    - split; [reflexivity|]. intros [|j] m H; discriminate H.
    - destruct k as [|k]; cbn [list_upd].
      + split; [reflexivity|]. intros [|j] m H; cbn in *; [congruence|exact H].
      + destruct (IH k y) as [L V]. split; [cbn; congruence|]. intros [|j] m H; cbn in *; [exact H|]. apply V. exact H. }
  destruct (G l (Z.to_nat i) (g x)) as [L V]. clear G. split; [unfold zlen; congruence|]. split; [exact Hi|].
  intros j m Hj. specialize (V j m Hj). destruct (Nat.eqb_spec j (Z.to_nat i)) as [->|Hne].
  - rewrite Z2Nat.id by lia. rewrite Z.eqb_refl. eauto.
  - destruct (Z.eqb_spec (Z.of_nat j) i); [lia|exact V].
Qed.

Lemma setTotalFluxes_inv f (ms ms' : mesh T) : setTotalFluxes f ms = Ok ms' ->
  ms_cells ms <= zlen (ms_mats ms') /\
  forall i m, 0 <= i < ms_cells ms -> nth_error (ms_mats ms') (Z.to_nat i) = Some m ->
    forall e, vat (mt_totflux m) e = mat_at f e i.
Proof.
  unfold setTotalFluxes. intros H. destruct (bind_ok_inv _ _ _ H) as (l & E & H1). injection H1 as <-. cbn [with_mats ms_mats].
  destruct (Z_le_dec (ms_cells ms) 0) as [Hc|Hc]; [split; [pose proof (zlen_nonneg l); lia|intros; lia]|].
  refine (zfor_inv (fun k (l : list (material T)) => k <= zlen l /\ forall i m, 0 <= i < k -> nth_error l (Z.to_nat i) = Some m ->
    forall e, vat (mt_totflux m) e = mat_at f e i) _ _ _ _ _ _ _ _ E); [lia|split; [apply zlen_nonneg|intros; lia]|].
  intros k a b Hk [La Va] Eb. destruct (inb k (mcols f)); [|discriminate]. apply upd_mat_inv in Eb as (L & Hi & V).
  split; [lia|]. intros i m Hi' Em e. specialize (V _ _ Em). destruct (Z.eqb_spec (Z.of_nat (Z.to_nat i)) k) as [Hik|Hne].
  - destruct V as (m0 & ->). cbn. f_equal. lia.
  - apply (Va i m); [lia|exact V].
Qed.

(* The log of an accelerator driven calculation shows, at every level, the
   forward and adjoint modes of the reactor it leaves, the products of its
   adjoint modes with the source and with the fission source, their ratio, and
   the total flux stored in its cells, which is the one these modes give. *)
Theorem C83_ads_report o pk sd r oc :
  run o pk [sd] r = Ok oc -> sd_kind sd = ADS ->
  let f := oc_reactor oc in
  exists q w flux, adsWeights mpi to_unsigned f = Ok (q, w) /\ adsFlux mpi to_unsigned f = Ok flux /\
    (forall i m, 0 <= i < ms_cells (rx_mesh f) -> nth_error (ms_mats (rx_mesh f)) (Z.to_nat i) = Some m ->
       forall e, vat (mt_totflux m) e = mat_at flux e i) /\
    lines (oc_log oc) =
      (modesReport fmt zfmt "Neutron Flux" (rx_fwd f) (fun m => mt_flux m) f ++
       modesReport fmt zfmt "Adjoint Flux" (rx_adj f) (fun m => mt_adj m) f ++
       column "adjoint_q:" (list_of_vec q) ++ column "adjoint_P_forward:" (list_of_vec w) ++
       column "ratio:" (map (fun n => vat q n [/] vat w n) (zrange 0 (vlen q))) ++ totalReport f)%list.
Proof.
  unfold run, problemSolve. intros H K. rewrite K in H. unfold adsCalculation in H.
  destruct (bind_ok_inv _ _ _ H) as ([o1 r1] & E1 & H1). clear H.
  destruct (bind_ok_inv _ _ _ H1) as (a & Ea & H2). clear H1.
  destruct (bind_ok_inv _ _ _ H2) as ([o2 r2] & E2 & H3). clear H2.
  destruct (bind_ok_inv _ _ _ H3) as (b & Eb & H4). clear H3.
  destruct (bind_ok_inv _ _ _ H4) as ([q w] & Ew & H5). clear H4.
  destruct (bind_ok_inv _ _ _ H5) as (flux & Ef & H6). clear H5.
  destruct (bind_ok_inv _ _ _ H6) as (ms & Es & H7). clear H6. injection H7 as <-. cbn [oc_reactor oc_log]. cbn zeta.
  assert (R : rest ms = rest (rx_mesh r2)) by (apply setters_rest; do 4 right; eauto).
  assert (Ko : keeps others (rx_mesh r2) ms) by (eapply setTotalFluxes_keeps; [|exact Es]; reflexivity).
  assert (Kf : keeps mt_flux (rx_mesh r2) ms) by (eapply setTotalFluxes_keeps; [|exact Es]; reflexivity).
  assert (Ka : keeps mt_adj (rx_mesh r2) ms) by (eapply setTotalFluxes_keeps; [|exact Es]; reflexivity).
  exists q, w, flux. split; [rewrite (weights_others mpi to_unsigned r2 ms R Ko); exact Ew|].
  split; [rewrite (flux_others mpi to_unsigned r2 ms R Ko); exact Ef|].
  unfold rest in R. injection R as _ _ Rc Rg Rf Ra. destruct (setTotalFluxes_inv _ _ _ Es) as [Lm Vm]. cbn [with_mesh rx_mesh rx_fwd rx_adj].
  rewrite Rc. split; [exact Vm|].
  destruct (solve1_modes _ _ _ _ _ _ _ _ _ _ _ _ _ E1) as [A1 _]. destruct (solve1_modes _ _ _ _ _ _ _ _ _ _ _ _ _ E2) as [_ A2].
  apply solve_only in E2. unfold solve_frame in E2. cbn [with_kind sd_kind sd_dir] in E2.
  destruct E2 as (((_ & _ & Sc & Sg & _) & _) & Ff & Nf & _ & _ & Kf2 & _).
  unfold lines. rewrite !logLines_app.
  rewrite (eigenmodes_lines fmt zfmt thr (with_kind DIFFUSION FORWARD EigALL sd) r1 a A1 ltac:(cbn; intros [_ X]; discriminate) Ea).
  rewrite (eigenmodes_lines fmt zfmt thr (with_kind DIFFUSION ADJOINT EigALL sd) r2 b ltac:(cbn; intros [X|[_ X]]; discriminate) A2 Eb).
  unfold modes. cbn [with_kind sd_kind sd_dir].
  rewrite <- Ff.
  rewrite (modesReport_keeps "Neutron Flux" (rx_fwd r2) (fun m => mt_flux m) r1 (with_mesh ms r2)).
  2: cbn; congruence. 2: cbn; congruence. 2: exact (eq_trans Kf Kf2).
  rewrite (modesReport_keeps "Adjoint Flux" (rx_adj r2) (fun m => mt_adj m) r2 (with_mesh ms r2)) by (cbn; assumption).
  f_equal. f_equal.
  destruct (adsFlux_dims _ _ Ef) as [Dr Dc].
  cbn [logLines flat_map fst snd itemLines printVector]. rewrite shown_critical. unfold column, totalReport. cbn [app].
  rewrite <- !app_assoc. cbn [app]. f_equal. f_equal. f_equal. f_equal. f_equal. f_equal. f_equal.
  rewrite (list_of_vec_zrange (adsRatio q w)). cbn [adsRatio vlen vat]. f_equal. f_equal. f_equal.
  rewrite app_nil_r. unfold printMatrix. cbn [with_mesh rx_mesh]. rewrite Dr, Dc, Rg. f_equal. apply flat_map_ext_in. intros g Hg.
  unfold perCell. cbn [with_mesh rx_mesh]. rewrite Rc. apply zrange_firstn; [exact Lm|]. intros j x Hj Ej. f_equal. symmetry. apply Vm; assumption.
Qed.
End Report.
Print Assumptions C83_ads_report.

(* the entries of the two products, in exact arithmetic *)
Theorem C83_ads_products (to_unsigned : R -> res Z) (r : reactor R) nm s p g strength :
  ads_ready r nm p g strength -> to_unsigned strength = Ok s ->
  let ms := rx_mesh r in let d := mesh_tables ms in
  exists q w, adsWeights PI to_unsigned r = Ok (q, w) /\ vlen q = nm /\ vlen w = nm /\
    forall n, 0 <= n < nm ->
      vat q n = (IZR s * tV d p * adjoint_mode ms n g p)%R /\
      vat w n = rsum 0 (ms_cells ms) (fun m => rsum 0 (ms_groups ms) (fun e =>
        adjoint_mode ms n e m * (tchi d e m * rsum 0 (ms_groups ms) (fun e' => tni d e' m * tfis d e' m)) *
        forward_mode ms n e m * tV d m)%R).
Proof.
  intros Hr Hs ms d. destruct (wp_ok _ _ (adsWeights_wp to_unsigned r nm s p g strength Hr Hs)) as ([q w] & E & Lq & Lw & H).
  exists q, w. split; [exact E|]. split; [exact Lq|]. split; [exact Lw|]. exact H.
Qed.
Print Assumptions C83_ads_products.
Example C83_ads_products_met : exists to_unsigned : R -> res Z, to_unsigned 3%R = Ok 3 /\ ads_ready (driven_reactor 3) 2 0 0 3.
Proof. exists (fun _ => Ok 3). split; [reflexivity|exact (driven_ads_ready 3)]. Qed.

(* the two group calculation of C66, in rational arithmetic: two modes, their
   products, and the total flux of both cells *)
Module Driven.
Import QArith_base.
Local Open Scope Z_scope.
Definition fmt (x : Q) : string :=
  if Qeq_bool x (29 # 39) then "29/39" else if Qeq_bool x (127 # 390) then "127/390" else "x".
Definition zfmt (z : Z) : string := if z =? 1 then "1" else "2".
Definition run : res (outcome Q) :=
  problemSolve (3 # 1) (fun _ v => v) (fun l => l) TwoGroups.eig (fun _ => []) (fun x => x) (fun x => x) (fun x => x) (fun x => x)
    (fun x => Ok (Z.div (Qnum x) (Zpos (Qden x)))) newOutput [] [TwoGroups.sd FORWARD] TwoGroups.rx.
Definition check (m : res (outcome Q)) (l : list string) : bool :=
  match m with Ok oc => Shown.same (logLines fmt zfmt CRITICAL (oc_log oc)) l | _ => false end.
Lemma check_ok m l : check m l = true -> exists oc, m = Ok oc /\ logLines fmt zfmt CRITICAL (oc_log oc) = l.
Proof. destruct m as [oc| | |]; try discriminate. intros H. exists oc. split; [reflexivity|apply Shown.same_eq; exact H]. Qed.
Definition expected : list string :=
  ["Eigenvalue: x"; "Neutron Flux 1"; "x"; "x"; "x"; "x"; " "; "Eigenvalue: x"; "Neutron Flux 2"; "x"; "x"; "x"; "x"; " ";
   "Eigenvalue: x"; "Adjoint Flux 1"; "x"; "x"; "x"; "x"; " "; "Eigenvalue: x"; "Adjoint Flux 2"; "x"; "x"; "x"; "x"; " ";
   "adjoint_q:"; "x"; "x"; " "; "adjoint_P_forward:"; "x"; "x"; " "; "ratio:"; "x"; "x"; " ";
   "Total Flux:"; "29/39"; "x"; "x"; "127/390"; " "].
Lemma check_run : check run expected = true.
Proof. vm_compute. reflexivity. Qed.
End Driven.
Example C83_ads_met : sd_kind (TwoGroups.sd FORWARD) = ADS /\
  exists oc, Driven.run = Ok oc /\ logLines Driven.fmt Driven.zfmt CRITICAL (oc_log oc) = Driven.expected.
Proof. split; [reflexivity|]. exact (Driven.check_ok _ _ Driven.check_run). Qed.
