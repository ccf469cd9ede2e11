(* Property theorems C105: the heat calculation of a uniform body with a uniform
   heat source, against the solution of the differential equation. *)
From Coq Require Import String ZArith List Bool Lia Reals Lra.
From Coquelicot Require Import Coquelicot.
From Verif Require Import Base BaseLemmas NumR LinAlg Blocks ModelNumTools ModelEigen ModelMesh ModelReactor
  ModelHeat ProofsMesh ProofsDiffusion ProofsDiffusionR ProofsPower ProofsHeat ProofsHeatLoop ProofsHeatConstant
  PropsHeat.
Import ListNotations.
Local Open Scope R_scope.

(* Steady conduction with conductivity k and heat source q in a slab (d = 1), a
   cylinder (d = 2) or a sphere (d = 3) that reaches from 0 to W: P is the temperature
   and P' its derivative. *)
Definition conducts (d : nat) (k q W : R) (P P' : R -> R) : Prop :=
  forall r, 0 <= r <= W -> is_derive P r (P' r) /\
    is_derive (fun s => s ^ (d - 1) * (k * P' s)) r (- (q * r ^ (d - 1))).

(* what a body has in common everywhere *)
Record uniform (ms : mesh R) (h k q : R) : Prop := {
  un_width : forall i, (0 <= i <= ms_cells ms)%Z -> vat (ms_bounds ms) i = IZR i * h;
  un_cond : forall i, (0 <= i < ms_cells ms)%Z -> mt_cond (cell_material ms i) = Some [k];
  un_heat : forall i, (0 <= i < ms_cells ms)%Z -> mt_heat (cell_material ms i) = q }.

Lemma same_derivative f g W : (forall r, 0 <= r <= W -> ex_derive f r /\ ex_derive g r) ->
  (forall r, 0 < r < W -> exists l, is_derive f r l /\ is_derive g r l) ->
  forall r, 0 <= r <= W -> f r - f 0 = g r - g 0.
Proof.
  intros C H r Hr. destruct (Req_dec r 0) as [->|Hne]; [ring|].
  destruct (MVT_gen (fun s => f s - g s) 0 r (fun _ => 0)) as (c & _ & E).
  - intros s Hs. rewrite Rmin_left, Rmax_right in Hs by lra. destruct (H s ltac:(lra)) as (l & A & B).
    replace 0 with (l - l) by ring. apply (is_derive_minus f g); assumption.
  - intros s Hs. rewrite Rmin_left, Rmax_right in Hs by lra. destruct (C s ltac:(lra)) as (A & B).
    apply (continuity_pt_minus f g); apply continuity_pt_filterlim, (ex_derive_continuous (V := R_NormedModule)); assumption.
  - lra.
Qed.

Lemma conducts_flux d k q W P P' : (1 <= d)%nat -> 0 < k -> conducts d k q W P P' -> forall r, 0 <= r <= W ->
  r ^ (d - 1) * (k * P' r) = 0 ^ (d - 1) * (k * P' 0) - q / INR d * r ^ d.
Proof.
  intros Hd Hk H r Hr. pose proof (same_derivative (fun s => s ^ (d - 1) * (k * P' s)) (fun s => - (q / INR d * s ^ d)) W) as S.
  assert (HD : INR d <> 0) by (apply not_0_INR; lia).
  assert (G : forall s, is_derive (fun s => - (q / INR d * s ^ d)) s (- (q * s ^ (d - 1)))).
  { intros s. auto_derive; [exact I|]. replace (Init.Nat.pred d) with (d - 1)%nat by lia. field. exact HD. }
  specialize (S ltac:(intros s Hs; split; [exists (- (q * s ^ (d - 1))); apply H, Hs|exists (- (q * s ^ (d - 1))); apply G])
    ltac:(intros s Hs; exists (- (q * s ^ (d - 1))); split; [apply H; lra|apply G]) r Hr). cbn beta in S.
  assert (Z0 : 0 ^ d = 0) by (apply pow_ne_zero; lia). rewrite Z0 in S. lra.
Qed.

(* the solution of the differential equation *)
Definition slope (g : GeomKind) (P' : R -> R) : R := match g with SLAB => P' 0 | _ => 0 end.
Definition parabola (g : GeomKind) (k q : R) (P P' : R -> R) (r : R) : R :=
  P 0 + slope g P' * r - q / (2 * INR (dimension g) * k) * r ^ 2.
Lemma conducts_solution g k q W P P' : g <> GeomUNDEFINED -> 0 < k -> conducts (dimension g) k q W P P' ->
  (forall r, 0 < r <= W -> P' r = slope g P' - q / (INR (dimension g) * k) * r) /\
  forall r, 0 <= r <= W -> P r = parabola g k q P P' r.
Proof.
  intros Hg Hk H. assert (Hd : (1 <= dimension g)%nat) by (destruct g; cbn; try lia; congruence).
  assert (HD : 0 < INR (dimension g)) by (apply lt_0_INR; lia).
  assert (A : forall r, 0 < r <= W -> P' r = slope g P' - q / (INR (dimension g) * k) * r).
  { intros r Hr. pose proof (conducts_flux _ k q W P P' Hd Hk H r ltac:(lra)) as F.
    destruct g; cbn [dimension slope Nat.sub] in *; try congruence.
    - apply (Rmult_eq_reg_l k); [|lra]. cbn [pow INR] in F. rewrite !Rmult_1_l in F. rewrite F. cbn [INR]. field. lra.
    - apply (Rmult_eq_reg_l (r * k)); [|apply Rgt_not_eq, Rmult_lt_0_compat; lra].
      cbn [pow INR] in F |- *. transitivity (r * 1 * (k * P' r)); [ring|]. rewrite F. field. lra.
    - apply (Rmult_eq_reg_l (r ^ 2 * k)); [|apply Rgt_not_eq, Rmult_lt_0_compat; [apply pow_lt|]; lra].
      cbn [pow INR] in F |- *. transitivity (r * (r * 1) * (k * P' r)); [ring|]. rewrite F. field. lra. }
  split; [exact A|]. intros r Hr.
  assert (G : forall s, is_derive (parabola g k q P P') s (slope g P' - q / (INR (dimension g) * k) * s)).
  { intros s. unfold parabola. auto_derive; [exact I|]. field. lra. }
  pose proof (same_derivative P (parabola g k q P P') W) as S.
  specialize (S ltac:(intros s Hs; split; eexists; [apply H, Hs|apply G])
    ltac:(intros s Hs; eexists; split; [apply H; lra|rewrite A by lra; apply G]) r Hr).
  unfold parabola at 2 in S. lra.
Qed.

Section Uniform.
Variables (ms : mesh R) (h k q : R).
Hypothesis Hc : conducting ms.
Hypothesis Hu : uniform ms h k q.
Hypothesis Hh : 0 < h.
Hypothesis Hk : 0 < k.
Let n := ms_cells ms.
Let d := dimension (ms_geom ms).

Lemma uniform_width i : (0 <= i < n)%Z -> width ms i = h.
Proof. intros Hi. unfold width. rewrite !(un_width _ _ _ _ Hu) by (fold n; lia). rewrite plus_IZR. ring. Qed.
Lemma uniform_cond i : (0 <= i < n)%Z -> conductivity ms i = k.
Proof. intros Hi. unfold conductivity. rewrite (un_cond _ _ _ _ Hu) by auto. apply constant_law. Qed.
Lemma uniform_isz i : (0 <= i < n)%Z -> isz ms i = h.
Proof.
  intros Hi. unfold isz. fold n. destruct ((1 <=? i) && (i <? n - 1))%Z eqn:E; [rewrite !uniform_width by lia; field|apply uniform_width, Hi].
Qed.
Lemma uniform_ilam i : (0 <= i < n)%Z -> ilam ms i = k * face ms i.
Proof.
  intros Hi. unfold ilam. fold n. destruct ((1 <=? i) && (i <? n - 1))%Z eqn:E.
  - rewrite !uniform_width, !uniform_cond by lia. f_equal. field. lra.
  - rewrite uniform_cond by auto. reflexivity.
Qed.
Lemma uniform_gright i : (0 <= i < n - 1)%Z -> gright ms i = k * face ms (i + 1) / h.
Proof. intros Hi. unfold gright. rewrite uniform_ilam, uniform_isz by lia. reflexivity. Qed.
Lemma uniform_gleft i : (1 <= i < n)%Z -> gleft ms i = k * face ms i / h.
Proof. intros Hi. unfold gleft. fold n. destruct (i =? n - 1)%Z; rewrite uniform_ilam, uniform_isz by lia; reflexivity. Qed.

Lemma dimension_pos : 0 < INR d.
Proof. destruct Hc as (Hg & _). unfold d. destruct (ms_geom ms); cbn; try lra; congruence. Qed.

(* heat through face i for the slope b at the left face, and its balance *)
Definition through (b : R) (i : Z) : R := face ms i * (- k * b + q * (IZR i * h) / INR d).
Lemma through_balance b i : (ms_geom ms = SLAB \/ b = 0) -> (0 <= i < n)%Z ->
  through b (i + 1) - through b i = q * cell_volume ms i.
Proof.
  intros Hb Hi. unfold through, face, cell_volume. rewrite !(un_width _ _ _ _ Hu) by (fold n; lia). rewrite plus_IZR.
  destruct Hc as (Hg & _). unfold d. destruct (ms_geom ms); cbn [body_surface body_volume dimension INR]; try congruence.
  - field.
  - destruct Hb as [Hb| ->]; [discriminate|]. field.
  - destruct Hb as [Hb| ->]; [discriminate|]. field.
Qed.
Lemma through_centre b : ms_geom ms <> SLAB -> through b 0 = 0.
Proof.
  intros Hs. unfold through, face. rewrite (un_width _ _ _ _ Hu) by (fold n; destruct Hc as (_ & H & _); fold n in H; lia).
  destruct (ms_geom ms); cbn [body_surface]; try congruence; ring.
Qed.

(* the temperatures *)
Definition exact_temp (c b : R) (i : Z) : R :=
  c + b * ((IZR i + 1 / 2) * h) - q / (2 * INR d * k) * ((IZR i + 1 / 2) * h) ^ 2 + q * h ^ 2 / (8 * INR d * k).
Lemma exact_difference c b i : k * face ms (i + 1) / h * (exact_temp c b i - exact_temp c b (i + 1)) = through b (i + 1).
Proof. unfold exact_temp, through. rewrite plus_IZR. pose proof dimension_pos. field. lra. Qed.

Lemma uniform_physical : physical ms.
Proof.
  destruct Hc as (_ & H2 & Hb & _). fold n in H2, Hb.
  split; [intros i Hi; rewrite uniform_cond; auto|]. split.
  - intros i Hi Hj. rewrite !(un_width _ _ _ _ Hu) by (fold n; lia). rewrite plus_IZR. lra.
  - rewrite (un_width _ _ _ _ Hu) by (fold n; lia). ring.
Qed.

Lemma exact_solves L Rt c b : (ms_geom ms = SLAB \/ b = 0) -> well_posed ms L Rt ->
  (ms_geom ms = SLAB -> bcA L * c - bcB L * (k * b) = bcC L) ->
  bcA Rt * (c + b * (IZR n * h) - q / (2 * INR d * k) * (IZR n * h) ^ 2) + bcB Rt * (k * (b - q / (INR d * k) * (IZR n * h))) = bcC Rt ->
  forall i, (0 <= i < n)%Z -> app n (fullmat ms L Rt) (exact_temp c b) i = fullsource ms L Rt i.
Proof.
  intros Hb (WL & WR & _) HL HR i Hi. pose proof Hc as (_ & H2 & _). fold n in H2. pose proof dimension_pos as HD.
  pose proof uniform_physical as Hp.
  assert (LL : left_law ms L (exact_temp c b 0) (- through b 0)).
  { unfold left_law. destruct (is_slab ms) eqn:Es.
    - assert (Eg : ms_geom ms = SLAB) by (unfold is_slab in Es; destruct (ms_geom ms); try discriminate Es; reflexivity).
      exists c. rewrite uniform_cond, uniform_width by lia. unfold through, exact_temp. unfold face. rewrite Eg. cbn [body_surface]. split; [field; lra|].
      rewrite <- (HL Eg). field. lra.
    - rewrite through_centre; [ring|]. intros Eg. unfold is_slab in Es. rewrite Eg in Es. discriminate Es. }
  pose proof (face_pos ms n Hc Hp ltac:(fold n; lia)) as HS.
  assert (LR : right_law ms Rt (exact_temp c b (n - 1)) (through b n)).
  { unfold right_law. fold n. rewrite uniform_cond, uniform_width by lia.
    exists (c + b * (IZR n * h) - q / (2 * INR d * k) * (IZR n * h) ^ 2). unfold through, exact_temp. rewrite minus_IZR. split; [field; lra|].
    rewrite <- HR. field. lra. }
  pose proof (system_balance ms L Rt (exact_temp c b) (- through b 0) (through b n) Hc Hp) as B. fold n in B.
  specialize (B ltac:(apply admissible_regular; auto) LL LR i Hi).
  enough (E : app n (hmat ms) (exact_temp c b) i + (if (i =? 0)%Z then - through b 0 else 0) + (if (i =? n - 1)%Z then through b n else 0)
    = stored_heat ms i * cell_volume ms i) by lra.
  unfold stored_heat. rewrite (un_heat _ _ _ _ Hu) by auto. rewrite <- (through_balance b i Hb Hi).
  pose proof (hmat_app ms (exact_temp c b) i H2 Hi) as HA. fold n in HA. rewrite HA.
  assert (ER : (if (i <? n - 1)%Z then gright ms i * (exact_temp c b i - exact_temp c b (i + 1)) else 0) + (if (i =? n - 1)%Z then through b n else 0) = through b (i + 1)).
  { destruct (Z.ltb_spec i (n - 1)).
    - replace (i =? n - 1)%Z with false by lia. rewrite uniform_gright by lia. rewrite exact_difference. ring.
    - replace (i =? n - 1)%Z with true by lia. replace (i + 1)%Z with n by lia. ring. }
  assert (EL : (if (0 <? i)%Z then gleft ms i * (exact_temp c b i - exact_temp c b (i - 1)) else 0) + (if (i =? 0)%Z then - through b 0 else 0) = - through b i).
  { destruct (Z.ltb_spec 0 i).
    - replace (i =? 0)%Z with false by lia. rewrite uniform_gleft by lia. pose proof (exact_difference c b (i - 1)) as D.
      replace (i - 1 + 1)%Z with i in D by lia. rewrite <- D. ring.
    - replace (i =? 0)%Z with true by lia. replace i with 0%Z by lia. ring. }
  lra.
Qed.
End Uniform.

(* The temperatures at the centres of the cells are those of the differential equation,
   all of them too high by the same amount (too low when the source is negative): the
   source times the square of the width over 8, 16 or 24 times the conductivity. *)
Theorem C105_uniform_body solver sd L Rt r h k q P P' :
  let ms := rx_mesh r in let n := ms_cells ms in let d := dimension (ms_geom ms) in let W := IZR n * h in
  conducting ms -> uniform ms h k q -> 0 < h -> 0 < k -> boundaries sd L Rt -> exact solver -> well_posed ms L Rt ->
  0 < sd_acc sd -> (2 <= sd_max sd)%Z -> conducts d k q W P P' ->
  (ms_geom ms = SLAB -> bcA L * P 0 - bcB L * (k * P' 0) = bcC L) -> bcA Rt * P W + bcB Rt * (k * P' W) = bcC Rt ->
  exists old ms', heatSolve PI solver sd r = Ok (old, with_mesh ms' r) /\ reheated ms ms' /\
    forall i, (0 <= i < n)%Z -> temp ms' i = P ((IZR i + 1 / 2) * h) + q * h ^ 2 / (8 * INR d * k).
Proof.
  intros ms n d W Hc Hu Hh Hk Hb He Hw Ha Hm HP HL HR. pose proof Hc as (Hg & H2 & Hbd & _). fold n in H2, Hbd.
  pose proof (uniform_physical ms h k q Hc Hu Hh Hk) as Hp.
  assert (HW : 0 < W) by (apply Rmult_lt_0_compat; [apply (IZR_lt 0); lia|exact Hh]).
  destruct (conducts_solution (ms_geom ms) k q W P P' Hg Hk HP) as (S1 & S2).
  assert (Hcc : constant_conductivity ms) by (intros i Hi; exists k; split; [exact Hk|apply (un_cond _ _ _ _ Hu), Hi]).
  assert (Hge : good_geometry ms) by (destruct Hp as (_ & A & B); split; assumption).
  destruct (constant_solve solver sd L Rt r Hc Hcc Hge Hb He Hw Ha Hm) as (old & ms' & _ & Es & Re & Sol). fold ms n in Re, Sol.
  exists old, ms'. split; [exact Es|]. split; [exact Re|]. intros i Hi.
  set (b := slope (ms_geom ms) P').
  assert (E : temp ms' i = exact_temp ms h k q (P 0) b i).
  { revert i Hi. apply (injective_equal n _ _ _ (well_posed_injective ms L Rt Hc Hp Hw)). intros i Hi. rewrite Sol by auto. symmetry.
    apply (exact_solves ms h k q Hc Hu Hh Hk L Rt (P 0) b); auto.
    - unfold b, slope. destruct (ms_geom ms); auto.
    - intros Eg. unfold b. rewrite Eg. cbn [slope]. apply HL, Eg.
    - fold n W. rewrite <- HR, (S1 W), (S2 W) by lra. fold b. unfold parabola. fold b. reflexivity. }
  rewrite E. unfold exact_temp. fold d. f_equal. symmetry. apply (S2 ((IZR i + 1 / 2) * h)).
  pose proof (IZR_le 0 i ltac:(lia)). pose proof (IZR_le (i + 1) n ltac:(lia)) as G. rewrite plus_IZR in G. unfold W. split; nra.
Qed.
Print Assumptions C105_uniform_body.

(* there is always such a solution of the differential equation *)
Theorem C105_solution_exists g k q W L Rt : g <> GeomUNDEFINED -> 0 < k -> 0 < W ->
  (g = SLAB -> admissible L) -> admissible Rt -> (0 < bcA Rt \/ (g = SLAB /\ 0 < bcA L)) ->
  exists P P', conducts (dimension g) k q W P P' /\
    (g = SLAB -> bcA L * P 0 - bcB L * (k * P' 0) = bcC L) /\ bcA Rt * P W + bcB Rt * (k * P' W) = bcC Rt.
Proof.
  intros Hg Hk HW HL (A1 & B1 & S1) Hf. set (D := INR (dimension g)).
  assert (HD : 0 < D) by (unfold D; destruct g; cbn; try lra; congruence).
  assert (C : forall c b, (g = SLAB \/ b = 0) ->
    conducts (dimension g) k q W (fun r => c + b * r - q / (2 * D * k) * r ^ 2) (fun r => b - q / (D * k) * r)).
  { intros c b Hb r Hr. split; [auto_derive; [exact I|field; lra]|].
    unfold D in *. destruct g; cbn [dimension Nat.sub pow INR] in *; try congruence;
      try (destruct Hb as [Hb| ->]; [discriminate Hb|]); (auto_derive; [exact I|field; lra]). }
  assert (Wk : 0 < W * k) by nra.
  destruct g eqn:Eg; try congruence.
  all: try (match goal with |- context [SLAB = SLAB] => fail 1 | _ => idtac end;
    destruct Hf as [Hf|[Hf _]]; [|discriminate Hf];
    exists (fun r => (bcC Rt + bcB Rt * q * W / D) / bcA Rt + q / (2 * D * k) * W ^ 2 + 0 * r - q / (2 * D * k) * r ^ 2), (fun r => 0 - q / (D * k) * r);
    split; [apply C; right; reflexivity|]; split; [discriminate|]; field; lra).
  clear Eg. destruct (HL eq_refl) as (A0 & B0 & S0).
  set (det := bcA L * (bcA Rt * W + bcB Rt * k) + bcB L * k * bcA Rt).
  assert (Hdet : 0 < det).
  { unfold det. assert (0 <= bcA Rt * W) by nra. assert (0 <= bcB Rt * k) by nra. assert (0 <= bcB L * k) by nra.
    assert (0 <= bcB L * k * bcA Rt) by nra. assert (0 < bcA Rt * W + bcB Rt * k).
    { destruct (Rle_lt_dec (bcA Rt) 0); [assert (0 < bcB Rt * k) by nra; lra|nra]. }
    destruct (Rle_lt_dec (bcA L) 0) as [Z0|Z0]; [|nra].
    destruct Hf as [Hf|[_ Hf]]; [|lra]. assert (0 < bcB L * k) by nra. assert (0 < bcB L * k * bcA Rt) by nra. nra. }
  set (K := bcC Rt + bcA Rt * (q / (2 * D * k) * W ^ 2) + bcB Rt * (q / D * W)).
  set (b := (bcA L * K - bcA Rt * bcC L) / det).
  set (c := (bcC L * (bcA Rt * W + bcB Rt * k) + bcB L * k * K) / det).
  exists (fun r => c + b * r - q / (2 * D * k) * r ^ 2), (fun r => b - q / (D * k) * r).
  split; [apply C; left; reflexivity|]. split.
  - intros _. transitivity (bcA L * c - bcB L * k * b); [ring|]. unfold b, c. transitivity (bcC L * (det / det)); [|field; lra].
    unfold Rdiv. rewrite <- !Rmult_assoc. transitivity (bcC L * det * / det); [|ring]. unfold det at 3. ring.
  - transitivity (bcA Rt * c + (bcA Rt * W + bcB Rt * k) * b - bcA Rt * (q / (2 * D * k) * W ^ 2) - bcB Rt * (q / D * W)).
    { field. lra. }
    enough (E : bcA Rt * c + (bcA Rt * W + bcB Rt * k) * b = K) by (rewrite E; unfold K; ring).
    unfold b, c. transitivity (K * (det / det)); [|field; lra].
    unfold Rdiv. rewrite <- !Rmult_assoc. transitivity (K * det * / det); [|ring]. unfold det at 3. ring.
Qed.
Print Assumptions C105_solution_exists.

(* A slab between two walls at given temperatures. *)
Corollary C105_fixed_walls solver sd r h k q Tl Tr :
  let ms := rx_mesh r in let n := ms_cells ms in let W := IZR n * h in
  conducting ms -> ms_geom ms = SLAB -> uniform ms h k q -> 0 < h -> 0 < k -> sd_heatbc sd = [1; 0; Tl; 1; 0; Tr] -> exact solver ->
  0 < sd_acc sd -> (2 <= sd_max sd)%Z ->
  exists old ms', heatSolve PI solver sd r = Ok (old, with_mesh ms' r) /\ reheated ms ms' /\
    forall i, (0 <= i < n)%Z -> let x := (IZR i + 1 / 2) * h in
      temp ms' i = Tl + (Tr - Tl) * (x / W) + q / (2 * k) * (x * (W - x)) + q * h ^ 2 / (8 * k).
Proof.
  intros ms n W Hc Hs Hu Hh Hk Hb He Ha Hm. pose proof Hc as (Hg & H2 & _). fold n in H2.
  assert (HW : 0 < W) by (apply Rmult_lt_0_compat; [apply (IZR_lt 0); lia|exact Hh]).
  destruct (C105_uniform_body solver sd (mkbc 1 0 Tl) (mkbc 1 0 Tr) r h k q
    (fun x => Tl + (Tr - Tl) * (x / W) + q / (2 * k) * (x * (W - x))) (fun x => (Tr - Tl) / W + q / (2 * k) * (W - 2 * x)))
    as (old & ms' & E & R & T); auto.
  - left. exact Hb.
  - unfold well_posed, admissible. cbn [bcA bcB]. repeat split; intros; lra.
  - fold ms n W. rewrite Hs. intros x Hx. cbn [dimension Nat.sub pow]. split; (auto_derive; [lra|field; lra]).
  - intros _. cbn [bcA bcB bcC]. field. lra.
  - fold ms n W. cbn [bcA bcB bcC]. field. lra.
  - exists old, ms'. split; [exact E|]. split; [exact R|]. intros i Hi x. rewrite (T i Hi). fold ms n W x. rewrite Hs. cbn [dimension INR].
    field. lra.
Qed.
Print Assumptions C105_fixed_walls.

(* A cylinder or a sphere whose surface is at a given temperature. *)
Corollary C105_fixed_surface solver sd L r h k q Ts :
  let ms := rx_mesh r in let n := ms_cells ms in let d := dimension (ms_geom ms) in let W := IZR n * h in
  conducting ms -> ms_geom ms <> SLAB -> uniform ms h k q -> 0 < h -> 0 < k -> boundaries sd L (mkbc 1 0 Ts) -> exact solver ->
  0 < sd_acc sd -> (2 <= sd_max sd)%Z ->
  exists old ms', heatSolve PI solver sd r = Ok (old, with_mesh ms' r) /\ reheated ms ms' /\
    forall i, (0 <= i < n)%Z -> let x := (IZR i + 1 / 2) * h in
      temp ms' i = Ts + q / (2 * INR d * k) * (W ^ 2 - x ^ 2) + q * h ^ 2 / (8 * INR d * k).
Proof.
  intros ms n d W Hc Hs Hu Hh Hk Hb He Ha Hm. pose proof Hc as (Hg & H2 & _). fold n in H2.
  assert (HW : 0 < W) by (apply Rmult_lt_0_compat; [apply (IZR_lt 0); lia|exact Hh]).
  assert (HD : 0 < INR d) by (unfold d; destruct (ms_geom ms); cbn; try lra; congruence).
  destruct (C105_uniform_body solver sd L (mkbc 1 0 Ts) r h k q
    (fun x => Ts + q / (2 * INR d * k) * (W ^ 2 - x ^ 2)) (fun x => - (q / (INR d * k) * x))) as (old & ms' & E & R & T); auto.
  - unfold well_posed, admissible. fold ms. cbn [bcA bcB]. unfold is_slab. destruct (ms_geom ms); try congruence; repeat split; intros; try discriminate; lra.
  - fold ms n d W. intros x Hx. split; [auto_derive; [exact I|field; lra]|]. unfold d in *.
    destruct (ms_geom ms); cbn [dimension Nat.sub pow INR] in *; try congruence; (auto_derive; [exact I|field; lra]).
  - intros Eg. exfalso. apply Hs, Eg.
  - fold ms n W. cbn [bcA bcB bcC]. field. lra.
  - exists old, ms'. split; [exact E|]. split; [exact R|]. intros i Hi x. rewrite (T i Hi). fold ms n W d x. reflexivity.
Qed.
Print Assumptions C105_fixed_surface.

(* a slab of three cells of width 1 *)
Definition even_slab : mesh R := hot_slab [0; 1; 2; 3] [hot 2 6; hot 2 6; hot 2 6].
Example C105_met : conducting even_slab /\ uniform even_slab 1 2 6 /\ ms_geom even_slab = SLAB /\
  sd_heatbc (heat_data [1; 0; 20; 1; 0; 50]) = [1; 0; 20; 1; 0; 50] /\
  well_posed even_slab (mkbc 5 1 100) (mkbc 1 0 20) /\ 0 < sd_acc (heat_data []) /\ (2 <= sd_max (heat_data []))%Z /\ exists solver, exact solver.
Proof.
  destruct (hot_ok 0 1 2 3 _ _ _ 2 2 2 6 6 6 eq_refl eq_refl eq_refl) as (Hc & _); try lra.
  split; [exact Hc|]. split.
  { split; intros i Hi; change (ms_cells even_slab) with 3%Z in Hi.
    - assert (i = 0 \/ i = 1 \/ i = 2 \/ i = 3)%Z as [->|[->|[->| ->]]] by lia; cbn; cbv [Pos.to_nat Pos.iter_op Nat.add]; cbn; lra.
    - cells3 i; reflexivity.
    - cells3 i; reflexivity. }
  split; [reflexivity|]. split; [reflexivity|].
  split; [unfold well_posed, admissible; cbn; repeat split; intros; lra|]. split; [cbn; lra|]. split; [cbn; lia|]. exact PropsHeat.exact_exists.
Qed.
