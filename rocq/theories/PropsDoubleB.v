(* Property C95, continued: the volumes of the cells in IEEE doubles. *)
From Coq Require Import String Ascii ZArith List Bool Lia Arith Reals Lra.
From Flocq Require Import IEEE754.BinarySingleNaN Core Plus_error.
From Verif Require Import Base BaseLemmas NumR NumF ModelNumTools ModelMesh ModelReactor ModelText ProofsText ModelInput
  ProofsInput ProofsInputB ProofsInputC PropsInputB ProofsDouble PropsDouble.
Import ListNotations.
Local Open Scope string_scope.
Local Open Scope Z_scope.

(* ---------- volumes ---------- *)
Lemma sub_ok (x y : f64) : fin x -> fin y -> (0 <= val y <= val x)%R -> (val x <= bpow radix2 1000)%R ->
  fin (x [-] y) /\ val (x [-] y) = rnd (val x - val y).
Proof.
  intros Fx Fy Hx Hb. pose proof (Bminus_correct prec64 emax64 _ _ mode_NE x y Fx Fy) as H. rewrite same_exp in H.
  change (round radix2 exp64 (round_mode mode_NE) (val x - val y)) with (rnd (val x - val y)) in H.
  change (bpow radix2 emax64) with (bpow radix2 1024) in H. rewrite fits in H by lra. destruct H as (H1 & H2 & _). split; assumption.
Qed.
(* a double between 0 and 2^e *)
Definition small (e : Z) (x : f64) : Prop := fin x /\ (0 <= val x <= bpow radix2 e)%R.
Lemma small_more e e' x : e <= e' -> small e x -> small e' x.
Proof. intros He (F & B). split; [exact F|]. pose proof (bpow_le radix2 e e' He). lra. Qed.
Lemma rnd_pow x e : -1074 <= e -> (0 <= x <= bpow radix2 e)%R -> (0 <= rnd x <= bpow radix2 e)%R.
Proof. intros He B. split; [apply rnd_nonneg, B|]. rewrite <- (Rmult_1_l (bpow radix2 e)). apply rnd_scaled; [lia|exact He|lra]. Qed.
Lemma small_mul x y a c : -500 <= a <= 500 -> -500 <= c <= 500 -> small a x -> small c y -> small (a + c) (x [*] y).
Proof.
  intros Ha Hc (Fx & Bx) (Fy & By).
  assert (B : (0 <= val x * val y <= bpow radix2 (a + c))%R) by (split; [apply Rmult_le_pos; lra|rewrite bpow_plus; apply Rmult_le_compat; lra]).
  destruct (mul_ok x y Fx Fy) as (F & V); try lra.
  { apply Rle_trans with (1 := proj2 B), bpow_le. lia. }
  split; [exact F|]. rewrite V. apply rnd_pow; [lia|exact B].
Qed.
Lemma mul_le x y x' y' a c : -500 <= a <= 500 -> -500 <= c <= 500 -> small a x -> small c y -> small a x' -> small c y' ->
  (val x <= val x')%R -> (val y <= val y')%R -> (val (x [*] y) <= val (x' [*] y'))%R.
Proof.
  intros Ha Hc (Fx & Bx) (Fy & By) (Fx' & Bx') (Fy' & By') H1 H2.
  assert (B' : forall p q, (0 <= p <= bpow radix2 a)%R -> (0 <= q <= bpow radix2 c)%R -> (p * q <= bpow radix2 1000)%R).
  { intros p q Hp Hq. apply Rle_trans with (bpow radix2 a * bpow radix2 c)%R; [apply Rmult_le_compat; lra|]. rewrite <- bpow_plus. apply bpow_le. lia. }
  destruct (mul_ok x y Fx Fy ltac:(lra) ltac:(lra) (B' _ _ Bx By)) as (_ & V). destruct (mul_ok x' y' Fx' Fy' ltac:(lra) ltac:(lra) (B' _ _ Bx' By')) as (_ & V').
  rewrite V, V'. apply rnd_le. apply Rmult_le_compat; lra.
Qed.
Lemma zero_small e : small e (n0 : f64).
Proof. destruct zero64 as [F V]. split; [exact F|]. rewrite V. split; [lra|apply bpow_ge_0]. Qed.
Lemma small_one : small 0 (n1 : f64).
Proof. destruct (ofZ_ok 1 ltac:(lia)) as (F & V). split; [exact F|]. change (val (n1 : f64)) with (val (nofZ 1 : f64)). rewrite V. simpl. lra. Qed.
Lemma small_pow x n : (n <= 2)%nat -> small 150 x -> small (150 * Z.of_nat n) (npow x n).
Proof.
  induction n as [|n IH]; intros Hn Hx; [apply small_one|]. cbn [npow]. replace (150 * Z.of_nat (S n)) with (150 + 150 * Z.of_nat n) by lia.
  apply small_mul; [lia|lia|exact Hx|apply IH; [lia|exact Hx]].
Qed.
Lemma small_cube x : small 150 x -> small 450 (npow x 3).
Proof. intros Hx. change (npow x 3) with (x [*] npow x 2). change 450 with (150 + 300). apply small_mul; [lia|lia|exact Hx|]. exact (small_pow x 2 ltac:(lia) Hx). Qed.
Lemma pow_le_pow x y n : (n <= 2)%nat -> small 150 x -> small 150 y -> (val x <= val y)%R -> (val (npow x n) <= val (npow y n))%R.
Proof.
  induction n as [|n IH]; intros Hn Hx Hy H; [cbn; lra|]. cbn [npow].
  apply (mul_le _ _ _ _ 150 (150 * Z.of_nat n)); try lia; try assumption; [apply small_pow; [lia|exact Hx]|apply small_pow; [lia|exact Hy]|apply IH; [lia| | |]; assumption].
Qed.
Lemma cube_le x y : small 150 x -> small 150 y -> (val x <= val y)%R -> (val (npow x 3) <= val (npow y 3))%R.
Proof.
  intros Hx Hy H. change (npow x 3) with (x [*] npow x 2). change (npow y 3) with (y [*] npow y 2).
  apply (mul_le _ _ _ _ 150 300); try lia; try assumption; [exact (small_pow x 2 ltac:(lia) Hx)|exact (small_pow y 2 ltac:(lia) Hy)|apply pow_le_pow; [lia| | |]; assumption].
Qed.
Lemma small_sub e x y : 0 <= e <= 900 -> small e x -> small e y -> (val y <= val x)%R -> small e (x [-] y).
Proof.
  intros He (Fx & Bx) (Fy & By) H. destruct (sub_ok x y Fx Fy ltac:(lra)) as (F & V).
  { apply Rle_trans with (1 := proj2 Bx), bpow_le. lia. }
  split; [exact F|]. rewrite V. apply rnd_pow; [lia|lra].
Qed.
Lemma small_lit : small 1 (nlit 4 3 : f64).
Proof.
  destruct (ofZ_ok 4 ltac:(lia)) as (F & V). destruct (ofZ_ok 3 ltac:(lia)) as (F' & V').
  assert (U : (16 <= bpow radix2 1000)%R) by (change 16%R with (bpow radix2 4); apply bpow_le; lia).
  destruct (div_ok (nofZ 4) (nofZ 3) F) as (F2 & V2); rewrite ?V, ?V'; try lra.
  split; [exact F2|]. unfold nlit. rewrite V2, V, V'. apply rnd_pow; [lia|]. simpl. lra.
Qed.
Lemma small_int z e : 0 <= z < 2 ^ 53 -> 0 <= e -> z <= 2 ^ e -> small e (nofZ z : f64).
Proof.
  intros Hz He H. destruct (ofZ_ok z Hz) as (F & V). split; [exact F|]. rewrite V. split; [apply IZR_le; lia|].
  rewrite <- IZR_Zpower by lia. apply IZR_le. exact H.
Qed.

Section Volumes.
Variable mpi : f64.
Hypothesis Hpi : small 2 mpi.
(* what the code computes for the cell between y and x *)
Definition cell_volume (g : GeomKind) (x y : f64) : f64 :=
  match g with
  | SLAB => x [-] y
  | CYLINDER => mpi [*] (npow x 2 [-] npow y 2)
  | SPHERE => nlit 4 3 [*] mpi [*] (npow x 3 [-] npow y 3)
  | GeomUNDEFINED => n0
  end.
Lemma cell_volume_small g x y : small 150 x -> small 150 y -> (val y <= val x)%R -> small 453 (cell_volume g x y).
Proof.
  intros Hx Hy H. destruct g; cbn [cell_volume].
  - exact (zero_small 453).
  - apply (small_more 150); [lia|]. apply small_sub; [lia| | |]; assumption.
  - apply (small_more (2 + 300)); [lia|]. apply small_mul; [lia|lia|exact Hpi|]. apply small_sub; [lia|exact (small_pow x 2 ltac:(lia) Hx)|exact (small_pow y 2 ltac:(lia) Hy)|].
    apply pow_le_pow; [lia| | |]; assumption.
  - change 453 with (1 + 2 + 450). apply small_mul; [lia|lia| |].
    + apply small_mul; [lia|lia|exact small_lit|exact Hpi].
    + apply small_sub; [lia|apply small_cube, Hx|apply small_cube, Hy|apply cube_le; assumption].
Qed.

Lemma volumes_fill (ms : mesh f64) dim cm body :
  (dim = "m" \/ dim = "cm") -> small 20 cm -> 1 <= vlen (ms_bounds ms) ->
  (forall i v, 1 <= i < vlen (ms_bounds ms) -> vlen v = vlen (ms_bounds ms) - 1 -> exists x, body i v = vset v (i - 1) x /\ small 453 x) ->
  wp (v <- zfor 1 (vlen (ms_bounds ms)) body (vzeros (vlen (ms_bounds ms) - 1)) ;; Ok (by_unit dim cm v))
     (fun v => vlen v = vlen (ms_bounds ms) - 1 /\ forall i, fin (vat v i) /\ (0 <= val (vat v i))%R).
Proof.
  intros Hd Hc Hl Hb. apply wp_bind.
  apply (zfor_wp' (fun i (v : vec f64) => vlen v = vlen (ms_bounds ms) - 1 /\ forall i, small 453 (vat v i))).
  - lia.
  - split; [reflexivity|]. intros i. exact (zero_small 453).
  - intros i v Hi (L & H). destruct (Hb i v Hi L) as (x & -> & Hx). rewrite vset_ok by lia. cbn [wp vlen vat]. split; [exact L|].
    intros i'. destruct (Z.eqb i' (i - 1)); [exact Hx|apply H].
  - intros v (L & H). cbn [wp]. destruct Hd as [->| ->]; cbn [by_unit String.eqb Ascii.eqb Bool.eqb].
    + split; [exact L|]. intros i. destruct (H i) as (F & B). split; [exact F|lra].
    + split; [exact L|]. intros i. cbn [vat vscale]. destruct (small_mul (vat v i) cm 453 20 ltac:(lia) ltac:(lia) (H i) Hc) as (F & B). split; [exact F|lra].
Qed.

Lemma volumes_double (ms : mesh f64) dim : (dim = "m" \/ dim = "cm") -> ms_geom ms <> GeomUNDEFINED -> 1 <= vlen (ms_bounds ms) ->
  (forall i, 0 <= i < vlen (ms_bounds ms) -> small 150 (vat (ms_bounds ms) i)) ->
  (forall i, 0 <= i < vlen (ms_bounds ms) - 1 -> (val (vat (ms_bounds ms) i) <= val (vat (ms_bounds ms) (i + 1)%Z))%R) ->
  wp (getVolumes mpi ms dim) (fun v => vlen v = vlen (ms_bounds ms) - 1 /\ forall i, fin (vat v i) /\ (0 <= val (vat v i))%R).
Proof.
  intros Hd Hg Hl Hs Ho. unfold getVolumes.
  assert (G : forall i, 1 <= i < vlen (ms_bounds ms) -> small 453 (cell_volume (ms_geom ms) (vat (ms_bounds ms) i) (vat (ms_bounds ms) (i - 1)))).
  { intros i Hi. apply cell_volume_small; [apply Hs; lia|apply Hs; lia|]. specialize (Ho (i - 1) ltac:(lia)). replace (i - 1 + 1) with i in Ho by lia. exact Ho. }
  destruct (ms_geom ms); [congruence| | |]; unfold slab_volumes, cyl_volumes, sph_volumes; apply volumes_fill; try assumption;
    try (apply small_int; cbn; lia);
    intros i v Hi Hv; rewrite !vget_ok by lia; eexists; (split; [reflexivity|apply G, Hi]).
Qed.
End Volumes.

Section Double.
Variable mpi : f64.
Variable stod_opt : string -> option f64.

Lemma geometry_kept inp rs vs inp' : mesh_line stod_opt inp rs vs -> setMesh mpi stod_opt inp = Ok inp' -> ms_geom (in_mesh inp') = ms_geom (in_mesh inp).
Proof.
  intros (He & Hr & Hn & Ht & Hs & Hmap) E.
  assert (Hn' : Forall (fun n => 0 <= n) (counts vs)) by (eapply Forall_impl; [|exact Hn]; cbn; lia).
  destruct (wp_ok _ _ (setMesh_wp mpi stod_opt inp rs vs (entry_read _ _ _ _ He) Hr Hn' Ht Hmap Hs)) as (inp2 & E2 & b & _ & _ & _ & _ & _ & _ & _ & B3).
  rewrite E in E2. injection E2 as <-. unfold in_mesh. rewrite B3. reflexivity.
Qed.

(* No cell has a negative volume, and the cell of a slab has none only if its two sides coincide. *)
Theorem C95_volumes : forall inp rs vs, mesh_line stod_opt inp rs vs ->
  Forall (fun x => fin x /\ 0 <= val x <= bpow radix2 100)%R (widths vs) ->
  (* M_PI is some number between 0 and 4 *)
  fin mpi -> (0 <= val mpi <= 4)%R -> ms_geom (in_mesh inp) <> GeomUNDEFINED ->
  exists inp', setMesh mpi stod_opt inp = Ok inp' /\ ms_geom (in_mesh inp') = ms_geom (in_mesh inp) /\
    (forall dim, dim = "m" \/ dim = "cm" -> exists v, getVolumes mpi (in_mesh inp') dim = Ok v /\ vlen v = total (counts vs) /\
       forall i, 0 <= i < total (counts vs) -> fin (vat v i) /\ (0 <= val (vat v i))%R) /\
    (ms_geom (in_mesh inp) = SLAB -> exists v, getVolumes mpi (in_mesh inp') "m" = Ok v /\
       forall i, 0 <= i < total (counts vs) ->
         let b := ms_bounds (in_mesh inp') in (val (vat v i) = 0%R <-> val (vat b i) = val (vat b (i + 1)))).
Proof.
  intros inp rs vs Hm Hx Fp Bp Hg. destruct (mesh_of mpi stod_opt inp rs vs Hm) as (Hlen & L1 & L2 & inp' & E & Hc & Hv & Hb).
  assert (Eg : ms_geom (in_mesh inp') = ms_geom (in_mesh inp)) by (exact (geometry_kept inp rs vs inp' Hm E)).
  destruct Hm as (_ & _ & Hn & Ht & _ & _). assert (Hl : length (widths vs) = length (counts vs)) by lia.
  assert (E100 : -1000 <= 100 <= 900) by lia.
  pose proof (side_le 100 (counts vs) (widths vs) E100 Hl Hn Ht Hx _ Hb) as G.
  pose proof (side_small 100 (counts vs) (widths vs) E100 Hl Hn Ht Hx _ Hb) as U.
  set (b := ms_bounds (in_mesh inp')) in *.
  assert (T0 : 0 < total (counts vs)).
  { rewrite <- cum_all. pose proof (cum_S (counts vs) 0 ltac:(lia)) as Q. pose proof (count_at (counts vs) (widths vs) Hl Hn Ht 0 ltac:(lia)). pose proof (cum_mono (counts vs) 1 (length (counts vs))) as M. rewrite cum_0 in Q.
    assert (Hnn : Forall (fun n => 0 <= n) (counts vs)) by (eapply Forall_impl; [|exact Hn]; cbn; lia). specialize (M Hnn ltac:(lia)). lia. }
  assert (S : forall i, 0 <= i < vlen b -> small 150 (vat b i)).
  { intros i Hi. apply (small_more (100 + 32)); [lia|]. destruct (Z.eq_dec i (total (counts vs))) as [->|Ne].
    - destruct (G (total (counts vs) - 1) ltac:(lia)) as (_ & F & B). specialize (U (total (counts vs) - 1) ltac:(lia)).
      replace (total (counts vs) - 1 + 1) with (total (counts vs)) in * by lia. split; [exact F|lra].
    - destruct (G i ltac:(lia)) as (F & _ & B). specialize (U i ltac:(lia)). split; [exact F|lra]. }
  assert (O : forall i, 0 <= i < vlen b - 1 -> (val (vat b i) <= val (vat b (i + 1)%Z))%R) by (intros i Hi; apply G; lia).
  assert (Hpi : small 2 mpi) by (split; [exact Fp|exact Bp]).
  exists inp'. split; [exact E|]. split; [exact Eg|]. split.
  - intros dim Hd. destruct (wp_ok _ _ (volumes_double mpi Hpi (in_mesh inp') dim Hd ltac:(rewrite Eg; exact Hg) ltac:(fold b; lia) S O)) as (v & Ev & Lv & Pv).
    exists v. split; [exact Ev|]. split; [fold b in Lv; lia|]. intros i _. apply Pv.
  - intros Es. rewrite <- Eg in Es. assert (W : wp (getVolumes mpi (in_mesh inp') "m") (fun v => forall i, 0 <= i < total (counts vs) -> vat v i = vat b (i + 1) [-] vat b i)).
    { unfold getVolumes. rewrite Es. unfold slab_volumes. fold b. apply wp_bind.
      apply (zfor_wp' (fun n (v : vec f64) => vlen v = vlen b - 1 /\ forall i, 0 <= i < n - 1 -> vat v i = vat b (i + 1) [-] vat b i)).
      - lia.
      - split; [reflexivity|]. intros i Hi. lia.
      - intros n v Hn' (L & H). rewrite !vget_ok by lia. cbn [bind]. rewrite vset_ok by lia. cbn [wp vlen vat]. split; [exact L|].
        intros i Hi. destruct (Z.eqb_spec i (n - 1)) as [->|Ne]; [f_equal; f_equal; lia|apply H; lia].
      - intros v (L & H). cbn [wp by_unit String.eqb Ascii.eqb Bool.eqb]. intros i Hi. apply H. lia. }
    destruct (wp_ok _ _ W) as (v & Ev & Pv). exists v. split; [exact Ev|]. intros i Hi. cbv zeta. rewrite Pv by exact Hi.
    destruct (S i ltac:(lia)) as (F1 & B1). destruct (S (i + 1) ltac:(lia)) as (F2 & B2). specialize (O i ltac:(lia)).
    destruct (sub_ok (vat b (i + 1)) (vat b i) F2 F1 ltac:(lra)) as (_ & V).
    { apply Rle_trans with (1 := proj2 B2), bpow_le. lia. }
    rewrite V. split.
    + intros Z0. destruct (Req_dec (val (vat b i)) (val (vat b (i + 1)))) as [Q|Q]; [exact Q|exfalso].
      apply (round_plus_neq_0 radix2 exp64 ZnearestE (val (vat b (i + 1))) (- val (vat b i))%R (format_val _)); [apply generic_format_opp, format_val|lra|exact Z0].
    + intros Q. exact (eq_trans (f_equal rnd (Rminus_diag_eq _ _ (eq_sym Q))) rnd_0).
Qed.
End Double.
Print Assumptions C95_volumes.
Definition pi64 : f64 := nofZ 7074237752028440 [/] nofZ 2251799813685248.
Definition ex_volumes : input f64 := mkInput ["Geometry slab"; "MESH 2 15 Fuel 3 5 refl % two regions"] (with_mesh (mkMesh (vzeros 0) SLAB 0 0 [] 0 0) newReactor) [] [] [] [].
Example C95_volumes_example :
  let vs := [(2, nofZ 15 : f64, "fuel"); (3, nofZ 5 : f64, "refl")] in
  mesh_line stod64 ex_volumes [("2", "15", "fuel"); ("3", "5", "refl")] vs /\
  Forall (fun x => fin x /\ 0 <= val x <= bpow radix2 100)%R (widths vs) /\
  fin pi64 /\ (0 <= val pi64 <= 4)%R /\ ms_geom (in_mesh ex_volumes) = SLAB.
Proof.
  cbv zeta. destruct (ofZ_ok 15 ltac:(lia)) as (F15 & V15). destruct (ofZ_ok 5 ltac:(lia)) as (F5 & V5).
  destruct (ofZ_ok 7074237752028440 ltac:(lia)) as (F1 & V1). destruct (ofZ_ok 2251799813685248 ltac:(lia)) as (F2 & V2).
  assert (U : (16 <= bpow radix2 100)%R) by (change 16%R with (bpow radix2 4); apply bpow_le; lia).
  assert (U' : (16 <= bpow radix2 1000)%R) by (change 16%R with (bpow radix2 4); apply bpow_le; lia).
  destruct (div_ok (nofZ 7074237752028440) (nofZ 2251799813685248) F1) as (F3 & V3); rewrite ?V1, ?V2; try lra.
  rewrite V1, V2 in V3.
  split; [|split; [|split; [exact F3|split; [|reflexivity]]]].
  - split; [apply read_entry; [reflexivity|discriminate]|]. split; [repeat constructor|]. split; [repeat constructor|].
    split; [reflexivity|]. split; [|reflexivity]. repeat constructor; left; reflexivity.
  - unfold widths. cbn [map]. constructor; [|constructor; [|constructor]]; (split; [assumption|]); rewrite ?V15, ?V5; lra.
  - unfold pi64. rewrite V3. change 4%R with (bpow radix2 2). apply rnd_pow; [lia|]. simpl. lra.
Qed.
