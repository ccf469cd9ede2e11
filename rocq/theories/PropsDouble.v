(* Property C95: the mesh in IEEE doubles. *)
From Coq Require Import String Ascii ZArith List Bool Lia Arith Reals Lra Psatz.
From Flocq Require Import IEEE754.BinarySingleNaN Core.
From Verif Require Import Base BaseLemmas NumR NumF ModelNumTools ModelMesh ModelReactor ModelText ProofsText ModelInput
  ProofsInput ProofsInputB ProofsInputC PropsInputB ProofsDouble.
Import ListNotations.
Local Open Scope string_scope.
Local Open Scope Z_scope.

Section Points.
Variables (E : Z) (ns : list Z) (xs : list f64).
Hypothesis HE : -1000 <= E <= 900.
Hypothesis Hl : length xs = length ns.
Hypothesis Hn : Forall (fun n => 0 < n) ns.
Hypothesis Ht : total ns < 2147483647.
Hypothesis Hx : Forall (fun x => fin x /\ 0 <= val x <= bpow radix2 E)%R xs.

Lemma count_at k : (k < length ns)%nat -> 0 < nth k ns 0 < 2147483647.
Proof.
  intros Hk. assert (Hnn : Forall (fun n => 0 <= n) ns) by (eapply Forall_impl; [|exact Hn]; cbn; lia).
  assert (0 < nth k ns 0) by (rewrite Forall_forall in Hn; apply Hn, nth_In, Hk).
  pose proof (cum_S ns k Hk). pose proof (cum_nonneg ns k Hnn). pose proof (cum_mono ns (S k) (length ns) Hnn ltac:(lia)). rewrite cum_all in *. lia.
Qed.
Lemma regions_few : Z.of_nat (length ns) < 2147483647.
Proof.
  assert (G : forall l : list Z, Forall (fun n => 0 < n) l -> Z.of_nat (length l) <= total l).
  { unfold total. induction 1; cbn [length fold_right]; lia. }
  specialize (G ns Hn). lia.
Qed.
Lemma width_at k : (k < length ns)%nat -> fin (nth k xs n0) /\ (0 <= val (nth k xs n0) <= bpow radix2 E)%R.
Proof. intros Hk. rewrite Forall_forall in Hx. apply Hx, nth_In. lia. Qed.

Lemma big_sum k : (0 <= k <= 2147483650)%Z -> (IZR k * bpow radix2 E <= bpow radix2 1000)%R.
Proof.
  intros Hk. apply Rle_trans with (bpow radix2 40 * bpow radix2 E)%R.
  - apply Rmult_le_compat_r; [apply bpow_ge_0|]. rewrite <- IZR_Zpower by lia. apply IZR_le. change (radix2 ^ 40)%Z with 1099511627776%Z. lia.
  - rewrite <- bpow_plus. apply bpow_le. lia.
Qed.

(* the near side of region k *)
Lemma pos_ok k : (k <= length ns)%nat -> fin (pos xs k) /\ (0 <= val (pos xs k) <= IZR (Z.of_nat k) * bpow radix2 E)%R.
Proof.
  pose proof regions_few as Hf. induction k as [|k IH]; intros Hk.
  - destruct zero64 as [F V]. change (pos xs 0) with (n0 : f64). split; [exact F|]. rewrite V. simpl. lra.
  - destruct (IH ltac:(lia)) as (F & B). destruct (width_at k ltac:(lia)) as (F' & B').
    rewrite (pos_S xs k n0) by lia.
    assert (S1 : (val (pos xs k) + val (nth k xs n0) <= IZR (Z.of_nat (S k)) * bpow radix2 E)%R).
    { rewrite Nat2Z.inj_succ, succ_IZR, Rmult_plus_distr_r, Rmult_1_l. lra. }
    destruct (add_ok _ _ F F' ltac:(lra) ltac:(lra)) as (F2 & V2).
    { apply Rle_trans with (1 := S1), big_sum. lia. }
    split; [exact F2|]. rewrite V2. split; [apply rnd_nonneg; lra|]. apply rnd_scaled; [lia|lia|exact S1].
Qed.
Lemma pos_value k : (k < length ns)%nat -> val (pos xs (S k)) = rnd (val (pos xs k) + val (nth k xs n0)).
Proof.
  intros Hk. pose proof regions_few as Hf. destruct (pos_ok k ltac:(lia)) as (F & B). destruct (width_at k ltac:(lia)) as (F' & B').
  rewrite (pos_S xs k n0) by lia. apply add_ok; try assumption; try lra.
  apply Rle_trans with (IZR (Z.of_nat (S k)) * bpow radix2 E)%R; [|apply big_sum; lia].
  rewrite Nat2Z.inj_succ, succ_IZR, Rmult_plus_distr_r, Rmult_1_l. lra.
Qed.

(* step j of region k, before the near side of the region is added *)
Definition step (k : nat) (j : Z) : R := rnd (rnd (IZR j * val (nth k xs n0)) / IZR (nth k ns 0)).

Lemma point_ok k j : (k < length ns)%nat -> 0 <= j <= nth k ns 0 ->
  fin (point ns xs k j) /\ val (point ns xs k j) = rnd (step k j + val (pos xs k)) /\ (0 <= step k j <= IZR 1 * bpow radix2 E)%R.
Proof.
  intros Hk Hj. pose proof regions_few as Hf. destruct (pos_ok k ltac:(lia)) as (F & B). destruct (width_at k Hk) as (F' & B'). pose proof (count_at k Hk) as Hc.
  set (d := nth k xs n0) in *. set (n := nth k ns 0) in *.
  destruct (ofZ_ok j ltac:(lia)) as (Fj & Vj). destruct (ofZ_ok n ltac:(lia)) as (Fn & Vn).
  assert (Hj0 : (0 <= IZR j)%R) by (apply IZR_le; lia). assert (Hn1 : (1 <= IZR n)%R) by (apply IZR_le; lia).
  assert (M1 : (0 <= IZR j * val d <= IZR n * bpow radix2 E)%R).
  { split; [apply Rmult_le_pos; lra|]. apply Rmult_le_compat; try lra. apply IZR_le. lia. }
  destruct (mul_ok (nofZ j) d Fj F') as (F1 & V1); rewrite ?Vj; try lra.
  { apply (Rle_trans _ _ _ (proj2 M1)), big_sum. lia. }
  rewrite Vj in V1.
  assert (M2 : (0 <= rnd (IZR j * val d) <= IZR n * bpow radix2 E)%R).
  { split; [apply rnd_nonneg, M1|]. apply rnd_scaled; [lia|lia|apply M1]. }
  assert (M3 : (0 <= rnd (IZR j * val d) / IZR n <= IZR 1 * bpow radix2 E)%R).
  { split; [apply Rmult_le_pos; [apply M2|]; left; apply Rinv_0_lt_compat; lra|]. apply Rmult_le_reg_r with (IZR n); [lra|].
    unfold Rdiv. rewrite Rmult_assoc, Rinv_l by lra. lra. }
  destruct (div_ok (nofZ j [*] d) (nofZ n) F1) as (F2 & V2); rewrite ?V1, ?Vn; try lra.
  { apply (Rle_trans _ _ _ (proj2 M3)), big_sum. lia. }
  rewrite V1, Vn in V2.
  assert (M4 : (0 <= step k j <= IZR 1 * bpow radix2 E)%R).
  { unfold step. fold d n. split; [apply rnd_nonneg, M3|]. apply rnd_scaled; [lia|lia|apply M3]. }
  change (rnd (rnd (IZR j * val d) / IZR n)) with (step k j) in V2.
  destruct (add_ok _ _ F2 F) as (F3 & V3); rewrite ?V2; try lra.
  { apply Rle_trans with (IZR (Z.of_nat k + 1) * bpow radix2 E)%R; [rewrite plus_IZR; lra|apply big_sum; lia]. }
  rewrite V2 in V3. unfold point. fold d n. split; [exact F3|]. split; [exact V3|apply M4].
Qed.

Lemma step_le k j j' : (k < length ns)%nat -> 0 <= j <= j' -> (step k j <= step k j')%R.
Proof.
  intros Hk Hj. destruct (width_at k Hk) as (_ & B'). pose proof (count_at k Hk) as Hc.
  unfold step. apply rnd_le. apply Rmult_le_compat_r; [left; apply Rinv_0_lt_compat, IZR_lt; lia|].
  apply rnd_le. apply Rmult_le_compat_r; [lra|]. apply IZR_le. lia.
Qed.
Lemma step_0 k : (k < length ns)%nat -> step k 0 = 0%R.
Proof. intros Hk. unfold step. rewrite Rmult_0_l, rnd_0. unfold Rdiv. rewrite Rmult_0_l. apply rnd_0. Qed.
Lemma step_last k : (k < length ns)%nat -> (step k (nth k ns 0%Z - 1) <= val (nth k xs n0))%R.
Proof.
  intros Hk. destruct (width_at k Hk) as (_ & B'). pose proof (count_at k Hk) as Hc. unfold step.
  assert (0 < IZR (nth k ns 0%Z))%R by (apply IZR_lt; lia).
  rewrite <- (rnd_val (nth k xs n0)) at 2. apply rnd_le. apply Rmult_le_reg_r with (IZR (nth k ns 0%Z)); [assumption|].
  unfold Rdiv. rewrite Rmult_assoc, Rinv_l, Rmult_1_r by lra. rewrite (Rmult_comm (val _)).
  apply rnd_last_step; [lia|lra|apply format_val].
Qed.
Lemma point_first k : (k < length ns)%nat -> val (point ns xs k 0) = val (pos xs k).
Proof.
  intros Hk. pose proof (count_at k Hk). destruct (point_ok k 0 Hk ltac:(lia)) as (_ & V & _). rewrite V, step_0, Rplus_0_l by exact Hk. apply rnd_val.
Qed.

(* the boundaries *)
Variable b : vec f64.
Hypothesis Hb : forall k j, (k < length ns)%nat -> 0 <= j < nth k ns 0 + extra ns k -> vat b (cum ns k + j) = point ns xs k j.

(* one cell: both sides are points of the region, or the far side is where the next one begins *)
Lemma cell_sides k j : (k < length ns)%nat -> 0 <= j < nth k ns 0 ->
  vat b (cum ns k + j) = point ns xs k j /\
  (vat b (cum ns k + j + 1) = point ns xs k (j + 1) \/
   (j = nth k ns 0 - 1 /\ (S k < length ns)%nat /\ vat b (cum ns k + j + 1) = point ns xs (S k) 0)).
Proof.
  intros Hk Hj. split.
  - apply Hb; [exact Hk|]. unfold extra. destruct (Nat.eqb _ _); lia.
  - destruct (Z.eq_dec (j + 1) (nth k ns 0)) as [Ej|Ej].
    + destruct (Nat.eq_dec (S k) (length ns)) as [El|El].
      * left. rewrite <- Z.add_assoc. apply Hb; [exact Hk|]. unfold extra. rewrite El, Nat.eqb_refl. lia.
      * right. split; [lia|]. split; [lia|]. replace (cum ns k + j + 1) with (cum ns (S k) + 0) by (rewrite cum_S by exact Hk; lia).
        pose proof (count_at (S k) ltac:(lia)). apply Hb; [lia|]. unfold extra. destruct (Nat.eqb _ _); lia.
    + left. rewrite <- Z.add_assoc. apply Hb; [exact Hk|]. unfold extra. destruct (Nat.eqb _ _); lia.
Qed.

Lemma side_le i : 0 <= i < total ns -> fin (vat b i) /\ fin (vat b (i + 1)) /\ (0 <= val (vat b i) <= val (vat b (i + 1)))%R.
Proof.
  intros Hi. destruct (blocks_cover ns) with (i := i) as (k & j & Hk & Hj & ->); [eapply Forall_impl; [|exact Hn]; cbn; lia|exact Hi|].
  destruct (cell_sides k j Hk Hj) as (E1 & E2). destruct (point_ok k j Hk ltac:(lia)) as (F & V & P). destruct (pos_ok k ltac:(lia)) as (_ & Bp).
  rewrite E1. split; [exact F|]. assert (P0 : (0 <= val (point ns xs k j))%R) by (rewrite V; apply rnd_nonneg; lra).
  destruct E2 as [E2|(Ej & Hs & E2)]; rewrite E2.
  - destruct (point_ok k (j + 1) Hk ltac:(lia)) as (F' & V' & _). split; [exact F'|]. split; [exact P0|]. rewrite V, V'. apply rnd_le.
    pose proof (step_le k j (j + 1) Hk ltac:(lia)). lra.
  - pose proof (count_at (S k) Hs). destruct (point_ok (S k) 0 Hs ltac:(lia)) as (F' & _). split; [exact F'|]. split; [exact P0|].
    rewrite point_first by exact Hs. rewrite pos_value by exact Hk. rewrite V. apply rnd_le. subst j. pose proof (step_last k Hk). lra.
Qed.

Lemma side_small i : 0 <= i < total ns -> (val (vat b (i + 1)) <= bpow radix2 (E + 32))%R.
Proof.
  intros Hi. destruct (blocks_cover ns) with (i := i) as (k & j & Hk & Hj & ->); [eapply Forall_impl; [|exact Hn]; cbn; lia|exact Hi|].
  assert (G : forall k j, (k < length ns)%nat -> 0 <= j <= nth k ns 0 -> (val (point ns xs k j) <= bpow radix2 (E + 32))%R).
  { clear k j Hk Hj Hi. intros k j Hk Hj. pose proof regions_few as Hf. destruct (point_ok k j Hk Hj) as (_ & V & P). destruct (pos_ok k ltac:(lia)) as (_ & Bp).
    rewrite V, <- (Rmult_1_l (bpow radix2 (E + 32))). apply rnd_scaled; [lia|lia|].
    apply Rle_trans with (IZR (Z.of_nat k + 1) * bpow radix2 E)%R; [rewrite plus_IZR; lra|].
    rewrite Rmult_1_l, bpow_plus, (Rmult_comm (bpow radix2 E)). apply Rmult_le_compat_r; [apply bpow_ge_0|]. rewrite <- IZR_Zpower by lia. apply IZR_le. change (radix2 ^ 32) with 4294967296. lia. }
  destruct (cell_sides k j Hk Hj) as (_ & [E2|(_ & Hs & E2)]); rewrite E2; apply G; try lia. pose proof (count_at (S k) Hs). lia.
Qed.

(* ---------- accuracy ---------- *)
Hypothesis Hx0 : Forall (fun x : f64 => bpow radix2 (-900) <= val x)%R xs.
Definition rs : list R := map (fun x : f64 => val x) xs.

Lemma rs_at k : nth k rs 0%R = val (nth k xs n0).
Proof. unfold rs. destruct zero64 as [_ V]. rewrite <- V. apply (map_nth (fun x : f64 => val x)). Qed.
Lemma depth_nonneg k : (k <= length ns)%nat -> (0 <= depth rs k)%R.
Proof.
  induction k as [|k IH]; intros Hk; [unfold depth; simpl; lra|]. rewrite depth_S by (unfold rs; rewrite map_length; lia).
  rewrite rs_at. destruct (width_at k ltac:(lia)). specialize (IH ltac:(lia)). lra.
Qed.
Lemma pos_near k : (k <= length ns)%nat -> near k (val (pos xs k)) (depth rs k).
Proof.
  induction k as [|k IH]; intros Hk.
  - change (pos xs 0) with (n0 : f64). destruct zero64 as [_ ->]. unfold depth. simpl. apply near_refl.
  - rewrite pos_value by lia. rewrite depth_S by (unfold rs; rewrite map_length; lia). rewrite rs_at. destruct (width_at k ltac:(lia)) as (_ & B').
    destruct (pos_ok k ltac:(lia)) as (_ & Bp). apply near_sum; [lra|lra|apply format_val|apply format_val|].
    apply near_add; [apply IH; lia|]. apply near_more with 0%nat; [lra|lia|apply near_refl].
Qed.
Lemma step_near k j : (k < length ns)%nat -> 0 <= j <= nth k ns 0 -> near 2 (step k j) (IZR j * (val (nth k xs n0) / IZR (nth k ns 0))).
Proof.
  intros Hk Hj. destruct (width_at k Hk) as (_ & B'). pose proof (count_at k Hk) as Hc.
  assert (Hd : (bpow radix2 (-900) <= val (nth k xs n0))%R) by (rewrite Forall_forall in Hx0; apply Hx0, nth_In; lia).
  set (d := val (nth k xs n0)) in *. set (n := nth k ns 0) in *. unfold step. fold d n.
  assert (Hn0 : (0 < IZR n)%R) by (apply IZR_lt; lia).
  destruct (Z.eq_dec j 0) as [->|Nz].
  { rewrite !Rmult_0_l, rnd_0. unfold Rdiv. rewrite Rmult_0_l, rnd_0. apply near_more with 0%nat; [lra|lia|apply near_refl]. }
  assert (Hj1 : (1 <= IZR j)%R) by (apply IZR_le; lia).
  assert (A : near 1 (rnd (IZR j * d)) (IZR j * d)).
  { apply near_rnd; [apply Rmult_le_pos; lra|apply near_refl|]. right. apply Rle_trans with (bpow radix2 (-900)); [apply bpow_le; lia|]. apply Rle_trans with (1 := Hd).
    rewrite <- (Rmult_1_l d) at 1. apply Rmult_le_compat_r; lra. }
  assert (C : (d <= rnd (IZR j * d))%R).
  { unfold d at 1. rewrite <- (rnd_val (nth k xs n0)). fold d. apply rnd_le. rewrite <- (Rmult_1_l d) at 1. apply Rmult_le_compat_r; lra. }
  replace (IZR j * (d / IZR n))%R with (IZR j * d * / IZR n)%R by (unfold Rdiv; ring). unfold Rdiv.
  assert (I : (0 < / IZR n)%R) by (apply Rinv_0_lt_compat, Hn0).
  apply near_rnd; [apply Rmult_le_pos; lra|apply near_scale; [lra|exact A]|]. right.
  apply Rle_trans with (bpow radix2 (-900) * bpow radix2 (-31))%R; [rewrite <- bpow_plus; apply bpow_le; lia|].
  apply Rmult_le_compat; [apply bpow_ge_0|apply bpow_ge_0|lra|].
  change (bpow radix2 (-31)) with (/ 2147483648)%R. apply Rinv_le_contravar; [exact Hn0|]. apply IZR_le. lia.
Qed.
Lemma point_near k j : (k < length ns)%nat -> 0 <= j <= nth k ns 0 ->
  near (length ns + 2) (val (point ns xs k j)) (depth rs k + IZR j * (val (nth k xs n0) / IZR (nth k ns 0))).
Proof.
  intros Hk Hj. destruct (point_ok k j Hk Hj) as (_ & V & P). rewrite V. destruct (pos_ok k ltac:(lia)) as (_ & Bp). pose proof (depth_nonneg k ltac:(lia)) as Hd.
  destruct (width_at k Hk) as (_ & B'). pose proof (count_at k Hk) as Hc. assert (I : (0 < / IZR (nth k ns 0%Z))%R) by (apply Rinv_0_lt_compat, IZR_lt; lia).
  assert (Ex : (0 <= IZR j * (val (nth k xs n0) / IZR (nth k ns 0%Z)))%R) by (apply Rmult_le_pos; [apply IZR_le; lia|]; apply Rmult_le_pos; lra).
  apply near_more with (S (length ns + 1)); [lra|lia|].
  apply near_sum; [apply P|apply Bp| |apply format_val|].
  - unfold step. apply generic_format_round; [apply valid64|apply valid_rnd_N].
  - rewrite Rplus_comm. apply near_add; [apply near_more with k; [exact Hd|lia|apply pos_near; lia]|apply near_more with 2%nat; [exact Ex|lia|apply step_near; assumption]].
Qed.
End Points.
Lemma e900 : -1000 <= 900 <= 900.
Proof. lia. Qed.

(* ---------- powers ---------- *)
Lemma pow_below m : (INR m * u64 <= 1 / 2)%R -> (1 - INR m * u64 <= (1 - u64) ^ m)%R.
Proof.
  pose proof u64_small as U. induction m as [|m IH]; [simpl; lra|]. rewrite S_INR. intros H. pose proof (pos_INR m).
  assert (0 <= INR m * u64)%R by (apply Rmult_le_pos; lra). assert (0 <= INR m * u64 * u64)%R by (apply Rmult_le_pos; lra).
  specialize (IH ltac:(lra)). simpl pow. apply Rle_trans with ((1 - u64) * (1 - INR m * u64))%R; [lra|apply Rmult_le_compat_l; lra].
Qed.
Lemma pow_above m : (INR m * u64 <= 1 / 2)%R -> ((1 + u64) ^ m <= 1 + 2 * (INR m * u64))%R.
Proof.
  pose proof u64_small as U. induction m as [|m IH]; [simpl; lra|]. rewrite S_INR. intros H. pose proof (pos_INR m).
  assert (0 <= INR m * u64)%R by (apply Rmult_le_pos; lra). specialize (IH ltac:(lra)).
  assert (INR m * u64 * u64 <= 1 / 2 * u64)%R by (apply Rmult_le_compat_r; lra).
  simpl pow. apply Rle_trans with ((1 + u64) * (1 + 2 * (INR m * u64)))%R; [apply Rmult_le_compat_l; lra|lra].
Qed.

(* ---------- C95 ---------- *)
Section Double.
Variable mpi : f64.
Variable stod_opt : string -> option f64.

(* a mesh line of triples (count, thickness, material) that read as vs *)
Definition mesh_line (inp : input f64) rs (vs : list (Z * f64 * string)) : Prop :=
  entry (in_lines inp) "mesh" (region_words rs) /\ Forall2 (reads_region stod_opt) rs vs /\
  (* positive counts, fewer than 2^31 - 1 cells, names that can be printed *)
  Forall (fun n => 0 < n) (counts vs) /\ total (counts vs) < 2147483647 /\
  Forall (printable stod_opt) (names vs) /\ in_map inp = [].

Lemma mesh_of inp rs vs : mesh_line inp rs vs ->
  (0 < length vs)%nat /\ length (counts vs) = length vs /\ length (widths vs) = length vs /\
  exists inp' , setMesh mpi stod_opt inp = Ok inp' /\
    let b := ms_bounds (in_mesh inp') in ms_cells (in_mesh inp') = total (counts vs) /\ vlen b = total (counts vs) + 1 /\
    (forall k j, (k < length (counts vs))%nat -> 0 <= j < nth k (counts vs) 0 + extra (counts vs) k ->
         vat b (cum (counts vs) k + j) = point (counts vs) (widths vs) k j).
Proof.
  intros (He & Hr & Hn & Ht & Hs & Hmap).
  assert (Hn' : Forall (fun n => 0 <= n) (counts vs)) by (eapply Forall_impl; [|exact Hn]; cbn; lia).
  destruct (wp_ok _ _ (setMesh_wp mpi stod_opt inp rs vs (entry_read _ _ _ _ He) Hr Hn' Ht Hmap Hs)) as (inp' & E & b & B1 & B2 & _ & _ & _ & _ & _ & B3).
  assert (L1 : length (counts vs) = length vs) by (unfold counts; apply map_length).
  assert (L2 : length (widths vs) = length vs) by (unfold widths; apply map_length).
  split; [|split; [exact L1|split; [exact L2|]]].
  { destruct He as (k & line & body & w & _ & _ & _ & _ & NE). destruct Hr; [exfalso; apply NE; reflexivity|cbn; lia]. }
  exists inp'. split; [exact E|]. cbv zeta. unfold in_mesh. rewrite B3. cbn [rx_mesh with_mesh with_mats ms_bounds setBoundaries ms_cells].
  split; [lia|]. split; [exact B1|]. rewrite L1. exact B2.
Qed.

(* Rounding never turns a mesh inside out: the boundaries are numbers, begin at zero and never decrease. *)
Theorem C95_order : forall inp rs vs, mesh_line inp rs vs ->
  Forall (fun x => fin x /\ 0 <= val x <= bpow radix2 900)%R (widths vs) ->
  exists inp', setMesh mpi stod_opt inp = Ok inp' /\
    let b := ms_bounds (in_mesh inp') in
    ms_cells (in_mesh inp') = total (counts vs) /\ vlen b = total (counts vs) + 1 /\ val (vat b 0) = 0%R /\
    (forall i, 0 <= i <= total (counts vs) -> fin (vat b i)) /\
    (forall i, 0 <= i < total (counts vs) -> (val (vat b i) <= val (vat b (i + 1)%Z))%R).
Proof.
  intros inp rs vs Hm Hx. destruct (mesh_of inp rs vs Hm) as (Hlen & L1 & L2 & inp' & E & Hc & Hv & Hb). destruct Hm as (_ & _ & Hn & Ht & _ & _).
  exists inp'. split; [exact E|]. cbv zeta. split; [exact Hc|]. split; [exact Hv|].
  assert (Hl : length (widths vs) = length (counts vs)) by lia.
  pose proof (side_le 900 (counts vs) (widths vs) e900 Hl Hn Ht Hx _ Hb) as G.
  pose proof (count_at (counts vs) (widths vs) Hl Hn Ht 0 ltac:(lia)) as C0.
  split; [|split].
  - rewrite <- (Z.add_0_r 0). rewrite <- (cum_0 (counts vs)) at 1. rewrite Hb; [|lia|unfold extra; destruct (Nat.eqb _ _); lia].
    rewrite (point_first 900 (counts vs) (widths vs) e900 Hl Hn Ht Hx 0 ltac:(lia)). apply zero64.
  - intros i Hi. destruct (Z.eq_dec i (total (counts vs))) as [->|Ne]; [|apply G; lia].
    assert (0 < total (counts vs)).
    { rewrite <- cum_all. pose proof (cum_S (counts vs) 0 ltac:(lia)). pose proof (cum_mono (counts vs) 1 (length (counts vs))) as M. rewrite cum_0 in H.
      assert (Hnn : Forall (fun n => 0 <= n) (counts vs)) by (eapply Forall_impl; [|exact Hn]; cbn; lia). specialize (M Hnn ltac:(lia)). lia. }
    destruct (G (total (counts vs) - 1) ltac:(lia)) as (_ & F & _). replace (total (counts vs) - 1 + 1) with (total (counts vs)) in F by lia. exact F.
  - intros i Hi. apply G, Hi.
Qed.

(* Every boundary is where it belongs, up to one rounding for each region and two more. *)
Theorem C95_accuracy : forall inp rs vs, mesh_line inp rs vs ->
  Forall (fun x => fin x /\ bpow radix2 (-900) <= val x <= bpow radix2 900)%R (widths vs) ->
  exists inp', setMesh mpi stod_opt inp = Ok inp' /\
    let b := ms_bounds (in_mesh inp') in let ns := counts vs in let ds := map val (widths vs) in let m := (length vs + 2)%nat in
    forall k j, (k < length vs)%nat -> 0 <= j <= nth k ns 0 ->
      let exact := (depth ds k + IZR j * (nth k ds 0 / IZR (nth k ns 0%Z)))%R in
      (exact * (1 - bpow radix2 (-53)) ^ m <= val (vat b (cum ns k + j)) <= exact * (1 + bpow radix2 (-53)) ^ m)%R.
Proof.
  intros inp rs vs Hm Hx. destruct (mesh_of inp rs vs Hm) as (Hlen & L1 & L2 & inp' & E & Hc & Hv & Hb). destruct Hm as (_ & _ & Hn & Ht & _ & _).
  exists inp'. split; [exact E|]. cbv zeta. intros k j Hk Hj.
  assert (Hl : length (widths vs) = length (counts vs)) by lia.
  assert (X1 : Forall (fun x => fin x /\ 0 <= val x <= bpow radix2 900)%R (widths vs)).
  { eapply Forall_impl; [|exact Hx]. cbn beta. intros x (F & B). split; [exact F|]. pose proof (bpow_ge_0 radix2 (-900)). lra. }
  assert (X2 : Forall (fun x : f64 => bpow radix2 (-900) <= val x)%R (widths vs)) by (eapply Forall_impl; [|exact Hx]; cbn beta; tauto).
  change (near (length vs + 2) (val (vat (ms_bounds (in_mesh inp')) (cum (counts vs) k + j)))
    (depth (PropsDouble.rs (widths vs)) k + IZR j * (nth k (PropsDouble.rs (widths vs)) 0 / IZR (nth k (counts vs) 0%Z)))%R).
  rewrite (rs_at (widths vs)). rewrite <- L1.
  destruct (Z_lt_le_dec j (nth k (counts vs) 0 + extra (counts vs) k)) as [Hin|Hout].
  - rewrite Hb by lia. apply (point_near 900 (counts vs) (widths vs) e900 Hl Hn Ht X1 X2); lia.
  - unfold extra in Hout. destruct (Nat.eqb_spec (S k) (length (counts vs))) as [El|El]; [lia|].
    assert (j = nth k (counts vs) 0) by lia. subst j.
    pose proof (count_at (counts vs) (widths vs) Hl Hn Ht (S k) ltac:(lia)) as C1. pose proof (count_at (counts vs) (widths vs) Hl Hn Ht k ltac:(lia)) as C2.
    replace (cum (counts vs) k + nth k (counts vs) 0) with (cum (counts vs) (S k) + 0) by (rewrite cum_S by lia; lia).
    rewrite Hb; [|lia|unfold extra; destruct (Nat.eqb _ _); lia].
    pose proof (point_near 900 (counts vs) (widths vs) e900 Hl Hn Ht X1 X2 (S k) 0 ltac:(lia) ltac:(lia)) as P.
    rewrite Rmult_0_l, Rplus_0_r in P. rewrite (depth_S _ k) in P by (unfold PropsDouble.rs; rewrite map_length; lia). rewrite rs_at in P.
    replace (IZR (nth k (counts vs) 0%Z) * (val (nth k (widths vs) n0) / IZR (nth k (counts vs) 0%Z)))%R with (val (nth k (widths vs) n0)); [exact P|].
    field. apply not_0_IZR. lia.
Qed.

(* A region whose cells are not too thin for the whole has no empty cell. *)
Theorem C95_cells : forall inp rs vs, mesh_line inp rs vs ->
  Forall (fun x => fin x /\ bpow radix2 (-900) <= val x <= bpow radix2 900)%R (widths vs) ->
  exists inp', setMesh mpi stod_opt inp = Ok inp' /\
    let b := ms_bounds (in_mesh inp') in let ns := counts vs in let ds := map val (widths vs) in
    forall k, (k < length vs)%nat ->
      (INR (length vs + 2) * bpow radix2 (-51) * fold_right Rplus 0 ds < nth k ds 0 / IZR (nth k ns 0%Z))%R ->
      forall j, 0 <= j < nth k ns 0 -> (val (vat b (cum ns k + j)) < val (vat b (cum ns k + j + 1)))%R.
Proof.
  intros inp rs vs Hm Hx. destruct (C95_accuracy inp rs vs Hm Hx) as (inp' & E & A). exists inp'. split; [exact E|]. cbv zeta in *.
  intros k Hk Hthin j Hj. pose proof (A k j Hk ltac:(lia)) as [_ A1]. pose proof (A k (j + 1) Hk ltac:(lia)) as [A2 _]. clear A. rewrite Z.add_assoc in A2.
  destruct (mesh_of inp rs vs Hm) as (Hlen & L1 & L2 & _). destruct Hm as (_ & _ & Hn & Ht & _ & _).
  assert (Hl : length (widths vs) = length (counts vs)) by lia.
  pose proof (regions_few (counts vs) (widths vs) Hl Hn Ht) as Hf. rewrite L1 in Hf.
  set (m := (length vs + 2)%nat) in *. set (ds := map val (widths vs)) in *. set (D := fold_right Rplus 0%R ds) in *. set (w := (nth k ds 0 / IZR (nth k (counts vs) 0%Z))%R) in *.
  change (bpow radix2 (-53)) with u64 in *. pose proof u64_small as U.
  assert (Hm' : (INR m * u64 <= 1 / 2)%R).
  { apply Rle_trans with (2147483649 * (1 / 1099511627776))%R; [|lra]. apply Rmult_le_compat; [apply pos_INR|lra| |lra].
    rewrite INR_IZR_INZ. apply IZR_le. unfold m. lia. }
  pose proof (pow_below m Hm') as P1. pose proof (pow_above m Hm') as P2.
  assert (E51 : bpow radix2 (-51) = (4 * u64)%R).
  { unfold u64. change (-51) with (2 + -53). rewrite bpow_plus. reflexivity. }
  rewrite E51 in Hthin.
  assert (Dn : forall l : list R, Forall (fun x => 0 <= x)%R l -> forall i, (0 <= depth l i <= fold_right Rplus 0 l)%R).
  { clear. unfold depth. induction 1 as [|x l Hx Hl IH]; intros [|i]; cbn; try lra; [specialize (IH 0%nat); cbn in IH; lra|specialize (IH i); lra]. }
  assert (Hds : Forall (fun x => 0 <= x)%R ds).
  { unfold ds. apply Forall_map. eapply Forall_impl; [|exact Hx]. cbn beta. intros x (_ & B). pose proof (bpow_ge_0 radix2 (-900)). lra. }
  assert (Hc : 0 < nth k (counts vs) 0) by (rewrite Forall_forall in Hn; apply Hn, nth_In; lia).
  assert (Ld : length ds = length vs) by exact (eq_trans (map_length _ _) L2).
  assert (Hw : (0 <= nth k ds 0)%R) by (rewrite Forall_forall in Hds; apply Hds, nth_In; lia).
  assert (Hc' : (0 < IZR (nth k (counts vs) 0%Z))%R) by (apply IZR_lt; lia).
  assert (Hw0 : (0 <= w)%R) by (unfold w; apply Rmult_le_pos; [exact Hw|left; apply Rinv_0_lt_compat, Hc']).
  assert (Hj0 : (0 <= IZR j)%R) by (apply IZR_le; lia).
  pose proof (Dn ds Hds k) as D1. pose proof (Dn ds Hds (S k)) as D2. rewrite depth_S in D2 by lia. fold D in D1, D2.
  assert (Ew : (IZR (nth k (counts vs) 0%Z) * w = nth k ds 0)%R) by (unfold w; field; lra).
  assert (J1 : (IZR (j + 1) * w <= nth k ds 0)%R).
  { rewrite <- Ew. apply Rmult_le_compat_r; [exact Hw0|]. apply IZR_le. lia. }
  rewrite plus_IZR in *. set (e := (depth ds k + IZR j * w)%R) in *.
  assert (0 <= IZR j * w)%R by (apply Rmult_le_pos; lra).
  assert (E1 : (depth ds k + (IZR j + 1) * w = e + w)%R) by (unfold e; ring). rewrite E1 in A2.
  assert (He : (0 <= e /\ e + w <= D)%R) by (unfold e; lra).
  set (q := (INR m * u64)%R) in *. assert (Hq : (0 <= q)%R) by (unfold q; apply Rmult_le_pos; [apply pos_INR|lra]).
  assert (Hthin' : (4 * q * D < w)%R) by (unfold q; lra).
  assert (T1 : (e * (1 + u64) ^ m <= e * (1 + 2 * q))%R) by (apply Rmult_le_compat_l; lra).
  assert (T2 : ((e + w) * (1 - q) <= (e + w) * (1 - u64) ^ m)%R) by (apply Rmult_le_compat_l; lra).
  assert (T3 : (q * (e + w) <= q * D)%R) by (apply Rmult_le_compat_l; lra).
  assert (T4 : (q * e <= q * D)%R) by (apply Rmult_le_compat_l; lra).
  assert (T5 : (0 <= q * D)%R) by (apply Rmult_le_pos; lra).
  lra.
Qed.

(* Otherwise it may have: a last region of one cell, thinner than 2^-54 of the region before it, vanishes. *)
Theorem C95_empty_cell_refuted : forall inp rs n x m y m', mesh_line inp rs [(n, x, m); (1, y, m')] ->
  fin x -> fin y -> (0 <= val x <= bpow radix2 900)%R -> (0 < val y <= val x * bpow radix2 (-54))%R ->
  exists inp', setMesh mpi stod_opt inp = Ok inp' /\
    let b := ms_bounds (in_mesh inp') in vlen b = n + 2 /\ val (vat b (n + 1)) = val (vat b n).
Proof.
  intros inp rs n x m y m' Hm Fx Fy Bx By. destruct (mesh_of inp rs _ Hm) as (_ & _ & _ & inp' & E & _ & Hv & Hb). destruct Hm as (_ & _ & Hn & Ht & _ & _).
  exists inp'. split; [exact E|]. cbv zeta in *. change (total (counts [(n, x, m); (1, y, m')])) with (n + (1 + 0)) in *. split; [lia|].
  change (counts [(n, x, m); (1, y, m')]) with [n; 1] in *. change (widths [(n, x, m); (1, y, m')]) with [x; y] in *.
  assert (Hx : Forall (fun z => fin z /\ 0 <= val z <= bpow radix2 900)%R [x; y]).
  { constructor; [split; [exact Fx|exact Bx]|]. constructor; [|constructor]. split; [exact Fy|]. split; [lra|].
    apply Rle_trans with (1 := proj2 By). apply Rle_trans with (bpow radix2 900 * bpow radix2 (-54))%R; [apply Rmult_le_compat_r; [apply bpow_ge_0|lra]|].
    rewrite <- bpow_plus. apply bpow_le. lia. }
  assert (Hn1 : 0 < n) by (inversion Hn; assumption).
  assert (En : n + 1 = cum [n; 1] 1 + 1) by (cbn; lia). assert (En0 : n = cum [n; 1] 1 + 0) by (cbn; lia).
  rewrite En. rewrite (Hb 1%nat 1 ltac:(cbn; lia) ltac:(cbn; lia)). rewrite En0 at 2. rewrite (Hb 1%nat 0 ltac:(cbn; lia) ltac:(cbn; lia)).
  rewrite (point_first 900 [n; 1] [x; y] e900 eq_refl Hn ltac:(cbn; lia) Hx 1 ltac:(cbn; lia)).
  destruct (point_ok 900 [n; 1] [x; y] e900 eq_refl Hn ltac:(cbn; lia) Hx 1 1 ltac:(cbn; lia) ltac:(cbn; lia)) as (_ & V & _). rewrite V.
  assert (St : step [n; 1] [x; y] 1 1 = val y).
  { unfold step. cbn [nth]. rewrite Rmult_1_l, rnd_val. unfold Rdiv. rewrite Rinv_1, Rmult_1_r. apply rnd_val. }
  assert (Po : val (pos [x; y] 1) = val x).
  { rewrite (pos_value 900 [n; 1] [x; y] e900 eq_refl Hn ltac:(cbn; lia) Hx 0 ltac:(cbn; lia)). change (pos [x; y] 0) with (n0 : f64). cbn [nth].
    destruct zero64 as [_ ->]. rewrite Rplus_0_l. apply rnd_val. }
  rewrite St, Po. apply Rle_antisym.
  - apply round_N_le_midp; [apply valid64|apply format_val|]. rewrite succ_eq_pos by lra.
    assert (G : (val x * bpow radix2 (-53) < ulp radix2 exp64 (val x))%R).
    { pose proof (ulp_FLT_gt radix2 (-1074) 53 (val x)) as G. rewrite Rabs_pos_eq in G by lra. exact G. }
    assert (E54 : bpow radix2 (-53) = (2 * bpow radix2 (-54))%R) by (change (-53) with (1 + -54); rewrite bpow_plus; reflexivity).
    rewrite E54 in G. lra.
  - rewrite <- (rnd_val x) at 1. apply rnd_le. lra.
Qed.
End Double.
Print Assumptions C95_order.
Print Assumptions C95_accuracy.
Print Assumptions C95_cells.
Print Assumptions C95_empty_cell_refuted.

(* The reader of decimal literals in doubles: one division. *)
Definition stod64 (s : string) : option f64 :=
  match decimal s with
  | Some (m, e) => Some (if 0 <=? e then nofZ (m * 10 ^ e) else nofZ m [/] nofZ (10 ^ (- e)))
  | None => None
  end.
Definition ex_double : input f64 := mkInput ["Geometry slab"; "MESH 2 15 Fuel 3 5 refl % two regions"] newReactor [] [] [] [].
Example C95_example :
  let rs := [("2", "15", "fuel"); ("3", "5", "refl")] in
  let vs := [(2, nofZ 15 : f64, "fuel"); (3, nofZ 5 : f64, "refl")] in
  let ds := map val (widths vs) in
  mesh_line stod64 ex_double rs vs /\
  Forall (fun x => fin x /\ bpow radix2 (-900) <= val x <= bpow radix2 900)%R (widths vs) /\
  (forall k, (k < length vs)%nat -> (INR (length vs + 2) * bpow radix2 (-51) * fold_right Rplus 0 ds < nth k ds 0 / IZR (nth k (counts vs) 0%Z))%R).
Proof.
  cbv zeta. destruct (ofZ_ok 15 ltac:(lia)) as (F15 & V15). destruct (ofZ_ok 5 ltac:(lia)) as (F5 & V5).
  assert (L : (bpow radix2 (-900) <= 1)%R) by (change 1%R with (bpow radix2 0); apply bpow_le; lia).
  assert (U : (16 <= bpow radix2 900)%R) by (change 16%R with (bpow radix2 4); apply bpow_le; lia).
  split; [|split].
  - split; [apply read_entry; [reflexivity|discriminate]|]. split; [repeat constructor|]. split; [repeat constructor|].
    split; [reflexivity|]. split; [|reflexivity]. repeat constructor; left; reflexivity.
  - unfold widths. cbn [map]. constructor; [|constructor; [|constructor]]; (split; [assumption|]); rewrite ?V15, ?V5; lra.
  - assert (T : (bpow radix2 (-51) <= 1 / 1024)%R).
    { replace (1 / 1024)%R with (bpow radix2 (-10)) by (simpl; lra). apply bpow_le. lia. }
    pose proof (bpow_ge_0 radix2 (-51)) as T0.
    unfold widths, counts. cbn [map fold_right length Nat.add]. rewrite V15, V5. intros k Hk. replace (INR 4) with 4%R by (simpl; lra).
    destruct k as [|[|k]]; [cbn [nth]|cbn [nth]|cbn in Hk; lia]; lra.
Qed.
(* 2^52 cm of fuel and a last cell of 1/8 cm *)
Definition ex_thin : input f64 := mkInput ["Geometry slab"; "MESH 7 4503599627370496 Fuel 1 0.125 refl"] newReactor [] [] [] [].
Example C95_empty_cell_example :
  let rs := [("7", "4503599627370496", "fuel"); ("1", "0.125", "refl")] in
  let x := nofZ 4503599627370496 : f64 in let y := nofZ 125 [/] nofZ 1000 : f64 in
  mesh_line stod64 ex_thin rs [(7, x, "fuel"); (1, y, "refl")] /\
  fin x /\ fin y /\ (0 <= val x <= bpow radix2 900)%R /\ (0 < val y <= val x * bpow radix2 (-54))%R.
Proof.
  cbv zeta. destruct (ofZ_ok 4503599627370496 ltac:(lia)) as (F1 & V1). destruct (ofZ_ok 125 ltac:(lia)) as (F2 & V2). destruct (ofZ_ok 1000 ltac:(lia)) as (F3 & V3).
  assert (U : (16 <= bpow radix2 900)%R) by (change 16%R with (bpow radix2 4); apply bpow_le; lia).
  assert (U' : (16 <= bpow radix2 1000)%R) by (change 16%R with (bpow radix2 4); apply bpow_le; lia).
  destruct (div_ok (nofZ 125) (nofZ 1000) F2) as (F4 & V4); rewrite ?V2, ?V3; try lra.
  rewrite V2, V3 in V4. assert (E8 : rnd (125 / 1000) = (1 / 8)%R).
  { replace (125 / 1000)%R with (IZR 1 * bpow radix2 (-3))%R by (simpl; lra). rewrite rnd_id by (apply format_scaled; lia). simpl. lra. }
  rewrite E8 in V4. split; [|split; [exact F1|split; [exact F4|]]].
  - split; [apply read_entry; [reflexivity|discriminate]|]. split; [repeat constructor|]. split; [repeat constructor|].
    split; [reflexivity|]. split; [|reflexivity]. repeat constructor; left; reflexivity.
  - rewrite V1, V4. replace 4503599627370496%R with (bpow radix2 52) by (simpl; lra). rewrite <- bpow_plus. change (52 + -54) with (-2).
    pose proof (bpow_ge_0 radix2 52). split; [split; [lra|apply bpow_le; lia]|]. simpl. lra.
Qed.
