(* Property C101: only the cells matter, not the regions they are written in. *)
From Coq Require Import String Ascii ZArith List Bool Lia Arith Reals Lra FunctionalExtensionality.
From Flocq Require Import IEEE754.BinarySingleNaN.
From Verif Require Import Base BaseLemmas NumR NumF ModelNumTools ModelMesh ModelReactor ModelText ProofsText ModelInput
  ProofsInput ProofsInputB ProofsInputC ProofsFrame PropsInputB.
Import ListNotations.
Local Open Scope string_scope.
Local Open Scope Z_scope.

(* the cells a list of regions (count, thickness, material) describes, from
   the inside out: their widths and materials *)
Definition cells (vs : list (Z * R * string)) : list (R * string) :=
  flat_map (fun v => let '(n, x, m) := v in repeat (x / IZR n, m)%R (Z.to_nat n)) vs.

Definition sum (l : list R) : R := fold_right Rplus 0%R l.

Lemma sum_app a b : sum (a ++ b)%list = (sum a + sum b)%R.
Proof. unfold sum. induction a as [|x a IH]; cbn [app fold_right]; [|rewrite IH]; lra. Qed.
Lemma sum_repeat x n : sum (repeat x n) = (INR n * x)%R.
Proof. unfold sum. induction n; [cbn; lra|]. cbn [repeat fold_right]. rewrite IHn, S_INR. lra. Qed.
Lemma firstn_repeat {A} (x : A) k n : (k <= n)%nat -> firstn k (repeat x n) = repeat x k.
Proof. revert n. induction k; intros [|n] H; cbn; try reflexivity; [lia|]. rewrite IHk by lia. reflexivity. Qed.

Lemma cells_sum vs : Forall (fun n => 0 < n) (counts vs) -> forall k j, (k < length vs)%nat -> 0 <= j <= nth k (counts vs) 0 ->
  sum (firstn (Z.to_nat (cum (counts vs) k + j)) (map fst (cells vs))) =
  (depth (widths vs) k + IZR j * (nth k (widths vs) 0 / IZR (nth k (counts vs) 0%Z)))%R.
Proof.
  induction vs as [|[[n x] m] vs IH]; intros Hp k j Hk Hj; [cbn in Hk; lia|].
  cbn [counts widths map cells flat_map] in *. fold (counts vs) (widths vs) (cells vs) in *. inversion_clear Hp.
  rewrite map_app. assert (E : map fst (repeat (x / IZR n, m)%R (Z.to_nat n)) = repeat (x / IZR n)%R (Z.to_nat n)).
  { generalize (Z.to_nat n). intros q. induction q; cbn; [reflexivity|f_equal; exact IHq]. }
  rewrite E. destruct k as [|k].
  - cbn [cum firstn fold_right nth depth] in *. rewrite firstn_app, repeat_length.
    replace (Z.to_nat (0 + j) - Z.to_nat n)%nat with 0%nat by lia. cbn [firstn]. rewrite app_nil_r, firstn_repeat, sum_repeat by lia.
    rewrite INR_IZR_INZ, Z2Nat.id by lia. unfold depth. cbn. lra.
  - cbn [nth length] in *. assert (L : (k < length vs)%nat) by lia. specialize (IH H0 k j L Hj).
    assert (C : cum (n :: counts vs) (S k) = n + cum (counts vs) k) by reflexivity. rewrite C.
    assert (0 <= cum (counts vs) k) by (apply cum_nonneg; eapply Forall_impl; [|exact H0]; cbn; lia).
    rewrite firstn_app, repeat_length. replace (Z.to_nat (n + cum (counts vs) k + j) - Z.to_nat n)%nat with (Z.to_nat (cum (counts vs) k + j)) by lia.
    rewrite firstn_all2 by (rewrite repeat_length; lia). rewrite sum_app, sum_repeat, IH, INR_IZR_INZ, Z2Nat.id by lia.
    assert (D : depth (x :: widths vs) (S k) = (x + depth (widths vs) k)%R) by reflexivity. rewrite D.
    assert (IZR n <> 0)%R by (apply not_0_IZR; lia). replace (IZR n * (x / IZR n))%R with x by (field; assumption). lra.
Qed.

Lemma cells_length vs : Forall (fun n => 0 < n) (counts vs) -> Z.of_nat (length (cells vs)) = total (counts vs).
Proof.
  induction vs as [|[[n x] m] vs IH]; intros H; [reflexivity|]. cbn [counts map cells flat_map] in *. inversion_clear H.
  rewrite app_length, repeat_length. fold (cells vs). unfold counts, total in *. cbn [map fold_right]. rewrite <- IH by assumption. lia.
Qed.
Lemma cells_names vs : Forall (fun n => 0 < n) (counts vs) -> map snd (cells vs) = blocks (names vs) (counts vs).
Proof.
  induction vs as [|[[n x] m] vs IH]; intros H; [reflexivity|]. inversion_clear H. cbn [cells flat_map]. rewrite map_app.
  unfold blocks, names, counts in *. cbn [map combine concat fst snd]. f_equal; [|apply IH; assumption].
  generalize (Z.to_nat n). intros q. induction q; cbn; [reflexivity|f_equal; exact IHq].
Qed.
Lemma cells_in vs m : Forall (fun n => 0 < n) (counts vs) -> In m (names vs) <-> In m (map snd (cells vs)).
Proof.
  induction vs as [|[[n x] m'] vs IH]; intros H; [reflexivity|]. inversion_clear H. cbn [names counts map cells flat_map] in *.
  fold (names vs) (cells vs). rewrite map_app, in_app_iff, <- IH by assumption. cbn [In].
  assert (E : m' = m <-> In m (map snd (repeat (x / IZR n, m')%R (Z.to_nat n)))); [|tauto].
  destruct (Z.to_nat n) as [|q] eqn:Q; [lia|]. split; [intros ->; left; reflexivity|].
  rewrite in_map_iff. intros ([a b] & <- & I). apply repeat_spec in I. injection I as _ ->. reflexivity.
Qed.

(* two sorted lists without repetitions that have the same elements *)
Lemma unique_sorted l : sorted l -> sorted (unique_strings l).
Proof.
  induction l as [|x l IH]; intros H; [exact I|]. destruct l as [|y l]; [exact H|].
  change (unique_strings (x :: y :: l)) with (if String.eqb x y then unique_strings (y :: l) else x :: unique_strings (y :: l)).
  destruct H as [H1 H2]. destruct (String.eqb x y); [exact (IH H2)|]. split; [|exact (IH H2)].
  apply Forall_forall. intros z Hz. rewrite unique_in in Hz. rewrite Forall_forall in H1. exact (H1 z Hz).
Qed.
Lemma sorted_same l : forall l', sorted l -> sorted l' -> NoDup l -> NoDup l' -> (forall m, In m l <-> In m l') -> l = l'.
Proof.
  induction l as [|x l IH]; intros [|y l'] S S' D D' E.
  - reflexivity.
  - exfalso. apply (proj2 (E y)). left. reflexivity.
  - exfalso. apply (proj1 (E x)). left. reflexivity.
  - destruct S as [S1 S2], S' as [S1' S2']. inversion_clear D. inversion_clear D'. rewrite Forall_forall in S1, S1'.
    assert (x = y).
    { destruct (proj1 (E x) (or_introl eq_refl)) as [?|A]; [auto|]. destruct (proj2 (E y) (or_introl eq_refl)) as [?|B]; [auto|].
      apply String.leb_antisym; auto. }
    subst y. f_equal. apply IH; try assumption. intros m. specialize (E m). cbn [In] in E. split; intros H3.
    + destruct (proj1 E (or_intror H3)) as [->|]; [contradiction|assumption].
    + destruct (proj2 E (or_intror H3)) as [->|]; [contradiction|assumption].
Qed.
Lemma materials_same a b : (forall m, In m a <-> In m b) -> unique_strings (sort_strings a) = unique_strings (sort_strings b).
Proof.
  intros H. apply sorted_same; try apply unique_sorted, sort_sorted; try apply unique_sort_nodup.
  intros m. rewrite !unique_sort_in. apply H.
Qed.

(* nothing is stored beyond the ends *)
Definition clean (b : vec R) : Prop := forall i, inb i (vlen b) = false -> vat b i = 0%R.
Lemma vset_clean b i x b' : clean b -> vset b i x = Ok b' -> clean b'.
Proof.
  unfold vset. intros H E. destruct (inb i (vlen b)) eqn:I; [|discriminate]. injection E as <-. intros k Hk. cbn in *.
  destruct (Z.eqb_spec k i) as [->|_]; [congruence|]. apply H. exact Hk.
Qed.
Lemma ramp_clean ns xs b : ramp (N := NumR) eigen_zero ns xs = Ok b -> clean b.
Proof.
  unfold ramp. destruct (_ =? _); [discriminate|]. intros H. destruct (bind_ok_inv _ _ _ H) as (v & Ev & H1).
  destruct (bind_ok_inv _ _ _ H1) as ([[v1 i1] s1] & E1 & H2). injection H2 as <-.
  assert (C : clean v). { unfold eigen_zero in Ev. destruct (_ <? 0); [discriminate|]. injection Ev as <-. intros k _. reflexivity. }
  change (clean (fst (fst (v1, i1, s1)))). refine (zfor_keeps (fun st => clean (fst (fst st))) _ _ _ _ _ _ E1 C).
  intros i [[a ia] sa] [[c ic] sc] Ha Hb. destruct (bind_ok_inv _ _ _ Hb) as (n & _ & Hb1).
  destruct (bind_ok_inv _ _ _ Hb1) as ([a1 ja] & Eb & Hb2). destruct (bind_ok_inv _ _ _ Hb2) as (d & _ & Hb3). injection Hb3 as <- <- <-.
  cbn [fst] in *. change (clean (fst (a1, ja))). refine (zfor_keeps (fun st => clean (fst st)) _ _ _ _ _ _ Eb Ha).
  intros j [e je] [e' je'] He Hs. destruct (bind_ok_inv _ _ _ Hs) as (d' & _ & Hs1). destruct (bind_ok_inv _ _ _ Hs1) as (e1 & Es & Hs2).
  injection Hs2 as <- <-. exact (vset_clean _ _ _ _ He Es).
Qed.
Lemma vec_same (a b : vec R) : clean a -> clean b -> vlen a = vlen b -> (forall i, 0 <= i < vlen a -> vat a i = vat b i) -> a = b.
Proof.
  destruct a as [n f], b as [n' f']. unfold clean. cbn. intros Ca Cb <- H. f_equal. apply functional_extensionality. intros i.
  destruct (inb i n) eqn:I; [|rewrite Ca, Cb by exact I; reflexivity]. apply H. unfold inb in I. lia.
Qed.

Section Real.
Variable stod_opt : string -> option R.

Lemma setMesh_bounds inp inp' : setMesh PI stod_opt inp = Ok inp' -> clean (ms_bounds (in_mesh inp')).
Proof.
  unfold setMesh. intros H. destruct (bind_ok_inv _ _ _ H) as (w & _ & H1). destruct (bind_ok_inv _ _ _ H1) as ([[ns xs] ms] & _ & H2).
  destruct (bind_ok_inv _ _ _ H2) as (b & Eb & H3). destruct (bind_ok_inv _ _ _ H3) as (v & _ & H4).
  destruct (bind_ok_inv _ _ _ H4) as (nm & _ & H5). destruct (bind_ok_inv _ _ _ H5) as (m & Em & H6).
  destruct (bind_ok_inv _ _ _ H6) as (u & _ & H7). destruct (bind_ok_inv _ _ _ H7) as (p & _ & H8). injection H8 as <-.
  unfold createMaterials in Em. destruct (bind_ok_inv _ _ _ Em) as (l & _ & Em1). injection Em1 as <-. cbn. exact (ramp_clean _ _ _ Eb).
Qed.

(* Two mesh lines that describe the same cells give the same mesh, whatever the
   regions: the boundaries, the material of every cell and the list of the
   materials to be read are equal. *)
Theorem C101_same_cells inp inp' rs rs' vs vs' :
  entry (in_lines inp) "mesh" (region_words rs) -> Forall2 (reads_region stod_opt) rs vs ->
  entry (in_lines inp') "mesh" (region_words rs') -> Forall2 (reads_region stod_opt) rs' vs' ->
  Forall (fun n => 0 < n) (counts vs) -> Forall (fun n => 0 < n) (counts vs') -> total (counts vs) < 2147483647 ->
  Forall (printable stod_opt) (names vs) -> in_map inp = [] -> in_map inp' = [] -> in_rx inp' = in_rx inp ->
  cells vs = cells vs' ->
  exists a b, setMesh PI stod_opt inp = Ok a /\ setMesh PI stod_opt inp' = Ok b /\
    in_rx a = in_rx b /\ in_map a = in_map b /\ in_list a = in_list b.
Proof.
  intros He Hr He' Hr' Hp Hp' Ht Hs Hm Hm' Hx Hc.
  assert (P : forall vs, Forall (fun n => 0 < n) (counts vs) -> Forall (fun n => 0 <= n) (counts (T := R) vs)).
  { intros l Hl. eapply Forall_impl; [|exact Hl]. cbn. lia. }
  assert (Ht' : total (counts vs) = total (counts vs')) by (rewrite <- !cells_length, Hc by assumption; reflexivity).
  assert (Hin : forall m, In m (names vs) <-> In m (names vs')) by (intros m; rewrite !cells_in, Hc by assumption; reflexivity).
  assert (Hs' : Forall (printable stod_opt) (names vs')).
  { apply Forall_forall. intros m Im. rewrite Forall_forall in Hs. apply Hs, Hin, Im. }
  destruct (wp_ok _ _ (setMesh_wp PI stod_opt inp rs vs (entry_read _ _ _ _ He) Hr (P _ Hp) Ht Hm Hs)) as (a & A & ba & A1 & A2 & _ & _ & _ & A3 & A4 & A5).
  destruct (wp_ok _ _ (setMesh_wp PI stod_opt inp' rs' vs' (entry_read _ _ _ _ He') Hr' (P _ Hp') ltac:(lia) Hm' Hs')) as (b & B & bb & B1 & B2 & _ & _ & _ & B3 & B4 & B5).
  exists a, b. split; [exact A|]. split; [exact B|].
  assert (Nm : blocks (names vs) (counts vs) = blocks (names vs') (counts vs')) by (rewrite <- !cells_names, Hc by assumption; reflexivity).
  assert (S : forall vs ba, Forall (fun n => 0 < n) (counts vs) -> vlen ba = total (counts vs) + 1 -> (0 < length vs)%nat ->
     (forall k j, (k < length vs)%nat -> 0 <= j < nth k (counts vs) 0 + extra (counts vs) k ->
         vat ba (cum (counts vs) k + j) = point (counts vs) (widths vs) k j) ->
     forall i, 0 <= i < vlen ba -> vat ba i = sum (firstn (Z.to_nat i) (map fst (cells vs)))).
  { clear. intros vs ba Hp L Hl H i Hi. assert (L1 : length (counts vs) = length vs) by (unfold counts; apply map_length).
    assert (L2 : length (widths vs) = length vs) by (unfold widths; apply map_length).
    assert (Q := ramp_points (counts vs) (widths vs) (vat ba) ltac:(lia) Hp ltac:(rewrite L1; exact H)). rewrite L1 in Q.
    destruct (Z.eq_dec i (total (counts vs))) as [->|Ne].
    - destruct (length vs) as [|q] eqn:E; [lia|]. rewrite <- cum_all, L1, cum_S by lia.
      assert (0 < nth q (counts vs) 0) by (rewrite Forall_forall in Hp; apply Hp, nth_In; lia).
      rewrite Q by lia. symmetry. apply cells_sum; [exact Hp|lia|lia].
    - destruct (blocks_cover (counts vs)) with (i := i) as (k & j & Hk & Hj & ->); [|lia|].
      { eapply Forall_impl; [|exact Hp]. cbn. lia. }
      rewrite Q by lia. symmetry. apply cells_sum; [exact Hp|lia|lia]. }
  assert (Lv : forall lines rs (vs : list (Z * R * string)), entry lines "mesh" (region_words rs) -> Forall2 (reads_region stod_opt) rs vs -> (0 < length vs)%nat).
  { clear. intros lines rs vs (k & line & body & w & _ & _ & _ & _ & NE) H. destruct H; [exfalso; apply NE; reflexivity|cbn; lia]. }
  assert (E : ba = bb).
  { pose proof (setMesh_bounds _ _ A) as Ca. pose proof (setMesh_bounds _ _ B) as Cb. unfold in_mesh in Ca, Cb. rewrite A5 in Ca. rewrite B5 in Cb.
    cbn in Ca, Cb. apply vec_same; [exact Ca|exact Cb|lia|]. intros i Hi.
    rewrite (S vs ba Hp A1 (Lv _ _ _ He Hr) A2 i Hi), (S vs' bb Hp' B1 (Lv _ _ _ He' Hr') B2 i ltac:(lia)), Hc. reflexivity. }
  split; [|split].
  - rewrite A5, B5, E, Nm. unfold in_mesh. rewrite Hx. reflexivity.
  - rewrite A3, B3, Nm. reflexivity.
  - rewrite A4, B4. apply materials_same, Hin.
Qed.
Print Assumptions C101_same_cells.

(* So a region may be written as two, at any of its inner boundaries. *)
Theorem C101_split inp inp' rs rs' vs1 vs2 n x n' x' m :
  entry (in_lines inp) "mesh" (region_words rs) -> Forall2 (reads_region stod_opt) rs (vs1 ++ (n + n', (x + x')%R, m) :: vs2) ->
  entry (in_lines inp') "mesh" (region_words rs') -> Forall2 (reads_region stod_opt) rs' (vs1 ++ (n, x, m) :: (n', x', m) :: vs2) ->
  let vs := (vs1 ++ (n, x, m) :: (n', x', m) :: vs2)%list in
  Forall (fun n => 0 < n) (counts vs) -> total (counts vs) < 2147483647 ->
  Forall (printable stod_opt) (names vs) -> in_map inp = [] -> in_map inp' = [] -> in_rx inp' = in_rx inp ->
  (x * IZR n' = x' * IZR n)%R ->
  exists a b, setMesh PI stod_opt inp = Ok a /\ setMesh PI stod_opt inp' = Ok b /\
    in_rx a = in_rx b /\ in_map a = in_map b /\ in_list a = in_list b.
Proof.
  intros He Hr He' Hr' vs Hp Ht Hs Hm Hm' Hx E.
  assert (Pn : 0 < n /\ 0 < n').
  { unfold vs, counts in Hp. rewrite map_app in Hp. cbn in Hp. apply Forall_app in Hp as [_ Hp]. inversion_clear Hp. inversion_clear H0. auto. }
  refine (C101_same_cells inp inp' rs rs' _ vs He Hr He' Hr' _ Hp _ _ Hm Hm' Hx _).
  - unfold vs, counts in *. rewrite !map_app in *. cbn in *. apply Forall_app in Hp as [P1 P2]. inversion_clear P2. inversion_clear H0.
    apply Forall_app. split; [exact P1|]. constructor; [lia|assumption].
  - replace (total (counts (vs1 ++ (n + n', (x + x')%R, m) :: vs2)%list)) with (total (counts vs)); [exact Ht|].
    unfold vs, counts, total. rewrite !map_app, !fold_right_app. cbn. f_equal. lia.
  - unfold vs, names in *. rewrite !map_app in *. cbn in *. apply Forall_app in Hs as [P1 P2]. inversion_clear P2. inversion_clear H0.
    apply Forall_app. split; [exact P1|]. constructor; assumption.
  - unfold vs, cells. rewrite !flat_map_app. f_equal. cbn [flat_map]. rewrite app_assoc. f_equal.
    assert (N1 : (0 < IZR n)%R) by (apply IZR_lt; lia). assert (N2 : (0 < IZR n')%R) by (apply IZR_lt; lia).
    assert (W1 : ((x + x') / IZR (n + n') = x / IZR n)%R) by (rewrite plus_IZR; field_simplify_eq; lra).
    assert (W2 : (x' / IZR n' = x / IZR n)%R) by (field_simplify_eq; lra).
    rewrite W1, W2, Z2Nat.inj_add, repeat_app by lia. reflexivity.
Qed.
End Real.
Print Assumptions C101_split.

Definition whole : input R := mkInput ["geometry slab"; "MESH 3 0.3 Fuel 2 1 refl"] newReactor [] [] [] [].
Definition parts : input R := mkInput ["geometry slab"; "mesh 1 0.1 fuel 2 0.2 fuel 2 1 refl"] newReactor [] [] [] [].
Definition lit (m e : Z) : R := (IZR m * powerRZ 10 e)%R.
Example C101_met :
  let vs1 := @nil (Z * R * string) in let vs2 := [(2, lit 1 0, "refl")] in
  let rs := [("3", "0.3", "fuel"); ("2", "1", "refl")] in let rs' := [("1", "0.1", "fuel"); ("2", "0.2", "fuel"); ("2", "1", "refl")] in
  let n := 1 in let n' := 2 in let x := lit 1 (-1) in let x' := lit 2 (-1) in let m := "fuel" in
  let vs := (vs1 ++ (n, x, m) :: (n', x', m) :: vs2)%list in
  entry (in_lines whole) "mesh" (region_words rs) /\ Forall2 (reads_region stodR) rs (vs1 ++ (n + n', (x + x')%R, m) :: vs2) /\
  entry (in_lines parts) "mesh" (region_words rs') /\ Forall2 (reads_region stodR) rs' vs /\
  Forall (fun n => 0 < n) (counts vs) /\ total (counts vs) < 2147483647 /\
  Forall (printable stodR) (names vs) /\ (x * IZR n' = x' * IZR n)%R.
Proof.
  cbv zeta. repeat split.
  - apply read_entry; [reflexivity|discriminate].
  - repeat constructor. change (stodR "0.3") with (Some (lit 3 (-1))). f_equal. unfold lit. ring.
  - apply read_entry; [reflexivity|discriminate].
  - repeat constructor.
  - repeat constructor.
  - repeat constructor; left; reflexivity.
  - unfold lit. ring.
Qed.

(* The same two lines in double precision: three tenths are not a tenth and two
   tenths, so the outer boundary is another one. *)
Definition tenths (n : Z) : f64 := nofZ n [/] nofZ 10.
Theorem C101_double_refuted : exists a b : vec f64,
  ramp eigen_zero [0; 3] [n0; tenths 3] = Ok a /\ ramp eigen_zero [0; 1; 2] [n0; tenths 1; tenths 2] = Ok b /\
  vlen a = vlen b /\ Bltb (vat a 3) (vat b 3) = true.
Proof.
  assert (C : match ramp eigen_zero [0; 3] [n0; tenths 3], ramp eigen_zero [0; 1; 2] [n0; tenths 1; tenths 2] with
              | Ok a, Ok b => ((vlen a =? vlen b) && Bltb (vat a 3) (vat b 3))%bool | _, _ => false end = true) by (vm_compute; reflexivity).
  destruct (ramp eigen_zero [0; 3] _) as [a| | |]; try discriminate. destruct (ramp eigen_zero [0; 1; 2] _) as [b| | |]; try discriminate.
  apply andb_true_iff in C as [C1 C2]. exists a, b. repeat split; [apply Z.eqb_eq; exact C1|exact C2].
Qed.
Print Assumptions C101_double_refuted.
