(* Properties C06-C10: the mesh line and the parameter lists. *)
From Coq Require Import String Ascii ZArith List Bool Lia Arith Reals Lra.
From Flocq Require Import IEEE754.BinarySingleNaN.
From Verif Require Import Base BaseLemmas NumR NumF ModelNumTools ModelMesh ModelReactor ModelText ProofsText ModelInput
  ProofsInput ProofsInputB ProofsInputC.
Import ListNotations.
Local Open Scope string_scope.
Local Open Scope Z_scope.

(* ---------- C06 and C07 ---------- *)

(* depth of the far side of the first k regions *)
Definition depth (xs : list R) (k : nat) : R := fold_right Rplus 0%R (firstn k xs).

Lemma fold_left_plus (l : list R) a : fold_left Rplus l a = (a + fold_right Rplus 0 l)%R.
Proof. revert a. induction l as [|x l IH]; intros a; cbn; [lra|]. rewrite IH. lra. Qed.
Lemma pos_depth xs k : pos xs k = depth xs k.
Proof. unfold pos, depth. change nadd with Rplus. rewrite fold_left_plus. change (n0 (N := NumR)) with 0%R. lra. Qed.
Lemma depth_S xs k : (k < length xs)%nat -> depth xs (S k) = (depth xs k + nth k xs 0)%R.
Proof. intros H. rewrite <- !pos_depth. rewrite (pos_S xs k 0%R H). reflexivity. Qed.

(* every point of every region, interfaces included *)
Lemma ramp_points (ns : list Z) (xs : list R) (f : Z -> R) :
  length xs = length ns -> Forall (fun n => 0 < n) ns ->
  (forall k j, (k < length ns)%nat -> 0 <= j < nth k ns 0 + extra ns k -> f (cum ns k + j) = point ns xs k j) ->
  forall k j, (k < length ns)%nat -> 0 <= j <= nth k ns 0 ->
    f (cum ns k + j) = (depth xs k + IZR j * (nth k xs 0 / IZR (nth k ns 0%Z)))%R.
Proof.
  intros L Hp H k j Hk Hj.
  assert (Hn : forall k, (k < length ns)%nat -> 0 < nth k ns 0).
  { intros i Hi. rewrite Forall_forall in Hp. apply Hp, nth_In, Hi. }
  pose proof (Hn k Hk) as Hnk.
  assert (P : forall k j, point ns xs k j = (depth xs k + IZR j * (nth k xs 0 / IZR (nth k ns 0%Z)))%R).
  { intros k' j'. unfold point. rewrite pos_depth. change (n0 (N := NumR)) with 0%R. rnum. unfold Rdiv. ring. }
  destruct (Z.eq_dec j (nth k ns 0)) as [->|Hne].
  - destruct (Nat.eq_dec (S k) (length ns)) as [E|E].
    + rewrite H, P; [reflexivity|exact Hk|]. unfold extra. rewrite E, Nat.eqb_refl. lia.
    + rewrite <- cum_S by exact Hk. rewrite <- (Z.add_0_r (cum ns (S k))). rewrite H, P.
      * rewrite depth_S by lia. rewrite Rmult_0_l. assert (IZR (nth k ns 0%Z) <> 0%R) by (apply not_0_IZR; lia).
        field. assumption.
      * lia.
      * pose proof (Hn (S k) ltac:(lia)). unfold extra. destruct (Nat.eqb _ _); lia.
  - rewrite H, P; [reflexivity|exact Hk|]. unfold extra. destruct (Nat.eqb _ _); lia.
Qed.

Lemma ramp_increasing (ns : list Z) (xs : list R) (f : Z -> R) :
  length xs = length ns -> Forall (fun n => 0 < n) ns -> Forall (fun x => 0 < x)%R xs ->
  (forall k j, (k < length ns)%nat -> 0 <= j <= nth k ns 0 ->
     f (cum ns k + j) = (depth xs k + IZR j * (nth k xs 0 / IZR (nth k ns 0%Z)))%R) ->
  forall i, 0 <= i < total ns -> (f i < f (i + 1)%Z)%R.
Proof.
  intros L Hp Hx H i Hi.
  destruct (blocks_cover ns) with (i := i) as (k & j & Hk & Hj & ->); [|exact Hi|].
  { eapply Forall_impl; [|exact Hp]. cbn. lia. }
  rewrite <- Z.add_assoc, !H by (try exact Hk; lia). rewrite plus_IZR.
  assert (0 < nth k xs 0)%R. { rewrite Forall_forall in Hx. apply Hx, nth_In. lia. }
  assert (0 < nth k xs 0 / IZR (nth k ns 0%Z))%R. { apply Rdiv_lt_0_compat; [assumption|]. apply IZR_lt. lia. }
  lra.
Qed.

Section Real.
Variable stod_opt : string -> option R.

Theorem C06_partition : forall inp rs vs,
  (* the mesh line is a list of (count, thickness, material) triples that read as vs *)
  entry (in_lines inp) "mesh" (region_words rs) -> Forall2 (reads_region stod_opt) rs vs ->
  (* positive counts and thicknesses, fewer than 2^31 - 1 cells, names that can be printed *)
  Forall (fun n => 0 < n) (counts vs) -> Forall (fun x => 0 < x)%R (widths vs) -> total (counts vs) < 2147483647 ->
  Forall (printable stod_opt) (names vs) -> in_map inp = [] ->
  exists inp', setMesh PI stod_opt inp = Ok inp' /\
    let b := ms_bounds (in_mesh inp') in
    let ns := counts vs in let xs := widths vs in
    ms_cells (in_mesh inp') = total ns /\ vlen b = total ns + 1 /\
    vat b 0 = 0%R /\ vat b (total ns) = fold_right Rplus 0%R xs /\
    (forall i, 0 <= i < total ns -> (vat b i < vat b (i + 1)%Z)%R) /\
    (forall k j, (k < length vs)%nat -> 0 <= j <= nth k ns 0 ->
       vat b (cum ns k + j) = (depth xs k + IZR j * (nth k xs 0 / IZR (nth k ns 0%Z)))%R).
Proof.
  intros inp rs vs He Hr Hn Hx Ht Hs Hmap.
  assert (Hn' : Forall (fun n => 0 <= n) (counts vs)) by (eapply Forall_impl; [|exact Hn]; cbn; lia).
  destruct (wp_ok _ _ (setMesh_wp PI stod_opt inp rs vs (entry_read _ _ _ _ He) Hr Hn' Ht Hmap Hs)) as (inp' & E & b & B1 & B2 & _ & _ & _ & _ & _ & B3).
  exists inp'. split; [exact E|]. cbv zeta. unfold in_mesh at 1 2 3 4 5 6 7. rewrite B3.
  cbn [rx_mesh with_mesh with_mats ms_bounds setBoundaries ms_cells].
  assert (L1 : length (counts vs) = length vs) by (unfold counts; apply map_length).
  assert (L2 : length (widths vs) = length vs) by (unfold widths; apply map_length).
  assert (Q := ramp_points (counts vs) (widths vs) (vat b) ltac:(lia) Hn ltac:(rewrite L1; exact B2)).
  rewrite L1 in Q.
  assert (Hlen : (0 < length vs)%nat).
  { destruct He as (k & line & body & w & _ & _ & _ & _ & NE). destruct Hr; [exfalso; apply NE; reflexivity|cbn; lia]. }
  assert (Hnn : forall k, (k < length vs)%nat -> 0 < nth k (counts vs) 0).
  { intros k Hk. rewrite Forall_forall in Hn. apply Hn, nth_In. lia. }
  repeat split.
  - lia.
  - exact B1.
  - rewrite <- (cum_0 (counts vs)), <- (Z.add_0_r (cum (counts vs) 0)). rewrite Q.
    + unfold depth. cbn. lra.
    + exact Hlen.
    + specialize (Hnn 0%nat Hlen). lia.
  - destruct (length vs) as [|n] eqn:En; [lia|].
    rewrite <- cum_all, L1, cum_S by lia. rewrite Q; [|lia|specialize (Hnn n); lia].
    specialize (Hnn n ltac:(lia)). assert (IZR (nth n (counts vs) 0%Z) <> 0%R) by (apply not_0_IZR; lia).
    transitivity (depth (widths vs) n + nth n (widths vs) 0)%R; [field; assumption|].
    rewrite <- depth_S by lia. unfold depth. rewrite <- L2, firstn_all. reflexivity.
  - apply (ramp_increasing (counts vs) (widths vs) (vat b) ltac:(lia) Hn Hx). rewrite L1. exact Q.
  - exact Q.
Qed.
End Real.
Print Assumptions C06_partition.

Section Any.
Context {T : Type} {N : Num T}.
Variable mpi : T.
Variable stod_opt : string -> option T.

Theorem C07_cell_material : forall inp rs vs,
  entry (in_lines inp) "mesh" (region_words rs) -> Forall2 (reads_region stod_opt) rs vs ->
  Forall (fun n => 0 <= n) (counts vs) -> total (counts vs) < 2147483647 ->
  Forall (printable stod_opt) (names vs) -> in_map inp = [] ->
  exists inp', setMesh mpi stod_opt inp = Ok inp' /\
    let ms := in_mesh inp' in
    zlen (ms_mats ms) = ms_cells ms /\ ms_cells ms = total (counts vs) /\
    (forall k j, (k < length vs)%nat -> 0 <= j < nth k (counts vs) 0 ->
       exists mt, nth_error (ms_mats ms) (Z.to_nat (cum (counts vs) k + j)) = Some mt /\
                  mt_name mt = nth k (names vs) "") /\
    (* every cell is in exactly one region *)
    (forall i, 0 <= i < ms_cells ms -> exists k j,
       ((k < length vs)%nat /\ 0 <= j < nth k (counts vs) 0 /\ i = cum (counts vs) k + j) /\
       forall k' j', (k' < length vs)%nat -> 0 <= j' < nth k' (counts vs) 0 -> i = cum (counts vs) k' + j' ->
         k' = k /\ j' = j) /\
    (* and the list of materials read afterwards holds each name of the line once *)
    (forall m, In m (in_list inp') <-> In m (names vs)) /\ NoDup (in_list inp').
Proof.
  intros inp rs vs He Hr Hn Ht Hs Hmap.
  destruct (wp_ok _ _ (setMesh_wp mpi stod_opt inp rs vs (entry_read _ _ _ _ He) Hr Hn Ht Hmap Hs)) as (inp' & E & b & B1 & _ & _ & _ & _ & _ & B4 & B3).
  exists inp'. split; [exact E|]. cbv zeta. unfold in_mesh at 1 2 3 4 5. rewrite B3.
  cbn [rx_mesh with_mesh with_mats ms_bounds setBoundaries ms_cells ms_mats].
  assert (L1 : length (counts vs) = length vs) by (unfold counts; apply map_length).
  assert (L3 : length (names vs) = length vs) by (unfold names; apply map_length).
  pose proof (blocks_length (names vs) (counts vs) Hn ltac:(lia)) as Bl.
  split; [unfold zlen; rewrite map_length; lia|]. split; [lia|]. split; [|split; [|split]].
  - intros k j Hk Hj. exists (newMaterial (nth k (names vs) "")). split; [|reflexivity].
    rewrite nth_error_map. rewrite (nth_error_nth' _ "").
    + cbn [option_map]. do 2 f_equal. apply (blocks_nth (names vs) (counts vs) "" Hn); [lia|lia|exact Hj].
    + pose proof (cum_nonneg (counts vs) k Hn). pose proof (cum_S (counts vs) k ltac:(lia)).
      pose proof (cum_mono (counts vs) (S k) (length (counts vs)) Hn ltac:(lia)) as M. rewrite cum_all in M. lia.
  - intros i Hi. destruct (blocks_cover (counts vs) Hn i ltac:(lia)) as (k & j & Hk & Hj & Ei).
    exists k, j. split; [repeat split; try assumption; lia|].
    intros k' j' Hk' Hj' Ei'.
    assert (k' = k).
    { destruct (Nat.lt_trichotomy k k') as [F|[F|F]]; [|auto|]; exfalso.
      - pose proof (cum_S (counts vs) k Hk). pose proof (cum_mono (counts vs) (S k) k' Hn F). lia.
      - pose proof (cum_S (counts vs) k' ltac:(lia)). pose proof (cum_mono (counts vs) (S k') k Hn F). lia. }
    subst k'. split; [reflexivity|lia].
  - intros m. rewrite B4. apply unique_sort_in.
  - rewrite B4. apply unique_sort_nodup.
Qed.
End Any.
Print Assumptions C07_cell_material.

(* A reader of decimal literals for the examples: mantissa and exponent. *)
Fixpoint dec_digits (acc : Z) (n : Z) (s : string) : Z * Z * string :=
  match s with
  | String c s' => if isdigit c then dec_digits (acc * 10 + (Z.of_nat (code c) - 48)) (n + 1) s' else (acc, n, s)
  | "" => (acc, n, s)
  end.
Definition decimal (s : string) : option (Z * Z) :=
  let '(neg, s) := match s with String "-" s' => (true, s') | String "+" s' => (false, s') | _ => (false, s) end in
  let '(m, n, s) := dec_digits 0 0 s in
  let '(m, f, s) := match s with String "." s' => dec_digits m 0 s' | _ => (m, 0, s) end in
  if n + f =? 0 then None else
  let m := if neg then - m else m in
  let e := match s with
           | String c s' => if Ascii.eqb (tolower c) "e" then match stoi s' with Ok e => e | _ => 0 end else 0
           | "" => 0
           end in
  Some (m, e - f).
Definition stodR (s : string) : option R :=
  match decimal s with Some (m, e) => Some (IZR m * powerRZ 10 e)%R | None => None end.

Definition ex_mesh : input R :=
  mkInput ["solvers diffusion % no mesh"; "Geometry slab"; "MESH 2 1.5 Fuel 3 0.5e0 refl % two regions"] newReactor [] [] [] [].
Definition ex_mesh_good : input R :=
  mkInput ["solvers diffusion"; "Geometry slab"; "MESH 2 1.5 Fuel 3 0.5e0 refl % two regions"] newReactor [] [] [] [].
Example C06_example :
  (* the hypotheses of C06 and C07 *)
  (let rs := [("2", "1.5", "fuel"); ("3", "0.5e0", "refl")] in
   let vs := [(2, (IZR 15 * powerRZ 10 (-1))%R, "fuel"); (3, (IZR 5 * powerRZ 10 (-1))%R, "refl")] in
   entry (in_lines ex_mesh_good) "mesh" (region_words rs) /\ Forall2 (reads_region stodR) rs vs /\
   Forall (fun n => 0 < n) (counts vs) /\ Forall (fun x => 0 < x)%R (widths vs) /\ total (counts vs) < 2147483647 /\
   Forall (printable stodR) (names vs) /\ in_map ex_mesh_good = []) /\
  (* and the comment that names the mesh is read instead of the mesh line *)
  exists m, setMesh PI stodR ex_mesh = Throw m.
Proof.
  split; [|eexists; reflexivity]. cbv zeta. repeat split.
  - apply read_entry; [reflexivity|discriminate].
  - repeat constructor.
  - repeat constructor.
  - unfold widths. cbn [map]. constructor; [apply Rmult_lt_0_compat; [lra|apply powerRZ_lt; lra]|].
    constructor; [apply Rmult_lt_0_compat; [lra|apply powerRZ_lt; lra]|constructor].
  - repeat constructor; left; reflexivity.
Qed.

(* ---------- C08 ---------- *)

Section Any.
Context {T : Type} {N : Num T}.
Variable mpi : T.
Variable stod_opt : string -> option T.

(* Whatever the complete regions before it, an incomplete last region makes the
   reader read past the end of its lists; so do counts that add up to 2^31 - 1
   or more, among them every negative count. *)
Theorem C08_malformed_refuted : forall inp rs vs, Forall2 (reads_region stod_opt) rs vs ->
  (* a lone count *)
  (forall c n, entry (in_lines inp) "mesh" (region_words rs ++ [c])%list -> stoi c = Ok n ->
     is_ub (setMesh mpi stod_opt inp)) /\
  (* a count and a thickness without material *)
  (forall c n d x, entry (in_lines inp) "mesh" (region_words rs ++ [c; d])%list -> stoi c = Ok n -> stod_opt d = Some x ->
     n <> 0 -> is_ub (setMesh mpi stod_opt inp)) /\
  (* a negative count *)
  (entry (in_lines inp) "mesh" (region_words rs) -> Exists (fun n => n < 0) (counts vs) ->
     is_ub (setMesh mpi stod_opt inp)) /\
  (* too many cells *)
  (entry (in_lines inp) "mesh" (region_words rs) -> Forall (fun n => 0 <= n) (counts vs) ->
     2147483647 <= total (counts vs) -> is_ub (setMesh mpi stod_opt inp)).
Proof.
  intros inp rs vs H.
  assert (G : forall zs, Forall (fun n => 0 <= n) (map to_u32 zs)).
  { intros zs. apply Forall_forall. intros k Hk. apply in_map_iff in Hk. destruct Hk as (z & <- & _). apply to_u32_range. }
  assert (R : forall n, In n (counts vs) -> -2147483648 <= n <= 2147483647).
  { clear G. unfold counts. induction H as [|[[c d] m] [[n x] m'] rs vs (H1 & _) _ IH]; cbn; [tauto|].
    intros k [<-|Hk]; [apply (stoi_range c), H1|exact (IH k Hk)]. }
  split; [|split; [|split]].
  - intros c n He Hc. exact (setMesh_one_more mpi stod_opt inp rs vs c n (entry_read _ _ _ _ He) H Hc).
  - intros c n d x He Hc Hd Hn. exact (setMesh_two_more mpi stod_opt inp rs vs c n d x (entry_read _ _ _ _ He) H Hc Hd Hn).
  - intros He Hx. apply Exists_exists in Hx. destruct Hx as (n & Hi & Hn).
    apply (setMesh_too_many mpi stod_opt inp rs vs (entry_read _ _ _ _ He) H); [intros ->; exact Hi|].
    assert (P : forall zs, In n zs -> to_u32 n <= total (map to_u32 zs)).
    { induction zs as [|z zs IH]; intros Hz; [contradiction|]. destruct Hz as [->|Hz].
      - change (total (map to_u32 (n :: zs))) with (to_u32 n + total (map to_u32 zs)).
        pose proof (cum_nonneg _ (length (map to_u32 zs)) (G zs)) as K. rewrite cum_all in K. lia.
      - change (total (map to_u32 (z :: zs))) with (to_u32 z + total (map to_u32 zs)).
        specialize (IH Hz). pose proof (to_u32_range z). lia. }
    specialize (P _ Hi). specialize (R _ Hi).
    assert (to_u32 n = n + 4294967296) by (unfold to_u32; Z.to_euclidean_division_equations; lia). lia.
  - intros He Hp Ht.
    apply (setMesh_too_many mpi stod_opt inp rs vs (entry_read _ _ _ _ He) H); [intros ->; cbn in Ht; lia|].
    replace (map to_u32 (counts vs)) with (counts vs); [exact Ht|].
    clear - R Hp. induction (counts vs) as [|n l IH]; [reflexivity|]. inversion Hp; subst. cbn.
    rewrite <- IH; [|intros k Hk; apply R; right; exact Hk|assumption].
    rewrite to_u32_small; [reflexivity|]. specialize (R n (or_introl eq_refl)). lia.
Qed.

(* What is rejected: a count that is not an integer, a thickness that is not a
   number, a line without values and a file without the line. *)
Theorem C08_malformed_partial : forall inp rs vs, Forall2 (reads_region stod_opt) rs vs ->
  (forall c rest m, entry (in_lines inp) "mesh" (region_words rs ++ c :: rest)%list -> stoi c = Throw m ->
     setMesh mpi stod_opt inp = Throw m) /\
  (forall c n d rest, entry (in_lines inp) "mesh" (region_words rs ++ c :: d :: rest)%list -> stoi c = Ok n -> stod_opt d = None ->
     setMesh mpi stod_opt inp = Throw "std::stod") /\
  ((forall k x, nth_error (data_lines (in_lines inp)) k = Some x -> Z.of_nat k <= umax -> ~ mentions "mesh" x) ->
     setMesh mpi stod_opt inp = Exit "mesh is missing from the input!").
Proof.
  intros inp rs vs H. split; [|split].
  - intros c rest m He Hc. unfold setMesh. rewrite (entry_read _ _ _ _ He). cbn [bind].
    assert (E : regions stod_opt (region_words rs ++ c :: rest)%list = Throw m).
    { clear He. induction H as [|[[c' d] m'] [[n' x] m''] rs vs (H1 & H2 & H3) _ IH].
      - cbn. destruct rest as [|? [|? ?]]; rewrite Hc; reflexivity.
      - cbn [region_words flat_map List.app regions]. fold (region_words rs).
        rewrite H1. cbn [bind]. unfold stod. rewrite H2. cbn [bind]. rewrite IH. reflexivity. }
    rewrite E. reflexivity.
  - intros c n d rest He Hc Hd. unfold setMesh. rewrite (entry_read _ _ _ _ He). cbn [bind].
    assert (E : regions stod_opt (region_words rs ++ c :: d :: rest)%list = Throw "std::stod").
    { clear He. induction H as [|[[c' d'] m'] [[n' x] m''] rs vs (H1 & H2 & H3) _ IH].
      - cbn. destruct rest as [|? ?]; rewrite Hc; cbn; unfold stod; rewrite Hd; reflexivity.
      - cbn [region_words flat_map List.app regions]. fold (region_words rs).
        rewrite H1. cbn [bind]. unfold stod. rewrite H2. cbn [bind]. rewrite IH. reflexivity. }
    rewrite E. reflexivity.
  - intros M. unfold setMesh, readManyParameters.
    rewrite (findKeyword_missing (in_lines inp) "mesh" 0 umax false).
    + reflexivity.
    + intros k x (A & B & [_ C] & _). exact (M k x A C B).
Qed.
End Any.
Print Assumptions C08_malformed_refuted.
Print Assumptions C08_malformed_partial.

(* Zero counts are accepted. In the last region the outer boundary is NaN,
   whatever the thicknesses. *)
Lemma zero_over_zero (x y : f64) : is_nan (nofZ 0 [*] x [/] nofZ 0 [+] y) = true.
Proof.
  assert (E : (nofZ 0 : f64) = B754_zero false) by (apply B2SF_inj; reflexivity).
  rewrite E. destruct x as [s|s| |s m e H], y as [s'|s'| |s' m' e' H']; reflexivity.
Qed.
Theorem C08_last_count_zero_refuted : forall mpi stod_opt (inp : input f64) rs vs,
  entry (in_lines inp) "mesh" (region_words rs) -> Forall2 (reads_region stod_opt) rs vs ->
  Forall (fun n => 0 <= n) (counts vs) -> total (counts vs) < 2147483647 ->
  Forall (printable stod_opt) (names vs) -> in_map inp = [] ->
  last (counts vs) 1 = 0 ->
  exists inp', setMesh mpi stod_opt inp = Ok inp' /\
    let b := ms_bounds (in_mesh inp') in is_nan (vat b (vlen b - 1)) = true.
Proof.
  intros mpi stod_opt inp rs vs He Hr Hn Ht Hs Hmap Hl.
  destruct (wp_ok _ _ (setMesh_wp mpi stod_opt inp rs vs (entry_read _ _ _ _ He) Hr Hn Ht Hmap Hs)) as (inp' & E & b & B1 & B2 & _ & _ & _ & _ & _ & B3).
  exists inp'. split; [exact E|]. cbv zeta. unfold in_mesh. rewrite B3. cbn [rx_mesh with_mesh with_mats ms_bounds setBoundaries].
  assert (L1 : length (counts vs) = length vs) by (unfold counts; apply map_length).
  destruct (length vs) as [|n] eqn:En.
  { destruct (counts vs); [discriminate Hl|discriminate L1]. }
  assert (El : nth n (counts vs) 0 = 0).
  { destruct (exists_last (l := counts vs)) as (l & z & Ez); [intros F; rewrite F in L1; discriminate L1|].
    rewrite Ez in *. rewrite last_last in Hl. rewrite app_length in L1. cbn in L1.
    rewrite app_nth2 by lia. replace (n - length l)%nat with 0%nat by lia. exact Hl. }
  replace (vlen b - 1) with (cum (counts vs) n + 0).
  2:{ rewrite B1. pose proof (cum_S (counts vs) n ltac:(lia)). rewrite <- L1, cum_all in H. lia. }
  rewrite B2; [|lia|]; [|unfold extra; rewrite L1, Nat.eqb_refl; lia].
  unfold point. rewrite El. apply zero_over_zero.
Qed.
Print Assumptions C08_last_count_zero_refuted.

(* In another region the interface in front of it is lost: the point with the
   number of that interface is the interface behind it, so the last cell of the
   previous region extends over the region without cells. *)
Theorem C08_count_zero_refuted : forall stod_opt (inp : input R) rs vs k,
  entry (in_lines inp) "mesh" (region_words rs) -> Forall2 (reads_region stod_opt) rs vs ->
  Forall (fun n => 0 <= n) (counts vs) -> total (counts vs) < 2147483647 ->
  Forall (printable stod_opt) (names vs) -> in_map inp = [] ->
  (S k < length vs)%nat -> nth k (counts vs) 1 = 0 -> 0 < nth (S k) (counts vs) 0 -> (0 < nth k (widths vs) 0)%R ->
  exists inp', setMesh PI stod_opt inp = Ok inp' /\
    vat (ms_bounds (in_mesh inp')) (cum (counts vs) k) = depth (widths vs) (S k) /\
    depth (widths vs) (S k) <> depth (widths vs) k.
Proof.
  intros stod_opt inp rs vs k He Hr Hn Ht Hs Hmap Hk H0 H1 Hx.
  destruct (wp_ok _ _ (setMesh_wp PI stod_opt inp rs vs (entry_read _ _ _ _ He) Hr Hn Ht Hmap Hs)) as (inp' & E & b & B1 & B2 & _ & _ & _ & _ & _ & B3).
  exists inp'. split; [exact E|]. unfold in_mesh. rewrite B3. cbn [rx_mesh with_mesh with_mats ms_bounds setBoundaries].
  assert (L1 : length (counts vs) = length vs) by (unfold counts; apply map_length).
  assert (L2 : length (widths vs) = length vs) by (unfold widths; apply map_length).
  rewrite (nth_indep _ 1 0) in H0 by lia.
  split; [|rewrite depth_S by lia; lra].
  replace (cum (counts vs) k) with (cum (counts vs) (S k) + 0) by (rewrite cum_S by lia; lia).
  rewrite B2; [|lia|unfold extra; destruct (Nat.eqb _ _); lia].
  unfold point. rewrite pos_depth. rnum. unfold Rdiv. rewrite !Rmult_0_l. lra.
Qed.
Print Assumptions C08_count_zero_refuted.
Example C08_example :
  let inp l := mkInput [l] (newReactor (T := R)) [] [] [] [] in
  is_ub (setMesh PI stodR (inp "mesh 2 1.0 fuel 3")) /\ is_ub (setMesh PI stodR (inp "mesh 2 1.0 fuel 3 1.0")) /\
  setMesh PI stodR (inp "mesh 2 1.0 fuel x 1.0 refl") = Throw "std::invalid_argument" /\
  entry ["mesh 2 1.0 fuel 0 1.0 gap 2 1.0 fuel"] "mesh" (region_words [("2", "1.0", "fuel"); ("0", "1.0", "gap"); ("2", "1.0", "fuel")]).
Proof.
  cbv zeta. split; [exact I|]. split; [exact I|]. split; [reflexivity|]. apply read_entry; [reflexivity|discriminate].
Qed.

(* ---------- C09 ---------- *)

Section Any.
Context {T : Type} {N : Num T}.
Variable stod_opt : string -> option T.

Theorem C09_verbatim : forall lines name ws xs,
  entry lines name ws -> Forall2 (fun w x => isFloat w = Ok true /\ stod_opt w = Some x) ws xs ->
  setManyParameters stod_opt lines name = Ok xs.
Proof.
  intros lines name ws xs He H. unfold setManyParameters. rewrite (entry_read _ _ _ _ He). cbn [bind].
  apply expand_floats, H.
Qed.
(* (value, count) pairs; the first value is written with a dot, the first count is not *)
Theorem C09_repeat : forall lines name v0 c0 ps vs,
  entry lines name (pair_words ((v0, c0) :: ps)) -> isFloat v0 = Ok true -> isFloat c0 = Ok false ->
  Forall2 (fun p v => stod_opt (fst p) = Some (fst v) /\ stoi (snd p) = Ok (snd v)) ((v0, c0) :: ps) vs ->
  Forall (fun v => 0 <= snd v) vs -> total (map snd vs) <= 2147483647 ->
  setManyParameters stod_opt lines name =
    Ok (concat (map (fun v => repeat (fst v) (Z.to_nat (snd v))) vs)).
Proof.
  intros lines name v0 c0 ps vs He F1 F2 H Hn Ht. unfold setManyParameters. rewrite (entry_read _ _ _ _ He). cbn [bind].
  destruct vs as [|v vs]; [inversion H|].
  rewrite (expand_pairs stod_opt (v0, c0) ps v vs F1 F2 H); [| |exact Ht].
  - f_equal. unfold blocks. f_equal. generalize (v :: vs). induction l as [|[x n] l IH]; [reflexivity|].
    cbn [map combine fst snd]. rewrite IH. reflexivity.
  - apply Forall_forall. intros n Hi. apply in_map_iff in Hi. destruct Hi as (w & <- & Hw).
    rewrite Forall_forall in Hn. exact (Hn w Hw).
Qed.
End Any.
Print Assumptions C09_verbatim.
Print Assumptions C09_repeat.

(* (count, span) pairs *)
Theorem C09_ramp : forall stod_opt lines name c0 s0 ps vs,
  entry lines name (pair_words ((c0, s0) :: ps)) -> isFloat c0 = Ok false ->
  Forall2 (fun p v => stoi (fst p) = Ok (fst v) /\ stod_opt (snd p) = Some (snd v)) ((c0, s0) :: ps) vs ->
  Forall (fun v => 0 < fst v) vs -> total (map fst vs) < 2147483647 ->
  exists l, setManyParameters stod_opt lines name = Ok l /\
    let ns := map fst vs in let xs := map snd vs in
    Z.of_nat (length l) = total ns + 1 /\ nth 0 l 0%R = 0%R /\
    nth (Z.to_nat (total ns)) l 0%R = fold_right Rplus 0%R xs /\
    forall k j, (k < length vs)%nat -> 0 <= j <= nth k ns 0 ->
      nth (Z.to_nat (cum ns k + j)) l 0%R = (depth xs k + IZR j * (nth k xs 0 / IZR (nth k ns 0%Z)))%R.
Proof.
  intros stod_opt lines name c0 s0 ps vs He F H Hp Ht. unfold setManyParameters. rewrite (entry_read _ _ _ _ He). cbn [bind].
  destruct vs as [|v vs]; [inversion H|].
  assert (Hn : Forall (fun n => 0 < n) (map fst (v :: vs))).
  { apply Forall_forall. intros n Hi. apply in_map_iff in Hi. destruct Hi as (w & <- & Hw).
    rewrite Forall_forall in Hp. exact (Hp w Hw). }
  assert (Hn' : Forall (fun n => 0 <= n) (map fst (v :: vs))) by (eapply Forall_impl; [|exact Hn]; cbn; lia).
  destruct (wp_ok _ _ (expand_ramp stod_opt (c0, s0) ps v vs F H Hn' Ht)) as (l & -> & B1 & B2).
  exists l. split; [reflexivity|]. cbv zeta. remember (v :: vs) as w. assert (Hw : (0 < length w)%nat) by (subst w; cbn; lia).
  assert (L1 : length (map fst w) = length w) by apply map_length. assert (L2 : length (map snd w) = length w) by apply map_length.
  assert (Q := ramp_points (map fst w) (map snd w) (fun z => nth (Z.to_nat z) l 0%R) ltac:(lia) Hn B2). cbv beta in Q. rewrite L1 in Q.
  assert (Hnn : forall k, (k < length w)%nat -> 0 < nth k (map fst w) 0).
  { intros k Hk. rewrite Forall_forall in Hn. apply Hn, nth_In. lia. }
  split; [exact B1|]. split; [|split].
  - specialize (Q 0%nat 0 Hw). rewrite cum_0 in Q. change (Z.to_nat (0 + 0)) with 0%nat in Q. rewrite Q.
    + unfold depth. cbn. lra.
    + specialize (Hnn 0%nat Hw). lia.
  - destruct (length w) as [|n]; [lia|].
    rewrite <- cum_all, L1, cum_S by lia. rewrite Q; [|lia|specialize (Hnn n); lia].
    specialize (Hnn n ltac:(lia)). assert (IZR (nth n (map fst w) 0%Z) <> 0%R) by (apply not_0_IZR; lia).
    transitivity (depth (map snd w) n + nth n (map snd w) 0)%R; [field; assumption|].
    rewrite <- depth_S by lia. unfold depth. rewrite <- L2, firstn_all. reflexivity.
  - exact Q.
Qed.
Print Assumptions C09_ramp.
Example C09_example :
  (entry ["temperatures 300.0 2 400.0 1"] "temperatures" (pair_words [("300.0", "2"); ("400.0", "1")]) /\
   isFloat "300.0" = Ok true /\ isFloat "2" = Ok false /\
   setManyParameters stodR ["temperatures 300.0 2 400.0 1"] "temperatures" =
     Ok [IZR 3000 * powerRZ 10 (-1); IZR 3000 * powerRZ 10 (-1); IZR 4000 * powerRZ 10 (-1)]%R) /\
  (entry ["times 2 1.0 1 5.0"] "times" (pair_words [("2", "1.0"); ("1", "5.0")]) /\ isFloat "2" = Ok false /\
   Forall2 (fun p v => stoi (fst p) = Ok (fst v) /\ stodR (snd p) = Some (snd v)) [("2", "1.0"); ("1", "5.0")]
     [(2, (IZR 10 * powerRZ 10 (-1))%R); (1, (IZR 50 * powerRZ 10 (-1))%R)]) /\
  setManyParameters stodR ["times 0.5 1.5"] "times" = Ok [IZR 5 * powerRZ 10 (-1); IZR 15 * powerRZ 10 (-1)]%R.
Proof.
  repeat split; try (apply read_entry; [reflexivity|discriminate]). repeat constructor.
Qed.

(* ---------- C10 ---------- *)

(* every other word, from the first and from the second *)
Fixpoint odds (l : list string) : list string := match l with x :: _ :: l' => x :: odds l' | _ => l end.
Fixpoint evens (l : list string) : list string := match l with _ :: x :: l' => x :: evens l' | _ => [] end.
(* counts that fit: none negative, their sum below 2^31 - 1 *)
Definition small_counts (ws : list string) : Prop :=
  forall ns, Forall2 (fun w n => stoi w = Ok n) ws ns -> Forall (fun n => 0 <= n) ns /\ total ns < 2147483647.

Lemma pairs_ind (P : list string -> Prop) : P [] -> (forall a, P [a]) -> (forall a b l, P l -> P (a :: b :: l)) -> forall l, P l.
Proof.
  intros H0 H1 H2 l. enough (G : P l /\ forall a, P (a :: l)) by apply G.
  induction l as [|x l [IH1 IH2]]; [auto|]. split; [apply IH2|]. intros a. apply H2, IH1.
Qed.
Lemma stoi_defined w : match stoi w with Ok _ | Throw _ => True | _ => False end.
Proof.
  unfold stoi. destruct (match skip_blanks w with String _ _ => _ | _ => _ end) as [neg s'].
  destruct (isdigit _); [|exact I]. cbv zeta. destruct (_ && _)%bool; exact I.
Qed.
Lemma u32_of_counts ws ns : Forall2 (fun w n => stoi w = Ok n) ws ns -> Forall (fun n => 0 <= n) ns -> map to_u32 ns = ns.
Proof.
  intros H Hn. induction H as [|w n ws ns H _ IH]; [reflexivity|]. inversion Hn; subst. cbn. rewrite IH by assumption.
  apply stoi_range in H. rewrite to_u32_small by lia. reflexivity.
Qed.

Section Any.
Context {T : Type} {N : Num T}.
Variable stod_opt : string -> option T.
Notation no_ub m := (match m with UB _ => False | _ => True end).

Lemma bind_no_ub {A B} (m : res A) (f : A -> res B) : no_ub m -> (forall a, m = Ok a -> no_ub (f a)) -> no_ub (bind m f).
Proof. destruct m; intros H1 H2; cbn; try exact I; [apply H2; reflexivity|exact H1]. Qed.
Lemma stod_no_ub w : no_ub (stod stod_opt w).
Proof. unfold stod. destruct (stod_opt w); exact I. Qed.
Lemma stoi_no_ub w : no_ub (stoi w).
Proof. pose proof (stoi_defined w). destruct (stoi w); try exact I. contradiction. Qed.

Lemma values_counts_wp l : match values_counts stod_opt l with
  | Ok (xs, us) => exists ns, us = map to_u32 ns /\ Forall2 (fun w n => stoi w = Ok n) (evens l) ns /\ (length ns <= length xs)%nat
  | UB _ => False | _ => True end.
Proof.
  induction l as [|a|a b l IH] using pairs_ind; cbn [values_counts].
  - exists []. split; [reflexivity|]. split; [constructor|]. auto with arith.
  - unfold stod. destruct (stod_opt a); cbn; [|exact I]. exists []. split; [reflexivity|]. split; [constructor|]. auto with arith.
  - unfold stod. destruct (stod_opt a); cbn [bind]; [|exact I].
    pose proof (stoi_defined b) as D. destruct (stoi b) as [n| |m|m] eqn:E; try contradiction; cbn [bind]; [|exact I].
    destruct (values_counts stod_opt l) as [[xs us]| | |]; try contradiction; cbn [bind]; try exact I.
    destruct IH as (ns & -> & H1 & H2). exists (n :: ns). cbn. repeat split; [|lia]. constructor; assumption.
Qed.
Lemma counts_spans_wp l : match counts_spans stod_opt l with
  | Ok (us, xs) => exists ns, us = map to_u32 ns /\ Forall2 (fun w n => stoi w = Ok n) (odds l) ns /\
                     (Nat.even (length l) = true -> length xs = length ns)
  | UB _ => False | _ => True end.
Proof.
  induction l as [|a|a b l IH] using pairs_ind; cbn [counts_spans].
  - exists []. split; [reflexivity|]. split; [constructor|]. auto with arith.
  - pose proof (stoi_defined a) as D. destruct (stoi a) as [n| |m|m] eqn:E; try contradiction; cbn; [|exact I].
    exists [n]. repeat split; [|discriminate]. constructor; [exact E|constructor].
  - pose proof (stoi_defined a) as D. destruct (stoi a) as [n| |m|m] eqn:E; try contradiction; cbn [bind]; [|exact I].
    unfold stod. destruct (stod_opt b); cbn [bind]; [|exact I].
    destruct (counts_spans stod_opt l) as [[us xs]| | |]; try contradiction; cbn [bind]; try exact I.
    destruct IH as (ns & -> & H1 & H2). exists (n :: ns). cbn. repeat split; [constructor; assumption|].
    intros Hl. rewrite H2 by exact Hl. reflexivity.
Qed.
Lemma all_floats_no_ub l : Forall (fun w => no_ub (isFloat w)) l -> no_ub (all_floats l).
Proof.
  induction 1 as [|w l H _ IH]; cbn; [exact I|]. destruct (isFloat w) as [[|]| | |]; cbn; auto.
Qed.
Lemma stods_no_ub l : no_ub (stods stod_opt l).
Proof.
  induction l as [|w l IH]; cbn; [exact I|]. unfold stod. destruct (stod_opt w); cbn; [|exact I].
  destruct (stods stod_opt l); cbn; auto.
Qed.

Theorem C10_expand_partial : forall values,
  (* every word can be classified, see C11 *)
  Forall (fun w => no_ub (isFloat w)) values ->
  (* if the first word is a floating literal the counts behind the values fit,
     otherwise the words are whole pairs and the counts in front of the spans fit *)
  (forall w rest, values = w :: rest -> isFloat w = Ok true -> small_counts (evens values)) ->
  (forall w rest, values = w :: rest -> isFloat w = Ok false ->
     Nat.even (length values) = true /\ small_counts (odds values)) ->
  no_ub (expand stod_opt values).
Proof.
  intros values Hc Hs Hs'. unfold expand. apply bind_no_ub; [apply all_floats_no_ub, Hc|].
  intros [|] Ef; [apply stods_no_ub|]. destruct values as [|w rest]; [discriminate Ef|].
  inversion Hc as [|? ? Hw _]; subst. destruct (isFloat w) as [f| | |] eqn:Ew; cbn [bind]; try exact I; try contradiction.
  destruct f.
  - pose proof (Hs w rest eq_refl Ew) as Hsm.
    pose proof (values_counts_wp (w :: rest)) as V.
    destruct (values_counts stod_opt (w :: rest)) as [[xs us]| | |]; try contradiction; cbn [bind]; try exact I.
    destruct V as (ns & -> & V1 & V2). destruct (Hsm ns V1) as [S1 S2]. rewrite (u32_of_counts _ _ V1 S1).
    destruct (wp_ok _ _ (repeated_wp xs ns S1 ltac:(lia) V2)) as (v & -> & _). exact I.
  - pose proof (Hs' w rest eq_refl Ew) as Hsm.
    destruct Hsm as [He Hsm]. pose proof (counts_spans_wp (w :: rest)) as V.
    destruct (counts_spans stod_opt (w :: rest)) as [[us xs]| | |]; try contradiction; cbn [bind]; try exact I.
    destruct V as (ns & -> & V1 & V2). destruct (Hsm ns V1) as [S1 S2]. rewrite (u32_of_counts _ _ V1 S1).
    assert (H0 : 0 <= total ns) by (rewrite <- cum_all; apply cum_nonneg, S1).
    destruct (wp_ok _ _ (ramp_wp resize_zero ns xs S1 S2 (V2 He)
      ltac:(unfold resize_zero; destruct (Z.ltb_spec (total ns + 1) 0); [lia|reflexivity]))) as (v & -> & _). exact I.
Qed.

(* Without these conditions it is undefined, for whole families of lists. *)
Theorem C10_expand_refuted :
  (* floats up to a word that ends in its only dot, such as 5. *)
  (forall fs a rest, Forall (fun w => isFloat w = Ok true) fs -> free (fun c => Ascii.eqb c ".") a ->
     is_ub (expand stod_opt (fs ++ (a ++ ".")%string :: rest)%list)) /\
  (* (count, span) pairs and one more count *)
  (forall c0 s0 ps vs c n, isFloat c0 = Ok false ->
     Forall2 (fun p v => stoi (fst p) = Ok (fst v) /\ stod_opt (snd p) = Some (snd v)) ((c0, s0) :: ps) vs -> stoi c = Ok n ->
     Forall (fun v => 0 <= fst v) vs -> 0 <= n -> total (map fst vs) + n < 2147483647 ->
     is_ub (expand stod_opt (pair_words ((c0, s0) :: ps) ++ [c])%list)) /\
  (* a negative count compensated by a positive one *)
  (forall v0 x0 v1 x1, isFloat v0 = Ok true -> stod_opt v0 = Some x0 -> stod_opt v1 = Some x1 ->
     is_ub (expand stod_opt [v0; "-1"; v1; "1"])).
Proof.
  split; [|split].
  - intros fs a rest Hf Ha. unfold expand. apply is_ub_bind_l.
    induction Hf as [|w fs Hw _ IH].
    + cbn [List.app all_floats]. apply is_ub_bind_l.
      assert (I' : forall r, index 0 "." (a ++ String "." r) = Some (String.length a)).
      { clear rest. revert Ha. unfold free. induction a as [|ch a IH]; intros Ha r; [destruct r; reflexivity|].
        cbn in Ha. apply andb_true_iff in Ha. destruct Ha as [H1 H2]. cbn [append index].
        destruct (ascii_dec "." ch) as [E|E].
        - subst ch. discriminate H1.
        - cbn [prefix]. destruct (ascii_dec "." ch); [contradiction|]. rewrite (IH H2 r). reflexivity. }
      unfold isFloat. destruct (String.eqb_spec (a ++ ".") "") as [F|_]; [destruct a; discriminate F|].
      rewrite I'. rewrite append_length. cbn [String.length].
      destruct (Nat.leb_spec (String.length a + 2) (String.length a + 1)); [lia|exact I].
    + cbn [List.app all_floats]. rewrite Hw. exact IH.
  - intros c0 s0 ps vs c n F H Hc Hn Hn0 Ht. unfold expand.
    destruct vs as [|v vs]; [inversion H|].
    cbn [pair_words flat_map List.app fst snd all_floats] in *. rewrite F. cbn [bind].
    change (c0 :: s0 :: flat_map (fun p => [fst p; snd p]) ps ++ [c])%list with (pair_words ((c0, s0) :: ps) ++ [c])%list.
    rewrite (counts_spans_odd stod_opt _ _ c n H Hc). cbn [bind]. apply is_ub_bind_l.
    set (w := v :: vs) in *.
    assert (Hn' : Forall (fun n => 0 <= n) (map fst w)).
    { apply Forall_forall. intros z Hi. apply in_map_iff in Hi. destruct Hi as (w0 & <- & Hw).
      rewrite Forall_forall in Hn. exact (Hn w0 Hw). }
    assert (E : map to_u32 (map fst w) = map fst w).
    { apply (map_u32_id (fun p z => stoi (fst p) = Ok z) ((c0, s0) :: ps)); [|intros a z Hz; apply stoi_range in Hz; lia|exact Hn'].
      clear -H. induction H as [|? ? ? ? [H _] _ IH]; constructor; [exact H|exact IH]. }
    rewrite E. pose proof (stoi_range _ _ Hc). rewrite (to_u32_small n) by lia.
    pose proof (ramp_missing_span resize_zero (map fst w ++ [n])%list (map snd w)) as U.
    assert (A : accumulate (0 :: map fst w ++ [n]) = total (map fst w) + n).
    { assert (Tt : forall l, total (l ++ [n])%list = total l + n).
      { unfold total. induction l as [|z l IH]; cbn; [lia|]. rewrite IH. lia. }
      rewrite accumulate_ok.
      - change (total (0 :: map fst w ++ [n])%list) with (0 + total (map fst w ++ [n])%list). rewrite Tt. lia.
      - constructor; [lia|]. apply Forall_app. split; [exact Hn'|]. constructor; [lia|constructor].
      - change (total (0 :: map fst w ++ [n])%list) with (0 + total (map fst w ++ [n])%list). rewrite Tt. lia. }
    assert (Hpos : 0 <= total (map fst w)) by (rewrite <- cum_all; apply cum_nonneg, Hn').
    assert (U1 : (length (map snd w) < length (map fst w ++ [n])%list)%nat) by (rewrite app_length, !map_length; cbn; lia).
    assert (U2 : forall k, match resize_zero (T := T) k with Ok _ | UB _ | Throw _ => True | Exit _ => False end).
    { intros k. unfold resize_zero. destruct (_ <? _); exact I. }
    specialize (U U1 U2). rewrite A in U. cbn [List.app] in U |- *.
    destruct (ramp _ _ _) as [| |m|]; try contradiction; [|exact I].
    destruct U as [m' U]. unfold resize_zero in U.
    destruct (Z.ltb_spec (total (map fst w) + n + 1) 0); [lia|discriminate U].
  - intros v0 x0 v1 x1 F H0 H1. unfold expand. cbn [all_floats]. rewrite F. cbn [bind].
    change (isFloat "-1") with (Ok false : res bool). cbn [bind values_counts]. unfold stod. rewrite H0. cbn [bind].
    change (stoi "-1") with (Ok (-1)). cbn [bind]. rewrite H1. cbn [bind]. change (stoi "1") with (Ok 1). cbn [bind].
    apply is_ub_bind_l. unfold repeated. change (accumulate [to_u32 (-1); to_u32 1]) with 0.
    change (resize_zero (T := T) 0) with (Ok (vzeros (T := T) 0)). cbn [bind].
    apply is_ub_bind_l.
    assert (B : forall (i : Z) (st : vec T * Z), ok_or_ub (n <- lget [to_u32 (-1); to_u32 1] i ;;
      zfor 0 n (fun _ st => let '(r, idx) := st in x <- lget [x0; x1] i ;; r <- vset r idx x ;; Ok (r, idx + 1)) st)).
    { intros i st. apply ok_or_ub_bind; [apply lget_ok_or_ub|]. intros k. apply zfor_ok_or_ub. intros j [r idx].
      apply ok_or_ub_bind; [apply lget_ok_or_ub|]. intros x. apply ok_or_ub_bind; [apply vset_ok_or_ub|intros; exact I]. }
    change (zlen [to_u32 (-1); to_u32 1]) with (0 + 2).
    change (zfor 0 (0 + 2)) with (fun body (s : vec T * Z) => zfor 0 2 body s). cbv beta.
    rewrite zfor_step by lia.
    apply is_ub_bind_l. rewrite (lget_ok [to_u32 (-1); to_u32 1] 0 0) by (unfold zlen; cbn; lia). cbn [bind nth Z.to_nat].
    rewrite zfor_step by (unfold to_u32; vm_compute; reflexivity).
    apply is_ub_bind_l. rewrite (lget_ok [x0; x1] 0 x0) by (unfold zlen; cbn; lia). cbn [bind].
    rewrite vset_ub; [exact I|]. right. cbn. lia.
Qed.
End Any.
Print Assumptions C10_expand_partial.
Print Assumptions C10_expand_refuted.
Example C10_example :
  let values := ["300.0"; "2"; "400.0"; "3"] in
  Forall (fun w => match isFloat w with UB _ => False | _ => True end) values /\ isFloat "300.0" = Ok true /\
  small_counts (evens values) /\
  (let times := ["2"; "1.0"; "4"; "8.0"] in Nat.even (length times) = true /\ small_counts (odds times)) /\
  is_ub (expand stodR ["300.0"; "5."]) /\ is_ub (expand stodR ["2"; "1.0"; "3"]).
Proof.
  assert (S : forall a b n m, stoi a = Ok n -> stoi b = Ok m -> 0 <= n -> 0 <= m -> n + m < 2147483647 -> small_counts [a; b]).
  { intros a b n m Ha Hb Hn Hm Hs ns H. inversion H as [|? x ? ? H1 H2]; subst. inversion H2 as [|? y ? ? H3 H4]; subst.
    inversion H4; subst. rewrite Ha in H1. rewrite Hb in H3. injection H1 as <-. injection H3 as <-.
    split; [repeat constructor; assumption|]. cbn. lia. }
  cbv zeta. split; [repeat constructor|]. split; [reflexivity|].
  split; [apply (S "2" "3" 2 3); try reflexivity; lia|].
  split; [split; [reflexivity|apply (S "2" "4" 2 4); try reflexivity; lia]|]. split; exact I.
Qed.
