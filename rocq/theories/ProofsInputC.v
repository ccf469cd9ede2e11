(* Lemmas on setMesh and on the expansion of value lists. *)
From Coq Require Import String Ascii ZArith List Bool Lia Arith.
From Verif Require Import Base BaseLemmas ModelNumTools ModelMesh ModelReactor ModelText ModelInput
  ProofsInput ProofsInputB.
Import ListNotations.
Local Open Scope string_scope.
Local Open Scope Z_scope.

(* a region as it is meant: count, thickness, material *)
Definition blocks {A} (xs : list A) (ns : list Z) : list A :=
  concat (map (fun p => repeat (fst p) (Z.to_nat (snd p))) (combine xs ns)).

Lemma blocks_length {A} (xs : list A) ns : Forall (fun n => 0 <= n) ns -> length xs = length ns ->
  Z.of_nat (length (blocks xs ns)) = total ns.
Proof.
  intros H. revert xs. induction H as [|n ns Hn Hns IH]; intros [|x xs] L; cbn in L; try lia; [reflexivity|].
  unfold blocks in *. cbn [combine map concat fst snd total fold_right]. rewrite app_length, repeat_length.
  specialize (IH xs ltac:(lia)). unfold total in IH. lia.
Qed.
Lemma blocks_nth {A} (xs : list A) ns d : Forall (fun n => 0 <= n) ns -> length xs = length ns ->
  forall k j, (k < length ns)%nat -> 0 <= j < nth k ns 0 ->
  nth (Z.to_nat (cum ns k + j)) (blocks xs ns) d = nth k xs d.
Proof.
  intros H. revert xs. induction H as [|n ns Hn Hns IH]; intros [|x xs] L k j Hk Hj; cbn in L, Hk; try lia.
  unfold blocks in *. cbn [combine map concat fst snd].
  destruct k as [|k].
  - cbn in Hj. rewrite cum_0, app_nth1 by (rewrite repeat_length; lia). rewrite (nth_indep _ d x) by (rewrite repeat_length; lia). apply nth_repeat.
  - change (nth (S k) (n :: ns) 0) with (nth k ns 0) in Hj.
    change (cum (n :: ns) (S k)) with (n + cum ns k).
    pose proof (cum_nonneg ns k Hns). rewrite app_nth2 by (rewrite repeat_length; lia). rewrite repeat_length.
    replace (Z.to_nat (n + cum ns k + j) - Z.to_nat n)%nat with (Z.to_nat (cum ns k + j)) by lia.
    cbn [nth]. apply IH; [lia|lia|exact Hj].
Qed.
(* every position lies in one block *)
Lemma blocks_cover ns : Forall (fun n => 0 <= n) ns -> forall i, 0 <= i < total ns ->
  exists k j, (k < length ns)%nat /\ 0 <= j < nth k ns 0 /\ i = cum ns k + j.
Proof.
  induction 1 as [|n ns Hn Hns IH]; intros i Hi; cbn in Hi; [lia|].
  destruct (Z_lt_ge_dec i n) as [L|L].
  - exists 0%nat, i. cbn. repeat split; try lia.
  - destruct (IH (i - n)) as (k & j & Hk & Hj & E); [unfold total; lia|].
    exists (S k), j. cbn [length nth]. repeat split; try lia. change (cum (n :: ns) (S k)) with (n + cum ns k). lia.
Qed.
Lemma list_of_vec_blocks {A} (v : vec A) (xs : list A) ns d : Forall (fun n => 0 <= n) ns -> length xs = length ns ->
  vlen v = total ns ->
  (forall k j, (k < length ns)%nat -> 0 <= j < nth k ns 0 -> vat v (cum ns k + j) = nth k xs d) ->
  list_of_vec v = blocks xs ns.
Proof.
  intros Hn L Hv Hp. assert (0 <= total ns) by (rewrite <- cum_all; apply cum_nonneg, Hn).
  apply nth_ext with (d := d) (d' := d).
  - unfold list_of_vec. rewrite map_length, seq_length. pose proof (blocks_length xs ns Hn L). lia.
  - intros i Hi. unfold list_of_vec in Hi. rewrite map_length, seq_length in Hi.
    destruct (blocks_cover ns Hn (Z.of_nat i)) as (k & j & Hk & Hj & E); [lia|].
    unfold list_of_vec. rewrite nth_indep with (d' := vat v (Z.of_nat 0)) by (rewrite map_length, seq_length; lia).
    rewrite (map_nth (fun n => vat v (Z.of_nat n))), seq_nth by lia. cbn [Nat.add].
    replace i with (Z.to_nat (cum ns k + j)) by lia.
    rewrite (blocks_nth xs ns d Hn L k j Hk Hj). rewrite Z2Nat.id by lia. apply Hp; assumption.
Qed.

(* ws are the words behind the first word of the first data line that mentions
   key; whatever follows a % does not belong to them *)
Definition entry (lines : list string) (key : string) (ws : list string) : Prop :=
  exists k line body w, first_in_window key 0 umax (data_lines lines) k line /\
    percent_free body /\ (line = body \/ exists comment, line = body ++ "%" ++ comment) /\
    word_split (lower body) (w :: ws) /\ ws <> [].
Lemma lower_before_percent body line : percent_free body -> (line = body \/ exists comment, line = body ++ "%" ++ comment) ->
  before_percent line = body.
Proof.
  intros F [->|[c ->]]; [apply before_percent_free, F|]. cbn [append]. apply before_percent_app, F.
Qed.
Lemma entry_read lines key ws optional : entry lines key ws -> readManyParameters lines key optional = Ok ws.
Proof.
  intros (k & line & body & w & H1 & H2 & H3 & H4 & H5). unfold readManyParameters.
  rewrite (findKeyword_found lines key 0 umax optional k line H1). cbn [bind].
  unfold splitLine. rewrite before_percent_lower, (lower_before_percent body line H2 H3).
  apply words_spec in H4. rewrite H4. destruct ws; [congruence|reflexivity].
Qed.

Section Lists.
Context {T : Type} {N : Num T}.
Variable mpi : T.
Variable stod_opt : string -> option T.
Notation stod := (stod stod_opt).

Lemma nth_blocks_last {A} (l : list A) : l <> [] -> exists a x, l = (a ++ [x])%list.
Proof. intros H. destruct (exists_last H) as (a & x & E). eauto. Qed.

(* ---------- the values repeated ---------- *)

Lemma repeated_wp (xs : list T) ns :
  Forall (fun n => 0 <= n) ns -> total ns <= 2147483647 -> (length ns <= length xs)%nat ->
  wp (repeated xs ns) (fun v => list_of_vec v = blocks (firstn (length ns) xs) ns).
Proof.
  intros Hn Ht Hl. unfold repeated. rewrite accumulate_ok by assumption.
  assert (H0 : 0 <= total ns) by (rewrite <- cum_all; apply cum_nonneg, Hn).
  unfold resize_zero. destruct (Z.ltb_spec (total ns) 0); [lia|]. cbn [bind].
  apply wp_bind.
  apply (zfor_wp' (fun i (st : vec T * Z) => let '(r, idx) := st in
    vlen r = total ns /\ idx = cum ns (Z.to_nat i) /\
    forall k j, Z.of_nat k < i -> 0 <= j < nth k ns 0 -> vat r (cum ns k + j) = nth k xs n0)).
  - unfold zlen. lia.
  - repeat split; intros; lia.
  - intros i [r idx] Hi (I1 & I2 & I3). unfold zlen in Hi. set (k := Z.to_nat i) in *.
    rewrite (lget_ok ns i 0) by (unfold zlen; lia). cbn [bind]. fold k.
    assert (Hk : (k < length ns)%nat) by lia. pose proof (cum_S ns k Hk) as Hcs.
    pose proof (nth_nonneg ns k Hn) as Hn0. pose proof (cum_nonneg ns k Hn) as Hc0.
    pose proof (cum_mono ns (S k) (length ns) Hn Hk) as Hm. rewrite cum_all in Hm.
    apply (zfor_wp' (fun j (st : vec T * Z) => let '(r, idx) := st in
      vlen r = total ns /\ idx = cum ns k + j /\
      (forall k' j', (k' < k)%nat -> 0 <= j' < nth k' ns 0 -> vat r (cum ns k' + j') = nth k' xs n0) /\
      (forall j', 0 <= j' < j -> vat r (cum ns k + j') = nth k xs n0))).
    + exact Hn0.
    + split; [exact I1|]. split; [lia|]. split; [|intros; lia]. intros k' j' Hk'. apply I3. lia.
    + intros j [r' idx'] Hj (J1 & J2 & J3 & J4).
      rewrite (lget_ok xs i n0) by (unfold zlen; lia). cbn [bind]. fold k.
      rewrite vset_ok by lia. cbn [bind wp]. split; [exact J1|]. split; [lia|]. split.
      * intros k' j' Hk' Hj'. cbn [vat]. destruct (Z.eqb_spec (cum ns k' + j') idx') as [F|_]; [|apply J3; assumption].
        exfalso. pose proof (cum_S ns k' ltac:(lia)). pose proof (cum_mono ns (S k') k Hn Hk'). lia.
      * intros j' Hj'. cbn [vat]. destruct (Z.eqb_spec (cum ns k + j') idx') as [F|F]; [reflexivity|]. apply J4. lia.
    + intros [r' idx'] (J1 & J2 & J3 & J4). split; [exact J1|].
      replace (Z.to_nat (i + 1)) with (S k) by lia. split; [lia|].
      intros k' j' Hk' Hj'. destruct (Nat.eq_dec k' k) as [->|]; [apply J4; exact Hj'|]. apply J3; [lia|exact Hj'].
  - intros [r idx] (I1 & _ & I3). cbn [wp].
    apply (list_of_vec_blocks r _ ns n0 Hn); [rewrite firstn_length; lia|exact I1|].
    intros k j Hk Hj. rewrite (I3 k j) by (auto; unfold zlen; lia).
    rewrite <- (firstn_skipn (length ns) xs) at 1. rewrite app_nth1 by (rewrite firstn_length; lia). reflexivity.
Qed.

(* ---------- conversions ---------- *)

Lemma stods_forall ws xs : Forall2 (fun w x => stod_opt w = Some x) ws xs -> stods stod_opt ws = Ok xs.
Proof.
  induction 1 as [|w x ws xs H _ IH]; cbn; [reflexivity|]. unfold ModelInput.stod. rewrite H. cbn. rewrite IH. reflexivity.
Qed.
Lemma stods_inv ws xs : stods stod_opt ws = Ok xs -> Forall2 (fun w x => stod_opt w = Some x) ws xs.
Proof.
  revert xs. induction ws as [|w ws IH]; intros xs H; cbn in H; [injection H as <-; constructor|].
  unfold ModelInput.stod in H. destruct (stod_opt w) eqn:E; [|discriminate H]. cbn in H.
  apply bind_ok_inv in H. destruct H as (ys & Hy & H). injection H as <-. constructor; [exact E|apply IH, Hy].
Qed.

(* the words of a region list *)
Definition region_words (rs : list (string * string * string)) : list string :=
  flat_map (fun r => let '(c, d, m) := r in [c; d; m]) rs.
Definition reads_region (r : string * string * string) (v : Z * T * string) : Prop :=
  let '(c, d, m) := r in let '(n, x, m') := v in stoi c = Ok n /\ stod_opt d = Some x /\ m = m'.
Definition counts (l : list (Z * T * string)) : list Z := map (fun v => let '(n, _, _) := v in n) l.
Definition widths (l : list (Z * T * string)) : list T := map (fun v => let '(_, x, _) := v in x) l.
Definition names (l : list (Z * T * string)) : list string := map (fun v => let '(_, _, m) := v in m) l.

Lemma stoi_range s n : stoi s = Ok n -> -2147483648 <= n <= 2147483647.
Proof.
  unfold stoi. destruct (match skip_blanks s with String _ _ => _ | _ => _ end) as [neg s'].
  destruct (isdigit _); [|discriminate]. cbv zeta.
  destruct ((-2147483648 <=? _) && (_ <=? 2147483647))%bool eqn:E; [|discriminate].
  apply andb_true_iff in E. rewrite !Z.leb_le in E. intros H. injection H as <-. exact E.
Qed.

Lemma regions_ok rs vs : Forall2 reads_region rs vs ->
  regions stod_opt (region_words rs) = Ok (map to_u32 (counts vs), widths vs, names vs).
Proof.
  induction 1 as [|[[c d] m] [[n x] m'] rs vs (H1 & H2 & H3) _ IH]; [reflexivity|].
  cbn [region_words flat_map List.app regions]. fold (region_words rs).
  rewrite H1. cbn [bind]. unfold ModelInput.stod. rewrite H2. cbn [bind]. rewrite IH. cbn [bind].
  subst. reflexivity.
Qed.
Lemma regions_one_more rs vs c n : Forall2 reads_region rs vs -> stoi c = Ok n ->
  regions stod_opt (region_words rs ++ [c])%list = Ok (map to_u32 (counts vs) ++ [to_u32 n], widths vs, names vs)%list.
Proof.
  intros H Hc. induction H as [|[[c' d] m] [[n' x] m'] rs vs (H1 & H2 & H3) _ IH].
  - cbn. rewrite Hc. reflexivity.
  - cbn [region_words flat_map List.app regions]. fold (region_words rs).
    rewrite H1. cbn [bind]. unfold ModelInput.stod. rewrite H2. cbn [bind]. rewrite IH. cbn [bind]. subst. reflexivity.
Qed.
Lemma regions_two_more rs vs c n d x : Forall2 reads_region rs vs -> stoi c = Ok n -> stod_opt d = Some x ->
  regions stod_opt (region_words rs ++ [c; d])%list = Ok (map to_u32 (counts vs) ++ [to_u32 n], widths vs ++ [x], names vs)%list.
Proof.
  intros H Hc Hd. induction H as [|[[c' d'] m] [[n' x'] m'] rs vs (H1 & H2 & H3) _ IH].
  - cbn. rewrite Hc. cbn [bind]. unfold ModelInput.stod. rewrite Hd. reflexivity.
  - cbn [region_words flat_map List.app regions]. fold (region_words rs).
    rewrite H1. cbn [bind]. unfold ModelInput.stod. rewrite H2. cbn [bind]. rewrite IH. cbn [bind]. subst. reflexivity.
Qed.

(* ---------- setMesh ---------- *)

Lemma volumes_total (ms : mesh T) dim : 1 <= vlen (ms_bounds ms) -> wp (getVolumes mpi ms dim) (fun _ => True).
Proof.
  intros H. unfold getVolumes. destruct (ms_geom ms); [exact I| | |];
    unfold slab_volumes, cyl_volumes, sph_volumes; apply wp_bind;
    (apply (zfor_wp' (fun i (v : vec T) => vlen v = vlen (ms_bounds ms) - 1)); [lia|reflexivity| |intros; exact I]);
    intros i v Hi Hv; rewrite !vget_ok by lia; cbn [bind]; rewrite vset_ok by lia; exact Hv.
Qed.
Lemma volumes_ok_or_ub (ms : mesh T) dim : ok_or_ub (getVolumes mpi ms dim).
Proof.
  unfold getVolumes. destruct (ms_geom ms); [exact I| | |];
    unfold slab_volumes, cyl_volumes, sph_volumes; (apply ok_or_ub_bind; [|intros; exact I]);
    apply zfor_ok_or_ub; intros i v;
    repeat (apply ok_or_ub_bind; [apply vget_ok_or_ub|intros]); apply vset_ok_or_ub.
Qed.
Lemma middle_total (ms : mesh T) : 1 <= vlen (ms_bounds ms) -> wp (getMeshMiddlePoints ms) (fun _ => True).
Proof.
  intros H. unfold getMeshMiddlePoints.
  apply (zfor_wp' (fun i (v : vec T) => vlen v = vlen (ms_bounds ms) - 1)); [lia|reflexivity| |intros; exact I].
  intros i v Hi Hv. rewrite !vget_ok by lia. cbn [bind]. rewrite vset_ok by lia. exact Hv.
Qed.

Lemma createMaterials_wp (nms : list string) (ms : mesh T) : zlen nms = ms_cells ms ->
  wp (createMaterials nms ms) (fun ms' => ms' = with_mats ms (map newMaterial nms)).
Proof.
  intros H. unfold createMaterials. apply wp_bind. unfold zlen in H.
  apply (zfor_wp' (fun i (l : list (material T)) => length l = length nms /\
     forall k, Z.of_nat k < i -> nth k l (newMaterial "") = newMaterial (nth k nms ""))).
  - lia.
  - split; [rewrite repeat_length; lia|intros; lia].
  - intros i l Hi [L1 L2]. rewrite (lget_ok nms i "") by (unfold zlen; lia). cbn [bind].
    rewrite lset_ok by (unfold zlen; lia). cbn [wp]. split; [rewrite list_upd_length; exact L1|].
    intros k Hk. rewrite nth_list_upd by lia. destruct (Nat.eqb_spec k (Z.to_nat i)) as [->|F]; [reflexivity|].
    apply L2. lia.
  - intros l [L1 L2]. cbn [wp]. f_equal. apply nth_ext with (d := newMaterial "") (d' := newMaterial "").
    + rewrite map_length. exact L1.
    + intros k Hk. rewrite L2 by lia. symmetry.
      rewrite <- (map_nth newMaterial). reflexivity.
Qed.

(* a word printStrings accepts: it starts with a letter or reads as a number *)
Definition printable (s : string) : Prop := isString s = true \/ stod_opt s <> None.
Lemma printStrings_ok l : Forall printable l -> printStrings stod_opt l = Ok tt.
Proof.
  unfold printStrings. induction 1 as [|s l H _ IH]; cbn; [reflexivity|]. unfold ModelInput.stod.
  destruct H as [->|H]; [exact IH|]. destruct (stod_opt s); [|congruence]. destruct (isString s); exact IH.
Qed.
Lemma blocks_forall {A} (P : A -> Prop) xs ns : Forall P xs -> Forall P (blocks xs ns).
Proof.
  intros H. revert ns. induction H as [|x xs Hx Hxs IH]; intros [|n ns]; try constructor.
  unfold blocks in *. cbn. apply Forall_app. split; [|apply IH].
  apply Forall_forall. intros y Hy. apply repeat_spec in Hy. subst. exact Hx.
Qed.

Lemma combine_snoc {A B} (l : list A) (l' : list B) x y : length l = length l' ->
  combine (l ++ [x])%list (l' ++ [y])%list = (combine l l' ++ [(x, y)])%list.
Proof. revert l'. induction l as [|a l IH]; intros [|b l'] H; cbn in *; try lia; [reflexivity|]. rewrite IH by lia. reflexivity. Qed.
(* the loop pushing the material names *)
Lemma names_wp ns (mts : list string) (init : list string) :
  Forall (fun n => 0 <= n) ns -> length mts = length ns ->
  wp (zfor 1 (zlen (0 :: ns)) (fun i names =>
      n <- lget (0 :: ns) i ;;
      zfor 0 n (fun _ names => m <- lget mts (i - 1) ;; Ok (names ++ [m])%list) names) init)
     (fun l => l = init ++ blocks mts ns)%list.
Proof.
  intros Hn L.
  assert (Z0 : zlen (0 :: ns) = 1 + Z.of_nat (length ns)) by (unfold zlen; cbn [length]; lia).
  apply (zfor_wp' (fun i l => l = init ++ blocks (firstn (Z.to_nat (i - 1)) mts) (firstn (Z.to_nat (i - 1)) ns))%list).
  - lia.
  - cbn. rewrite app_nil_r. reflexivity.
  - intros i l Hi ->. set (k := Z.to_nat (i - 1)). assert (Hk : (k < length ns)%nat) by (unfold k; lia).
    rewrite (lget_ok (0 :: ns) i 0) by lia. cbn [bind].
    replace (nth (Z.to_nat i) (0 :: ns) 0) with (nth k ns 0)
      by (unfold k; replace (Z.to_nat i) with (S (Z.to_nat (i - 1))) by lia; reflexivity).
    pose proof (nth_nonneg ns k Hn) as Hn0.
    apply (zfor_wp' (fun j l => l = init ++ blocks (firstn k mts) (firstn k ns) ++ repeat (nth k mts "") (Z.to_nat j))%list).
    + exact Hn0.
    + cbn. rewrite app_nil_r. reflexivity.
    + intros j l Hj ->. rewrite (lget_ok mts (i - 1) "") by (unfold zlen; lia). cbn [bind wp]. fold k.
      rewrite <- !app_assoc. do 2 f_equal. replace (Z.to_nat (j + 1)) with (Z.to_nat j + 1)%nat by lia.
      rewrite repeat_app. reflexivity.
    + intros l ->. replace (Z.to_nat (i + 1 - 1)) with (S k) by (unfold k; lia). f_equal.
      rewrite (firstn_S mts k "") by lia. rewrite (firstn_S ns k 0) by lia.
      unfold blocks. rewrite combine_snoc by (rewrite !firstn_length; lia).
      rewrite map_app, concat_app. cbn. rewrite app_nil_r. reflexivity.
  - intros l ->. replace (Z.to_nat (zlen (0 :: ns) - 1)) with (length ns) by lia.
    rewrite firstn_all, <- L, firstn_all. reflexivity.
Qed.

Lemma setMesh_wp inp rs vs :
  readManyParameters (in_lines inp) "mesh" false = Ok (region_words rs) ->
  Forall2 reads_region rs vs ->
  Forall (fun n => 0 <= n) (counts vs) -> total (counts vs) < 2147483647 ->
  in_map inp = [] -> Forall printable (names vs) ->
  wp (setMesh mpi stod_opt inp) (fun inp' =>
    exists b, vlen b = total (counts vs) + 1 /\
      (forall k j, (k < length vs)%nat -> 0 <= j < nth k (counts vs) 0 + extra (counts vs) k ->
         vat b (cum (counts vs) k + j) = point (counts vs) (widths vs) k j) /\
      in_lines inp' = in_lines inp /\ in_solvers inp' = in_solvers inp /\ in_plots inp' = in_plots inp /\
      in_map inp' = blocks (names vs) (counts vs) /\
      in_list inp' = unique_strings (sort_strings (names vs)) /\
      in_rx inp' = with_mesh (with_mats (setBoundaries b (in_mesh inp))
                                (map newMaterial (blocks (names vs) (counts vs)))) (in_rx inp)).
Proof.
  intros Hr H Hn Ht Hmap Hs. unfold setMesh. rewrite Hr. cbn [bind]. rewrite (regions_ok rs vs H). cbn [bind].
  assert (Eu : map to_u32 (counts vs) = counts vs).
  { clear Hr Hs Ht Hmap. unfold counts in *. induction H as [|[[c d] m] [[n x] m'] rs vs (H1 & _) _ IH]; [reflexivity|].
    cbn in *. inversion Hn; subst. rewrite IH by assumption. apply stoi_range in H1. rewrite to_u32_small by lia. reflexivity. }
  rewrite Eu. assert (L1 : length (counts vs) = length vs) by (unfold counts; apply map_length).
  assert (L2 : length (widths vs) = length vs) by (unfold widths; apply map_length).
  assert (L3 : length (names vs) = length vs) by (unfold names; apply map_length).
  assert (H0 : 0 <= total (counts vs)) by (rewrite <- cum_all; apply cum_nonneg, Hn).
  apply wp_bind. eapply wp_mono.
  { apply ramp_wp; [exact Hn|exact Ht|lia|]. unfold eigen_zero. destruct (Z.ltb_spec (total (counts vs) + 1) 0); [lia|reflexivity]. }
  intros b [B1 B2]. cbv beta zeta.
  apply wp_bind. eapply wp_mono; [apply volumes_total; cbn [setBoundaries ms_bounds]; lia|]. intros _ _.
  apply wp_bind. eapply wp_mono; [apply (names_wp (counts vs) (names vs) (in_map inp) Hn); lia|].
  intros nms ->. rewrite Hmap. cbn [List.app].
  assert (Hl : Z.of_nat (length (blocks (names vs) (counts vs))) = total (counts vs)) by (apply blocks_length; [exact Hn|lia]).
  apply wp_bind. eapply wp_mono.
  { apply createMaterials_wp. cbn [setBoundaries ms_cells]. rewrite B1. unfold zlen. lia. }
  intros ms ->. rewrite printStrings_ok by (apply blocks_forall, Hs). cbn [bind].
  apply wp_bind. eapply wp_mono; [apply middle_total; cbn; lia|]. intros _ _. cbn [wp].
  exists b. cbn [in_lines in_solvers in_plots in_map in_list in_rx]. rewrite L1 in B2.
  repeat split; assumption.
Qed.

(* setMesh is undefined when the number of words is not a multiple of 3. *)
Lemma bind_regions_ub inp words r :
  readManyParameters (in_lines inp) "mesh" false = Ok words -> regions stod_opt words = Ok r ->
  setMesh mpi stod_opt inp = (
    let '(ns, xs, mts) := r in
    boundaries <- ramp eigen_zero (0 :: ns) (n0 :: xs) ;;
    let ms := setBoundaries boundaries (in_mesh inp) in
    getVolumes mpi ms "m" ;;;
    names <- zfor 1 (zlen (0 :: ns)) (fun i names =>
      n <- lget (0 :: ns) i ;;
      zfor 0 n (fun _ names => m <- lget mts (i - 1) ;; Ok (names ++ [m])%list) names) (in_map inp) ;;
    ms <- createMaterials names ms ;;
    printStrings stod_opt names ;;;
    getMeshMiddlePoints ms ;;;
    Ok (mkInput (in_lines inp) (with_mesh ms (in_rx inp)) (in_solvers inp) names
          (unique_strings (sort_strings mts)) (in_plots inp))).
Proof. intros H1 H2. unfold setMesh. rewrite H1. cbn [bind]. rewrite H2. destruct r as [[ns xs] mts]. reflexivity. Qed.

Lemma setMesh_one_more inp rs vs c n :
  readManyParameters (in_lines inp) "mesh" false = Ok (region_words rs ++ [c])%list ->
  Forall2 reads_region rs vs -> stoi c = Ok n -> is_ub (setMesh mpi stod_opt inp).
Proof.
  intros Hr H Hc. rewrite (bind_regions_ub inp _ _ Hr (regions_one_more rs vs c n H Hc)).
  apply is_ub_bind_l.
  pose proof (ramp_missing_span eigen_zero (map to_u32 (counts vs) ++ [to_u32 n])%list (widths vs)) as U.
  destruct (ramp _ _ _) as [| |m|]; cbn in *; try exact I; destruct U as [];
    try (rewrite app_length, map_length; unfold counts, widths; rewrite !map_length; cbn; lia);
    try (intros k; unfold eigen_zero; destruct (_ <? _); exact I).
  unfold eigen_zero in H0. destruct (_ <? _); discriminate H0.
Qed.
Lemma setMesh_two_more inp rs vs c n d x :
  readManyParameters (in_lines inp) "mesh" false = Ok (region_words rs ++ [c; d])%list ->
  Forall2 reads_region rs vs -> stoi c = Ok n -> stod_opt d = Some x -> n <> 0 -> is_ub (setMesh mpi stod_opt inp).
Proof.
  intros Hr H Hc Hd Hn0. rewrite (bind_regions_ub inp _ _ Hr (regions_two_more rs vs c n d x H Hc Hd)).
  apply is_ub_bind; [apply ramp_ok_or_ub|]. intros b _. cbv zeta.
  apply is_ub_bind; [apply volumes_ok_or_ub|]. intros v _.
  apply is_ub_bind_l. set (ns := (map to_u32 (counts vs) ++ [to_u32 n])%list).
  assert (Lns : length ns = S (length vs)) by (unfold ns, counts; rewrite app_length, !map_length; cbn; lia).
  assert (B : forall i names', ok_or_ub (n <- lget (0 :: ns) i ;;
      zfor 0 n (fun _ l => m <- lget (names vs) (i - 1) ;; Ok (l ++ [m])%list) names')).
  { intros i l. apply ok_or_ub_bind; [apply lget_ok_or_ub|]. intros k. apply zfor_ok_or_ub. intros j l'.
    apply ok_or_ub_bind; [apply lget_ok_or_ub|intros; exact I]. }
  apply (zfor_is_ub _ _ _ (zlen (0 :: ns) - 1)); [exact B|unfold zlen; cbn [length]; lia|].
  intros l. rewrite (lget_ok (0 :: ns) _ 0) by (unfold zlen; cbn [length]; lia). cbn [bind].
  assert (En : nth (Z.to_nat (zlen (0 :: ns) - 1)) (0 :: ns) 0 = to_u32 n).
  { unfold zlen. cbn [length]. replace (Z.to_nat (Z.of_nat (S (length ns)) - 1)) with (S (length vs)) by lia.
    cbn [nth]. unfold ns. rewrite app_nth2 by (unfold counts; rewrite !map_length; lia).
    unfold counts. rewrite !map_length, Nat.sub_diag. reflexivity. }
  rewrite En. apply stoi_range in Hc.
  assert (0 < to_u32 n) by (unfold to_u32; Z.to_euclidean_division_equations; lia).
  apply (zfor_is_ub _ _ _ 0); [|lia|].
  - intros j l'. apply ok_or_ub_bind; [apply lget_ok_or_ub|intros; exact I].
  - intros l'. rewrite lget_ub; [exact I|right]. unfold zlen, names. rewrite map_length. cbn [length]. lia.
Qed.

(* Counts that do not fit an int, or are negative. *)
Lemma setMesh_too_many inp rs vs :
  readManyParameters (in_lines inp) "mesh" false = Ok (region_words rs) ->
  Forall2 reads_region rs vs -> vs <> [] -> 2147483647 <= total (map to_u32 (counts vs)) ->
  is_ub (setMesh mpi stod_opt inp).
Proof.
  intros Hr H Hne Ht. rewrite (bind_regions_ub inp _ _ Hr (regions_ok rs vs H)).
  apply is_ub_bind; [apply ramp_ok_or_ub|]. intros b Hb. exfalso.
  apply ramp_writes in Hb; [lia| |destruct vs; [congruence|discriminate]].
  apply Forall_forall. intros k Hk. apply in_map_iff in Hk. destruct Hk as (z & <- & _). apply to_u32_range.
Qed.

(* ---------- expand ---------- *)

Lemma all_floats_true ws : Forall (fun w => isFloat w = Ok true) ws -> all_floats ws = Ok true.
Proof. induction 1 as [|w ws H _ IH]; cbn; [reflexivity|]. rewrite H. exact IH. Qed.

Definition pair_words (ps : list (string * string)) : list string := flat_map (fun p => [fst p; snd p]) ps.

Lemma values_counts_ok ps vs :
  Forall2 (fun p v => stod_opt (fst p) = Some (fst v) /\ stoi (snd p) = Ok (snd v)) ps vs ->
  values_counts stod_opt (pair_words ps) = Ok (map fst vs, map to_u32 (map snd vs)).
Proof.
  induction 1 as [|[w c] [x n] ps vs [H1 H2] _ IH]; [reflexivity|].
  cbn [pair_words flat_map List.app fst snd values_counts] in *. fold (pair_words ps).
  unfold ModelInput.stod. rewrite H1. cbn [bind]. rewrite H2. cbn [bind]. rewrite IH. reflexivity.
Qed.
Lemma counts_spans_ok ps vs :
  Forall2 (fun p v => stoi (fst p) = Ok (fst v) /\ stod_opt (snd p) = Some (snd v)) ps vs ->
  counts_spans stod_opt (pair_words ps) = Ok (map to_u32 (map fst vs), map snd vs).
Proof.
  induction 1 as [|[w c] [x n] ps vs [H1 H2] _ IH]; [reflexivity|].
  cbn [pair_words flat_map List.app fst snd counts_spans] in *. fold (pair_words ps).
  rewrite H1. cbn [bind]. unfold ModelInput.stod. rewrite H2. cbn [bind]. rewrite IH. reflexivity.
Qed.
Lemma counts_spans_odd ps vs c n :
  Forall2 (fun p v => stoi (fst p) = Ok (fst v) /\ stod_opt (snd p) = Some (snd v)) ps vs -> stoi c = Ok n ->
  counts_spans stod_opt (pair_words ps ++ [c])%list = Ok (map to_u32 (map fst vs) ++ [to_u32 n], map snd vs)%list.
Proof.
  intros H Hc. induction H as [|[w c'] [x n'] ps vs [H1 H2] _ IH].
  - cbn. rewrite Hc. reflexivity.
  - cbn [pair_words flat_map List.app fst snd counts_spans] in *. fold (pair_words ps).
    rewrite H1. cbn [bind]. unfold ModelInput.stod. rewrite H2. cbn [bind]. rewrite IH. reflexivity.
Qed.
Lemma map_u32_id {A} (P : A -> Z -> Prop) (l : list A) (zs : list Z) :
  Forall2 P l zs -> (forall a z, P a z -> z <= 2147483647) -> Forall (fun n => 0 <= n) zs -> map to_u32 zs = zs.
Proof.
  intros H Hr Hn. induction H as [|a z l zs Ha _ IH]; [reflexivity|]. inversion Hn; subst. cbn.
  rewrite IH by assumption. specialize (Hr _ _ Ha). rewrite to_u32_small by lia. reflexivity.
Qed.

Lemma expand_floats ws xs : Forall2 (fun w x => isFloat w = Ok true /\ stod_opt w = Some x) ws xs ->
  expand stod_opt ws = Ok xs.
Proof.
  intros H. unfold expand. rewrite all_floats_true.
  - cbn [bind]. apply stods_forall. clear -H. induction H as [|w x ws xs [_ H] _ IH]; constructor; assumption.
  - clear -H. induction H as [|w x ws xs [H _] _ IH]; constructor; assumption.
Qed.
Lemma expand_pairs p ps v vs :
  isFloat (fst p) = Ok true -> isFloat (snd p) = Ok false ->
  Forall2 (fun p v => stod_opt (fst p) = Some (fst v) /\ stoi (snd p) = Ok (snd v)) (p :: ps) (v :: vs) ->
  Forall (fun n => 0 <= n) (map snd (v :: vs)) -> total (map snd (v :: vs)) <= 2147483647 ->
  expand stod_opt (pair_words (p :: ps)) = Ok (blocks (map fst (v :: vs)) (map snd (v :: vs))).
Proof.
  intros F1 F2 H Hn Ht. unfold expand. destruct p as [w c].
  cbn [pair_words flat_map List.app fst snd all_floats] in *. rewrite F1. cbn [bind]. rewrite F2. cbn [bind].
  change (w :: c :: flat_map (fun p => [fst p; snd p]) ps) with (pair_words ((w, c) :: ps)).
  rewrite (values_counts_ok _ _ H). cbn [bind].
  assert (E : map to_u32 (map snd (v :: vs)) = map snd (v :: vs)).
  { apply (map_u32_id (fun p z => stoi (snd p) = Ok z) ((w, c) :: ps)); [|intros a z Hz; apply stoi_range in Hz; lia|exact Hn].
    clear -H. induction H as [|? ? ? ? [_ H] _ IH]; constructor; [exact H|exact IH]. }
  rewrite E. pose proof (repeated_wp (map fst (v :: vs)) (map snd (v :: vs)) Hn Ht) as W.
  rewrite !map_length in W. specialize (W (le_n _)). apply wp_ok in W. destruct W as (r & -> & W). cbn [bind]. rewrite W.
  rewrite <- (map_length fst (v :: vs)), firstn_all. reflexivity.
Qed.
Lemma expand_ramp p ps v vs :
  isFloat (fst p) = Ok false ->
  Forall2 (fun p v => stoi (fst p) = Ok (fst v) /\ stod_opt (snd p) = Some (snd v)) (p :: ps) (v :: vs) ->
  let ns := map fst (v :: vs) in let xs := map snd (v :: vs) in
  Forall (fun n => 0 <= n) ns -> total ns < 2147483647 ->
  wp (expand stod_opt (pair_words (p :: ps))) (fun l =>
    Z.of_nat (length l) = total ns + 1 /\
    forall k j, (k < length ns)%nat -> 0 <= j < nth k ns 0 + extra ns k ->
      nth (Z.to_nat (cum ns k + j)) l n0 = point ns xs k j).
Proof.
  intros F1 H ns xs Hn Ht. unfold expand. destruct p as [w c].
  cbn [pair_words flat_map List.app fst snd all_floats] in *. rewrite F1. cbn [bind].
  change (w :: c :: flat_map (fun p => [fst p; snd p]) ps) with (pair_words ((w, c) :: ps)).
  rewrite (counts_spans_ok _ _ H). cbn [bind].
  assert (E : map to_u32 (map fst (v :: vs)) = map fst (v :: vs)).
  { apply (map_u32_id (fun p z => stoi (fst p) = Ok z) ((w, c) :: ps)); [|intros a z Hz; apply stoi_range in Hz; lia|exact Hn].
    clear -H. induction H as [|? ? ? ? [H _] _ IH]; constructor; [exact H|exact IH]. }
  rewrite E. fold ns xs. assert (H0 : 0 <= total ns) by (rewrite <- cum_all; apply cum_nonneg, Hn).
  apply wp_bind. eapply wp_mono.
  { apply ramp_wp; [exact Hn|exact Ht|unfold ns, xs; rewrite !map_length; reflexivity|].
    unfold resize_zero. destruct (Z.ltb_spec (total ns + 1) 0); [lia|reflexivity]. }
  intros b [B1 B2]. cbn [wp]. unfold list_of_vec. rewrite map_length, seq_length. split; [lia|].
  intros k j Hk Hj. rewrite <- (B2 k j Hk Hj).
  pose proof (cum_nonneg ns k Hn). pose proof (cum_S ns k Hk). pose proof (cum_mono ns (S k) (length ns) Hn Hk) as M.
  rewrite cum_all in M. assert (extra ns k <= 1) by (unfold extra; destruct (Nat.eqb _ _); lia).
  rewrite nth_indep with (d' := vat b (Z.of_nat 0)) by (rewrite map_length, seq_length; lia).
  rewrite (map_nth (fun n => vat b (Z.of_nat n))), seq_nth by lia. f_equal. lia.
Qed.
End Lists.

(* ---------- sort and unique ---------- *)

Lemma ascii_compare_N a b : Ascii.compare a b = N.compare (N_of_ascii a) (N_of_ascii b).
Proof. reflexivity. Qed.
Lemma leb_cons a s b t : String.leb (String a s) (String b t) = true <->
  (N_of_ascii a < N_of_ascii b)%N \/ (a = b /\ String.leb s t = true).
Proof.
  unfold String.leb. cbn [String.compare]. rewrite ascii_compare_N.
  destruct (N.compare_spec (N_of_ascii a) (N_of_ascii b)) as [E|E|E].
  - assert (a = b) by (rewrite <- (ascii_N_embedding a), <- (ascii_N_embedding b), E; reflexivity). subst.
    destruct (String.compare s t); split; intros H; try tauto; try discriminate;
      destruct H as [H|[_ H]]; auto; lia.
  - split; intros; auto.
  - split; [discriminate|]. intros [H|[-> _]]; lia.
Qed.
Lemma leb_trans s t u : String.leb s t = true -> String.leb t u = true -> String.leb s u = true.
Proof.
  revert t u. induction s as [|a s IH]; intros [|b t] [|c u] H1 H2; try reflexivity; try discriminate.
  rewrite leb_cons in *. destruct H1 as [H1|[-> H1]], H2 as [H2|[-> H2]].
  - left. lia.
  - left. exact H1.
  - left. exact H2.
  - right. split; [reflexivity|]. exact (IH t u H1 H2).
Qed.
Lemma leb_refl s : String.leb s s = true.
Proof. induction s as [|a s IH]; [reflexivity|]. rewrite leb_cons. auto. Qed.

Fixpoint sorted (l : list string) : Prop :=
  match l with [] => True | x :: l' => Forall (fun y => String.leb x y = true) l' /\ sorted l' end.
Lemma insert_in s l m : In m (insert_string s l) <-> m = s \/ In m l.
Proof.
  induction l as [|x l IH]; cbn; [firstorder|]. destruct (String.leb s x); cbn; [firstorder|]. rewrite IH. firstorder.
Qed.
Lemma insert_sorted s l : sorted l -> sorted (insert_string s l).
Proof.
  induction l as [|x l IH]; cbn; [auto|]. intros [H1 H2]. destruct (String.leb s x) eqn:E; cbn.
  - split; [constructor; [exact E|]|auto]. eapply Forall_impl; [|exact H1]. cbn. intros y Hy. exact (leb_trans _ _ _ E Hy).
  - split; [|exact (IH H2)]. apply Forall_forall. intros y Hy. rewrite insert_in in Hy. destruct Hy as [->|Hy].
    + destruct (String.leb_total s x) as [F|F]; [congruence|exact F].
    + rewrite Forall_forall in H1. exact (H1 y Hy).
Qed.
Lemma sort_sorted l : sorted (sort_strings l).
Proof. induction l as [|x l IH]; cbn; [exact I|]. apply insert_sorted, IH. Qed.
Lemma sort_in l m : In m (sort_strings l) <-> In m l.
Proof. induction l as [|x l IH]; cbn; [tauto|]. rewrite insert_in, IH. firstorder. Qed.
Lemma unique_in l m : In m (unique_strings l) <-> In m l.
Proof.
  induction l as [|x l IH]; [reflexivity|]. destruct l as [|y l]; [reflexivity|].
  change (unique_strings (x :: y :: l)) with
    (if String.eqb x y then unique_strings (y :: l) else x :: unique_strings (y :: l)).
  destruct (String.eqb_spec x y) as [->|H].
  - rewrite IH. cbn. tauto.
  - cbn [In] in *. rewrite IH. reflexivity.
Qed.
Lemma unique_nodup l : sorted l -> NoDup (unique_strings l).
Proof.
  induction l as [|x l IH]; intros H; [constructor|]. destruct l as [|y l]; [constructor; [intros []|constructor]|].
  change (unique_strings (x :: y :: l)) with
    (if String.eqb x y then unique_strings (y :: l) else x :: unique_strings (y :: l)).
  destruct H as [H1 H2]. destruct (String.eqb_spec x y) as [->|Hne]; [exact (IH H2)|].
  constructor; [|exact (IH H2)]. rewrite unique_in. intros F. destruct F as [F|F]; [congruence|].
  destruct H2 as [H2 _]. rewrite Forall_forall in H2. specialize (H2 x F).
  inversion H1; subst. apply Hne. apply String.leb_antisym; assumption.
Qed.
Lemma unique_sort_in l m : In m (unique_strings (sort_strings l)) <-> In m l.
Proof. rewrite unique_in. apply sort_in. Qed.
Lemma unique_sort_nodup l : NoDup (unique_strings (sort_strings l)).
Proof. apply unique_nodup, sort_sorted. Qed.

Lemma read_entry lines key ws : readManyParameters lines key false = Ok ws -> ws <> [""] -> entry lines key ws.
Proof.
  intros H Hw. unfold readManyParameters in H.
  destruct (findKeyword_cases lines key 0 umax) as [(k & x & F)|F].
  - rewrite (findKeyword_found lines key 0 umax false k x F) in H. cbn [bind] in H.
    unfold splitLine in H. rewrite before_percent_lower in H.
    destruct (words (lower (before_percent x))) as [|w [|v vs]] eqn:E; [congruence|discriminate H|].
    injection H as <-. apply words_spec in E. exists k, x, (before_percent x), w.
    split; [exact F|]. destruct (percent_split x) as [P|(a & b & P & Ex)].
    + rewrite before_percent_free in * by exact P. repeat split; auto. discriminate.
    + assert (Eb : before_percent x = a) by (rewrite Ex; apply before_percent_app, P). rewrite Eb in *.
      repeat split; auto; [|discriminate]. right. exists b. exact Ex.
  - rewrite (findKeyword_missing lines key 0 umax false F) in H. discriminate H.
Qed.
