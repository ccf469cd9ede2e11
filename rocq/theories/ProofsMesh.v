(* Proofs about geometry, materials and mesh. *)
From Coq Require Import String ZArith List Bool Lia Reals Lra.
From Verif Require Import Base BaseLemmas NumR ModelNumTools ProofsNumTools ModelMesh.
Import ListNotations.
Local Open Scope Z_scope.

(* ---------- generic facts ---------- *)

Section Generic.
Context {T : Type} {N : Num T}.

(* The value of a law: sum of c_i t^i in the order of the code. *)
Definition law_value (c : list T) (t : T) : T :=
  nsum 0 (zlen c) (fun i => nth (Z.to_nat i) c n0 [*] npow t (Z.to_nat i)).

Lemma nsum_up_last n i (f : Z -> T) acc :
  nsum_up (S n) i f acc = nsum_up n i f acc [+] f (i + Z.of_nat n).
Proof.
  revert i acc; induction n as [|n IH]; intros i acc.
  - cbn [nsum_up]. rewrite Z.add_0_r. reflexivity.
  - cbn [nsum_up] in *. rewrite IH. do 2 f_equal. lia.
Qed.

Lemma nsum_last lo hi (f : Z -> T) : lo <= hi -> nsum lo (hi + 1) f = nsum lo hi f [+] f hi.
Proof.
  intros H. unfold nsum. replace (Z.to_nat (hi + 1 - lo)) with (S (Z.to_nat (hi - lo))) by lia.
  rewrite nsum_up_last. do 2 f_equal. lia.
Qed.

Lemma nsum_nil lo hi (f : Z -> T) : hi <= lo -> nsum lo hi f = n0.
Proof. intros H. unfold nsum. replace (Z.to_nat (hi - lo)) with O by lia. reflexivity. Qed.

Lemma poly_calc_law (c : list T) t : poly_calc c t = Ok (law_value c t).
Proof.
  unfold poly_calc.
  assert (W : wp (zfor 0 (zlen c)
     (fun i result => c0 <- lget c i ;; Ok (result [+] c0 [*] npow t (Z.to_nat i))) n0)
     (fun r => r = law_value c t)).
  { eapply (zfor_wp' (fun k r => r = nsum 0 k (fun i => nth (Z.to_nat i) c n0 [*] npow t (Z.to_nat i)))).
    - apply zlen_nonneg.
    - rewrite nsum_nil by lia. reflexivity.
    - intros k r Hk ->. rewrite (lget_ok c k n0) by lia. cbn [bind wp].
      rewrite nsum_last by lia. reflexivity.
    - auto. }
  destruct (wp_ok _ _ W) as [r [H ->]]. exact H.
Qed.

Lemma law_table_wp laws (m : material T) :
  0 <= mt_energies m -> mt_energies m <= zlen laws ->
  wp (law_table laws m) (fun v => vlen v = mt_energies m /\
    forall i, 0 <= i < mt_energies m -> vat v i = law_value (nth (Z.to_nat i) laws []) (mt_temp m)).
Proof.
  intros H0 Hl. unfold law_table.
  eapply wp_mono; [apply (vfill (mt_energies m) 0 (mt_energies m)
     (fun i => law_value (nth (Z.to_nat i) laws []) (mt_temp m))); try lia; auto|].
  - intros i v Hi Hv. rewrite (lget_ok laws i []) by lia. cbn [bind]. rewrite poly_calc_law. reflexivity.
  - cbn beta. intros v [L H]. split; auto. intros i Hi. rewrite H.
    replace ((0 <=? i) && (i <? mt_energies m)) with true by lia. reflexivity.
Qed.

(* Tables that are zero when no law was given. *)
Lemma law_table0_wp laws (m : material T) :
  0 <= mt_energies m -> (laws = [] \/ mt_energies m <= zlen laws) ->
  wp (if 0 <? zlen laws then law_table laws m else Ok (vzeros (mt_energies m)))
     (fun v => vlen v = mt_energies m /\
    forall i, 0 <= i < mt_energies m ->
      vat v i = match laws with [] => n0 | _ => law_value (nth (Z.to_nat i) laws []) (mt_temp m) end).
Proof.
  intros H0 [->|Hl].
  - cbn. split; auto.
  - destruct laws as [|l laws]; [cbn; split; auto|].
    replace (0 <? zlen (l :: laws)) with true by (rewrite zlen_cons; pose proof (zlen_nonneg laws); lia).
    apply law_table_wp; auto.
Qed.

Lemma scatt_wp (m : material T) :
  0 <= mt_energies m -> mt_energies m * mt_energies m <= zlen (mt_scatt m) ->
  wp (getScattMatrix m) (fun r => mrows r = mt_energies m /\ mcols r = mt_energies m /\
    forall i j, 0 <= i < mt_energies m -> 0 <= j < mt_energies m ->
      mat_at r i j = law_value (nth (Z.to_nat (j + i * mt_energies m)) (mt_scatt m) []) (mt_temp m)).
Proof.
  intros H0 Hl. unfold getScattMatrix. set (e := mt_energies m) in *.
  eapply (zfor_wp' (fun k r => mrows r = e /\ mcols r = e /\
    forall i j, 0 <= i < k -> 0 <= j < e ->
      mat_at r i j = law_value (nth (Z.to_nat (j + i * e)) (mt_scatt m) []) (mt_temp m))).
  - lia.
  - repeat split; auto. intros; lia.
  - intros i r Hi [R [C H]].
    eapply (zfor_wp' (fun k r' => mrows r' = e /\ mcols r' = e /\
       (forall a b, 0 <= a < i -> 0 <= b < e ->
          mat_at r' a b = law_value (nth (Z.to_nat (b + a * e)) (mt_scatt m) []) (mt_temp m)) /\
       forall b, 0 <= b < k ->
          mat_at r' i b = law_value (nth (Z.to_nat (b + i * e)) (mt_scatt m) []) (mt_temp m))).
    + lia.
    + repeat split; auto. intros; lia.
    + intros j r' Hj [R' [C' [H1 H2]]].
      rewrite (lget_ok (mt_scatt m) (j + i * e) []) by nia. cbn [bind]. rewrite poly_calc_law. cbn [bind].
      rewrite mset_ok by lia. cbn [wp mrows mcols mat_at]. repeat split; auto.
      * intros a b Ha Hb. replace ((a =? i) && (b =? j)) with false by lia. auto.
      * intros b Hb. rewrite Z.eqb_refl. destruct (b =? j) eqn:E; cbn [andb].
        -- do 2 f_equal. f_equal. lia.
        -- apply H2. lia.
    + intros r' [R' [C' [H1 H2]]]. repeat split; auto.
      intros a b Ha Hb. destruct (Z.eq_dec a i) as [->|]; [apply H2; lia|apply H1; lia].
  - auto.
Qed.

(* A per-cell table. *)
Lemma xs_table_wp (get : material T -> res (vec T)) (ms : mesh T) (g : Z -> Z -> T) d :
  0 <= ms_cells ms -> 0 <= ms_groups ms -> ms_cells ms <= zlen (ms_mats ms) ->
  (forall m, 0 <= m < ms_cells ms ->
     wp (get (nth (Z.to_nat m) (ms_mats ms) d)) (fun v => ms_groups ms <= vlen v /\
        forall i, 0 <= i < ms_groups ms -> vat v i = g i m)) ->
  wp (xs_table get ms) (fun r => mrows r = ms_groups ms /\ mcols r = ms_cells ms /\
     forall i m, 0 <= i < ms_groups ms -> 0 <= m < ms_cells ms -> mat_at r i m = g i m).
Proof.
  intros Hc Hg Hl Hget. unfold xs_table.
  eapply (zfor_wp' (fun k r => mrows r = ms_groups ms /\ mcols r = ms_cells ms /\
     forall i m, 0 <= i < ms_groups ms -> 0 <= m < k -> mat_at r i m = g i m)).
  - lia.
  - repeat split; auto. intros; lia.
  - intros m r Hm [R [C H]]. rewrite (lget_ok (ms_mats ms) m d) by lia. cbn [bind].
    apply wp_bind. eapply wp_mono; [apply Hget; auto|]. cbn beta. intros v [Lv Hv].
    eapply wp_mono; [apply (mfill_col (ms_groups ms) (ms_cells ms) 0 (ms_groups ms) m (vat v)); try lia; auto|].
    + intros i r' Hi R' C'. rewrite vget_ok by lia. reflexivity.
    + cbn beta. intros r' [R' [C' H']]. repeat split; auto. intros i k Hi Hk. rewrite H'.
      destruct (k =? m) eqn:E; cbn [andb].
      * replace ((0 <=? i) && (i <? ms_groups ms)) with true by lia.
        rewrite Hv by auto. f_equal. lia.
      * apply H; lia.
  - auto.
Qed.

(* upd_mat over a prefix of the cells *)
Lemma upd_mats_wp (f : Z -> material T -> material T) (body : Z -> list (material T) -> res (list (material T))) n l0 :
  0 <= n -> n <= zlen l0 ->
  (forall i l, 0 <= i < n -> body i l = upd_mat (f i) i l) ->
  wp (zfor 0 n body l0) (fun l => length l = length l0 /\
    forall i d, (i < length l0)%nat ->
      nth i l d = if (Z.of_nat i <? n) then f (Z.of_nat i) (nth i l0 d) else nth i l0 d).
Proof.
  intros Hn Hl Hb. unfold zlen in *.
  eapply (zfor_wp' (fun k l => length l = length l0 /\
    forall i d, (i < length l0)%nat ->
      nth i l d = if (Z.of_nat i <? k) then f (Z.of_nat i) (nth i l0 d) else nth i l0 d)).
  - lia.
  - split; auto. intros i d Hi. replace (Z.of_nat i <? 0) with false by lia. reflexivity.
  - intros k l Hk [L H]. rewrite Hb by auto. unfold upd_mat.
    assert (exists m0 : material T, True) as [m0 _] by (destruct l0 as [|m0 ?]; [cbn in *; lia|exists m0; auto]).
    rewrite (lget_ok l k m0) by (unfold zlen; lia). cbn [bind].
    rewrite lset_ok by (unfold zlen; lia). cbn [wp]. split; [rewrite list_upd_length; auto|].
    intros i d Hi. rewrite nth_list_upd by lia. destruct (Nat.eqb_spec i (Z.to_nat k)) as [->|Hne].
    + rewrite H by lia. rewrite Z2Nat.id by lia.
      replace (k <? k + 1) with true by (symmetry; apply Z.ltb_lt; lia).
      rewrite Z.ltb_irrefl. f_equal. apply nth_indep. lia.
    + rewrite H by auto. replace (Z.of_nat i <? k + 1) with (Z.of_nat i <? k) by lia. reflexivity.
  - auto.
Qed.

Lemma zfor_ub_at {S} (body : Z -> S -> res S) lo hi k s m :
  lo <= k < hi ->
  (forall i s, lo <= i < k -> exists s', body i s = Ok s') ->
  (forall s, body k s = UB m) ->
  zfor lo hi body s = UB m.
Proof.
  intros Hk Hok Hub. remember (Z.to_nat (k - lo)) as n eqn:En.
  revert lo s Hk Hok En; induction n as [|n IH]; intros lo s Hk Hok En.
  - replace lo with k by lia. rewrite zfor_step by lia. rewrite Hub. reflexivity.
  - rewrite zfor_step by lia. destruct (Hok lo s) as [s' ->]; [lia|]. cbn [bind].
    apply IH; [lia| |lia]. intros i s0 Hi. apply Hok. lia.
Qed.

End Generic.

(* ---------- temperatures and heat sources, any number type ---------- *)

Section Fields.
Context {T : Type} {N : Num T}.
Variable dm : material T.

Lemma getTemperatures_wp (ms : mesh T) dim :
  0 <= ms_cells ms -> ms_cells ms <= zlen (ms_mats ms) ->
  wp (getTemperatures ms dim) (fun v => vlen v = ms_cells ms /\
    forall i, 0 <= i < ms_cells ms ->
      vat v i = let t := mt_temp (nth (Z.to_nat i) (ms_mats ms) dm) in
                if String.eqb dim "C" then t
                else if String.eqb dim "K" then t [+] nlit 27315 100 else t [*] nopp n1).
Proof.
  intros Hc Hl. unfold getTemperatures. apply wp_bind.
  eapply wp_mono; [apply (vfill (ms_cells ms) 0 (ms_cells ms)
     (fun i => mt_temp (nth (Z.to_nat i) (ms_mats ms) dm))); try lia; auto|].
  - intros i v Hi Hv. rewrite (lget_ok (ms_mats ms) i dm) by lia. reflexivity.
  - cbn beta. intros r [L H].
    assert (H' : forall i, 0 <= i < ms_cells ms -> vat r i = mt_temp (nth (Z.to_nat i) (ms_mats ms) dm)).
    { intros i Hi. rewrite H. replace ((0 <=? i) && (i <? ms_cells ms)) with true by lia. reflexivity. }
    destruct (String.eqb dim "C"); [cbn; auto|].
    destruct (String.eqb dim "K"); cbn [wp vlen vat vscale]; split; auto;
      intros i Hi; rewrite H' by auto; reflexivity.
Qed.

Lemma getHeatSources_wp (ms : mesh T) :
  0 <= ms_cells ms -> ms_cells ms <= zlen (ms_mats ms) ->
  wp (getHeatSources ms) (fun v => vlen v = ms_cells ms /\
    forall i, 0 <= i < ms_cells ms -> vat v i = mt_heat (nth (Z.to_nat i) (ms_mats ms) dm)).
Proof.
  intros Hc Hl. unfold getHeatSources.
  eapply wp_mono; [apply (vfill (ms_cells ms) 0 (ms_cells ms)
     (fun i => mt_heat (nth (Z.to_nat i) (ms_mats ms) dm))); try lia; auto|].
  - intros i v Hi Hv. rewrite (lget_ok (ms_mats ms) i dm) by lia. reflexivity.
  - cbn beta. intros r [L H]. split; auto. intros i Hi. rewrite H.
    replace ((0 <=? i) && (i <? ms_cells ms)) with true by lia. reflexivity.
Qed.

Lemma setTemperatures_wp (ts : vec T) (ms : mesh T) :
  0 <= vlen ts -> vlen ts <= zlen (ms_mats ms) ->
  wp (setTemperatures ts ms) (fun ms' =>
    ms_cells ms' = ms_cells ms /\ ms_groups ms' = ms_groups ms /\ ms_bounds ms' = ms_bounds ms /\
    ms_geom ms' = ms_geom ms /\
    length (ms_mats ms') = length (ms_mats ms) /\
    forall i, (i < length (ms_mats ms))%nat ->
      nth i (ms_mats ms') dm =
      if Z.of_nat i <? vlen ts then set_temp (vat ts (Z.of_nat i)) (nth i (ms_mats ms) dm)
      else nth i (ms_mats ms) dm).
Proof.
  intros H0 Hl. unfold setTemperatures. apply wp_bind.
  eapply wp_mono; [apply (upd_mats_wp (fun i => set_temp (vat ts i))); auto|].
  - intros i l Hi. rewrite vget_ok by lia. reflexivity.
  - cbn beta. intros l [L H]. cbn. repeat split; auto.
Qed.

Lemma setHeatSources_wp (ts : vec T) (ms : mesh T) :
  0 <= vlen ts -> vlen ts <= zlen (ms_mats ms) ->
  wp (setHeatSources ts ms) (fun ms' =>
    ms_cells ms' = ms_cells ms /\ ms_groups ms' = ms_groups ms /\ ms_bounds ms' = ms_bounds ms /\
    ms_geom ms' = ms_geom ms /\
    length (ms_mats ms') = length (ms_mats ms) /\
    forall i, (i < length (ms_mats ms))%nat ->
      nth i (ms_mats ms') dm =
      if Z.of_nat i <? vlen ts then set_heat (vat ts (Z.of_nat i)) (nth i (ms_mats ms) dm)
      else nth i (ms_mats ms) dm).
Proof.
  intros H0 Hl. unfold setHeatSources. apply wp_bind.
  eapply wp_mono; [apply (upd_mats_wp (fun i => set_heat (vat ts i))); auto|].
  - intros i l Hi. rewrite vget_ok by lia. reflexivity.
  - cbn beta. intros l [L H]. cbn. repeat split; auto.
Qed.

(* reading back *)
Lemma temperatures_roundtrip (ts : vec T) (ms : mesh T) :
  0 <= vlen ts -> vlen ts <= zlen (ms_mats ms) ->
  0 <= ms_cells ms -> ms_cells ms <= zlen (ms_mats ms) ->
  exists ms' old c k,
    setTemperatures ts ms = Ok ms' /\ getTemperatures ms "C" = Ok old /\
    getTemperatures ms' "C" = Ok c /\ getTemperatures ms' "K" = Ok k /\
    vlen c = ms_cells ms /\ vlen k = ms_cells ms /\
    forall i, 0 <= i < ms_cells ms ->
      vat c i = (if i <? vlen ts then vat ts i else vat old i) /\
      vat k i = vat c i [+] nlit 27315 100.
Proof.
  intros H0 Hl Hc Hcl.
  destruct (wp_ok _ _ (setTemperatures_wp ts ms H0 Hl)) as [ms' [E1 [C1 [_ [_ [_ [L1 H1]]]]]]].
  destruct (wp_ok _ _ (getTemperatures_wp ms "C" Hc Hcl)) as [old [E2 [L2 H2]]].
  assert (Hc' : 0 <= ms_cells ms') by lia.
  assert (Hcl' : ms_cells ms' <= zlen (ms_mats ms')) by (unfold zlen in *; lia).
  destruct (wp_ok _ _ (getTemperatures_wp ms' "C" Hc' Hcl')) as [c [E3 [L3 H3]]].
  destruct (wp_ok _ _ (getTemperatures_wp ms' "K" Hc' Hcl')) as [k [E4 [L4 H4]]].
  exists ms', old, c, k. split; auto. split; auto. split; auto. split; auto.
  split; [congruence|]. split; [congruence|].
  intros i Hi. rewrite C1 in *. rewrite H3, H4 by auto. cbn zeta. cbn [String.eqb Ascii.eqb Bool.eqb].
  unfold zlen in *. rewrite H1 by lia. rewrite Z2Nat.id by lia.
  rewrite H2 by auto. cbn zeta. cbn [String.eqb Ascii.eqb Bool.eqb].
  destruct (i <? vlen ts); split; reflexivity.
Qed.

Lemma setTemperatures_too_many (ts : vec T) (ms : mesh T) :
  zlen (ms_mats ms) < vlen ts -> setTemperatures ts ms = UB "std::vector index".
Proof.
  intros H. unfold setTemperatures.
  assert (G : forall n lo l, 0 <= lo -> zlen l = zlen (ms_mats ms) -> lo + Z.of_nat n = zlen (ms_mats ms) ->
     zfor lo (vlen ts) (fun i l => t <- vget ts i ;; upd_mat (set_temp t) i l) l = UB "std::vector index").
  { induction n as [|n IH]; intros lo l Hlo Hl Hn.
    - rewrite zfor_step by lia. rewrite vget_ok by lia. cbn [bind]. unfold upd_mat.
      rewrite lget_ub by lia. reflexivity.
    - rewrite zfor_step by lia. rewrite vget_ok by lia. cbn [bind]. unfold upd_mat at 1.
      rewrite (lget_ok l lo dm) by lia. cbn [bind]. rewrite lset_ok by lia. cbn [bind].
      apply IH; try lia. unfold zlen in *. rewrite list_upd_length. auto. }
  rewrite (G (length (ms_mats ms)) 0 (ms_mats ms)); auto; unfold zlen; lia.
Qed.

End Fields.

(* ---------- nuclear data, any number type ---------- *)

Section Data.
Context {T : Type} {N : Num T}.
Variable dm : material T.

Lemma table_wp (sel : material T -> list (list T)) (ms : mesh T) :
  0 <= ms_cells ms -> 0 <= ms_groups ms -> ms_cells ms <= zlen (ms_mats ms) ->
  (forall m, 0 <= m < ms_cells ms ->
     let mt := nth (Z.to_nat m) (ms_mats ms) dm in
     mt_energies mt = ms_groups ms /\ ms_groups ms <= zlen (sel mt)) ->
  wp (xs_table (fun mt => law_table (sel mt) mt) ms) (fun r =>
     mrows r = ms_groups ms /\ mcols r = ms_cells ms /\
     forall e m, 0 <= e < ms_groups ms -> 0 <= m < ms_cells ms ->
       mat_at r e m = let mt := nth (Z.to_nat m) (ms_mats ms) dm in
                      law_value (nth (Z.to_nat e) (sel mt) []) (mt_temp mt)).
Proof.
  intros Hc Hg Hl Hm. cbn zeta in *.
  apply (xs_table_wp _ ms (fun e m => law_value (nth (Z.to_nat e) (sel (nth (Z.to_nat m) (ms_mats ms) dm)) [])
     (mt_temp (nth (Z.to_nat m) (ms_mats ms) dm))) dm); auto.
  intros m Hm'. destruct (Hm m Hm') as [He Hs].
  eapply wp_mono; [apply law_table_wp; lia|]. cbn beta. intros v [L H]. split; [lia|].
  intros i Hi. apply H. lia.
Qed.

Lemma table0_wp (sel : material T -> list (list T)) (ms : mesh T) :
  0 <= ms_cells ms -> 0 <= ms_groups ms -> ms_cells ms <= zlen (ms_mats ms) ->
  (forall m, 0 <= m < ms_cells ms ->
     let mt := nth (Z.to_nat m) (ms_mats ms) dm in
     mt_energies mt = ms_groups ms /\ (sel mt = [] \/ ms_groups ms <= zlen (sel mt))) ->
  wp (xs_table (fun mt => if 0 <? zlen (sel mt) then law_table (sel mt) mt else Ok (vzeros (mt_energies mt))) ms) (fun r =>
     mrows r = ms_groups ms /\ mcols r = ms_cells ms /\
     forall e m, 0 <= e < ms_groups ms -> 0 <= m < ms_cells ms ->
       mat_at r e m = let mt := nth (Z.to_nat m) (ms_mats ms) dm in
                      match sel mt with [] => n0
                      | _ => law_value (nth (Z.to_nat e) (sel mt) []) (mt_temp mt) end).
Proof.
  intros Hc Hg Hl Hm. cbn zeta in *.
  apply (xs_table_wp _ ms (fun e m => match sel (nth (Z.to_nat m) (ms_mats ms) dm) with [] => n0
      | _ => law_value (nth (Z.to_nat e) (sel (nth (Z.to_nat m) (ms_mats ms) dm)) [])
     (mt_temp (nth (Z.to_nat m) (ms_mats ms) dm)) end) dm); auto.
  intros m Hm'. destruct (Hm m Hm') as [He Hs].
  eapply wp_mono; [apply law_table0_wp; [lia|destruct Hs; [left; auto|right; lia]]|].
  cbn beta. intros v [L H]. split; [lia|].
  intros i Hi. apply H. lia.
Qed.

Definition scatt_law (ms : mesh T) (i j m : Z) : T :=
  let mt := nth (Z.to_nat m) (ms_mats ms) dm in
  law_value (nth (Z.to_nat (j + i * ms_groups ms)) (mt_scatt mt) []) (mt_temp mt).

Lemma scattMatrices_wp (ms : mesh T) :
  0 <= ms_cells ms -> 0 <= ms_groups ms -> ms_cells ms <= zlen (ms_mats ms) ->
  (forall m, 0 <= m < ms_cells ms ->
     let mt := nth (Z.to_nat m) (ms_mats ms) dm in
     mt_energies mt = ms_groups ms /\ ms_groups ms * ms_groups ms <= zlen (mt_scatt mt)) ->
  wp (getScattMatrices ms) (fun r =>
     td0 r = ms_groups ms /\ td1 r = ms_groups ms /\ td2 r = ms_cells ms /\
     forall i j m, 0 <= i < ms_groups ms -> 0 <= j < ms_groups ms -> 0 <= m < ms_cells ms ->
       t3_at r i j m = scatt_law ms i j m).
Proof.
  intros Hc Hg Hl Hm. cbn zeta in *. unfold getScattMatrices.
  set (e := ms_groups ms) in *.
  set (dims := fun r : ten3 T => td0 r = e /\ td1 r = e /\ td2 r = ms_cells ms).
  eapply (zfor_wp' (fun k r => dims r /\ forall i j m, 0 <= i < e -> 0 <= j < e -> 0 <= m < k ->
       t3_at r i j m = scatt_law ms i j m)).
  - lia.
  - split; [repeat split; auto|]. intros; lia.
  - intros m r Hm' [D H]. rewrite (lget_ok (ms_mats ms) m dm) by lia. cbn [bind].
    destruct (Hm m Hm') as [He Hs].
    apply wp_bind. eapply wp_mono; [apply scatt_wp; rewrite ?He; lia|]. cbn beta. rewrite He.
    intros s [Rs [Cs Hs']].
    eapply (zfor_wp' (fun k r => dims r /\
       (forall i j m', 0 <= i < e -> 0 <= j < e -> 0 <= m' < m -> t3_at r i j m' = scatt_law ms i j m') /\
       forall i j, 0 <= i < k -> 0 <= j < e -> t3_at r i j m = scatt_law ms i j m)).
    + lia.
    + repeat split; try apply D; auto. intros; lia.
    + intros i r1 Hi [D1 [H1 H1']].
      eapply (zfor_wp' (fun k r => dims r /\
       (forall i j m', 0 <= i < e -> 0 <= j < e -> 0 <= m' < m -> t3_at r i j m' = scatt_law ms i j m') /\
       (forall i' j, 0 <= i' < i -> 0 <= j < e -> t3_at r i' j m = scatt_law ms i' j m) /\
       forall j, 0 <= j < k -> t3_at r i j m = scatt_law ms i j m)).
      * lia.
      * repeat split; try apply D1; auto. intros; lia.
      * intros j r2 Hj [D2 [H2 [H2' H2'']]].
        rewrite mget_ok by lia. cbn [bind]. unfold dims in D2. rewrite t3set_ok by lia.
        cbn [wp]. unfold dims. cbn [td0 td1 td2 t3_at].
        repeat split; try apply D2.
        -- intros i' j' m' Hi' Hj' Hm''. replace ((i' =? i) && (j' =? j) && (m' =? m)) with false by lia. auto.
        -- intros i' j' Hi' Hj'. replace ((i' =? i) && (j' =? j) && (m =? m)) with false by lia. auto.
        -- intros j' Hj'. rewrite !Z.eqb_refl. destruct (j' =? j) eqn:E; cbn [andb].
           ++ rewrite Hs' by lia. apply Z.eqb_eq in E. subst j'. reflexivity.
           ++ apply H2''. lia.
      * intros r2 [D2 [H2 [H2' H2'']]]. split; auto. split; auto.
        intros i' j Hi' Hj. destruct (Z.eq_dec i' i) as [->|]; [apply H2''; lia|apply H2'; lia].
    + intros r1 [D1 [H1 H1']]. split; auto. intros i j m' Hi Hj Hm''.
      destruct (Z.eq_dec m' m) as [->|]; [apply H1'; lia|apply H1; lia].
  - intros r [[D1 [D2 D3]] H]. auto.
Qed.

Lemma removal_wp (ms : mesh T) :
  0 <= ms_cells ms -> 0 <= ms_groups ms -> ms_cells ms <= zlen (ms_mats ms) ->
  (forall m, 0 <= m < ms_cells ms ->
     let mt := nth (Z.to_nat m) (ms_mats ms) dm in
     mt_energies mt = ms_groups ms /\ ms_groups ms <= zlen (mt_totXS mt) /\
     ms_groups ms * ms_groups ms <= zlen (mt_scatt mt)) ->
  wp (getRemovalXSs ms) (fun r =>
     mrows r = ms_groups ms /\ mcols r = ms_cells ms /\
     forall e m, 0 <= e < ms_groups ms -> 0 <= m < ms_cells ms ->
       mat_at r e m = let mt := nth (Z.to_nat m) (ms_mats ms) dm in
          law_value (nth (Z.to_nat e) (mt_totXS mt) []) (mt_temp mt) [-] scatt_law ms e e m).
Proof.
  intros Hc Hg Hl Hm. cbn zeta in *. unfold getRemovalXSs.
  apply wp_bind. eapply wp_mono; [apply (table_wp mt_totXS ms); auto|].
  { intros m Hm'. destruct (Hm m Hm') as [A [B C]]. auto. }
  cbn beta zeta. intros tot [Rt [Ct Ht]].
  apply wp_bind. eapply wp_mono; [apply (scattMatrices_wp ms); auto|].
  { intros m Hm'. destruct (Hm m Hm') as [A [B C]]. auto. }
  cbn beta zeta. intros sc [D0 [D1 [D2 Hs]]].
  eapply wp_mono; [apply (mfill_ji (ms_groups ms) (ms_cells ms)
     (fun m i => mat_at tot i m [-] t3_at sc i i m)); auto|].
  - intros m i r Hm' Hi Rr Cr. rewrite mget_ok by lia. cbn [bind]. rewrite t3get_ok by lia. reflexivity.
  - cbn beta. intros r [R [C H]]. repeat split; auto. intros e m He Hm'.
    rewrite H, Ht, Hs by auto. reflexivity.
Qed.

(* ---------- fluxes ---------- *)

Lemma get_modes_wp (get : material T -> mat T) nm (ms : mesh T) :
  0 <= ms_cells ms -> 0 <= ms_groups ms -> 0 <= nm -> ms_cells ms <= zlen (ms_mats ms) ->
  (forall m, 0 <= m < ms_cells ms ->
     let f := get (nth (Z.to_nat m) (ms_mats ms) dm) in ms_groups ms <= mrows f /\ nm <= mcols f) ->
  wp (get_modes get nm ms) (fun r =>
     td0 r = ms_groups ms /\ td1 r = ms_cells ms /\ td2 r = nm /\
     forall e m n, 0 <= e < ms_groups ms -> 0 <= m < ms_cells ms -> 0 <= n < nm ->
       t3_at r e m n = mat_at (get (nth (Z.to_nat m) (ms_mats ms) dm)) e n).
Proof.
  intros Hc Hg Hn Hl Hm. cbn zeta in *. unfold get_modes.
  set (e := ms_groups ms) in *.
  set (F := fun m => get (nth (Z.to_nat m) (ms_mats ms) dm)) in *.
  set (dims := fun r : ten3 T => td0 r = e /\ td1 r = ms_cells ms /\ td2 r = nm).
  eapply (zfor_wp' (fun k r => dims r /\ forall i m n, 0 <= i < e -> 0 <= m < k -> 0 <= n < nm ->
       t3_at r i m n = mat_at (F m) i n)).
  - lia.
  - split; [repeat split; auto|]. intros; lia.
  - intros m r Hm' [D H]. rewrite (lget_ok (ms_mats ms) m dm) by lia. cbn [bind].
    destruct (Hm m Hm') as [Hr Hcl]. fold (F m).
    eapply (zfor_wp' (fun k r => dims r /\
       (forall i m' n, 0 <= i < e -> 0 <= m' < m -> 0 <= n < nm -> t3_at r i m' n = mat_at (F m') i n) /\
       forall i n, 0 <= i < e -> 0 <= n < k -> t3_at r i m n = mat_at (F m) i n)).
    + lia.
    + repeat split; try apply D; auto. intros; lia.
    + intros n r1 Hn' [D1 [H1 H1']].
      eapply (zfor_wp' (fun k r => dims r /\
       (forall i m' n, 0 <= i < e -> 0 <= m' < m -> 0 <= n < nm -> t3_at r i m' n = mat_at (F m') i n) /\
       (forall i n', 0 <= i < e -> 0 <= n' < n -> t3_at r i m n' = mat_at (F m) i n') /\
       forall i, 0 <= i < k -> t3_at r i m n = mat_at (F m) i n)).
      * lia.
      * repeat split; try apply D1; auto. intros; lia.
      * intros i r2 Hi [D2 [H2 [H2' H2'']]].
        unfold F in *. rewrite mget_ok by lia. cbn [bind]. unfold dims in D2. rewrite t3set_ok by lia.
        cbn [wp]. unfold dims. cbn [td0 td1 td2 t3_at].
        repeat split; try apply D2.
        -- intros i' m' n' Hi' Hm'' Hn''. replace ((i' =? i) && (m' =? m) && (n' =? n)) with false by lia. auto.
        -- intros i' n' Hi' Hn''. replace ((i' =? i) && (m =? m) && (n' =? n)) with false by lia. auto.
        -- intros i' Hi'. rewrite !Z.eqb_refl. destruct (i' =? i) eqn:E; cbn [andb].
           ++ apply Z.eqb_eq in E. subst i'. reflexivity.
           ++ apply H2''. lia.
      * intros r2 [D2 [H2 [H2' H2'']]]. split; auto. split; auto.
        intros i n' Hi Hn''. destruct (Z.eq_dec n' n) as [->|]; [apply H2''; lia|apply H2'; lia].
    + intros r1 [D1 [H1 H1']]. split; auto. intros i m' n Hi Hm'' Hn'.
      destruct (Z.eq_dec m' m) as [->|]; [apply H1'; lia|apply H1; lia].
  - intros r [[D1 [D2 D3]] H]. auto.
Qed.

Lemma get_fundamental_wp (get : material T -> mat T) (ms : mesh T) :
  0 <= ms_cells ms -> 0 <= ms_groups ms -> ms_cells ms <= zlen (ms_mats ms) ->
  (forall m, 0 <= m < ms_cells ms ->
     let f := get (nth (Z.to_nat m) (ms_mats ms) dm) in ms_groups ms <= mrows f /\ 1 <= mcols f) ->
  wp (get_fundamental get ms) (fun r =>
     mrows r = ms_groups ms /\ mcols r = ms_cells ms /\
     forall e m, 0 <= e < ms_groups ms -> 0 <= m < ms_cells ms ->
       mat_at r e m = mat_at (get (nth (Z.to_nat m) (ms_mats ms) dm)) e 0).
Proof.
  intros Hc Hg Hl Hm. cbn zeta in *. unfold get_fundamental.
  eapply (zfor_wp' (fun k r => mrows r = ms_groups ms /\ mcols r = ms_cells ms /\
     forall e m, 0 <= e < ms_groups ms -> 0 <= m < k ->
       mat_at r e m = mat_at (get (nth (Z.to_nat m) (ms_mats ms) dm)) e 0)).
  - lia.
  - repeat split; auto. intros; lia.
  - intros m r Hm' [R [C H]]. rewrite (lget_ok (ms_mats ms) m dm) by lia. cbn [bind].
    destruct (Hm m Hm') as [Hr Hcl].
    eapply wp_mono; [apply (mfill_col (ms_groups ms) (ms_cells ms) 0 (ms_groups ms) m
      (fun e => mat_at (get (nth (Z.to_nat m) (ms_mats ms) dm)) e 0)); try lia; auto|].
    + intros i r' Hi R' C'. rewrite mget_ok by lia. reflexivity.
    + cbn beta. intros r' [R' [C' H']]. repeat split; auto. intros i k Hi Hk. rewrite H'.
      destruct (k =? m) eqn:E; cbn [andb].
      * replace ((0 <=? i) && (i <? ms_groups ms)) with true by lia.
        apply Z.eqb_eq in E. subst k. reflexivity.
      * apply H; lia.
  - auto.
Qed.

Lemma setFluxes_wp (set : mat T -> material T -> material T) (t : ten3 T) (ms : mesh T) :
  0 <= td1 t -> td1 t <= zlen (ms_mats ms) ->
  wp (l <- zfor 0 (td1 t) (fun m l => upd_mat (set (chip1 t m)) m l) (ms_mats ms) ;; Ok (with_mats ms l))
  (fun ms' =>
    ms_cells ms' = ms_cells ms /\ ms_groups ms' = ms_groups ms /\ ms_nfwd ms' = ms_nfwd ms /\
    ms_nadj ms' = ms_nadj ms /\
    length (ms_mats ms') = length (ms_mats ms) /\
    forall i, (i < length (ms_mats ms))%nat ->
      nth i (ms_mats ms') dm =
      if Z.of_nat i <? td1 t then set (chip1 t (Z.of_nat i)) (nth i (ms_mats ms) dm)
      else nth i (ms_mats ms) dm).
Proof.
  intros H0 Hl. apply wp_bind.
  eapply wp_mono; [apply (upd_mats_wp (fun i => set (chip1 t i))); auto|].
  cbn beta. intros l [L H]. cbn. repeat split; auto.
Qed.

Definition flux_result (r : res (ten3 T)) (t : ten3 T) : Prop :=
  exists t', r = Ok t' /\ td0 t' = td0 t /\ td1 t' = td1 t /\ td2 t' = td2 t /\
    forall e m n, 0 <= e < td0 t -> 0 <= m < td1 t -> 0 <= n < td2 t -> t3_at t' e m n = t3_at t e m n.

Lemma fluxes_roundtrip (t a : ten3 T) (ms : mesh T) :
  0 <= ms_cells ms -> 0 <= ms_groups ms -> ms_cells ms <= zlen (ms_mats ms) ->
  td0 t = ms_groups ms -> td1 t = ms_cells ms -> td2 t = ms_nfwd ms -> 0 <= ms_nfwd ms ->
  td0 a = ms_groups ms -> td1 a = ms_cells ms -> td2 a = ms_nadj ms -> 0 <= ms_nadj ms ->
  exists ms1 ms2 ms3 ms4,
    setNeutronFluxes t ms = Ok ms1 /\ setAdjointFluxes a ms1 = Ok ms2 /\
    setAdjointFluxes a ms = Ok ms3 /\ setNeutronFluxes t ms3 = Ok ms4 /\
    flux_result (getNeutronFluxes ms1) t /\
    flux_result (getNeutronFluxes ms2) t /\ flux_result (getAdjointFluxes ms2) a /\
    flux_result (getNeutronFluxes ms4) t /\ flux_result (getAdjointFluxes ms4) a.
Proof.
  intros Hc Hg Hl T0 T1 T2 Hf A0 A1 A2 Ha. unfold zlen in *.
  assert (SF : forall ms : mesh T, td1 t <= zlen (ms_mats ms) -> _)
    by (intros ms'; apply (setFluxes_wp set_flux t ms'); lia).
  assert (SA : forall ms : mesh T, td1 a <= zlen (ms_mats ms) -> _)
    by (intros ms'; apply (setFluxes_wp set_adj a ms'); lia).
  destruct (wp_ok _ _ (SF ms ltac:(unfold zlen; lia))) as [ms1 [E1 [c1 [g1 [f1 [a1 [l1 h1]]]]]]].
  destruct (wp_ok _ _ (SA ms1 ltac:(unfold zlen; lia))) as [ms2 [E2 [c2 [g2 [f2 [a2 [l2 h2]]]]]]].
  destruct (wp_ok _ _ (SA ms ltac:(unfold zlen; lia))) as [ms3 [E3 [c3 [g3 [f3 [a3 [l3 h3]]]]]]].
  destruct (wp_ok _ _ (SF ms3 ltac:(unfold zlen; lia))) as [ms4 [E4 [c4 [g4 [f4 [a4 [l4 h4]]]]]]].
  assert (G : forall get nm (u : ten3 T) ms', ms_cells ms' = ms_cells ms -> ms_groups ms' = ms_groups ms ->
     length (ms_mats ms') = length (ms_mats ms) -> 0 <= nm ->
     td0 u = ms_groups ms -> td1 u = ms_cells ms -> td2 u = nm ->
     (forall m, 0 <= m < ms_cells ms -> get (nth (Z.to_nat m) (ms_mats ms') dm) = chip1 u m) ->
     flux_result (get_modes get nm ms') u).
  { intros get nm u ms' Hc' Hg' Hl' Hnm U0 U1 U2 Hget.
    assert (W : wp (get_modes get nm ms') (fun r =>
     td0 r = ms_groups ms' /\ td1 r = ms_cells ms' /\ td2 r = nm /\
     forall e m n, 0 <= e < ms_groups ms' -> 0 <= m < ms_cells ms' -> 0 <= n < nm ->
       t3_at r e m n = mat_at (get (nth (Z.to_nat m) (ms_mats ms') dm)) e n)).
    { apply get_modes_wp; try lia. unfold zlen; lia.
      intros m Hm. rewrite Hget by lia. cbn. lia. }
    destruct (wp_ok _ _ W) as [r [E [D0 [D1 [D2 H]]]]].
    exists r. repeat split; try congruence. intros e m n He Hm Hn. rewrite H by lia.
    rewrite Hget by lia. reflexivity. }
  exists ms1, ms2, ms3, ms4. split; [exact E1|]. split; [exact E2|]. split; [exact E3|]. split; [exact E4|].
  repeat split; apply G; try congruence; try lia; intros m Hm;
    repeat match goal with
    | H : forall i, _ -> nth i (ms_mats ?x) dm = _ |- context [nth _ (ms_mats ?x) dm] => rewrite H by lia
    end; rewrite ?Z2Nat.id by lia;
    repeat match goal with |- context [if ?a <? ?b then _ else _] => replace (a <? b) with true by lia end;
    reflexivity.
Qed.

End Data.

(* ---------- geometry over the reals ---------- *)

Local Open Scope R_scope.

Definition increasing (b : vec R) : Prop :=
  forall i, (0 <= i)%Z -> (i + 1 < vlen b)%Z -> vat b i < vat b (i + 1).

(* volume and lateral surface of the body of radius (or thickness) x *)
Definition body_volume (g : GeomKind) (x : R) : R :=
  match g with SLAB => x | CYLINDER => PI * x ^ 2 | SPHERE => 4 / 3 * PI * x ^ 3 | GeomUNDEFINED => 0 end.
Definition body_surface (g : GeomKind) (x : R) : R :=
  match g with SLAB => 1 | CYLINDER => 2 * PI * x | SPHERE => 4 * PI * x ^ 2 | GeomUNDEFINED => 0 end.
Definition dimension (g : GeomKind) : nat :=
  match g with SLAB => 1 | CYLINDER => 2 | SPHERE => 3 | GeomUNDEFINED => 0 end.

Lemma npow_pow (x : R) n : npow x n = x ^ n.
Proof. induction n as [|n IH]; cbn; [reflexivity|]. rewrite IH. reflexivity. Qed.

Lemma by_unit_len {T} {N : Num T} dim (c : T) v : vlen (by_unit dim c v) = vlen v.
Proof. unfold by_unit. destruct (String.eqb dim "m"), (String.eqb dim "cm"); reflexivity. Qed.

Definition unit_factor (dim : string) (cm : R) : R :=
  if String.eqb dim "m" then 1 else if String.eqb dim "cm" then cm else - 1.

Lemma by_unit_at dim c (v : vec R) i : vat (by_unit dim c v) i = vat v i * unit_factor dim c.
Proof.
  unfold by_unit, unit_factor. destruct (String.eqb dim "m"); [ring|].
  destruct (String.eqb dim "cm"); reflexivity.
Qed.

Lemma volumes_wp (ms : mesh R) dim :
  ms_geom ms <> GeomUNDEFINED -> (1 <= vlen (ms_bounds ms))%Z ->
  wp (getVolumes PI ms dim) (fun v => vlen v = (vlen (ms_bounds ms) - 1)%Z /\
    forall i, (0 <= i < vlen (ms_bounds ms) - 1)%Z ->
      vat v i = (body_volume (ms_geom ms) (vat (ms_bounds ms) (i + 1))
                 - body_volume (ms_geom ms) (vat (ms_bounds ms) i))
                * unit_factor dim (100 ^ dimension (ms_geom ms))).
Proof.
  intros Hg Hl. set (b := ms_bounds ms) in *.
  assert (G : forall (g : Z -> R) body cm F,
     (forall i v, (1 <= i < vlen b)%Z -> vlen v = (vlen b - 1)%Z -> body i v = vset v (i - 1) (g i)) ->
     (forall i, (0 <= i < vlen b - 1)%Z -> g (i + 1)%Z = F i) ->
     wp (v <- zfor 1 (vlen b) body (vzeros (vlen b - 1)) ;; Ok (by_unit dim cm v))
        (fun v => vlen v = (vlen b - 1)%Z /\
          forall i, (0 <= i < vlen b - 1)%Z -> vat v i = F i * unit_factor dim cm)).
  { intros g body cm F Hb HF. apply wp_bind.
    eapply wp_mono; [apply (vfill_off (vlen b - 1) 1 (vlen b) 1 g); try lia; auto|].
    cbn beta. intros v [L H]. cbn [wp]. split; [rewrite by_unit_len; auto|].
    intros i Hi. rewrite by_unit_at, H.
    replace ((1 - 1 <=? i) && (i <? vlen b - 1))%Z with true by lia. rewrite HF by lia. reflexivity. }
  unfold getVolumes. destruct (ms_geom ms); [congruence| | |];
    unfold slab_volumes, cyl_volumes, sph_volumes; fold b; cbn [dimension].
  - replace (100 ^ 1) with 100 by ring. apply (G (fun i => vat b i - vat b (i - 1)%Z)).
    + intros i v Hi Hv. rewrite !vget_ok by lia. reflexivity.
    + intros i Hi. cbn. f_equal. f_equal. lia.
  - replace (100 ^ 2) with 10000 by ring. apply (G (fun i => PI * (npow (vat b i) 2 - npow (vat b (i - 1)%Z) 2))).
    + intros i v Hi Hv. rewrite !vget_ok by lia. reflexivity.
    + intros i Hi. replace (i + 1 - 1)%Z with i by lia. rewrite (npow_pow (vat b (i + 1))), (npow_pow (vat b i)). cbn [body_volume]. ring.
  - replace (100 ^ 3) with 1000000 by ring.
    apply (G (fun i => 4 / 3 * PI * (npow (vat b i) 3 - npow (vat b (i - 1)%Z) 3))).
    + intros i v Hi Hv. rewrite !vget_ok by lia. reflexivity.
    + intros i Hi. replace (i + 1 - 1)%Z with i by lia. rewrite (npow_pow (vat b (i + 1))), (npow_pow (vat b i)). cbn [body_volume]. ring.
Qed.

Lemma body_volume_mono g x y : g <> GeomUNDEFINED -> 0 <= x -> x < y -> body_volume g x < body_volume g y.
Proof.
  intros Hg Hx Hy. pose proof PI_RGT_0 as HP. destruct g; cbn [body_volume]; [congruence|lra| |].
  - apply Rmult_lt_compat_l; auto. cbn. nra.
  - apply Rmult_lt_compat_l; [lra|].
    assert (0 < y ^ 3 - x ^ 3); [|lra].
    replace (y ^ 3 - x ^ 3) with ((y - x) * (y ^ 2 + x * y + x ^ 2)) by ring.
    apply Rmult_lt_0_compat; [lra|]. cbn. nra.
Qed.

Lemma increasing_lt b i j : increasing b -> (0 <= i < j)%Z -> (j < vlen b)%Z -> vat b i < vat b j.
Proof.
  intros H Hi Hj. revert j Hi Hj.
  assert (G : forall n, (i + 1 + Z.of_nat n < vlen b)%Z -> (0 <= i)%Z -> vat b i < vat b (i + 1 + Z.of_nat n)).
  { induction n as [|n IH]; intros Hn Hi.
    - replace (i + 1 + Z.of_nat 0)%Z with (i + 1)%Z by lia. apply H; lia.
    - eapply Rlt_trans; [apply IH; lia|].
      replace (i + 1 + Z.of_nat (S n))%Z with (i + 1 + Z.of_nat n + 1)%Z by lia. apply H; lia. }
  intros j Hi Hj. replace j with (i + 1 + Z.of_nat (Z.to_nat (j - i - 1)))%Z by lia. apply G; lia.
Qed.

Lemma increasing_nonneg b i : increasing b -> 0 <= vat b 0 -> (0 <= i < vlen b)%Z -> 0 <= vat b i.
Proof.
  intros H H0 Hi. destruct (Z.eq_dec i 0) as [->|]; auto.
  pose proof (increasing_lt b 0 i H ltac:(lia) ltac:(lia)). lra.
Qed.

Lemma volumes_partition (ms : mesh R) :
  ms_geom ms <> GeomUNDEFINED -> (1 <= vlen (ms_bounds ms))%Z ->
  increasing (ms_bounds ms) -> vat (ms_bounds ms) 0 = 0 ->
  exists vm vcm,
    getVolumes PI ms "m" = Ok vm /\ getVolumes PI ms "cm" = Ok vcm /\
    vlen vm = (vlen (ms_bounds ms) - 1)%Z /\ vlen vcm = vlen vm /\
    (forall i, (0 <= i < vlen vm)%Z -> 0 < vat vm i) /\
    rsum 0 (vlen vm) (vat vm) = body_volume (ms_geom ms) (vat (ms_bounds ms) (vlen vm)) /\
    (forall i, (0 <= i < vlen vm)%Z -> vat vcm i = vat vm i * 100 ^ dimension (ms_geom ms)).
Proof.
  intros Hg Hl Hinc H0. set (b := ms_bounds ms) in *.
  destruct (wp_ok _ _ (volumes_wp ms "m" Hg Hl)) as [vm [E1 [L1 H1]]].
  destruct (wp_ok _ _ (volumes_wp ms "cm" Hg Hl)) as [vc [E2 [L2 H2]]].
  fold b in H1, H2, L1, L2.
  change (unit_factor "m" (100 ^ dimension (ms_geom ms))) with 1 in H1.
  change (unit_factor "cm" (100 ^ dimension (ms_geom ms))) with (100 ^ dimension (ms_geom ms)) in H2.
  exists vm, vc. split; auto. split; auto. split; auto. split; [congruence|].
  split; [|split].
  - intros i Hi. rewrite H1 by lia. rewrite Rmult_1_r.
    assert (body_volume (ms_geom ms) (vat b i) < body_volume (ms_geom ms) (vat b (i + 1))).
    { apply body_volume_mono; auto. apply increasing_nonneg; auto; [lra|lia]. apply Hinc; lia. }
    lra.
  - rewrite (rsum_ext _ _ _ (fun i => body_volume (ms_geom ms) (vat b (i + 1)) - body_volume (ms_geom ms) (vat b i))).
    + rewrite (rsum_tele 0 (vlen vm) (fun i => body_volume (ms_geom ms) (vat b i))) by lia.
      rewrite H0. destruct (ms_geom ms); cbn; try lra; congruence.
    + intros k Hk. rewrite H1 by lia. ring.
  - intros i Hi. rewrite H1, H2 by lia. ring.
Qed.

Lemma surfaces_wp (ms : mesh R) dim :
  ms_geom ms <> GeomUNDEFINED -> (0 <= vlen (ms_bounds ms))%Z ->
  wp (getSurfaces PI ms dim) (fun v => vlen v = vlen (ms_bounds ms) /\
    forall i, (0 <= i < vlen (ms_bounds ms))%Z ->
      vat v i = body_surface (ms_geom ms) (vat (ms_bounds ms) i)
                * match ms_geom ms with SLAB => 1 | g => unit_factor dim (100 ^ (dimension g - 1)) end).
Proof.
  intros Hg Hl. set (b := ms_bounds ms) in *.
  unfold getSurfaces. destruct (ms_geom ms); [congruence| | |];
    unfold slab_surfaces, cyl_surfaces, sph_surfaces; fold b; cbn [dimension Nat.sub].
  - cbn. split; auto. intros. lra.
  - cbn [wp]. rewrite by_unit_len. split; [reflexivity|]. intros i Hi. rewrite by_unit_at. cbn.
    rewrite !Rmult_1_r. reflexivity.
  - apply wp_bind. eapply wp_mono; [apply (vfill (vlen b) 0 (vlen b) (fun i => 4 * PI * npow (vat b i) 2)); try lia; auto|].
    + intros i v Hi Hv. rewrite vget_ok by lia. reflexivity.
    + cbn beta. intros v [L H]. cbn [wp]. rewrite by_unit_len. split; auto.
      intros i Hi. rewrite by_unit_at, H. replace ((0 <=? i) && (i <? vlen b))%Z with true by lia.
      rewrite npow_pow. replace (100 ^ 2) with 10000 by ring. reflexivity.
Qed.

Lemma external_surface_last (ms : mesh R) dim :
  (ms_geom ms = SLAB \/ ms_geom ms = CYLINDER \/ (ms_geom ms = SPHERE /\ dim = "m"%string)) ->
  (1 <= vlen (ms_bounds ms))%Z ->
  exists s x, getSurfaces PI ms dim = Ok s /\ getExternalSurface PI ms dim = Ok x /\
    vlen s = vlen (ms_bounds ms) /\ x = vat s (vlen s - 1) /\
    (dim = "m"%string -> x = body_surface (ms_geom ms) (vat (ms_bounds ms) (vlen (ms_bounds ms) - 1))).
Proof.
  intros Hg Hl.
  assert (Hd : ms_geom ms <> GeomUNDEFINED) by (destruct Hg as [H|[H|[H _]]]; rewrite H; congruence).
  destruct (wp_ok _ _ (surfaces_wp ms dim Hd ltac:(lia))) as [s [E [L H]]].
  exists s, (vat s (vlen s - 1)).
  split; auto. split; [|split; auto; split; auto].
  - unfold getSurfaces in E. unfold getExternalSurface.
    destruct Hg as [G|[G|[G ->]]]; rewrite G in *;
      unfold slab_externalSurface, cyl_externalSurface, sph_externalSurface; rewrite E; cbn [bind];
      rewrite vget_ok by lia; reflexivity.
  - intros ->. rewrite H by lia. rewrite L. unfold unit_factor. cbn [String.eqb Ascii.eqb Bool.eqb].
    destruct (ms_geom ms); ring.
Qed.

Lemma external_surface_sphere_cm (ms : mesh R) :
  ms_geom ms = SPHERE -> (1 <= vlen (ms_bounds ms))%Z ->
  exists s x, getSurfaces PI ms "cm" = Ok s /\ getExternalSurface PI ms "cm" = Ok x /\
    x = 10000 * vat s (vlen s - 1).
Proof.
  intros G Hl.
  assert (Hd : ms_geom ms <> GeomUNDEFINED) by (rewrite G; congruence).
  destruct (wp_ok _ _ (surfaces_wp ms "cm" Hd ltac:(lia))) as [s [E [L H]]].
  exists s, (vat s (vlen s - 1) * 10000). split; auto. split; [|ring].
  unfold getSurfaces in E. unfold getExternalSurface. rewrite G in *. unfold sph_externalSurface.
  rewrite E. cbn [bind]. rewrite vget_ok by lia. reflexivity.
Qed.

Lemma cell_sizes_wp (ms : mesh R) dim :
  (0 <= ms_cells ms)%Z -> (ms_cells ms + 1 = vlen (ms_bounds ms))%Z ->
  wp (getCellSizes ms dim) (fun v => vlen v = ms_cells ms /\
    forall i, (0 <= i < ms_cells ms)%Z ->
      vat v i = (vat (ms_bounds ms) (i + 1) - vat (ms_bounds ms) i) * unit_factor dim 100).
Proof.
  intros Hc Hl. unfold getCellSizes. apply wp_bind.
  eapply wp_mono; [apply (vfill (ms_cells ms) 0 (ms_cells ms)
    (fun i => vat (ms_bounds ms) (i + 1) - vat (ms_bounds ms) i)); try lia; auto|].
  - intros i v Hi Hv. rewrite !vget_ok by lia. reflexivity.
  - cbn beta. intros v [L H]. cbn [wp]. rewrite by_unit_len. split; auto.
    intros i Hi. rewrite by_unit_at, H. replace ((0 <=? i) && (i <? ms_cells ms))%Z with true by lia. reflexivity.
Qed.

Lemma middle_points_wp (ms : mesh R) :
  (1 <= vlen (ms_bounds ms))%Z ->
  wp (getMeshMiddlePoints ms) (fun v => vlen v = (vlen (ms_bounds ms) - 1)%Z /\
    forall i, (0 <= i < vlen (ms_bounds ms) - 1)%Z ->
      vat v i = (vat (ms_bounds ms) i + vat (ms_bounds ms) (i + 1)) / 2).
Proof.
  intros Hl. unfold getMeshMiddlePoints.
  eapply wp_mono; [apply (vfill (vlen (ms_bounds ms) - 1) 0 (vlen (ms_bounds ms) - 1)
    (fun i => (vat (ms_bounds ms) i + vat (ms_bounds ms) (i + 1)) / 2)); try lia; auto|].
  - intros i v Hi Hv. rewrite !vget_ok by lia. reflexivity.
  - cbn beta. intros v [L H]. split; auto. intros i Hi. rewrite H.
    replace ((0 <=? i) && (i <? vlen (ms_bounds ms) - 1))%Z with true by lia. reflexivity.
Qed.

Lemma cell_sizes_consistent (b : vec R) (ms0 : mesh R) :
  (1 <= vlen b)%Z -> increasing b ->
  let ms := setBoundaries b ms0 in
  exists d mid, getCellSizes ms "m" = Ok d /\ getMeshMiddlePoints ms = Ok mid /\
    vlen d = (vlen b - 1)%Z /\ vlen mid = (vlen b - 1)%Z /\
    (forall i, (0 <= i < vlen d)%Z -> 0 < vat d i) /\
    rsum 0 (vlen d) (vat d) = vat b (vlen b - 1) - vat b 0 /\
    (forall i, (0 <= i < vlen mid)%Z ->
       vat b i < vat mid i < vat b (i + 1) /\
       vat mid i - vat b i = vat d i / 2 /\ vat b (i + 1) - vat mid i = vat d i / 2).
Proof.
  intros Hl Hinc ms.
  destruct (wp_ok _ _ (cell_sizes_wp ms "m" ltac:(cbn; lia) ltac:(cbn; lia))) as [d [E1 [L1 H1]]].
  destruct (wp_ok _ _ (middle_points_wp ms ltac:(cbn; lia))) as [m [E2 [L2 H2]]].
  cbn [ms setBoundaries ms_cells ms_bounds] in *.
  change (unit_factor "m" 100) with 1 in H1.
  exists d, m. split; auto. split; auto. split; auto. split; auto. split; [|split].
  - intros i Hi. rewrite H1 by lia. specialize (Hinc i). lra || (assert (vat b i < vat b (i + 1)) by (apply Hinc; lia); lra).
  - rewrite (rsum_ext _ _ _ (fun i => vat b (i + 1) - vat b i)) by (intros k Hk; rewrite H1 by lia; ring).
    rewrite rsum_tele by lia. rewrite L1. reflexivity.
  - intros i Hi. rewrite H2, H1 by lia. assert (vat b i < vat b (i + 1)) by (apply Hinc; lia). lra.
Qed.

Lemma uniform_boundaries side n (ms0 : mesh R) :
  0 < side -> (1 <= n)%Z ->
  exists ms, setBoundariesUniform side n ms0 = Ok ms /\
    ms_cells ms = n /\ vlen (ms_bounds ms) = (n + 1)%Z /\ increasing (ms_bounds ms) /\
    vat (ms_bounds ms) 0 = 0 /\ vat (ms_bounds ms) n = side /\
    forall i, (0 <= i < n)%Z -> vat (ms_bounds ms) (i + 1) - vat (ms_bounds ms) i = side / IZR n.
Proof.
  intros Hs Hn. unfold setBoundariesUniform.
  assert (W : wp (zfor 0 (n + 1) (fun i b => vset b i (nofZ i [*] (side [/] nofZ n))) (vzeros (n + 1)))
     (fun b => vlen b = (n + 1)%Z /\ forall i, (0 <= i < n + 1)%Z -> vat b i = IZR i * (side / IZR n))).
  { eapply wp_mono; [apply (vfill (n + 1) 0 (n + 1) (fun i => IZR i * (side / IZR n))); try lia; auto|].
    cbn beta. intros b [L H]. split; auto. intros i Hi. rewrite H.
    replace ((0 <=? i) && (i <? n + 1))%Z with true by lia. reflexivity. }
  destruct (wp_ok _ _ W) as [b [E [L H]]]. rewrite E. cbn [bind].
  eexists; split; [reflexivity|]. cbn [ms_cells ms_bounds].
  assert (HN : 0 < IZR n) by (apply IZR_lt; lia).
  assert (Hd : 0 < side / IZR n) by (apply Rdiv_lt_0_compat; auto).
  repeat split; auto.
  - intros i Hi Hi'. rewrite !H by lia. rewrite plus_IZR. nra.
  - rewrite H by lia. ring.
  - rewrite H by lia. field. lra.
  - intros i Hi. rewrite !H by lia. rewrite plus_IZR. ring.
Qed.

Lemma law_value_R (c : list R) t :
  law_value c t = rsum 0 (zlen c) (fun i => nth (Z.to_nat i) c 0 * t ^ Z.to_nat i).
Proof. unfold law_value. apply rsum_ext. intros k Hk. rewrite npow_pow. reflexivity. Qed.

Lemma surfaces_units (ms : mesh R) :
  ms_geom ms <> GeomUNDEFINED -> (0 <= vlen (ms_bounds ms))%Z ->
  exists sm scm, getSurfaces PI ms "m" = Ok sm /\ getSurfaces PI ms "cm" = Ok scm /\
    vlen sm = vlen (ms_bounds ms) /\ vlen scm = vlen (ms_bounds ms) /\
    forall i, (0 <= i < vlen (ms_bounds ms))%Z ->
      vat sm i = body_surface (ms_geom ms) (vat (ms_bounds ms) i) /\
      vat scm i = 100 ^ (dimension (ms_geom ms) - 1) * vat sm i.
Proof.
  intros Hg Hl.
  destruct (wp_ok _ _ (surfaces_wp ms "m" Hg Hl)) as [sm [E1 [L1 H1]]].
  destruct (wp_ok _ _ (surfaces_wp ms "cm" Hg Hl)) as [sc [E2 [L2 H2]]].
  exists sm, sc. repeat split; auto; rewrite ?H1, ?H2 by auto;
    destruct (ms_geom ms); unfold unit_factor; cbn; ring.
Qed.

Lemma external_surface_sphere_cm_wrong (ms : mesh R) :
  ms_geom ms = SPHERE -> (1 <= vlen (ms_bounds ms))%Z ->
  vat (ms_bounds ms) (vlen (ms_bounds ms) - 1) <> 0 ->
  exists s x, getSurfaces PI ms "cm" = Ok s /\ getExternalSurface PI ms "cm" = Ok x /\
    x = 10000 * vat s (vlen s - 1) /\ x <> vat s (vlen s - 1).
Proof.
  intros G Hl Hb.
  destruct (external_surface_sphere_cm ms G Hl) as [s [x [E1 [E2 E3]]]].
  exists s, x. repeat split; auto. intros E.
  assert (Hd : ms_geom ms <> GeomUNDEFINED) by (rewrite G; congruence).
  destruct (wp_ok _ _ (surfaces_wp ms "cm" Hd ltac:(lia))) as [s' [E' [L H]]].
  assert (s' = s) by congruence. subst s'.
  assert (Z0 : vat s (vlen s - 1) = 0) by lra.
  rewrite H, G in Z0 by lia. cbn [body_surface] in Z0. rewrite L in Z0.
  change (unit_factor "cm" (100 ^ (dimension SPHERE - 1))) with (100 ^ 2) in Z0.
  pose proof PI_RGT_0. apply Rmult_integral in Z0. destruct Z0 as [Z0|Z0]; [|lra].
  apply Rmult_integral in Z0. destruct Z0 as [Z0|Z0]; [lra|].
  apply (pow_nonzero _ 2 Hb). exact Z0.
Qed.

Local Open Scope Z_scope.

Section More.
Context {T : Type} {N : Num T}.
Variable dm : material T.

Lemma heat_roundtrip (qs ts : vec T) (ms : mesh T) :
  0 <= vlen qs -> vlen qs <= zlen (ms_mats ms) ->
  0 <= vlen ts -> vlen ts <= zlen (ms_mats ms) ->
  0 <= ms_cells ms -> ms_cells ms <= zlen (ms_mats ms) ->
  exists ms' ms'' old c c' t t',
    setHeatSources qs ms = Ok ms' /\ getHeatSources ms = Ok old /\ getHeatSources ms' = Ok c /\
    setTemperatures ts ms' = Ok ms'' /\ getHeatSources ms'' = Ok c' /\
    getTemperatures ms "C" = Ok t /\ getTemperatures ms' "C" = Ok t' /\
    vlen c = ms_cells ms /\
    forall i, 0 <= i < ms_cells ms ->
      vat c i = (if i <? vlen qs then vat qs i else vat old i) /\
      vat c' i = vat c i /\ vat t' i = vat t i.
Proof.
  intros H0 Hl H0' Hl' Hc Hcl. unfold zlen in *.
  destruct (wp_ok _ _ (setHeatSources_wp dm qs ms H0 Hl)) as [ms' [E1 [C1 [_ [_ [_ [L1 H1]]]]]]].
  destruct (wp_ok _ _ (setTemperatures_wp dm ts ms' H0' ltac:(unfold zlen; lia))) as [ms'' [E2 [C2 [_ [_ [_ [L2 H2]]]]]]].
  destruct (wp_ok _ _ (getHeatSources_wp dm ms Hc Hcl)) as [old [E3 [L3 H3]]].
  destruct (wp_ok _ _ (getHeatSources_wp dm ms' ltac:(lia) ltac:(unfold zlen; lia))) as [c [E4 [L4 H4]]].
  destruct (wp_ok _ _ (getHeatSources_wp dm ms'' ltac:(lia) ltac:(unfold zlen; lia))) as [c' [E5 [L5 H5]]].
  destruct (wp_ok _ _ (getTemperatures_wp dm ms "C" Hc Hcl)) as [t [E6 [L6 H6]]].
  destruct (wp_ok _ _ (getTemperatures_wp dm ms' "C" ltac:(lia) ltac:(unfold zlen; lia))) as [t' [E7 [L7 H7]]].
  exists ms', ms'', old, c, c', t, t'.
  do 7 (split; [assumption|]). split; [congruence|]. intros i Hi.
  rewrite H3, H4, H5, H6, H7 by lia. cbn zeta. cbn [String.eqb Ascii.eqb Bool.eqb].
  rewrite H2 by lia. rewrite H1 by lia. rewrite Z2Nat.id by lia.
  destruct (i <? vlen qs), (i <? vlen ts); repeat split; reflexivity.
Qed.

Lemma cross_sections (ms : mesh T) :
  0 <= ms_cells ms -> 0 <= ms_groups ms -> ms_cells ms <= zlen (ms_mats ms) ->
  (forall m, 0 <= m < ms_cells ms ->
     let mt := nth (Z.to_nat m) (ms_mats ms) dm in
     mt_energies mt = ms_groups ms /\ ms_groups ms <= zlen (mt_totXS mt) /\
     ms_groups ms <= zlen (mt_fisXS mt) /\ ms_groups ms <= zlen (mt_diff mt) /\
     (mt_ni mt = [] \/ ms_groups ms <= zlen (mt_ni mt)) /\
     (mt_chi mt = [] \/ ms_groups ms <= zlen (mt_chi mt))) ->
  exists tot fis diff ni chi,
    getTotalXSs ms = Ok tot /\ getFissionXSs ms = Ok fis /\ getDiffusionConstantss ms = Ok diff /\
    getNis ms = Ok ni /\ getChis ms = Ok chi /\
    Forall (fun r => mrows r = ms_groups ms /\ mcols r = ms_cells ms) [tot; fis; diff; ni; chi] /\
    forall e m, 0 <= e < ms_groups ms -> 0 <= m < ms_cells ms ->
      let mt := nth (Z.to_nat m) (ms_mats ms) dm in
      let law laws := law_value (nth (Z.to_nat e) laws []) (mt_temp mt) in
      mat_at tot e m = law (mt_totXS mt) /\ mat_at fis e m = law (mt_fisXS mt) /\
      mat_at diff e m = law (mt_diff mt) /\
      mat_at ni e m = (match mt_ni mt with [] => n0 | l => law l end) /\
      mat_at chi e m = (match mt_chi mt with [] => n0 | l => law l end).
Proof.
  intros Hc Hg Hl Hm. cbn zeta in *.
  assert (W1 := table_wp dm mt_totXS ms Hc Hg Hl ltac:(intros m X; destruct (Hm m X) as (A & B & C & D & E & F); auto)).
  assert (W2 := table_wp dm mt_fisXS ms Hc Hg Hl ltac:(intros m X; destruct (Hm m X) as (A & B & C & D & E & F); auto)).
  assert (W3 := table_wp dm mt_diff ms Hc Hg Hl ltac:(intros m X; destruct (Hm m X) as (A & B & C & D & E & F); auto)).
  assert (W4 := table0_wp dm mt_ni ms Hc Hg Hl ltac:(intros m X; destruct (Hm m X) as (A & B & C & D & E & F); auto)).
  assert (W5 := table0_wp dm mt_chi ms Hc Hg Hl ltac:(intros m X; destruct (Hm m X) as (A & B & C & D & E & F); auto)).
  destruct (wp_ok _ _ W1) as (tot & E1 & R1 & C1 & H1).
  destruct (wp_ok _ _ W2) as (fis & E2 & R2 & C2 & H2).
  destruct (wp_ok _ _ W3) as (diff & E3 & R3 & C3 & H3).
  destruct (wp_ok _ _ W4) as (ni & E4 & R4 & C4 & H4).
  destruct (wp_ok _ _ W5) as (chi & E5 & R5 & C5 & H5).
  exists tot, fis, diff, ni, chi. do 5 (split; [assumption|]).
  split; [repeat constructor; auto|].
  intros e m He Hm'. rewrite H1, H2, H3, H4, H5 by auto. cbn zeta. repeat split;
   [destruct (mt_ni _); reflexivity|destruct (mt_chi _); reflexivity].
Qed.

Lemma scattering_and_removal (ms : mesh T) :
  0 <= ms_cells ms -> 0 <= ms_groups ms -> ms_cells ms <= zlen (ms_mats ms) ->
  (forall m, 0 <= m < ms_cells ms ->
     let mt := nth (Z.to_nat m) (ms_mats ms) dm in
     mt_energies mt = ms_groups ms /\ ms_groups ms <= zlen (mt_totXS mt) /\
     ms_groups ms * ms_groups ms <= zlen (mt_scatt mt)) ->
  exists sc rem,
    getScattMatrices ms = Ok sc /\ getRemovalXSs ms = Ok rem /\
    td0 sc = ms_groups ms /\ td1 sc = ms_groups ms /\ td2 sc = ms_cells ms /\
    mrows rem = ms_groups ms /\ mcols rem = ms_cells ms /\
    forall m, 0 <= m < ms_cells ms ->
      let mt := nth (Z.to_nat m) (ms_mats ms) dm in
      (forall i j, 0 <= i < ms_groups ms -> 0 <= j < ms_groups ms ->
         t3_at sc i j m = law_value (nth (Z.to_nat (j + i * ms_groups ms)) (mt_scatt mt) []) (mt_temp mt)) /\
      (forall e, 0 <= e < ms_groups ms ->
         mat_at rem e m = law_value (nth (Z.to_nat e) (mt_totXS mt) []) (mt_temp mt) [-] t3_at sc e e m).
Proof.
  intros Hc Hg Hl Hm.
  destruct (wp_ok _ _ (removal_wp dm ms Hc Hg Hl Hm)) as (rem & E1 & R1 & C1 & H1).
  assert (W := scattMatrices_wp dm ms Hc Hg Hl ltac:(intros m X; destruct (Hm m X) as (A & B & C); auto)).
  destruct (wp_ok _ _ W) as (sc & E2 & D0 & D1 & D2 & H2).
  exists sc, rem. do 7 (split; [assumption|]). intros m Hm' mt. split.
  - intros i j Hi Hj. rewrite H2 by auto. reflexivity.
  - intros e He. rewrite H1, H2 by auto. reflexivity.
Qed.

Lemma fundamental_mode_zero (t a : ten3 T) (ms : mesh T) :
  0 <= ms_cells ms -> 0 <= ms_groups ms -> ms_cells ms <= zlen (ms_mats ms) ->
  td0 t = ms_groups ms -> td1 t = ms_cells ms -> 1 <= td2 t ->
  td0 a = ms_groups ms -> td1 a = ms_cells ms -> 1 <= td2 a ->
  exists ms1 ms2 f g,
    setNeutronFluxes t ms = Ok ms1 /\ setAdjointFluxes a ms1 = Ok ms2 /\
    getFundamentalNeutronFluxes ms2 = Ok f /\ getFundamentalAdjointFluxes ms2 = Ok g /\
    mrows f = ms_groups ms /\ mcols f = ms_cells ms /\ mrows g = ms_groups ms /\ mcols g = ms_cells ms /\
    forall e m, 0 <= e < ms_groups ms -> 0 <= m < ms_cells ms ->
      mat_at f e m = t3_at t e m 0 /\ mat_at g e m = t3_at a e m 0.
Proof.
  intros Hc Hg Hl T0 T1 T2 A0 A1 A2. unfold zlen in *.
  destruct (wp_ok _ _ (setFluxes_wp dm set_flux t ms ltac:(lia) ltac:(unfold zlen; lia))) as [ms1 [E1 [c1 [g1 [f1 [a1 [l1 h1]]]]]]].
  destruct (wp_ok _ _ (setFluxes_wp dm set_adj a ms1 ltac:(lia) ltac:(unfold zlen; lia))) as [ms2 [E2 [c2 [g2 [f2 [a2 [l2 h2]]]]]]].
  assert (Q : forall m, 0 <= m < ms_cells ms ->
     mt_flux (nth (Z.to_nat m) (ms_mats ms2) dm) = chip1 t m /\
     mt_adj (nth (Z.to_nat m) (ms_mats ms2) dm) = chip1 a m).
  { intros m Hm. rewrite h2 by lia. rewrite h1 by lia. rewrite Z2Nat.id by lia.
    replace (m <? td1 a) with true by lia. replace (m <? td1 t) with true by lia. split; reflexivity. }
  assert (W1 := get_fundamental_wp dm mt_flux ms2 ltac:(lia) ltac:(lia) ltac:(unfold zlen; lia)
    ltac:(intros m X; destruct (Q m ltac:(lia)) as [-> _]; cbn; lia)).
  assert (W2 := get_fundamental_wp dm mt_adj ms2 ltac:(lia) ltac:(lia) ltac:(unfold zlen; lia)
    ltac:(intros m X; destruct (Q m ltac:(lia)) as [_ ->]; cbn; lia)).
  destruct (wp_ok _ _ W1) as (f & E3 & R3 & C3 & H3).
  destruct (wp_ok _ _ W2) as (g & E4 & R4 & C4 & H4).
  exists ms1, ms2, f, g. do 4 (split; [assumption|]). do 4 (split; [congruence|]).
  intros e m He Hm. rewrite H3, H4 by lia. destruct (Q m Hm) as [-> ->]. split; reflexivity.
Qed.

Lemma total_fluxes_roundtrip (f : mat T) (ms : mesh T) :
  0 <= ms_cells ms -> 1 <= ms_groups ms -> ms_cells ms <= zlen (ms_mats ms) ->
  mrows f = ms_groups ms -> mcols f = ms_cells ms ->
  exists ms' g, setTotalFluxes f ms = Ok ms' /\ getTotalFluxes ms' = Ok g /\
    mrows g = ms_groups ms /\ mcols g = ms_cells ms /\
    forall e m, 0 <= e < ms_groups ms -> 0 <= m < ms_cells ms -> mat_at g e m = mat_at f e m.
Proof.
  intros Hc Hg Hl Hr Hcl.
  assert (W : wp (setTotalFluxes f ms) (fun ms' => ms_cells ms' = ms_cells ms /\ ms_groups ms' = ms_groups ms /\
     length (ms_mats ms') = length (ms_mats ms) /\
     forall m, 0 <= m < ms_cells ms -> mt_totflux (nth (Z.to_nat m) (ms_mats ms') dm) = mkvec (mrows f) (fun i => mat_at f i m))).
  { unfold setTotalFluxes. apply wp_bind.
    eapply wp_mono; [apply (upd_mats_wp (fun m => set_totflux (mkvec (mrows f) (fun i => mat_at f i m)))); auto|].
    - intros i l Hi. unfold inb. replace ((0 <=? i) && (i <? mcols f)) with true by lia. reflexivity.
    - cbn beta. intros l [L H]. cbn. repeat split; auto. intros m Hm. unfold zlen in *. rewrite H by lia.
      rewrite Z2Nat.id by lia. replace (m <? ms_cells ms) with true by lia. reflexivity. }
  destruct (wp_ok _ _ W) as (ms' & E & C' & G' & L' & H'). exists ms'.
  assert (W2 : wp (getTotalFluxes ms') (fun g => mrows g = ms_groups ms /\ mcols g = ms_cells ms /\
     forall e m, 0 <= e < ms_groups ms -> 0 <= m < ms_cells ms -> mat_at g e m = mat_at f e m)).
  { unfold getTotalFluxes. rewrite C', G'.
    eapply (zfor_wp' (fun k r => mrows r = ms_groups ms /\ mcols r = ms_cells ms /\
     forall e m, 0 <= e < ms_groups ms -> 0 <= m < k -> mat_at r e m = mat_at f e m)).
    - lia.
    - repeat split; auto. intros; lia.
    - intros m r Hm [R [C H]]. unfold zlen in *. rewrite (lget_ok (ms_mats ms') m dm) by (unfold zlen; lia). cbn [bind].
      rewrite H' by lia. cbn [vlen].
      replace (mrows f =? 0) with false by lia.
      eapply wp_mono; [apply (mfill_col (ms_groups ms) (ms_cells ms) 0 (ms_groups ms) m
        (fun e => mat_at f e m)); try lia; auto|].
      + intros i r' Hi R' C''. rewrite vget_ok by (cbn; lia). reflexivity.
      + cbn beta. intros r' [R' [C'' H'']]. repeat split; auto. intros i k Hi Hk. rewrite H''.
        destruct (k =? m) eqn:E'; cbn [andb].
        * replace ((0 <=? i) && (i <? ms_groups ms)) with true by lia.
          apply Z.eqb_eq in E'. subst k. reflexivity.
        * apply H; lia.
    - auto. }
  destruct (wp_ok _ _ W2) as (g & E2 & R2 & C2 & H2). exists g. auto.
Qed.

End More.
