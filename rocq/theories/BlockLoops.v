(* The loops that fill block matrices, for any table. *)
From Coq Require Import String ZArith List Bool Lia.
From Verif Require Import Base BaseLemmas Blocks.
Import ListNotations.
Local Open Scope Z_scope.

Section BlockLoops.
Context {T : Type} {N : Num T}.
Variables n en : Z.
Hypothesis Hn : 0 <= n.
Hypothesis Hen : 0 <= en.

Lemma rem_offset i j e : 0 <= i < en -> 0 <= j < en -> 0 <= e < en ->
  (e =? Z.rem (i + j) en) = (Z.modulo (e - j) en =? i).
Proof.
  intros Hi Hj He. rewrite Z.rem_mod_nonneg by lia.
  assert (Hij : (i + j) mod en = if i + j <? en then i + j else i + j - en).
  { destruct (i + j <? en) eqn:E; [apply Z.mod_small; lia|].
    symmetry. apply (Z.mod_unique _ _ 1); lia. }
  assert (Hej : (e - j) mod en = if 0 <=? e - j then e - j else e - j + en).
  { destruct (0 <=? e - j) eqn:E; [apply Z.mod_small; lia|].
    symmetry. apply (Z.mod_unique _ _ (-1)); lia. }
  rewrite Hij, Hej. destruct (i + j <? en) eqn:E1, (0 <=? e - j) eqn:E2; lia.
Qed.

Lemma scatt_loops (body : Z -> Z -> Z -> mat T -> res (mat T)) (s : Z -> Z -> Z -> T) :
  (forall i j k M, 0 <= i < en -> 0 <= j < en -> 0 <= k < n ->
     body i j k M = mset M (k + Z.rem (i + j) en * n) (k + j * n) (s (Z.rem (i + j) en) j k)) ->
  wp (zfor 0 en (fun i M => zfor 0 en (fun j M => zfor 0 n (body i j) M) M) (mzeros (n * en) (n * en)))
     (fun M => bl n en M (fun e m e' m' => if m' =? m then s e e' m else n0)).
Proof.
  intros Hb.
  eapply (zfor_wp' (fun k M => bl n en M (fun e m e' m' =>
     if Z.modulo (e - e') en <? k then (if m' =? m then s e e' m else n0) else n0))).
  - lia.
  - eapply bl_ext; [|apply bl_const]. intros. cbn beta.
    pose proof (Z.mod_pos_bound (e - e') en ltac:(lia)).
    replace ((e - e') mod en <? 0) with false by lia. reflexivity.
  - intros i M Hi HM.
    eapply (zfor_wp' (fun k M => bl n en M (fun e m e' m' =>
     if (Z.modulo (e - e') en <? i) || ((Z.modulo (e - e') en =? i) && (e' <? k))
     then (if m' =? m then s e e' m else n0) else n0))).
    + lia.
    + eapply bl_ext; [|exact HM]. intros. cbn beta.
      replace (e' <? 0) with false by lia. rewrite andb_false_r, orb_false_r. reflexivity.
    + intros j M1 Hj HM1.
      eapply (zfor_wp' (fun k M => bl n en M (fun e m e' m' =>
        if ((Z.modulo (e - e') en <? i) || ((Z.modulo (e - e') en =? i) && (e' <? j))) ||
           (((Z.modulo (e - e') en =? i) && (e' =? j)) && (m <? k))
        then (if m' =? m then s e e' m else n0) else n0))).
      * lia.
      * eapply bl_ext; [|exact HM1]. intros. cbn beta.
        replace (m <? 0) with false by lia. rewrite andb_false_r, orb_false_r. reflexivity.
      * intros k M2 Hk HM2. rewrite Hb by lia.
        assert (Hr : 0 <= Z.rem (i + j) en < en) by (apply Z.rem_bound_pos; lia).
        destruct (mset_bl n en M2 _ (Z.rem (i + j) en) k j k (s (Z.rem (i + j) en) j k)
          _ _ HM2 Hr Hk Hj Hk eq_refl eq_refl) as [M3 [E3 HM3]]. rewrite E3. cbn [wp].
        eapply bl_ext; [|exact HM3]. intros e m e' m' He Hm He' Hm'. unfold upd.
        destruct (e' =? j) eqn:Ej.
        -- assert (e' = j) by lia. subst e'. rewrite (rem_offset i j e) by lia.
           destruct ((e - j) mod en =? i) eqn:Em; cbn [andb].
           ++ assert (e = Z.rem (i + j) en) by (pose proof (rem_offset i j e Hi Hj He); lia).
              replace ((e - j) mod en <? i) with false by lia. replace (j <? j) with false by lia. cbn [orb].
              destruct (m =? k) eqn:Ek; cbn [andb].
              ** assert (m = k) by lia. subst m. replace (k <? k + 1) with true by lia.
                 replace (k <? k) with false by lia. subst e. reflexivity.
              ** replace (m <? k + 1) with (m <? k) by lia. reflexivity.
           ++ rewrite !orb_false_r. reflexivity.
        -- cbn [andb]. rewrite !andb_false_r. cbn [andb]. rewrite !orb_false_r. reflexivity.
      * intros M2 HM2. eapply bl_ext; [|exact HM2]. intros e m e' m' He Hm He' Hm'. cbn beta.
        replace (m <? n) with true by lia.
        replace (((Z.modulo (e - e') en <? i) || ((Z.modulo (e - e') en =? i) && (e' <? j))) ||
           (((Z.modulo (e - e') en =? i) && (e' =? j)) && true))
        with ((Z.modulo (e - e') en <? i) || ((Z.modulo (e - e') en =? i) && (e' <? j + 1))) by lia.
        reflexivity.
    + intros M2 HM2. eapply bl_ext; [|exact HM2]. intros e m e' m' He Hm He' Hm'. cbn beta.
      replace (e' <? en) with true by lia.
      replace ((Z.modulo (e - e') en <? i) || ((Z.modulo (e - e') en =? i) && true))
        with (Z.modulo (e - e') en <? i + 1) by lia. reflexivity.
  - intros M HM. eapply bl_ext; [|exact HM]. intros. cbn beta.
    pose proof (Z.mod_pos_bound (e - e') en ltac:(lia)).
    replace ((e - e') mod en <? en) with true by lia. reflexivity.
Qed.

(* filling the diagonal and a vector cell by cell *)
Lemma diag_wp (f x : Z -> Z -> T) (body : Z -> Z -> mat T * vec T -> res (mat T * vec T)) :
  (forall j i F c, 0 <= j < en -> 0 <= i < n ->
     body j i (F, c) = (F <- mset F (i + j * n) (i + j * n) (f j i) ;;
                        c <- vset c (i + j * n) (x j i) ;; Ok (F, c))) ->
  wp (zfor 0 en (fun j st => zfor 0 n (body j) st) (mzeros (n * en) (n * en), vzeros (n * en))) (fun s =>
    bl n en (fst s) (fun e m e' m' => if (e' =? e) && (m' =? m) then f e m else n0) /\
    vlen (snd s) = n * en /\ forall e m, 0 <= e < en -> 0 <= m < n -> vat (snd s) (m + e * n) = x e m).
Proof.
  intros Hb.
  eapply (zfor_wp' (fun k s =>
    bl n en (fst s) (fun e m e' m' => if (e <? k) && ((e' =? e) && (m' =? m)) then f e m else n0) /\
    vlen (snd s) = n * en /\
    forall e m, 0 <= e < k -> 0 <= m < n -> vat (snd s) (m + e * n) = x e m)).
  - lia.
  - cbn [fst snd]. split; [|split; [reflexivity|intros; lia]].
    eapply bl_ext; [|apply bl_const]. intros. cbn beta. replace (e <? 0) with false by lia. reflexivity.
  - intros j s Hj [HF [Lc Hcv]].
    eapply (zfor_wp' (fun k s =>
      bl n en (fst s) (fun e m e' m' =>
        if ((e <? j) || ((e =? j) && (m <? k))) && ((e' =? e) && (m' =? m)) then f e m else n0) /\
      vlen (snd s) = n * en /\
      (forall e m, 0 <= e < j -> 0 <= m < n -> vat (snd s) (m + e * n) = x e m) /\
      (forall m, 0 <= m < k -> vat (snd s) (m + j * n) = x j m))).
    + lia.
    + repeat split; auto; try (intros; lia).
      * apply HF.
      * apply HF.
      * intros. destruct HF as [_ [_ HF]]. rewrite HF by auto.
        replace (m <? 0) with false by lia. rewrite andb_false_r, orb_false_r. reflexivity.
    + intros i [F c] Hi' [HF' [Lc' [Hc1 Hc2]]]. cbn [fst snd] in *. rewrite Hb by auto.
      destruct (mset_bl n en F _ j i j i (f j i)
        (i + j * n) (i + j * n) HF') as [F' [EF' HF'']]; try lia. rewrite EF'. cbn [bind].
      rewrite vset_ok by (rewrite Lc'; apply idx_range; lia). cbn [bind wp fst snd vlen vat].
      repeat split; auto.
      * apply HF''.
      * apply HF''.
      * intros e m e' m' ? ? ? ?. destruct HF'' as [_ [_ HF'']]. rewrite HF'' by auto. unfold upd.
        destruct ((e =? j) && (m =? i) && ((e' =? j) && (m' =? i))) eqn:E.
        -- assert (e = j /\ m = i /\ e' = j /\ m' = i) as [-> [-> [-> ->]]] by lia.
           rewrite !Z.eqb_refl. replace (i <? i + 1) with true by lia.
           replace (j <? j) with false by lia. reflexivity.
        -- destruct ((e' =? e) && (m' =? m)) eqn:E2; [|rewrite !andb_false_r; reflexivity].
           replace ((e =? j) && (m <? i + 1)) with ((e =? j) && (m <? i)) by lia. reflexivity.
      * intros e m ? ?. rewrite idx_eqb by lia. replace (e =? j) with false by lia. apply Hc1; auto.
      * intros m ?. rewrite idx_eqb by lia. rewrite Z.eqb_refl. destruct (m =? i) eqn:E; cbn [andb].
        -- assert (m = i) by lia. subst m. reflexivity.
        -- apply Hc2; lia.
    + intros [F c] [HF' [Lc' [Hc1 Hc2]]]. cbn [fst snd] in *. repeat split; auto.
      * apply HF'.
      * apply HF'.
      * intros e m e' m' ? ? ? ?. destruct HF' as [_ [_ HF']]. rewrite HF' by auto.
        replace ((e <? j) || (e =? j) && (m <? n)) with (e <? j + 1) by lia. reflexivity.
      * intros e m ? ?. destruct (Z.eq_dec e j) as [->|]; [apply Hc2; lia|apply Hc1; lia].
  - intros [F c] [HF [Lc Hcv]]. cbn [fst snd] in *. split; [|split; auto].
    eapply bl_ext; [|exact HF]. intros. cbn beta. replace (e <? en) with true by lia. reflexivity.
Qed.

(* the copying loops: block (k, g) is read from the diagonal block sel k g *)
Section Spread.
Variable fp : Z -> Z -> T.
Variable sel : Z -> Z -> Z.
Hypothesis Hsel : forall e, sel e e = e.
Hypothesis Hrange : forall k g, 0 <= k < en -> 0 <= g < en -> 0 <= sel k g < en.
Variable body : Z -> Z -> Z -> Z -> mat T -> res (mat T).
Hypothesis Hbody : forall g k m m' M,
  0 <= g < en -> 0 <= k < en -> 0 <= m < n -> 0 <= m' < n ->
  body g k (m + k * n) (m' + g * n) M =
  (x <- mget M (m + sel k g * n) (m' + sel k g * n) ;; mset M (m + k * n) (m' + g * n) x).

Let val (e m e' m' : Z) : T := if m' =? m then fp (sel e e') m else n0.
Let spread (don : Z -> Z -> Z -> Z -> bool) (M : mat T) : Prop :=
  bl n en M (fun e m e' m' => if (e' =? e) || don e m e' m' then val e m e' m' else n0).

Lemma spread_ext p q M :
  (forall e m e' m', 0 <= e < en -> 0 <= m < n -> 0 <= e' < en -> 0 <= m' < n ->
     p e m e' m' = q e m e' m') -> spread p M -> spread q M.
Proof. intros H. apply bl_ext. intros. rewrite H by auto. reflexivity. Qed.

Lemma spread_wp F :
  bl n en F (fun e m e' m' => if (e' =? e) && (m' =? m) then fp e m else n0) ->
  wp (zfor 0 en (fun g F => zfor 0 en (fun k F =>
        zfor (k * n) ((k + 1) * n) (fun i F => zfor (g * n) ((g + 1) * n) (fun j F =>
          body g k i j F) F) F) F) F)
     (fun M => bl n en M val).
Proof.
  intros HF.
  eapply (zfor_wp' (fun g => spread (fun e m e' m' => e' <? g))).
  - lia.
  - unfold spread. eapply bl_ext; [|exact HF]. intros. cbn beta. unfold val.
    replace (e' <? 0) with false by lia. rewrite orb_false_r.
    destruct (e' =? e) eqn:E; cbn [andb]; [|reflexivity].
    assert (e' = e) by lia. subst e'. rewrite Hsel. reflexivity.
  - intros g M Hg HM.
    eapply (zfor_wp' (fun k => spread (fun e m e' m' => (e' <? g) || ((e' =? g) && (e <? k))))).
    + lia.
    + eapply spread_ext; [|exact HM]. intros. cbn beta. lia.
    + intros k M1 Hk HM1.
      eapply (zfor_wp' (fun i => spread (fun e m e' m' =>
        ((e' <? g) || ((e' =? g) && (e <? k))) || (((e' =? g) && (e =? k)) && (m + k * n <? i))))).
      * lia.
      * eapply spread_ext; [|exact HM1]. intros. cbn beta. lia.
      * intros i M2 Hi HM2.
        eapply (zfor_wp' (fun j => spread (fun e m e' m' =>
          (((e' <? g) || ((e' =? g) && (e <? k))) || (((e' =? g) && (e =? k)) && (m + k * n <? i))) ||
          ((((e' =? g) && (e =? k)) && (m + k * n =? i)) && (m' + g * n <? j))))).
        -- lia.
        -- eapply spread_ext; [|exact HM2]. intros. cbn beta. lia.
        -- intros j M3 Hj HM3.
           assert (exists m0 m1, 0 <= m0 < n /\ 0 <= m1 < n /\ i = m0 + k * n /\ j = m1 + g * n)
             as (m0 & m1 & Hm0 & Hm1 & Ei & Ej).
           { exists (i - k * n), (j - g * n). lia. }
           subst i j. rewrite Hbody by auto.
           pose proof (Hrange k g Hk Hg) as Hq.
           rewrite (mget_bl n en M3 _ (sel k g) m0 (sel k g) m1 _ _ HM3) by auto. cbn [bind].
           rewrite Z.eqb_refl. cbn [orb].
           destruct (mset_bl n en M3 _ k m0 g m1 (val (sel k g) m0 (sel k g) m1)
             (m0 + k * n) (m1 + g * n) HM3) as [M4 [E4 HM4]]; auto. rewrite E4. cbn [wp].
           unfold spread. eapply bl_ext; [|exact HM4]. intros e m e' m' He Hm He' Hm'. unfold upd.
           destruct ((e =? k) && (m =? m0) && ((e' =? g) && (m' =? m1))) eqn:E.
           ++ assert (e = k /\ m = m0 /\ e' = g /\ m' = m1) as [-> [-> [-> ->]]] by lia.
              rewrite !Z.eqb_refl. replace (m1 + g * n <? m1 + g * n + 1) with true by lia.
              cbn [andb]. rewrite !orb_true_r. unfold val. rewrite Hsel. reflexivity.
           ++ match goal with |- (if ?a then _ else _) = (if ?b then _ else _) => replace b with a by lia end.
              reflexivity.
        -- intros M3 HM3. eapply spread_ext; [|exact HM3]. intros. cbn beta. lia.
      * intros M2 HM2. eapply spread_ext; [|exact HM2]. intros. cbn beta. lia.
    + intros M1 HM1. eapply spread_ext; [|exact HM1]. intros. cbn beta. lia.
  - intros M HM. unfold spread in HM. eapply bl_ext; [|exact HM]. intros. cbn beta.
    replace (e' <? en) with true by lia. rewrite orb_true_r. reflexivity.
Qed.
End Spread.

(* the final scaling loops *)
Lemma scale_wp (w : Z -> Z -> Z -> Z -> T) (S : Z -> Z -> Z -> Z -> T) (body : Z -> Z -> mat T -> res (mat T)) F :
  bl n en F S ->
  (forall e m e' m' M, 0 <= e < en -> 0 <= m < n -> 0 <= e' < en -> 0 <= m' < n ->
     body (m + e * n) (m' + e' * n) M =
     (x <- mget M (m + e * n) (m' + e' * n) ;; mset M (m + e * n) (m' + e' * n) (x [*] w e m e' m'))) ->
  wp (zfor 0 (n * en) (fun i F => zfor 0 (n * en) (body i) F) F)
     (fun M => bl n en M (fun e m e' m' => S e m e' m' [*] w e m e' m')).
Proof.
  intros HF Hb. assert (Hz : 0 <= n * en) by nia.
  eapply (zfor_wp' (fun k M => bl n en M (fun e m e' m' =>
    if m + e * n <? k then S e m e' m' [*] w e m e' m' else S e m e' m'))).
  - lia.
  - eapply bl_ext; [|exact HF]. intros. cbn beta. pose proof (idx_range n en e m ltac:(lia) ltac:(lia)).
    replace (m + e * n <? 0) with false by lia. reflexivity.
  - intros i M Hi HM. destruct (idx_decode n en i ltac:(lia) Hi) as (e0 & m0 & He0 & Hm0 & ->).
    eapply (zfor_wp' (fun k M => bl n en M (fun e m e' m' =>
      if (m + e * n <? m0 + e0 * n) || ((m + e * n =? m0 + e0 * n) && (m' + e' * n <? k))
      then S e m e' m' [*] w e m e' m' else S e m e' m'))).
    + lia.
    + eapply bl_ext; [|exact HM]. intros. cbn beta.
      pose proof (idx_range n en e' m' ltac:(lia) ltac:(lia)).
      replace (m' + e' * n <? 0) with false by lia. rewrite andb_false_r, orb_false_r. reflexivity.
    + intros j M1 Hj HM1. destruct (idx_decode n en j ltac:(lia) Hj) as (e1 & m1 & He1 & Hm1 & ->).
      rewrite Hb by auto. rewrite (mget_bl n en M1 _ e0 m0 e1 m1 _ _ HM1) by auto. cbn [bind].
      match goal with |- wp (mset _ _ _ ?x) _ =>
        destruct (mset_bl n en M1 _ e0 m0 e1 m1 x _ _ HM1 He0 Hm0 He1 Hm1 eq_refl eq_refl) as [M2 [E2 HM2]] end.
      rewrite E2. cbn [wp]. eapply bl_ext; [|exact HM2]. intros e m e' m' He Hm He' Hm'. unfold upd.
      rewrite !Z.ltb_irrefl, andb_false_r. cbn [orb].
      rewrite idx_eqb by lia.
      destruct ((e =? e0) && (m =? m0) && ((e' =? e1) && (m' =? m1))) eqn:E.
      * assert (e = e0 /\ m = m0 /\ e' = e1 /\ m' = m1) as [-> [-> [-> ->]]] by lia.
        rewrite !Z.eqb_refl. replace (m1 + e1 * n <? m1 + e1 * n + 1) with true by lia.
        cbn [andb]. rewrite orb_true_r. reflexivity.
      * replace ((e =? e0) && (m =? m0) && (m' + e' * n <? m1 + e1 * n + 1))
          with ((e =? e0) && (m =? m0) && (m' + e' * n <? m1 + e1 * n)); [reflexivity|].
        destruct ((e =? e0) && (m =? m0)); cbn [andb] in *; [|reflexivity].
        pose proof (idx_eqb n e' m' e1 m1 Hm' Hm1). lia.
    + intros M1 HM1. eapply bl_ext; [|exact HM1]. intros e m e' m' He Hm He' Hm'. cbn beta.
      pose proof (idx_range n en e' m' Hm' He').
      replace (m' + e' * n <? n * en) with true by lia. rewrite andb_true_r.
      replace ((m + e * n <? m0 + e0 * n) || (m + e * n =? m0 + e0 * n))
        with (m + e * n <? m0 + e0 * n + 1) by lia. reflexivity.
  - intros M HM. eapply bl_ext; [|exact HM]. intros e m e' m' He Hm He' Hm'. cbn beta.
    pose proof (idx_range n en e m Hm He). replace (m + e * n <? n * en) with true by lia. reflexivity.
Qed.

End BlockLoops.
