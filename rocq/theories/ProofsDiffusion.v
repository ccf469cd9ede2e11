(* Proofs about the diffusion operators. *)
From Coq Require Import String ZArith List Bool Lia Reals Lra.
From Verif Require Import Base BaseLemmas NumR LinAlg Blocks BlockLoops ModelNumTools ModelEigen ModelMesh
  ModelReactor ModelDiffusion ProofsNumTools ProofsMesh.
Import ListNotations.
Local Open Scope Z_scope.

Ltac gets := repeat (first [ rewrite mget_ok by lia | rewrite vget_ok by lia | rewrite t3get_ok by lia ]; cbn [bind]).

(* ---------- what the accessors return ---------- *)

Section Data.
Context {T : Type} {N : Num T}.
Variable mpi : T.

Definition has_vec (r : res (vec T)) (n : Z) (f : Z -> T) : Prop :=
  exists v, r = Ok v /\ vlen v = n /\ forall i, 0 <= i < n -> vat v i = f i.
Definition has_mat (r : res (mat T)) (a b : Z) (f : Z -> Z -> T) : Prop :=
  exists m, r = Ok m /\ mrows m = a /\ mcols m = b /\
    forall i j, 0 <= i < a -> 0 <= j < b -> mat_at m i j = f i j.
Definition has_ten (r : res (ten3 T)) (a b c : Z) (f : Z -> Z -> Z -> T) : Prop :=
  exists t, r = Ok t /\ td0 t = a /\ td1 t = b /\ td2 t = c /\
    forall i j k, 0 <= i < a -> 0 <= j < b -> 0 <= k < c -> t3_at t i j k = f i j k.

(* The data a diffusion calculation reads from the mesh, in centimetres. *)
Record data := mkData {
  tD : Z -> Z -> T; ttot : Z -> Z -> T; tfis : Z -> Z -> T; tni : Z -> Z -> T; tchi : Z -> Z -> T;
  tsc : Z -> Z -> Z -> T;
  tdx : Z -> T; tS : Z -> T; tV : Z -> T
}.

Definition mesh_data (ms : mesh T) (en : Z) (d : data) : Prop :=
  let n := ms_cells ms in
  has_mat (getDiffusionConstantss ms) en n (tD d) /\
  has_mat (getTotalXSs ms) en n (ttot d) /\
  has_mat (getFissionXSs ms) en n (tfis d) /\
  has_mat (getNis ms) en n (tni d) /\
  has_mat (getChis ms) en n (tchi d) /\
  has_ten (getScattMatrices ms) en en n (tsc d) /\
  has_vec (getCellSizes ms "cm") n (tdx d) /\
  has_vec (getSurfaces mpi ms "cm") (n + 1) (tS d) /\
  has_vec (getVolumes mpi ms "cm") n (tV d).

End Data.
Arguments data : clear implicits.

(* ---------- the operators, any number type ---------- *)

Section Operators.
Context {T : Type} {N : Num T}.
Variable mpi : T.
Variable ms : mesh T.
Variable sd : solverData T.
Variable d : data T.
Let n := ms_cells ms.
Let en := sd_energies sd.
Hypothesis Hn : 2 <= n.
Hypothesis Hen : 0 <= en.
Hypothesis Hdata : mesh_data mpi ms en d.

(* interface coefficient between cells m and m + 1 *)
Definition dif (e m : Z) : T :=
  (tD d e m [*] tD d e (m + 1) [*] tS d (m + 1)) [/]
  (tdx d (m + 1) [*] tD d e m [+] tdx d m [*] tD d e (m + 1)).
Definition two : T := nofZ 2.
Definition mtwo : T := nopp (nofZ 2).
Definition rem (e m : Z) : T := nlit 1 2 [*] ttot d e m [*] tV d m.

(* tridiagonal block with diagonal dg *)
Definition tri (dg : Z -> Z -> T) (e m e' m' : Z) : T :=
  if e' =? e then
    if m' =? m - 1 then mtwo [*] dif e (m - 1)
    else if m' =? m + 1 then mtwo [*] dif e m
    else if m' =? m then dg e m else n0
  else n0.

Definition dgI (e m : Z) : T := two [*] (dif e m [+] dif e (m - 1) [+] rem e m).
Definition dgA (aL aR : T) (e m : Z) : T :=
  if m =? 0 then two [*] (dif e 0 [+] bcoef (tD d e 0) aL (tS d 0) (tdx d 0) [+] rem e 0)
  else if m =? n - 1
  then two [*] (bcoef (tD d e (n - 1)) aR (tS d n) (tdx d (n - 1)) [+] dif e (n - 2) [+] rem e (n - 1))
  else dgI e m.
Definition dgP (e m : Z) : T :=
  if m =? 0 then two [*] (dif e 0 [+] dif e (n - 2) [+] rem e 0)
  else if m =? n - 1 then two [*] (dif e 0 [+] dif e (n - 2) [+] rem e (n - 1))
  else dgI e m.

Definition periodicM (e m e' m' : Z) : T :=
  if (e' =? e) && (m =? 0) && (m' =? n - 1) then mtwo [*] dif e (n - 2)
  else if (e' =? e) && (m =? n - 1) && (m' =? 0) then mtwo [*] dif e 0
  else tri dgP e m e' m'.

Lemma interfaceDiff_wp dc :
  dc_mesh dc = ms -> dc_cells dc = n -> dc_en dc = en ->
  wp (getInterfaceDiff mpi dc) (fun r => mrows r = en /\ mcols r = n /\
    forall e m, 0 <= e < en -> 0 <= m < n -> mat_at r e m = if m <? n - 1 then dif e m else n0).
Proof.
  intros Hm Hc He. unfold getInterfaceDiff. rewrite Hm, Hc, He.
  destruct Hdata as ((D & ED & RD & CD & HD) & _ & _ & _ & _ & _ & (dx & Ex & Lx & Hx) & (S & ES & LS & HS) & _).
  rewrite Ex, ED, ES. cbn [bind]. fold n in Lx, LS, CD |- *.
  eapply (zfor_wp' (fun k r => mrows r = en /\ mcols r = n /\
    (forall e m, 0 <= e < k -> 0 <= m < n -> mat_at r e m = if m <? n - 1 then dif e m else n0) /\
    (forall e m, k <= e < en -> 0 <= m < n -> mat_at r e m = n0))).
  - lia.
  - repeat split; auto. intros; lia.
  - intros e r He' [Rr [Cr [H1 H2]]].
    eapply (zfor_wp' (fun k r => mrows r = en /\ mcols r = n /\
      (forall e' m, 0 <= e' < e -> 0 <= m < n -> mat_at r e' m = if m <? n - 1 then dif e' m else n0) /\
      (forall m, 0 <= m < k -> mat_at r e m = dif e m) /\
      (forall m, k <= m < n -> mat_at r e m = n0) /\
      (forall e' m, e + 1 <= e' < en -> 0 <= m < n -> mat_at r e' m = n0))).
    + lia.
    + repeat split; auto; intros; [lia| |]; apply H2; lia.
    + intros m r' Hm' [Rr' [Cr' [H3 [H4 [H5 H6]]]]].
      gets. rewrite mset_ok by lia. cbn [wp mrows mcols mat_at].
      repeat split; auto.
      * intros e' m0 ? ?. replace ((e' =? e) && (m0 =? m)) with false by lia. auto.
      * intros m0 ?. rewrite Z.eqb_refl. destruct (m0 =? m) eqn:E; cbn [andb].
        -- apply Z.eqb_eq in E. subst m0. unfold dif. rewrite !HD, !Hx, !HS by lia. reflexivity.
        -- apply H4. lia.
      * intros m0 ?. replace ((e =? e) && (m0 =? m)) with false by lia. apply H5; lia.
      * intros e' m0 ? ?. replace ((e' =? e) && (m0 =? m)) with false by lia. auto.
    + intros r' [Rr' [Cr' [H3 [H4 [H5 H6]]]]]. repeat split; auto.
      intros e' m ? ?. destruct (Z.eq_dec e' e) as [->|]; [|apply H3; lia].
      destruct (m <? n - 1) eqn:E; [apply H4; lia|apply H5; lia].
  - intros r [Rr [Cr [H1 H2]]]. auto.
Qed.

(* the rows of the interior cells *)
Lemma diffOperator_wp dc :
  dc_mesh dc = ms -> dc_cells dc = n -> dc_en dc = en ->
  vlen (dc_vol dc) = n -> (forall i, 0 <= i < n -> vat (dc_vol dc) i = tV d i) ->
  wp (calcDiffOperatorMatrix mpi dc) (fun M => bl n en M (fun e m e' m' =>
    if (1 <=? m) && (m <? n - 1) then tri dgI e m e' m' else n0)).
Proof.
  intros Hm Hc He Lv Hv. unfold calcDiffOperatorMatrix. rewrite Hm.
  destruct Hdata as (_ & (tot & Et & Rt & Ct & Ht) & _). rewrite Et. cbn [bind].
  apply wp_bind. eapply wp_mono; [apply (interfaceDiff_wp dc); auto|]. cbn beta.
  intros di [Rd [Cd Hd]]. rewrite Hc, He. fold n in Ct.
  eapply (zfor_wp' (fun k M => bl n en M (fun e m e' m' =>
    if ((0 <=? e) && (e <? k)) && ((1 <=? m) && (m <? n - 1)) then tri dgI e m e' m' else n0))).
  - lia.
  - eapply bl_ext; [|apply bl_const]. intros. cbn beta.
    replace ((0 <=? e) && (e <? 0)) with false by lia. reflexivity.
  - intros e0 M He0 HM.
    eapply (zfor_wp' (fun k M => bl n en M (fun e m e' m' =>
      if (((0 <=? e) && (e <? e0)) && ((1 <=? m) && (m <? n - 1))) || ((e =? e0) && ((1 <=? m) && (m <? k)))
      then tri dgI e m e' m' else n0))).
    + lia.
    + eapply bl_ext; [|exact HM]. intros. cbn beta.
      replace ((e =? e0) && ((1 <=? m) && (m <? 1))) with false by lia. rewrite orb_false_r. reflexivity.
    + intros m0 M1 Hm0 HM1.
      rewrite (mget_ok di) by lia. cbn [bind]. rewrite (mget_ok di) by lia. cbn [bind].
      rewrite (mget_ok tot) by lia. cbn [bind]. rewrite vget_ok by lia. cbn [bind].
      destruct (mset_bl n en M1 _ e0 m0 e0 (m0 - 1) (nopp (nofZ 2) [*] mat_at di e0 (m0 - 1))
         (m0 + e0 * n) (m0 - 1 + e0 * n) HM1) as [M2 [E2 HM2]]; try lia. rewrite E2. cbn [bind].
      destruct (mset_bl n en M2 _ e0 m0 e0 (m0 + 1) (nopp (nofZ 2) [*] mat_at di e0 m0)
         (m0 + e0 * n) (m0 + 1 + e0 * n) HM2) as [M3 [E3 HM3]]; try lia. rewrite E3. cbn [bind].
      destruct (mset_bl n en M3 _ e0 m0 e0 m0
         (nofZ 2 [*] (mat_at di e0 m0 [+] mat_at di e0 (m0 - 1) [+] nlit 1 2 [*] mat_at tot e0 m0 [*] vat (dc_vol dc) m0))
         (m0 + e0 * n) (m0 + e0 * n) HM3) as [M4 [E4 HM4]]; try lia. rewrite E4. cbn [wp].
      eapply bl_ext; [|exact HM4]. intros e m e' m' He1 Hm1 He2 Hm2. unfold upd.
      rewrite !Hd, Ht, Hv by lia.
      replace (m0 <? n - 1) with true by lia. replace (m0 - 1 <? n - 1) with true by lia.
      destruct ((e =? e0) && (m =? m0)) eqn:E; cbn [andb].
      * assert (e = e0 /\ m = m0) as [-> ->] by lia.
        replace (((0 <=? e0) && (e0 <? e0)) && ((1 <=? m0) && (m0 <? n - 1))) with false by lia.
        replace ((e0 =? e0) && ((1 <=? m0) && (m0 <? m0))) with false by lia.
        replace ((e0 =? e0) && ((1 <=? m0) && (m0 <? m0 + 1))) with true by lia. cbn [orb].
        unfold tri, dgI, rem, two, mtwo. destruct (e' =? e0) eqn:Ee; cbn [andb]; [|reflexivity].
        destruct (m' =? m0) eqn:Em1; cbn [andb].
        -- replace (m' =? m0 - 1) with false by lia. replace (m' =? m0 + 1) with false by lia. reflexivity.
        -- destruct (m' =? m0 + 1) eqn:Em2; cbn [andb]; [|reflexivity].
           replace (m' =? m0 - 1) with false by lia. reflexivity.
      * replace ((e =? e0) && ((1 <=? m) && (m <? m0 + 1))) with ((e =? e0) && ((1 <=? m) && (m <? m0))) by lia.
        reflexivity.
    + intros M1 HM1. eapply bl_ext; [|exact HM1]. intros. cbn beta.
      replace (((0 <=? e) && (e <? e0)) && ((1 <=? m) && (m <? n - 1)) || (e =? e0) && ((1 <=? m) && (m <? n - 1)))
        with (((0 <=? e) && (e <? e0 + 1)) && ((1 <=? m) && (m <? n - 1))) by lia. reflexivity.
  - intros M HM. eapply bl_ext; [|exact HM]. intros. cbn beta.
    replace ((0 <=? e) && (e <? en)) with true by lia. reflexivity.
Qed.

Definition interior (M : mat T) : Prop := bl n en M (fun e m e' m' =>
  if (1 <=? m) && (m <? n - 1) then tri dgI e m e' m' else n0).

Lemma boundary_albedo_wp dc M aL aR :
  dc_mesh dc = ms -> dc_cells dc = n -> dc_en dc = en ->
  vlen (dc_vol dc) = n -> (forall i, 0 <= i < n -> vat (dc_vol dc) i = tV d i) ->
  getAlbedos dc = Ok (aL, aR) ->
  is_equal aL (nofZ 2) && is_equal aR (nofZ 2) = false ->
  interior M ->
  wp (applyBoundaryConditions mpi dc M) (fun M => bl n en M (tri (dgA aL aR))).
Proof.
  intros Hm Hc He Lv Hv Ha Heq HM. unfold applyBoundaryConditions. rewrite Hm.
  destruct Hdata as ((D & ED & RD & CD & HD) & (tot & Et & Rt & Ct & Ht) & _ & _ & _ & _ &
    (dx & Ex & Lx & Hx) & (S & ES & LS & HS) & _).
  rewrite ED, Et, Ex, ES. cbn [bind].
  apply wp_bind. eapply wp_mono; [apply (interfaceDiff_wp dc); auto|]. cbn beta.
  intros di [Rd [Cd Hd]]. rewrite Ha. cbn [bind]. rewrite Heq. cbn [negb]. rewrite Hc, He.
  fold n in Ct, CD, Lx, LS.
  eapply (zfor_wp' (fun k M => bl n en M (fun e m e' m' =>
    if (e <? k) || ((1 <=? m) && (m <? n - 1)) then tri (dgA aL aR) e m e' m' else n0))).
  - lia.
  - eapply bl_ext; [|exact HM]. intros. cbn beta. replace (e <? 0) with false by lia. cbn [orb].
    destruct ((1 <=? m) && (m <? n - 1)) eqn:E; [|reflexivity].
    unfold tri, dgA. replace (m =? 0) with false by lia. replace (m =? n - 1) with false by lia. reflexivity.
  - intros e0 M1 He0 HM1. gets.
    destruct (mset_bl n en M1 _ e0 0 e0 1 (nopp (nofZ 2) [*] mat_at di e0 0)
       (e0 * n) (1 + e0 * n) HM1) as [M2 [E2 HM2]]; try lia. rewrite E2. cbn [bind].
    destruct (mset_bl n en M2 _ e0 0 e0 0 (nofZ 2 [*] (mat_at di e0 0 [+]
        bcoef (mat_at D e0 0) aL (vat S 0) (vat dx 0) [+] nlit 1 2 [*] mat_at tot e0 0 [*] vat (dc_vol dc) 0))
       (e0 * n) (e0 * n) HM2) as [M3 [E3 HM3]]; try lia. rewrite E3. cbn [bind]. gets.
    destruct (mset_bl n en M3 _ e0 (n - 1) e0 (n - 1 - 1) (nopp (nofZ 2) [*] mat_at di e0 (n - 1 - 1))
       (n - 1 + e0 * n) (n - 1 - 1 + e0 * n) HM3) as [M4 [E4 HM4]]; try lia. rewrite E4. cbn [bind].
    match goal with |- wp (mset _ _ _ ?x) _ =>
    destruct (mset_bl n en M4 _ e0 (n - 1) e0 (n - 1) x
       (n - 1 + e0 * n) (n - 1 + e0 * n) HM4) as [M5 [E5 HM5]]; try lia end. rewrite E5. cbn [wp].
    eapply bl_ext; [|exact HM5]. intros e m e' m' He1 Hm1 He2 Hm2. unfold upd.
    rewrite !Hd, !Ht, !Hv, !HD, !HS, !Hx by lia.
    replace (0 <? n - 1) with true by lia. replace (n - 1 - 1 <? n - 1) with true by lia.
    replace (n - 1 + 1) with n by lia. replace (n - 1 - 1) with (n - 2) by lia.
    destruct (e =? e0) eqn:Ee; cbn [andb].
    + assert (e = e0) by lia. subst e. replace (e0 <? e0 + 1) with true by lia.
      replace (e0 <? e0) with false by lia. cbn [orb].
      unfold tri, dgA, rem, two, mtwo.
      destruct (m =? n - 1) eqn:Em1; cbn [andb].
      { replace (m =? 0) with false by lia. cbn [andb]. replace ((1 <=? m) && (m <? n - 1)) with false by lia.
        assert (m = n - 1) by lia. subst m. replace (n - 1 - 1) with (n - 2) by lia.
        destruct (e' =? e0); cbn [andb]; [|reflexivity].
        destruct (m' =? n - 1) eqn:Em2; cbn [andb].
        - replace (m' =? n - 2) with false by lia. replace (m' =? n - 1 + 1) with false by lia. reflexivity.
        - destruct (m' =? n - 2); [reflexivity|]. replace (m' =? n - 1 + 1) with false by lia. reflexivity. }
      destruct (m =? 0) eqn:Em2; cbn [andb].
      { replace ((1 <=? m) && (m <? n - 1)) with false by lia. assert (m = 0) by lia. subst m.
        destruct (e' =? e0); cbn [andb]; [|reflexivity].
        replace (m' =? 0 - 1) with false by lia. cbn [Z.add].
        destruct (m' =? 0) eqn:Em3; cbn [andb].
        - replace (m' =? 1) with false by lia. reflexivity.
        - reflexivity. }
      replace ((1 <=? m) && (m <? n - 1)) with true by lia. reflexivity.
    + replace (e <? e0 + 1) with (e <? e0) by lia. reflexivity.
  - intros M1 HM1. eapply bl_ext; [|exact HM1]. intros. cbn beta.
    replace (e <? en) with true by lia. reflexivity.
Qed.

Lemma boundary_periodic_wp dc M aL aR :
  dc_mesh dc = ms -> dc_cells dc = n -> dc_en dc = en ->
  vlen (dc_vol dc) = n -> (forall i, 0 <= i < n -> vat (dc_vol dc) i = tV d i) ->
  getAlbedos dc = Ok (aL, aR) ->
  is_equal aL (nofZ 2) && is_equal aR (nofZ 2) = true ->
  interior M ->
  wp (applyBoundaryConditions mpi dc M) (fun M => bl n en M periodicM).
Proof.
  intros Hm Hc He Lv Hv Ha Heq HM. unfold applyBoundaryConditions. rewrite Hm.
  destruct Hdata as ((D & ED & RD & CD & HD) & (tot & Et & Rt & Ct & Ht) & _ & _ & _ & _ &
    (dx & Ex & Lx & Hx) & (S & ES & LS & HS) & _).
  rewrite ED, Et, Ex, ES. cbn [bind].
  apply wp_bind. eapply wp_mono; [apply (interfaceDiff_wp dc); auto|]. cbn beta.
  intros di [Rd [Cd Hd]]. rewrite Ha. cbn [bind]. rewrite Heq. cbn [negb]. rewrite Hc, He.
  fold n in Ct, CD, Lx, LS.
  eapply (zfor_wp' (fun k M => bl n en M (fun e m e' m' =>
    if e <? k then periodicM e m e' m'
    else if (1 <=? m) && (m <? n - 1) then tri dgI e m e' m' else n0))).
  - lia.
  - eapply bl_ext; [|exact HM]. intros. cbn beta. replace (e <? 0) with false by lia. reflexivity.
  - intros e0 M1 He0 HM1. gets.
    destruct (mset_bl n en M1 _ e0 0 e0 1 (nopp (nofZ 2) [*] mat_at di e0 0)
       (e0 * n) (1 + e0 * n) HM1) as [M2 [E2 HM2]]; try lia. rewrite E2. cbn [bind].
    match goal with |- wp (bind (mset _ _ _ ?x) _) _ =>
    destruct (mset_bl n en M2 _ e0 0 e0 0 x
       (e0 * n) (e0 * n) HM2) as [M3 [E3 HM3]]; try lia end. rewrite E3. cbn [bind].
    match goal with |- wp (bind (mset _ _ _ ?x) _) _ =>
    destruct (mset_bl n en M3 _ e0 (n - 1) e0 (n - 1 - 1) x
       (n - 1 + e0 * n) (n - 1 - 1 + e0 * n) HM3) as [M4 [E4 HM4]]; try lia end. rewrite E4. cbn [bind].
    match goal with |- wp (bind (mset _ _ _ ?x) _) _ =>
    destruct (mset_bl n en M4 _ e0 (n - 1) e0 (n - 1) x
       (n - 1 + e0 * n) (n - 1 + e0 * n) HM4) as [M5 [E5 HM5]]; try lia end. rewrite E5. cbn [bind].
    rewrite (mget_bl n en M5 _ e0 (n - 1 - 1) e0 (n - 1) _ _ HM5) by lia. cbn [bind].
    match goal with |- wp (bind (mset _ _ _ ?x) _) _ =>
    destruct (mset_bl n en M5 _ e0 0 e0 (n - 1) x
       (e0 * n) (n - 1 + e0 * n) HM5) as [M6 [E6 HM6]]; try lia end. rewrite E6. cbn [bind].
    rewrite (mget_bl n en M6 _ e0 0 e0 1 _ _ HM6) by lia. cbn [bind].
    match goal with |- wp (mset _ _ _ ?x) _ =>
    destruct (mset_bl n en M6 _ e0 (n - 1) e0 0 x
       (n - 1 + e0 * n) (e0 * n) HM6) as [M7 [E7 HM7]]; try lia end. rewrite E7. cbn [wp].
    eapply bl_ext; [|exact HM7]. intros e m e' m' He1 Hm1 He2 Hm2. unfold upd.
    rewrite !Hd, !Ht, !Hv by lia.
    replace (0 <? n - 1) with true by lia. replace (n - 1 - 1 <? n - 1) with true by lia.
    replace (n - 1 - 1) with (n - 2) by lia. rewrite !Z.eqb_refl. cbn [andb].
    unfold periodicM.
    destruct (e =? e0) eqn:Ee; cbn [andb].
    + assert (e = e0) by lia. subst e. unfold tri, dgP, dgI, rem, two, mtwo.
      destruct (m =? 0) eqn:Em0; [|destruct (m =? n - 1) eqn:Em1]; zdec; zcase; try reflexivity;
        repeat (f_equal; try lia).
    + replace (e <? e0 + 1) with (e <? e0) by lia. reflexivity.
  - intros M1 HM1. eapply bl_ext; [|exact HM1]. intros. cbn beta.
    replace (e <? en) with true by lia. reflexivity.
Qed.

(* ---------- scattering ---------- *)


Lemma msub_wp A B SA SB : bl n en A SA -> bl n en B SB ->
  wp (msub A B) (fun M => bl n en M (fun e m e' m' => SA e m e' m' [-] SB e m e' m')).
Proof.
  intros [RA [CA HA]] [RB [CB HB]]. unfold msub. rewrite RA, CA, RB, CB, !Z.eqb_refl. cbn [andb wp].
  repeat split; auto. intros. unfold blk. cbn [mat_at].
  pose proof (HA e m e' m') as HA'. unfold blk in HA'. rewrite HA' by auto.
  pose proof (HB e m e' m') as HB'. unfold blk in HB'. rewrite HB' by auto. reflexivity.
Qed.

Lemma fwdM_wp dc A SA : dc_mesh dc = ms -> dc_cells dc = n -> dc_en dc = en ->
  vlen (dc_vol dc) = n -> (forall i, 0 <= i < n -> vat (dc_vol dc) i = tV d i) ->
  bl n en A SA ->
  wp (fwdMMatrix dc A) (fun M => bl n en M (fun e m e' m' =>
    SA e m e' m' [-] (if m' =? m then tsc d e' e m [*] tV d m else n0))).
Proof.
  intros Hm Hc He Lv Hv HA. unfold fwdMMatrix. rewrite Hm, Hc, He.
  destruct Hdata as (_ & _ & _ & _ & _ & (sc & Es & D0 & D1 & D2 & Hs) & _). rewrite Es. cbn [bind].
  apply wp_bind. eapply wp_mono.
  - apply (scatt_loops n en ltac:(lia) ltac:(lia) (fun i j k M =>
         s <- t3get sc (Z.rem j en) (Z.rem (i + j) en) k ;; v <- vget (dc_vol dc) k ;;
         mset M (k + Z.rem (i + j) en * n) (k + j * n) (s [*] v)) (fun e e' m => tsc d e' e m [*] tV d m)).
    intros i j k M Hi Hj Hk.
    assert (Hr : 0 <= Z.rem (i + j) en < en) by (apply Z.rem_bound_pos; lia).
    rewrite (Z.rem_small j en) by lia. fold n in D2. rewrite t3get_ok by lia. cbn [bind].
    rewrite vget_ok by lia. cbn [bind]. rewrite Hs, Hv by lia. reflexivity.
  - cbn beta. intros B HB. eapply wp_mono; [apply msub_wp; eassumption|]. auto.
Qed.

Lemma adjM_wp dc A SA : dc_mesh dc = ms -> dc_cells dc = n -> dc_en dc = en ->
  vlen (dc_vol dc) = n -> (forall i, 0 <= i < n -> vat (dc_vol dc) i = tV d i) ->
  bl n en A SA ->
  wp (adjMMatrix dc A) (fun M => bl n en M (fun e m e' m' =>
    SA e m e' m' [-] (if m' =? m then tsc d e e' m [*] tV d m else n0))).
Proof.
  intros Hm Hc He Lv Hv HA. unfold adjMMatrix. rewrite Hm, Hc, He.
  destruct Hdata as (_ & _ & _ & _ & _ & (sc & Es & D0 & D1 & D2 & Hs) & _). rewrite Es. cbn [bind].
  apply wp_bind. eapply wp_mono.
  - apply (scatt_loops n en ltac:(lia) ltac:(lia) (fun i j k M =>
         s <- t3get sc (Z.rem (i + j) en) (Z.rem j en) k ;; v <- vget (dc_vol dc) k ;;
         mset M (k + Z.rem (i + j) en * n) (k + j * n) (s [*] v)) (fun e e' m => tsc d e e' m [*] tV d m)).
    intros i j k M Hi Hj Hk.
    assert (Hr : 0 <= Z.rem (i + j) en < en) by (apply Z.rem_bound_pos; lia).
    rewrite (Z.rem_small j en) by lia. fold n in D2. rewrite t3get_ok by lia. cbn [bind].
    rewrite vget_ok by lia. cbn [bind]. rewrite Hs, Hv by lia. reflexivity.
  - cbn beta. intros B HB. eapply wp_mono; [apply msub_wp; eassumption|]. auto.
Qed.

(* ---------- fission ---------- *)

Definition fp (e m : Z) : T := tfis d e m [*] tni d e m [*] tV d m.

Definition chivec (c : vec T) : Prop :=
  vlen c = n * en /\ forall e m, 0 <= e < en -> 0 <= m < n -> vat c (m + e * n) = tchi d e m.

Lemma fissDiagonal_wp dc : dc_mesh dc = ms -> dc_cells dc = n -> dc_en dc = en ->
  vlen (dc_vol dc) = n -> (forall i, 0 <= i < n -> vat (dc_vol dc) i = tV d i) ->
  wp (fissDiagonal dc) (fun s =>
    bl n en (fst s) (fun e m e' m' => if (e' =? e) && (m' =? m) then fp e m else n0) /\ chivec (snd s)).
Proof.
  intros Hm Hc He Lv Hv. unfold fissDiagonal. rewrite Hm, Hc, He.
  destruct Hdata as (_ & _ & (fis & Ef & Rf & Cf & Hf) & (ni & Ei & Ri & Ci & Hi) & (chi & Ec & Rc & Cc & Hch) & _).
  rewrite Ef, Ec, Ei. cbn [bind]. fold n in Cf, Ci, Cc.
  apply (diag_wp n en ltac:(lia) Hen fp (fun e m => tchi d e m) (fun j i st =>
    let '(F, c) := st in
    f <- mget fis j i ;; v <- mget ni j i ;; vv <- vget (dc_vol dc) i ;;
    F <- mset F (i + j * n) (i + j * n) (f [*] v [*] vv) ;; x <- mget chi j i ;;
    c <- vset c (i + j * n) x ;; Ok (F, c))).
  intros j i F c Hj Hi'. gets. unfold fp. rewrite Hf, Hi, Hch, Hv by lia. reflexivity.
Qed.

Lemma fwdF_wp dc : dc_mesh dc = ms -> dc_cells dc = n -> dc_en dc = en ->
  vlen (dc_vol dc) = n -> (forall i, 0 <= i < n -> vat (dc_vol dc) i = tV d i) ->
  wp (fwdFMatrix dc) (fun M => bl n en M (fun e m e' m' =>
    (if m' =? m then fp e' m else n0) [*] tchi d e m)).
Proof.
  intros Hm Hc He Lv Hv. unfold fwdFMatrix. rewrite Hc, He.
  apply wp_bind. eapply wp_mono; [apply fissDiagonal_wp; auto|]. cbn beta. intros [F c] [HF [Lc Hcv]].
  cbn [fst snd] in *. apply wp_bind. eapply wp_mono.
  - apply (spread_wp n en ltac:(lia) ltac:(lia) fp (fun e e' => e')) with (F := F); auto.
    intros g k m m' M ? ? ? ?. cbn beta. replace (m + k * n + (g - k) * n) with (m + g * n) by lia. reflexivity.
  - cbn beta. intros F1 HF1.
    apply (scale_wp n en ltac:(lia) ltac:(lia) (fun e m _ _ => tchi d e m) _ (fun i j F => x <- mget F i j ;; y <- vget c i ;; mset F i j (x [*] y)) F1 HF1).
    intros e m e' m' M He0 Hm0 He1 Hm1. cbn beta.
    pose proof (idx_range n en e m Hm0 He0). rewrite (vget_ok c) by lia. cbn [bind]. rewrite Hcv by auto. reflexivity.
Qed.

Lemma adjF_wp dc : dc_mesh dc = ms -> dc_cells dc = n -> dc_en dc = en ->
  vlen (dc_vol dc) = n -> (forall i, 0 <= i < n -> vat (dc_vol dc) i = tV d i) ->
  wp (adjFMatrix dc) (fun M => bl n en M (fun e m e' m' =>
    (if m' =? m then fp e m else n0) [*] tchi d e' m')).
Proof.
  intros Hm Hc He Lv Hv. unfold adjFMatrix. rewrite Hc, He.
  apply wp_bind. eapply wp_mono; [apply fissDiagonal_wp; auto|]. cbn beta. intros [F c] [HF [Lc Hcv]].
  cbn [fst snd] in *. apply wp_bind. eapply wp_mono.
  - apply (spread_wp n en ltac:(lia) ltac:(lia) fp (fun e e' => e)) with (F := F); auto.
    intros g k m m' M ? ? ? ?. cbn beta. replace (m' + g * n + (k - g) * n) with (m' + k * n) by lia. reflexivity.
  - cbn beta. intros F1 HF1.
    apply (scale_wp n en ltac:(lia) ltac:(lia) (fun _ _ e' m' => tchi d e' m') _ (fun i j F => x <- mget F i j ;; y <- vget c j ;; mset F i j (x [*] y)) F1 HF1).
    intros e m e' m' M He0 Hm0 He1 Hm1. cbn beta.
    pose proof (idx_range n en e' m' Hm1 He1). rewrite (vget_ok c) by lia. cbn [bind]. rewrite Hcv by auto. reflexivity.
Qed.

(* ---------- the two systems ---------- *)

Definition lossB : (Z -> Z -> Z -> Z -> T) -> (Z -> Z -> Z -> T) -> Z -> Z -> Z -> Z -> T :=
  fun A s e m e' m' => A e m e' m' [-] (if m' =? m then s e e' m [*] tV d m else n0).

Definition albedos (aL aR : T) : Prop :=
  match ms_geom ms with
  | SLAB => lget (sd_albedo sd) 0 = Ok aL /\ lget (sd_albedo sd) 1 = Ok aR
  | _ => aL = n1 /\ lget (sd_albedo sd) 0 = Ok aR
  end.

Definition boundaryB (aL aR : T) : Z -> Z -> Z -> Z -> T :=
  if is_equal aL (nofZ 2) && is_equal aR (nofZ 2) then periodicM else tri (dgA aL aR).

Lemma system_wp aL aR : albedos aL aR -> sd_dir sd <> DirUNDEFINED ->
  wp (diffusionSystem mpi ms sd) (fun MF =>
    match sd_dir sd with
    | FORWARD => bl n en (fst MF) (lossB (boundaryB aL aR) (fun e e' m => tsc d e' e m)) /\
        bl n en (snd MF) (fun e m e' m' => (if m' =? m then fp e' m else n0) [*] tchi d e m)
    | _ => bl n en (fst MF) (lossB (boundaryB aL aR) (fun e e' m => tsc d e e' m)) /\
        bl n en (snd MF) (fun e m e' m' => (if m' =? m then fp e m else n0) [*] tchi d e' m')
    end).
Proof.
  intros Ha Hd.
  pose proof Hdata as (_ & _ & _ & _ & _ & _ & _ & _ & (vol & Ev & Lv & Hv)).
  assert (Hc : newDiffCode mpi ms sd = Ok (mkDiffCode ms (sd_albedo sd) vol n en))
    by (unfold newDiffCode; rewrite Ev; reflexivity).
  set (dc := mkDiffCode ms (sd_albedo sd) vol n en) in *.
  assert (Hga : getAlbedos dc = Ok (aL, aR)).
  { unfold getAlbedos, dc; cbn [dc_mesh dc_albedo]. unfold albedos in Ha.
    destruct (ms_geom ms); destruct Ha as [H1 H2]; rewrite ?H1, ?H2; reflexivity. }
  assert (Hop : wp (d <- calcDiffOperatorMatrix mpi dc ;; applyBoundaryConditions mpi dc d)
      (fun M => bl n en M (boundaryB aL aR))).
  { apply wp_bind. eapply wp_mono; [apply diffOperator_wp; auto|]. cbn beta. intros M HM.
    unfold boundaryB. destruct (is_equal aL (nofZ 2) && is_equal aR (nofZ 2)) eqn:E.
    - eapply boundary_periodic_wp; eauto.
    - eapply boundary_albedo_wp; eauto. }
  apply wp_bind_inv in Hop.
  unfold diffusionSystem. destruct (sd_dir sd); [congruence| |]; rewrite Hc; cbn [bind]; fold dc;
    apply wp_bind; (eapply wp_mono; [exact Hop|]); cbn beta; intros A0 HA0;
    apply wp_bind; (eapply wp_mono; [exact HA0|]); cbn beta; intros A HA; apply wp_bind.
  - eapply wp_mono; [eapply fwdM_wp; eauto|]. cbn beta. intros M HM.
    apply wp_bind. eapply wp_mono; [apply fwdF_wp; auto|]. cbn beta. intros F HF. cbn [wp fst snd]. auto.
  - eapply wp_mono; [eapply adjM_wp; eauto|]. cbn beta. intros M HM.
    apply wp_bind. eapply wp_mono; [apply adjF_wp; auto|]. cbn beta. intros F HF. cbn [wp fst snd]. auto.
Qed.

End Operators.
