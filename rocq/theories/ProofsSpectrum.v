(* The loops of the collision probability codes as closed formulas. *)
From Coq Require Import String ZArith List Bool Lia Reals Lra.
From Verif Require Import Base BaseLemmas NumR Blocks BlockLoops ModelNumTools ModelEigen ModelMesh ModelReactor
  ModelSpectrum ProofsDiffusion.
Import ListNotations.
Local Open Scope Z_scope.

Section Ten4.
Context {T : Type}.
Lemma t4get_ok (t : ten4 T) i j k h :
  0 <= i < t4d0 t -> 0 <= j < t4d1 t -> 0 <= k < t4d2 t -> 0 <= h < t4d3 t ->
  t4get t i j k h = Ok (t4_at t i j k h).
Proof.
  intros. unfold t4get, t4in. rewrite !(proj2 (inb_true _ _)) by assumption. reflexivity.
Qed.
Lemma t4set_ok (t : ten4 T) i j k h x :
  0 <= i < t4d0 t -> 0 <= j < t4d1 t -> 0 <= k < t4d2 t -> 0 <= h < t4d3 t ->
  t4set t i j k h x = Ok (mkten4 (t4d0 t) (t4d1 t) (t4d2 t) (t4d3 t)
    (fun a b c d => if (a =? i) && (b =? j) && (c =? k) && (d =? h) then x else t4_at t a b c d)).
Proof.
  intros. unfold t4set, t4in. rewrite !(proj2 (inb_true _ _)) by assumption. reflexivity.
Qed.
End Ten4.

Ltac tgets := repeat (first
  [ rewrite mget_ok by lia | rewrite vget_ok by lia | rewrite t3get_ok by lia | rewrite t4get_ok by lia ];
  cbn [bind]).

Section Code.
Variables (expint3 bickley3f nexp nsqrt : R -> R).
Variable sc : specCode R.
Let n := sc_cells sc.
Let en := sc_en sc.
Hypothesis Hn : 0 <= n.
Hypothesis Hen : 0 <= en.
Hypothesis Hrad : vlen (sc_radii sc) = n + 1.
Hypothesis Hvol : vlen (sc_vol sc) = n.
Hypothesis Htr : en <= mrows (sc_tot sc).
Hypothesis Htc : mcols (sc_tot sc) = n.

Definition width_of (i : Z) : R := (vat (sc_radii sc) (i + 1) - vat (sc_radii sc) i)%R.
Definition vol_of (i : Z) : R := vat (sc_vol sc) i.
Definition sig_of (h i : Z) : R := mat_at (sc_tot sc) h i.
Definition own (h i : Z) : R := (width_of i * sig_of h i)%R.

(* ---------- slab optical distances ---------- *)

Lemma slabDelta_wp : wp (slabDelta sc) (fun d => vlen d = n /\ forall i, 0 <= i < n -> vat d i = width_of i).
Proof.
  unfold slabDelta. rewrite Hrad. replace (n + 1 - 1) with n by lia.
  eapply wp_mono; [apply (vfill n 0 n width_of)|]; try lia; auto.
  - intros i v Hi Hv. cbv beta. rewrite !vget_ok by lia. reflexivity.
  - intros d [L H]. split; auto. intros i Hi. rewrite H. zdec. reflexivity.
Qed.

Definition dims4 (t : ten4 R) : Prop := t4d0 t = n /\ t4d1 t = n /\ t4d2 t = m_rays /\ t4d3 t = en.

(* what the first pass of calcTracks leaves *)
Definition pass1 (h i j : Z) : R := rsum i (j + 1) (own h).

Lemma pass1_last h i j : i <= j -> pass1 h i (j + 1) = (own h (j + 1) + pass1 h i j)%R.
Proof. intros. unfold pass1. rewrite rsum_last by lia. ring. Qed.

(* tau holds F on the entries (i, j, 0, h) with i <= j selected by don, and
   g elsewhere on (i, j, 0, h) *)
Definition tri4 (don : Z -> Z -> Z -> bool) (F G : Z -> Z -> Z -> R) (t : ten4 R) : Prop :=
  dims4 t /\ forall i j h, 0 <= i <= j -> j < n -> 0 <= h < en ->
    t4_at t i j 0 h = if don i j h then F i j h else G i j h.

Lemma tri4_ext p q F G t : (forall i j h, 0 <= i <= j -> j < n -> 0 <= h < en -> p i j h = q i j h) ->
  tri4 p F G t -> tri4 q F G t.
Proof. intros H [D A]. split; auto. intros. rewrite A, H by auto. reflexivity. Qed.

(* triangular loops where each step fixes its own entry *)
Lemma tri4_loop (F G : Z -> Z -> Z -> R) (body : Z -> Z -> Z -> ten4 R -> res (ten4 R)) t0 :
  tri4 (fun _ _ _ => false) F G t0 ->
  (forall i j h t, 0 <= i <= j -> j < n -> 0 <= h < en ->
     tri4 (fun a b c => (c <? h) || ((c =? h) && ((a <? i) || ((a =? i) && (b <? j))))) F G t ->
     exists t', body h i j t = Ok t' /\ dims4 t' /\
       forall a b c, 0 <= a <= b -> b < n -> 0 <= c < en ->
         t4_at t' a b 0 c = if (a =? i) && (b =? j) && (c =? h) then F i j h else t4_at t a b 0 c) ->
  wp (zfor 0 en (fun h t => zfor 0 n (fun i t => zfor i n (body h i) t) t) t0)
     (tri4 (fun _ _ _ => true) F G).
Proof.
  intros H0 Hb.
  eapply (zfor_wp' (fun k => tri4 (fun a b c => c <? k) F G)).
  - lia.
  - eapply tri4_ext; [|exact H0]. intros; cbn beta; lia.
  - intros h t Hh Ht.
    eapply (zfor_wp' (fun k => tri4 (fun a b c => (c <? h) || ((c =? h) && (a <? k))) F G)).
    + lia.
    + eapply tri4_ext; [|exact Ht]. intros; cbn beta; lia.
    + intros i t1 Hi Ht1.
      eapply (zfor_wp' (fun k => tri4 (fun a b c => (c <? h) || ((c =? h) && ((a <? i) || ((a =? i) && (b <? k))))) F G)).
      * lia.
      * eapply tri4_ext; [|exact Ht1]. intros; cbn beta; lia.
      * intros j t2 Hj Ht2.
        destruct (Hb i j h t2 ltac:(lia) ltac:(lia) Hh Ht2) as (t3 & E & D & A).
        rewrite E. cbn [wp]. split; auto. intros a b c Ha Hb' Hc. rewrite A by auto.
        destruct Ht2 as [_ B]. rewrite B by auto.
        destruct ((a =? i) && (b =? j) && (c =? h)) eqn:E1.
        -- assert (a = i /\ b = j /\ c = h) as [-> [-> ->]] by lia.
           replace ((h <? h) || ((h =? h) && ((i <? i) || ((i =? i) && (j <? j + 1))))) with true by lia.
           reflexivity.
        -- match goal with |- (if ?u then _ else _) = (if ?v then _ else _) => replace v with u by lia end.
           reflexivity.
      * intros t2. apply tri4_ext. intros; lia.
    + intros t1. apply tri4_ext. intros; lia.
  - intros t. apply tri4_ext. intros; lia.
Qed.

(* the optical distance of two cells *)
Definition gap (h i j : Z) : R := if i =? j then own h i else rsum (i + 1) j (own h).

Lemma slabTracks_wp :
  (forall h i, 0 <= h < en -> 0 <= i < n -> (0 <= own h i)%R) ->
  wp (slabTracks sc) (fun t => dims4 t /\ forall h i j, 0 <= i <= j -> j < n -> 0 <= h < en ->
     t4_at t i j 0 h = gap h i j).
Proof.
  intros Hpos. unfold slabTracks. fold n en.
  apply wp_bind. eapply wp_mono; [exact slabDelta_wp|]. intros dl [Ld Hd].
  apply wp_bind.
  eapply wp_mono; [apply (tri4_loop (fun i j h => pass1 h i j) (fun _ _ _ => 0%R))|].
  - split; [repeat split|]. intros. reflexivity.
  - intros i j h t Hij Hj Hh [D A]. pose proof D as (D0 & D1 & D2 & D3).
    assert (H8 : m_rays = 8) by reflexivity.
    assert (Hown : forall k, 0 <= k < n -> (vat dl k * mat_at (sc_tot sc) h k)%R = own h k)
      by (intros; unfold own, sig_of; rewrite Hd by lia; reflexivity).
    assert (P0 : forall k, 0 <= k < n -> (i <> 0 \/ k < j) -> t4_at t 0 k 0 h = pass1 h 0 k).
    { intros k Hk Hc. rewrite A by lia. replace ((h <? h) || _) with true by lia. reflexivity. }
    destruct (i =? j) eqn:Eij.
    + assert (j = i) by lia. subst j. tgets. rewrite t4set_ok by lia. eexists. split; [reflexivity|].
      split; [exact D|]. intros a b c Ha Hb Hc. cbn [t4_at]. rewrite Z.eqb_refl, andb_true_r.
      destruct ((a =? i) && (b =? i) && (c =? h)); [|reflexivity]. rnum. rewrite Hown by lia.
      unfold pass1. rewrite rsum_one. reflexivity.
    + destruct (i =? 0) eqn:Ei.
      * assert (i = 0) by lia. subst i. tgets. rewrite t4set_ok by lia. eexists. split; [reflexivity|].
        split; [exact D|]. intros a b c Ha Hb Hc. cbn [t4_at]. rewrite Z.eqb_refl, andb_true_r.
        destruct ((a =? 0) && (b =? j) && (c =? h)); [|reflexivity]. rnum. rewrite Hown by lia.
        rewrite P0 by lia. replace j with (j - 1 + 1) at 3 by lia. rewrite pass1_last by lia.
        replace (j - 1 + 1) with j by lia. reflexivity.
      * tgets. rewrite t4set_ok by lia. eexists. split; [reflexivity|].
        split; [exact D|]. intros a b c Ha Hb Hc. cbn [t4_at]. rewrite Z.eqb_refl, andb_true_r.
        destruct ((a =? i) && (b =? j) && (c =? h)); [|reflexivity]. rnum. rewrite Hown by lia.
        rewrite !P0 by lia. unfold pass1. replace (j - 1 + 1) with j by lia. replace (i - 1 + 1) with i by lia.
        rewrite rsum_last by lia. rewrite (rsum_split 0 i j) by lia. ring.
  - cbv beta. intros t1 [D1 A1].
    eapply wp_mono; [apply (tri4_loop (fun i j h => gap h i j) (fun i j h => pass1 h i j))|].
    + split; [exact D1|]. intros. rewrite A1 by auto. reflexivity.
    + intros i j h t Hij Hj Hh [D A]. pose proof D as (D0 & D1' & D2 & D3).
      assert (H8 : m_rays = 8) by reflexivity.
      assert (Hown : forall k, 0 <= k < n -> (vat dl k * mat_at (sc_tot sc) h k)%R = own h k)
        by (intros; unfold own, sig_of; rewrite Hd by lia; reflexivity).
      assert (Pij : t4_at t i j 0 h = pass1 h i j).
      { rewrite A by lia. replace ((h <? h) || _) with false by lia. reflexivity. }
      assert (Hgap : (0 <= gap h i j)%R).
      { unfold gap. destruct (i =? j); [apply Hpos; lia|]. apply rsum_nonneg. intros; apply Hpos; lia. }
      destruct (i =? j) eqn:Eij.
      * assert (j = i) by lia. subst j. cbn [bind]. tgets. rewrite Pij.
        assert (pass1 h i i = gap h i i) as Eg.
        { unfold gap, pass1. rewrite Z.eqb_refl, rsum_one. reflexivity. }
        rewrite Eg. rnum. replace (Rltb (gap h i i) 0) with false by (symmetry; apply Rltb_false; exact Hgap).
        exists t. split; [reflexivity|]. split; [exact D|]. intros a b c Ha Hb Hc.
        destruct ((a =? i) && (b =? i) && (c =? h)) eqn:E; [|reflexivity].
        assert (a = i /\ b = i /\ c = h) as [-> [-> ->]] by lia. rewrite Pij. exact Eg.
      * tgets. rewrite t4set_ok by lia. cbn [bind]. rewrite t4get_ok by (cbn; lia). cbn [bind t4_at].
        rewrite !Z.eqb_refl. cbn [andb]. rewrite Pij. rnum. rewrite !Hown by lia.
        assert (Eg : (pass1 h i j - (own h j + own h i))%R = gap h i j).
        { unfold gap, pass1. rewrite Eij. rewrite rsum_last by lia. rewrite rsum_first by lia. ring. }
        rewrite Eg. replace (Rltb (gap h i j) 0) with false by (symmetry; apply Rltb_false; exact Hgap).
        eexists. split; [reflexivity|]. split; [exact D|]. intros a b c Ha Hb Hc. cbn [t4_at].
        rewrite Z.eqb_refl, andb_true_r. reflexivity.
    + intros t [D A]. split; [exact D|]. intros h i j Hi Hj Hh. rewrite (A i j h) by auto. reflexivity.
Qed.

(* ---------- loops over pairs of cells ---------- *)

Lemma pair_loop_from {S} (I : (Z -> Z -> bool) -> S -> Prop) (st : Z) (lo : Z -> Z) (hi : Z)
    (body : Z -> Z -> S -> res S) s0 :
  st <= n ->
  (forall p q s, (forall a b, st <= a < n -> lo a <= b < hi -> p a b = q a b) -> I p s -> I q s) ->
  I (fun _ _ => false) s0 ->
  (forall i j s, st <= i < n -> lo i <= j < hi ->
     I (fun a b => (a <? i) || ((a =? i) && (b <? j))) s ->
     wp (body i j s) (I (fun a b => (a <? i) || ((a =? i) && (b <? j + 1))))) ->
  wp (zfor st n (fun i s => zfor (lo i) hi (body i) s) s0) (I (fun _ _ => true)).
Proof.
  intros Hst Hext H0 Hb.
  eapply (zfor_wp' (fun k => I (fun a b => a <? k))).
  - lia.
  - eapply Hext; [|exact H0]. intros; cbn beta; lia.
  - intros i s Hi Hs. destruct (Z_lt_le_dec hi (lo i)) as [Hl|Hl].
    + rewrite zfor_empty by lia. cbn [wp]. eapply Hext; [|exact Hs]. intros a b Ha Hb'. cbn beta.
      destruct (Z.eq_dec a i) as [->|]; lia.
    + eapply (zfor_wp' (fun k => I (fun a b => (a <? i) || ((a =? i) && (b <? k))))).
      * lia.
      * eapply Hext; [|exact Hs]. intros a b Ha Hb'; cbn beta. destruct (Z.eq_dec a i) as [->|]; lia.
      * intros j s1 Hj Hs1. apply Hb; auto.
      * intros s1. apply Hext. intros; lia.
  - intros s. apply Hext. intros; lia.
Qed.

Lemma pair_loop {S} (I : (Z -> Z -> bool) -> S -> Prop) (lo : Z -> Z) (hi : Z)
    (body : Z -> Z -> S -> res S) s0 :
  (forall p q s, (forall a b, 0 <= a < n -> lo a <= b < hi -> p a b = q a b) -> I p s -> I q s) ->
  I (fun _ _ => false) s0 ->
  (forall i j s, 0 <= i < n -> lo i <= j < hi ->
     I (fun a b => (a <? i) || ((a =? i) && (b <? j))) s ->
     wp (body i j s) (I (fun a b => (a <? i) || ((a =? i) && (b <? j + 1))))) ->
  wp (zfor 0 n (fun i s => zfor (lo i) hi (body i) s) s0) (I (fun _ _ => true)).
Proof. apply pair_loop_from. exact Hn. Qed.

Definition dims3 (g : ten3 R) : Prop := td0 g = n /\ td1 g = n /\ td2 g = en.

(* each step rewrites its own entry of slice h *)
Lemma slice_map (f : Z -> Z -> R -> R) h (body : Z -> Z -> ten3 R -> res (ten3 R)) g0 :
  dims3 g0 -> 0 <= h < en ->
  (forall i j g, 0 <= i < n -> 0 <= j < n -> dims3 g ->
     body i j g = t3set g i j h (f i j (t3_at g i j h))) ->
  wp (zfor 0 n (fun i g => zfor 0 n (body i) g) g0)
     (fun g => dims3 g /\ forall a b c, 0 <= a < n -> 0 <= b < n ->
        t3_at g a b c = if c =? h then f a b (t3_at g0 a b c) else t3_at g0 a b c).
Proof.
  intros D0 Hh Hb.
  eapply wp_mono; [apply (pair_loop (fun p g => dims3 g /\ forall a b c, 0 <= a < n -> 0 <= b < n ->
     t3_at g a b c = if (c =? h) && p a b then f a b (t3_at g0 a b c) else t3_at g0 a b c) (fun _ => 0) n)|].
  - intros p q g H [D A]. split; auto. intros. rewrite A, H by auto. reflexivity.
  - split; auto. intros. rewrite andb_false_r. reflexivity.
  - intros i j g Hi Hj [D A]. rewrite Hb by auto. destruct D as (? & ? & ?).
    rewrite t3set_ok by lia. cbn [wp]. split; [repeat split; auto|]. intros a b c Ha Hb'. cbn [t3_at].
    destruct ((a =? i) && (b =? j) && (c =? h)) eqn:E.
    + assert (a = i /\ b = j /\ c = h) as [-> [-> ->]] by lia. rewrite A by auto. zdec. reflexivity.
    + rewrite A by auto. match goal with |- (if ?u then _ else _) = (if ?v then _ else _) => replace v with u by lia end.
      reflexivity.
  - intros g [D A]. split; auto. intros. rewrite A by auto. rewrite andb_true_r. reflexivity.
Qed.

(* ---------- slab collision probabilities ---------- *)

Section SlabCP.
Variable t : Z -> Z -> Z -> R.   (* optical distances: group, cell, cell *)
Local Open Scope R_scope.
Definition slab_up (h i j : Z) : R :=
  if (j =? i)%Z then 1 - 1 / (2 * t h i i) * (1 - 2 * expint3 (t h i i))
  else 1 / (2 * t h i i) * (expint3 (t h i j) - expint3 (t h i j + t h i i) - expint3 (t h i j + t h j j)
                            + expint3 (t h i j + t h j j + t h i i)).
Definition slab_P (h i j : Z) : R :=
  if (i <=? j)%Z then slab_up h i j
  else slab_up h j i * (sig_of h j / sig_of h i) * (vol_of j / vol_of i).
End SlabCP.

Lemma slabCPs_wp (tau : ten4 R) (t : Z -> Z -> Z -> R) :
  dims4 tau -> (forall h i j, 0 <= i <= j -> j < n -> 0 <= h < en -> t4_at tau i j 0 h = t h i j) ->
  wp (slabCPs expint3 sc tau) (fun g => dims3 g /\
    forall h i j, 0 <= h < en -> 0 <= i < n -> 0 <= j < n -> t3_at g i j h = slab_P t h i j).
Proof.
  intros (D0 & D1 & D2 & D3) Ht. unfold slabCPs. fold n en. change m_rays with 8 in D2.
  apply wp_bind.
  eapply (zfor_wp' (fun k (Pg : mat R * ten3 R) => (mrows (fst Pg) = n /\ mcols (fst Pg) = n) /\ dims3 (snd Pg) /\
    forall h i j, 0 <= h < k -> 0 <= i < n -> 0 <= j < n -> t3_at (snd Pg) i j h = slab_P t h i j)).
  - lia.
  - repeat split. intros; lia.
  - intros h [P g] Hh ([RP CP] & Dg & Hg). cbn [fst snd] in *.
    apply wp_bind.
    eapply wp_mono; [apply (pair_loop (fun p P => (mrows P = n /\ mcols P = n) /\
       forall a b, 0 <= a <= b -> b < n -> p a b = true -> mat_at P a b = slab_up t h a b) (fun i => i) n)|].
    + intros p q s H [D A]. split; auto. intros a b Ha Hb Hq. apply A; auto. rewrite H; auto; lia.
    + split; auto. intros; discriminate.
    + intros i j P1 Hi Hj [[R1 C1] A].
      assert (W : forall x, x = slab_up t h i j -> wp (mset P1 i j x) (fun s => (mrows s = n /\ mcols s = n) /\
         forall a b, 0 <= a <= b -> b < n -> (a <? i) || ((a =? i) && (b <? j + 1)) = true -> mat_at s a b = slab_up t h a b)).
      { intros x ->. rewrite mset_ok by lia. cbn [wp mrows mcols mat_at]. split; auto. intros a b Ha Hb Hp.
        destruct ((a =? i) && (b =? j)) eqn:E.
        - assert (a = i /\ b = j) as [-> ->] by lia. reflexivity.
        - apply A; auto. lia. }
      rewrite t4get_ok by lia. cbn [bind].
      destruct (j =? i) eqn:E.
      * apply W. unfold slab_up. rewrite E. rewrite !Ht by lia. rnum. reflexivity.
      * tgets. apply W. unfold slab_up. rewrite E. rewrite !Ht by lia. rnum. reflexivity.
    + cbv beta. intros P1 [[R1 C1] A1].
      apply wp_bind.
      eapply wp_mono; [apply (pair_loop (fun p P => (mrows P = n /\ mcols P = n) /\
         (forall a b, 0 <= a <= b -> b < n -> mat_at P a b = slab_up t h a b) /\
         forall a b, 0 <= a < b -> b < n -> p a b = true -> mat_at P b a = slab_P t h b a) (fun i => i + 1) n)|].
      * intros p q s H (D & A & B). repeat split; try apply D; auto. intros a b Ha Hb Hq. apply B; auto. rewrite H; auto; lia.
      * repeat split; auto. intros; discriminate.
      * intros i j P2 Hi Hj ([R2 C2] & A & B). tgets. rewrite mset_ok by lia.
        cbn [wp mrows mcols mat_at]. split; [auto|]. split.
        -- intros a b Ha Hb. replace ((a =? j) && (b =? i)) with false by lia. apply A; auto.
        -- intros a b Ha Hb Hp. destruct ((b =? j) && (a =? i)) eqn:E.
           ++ assert (a = i /\ b = j) as [-> ->] by lia. rewrite A by lia. unfold slab_P.
              replace (j <=? i) with false by lia. rnum. reflexivity.
           ++ apply B; auto. lia.
      * cbv beta. intros P2 ([R2 C2] & A & B).
        assert (HP : forall i j, 0 <= i < n -> 0 <= j < n -> mat_at P2 i j = slab_P t h i j).
        { intros i j Hi Hj. destruct (Z_le_gt_dec i j).
          - rewrite A by lia. unfold slab_P. zdec. reflexivity.
          - apply B; auto; lia. }
        apply wp_bind.
        eapply wp_mono; [apply (slice_map (fun i j _ => mat_at P2 i j) h)|]; auto.
        -- intros i j g1 Hi Hj Dg1. tgets. reflexivity.
        -- cbv beta. intros g1 [D A']. cbn [wp fst snd]. split; [auto|]. split; [exact D|].
           intros h' i j Hh' Hi Hj. rewrite A' by auto. destruct (h' =? h) eqn:E.
           ++ assert (h' = h) by lia. subst h'. apply HP; auto.
           ++ apply Hg; auto. lia.
  - intros [P g] (_ & D & A). cbn [wp snd] in *. split; auto.
Qed.

(* ---------- curved geometries: rays ---------- *)

Local Open Scope R_scope.
Definition absc (i : Z) : R := nth (Z.to_nat i) (abscissa (T := R)) 0.
Definition wgt (i : Z) : R := nth (Z.to_nat i) (weights (T := R)) 0.
(* distance of ray i through the annulus k to the centre *)
Definition ray (k i : Z) : R := vat (sc_radii sc) (k + 1) - width_of k * (absc i) ^ 2.
(* length of the ray from its middle to the outer radius of cell j *)
Definition chord (k j i : Z) : R := nsqrt (vat (sc_radii sc) (j + 1) ^ 2 - ray k i ^ 2).
(* length in cell l *)
Definition seg (k l i : Z) : R := chord k l i - (if (l =? k)%Z then 0 else chord k (l - 1) i).
Definition opt (h k j i : Z) : R := rsum k (j + 1) (fun l => seg k l i * sig_of h l).
Local Close Scope R_scope.

Lemma npow2 (x : R) : npow x 2 = (x ^ 2)%R.
Proof. unfold npow. cbn. rnum. ring. Qed.

Lemma curvedTracks_wp :
  wp (curvedTracks nsqrt sc) (fun zt =>
    (td0 (fst zt) = n /\ td1 (fst zt) = n /\ td2 (fst zt) = 8) /\
    (forall k j i, 0 <= k <= j -> j < n -> 0 <= i < 8 -> t3_at (fst zt) k j i = ray k i) /\
    dims4 (snd zt) /\
    forall h k j i, 0 <= h < en -> 0 <= k <= j -> j < n -> 0 <= i < 8 ->
      t4_at (snd zt) k j i h = opt h k j i).
Proof.
  unfold curvedTracks. fold n en. change m_rays with 8.
  apply wp_bind.
  set (D := fun g : ten3 R => td0 g = n /\ td1 g = n /\ td2 g = 8).
  set (I := fun (p : Z -> Z -> Z -> bool) (st : ten3 R * ten3 R) => D (fst st) /\ D (snd st) /\
    forall k j i, 0 <= k <= j -> j < n -> 0 <= i < 8 -> p k j i = true ->
      t3_at (fst st) k j i = ray k i /\ t3_at (snd st) k j i = chord k j i).
  assert (Iext : forall p q st, (forall k j i, 0 <= k <= j -> j < n -> 0 <= i < 8 -> q k j i = true -> p k j i = true) ->
    I p st -> I q st).
  { intros p q st H (A & B & C). repeat split; try apply A; try apply B; apply C; auto. }
  assert (Hlen : zlen (abscissa (T := R)) = 8) by reflexivity.
  eapply wp_mono; [apply (pair_loop (fun p => I (fun k j i => p k j)) (fun k => k) n)|].
  - intros p q st H. apply Iext. intros k j i Hk Hj Hi Hq. rewrite H; auto; lia.
  - repeat split; discriminate.
  - intros k j st Hk Hj Hst.
    eapply (zfor_wp' (fun r => I (fun a b c => ((a <? k) || ((a =? k) && (b <? j))) || ((a =? k) && (b =? j) && (c <? r))))).
    + lia.
    + eapply Iext; [|exact Hst]. intros. cbn beta in *. lia.
    + intros i [zz tr] Hi ((Z0 & Z1 & Z2) & (T0 & T1 & T2) & A). cbn [fst snd] in *.
      tgets. rewrite (lget_ok _ _ 0%R) by lia. cbn [bind].
      rewrite t3set_ok by lia. cbn [bind]. rewrite t3get_ok by (cbn; lia). cbn [bind t3_at].
      tgets. rewrite t3set_ok by lia. cbn [bind wp]. rewrite !Z.eqb_refl. cbn [andb].
      split; [repeat split; auto|]. split; [repeat split; auto|]. cbn [fst snd t3_at].
      intros a b c Ha Hb Hc Hp.
      destruct ((a =? k) && (b =? j) && (c =? i)) eqn:E.
      * assert (a = k /\ b = j /\ c = i) as [-> [-> ->]] by lia.
        unfold chord, ray, width_of, absc. rewrite !npow2. rnum. split; reflexivity.
      * apply A; auto. lia.
    + intros st'. apply Iext. intros. cbn beta in *. lia.
  - intros [zz tr] (Dz & Dt & A). cbn [fst snd] in *.
    assert (Hz : forall k j i, 0 <= k <= j -> j < n -> 0 <= i < 8 -> t3_at zz k j i = ray k i) by (intros; apply A; auto).
    assert (Htk : forall k j i, 0 <= k <= j -> j < n -> 0 <= i < 8 -> t3_at tr k j i = chord k j i) by (intros; apply A; auto).
    destruct Dt as (T0 & T1 & T2).
    set (J := fun (p : Z -> Z -> Z -> Z -> bool) (t : ten4 R) => dims4 t /\
      forall h k j i, 0 <= h < en -> 0 <= k <= j -> j < n -> 0 <= i < 8 -> p h k j i = true -> t4_at t k j i h = opt h k j i).
    assert (Jext : forall p q t, (forall h k j i, 0 <= h < en -> 0 <= k <= j -> j < n -> 0 <= i < 8 -> q h k j i = true -> p h k j i = true) ->
      J p t -> J q t).
    { intros p q t H (B & C). split; auto. }
    apply wp_bind.
    eapply (zfor_wp' (fun u => J (fun h k j i => h <? u))).
    + lia.
    + split; [repeat split|]. intros; lia.
    + intros h t Hh Ht.
      eapply (zfor_wp' (fun u => J (fun h' k j i => (h' <? h) || ((h' =? h) && (k <? u))))).
      * lia.
      * eapply Jext; [|exact Ht]. intros; cbn beta in *; lia.
      * intros k t1 Hk Ht1.
        eapply (zfor_wp' (fun u => J (fun h' k' j i => ((h' <? h) || ((h' =? h) && (k' <? k))) || ((h' =? h) && (k' =? k) && (i <? u))))).
        -- lia.
        -- eapply Jext; [|exact Ht1]. intros; cbn beta in *; lia.
        -- intros i t2 Hi Ht2.
           eapply (zfor_wp' (fun u => J (fun h' k' j' i' => ((h' <? h) || ((h' =? h) && (k' <? k))) || ((h' =? h) && (k' =? k) &&
               ((i' <? i) || ((i' =? i) && (j' <? u))))))).
           ++ lia.
           ++ eapply Jext; [|exact Ht2]. intros; cbn beta in *; lia.
           ++ intros j t3 Hj [(D0 & D1 & D2 & D3) B]. change m_rays with 8 in D2.
              assert (W : forall x, x = opt h k j i -> wp (t4set t3 k j i h x) (J (fun h' k' j' i' => ((h' <? h) || ((h' =? h) && (k' <? k))) || ((h' =? h) && (k' =? k) &&
               ((i' <? i) || ((i' =? i) && (j' <? j + 1))))))).
              { intros x ->. rewrite t4set_ok by lia. cbn [wp]. split; [repeat split; auto|]. intros h' k' j' i' A1 A2 A3 A4 A5. cbn [t4_at].
                destruct ((k' =? k) && (j' =? j) && (i' =? i) && (h' =? h)) eqn:E.
                - assert (k' = k /\ j' = j /\ i' = i /\ h' = h) as [-> [-> [-> ->]]] by lia. reflexivity.
                - apply B; auto. lia. }
              tgets. destruct (j =? k) eqn:E.
              ** apply W. rewrite Htk by lia. assert (j = k) by lia. subst j. unfold opt, seg. rewrite rsum_one, Z.eqb_refl.
                 rnum. unfold sig_of. ring.
              ** tgets. apply W. rewrite !Htk by lia. rewrite B by lia. rnum.
                 unfold opt at 2. rewrite rsum_last by lia. unfold seg at 2. rewrite E. unfold opt.
                 replace (j - 1 + 1) with j by lia. fold (sig_of h j). ring.
           ++ intros t3. apply Jext. intros; cbn beta in *; lia.
        -- intros t2. apply Jext. intros; cbn beta in *; lia.
      * intros t1. apply Jext. intros; cbn beta in *; lia.
    + intros t [B C]. cbn [wp fst snd]. split; [exact Dz|]. split; [exact Hz|]. split; [exact B|].
      intros. apply C; auto. lia.
Qed.

(* ---------- curved geometries: collision probabilities ---------- *)

Section Curved.
Variable sph : bool.
Variable mpi : R.
Variable t : Z -> Z -> Z -> Z -> R.   (* group, ray's annulus, cell, ray *)
Variable z : Z -> Z -> R.             (* ray's annulus, ray *)
Local Notation ker := (kernel bickley3f nexp sph).

Local Open Scope R_scope.
Definition tb (h m i k : Z) : R := if (i <? m)%Z then 0 else t h m i k.
Definition D1 (h m i j k : Z) : R :=
  ker (tb h m j k + tb h m (i - 1) k) - ker (tb h m j k + tb h m i k)
  + ker (tb h m j k - tb h m i k) - ker (tb h m j k - tb h m (i - 1) k).
Definition D2 (h m i k : Z) : R :=
  2 * ker (tb h m i k + tb h m (i - 1) k) + 2 * (ker 0 - ker (tb h m i k - tb h m (i - 1) k))
  - ker (tb h m i k + tb h m i k) - ker (tb h m (i - 1) k + tb h m (i - 1) k).
Definition omega (m k : Z) : R :=
  if sph then wgt k * width_of m * z m k else wgt k * width_of m.
Definition fac (h i : Z) : R :=
  if sph then mpi * 4 / (vol_of i * sig_of h i) else 4 / (vol_of i * sig_of h i).
Definition G1 (h m i j : Z) : R := rsum 0 8 (fun k => D1 h m i j k * omega m k) * fac h i.
Definition G2 (h m i : Z) : R := rsum 0 8 (fun k => D2 h m i k * omega m k) * fac h i.
Definition S1 (h i j : Z) : R := rsum 0 (i + 1) (fun m => G1 h m i j).
Definition S2 (h i : Z) : R := rsum 0 (i + 1) (fun m => G2 h m i).
Definition curved_up (h i j : Z) : R := if (j =? i)%Z then 1 - S2 h i else S1 h i (j - 1) - S1 h i j.
Definition curved_P (h i j : Z) : R :=
  if (i <=? j)%Z then curved_up h i j
  else curved_up h j i * (vol_of j / vol_of i) * (sig_of h j / sig_of h i).
Local Close Scope R_scope.

Variable zz : ten3 R.
Variable tau : ten4 R.
Hypothesis Hzd : td0 zz = n /\ td1 zz = n /\ td2 zz = 8.
Hypothesis Hz : forall m j k, 0 <= m <= j -> j < n -> 0 <= k < 8 -> t3_at zz m j k = z m k.
Hypothesis Htd : dims4 tau.
Hypothesis Ht : forall h m j k, 0 <= h < en -> 0 <= m <= j -> j < n -> 0 <= k < 8 ->
  t4_at tau m j k h = t h m j k.

Definition dimsn (g : ten3 R) : Prop := td0 g = n /\ td1 g = n /\ td2 g = n.

Lemma rayWeight_eq x m k : (rayWeight sph x (wgt k) (width_of m) (if sph then z m k else 0%R) = x * omega m k)%R.
Proof. unfold rayWeight, omega. case sph; rnum; ring. Qed.

Lemma rayStep_ok h m i j k c1 c2 :
  0 <= h < en -> 0 <= m <= i -> i <= j < n -> 0 <= k < 8 -> dimsn c1 -> dimsn c2 ->
  exists c1' c2', rayStep bickley3f nexp sph sc zz tau h m i j k (c1, c2) = Ok (c1', c2') /\
    dimsn c1' /\ dimsn c2' /\
    (forall a b c, t3_at c1' a b c = if (a =? m) && (b =? i) && (c =? j) then (D1 h m i j k * omega m k + t3_at c1 m i j)%R else t3_at c1 a b c) /\
    (forall a b c, t3_at c2' a b c = if (a =? m) && (b =? i) && (c =? j) && (j =? i)
        then (D2 h m i k * omega m k + t3_at c2 m i j)%R else t3_at c2 a b c).
Proof.
  intros Hh Hm Hi Hk (A0 & A1 & A2) (B0 & B1 & B2).
  destruct Htd as (E0 & E1 & E2 & E3). change m_rays with 8 in E2. destruct Hzd as (Z0 & Z1 & Z2).
  assert (Lw : zlen (weights (T := R)) = 8) by reflexivity.
  unfold rayStep.
  set (X := if m <? i then _ else _).
  assert (HX : exists mb pb pbb, X = Ok (mb, pb, pbb) /\
     D1 h m i j k = (ker pb - ker (t h m j k - t h m i k + 2 * t h m i k) + ker (t h m j k - t h m i k) - ker mb)%R /\
     (j = i -> D2 h m i k = (2 * ker pb + 2 * (ker (t h m j k - t h m i k) - ker mb) - ker (t h m j k - t h m i k + 2 * t h m i k) - ker pbb)%R)).
  { unfold X. destruct (m <? i) eqn:E.
    - tgets. rewrite !Ht by lia. eexists _, _, _. split; [reflexivity|]. rnum.
      unfold D1, D2, tb. zdec.
      assert (Ea : forall x y : R, (x - y + 2 * y = x + y)%R) by (intros; ring). rewrite !Ea.
      split; [reflexivity|]. intros ->. replace (t h m i k - t h m i k)%R with 0%R by ring. reflexivity.
    - eexists _, _, _. split; [reflexivity|]. rnum. assert (i = m) by lia. subst i.
      unfold D1, D2, tb. zdec.
      assert (Ea : forall x y : R, (x - y + 2 * y = x + y)%R) by (intros; ring). rewrite !Ea.
      rewrite !Rplus_0_r, !Rminus_0_r. split; [ring|]. intros ->.
      replace (t h m m k - t h m m k)%R with 0%R by ring. ring. }
  destruct HX as (mb & pb & pbb & -> & HD1 & HD2). cbn [bind]. tgets.
  rewrite (lget_ok _ _ 0%R) by lia. cbn [bind]. tgets. fold (wgt k).
  assert (Ez : (if sph then Ok (t3_at zz m j k) else Ok n0) = Ok (if sph then z m k else 0%R)).
  { case sph; [|reflexivity]. rewrite Hz by lia. reflexivity. }
  rewrite Ez. cbn [bind]. rewrite !Ht by lia.
  change (vat (sc_radii sc) (m + 1) [-] vat (sc_radii sc) m) with (width_of m).
  rewrite !rayWeight_eq. rnum.
  destruct (j =? i) eqn:E.
  - assert (j = i) by lia. subst j. rewrite <- HD1, <- HD2 by reflexivity.
    tgets. rewrite t3set_ok by lia. cbn [bind]. tgets. rewrite t3set_ok by lia. cbn [bind].
    eexists _, _. split; [reflexivity|]. repeat split; auto. intros a b c. cbn [t3_at]. rewrite andb_true_r. reflexivity.
  - cbn [bind]. rewrite <- HD1. tgets. rewrite t3set_ok by lia. cbn [bind].
    eexists _, _. split; [reflexivity|]. repeat split; auto. intros a b c. rewrite andb_false_r. reflexivity.
Qed.

Lemma cpSets_wp h : 0 <= h < en ->
  wp (cpSets mpi bickley3f nexp sph sc zz tau h) (fun st => dimsn (fst st) /\ dimsn (snd st) /\
    forall m i j, 0 <= m <= i -> i <= j < n ->
      t3_at (fst st) m i j = G1 h m i j /\ (j = i -> t3_at (snd st) m i j = G2 h m i)).
Proof.
  intros Hh. unfold cpSets. fold n. change m_rays with 8.
  set (I := fun (p : Z -> Z -> Z -> bool) (st : ten3 R * ten3 R) => dimsn (fst st) /\ dimsn (snd st) /\
    forall m i j, 0 <= m <= i -> i <= j < n ->
      t3_at (fst st) m i j = (if p m i j then G1 h m i j else 0%R) /\
      (j = i -> t3_at (snd st) m i j = (if p m i j then G2 h m i else 0%R))).
  assert (Iext : forall p q st, (forall m i j, 0 <= m <= i -> i <= j < n -> p m i j = q m i j) -> I p st -> I q st).
  { intros p q st H (A & B & C). split; [exact A|]. split; [exact B|]. intros m i j Hm Hi.
    rewrite <- H by auto. apply C; auto. }
  eapply (zfor_wp' (fun u => I (fun m i j => m <? u))).
  - lia.
  - split; [repeat split|]. split; [repeat split|]. intros m i j Hm Hi. replace (m <? 0) with false by lia. cbn. auto.
  - intros m st Hm Hst.
    eapply wp_mono; [apply (pair_loop_from (fun p => I (fun m' i j => (m' <? m) || ((m' =? m) && p i j))) m (fun i => i) n)|].
    + lia.
    + intros p q s H. apply Iext. intros m' i j Hm' Hi. destruct (m' =? m) eqn:E; [|reflexivity].
      rewrite H by lia. reflexivity.
    + eapply Iext; [|exact Hst]. intros. cbn beta. rewrite andb_false_r, orb_false_r. reflexivity.
    + clear st Hst. intros i j [c1 c2] Hi Hj (DA & DB & A). cbn [fst snd] in *.
      apply wp_bind.
      eapply (zfor_wp' (fun r (st : ten3 R * ten3 R) => dimsn (fst st) /\ dimsn (snd st) /\
        (forall a b c, t3_at (fst st) a b c = if (a =? m) && (b =? i) && (c =? j)
            then rsum 0 r (fun k => D1 h m i j k * omega m k)%R else t3_at c1 a b c) /\
        (forall a b c, t3_at (snd st) a b c = if (a =? m) && (b =? i) && (c =? j) && (j =? i)
            then rsum 0 r (fun k => D2 h m i k * omega m k)%R else t3_at c2 a b c))).
      * lia.
      * cbn [fst snd]. rewrite !rsum_empty by lia. split; [exact DA|]. split; [exact DB|].
        destruct (A m i j ltac:(lia) ltac:(lia)) as [A1 A2].
        replace ((m <? m) || _) with false in A1, A2 by lia.
        split; intros a b c.
        -- destruct ((a =? m) && (b =? i) && (c =? j)) eqn:E; [|reflexivity].
           assert (a = m /\ b = i /\ c = j) as [-> [-> ->]] by lia. exact A1.
        -- destruct ((a =? m) && (b =? i) && (c =? j) && (j =? i)) eqn:E; [|reflexivity].
           assert (a = m /\ b = i /\ c = j) as [-> [-> ->]] by lia. apply A2. lia.
      * intros k [e1 e2] Hk (DE1 & DE2 & B1 & B2). cbn [fst snd] in *.
        destruct (rayStep_ok h m i j k e1 e2 Hh ltac:(lia) ltac:(lia) Hk DE1 DE2)
          as (e1' & e2' & -> & F1 & F2 & F3 & F4). cbn [wp fst snd].
        split; [exact F1|]. split; [exact F2|]. rewrite !rsum_last by lia. split; intros a b c.
        -- rewrite F3, B1. rewrite !Z.eqb_refl. cbn [andb]. destruct ((a =? m) && (b =? i) && (c =? j)) eqn:E; [ring|].
           rewrite B1, E. reflexivity.
        -- rewrite F4. destruct ((a =? m) && (b =? i) && (c =? j) && (j =? i)) eqn:E.
           ++ rewrite B2. rewrite !Z.eqb_refl. cbn [andb]. replace (j =? i) with true by lia. ring.
           ++ rewrite B2, E. reflexivity.
      * intros [e1 e2] (DE1 & DE2 & B1 & B2). cbn [fst snd] in *.
        destruct DE1 as (? & ? & ?). destruct DE2 as (? & ? & ?). tgets.
        rewrite t3set_ok by lia. cbn [bind]. tgets. rewrite t3set_ok by lia. cbn [bind wp fst snd].
        split; [repeat split; auto|]. split; [repeat split; auto|]. cbn [fst snd t3_at].
        assert (Ef : cpFactor mpi sph (vat (sc_vol sc) i [*] mat_at (sc_tot sc) h i) = fac h i) by reflexivity.
        rewrite Ef. intros m' i' j' Hm' Hi'.
        destruct ((m' =? m) && (i' =? i) && (j' =? j)) eqn:E.
        -- assert (m' = m /\ i' = i /\ j' = j) as [-> [-> ->]] by lia.
           replace ((m <? m) || _) with true by lia. rewrite B1, !Z.eqb_refl. cbn [andb].
           split; [reflexivity|]. intros ->. rewrite B2, !Z.eqb_refl. reflexivity.
        -- match goal with |- context [if ?u then G1 _ _ _ _ else _] =>
             replace u with ((m' <? m) || ((m' =? m) && ((i' <? i) || ((i' =? i) && (j' <? j))))) by lia end.
           destruct (A m' i' j' Hm' Hi') as [A1 A2].
           rewrite B1, E, B2, E. cbn [andb]. split; [exact A1|exact A2].
    + intros st'. apply Iext. intros. cbn beta. lia.
  - intros st (A & B & C). split; [exact A|]. split; [exact B|]. intros m i j Hm Hi.
    destruct (C m i j Hm Hi) as [C1 C2]. replace (m <? n) with true in C1, C2 by lia. auto.
Qed.

Lemma cpSums_wp h c1 c2 : dimsn c1 -> dimsn c2 ->
  (forall m i j, 0 <= m <= i -> i <= j < n ->
      t3_at c1 m i j = G1 h m i j /\ (j = i -> t3_at c2 m i j = G2 h m i)) ->
  wp (cpSums sc c1 c2) (fun st => (mrows (fst st) = n /\ mcols (fst st) = n) /\ (mrows (snd st) = n /\ mcols (snd st) = n) /\
    (forall i j, 0 <= i <= j -> j < n -> mat_at (fst st) i j = S1 h i j) /\
    (forall i, 0 <= i < n -> mat_at (snd st) i i = S2 h i)).
Proof.
  intros (A0 & A1 & A2) (B0 & B1 & B2) Hc. unfold cpSums. fold n.
  set (sq := fun M : mat R => mrows M = n /\ mcols M = n).
  set (I := fun (u v : Z) (st : mat R * mat R) => sq (fst st) /\ sq (snd st) /\
    (forall i j, 0 <= i <= j -> j < n -> mat_at (fst st) i j =
       if i <? u then S1 h i j else if i =? u then rsum 0 v (fun m => G1 h m i j) else 0%R) /\
    (forall i, 0 <= i < n -> mat_at (snd st) i i =
       if i <? u then S2 h i else if i =? u then rsum 0 v (fun m => G2 h m i) else 0%R)).
  eapply (zfor_wp' (fun u => I u 0)).
  - lia.
  - split; [split; auto|]. split; [split; auto|]. split; intros; cbn [fst snd mat_at mzeros mconst];
      rewrite rsum_empty by lia; zcase; reflexivity.
  - intros i st Hi Hst.
    eapply (zfor_wp' (fun v => I i v)).
    + lia.
    + exact Hst.
    + intros m [C1 C2] Hm ([R1 K1] & [R2 K2] & P1 & P2). cbn [fst snd] in *.
      tgets. unfold madd_at at 1. tgets. rewrite mset_ok by lia. cbn [bind].
      apply wp_bind.
      eapply (zfor_wp' (fun w (C : mat R) => sq C /\ forall a b, 0 <= a <= b -> b < n ->
         mat_at C a b = if (a =? i) && (b <? w) then rsum 0 (m + 1) (fun m => G1 h m i b) else mat_at C1 a b)).
      * lia.
      * split; [split; auto|]. intros a b Ha Hb. replace ((a =? i) && (b <? i)) with false by lia. reflexivity.
      * intros j C Hj [[R3 K3] P3]. unfold madd_at. tgets. rewrite mset_ok by lia. cbn [wp].
        split; [split; auto|]. intros a b Ha Hb. cbn [mat_at]. destruct ((a =? i) && (b =? j)) eqn:E.
        -- assert (a = i /\ b = j) as [-> ->] by lia. rewrite P3 by lia.
           replace ((i =? i) && (j <? j)) with false by lia. replace ((i =? i) && (j <? j + 1)) with true by lia.
           rewrite P1 by lia. zdec. rewrite (proj1 (Hc m i j ltac:(lia) ltac:(lia))). rewrite rsum_last by lia. rnum. reflexivity.
        -- rewrite P3 by lia. replace ((a =? i) && (b <? j + 1)) with ((a =? i) && (b <? j)) by lia. reflexivity.
      * intros C [[R3 K3] P3]. cbn [wp]. split; [split; auto|]. split; [split; auto|]. cbn [fst snd mat_at]. split.
        -- intros a b Ha Hb. rewrite P3 by lia. destruct (a =? i) eqn:E.
           ++ assert (a = i) by lia. subst a. zdec. reflexivity.
           ++ cbn [andb]. rewrite P1 by lia. rewrite E. reflexivity.
        -- intros a Ha. destruct (a =? i) eqn:E.
           ++ assert (a = i) by lia. subst a. cbn [andb]. zdec. rewrite P2 by lia. zdec.
              rewrite (proj2 (Hc m i i ltac:(lia) ltac:(lia)) eq_refl). rewrite rsum_last by lia. rnum. reflexivity.
           ++ cbn [andb]. rewrite P2 by lia. rewrite E. reflexivity.
    + intros st' (X1 & X2 & X3 & X4). split; [exact X1|]. split; [exact X2|]. split.
      * intros a b Ha Hb. rewrite X3 by lia. zcase; try reflexivity.
        all: try (rewrite rsum_empty by lia; reflexivity).
        all: try (assert (a = i) by lia; subst a; reflexivity).
      * intros a Ha. rewrite X4 by lia. zcase; try reflexivity.
        all: try (rewrite rsum_empty by lia; reflexivity).
        all: try (assert (a = i) by lia; subst a; reflexivity).
  - intros st (X1 & X2 & X3 & X4). split; [exact X1|]. split; [exact X2|]. split.
    + intros a b Ha Hb. rewrite X3 by lia. zdec. reflexivity.
    + intros a Ha. rewrite X4 by lia. zdec. reflexivity.
Qed.

Lemma curvedGroup_wp h g0 : 1 <= n -> 0 <= h < en -> dims3 g0 ->
  wp (curvedGroup mpi bickley3f nexp sph sc zz tau h g0) (fun g => dims3 g /\
    forall i j c, 0 <= i < n -> 0 <= j < n ->
      t3_at g i j c = if c =? h then curved_P h i j else t3_at g0 i j c).
Proof.
  intros Hn1 Hh Dg. unfold curvedGroup. fold n.
  apply wp_bind. eapply wp_mono; [apply cpSets_wp; exact Hh|]. intros [c1 c2] (DA & DB & Hc). cbn [fst snd] in *.
  apply wp_bind. eapply wp_mono; [apply (cpSums_wp h); auto|]. intros [C1 C2] ([R1 K1] & [R2 K2] & HC1 & HC2). cbn [fst snd] in *.
  destruct Dg as (D0 & D1' & D2'). tgets. rewrite t3set_ok by lia. cbn [bind].
  set (g1 := mkten3 _ _ _ _).
  assert (Hg1 : dims3 g1 /\ forall a b c, c <> h -> t3_at g1 a b c = t3_at g0 a b c).
  { split; [repeat split; auto|]. intros a b c Hc'. cbn [g1 t3_at]. replace (c =? h) with false by lia.
    rewrite andb_false_r. reflexivity. }
  set (I := fun (p : Z -> Z -> bool) (g : ten3 R) => dims3 g /\
    (forall a b c, c <> h -> t3_at g a b c = t3_at g0 a b c) /\
    (forall a b, 0 <= a <= b -> b < n -> p a b = true -> t3_at g a b h = curved_up h a b)).
  apply wp_bind.
  eapply wp_mono; [apply (pair_loop (fun p => I (fun a b => (a <? b) && p a (b - 1))) (fun i => i) (n - 1))|].
  - intros p q g H (X & Y & Z'). split; [exact X|]. split; [exact Y|]. intros a b Ha Hb Hq. apply Z'; auto.
    destruct (a <? b) eqn:E; [|discriminate]. rewrite H; auto; lia.
  - destruct Hg1. split; auto. split; auto. intros. rewrite andb_false_r in *. discriminate.
  - intros i j g Hi Hj ((X0 & X1 & X2) & Y & W). tgets. rewrite t3set_ok by lia. cbn [wp].
    split; [repeat split; auto|]. split.
    + intros a b c Hc'. cbn [t3_at]. replace (c =? h) with false by lia. rewrite andb_false_r. apply Y; auto.
    + intros a b Ha Hb Hp. cbn [t3_at]. rewrite Z.eqb_refl, andb_true_r.
      destruct ((a =? i) && (b =? j + 1)) eqn:E.
      * assert (a = i /\ b = j + 1) as [-> ->] by lia. unfold curved_up. replace (j + 1 =? i) with false by lia.
        rewrite !HC1 by lia. replace (j + 1 - 1) with j by lia. rnum. reflexivity.
      * apply W; auto. lia.
  - cbv beta. intros g2 H2.
    apply wp_bind.
    eapply (zfor_wp' (fun u => I (fun a b => (a <? b) || ((a =? b) && (a <? u))))).
    + lia.
    + destruct H2 as (X & Y & W). split; [exact X|]. split; [exact Y|]. intros a b Ha Hb Hp. apply W; auto. lia.
    + intros i g Hi ((X0 & X1 & X2) & Y & W). tgets. rewrite t3set_ok by lia. cbn [wp].
      split; [repeat split; auto|]. split.
      * intros a b c Hc'. cbn [t3_at]. replace (c =? h) with false by lia. rewrite andb_false_r. apply Y; auto.
      * intros a b Ha Hb Hp. cbn [t3_at]. rewrite Z.eqb_refl, andb_true_r.
        destruct ((a =? i) && (b =? i)) eqn:E.
        -- assert (a = i /\ b = i) as [-> ->] by lia. unfold curved_up. rewrite Z.eqb_refl.
           rewrite HC2 by lia. rnum. reflexivity.
        -- apply W; auto. lia.
    + intros g3 (X & Y & W).
      eapply wp_mono; [apply (pair_loop (fun p g => I (fun _ _ => true) g /\
         forall a b, 0 <= a < b -> b < n -> p a b = true -> t3_at g b a h = curved_P h b a) (fun i => i + 1) n)|].
      * intros p q g H [A B]. split; [exact A|]. intros a b Ha Hb Hq. apply B; auto. rewrite H; auto; lia.
      * split; [|intros; discriminate]. split; [exact X|]. split; [exact Y|]. intros a b Ha Hb _. apply W; auto. lia.
      * intros i j g Hi Hj [((X0 & X1 & X2) & Y' & W') L]. tgets. rewrite t3set_ok by lia. cbn [wp].
        split; [split; [repeat split; auto|split]|].
        -- intros a b c Hc'. cbn [t3_at]. replace (c =? h) with false by lia. rewrite andb_false_r. apply Y'; auto.
        -- intros a b Ha Hb Hp. cbn [t3_at]. replace ((a =? j) && (b =? i)) with false by lia. apply W'; auto.
        -- intros a b Ha Hb Hp. cbn [t3_at]. rewrite Z.eqb_refl, andb_true_r.
           destruct ((b =? j) && (a =? i)) eqn:E.
           ++ assert (a = i /\ b = j) as [-> ->] by lia. rewrite W' by (auto; lia). unfold curved_P.
              replace (j <=? i) with false by lia. rnum. reflexivity.
           ++ apply L; auto. lia.
      * cbv beta. intros g [(X' & Y' & W') L]. split; [exact X'|]. intros i j c Hi Hj.
        destruct (c =? h) eqn:E; [|apply Y'; lia]. assert (c = h) by lia. subst c.
        destruct (Z_le_gt_dec i j).
        -- rewrite W' by (auto; lia). unfold curved_P. zdec. reflexivity.
        -- apply L; auto; lia.
Qed.

Lemma curvedCPs_wp : 1 <= n ->
  wp (curvedCPs mpi bickley3f nexp sph sc zz tau) (fun g => dims3 g /\
    forall h i j, 0 <= h < en -> 0 <= i < n -> 0 <= j < n -> t3_at g i j h = curved_P h i j).
Proof.
  intros Hn1. unfold curvedCPs. fold n en.
  eapply (zfor_wp' (fun u g => dims3 g /\ forall h i j, 0 <= h < u -> 0 <= i < n -> 0 <= j < n -> t3_at g i j h = curved_P h i j)).
  - lia.
  - split; [repeat split|]. intros; lia.
  - intros h g Hh [D A]. eapply wp_mono; [apply curvedGroup_wp; auto|]. cbv beta. intros g' [D' A'].
    split; auto. intros h' i j Hh' Hi Hj. rewrite A' by auto. destruct (h' =? h) eqn:E.
    + assert (h' = h) by lia. subst h'. reflexivity.
    + apply A; auto. lia.
  - auto.
Qed.
End Curved.

(* ---------- the albedo correction ---------- *)

Section White.
Variable P : Z -> Z -> Z -> R.   (* vacuum probabilities: group, from, to *)
Variable a : R.
Local Open Scope R_scope.
Definition esc (h i : Z) : R := 1 - rsum 0 n (P h i).
Definition back (h i : Z) : R := 4 * vol_of i / sc_surface sc * esc h i.
Definition pss (h : Z) : R := 1 - rsum 0 n (fun i => back h i * sig_of h i).
Definition white (h i j : Z) : R :=
  P h i j + esc h i * back h j * (a / (1 - pss h * a)) * sig_of h j.
Local Close Scope R_scope.

Hypothesis Hsig : forall h i, 0 <= h < en -> 0 <= i < n -> sig_of h i <> 0%R.
Hypothesis Halb : lget (sc_albedo sc) 0 = Ok a.

Lemma whiteGroup_wp h g0 : 0 <= h < en -> dims3 g0 ->
  (forall i j, 0 <= i < n -> 0 <= j < n -> t3_at g0 i j h = P h i j) ->
  wp (whiteGroup sc h g0) (fun g => dims3 g /\
    forall i j c, 0 <= i < n -> 0 <= j < n ->
      t3_at g i j c = if c =? h then white h i j else t3_at g0 i j c).
Proof.
  intros Hh D0 Hg0. unfold whiteGroup. fold n. rewrite Halb. cbn [bind].
  apply wp_bind. eapply wp_mono; [apply (slice_map (fun i j x => x / sig_of h j)%R h); auto|].
  { intros i j g Hi Hj (E0 & E1 & E2). tgets. reflexivity. }
  cbv beta. intros g1 [(E0 & E1 & E2) H1].
  assert (H1h : forall i j, 0 <= i < n -> 0 <= j < n -> t3_at g1 i j h = (P h i j / sig_of h j)%R).
  { intros i j Hi Hj. rewrite H1, Hg0 by auto. zdec. reflexivity. }
  apply wp_bind.
  eapply (zfor_wp' (fun k (st : vec R * vec R) => vlen (fst st) = n /\ vlen (snd st) = n /\
    (forall i, 0 <= i < k -> vat (fst st) i = esc h i /\ vat (snd st) i = back h i) /\
    (forall i, k <= i < n -> vat (fst st) i = 0%R))).
  - lia.
  - cbn. repeat split; intros; lia.
  - intros i [Pis psi] Hi (L1 & L2 & A & B). cbn [fst snd] in *.
    apply wp_bind.
    eapply (zfor_wp' (fun k (v : vec R) => vlen v = n /\ forall q, vat v q = if q =? i then rsum 0 k (P h i) else vat Pis q)).
    + lia.
    + split; auto. intros q. rewrite rsum_empty by lia. destruct (q =? i) eqn:E; [|reflexivity].
      assert (q = i) by lia. subst q. apply B. lia.
    + intros j v Hj [L V]. unfold vadd_at. tgets. rewrite vset_ok by lia. cbn [wp vlen vat]. split; auto.
      intros q. rewrite !V. rewrite Z.eqb_refl. destruct (q =? i) eqn:E; [|reflexivity].
      rewrite rsum_last by lia. rewrite H1h by lia. fold (sig_of h j). rnum. f_equal. field. apply Hsig; lia.
    + intros v [L V]. tgets. rewrite vset_ok by lia. cbn [bind]. cbn [vlen].
      rewrite vget_ok by (cbn; lia). cbn [bind]. tgets. rewrite vset_ok by lia. cbn [bind wp fst snd vlen vat].
      rewrite Z.eqb_refl. rewrite V, Z.eqb_refl. repeat split; auto.
      * destruct (i0 =? i) eqn:E.
        -- assert (i0 = i) by lia. subst i0. reflexivity.
        -- rewrite V, E. apply A. lia.
      * destruct (i0 =? i) eqn:E.
        -- assert (i0 = i) by lia. subst i0. reflexivity.
        -- apply A. lia.
      * intros q Hq. replace (q =? i) with false by lia. rewrite V. replace (q =? i) with false by lia. apply B. lia.
  - intros [Pis psi] (L1 & L2 & A & _). cbn [fst snd] in *.
    apply wp_bind.
    eapply (zfor_wp' (fun k x => x = rsum 0 k (fun i => back h i * sig_of h i)%R)).
    + lia.
    + rewrite rsum_empty by lia. reflexivity.
    + intros i x Hi ->. tgets. cbn [wp]. rewrite rsum_last by lia. rewrite (proj2 (A i Hi)). rnum. reflexivity.
    + intros x ->. change (n1 [-] rsum 0 n (fun i => back h i * sig_of h i)%R) with (pss h).
      eapply wp_mono; [apply (slice_map (fun i j x => (x + esc h i * back h j * (a / (1 - pss h * a))) * sig_of h j)%R h); auto|].
      * repeat split; auto.
      * intros i j g Hi Hj (F0 & F1 & F2). tgets. rewrite (proj1 (A i Hi)), (proj2 (A j Hj)). reflexivity.
      * cbv beta. intros g [D G]. split; auto. intros i j c Hi Hj. rewrite G by auto. destruct (c =? h) eqn:E.
        -- assert (c = h) by lia. subst c. rewrite H1h by auto. unfold white.
           generalize (esc h i * back h j * (a / (1 - pss h * a)))%R. intros y. field. apply Hsig; auto.
        -- rewrite H1 by auto. rewrite E. reflexivity.
Qed.

Lemma whiteBoundary_wp g0 : dims3 g0 ->
  (forall h i j, 0 <= h < en -> 0 <= i < n -> 0 <= j < n -> t3_at g0 i j h = P h i j) ->
  wp (whiteBoundary sc g0) (fun g => dims3 g /\
    forall h i j, 0 <= h < en -> 0 <= i < n -> 0 <= j < n ->
      t3_at g i j h = (white h i j / sig_of h j)%R).
Proof.
  intros D0 H0. unfold whiteBoundary. fold n en.
  apply wp_bind.
  eapply (zfor_wp' (fun k g => dims3 g /\ forall h i j, 0 <= h < en -> 0 <= i < n -> 0 <= j < n ->
     t3_at g i j h = if h <? k then white h i j else P h i j)).
  - lia.
  - split; auto. intros. rewrite H0 by auto. zdec. reflexivity.
  - intros h g Hh [D A]. eapply wp_mono; [apply whiteGroup_wp; auto|].
    + intros i j Hi Hj. rewrite A by auto. zdec. reflexivity.
    + cbv beta. intros g' [D' A']. split; auto. intros h' i j Hh' Hi Hj. rewrite A' by auto. rewrite A by auto.
      destruct (h' =? h) eqn:E.
      * assert (h' = h) by lia. subst h'. zdec. reflexivity.
      * replace (h' <? h + 1) with (h' <? h) by lia. reflexivity.
  - intros g [D A].
    eapply (zfor_wp' (fun k g => dims3 g /\ forall h i j, 0 <= h < en -> 0 <= i < n -> 0 <= j < n ->
       t3_at g i j h = if h <? k then (white h i j / sig_of h j)%R else white h i j)).
    + lia.
    + split; auto. intros. rewrite A by auto. zdec. reflexivity.
    + intros h g1 Hh [D1' A1].
      eapply wp_mono; [apply (slice_map (fun i j x => x / sig_of h j)%R h); auto|].
      { intros i j g2 Hi Hj (E0 & E1 & E2). tgets. reflexivity. }
      cbv beta. intros g2 [D2' A2]. split; auto. intros h' i j Hh' Hi Hj. rewrite A2, A1 by auto.
      destruct (h' =? h) eqn:E.
      * assert (h' = h) by lia. subst h'. zdec. reflexivity.
      * replace (h' <? h + 1) with (h' <? h) by lia. reflexivity.
    + intros g1 [D1' A1]. split; auto. intros h i j Hh Hi Hj. rewrite A1 by auto. zdec. reflexivity.
Qed.
End White.

Lemma particleBalanceCheck_wp g (Q : Z -> Z -> Z -> R) : dims3 g ->
  (forall h i j, 0 <= h < en -> 0 <= i < n -> 0 <= j < n -> t3_at g i j h = (Q h i j)%R) ->
  wp (particleBalanceCheck sc g) (fun c => mrows c = en /\ mcols c = n /\
    forall h i, 0 <= h < en -> 0 <= i < n -> mat_at c h i = rsum 0 n (fun j => Q h i j * sig_of h j)%R).
Proof.
  intros (E0 & E1 & E2) Hq. unfold particleBalanceCheck. fold n en.
  set (X := fun h i => rsum 0 n (fun j => Q h i j * sig_of h j)%R).
  eapply (zfor_wp' (fun k c => (mrows c = en /\ mcols c = n) /\ forall h i, 0 <= h < k -> 0 <= i < n -> mat_at c h i = X h i)).
  - lia.
  - split; [split; auto|]. intros; lia.
  - intros h c Hh [[R1 C1] A].
    eapply (zfor_wp' (fun k c => (mrows c = en /\ mcols c = n) /\
       (forall h' i, 0 <= h' < h -> 0 <= i < n -> mat_at c h' i = X h' i) /\ forall i, 0 <= i < k -> mat_at c h i = X h i)).
    + lia.
    + split; [split; auto|]. split; auto. intros; lia.
    + intros i c1 Hi [[R2 C2] [A1 A2]]. apply wp_bind.
      eapply (zfor_wp' (fun k x => x = rsum 0 k (fun j => Q h i j * sig_of h j)%R)).
      * lia.
      * rewrite rsum_empty by lia. reflexivity.
      * intros j x Hj ->. tgets. cbn [wp]. rewrite rsum_last by lia. rewrite Hq by lia. rnum. reflexivity.
      * intros x ->. rewrite mset_ok by lia. cbn [wp]. split; [split; auto|]. cbn [mat_at]. split.
        -- intros h' i' Hh' Hi'. replace (h' =? h) with false by lia. apply A1; auto.
        -- intros i' Hi'. rewrite Z.eqb_refl. cbn [andb]. destruct (i' =? i) eqn:E.
           ++ assert (i' = i) by lia. subst i'. reflexivity.
           ++ apply A2; lia.
    + intros c1 [RC [A1 A2]]. split; auto. intros h' i' Hh' Hi'. destruct (Z.eq_dec h' h) as [->|]; [apply A2; auto|apply A1; lia].
  - intros c [[R1 C1] A]. auto.
Qed.

(* ---------- the operators ---------- *)

Lemma calcCPMMatrix_wp g (Q : Z -> Z -> Z -> R) : dims3 g ->
  (forall h i j, 0 <= h < en -> 0 <= i < n -> 0 <= j < n -> t3_at g i j h = (Q h i j)%R) ->
  wp (calcCPMMatrix sc g) (fun c => bl n en c (fun e i e' j => if e' =? e then Q e i j else 0%R)).
Proof.
  intros (E0 & E1 & E2) Hq. unfold calcCPMMatrix. fold n en.
  eapply (zfor_wp' (fun k c => bl n en c (fun e i e' j => if (e' =? e) && (e <? k) then Q e i j else 0%R))).
  - lia.
  - eapply bl_ext; [|apply bl_const]. intros. cbn beta. replace (e <? 0) with false by lia. rewrite andb_false_r. reflexivity.
  - intros k c Hk Hc.
    eapply (zfor_wp' (fun u c => bl n en c (fun e i e' j =>
       if (e' =? e) && ((e <? k) || ((e =? k) && (j + k * n <? u))) then Q e i j else 0%R))).
    + lia.
    + eapply bl_ext; [|exact Hc]. intros. cbn beta. replace (m' + k * n <? k * n) with false by lia.
      rewrite andb_false_r, orb_false_r. reflexivity.
    + intros j c1 Hj Hc1.
      eapply (zfor_wp' (fun u c => bl n en c (fun e i e' j' =>
       if (e' =? e) && ((e <? k) || ((e =? k) && ((j' + k * n <? j) || ((j' + k * n =? j) && (i + k * n <? u))))) then Q e i j' else 0%R))).
      * lia.
      * eapply bl_ext; [|exact Hc1]. intros. cbn beta. replace (m + k * n <? k * n) with false by lia.
        rewrite andb_false_r, orb_false_r. reflexivity.
      * intros i c2 Hi Hc2. tgets. rewrite Hq by lia.
        destruct (mset_bl n en c2 _ k (i - k * n) k (j - k * n) (Q k (i - k * n) (j - k * n)) i j Hc2) as [c3 [E3 H3]]; try lia.
        rewrite E3. cbn [wp]. eapply bl_ext; [|exact H3]. intros e m e' m' He Hm He' Hm'. unfold upd.
        destruct ((e =? k) && (m =? i - k * n) && ((e' =? k) && (m' =? j - k * n))) eqn:E.
        -- assert (e = k /\ m = i - k * n /\ e' = k /\ m' = j - k * n) as [-> [-> [-> ->]]] by lia.
           match goal with |- _ = (if ?u then _ else _) => replace u with true by lia end. reflexivity.
        -- match goal with |- (if ?a then _ else _) = (if ?b then _ else _) => replace b with a by lia end. reflexivity.
      * intros c2 Hc2. eapply bl_ext; [|exact Hc2]. intros e m e' m' He Hm He' Hm'. cbn beta.
        match goal with |- (if ?a then _ else _) = (if ?b then _ else _) => replace b with a by lia end. reflexivity.
    + intros c1 Hc1. eapply bl_ext; [|exact Hc1]. intros e m e' m' He Hm He' Hm'. cbn beta.
      match goal with |- (if ?a then _ else _) = (if ?b then _ else _) => replace b with a by lia end. reflexivity.
  - intros c Hc. eapply bl_ext; [|exact Hc]. intros. cbn beta. replace (e <? en) with true by lia. rewrite andb_true_r. reflexivity.
Qed.

Lemma cpm_mul (Q : Z -> Z -> Z -> R) c B (b : Z -> Z -> Z -> R) :
  bl n en c (fun e i e' j => if e' =? e then Q e i j else 0%R) ->
  bl n en B (fun e i e' j => if j =? i then b e e' i else 0%R) ->
  bl n en (mmul c B) (fun e i e' j => Q e i j * b e e' j)%R.
Proof.
  intros (Rc & Cc & Hc) (Rb & Cb & Hb). split; [exact Rc|]. split; [exact Cb|].
  intros e i e' j He Hi He' Hj. unfold blk. cbn [mmul mat_at]. rewrite Cc.
  rnum. rewrite (Z.mul_comm n en). rewrite rsum_blocks by lia.
  rewrite (rsum_single 0 en _ e) by (lia || (intros e0 He0 Hne; apply rsum_0; intros k Hk;
    pose proof (Hc e i e0 k He Hi ltac:(lia) ltac:(lia)) as Hx; unfold blk in Hx; rewrite Hx; zdec; ring)).
  rewrite (rsum_single 0 n _ j).
  - pose proof (Hc e i e j He Hi He Hj) as Hx. pose proof (Hb e j e' j He Hj He' Hj) as Hy.
    unfold blk in Hx, Hy. rewrite Hx, Hy. zdec. reflexivity.
  - lia.
  - intros k Hk Hne. pose proof (Hb e k e' j He ltac:(lia) He' Hj) as Hy. unfold blk in Hy. rewrite Hy. zdec. ring.
Qed.

Section Operators.
Variable Q : Z -> Z -> Z -> R.

Lemma specMMatrix_wp c (sca : Z -> Z -> Z -> R) :
  bl n en c (fun e i e' j => if e' =? e then Q e i j else 0%R) ->
  has_ten (getScattMatrices (sc_mesh sc)) en en n sca ->
  wp (specMMatrix sc c) (fun M => bl n en M (fun e i e' j =>
     (if (e' =? e) && (j =? i) then 1 else 0) - Q e i j * sca e' e j)%R).
Proof.
  intros Hc (t & Et & T0 & T1 & T2 & Ht). unfold specMMatrix. fold n en. rewrite Et. cbn [bind].
  apply wp_bind. eapply wp_mono.
  { apply (scatt_loops n en Hn Hen (fun k j i M =>
      x <- t3get t (Z.rem j en) (Z.rem (k + j) en) i ;; mset M (i + Z.rem (k + j) en * n) (i + j * n) x)
      (fun e e' m => sca e' e m)).
    intros k j i M Hk Hj Hi. assert (0 <= Z.rem (k + j) en < en) by (apply Z.rem_bound_pos; lia).
    rewrite (Z.rem_small j) by lia. rewrite t3get_ok by lia. cbn [bind]. rewrite Ht by lia. reflexivity. }
  cbv beta. intros M HM.
  pose proof Hc as (Rc & Cc & Hcc). unfold mmul_c. cbn [mcols].
  rewrite Cc, (proj1 HM), Z.eqb_refl. cbn [bind].
  assert (Hneg : bl n en (mkmat (mrows c) (mcols c) (fun i j => nopp (mat_at c i j)))
     (fun e i e' j => if e' =? e then (- Q e i j)%R else 0%R)).
  { split; [exact Rc|]. split; [exact Cc|]. intros e i e' j He Hi He' Hj. unfold blk. cbn [mat_at].
    pose proof (Hcc e i e' j He Hi He' Hj) as Hx. unfold blk in Hx. rewrite Hx. rnum. destruct (e' =? e); ring. }
  rewrite Cc in Hneg.
  assert (Hmul : bl n en (mmul (mkmat (mrows c) (n * en) (fun i j => nopp (mat_at c i j))) M)
     (fun e i e' j => - (Q e i j * sca e' e j))%R).
  { eapply bl_ext; [|apply (cpm_mul (fun e i j => - Q e i j)%R _ _ (fun e e' m => sca e' e m) Hneg HM)].
    intros. cbn beta. ring. }
  assert (Hz : 0 <= n * en) by nia.
  eapply (zfor_wp' (fun k M => bl n en M (fun e i e' j =>
     (if (e' =? e) && (j =? i) && (i + e * n <? k) then 1 else 0) - Q e i j * sca e' e j)%R)).
  - lia.
  - eapply bl_ext; [|exact Hmul]. intros e m e' m' He Hm He' Hm'. cbn beta.
    pose proof (idx_range n en e m Hm He). replace (m + e * n <? 0) with false by lia. rewrite andb_false_r. ring.
  - intros u M1 Hu HM1. destruct (idx_decode n en u Hn Hu) as (e0 & m0 & He0 & Hm0 & ->).
    unfold madd_at. rewrite (mget_bl n en M1 _ e0 m0 e0 m0 _ _ HM1) by auto. cbn [bind].
    match goal with |- wp (mset _ _ _ ?x) _ =>
      destruct (mset_bl n en M1 _ e0 m0 e0 m0 x _ _ HM1 He0 Hm0 He0 Hm0 eq_refl eq_refl) as [M2 [E2 HM2]] end.
    rewrite E2. cbn [wp]. eapply bl_ext; [|exact HM2]. intros e m e' m' He Hm He' Hm'. unfold upd.
    destruct ((e =? e0) && (m =? m0) && ((e' =? e0) && (m' =? m0))) eqn:E.
    + assert (e = e0 /\ m = m0 /\ e' = e0 /\ m' = m0) as [-> [-> [-> ->]]] by lia.
      rewrite !Z.eqb_refl, Z.ltb_irrefl. replace (m0 + e0 * n <? m0 + e0 * n + 1) with true by lia. cbn [andb]. rnum. ring.
    + destruct ((e' =? e) && (m' =? m)) eqn:E2'; cbn [andb]; [|reflexivity].
      replace (m + e * n <? m0 + e0 * n + 1) with (m + e * n <? m0 + e0 * n); [reflexivity|].
      pose proof (idx_eqb n e m e0 m0 Hm Hm0). lia.
  - intros M1 HM1. eapply bl_ext; [|exact HM1]. intros e m e' m' He Hm He' Hm'. cbn beta.
    pose proof (idx_range n en e m Hm He). replace (m + e * n <? n * en) with true by lia. rewrite andb_true_r. reflexivity.
Qed.

Lemma specFMatrix_wp c (fis ch nu : Z -> Z -> R) :
  bl n en c (fun e i e' j => if e' =? e then Q e i j else 0%R) ->
  has_mat (getFissionXSs (sc_mesh sc)) en n fis ->
  has_mat (getChis (sc_mesh sc)) en n ch ->
  has_mat (getNis (sc_mesh sc)) en n nu ->
  wp (specFMatrix sc c) (fun M => bl n en M (fun e i e' j => Q e i j * (ch e j * nu e' j * fis e' j))%R).
Proof.
  intros Hc (f & Ef & Rf & Cf & Hf) (x & Ex & Rx & Cx & Hx) (v & Ev & Rv & Cv & Hv).
  unfold specFMatrix. fold n en. rewrite Ef, Ex, Ev. cbn [bind].
  apply wp_bind. eapply wp_mono.
  { apply (diag_wp n en Hn Hen (fun e m => fis e m * nu e m)%R ch (fun j i st =>
      let '(F, c0) := st in
      f0 <- mget f j i ;; v0 <- mget v j i ;; x0 <- mget x j i ;;
      F0 <- mset F (i + j * n) (i + j * n) (f0 [*] v0) ;; c1 <- vset c0 (i + j * n) x0 ;; Ok (F0, c1))).
    intros j i F c0 Hj Hi. tgets. rewrite Hf, Hx, Hv by lia. reflexivity. }
  cbv beta. intros [F c0] (HF & Lc & Hcv). cbn [fst snd] in *.
  apply wp_bind. eapply wp_mono.
  { apply (spread_wp n en Hn Hen (fun e m => fis e m * nu e m)%R (fun e e' => e')) with (F := F); auto.
    intros g k m m' M Hg Hk Hm Hm'. cbv beta. replace (m + k * n + (g - k) * n) with (m + g * n) by lia. reflexivity. }
  cbv beta. intros F1 HF1.
  apply wp_bind. eapply wp_mono.
  { apply (scale_wp n en Hn Hen (fun e m _ _ => ch e m) _ (fun i j F => x <- mget F i j ;; y <- vget c0 i ;; mset F i j (x [*] y)) F1 HF1).
    intros e m e' m' M He Hm He' Hm'. cbv beta.
    destruct (mget M (m + e * n) (m' + e' * n)); cbn [bind]; auto.
    rewrite vget_ok by (rewrite Lc; apply idx_range; auto). cbn [bind]. rewrite Hcv by auto. reflexivity. }
  cbv beta. intros F2 HF2. unfold mmul_c. rewrite (proj1 (proj2 Hc)), (proj1 HF2), Z.eqb_refl. cbn [wp].
  eapply bl_ext; [|apply (cpm_mul Q c F2 (fun e e' m => ch e m * nu e' m * fis e' m)%R Hc)].
  - intros. reflexivity.
  - eapply bl_ext; [|exact HF2]. intros e m e' m' He Hm He' Hm'. cbn beta. rnum. destruct (m' =? m); ring.
Qed.
End Operators.

End Code.
