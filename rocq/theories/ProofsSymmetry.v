(* Lemmas for C94: the source iteration on the same equations in another order, the
   equations of a mirrored slab and of relabelled groups. *)
From Coq Require Import String ZArith List Bool Lia Reals Lra.
From Verif Require Import Base BaseLemmas NumR LinAlg Blocks ModelNumTools ModelEigen ModelMesh ModelReactor
  ModelDiffusion ProofsEigen ProofsMesh ProofsDiffusion ProofsDiffusionR.
Import ListNotations.
Local Open Scope R_scope.

(* s permutes the numbers below n, t undoes it *)
Definition reorders (n : Z) (s t : Z -> Z) : Prop :=
  forall i, (0 <= i < n)%Z -> (0 <= s i < n)%Z /\ (0 <= t i < n)%Z /\ t (s i) = i /\ s (t i) = i.

Lemma rsum_reorder n s t f : reorders n s t -> rsum 0 n (fun i => f (s i)) = rsum 0 n f.
Proof.
  intros H. transitivity (rsum 0 n (fun i => rsum 0 n (fun j => if (j =? s i)%Z then f j else 0))).
  { apply rsum_ext. intros i Hi. symmetry. apply rsum_delta. apply H, Hi. }
  rewrite rsum_swap. apply rsum_ext. intros j Hj.
  rewrite (rsum_single 0 n _ (t j)).
  - destruct (H j Hj) as (_ & _ & _ & ->). rewrite Z.eqb_refl. reflexivity.
  - apply H, Hj.
  - intros i Hi Hne. destruct (Z.eqb_spec j (s i)) as [-> | _]; [|reflexivity]. exfalso. apply Hne. symmetry. apply H, Hi.
Qed.

(* b has the entries of a in another order *)
Definition vec_like (n : Z) (s : Z -> Z) (a b : vec R) : Prop :=
  vlen a = n /\ vlen b = n /\ forall i, (0 <= i < n)%Z -> vat b (s i) = vat a i.
Definition mat_like (n : Z) (s : Z -> Z) (A B : mat R) : Prop :=
  mrows A = n /\ mcols A = n /\ mrows B = n /\ mcols B = n /\
  forall i j, (0 <= i < n)%Z -> (0 <= j < n)%Z -> mat_at B (s i) (s j) = mat_at A i j.

Section Reorder.
Variables (n : Z) (s t : Z -> Z).
Hypothesis Hs : reorders n s t.

Lemma like_ones : (0 <= n)%Z -> vec_like n s (vones n) (vones n).
Proof using. intros. repeat split. Qed.
Lemma like_sum g h : (forall i, (0 <= i < n)%Z -> h (s i) = g i) -> rsum 0 n h = rsum 0 n g.
Proof using Hs. intros H. rewrite <- (rsum_reorder n s t h Hs). apply rsum_ext. exact H. Qed.
Lemma like_dot a b a' b' : vec_like n s a a' -> vec_like n s b b' -> vdot a' b' = vdot a b.
Proof using Hs.
  intros (La & La' & Ha) (Lb & Lb' & Hb). unfold vdot. rewrite La, La'.
  apply (like_sum (fun i => vat a i * vat b i) (fun i => vat a' i * vat b' i)). intros i Hi. rewrite Ha, Hb by exact Hi. reflexivity.
Qed.
Lemma like_norm a a' : vec_like n s a a' -> vnorm1 a' = vnorm1 a.
Proof using Hs.
  intros (La & La' & Ha). change (rsum 0 (vlen a') (fun i => Rabs (vat a' i)) = rsum 0 (vlen a) (fun i => Rabs (vat a i))).
  rewrite La, La'. apply (like_sum (fun i => Rabs (vat a i)) (fun i => Rabs (vat a' i))). intros i Hi. rewrite Ha by exact Hi. reflexivity.
Qed.
Lemma like_divs a a' c : vec_like n s a a' -> vec_like n s (vdivs a c) (vdivs a' c).
Proof using. intros (La & La' & Ha). repeat split; auto. intros i Hi. cbn [vdivs vat]. rewrite Ha by exact Hi. reflexivity. Qed.
Lemma like_mul A B a b : mat_like n s A B -> vec_like n s a b -> vec_like n s (mvmul A a) (mvmul B b).
Proof using Hs.
  intros (R1 & C1 & R2 & C2 & H) (La & Lb & Hab). split; [exact R1|]. split; [exact R2|]. intros i Hi. rewrite !mvmul_at, C1, C2.
  apply (like_sum (fun j => mat_at A i j * vat a j) (fun j => mat_at B (s i) j * vat b j)). intros j Hj. rewrite H, Hab by assumption. reflexivity.
Qed.
Lemma like_app A B a b i : mat_like n s A B -> (forall j, (0 <= j < n)%Z -> b (s j) = a j) -> (0 <= i < n)%Z ->
  app n (mat_at B) b (s i) = app n (mat_at A) a i.
Proof using Hs.
  intros (_ & _ & _ & _ & H) Hab Hi. unfold app. apply (like_sum (fun j => mat_at A i j * a j) (fun j => mat_at B (s i) j * b j)).
  intros j Hj. rewrite H, Hab by assumption. reflexivity.
Qed.
Lemma like_injective A B : mat_like n s A B -> injective n (mat_at A) -> injective n (mat_at B).
Proof using Hs.
  intros HAB HA x Hx j Hj. destruct (Hs j Hj) as (_ & Ht & _ & E). rewrite <- E.
  apply (HA (fun i => x (s i))); [|exact Ht]. intros i Hi. rewrite <- (like_app A B (fun i => x (s i)) x i HAB) by auto.
  apply Hx. apply Hs, Hi.
Qed.
Lemma like_solve A B sA sB a b : mat_like n s A B -> injective n (mat_at A) -> exact_solver A sA -> exact_solver B sB ->
  vec_like n s a b -> vec_like n s (sA a) (sB b).
Proof using Hs.
  intros HAB HA XA XB (La & Lb & Hab). pose proof HAB as (R1 & C1 & R2 & C2 & H).
  destruct (XA a ltac:(congruence)) as (L1 & _ & Q1). destruct (XB b ltac:(congruence)) as (L2 & _ & Q2).
  split; [congruence|]. split; [congruence|]. intros i Hi.
  assert (Z : forall j, (0 <= j < n)%Z -> vat (sB b) (s j) - vat (sA a) j = 0).
  { apply (HA (fun j => vat (sB b) (s j) - vat (sA a) j)). intros j Hj.
    transitivity (app n (mat_at A) (fun j => vat (sB b) (s j)) j - app n (mat_at A) (vat (sA a)) j).
    { unfold app. rewrite <- rsum_minus. apply rsum_ext. intros. ring. }
    rewrite <- (like_app A B (fun j => vat (sB b) (s j)) (vat (sB b)) j HAB) by auto.
    assert (E1 : app n (mat_at B) (vat (sB b)) (s j) = vat b (s j)).
    { rewrite <- Q2; [rewrite mvmul_at, C2; reflexivity|]. change (vlen (mvmul B (sB b))) with (mrows B). rewrite R2. apply Hs, Hj. }
    assert (E2 : app n (mat_at A) (vat (sA a)) j = vat a j).
    { rewrite <- Q1; [rewrite mvmul_at, C1; reflexivity|]. change (vlen (mvmul A (sA a))) with (mrows A). rewrite R1. exact Hj. }
    rewrite E1, E2, Hab by exact Hj. ring. }
  specialize (Z i Hi). lra.
Qed.

Variables (M F M' F' : mat R) (solver : mat R -> vec R -> vec R).
Hypothesis Hn : (0 <= n)%Z.
Hypothesis HM : mat_like n s M M'.
Hypothesis HF : mat_like n s F F'.
Hypothesis Hinj : injective n (mat_at M).
Hypothesis HX : exact_solver M (solver M).
Hypothesis HX' : exact_solver M' (solver M').

Lemma like_power j : let p := power (solver M) F n j in let p' := power (solver M') F' n j in
  vec_like n s (pi_flux p) (pi_flux p') /\ pi_k p' = pi_k p /\ vec_like n s (pi_src p) (pi_src p').
Proof using Hs HM HF Hinj HX HX' Hn.
  induction j as [|j (IH1 & IH2 & IH3)]; [repeat split|]. cbn zeta in *. cbn [power pi_flux pi_k pi_src].
  set (p := power (solver M) F n j) in *. set (p' := power (solver M') F' n j) in *.
  assert (H1 : vec_like n s (solver M (pi_src p)) (solver M' (pi_src p'))) by (apply (like_solve M M'); assumption).
  assert (H2 := like_mul _ _ _ _ HF H1). assert (H3 := like_mul _ _ _ _ HF IH1).
  assert (H4 : vdot (mvmul F' (solver M' (pi_src p'))) (mvmul F' (solver M' (pi_src p'))) = vdot (mvmul F (solver M (pi_src p))) (mvmul F (solver M (pi_src p)))) by (apply like_dot; assumption).
  assert (H5 : vdot (mvmul F' (pi_flux p')) (mvmul F' (solver M' (pi_src p'))) = vdot (mvmul F (pi_flux p)) (mvmul F (solver M (pi_src p)))) by (apply like_dot; assumption).
  split; [exact H1|]. rewrite IH2, H4, H5. split; [reflexivity|]. apply like_divs. exact H2.
Qed.
Lemma like_change j : pi_change (solver M') F' n j = pi_change (solver M) F n j.
Proof using Hs HM HF Hinj HX HX' Hn.
  unfold pi_change. destruct (like_power j) as (_ & -> & _). destruct (like_power (S j)) as (_ & -> & _). reflexivity.
Qed.

(* both iterations stop after the same number of steps with the same factor and fluxes
   in the new order, or both give up *)
Definition same_outcome (x y : res (Z * eigenmodesResults R)) : Prop :=
  match x, y with
  | Ok (i, a), Ok (j, b) => i = j /\ er_k a = er_k b /\ vec_like n s (er_flux a) (er_flux b) /\
      er_modes a = [(er_k a, er_flux a)] /\ er_modes b = [(er_k b, er_flux b)] /\ er_dir a = er_dir b
  | Exit a, Exit b => a = b
  | _, _ => False
  end.
Lemma like_iteration max acc dir :
  same_outcome (sourceIteration solver M F max acc dir) (sourceIteration solver M' F' max acc dir).
Proof using Hs HM HF Hinj HX HX' Hn.
  pose proof HM as (R1 & C1 & R2 & C2 & _). pose proof HF as (R3 & C3 & R4 & C4 & _).
  assert (L1 : forall b, vlen b = n -> vlen (solver M b) = n) by (intros b Hb; rewrite <- C1; apply HX; congruence).
  assert (L2 : forall b, vlen b = n -> vlen (solver M' b) = n) by (intros b Hb; rewrite <- C2; apply HX'; congruence).
  destruct (sourceIteration_spec solver M F n max acc dir Hn R1 C1 R3 C3 L1) as [(j & J1 & J2 & J3 & ->) | [Z ->]];
  destruct (sourceIteration_spec solver M' F' n max acc dir Hn R2 C2 R4 C4 L2) as [(j' & J1' & J2' & J3' & ->) | [Z' ->]].
  - assert (j = j') as <-.
    { destruct (Nat.lt_trichotomy j j') as [H | [H | H]]; [|exact H|].
      - specialize (J3' j H). rewrite like_change in J3'. rewrite J2 in J3'. discriminate.
      - specialize (J3 j' H). rewrite <- like_change in J3. rewrite J2' in J3. discriminate. }
    destruct (like_power (S j)) as (A & B & _). unfold same_outcome. cbn [er_single er_k er_flux er_modes er_dir].
    split; [reflexivity|]. split; [symmetry; exact B|]. split; [|auto]. rewrite (like_norm _ _ A). apply like_divs, A.
  - specialize (Z' j J1). rewrite like_change, J2 in Z'. discriminate.
  - specialize (Z j' J1'). rewrite <- like_change, J2' in Z. discriminate.
  - reflexivity.
Qed.
End Reorder.

(* ---------- unknowns numbered by group and cell ---------- *)

Definition block_map (n : Z) (p r : Z -> Z) (i : Z) : Z := (r (i mod n) + p (i / n) * n)%Z.
Lemma block_map_at n p r e m : (0 <= m < n)%Z -> block_map n p r (m + e * n) = (r m + p e * n)%Z.
Proof. intros Hm. unfold block_map. rewrite Z_mod_plus_full, Z.mod_small, Z.div_add, Z.div_small by lia. reflexivity. Qed.
Lemma block_reorders n en p p' r r' : (0 < n)%Z -> reorders en p p' -> reorders n r r' -> reorders (n * en) (block_map n p r) (block_map n p' r').
Proof.
  intros Hn Hp Hr i Hi. destruct (idx_decode n en i ltac:(lia) Hi) as (e & m & He & Hm & ->).
  destruct (Hp e He) as (P1 & P2 & P3 & P4). destruct (Hr m Hm) as (R1 & R2 & R3 & R4).
  rewrite !block_map_at by assumption. rewrite P3, P4, R3, R4. repeat split; try (apply idx_range; assumption).
  1,2: apply (idx_range n en); assumption.
Qed.
Lemma block_like n en p p' r r' A B SA SB : (0 < n)%Z -> reorders en p p' -> reorders n r r' ->
  bl n en A SA -> bl n en B SB ->
  (forall e m e' m', (0 <= e < en)%Z -> (0 <= m < n)%Z -> (0 <= e' < en)%Z -> (0 <= m' < n)%Z -> SB (p e) (r m) (p e') (r m') = SA e m e' m') ->
  mat_like (n * en) (block_map n p r) A B.
Proof.
  intros Hn Hp Hr (R1 & C1 & H1) (R2 & C2 & H2) HS. repeat split; auto. intros i j Hi Hj.
  destruct (idx_decode n en i ltac:(lia) Hi) as (e & m & He & Hm & ->). destruct (idx_decode n en j ltac:(lia) Hj) as (e' & m' & He' & Hm' & ->).
  rewrite !block_map_at by assumption. change (blk n B (p e) (r m) (p e') (r m') = blk n A e m e' m').
  rewrite H1, H2 by (first [assumption|apply Hp; assumption|apply Hr; assumption]). apply HS; assumption.
Qed.

(* the data of d in another order of cells and groups *)
Record data_like (n en : Z) (p r : Z -> Z) (d d' : data R) : Prop := {
  dl_tot : forall e m, (0 <= e < en)%Z -> (0 <= m < n)%Z -> ttot d' (p e) (r m) = ttot d e m;
  dl_fis : forall e m, (0 <= e < en)%Z -> (0 <= m < n)%Z -> tfis d' (p e) (r m) = tfis d e m;
  dl_ni : forall e m, (0 <= e < en)%Z -> (0 <= m < n)%Z -> tni d' (p e) (r m) = tni d e m;
  dl_chi : forall e m, (0 <= e < en)%Z -> (0 <= m < n)%Z -> tchi d' (p e) (r m) = tchi d e m;
  dl_D : forall e m, (0 <= e < en)%Z -> (0 <= m < n)%Z -> tD d' (p e) (r m) = tD d e m;
  dl_sc : forall e e' m, (0 <= e < en)%Z -> (0 <= e' < en)%Z -> (0 <= m < n)%Z -> tsc d' (p e) (p e') (r m) = tsc d e e' m;
  dl_dx : forall m, (0 <= m < n)%Z -> tdx d' (r m) = tdx d m;
  dl_V : forall m, (0 <= m < n)%Z -> tV d' (r m) = tV d m
}.

Lemma reorders_eqb n s t i j : reorders n s t -> (0 <= i < n)%Z -> (0 <= j < n)%Z -> (s i =? s j)%Z = (i =? j)%Z.
Proof.
  intros H Hi Hj. destruct (Z.eqb_spec (s i) (s j)) as [E | E]; destruct (Z.eqb_spec i j) as [E' | E']; try reflexivity; [|congruence].
  exfalso. apply E'. destruct (H i Hi) as (_ & _ & <- & _). destruct (H j Hj) as (_ & _ & <- & _). congruence.
Qed.

(* ---------- diffusion ---------- *)

Section Image.
Variables (ms ms' : mesh R) (sd sd' : solverData R) (d d' : data R) (aL aR aL' aR' : R) (p p' r r' : Z -> Z).
Let n := ms_cells ms.
Let en := sd_energies sd.
Hypothesis Hn : (2 <= n)%Z.
Hypothesis Hen : (0 <= en)%Z.
Hypothesis Hd : mesh_data PI ms en d.
Hypothesis Hd' : mesh_data PI ms' en d'.
Hypothesis Hal : albedos ms sd aL aR.
Hypothesis Hal' : albedos ms' sd' aL' aR'.
Hypothesis Hn' : ms_cells ms' = n.
Hypothesis Hen' : sd_energies sd' = en.
Hypothesis Hdir : sd_dir sd <> DirUNDEFINED.
Hypothesis Hdir' : sd_dir sd' = sd_dir sd.
Hypothesis Hp : reorders en p p'.
Hypothesis Hr : reorders n r r'.
Hypothesis Hlike : data_like n en p r d d'.
Hypothesis Hb : forall e m e' m', (0 <= e < en)%Z -> (0 <= m < n)%Z -> (0 <= e' < en)%Z -> (0 <= m' < n)%Z ->
  boundaryB ms' d' aL' aR' (p e) (r m) (p e') (r m') = boundaryB ms d aL aR e m e' m'.

Lemma image_system : exists M F M' F', diffusionSystem PI ms sd = Ok (M, F) /\ diffusionSystem PI ms' sd' = Ok (M', F') /\
  mat_like (n * en) (block_map n p r) M M' /\ mat_like (n * en) (block_map n p r) F F'.
Proof using Hn Hen Hd Hd' Hal Hal' Hn' Hen' Hdir Hdir' Hp Hr Hlike Hb.
  pose proof (system_wp PI ms sd d Hn Hen Hd aL aR Hal Hdir) as H1.
  assert (Hn2 : (2 <= ms_cells ms')%Z) by lia. assert (Hen2 : (0 <= sd_energies sd')%Z) by lia.
  assert (Hd2 : mesh_data PI ms' (sd_energies sd') d') by (rewrite Hen'; exact Hd').
  pose proof (system_wp PI ms' sd' d' Hn2 Hen2 Hd2 aL' aR' Hal' ltac:(congruence)) as H2. rewrite Hn', Hen', Hdir' in H2. fold n en in H1.
  destruct (wp_ok _ _ H1) as ([M F] & E1 & G1). destruct (wp_ok _ _ H2) as ([M' F'] & E2 & G2). cbn [fst snd] in G1, G2. clear H1 H2.
  exists M, F, M', F'. split; [exact E1|]. split; [exact E2|]. destruct Hlike as [T1 T2 T3 T4 T5 T6 T7 T8].
  assert (Hn0 : (0 < n)%Z) by lia.
  destruct (sd_dir sd); [congruence| |]; destruct G1 as [A1 B1]; destruct G2 as [A2 B2].
  - split; [apply (block_like n en p p' r r' _ _ _ _ Hn0 Hp Hr A1 A2) | apply (block_like n en p p' r r' _ _ _ _ Hn0 Hp Hr B1 B2)]; intros e m e' m' He Hm He' Hm'.
    + unfold lossB. rewrite Hb, (reorders_eqb n r r' m' m Hr), T6, T8 by assumption. reflexivity.
    + unfold fp. rewrite (reorders_eqb n r r' m' m Hr), T2, T3, T4, T8 by assumption. reflexivity.
  - split; [apply (block_like n en p p' r r' _ _ _ _ Hn0 Hp Hr A1 A2) | apply (block_like n en p p' r r' _ _ _ _ Hn0 Hp Hr B1 B2)]; intros e m e' m' He Hm He' Hm'.
    + unfold lossB. rewrite Hb, (reorders_eqb n r r' m' m Hr), T6, T8 by assumption. reflexivity.
    + unfold fp. rewrite (reorders_eqb n r r' m' m Hr), T2, T3, T4, T8 by assumption. reflexivity.
Qed.
End Image.

(* ---------- the two orders ---------- *)

Definition back (n i : Z) : Z := (n - 1 - i)%Z.
Lemma back_reorders n : reorders n (back n) (back n).
Proof. intros i Hi. unfold back. lia. Qed.
Lemma id_reorders n : reorders n (fun i => i) (fun i => i).
Proof. intros i Hi. repeat split; lia. Qed.

(* a slab seen from the other side *)
Lemma mirror_boundary ms ms' d d' aL aR en : ms_cells ms' = ms_cells ms -> (2 <= ms_cells ms)%Z ->
  data_like (ms_cells ms) en (fun e => e) (back (ms_cells ms)) d d' ->
  (forall k, (0 <= k <= ms_cells ms)%Z -> tS d' (ms_cells ms - k) = tS d k) ->
  forall e m e' m', (0 <= e < en)%Z -> (0 <= m < ms_cells ms)%Z -> (0 <= e' < en)%Z -> (0 <= m' < ms_cells ms)%Z ->
  boundaryB ms' d' aR aL e (back (ms_cells ms) m) e' (back (ms_cells ms) m') = boundaryB ms d aL aR e m e' m'.
Proof.
  intros Hc Hn [T1 T2 T3 T4 T5 T6 T7 T8] HS e m e' m' He Hm He' Hm'. set (n := ms_cells ms) in *.
  assert (D : forall i, (0 <= i < n - 1)%Z -> dif d' e (n - 2 - i) = dif d e i).
  { intros i Hi. unfold dif.
    replace (n - 2 - i)%Z with (back n (i + 1)) by (unfold back; lia). replace (back n (i + 1) + 1)%Z with (back n i) by (unfold back; lia).
    rewrite (T5 e (i + 1)%Z), (T5 e i), (T7 (i + 1)%Z), (T7 i) by lia.
    replace (back n i) with (n - (i + 1))%Z by (unfold back; lia). rewrite HS by lia. rnum.
    f_equal; ring. }
  assert (Rm : forall i, (0 <= i < n)%Z -> rem d' e (back n i) = rem d e i) by (intros i Hi; unfold rem; rewrite T1, T8 by lia; reflexivity).
  assert (Bc : forall i a k, (0 <= i < n)%Z -> (0 <= k <= n)%Z -> bcoef (tD d' e (back n i)) a (tS d' (n - k)) (tdx d' (back n i)) = bcoef (tD d e i) a (tS d k) (tdx d i))
    by (intros i a k Hi Hk; rewrite T5, T7, HS by lia; reflexivity).
  assert (I : forall i, (1 <= i < n - 1)%Z -> dgI d' e (back n i) = dgI d e i).
  { intros i Hi. unfold dgI. replace (dif d' e (back n i)) with (dif d e (i - 1)) by (rewrite <- (D (i - 1)%Z) by lia; f_equal; unfold back; lia).
    replace (dif d' e (back n i - 1)) with (dif d e i) by (rewrite <- (D i) by lia; f_equal; unfold back; lia). rewrite Rm by lia. rnum. ring. }
  assert (Tri : forall dg dg', (forall i, (0 <= i < n)%Z -> dg' e (back n i) = dg e i) -> tri d' dg' e (back n m) e' (back n m') = tri d dg e m e' m').
  { intros dg dg' Hdg. unfold tri. destruct (e' =? e)%Z; [|reflexivity].
    destruct (Z.eqb_spec m' (m - 1)) as [-> | N1].
    - replace (back n (m - 1) =? back n m - 1)%Z with false by (unfold back; lia). replace (back n (m - 1) =? back n m + 1)%Z with true by (unfold back; lia).
      rewrite <- (D (m - 1)%Z) by lia. f_equal. f_equal. unfold back. lia.
    - destruct (Z.eqb_spec m' (m + 1)) as [-> | N2].
      + replace (back n (m + 1) =? back n m - 1)%Z with true by (unfold back; lia). rewrite <- (D m) by lia. f_equal. f_equal. unfold back. lia.
      + replace (back n m' =? back n m - 1)%Z with false by (unfold back; lia). replace (back n m' =? back n m + 1)%Z with false by (unfold back; lia).
        destruct (Z.eqb_spec m' m) as [-> | N3]; [rewrite Z.eqb_refl; apply Hdg; exact Hm|]. replace (back n m' =? back n m)%Z with false by (unfold back; lia). reflexivity. }
  unfold boundaryB. rewrite (andb_comm (is_equal aR _)). destruct (is_equal aL (nofZ 2) && is_equal aR (nofZ 2)).
  - (* periodic *)
    assert (G : forall i, (0 <= i < n)%Z -> dgP ms' d' e (back n i) = dgP ms d e i).
    { intros i Hi. unfold dgP. rewrite Hc. fold n.
      destruct (Z.eqb_spec i 0) as [-> | N0].
      - replace (back n 0 =? 0)%Z with false by (unfold back; lia). replace (back n 0 =? n - 1)%Z with true by (unfold back; lia).
        rewrite <- (D 0%Z), <- (D (n - 2)%Z) by lia. replace (n - 2 - (n - 2))%Z with 0%Z by lia. replace (n - 2 - 0)%Z with (n - 2)%Z by lia.
        replace (n - 1)%Z with (back n 0) by (unfold back; lia). rewrite Rm by lia. rnum. ring.
      - destruct (Z.eqb_spec i (n - 1)) as [-> | N1].
        + replace (back n (n - 1) =? 0)%Z with true by (unfold back; lia). rewrite <- (D 0%Z), <- (D (n - 2)%Z) by lia.
          replace (n - 2 - (n - 2))%Z with 0%Z by lia. replace (n - 2 - 0)%Z with (n - 2)%Z by lia.
          replace (rem d' e 0) with (rem d e (n - 1)) by (rewrite <- (Rm (n - 1)%Z) by lia; f_equal; unfold back; lia). rnum. ring.
        + replace (back n i =? 0)%Z with false by (unfold back; lia). replace (back n i =? n - 1)%Z with false by (unfold back; lia). apply I. lia. }
    unfold periodicM. rewrite Hc. fold n.
    destruct (e' =? e)%Z eqn:Ee; cbn [andb]; [|apply Tri; exact G].
    destruct (Z.eqb_spec m 0) as [-> | N0]; cbn [andb].
    + replace (back n 0 =? 0)%Z with false by (unfold back; lia). replace (back n 0 =? n - 1)%Z with true by (unfold back; lia). cbn [andb].
      destruct (Z.eqb_spec m' (n - 1)) as [-> | N1].
      * replace (back n (n - 1) =? 0)%Z with true by (unfold back; lia). rewrite <- (D (n - 2)%Z) by lia. replace (n - 2 - (n - 2))%Z with 0%Z by lia. reflexivity.
      * replace (back n m' =? 0)%Z with false by (unfold back; lia). replace (0 =? n - 1)%Z with false by lia. cbn [andb]. apply Tri. exact G.
    + replace (back n m =? n - 1)%Z with false by (unfold back; lia). cbn [andb].
      destruct (Z.eqb_spec m (n - 1)) as [-> | N1]; cbn [andb].
      * replace (back n (n - 1) =? 0)%Z with true by (unfold back; lia). cbn [andb]. destruct (Z.eqb_spec m' 0) as [-> | N2].
        -- replace (back n 0 =? n - 1)%Z with true by (unfold back; lia). rewrite <- (D 0%Z) by lia. replace (n - 2 - 0)%Z with (n - 2)%Z by lia. reflexivity.
        -- replace (back n m' =? n - 1)%Z with false by (unfold back; lia). apply Tri. exact G.
      * replace (back n m =? 0)%Z with false by (unfold back; lia). cbn [andb]. apply Tri. exact G.
  - apply Tri. intros i Hi. unfold dgA. rewrite Hc. fold n.
    destruct (Z.eqb_spec i 0) as [-> | N0].
    + replace (back n 0 =? 0)%Z with false by (unfold back; lia). replace (back n 0 =? n - 1)%Z with true by (unfold back; lia).
      rewrite <- (D 0%Z), <- (Bc 0%Z aL 0%Z), <- (Rm 0%Z) by lia.
      replace (n - 2 - 0)%Z with (n - 2)%Z by lia. replace (n - 0)%Z with n by lia. replace (back n 0) with (n - 1)%Z by (unfold back; lia). rnum. ring.
    + destruct (Z.eqb_spec i (n - 1)) as [-> | N1].
      * replace (back n (n - 1) =? 0)%Z with true by (unfold back; lia). rewrite <- (D (n - 2)%Z), <- (Bc (n - 1)%Z aR n), <- (Rm (n - 1)%Z) by lia.
        replace (n - 2 - (n - 2))%Z with 0%Z by lia. replace (n - n)%Z with 0%Z by lia. replace (back n (n - 1)) with 0%Z by (unfold back; lia). rnum. ring.
      * replace (back n i =? 0)%Z with false by (unfold back; lia). replace (back n i =? n - 1)%Z with false by (unfold back; lia). apply I. lia.
Qed.

(* groups in another order *)
Lemma relabel_boundary ms ms' d d' aL aR en p p' : ms_cells ms' = ms_cells ms -> (2 <= ms_cells ms)%Z -> reorders en p p' ->
  data_like (ms_cells ms) en p (fun m => m) d d' -> (forall k, (0 <= k <= ms_cells ms)%Z -> tS d' k = tS d k) ->
  forall e m e' m', (0 <= e < en)%Z -> (0 <= m < ms_cells ms)%Z -> (0 <= e' < en)%Z -> (0 <= m' < ms_cells ms)%Z ->
  boundaryB ms' d' aL aR (p e) m (p e') m' = boundaryB ms d aL aR e m e' m'.
Proof.
  intros Hc Hn Hp [T1 T2 T3 T4 T5 T6 T7 T8] HS e m e' m' He Hm He' Hm'. set (n := ms_cells ms) in *.
  assert (D : forall i, (0 <= i < n - 1)%Z -> dif d' (p e) i = dif d e i) by (intros i Hi; unfold dif; rewrite !T5, !T7, HS by lia; reflexivity).
  assert (Rm : forall i, (0 <= i < n)%Z -> rem d' (p e) i = rem d e i) by (intros i Hi; unfold rem; rewrite T1, T8 by lia; reflexivity).
  assert (I : forall i, (1 <= i < n - 1)%Z -> dgI d' (p e) i = dgI d e i) by (intros i Hi; unfold dgI; rewrite !D, Rm by lia; reflexivity).
  assert (Tri : forall dg dg', (forall i, (0 <= i < n)%Z -> dg' (p e) i = dg e i) -> tri d' dg' (p e) m (p e') m' = tri d dg e m e' m').
  { intros dg dg' Hdg. unfold tri. rewrite (reorders_eqb en p p' e' e Hp He' He). destruct (e' =? e)%Z; [|reflexivity].
    destruct (Z.eqb_spec m' (m - 1)); [rewrite D by lia; reflexivity|]. destruct (Z.eqb_spec m' (m + 1)); [rewrite D by lia; reflexivity|].
    destruct (Z.eqb_spec m' m); [apply Hdg; exact Hm|reflexivity]. }
  unfold boundaryB. destruct (is_equal aL (nofZ 2) && is_equal aR (nofZ 2)).
  - unfold periodicM. rewrite Hc. fold n. rewrite (reorders_eqb en p p' e' e Hp He' He), !D by lia.
    destruct ((e' =? e)%Z && (m =? 0)%Z && (m' =? n - 1)%Z); [reflexivity|]. destruct ((e' =? e)%Z && (m =? n - 1)%Z && (m' =? 0)%Z); [reflexivity|].
    apply Tri. intros i Hi. unfold dgP. rewrite Hc. fold n. rewrite !D, !Rm by lia. destruct (i =? 0)%Z eqn:E0; [reflexivity|].
    destruct (i =? n - 1)%Z eqn:E1; [reflexivity|]. apply I. lia.
  - apply Tri. intros i Hi. unfold dgA. rewrite Hc. fold n. rewrite !D, !Rm, !T5, !T7, !HS by lia.
    destruct (i =? 0)%Z eqn:E0; [reflexivity|]. destruct (i =? n - 1)%Z eqn:E1; [reflexivity|]. apply I. lia.
Qed.
