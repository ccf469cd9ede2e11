(* The inhour polynomial: factor theorem, and its real roots. *)
From Coq Require Import String ZArith List Bool Lia Reals Lra Permutation Sorted.
From Verif Require Import Base BaseLemmas NumR ModelNumTools ProofsNumTools.
Import ListNotations.
Local Open Scope R_scope.

(* ---------- factor theorem ---------- *)

Fixpoint sdiv (p : list R) (r : R) : list R :=
  match p with [] => [] | _ :: p' => match p' with [] => [] | _ => peval p' r :: sdiv p' r end end.

Lemma sdiv_length p r : length (sdiv p r) = (length p - 1)%nat.
Proof.
  induction p as [|c p IH]; [reflexivity|]. destruct p as [|d p]; [reflexivity|].
  change (sdiv (c :: d :: p) r) with (peval (d :: p) r :: sdiv (d :: p) r). cbn [length]. rewrite IH. cbn [length]. lia.
Qed.
Lemma sdiv_last p r : (2 <= length p)%nat -> last (sdiv p r) 0 = last p 0.
Proof.
  induction p as [|c p IH]; cbn [length]; [lia|]. intros H. destruct p as [|d p]; [cbn in H; lia|].
  change (sdiv (c :: d :: p) r) with (peval (d :: p) r :: sdiv (d :: p) r).
  destruct p as [|e p].
  - cbn. ring.
  - specialize (IH ltac:(cbn; lia)). change (last (c :: d :: e :: p) 0) with (last (d :: e :: p) 0). rewrite <- IH.
    pose proof (sdiv_length (d :: e :: p) r) as L. destruct (sdiv (d :: e :: p) r) as [|q qs]; [cbn in L; lia|]. reflexivity.
Qed.
Lemma sdiv_spec p r x : peval p x = (x - r) * peval (sdiv p r) x + peval p r.
Proof.
  induction p as [|c p IH]; [cbn; ring|]. destruct p as [|d p]; [cbn; ring|].
  change (sdiv (c :: d :: p) r) with (peval (d :: p) r :: sdiv (d :: p) r).
  change (peval (c :: d :: p) x) with (c + x * peval (d :: p) x). rewrite IH.
  change (peval (c :: d :: p) r) with (c + r * peval (d :: p) r).
  change (peval (peval (d :: p) r :: sdiv (d :: p) r) x) with (peval (d :: p) r + x * peval (sdiv (d :: p) r) x). ring.
Qed.

Lemma factor l : forall p, NoDup l -> length p = S (length l) -> (forall r, In r l -> peval p r = 0) ->
  forall x, peval p x = last p 0 * linprod (map Ropp l) x.
Proof.
  induction l as [|r l IH]; intros p Hn Hl Hr x.
  - destruct p as [|c [|]]; cbn in Hl; try lia. cbn. ring.
  - inversion Hn as [|? ? Hni Hn']; subst. cbn [map linprod]. rewrite (sdiv_spec p r x), (Hr r (or_introl eq_refl)).
    rewrite (IH (sdiv p r)).
    + rewrite sdiv_last by (cbn in Hl; lia). ring.
    + exact Hn'.
    + rewrite sdiv_length. cbn in Hl. lia.
    + intros q Hq. pose proof (sdiv_spec p r q) as E. rewrite (Hr q (or_intror Hq)), (Hr r (or_introl eq_refl)) in E.
      assert (q - r <> 0) by (intros Z; assert (q = r) by lra; subst; contradiction).
      apply (Rmult_eq_reg_l (q - r)); [lra|assumption].
Qed.

(* ---------- the inhour polynomial on a list of groups ---------- *)

(* groups (lambda, beta); kappa = rho - total fraction *)
Fixpoint delayed (l : list (R * R)) (s : R) : R :=
  match l with [] => 0 | (la, be) :: l => la * be * linprod (map fst l) s + (la + s) * delayed l s end.
Definition inhour (kappa alpha : R) (l : list (R * R)) (s : R) : R :=
  (kappa - alpha * s) * linprod (map fst l) s + delayed l s.
(* the fraction form *)
Fixpoint frac (l : list (R * R)) (s : R) : R :=
  match l with [] => 0 | (la, be) :: l => la * be / (la + s) + frac l s end.

Lemma delayed_frac l s : (forall g, In g l -> fst g + s <> 0) -> delayed l s = linprod (map fst l) s * frac l s.
Proof.
  induction l as [|[la be] l IH]; intros H; cbn [delayed frac map fst linprod]; [ring|].
  rewrite IH by (intros; apply H; right; assumption). pose proof (H _ (or_introl eq_refl)) as H0. cbn in H0. field. exact H0.
Qed.
Lemma inhour_frac kappa alpha l s : (forall g, In g l -> fst g + s <> 0) ->
  inhour kappa alpha l s = linprod (map fst l) s * (kappa - alpha * s + frac l s).
Proof. intros H. unfold inhour. rewrite delayed_frac by exact H. ring. Qed.

Lemma linprod_perm l l' s : Permutation l l' -> linprod l s = linprod l' s.
Proof. induction 1; cbn [linprod]; try congruence. ring. Qed.
Lemma delayed_perm l l' s : Permutation l l' -> delayed l s = delayed l' s.
Proof.
  induction 1 as [|[la be] l l' P IH|[la be] [la' be'] l|l l' l'' P IH P' IH']; cbn [delayed map fst linprod]; try congruence.
  - rewrite IH, (linprod_perm _ _ s (Permutation_map fst P)). reflexivity.
  - ring.
Qed.
Lemma inhour_perm kappa alpha l l' s : Permutation l l' -> inhour kappa alpha l s = inhour kappa alpha l' s.
Proof. intros P. unfold inhour. rewrite (delayed_perm l l' s P), (linprod_perm _ _ s (Permutation_map fst P)). reflexivity. Qed.

Lemma delayed_app l1 l2 s : delayed (l1 ++ l2) s = delayed l1 s * linprod (map fst l2) s + linprod (map fst l1) s * delayed l2 s.
Proof.
  induction l1 as [|[la be] l1 IH]; cbn [app delayed map fst linprod]; [ring|].
  rewrite IH, map_app, linprod_app. ring.
Qed.
Lemma inhour_pole kappa alpha l1 la be l2 :
  inhour kappa alpha (l1 ++ (la, be) :: l2) (- la) = la * be * (linprod (map fst l1) (- la) * linprod (map fst l2) (- la)).
Proof.
  unfold inhour. rewrite delayed_app, map_app, linprod_app. cbn [map fst linprod delayed].
  replace (la + - la) with 0 by ring. ring.
Qed.

Lemma linprod_continuity l : continuity (linprod l).
Proof.
  induction l as [|c l IH]; cbn [linprod].
  - apply continuity_const. intros ? ?; reflexivity.
  - apply (continuity_mult (fun x => c + x) (linprod l)); [|exact IH].
    apply (continuity_plus (fun _ => c) (fun x => x)); [apply continuity_const; intros ? ?; reflexivity|].
    apply derivable_continuous, derivable_id.
Qed.
Lemma delayed_continuity l : continuity (delayed l).
Proof.
  induction l as [|[la be] l IH]; cbn [delayed].
  - apply continuity_const. intros ? ?; reflexivity.
  - apply (continuity_plus (fun s => la * be * linprod (map fst l) s) (fun s => (la + s) * delayed l s)).
    + apply (continuity_scal (linprod (map fst l))), linprod_continuity.
    + apply (continuity_mult (fun s => la + s) (delayed l)); [|exact IH].
      apply (continuity_plus (fun _ => la) (fun x => x)); [apply continuity_const; intros ? ?; reflexivity|].
      apply derivable_continuous, derivable_id.
Qed.
Lemma inhour_continuity kappa alpha l : continuity (inhour kappa alpha l).
Proof.
  unfold inhour. apply (continuity_plus (fun s => (kappa - alpha * s) * linprod (map fst l) s) (delayed l)); [|apply delayed_continuity].
  apply (continuity_mult (fun s => kappa - alpha * s) (linprod (map fst l))); [|apply linprod_continuity].
  apply (continuity_minus (fun _ => kappa) (fun s => alpha * s)); [apply continuity_const; intros ? ?; reflexivity|].
  apply (continuity_scal (fun s => s)). apply derivable_continuous, derivable_id.
Qed.

(* ---------- roots by sign changes ---------- *)

Fixpoint alternates (f : R -> R) (x : R) (xs : list R) : Prop :=
  match xs with [] => True | y :: xs => y < x /\ f x * f y < 0 /\ alternates f y xs end.

Lemma alternating_roots f : continuity f -> forall xs x, alternates f x xs ->
  exists rs, length rs = length xs /\ NoDup rs /\ forall r, In r rs -> f r = 0 /\ r < x.
Proof.
  intros Hf. induction xs as [|y xs IH]; intros x H.
  - exists []. split; [reflexivity|]. split; [constructor|]. intros r [].
  - destruct H as (Hxy & Hs & H). destruct (IH y H) as (rs & L & Nd & Hr).
    destruct (IVT_cor f y x Hf ltac:(lra) ltac:(lra)) as (z & [Hz1 Hz2] & Hz).
    assert (y < z) by (destruct (Req_dec y z) as [->|]; [rewrite Hz in Hs; lra|lra]).
    assert (z < x) by (destruct (Req_dec z x) as [->|]; [rewrite Hz in Hs; lra|lra]).
    exists (z :: rs). split; [cbn; lia|]. split.
    + constructor; [|exact Nd]. intros I. destruct (Hr z I). lra.
    + intros r [<-|I]; [split; lra|]. destruct (Hr r I). split; [assumption|lra].
Qed.

Lemma linprod_pos l s : (forall c, In c l -> 0 < c + s) -> 0 < linprod l s.
Proof.
  induction l as [|c l IH]; intros H; cbn [linprod]; [lra|].
  apply Rmult_lt_0_compat; [apply H; left; reflexivity|apply IH; intros; apply H; right; assumption].
Qed.
Lemma linprod_pair_pos l s t : (forall c, In c l -> 0 < (c + s) * (c + t)) -> 0 < linprod l s * linprod l t.
Proof.
  induction l as [|c l IH]; intros H; cbn [linprod]; [lra|].
  replace ((c + s) * linprod l s * ((c + t) * linprod l t)) with ((c + s) * (c + t) * (linprod l s * linprod l t)) by ring.
  apply Rmult_lt_0_compat; [apply H; left; reflexivity|apply IH; intros; apply H; right; assumption].
Qed.

(* insertion of groups by increasing decay constant *)
Definition before (a b : R * R) : Prop := fst a < fst b.
Lemma sorted_groups (l : list (R * R)) : NoDup (map fst l) -> exists l', Permutation l l' /\ StronglySorted before l'.
Proof.
  induction l as [|g l IH]; intros Hn; [exists []; split; constructor|].
  cbn [map] in Hn. inversion Hn as [|? ? Hni Hn']; subst. destruct (IH Hn') as (l' & P & S).
  assert (I : forall q, StronglySorted before q -> ~ In (fst g) (map fst q) -> exists q', Permutation (g :: q) q' /\ StronglySorted before q').
  { clear - g. intros q. induction q as [|h q IH]; intros S Hni.
    - exists [g]. split; [reflexivity|]. repeat constructor.
    - inversion S as [|? ? S' F]; subst. destruct (Rlt_le_dec (fst g) (fst h)) as [L|L].
      + exists (g :: h :: q). split; [reflexivity|]. constructor; [exact S|]. constructor; [exact L|].
        eapply Forall_impl; [|exact F]. intros a Ha. unfold before in *. lra.
      + destruct IH as (q' & P & Sq); [exact S'|intros I; apply Hni; right; exact I|].
        exists (h :: q'). split; [rewrite perm_swap; constructor; exact P|]. constructor; [exact Sq|].
        eapply Permutation_Forall; [exact P|]. constructor; [|exact F]. unfold before.
        assert (fst h <> fst g) by (intros E; apply Hni; left; exact E). lra. }
  destruct (I l' S) as (q & Pq & Sq).
  { intros J. apply Hni. eapply Permutation_in; [symmetry; apply (Permutation_map fst), P|exact J]. }
  exists q. split; [rewrite <- Pq; constructor; exact P|exact Sq].
Qed.
Lemma sorted_mid l1 x l2 : StronglySorted before (l1 ++ x :: l2) ->
  (forall g, In g l1 -> fst g < fst x) /\ (forall g, In g l2 -> fst x < fst g).
Proof.
  induction l1 as [|h l1 IH]; cbn [app]; intros S; inversion S as [|? ? S' F]; subst.
  - split; [intros g []|]. intros g Hg. rewrite Forall_forall in F. apply F, Hg.
  - destruct (IH S') as [A B]. split; [|exact B]. intros g [<-|Hg]; [|apply A, Hg].
    rewrite Forall_forall in F. apply F. apply in_or_app. right; left; reflexivity.
Qed.

Section Roots.
Variables (kappa alpha : R) (l : list (R * R)).
Hypothesis Ha : 0 < alpha.
Hypothesis Hpos : forall g, In g l -> 0 < fst g /\ 0 < snd g.
Let f := inhour kappa alpha l.

Fixpoint total (q : list (R * R)) (h : R * R -> R) : R := match q with [] => 0 | g :: q => h g + total q h end.
Lemma total_nonneg q h : (forall g, In g q -> 0 <= h g) -> 0 <= total q h.
Proof.
  induction q as [|g q IH]; intros H; cbn [total]; [lra|].
  pose proof (H g (or_introl eq_refl)). pose proof (IH (fun g I => H g (or_intror I))). lra.
Qed.
Lemma total_term q h g : (forall g, In g q -> 0 <= h g) -> In g q -> h g <= total q h.
Proof.
  induction q as [|g0 q IH]; intros H []; cbn [total].
  - subst. pose proof (total_nonneg q h (fun g I => H g (or_intror I))). lra.
  - pose proof (H g0 (or_introl eq_refl)). pose proof (IH (fun g I => H g (or_intror I)) H0). lra.
Qed.

Let hiM := (Rabs kappa + total l snd) / alpha + 1.
Let loM := 1 + total l fst + (Rabs kappa + total l (fun g => fst g * snd g)) / alpha + 1.

Lemma hiM_pos : 0 < hiM.
Proof.
  unfold hiM. pose proof (Rabs_pos kappa). pose proof (total_nonneg l snd (fun g I => Rlt_le _ _ (proj2 (Hpos g I)))).
  assert (0 <= (Rabs kappa + total l snd) / alpha) by (apply Rmult_le_pos; [lra|left; apply Rinv_0_lt_compat, Ha]). lra.
Qed.
Lemma frac_hi q s : (forall g, In g q -> 0 < fst g /\ 0 < snd g) -> 0 < s -> frac q s <= total q snd.
Proof.
  intros Hq Hs. induction q as [|[la be] q IH]; cbn [frac total snd]; [lra|].
  destruct (Hq (la, be) (or_introl eq_refl)) as [H1 H2]. cbn in H1, H2.
  pose proof (IH (fun g I => Hq g (or_intror I))).
  assert (la * be / (la + s) <= be); [|lra].
  apply Rmult_le_reg_r with (la + s); [lra|]. unfold Rdiv. rewrite Rmult_assoc, Rinv_l, Rmult_1_r by lra.
  assert (0 <= be * s) by (apply Rmult_le_pos; lra). lra.
Qed.
Lemma at_hi : f hiM < 0.
Proof.
  pose proof hiM_pos as HM. unfold f. rewrite inhour_frac.
  - assert (L : 0 < linprod (map fst l) hiM).
    { apply linprod_pos. intros c Hc. apply in_map_iff in Hc as (g & <- & Hg). destruct (Hpos g Hg). lra. }
    assert (kappa - alpha * hiM + frac l hiM < 0).
    { pose proof (frac_hi l hiM Hpos HM) as F. pose proof (Rle_abs kappa).
      assert (E : alpha * hiM = Rabs kappa + total l snd + alpha) by (unfold hiM; field; lra). lra. }
    rewrite <- (Rmult_0_r (linprod (map fst l) hiM)). apply Rmult_lt_compat_l; assumption.
  - intros g Hg. destruct (Hpos g Hg). apply Rgt_not_eq. lra.
Qed.
Lemma lo_below g : In g l -> fst g + - loM < -1.
Proof.
  intros Hg. pose proof (total_term l fst g (fun g I => Rlt_le _ _ (proj1 (Hpos g I))) Hg).
  assert (0 <= (Rabs kappa + total l (fun g => fst g * snd g)) / alpha).
  { apply Rmult_le_pos; [|left; apply Rinv_0_lt_compat, Ha]. pose proof (Rabs_pos kappa).
    pose proof (total_nonneg l (fun g => fst g * snd g)
      (fun g I => Rmult_le_pos _ _ (Rlt_le _ _ (proj1 (Hpos g I))) (Rlt_le _ _ (proj2 (Hpos g I))))). lra. }
  unfold loM. lra.
Qed.
Lemma frac_lo q s : (forall g, In g q -> 0 < fst g /\ 0 < snd g /\ fst g + s < -1) ->
  - total q (fun g => fst g * snd g) <= frac q s.
Proof.
  intros Hq. induction q as [|[la be] q IH]; cbn [frac total fst snd]; [lra|].
  destruct (Hq (la, be) (or_introl eq_refl)) as (H1 & H2 & H3). cbn in H1, H2, H3.
  pose proof (IH (fun g I => Hq g (or_intror I))).
  assert (- (la * be) <= la * be / (la + s)); [|lra].
  assert (P : 0 < la * be) by (apply Rmult_lt_0_compat; assumption).
  replace (la * be / (la + s)) with (- (la * be * / - (la + s))) by (field; lra).
  apply Ropp_le_contravar. rewrite <- (Rmult_1_r (la * be)) at 2. apply Rmult_le_compat_l; [lra|].
  rewrite <- Rinv_1. apply Rinv_le_contravar; lra.
Qed.
Lemma at_lo : exists w, 0 < w /\ f (- loM) = linprod (map fst l) (- loM) * w.
Proof.
  exists (kappa - alpha * (- loM) + frac l (- loM)). split.
  - pose proof (frac_lo l (- loM) (fun g I => conj (proj1 (Hpos g I)) (conj (proj2 (Hpos g I)) (lo_below g I)))) as F.
    assert (E : alpha * loM = alpha * (2 + total l fst) + (Rabs kappa + total l (fun g => fst g * snd g))) by (unfold loM; field; lra).
    assert (0 < alpha * (2 + total l fst)).
    { apply Rmult_lt_0_compat; [exact Ha|]. pose proof (total_nonneg l fst (fun g I => Rlt_le _ _ (proj1 (Hpos g I)))). lra. }
    pose proof (Rle_abs (- kappa)) as K. rewrite Rabs_Ropp in K. lra.
  - unfold f. apply inhour_frac. intros g Hg. apply Rlt_not_eq. pose proof (lo_below g Hg). lra.
Qed.

Hypothesis Hsort : StronglySorted before l.

Lemma alternates_poles l2 : forall l1 x, l = l1 ++ x :: l2 ->
  alternates f (- fst x) (map (fun g => - fst g) l2 ++ [- loM]).
Proof.
  induction l2 as [|y l2 IH]; intros l1 [la be] E; cbn [map app alternates fst].
  - assert (I : In (la, be) l) by (rewrite E; apply in_or_app; right; left; reflexivity).
    pose proof (lo_below _ I) as B. destruct (Hpos _ I) as [p1 p2]. cbn [fst snd] in *.
    split; [lra|]. split; [|exact Logic.I].
    destruct at_lo as (w & Hw & ->). unfold f. rewrite E at 1. rewrite inhour_pole. cbn [map linprod]. rewrite Rmult_1_r.
    rewrite E, map_app, linprod_app. cbn [map fst linprod].
    rewrite E in Hsort. destruct (sorted_mid _ _ _ Hsort) as [S1 _]. cbn [fst] in S1.
    assert (Q : 0 < linprod (map fst l1) (- la) * linprod (map fst l1) (- loM)).
    { apply linprod_pair_pos. intros c Hc. apply in_map_iff in Hc as (g & <- & Hg). pose proof (S1 g Hg).
      assert (Ig : In g l) by (rewrite E; apply in_or_app; left; exact Hg). pose proof (lo_below g Ig).
      replace ((fst g + - la) * (fst g + - loM)) with ((la - fst g) * - (fst g + - loM)) by ring.
      apply Rmult_lt_0_compat; lra. }
    replace (la * be * linprod (map fst l1) (- la) * (linprod (map fst l1) (- loM) * ((la + - loM) * 1) * w))
      with (- (la * be * w * - (la + - loM) * (linprod (map fst l1) (- la) * linprod (map fst l1) (- loM)))) by ring.
    apply Ropp_lt_gt_0_contravar. apply Rmult_lt_0_compat; [|exact Q].
    apply Rmult_lt_0_compat; [|lra]. apply Rmult_lt_0_compat; [|exact Hw]. apply Rmult_lt_0_compat; assumption.
  - destruct y as [lb bb]. cbn [fst].
    assert (I : In (la, be) l) by (rewrite E; apply in_or_app; right; left; reflexivity).
    assert (I' : In (lb, bb) l) by (rewrite E; apply in_or_app; right; right; left; reflexivity).
    destruct (Hpos _ I) as [p1 p2]. destruct (Hpos _ I') as [q1 q2]. cbn [fst snd] in *.
    pose proof Hsort as S. rewrite E in S. destruct (sorted_mid _ _ _ S) as [S1 S2].
    assert (E' : l = (l1 ++ [(la, be)]) ++ (lb, bb) :: l2) by (rewrite <- app_assoc; exact E).
    pose proof Hsort as S'. rewrite E' in S'. destruct (sorted_mid _ _ _ S') as [S3 S4].
    pose proof (S2 (lb, bb) (or_introl eq_refl)) as Hlt. cbn [fst] in *.
    split; [lra|]. split; [|apply (IH (l1 ++ [(la, be)]) (lb, bb) E')].
    unfold f. rewrite E at 1. rewrite inhour_pole. rewrite E', inhour_pole.
    rewrite map_app, linprod_app. cbn [map fst linprod].
    assert (Q : 0 < linprod (map fst (l1 ++ l2)) (- la) * linprod (map fst (l1 ++ l2)) (- lb)).
    { apply linprod_pair_pos. intros c Hc. apply in_map_iff in Hc as (g & <- & Hg). apply in_app_or in Hg as [Hg|Hg].
      - pose proof (S1 g Hg). pose proof (S3 g (in_or_app _ _ _ (or_introl Hg))).
        replace ((fst g + - la) * (fst g + - lb)) with ((la - fst g) * (lb - fst g)) by ring. apply Rmult_lt_0_compat; lra.
      - pose proof (S2 g (or_intror Hg)). pose proof (S4 g Hg). apply Rmult_lt_0_compat; lra. }
    rewrite map_app, !linprod_app in Q.
    set (a1 := linprod (map fst l1) (- la)) in *. set (a2 := linprod (map fst l2) (- la)) in *.
    set (b1 := linprod (map fst l1) (- lb)) in *. set (b2 := linprod (map fst l2) (- lb)) in *.
    replace (la * be * (a1 * ((lb + - la) * a2)) * (lb * bb * (b1 * ((la + - lb) * 1) * b2))) with
      (- (la * be * (lb * bb) * ((lb - la) * (lb - la)) * (a1 * a2 * (b1 * b2)))) by ring.
    apply Ropp_lt_gt_0_contravar. apply Rmult_lt_0_compat; [|exact Q].
    apply Rmult_lt_0_compat; apply Rmult_lt_0_compat; try apply Rmult_lt_0_compat; lra.
Qed.

Lemma alternates_all : alternates f hiM (map (fun g => - fst g) l ++ [- loM]).
Proof.
  pose proof at_hi as H1. pose proof hiM_pos as HM. destruct at_lo as (w & Hw & Hlo).
  assert (C : l = [] \/ exists g l', l = g :: l') by (destruct l as [|g l']; [left; reflexivity|right; exists g, l'; reflexivity]).
  destruct C as [E|((la & be) & l' & E)].
  - replace (map (fun g => - fst g) l) with (@nil R) by (rewrite E; reflexivity). cbn [app alternates].
    split; [|split; [|exact Logic.I]].
    + assert (0 < loM); [|lra].
      unfold loM. pose proof (Rabs_pos kappa). pose proof (total_nonneg l fst (fun g I => Rlt_le _ _ (proj1 (Hpos g I)))).
      assert (0 <= (Rabs kappa + total l (fun g => fst g * snd g)) / alpha); [|lra].
      apply Rmult_le_pos; [|left; apply Rinv_0_lt_compat, Ha]. rewrite E. cbn [total]. lra.
    + rewrite Hlo. replace (linprod (map fst l) (- loM)) with 1 by (rewrite E; reflexivity). rewrite Rmult_1_l.
      rewrite <- (Rmult_0_l w). apply Rmult_lt_compat_r; assumption.
  - assert (I : In (la, be) l) by (rewrite E; left; reflexivity). destruct (Hpos _ I) as [p1 p2]. cbn [fst snd] in *.
    replace (map (fun g => - fst g) l) with (- la :: map (fun g => - fst g) l') by (rewrite E; reflexivity). cbn [app alternates].
    split; [lra|].
    split; [|apply (alternates_poles l' [] (la, be)); exact E].
    assert (0 < f (- la)).
    { unfold f. replace l with ([] ++ (la, be) :: l') by (symmetry; exact E). rewrite inhour_pole. cbn [map linprod]. rewrite Rmult_1_l.
      apply Rmult_lt_0_compat; [apply Rmult_lt_0_compat; assumption|]. apply linprod_pos.
      intros c Hc. apply in_map_iff in Hc as (g & <- & Hg). pose proof Hsort as Hs. rewrite E in Hs.
      destruct (sorted_mid [] _ _ Hs) as [_ S2]. pose proof (S2 g Hg). cbn in *. lra. }
    rewrite <- (Rmult_0_l (f (- la))). apply Rmult_lt_compat_r; assumption.
Qed.
End Roots.

Lemma inhour_roots kappa alpha l : 0 < alpha -> (forall g, In g l -> 0 < fst g /\ 0 < snd g) -> NoDup (map fst l) ->
  exists rs, length rs = S (length l) /\ NoDup rs /\ forall r, In r rs -> inhour kappa alpha l r = 0.
Proof.
  intros Ha Hp Hn. destruct (sorted_groups l Hn) as (q & P & S).
  assert (Hq : forall g, In g q -> 0 < fst g /\ 0 < snd g).
  { intros g Hg. apply Hp. eapply Permutation_in; [symmetry; exact P|exact Hg]. }
  destruct (alternating_roots _ (inhour_continuity kappa alpha q) _ _ (alternates_all kappa alpha q Ha Hq S)) as (rs & L & Nd & Hr).
  exists rs. split; [rewrite L, app_length, map_length, (Permutation_length P); cbn; lia|]. split; [exact Nd|].
  intros r I. rewrite (inhour_perm kappa alpha l q r P). apply (Hr r I).
Qed.
