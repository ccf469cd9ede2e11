(* Point kinetics: the polynomial, its roots, and a step of the model. *)
From Coq Require Import String ZArith List Bool Lia Reals Lra Permutation.
From Coquelicot Require Import Coquelicot.
From Verif Require Import Base BaseLemmas NumR LinAlg ModelNumTools ProofsNumTools InHour ModelKinetics.
Import ListNotations.
Local Open Scope R_scope.

Notation "l @ i" := (nth (Z.to_nat i) l 0) (at level 9, format "l @ i").

Lemma accumulate_total (l : list R) : fold_left nadd l n0 = rsum 0 (zlen l) (fun i => l@i).
Proof.
  rnum. rewrite (fold_symmetric Rplus); [|intros; ring|intros; ring].
  induction l as [|a l IH]; [cbn [fold_right]; rewrite rsum_empty by (cbn; lia); reflexivity|].
  cbn [fold_right]. rewrite IH. replace (zlen (a :: l)) with (zlen l + 1)%Z by (unfold zlen; cbn [length]; lia).
  pose proof (zlen_nonneg l). rewrite (rsum_first 0 (zlen l + 1)) by lia. cbn [nth Z.to_nat]. f_equal.
  rewrite <- (rsum_shift 0 (zlen l) 1). apply rsum_ext. intros i Hi.
  replace (Z.to_nat (i + 1)) with (S (Z.to_nat i)) by lia. reflexivity.
Qed.

(* ---------- the polynomial ---------- *)

Lemma delayed_sum (la be : list R) s : (length la <= length be)%nat ->
  rsum 0 (zlen la) (fun i => la@i * be@i * linprod (remove_nth (Z.to_nat i) la) s) = delayed (combine la be) s.
Proof.
  revert be. induction la as [|a la IH]; intros [|b be] H; cbn [length] in H; try lia; cbn [combine delayed].
  - apply rsum_empty. cbn; lia.
  - apply rsum_empty. cbn; lia.
  - replace (zlen (a :: la)) with (zlen la + 1)%Z by (unfold zlen; cbn [length]; lia).
    pose proof (zlen_nonneg la). rewrite (rsum_first 0 (zlen la + 1)) by lia.
    f_equal.
    + cbn. f_equal. f_equal. clear - H. revert be H. induction la as [|c la IH]; intros [|d be] H; cbn in *; try lia; [reflexivity..|].
      f_equal. apply IH. lia.
    + rewrite <- IH by lia. rewrite <- (rsum_shift 0 (zlen la) 1), <- rsum_scal. apply rsum_ext. intros i Hi.
      replace (Z.to_nat (i + 1)) with (S (Z.to_nat i)) by lia. cbn [nth].
      change (remove_nth (S (Z.to_nat i)) (a :: la)) with (a :: remove_nth (Z.to_nat i) la). cbn [linprod]. ring.
Qed.

Lemma map_fst_combine (la be : list R) : (length la <= length be)%nat -> map fst (combine la be) = la.
Proof. revert be. induction la as [|c la IH]; intros [|d be] H; cbn in *; try lia; [reflexivity..|]. f_equal. apply IH. lia. Qed.

Lemma inHourPoly_spec (k : kinetics R) rho : (length (kn_lambda k) <= length (kn_beta k))%nat ->
  exists p, inHourPoly k rho = Ok p /\ length p = S (S (length (kn_lambda k))) /\ last p 0 = - kn_alpha k /\
    forall s, peval p s = inhour (rho - rsum 0 (zlen (kn_beta k)) (fun i => (kn_beta k)@i)) (kn_alpha k)
                            (combine (kn_lambda k) (kn_beta k)) s.
Proof.
  intros Hl. unfold inHourPoly. set (la := kn_lambda k) in *. set (be := kn_beta k) in *. set (al := kn_alpha k).
  destruct (prod_poly_spec la) as (lp & -> & Llp & Lst & Elp & _). cbn [bind].
  rewrite accumulate_total. set (bT := rsum 0 (zlen be) (fun i => be@i)).
  rewrite (proj2 (vmults_spec (lp ++ [n0]) (rho [-] bT))). cbn [bind].
  destruct (multiply_poly_spec lp [n0; n1]) as (sp & -> & Lsp & Esp); [destruct lp; [discriminate|discriminate]|discriminate|].
  cbn [bind]. rewrite (proj2 (vmults_spec sp al)). cbn [bind].
  assert (W : wp (zfor 0 (zlen la) (fun i t => q <- prod_poly_i la i ;; l <- lget la i ;; b <- lget be i ;;
      vplus_eq t (vmults (vmults q l) b)) (repeat n0 (length la)))
    (fun t => length t = length la /\ forall s, peval t s = delayed (combine la be) s)).
  { eapply zfor_wp' with (I := fun i t => length t = length la /\
      forall s, peval t s = rsum 0 i (fun i => la@i * be@i * linprod (remove_nth (Z.to_nat i) la) s)).
    - apply zlen_nonneg.
    - split; [apply repeat_length|]. intros s. rnum. rewrite peval_repeat0, rsum_empty by lia. reflexivity.
    - intros i t Hi [Lt Et]. unfold zlen in Hi.
      destruct (prod_poly_i_spec la (Z.to_nat i) ltac:(lia)) as (q & Eq & Lq & Pq). rewrite Z2Nat.id in Eq by lia. rewrite Eq. cbn [bind].
      rewrite (lget_ok la i 0) by (unfold zlen; lia). cbn [bind]. rewrite (lget_ok be i 0) by (unfold zlen; lia). cbn [bind].
      unfold vplus_eq. rewrite (proj2 (zlen_eqb _ _)) by (unfold vmults; rewrite !map_length; congruence).
      rewrite in_place2 by (unfold vmults; rewrite !map_length; congruence). cbn [wp].
      split; [rewrite map2_length; unfold vmults; rewrite ?map_length; congruence|].
      intros s. rnum. rewrite map2_plus_peval by (unfold vmults; rewrite !map_length; congruence). rewrite Et, rsum_last by lia.
      f_equal. unfold vmults. rnum.
      assert (Sc : forall c p, peval (map (fun x => x * c) p) s = c * peval p s).
      { intros c p. induction p as [|y p IHp]; cbn; [ring|]. rewrite IHp. ring. }
      rewrite !Sc, Pq. ring.
    - intros t [Lt Et]. split; [exact Lt|]. intros s. rewrite Et. apply delayed_sum. exact Hl. }
  apply wp_ok in W. destruct W as (t & -> & Lt & Et). cbn [bind].
  assert (L1 : length (vmults (lp ++ [n0]) (rho [-] bT)) = S (S (length la))) by (unfold vmults; rewrite map_length, app_length; cbn; lia).
  assert (L2 : length (vmults sp al) = S (S (length la))) by (unfold vmults; rewrite map_length, Lsp; cbn; lia).
  assert (L3 : length (t ++ [n0; n0]) = S (S (length la))) by (rewrite app_length; cbn; lia).
  unfold vminus. rewrite (proj2 (zlen_eqb _ _)) by congruence. cbn [bind].
  assert (L4 : length (map2 nsub (vmults (lp ++ [n0]) (rho [-] bT)) (vmults sp al)) = S (S (length la))) by (rewrite map2_length; congruence).
  unfold vplus. rewrite (proj2 (zlen_eqb _ _)) by congruence.
  eexists. split; [reflexivity|]. split; [rewrite map2_length; congruence|].
  assert (Esc : forall c p s, peval (map (fun x => x * c) p) s = c * peval p s).
  { intros c p s. induction p as [|y p IHp]; cbn; [ring|]. rewrite IHp. ring. }
  split.
  - rewrite last_nth, map2_length by congruence. rewrite L4. replace (S (S (length la)) - 1)%nat with (S (length la)) by lia.
    rewrite map2_nth; [|congruence|lia]. rewrite map2_nth; [|congruence|lia].
    assert (Q : sp = 0 :: lp).
    { apply peval_ext; [cbn; rewrite Lsp; cbn; lia|]. intros x. rewrite Esp. cbn. rnum. ring. }
    rewrite Q. unfold vmults. cbn [map nth].
    rewrite app_nth2 by lia. replace (S (length la) - length t)%nat with 1%nat by lia. cbn [nth].
    rewrite map_app, app_nth2 by (rewrite map_length; lia). rewrite map_length, Llp, Nat.sub_diag. cbn [map nth].
    rewrite last_nth, Llp in Lst. replace (S (length la) - 1)%nat with (length la) in Lst by lia.
    rnum. rewrite (nth_indep _ 0 ((fun x => x * al) 0)) by (rewrite map_length; lia).
    rewrite (map_nth (fun x => x * al)). rewrite Lst. ring.
  - intros s. rnum. rewrite map2_plus_peval by congruence.
    rewrite list_sub_peval by congruence. unfold vmults. rnum. rewrite !Esc, !peval_app, Esp, Et, Elp. unfold inhour.
    rewrite map_fst_combine by exact Hl. cbn [peval]. rnum. ring.
Qed.

(* ---------- its roots ---------- *)

Fixpoint ceval (p : list R) (z : C) : C :=
  match p with [] => RtoC 0 | c :: p => Cplus (RtoC c) (Cmult z (ceval p z)) end.
Fixpoint cprod (z : C) (rs : list C) : C :=
  match rs with [] => RtoC 1 | r :: rs => Cmult (Cminus z r) (cprod z rs) end.
(* rs lists the complex roots of p with their multiplicities *)
Definition root_list (p : list R) (rs : list C) : Prop :=
  length rs = (length p - 1)%nat /\ forall z, ceval p z = Cmult (RtoC (last p 0)) (cprod z rs).

Lemma ceval_real p x : ceval p (RtoC x) = RtoC (peval p x).
Proof.
  induction p as [|c p IH]; cbn [ceval peval]; [reflexivity|]. rewrite IH.
  rewrite <- RtoC_mult, <- RtoC_plus. reflexivity.
Qed.
Lemma cprod_zero z rs : cprod z rs = RtoC 0 -> In z rs.
Proof.
  induction rs as [|r rs IH]; cbn [cprod]; intros H.
  - exfalso. apply (f_equal fst) in H. cbn in H. lra.
  - destruct (Ceq_dec (Cminus z r) (RtoC 0)) as [E|E].
    + left. replace z with (Cplus (Cminus z r) r) by ring. rewrite E. ring.
    + right. apply IH. destruct (Ceq_dec (cprod z rs) (RtoC 0)) as [Q|Q]; [exact Q|]. exfalso. exact (Cmult_neq_0 _ _ E Q H).
Qed.

Lemma real_roots (p : list R) (rs : list C) (xs : list R) :
  root_list p rs -> last p 0 <> 0 -> NoDup xs -> length xs = (length p - 1)%nat -> (forall x, In x xs -> peval p x = 0) ->
  Permutation (map RtoC xs) rs.
Proof.
  intros [L H] Hlast Hn Hx Hr. apply NoDup_Permutation_bis.
  - apply FinFun.Injective_map_NoDup; [|exact Hn]. intros a b E. apply RtoC_inj, E.
  - rewrite map_length. lia.
  - intros z Hz. apply in_map_iff in Hz as (x & <- & Ix). apply cprod_zero.
    specialize (H (RtoC x)). rewrite ceval_real, (Hr x Ix) in H.
    destruct (Ceq_dec (cprod (RtoC x) rs) (RtoC 0)) as [Q|Q]; [exact Q|]. exfalso.
    apply (Cmult_neq_0 (RtoC (last p 0)) (cprod (RtoC x) rs)); [|exact Q|symmetry; exact H].
    intros E. apply Hlast. apply RtoC_inj. exact E.
Qed.
