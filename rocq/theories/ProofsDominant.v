(* The mode the source iteration settles on has the largest factor of all modes, real
   or complex, and is the only one with that factor. *)
From Coq Require Import String ZArith List Bool Lia Reals Lra Permutation Sorted.
From Verif Require Import Base BaseLemmas NumR LinAlg PowerMethod ModelNumTools ModelEigen ProofsNumTools ProofsEigen ProofsConverge ProofsConvergeD ProofsReactivity.
Import ListNotations.
Local Open Scope R_scope.

(* the modulus of a complex number *)
Definition modulus (x y : R) : R := sqrt (x * x + y * y).
Lemma modulus_square x y : modulus x y * modulus x y = x * x + y * y.
Proof. apply sqrt_sqrt. nra. Qed.
Lemma modulus_nonneg x y : 0 <= modulus x y.
Proof. apply sqrt_pos. Qed.
Lemma modulus_pos x y : x <> 0 \/ y <> 0 -> 0 < modulus x y.
Proof. intros H. apply sqrt_lt_R0. destruct H as [H | H]; pose proof (Rsqr_pos_lt _ H) as Q; unfold Rsqr in Q; nra. Qed.
Lemma modulus_0 : modulus 0 0 = 0.
Proof. unfold modulus. rewrite Rmult_0_l, Rplus_0_l. apply sqrt_0. Qed.
Lemma cauchy_two p q x y : p * x + q * y <= modulus p q * modulus x y.
Proof.
  destruct (Rle_lt_dec (p * x + q * y) 0) as [L | G]; [eapply Rle_trans; [exact L|]; apply Rmult_le_pos; apply modulus_nonneg|].
  apply Rsqr_incr_0; [|lra|apply Rmult_le_pos; apply modulus_nonneg]. unfold Rsqr.
  replace (modulus p q * modulus x y * (modulus p q * modulus x y)) with ((p * p + q * q) * (x * x + y * y)).
  - pose proof (Rle_0_sqr (p * y - q * x)) as S. unfold Rsqr in S. nra.
  - rewrite <- !modulus_square. ring.
Qed.
Lemma modulus_ge x y : x <= modulus x y.
Proof. pose proof (cauchy_two x y 1 0) as H. replace (modulus 1 0) with 1 in H; [lra|]. unfold modulus. replace (1 * 1 + 0 * 0) with 1 by ring. rewrite sqrt_1. reflexivity. Qed.

(* re + i im is reproduced: M v = lambda F v with lambda = lr + i li *)
Definition complex_mode (M F : mat R) (l : R * R) (re im : Z -> R) : Prop :=
  (exists i, (0 <= i < mcols M)%Z /\ (re i <> 0 \/ im i <> 0)) /\
  forall i, (0 <= i < mrows M)%Z ->
    app (mcols M) (mat_at M) re i = fst l * app (mcols F) (mat_at F) re i - snd l * app (mcols F) (mat_at F) im i /\
    app (mcols M) (mat_at M) im i = fst l * app (mcols F) (mat_at F) im i + snd l * app (mcols F) (mat_at F) re i.

Section Dominant.
Variables (M F : mat R) (size : Z) (k : R) (phi : vec R).
Hypothesis HMr : mrows M = size.
Hypothesis HMc : mcols M = size.
Hypothesis HFr : mrows F = size.
Hypothesis HFc : mcols F = size.
Hypothesis Hmon : monotone size (mat_at M).
Hypothesis HF0 : forall i j, (0 <= i < size)%Z -> (0 <= j < size)%Z -> 0 <= mat_at F i j.
Hypothesis Hmode : mode M F k phi.
Hypothesis Hpos : forall i j, (0 <= i < size)%Z -> (0 <= j < size)%Z -> 0 < mat_at F i j -> 0 < vat (mvmul F phi) i.
Notation appM := (app size (mat_at M)).
Notation appF := (app size (mat_at F)).
Notation u := (appF (vat phi)).

Lemma mode_facts : 0 < k /\ (forall i, (0 <= i < size)%Z -> 0 <= vat phi i) /\ (exists i, (0 <= i < size)%Z /\ u i <> 0) /\
  (forall i, (0 <= i < size)%Z -> appM (vat phi) i = u i / k).
Proof using HMr HMc HFr HFc Hmode.
  destruct Hmode as (Hk & _ & H0 & (i & Hi & Hn) & He). rewrite HMc in H0. rewrite HMr in He. rewrite HFr in Hi. split; [exact Hk|]. split; [exact H0|]. split.
  - exists i. split; [exact Hi|]. rewrite mvmul_at, HFc in Hn. exact Hn.
  - intros j Hj. specialize (He j Hj). rewrite !mvmul_at, HMc, HFc in He. exact He.
Qed.

(* where the mode makes no fission neutrons, no flux does *)
Lemma off i x : (0 <= i < size)%Z -> u i <= 0 -> appF x i = 0.
Proof using HFc HF0 Hpos.
  intros Hi Hu. apply rsum_0. intros j Hj. destruct (HF0 i j Hi Hj) as [P | <-]; [|ring].
  pose proof (Hpos i j Hi Hj P) as Q. rewrite mvmul_at, HFc in Q. exfalso. unfold app in Hu. lra.
Qed.
Lemma u_nonneg i : (0 <= i < size)%Z -> 0 <= u i.
Proof using HMr HMc HFr HFc HF0 Hmode. intros Hi. apply rsum_nonneg. intros j Hj. apply Rmult_le_pos; [auto|]. apply mode_facts. exact Hj. Qed.

Lemma app_combine A a b x y i : app size A (fun j => a * x j + b * y j) i = a * app size A x i + b * app size A y i.
Proof. unfold app. rewrite <- !rsum_scal, <- rsum_plus. apply rsum_ext. intros; ring. Qed.

(* no mode, real or complex, has a larger factor *)
Lemma dominates lr li re im : complex_mode M F (lr, li) re im -> 1 <= modulus lr li * k.
Proof using HMr HMc HFr HFc Hmon HF0 Hmode Hpos.
  intros ((q & Hq & Nq) & E). cbn [fst snd] in E. rewrite HMr, HMc, HFc in E. rewrite HMc in Hq.
  destruct mode_facts as (Hk & P0 & (r & Hr & Ur) & Ep).
  set (sr := appF re). set (si := appF im). set (s i := modulus (sr i) (si i)).
  assert (S0 : forall i, (0 <= i < size)%Z -> u i <= 0 -> s i = 0).
  { intros i Hi Hu. unfold s, sr, si. rewrite !off by assumption. apply modulus_0. }
  destruct (argmax (fun i => s i / u i) (Z.to_nat size) ltac:(lia)) as (i & Hi & Hmax). rewrite Z2Nat.id in Hi, Hmax by lia. set (c := s i / u i) in *.
  assert (Le : forall j, (0 <= j < size)%Z -> s j <= c * u j).
  { intros j Hj. destruct (Rle_lt_dec (u j) 0) as [L | G].
    - rewrite S0 by assumption. pose proof (u_nonneg j Hj). replace (u j) with 0 by lra. lra.
    - specialize (Hmax j Hj). apply Rmult_le_compat_r with (r := u j) in Hmax; [|lra]. unfold Rdiv at 1 in Hmax. rewrite Rmult_assoc, Rinv_l in Hmax by lra. lra. }
  assert (Hc : 0 < c).
  { destruct (Rle_lt_dec c 0) as [L | G]; [exfalso|exact G].
    assert (Z : forall j, (0 <= j < size)%Z -> sr j = 0 /\ si j = 0).
    { intros j Hj. pose proof (Le j Hj) as B. pose proof (u_nonneg j Hj). assert (c * u j <= 0) by nra.
      destruct (Req_dec (sr j) 0) as [A1 | A1]; [destruct (Req_dec (si j) 0) as [A2 | A2]; [auto|]|]; exfalso; pose proof (modulus_pos (sr j) (si j)); unfold s in B; tauto || (assert (0 < modulus (sr j) (si j)) by auto; lra). }
    assert (Re : forall j, (0 <= j < size)%Z -> re j = 0) by (apply (monotone_injective _ _ Hmon); intros j Hj; rewrite (proj1 (E j Hj)); fold sr si; destruct (Z j Hj) as [-> ->]; ring).
    assert (Im : forall j, (0 <= j < size)%Z -> im j = 0) by (apply (monotone_injective _ _ Hmon); intros j Hj; rewrite (proj2 (E j Hj)); fold sr si; destruct (Z j Hj) as [-> ->]; ring).
    destruct Nq as [N | N]; apply N; auto. }
  assert (Ui : 0 < u i).
  { destruct (Rle_lt_dec (u i) 0) as [L | G]; [|exact G]. exfalso. unfold c in Hc. rewrite S0 in Hc by assumption. unfold Rdiv in Hc. lra. }
  assert (Si : s i = c * u i) by (unfold c; field; lra). assert (Sp : 0 < s i) by (rewrite Si; apply Rmult_lt_0_compat; assumption).
  set (a := sr i / s i). set (b := si i / s i).
  assert (Hab : a * a + b * b = 1).
  { replace (a * a + b * b) with ((sr i * sr i + si i * si i) / (s i * s i)) by (unfold a, b; field; lra). rewrite <- modulus_square. fold (s i). field. lra. }
  (* the part of the flux in the direction of s i is at most a multiple of the mode *)
  set (L := modulus lr li * c * k).
  assert (B : forall j, (0 <= j < size)%Z -> 0 <= L * vat phi j + -1 * (a * re j + b * im j)).
  { apply Hmon. intros j Hj. rewrite (app_combine _ L (-1) (vat phi) (fun j => a * re j + b * im j)). rewrite (app_combine _ a b re im). rewrite (proj1 (E j Hj)), (proj2 (E j Hj)), (Ep j Hj).
    fold sr si. pose proof (cauchy_two (a * lr + b * li) (b * lr - a * li) (sr j) (si j)) as C.
    assert (Em : modulus (a * lr + b * li) (b * lr - a * li) = modulus lr li).
    { unfold modulus. f_equal. replace ((a * lr + b * li) * (a * lr + b * li) + (b * lr - a * li) * (b * lr - a * li)) with ((a * a + b * b) * (lr * lr + li * li)) by ring. rewrite Hab. ring. }
    rewrite Em in C. fold (s j) in C. pose proof (Le j Hj) as B. pose proof (modulus_nonneg lr li) as Lp.
    assert (modulus lr li * s j <= modulus lr li * (c * u j)) by (apply Rmult_le_compat_l; assumption).
    replace (L * (u j / k)) with (modulus lr li * (c * u j)) by (unfold L; field; lra). lra. }
  assert (Fin : 0 <= appF (fun j => L * vat phi j + -1 * (a * re j + b * im j)) i).
  { apply rsum_nonneg. intros j Hj. apply Rmult_le_pos; auto. }
  rewrite (app_combine _ L (-1) (vat phi) (fun j => a * re j + b * im j)) in Fin. rewrite (app_combine _ a b re im) in Fin. fold sr si in Fin.
  replace (a * sr i + b * si i) with (s i) in Fin.
  - replace (L * u i) with (modulus lr li * k * s i) in Fin by (rewrite Si; unfold L; ring). nra.
  - unfold a, b. replace (sr i / s i * sr i + si i / s i * si i) with ((sr i * sr i + si i * si i) / s i) by (field; lra). rewrite <- modulus_square. fold (s i). field. lra.
Qed.

(* the real part of the factor 1 / lambda *)
Lemma dominates_real lr li re im : complex_mode M F (lr, li) re im ->
  fst (cinv (lr, li)) <= k /\ (fst (cinv (lr, li)) = k -> li = 0 /\ lr = 1 / k).
Proof using HMr HMc HFr HFc Hmon HF0 Hmode Hpos.
  intros H. pose proof (dominates _ _ _ _ H) as D. destruct mode_facts as (Hk & _). cbn [cinv fst snd]. rnum.
  set (m := modulus lr li) in *. assert (Hm : 0 < m) by (pose proof (modulus_nonneg lr li) as Q; fold m in Q; destruct Q as [Q | Q]; [exact Q|rewrite <- Q in D; lra]).
  pose proof (modulus_square lr li) as Sq. fold m in Sq. pose proof (modulus_ge lr li) as Ge. fold m in Ge. rewrite <- Sq.
  assert (B : lr <= k * (m * m)) by nra. split.
  - apply Rmult_le_reg_r with (m * m); [nra|]. unfold Rdiv. rewrite Rmult_assoc, Rinv_l by nra. lra.
  - intros Eq. assert (E : lr = k * (m * m)) by (rewrite <- Eq; field; lra).
    assert (E' : lr = m) by nra. split.
    + assert (li * li = 0) by (rewrite <- E' in Sq; lra). nra.
    + rewrite E' in E. assert (1 = k * m) by nra. rewrite E'. field_simplify_eq; lra.
Qed.

(* there is no other mode with that factor *)
Hypothesis Honly : forall k' phi', mode M F k' phi' -> k' = k /\ exists c, 0 < c /\ forall i, (0 <= i < mcols M)%Z -> vat phi' i = c * vat phi i.
Lemma simple x : (forall i, (0 <= i < size)%Z -> appM x i = appF x i / k) -> exists c, forall i, (0 <= i < size)%Z -> x i = c * vat phi i.
Proof using HMr HMc HFr HFc Hmon HF0 Hmode Hpos Honly.
  intros E. destruct mode_facts as (Hk & P0 & (r & Hr & Ur) & Ep). set (s := appF x).
  assert (Ur' : 0 < u r) by (pose proof (u_nonneg r Hr); lra).
  destruct (argmax (fun i => if Rlt_dec 0 (u i) then s i / u i else s r / u r) (Z.to_nat size) ltac:(lia)) as (i0 & Hi0 & Hmax0). rewrite Z2Nat.id in Hi0, Hmax0 by lia.
  assert (G : exists i, (0 <= i < size)%Z /\ 0 < u i /\ forall j, (0 <= j < size)%Z -> 0 < u j -> s j / u j <= s i / u i).
  { cbv beta in Hmax0. revert Hmax0. destruct (Rlt_dec 0 (u i0)) as [Y | No]; intros Hmax0; [exists i0|exists r]; (split; [assumption|]); (split; [assumption|]); intros j Hj Uj; specialize (Hmax0 j Hj); revert Hmax0; (destruct (Rlt_dec 0 (u j)); [auto|lra]). }
  clear i0 Hi0 Hmax0. destruct G as (i & Hi & Ui & Hmax). set (c := s i / u i) in *. exists c.
  set (y j := c * vat phi j + -1 * x j).
  assert (Fy : forall j, appF y j = c * u j - s j) by (intros j; unfold y; rewrite app_combine; fold s; unfold s; ring).
  assert (W : forall j, (0 <= j < size)%Z -> 0 <= c * u j - s j).
  { intros j Hj. destruct (Rle_lt_dec (u j) 0) as [L | Gt].
    - unfold s. rewrite (off j x) by assumption. pose proof (u_nonneg j Hj). replace (u j) with 0 by lra. lra.
    - pose proof (Hmax j Hj Gt) as Q. apply Rmult_le_compat_r with (r := u j) in Q; [|lra]. unfold Rdiv at 1 in Q. rewrite Rmult_assoc, Rinv_l in Q by lra. lra. }
  assert (My : forall j, (0 <= j < size)%Z -> appM y j = appF y j / k).
  { intros j Hj. rewrite Fy. unfold y. rewrite app_combine, Ep, E by exact Hj. fold s. unfold s. field. lra. }
  assert (Y0 : forall j, (0 <= j < size)%Z -> 0 <= y j).
  { apply Hmon. intros j Hj. rewrite My, Fy by exact Hj. apply Rmult_le_pos; [auto|]. left. apply Rinv_0_lt_compat. exact Hk. }
  assert (Z0 : forall j, (0 <= j < size)%Z -> appF y j = 0).
  { intros j Hj. destruct (Req_dec (appF y j) 0) as [Q | Q]; [exact Q|exfalso].
    destruct (Honly k (mkvec size y)) as (_ & c' & Hc' & Ec').
    - split; [exact Hk|]. split; [cbn [vlen]; lia|]. rewrite HMc, HMr, HFr. split; [exact Y0|]. split.
      + exists j. split; [exact Hj|]. rewrite mvmul_at, HFc. exact Q.
      + intros l Hl. rewrite !mvmul_at, HMc, HFc. exact (My l Hl).
    - rewrite HMc in Ec'. cbn [vat] in Ec'.
      assert (A : appF y i = c' * u i). { unfold app. rewrite <- rsum_scal. apply rsum_ext. intros l Hl. rewrite Ec' by exact Hl. ring. }
      rewrite Fy in A. assert (c * u i = s i) by (unfold c; field; lra). pose proof (Rmult_lt_0_compat _ _ Hc' Ui). lra. }
  assert (Yz : forall j, (0 <= j < size)%Z -> y j = 0) by (apply (monotone_injective _ _ Hmon); intros j Hj; rewrite My, Z0 by exact Hj; unfold Rdiv; ring).
  intros j Hj. specialize (Yz j Hj). unfold y in Yz. lra.
Qed.
End Dominant.

(* What the eigenvalue routine of the library finds: values and vectors that belong
   together, with a real vector for a real value, and every real value. An infinite
   value, whose inverse is zero, has no such vector. *)
Definition finds_modes (eig : mat R -> mat R -> vec (R * R) * mat (R * R)) (M F : mat R) : Prop :=
  let ev := fst (eig M F) in let evec := snd (eig M F) in
  (0 <= vlen ev <= mcols evec)%Z /\ mrows evec = mcols M /\
  (forall i, (0 <= i < vlen ev)%Z ->
     cinv (vat ev i) = (0, 0) \/
     complex_mode M F (vat ev i) (fun r => fst (mat_at evec r i)) (fun r => snd (mat_at evec r i)) /\
     (snd (vat ev i) = 0 -> forall r, (0 <= r < mcols M)%Z -> snd (mat_at evec r i) = 0)) /\
  (forall l re, complex_mode M F (l, 0) re (fun _ => 0) -> exists i, (0 <= i < vlen ev)%Z /\ vat ev i = (l, 0)).

(* the modes in the result: none has a factor above k, those with the factor k have
   the flux phi, and the first is one of them *)
Definition led_by (size : Z) (k : R) (phi : vec R) (er : eigenmodesResults R) : Prop :=
  er_k er = k /\ hd_error (er_modes er) = Some (er_k er, er_flux er) /\
  (forall i, (0 <= i < size)%Z -> vat (er_flux er) i = vat phi i) /\
  forall k' x, In (k', x) (er_modes er) -> k' <= k /\ (k' = k -> forall i, (0 <= i < size)%Z -> vat x i = vat phi i).

Section Report.
Variables (solver : mat R -> vec R -> vec R) (M F : mat R) (size : Z) (k : R) (phi : vec R).
Variables (sort : list (R * vec R) -> list (R * vec R)) (eig : mat R -> mat R -> vec (R * R) * mat (R * R)).
Hypothesis HMr : mrows M = size.
Hypothesis HMc : mcols M = size.
Hypothesis HFr : mrows F = size.
Hypothesis HFc : mcols F = size.
Hypothesis Hmon : monotone size (mat_at M).
Hypothesis HF0 : forall i j, (0 <= i < size)%Z -> (0 <= j < size)%Z -> 0 <= mat_at F i j.
Hypothesis Hs : settles solver M F k phi.
Hypothesis Hsort : sorts sort.
Hypothesis Heig : finds_modes eig M F.
Hypothesis Hk : 10 / 2 ^ 52 < k.
Notation ev := (fst (eig M F)).
Notation evec := (snd (eig M F)).
Let vals := mkvec (vlen ev) (fun i => cinv (vat ev i)).

Lemma s_pos : forall i j, (0 <= i < size)%Z -> (0 <= j < size)%Z -> 0 < mat_at F i j -> 0 < vat (mvmul F phi) i.
Proof using HFr HFc Hs. intros i j Hi Hj. destruct Hs as (_ & _ & P & _). apply (P i j); lia. Qed.

Lemma kept_mode i : (0 <= i < vlen ev)%Z -> 10 / 2 ^ 52 < fst (vat vals i) ->
  fst (vat vals i) <= k /\ (fst (vat vals i) = k -> forall r, (0 <= r < size)%Z -> vat (snd (scaled_mode vals evec i)) r = vat phi r).
Proof using HMr HMc HFr HFc Hmon HF0 Hs Heig Hk.
  intros Hi Hp. cbn [vals vat] in Hp |- *. destruct Heig as (_ & HR & HE & _). destruct (HE i Hi) as [Z | (C & Re)].
  { rewrite Z in Hp. cbn [fst] in Hp. exfalso. assert (0 < 10 / 2 ^ 52) by (apply Rdiv_lt_0_compat; [lra|apply pow_lt; lra]). lra. }
  pose proof Hs as (Hm & Hn & _ & U & _). destruct (vat ev i) as [lr li] eqn:El.
  destruct (dominates_real M F size k phi HMr HMc HFr HFc Hmon HF0 Hm s_pos lr li _ _ C) as [Le Eq]. split; [exact Le|].
  intros Hk'. destruct (Eq Hk') as [-> ->]. cbn [snd] in Re. specialize (Re eq_refl). rewrite HMc in Re. destruct C as ((q & Hq & Nq) & C). cbn [fst snd] in C. rewrite HMr, HMc, HFc in C. rewrite HMc in Hq.
  assert (K0 : 0 < k) by apply Hm.
  assert (Nz : exists r, (0 <= r < mrows evec)%Z /\ fst (mat_at evec r i) <> 0).
  { exists q. rewrite HR, HMc. split; [exact Hq|]. destruct Nq as [N | N]; [exact N|]. exfalso. apply N. apply Re. exact Hq. }
  destruct (simple M F size k phi HMr HMc HFr HFc Hmon HF0 Hm s_pos U (fun r => fst (mat_at evec r i))) as (c & Ec).
  { intros r Hr. destruct (C r Hr) as [C1 _]. rewrite C1. field. lra. }
  destruct (scaled_mode_facts vals evec i Nz) as (N1 & S1 & c' & Hc' & Ev).
  assert (Ex : forall r, (0 <= r < size)%Z -> vat (snd (scaled_mode vals evec i)) r = c' * c * vat phi r).
  { intros r Hr. rewrite Ev by lia. rewrite Ec by exact Hr. ring. }
  assert (P0 : forall r, (0 <= r < size)%Z -> 0 <= vat phi r) by (intros r Hr; apply Hm; lia).
  assert (Lp : vlen phi = size) by (transitivity (mcols M); [apply Hm|exact HMc]).
  assert (Np : rsum 0 size (fun r => vat phi r) = 1).
  { transitivity (vnorm1 phi); [|exact Hn]. unfold vnorm1. rewrite Lp. apply rsum_ext. intros r Hr. symmetry. apply Rabs_pos_eq. apply P0. exact Hr. }
  assert (Sum : vsum (snd (scaled_mode vals evec i)) = c' * c).
  { transitivity (rsum 0 size (fun r => c' * c * vat phi r)); [|rewrite (rsum_scal 0 size (c' * c) (fun r => vat phi r)), Np; ring].
    unfold vsum. cbn [snd scaled_mode vlen]. rewrite HR, HMc. apply rsum_ext. intros r Hr. apply Ex. exact Hr. }
  assert (Nrm : Rabs (c' * c) = 1).
  { transitivity (rsum 0 size (fun r => Rabs (c' * c) * vat phi r)); [rewrite (rsum_scal 0 size (Rabs (c' * c)) (fun r => vat phi r)), Np; ring|]. etransitivity; [|exact N1].
    unfold vnorm1. cbn [snd scaled_mode vlen]. rewrite HR, HMc. apply rsum_ext. intros r Hr. transitivity (Rabs (vat (snd (scaled_mode vals evec i)) r)); [|reflexivity].
    rewrite Ex by exact Hr. rewrite (Rabs_mult (c' * c) (vat phi r)). rewrite (Rabs_pos_eq (vat phi r)) by (apply P0; exact Hr). reflexivity. }
  rewrite Sum in S1. rewrite Rabs_pos_eq in Nrm by exact S1. intros r Hr. rewrite Ex by exact Hr. rewrite Nrm. ring.
Qed.

Lemma fundamental_listed : exists i, (0 <= i < vlen ev)%Z /\ fst (vat vals i) = k.
Proof using HMr HMc HFr HFc Hs Heig Hk.
  destruct Heig as (_ & _ & _ & HC). pose proof Hs as (Hm & _). pose proof (mode_facts M F size k phi HMr HMc HFr HFc Hm) as (Hk0 & P0 & (q & Hq & Nq) & Ep).
  destruct (HC (1 / k) (vat phi)) as (i & Hi & Ei).
  - split.
    + rewrite HMc. destruct (bounded_exists_dec (fun r => vat phi r <> 0) (fun r => match Req_EM_T (vat phi r) 0 with left e => right (fun n => n e) | right n => left n end) (Z.to_nat size)) as [(r & Hr & Nr) | No].
      * exists r. split; [lia|]. left. exact Nr.
      * exfalso. apply Nq. apply rsum_0. intros j Hj. destruct (Req_dec (vat phi j) 0) as [-> | N]; [ring|]. exfalso. apply (No j); [lia|exact N].
    + intros r Hr. rewrite HMr in Hr. cbn [fst snd]. rewrite HMc, HFc. split.
      * rewrite Ep by exact Hr. field. lra.
      * assert (Z : forall A : mat R, app size (mat_at A) (fun _ => 0) r = 0) by (intros A; apply rsum_0; intros; ring). rewrite !Z. ring.
  - exists i. split; [exact Hi|]. cbn [vals vat]. rewrite Ei. cbn [cinv fst snd]. rnum. field. lra.
Qed.

Lemma report dir : (forall i, (0 <= i < vlen ev)%Z -> snd (vat vals i) <= 10 / 2 ^ 52) ->
  exists er, GeneralizedEigenSolver sort eig M F dir = Ok er /\ led_by size k phi er.
Proof using HMr HMc HFr HFc Hmon HF0 Hs Hsort Heig Hk.
  intros Him. pose proof Heig as ((H1 & H2) & _). destruct fundamental_listed as (i0 & Hi0 & E0).
  destruct (ges_report sort eig M F dir Hsort H1 H2 Him) as (er & E & Pm & So & Ne & Hd & _).
  { exists i0. split; [exact Hi0|]. fold vals. rewrite E0. exact Hk. }
  fold vals in Pm. exists er. split; [exact E|].
  assert (A : forall k' x, In (k', x) (er_modes er) -> k' <= k /\ (k' = k -> forall i, (0 <= i < size)%Z -> vat x i = vat phi i)).
  { intros k' x Hin. apply (Permutation_in _ Pm) in Hin. apply in_map_iff in Hin. destruct Hin as (i & Ei & Hin). apply filter_In in Hin. destruct Hin as [Hi Kp].
    apply zseq_in in Hi. unfold keep in Kp. apply Rltb_true in Kp. destruct (kept_mode i Hi Kp) as [L Q].
    replace k' with (fst (vat vals i)) by (transitivity (fst (k', x)); [rewrite <- Ei; reflexivity|reflexivity]). replace x with (snd (scaled_mode vals evec i)) by (rewrite Ei; reflexivity). split; assumption. }
  assert (Top : k <= er_k er).
  { assert (Hin : In (scaled_mode vals evec i0) (er_modes er)).
    { apply (Permutation_in _ (Permutation_sym Pm)). apply in_map. apply filter_In. split; [apply zseq_in; exact Hi0|]. unfold keep. apply Rltb_true. rewrite E0. exact Hk. }
    destruct (er_modes er) as [|m l]; [contradiction|]. cbn [hd_error] in Hd. injection Hd as ->. destruct Hin as [Q | Q].
    - apply (f_equal fst) in Q. change (er_k er = fst (vat vals i0)) in Q. rewrite Q, E0. lra.
    - apply StronglySorted_inv in So. destruct So as [_ Fa]. rewrite Forall_forall in Fa. specialize (Fa _ Q). change (fst (vat vals i0) <= er_k er) in Fa. rewrite E0 in Fa. exact Fa. }
  assert (Hin : In (er_k er, er_flux er) (er_modes er)) by (destruct (er_modes er) as [|m l]; [discriminate|]; cbn [hd_error] in Hd; injection Hd as ->; left; reflexivity).
  destruct (A _ _ Hin) as [L Q]. assert (Ek : er_k er = k) by lra. split; [exact Ek|]. split; [exact Hd|]. split; [exact (Q Ek)|exact A].
Qed.
Lemma report_or_complex dir :
  GeneralizedEigenSolver sort eig M F dir = Exit "The Generalized Eigen Solver has found a complex eigenvalue!" \/
  exists er, GeneralizedEigenSolver sort eig M F dir = Ok er /\ led_by size k phi er.
Proof using HMr HMc HFr HFc Hmon HF0 Hs Hsort Heig Hk.
  destruct (hasImagValues vals) eqn:H.
  - left. unfold GeneralizedEigenSolver. destruct (eig M F) as [e v] eqn:Ee. unfold vals in H. cbn [fst] in H. unfold sortEigenmodes. rewrite H. reflexivity.
  - right. apply report. intros i Hi. exact (proj1 (hasImag_false vals) H i Hi).
Qed.
End Report.

(* One group: the loss operator is symmetric and fission stays in its cell. *)
Section OneGroup.
Variables (M F : mat R) (size : Z) (f : Z -> R).
Hypothesis HMr : mrows M = size.
Hypothesis HMc : mcols M = size.
Hypothesis HFc : mcols F = size.
Hypothesis Hsym : forall i j, (0 <= i < size)%Z -> (0 <= j < size)%Z -> mat_at M i j = mat_at M j i.
Hypothesis Hinj : injective size (mat_at M).
Hypothesis HF : forall x i, (0 <= i < size)%Z -> app size (mat_at F) x i = f i * x i.
Hypothesis Hf : forall i, (0 <= i < size)%Z -> 0 <= f i.
Notation appM := (app size (mat_at M)).

Lemma exchange x y : rsum 0 size (fun i => x i * appM y i) = rsum 0 size (fun i => y i * appM x i).
Proof using Hsym.
  unfold app. rewrite (rsum_ext 0 size _ (fun i => rsum 0 size (fun j => x i * mat_at M i j * y j))) by (intros; rewrite <- rsum_scal; apply rsum_ext; intros; ring).
  rewrite rsum_swap. apply rsum_ext. intros j Hj. rewrite <- rsum_scal. apply rsum_ext. intros i Hi. rewrite (Hsym i j) by assumption. ring.
Qed.
Lemma all_real l re im : complex_mode M F l re im -> snd l = 0.
Proof using HMr HMc HFc Hsym Hinj HF Hf.
  intros ((q & Hq & Nq) & E). rewrite HMr, HMc, HFc in E. rewrite HMc in Hq.
  set (n2 := rsum 0 size (fun i => f i * (re i * re i + im i * im i))).
  assert (A : rsum 0 size (fun i => im i * appM re i) = fst l * rsum 0 size (fun i => f i * (re i * im i)) - snd l * rsum 0 size (fun i => f i * (im i * im i))).
  { rewrite <- !rsum_scal, <- rsum_minus. apply rsum_ext. intros i Hi. rewrite (proj1 (E i Hi)), !HF by exact Hi. ring. }
  assert (B : rsum 0 size (fun i => re i * appM im i) = fst l * rsum 0 size (fun i => f i * (re i * im i)) + snd l * rsum 0 size (fun i => f i * (re i * re i))).
  { rewrite <- !rsum_scal, <- rsum_plus. apply rsum_ext. intros i Hi. rewrite (proj2 (E i Hi)), !HF by exact Hi. ring. }
  rewrite (exchange im re) in A.
  assert (C : snd l * n2 = 0).
  { unfold n2. rewrite (rsum_ext 0 size _ (fun i => f i * (re i * re i) + f i * (im i * im i))) by (intros; ring). rewrite rsum_plus. lra. }
  destruct (Req_dec (snd l) 0) as [Q | Q]; [exact Q|exfalso]. assert (N2 : n2 = 0) by (apply Rmult_integral in C; tauto).
  assert (Z : forall i, (0 <= i < size)%Z -> f i * re i = 0 /\ f i * im i = 0).
  { intros i Hi. assert (T : f i * (re i * re i + im i * im i) = 0).
    { apply (rsum_nonneg_0 0 size (fun i => f i * (re i * re i + im i * im i)) i); [|exact N2|exact Hi]. intros j Hj. apply Rmult_le_pos; [auto|nra]. }
    apply Rmult_integral in T. destruct T as [-> | T]; [split; ring|]. assert (re i = 0) by nra. assert (im i = 0) by nra. split; nra. }
  assert (Re : forall j, (0 <= j < size)%Z -> re j = 0) by (apply Hinj; intros j Hj; rewrite (proj1 (E j Hj)), !HF by exact Hj; destruct (Z j Hj) as [-> ->]; ring).
  assert (Im : forall j, (0 <= j < size)%Z -> im j = 0) by (apply Hinj; intros j Hj; rewrite (proj2 (E j Hj)), !HF by exact Hj; destruct (Z j Hj) as [-> ->]; ring).
  destruct Nq as [N | N]; apply N; auto.
Qed.
Lemma orthogonal l1 l2 x y : l1 <> l2 -> (forall i, (0 <= i < size)%Z -> appM x i = l1 * (f i * x i)) -> (forall i, (0 <= i < size)%Z -> appM y i = l2 * (f i * y i)) ->
  rsum 0 size (fun i => f i * x i * y i) = 0.
Proof using Hsym.
  intros N E1 E2. pose proof (exchange x y) as H.
  rewrite (rsum_ext 0 size _ (fun i => l2 * (f i * x i * y i))) in H by (intros i Hi; rewrite E2 by exact Hi; ring).
  rewrite (rsum_ext 0 size (fun i => y i * appM x i) (fun i => l1 * (f i * x i * y i))) in H by (intros i Hi; rewrite E1 by exact Hi; ring).
  rewrite !rsum_scal in H. assert (Q : (l2 - l1) * rsum 0 size (fun i => f i * x i * y i) = 0) by lra. apply Rmult_integral in Q. destruct Q as [Q | Q]; [exfalso; apply N; lra|exact Q].
Qed.
End OneGroup.
