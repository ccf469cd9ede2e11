(* The loop of DoubleCalculation. *)
From Coq Require Import String ZArith List Bool Lia.
From Verif Require Import Base BaseLemmas ModelNumTools ModelEigen ModelMesh ModelReactor ModelDiffusion ModelHeat
  ModelSpectrum ModelKinetics ModelOutput ModelCalculation.
Import ListNotations.
Local Open Scope Z_scope.

Section Coupled.
Context {T : Type} {N : Num T}.
Variable mpi : T.
Variable solver : mat T -> vec T -> vec T.
Variable sort : list (T * vec T) -> list (T * vec T).
Variable eig : mat T -> mat T -> vec (T * T) * mat (T * T).
Variable croots : list T -> list (T * T).
Variables (expint3 bickley3f nexp nsqrt : T -> T).
Let solve := solve1 mpi solver sort eig croots expint3 bickley3f nexp nsqrt.
Let half := coupledHalf mpi solver sort eig croots expint3 bickley3f nexp nsqrt.
Let loop := doubleLoop mpi solver sort eig croots expint3 bickley3f nexp nsqrt.

(* One solver of an iteration: it solves, p is its main parameter right after,
   and then its result is relaxed against the one before when [relaxing]. *)
Definition half_step (sd : solverData T) (relaxing : bool) (par : T) (r r' : reactor T) (p : param T) : Prop :=
  exists old r1, solve sd r = Ok (old, r1) /\ mainParameter sd r1 = Ok p /\
    if relaxing then relaxResults sd par old r1 = Ok r' else r' = r1.

(* One iteration: first solver, then the second on what the first left. *)
Definition iteration (s1 s2 : solverData T) (relaxing : bool) (par : T) (r r' : reactor T) (p q : param T) : Prop :=
  exists rm, half_step s1 relaxing par r rm p /\ half_step s2 relaxing par rm r' q.

(* n iterations from r, relaxed from the second on; st i is the reactor before
   iteration i, p i and q i the main parameters found in it *)
Definition coupled_run (s1 s2 : solverData T) (par : T) (n : nat) (st : nat -> reactor T) (p q : nat -> param T) : Prop :=
  forall i, (i < n)%nat -> iteration s1 s2 (negb (i =? 0)%nat) par (st i) (st (S i)) (p i) (q i).

(* the differences compared with the accuracy in iteration i *)
Definition small (acc : T) (p : nat -> param T) (i : nat) : Prop :=
  match i with
  | O => n1 [<=] acc = true
  | S j => exists d, getDifference (p i) (p j) = Ok d /\ d [<=] acc = true
  end.
Definition converged (acc : T) (p q : nat -> param T) (i : nat) : Prop := small acc p i /\ small acc q i.

(* the differences can be computed and one of them is not small *)
Definition unconverged (acc : T) (p q : nat -> param T) (i : nat) : Prop :=
  match i with
  | O => n1 [<=] acc = false
  | S j => exists d1 d2, getDifference (p i) (p j) = Ok d1 /\ getDifference (q i) (q j) = Ok d2 /\
             (d1 [<=] acc) && (d2 [<=] acc) = false
  end.

Lemma unconverged_not acc p q i : unconverged acc p q i -> ~ converged acc p q i.
Proof.
  destruct i; cbn.
  - intros H [C _]. unfold small in C. congruence.
  - intros (d1 & d2 & E1 & E2 & H) [(e1 & F1 & L1) (e2 & F2 & L2)].
    assert (d1 = e1) by congruence. assert (d2 = e2) by congruence. subst. rewrite L1, L2 in H. discriminate.
Qed.

(* printing the results reads fields that exist *)
Definition printable (sd : solverData T) (r : reactor T) : Prop := exists l, printResults sd INFO r = Ok l.

Lemma half_inv sd rel par r p r' l : half sd rel par r = Ok (p, r', l) -> half_step sd rel par r r' p.
Proof.
  unfold half, coupledHalf, half_step, solve. intros H.
  destruct (bind_ok_inv _ _ _ H) as ([old r1] & E1 & H1). clear H.
  destruct (bind_ok_inv _ _ _ H1) as (l0 & _ & H1'). clear H1.
  destruct (bind_ok_inv _ _ _ H1') as (l1 & _ & H2). clear H1'.
  destruct (bind_ok_inv _ _ _ H2) as (p1 & E2 & H3). clear H2.
  exists old, r1. destruct rel.
  - destruct (bind_ok_inv _ _ _ H3) as (r2 & E3 & H4). injection H4 as <- <- <-. auto.
  - injection H3 as <- <- <-. auto.
Qed.

(* so does printing the powers of the kinetics solver *)
Lemma solveLog_ok sd r x : solve sd r = Ok x -> exists l, solveLog croots nexp sd r = Ok l.
Proof.
  unfold solve, solve1, solveLog. destruct (sd_kind sd); intros H; try (eexists; reflexivity).
  destruct (bind_ok_inv _ _ _ H) as (p & -> & _). eexists; reflexivity.
Qed.

Lemma half_ok sd rel par r r' p : half_step sd rel par r r' p ->
  (forall old r1, solve sd r = Ok (old, r1) -> printable sd r1) ->
  exists l, half sd rel par r = Ok (p, r', l).
Proof.
  intros (old & r1 & E1 & E2 & E3) Hp. unfold half, coupledHalf. fold solve. rewrite E1. cbn [bind].
  destruct (solveLog_ok _ _ _ E1) as (k & Ek). rewrite Ek. cbn [bind].
  destruct (Hp _ _ E1) as (l & El). rewrite El. cbn [bind]. rewrite E2. cbn [bind]. exists (k ++ l)%list.
  destruct rel; [rewrite E3; reflexivity|]. subst. reflexivity.
Qed.

Definition shift {A} (a : A) (f : nat -> A) (i : nat) : A := match i with O => a | S j => f j end.

Definition prev_of (p q : nat -> param T) (i : nat) : option (param T * param T) :=
  match i with O => None | S j => Some (p j, q j) end.

(* the loop started at iteration i0 with the parameters of iteration i0 - 1 *)
Lemma loop_inv s1 s2 acc par k : forall i0 prev r l iter r' l',
  loop s1 s2 acc par k (Z.of_nat i0) prev r l = Ok (Some (iter, r', l')) ->
  (i0 = 0%nat <-> prev = None) ->
  exists n st p q, (1 <= n <= k)%nat /\ iter = Z.of_nat (i0 + n) - 1 /\
    st i0 = r /\ st (i0 + n)%nat = r' /\ prev = prev_of p q i0 /\
    (forall i, (i0 <= i < i0 + n)%nat -> iteration s1 s2 (negb (i =? 0)%nat) par (st i) (st (S i)) (p i) (q i)) /\
    converged acc p q (i0 + n - 1) /\
    forall i, (i0 <= i < i0 + n - 1)%nat -> unconverged acc p q i.
Proof.
  induction k as [|k IH]; intros i0 prev r l iter r' l' H Hp; [discriminate|].
  unfold loop in H. cbn [doubleLoop] in H. fold half loop in H.
  destruct (bind_ok_inv _ _ _ H) as ([[p1 rm] l1] & E1 & H1). clear H.
  destruct (bind_ok_inv _ _ _ H1) as ([[p2 r2] l2] & E2 & H2). clear H1.
  destruct (bind_ok_inv _ _ _ H2) as ([d1 d2] & E3 & H3). clear H2.
  replace (Z.of_nat i0 =? 0) with (i0 =? 0)%nat in * by (destruct i0; reflexivity).
  apply half_inv in E1. apply half_inv in E2.
  assert (It : iteration s1 s2 (negb (i0 =? 0)%nat) par r r2 p1 p2) by (exists rm; auto).
  destruct ((d1 [<=] acc) && (d2 [<=] acc)) eqn:Ec.
  - injection H3 as <- <- <-. apply andb_true_iff in Ec as [C1 C2].
    exists 1%nat, (fun i => if (i =? i0)%nat then r else r2).
    exists (fun i => if (i =? i0)%nat then p1 else match prev with Some (a, _) => a | None => p1 end).
    exists (fun i => if (i =? i0)%nat then p2 else match prev with Some (_, b) => b | None => p2 end).
    split; [lia|]. split; [lia|]. rewrite Nat.eqb_refl. split; [reflexivity|].
    replace (i0 + 1 =? i0)%nat with false by (symmetry; apply Nat.eqb_neq; lia). split; [reflexivity|].
    split. { destruct i0; cbn [prev_of]; [apply Hp; reflexivity|].
      destruct prev as [[a b]|]; [|destruct Hp as [_ Hp]; discriminate (Hp eq_refl)].
      replace (i0 =? S i0)%nat with false by (symmetry; apply Nat.eqb_neq; lia). reflexivity. }
    split.
    { intros i Hi. assert (i = i0) as -> by lia. rewrite Nat.eqb_refl.
      replace (S i0 =? i0)%nat with false by (symmetry; apply Nat.eqb_neq; lia). exact It. }
    split; [|intros; lia].
    replace (i0 + 1 - 1)%nat with i0 by lia. unfold converged, small. destruct i0.
    + destruct prev; [destruct Hp as [Hp _]; discriminate (Hp eq_refl)|]. injection E3 as <- <-. auto.
    + destruct prev as [[a b]|]; [|destruct Hp as [_ Hp]; discriminate (Hp eq_refl)].
      rewrite Nat.eqb_refl. replace (i0 =? S i0)%nat with false by (symmetry; apply Nat.eqb_neq; lia).
      destruct (bind_ok_inv _ _ _ E3) as (e1 & F1 & E4). destruct (bind_ok_inv _ _ _ E4) as (e2 & F2 & E5).
      injection E5 as <- <-. split; eexists; split; eauto.
  - replace (Z.of_nat i0 + 1) with (Z.of_nat (S i0)) in H3 by lia.
    destruct (IH (S i0) (Some (p1, p2)) r2 _ iter r' l' H3 ltac:(split; [lia|discriminate]))
      as (n & st & p & q & Hn & Hit & S0 & Sn & Pv & Run & Cv & Un).
    injection Pv as -> ->.
    assert (Hp0 : forall j, S j = i0 -> exists a b, prev = Some (a, b)).
    { intros j <-. destruct prev as [[a b]|]; [eauto|]. destruct Hp as [_ Hp]. discriminate (Hp eq_refl). }
    exists (S n), (fun i => if (i =? i0)%nat then r else st i).
    exists (fun i => if (i <? i0)%nat then match prev with Some (a, _) => a | None => p i end else p i).
    exists (fun i => if (i <? i0)%nat then match prev with Some (_, b) => b | None => q i end else q i).
    rewrite Nat.eqb_refl. split; [lia|]. split; [lia|]. split; [reflexivity|].
    replace (i0 + S n =? i0)%nat with false by (symmetry; apply Nat.eqb_neq; lia).
    replace (i0 + S n)%nat with (S i0 + n)%nat in * by lia. split; [exact Sn|].
    split. { destruct i0; cbn [prev_of]; [apply Hp; reflexivity|].
      destruct (Hp0 i0 eq_refl) as (a & b & ->).
      replace (i0 <? S i0)%nat with true by (symmetry; apply Nat.ltb_lt; lia). reflexivity. }
    assert (G : forall i, (i0 <= i)%nat -> (i <? i0)%nat = false) by (intros; apply Nat.ltb_ge; lia).
    assert (G2 : forall i, (i0 < i)%nat -> (i =? i0)%nat = false) by (intros; apply Nat.eqb_neq; lia).
    split.
    { intros i Hi. rewrite !G by lia. destruct (Nat.eq_dec i i0) as [->|].
      - rewrite Nat.eqb_refl, G2 by lia. rewrite S0. exact It.
      - rewrite !G2 by lia. apply Run. lia. }
    split.
    { unfold converged, small in *. destruct (S i0 + n - 1)%nat eqn:E; [lia|]. rewrite !G by lia. exact Cv. }
    intros i Hi. destruct (Nat.eq_dec i i0) as [->|].
    + unfold unconverged. destruct i0.
      * destruct prev; [destruct Hp as [Hp _]; discriminate (Hp eq_refl)|]. injection E3 as <- <-.
        destruct (n1 [<=] acc); [discriminate|reflexivity].
      * destruct (Hp0 i0 eq_refl) as (a & b & ->). rewrite !G by lia.
        replace (i0 <? S i0)%nat with true by (symmetry; apply Nat.ltb_lt; lia).
        destruct (bind_ok_inv _ _ _ E3) as (e1 & F1 & E4). destruct (bind_ok_inv _ _ _ E4) as (e2 & F2 & E5).
        injection E5 as <- <-. exists e1, e2. auto.
    + specialize (Un i ltac:(lia)). unfold unconverged in *. destruct i; [lia|]. rewrite !G by lia. exact Un.
Qed.

(* and conversely a run determines what the loop answers *)
Lemma loop_ok s1 s2 acc par (st : nat -> reactor T) (p q : nat -> param T) (m : nat) :
  coupled_run s1 s2 par m st p q ->
  (forall i rel rm old r1, (i < m)%nat ->
     (solve s1 (st i) = Ok (old, r1) -> printable s1 r1) /\
     (half_step s1 rel par (st i) rm (p i) -> solve s2 rm = Ok (old, r1) -> printable s2 r1)) ->
  forall k i0 l, (i0 + k <= m)%nat ->
  (forall i, (i0 <= i < i0 + k)%nat -> unconverged acc p q i) ->
  loop s1 s2 acc par k (Z.of_nat i0) (prev_of p q i0) (st i0) l = Ok None.
Proof.
  intros Run Pr k. induction k as [|k IH]; intros i0 l Hk Un; [reflexivity|].
  unfold loop. cbn [doubleLoop]. fold half loop.
  replace (Z.of_nat i0 =? 0) with (i0 =? 0)%nat by (destruct i0; reflexivity).
  destruct (Run i0 ltac:(lia)) as (rm & H1 & H2).
  destruct (half_ok _ _ _ _ _ _ H1) as (l1 & E1).
  { intros old r1 E. apply (Pr i0 true rm old r1 ltac:(lia)). exact E. }
  destruct (half_ok _ _ _ _ _ _ H2) as (l2 & E2).
  { intros old r1 E. exact (proj2 (Pr i0 _ rm old r1 ltac:(lia)) H1 E). }
  rewrite E1. cbn [bind]. rewrite E2. cbn [bind].
  assert (Ed : exists d1 d2, match prev_of p q i0 with
                 | None => Ok (n1, n1)
                 | Some (q1, q2) => d1 <- getDifference (p i0) q1 ;; d2 <- getDifference (q i0) q2 ;; Ok (d1, d2)
                 end = Ok (d1, d2) /\ (d1 [<=] acc) && (d2 [<=] acc) = false).
  { specialize (Un i0 ltac:(lia)). unfold unconverged in Un. destruct i0; cbn [prev_of].
    - exists n1, n1. split; [reflexivity|]. rewrite Un. reflexivity.
    - destruct Un as (d1 & d2 & F1 & F2 & Hf). exists d1, d2. rewrite F1. cbn [bind]. rewrite F2. auto. }
  destruct Ed as (d1 & d2 & E3 & Hf). rewrite E3. cbn [bind]. rewrite Hf.
  replace (Z.of_nat i0 + 1) with (Z.of_nat (S i0)) by lia.
  apply (IH (S i0)); [lia|]. intros i Hi. apply Un. lia.
Qed.

End Coupled.
