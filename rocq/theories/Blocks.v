(* Block matrices indexed by (group, cell): entry (e, m, e', m') is stored at
   row m + e * n and column m' + e' * n. *)
From Coq Require Import String ZArith List Bool Lia.
From Verif Require Import Base BaseLemmas.
Import ListNotations.
Local Open Scope Z_scope.

Section Blocks.
Context {T : Type}.
Variables n en : Z.

Lemma idx_eqb e m e0 m0 : 0 <= m < n -> 0 <= m0 < n ->
  (m + e * n =? m0 + e0 * n) = (e =? e0) && (m =? m0).
Proof.
  intros Hm Hm0. destruct (Z.eqb_spec e e0) as [->|Hne]; cbn [andb].
  - destruct (Z.eqb_spec m m0) as [->|]; [apply Z.eqb_refl|apply Z.eqb_neq; lia].
  - apply Z.eqb_neq. intros H. apply Hne. nia.
Qed.

Lemma idx_range e m : 0 <= m < n -> 0 <= e < en -> 0 <= m + e * n < n * en.
Proof. intros. nia. Qed.

Lemma idx_decode i : 0 <= n -> 0 <= i < n * en -> exists e m, 0 <= e < en /\ 0 <= m < n /\ i = m + e * n.
Proof.
  intros Hn Hi. assert (n <> 0) by (intros E; rewrite E in Hi; lia). exists (i / n), (i mod n).
  pose proof (Z.div_mod i n ltac:(lia)). pose proof (Z.mod_pos_bound i n ltac:(lia)).
  repeat split; try lia.
  - apply Z.div_pos; lia.
  - apply Z.div_lt_upper_bound; lia.
Qed.

Definition blk (M : mat T) e m e' m' : T := mat_at M (m + e * n) (m' + e' * n).

(* M is a square matrix of n * en rows with entries S in the block indices *)
Definition bl (M : mat T) (S : Z -> Z -> Z -> Z -> T) : Prop :=
  mrows M = n * en /\ mcols M = n * en /\
  forall e m e' m', 0 <= e < en -> 0 <= m < n -> 0 <= e' < en -> 0 <= m' < n ->
    blk M e m e' m' = S e m e' m'.

Definition upd (S : Z -> Z -> Z -> Z -> T) e0 m0 e1 m1 x : Z -> Z -> Z -> Z -> T :=
  fun e m e' m' => if ((e =? e0) && (m =? m0)) && ((e' =? e1) && (m' =? m1)) then x else S e m e' m'.

Lemma mset_bl M S e0 m0 e1 m1 x r c :
  bl M S -> 0 <= e0 < en -> 0 <= m0 < n -> 0 <= e1 < en -> 0 <= m1 < n ->
  r = m0 + e0 * n -> c = m1 + e1 * n ->
  exists M', mset M r c x = Ok M' /\ bl M' (upd S e0 m0 e1 m1 x).
Proof.
  intros [R [C H]] He0 Hm0 He1 Hm1 -> ->.
  pose proof (idx_range e0 m0 Hm0 He0). pose proof (idx_range e1 m1 Hm1 He1).
  rewrite mset_ok by lia. eexists; split; [reflexivity|]. unfold bl, blk. cbn [mrows mcols mat_at].
  repeat split; auto. intros e m e' m' He Hm He' Hm'. rewrite !idx_eqb by auto. unfold upd.
  rewrite <- H by auto. reflexivity.
Qed.

Lemma mget_bl M S e0 m0 e1 m1 r c :
  bl M S -> 0 <= e0 < en -> 0 <= m0 < n -> 0 <= e1 < en -> 0 <= m1 < n ->
  r = m0 + e0 * n -> c = m1 + e1 * n ->
  mget M r c = Ok (S e0 m0 e1 m1).
Proof.
  intros [R [C H]] He0 Hm0 He1 Hm1 -> ->.
  pose proof (idx_range e0 m0 Hm0 He0). pose proof (idx_range e1 m1 Hm1 He1).
  rewrite mget_ok by lia. f_equal. apply H; auto.
Qed.

Lemma bl_ext M S S' :
  (forall e m e' m', 0 <= e < en -> 0 <= m < n -> 0 <= e' < en -> 0 <= m' < n ->
    S e m e' m' = S' e m e' m') ->
  bl M S -> bl M S'.
Proof.
  intros HS [R [C H]]. repeat split; auto. intros. rewrite H by auto. apply HS; auto.
Qed.

Lemma bl_const x : bl (mconst (n * en) (n * en) x) (fun _ _ _ _ => x).
Proof. repeat split. Qed.

End Blocks.

(* boolean case analysis on integer comparisons, closing absurd cases *)
Ltac zbool1 :=
  match goal with
  | |- context [?a =? ?b] => destruct (Z.eqb_spec a b); [try subst|]
  | |- context [?a <? ?b] => destruct (Z.ltb_spec a b)
  | |- context [?a <=? ?b] => destruct (Z.leb_spec a b)
  end; cbn [andb orb negb].
Ltac zbool := repeat (zbool1; try (exfalso; lia)); try reflexivity; try (exfalso; lia); try congruence.

(* decide the comparisons that follow from the context *)
Ltac zdec1 :=
  match goal with
  | |- context [?a =? ?b] => first [replace (a =? b) with true by lia | replace (a =? b) with false by lia]
  | |- context [?a <? ?b] => first [replace (a <? b) with true by lia | replace (a <? b) with false by lia]
  | |- context [?a <=? ?b] => first [replace (a <=? b) with true by lia | replace (a <=? b) with false by lia]
  end.
Ltac zdec := repeat (zdec1; cbn [andb orb negb]).
Ltac zcase1 :=
  match goal with
  | |- context [?a =? ?b] => destruct (a =? b) eqn:?
  | |- context [?a <? ?b] => destruct (a <? b) eqn:?
  | |- context [?a <=? ?b] => destruct (a <=? b) eqn:?
  end; cbn [andb orb negb].
Ltac zcase := repeat (zdec; try zcase1); try (exfalso; lia).
