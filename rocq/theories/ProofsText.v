(* Strings. *)
From Coq Require Import String Ascii ZArith List Bool Lia Arith.
From Verif Require Import Base ModelText.
Import ListNotations.
Local Open Scope string_scope.

Lemma append_assoc (a b c : string) : (a ++ b) ++ c = a ++ b ++ c.
Proof. induction a; cbn; [reflexivity|]. rewrite IHa. reflexivity. Qed.
Lemma append_empty_r (a : string) : a ++ "" = a.
Proof. induction a; cbn; [reflexivity|]. rewrite IHa. reflexivity. Qed.
Lemma append_length (a b : string) : String.length (a ++ b) = (String.length a + String.length b)%nat.
Proof. induction a; cbn; [reflexivity|]. rewrite IHa. reflexivity. Qed.
Lemma append_inv_l (a b c : string) : a ++ b = a ++ c -> b = c.
Proof. induction a; cbn; intros H; [exact H|]. injection H as H. auto. Qed.
Lemma append_inv_r (a b c : string) : a ++ c = b ++ c -> a = b.
Proof.
  revert b. induction a as [|x a IH]; intros b H.
  - destruct b as [|y b]; [reflexivity|]. apply (f_equal String.length) in H. cbn in H. rewrite append_length in H. lia.
  - destruct b as [|y b].
    + apply (f_equal String.length) in H. cbn in H. rewrite append_length in H. lia.
    + cbn in H. injection H as -> H. f_equal. apply IH. exact H.
Qed.

Lemma substring_all (b : string) n : (String.length b <= n)%nat -> substring 0 n b = b.
Proof.
  revert n. induction b as [|x b IH]; intros n H; destruct n; cbn in *; try reflexivity; try lia.
  rewrite IH by lia. reflexivity.
Qed.
Lemma substring_prefix (a b : string) : substring 0 (String.length a) (a ++ b) = a.
Proof. induction a as [|x a IH]; cbn; [destruct b; reflexivity|]. rewrite IH. reflexivity. Qed.
Lemma substring_suffix (a b : string) n : (String.length b <= n)%nat -> substring (String.length a) n (a ++ b) = b.
Proof. induction a as [|x a IH]; cbn; intros H; [apply substring_all; exact H|apply IH; exact H]. Qed.
Lemma substr_from_app (a b : string) : substr_from (String.length a) (a ++ b) = b.
Proof. unfold substr_from. apply substring_suffix. rewrite append_length. lia. Qed.

(* no character of s satisfies p *)
Definition free (p : ascii -> bool) (s : string) : Prop := all_of (fun c => negb (p c)) s = true.

Lemma last_of_spec p s : forall i acc,
  (free p s /\ last_of p i s acc = acc) \/
  (exists a c b, s = a ++ String c b /\ p c = true /\ free p b /\ last_of p i s acc = Some (i + String.length a)%nat).
Proof.
  induction s as [|x s IH]; intros i acc; cbn [last_of].
  - left. split; reflexivity.
  - destruct (p x) eqn:Ex.
    + right. destruct (IH (S i) (Some i)) as [[F E]|(a & c & b & -> & Hc & F & E)].
      * exists "", x, s. split; [reflexivity|]. split; [exact Ex|]. split; [exact F|]. rewrite E. f_equal. cbn. lia.
      * exists (String x a), c, b. split; [reflexivity|]. split; [exact Hc|]. split; [exact F|]. rewrite E. f_equal. cbn. lia.
    + destruct (IH (S i) acc) as [[F E]|(a & c & b & -> & Hc & F & E)].
      * left. split; [unfold free in *; cbn; rewrite Ex; exact F|exact E].
      * right. exists (String x a), c, b. split; [reflexivity|]. split; [exact Hc|]. split; [exact F|]. rewrite E. f_equal. cbn. lia.
Qed.

Lemma find_last_of_spec p s :
  (free p s /\ find_last_of p s = None) \/
  (exists a c b, s = a ++ String c b /\ p c = true /\ free p b /\ find_last_of p s = Some (String.length a)).
Proof. exact (last_of_spec p s 0 None). Qed.

Lemma free_app p a b : free p (a ++ b) <-> free p a /\ free p b.
Proof.
  unfold free. induction a as [|x a IH]; cbn; [tauto|]. rewrite !andb_true_iff, IH. tauto.
Qed.

(* rows of text put one after the other *)
Fixpoint cat (l : list string) : string := match l with [] => "" | x :: l => x ++ cat l end.
Lemma cat_app a b : cat (a ++ b)%list = cat a ++ cat b.
Proof. induction a; cbn; [reflexivity|]. rewrite IHa, append_assoc. reflexivity. Qed.
