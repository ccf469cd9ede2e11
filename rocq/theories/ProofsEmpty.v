(* Empty lines in the input file. *)
From Coq Require Import String Ascii ZArith List Bool Lia.
From Verif Require Import Base BaseLemmas ModelText ModelInput ProofsText ProofsInput ProofsLayout.
Import ListNotations.
Local Open Scope string_scope.
Local Open Scope Z_scope.

(* the two searches on the lines they see *)
Fixpoint blk (k1 k2 : string) (ls : list string) (n start stop : Z) : Z * Z :=
  match ls with
  | [] => (start, stop)
  | l :: rest => blk k1 k2 rest (n + 1) (if contains (k1 ++ " " ++ k2) l then n else start) (if contains k1 l then (if start =? 0 then umax else n) else stop)
  end.
Fixpoint kwd (key : string) (low top : Z) (ls : list string) (counter : Z) : option string :=
  match ls with
  | [] => None
  | l :: rest => if (contains key l && (low <=? counter) && (counter <=? top))%bool then Some l else kwd key low top rest (counter + 1)
  end.
Lemma blk_seen k1 k2 ls n a b : findBlock_loop k1 k2 ls n a b = blk k1 k2 (seen ls) n a b.
Proof.
  unfold seen. revert n a b. induction ls as [|l ls IH]; intros n a b; cbn [findBlock_loop filter map]; [reflexivity|].
  destruct (is_comment l); cbn [negb map]; apply IH.
Qed.
Lemma kwd_seen key low top ls n : findKeyword_loop key low top ls n = kwd key low top (seen ls) n.
Proof.
  unfold seen. revert n. induction ls as [|l ls IH]; intros n; cbn [findKeyword_loop filter map]; [reflexivity|].
  destruct (is_comment l); cbn [negb map kwd]; [apply IH|]. destruct (_ && _)%bool; [reflexivity|apply IH].
Qed.

Lemma kwd_app key low top a b : forall n, kwd key low top (a ++ b) n =
  match kwd key low top a n with Some l => Some l | None => kwd key low top b (n + zlen a) end.
Proof.
  induction a as [|l a IH]; intros n; cbn [app kwd].
  - unfold zlen. cbn. rewrite Z.add_0_r. reflexivity.
  - destruct (_ && _)%bool; [reflexivity|]. rewrite IH. destruct (kwd key low top a (n + 1)); [reflexivity|]. f_equal. unfold zlen. cbn [length]. lia.
Qed.
Lemma kwd_inside key low top low' top' ls : forall n n',
  (forall i, 0 <= i < zlen ls -> ((low <=? n + i) && (n + i <=? top))%bool = ((low' <=? n' + i) && (n' + i <=? top'))%bool) ->
  kwd key low top ls n = kwd key low' top' ls n'.
Proof.
  induction ls as [|l ls IH]; intros n n' H; cbn [kwd]; [reflexivity|].
  pose proof (H 0 ltac:(unfold zlen; cbn [length]; lia)) as H0. rewrite !Z.add_0_r in H0. rewrite <- !andb_assoc, H0.
  destruct (contains key l && _)%bool; [reflexivity|]. apply IH. intros i Hi. specialize (H (i + 1) ltac:(unfold zlen in *; cbn [length]; lia)).
  replace (n + 1 + i) with (n + (i + 1)) by lia. replace (n' + 1 + i) with (n' + (i + 1)) by lia. exact H.
Qed.
Lemma blk_app k1 k2 a b : forall n s t, blk k1 k2 (a ++ b) n s t =
  blk k1 k2 b (n + zlen a) (fst (blk k1 k2 a n s t)) (snd (blk k1 k2 a n s t)).
Proof.
  induction a as [|l a IH]; intros n s t; cbn [app blk].
  - unfold zlen. cbn. rewrite Z.add_0_r. reflexivity.
  - rewrite IH. f_equal. unfold zlen. cbn [length]. lia.
Qed.

(* ---------- one empty line ---------- *)
Section One.
Variables (a : Z) (k1 k2 : string).
Hypothesis Ha : 0 <= a.
(* where the same place is with one more line at a *)
Definition start_rel (s s' : Z) : Prop := (s' = s /\ 0 <= s < a) \/ (a <= s /\ 0 < s /\ s' = s + 1) \/ (s = 0 /\ s' = 0).
Definition stop_rel (t t' : Z) : Prop := (t' = t /\ 0 <= t < a) \/ (t = umax /\ t' = umax) \/ (a <= t /\ t' = t + 1).

Lemma blk_rel ls : forall n s s' t t', a <= n ->
  (0 < n \/ match ls with l :: _ => contains (k1 ++ " " ++ k2) l = false | [] => True end) ->
  start_rel s s' -> stop_rel t t' \/ existsb (contains k1) ls = true ->
  start_rel (fst (blk k1 k2 ls n s t)) (fst (blk k1 k2 ls (n + 1) s' t')) /\
  stop_rel (snd (blk k1 k2 ls n s t)) (snd (blk k1 k2 ls (n + 1) s' t')).
Proof.
  induction ls as [|l ls IH]; intros n s s' t t' Hn H0 Hs Ht; cbn [blk].
  - cbn [fst snd]. split; [exact Hs|]. destruct Ht as [Ht|Ht]; [exact Ht|discriminate Ht].
  - replace (n + 1 + 1) with (n + 1 + 1) by lia. apply IH; [lia|left; lia| |].
    + destruct (contains (k1 ++ " " ++ k2) l) eqn:E; [|exact Hs]. destruct H0 as [H0|H0]; [|discriminate H0].
      right. left. lia.
    + cbn [existsb] in Ht. destruct (contains k1 l).
      * left. unfold start_rel, stop_rel in *. destruct (Z.eqb_spec s 0), (Z.eqb_spec s' 0); lia.
      * destruct Ht as [Ht|Ht]; [left; exact Ht|right; exact Ht].
Qed.
Lemma blk_first ls : forall n s t, 0 <= n -> n + zlen ls <= a -> (s = 0 \/ 0 <= s < a) -> (t = umax \/ 0 <= t < a \/ t = 0) ->
  let r := blk k1 k2 ls n s t in (fst r = 0 \/ 0 <= fst r < a) /\ (snd r = umax \/ 0 <= snd r < a \/ snd r = 0).
Proof.
  induction ls as [|l ls IH]; intros n s t Hn Hl Hs Ht; cbn [blk]; cbv zeta; [split; assumption|].
  unfold zlen in Hl. cbn [length] in Hl. apply IH; [lia|unfold zlen; lia| |].
  - destruct (contains (k1 ++ " " ++ k2) l); [lia|exact Hs].
  - destruct (contains k1 l); [|exact Ht]. destruct (s =? 0); lia.
Qed.
End One.

Definition section_kwd (ls : list string) (k1 k2 key : string) : option string :=
  kwd key (fst (blk k1 k2 ls 0 0 0)) (snd (blk k1 k2 ls 0 0 0)) ls 0.
Lemma contains_empty key : key <> "" -> contains key "" = false.
Proof. destruct key; [congruence|reflexivity]. Qed.
Lemma one_empty (A B : list string) k1 k2 key : zlen A + zlen B < umax -> k1 <> "" -> key <> "" ->
  (A <> [] \/ match B with l :: _ => contains (k1 ++ " " ++ k2) l = false | [] => True end) ->
  existsb (contains k1) (A ++ B) = true ->
  section_kwd (A ++ B) k1 k2 key = section_kwd (A ++ "" :: B) k1 k2 key.
Proof.
  intros Hl H1 Hk Hf He. unfold section_kwd. set (a := zlen A). assert (Ha : 0 <= a) by (unfold a, zlen; lia).
  assert (R : start_rel a (fst (blk k1 k2 (A ++ B) 0 0 0)) (fst (blk k1 k2 (A ++ "" :: B) 0 0 0)) /\
              stop_rel a (snd (blk k1 k2 (A ++ B) 0 0 0)) (snd (blk k1 k2 (A ++ "" :: B) 0 0 0))).
  { rewrite !blk_app. cbn [blk]. rewrite (contains_empty k1 H1), (contains_empty (k1 ++ " " ++ k2)) by (destruct k1; [congruence|discriminate]).
    rewrite !Z.add_0_l. fold a.
    destruct (blk_first a k1 k2 A 0 0 0 ltac:(lia) ltac:(unfold a; lia) ltac:(left; lia) ltac:(right; right; lia)) as [F1 F2].
    apply blk_rel; [lia|lia| | |].
    - destruct Hf as [Hf|Hf]; [left|right; exact Hf]. unfold a, zlen. destruct A; [congruence|cbn [length]; lia].
    - unfold start_rel. lia.
    - rewrite existsb_app in He. destruct A as [|x A'].
      + right. exact He.
      + left. unfold stop_rel. assert (0 < a) by (unfold a, zlen; cbn [length]; lia). lia. }
  destruct R as [R1 R2].
  destruct (blk k1 k2 (A ++ B) 0 0 0) as [s t], (blk k1 k2 (A ++ "" :: B) 0 0 0) as [s' t']. cbn [fst snd] in *.
  rewrite !kwd_app. cbn [kwd]. rewrite (contains_empty key Hk). cbn [andb]. fold a. unfold start_rel, stop_rel in *.
  assert (E1 : kwd key s t A 0 = kwd key s' t' A 0).
  { apply kwd_inside. fold a. intros i Hi. destruct (Z.leb_spec s (0 + i)), (Z.leb_spec (0 + i) t), (Z.leb_spec s' (0 + i)), (Z.leb_spec (0 + i) t'); cbn [andb]; try reflexivity; unfold umax in *; lia. }
  assert (E2 : kwd key s t B (0 + a) = kwd key s' t' B (0 + a + 1)).
  { apply kwd_inside. fold a. intros i Hi. destruct (Z.leb_spec s (0 + a + i)), (Z.leb_spec (0 + a + i) t), (Z.leb_spec s' (0 + a + 1 + i)), (Z.leb_spec (0 + a + 1 + i) t'); cbn [andb]; try reflexivity; unfold umax in *; lia. }
  rewrite E1, E2. reflexivity.
Qed.
Lemma one_empty_all (A B : list string) key : zlen A + zlen B < umax -> key <> "" -> kwd key 0 umax (A ++ B) 0 = kwd key 0 umax (A ++ "" :: B) 0.
Proof.
  intros Hl Hk. rewrite !kwd_app. cbn [kwd]. rewrite (contains_empty key Hk). cbn [andb].
  rewrite (kwd_inside key 0 umax 0 umax B (0 + zlen A) (0 + zlen A + 1)); [reflexivity|].
  intros i Hi. unfold zlen, umax in *. destruct (Z.leb_spec 0 (0 + Z.of_nat (length A) + i)), (Z.leb_spec (0 + Z.of_nat (length A) + i) 4294967295),
    (Z.leb_spec 0 (0 + Z.of_nat (length A) + 1 + i)), (Z.leb_spec (0 + Z.of_nat (length A) + 1 + i) 4294967295); cbn [andb]; try reflexivity; lia.
Qed.

(* ---------- all empty lines ---------- *)
Definition strip (ls : list string) : list string := filter (fun l => negb (String.eqb l "")) ls.
Definition opens (l : string) : bool := (contains "material " l || contains "solver " l)%bool.
Definition plain_start (ls : list string) : Prop := match strip ls with l :: _ => opens l = false | [] => True end.
Lemma opens_no l k1 k2 : opens l = false -> In k1 ["material"; "solver"] -> contains (k1 ++ " " ++ k2) l = false.
Proof.
  intros H Hk. destruct (contains (k1 ++ " " ++ k2) l) eqn:E; [|reflexivity]. exfalso.
  assert (C : contains (k1 ++ " ") l = true).
  { apply (contains_trans (k1 ++ " ") (k1 ++ " " ++ k2) l); [|exact E]. rewrite <- append_assoc. apply contains_app_l, contains_self. }
  unfold opens in H. apply orb_false_iff in H. destruct H as [H H']. destruct Hk as [<-|[<-|[]]]; cbn [append] in C; congruence.
Qed.
Lemma strip_length ls : zlen (strip ls) <= zlen ls.
Proof. unfold strip, zlen. induction ls as [|l ls IH]; cbn; [lia|]. destruct (negb _); cbn; lia. Qed.
Lemma existsb_strip k ls : k <> "" -> existsb (contains k) (strip ls) = existsb (contains k) ls.
Proof.
  intros Hk. unfold strip. induction ls as [|l ls IH]; [reflexivity|]. cbn [filter existsb]. destruct (String.eqb_spec l "") as [->|Hl]; cbn [negb existsb].
  - rewrite (contains_empty k Hk). exact IH.
  - rewrite IH. reflexivity.
Qed.
Lemma strip_from k1 k2 key B : forall A, zlen A + zlen B < umax -> In k1 ["material"; "solver"] -> key <> "" ->
  (A <> [] \/ match strip B with l :: _ => opens l = false | [] => True end) -> existsb (contains k1) (A ++ B) = true ->
  section_kwd (A ++ B) k1 k2 key = section_kwd (A ++ strip B) k1 k2 key.
Proof.
  induction B as [|l B IH]; intros A Hl H1 Hk Hf He; [reflexivity|]. unfold zlen in Hl. cbn [length] in Hl.
  assert (N1 : k1 <> "") by (destruct H1 as [<-|[<-|[]]]; discriminate).
  unfold strip in *. cbn [filter] in *. destruct (String.eqb_spec l "") as [->|Hne]; cbn [negb] in *.
  - assert (He' : existsb (contains k1) (A ++ B) = true).
    { rewrite existsb_app in *. cbn [existsb] in He. rewrite (contains_empty k1 N1) in He. exact He. }
    rewrite <- (one_empty A B k1 k2 key); [|unfold zlen; lia|exact N1|exact Hk| |exact He'].
    + apply IH; try assumption. unfold zlen. lia.
    + destruct Hf as [Hf|Hf]; [left; exact Hf|right]. destruct B as [|b B]; [exact I|]. cbn [filter] in Hf. destruct (String.eqb_spec b "") as [->|Hb]; cbn [negb] in Hf.
      * apply contains_empty. destruct k1; [congruence|discriminate].
      * apply opens_no; assumption.
  - replace (A ++ l :: B)%list with ((A ++ [l]) ++ B)%list by (rewrite <- app_assoc; reflexivity).
    replace (A ++ l :: filter (fun l => negb (String.eqb l "")) B)%list with ((A ++ [l]) ++ filter (fun l => negb (String.eqb l "")) B)%list by (rewrite <- app_assoc; reflexivity).
    apply IH; try assumption.
    + unfold zlen in *. rewrite app_length. cbn [length]. lia.
    + left. destruct A; discriminate.
    + rewrite <- app_assoc. exact He.
Qed.
Lemma strip_all_from key B : forall A, zlen A + zlen B < umax -> key <> "" -> kwd key 0 umax (A ++ B) 0 = kwd key 0 umax (A ++ strip B) 0.
Proof.
  induction B as [|l B IH]; intros A Hl Hk; [reflexivity|]. unfold zlen in Hl. cbn [length] in Hl. unfold strip in *. cbn [filter].
  destruct (String.eqb_spec l "") as [->|Hne]; cbn [negb].
  - rewrite <- one_empty_all by (try exact Hk; unfold zlen; lia). apply IH; [unfold zlen; lia|exact Hk].
  - replace (A ++ l :: B)%list with ((A ++ [l]) ++ B)%list by (rewrite <- app_assoc; reflexivity).
    replace (A ++ l :: filter (fun l => negb (String.eqb l "")) B)%list with ((A ++ [l]) ++ filter (fun l => negb (String.eqb l "")) B)%list by (rewrite <- app_assoc; reflexivity).
    apply IH; [|exact Hk]. unfold zlen in *. rewrite app_length. cbn [length]. lia.
Qed.

Lemma lower_nonempty s : s <> "" -> lower s <> "".
Proof. destruct s; [congruence|discriminate]. Qed.
Lemma kwd_some key low top ls n l : kwd key low top ls n = Some l -> existsb (contains key) ls = true.
Proof.
  revert n. induction ls as [|x ls IH]; intros n; cbn [kwd existsb]; [discriminate|]. destruct (contains key x); cbn [andb orb]; [reflexivity|]. apply IH.
Qed.
Lemma existsb_prefix k k' ls : existsb (contains (k ++ k')) ls = true -> existsb (contains k) ls = true.
Proof.
  rewrite !existsb_exists. intros (x & Hx & E). exists x. split; [exact Hx|]. apply (contains_trans k (k ++ k') x); [|exact E]. apply contains_app_l, contains_self.
Qed.
Lemma one_found ls k1 k2 v : readOneParameter ls (k1 ++ " " ++ k2) = Ok v -> existsb (contains (lower k1)) (seen ls) = true.
Proof.
  unfold readOneParameter, findKeyword. rewrite kwd_seen. destruct (kwd _ _ _ _ _) as [l|] eqn:E; [|discriminate]. intros _.
  apply kwd_some in E. rewrite lower_app in E. exact (existsb_prefix _ _ _ E).
Qed.
Theorem empty_same ls ls' : strip (seen ls) = strip (seen ls') -> plain_start (seen ls) -> zlen ls < umax -> zlen ls' < umax -> same_searches ls ls'.
Proof.
  intros E P L L'. unfold plain_start in P. pose proof P as P'. rewrite E in P'.
  assert (Hs : forall xs, zlen (seen xs) <= zlen xs).
  { intros xs. unfold seen, zlen. rewrite map_length. induction xs as [|x xs IH]; cbn; [lia|]. destruct (negb _); cbn; lia. }
  pose proof (Hs ls) as S1. pose proof (Hs ls') as S2.
  split.
  - intros key o Hk. unfold findKeyword. rewrite !kwd_seen.
    pose proof (strip_all_from (lower key) (seen ls) [] ltac:(unfold zlen in *; cbn; lia) (lower_nonempty _ Hk)) as E1.
    pose proof (strip_all_from (lower key) (seen ls') [] ltac:(unfold zlen in *; cbn; lia) (lower_nonempty _ Hk)) as E2.
    cbn [app] in E1, E2. rewrite E1, E2, E. reflexivity.
  - intros k1 k2 v key o H1 Hk Hv. pose proof (one_found _ _ _ _ Hv) as F.
    assert (Lk : lower k1 = k1) by (destruct H1 as [<-|[<-|[]]]; reflexivity).
    assert (N1 : k1 <> "") by (destruct H1 as [<-|[<-|[]]]; discriminate). rewrite Lk in F.
    assert (F' : existsb (contains k1) (seen ls') = true) by (rewrite <- (existsb_strip k1 _ N1), <- E, (existsb_strip k1 _ N1); exact F).
    unfold findKeyword, findBlock. rewrite !kwd_seen, !blk_seen, Lk.
    pose proof (strip_from k1 (lower k2) (lower key) (seen ls) [] ltac:(unfold zlen in *; cbn; lia) H1 (lower_nonempty _ Hk) ltac:(right; exact P) F) as E1.
    pose proof (strip_from k1 (lower k2) (lower key) (seen ls') [] ltac:(unfold zlen in *; cbn; lia) H1 (lower_nonempty _ Hk) ltac:(right; exact P') F') as E2.
    cbn [app] in E1, E2. unfold section_kwd in E1, E2. rewrite E1, E2, E. reflexivity.
Qed.
