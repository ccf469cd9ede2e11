(* Lemmas on the expansion of region and value lists of the input reader. *)
From Coq Require Import String Ascii ZArith List Bool Lia Arith.
From Verif Require Import Base BaseLemmas ModelNumTools ModelMesh ModelReactor ModelText ModelInput ProofsInput.
Import ListNotations.
Local Open Scope string_scope.
Local Open Scope Z_scope.

(* sum of the first k numbers *)
Definition cum (l : list Z) (k : nat) : Z := fold_right Z.add 0 (firstn k l).
Definition total (l : list Z) : Z := fold_right Z.add 0 l.

Lemma cum_0 l : cum l 0 = 0.
Proof. reflexivity. Qed.
Lemma cum_S l k : (k < length l)%nat -> cum l (S k) = cum l k + nth k l 0.
Proof.
  unfold cum. revert k. induction l as [|x l IH]; intros k H; cbn in H; [lia|].
  destruct k as [|k].
  - cbn. lia.
  - change (x + fold_right Z.add 0 (firstn (S k) l) = x + fold_right Z.add 0 (firstn k l) + nth k l 0).
    rewrite IH by lia. lia.
Qed.
Lemma cum_all l : cum l (length l) = total l.
Proof. unfold cum. rewrite firstn_all. reflexivity. Qed.
Lemma cum_nonneg l k : Forall (fun n => 0 <= n) l -> 0 <= cum l k.
Proof.
  intros H. unfold cum. revert k. induction H as [|x l Hx Hl IH]; intros [|k]; cbn; try lia. specialize (IH k). lia.
Qed.
Lemma cum_mono l a b : Forall (fun n => 0 <= n) l -> (a <= b)%nat -> cum l a <= cum l b.
Proof.
  intros H. unfold cum. revert a b. induction H as [|x l Hx Hl IH]; intros a b L; [rewrite !firstn_nil; lia|].
  destruct a as [|a], b as [|b]; try lia.
  - cbn. pose proof (cum_nonneg l b Hl). unfold cum in H. lia.
  - cbn. specialize (IH a b). lia.
Qed.
Lemma nth_nonneg l k : Forall (fun n => 0 <= n) l -> 0 <= nth k l 0.
Proof.
  intros H. revert k. induction H as [|x l Hx Hl IH]; intros [|k]; cbn; try lia. apply IH.
Qed.

Lemma to_i32_small z : -2147483648 <= z <= 2147483647 -> to_i32 z = z.
Proof. intros H. unfold to_i32. rewrite Z.mod_small by lia. lia. Qed.
Lemma to_u32_small z : 0 <= z <= 4294967295 -> to_u32 z = z.
Proof. intros H. unfold to_u32. rewrite Z.mod_small by lia. lia. Qed.
Lemma to_u32_range z : 0 <= to_u32 z <= 4294967295.
Proof. unfold to_u32. pose proof (Z.mod_pos_bound z 4294967296). lia. Qed.
Lemma to_i32_mod z : exists q, to_i32 z = z + 4294967296 * q.
Proof. unfold to_i32. exists (- ((z + 2147483648) / 4294967296)). pose proof (Z.div_mod (z + 2147483648) 4294967296). lia. Qed.
Lemma to_i32_range z : -2147483648 <= to_i32 z <= 2147483647.
Proof. unfold to_i32. pose proof (Z.mod_pos_bound (z + 2147483648) 4294967296). lia. Qed.

Lemma accumulate_from l : forall a, Forall (fun n => 0 <= n) l -> 0 <= a -> a + total l <= 2147483647 ->
  fold_left (fun acc n => to_i32 (acc + n)) l a = a + total l.
Proof.
  induction l as [|x l IH]; intros a H Ha Hs; cbn in *; [lia|].
  inversion H as [|? ? Hx Hl]; subst.
  assert (0 <= total l) by (pose proof (cum_nonneg l (length l) Hl) as C; rewrite cum_all in C; exact C).
  unfold total in *. rewrite to_i32_small by lia. rewrite IH by (auto; lia). lia.
Qed.
Lemma accumulate_ok l : Forall (fun n => 0 <= n) l -> total l <= 2147483647 -> accumulate l = total l.
Proof. intros H Hs. unfold accumulate. rewrite accumulate_from by (auto; lia). lia. Qed.
(* in any case the int agrees with the sum modulo 2^32 *)
Lemma accumulate_mod l : forall a, exists q, fold_left (fun acc n => to_i32 (acc + n)) l a = a + total l + 4294967296 * q.
Proof.
  induction l as [|x l IH]; intros a; [exists 0; cbn; lia|]. cbn [fold_left].
  change (total (x :: l)) with (x + total l).
  destruct (to_i32_mod (a + x)) as [q1 E1]. destruct (IH (to_i32 (a + x))) as [q2 E2].
  exists (q1 + q2). lia.
Qed.
Lemma accumulate_range l : forall a, -2147483648 <= a <= 2147483647 ->
  -2147483648 <= fold_left (fun acc n => to_i32 (acc + n)) l a <= 2147483647.
Proof. induction l as [|x l IH]; intros a H; cbn; [exact H|]. apply IH. pose proof (to_i32_range (a + x)). lia. Qed.

(* ---------- loops that either succeed or are undefined ---------- *)

Definition ok_or_ub {A} (m : res A) : Prop := match m with Ok _ | UB _ => True | _ => False end.
Definition is_ub {A} (m : res A) : Prop := match m with UB _ => True | _ => False end.
Lemma ok_or_ub_bind {A B} (m : res A) (f : A -> res B) :
  ok_or_ub m -> (forall a, ok_or_ub (f a)) -> ok_or_ub (bind m f).
Proof. destruct m; cbn; intros H F; try contradiction; auto. Qed.
Lemma is_ub_bind {A B} (m : res A) (f : A -> res B) :
  ok_or_ub m -> (forall a, m = Ok a -> is_ub (f a)) -> is_ub (bind m f).
Proof. destruct m; cbn; intros H F; try contradiction; auto. Qed.
Lemma is_ub_bind_l {A B} (m : res A) (f : A -> res B) : is_ub m -> is_ub (bind m f).
Proof. destruct m; cbn; auto; contradiction. Qed.
Lemma iter_ok_or_ub {S} (body : Z -> S -> res S) : (forall i s, ok_or_ub (body i s)) ->
  forall n i s, ok_or_ub (iter_up n i body s).
Proof. intros H. induction n as [|n IH]; intros i s; cbn; [exact I|]. apply ok_or_ub_bind; [apply H|intros; apply IH]. Qed.
Lemma zfor_ok_or_ub {S} (body : Z -> S -> res S) lo hi s : (forall i s, ok_or_ub (body i s)) -> ok_or_ub (zfor lo hi body s).
Proof. intros H. apply iter_ok_or_ub, H. Qed.
(* undefined at index k, whatever the state: undefined as a whole *)
Lemma zfor_is_ub {S} (body : Z -> S -> res S) lo hi k s :
  (forall i s, ok_or_ub (body i s)) -> lo <= k < hi -> (forall s, is_ub (body k s)) -> is_ub (zfor lo hi body s).
Proof.
  intros H Hk Hu. remember (Z.to_nat (k - lo)) as n eqn:En. revert lo s Hk En.
  induction n as [|n IH]; intros lo s Hk En.
  - assert (lo = k) by lia. subst. rewrite zfor_step by lia. apply is_ub_bind_l, Hu.
  - rewrite zfor_step by lia. apply is_ub_bind; [apply H|]. intros s' _. apply IH; lia.
Qed.
Lemma vset_ok_or_ub {T} (v : vec T) i x : ok_or_ub (vset v i x).
Proof. unfold vset. destruct (inb _ _); exact I. Qed.
Lemma vget_ok_or_ub {T} (v : vec T) i : ok_or_ub (vget v i).
Proof. unfold vget. destruct (inb _ _); exact I. Qed.
Lemma lget_ok_or_ub {T} (l : list T) i : ok_or_ub (lget l i).
Proof. unfold lget. destruct (0 <=? i); [destruct (nth_error l (Z.to_nat i))|]; exact I. Qed.
Lemma lset_ok_or_ub {T} (l : list T) i x : ok_or_ub (lset l i x).
Proof. unfold lset. destruct (inb _ _); exact I. Qed.

Section Lists.
Context {T : Type} {N : Num T}.

(* the running sum of the first k spans, in the order of the code *)
Definition pos (xs : list T) (k : nat) : T := fold_left nadd (firstn k xs) n0.
Lemma fold_left_snoc {A B} (f : A -> B -> A) l x a : fold_left f (l ++ [x])%list a = f (fold_left f l a) x.
Proof. rewrite fold_left_app. reflexivity. Qed.
Lemma firstn_S {A} (l : list A) k d : (k < length l)%nat -> firstn (S k) l = (firstn k l ++ [nth k l d])%list.
Proof.
  revert k. induction l as [|x l IH]; intros k H; cbn in H; [lia|]. destruct k as [|k]; [reflexivity|].
  change (firstn (S (S k)) (x :: l)) with (x :: firstn (S k) l). rewrite IH by lia. reflexivity.
Qed.
Lemma pos_S xs k d : (k < length xs)%nat -> pos xs (S k) = nadd (pos xs k) (nth k xs d).
Proof. intros H. unfold pos. rewrite (firstn_S xs k d H). apply fold_left_snoc. Qed.

(* value of point j of span k *)
Definition point (ns : list Z) (xs : list T) (k : nat) (j : Z) : T :=
  nofZ j [*] nth k xs n0 [/] nofZ (nth k ns 0) [+] pos xs k.
(* one more point in the last span *)
Definition extra (ns : list Z) (k : nat) : Z := if Nat.eqb (S k) (length ns) then 1 else 0.

(* The points the loop of ramp fills in. *)
Lemma ramp_wp (alloc : Z -> res (vec T)) ns xs :
  Forall (fun n => 0 <= n) ns -> total ns < 2147483647 -> length xs = length ns ->
  alloc (total ns + 1) = Ok (vzeros (total ns + 1)) ->
  wp (ramp alloc (0 :: ns) (n0 :: xs)) (fun b =>
    vlen b = total ns + 1 /\
    forall k j, (k < length ns)%nat -> 0 <= j < nth k ns 0 + extra ns k ->
      vat b (cum ns k + j) = point ns xs k j).
Proof.
  intros Hn Ht Hl Ha. unfold ramp.
  assert (E : accumulate (0 :: ns) = total ns).
  { rewrite accumulate_ok; [reflexivity|constructor; [lia|exact Hn]|cbn; unfold total in Ht; lia]. }
  rewrite E. destruct (Z.eqb_spec (total ns) 2147483647) as [K|_]; [lia|]. rewrite Ha. cbn [bind].
  set (Inv := fun (i : Z) (st : vec T * Z * T) =>
    let '(b, idx, sum) := st in
    vlen b = total ns + 1 /\ sum = pos xs (Z.to_nat (i - 1)) /\
    idx = cum ns (Z.to_nat (i - 1)) + (if ((1 <? i) && (i =? zlen (0 :: ns)))%bool then 1 else 0) /\
    forall k j, Z.of_nat k < i - 1 -> 0 <= j < nth k ns 0 + extra ns k ->
      vat b (cum ns k + j) = point ns xs k j).
  assert (Z0 : zlen (0 :: ns) = 1 + Z.of_nat (length ns)) by (unfold zlen; cbn [length]; lia).
  apply wp_bind. apply (zfor_wp' Inv).
  - lia.
  - unfold Inv. cbn. repeat split; try reflexivity. intros k j H. lia.
  - intros i [[b idx] sum] Hi (I1 & I2 & I3 & I4).
    set (k := Z.to_nat (i - 1)). assert (Hk : (k < length ns)%nat) by (unfold k; lia).
    replace ((1 <? i) && (i =? zlen (0 :: ns)))%bool with false in I3
      by (destruct (1 <? i); cbn; [symmetry; apply Z.eqb_neq; lia|reflexivity]).
    fold k in I2, I3.
    rewrite (lget_ok (0 :: ns) i 0) by lia. cbn [bind].
    replace (nth (Z.to_nat i) (0 :: ns) 0) with (nth k ns 0)
      by (unfold k; replace (Z.to_nat i) with (S (Z.to_nat (i - 1))) by lia; reflexivity).
    set (n := nth k ns 0).
    assert (Hn0 : 0 <= n) by (apply nth_nonneg, Hn).
    replace (if i =? zlen (0 :: ns) - 1 then 1 else 0) with (extra ns k).
    2:{ unfold extra. destruct (Nat.eqb_spec (S k) (length ns)), (Z.eqb_spec i (zlen (0 :: ns) - 1)); unfold k in *; try lia; reflexivity. }
    assert (He : 0 <= extra ns k <= 1) by (unfold extra; destruct (Nat.eqb _ _); lia).
    assert (Hcs : cum ns (S k) = cum ns k + n) by (apply cum_S, Hk).
    assert (Hroom : cum ns k + n + extra ns k <= total ns + 1).
    { rewrite <- Hcs. rewrite <- cum_all. pose proof (cum_mono ns (S k) (length ns) Hn Hk). lia. }
    assert (Hc0 : 0 <= cum ns k) by (apply cum_nonneg, Hn).
    assert (Hd : lget (n0 :: xs) i = Ok (nth k xs n0)).
    { rewrite (lget_ok (n0 :: xs) i n0) by (unfold zlen; cbn [length]; lia). f_equal.
      unfold k; replace (Z.to_nat i) with (S (Z.to_nat (i - 1))) by lia. reflexivity. }
    apply wp_bind.
    apply (zfor_wp' (fun j (st : vec T * Z) => let '(b, idx) := st in
        vlen b = total ns + 1 /\ idx = cum ns k + j /\
        (forall k' j', (k' < k)%nat -> 0 <= j' < nth k' ns 0 + extra ns k' ->
           vat b (cum ns k' + j') = point ns xs k' j') /\
        (forall j', 0 <= j' < j -> vat b (cum ns k + j') = point ns xs k j'))).
    + lia.
    + split; [exact I1|]. split; [lia|]. split; [|intros; lia].
      intros k' j' Hk' Hj'. apply I4; [unfold k in Hk'; lia|exact Hj'].
    + intros j [b' idx'] Hj (J1 & J2 & J3 & J4). rewrite Hd. cbn [bind].
      rewrite vset_ok by lia. cbn [bind wp]. split; [exact J1|]. split; [lia|]. split.
      * intros k' j' Hk' Hj'. cbn [vat].
        destruct (Z.eqb_spec (cum ns k' + j') idx') as [F|_]; [|apply J3; assumption].
        exfalso. assert (extra ns k' = 0) by (unfold extra; destruct (Nat.eqb_spec (S k') (length ns)); [lia|reflexivity]).
        pose proof (cum_S ns k' ltac:(lia)) as Hs. pose proof (cum_mono ns (S k') k Hn Hk'). lia.
      * intros j' Hj'. cbn [vat]. destruct (Z.eqb_spec (cum ns k + j') idx') as [F|F].
        -- assert (j' = j) as -> by lia. unfold point. fold n. rewrite I2. reflexivity.
        -- apply J4. lia.
    + intros [b' idx'] (J1 & J2 & J3 & J4). rewrite Hd. cbn [bind wp]. unfold Inv.
      replace (i + 1 - 1) with i by lia.
      assert (Hik : Z.to_nat i = S k) by (unfold k; lia). rewrite Hik.
      split; [exact J1|]. split; [rewrite I2; symmetry; apply pos_S; lia|]. split.
      * rewrite J2, Hcs. replace (1 <? i + 1) with true by (symmetry; apply Z.ltb_lt; lia). cbn [andb].
        unfold extra. destruct (Nat.eqb_spec (S k) (length ns)), (Z.eqb_spec (i + 1) (zlen (0 :: ns))); lia.
      * intros k' j' Hk' Hj'. destruct (Nat.eq_dec k' k) as [->|Hne].
        -- apply J4. fold n in Hj'. lia.
        -- apply J3; [lia|exact Hj'].
  - intros [[b idx] sum] (I1 & _ & _ & I4). cbn [wp]. split; [exact I1|].
    intros k j Hk Hj. apply I4; [lia|exact Hj].
Qed.

Lemma ramp_ok_or_ub ns xs : ok_or_ub (ramp (N := N) eigen_zero ns xs).
Proof.
  unfold ramp. destruct (_ =? _); [exact I|]. apply ok_or_ub_bind.
  - unfold eigen_zero. destruct (_ <? _); exact I.
  - intros b. apply ok_or_ub_bind; [|intros [[? ?] ?]; exact I].
    apply zfor_ok_or_ub. intros i [[v idx] sum]. apply ok_or_ub_bind; [apply lget_ok_or_ub|].
    intros n. apply ok_or_ub_bind.
    + apply zfor_ok_or_ub. intros j [v' idx']. apply ok_or_ub_bind; [apply lget_ok_or_ub|].
      intros d. apply ok_or_ub_bind; [apply vset_ok_or_ub|intros; exact I].
    + intros [v' idx']. apply ok_or_ub_bind; [apply lget_ok_or_ub|intros; exact I].
Qed.

(* A span list shorter than the count list: undefined. *)
Lemma ramp_missing_span alloc ns xs :
  (length xs < length ns)%nat -> (forall n, match alloc n with Ok _ | UB _ | Throw _ => True | Exit _ => False end) ->
  match ramp (N := N) alloc (0 :: ns) (n0 :: xs) with
  | UB _ => True
  | Throw _ => exists m, alloc (accumulate (0 :: ns) + 1) = Throw m
  | _ => False
  end.
Proof.
  intros H Ha. unfold ramp. destruct (_ =? _); [exact I|].
  pose proof (Ha (accumulate (0 :: ns) + 1)) as A.
  destruct (alloc (accumulate (0 :: ns) + 1)) as [b| |m|m] eqn:Eb; cbn [bind]; try contradiction; try exact I; [|eauto].
  match goal with |- context [bind (zfor 1 ?hi ?body ?s) ?f] =>
    assert (U : is_ub (bind (zfor 1 hi body s) f)) end.
  { apply is_ub_bind_l. apply (zfor_is_ub _ _ _ (zlen (0 :: ns) - 1)).
    - intros i [[v idx] sum]. apply ok_or_ub_bind; [apply lget_ok_or_ub|].
      intros n. apply ok_or_ub_bind.
      + apply zfor_ok_or_ub. intros j [v' idx']. apply ok_or_ub_bind; [apply lget_ok_or_ub|].
        intros d. apply ok_or_ub_bind; [apply vset_ok_or_ub|intros; exact I].
      + intros [v' idx']. apply ok_or_ub_bind; [apply lget_ok_or_ub|intros; exact I].
    - unfold zlen. cbn [length]. lia.
    - intros [[v idx] sum]. apply is_ub_bind; [apply lget_ok_or_ub|]. intros n _.
      apply is_ub_bind.
      + apply zfor_ok_or_ub. intros j [v' idx']. apply ok_or_ub_bind; [apply lget_ok_or_ub|].
        intros d. apply ok_or_ub_bind; [apply vset_ok_or_ub|intros; exact I].
      + intros [v' idx'] _. rewrite lget_ub; [exact I|right]. unfold zlen. cbn [length]. lia. }
  destruct (bind (zfor 1 _ _ _) _); cbn in U; try contradiction. exact I.
Qed.

(* The number of points written is the sum of the counts plus one. *)
Lemma ramp_writes ns xs b : Forall (fun n => 0 <= n) ns -> ns <> [] ->
  ramp (N := N) eigen_zero (0 :: ns) (n0 :: xs) = Ok b -> total ns < 2147483647.
Proof.
  intros Hn Hne H. unfold ramp in H. destruct (Z.eqb_spec (accumulate (0 :: ns)) 2147483647) as [K|K]; [discriminate H|].
  apply bind_ok_inv in H. destruct H as (v & Hv & H). apply bind_ok_inv in H.
  destruct H as ([[v' idx'] sum'] & H & _).
  assert (Hlen : vlen v = accumulate (0 :: ns) + 1).
  { unfold eigen_zero in Hv. destruct (_ <? _); [discriminate Hv|]. injection Hv as <-. reflexivity. }
  assert (Z0 : zlen (0 :: ns) = 1 + Z.of_nat (length ns)) by (unfold zlen; cbn [length]; lia).
  assert (P : forall m i (st st' : vec T * Z * T), 1 <= i -> i + Z.of_nat m = zlen (0 :: ns) ->
    iter_up m i (fun i st =>
      let '(b, idx, sum) := st in
      n <- lget (0 :: ns) i ;;
      let last := if i =? zlen (0 :: ns) - 1 then 1 else 0 in
      ' (b, idx) <- zfor 0 (n + last) (fun j st =>
          let '(b, idx) := st in
          d <- lget (n0 :: xs) i ;;
          b <- vset b idx (nofZ j [*] d [/] nofZ n [+] sum) ;;
          Ok (b, idx + 1)) (b, idx) ;;
      d <- lget (n0 :: xs) i ;;
      Ok (b, idx, sum [+] d)) st = Ok st' ->
    snd (fst st) = cum ns (Z.to_nat (i - 1)) -> (m <> 0)%nat -> snd (fst st) <= vlen (fst (fst st)) ->
    vlen (fst (fst st')) = vlen (fst (fst st)) /\ total ns + 1 <= vlen (fst (fst st'))).
  { assert (Q : forall (f : Z -> T -> vec T -> Z -> T) d0 c (st st' : vec T * Z),
      0 <= c -> zfor 0 c (fun j st => let '(b, idx) := st in
          d <- d0 ;; b <- vset b idx (f j d b idx) ;; Ok (b, idx + 1)) st = Ok st' ->
      snd st <= vlen (fst st) ->
      vlen (fst st') = vlen (fst st) /\ snd st' = snd st + c /\ snd st' <= vlen (fst st')).
    { intros f d0 c st st' Hc E L.
      assert (W : wp (zfor 0 c (fun j st => let '(b, idx) := st in
          d <- d0 ;; b <- vset b idx (f j d b idx) ;; Ok (b, idx + 1)) st) (fun s => s = st')) by (rewrite E; reflexivity).
      clear E. remember (Z.to_nat c) as m eqn:Em. unfold zfor in W. rewrite Z.sub_0_r, <- Em in W.
      replace c with (Z.of_nat m) by lia. clear Em Hc c. revert W L. generalize 0 as i. revert st.
      induction m as [|m IH]; intros st i W L; cbn [iter_up] in W.
      - cbn in W. subst. lia.
      - apply wp_bind_inv in W. destruct st as [v0 idx0]. destruct d0 as [d| | |]; cbn [bind wp] in W; try contradiction.
        cbn [fst snd] in *. unfold vset in W. destruct (inb idx0 (vlen v0)) eqn:Ei; cbn [bind wp] in W; [|contradiction].
        apply inb_true in Ei. specialize (IH _ _ W). cbn [fst snd vlen] in IH. lia. }
    induction m as [|m IH]; intros i st st' Hi Him E Hs Hm L; [lia|].
    destruct st as [[b0 idx0] sum0]. cbn [iter_up] in E. apply bind_ok_inv in E.
    destruct E as ([[b1 idx1] sum1] & E1 & E2).
    rewrite (lget_ok (0 :: ns) i 0) in E1 by lia. cbn [bind] in E1.
    set (k := Z.to_nat (i - 1)) in *. assert (Hk : (k < length ns)%nat) by (unfold k; lia).
    replace (nth (Z.to_nat i) (0 :: ns) 0) with (nth k ns 0) in E1
      by (unfold k; replace (Z.to_nat i) with (S (Z.to_nat (i - 1))) by lia; reflexivity).
    apply bind_ok_inv in E1. destruct E1 as ([b2 idx2] & E1 & E3). apply bind_ok_inv in E3.
    destruct E3 as (d & Hd & E3). injection E3 as <- <- <-.
    assert (Hn0 : 0 <= nth k ns 0) by (apply nth_nonneg, Hn).
    apply (Q (fun j d b idx => nofZ j [*] d [/] nofZ (nth k ns 0) [+] sum0)) in E1; [|destruct (_ =? _); lia|exact L].
    cbn [fst snd] in *. destruct E1 as (V1 & V2 & V3).
    pose proof (cum_S ns k Hk) as Hcs.
    destruct m as [|m].
    - cbn in E2. injection E2 as <-. cbn [fst snd]. split; [exact V1|].
      assert (Hl : i = zlen (0 :: ns) - 1) by lia. rewrite (proj2 (Z.eqb_eq _ _) Hl) in V2.
      assert (S k = length ns) by (unfold k; lia). rewrite <- cum_all, <- H0, Hcs. lia.
    - apply IH in E2; cbn [fst snd]; try lia.
      + cbn [fst snd] in E2. lia.
      + cbn [fst snd]. replace (Z.to_nat (i + 1 - 1)) with (S k) by (unfold k; lia).
        destruct (Z.eqb_spec i (zlen (0 :: ns) - 1)) in V2; [lia|]. rewrite Hcs, <- Hs. lia. }
  unfold zfor in H. apply P in H; cbn [fst snd] in *.
  - destruct H as [H1 H]. destruct (accumulate_mod (0 :: ns) 0) as [q Eq].
    pose proof (accumulate_range (0 :: ns) 0 ltac:(lia)) as R. fold (accumulate (0 :: ns)) in Eq, R.
    change (total (0 :: ns)) with (0 + total ns) in Eq. lia.
  - lia.
  - rewrite Z0. destruct ns; [congruence|]. cbn [length]. lia.
  - reflexivity.
  - rewrite Z0. destruct ns; [congruence|]. cbn [length]. lia.
  - rewrite Hlen. unfold eigen_zero in Hv. destruct (Z.ltb_spec (accumulate (0 :: ns) + 1) 0); [discriminate Hv|lia].
Qed.
End Lists.
