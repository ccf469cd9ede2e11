(* Lemmas on the data of the materials: from the lines of a section to the cells. *)
From Coq Require Import String Ascii ZArith List Bool Lia Arith.
From Verif Require Import Base BaseLemmas ModelNumTools ModelMesh ModelReactor ModelOutput ModelCalculation ModelText ModelInput
  ProofsInput ProofsInputB ProofsInputC ProofsInputD ProofsInputE ProofsInputF.
Import ListNotations.
Local Open Scope string_scope.
Local Open Scope Z_scope.

(* ---------- lists ---------- *)

Lemma list_upd_same {A} (l : list A) n x : (n < length l)%nat -> nth_error (list_upd l n x) n = Some x.
Proof. revert n. induction l as [|y l IH]; intros [|n] H; cbn in *; try lia; [reflexivity|]. apply IH. lia. Qed.
Lemma list_upd_other {A} (l : list A) n x i : i <> n -> nth_error (list_upd l n x) i = nth_error l i.
Proof.
  revert n i. induction l as [|y l IH]; intros [|n] [|i] H; cbn; try reflexivity; try congruence. apply IH. congruence.
Qed.
Lemma list_upd_len {A} (l : list A) n x : length (list_upd l n x) = length l.
Proof. revert n. induction l as [|y l IH]; intros [|n]; cbn; auto. Qed.
Lemma lget_inv {A} (l : list A) i x : lget l i = Ok x -> 0 <= i /\ nth_error l (Z.to_nat i) = Some x.
Proof.
  unfold lget. destruct (Z.leb_spec 0 i); [|discriminate]. destruct (nth_error l (Z.to_nat i)); [|discriminate].
  intros E. injection E as <-. auto.
Qed.
Lemma lset_inv {A} (l l' : list A) i x : lset l i x = Ok l' ->
  0 <= i /\ (Z.to_nat i < length l)%nat /\ l' = list_upd l (Z.to_nat i) x.
Proof.
  unfold lset. intros H. destruct (inb i (Z.of_nat (length l))) eqn:E; [|discriminate H]. injection H as <-.
  apply inb_true in E. repeat split; lia.
Qed.
Lemma zrange_step lo hi : lo < hi -> zrange lo hi = lo :: zrange (lo + 1) hi.
Proof.
  intros H. unfold zrange. replace (Z.to_nat (hi - lo)) with (S (Z.to_nat (hi - (lo + 1)))) by lia.
  cbn [seq map]. f_equal; [lia|]. rewrite <- seq_shift, map_map. apply map_ext. intros k. lia.
Qed.
Lemma zrange_empty lo hi : hi <= lo -> zrange lo hi = [].
Proof. intros H. unfold zrange. replace (Z.to_nat (hi - lo)) with O by lia. reflexivity. Qed.
Lemma zfor_list {S} lo hi (f : Z -> S -> res S) s : zfor lo hi f s = foreach (zrange lo hi) f s.
Proof.
  remember (Z.to_nat (hi - lo)) as n eqn:En. revert lo s En. induction n as [|n IH]; intros lo s En.
  - rewrite zfor_empty, zrange_empty by lia. reflexivity.
  - rewrite zfor_step, zrange_step by lia. cbn [foreach]. destruct (f lo s); [|reflexivity..]. cbn [bind]. apply IH. lia.
Qed.
Lemma zfor_inv {S} (I : Z -> S -> Prop) (f : Z -> S -> res S) lo hi s s' : lo <= hi -> I lo s ->
  (forall k a b, lo <= k < hi -> I k a -> f k a = Ok b -> I (k + 1) b) -> zfor lo hi f s = Ok s' -> I hi s'.
Proof.
  remember (Z.to_nat (hi - lo)) as n eqn:En. revert lo s En. induction n as [|n IH]; intros lo s En Hl H0 Hf H.
  - rewrite zfor_empty in H by lia. injection H as <-. replace hi with lo by lia. exact H0.
  - rewrite zfor_step in H by lia. apply bind_ok_inv in H. destruct H as (s1 & H1 & H2).
    apply (IH (lo + 1) s1); [lia|lia|apply (Hf lo s s1); [lia|exact H0|exact H1]| |exact H2]. intros k a b Hk. apply Hf. lia.
Qed.
Lemma zrange_nth lo hi k : lo + Z.of_nat k < hi -> nth_error (zrange lo hi) k = Some (lo + Z.of_nat k).
Proof.
  intros H. unfold zrange. apply (map_nth_error (fun k => lo + Z.of_nat k)).
  rewrite nth_error_nth' with (d := 0%nat) by (rewrite seq_length; lia). rewrite seq_nth by lia. reflexivity.
Qed.
Lemma zrange_length lo hi : length (zrange lo hi) = Z.to_nat (hi - lo).
Proof. unfold zrange. rewrite map_length, seq_length. reflexivity. Qed.
Lemma flat_map_nth {A B} (f : A -> list B) n l : (forall a, length (f a) = n) -> forall i j x,
  nth_error l i = Some x -> (j < n)%nat -> nth_error (flat_map f l) (i * n + j) = nth_error (f x) j.
Proof.
  intros Hf. induction l as [|a l IH]; intros [|i] j x Hx Hj; try discriminate Hx; cbn [flat_map].
  - injection Hx as <-. cbn [Nat.mul Nat.add]. apply nth_error_app1. rewrite Hf. exact Hj.
  - cbn in Hx. replace (S i * n + j)%nat with (length (f a) + (i * n + j))%nat by (rewrite Hf; cbn; lia).
    rewrite nth_error_app2 by lia. replace (length (f a) + (i * n + j) - length (f a))%nat with (i * n + j)%nat by lia.
    exact (IH i j x Hx Hj).
Qed.
Lemma Forall2_nth_l {A B} (R : A -> B -> Prop) l l' : Forall2 R l l' -> forall i a, nth_error l i = Some a ->
  exists b, nth_error l' i = Some b /\ R a b.
Proof.
  induction 1 as [|a b l l' H _ IH]; intros [|i] x Hx; try discriminate Hx; cbn in *; [injection Hx as <-; eauto|eauto].
Qed.
Lemma Forall2_nth_r {A B} (R : A -> B -> Prop) l l' : Forall2 R l l' -> forall i b, nth_error l' i = Some b ->
  exists a, nth_error l i = Some a /\ R a b.
Proof.
  induction 1 as [|a b l l' H _ IH]; intros [|i] x Hx; try discriminate Hx; cbn in *; [injection Hx as <-; eauto|eauto].
Qed.

Section Reading.
Context {T : Type} {N : Num T}.
Variable mpi : T.
Variable stod_opt : string -> option T.
Notation kinds inp := (map sd_kind (in_solvers inp)).

(* ---------- the six tables of a material ---------- *)

Definition law_names : list string := ["ni"; "chi"; "fission"; "total"; "diffCoeff"; "scattMatrix"].
Definition table (name : string) (m : material T) : list (list T) :=
  if String.eqb name "total" then mt_totXS m
  else if String.eqb name "fission" then mt_fisXS m
  else if String.eqb name "diffCoeff" then mt_diff m
  else if String.eqb name "scattMatrix" then mt_scatt m
  else if String.eqb name "ni" then mt_ni m
  else if String.eqb name "chi" then mt_chi m
  else [].
Lemma table_push name c mt : In name law_names -> table name (push_law name c mt) = (table name mt ++ [c])%list.
Proof. intros H. cbn in H. repeat (destruct H as [<-|H]; [reflexivity|]). contradiction. Qed.
Lemma table_push_other name name' c mt : In name law_names -> In name' law_names -> name <> name' ->
  table name (push_law name' c mt) = table name mt.
Proof.
  intros H H' Hn. cbn in H, H'.
  repeat (destruct H as [<-|H]; [repeat (destruct H' as [<-|H']; [first [reflexivity|congruence]|]); contradiction|]). contradiction.
Qed.
Lemma name_push name c (mt : material T) : mt_name (push_law name c mt) = mt_name mt.
Proof. unfold push_law. repeat (match goal with |- context [if ?b then _ else _] => destruct b end); reflexivity. Qed.

(* c are the numbers of the entry key in the section of material nm *)
Definition law (lines : list string) (nm key : string) (skip : nat) (c : list T) : Prop :=
  exists line ws, findKeyword lines key (fst (findBlock lines "material" nm)) (snd (findBlock lines "material" nm)) false = Ok line /\
    words_from skip (splitLine line) = Ok ws /\ stods stod_opt ws = Ok c.
Definition law_keys (name : string) (G : Z) : list string :=
  if String.eqb name "scattMatrix"
  then flat_map (fun i => map (fun j => name ++ "(" ++ to_string i ++ ", " ++ to_string j ++ ")") (zrange 1 (G + 1))) (zrange 1 (G + 1))
  else map (fun i => name ++ "(" ++ to_string i ++ ")") (zrange 1 (G + 1)).
Definition law_skip (name : string) : nat := if String.eqb name "scattMatrix" then 2 else 1.

(* ---------- what the body of the loop does to one cell ---------- *)

Definition cell_step (m : nat) (R : material T -> material T -> Prop) (l l' : list (material T)) : Prop :=
  (forall i, i <> m -> nth_error l' i = nth_error l i) /\
  (forall mt', nth_error l' m = Some mt' -> exists mt, nth_error l m = Some mt /\ R mt mt').
Definition pushes (lines : list string) (nm name : string) (skip : nat) (keys : list string) (a b : material T) : Prop :=
  exists cs, Forall2 (fun key c => law lines nm key skip c) keys cs /\ b = fold_left (fun m c => push_law name c m) cs a.

Lemma cell_step_refl m (R : material T -> material T -> Prop) l : (forall a, R a a) -> cell_step m R l l.
Proof. intros H. split; [reflexivity|]. eauto. Qed.
Lemma cell_step_trans m (R1 R2 R3 : material T -> material T -> Prop) a b c :
  (forall x y z, R1 x y -> R2 y z -> R3 x z) -> cell_step m R1 a b -> cell_step m R2 b c -> cell_step m R3 a c.
Proof.
  intros H [A1 A2] [B1 B2]. split.
  - intros i Hi. rewrite B1, A1 by exact Hi. reflexivity.
  - intros z Hz. destruct (B2 z Hz) as (y & Hy & Ry). destruct (A2 y Hy) as (x & Hx & Rx). eauto.
Qed.
Lemma cell_step_weaken m (R1 R2 : material T -> material T -> Prop) a b :
  (forall x y, R1 x y -> R2 x y) -> cell_step m R1 a b -> cell_step m R2 a b.
Proof. intros H [A B]. split; [exact A|]. intros z Hz. destruct (B z Hz) as (x & Hx & Rx). eauto. Qed.
Lemma pushes_nil lines nm name skip a : pushes lines nm name skip [] a a.
Proof. exists []. split; [constructor|reflexivity]. Qed.
Lemma pushes_app lines nm name skip k1 k2 a b c :
  pushes lines nm name skip k1 a b -> pushes lines nm name skip k2 b c -> pushes lines nm name skip (k1 ++ k2)%list a c.
Proof.
  intros (c1 & H1 & ->) (c2 & H2 & ->). exists (c1 ++ c2)%list. split; [apply Forall2_app; assumption|].
  rewrite fold_left_app. reflexivity.
Qed.

Lemma readLaw_step lines nm name key skip m ms ms' :
  readLaw stod_opt lines (findBlock lines "material" nm) name key skip m ms = Ok ms' ->
  cell_step (Z.to_nat m) (pushes lines nm name skip [key]) (ms_mats ms) (ms_mats ms').
Proof.
  unfold readLaw. intros H. apply bind_ok_inv in H. destruct H as (l & Hl & H).
  apply bind_ok_inv in H. destruct H as (nv & Hnv & H). apply bind_ok_inv in H. destruct H as (mt & Hm & H).
  apply bind_ok_inv in H. destruct H as (c & Hc & H). apply bind_ok_inv in H. destruct H as (mats & Hs & H).
  apply bind_ok_inv in H. destruct H as (u & _ & H). injection H as <-. cbn [ms_mats with_mats].
  apply lget_inv in Hm. apply lset_inv in Hs. destruct Hm as [_ Hm]. destruct Hs as (_ & L & ->). split.
  - intros i Hi. apply list_upd_other. exact Hi.
  - intros mt' E. rewrite list_upd_same in E by exact L. injection E as <-. exists mt. split; [exact Hm|].
    exists [c]. split; [|reflexivity]. constructor; [|constructor]. exists l, nv. auto.
Qed.
Lemma foreach_steps {A} lines nm name skip m (f : A -> mesh T -> res (mesh T)) keys (l : list A) :
  (forall i ms ms', f i ms = Ok ms' -> cell_step m (pushes lines nm name skip (keys i)) (ms_mats ms) (ms_mats ms')) ->
  forall ms ms', foreach l f ms = Ok ms' ->
  cell_step m (pushes lines nm name skip (flat_map keys l)) (ms_mats ms) (ms_mats ms').
Proof.
  intros Hf. induction l as [|x l IH]; intros ms ms' H; cbn in H.
  - injection H as <-. apply cell_step_refl. intros a. apply pushes_nil.
  - apply bind_ok_inv in H. destruct H as (m1 & H1 & H2). cbn [flat_map].
    eapply cell_step_trans; [|exact (Hf _ _ _ H1)|exact (IH _ _ H2)]. intros a b c. apply pushes_app.
Qed.
Lemma flat_map_single {A B} (f : A -> B) l : flat_map (fun x => [f x]) l = map f l.
Proof. induction l as [|x l IH]; cbn; [reflexivity|]. rewrite IH. reflexivity. Qed.
Lemma law_body_step lines nm name G m ms ms' : name <> "scattMatrix" ->
  zfor 1 (G + 1) (fun i ms => readLaw stod_opt lines (findBlock lines "material" nm) name (name ++ "(" ++ to_string i ++ ")") 1 m ms) ms = Ok ms' ->
  cell_step (Z.to_nat m) (pushes lines nm name (law_skip name) (law_keys name G)) (ms_mats ms) (ms_mats ms').
Proof.
  intros Hn H. rewrite zfor_list in H. unfold law_keys, law_skip.
  destruct (String.eqb_spec name "scattMatrix") as [E|_]; [contradiction|].
  rewrite <- flat_map_single. revert H. apply foreach_steps. intros i a b Hr. exact (readLaw_step _ _ _ _ _ _ _ _ Hr).
Qed.
Lemma matrix_body_step lines nm G m ms ms' :
  zfor 1 (G + 1) (fun i ms => zfor 1 (G + 1) (fun j ms =>
    readLaw stod_opt lines (findBlock lines "material" nm) "scattMatrix"
      ("scattMatrix" ++ "(" ++ to_string i ++ ", " ++ to_string j ++ ")") 2 m ms) ms) ms = Ok ms' ->
  cell_step (Z.to_nat m) (pushes lines nm "scattMatrix" (law_skip "scattMatrix") (law_keys "scattMatrix" G)) (ms_mats ms) (ms_mats ms').
Proof.
  intros H. rewrite zfor_list in H. unfold law_keys, law_skip. rewrite String.eqb_refl.
  revert H. apply foreach_steps. intros i a b Hr. rewrite zfor_list in Hr. rewrite <- flat_map_single.
  revert Hr. apply foreach_steps. intros j a' b' Hr. exact (readLaw_step _ _ _ _ _ _ _ _ Hr).
Qed.

(* ---------- the loop over materials and cells ---------- *)

(* every cell, with its material's name *)
Definition cellwise (names : list string) (P : string -> material T -> Prop) (l : list (material T)) : Prop :=
  forall m nm mt, nth_error names m = Some nm -> nth_error l m = Some mt -> P nm mt.

Lemma forMaterials_cells (A B : string -> material T -> Prop) inp body inp' :
  (forall nm mt, B nm mt -> A nm mt) ->
  (forall nm m ms ms', 0 <= m -> body (findBlock (in_lines inp) "material" nm) m ms = Ok ms' ->
     cell_step (Z.to_nat m) (fun a b => A nm a -> B nm b) (ms_mats ms) (ms_mats ms')) ->
  forMaterials inp body = Ok inp' ->
  cellwise (in_map inp) A (ms_mats (in_mesh inp)) ->
  forall m nm mt, nth_error (in_map inp) m = Some nm -> nth_error (ms_mats (in_mesh inp')) m = Some mt ->
    A nm mt /\ (Z.of_nat m < ms_cells (in_mesh inp) -> In nm (in_list inp) -> B nm mt).
Proof.
  intros HBA Hb H HA. unfold forMaterials in H. apply bind_ok_inv in H. destruct H as (ms1 & H & E). injection E as <-.
  unfold in_mesh in *. cbn [in_rx with_rx put_mesh rx_mesh with_mesh].
  set (st := fun (done : list string) (l : list (material T)) => forall m nm mt, nth_error (in_map inp) m = Some nm -> nth_error l m = Some mt ->
    A nm mt /\ (Z.of_nat m < ms_cells (rx_mesh (in_rx inp)) -> In nm done -> B nm mt)).
  enough (G : forall todo done ms, st done (ms_mats ms) ->
    foreach todo (fun item ms =>
      readOneParameter (in_lines inp) ("material " ++ item) ;;;
      let block := findBlock (in_lines inp) "material" item in
      zfor 0 (ms_cells (rx_mesh (in_rx inp))) (fun m ms =>
        nm <- lget (in_map inp) m ;;
        if String.eqb nm item then body block m ms else Ok ms) ms) ms = Ok ms1 -> st (done ++ todo)%list (ms_mats ms1)).
  { apply (G (in_list inp) [] (rx_mesh (in_rx inp))); [|exact H]. intros m nm mt H1 H2. split; [exact (HA m nm mt H1 H2)|]. intros _ []. }
  clear H HA. induction todo as [|item todo IH]; intros done ms Hst H.
  - injection H as <-. rewrite app_nil_r. exact Hst.
  - cbn [foreach] in H. apply bind_ok_inv in H. destruct H as (ms2 & H1 & H2).
    replace (done ++ item :: todo)%list with ((done ++ [item]) ++ todo)%list by (rewrite <- app_assoc; reflexivity).
    apply (IH (done ++ [item])%list ms2); [|exact H2]. clear H2 IH.
    apply bind_ok_inv in H1. destruct H1 as (w & _ & H1). cbv zeta in H1.
    destruct (Z_lt_le_dec (ms_cells (rx_mesh (in_rx inp))) 0) as [Hneg|Hpos].
    { rewrite zfor_empty in H1 by lia. injection H1 as <-. intros m nm mt E1 E2. split; [exact (proj1 (Hst m nm mt E1 E2))|]. intros L. lia. }
    assert (Q : forall m nm mt, nth_error (in_map inp) m = Some nm -> nth_error (ms_mats ms2) m = Some mt ->
      A nm mt /\ (Z.of_nat m < ms_cells (rx_mesh (in_rx inp)) -> In nm done -> B nm mt) /\
      (Z.of_nat m < ms_cells (rx_mesh (in_rx inp)) -> nm = item -> B nm mt)).
    { refine (zfor_inv (fun k (ms : mesh T) => forall m nm mt, nth_error (in_map inp) m = Some nm -> nth_error (ms_mats ms) m = Some mt ->
        A nm mt /\ (Z.of_nat m < ms_cells (rx_mesh (in_rx inp)) -> In nm done -> B nm mt) /\ (Z.of_nat m < k -> nm = item -> B nm mt))
        _ _ _ _ _ Hpos _ _ H1).
      - intros m nm mt E1 E2. destruct (Hst m nm mt E1 E2) as [S1 S2]. split; [exact S1|]. split; [exact S2|]. intros L. lia.
      - intros k a b Hk Ha E m nm mt E1 E2. apply bind_ok_inv in E. destruct E as (nm' & En & E).
        apply lget_inv in En. destruct En as [_ En]. destruct (String.eqb_spec nm' item) as [->|Hne].
        + destruct (Hb item k a b ltac:(lia) E) as [S1 S2]. destruct (Nat.eq_dec m (Z.to_nat k)) as [->|Hm].
          * rewrite En in E1. injection E1 as <-. destruct (S2 mt E2) as (mt0 & F1 & F2).
            destruct (Ha _ _ _ En F1) as (G1 & G2 & G3). specialize (F2 G1). auto.
          * rewrite (S1 m Hm) in E2. destruct (Ha _ _ _ E1 E2) as (G1 & G2 & G3). split; [exact G1|]. split; [exact G2|].
            intros L. apply G3. lia.
        + injection E as <-. destruct (Ha _ _ _ E1 E2) as (G1 & G2 & G3). split; [exact G1|]. split; [exact G2|].
          intros L F. destruct (Z.eq_dec (Z.of_nat m) k) as [Ek|Ek]; [|apply G3; [lia|exact F]].
          exfalso. rewrite <- Ek, Nat2Z.id in En. congruence. }
    intros m nm mt E1 E2. destruct (Q m nm mt E1 E2) as (Q1 & Q2 & Q3). split; [exact Q1|]. intros L Hi.
    apply in_app_or in Hi. destruct Hi as [Hi|[Hi|[]]]; [exact (Q2 L Hi)|exact (Q3 L (eq_sym Hi))].
Qed.

(* ---------- one table, all cells ---------- *)

Section Table.
Variable lines : list string.
Variable G : Z.
Variable name : string.
Hypothesis Hname : In name law_names.

(* the table starts with the numbers of the entries, in order *)
Definition starts (nm : string) (mt : material T) : Prop :=
  exists cs rest, table name mt = (cs ++ rest)%list /\
    Forall2 (fun key c => law lines nm key (law_skip name) c) (law_keys name G) cs.
Definition fresh_or (nm : string) (mt : material T) : Prop := table name mt = [] \/ starts nm mt.

Lemma table_pushes cs mt : table name (fold_left (fun m c => push_law name c m) cs mt) = (table name mt ++ cs)%list.
Proof.
  revert mt. induction cs as [|c cs IH]; intros mt; cbn; [rewrite app_nil_r; reflexivity|].
  rewrite IH, table_push, <- app_assoc by exact Hname. reflexivity.
Qed.
Lemma pushes_starts nm a b : pushes lines nm name (law_skip name) (law_keys name G) a b -> fresh_or nm a -> starts nm b.
Proof.
  intros (cs & H & ->) [E|(c0 & r & E & F)]; unfold starts; rewrite table_pushes, E.
  - exists cs, []. rewrite app_nil_r. auto.
  - exists c0, (r ++ cs)%list. rewrite app_assoc. auto.
Qed.

(* the input as it is when the materials are read *)
Record ready (inp : input T) : Prop := {
  ry_lines : in_lines inp = lines;
  ry_groups : ms_groups (in_mesh inp) = G;
  ry_cells : forall m, (m < length (ms_mats (in_mesh inp)))%nat -> Z.of_nat m < ms_cells (in_mesh inp);
  ry_list : forall nm, In nm (in_map inp) -> In nm (in_list inp)
}.
Definition at_cells (P : string -> material T -> Prop) (inp : input T) : Prop := cellwise (in_map inp) P (ms_mats (in_mesh inp)).
Definition keeps (inp inp' : input T) : Prop :=
  (at_cells fresh_or inp -> at_cells fresh_or inp') /\ (at_cells starts inp -> at_cells starts inp').
Definition gives (inp inp' : input T) : Prop := at_cells fresh_or inp -> at_cells starts inp'.
Lemma starts_fresh inp : at_cells starts inp -> at_cells fresh_or inp.
Proof. intros H m nm mt E1 E2. right. exact (H m nm mt E1 E2). Qed.
Lemma gives_keeps inp inp' : gives inp inp' -> keeps inp inp'.
Proof. intros H. split; intros A; [apply starts_fresh|]; apply H; auto using starts_fresh. Qed.
Lemma keeps_refl inp : keeps inp inp.
Proof. split; auto. Qed.
Lemma keeps_trans a b c : keeps a b -> keeps b c -> keeps a c.
Proof. intros [A1 A2] [B1 B2]. split; auto. Qed.
Lemma gives_l a b c : gives a b -> keeps b c -> gives a c.
Proof. intros A [_ B] H. auto. Qed.
Lemma gives_r a b c : keeps a b -> gives b c -> gives a c.
Proof. intros [A _] B H. auto. Qed.

(* stages that do not touch the table *)
Definition aside (a b : material T) : Prop := table name b = table name a /\ mt_name b = mt_name a.
Lemma aside_refl a : aside a a.
Proof. split; reflexivity. Qed.
Lemma aside_trans a b c : aside a b -> aside b c -> aside a c.
Proof. unfold aside. intros [A1 A2] [B1 B2]. split; etransitivity; eassumption. Qed.
Lemma aside_keeps inp inp' : in_map inp' = in_map inp -> Forall2 aside (ms_mats (in_mesh inp)) (ms_mats (in_mesh inp')) -> keeps inp inp'.
Proof.
  intros E F. unfold keeps, at_cells, cellwise. rewrite E.
  split; intros H m nm mt E1 E2; destruct (Forall2_nth_r _ _ _ F m mt E2) as (mt0 & E0 & A1 & A2);
    specialize (H m nm mt0 E1 E0); unfold fresh_or, starts in *; rewrite A1; exact H.
Qed.
Lemma put_keeps inp inp' : is_put aside inp inp' -> keeps inp inp'.
Proof. intros (ms & -> & _ & H). apply aside_keeps; [reflexivity|exact H]. Qed.
Lemma put_ready R inp inp' : is_put R inp inp' -> ready inp -> ready inp'.
Proof.
  intros (ms & -> & (M1 & M2 & M3 & M4 & M5 & M6 & M7) & _) [A B C D]. unfold in_mesh in *.
  constructor; unfold in_mesh; cbn; auto; [congruence|]. rewrite M7, M3. exact C.
Qed.

Lemma setLaw_gives inp inp' : ready inp ->
  (name <> "scattMatrix" /\ setXS stod_opt name inp = Ok inp') \/ (name = "scattMatrix" /\ setMatrixXS stod_opt name inp = Ok inp') ->
  gives inp inp'.
Proof.
  intros R H HA m nm mt E1 E2.
  assert (Em : in_map inp' = in_map inp).
  { destruct H as [[_ H]|[_ H]].
    - apply (setXS_rel stod_opt (fun _ _ => True)) in H; auto. destruct H as (ms & -> & _). reflexivity.
    - apply (setMatrixXS_rel stod_opt (fun _ _ => True)) in H; auto. destruct H as (ms & -> & _). reflexivity. }
  assert (Lm : length (ms_mats (in_mesh inp')) = length (ms_mats (in_mesh inp))).
  { destruct H as [[_ H]|[_ H]].
    - apply (setXS_rel stod_opt (fun _ _ => True)) in H; auto. destruct H as (ms & -> & M & _). apply M.
    - apply (setMatrixXS_rel stod_opt (fun _ _ => True)) in H; auto. destruct H as (ms & -> & M & _). apply M. }
  rewrite Em in E1.
  assert (Lt : (m < length (ms_mats (in_mesh inp')))%nat) by (apply nth_error_Some; rewrite E2; discriminate).
  assert (S : fresh_or nm mt /\ (Z.of_nat m < ms_cells (in_mesh inp) -> In nm (in_list inp) -> starts nm mt)).
  { destruct H as [[Hn H]|[Hn H]]; (eapply (forMaterials_cells fresh_or starts); [| |exact H|exact HA|exact E1|exact E2]);
      try (intros nm0 mt0 Hs; right; exact Hs).
    - intros nm0 m0 a b Hm Hbody. rewrite (ry_lines _ R), (ry_groups _ R) in Hbody.
      apply law_body_step in Hbody; [|exact Hn]. revert Hbody. apply cell_step_weaken. intros x y. apply pushes_starts.
    - intros nm0 m0 a b Hm Hbody. rewrite (ry_lines _ R), (ry_groups _ R), Hn in Hbody. apply matrix_body_step in Hbody.
      rewrite <- Hn in Hbody. revert Hbody. apply cell_step_weaken. intros x y. apply pushes_starts. }
  apply S; [apply (ry_cells _ R); lia|]. apply (ry_list _ R). exact (nth_error_In _ _ E1).
Qed.
Lemma setXS_keeps name' inp inp' : In name' law_names -> name' <> "scattMatrix" -> ready inp -> setXS stod_opt name' inp = Ok inp' ->
  keeps inp inp' /\ (name' = name -> gives inp inp') /\ ready inp'.
Proof.
  intros Hin Hn R H.
  assert (Rd : ready inp') by (apply (put_ready (fun _ _ => True) inp inp'); [apply (setXS_rel stod_opt (fun _ _ => True)) in H; auto|exact R]).
  destruct (string_dec name' name) as [->|Hne].
  - assert (Gv : gives inp inp') by (apply setLaw_gives; auto). split; [apply gives_keeps, Gv|]. auto.
  - split; [|split; [intros F; contradiction|exact Rd]]. apply put_keeps. apply (setXS_rel stod_opt aside) in H; auto using aside_refl.
    + exact aside_trans.
    + intros c mt. split; [apply table_push_other; auto|apply name_push].
Qed.
Lemma setMatrixXS_keeps inp inp' : ready inp -> setMatrixXS stod_opt "scattMatrix" inp = Ok inp' ->
  keeps inp inp' /\ ("scattMatrix" = name -> gives inp inp') /\ ready inp'.
Proof.
  intros R H.
  assert (Rd : ready inp') by (apply (put_ready (fun _ _ => True) inp inp'); [apply (setMatrixXS_rel stod_opt (fun _ _ => True)) in H; auto|exact R]).
  destruct (string_dec "scattMatrix" name) as [E|Hne].
  - assert (Gv : gives inp inp').
    { apply setLaw_gives; [exact R|]. right. split; [symmetry; exact E|]. rewrite <- E. exact H. }
    split; [apply gives_keeps, Gv|]. auto.
  - split; [|split; [intros F; contradiction|exact Rd]]. apply put_keeps. apply (setMatrixXS_rel stod_opt aside) in H; auto using aside_refl.
    + exact aside_trans.
    + intros c mt. split; [apply table_push_other; auto; cbn; tauto|apply name_push].
Qed.

(* the tables a solver has read *)
Definition reads (k : SolverKind) : list string :=
  match k with
  | TRANSPORT => ["ni"; "chi"; "fission"; "total"; "scattMatrix"]
  | DIFFUSION | ADS => law_names
  | _ => []
  end.
Inductive steps : list string -> input T -> input T -> Prop :=
| steps_nil a : steps [] a a
| steps_cons n l a b c : keeps a b -> (n = name -> gives a b) -> steps l b c -> steps (n :: l) a c.
Lemma steps_keeps l a b : steps l a b -> keeps a b.
Proof. induction 1 as [|n l a b c K _ _ IH]; [apply keeps_refl|exact (keeps_trans _ _ _ K IH)]. Qed.
Lemma steps_gives l a b : steps l a b -> In name l -> gives a b.
Proof.
  induction 1 as [|n l a b c K J S IH]; intros Hi; [contradiction|]. destruct Hi as [<-|Hi].
  - exact (gives_l _ _ _ (J eq_refl) (steps_keeps _ _ _ S)).
  - exact (gives_r _ _ _ K (IH Hi)).
Qed.
Lemma setMaterials_keeps k inp inp' : ready inp -> setMaterials stod_opt k inp = Ok inp' ->
  keeps inp inp' /\ (In name (reads k) -> gives inp inp') /\ ready inp'.
Proof.
  intros R H.
  assert (Q : neutronic k = true -> steps (reads k) inp inp' /\ ready inp').
  { destruct k; cbn [setMaterials reads neutronic law_names] in *; try discriminate; intros _;
      repeat (apply bind_ok_inv in H; let x := fresh "x" in let E := fresh "E" in destruct H as (x & E & H);
        (apply setXS_keeps in E; [|cbn; tauto|discriminate|assumption]);
        let K := fresh "K" in let J := fresh "J" in let R' := fresh "R" in destruct E as (K & J & R'));
      (apply setMatrixXS_keeps in H; [|assumption]); let K := fresh "K" in let J := fresh "J" in let R' := fresh "R" in destruct H as (K & J & R');
      (split; [repeat (econstructor; [eassumption|assumption|]); constructor|assumption]). }
  destruct (neutronic k) eqn:Ek.
  { destruct (Q eq_refl) as [S R']. split; [exact (steps_keeps _ _ _ S)|]. split; [exact (steps_gives _ _ _ S)|exact R']. }
  clear Q. destruct k; try discriminate Ek; cbn [setMaterials reads] in *;
    try (injection H as <-; split; [apply keeps_refl|]; split; [intros []|exact R]).
  apply (setMaterialProperties_rel stod_opt aside) in H; auto using aside_refl.
  - split; [apply put_keeps, H|]. split; [intros []|exact (put_ready _ _ _ H R)].
  - exact aside_trans.
  - intros c mt. split; reflexivity.
Qed.
Lemma same_ready inp inp' : fixed inp inp' -> mesh_same (in_mesh inp) (in_mesh inp') -> ready inp -> ready inp'.
Proof.
  intros (F1 & F2 & F3 & _) (_ & _ & M3 & M4 & _ & _ & M7) [A B C D]. constructor; [congruence|congruence| |rewrite F2, F3; exact D].
  rewrite M7, M3. exact C.
Qed.
Lemma readSolverInput_keeps k inp inp' : ready inp -> readSolverInput stod_opt inp k = Ok inp' ->
  keeps inp inp' /\ (In name (reads k) -> gives inp inp') /\ ready inp'.
Proof.
  intros R H.
  assert (Rd : ready inp').
  { apply (readSolverInput_spec stod_opt (fun _ _ => True)) in H; auto. destruct H as (F & _ & (M & _) & _). exact (same_ready _ _ F M R). }
  destruct (neutronic k) eqn:Ek.
  { assert (H' : setMaterials stod_opt k inp = Ok inp') by (destruct k; try discriminate Ek; exact H).
    apply setMaterials_keeps; [exact R|exact H']. }
  split; [|split; [intros F; destruct k; try discriminate Ek; destruct F|exact Rd]].
  apply (readSolverInput_spec stod_opt aside) in H; auto using aside_refl.
  - destruct H as ((_ & F & _) & _ & (_ & M) & _). apply aside_keeps; [exact F|exact M].
  - exact aside_trans.
  - intros F. congruence.
  - intros _. repeat split.
Qed.
Lemma readSolverInputs_keeps (l : list (solverData T)) : forall inp inp', ready inp ->
  foreach l (fun s inp => readSolverInput stod_opt inp (sd_kind s)) inp = Ok inp' ->
  keeps inp inp' /\ ((exists k, In k (map sd_kind l) /\ In name (reads k)) -> gives inp inp') /\ ready inp'.
Proof.
  induction l as [|s l IH]; intros inp inp' R H.
  - injection H as <-. split; [apply keeps_refl|]. split; [intros (k & [] & _)|exact R].
  - cbn [foreach] in H. apply bind_ok_inv in H. destruct H as (inp1 & H1 & H2).
    destruct (readSolverInput_keeps _ _ _ R H1) as (K1 & G1 & R1). destruct (IH _ _ R1 H2) as (K2 & G2 & R2).
    split; [exact (keeps_trans _ _ _ K1 K2)|]. split; [|exact R2].
    intros (k & [<-|Hk] & Hn); [exact (gives_l _ _ _ (G1 Hn) K2)|apply (gives_r _ _ _ K1), G2; eauto].
Qed.
End Table.

(* ---------- the cells of the mesh ---------- *)

Lemma names_in mts (ns : list Z) names0 names :
  zfor 1 (zlen (0 :: ns)) (fun i names =>
      n <- lget (0 :: ns) i ;;
      zfor 0 n (fun _ names => m <- lget mts (i - 1) ;; Ok (names ++ [m])%list) names) names0 = Ok names ->
  (forall nm, In nm names0 -> In nm mts) -> forall nm : string, In nm names -> In nm mts.
Proof.
  intros H H0.
  assert (L : forall (l : list string) i m, lget l i = Ok m -> In m l).
  { intros l i m E. apply lget_inv in E. exact (nth_error_In _ _ (proj2 E)). }
  refine (zfor_inv (fun _ names => forall nm, In nm names -> In nm mts) _ _ _ _ _ _ H0 _ H); [unfold zlen; cbn [length]; lia|].
  intros k a b Hk Ha E. apply bind_ok_inv in E. destruct E as (n & _ & E).
  destruct (Z_lt_le_dec n 0) as [Hn|Hn]; [rewrite zfor_empty in E by lia; injection E as <-; exact Ha|].
  refine (zfor_inv (fun _ names => forall nm, In nm names -> In nm mts) _ _ _ _ _ Hn Ha _ E).
  intros j a' b' _ Ha' E'. apply bind_ok_inv in E'. destruct E' as (m & Em & E'). injection E' as <-.
  intros nm Hi. apply in_app_or in Hi. destruct Hi as [Hi|[<-|[]]]; [exact (Ha' _ Hi)|exact (L _ _ _ Em)].
Qed.
Lemma createMaterials_cells names (ms ms' : mesh T) : createMaterials names ms = Ok ms' ->
  ms_cells ms' = ms_cells ms /\ ms_groups ms' = ms_groups ms /\ ms_geom ms' = ms_geom ms /\ ms_bounds ms' = ms_bounds ms /\
  length (ms_mats ms') = Z.to_nat (ms_cells ms) /\
  forall m mt, nth_error (ms_mats ms') m = Some mt -> exists nm, nth_error names m = Some nm /\ mt = newMaterial nm.
Proof.
  unfold createMaterials. intros H. apply bind_ok_inv in H. destruct H as (l & Hl & H). injection H as <-. cbn.
  repeat (split; [reflexivity|]).
  destruct (Z_lt_le_dec (ms_cells ms) 0) as [Hn|Hn].
  { rewrite zfor_empty in Hl by lia. injection Hl as <-. replace (Z.to_nat (ms_cells ms)) with O by lia. cbn. split; [reflexivity|].
    intros [|m] mt F; discriminate F. }
  assert (Q : length l = Z.to_nat (ms_cells ms) /\ forall m mt, Z.of_nat m < ms_cells ms -> nth_error l m = Some mt ->
    exists nm, nth_error names m = Some nm /\ mt = newMaterial nm).
  { refine (zfor_inv (fun k l => length l = Z.to_nat (ms_cells ms) /\ forall m mt, Z.of_nat m < k -> nth_error l m = Some mt ->
      exists nm, nth_error names m = Some nm /\ mt = newMaterial nm) _ _ _ _ _ Hn _ _ Hl).
    - rewrite repeat_length. split; [reflexivity|]. intros m mt F. lia.
    - intros k a b Hk [La Ha] E. apply bind_ok_inv in E. destruct E as (nm & En & E). apply lget_inv in En. destruct En as [_ En].
      apply lset_inv in E. destruct E as (_ & Lk & ->). split; [rewrite list_upd_len; exact La|].
      intros m mt Hm E. destruct (Nat.eq_dec m (Z.to_nat k)) as [->|Hne].
      + rewrite list_upd_same in E by exact Lk. injection E as <-. eauto.
      + rewrite list_upd_other in E by exact Hne. apply Ha; [lia|exact E]. }
  destruct Q as [Q1 Q2]. split; [exact Q1|]. intros m mt E. apply Q2; [|exact E].
  assert (m < length l)%nat by (apply nth_error_Some; rewrite E; discriminate). lia.
Qed.
Lemma setMesh_cells inp inp' : setMesh mpi stod_opt inp = Ok inp' -> in_map inp = [] ->
  (forall m, (m < length (ms_mats (in_mesh inp')))%nat -> Z.of_nat m < ms_cells (in_mesh inp')) /\
  (forall nm, In nm (in_map inp') -> In nm (in_list inp')) /\
  (forall m mt, nth_error (ms_mats (in_mesh inp')) m = Some mt ->
     exists nm, nth_error (in_map inp') m = Some nm /\ mt = newMaterial nm).
Proof.
  unfold setMesh. intros H H0. apply bind_ok_inv in H. destruct H as (values & Hv & H).
  apply bind_ok_inv in H. destruct H as ([[ns xs] mts] & _ & H). cbv zeta in H.
  apply bind_ok_inv in H. destruct H as (b & _ & H). apply bind_ok_inv in H. destruct H as (v & _ & H).
  apply bind_ok_inv in H. destruct H as (nms & Hn & H). apply bind_ok_inv in H. destruct H as (ms & Hc & H).
  apply bind_ok_inv in H. destruct H as (u & _ & H). apply bind_ok_inv in H. destruct H as (v' & _ & H). injection H as <-.
  apply createMaterials_cells in Hc. destruct Hc as (C1 & _ & _ & _ & C2 & C3). unfold in_mesh. cbn.
  split; [intros m Hm; rewrite C1; rewrite C2 in Hm; lia|]. split; [|exact C3].
  intros nm Hi. apply unique_sort_in. refine (names_in mts ns _ _ Hn _ nm Hi).
  rewrite H0. intros x [].
Qed.

(* ---------- from the file to the tables ---------- *)

Lemma readLines_tables lines inp name : In name law_names ->
  readLines mpi stod_opt (mkInput lines newReactor [] [] [] []) = Ok inp ->
  (exists k, In k (kinds inp) /\ In name (reads k)) ->
  forall m mt, nth_error (ms_mats (in_mesh inp)) m = Some mt -> starts lines (ms_groups (in_mesh inp)) name (mt_name mt) mt.
Proof.
  intros Hname H (k & Hk & Hr) m mt Em. pose proof (readLines_reading _ _ _ _ H) as RD.
  apply readLines_stages in H. destruct H as (a & b & c & d & l & Ha & Hb & Hl & Hc & Hd & Hp).
  apply setSolvers_spec in Ha. destruct Ha as (ws & ks & Hw & Hks & ->). cbn [in_lines] in Hw.
  set (a := with_solvers (map newSolverData ks) (mkInput lines newReactor [] [] [] [])) in *.
  assert (Ka : kinds a = ks) by (cbn; rewrite map_map; apply map_id).
  pose proof (chain_kinds _ _ _ _ Hc) as Kc. pose proof (chain_same _ _ _ _ Hc) as (C1 & C2 & _).
  pose proof (chain_laws _ _ _ _ Hc) as CL.
  assert (Pd : in_rx inp = in_rx d /\ in_solvers inp = in_solvers d /\ in_map inp = in_map d).
  { unfold setPlots in Hp. apply bind_ok_inv in Hp. destruct Hp as (pw & _ & Hp). injection Hp as <-. auto. }
  destruct Pd as (P1 & P2 & P3).
  pose proof (readSolverInputs_spec stod_opt (fun x y => mt_name y = mt_name x) (fun m => eq_refl) (fun a b c H1 H2 => eq_trans H2 H1) (in_solvers c) c d) as D.
  cbv zeta in D. specialize (D (fun k H => H)).
  destruct D as (D1 & D2 & (D3 & D3') & _); [intros _ ? ? ?; apply name_push|intros _; repeat split|exact Hd|].
  (* the solver is a neutronic one: there is a mesh *)
  assert (Kk : In k (kinds c)) by (rewrite <- D2, <- P2; exact Hk).
  assert (Ek : neutronic k = true) by (destruct k; try contradiction; reflexivity).
  destruct Hb as [(_ & g & Hg & Hm)|(Hno & Eb)].
  2:{ exfalso. subst b. rewrite Kc in Kk. apply (Hno k); [destruct k; try discriminate Ek; cbn; tauto|exact Kk]. }
  apply (setGeometryKind_spec stod_opt) in Hg. destruct Hg as (gk & _ & -> & _).
  destruct (setMesh_cells _ _ Hm eq_refl) as (M1 & M2 & M3).
  destruct (setMesh_solvers _ _ _ _ Hm) as (S1 & S2 & _). cbn [in_lines put_mesh with_rx] in S2.
  destruct C1 as (F1 & F2 & F3 & F4). destruct C2 as (_ & _ & _ & _ & _ & _ & G7 & G8). fold (in_mesh b) (in_mesh c) in G7, G8.
  assert (R : ready lines (ms_groups (in_mesh inp)) c).
  { constructor.
    - rewrite F1, S2. reflexivity.
    - unfold in_mesh at 2. rewrite P1. symmetry. apply D3.
    - rewrite G8, G7. exact M1.
    - rewrite F2, F3. exact M2. }
  assert (A : at_cells (fun nm mt => table name mt = [] /\ mt_name mt = nm) c).
  { intros i nm x E1 E2. destruct (Forall2_nth_r _ _ _ CL i x E2) as (x0 & E0 & L0). destruct (M3 i x0 E0) as (nm' & En & ->).
    rewrite F2, En in E1. injection E1 as <-. destruct L0 as (L1 & L2 & L3 & L4 & L5 & L6 & L7 & L8 & L9 & L10). split.
    - unfold table. rewrite L5, L6, L7, L8, L9, L10. cbn.
      repeat (match goal with |- context [if ?b then _ else _] => destruct b end); reflexivity.
    - exact L1. }
  destruct (readSolverInputs_keeps lines _ name Hname (in_solvers c) c d R Hd) as (_ & GV & _).
  specialize (GV (ex_intro _ k (conj Kk Hr))).
  unfold in_mesh in Em. rewrite P1 in Em. fold (in_mesh d) in Em.
  destruct (Forall2_nth_r _ _ _ D3' m mt Em) as (mt0 & E0 & N0).
  assert (exists nm, nth_error (in_map c) m = Some nm) as [nm En].
  { destruct (Forall2_nth_r _ _ _ CL m mt0 E0) as (x0 & E1 & _). destruct (M3 m x0 E1) as (nm & En & _). rewrite <- F2 in En. eauto. }
  destruct (A m nm mt0 En E0) as [_ An]. rewrite N0, An.
  apply (GV ltac:(intros i x y I1 I2; left; exact (proj1 (A i x y I1 I2))) m nm mt); [|exact Em].
  destruct D1 as (_ & D1 & _). rewrite D1. exact En.
Qed.
End Reading.
