(* Lemmas on the text part of the input reader: searching, words, lines. *)
From Coq Require Import String Ascii ZArith List Bool Lia Arith.
From Verif Require Import Base BaseLemmas ModelText ProofsText ModelInput.
Import ListNotations.
Local Open Scope string_scope.
Local Open Scope Z_scope.

(* ---------- find ---------- *)

Lemma substring_0_prefix (m : nat) (s : string) : exists b, s = substring 0 m s ++ b.
Proof.
  revert m. induction s as [|c s IH]; intros m; [exists ""; destruct m; reflexivity|].
  destruct m as [|m]; [exists (String c s); reflexivity|].
  destruct (IH m) as [b E]. exists b. cbn. rewrite <- E. reflexivity.
Qed.
Lemma substring_split (n m : nat) (s : string) : exists a b, s = a ++ substring n m s ++ b.
Proof.
  revert n m. induction s as [|c s IH]; intros n m.
  - exists "", "". destruct n, m; reflexivity.
  - destruct n as [|n].
    + destruct (substring_0_prefix m (String c s)) as [b E]. exists "", b. exact E.
    + destruct (IH n m) as (a & b & E). exists (String c a), b. cbn. rewrite <- E. reflexivity.
Qed.
Lemma substring_middle (a k b : string) : substring (String.length a) (String.length k) (a ++ k ++ b) = k.
Proof. induction a as [|x a IH]; cbn; [apply substring_prefix|exact IH]. Qed.

Lemma contains_spec (key s : string) : contains key s = true <-> exists a b, s = a ++ key ++ b.
Proof.
  unfold contains. split.
  - destruct (index 0 key s) as [m|] eqn:E; [intros _|discriminate].
    apply index_correct1 in E. destruct (substring_split m (String.length key) s) as (a & b & H).
    rewrite E in H. eauto.
  - intros (a & b & ->). destruct (index 0 key (a ++ key ++ b)) eqn:E; [reflexivity|].
    destruct (String.eqb_spec key "") as [->|Hk].
    + exfalso. destruct (a ++ "" ++ b); discriminate E.
    + exfalso. eapply (index_correct3 0 (String.length a)); [exact E|exact Hk|lia|apply substring_middle].
Qed.

Lemma contains_app_l key a b : contains key a = true -> contains key (a ++ b) = true.
Proof.
  rewrite !contains_spec. intros (x & y & ->). exists x, (y ++ b). rewrite !append_assoc. reflexivity.
Qed.
Lemma contains_app_r key a b : contains key b = true -> contains key (a ++ b) = true.
Proof.
  rewrite !contains_spec. intros (x & y & ->). exists (a ++ x), y. rewrite !append_assoc. reflexivity.
Qed.
Lemma contains_self key : contains key key = true.
Proof. apply contains_spec. exists "", "". cbn. rewrite append_empty_r. reflexivity. Qed.
Lemma contains_trans a b c : contains a b = true -> contains b c = true -> contains a c = true.
Proof.
  rewrite !contains_spec. intros (x & y & ->) (u & v & ->). exists (u ++ x), (y ++ v).
  rewrite !append_assoc. reflexivity.
Qed.

(* ---------- lower ---------- *)

Lemma code_lt c : (code c < 256)%nat.
Proof. apply nat_ascii_bounded. Qed.
Lemma tolower_idem c : tolower (tolower c) = tolower c.
Proof.
  unfold tolower. destruct (between 65 90 c) eqn:E; [|rewrite E; reflexivity].
  unfold between in *. unfold code in *. apply andb_true_iff in E. destruct E as [E1 E2].
  apply Nat.leb_le in E1, E2. rewrite nat_ascii_embedding by lia.
  replace (Nat.leb (nat_of_ascii c + 32) 90) with false; [rewrite andb_false_r; reflexivity|].
  symmetry. apply Nat.leb_gt. lia.
Qed.
Lemma tolower_isspace c : isspace (tolower c) = isspace c.
Proof.
  unfold tolower. destruct (between 65 90 c) eqn:E; [|reflexivity].
  unfold isspace, between, code in *. apply andb_true_iff in E. destruct E as [E1 E2].
  apply Nat.leb_le in E1, E2. rewrite nat_ascii_embedding by lia.
  rewrite !(proj2 (Nat.leb_le 9 _)) by lia. rewrite !(proj2 (Nat.leb_gt _ 13)) by lia.
  rewrite !(proj2 (Nat.eqb_neq _ 32)) by lia. reflexivity.
Qed.
Lemma code_inj a b : code a = code b -> a = b.
Proof. intros H. rewrite <- (ascii_nat_embedding a), <- (ascii_nat_embedding b). unfold code in H. rewrite H. reflexivity. Qed.
Lemma eqb_code a b : Ascii.eqb a b = Nat.eqb (code a) (code b).
Proof.
  destruct (Ascii.eqb_spec a b) as [->|H]; [rewrite Nat.eqb_refl; reflexivity|].
  symmetry. apply Nat.eqb_neq. intros E. apply H, code_inj, E.
Qed.
Lemma tolower_percent c : Ascii.eqb (tolower c) "%" = Ascii.eqb c "%".
Proof.
  rewrite !eqb_code. change (code "%") with 37%nat. unfold tolower.
  destruct (between 65 90 c) eqn:E; [|reflexivity].
  unfold between, code in *. apply andb_true_iff in E. destruct E as [E1 E2].
  apply Nat.leb_le in E1, E2. rewrite nat_ascii_embedding by lia.
  rewrite !(proj2 (Nat.eqb_neq _ 37)) by lia. reflexivity.
Qed.
Lemma lower_idem s : lower (lower s) = lower s.
Proof. induction s as [|c s IH]; cbn; [reflexivity|]. rewrite tolower_idem, IH. reflexivity. Qed.
Lemma lower_app a b : lower (a ++ b) = lower a ++ lower b.
Proof. induction a as [|c a IH]; cbn; [reflexivity|]. rewrite IH. reflexivity. Qed.
Lemma lower_length a : String.length (lower a) = String.length a.
Proof. induction a as [|c a IH]; cbn; [reflexivity|]. rewrite IH. reflexivity. Qed.
Lemma lower_front s : is_comment (lower s) = is_comment s.
Proof. unfold is_comment. destruct s as [|c s]; [reflexivity|]. cbn [front lower]. apply tolower_percent. Qed.
Lemma before_percent_lower s : before_percent (lower s) = lower (before_percent s).
Proof.
  induction s as [|c s IH]; cbn; [reflexivity|]. rewrite tolower_percent.
  destruct (Ascii.eqb c "%"); [reflexivity|]. cbn. rewrite IH. reflexivity.
Qed.
Lemma words_acc_lower s : forall w, words_acc (lower w) (lower s) = map lower (words_acc w s).
Proof.
  induction s as [|c s IH]; intros w; cbn [lower words_acc].
  - destruct w; reflexivity.
  - rewrite tolower_isspace. destruct (isspace c).
    + destruct w as [|x w].
      * exact (IH "").
      * cbn [lower map]. f_equal. exact (IH "").
    + rewrite <- IH, lower_app. reflexivity.
Qed.
Lemma words_lower s : words (lower s) = map lower (words s).
Proof. exact (words_acc_lower s ""). Qed.
Lemma splitLine_lower s : splitLine (lower s) = map lower (splitLine s).
Proof. unfold splitLine. rewrite before_percent_lower. apply words_lower. Qed.

(* ---------- words ---------- *)

Definition blank (s : string) : Prop := all_of isspace s = true.
Definition solid (s : string) : Prop := free isspace s.

(* ws are the maximal runs of non blank characters of s, in order *)
Inductive word_split : string -> list string -> Prop :=
| split_none s : blank s -> word_split s []
| split_word b w rest ws :
    blank b -> solid w -> w <> "" ->
    (rest = "" \/ exists c r, rest = String c r /\ isspace c = true) ->
    word_split rest ws -> word_split (b ++ w ++ rest) (w :: ws).

Lemma words_acc_solid w : forall acc rest, solid w -> words_acc acc (w ++ rest) = words_acc (acc ++ w) rest.
Proof.
  induction w as [|c w IH]; intros acc rest H; cbn.
  - rewrite append_empty_r. reflexivity.
  - unfold solid, free in H. cbn in H. apply andb_true_iff in H. destruct H as [H1 H2].
    apply negb_true_iff in H1. rewrite H1, (IH _ _ H2), append_assoc. reflexivity.
Qed.
Lemma words_acc_blank b : forall rest, blank b -> words_acc "" (b ++ rest) = words_acc "" rest.
Proof.
  induction b as [|c b IH]; intros rest H; cbn; [reflexivity|].
  unfold blank in H. cbn in H. apply andb_true_iff in H. destruct H as [H1 H2].
  rewrite H1. apply IH, H2.
Qed.
Lemma words_acc_flush w rest : w <> "" -> (rest = "" \/ exists c r, rest = String c r /\ isspace c = true) ->
  words_acc w rest = w :: words_acc "" rest.
Proof.
  intros Hw [->|(c & r & -> & Hc)]; cbn; [|rewrite Hc]; destruct w; try congruence; reflexivity.
Qed.
Lemma words_of_split s ws : word_split s ws -> words s = ws.
Proof.
  induction 1 as [s H|b w rest ws Hb Hw Hn Hr _ IH].
  - unfold words. rewrite <- (append_empty_r s), words_acc_blank by exact H. reflexivity.
  - unfold words in *. rewrite words_acc_blank by exact Hb. rewrite words_acc_solid by exact Hw.
    cbn [append]. rewrite words_acc_flush by assumption. rewrite IH. reflexivity.
Qed.
Lemma word_split_cons_blank c s ws : isspace c = true -> word_split s ws -> word_split (String c s) ws.
Proof.
  intros Hc H. destruct H as [s H|b w rest ws Hb Hw Hn Hr H].
  - apply split_none. unfold blank. cbn. rewrite Hc. exact H.
  - change (String c (b ++ w ++ rest)) with (String c b ++ w ++ rest).
    apply split_word; try assumption. unfold blank. cbn. rewrite Hc. exact Hb.
Qed.
Lemma word_split_exists s : exists ws, word_split s ws.
Proof.
  induction s as [|c s [ws IH]]; [exists []; apply split_none; reflexivity|].
  destruct (isspace c) eqn:E.
  - exists ws. apply word_split_cons_blank; assumption.
  - assert (Hs : solid (String c "")) by (unfold solid, free; cbn; rewrite E; reflexivity).
    inversion IH as [s' Hb|b w rest ws' Hb Hw Hn Hr Hsp]; subst.
    + exists [String c ""]. change (String c s) with ("" ++ String c "" ++ s).
      apply split_word; try assumption; try reflexivity; [discriminate|].
      destruct s as [|d s]; [left; reflexivity|right]. exists d, s. split; [reflexivity|].
      unfold blank in Hb. cbn in Hb. apply andb_true_iff in Hb. tauto.
    + destruct b as [|d b].
      * exists (String c w :: ws'). cbn [append]. change (String c (w ++ rest)) with ("" ++ String c w ++ rest).
        apply split_word; try assumption; try reflexivity; [|discriminate].
        unfold solid, free in *. cbn. rewrite E. exact Hw.
      * exists (String c "" :: w :: ws').
        change (String c (String d b ++ w ++ rest)) with ("" ++ String c "" ++ (String d b ++ w ++ rest)).
        apply split_word; try assumption; try reflexivity; [discriminate|].
        right. exists d, (b ++ w ++ rest). split; [reflexivity|].
        unfold blank in Hb. cbn in Hb. apply andb_true_iff in Hb. tauto.
Qed.
Lemma words_spec s ws : words s = ws <-> word_split s ws.
Proof.
  split; [|apply words_of_split]. intros <-. destruct (word_split_exists s) as [ws H].
  rewrite (words_of_split _ _ H). exact H.
Qed.
Lemma word_split_words s ws : word_split s ws -> Forall (fun w => w <> "" /\ solid w) ws.
Proof. induction 1; constructor; auto. Qed.
Lemma words_solid s : Forall (fun w => w <> "" /\ solid w) (words s).
Proof. apply (word_split_words s), words_spec. reflexivity. Qed.

(* ---------- comments ---------- *)

Definition percent_free (s : string) : Prop := free (fun c => Ascii.eqb c "%") s.
Lemma before_percent_free s : percent_free s -> before_percent s = s.
Proof.
  unfold percent_free, free. induction s as [|c s IH]; cbn; [reflexivity|].
  rewrite andb_true_iff, negb_true_iff. intros [-> H]. rewrite (IH H). reflexivity.
Qed.
Lemma before_percent_app a b : percent_free a -> before_percent (a ++ String "%" b) = a.
Proof.
  unfold percent_free, free. induction a as [|c a IH]; cbn; [reflexivity|].
  rewrite andb_true_iff, negb_true_iff. intros [-> H]. rewrite (IH H). reflexivity.
Qed.
Lemma percent_split s : (percent_free s) \/ exists a b, percent_free a /\ s = a ++ String "%" b.
Proof.
  unfold percent_free, free. induction s as [|c s IH]; [left; reflexivity|].
  destruct (Ascii.eqb_spec c "%") as [->|H].
  - right. exists "", s. split; reflexivity.
  - destruct IH as [IH|(a & b & Ha & ->)].
    + left. cbn. rewrite IH. destruct (Ascii.eqb_spec c "%"); [contradiction|reflexivity].
    + right. exists (String c a), b. split; [|reflexivity].
      cbn. rewrite Ha. destruct (Ascii.eqb_spec c "%"); [contradiction|reflexivity].
Qed.
Lemma before_percent_prefix s : exists b, s = before_percent s ++ b.
Proof.
  induction s as [|c s [b IH]]; [exists ""; reflexivity|]. cbn.
  destruct (Ascii.eqb c "%"); [exists (String c s); reflexivity|]. exists b. cbn. rewrite <- IH. reflexivity.
Qed.

(* ---------- lines ---------- *)

Definition newline : ascii := ascii_of_nat 10.
Definition line_free (s : string) : Prop := free (fun c => Nat.eqb (code c) 10) s.
(* every line followed by a newline *)
Fixpoint unlines (l : list string) : string :=
  match l with [] => "" | x :: l' => x ++ String newline (unlines l') end.

Lemma getlines_acc_line x : forall w rest, line_free x ->
  getlines_acc w (x ++ String newline rest) = (w ++ x) :: getlines_acc "" rest.
Proof.
  induction x as [|c x IH]; intros w rest H; cbn [append getlines_acc].
  - rewrite append_empty_r. reflexivity.
  - unfold line_free, free in H. cbn in H. apply andb_true_iff in H. destruct H as [H1 H2].
    apply negb_true_iff in H1. rewrite H1, (IH _ _ H2), append_assoc. reflexivity.
Qed.
Lemma getlines_unlines l : Forall line_free l -> getlines (unlines l) = l.
Proof.
  unfold getlines. induction 1 as [|x l Hx Hl IH]; cbn; [reflexivity|].
  rewrite getlines_acc_line by exact Hx. cbn. rewrite IH. reflexivity.
Qed.
Lemma getlines_acc_free s : forall w, line_free w -> Forall line_free (getlines_acc w s).
Proof.
  induction s as [|c s IH]; intros w H; cbn.
  - destruct w; [constructor|]. constructor; [exact H|constructor].
  - destruct (Nat.eqb (code c) 10) eqn:E.
    + constructor; [exact H|]. apply IH. reflexivity.
    + apply IH. apply free_app. split; [exact H|]. unfold free. cbn. rewrite E. reflexivity.
Qed.
Lemma getlines_free s : Forall line_free (getlines s).
Proof. apply getlines_acc_free. reflexivity. Qed.

(* ---------- normalisation of a line ---------- *)

(* no two blanks in a row *)
Definition squeezed (s : string) : Prop :=
  forall a c d b, s = a ++ String c (String d b) -> isspace c && isspace d = false.

Lemma words_erase_leading s : words (erase_leading s) = words s.
Proof.
  induction s as [|c s IH]; [reflexivity|].
  destruct (Ascii.eqb_spec c " ") as [->|H].
  - cbn [erase_leading]. rewrite IH. reflexivity.
  - replace (erase_leading (String c s)) with (String c s); [reflexivity|].
    cbn. destruct c as [[] [] [] [] [] [] [] []]; try reflexivity. congruence.
Qed.
Lemma erase_leading_id c s : c <> " "%char -> erase_leading (String c s) = String c s.
Proof. intros H. cbn. destruct c as [[] [] [] [] [] [] [] []]; try reflexivity. congruence. Qed.
Lemma erase_leading_front s : erase_leading s = "" \/ exists c r, erase_leading s = String c r /\ c <> " "%char.
Proof.
  induction s as [|c s IH]; [left; reflexivity|].
  destruct (Ascii.eqb_spec c " ") as [->|H]; [exact IH|].
  right. exists c, s. split; [apply erase_leading_id, H|exact H].
Qed.

Lemma words_unique s : forall kept w,
  (isspace kept = true -> w = "") -> words_acc w (unique_from kept s) = words_acc w s.
Proof.
  induction s as [|c s IH]; intros kept w H; cbn [unique_from]; [reflexivity|].
  destruct (isspace kept) eqn:K, (isspace c) eqn:C; cbn [andb].
  - rewrite (H eq_refl). cbn. rewrite C. apply IH. reflexivity.
  - cbn. rewrite C. apply IH. congruence.
  - cbn. rewrite C. destruct w; [|f_equal]; apply IH; reflexivity.
  - cbn. rewrite C. apply IH. congruence.
Qed.
Lemma words_removeExtraSpaces s : words (removeExtraSpaces s) = words s.
Proof.
  destruct s as [|c s]; [reflexivity|]. unfold words. cbn.
  destruct (isspace c) eqn:C; apply words_unique; congruence.
Qed.

Lemma unique_squeezed s : forall kept, squeezed (String kept (unique_from kept s)).
Proof.
  induction s as [|c s IH]; intros kept; cbn [unique_from].
  - intros [|x [|y a]] c d b H; cbn in H; injection H; intros; discriminate.
  - destruct (isspace kept && isspace c) eqn:E; [apply IH|].
    intros [|x a] c' d b H; cbn in H; injection H as H2 H1.
    + subst. exact E.
    + apply (IH c a c' d b). exact H1.
Qed.
Lemma removeExtraSpaces_squeezed s : squeezed (removeExtraSpaces s).
Proof.
  destruct s as [|c s]; [|apply unique_squeezed]. intros [|x a] c d b H; discriminate H.
Qed.
Lemma unique_id s : forall kept, squeezed (String kept s) -> unique_from kept s = s.
Proof.
  induction s as [|c s IH]; intros kept H; cbn; [reflexivity|].
  pose proof (H "" kept c s eq_refl) as E. rewrite E. rewrite IH; [reflexivity|].
  intros a x y b Hs. apply (H (String kept a) x y b). cbn. rewrite Hs. reflexivity.
Qed.
Lemma removeExtraSpaces_id s : squeezed s -> removeExtraSpaces s = s.
Proof. destruct s as [|c s]; cbn; intros H; [reflexivity|]. rewrite unique_id by exact H. reflexivity. Qed.

Definition normal_line (l : string) : string := removeExtraSpaces (erase_leading l).
Lemma normal_front l : erase_leading (normal_line l) = normal_line l.
Proof.
  unfold normal_line. destruct (erase_leading_front l) as [->|(c & r & -> & Hc)]; [reflexivity|].
  cbn [removeExtraSpaces]. apply erase_leading_id, Hc.
Qed.
Lemma normal_idem l : normal_line (normal_line l) = normal_line l.
Proof.
  unfold normal_line at 1. rewrite normal_front. apply removeExtraSpaces_id, removeExtraSpaces_squeezed.
Qed.
Lemma free_erase p s : free p s -> free p (erase_leading s).
Proof.
  induction s as [|c s IH]; intros H; [exact H|].
  destruct (Ascii.eqb_spec c " ") as [->|Hc].
  - cbn [erase_leading]. apply IH. unfold free in *. cbn in H. apply andb_true_iff in H. tauto.
  - rewrite erase_leading_id by exact Hc. exact H.
Qed.
Lemma free_unique p s : forall k, free p s -> free p (unique_from k s).
Proof.
  unfold free. induction s as [|c s IH]; intros k; cbn; [auto|]. rewrite andb_true_iff. intros [H1 H2].
  destruct (isspace k && isspace c); [apply IH, H2|]. cbn. rewrite H1. apply IH, H2.
Qed.
Lemma free_normal p s : free p s -> free p (normal_line s).
Proof.
  intros H. apply free_erase in H. unfold normal_line. destruct (erase_leading s) as [|c r]; [exact H|].
  cbn [removeExtraSpaces]. unfold free in *. cbn in *. apply andb_true_iff in H. destruct H as [-> H].
  cbn. apply free_unique, H.
Qed.

(* ---------- keyword lookup ---------- *)

(* the lines that are not comment lines *)
Definition data_lines (lines : list string) : list string := filter (fun l => negb (is_comment l)) lines.
(* key occurs in l, ignoring case *)
Definition mentions (key l : string) : Prop := exists a b, lower l = a ++ lower key ++ b.
Lemma mentions_contains key l : mentions key l <-> contains (lower key) (lower l) = true.
Proof. unfold mentions. rewrite contains_spec. reflexivity. Qed.

Lemma findKeyword_loop_data key low top lines : forall n,
  findKeyword_loop key low top lines n = findKeyword_loop key low top (data_lines lines) n.
Proof.
  induction lines as [|l lines IH]; intros n; cbn; [reflexivity|].
  destruct (is_comment l) eqn:E; cbn; [apply IH|]. rewrite E. destruct (_ && _); [reflexivity|apply IH].
Qed.
Lemma findKeyword_data key low top optional lines :
  findKeyword lines key low top optional = findKeyword (data_lines lines) key low top optional.
Proof. unfold findKeyword. rewrite findKeyword_loop_data. reflexivity. Qed.

(* x is the first line of l in the window mentioning key, at position k *)
Definition first_in_window (key : string) (low top : Z) (l : list string) (k : nat) (x : string) : Prop :=
  nth_error l k = Some x /\ mentions key x /\ low <= Z.of_nat k <= top /\
  forall i y, (i < k)%nat -> nth_error l i = Some y -> low <= Z.of_nat i <= top -> ~ mentions key y.

Lemma findKeyword_loop_spec key low top l : (forall x, In x l -> is_comment x = false) -> forall n,
  match findKeyword_loop (lower key) low top l (Z.of_nat n) with
  | Some r => exists k x, r = lower x /\ nth_error l k = Some x /\ mentions key x /\
                low <= Z.of_nat (n + k) <= top /\
                forall i y, (i < k)%nat -> nth_error l i = Some y -> low <= Z.of_nat (n + i) <= top -> ~ mentions key y
  | None => forall i y, nth_error l i = Some y -> low <= Z.of_nat (n + i) <= top -> ~ mentions key y
  end.
Proof.
  induction l as [|x l IH]; intros Hc n; cbn [findKeyword_loop].
  - intros [|i] y H; discriminate H.
  - rewrite (Hc x (or_introl eq_refl)).
    destruct (contains (lower key) (lower x) && (low <=? Z.of_nat n) && (Z.of_nat n <=? top)) eqn:E.
    + apply andb_true_iff in E. destruct E as [E E3]. apply andb_true_iff in E. destruct E as [E1 E2].
      apply Z.leb_le in E2, E3. exists 0%nat, x. rewrite Nat.add_0_r.
      repeat split; try assumption; [apply mentions_contains, E1|]. intros i y Hi. lia.
    + assert (Hx : low <= Z.of_nat n <= top -> ~ mentions key x).
      { intros Hw Hm. apply mentions_contains in Hm. rewrite Hm in E.
        rewrite (proj2 (Z.leb_le _ _)), (proj2 (Z.leb_le _ _)) in E by lia. discriminate E. }
      replace (Z.of_nat n + 1) with (Z.of_nat (S n)) by lia.
      specialize (IH (fun y Hy => Hc y (or_intror Hy)) (S n)).
      destruct (findKeyword_loop (lower key) low top l (Z.of_nat (S n))) as [r|].
      * destruct IH as (k & y & Hr & Hk & Hm & Hw & Hf). exists (S k), y.
        replace (n + S k)%nat with (S n + k)%nat by lia. repeat split; try assumption; try lia.
        intros [|i] z Hi Hz Hwz.
        -- injection Hz as <-. apply Hx. replace (n + 0)%nat with n in Hwz by lia. exact Hwz.
        -- apply (Hf i z); [lia|exact Hz|]. replace (S n + i)%nat with (n + S i)%nat by lia. exact Hwz.
      * intros [|i] z Hz Hwz.
        -- injection Hz as <-. apply Hx. replace (n + 0)%nat with n in Hwz by lia. exact Hwz.
        -- apply (IH i z Hz). replace (S n + i)%nat with (n + S i)%nat by lia. exact Hwz.
Qed.
Lemma data_no_comment lines x : In x (data_lines lines) -> is_comment x = false.
Proof. unfold data_lines. rewrite filter_In. intros [_ H]. apply negb_true_iff, H. Qed.

Lemma first_unique key low top l k x k' x' :
  first_in_window key low top l k x -> first_in_window key low top l k' x' -> k = k' /\ x = x'.
Proof.
  intros (H1 & H2 & H3 & H4) (H1' & H2' & H3' & H4').
  assert (k = k').
  { destruct (Nat.lt_trichotomy k k') as [H|[H|H]]; [|exact H|].
    - exfalso. apply (H4' k x H H1 H3 H2).
    - exfalso. apply (H4 k' x' H H1' H3' H2'). }
  subst k'. split; [reflexivity|]. rewrite H1 in H1'. injection H1'. auto.
Qed.
Lemma findKeyword_found lines key low top optional k x :
  first_in_window key low top (data_lines lines) k x -> findKeyword lines key low top optional = Ok (lower x).
Proof.
  intros H. rewrite findKeyword_data. unfold findKeyword.
  pose proof (findKeyword_loop_spec key low top (data_lines lines) (data_no_comment lines) 0) as S.
  change (Z.of_nat 0) with 0 in S. destruct (findKeyword_loop (lower key) low top (data_lines lines) 0) as [r|].
  - destruct S as (k' & x' & -> & A & B & C & D). cbn in C.
    destruct (first_unique key low top _ k x k' x' H) as [_ <-]; [|reflexivity].
    split; [exact A|]. split; [exact B|]. split; [exact C|exact D].
  - exfalso. destruct H as (A & B & C & D). apply (S k x A C B).
Qed.
Lemma findKeyword_missing lines key low top optional :
  (forall k x, ~ first_in_window key low top (data_lines lines) k x) ->
  findKeyword lines key low top optional =
    if optional then Ok "" else Exit (lower key ++ " is missing from the input!").
Proof.
  intros H. rewrite findKeyword_data. unfold findKeyword.
  pose proof (findKeyword_loop_spec key low top (data_lines lines) (data_no_comment lines) 0) as S.
  change (Z.of_nat 0) with 0 in S. destruct (findKeyword_loop (lower key) low top (data_lines lines) 0) as [r|]; [|reflexivity].
  exfalso. destruct S as (k' & x' & _ & A & B & C & D). apply (H k' x').
  split; [exact A|]. split; [exact B|]. split; [exact C|exact D].
Qed.
Lemma findKeyword_cases lines key low top :
  (exists k x, first_in_window key low top (data_lines lines) k x) \/
  (forall k x, ~ first_in_window key low top (data_lines lines) k x).
Proof.
  pose proof (findKeyword_loop_spec key low top (data_lines lines) (data_no_comment lines) 0) as S.
  change (Z.of_nat 0) with 0 in S. destruct (findKeyword_loop (lower key) low top (data_lines lines) 0) as [r|].
  - left. destruct S as (k' & x' & _ & A & B & C & D). exists k', x'.
    split; [exact A|]. split; [exact B|]. split; [exact C|exact D].
  - right. intros k x (A & B & C & D). apply (S k x A C B).
Qed.

(* ---------- blocks ---------- *)

Lemma findBlock_loop_data k1 k2 lines : forall n s e,
  findBlock_loop k1 k2 lines n s e = findBlock_loop k1 k2 (data_lines lines) n s e.
Proof.
  induction lines as [|l lines IH]; intros n s e; cbn; [reflexivity|].
  destruct (is_comment l) eqn:E; cbn; [apply IH|]. rewrite E. apply IH.
Qed.
Lemma findBlock_loop_snoc k1 k2 l x : (forall y, In y l -> is_comment y = false) -> is_comment x = false ->
  forall n s e,
  findBlock_loop k1 k2 (l ++ [x])%list n s e =
    let '(s', e') := findBlock_loop k1 k2 l n s e in
    (if contains (k1 ++ " " ++ k2) (lower x) then n + Z.of_nat (length l) else s',
     if contains k1 (lower x) then (if s' =? 0 then umax else n + Z.of_nat (length l)) else e').
Proof.
  induction l as [|y l IH]; intros Hl Hx n s e.
  - cbn. rewrite Hx. rewrite Z.add_0_r. reflexivity.
  - cbn [app findBlock_loop]. rewrite (Hl y (or_introl eq_refl)).
    rewrite IH by (auto; intros; apply Hl; right; assumption).
    replace (n + 1 + Z.of_nat (length l)) with (n + Z.of_nat (length (y :: l))) by (cbn; lia).
    reflexivity.
Qed.

Definition heading (k1 k2 : string) : string := k1 ++ " " ++ k2.

Lemma nth_error_snoc {A} (l : list A) x i y :
  nth_error (l ++ [x])%list i = Some y -> (nth_error l i = Some y /\ (i < length l)%nat) \/ (i = length l /\ x = y).
Proof.
  intros H. destruct (Nat.lt_ge_cases i (length l)) as [L|L].
  - left. rewrite nth_error_app1 in H by exact L. auto.
  - right. rewrite nth_error_app2 in H by exact L.
    destruct (i - length l)%nat as [|k] eqn:E; cbn in H; [injection H as ->; split; [lia|reflexivity]|].
    destruct k; discriminate H.
Qed.

(* What findBlock computes: the last heading line, or 0; and the last line
   mentioning the block word if a heading other than line 0 precedes it, the
   largest number otherwise, 0 when no line mentions the word. *)
Definition block_start (k1 k2 : string) (l : list string) (s : Z) : Prop :=
  (s = 0 \/ exists x, nth_error l (Z.to_nat s) = Some x /\ mentions (heading k1 k2) x) /\ 0 <= s /\
  forall i y, nth_error l i = Some y -> mentions (heading k1 k2) y -> Z.of_nat i <= s.
Definition block_stop (k1 k2 : string) (l : list string) (e : Z) : Prop :=
  ((forall i y, nth_error l i = Some y -> ~ mentions k1 y) /\ e = 0) \/
  (exists j x, nth_error l j = Some x /\ mentions k1 x /\
     (forall i y, (j < i)%nat -> nth_error l i = Some y -> ~ mentions k1 y) /\
     (((forall i y, (0 < i < j)%nat -> nth_error l i = Some y -> ~ mentions (heading k1 k2) y) /\ e = umax) \/
      ((exists i y, (0 < i < j)%nat /\ nth_error l i = Some y /\ mentions (heading k1 k2) y) /\ e = Z.of_nat j))).

Lemma mentions_dec key x : {mentions key x} + {~ mentions key x}.
Proof.
  destruct (contains (lower key) (lower x)) eqn:E.
  - left. apply mentions_contains, E.
  - right. intros H. apply mentions_contains in H. congruence.
Qed.
Lemma contains_false key x : ~ mentions key x -> contains (lower key) (lower x) = false.
Proof. intros H. destruct (contains _ _) eqn:E; [|reflexivity]. destruct H. apply mentions_contains, E. Qed.

Lemma findBlock_spec lines k1 k2 :
  block_start k1 k2 (data_lines lines) (fst (findBlock lines k1 k2)) /\
  block_stop k1 k2 (data_lines lines) (snd (findBlock lines k1 k2)).
Proof.
  unfold findBlock. rewrite findBlock_loop_data.
  generalize (data_no_comment lines). generalize (data_lines lines). clear lines. intros l.
  induction l as [|x l IH] using rev_ind; intros Hc.
  - cbn. split.
    + split; [left; reflexivity|]. split; [lia|]. intros [|i] y H; discriminate H.
    + left. split; [|reflexivity]. intros [|i] y H; discriminate H.
  - assert (Hl : forall y, In y l -> is_comment y = false) by (intros; apply Hc, in_or_app; left; assumption).
    assert (Hx : is_comment x = false) by (apply Hc, in_or_app; right; left; reflexivity).
    specialize (IH Hl). rewrite findBlock_loop_snoc by assumption.
    destruct (findBlock_loop (lower k1) (lower k2) l 0 0 0) as [s e]. cbn [fst snd] in *.
    destruct IH as [[S1 [S0 S2]] E1].
    assert (Eh : lower k1 ++ " " ++ lower k2 = lower (heading k1 k2)).
    { unfold heading. rewrite !lower_app. reflexivity. }
    rewrite Eh, Z.add_0_l. split.
    + (* start *)
      destruct (mentions_dec (heading k1 k2) x) as [M|M].
      * rewrite (proj1 (mentions_contains _ _) M). split.
        { right. exists x. rewrite Nat2Z.id, nth_error_app2, Nat.sub_diag by lia. split; [reflexivity|exact M]. }
        split; [lia|]. intros i y Hy _. apply nth_error_snoc in Hy. destruct Hy as [[_ Hy]|[-> _]]; lia.
      * rewrite (contains_false _ _ M). split.
        { destruct S1 as [S1|(z & Hz & Mz)]; [left; exact S1|right]. exists z. split; [|exact Mz].
          rewrite nth_error_app1; [exact Hz|]. apply nth_error_Some. rewrite Hz. discriminate. }
        split; [exact S0|]. intros i y Hy My. apply nth_error_snoc in Hy.
        destruct Hy as [[Hy _]|[_ ->]]; [apply (S2 i y Hy My)|contradiction].
    + (* stop *)
      destruct (mentions_dec k1 x) as [M|M].
      * rewrite (proj1 (mentions_contains _ _) M). right. exists (length l), x.
        split; [rewrite nth_error_app2, Nat.sub_diag by lia; reflexivity|]. split; [exact M|]. split.
        { intros i y Hi Hy. apply nth_error_snoc in Hy. lia. }
        destruct (Z.eqb_spec s 0) as [->|Hs].
        -- left. split; [|reflexivity]. intros i y Hi Hy My. apply nth_error_snoc in Hy.
           destruct Hy as [[Hy _]|[-> _]]; [|lia]. specialize (S2 i y Hy My). lia.
        -- right. split; [|reflexivity]. destruct S1 as [S1|(z & Hz & Mz)]; [contradiction|].
           assert (L : (Z.to_nat s < length l)%nat) by (apply nth_error_Some; rewrite Hz; discriminate).
           exists (Z.to_nat s), z. split; [lia|]. split; [|exact Mz]. rewrite nth_error_app1 by exact L. exact Hz.
      * rewrite (contains_false _ _ M). destruct E1 as [[E1 ->]|(j & z & Hz & Mz & Hj & E1)].
        -- left. split; [|reflexivity]. intros i y Hy My. apply nth_error_snoc in Hy.
           destruct Hy as [[Hy _]|[_ ->]]; [apply (E1 i y Hy My)|contradiction].
        -- right. assert (L : (j < length l)%nat) by (apply nth_error_Some; rewrite Hz; discriminate).
           exists j, z. split; [rewrite nth_error_app1 by exact L; exact Hz|]. split; [exact Mz|]. split.
           { intros i y Hi Hy My. apply nth_error_snoc in Hy. destruct Hy as [[Hy _]|[_ ->]]; [apply (Hj i y Hi Hy My)|contradiction]. }
           destruct E1 as [[E1 ->]|[(i & y & Hi & Hy & My) ->]].
           ++ left. split; [|reflexivity]. intros i y Hi Hy My. rewrite nth_error_app1 in Hy by lia. apply (E1 i y Hi Hy My).
           ++ right. split; [|reflexivity]. exists i, y. split; [exact Hi|]. split; [|exact My]. rewrite nth_error_app1 by lia. exact Hy.
Qed.
Lemma heading_mentions k1 k2 x : mentions (heading k1 k2) x -> mentions k1 x.
Proof.
  intros (a & b & E). unfold heading in E. rewrite lower_app in E. exists a, (lower (" " ++ k2) ++ b).
  rewrite E, append_assoc. reflexivity.
Qed.
