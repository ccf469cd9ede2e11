(* Properties C01-C05 and C11: looking keywords up, splitting lines, material
   blocks and the classification of words. *)
From Coq Require Import String Ascii ZArith List Bool Lia Arith.
From Verif Require Import Base BaseLemmas ModelText ProofsText ModelInput ProofsInput.
Import ListNotations.
Local Open Scope string_scope.
Local Open Scope Z_scope.

(* ---------- C01 ---------- *)

(* data_lines keeps exactly the lines that do not start with %, in file order. *)
Lemma data_lines_spec lines x :
  In x (data_lines lines) <-> In x lines /\ ~ exists r, x = String "%" r.
Proof.
  unfold data_lines. rewrite filter_In. unfold is_comment. destruct x as [|c r]; cbn [front].
  - split; intros [H _]; split; auto; [intros [r E]; discriminate E].
  - destruct (Ascii.eqb_spec c "%") as [->|Hc]; cbn; split; intros [H1 H2]; split; auto; try discriminate.
    + destruct H2. exists r. reflexivity.
    + intros [r' E]. injection E as E _. contradiction.
Qed.

Theorem C01_keyword_lookup : forall lines key low top optional,
  (* the first data line of the window that mentions the keyword is returned *)
  (forall k x, nth_error (data_lines lines) k = Some x -> mentions key x -> low <= Z.of_nat k <= top ->
     (forall i y, (i < k)%nat -> nth_error (data_lines lines) i = Some y -> low <= Z.of_nat i <= top -> ~ mentions key y) ->
     findKeyword lines key low top optional = Ok (lower x)) /\
  (* and without such a line the program ends, or yields the empty string *)
  ((forall k x, nth_error (data_lines lines) k = Some x -> low <= Z.of_nat k <= top -> ~ mentions key x) ->
     findKeyword lines key low top optional =
       if optional then Ok "" else Exit (lower key ++ " is missing from the input!")).
Proof.
  intros lines key low top optional. split.
  - intros k x H1 H2 H3 H4. apply (findKeyword_found lines key low top optional k x). repeat split; tauto.
  - intros H. apply findKeyword_missing. intros k x (A & B & C & D). exact (H k x A C B).
Qed.
Print Assumptions C01_keyword_lookup.

(* The two cases are exhaustive, so nothing else can happen. *)
Theorem C01_total : forall lines key low top optional,
  (exists k x, nth_error (data_lines lines) k = Some x /\ mentions key x /\ low <= Z.of_nat k <= top /\
     (forall i y, (i < k)%nat -> nth_error (data_lines lines) i = Some y -> low <= Z.of_nat i <= top -> ~ mentions key y) /\
     findKeyword lines key low top optional = Ok (lower x)) \/
  ((forall k x, nth_error (data_lines lines) k = Some x -> low <= Z.of_nat k <= top -> ~ mentions key x) /\
     findKeyword lines key low top optional =
       if optional then Ok "" else Exit (lower key ++ " is missing from the input!")).
Proof.
  intros lines key low top optional. destruct (findKeyword_cases lines key low top) as [(k & x & H)|H].
  - left. exists k, x. pose proof (findKeyword_found lines key low top optional k x H) as E.
    destruct H as (A & B & C & D). tauto.
  - right. split; [|apply findKeyword_missing, H]. intros k x A C B.
    destruct (C01_keyword_lookup lines key low top optional) as [_ _].
    assert (P : forall n k x, (k < n)%nat -> nth_error (data_lines lines) k = Some x ->
                low <= Z.of_nat k <= top -> ~ mentions key x).
    { induction n as [|n IH]; intros k' x' Hk A' C' B'; [lia|]. apply (H k' x').
      split; [exact A'|]. split; [exact B'|]. split; [exact C'|].
      intros i y Hi Hy Hw. apply (IH i y); [lia|exact Hy|exact Hw]. }
    exact (P (S k) k x (Nat.lt_succ_diag_r k) A C B).
Qed.
Print Assumptions C01_total.
Example C01_example :
  findKeyword ["% Mesh in a comment"; "solvers heat"; "MESH 2 1.0 M1"; "mesh 3 2.0 m2"] "Mesh" 0 umax false = Ok "mesh 2 1.0 m1" /\
  findKeyword ["% Mesh in a comment"; "solvers heat"; "MESH 2 1.0 M1"; "mesh 3 2.0 m2"] "Mesh" 2 umax false = Ok "mesh 3 2.0 m2" /\
  findKeyword ["% plots"] "plots" 0 umax true = Ok "" /\
  findKeyword ["% plots"] "Plots" 0 umax false = Exit "plots is missing from the input!".
Proof. vm_compute. repeat split; reflexivity. Qed.

(* ---------- C02 ---------- *)

Theorem C02_normalisation : forall text lines, storeInput (Some text) = Ok lines ->
  Forall2 (fun raw line =>
    (* the same words *)
    (forall ws, word_split line ws <-> word_split raw ws) /\
    (* no two blanks in a row *)
    (forall a c d b, line = a ++ String c (String d b) -> ~ (isspace c = true /\ isspace d = true)) /\
    (* no leading space *)
    (forall r, line <> String " " r)) (getlines text) lines.
Proof.
  intros text lines H. injection H as <-. induction (getlines text) as [|raw l IH]; cbn; constructor; [|exact IH].
  fold (normal_line raw). split; [|split].
  - intros ws. rewrite <- !words_spec. unfold normal_line.
    rewrite words_removeExtraSpaces, words_erase_leading. reflexivity.
  - intros a c d b E [H1 H2]. pose proof (removeExtraSpaces_squeezed (erase_leading raw) a c d b E) as S.
    rewrite H1, H2 in S. discriminate S.
  - intros r E. pose proof (normal_front raw) as F. rewrite E in F.
    destruct (erase_leading_front (String " " r)) as [G|(c & t & G & Hc)]; rewrite G in F; [discriminate F|].
    injection F as F _. contradiction.
Qed.
Print Assumptions C02_normalisation.

(* Writing the stored lines back and reading them again changes nothing. *)
Theorem C02_idempotent : forall text lines, storeInput (Some text) = Ok lines ->
  storeInput (Some (unlines lines)) = Ok lines.
Proof.
  intros text lines H. injection H as <-. cbn. f_equal.
  rewrite getlines_unlines.
  - rewrite map_map. apply map_ext. intros l. apply normal_idem.
  - apply Forall_forall. intros x Hx. apply in_map_iff in Hx. destruct Hx as (raw & <- & Hr).
    apply (free_normal _ raw). pose proof (getlines_free text) as F. rewrite Forall_forall in F. exact (F raw Hr).
Qed.
Print Assumptions C02_idempotent.
Example C02_example :
  storeInput (Some (unlines ["   mesh   2  1.0 M1  "; ""; String "009" "  a"])) =
    Ok ["mesh 2 1.0 M1 "; ""; String "009" "a"].
Proof. reflexivity. Qed.

(* ---------- C03 ---------- *)

Theorem C03_inline_comment : forall data ws,
  free (fun c => Ascii.eqb c "%") data -> word_split data ws ->
  splitLine data = ws /\ forall comment, splitLine (data ++ "%" ++ comment) = ws.
Proof.
  intros data ws F W. apply words_spec in W. unfold splitLine. split.
  - rewrite before_percent_free by exact F. exact W.
  - intros c. cbn [append]. rewrite before_percent_app by exact F. exact W.
Qed.
Print Assumptions C03_inline_comment.
Example C03_example : splitLine "mesh 2 1.0 m1 % 3 regions % only one" = ["mesh"; "2"; "1.0"; "m1"].
Proof. reflexivity. Qed.
(* Every line falls under the theorem. *)
Lemma C03_covers : forall line, exists data, free (fun c => Ascii.eqb c "%") data /\
  (line = data \/ exists comment, line = data ++ "%" ++ comment).
Proof.
  intros line. destruct (percent_split line) as [H|(a & b & H & E)].
  - exists line. auto.
  - exists a. split; [exact H|right]. exists b. exact E.
Qed.

(* ---------- C05 ---------- *)

(* Whatever the keyword, the file and the first data line: a comment on that
   line naming the keyword makes the lookup return it. *)
Theorem C05_comment_selects_line_refuted : forall key first rest optional,
  is_comment first = false -> first <> "" ->
  findKeyword ((first ++ "% " ++ key) :: rest) key 0 umax optional = Ok (lower (first ++ "% " ++ key)).
Proof.
  intros key first rest optional H Hn.
  apply (findKeyword_found _ key 0 umax optional 0). unfold data_lines. cbn [filter].
  replace (is_comment (first ++ "% " ++ key)) with false.
  - cbn [negb]. split; [reflexivity|]. split; [|split; [unfold umax; cbn; lia|intros i y Hi; lia]].
    exists (lower (first ++ "% ")), "". rewrite append_empty_r, <- lower_app, append_assoc. reflexivity.
  - unfold is_comment in *. destruct first; [congruence|]. cbn in *. rewrite H. reflexivity.
Qed.
Print Assumptions C05_comment_selects_line_refuted.
(* Read the mesh of the same file without and with a remark on the first line. *)
Example C05_example :
  readManyParameters ["solvers heat"; "geometry slab"; "mesh 2 1.0 m1"] "mesh" false = Ok ["2"; "1.0"; "m1"] /\
  readManyParameters ["solvers heat % coarse mesh"; "geometry slab"; "mesh 2 1.0 m1"] "mesh" false = Ok ["heat"].
Proof. vm_compute. auto. Qed.

(* Two files with the same data before the comments select lines with the same
   words, when no comment of a data line makes it mention the keyword. *)
Definition same_data (key x y : string) : Prop :=
  before_percent x = before_percent y /\ is_comment x = is_comment y /\
  (mentions key x -> mentions key (before_percent x)) /\ (mentions key y -> mentions key (before_percent y)).
Lemma mentions_before key x : mentions key (before_percent x) -> mentions key x.
Proof.
  rewrite !mentions_contains. intros H. destruct (before_percent_prefix x) as [b E].
  rewrite E, lower_app. apply contains_app_l, H.
Qed.
Theorem C05_comments_partial : forall key lines lines' low top optional,
  Forall2 (same_data key) lines lines' ->
  match findKeyword lines key low top optional, findKeyword lines' key low top optional with
  | Ok l, Ok l' => splitLine l = splitLine l'
  | Exit a, Exit b => a = b
  | _, _ => False
  end.
Proof.
  intros key lines lines' low top optional H. unfold findKeyword.
  assert (G : forall n, match findKeyword_loop (lower key) low top lines n, findKeyword_loop (lower key) low top lines' n with
              | Some l, Some l' => splitLine l = splitLine l' | None, None => True | _, _ => False end).
  { induction H as [|x y l l' (E & C & Mx & My) Hl IH]; intros n; cbn; [exact I|].
    rewrite <- C. destruct (is_comment x); [apply IH|].
    assert (contains (lower key) (lower x) = contains (lower key) (lower y)) as ->.
    { apply eq_true_iff_eq. rewrite <- !mentions_contains. split; intros M; apply mentions_before.
      - rewrite <- E. apply Mx, M.
      - rewrite E. apply My, M. }
    destruct (_ && _ && _); [|apply IH].
    unfold splitLine. rewrite !before_percent_lower, E. reflexivity. }
  specialize (G 0). destruct (findKeyword_loop _ _ _ lines 0), (findKeyword_loop _ _ _ lines' 0); try contradiction; [exact G|].
  destruct optional; reflexivity.
Qed.
Print Assumptions C05_comments_partial.
Example C05_hypotheses_met : Forall2 (same_data "mesh")
  ["% notes"; "solvers heat"; "mesh 2 1.0 m1"] ["% notes"; "solvers heat% one solver"; "mesh 2 1.0 m1% two cells"].
Proof.
  repeat apply Forall2_cons; try apply Forall2_nil;
    (split; [reflexivity|]; split; [reflexivity|]; split; intros M; apply mentions_contains in M;
     first [discriminate M | apply mentions_contains; reflexivity]).
Qed.

(* ---------- C04 ---------- *)

(* An entry that stands in the material's own block is the one found: h is the
   only heading of the material, k the first line from h on that mentions the
   entry, and no other material heading lies in between. *)
Theorem C04_own_entry_partial : forall lines name key h k hx kx,
  let l := data_lines lines in
  Z.of_nat (length l) <= umax ->
  nth_error l h = Some hx -> mentions ("material " ++ name) hx ->
  (forall i y, nth_error l i = Some y -> mentions ("material " ++ name) y -> i = h) ->
  (h <= k)%nat -> nth_error l k = Some kx -> mentions key kx ->
  (forall i y, (h <= i < k)%nat -> nth_error l i = Some y -> ~ mentions key y) ->
  (forall i y, (h < i <= k)%nat -> nth_error l i = Some y -> ~ mentions "material" y) ->
  let '(low, top) := findBlock lines "material" name in
  findKeyword lines key low top false = Ok (lower kx).
Proof.
  intros lines name key h k hx kx l Hlen Hh Mh Uh Hk Kk Mk Fk Bk.
  destruct (findBlock_spec lines "material" name) as [S E].
  destruct (findBlock lines "material" name) as [low top]. cbn [fst snd] in *.
  change (heading "material" name) with ("material " ++ name) in *.
  fold l in S, E. destruct S as (S1 & S0 & S2).
  assert (low = Z.of_nat h) as ->.
  { pose proof (S2 h hx Hh Mh) as Lh. destruct S1 as [->|(x & Hx & Mx)]; [lia|].
    change (heading "material" name) with ("material " ++ name) in Mx.
    pose proof (Uh _ _ Hx Mx). lia. }
  assert (Lk : (k < length l)%nat) by (apply nth_error_Some; rewrite Kk; discriminate).
  assert (Htop : Z.of_nat k <= top).
  { destruct E as [[E _]|(j & x & Hx & Mx & Lj & [[_ ->]|[(i & y & Hi & Hy & My) ->]])].
    - exfalso. apply (E h hx Hh). exact (heading_mentions "material" name hx Mh).
    - unfold umax in *. lia.
    - change (heading "material" name) with ("material " ++ name) in My. pose proof (Uh i y Hy My) as ->.
      destruct (Nat.le_gt_cases j k) as [L|L]; [|lia]. exfalso. apply (Bk j x); [lia|exact Hx|exact Mx]. }
  apply (findKeyword_found lines key (Z.of_nat h) top false k kx).
  split; [exact Kk|]. split; [exact Mk|]. split; [lia|].
  intros i y Hi Hy Hw. apply (Fk i y); [lia|exact Hy].
Qed.
Print Assumptions C04_own_entry_partial.
Example C04_hypotheses_met :
  let lines := ["solvers diffusion"; "material M1"; "ni(1) 2.5"; "material M2"; "ni(1) 2.4"] in
  let '(low, top) := findBlock lines "material" "M2" in findKeyword lines "ni(1)" low top false = Ok "ni(1) 2.4".
Proof.
  apply (C04_own_entry_partial _ "M2" "ni(1)" 3 4 "material M2" "ni(1) 2.4"); cbn; try reflexivity; try lia.
  - unfold umax. lia.
  - apply mentions_contains. reflexivity.
  - intros [|[|[|[|[|i]]]]] y H M; try (injection H as <-; apply mentions_contains in M; vm_compute in M; try discriminate M; reflexivity).
    destruct i; discriminate H.
  - apply mentions_contains. reflexivity.
  - intros i y Hi H M. assert (i = 3%nat) as -> by lia. injection H as <-. apply mentions_contains in M. discriminate M.
  - intros i y Hi H M. assert (i = 4%nat) as -> by lia. injection H as <-. apply mentions_contains in M. discriminate M.
Qed.

(* An entry missing from the material's own block is taken from a later
   material's block, as long as some material heading follows it: for every
   file whose only heading of the material is line h > 0, whose first mention
   of the entry from h on is line k, and with a line j >= k mentioning
   "material", whatever headings lie between h and k. *)
Theorem C04_missing_entry_refuted : forall lines name key h k j hx kx jx,
  let l := data_lines lines in
  (0 < h < j)%nat ->
  nth_error l h = Some hx -> mentions ("material " ++ name) hx ->
  (forall i y, nth_error l i = Some y -> mentions ("material " ++ name) y -> i = h) ->
  (h <= k <= j)%nat -> nth_error l k = Some kx -> mentions key kx ->
  (forall i y, (h <= i < k)%nat -> nth_error l i = Some y -> ~ mentions key y) ->
  nth_error l j = Some jx -> mentions "material" jx ->
  let '(low, top) := findBlock lines "material" name in
  findKeyword lines key low top false = Ok (lower kx).
Proof.
  intros lines name key h k j hx kx jx l Hhj Hh Mh Uh Hk Kk Mk Fk Hj Mj.
  destruct (findBlock_spec lines "material" name) as [S E].
  destruct (findBlock lines "material" name) as [low top]. cbn [fst snd] in *.
  fold l in S, E. destruct S as (S1 & S0 & S2).
  assert (low = Z.of_nat h) as ->.
  { pose proof (S2 h hx Hh Mh) as Lh. destruct S1 as [->|(x & Hx & Mx)]; [lia|].
    pose proof (Uh _ _ Hx Mx). lia. }
  assert (Htop : Z.of_nat k <= top).
  { destruct E as [[E _]|(j' & x & Hx & Mx & Lj & [[E ->]|[(i & y & Hi & Hy & My) ->]])].
    - exfalso. apply (E j jx Hj Mj).
    - exfalso. assert ((j <= j')%nat) by (destruct (Nat.le_gt_cases j j'); [assumption|]; exfalso; apply (Lj j jx); assumption).
      apply (E h hx); [lia|exact Hh|exact Mh].
    - assert ((j <= j')%nat) by (destruct (Nat.le_gt_cases j j'); [assumption|]; exfalso; apply (Lj j jx); assumption). lia. }
  apply (findKeyword_found lines key (Z.of_nat h) top false k kx).
  split; [exact Kk|]. split; [exact Mk|]. split; [lia|].
  intros i y Hi Hy Hw. apply (Fk i y); [lia|exact Hy].
Qed.
Print Assumptions C04_missing_entry_refuted.
(* M1 has no ni(1); the lookup for M1 returns the line of M2. *)
Example C04_missing_example :
  let lines := ["solvers diffusion"; "material M1"; "chi(1) 1.0"; "material M2"; "ni(1) 2.4"; "material M3"; "ni(1) 2.6"] in
  let '(low, top) := findBlock lines "material" "M1" in
  findKeyword lines "ni(1)" low top false = Ok "ni(1) 2.4".
Proof. vm_compute. reflexivity. Qed.

(* A material whose name starts another one's: with the other material's
   block last, every lookup for the first one starts in the other's block. *)
Theorem C04_prefix_refuted : forall lines name suffix h' hx',
  let l := data_lines lines in
  nth_error l h' = Some hx' -> mentions ("material " ++ name ++ suffix) hx' ->
  (forall i y, (h' < i)%nat -> nth_error l i = Some y -> ~ mentions ("material " ++ name) y) ->
  fst (findBlock lines "material" name) = Z.of_nat h'.
Proof.
  intros lines name suffix h' hx' l Hh Mh Uh.
  destruct (findBlock_spec lines "material" name) as [[S1 [S0 S2]] _].
  destruct (findBlock lines "material" name) as [low top]. cbn [fst snd] in *. fold l in S1, S2.
  change (heading "material" name) with ("material " ++ name) in *.
  assert (Mh' : mentions ("material " ++ name) hx').
  { destruct Mh as (a & b & E). exists a, (lower suffix ++ b). rewrite E, !lower_app, !append_assoc. reflexivity. }
  pose proof (S2 h' hx' Hh Mh') as L. destruct S1 as [->|(x & Hx & Mx)]; [lia|].
  destruct (Z.eq_dec low (Z.of_nat h')) as [->|Hne]; [reflexivity|].
  exfalso. apply (Uh (Z.to_nat low) x); [lia|exact Hx|exact Mx].
Qed.
Print Assumptions C04_prefix_refuted.
(* The total cross section of M1 is read from the block of M10; without a
   material behind M10 the entry M1 has is reported missing. *)
Example C04_prefix_example :
  (let lines := ["solvers diffusion"; "material M1"; "total(1) 0.5"; "material M10"; "total(1) 0.7"; "material M2"] in
   let '(low, top) := findBlock lines "material" "M1" in
   findKeyword lines "total(1)" low top false = Ok "total(1) 0.7") /\
  (let lines := ["solvers diffusion"; "material M1"; "total(1) 0.5"; "material M10"; "total(1) 0.7"] in
   let '(low, top) := findBlock lines "material" "M1" in
   findKeyword lines "total(1)" low top false = Exit "total(1) is missing from the input!").
Proof. vm_compute. auto. Qed.

(* ---------- C11 ---------- *)

Definition dot_free (s : string) : Prop := free (fun c => Ascii.eqb c ".") s.
(* the characters a float may contain besides the dot *)
Definition float_char (c : ascii) : Prop :=
  (48 <= code c <= 57)%nat \/ c = "E"%char \/ c = "e"%char \/ c = "+"%char \/ c = "-"%char.
Fixpoint every (P : ascii -> Prop) (s : string) : Prop :=
  match s with "" => True | String c s' => P c /\ every P s' end.

Lemma isdigit_spec c : isdigit c = true <-> (48 <= code c <= 57)%nat.
Proof. unfold isdigit, between. rewrite andb_true_iff, !Nat.leb_le. tauto. Qed.
Lemma isDigitLambda_spec c : isDigitLambda c = true <-> float_char c.
Proof.
  unfold isDigitLambda, float_char. rewrite !orb_true_iff, isdigit_spec, !Ascii.eqb_eq. tauto.
Qed.
Lemma all_of_every p (P : ascii -> Prop) : (forall c, p c = true <-> P c) -> forall s, all_of p s = true <-> every P s.
Proof. intros H s. induction s as [|c s IH]; cbn; [tauto|]. rewrite andb_true_iff, H, IH. tauto. Qed.

Theorem C11_integer : forall w, isInteger w = true <-> w <> "" /\ every (fun c => (48 <= code c <= 57)%nat) w.
Proof.
  intros w. unfold isInteger. destruct (String.eqb_spec w "") as [->|H].
  - split; [discriminate|]. intros [H _]. congruence.
  - rewrite (all_of_every isdigit _ isdigit_spec). tauto.
Qed.
Print Assumptions C11_integer.

Theorem C11_not_both : forall w, isInteger w = true -> isString w = true -> False.
Proof.
  intros w H1 H2. apply C11_integer in H1. destruct H1 as [Hn H]. unfold isString in H2.
  destruct w as [|c w]; [congruence|]. cbn in *. destruct H as [H _].
  unfold isalpha, between in H2. rewrite orb_true_iff, !andb_true_iff, !Nat.leb_le in H2. lia.
Qed.
Print Assumptions C11_not_both.

(* The first dot decides: nothing behind it, undefined; otherwise the
   character right behind it is not looked at. *)
Theorem C11_float : forall a c b, dot_free a ->
  isFloat a = Ok false /\
  isFloat (a ++ ".") = UB "iterator past the end" /\
  (isFloat (a ++ String "." (String c b)) = Ok true <-> every float_char a /\ every float_char b) /\
  (isFloat (a ++ String "." (String c b)) = Ok false <-> ~ (every float_char a /\ every float_char b)).
Proof.
  assert (I : forall a r, dot_free a -> index 0 "." (a ++ String "." r) = Some (String.length a)).
  { induction a as [|x a IH]; intros r H.
    - cbn. destruct r; reflexivity.
    - unfold dot_free, free in H. cbn in H. apply andb_true_iff in H. destruct H as [H1 H2].
      apply negb_true_iff in H1.
      assert (Hx : "."%char <> x) by (intros E; rewrite <- E in H1; discriminate H1).
      specialize (IH r H2). cbn [append index prefix String.length].
      destruct (ascii_dec "." x) as [E|_]; [contradiction|]. rewrite IH. reflexivity. }
  assert (J : forall a, dot_free a -> index 0 "." a = None).
  { induction a as [|x a IH]; intros H; [reflexivity|].
    unfold dot_free, free in H. cbn in H. apply andb_true_iff in H. destruct H as [H1 H2].
    apply negb_true_iff in H1.
    assert (Hx : "."%char <> x) by (intros E; rewrite <- E in H1; discriminate H1).
    cbn [index prefix]. destruct (ascii_dec "." x) as [E|_]; [contradiction|]. rewrite (IH H2). reflexivity. }
  intros a c b Ha. unfold isFloat. split; [|split].
  - rewrite (J a Ha). destruct (String.eqb a ""); reflexivity.
  - destruct (String.eqb_spec (a ++ ".") "") as [E|_]; [destruct a; discriminate E|].
    rewrite (I a "" Ha). rewrite append_length. cbn [String.length].
    destruct (Nat.leb_spec (String.length a + 2) (String.length a + 1)); [lia|reflexivity].
  - destruct (String.eqb_spec (a ++ String "." (String c b)) "") as [E|_]; [destruct a; discriminate E|].
    rewrite (I a _ Ha). rewrite append_length. cbn [String.length].
    destruct (Nat.leb_spec (String.length a + 2) (String.length a + S (S (String.length b)))); [|lia].
    rewrite substring_prefix.
    replace (String.length a + 2)%nat with (String.length (a ++ String "." (String c ""))) by (rewrite append_length; reflexivity).
    replace (a ++ String "." (String c b)) with ((a ++ String "." (String c "")) ++ b) by (rewrite append_assoc; reflexivity).
    rewrite substr_from_app.
    pose proof (all_of_every isDigitLambda _ isDigitLambda_spec) as V.
    assert (B : forall x y : bool, (Ok (x && y) = Ok true <-> x = true /\ y = true) /\
                                   (Ok (x && y) = Ok false <-> ~ (x = true /\ y = true))).
    { intros [|] [|]; cbn; (split; split; [intros E|intros E| intros E|intros E]);
        first [reflexivity|discriminate E|tauto|(destruct E; discriminate)|(intros [? ?]; discriminate)]. }
    rewrite <- !V. apply B.
Qed.
Print Assumptions C11_float.

(* So "1.x5" is a float, "5." has no classification, and a word with a digit
   in it is a string as soon as its first character is a letter. *)
Theorem C11_classes_refuted :
  isFloat "1.x5" = Ok true /\ isFloat "--.xEE" = Ok true /\ isFloat "5." = UB "iterator past the end" /\
  isString "a1.5%" = true /\ isString "U-235" = true.
Proof. vm_compute. repeat split; reflexivity. Qed.
Print Assumptions C11_classes_refuted.
Theorem C11_string_first_letter : forall w,
  isString w = true <-> exists c r, w = String c r /\ ((65 <= code c <= 90)%nat \/ (97 <= code c <= 122)%nat).
Proof.
  intros w. unfold isString, isalpha, between. destruct w as [|c r]; cbn [String.eqb front].
  - split; [discriminate|]. intros (c & r & E & _). discriminate E.
  - rewrite orb_true_iff, !andb_true_iff, !Nat.leb_le. split; [intros H; exists c, r; tauto|].
    intros (c' & r' & E & H). injection E as <- <-. exact H.
Qed.
Print Assumptions C11_string_first_letter.
Example C11_example : isInteger "012" = true /\ isInteger "1.0" = false /\ isFloat "-1.25e-03" = Ok true /\ isFloat "12" = Ok false.
Proof. vm_compute. auto. Qed.
