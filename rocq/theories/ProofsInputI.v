(* Lemmas on the properties of the solvers. *)
From Coq Require Import String Ascii ZArith List Bool Lia Arith.
From Verif Require Import Base BaseLemmas ModelNumTools ModelEigen ModelMesh ModelReactor ModelCalculation ModelText ModelInput
  ProofsInput ProofsInputB ProofsInputC ProofsInputD ProofsInputE ProofsInputF.
Import ListNotations.
Local Open Scope string_scope.
Local Open Scope Z_scope.

(* ---------- words of a line of a section ---------- *)

(* ws are the words of the first data line of the section that mentions key;
   whatever follows a % does not belong to them *)
Definition section_words (lines : list string) (kind name key : string) (ws : list string) : Prop :=
  exists low top k x body, block_start kind name (data_lines lines) low /\ block_stop kind name (data_lines lines) top /\
    first_in_window key low top (data_lines lines) k x /\
    percent_free body /\ (x = body \/ exists comment, x = body ++ "%" ++ comment) /\ word_split (lower body) ws.

Lemma line_words x : exists body, percent_free body /\ (x = body \/ exists comment, x = body ++ "%" ++ comment) /\
  word_split (lower body) (splitLine (lower x)).
Proof.
  exists (before_percent x). unfold splitLine. rewrite before_percent_lower. split; [|split].
  - destruct (percent_split x) as [P|(a & b & P & ->)]; [rewrite before_percent_free by exact P; exact P|].
    cbn [append]. rewrite before_percent_app by exact P. exact P.
  - destruct (percent_split x) as [P|(a & b & P & ->)]; [left; rewrite before_percent_free by exact P; reflexivity|right].
    exists b. cbn [append]. rewrite before_percent_app by exact P. reflexivity.
  - apply words_spec. reflexivity.
Qed.
Lemma findKeyword_section lines kind name key l :
  findKeyword lines key (fst (findBlock lines kind name)) (snd (findBlock lines kind name)) false = Ok l ->
  section_words lines kind name key (splitLine l).
Proof.
  intros H. destruct (findBlock_spec lines kind name) as [B1 B2].
  revert H B1 B2. generalize (fst (findBlock lines kind name)) as low. generalize (snd (findBlock lines kind name)) as top. intros top low H B1 B2.
  destruct (findKeyword_cases lines key low top) as [(k & x & F)|F].
  - rewrite (findKeyword_found lines key low top false k x F) in H. injection H as <-.
    destruct (line_words x) as (body & P & Q & R). exists low, top, k, x, body. repeat (split; [assumption|]). assumption.
  - rewrite (findKeyword_missing lines key low top false F) in H. discriminate H.
Qed.
(* a section has one such line *)
Lemma block_start_fun k1 k2 l s s' : block_start k1 k2 l s -> block_start k1 k2 l s' -> s = s'.
Proof.
  intros (A1 & A2 & A3) (B1 & B2 & B3).
  destruct A1 as [A1|(x & E & M)], B1 as [B1|(x' & E' & M')].
  - congruence.
  - specialize (A3 _ _ E' M'). lia.
  - specialize (B3 _ _ E M). lia.
  - specialize (B3 _ _ E M). specialize (A3 _ _ E' M'). lia.
Qed.
Lemma block_stop_fun k1 k2 l e e' : block_stop k1 k2 l e -> block_stop k1 k2 l e' -> e = e'.
Proof.
  intros [(A1 & A2)|(j & x & A1 & A2 & A3 & A4)] [(B1 & B2)|(j' & x' & B1 & B2 & B3 & B4)].
  - congruence.
  - exfalso. exact (A1 _ _ B1 B2).
  - exfalso. exact (B1 _ _ A1 A2).
  - assert (j = j') as <-.
    { destruct (lt_eq_lt_dec j j') as [[L|E]|L]; [exfalso; exact (A3 _ _ L B1 B2)|exact E|exfalso; exact (B3 _ _ L A1 A2)]. }
    destruct A4 as [(A4 & ->)|((i & y & A4 & A5 & A6) & ->)], B4 as [(B4 & ->)|((i' & y' & B4 & B5 & B6) & ->)]; try reflexivity.
    + exfalso. exact (A4 i' y' B4 B5 B6).
    + exfalso. exact (B4 i y A4 A5 A6).
Qed.
Lemma section_words_fun lines kind name key ws ws' :
  section_words lines kind name key ws -> section_words lines kind name key ws' -> ws = ws'.
Proof.
  intros (low & top & k & x & body & A1 & A2 & A3 & A4 & A5 & A6) (low' & top' & k' & x' & body' & B1 & B2 & B3 & B4 & B5 & B6).
  rewrite (block_start_fun _ _ _ _ _ A1 B1) in A3. rewrite (block_stop_fun _ _ _ _ _ A2 B2) in A3.
  destruct (first_unique _ _ _ _ _ _ _ _ A3 B3) as [_ <-].
  rewrite <- (lower_before_percent _ _ A4 A5) in A6. rewrite <- (lower_before_percent _ _ B4 B5) in B6.
  apply words_spec in A6. apply words_spec in B6. congruence.
Qed.
Lemma propertyWords_section lines name k ws : propertyWords lines name k = Ok ws ->
  section_words lines "solver" (get_solver_name k) name ws.
Proof.
  unfold propertyWords. intros H. apply bind_ok_inv in H. destruct H as (w & _ & H). cbv zeta in H.
  apply bind_ok_inv in H. destruct H as (l & H & E). injection E as <-. exact (findKeyword_section _ _ _ _ _ H).
Qed.

Section Properties.
Context {T : Type} {N : Num T}.
Variable mpi : T.
Variable stod_opt : string -> option T.
Notation kinds inp := (map sd_kind (in_solvers inp)).

(* ---------- one line, one solver ---------- *)

(* what the words ws behind the name p say about the solver s in geometry g *)
Record says (p : string) (g : GeomKind) (ws : list string) (s : solverData T) : Prop := mkSays {
  sy_acc : p = "accuracy" -> forall w, ws = [w] -> stod_opt w = Some (sd_acc s);
  sy_max : p = "max_iteration_number" -> forall w, ws = [w] -> stoi w = Ok (sd_max s);
  sy_relax : p = "relaxation_parameter" -> forall w, ws = [w] -> stod_opt w = Some (sd_relax s);
  sy_energies : p = "energies" -> forall w, ws = [w] -> stoi w = Ok (sd_energies s);
  sy_albedo : p = "albedo" -> (length ws <= 2)%nat -> Forall2 (fun w x => stod_opt w = Some x) ws (sd_albedo s) /\
    (length ws = 2%nat <-> g = SLAB /\ sd_kind s <> TRANSPORT);
  sy_dir : p = "direction" -> forall w, ws = [w] ->
    (w = "forward" /\ sd_dir s = FORWARD) \/ (w = "adjoint" /\ sd_dir s = ADJOINT);
  sy_eig : p = "eigenmodes" -> forall w, ws = [w] ->
    (w = "fundamental" /\ sd_eig s = FUNDAMENTAL) \/ (w = "all" /\ sd_eig s = EigALL);
  sy_heat : p = "heat_boundary_conditions" -> length ws = 3%nat \/ length ws = 6%nat ->
    Forall2 (fun w x => stod_opt w = Some x) ws (sd_heatbc s) /\ (length ws = 6%nat <-> g = SLAB)
}.
Definition solver_words : list string :=
  ["accuracy"; "max_iteration_number"; "relaxation_parameter"; "energies"; "albedo"; "direction"; "eigenmodes";
   "heat_boundary_conditions"; "ext_source"].

Lemma stod_some w x : stod stod_opt w = Ok x -> stod_opt w = Some x.
Proof. unfold stod. destruct (stod_opt w); intros H; [injection H as ->; reflexivity|discriminate H]. Qed.
Lemma geom_eqb_eq g : geom_eqb g SLAB = true <-> g = SLAB.
Proof. destruct g; cbn; split; intros; congruence. Qed.

Lemma applyProperty_says k p ws s r s' r' : In p solver_words ->
  (k = SolUNDEFINED \/ k = sd_kind s) ->
  applyProperty stod_opt k (p :: ws) s r = Ok (s', r') ->
  says p (ms_geom (rx_mesh r)) ws s' /\
  (forall q us, In q solver_words -> q <> p -> says q (ms_geom (rx_mesh r)) us s -> says q (ms_geom (rx_mesh r)) us s').
Proof.
  intros Hp Hk H. set (g := ms_geom (rx_mesh r)) in *. unfold applyProperty in H. cbv zeta in H. fold g in H.
  assert (SP : g = SLAB <-> geom_eqb g SLAB = true) by (rewrite geom_eqb_eq; reflexivity).
  unfold solver_words in Hp. cbn in Hp.
  destruct ws as [|a [|b [|c [|d [|e [|f [|h l]]]]]]]; try discriminate H.
  all: repeat (destruct Hp as [<-|Hp]; [|]); try contradiction; cbn -[stods] in H.
  all: crush H.
  all: try (destruct Hk as [Hk|Hk]; [discriminate Hk|]).
  all: repeat match goal with B : String.eqb _ _ = true |- _ => apply String.eqb_eq in B end; subst.
  all: repeat match goal with E : stod stod_opt _ = Ok _ |- _ => apply stod_some in E end.
  all: repeat match goal with E : stods stod_opt _ = Ok _ |- _ => apply (stods_inv stod_opt) in E end.
  all: split; [|intros q us Hq Hn [S1 S2 S3 S4 S5 S6 S7 S8]; constructor; intros Eq; subst q; solve [cbn; eauto | contradiction (Hn eq_refl)]].
  all: constructor; intros Eq; try discriminate Eq.
  all: try (intros w Ew; try discriminate Ew; injection Ew as <-; cbn; solve [auto]).
  all: cbn [length]; try (intros; exfalso; lia).
  all: cbn; intros; split; [auto; repeat constructor; assumption|].
  all: rewrite SP; intuition (try congruence; try lia).
Qed.

(* ---------- all lines, all solvers ---------- *)

Definition starts_with_name (lines : list string) (ks : list SolverKind) : Prop :=
  forall k p ws, In k ks -> In p solver_words -> propertyWords lines p k = Ok ws -> exists rest, ws = p :: rest.
Definition told (lines : list string) (g : GeomKind) (D : list (string * SolverKind)) (s : solverData T) : Prop :=
  forall p k, In (p, k) D -> selected k s = true ->
    exists ws, propertyWords lines p (sd_kind s) = Ok (p :: ws) /\ says p g ws s.

Lemma selected_kind k (s : solverData T) : selected k s = true -> k = SolUNDEFINED \/ k = sd_kind s.
Proof. unfold selected. rewrite orb_true_iff, !kind_eqb_eq. intros [H|H]; auto. Qed.
Lemma step_told lines p k g D ks s s' : starts_with_name lines ks -> In (sd_kind s) ks -> In p solver_words ->
  (forall q kq, In (q, kq) D -> In q solver_words) ->
  property_step stod_opt lines p k g s s' -> told lines g D s -> told lines g ((p, k) :: D) s'.
Proof.
  intros Hs Hk Hp HD St Ht q kq Hi Hq. pose proof (property_step_kind _ _ _ _ _ _ _ St) as Ek.
  assert (Sq : selected kq s = true) by (unfold selected in *; rewrite Ek in Hq; exact Hq). rewrite Ek.
  destruct St as [[E1 ->]|(E1 & values & r1 & r2 & W & A & Eg)].
  - destruct Hi as [Hi|Hi]; [injection Hi as <- <-; congruence|exact (Ht q kq Hi Sq)].
  - destruct (Hs _ _ _ Hk Hp W) as [ws ->]. destruct (applyProperty_says _ _ _ _ _ _ _ Hp (selected_kind k s E1) A) as [A1 A2].
    rewrite Eg in *. destruct (string_dec q p) as [->|Hne]; [exists ws; auto|].
    destruct Hi as [Hi|Hi]; [injection Hi as <- <-; congruence|]. destruct (Ht q kq Hi Sq) as (us & U1 & U2).
    exists us. split; [exact U1|]. apply A2; [exact (HD q kq Hi)|exact Hne|exact U2].
Qed.
Lemma steps_told lines p k g D ks l l' : starts_with_name lines ks -> (forall s, In s l -> In (sd_kind s) ks) -> In p solver_words ->
  (forall q kq, In (q, kq) D -> In q solver_words) ->
  Forall2 (property_step stod_opt lines p k g) l l' -> Forall (told lines g D) l -> Forall (told lines g ((p, k) :: D)) l'.
Proof.
  intros Hs Hk Hp HD F. induction F as [|s s' l l' St _ IH]; intros G; [constructor|]. inversion G; subst. constructor.
  - apply (step_told lines p k g D ks s s'); auto. apply Hk. left. reflexivity.
  - apply IH; [|assumption]. intros x Hx. apply Hk. right. exact Hx.
Qed.
Lemma chain_told l a b : chain stod_opt l a b -> starts_with_name (in_lines a) (kinds a) ->
  (forall p k, In (p, k) l -> In p solver_words) -> forall D,
  (forall p k, In (p, k) D -> In p solver_words) ->
  Forall (told (in_lines a) (ms_geom (in_mesh a)) D) (in_solvers a) ->
  Forall (told (in_lines a) (ms_geom (in_mesh a)) (rev l ++ D)%list) (in_solvers b).
Proof.
  induction 1 as [|name k l a b c H HC IH]; intros Hs Hl D HD G; [exact G|].
  apply setSolverProperties_spec in H. destruct H as (L & _ & _ & _ & H5 & _ & H7).
  assert (Eg : ms_geom (in_mesh b) = ms_geom (in_mesh a)) by apply H5.
  pose proof (property_steps_kinds _ _ _ _ _ _ _ H7) as Ek.
  rewrite L, Eg, Ek in IH. cbn [rev]. rewrite <- app_assoc. cbn [List.app]. apply IH.
  - exact Hs.
  - intros p q Hi. apply (Hl p q). right. exact Hi.
  - intros p q [Hi|Hi]; [injection Hi as <- <-; apply (Hl name k); left; reflexivity|exact (HD p q Hi)].
  - apply (steps_told (in_lines a) name k (ms_geom (in_mesh a)) D (kinds a) (in_solvers a)); auto.
    + intros s Hi. apply List.in_map, Hi.
    + apply (Hl name k). left. reflexivity.
Qed.

(* ---------- what the lines do to the reactor ---------- *)

Definition property_turn (a : input T) (name : string) (k : SolverKind) (s : solverData T) (st : list (solverData T) * reactor T)
    : res (list (solverData T) * reactor T) :=
  let '(l, r) := st in
  if (kind_eqb k SolUNDEFINED || kind_eqb (sd_kind s) k)%bool
  then values <- propertyWords (in_lines a) name (sd_kind s) ;;
       ' (s, r) <- applyProperty stod_opt k values s r ;;
       Ok (l ++ [s], r)%list
  else Ok (l ++ [s], r)%list.
Lemma property_turn_inv a name k s l0 r0 l r : property_turn a name k s (l0, r0) = Ok (l, r) ->
  (selected k s = false /\ r = r0) \/
  (selected k s = true /\ exists values s', propertyWords (in_lines a) name (sd_kind s) = Ok values /\
     applyProperty stod_opt k values s r0 = Ok (s', r)).
Proof.
  unfold property_turn. fold (selected k s). intros H. destruct (selected k s) eqn:Es.
  - right. split; [reflexivity|]. apply bind_ok_inv in H. destruct H as (values & Hv & H). apply bind_ok_inv in H.
    destruct H as ([s1 r2] & Ha & H). injection H as <- <-. eauto.
  - injection H as <- <-. auto.
Qed.
Lemma setSolverProperties_turns name k a b : setSolverProperties stod_opt name k a = Ok b ->
  exists l, foreach (in_solvers a) (property_turn a name k) ([], in_rx a) = Ok (l, in_rx b).
Proof.
  unfold setSolverProperties. intros H. apply bind_ok_inv in H. destruct H as ([l r] & H & E). injection E as <-. exists l. exact H.
Qed.
Lemma setSolverProperties_rx (P : reactor T -> Prop) name k a b : setSolverProperties stod_opt name k a = Ok b ->
  (forall s values s' r r', In s (in_solvers a) -> selected k s = true -> propertyWords (in_lines a) name (sd_kind s) = Ok values ->
     applyProperty stod_opt k values s r = Ok (s', r') -> P r -> P r') ->
  P (in_rx a) -> P (in_rx b).
Proof.
  intros H K. apply setSolverProperties_turns in H. destruct H as [l H]. revert H K.
  generalize (@nil (solverData T)) as l0. generalize (in_rx a) as r0. generalize (in_solvers a) as L.
  induction L as [|s L IH]; intros r0 l0 H K G.
  - injection H as <- <-. exact G.
  - cbn [foreach] in H. apply bind_ok_inv in H. destruct H as ([l1 r1] & H1 & H2).
    refine (IH _ _ H2 _ _); [intros; eapply K; eauto; right; assumption|].
    apply property_turn_inv in H1. destruct H1 as [[_ ->]|(Es & values & s' & Hv & Ha)]; [exact G|].
    refine (K _ _ _ _ _ _ Es Hv Ha G). left. reflexivity.
Qed.
Lemma setSolverProperties_sets (P : reactor T -> Prop) name k a b : setSolverProperties stod_opt name k a = Ok b ->
  (forall s values s' r r', In s (in_solvers a) -> selected k s = true -> propertyWords (in_lines a) name (sd_kind s) = Ok values ->
     applyProperty stod_opt k values s r = Ok (s', r') -> P r') ->
  (exists s, In s (in_solvers a) /\ selected k s = true) -> P (in_rx b).
Proof.
  intros H K X. apply setSolverProperties_turns in H. destruct H as [l H].
  assert (G : forall L r0 l0, incl L (in_solvers a) -> (P r0 \/ exists s, In s L /\ selected k s = true) ->
    foreach L (property_turn a name k) (l0, r0) = Ok (l, in_rx b) -> P (in_rx b)).
  { clear H. induction L as [|s L IH]; intros r0 l0 Hi C H.
    - injection H as <- <-. destruct C as [C|(s & [] & _)]. exact C.
    - cbn [foreach] in H. apply bind_ok_inv in H. destruct H as ([l1 r1] & H1 & H2).
      refine (IH _ _ _ _ H2); [intros x Hx; apply Hi; right; exact Hx|].
      apply property_turn_inv in H1. destruct H1 as [[Es ->]|(Es & values & s' & Hv & Ha)].
      + destruct C as [C|(x & [<-|Hx] & Sx)]; [left; exact C|congruence|right; eauto].
      + left. refine (K _ _ _ _ _ _ Es Hv Ha). apply Hi. left. reflexivity. }
  refine (G _ _ _ (incl_refl _) (or_intror X) H).
Qed.
(* the last line of a chain that sets P *)
Lemma chain_post (P : reactor T -> Prop) name k l1 l2 a b : chain stod_opt (l1 ++ (name, k) :: l2)%list a b ->
  (forall kw values s s' r r', In kw (kinds a) -> selected k s = true -> sd_kind s = kw ->
     propertyWords (in_lines a) name kw = Ok values -> applyProperty stod_opt k values s r = Ok (s', r') -> P r') ->
  (forall nm q kw values s s' r r', In (nm, q) l2 -> In kw (kinds a) -> selected q s = true -> sd_kind s = kw ->
     propertyWords (in_lines a) nm kw = Ok values -> applyProperty stod_opt q values s r = Ok (s', r') -> P r -> P r') ->
  (exists kw, In kw (kinds a) /\ (k = SolUNDEFINED \/ k = kw)) -> P (in_rx b).
Proof.
  intros H K1 K2 X. revert a H K1 K2 X. induction l1 as [|[n q] l1 IH]; intros a H K1 K2 X; cbn [List.app] in H; inversion H as [|n' k' l' a' a1 b' H1 HC]; subst.
  - pose proof H1 as Hs. apply setSolverProperties_spec in Hs. destruct Hs as (L & _ & _ & _ & _ & _ & H7).
    pose proof (property_steps_kinds _ _ _ _ _ _ _ H7) as Ek.
    assert (P1 : P (in_rx a1)).
    { apply (setSolverProperties_sets P _ _ _ _ H1).
      - intros s values s' r r' Hi Sl W A. refine (K1 _ _ _ _ _ _ (List.in_map sd_kind _ _ Hi) Sl eq_refl W A).
      - destruct X as (kw & Hk & E). apply in_map_iff in Hk. destruct Hk as (s & Es & Hs). exists s. split; [exact Hs|].
        unfold selected. rewrite orb_true_iff, !kind_eqb_eq. destruct E as [E|E]; [left; exact E|right; congruence]. }
    rewrite <- L, <- Ek in K2. clear -HC P1 K2. induction HC as [|n q l a b c H HC IH]; [exact P1|].
    pose proof H as Hs. apply setSolverProperties_spec in Hs. destruct Hs as (L & _ & _ & _ & _ & _ & H7).
    pose proof (property_steps_kinds _ _ _ _ _ _ _ H7) as Ek.
    apply IH.
    + intros. rewrite L, Ek in *. eapply K2; eauto. right. eassumption.
    + apply (setSolverProperties_rx P _ _ _ _ H); [|exact P1].
      intros s values s' r r' Hi Sl W A. refine (K2 _ _ _ _ _ _ _ _ (or_introl eq_refl) (List.in_map sd_kind _ _ Hi) Sl eq_refl W A).
  - pose proof H1 as Hs. apply setSolverProperties_spec in Hs. destruct Hs as (L & _ & _ & _ & _ & _ & H7).
    pose proof (property_steps_kinds _ _ _ _ _ _ _ H7) as Ek.
    apply (IH a1); rewrite ?L, ?Ek; auto.
Qed.

(* the group count and the external source come from their own lines *)
Lemma applyProperty_energies k ws s r s' r' : applyProperty stod_opt k ("energies" :: ws) s r = Ok (s', r') ->
  forall w n, ws = [w] -> stoi w = Ok n -> ms_groups (rx_mesh r') = to_u32 n.
Proof.
  intros H w n -> E. unfold applyProperty in H. cbn in H. rewrite E in H. cbn in H.
  apply bind_ok_inv in H. destruct H as (ms & H & F). injection F as <- <-. apply setEnergyGroupsNumber_same in H. apply H.
Qed.
Lemma applyProperty_groups k p ws s r s' r' : In p solver_words -> p <> "energies" ->
  applyProperty stod_opt k (p :: ws) s r = Ok (s', r') -> rx_mesh r' = rx_mesh r.
Proof.
  intros Hp Hn H. unfold applyProperty in H. cbv zeta in H. unfold solver_words in Hp. cbn in Hp.
  destruct ws as [|a [|b [|c [|d [|e [|f [|h l]]]]]]]; try discriminate H.
  all: repeat (destruct Hp as [<-|Hp]; [|]); try contradiction; try congruence; cbn -[stods] in H.
  all: crush H; reflexivity.
Qed.
Lemma applyProperty_ext k p ws s r s' r' : In p solver_words -> p <> "ext_source" ->
  applyProperty stod_opt k (p :: ws) s r = Ok (s', r') -> rx_ext r' = rx_ext r.
Proof.
  intros Hp Hn H. unfold applyProperty in H. cbv zeta in H. unfold solver_words in Hp. cbn in Hp.
  destruct ws as [|a [|b [|c [|d [|e [|f [|h l]]]]]]]; try discriminate H.
  all: repeat (destruct Hp as [<-|Hp]; [|]); try contradiction; try congruence; cbn -[stods] in H.
  all: crush H; reflexivity.
Qed.
Lemma applyProperty_source k ws s r s' r' : applyProperty stod_opt k ("ext_source" :: ws) s r = Ok (s', r') ->
  forall u v w, ws = [u; v; w] -> exists x n m, stod_opt u = Some x /\ stoi v = Ok n /\ stoi w = Ok m /\ rx_ext r' = (x, to_u32 n, to_u32 m).
Proof.
  intros H u v w ->. unfold applyProperty in H. cbn in H. destruct k; try discriminate H.
  apply bind_ok_inv in H. destruct H as (x & E & H). apply bind_ok_inv in H. destruct H as (n & En & H).
  apply bind_ok_inv in H. destruct H as (m & Em & H). injection H as <- <-. apply stod_some in E. exists x, n, m. auto.
Qed.

(* ---------- the whole file ---------- *)

Lemma properties_words ks l : properties ks l -> forall p k, In (p, k) l -> In p solver_words.
Proof.
  intros H p k Hi. destruct H as [[_ ->]|[_ ->]]; cbn in Hi;
    repeat (destruct Hi as [Hi|Hi]; [injection Hi as <- <-; cbn; tauto|]); contradiction.
Qed.
Lemma mesh_stage_lines a b : mesh_stage mpi stod_opt a b -> in_lines b = in_lines a /\ in_solvers b = in_solvers a.
Proof.
  intros [[_ (g & H1 & H2)]|[_ ->]]; [|auto]. apply (setGeometryKind_spec stod_opt) in H1. destruct H1 as (k & _ & -> & _).
  apply setMesh_solvers in H2. destruct H2 as (A & B & _). rewrite A, B. auto.
Qed.

Lemma readLines_told lines inp : readLines mpi stod_opt (mkInput lines newReactor [] [] [] []) = Ok inp ->
  starts_with_name lines (kinds inp) ->
  exists l, properties (kinds inp) l /\ Forall (told lines (ms_geom (in_mesh inp)) l) (in_solvers inp) /\
  (* the number of groups is that of the last neutronic solver of the list below *)
  (forall l1 k l2 w n, l = (l1 ++ ("energies", k) :: l2)%list -> In k (kinds inp) ->
     (forall q, In ("energies", q) l2 -> ~ In q (kinds inp)) ->
     propertyWords lines "energies" k = Ok ["energies"; w] -> stoi w = Ok n -> ms_groups (in_mesh inp) = to_u32 n) /\
  (In ADS (kinds inp) -> forall u v w, propertyWords lines "ext_source" ADS = Ok ["ext_source"; u; v; w] ->
     exists x n m, stod_opt u = Some x /\ stoi v = Ok n /\ stoi w = Ok m /\ rx_ext (in_rx inp) = (x, to_u32 n, to_u32 m)).
Proof.
  intros H Hs. apply readLines_stages in H. destruct H as (a & b & c & d & l & Ha & Hb & Hl & Hc & Hd & Hp).
  apply setSolvers_spec in Ha. destruct Ha as (ws & ks & Hw & Hks & ->). cbn [in_lines] in Hw.
  set (a := with_solvers (map newSolverData ks) (mkInput lines newReactor [] [] [] [])) in *.
  destruct (mesh_stage_lines _ _ Hb) as [B1 B2].
  pose proof (chain_kinds _ _ _ _ Hc) as Kc. pose proof (chain_same _ _ _ _ Hc) as (C1 & C2 & _).
  assert (Pd : in_rx inp = in_rx d /\ in_solvers inp = in_solvers d).
  { unfold setPlots in Hp. apply bind_ok_inv in Hp. destruct Hp as (pw & _ & Hp). injection Hp as <-. auto. }
  destruct Pd as (P1 & P2).
  pose proof (readSolverInputs_spec stod_opt (fun x y => True) (fun m => I) (fun a b c H1 H2 => I) (in_solvers c) c d) as D.
  cbv zeta in D. specialize (D (fun k H => H)).
  destruct D as (D1 & D2 & (D3 & _) & _ & _ & D6 & _); [auto|intros _; auto|exact Hd|].
  assert (Lb : in_lines b = lines) by (rewrite B1; reflexivity).
  assert (Kb : kinds inp = kinds b) by (rewrite P2, D2; exact Kc).
  assert (Gb : ms_geom (in_mesh inp) = ms_geom (in_mesh b)).
  { unfold in_mesh at 1. rewrite P1. fold (in_mesh d). destruct D3 as (_ & D3 & _). rewrite D3. apply C2. }
  assert (Mb : ms_groups (in_mesh inp) = ms_groups (in_mesh c)).
  { unfold in_mesh at 1. rewrite P1. fold (in_mesh d). apply D3. }
  assert (Sb : starts_with_name (in_lines b) (kinds b)) by (rewrite Lb, <- Kb; exact Hs).
  exists l. rewrite Kb. split; [rewrite B2; exact Hl|]. split; [|split].
  - pose proof (chain_told l b c Hc Sb (properties_words _ _ Hl) [] ltac:(intros p k [])) as F.
    rewrite app_nil_r in F. rewrite P2, D2, Gb, <- Lb. eapply Forall_impl; [|apply F].
    + intros s Hx p k Hi. apply Hx. rewrite <- in_rev. exact Hi.
    + apply Forall_forall. intros s _ p k [].
  - intros l1 k l2 w n El Hk Hno Hwd Hn. rewrite Mb. rewrite El in Hc. subst l.
    apply (chain_post (fun r => ms_groups (rx_mesh r) = to_u32 n) "energies" k l1 l2 b c Hc).
    + intros kw values s s' r r' Hkw Sl Ekw W A.
      assert (kw = k) as ->.
      { apply selected_kind in Sl. destruct Sl as [-> |Sl]; [|congruence].
        exfalso. clear -Hl. destruct Hl as [[_ Hl]|[_ Hl]];
          (assert (F : In ("energies", SolUNDEFINED) (l1 ++ ("energies", SolUNDEFINED) :: l2)%list) by (apply in_or_app; right; left; reflexivity));
          rewrite Hl in F; cbn in F; repeat (destruct F as [F|F]; [discriminate F|]); exact F. }
      rewrite Lb, Hwd in W. injection W as <-. exact (applyProperty_energies _ _ _ _ _ _ A w n eq_refl Hn).
    + intros nm q kw values s s' r r' Hi Hkw Sl Ekw W A G.
      assert (Hnm : In nm solver_words) by (apply (properties_words _ _ Hl nm q), in_or_app; right; right; exact Hi).
      destruct (Sb _ _ _ Hkw Hnm W) as [rest ->].
      rewrite (applyProperty_groups q nm rest s r s' r' Hnm); [exact G| |exact A].
      intros ->. apply (Hno q Hi). apply selected_kind in Sl. destruct Sl as [-> |Sl]; [|congruence].
      exfalso. clear -Hl Hi. destruct Hl as [[_ Hl]|[_ Hl]];
          (assert (F : In ("energies", SolUNDEFINED) (l1 ++ ("energies", k) :: l2)%list) by (apply in_or_app; right; right; exact Hi));
          rewrite Hl in F; cbn in F; repeat (destruct F as [F|F]; [discriminate F|]); exact F.
    + exists k. auto.
  - intros Hk u v w Hwd. rewrite P1, D6.
    assert (El : exists l1 l2, l = (l1 ++ ("ext_source", ADS) :: l2)%list /\ forall q, ~ In ("ext_source", q) l2).
    { destruct Hl as [[_ ->]|[_ ->]].
      - exists (removelast base_properties), [("relaxation_parameter", COUPLED)]. split; [reflexivity|]. intros q [F|[]]. discriminate F.
      - exists (removelast base_properties), []. split; [reflexivity|]. intros q []. }
    destruct El as (l1 & l2 & El & Hno). rewrite El in Hc.
    apply (chain_post (fun r => exists x n m, stod_opt u = Some x /\ stoi v = Ok n /\ stoi w = Ok m /\ rx_ext r = (x, to_u32 n, to_u32 m))
      "ext_source" ADS l1 l2 b c Hc).
    + intros kw values s s' r r' Hkw Sl Ekw W A. apply selected_kind in Sl. destruct Sl as [Sl|Sl]; [discriminate Sl|].
      rewrite <- Sl in Ekw. subst kw. rewrite Lb, Hwd in W. injection W as <-. exact (applyProperty_source _ _ _ _ _ _ A u v w eq_refl).
    + intros nm q kw values s s' r r' Hi Hkw Sl Ekw W A G.
      assert (Hnm : In nm solver_words).
      { apply (properties_words _ _ Hl nm q). rewrite El. apply in_or_app; right; right; exact Hi. }
      destruct (Sb _ _ _ Hkw Hnm W) as [rest ->]. rewrite (applyProperty_ext q nm rest s r s' r' Hnm); [exact G| |exact A].
      intros ->. exact (Hno q Hi).
    + exists ADS. auto.
Qed.
End Properties.
