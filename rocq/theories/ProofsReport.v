(* Lemmas on what the calculations print: the getters of the mesh, inverted, and
   the lines they give. *)
From Coq Require Import String ZArith List Bool Lia Arith.
From Verif Require Import Base BaseLemmas ModelNumTools ModelEigen ModelMesh ModelReactor ModelDiffusion ModelHeat
  ModelSpectrum ModelKinetics ModelOutput ModelCalculation ModelLog ProofsCoupled ProofsFrame ProofsInputG.
Import ListNotations.
Local Open Scope string_scope.
Local Open Scope Z_scope.

(* ---------- access ---------- *)

Lemma vset_inv {T} (v v' : vec T) i x : vset v i x = Ok v' ->
  0 <= i < vlen v /\ vlen v' = vlen v /\ forall k, vat v' k = if k =? i then x else vat v k.
Proof.
  unfold vset. destruct (inb i (vlen v)) eqn:E; [|discriminate]. intros H. injection H as <-. apply inb_true in E. auto.
Qed.
Lemma mget_inv {T} (m : mat T) i j x : mget m i j = Ok x -> 0 <= i < mrows m /\ 0 <= j < mcols m /\ x = mat_at m i j.
Proof.
  unfold mget. destruct (inb i (mrows m)) eqn:E1; [|discriminate]. destruct (inb j (mcols m)) eqn:E2; [|discriminate].
  intros H. injection H as <-. apply inb_true in E1. apply inb_true in E2. auto.
Qed.
Lemma mset_inv {T} (m m' : mat T) i j x : mset m i j x = Ok m' ->
  mrows m' = mrows m /\ mcols m' = mcols m /\ forall a b, mat_at m' a b = if (a =? i) && (b =? j) then x else mat_at m a b.
Proof.
  unfold mset. destruct (inb i (mrows m)); [|discriminate]. destruct (inb j (mcols m)); [|discriminate].
  intros H. injection H as <-. auto.
Qed.
Lemma t3set_inv {T} (t t' : ten3 T) i j k x : t3set t i j k x = Ok t' ->
  td0 t' = td0 t /\ td1 t' = td1 t /\ td2 t' = td2 t /\
  forall a b c, t3_at t' a b c = if (a =? i) && (b =? j) && (c =? k) then x else t3_at t a b c.
Proof.
  unfold t3set. destruct (inb i (td0 t)); [|discriminate]. destruct (inb j (td1 t)); [|discriminate].
  destruct (inb k (td2 t)); [|discriminate]. intros H. injection H as <-. auto.
Qed.
Lemma lget_lt {A} (l : list A) i x : lget l i = Ok x -> 0 <= i < zlen l.
Proof.
  intros H. apply lget_inv in H as [H1 H2]. split; [exact H1|]. unfold zlen.
  assert (Z.to_nat i < length l)%nat by (apply nth_error_Some; congruence). lia.
Qed.

(* ---------- ranges ---------- *)

(* the cells, through their numbers *)
Lemma zrange_firstn {A B} (l : list A) n (h : Z -> B) (h' : A -> B) : n <= zlen l ->
  (forall j x, 0 <= j < n -> nth_error l (Z.to_nat j) = Some x -> h j = h' x) ->
  map h (zrange 0 n) = map h' (firstn (Z.to_nat n) l).
Proof.
  intros Hn H. unfold zrange. rewrite map_map. replace (n - 0) with n by lia. unfold zlen in Hn.
  assert (G : forall k, (k <= Z.to_nat n)%nat ->
    map (fun x => h (0 + Z.of_nat x)) (seq 0 k) = map h' (firstn k l)).
  { induction k as [|k IH]; intros Hk; [reflexivity|]. rewrite seq_S, map_app, IH by lia. cbn [map app].
    destruct (nth_error l k) as [x|] eqn:E.
    - assert (E2 : firstn (S k) l = (firstn k l ++ [x])%list).
      { clear - E. revert l E. induction k as [|k IH]; intros [|y l] E; cbn in *; try discriminate; [congruence|].
        f_equal. apply IH. exact E. }
      rewrite E2, map_app. cbn [map]. do 2 f_equal. rewrite (H (0 + Z.of_nat (0 + k)) x); [reflexivity|lia|].
      replace (Z.to_nat (0 + Z.of_nat (0 + k))) with k by lia. exact E.
    - apply nth_error_None in E. lia. }
  apply G. lia.
Qed.
Lemma list_of_vec_zrange {T} (v : vec T) : list_of_vec v = map (vat v) (zrange 0 (vlen v)).
Proof. unfold list_of_vec, zrange. rewrite map_map. replace (vlen v - 0) with (vlen v) by lia. apply map_ext. intros; f_equal; lia. Qed.
Lemma list_of_vec_of_list {T} d (l : list T) : list_of_vec (vec_of_list d l) = l.
Proof.
  unfold list_of_vec, vec_of_list. cbn [vlen vat]. unfold zlen. rewrite Nat2Z.id.
  rewrite (map_ext _ (fun n => nth n l d)) by (intros; rewrite Nat2Z.id; reflexivity).
  induction l as [|x l IH]; [reflexivity|]. cbn [length seq map nth]. f_equal. rewrite <- seq_shift, map_map. exact IH.
Qed.
Lemma flat_map_ext_in {A B} (f g : A -> list B) l : (forall x, In x l -> f x = g x) -> flat_map f l = flat_map g l.
Proof. induction l as [|x l IH]; intros H; [reflexivity|]. cbn. rewrite H by (left; reflexivity). f_equal. apply IH. intros; apply H; right; assumption. Qed.
Lemma zrange_In i lo hi : In i (zrange lo hi) -> lo <= i < hi.
Proof. unfold zrange. rewrite in_map_iff. intros (k & <- & Hk). apply in_seq in Hk. lia. Qed.
Lemma zrange_nil lo hi : hi <= lo -> zrange lo hi = [].
Proof. intros H. unfold zrange. replace (Z.to_nat (hi - lo)) with O by lia. reflexivity. Qed.
Lemma zrange_snoc lo hi : lo <= hi -> zrange lo (hi + 1) = (zrange lo hi ++ [hi])%list.
Proof.
  intros H. unfold zrange. replace (Z.to_nat (hi + 1 - lo)) with (S (Z.to_nat (hi - lo))) by lia. rewrite seq_S, map_app. cbn [map].
  do 2 f_equal. lia.
Qed.

Section Report.
Context {T : Type} {N : Num T}.
Variable fmt : T -> string.
Variable zfmt : Z -> string.

Definition cellsOf (ms : mesh T) : list (material T) := firstn (Z.to_nat (ms_cells ms)) (ms_mats ms).

(* ---------- the getters, inverted ---------- *)

Lemma cells_inv {S} (body : Z -> S -> res S) (mats : list (material T)) n s s' :
  (forall i a b, body i a = Ok b -> exists m, lget mats i = Ok m) -> zfor 0 n body s = Ok s' -> n <= zlen mats.
Proof.
  intros Hb H. destruct (Z_le_dec n 0) as [Hn|Hn]; [pose proof (zlen_nonneg mats); lia|].
  refine (zfor_inv (fun k _ => k <= zlen mats) body 0 n s s' _ _ _ H); [lia|apply zlen_nonneg|]. intros k a b Hk _ E. destruct (Hb _ _ _ E) as (m & Em). apply lget_lt in Em. lia.
Qed.

Lemma field_inv (get : material T -> T) (ms : mesh T) v :
  zfor 0 (ms_cells ms) (fun i r => m <- lget (ms_mats ms) i ;; vset r i (get m)) (vzeros (ms_cells ms)) = Ok v ->
  vlen v = ms_cells ms /\ list_of_vec v = map get (cellsOf ms).
Proof.
  intros H. assert (Hl : ms_cells ms <= zlen (ms_mats ms)).
  { apply (cells_inv _ _ _ _ _ (fun i a b E => match bind_ok_inv _ _ _ E with ex_intro _ m (conj E1 _) => ex_intro _ m E1 end) H). }
  destruct (Z_le_dec (ms_cells ms) 0) as [Hn|Hn].
  { rewrite zfor_empty in H by lia. injection H as <-. split; [reflexivity|]. rewrite list_of_vec_zrange. cbn [vzeros vconst vlen].
    rewrite zrange_nil by lia. unfold cellsOf. replace (Z.to_nat (ms_cells ms)) with O by lia. reflexivity. }
  assert (G : vlen v = ms_cells ms /\ forall i m, 0 <= i < ms_cells ms -> nth_error (ms_mats ms) (Z.to_nat i) = Some m -> vat v i = get m).
  { refine (zfor_inv (fun k (v : vec T) => vlen v = ms_cells ms /\ forall i m, 0 <= i < k ->
       nth_error (ms_mats ms) (Z.to_nat i) = Some m -> vat v i = get m) _ _ _ _ _ _ _ _ H); [lia|split; [reflexivity|intros; lia]|].
    intros k a b Hk [Ha Hv] E. destruct (bind_ok_inv _ _ _ E) as (m & Em & E2). apply vset_inv in E2 as (_ & L & V).
    apply lget_inv in Em as [_ Em]. split; [congruence|]. intros i m' Hi Em'. rewrite V. destruct (Z.eqb_spec i k) as [->|Hne].
    - congruence.
    - apply Hv; [lia|exact Em']. }
  destruct G as [L V]. split; [exact L|]. rewrite list_of_vec_zrange, L. apply zrange_firstn; [exact Hl|].
  intros j x Hj E. exact (V j x Hj E).
Qed.

Lemma getTemperatures_inv (ms : mesh T) v : getTemperatures ms "C" = Ok v ->
  vlen v = ms_cells ms /\ list_of_vec v = map (fun m => mt_temp m) (cellsOf ms).
Proof.
  unfold getTemperatures. intros H. destruct (bind_ok_inv _ _ _ H) as (v' & E & H1). cbn in H1. injection H1 as <-.
  exact (field_inv (fun m => mt_temp m) ms v' E).
Qed.
Lemma getHeatSources_inv (ms : mesh T) v : getHeatSources ms = Ok v ->
  vlen v = ms_cells ms /\ list_of_vec v = map (fun m => mt_heat m) (cellsOf ms).
Proof. exact (field_inv (fun m => mt_heat m) ms v). Qed.

Lemma fundamental_inv (get : material T -> mat T) (ms : mesh T) f : get_fundamental get ms = Ok f ->
  printMatrix fmt f true =
  (flat_map (fun g => map (fun m => fmt (mat_at (get m) g 0)) (cellsOf ms)) (zrange 0 (ms_groups ms)) ++ [" "])%list.
Proof.
  unfold get_fundamental. intros H. assert (Hl : ms_cells ms <= zlen (ms_mats ms)).
  { apply (cells_inv _ _ _ _ _ (fun i a b E => match bind_ok_inv _ _ _ E with ex_intro _ m (conj E1 _) => ex_intro _ m E1 end) H). }
  assert (G : mrows f = ms_groups ms /\ mcols f = ms_cells ms /\ forall e i m, 0 <= e < ms_groups ms -> 0 <= i < ms_cells ms ->
     nth_error (ms_mats ms) (Z.to_nat i) = Some m -> mat_at f e i = mat_at (get m) e 0).
  { destruct (Z_le_dec (ms_cells ms) 0) as [Hn|Hn].
    { rewrite zfor_empty in H by lia. injection H as <-. repeat split; try reflexivity. intros; lia. }
    refine (zfor_inv (fun k (f : mat T) => mrows f = ms_groups ms /\ mcols f = ms_cells ms /\ forall e i m, 0 <= e < ms_groups ms ->
       0 <= i < k -> nth_error (ms_mats ms) (Z.to_nat i) = Some m -> mat_at f e i = mat_at (get m) e 0) _ _ _ _ _ _ _ _ H);
      [lia|repeat split; intros; lia|].
    intros k a b Hk (Ra & Ca & Va) E. destruct (bind_ok_inv _ _ _ E) as (m & Em & E2). apply lget_inv in Em as [_ Em].
    destruct (Z_le_dec (ms_groups ms) 0) as [Hg|Hg].
    { rewrite zfor_empty in E2 by lia. injection E2 as <-. repeat split; auto. intros; lia. }
    assert (K : mrows b = ms_groups ms /\ mcols b = ms_cells ms /\
       (forall e i, i <> k -> mat_at b e i = mat_at a e i) /\ forall e, 0 <= e < ms_groups ms -> mat_at b e k = mat_at (get m) e 0).
    { refine (zfor_inv (fun j (b : mat T) => mrows b = ms_groups ms /\ mcols b = ms_cells ms /\
         (forall e i, i <> k -> mat_at b e i = mat_at a e i) /\ forall e, 0 <= e < j -> mat_at b e k = mat_at (get m) e 0)
         _ _ _ _ _ _ _ _ E2); [lia|repeat split; auto; intros; lia|].
      intros j c d Hj (Rc & Cc & Oc & Vc) E3. destruct (bind_ok_inv _ _ _ E3) as (x & Ex & E4).
      apply mget_inv in Ex as (_ & _ & ->). apply mset_inv in E4 as (Rd & Cd & Vd). split; [congruence|]. split; [congruence|]. split.
      - intros e i Hi. rewrite Vd. replace ((e =? j) && (i =? k)) with false by lia. apply Oc. exact Hi.
      - intros e He. rewrite Vd, Z.eqb_refl, andb_true_r. destruct (Z.eqb_spec e j) as [->|]; [reflexivity|apply Vc; lia]. }
    destruct K as (Rb & Cb & Ob & Vb). repeat split; auto. intros e i m' He Hi Em'.
    destruct (Z.eq_dec i k) as [->|Hne]; [rewrite Vb by exact He; congruence|]. rewrite Ob by exact Hne. apply Va; auto; lia. }
  destruct G as (R & C & V). unfold printMatrix. rewrite R, C. f_equal. apply flat_map_ext_in. intros e He. apply zrange_In in He.
  apply zrange_firstn; [exact Hl|]. intros j x Hj E. f_equal. exact (V e j x He Hj E).
Qed.

Lemma modes_dims (get : material T -> mat T) nm (ms : mesh T) t : 0 <= nm -> get_modes get nm ms = Ok t ->
  ms_cells ms <= zlen (ms_mats ms) /\ (td0 t = ms_groups ms /\ td1 t = ms_cells ms /\ td2 t = nm) /\
  forall e i n m, 0 <= e < ms_groups ms -> 0 <= i < ms_cells ms -> 0 <= n < nm ->
     nth_error (ms_mats ms) (Z.to_nat i) = Some m -> t3_at t e i n = mat_at (get m) e n.
Proof.
  unfold get_modes. intros Hnm H. assert (Hl : ms_cells ms <= zlen (ms_mats ms)).
  { apply (cells_inv _ _ _ _ _ (fun i a b E => match bind_ok_inv _ _ _ E with ex_intro _ m (conj E1 _) => ex_intro _ m E1 end) H). }
  set (dims := fun t : ten3 T => td0 t = ms_groups ms /\ td1 t = ms_cells ms /\ td2 t = nm).
  assert (G : dims t /\ forall e i n m, 0 <= e < ms_groups ms -> 0 <= i < ms_cells ms -> 0 <= n < nm ->
     nth_error (ms_mats ms) (Z.to_nat i) = Some m -> t3_at t e i n = mat_at (get m) e n).
  { destruct (Z_le_dec (ms_cells ms) 0) as [Hn|Hn].
    { rewrite zfor_empty in H by lia. injection H as <-. split; [repeat split|]. intros; lia. }
    refine (zfor_inv (fun k t => dims t /\ forall e i n m, 0 <= e < ms_groups ms -> 0 <= i < k -> 0 <= n < nm ->
     nth_error (ms_mats ms) (Z.to_nat i) = Some m -> t3_at t e i n = mat_at (get m) e n) _ _ _ _ _ _ _ _ H);
      [lia|split; [repeat split|]; intros; lia|].
    intros k a b Hk (Da & Va) E. destruct (bind_ok_inv _ _ _ E) as (m & Em & E2). apply lget_inv in Em as [_ Em].
    assert (K : dims b /\ (forall e i n, i <> k -> t3_at b e i n = t3_at a e i n) /\
        forall e n, 0 <= e < ms_groups ms -> 0 <= n < nm -> t3_at b e k n = mat_at (get m) e n).
    { refine (zfor_inv (fun p b => dims b /\ (forall e i n, i <> k -> t3_at b e i n = t3_at a e i n) /\
        forall e n, 0 <= e < ms_groups ms -> 0 <= n < p -> t3_at b e k n = mat_at (get m) e n) _ _ _ _ _ _ _ _ E2);
        [lia|split; [exact Da|split; auto; intros; lia]|].
      intros p c d Hp (Dc & Oc & Vc) E3.
      destruct (Z_le_dec (ms_groups ms) 0) as [Hg|Hg].
      { rewrite zfor_empty in E3 by lia. injection E3 as <-. split; [exact Dc|]. split; [exact Oc|]. intros; lia. }
      assert (K : dims d /\ (forall e i n, i <> k \/ n <> p -> t3_at d e i n = t3_at c e i n) /\
        forall e, 0 <= e < ms_groups ms -> t3_at d e k p = mat_at (get m) e p).
      { refine (zfor_inv (fun q d => dims d /\ (forall e i n, i <> k \/ n <> p -> t3_at d e i n = t3_at c e i n) /\
          forall e, 0 <= e < q -> t3_at d e k p = mat_at (get m) e p) _ _ _ _ _ _ _ _ E3);
          [lia|split; [exact Dc|split; auto; intros; lia]|].
        intros q x y Hq (Dx & Ox & Vx) E4. destruct (bind_ok_inv _ _ _ E4) as (z & Ez & E5).
        apply mget_inv in Ez as (_ & _ & ->). apply t3set_inv in E5 as (D0 & D1 & D2 & Vy).
        split; [unfold dims in *; intuition congruence|]. split.
        - intros e i n Hi. rewrite Vy. replace ((e =? q) && (i =? k) && (n =? p)) with false by lia. apply Ox. exact Hi.
        - intros e He. rewrite Vy, !Z.eqb_refl, !andb_true_r. destruct (Z.eqb_spec e q) as [->|]; [reflexivity|apply Vx; lia]. }
      destruct K as (Dd & Od & Vd). split; [exact Dd|]. split.
      - intros e i n Hi. rewrite Od by (left; exact Hi). apply Oc. exact Hi.
      - intros e n He Hn'. destruct (Z.eq_dec n p) as [->|Hne]; [apply Vd; exact He|].
        rewrite Od by (right; exact Hne). apply Vc; [exact He|lia]. }
    destruct K as (Db & Ob & Vb). split; [exact Db|]. intros e i n m' He Hi Hn' Em'.
    destruct (Z.eq_dec i k) as [->|Hne]; [rewrite Vb by assumption; congruence|]. rewrite Ob by exact Hne. apply Va; auto; lia. }
  split; [exact Hl|exact G].
Qed.

Lemma modes_inv (get : material T -> mat T) nm (ms : mesh T) t : 0 <= nm -> get_modes get nm ms = Ok t ->
  td2 t = nm /\ forall n, 0 <= n < nm ->
  printMatrix fmt (mkmat (td0 t) (td1 t) (fun i j => t3_at t i j n)) true =
  (flat_map (fun g => map (fun m => fmt (mat_at (get m) g n)) (cellsOf ms)) (zrange 0 (ms_groups ms)) ++ [" "])%list.
Proof.
  intros Hnm H. destruct (modes_dims get nm ms t Hnm H) as (Hl & G).
  destruct G as ((D0 & D1 & D2) & V). split; [exact D2|]. intros n Hn. unfold printMatrix. cbn [mrows mcols mat_at]. rewrite D0, D1. f_equal.
  apply flat_map_ext_in. intros e He. apply zrange_In in He. apply zrange_firstn; [exact Hl|]. intros j x Hj E. f_equal.
  exact (V e j n x He Hj Hn E).
Qed.

(* ---------- the lines ---------- *)

Lemma logLines_app thr (a b : log T) : logLines fmt zfmt thr (a ++ b)%list = (logLines fmt zfmt thr a ++ logLines fmt zfmt thr b)%list.
Proof. unfold logLines. apply flat_map_app. Qed.
Lemma shown_critical thr : shown thr CRITICAL = true.
Proof. destruct thr; reflexivity. Qed.

Lemma printModes_inv thr what t ev l : 0 <= td2 t -> printModes CRITICAL what t ev = Ok l ->
  td2 t <= zlen ev /\
  forall d, logLines fmt zfmt thr l = flat_map (fun n =>
    (("Eigenvalue: " ++ fmt (nth (Z.to_nat n) ev d)) :: (what ++ " " ++ zfmt (n + 1)) ::
     printMatrix fmt (mkmat (td0 t) (td1 t) (fun i j => t3_at t i j n)) true)%string) (zrange 0 (td2 t)).
Proof.
  unfold printModes. intros Ht H.
  refine (zfor_inv (fun k (l : log T) => k <= zlen ev /\ forall d, logLines fmt zfmt thr l = flat_map (fun n =>
    (("Eigenvalue: " ++ fmt (nth (Z.to_nat n) ev d)) :: (what ++ " " ++ zfmt (n + 1)) ::
     printMatrix fmt (mkmat (td0 t) (td1 t) (fun i j => t3_at t i j n)) true)%string) (zrange 0 k)) _ _ _ _ _ _ _ _ H); [lia| |].
  - split; [apply zlen_nonneg|]. intros d. rewrite zrange_nil by lia. reflexivity.
  - intros k a b Hk (Ha & Va) E. destruct (bind_ok_inv _ _ _ E) as (x & Ex & E2). injection E2 as <-.
    split; [apply lget_lt in Ex; lia|]. intros d. rewrite logLines_app, (Va d), zrange_snoc, flat_map_app by lia. f_equal.
    cbn [logLines flat_map fst snd itemLines]. rewrite shown_critical. cbn [app]. rewrite !app_nil_r.
    apply lget_inv in Ex as [_ Ex]. rewrite (nth_error_nth _ _ d Ex). reflexivity.
Qed.

(* the modes and the eigenvalues stored by a solver are as many *)
Lemma setHeatSources_nfwd q (ms ms' : mesh T) : setHeatSources q ms = Ok ms' -> ms_nfwd ms' = ms_nfwd ms /\ ms_nadj ms' = ms_nadj ms.
Proof. unfold setHeatSources. intros H. destruct (bind_ok_inv _ _ _ H) as (l & _ & H1). injection H1 as <-. auto. Qed.

Lemma setNewHeatSource_modes mpi vol e c res (r r' : reactor T) : setNewHeatSource mpi vol e c res r = Ok r' ->
  ms_nfwd (rx_mesh r') = zlen (rx_fwd r').
Proof.
  unfold setNewHeatSource. intros H. destruct (bind_ok_inv _ _ _ H) as (t & _ & H1). destruct (bind_ok_inv _ _ _ H1) as (ms & _ & H2).
  cbn zeta in H2. destruct (bind_ok_inv _ _ _ H2) as (p & _ & H3). destruct (bind_ok_inv _ _ _ H3) as (vm & _ & H4).
  destruct (negb (vlen p =? vlen vm)); [discriminate|]. destruct (bind_ok_inv _ _ _ H4) as (ms' & E & H5). injection H5 as <-.
  apply setHeatSources_nfwd in E as [E _]. cbn [rx_mesh with_mesh rx_fwd with_fwd]. rewrite E. cbn. unfold er_eigenvalues, zlen.
  rewrite map_length. reflexivity.
Qed.
Lemma setAdjointModes_modes e c res (r r' : reactor T) : setAdjointModes e c res r = Ok r' ->
  ms_nadj (rx_mesh r') = zlen (rx_adj r').
Proof.
  unfold setAdjointModes. intros H. destruct (bind_ok_inv _ _ _ H) as (t & _ & H1). destruct (bind_ok_inv _ _ _ H1) as (ms & _ & H2).
  injection H2 as <-. cbn. unfold er_eigenvalues, zlen. rewrite map_length. reflexivity.
Qed.

End Report.
