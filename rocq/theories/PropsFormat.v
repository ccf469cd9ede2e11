(* Property theorems C100: what the text of a number in the log says about it. *)
From Coq Require Import String Ascii ZArith List Bool Lia Reals Lra.
From Flocq Require Import IEEE754.BinarySingleNaN Core.
From Verif Require Import Base NumF ModelText ModelFormat ProofsText ProofsFormat
  ModelNumTools ModelEigen ModelMesh ModelReactor ModelDiffusion ModelHeat ModelSpectrum ModelKinetics ModelOutput ModelCalculation ModelLog PropsCalculation PropsReport.
Import ListNotations.
Local Open Scope string_scope.
Local Open Scope Z_scope.

(* ---------- how a reader understands the text ---------- *)

(* reads digits: their value after acc, how many there are, what follows *)
Fixpoint scan (acc : Z) (k : nat) (s : string) : Z * nat * string :=
  match s with
  | "" => (acc, k, "")
  | String c s' => if isdigit c then scan (10 * acc + Z.of_nat (code c - 48)) (S k) s' else (acc, k, s)
  end.

(* digits . digits e (+|-) digits, and nothing else *)
Definition read_unsigned (s : string) : option R :=
  let '(a, ka, s) := scan 0 0 s in
  match s with
  | String "." s =>
      let '(b, kb, s) := scan a 0 s in
      match s with
      | String "e" (String sg s) =>
          let '(c, kc, s) := scan 0 0 s in
          let e := if Ascii.eqb sg "-" then - c else c in
          if (Nat.leb 1 ka && Nat.leb 1 kb && Nat.leb 1 kc && String.eqb s "" && (Ascii.eqb sg "-" || Ascii.eqb sg "+"))%bool
          then Some (IZR b * powerRZ 10 (e - Z.of_nat kb))%R else None
      | _ => None
      end
  | _ => None
  end.
Definition read_number (s : string) : option R :=
  match s with
  | String "-" s' => match read_unsigned s' with Some v => Some (- v)%R | None => None end
  | _ => read_unsigned s
  end.

(* ---------- reading back ---------- *)

Lemma scan_digits k : forall z acc j rest, 0 <= z -> 0 <= acc ->
  scan acc j (lastDigits k z ++ rest) = scan (acc * 10 ^ Z.of_nat k + z mod 10 ^ Z.of_nat k) (j + k) rest.
Proof.
  induction k as [|k IH]; intros z acc j rest Hz Ha; cbn [lastDigits].
  - cbn [append]. change (10 ^ Z.of_nat 0) with 1. rewrite Z.mod_1_r. f_equal; lia.
  - rewrite ProofsFormat.append_assoc. cbn [append]. rewrite IH by (try apply Z.div_pos; lia). pose proof (Z.mod_pos_bound z 10 ltac:(lia)) as B.
    destruct (digit_char (Z.to_nat (z mod 10)) ltac:(lia)) as [D C]. cbn [scan]. rewrite D, C. f_equal; [|lia].
    rewrite Nat2Z.inj_succ, Z.pow_succ_r by lia. rewrite (Z.rem_mul_r z 10 (10 ^ Z.of_nat k)) by (pose proof (Z.pow_pos_nonneg 10 (Z.of_nat k) ltac:(lia) ltac:(lia)); lia).
    replace (Z.of_nat (48 + Z.to_nat (z mod 10) - 48)) with (z mod 10) by lia. ring.
Qed.

Lemma first_digit z k rest : (1 <= k)%nat -> exists c s, lastDigits k z ++ rest = String c s /\ c <> "-"%char.
Proof.
  intros Hk. destruct k as [|k]; [lia|]. clear Hk. revert z rest. induction k as [|k IH]; intros z rest.
  - cbn [lastDigits append]. eexists _, _. split; [reflexivity|]. pose proof (Z.mod_pos_bound z 10 ltac:(lia)) as B.
    destruct (digit_char (Z.to_nat (z mod 10)) ltac:(lia)) as [D _]. intros X. rewrite X in D. discriminate.
  - change (lastDigits (S (S k)) z) with (lastDigits (S k) (z / 10) ++ String (ascii_of_nat (48 + Z.to_nat (z mod 10))) "").
    rewrite ProofsFormat.append_assoc. apply IH.
Qed.

Lemma ten_power z : powerRZ 10 z = ten z.
Proof. symmetry. apply (bpow_powerRZ radix10). Qed.

Lemma read_scientific (neg : bool) m e : 10 ^ 6 <= m < 10 ^ 7 -> Z.abs e < 1000 ->
  read_number ((if neg then "-" else "") ++ scientific m e) = Some (if neg then - scaled m e else scaled m e)%R.
Proof.
  intros Hm He.
  assert (H : read_unsigned (scientific m e) = Some (scaled m e)).
  { assert (M : 0 * 10 ^ Z.of_nat 1 + (m / 10 ^ 6) mod 10 ^ Z.of_nat 1 = m / 10 ^ 6).
    { change (10 ^ Z.of_nat 1) with 10. change (10 ^ 6) with 1000000 in *. change (10 ^ 7) with 10000000 in Hm. rewrite Z.mod_small; [lia|].
      split; [apply Z.div_pos; lia|apply Z.div_lt_upper_bound; lia]. }
    unfold read_unsigned, scientific. rewrite scan_digits by (try (apply Z.div_pos; lia); lia). rewrite M. cbn [append scan]. change (isdigit ".") with false. cbv iota.
    assert (0 <= m / 10 ^ 6) by (apply Z.div_pos; lia).
    rewrite scan_digits by lia. cbn [append scan]. change (isdigit "e") with false. cbv iota.
    set (c := lastDigits (if Z.abs e <? 100 then 2 else 3) (Z.abs e)).
    assert (Hc : exists k, (1 <= k)%nat /\ scan 0 0 c = (Z.abs e, k, "")).
    { unfold c. exists (if Z.abs e <? 100 then 2%nat else 3%nat). split; [destruct (Z.abs e <? 100); lia|].
      rewrite <- (append_empty_r (lastDigits _ _)), scan_digits by lia. cbn [scan]. f_equal. f_equal.
      destruct (Z.ltb_spec (Z.abs e) 100); cbn [Z.of_nat Pos.of_succ_nat Pos.succ]; rewrite Z.mod_small; lia. }
    destruct Hc as (k & Hk & Ec). 
    assert (M2 : m / 10 ^ 6 * 10 ^ Z.of_nat 6 + m mod 10 ^ Z.of_nat 6 = m).
    { change (10 ^ Z.of_nat 6) with (10 ^ 6). pose proof (Z.div_mod m (10 ^ 6) ltac:(lia)). lia. }
    rewrite M2. unfold scaled. destruct (Z.ltb_spec e 0) as [L|L]; cbn [append]; fold c; rewrite Ec.
    - change (Ascii.eqb "-" "-") with true. cbv iota zeta. cbn [Nat.add Nat.leb andb orb String.eqb]. destruct k as [|k]; [lia|]. cbn [Nat.leb andb].
      rewrite ten_power. replace (- Z.abs e - Z.of_nat 6) with (e - 6) by lia. reflexivity.
    - change (Ascii.eqb "+" "-") with false. cbv iota zeta. cbn [Nat.add Nat.leb andb orb String.eqb]. destruct k as [|k]; [lia|]. cbn [Nat.leb andb].
      change (Ascii.eqb "+" "+") with true. cbv iota. rewrite ten_power. replace (Z.abs e - Z.of_nat 6) with (e - 6) by lia. reflexivity. }
  destruct neg; cbn [append].
  - cbn [read_number]. rewrite H. reflexivity.
  - rewrite <- H. unfold scientific. destruct (first_digit (m / 10 ^ 6) 1 ("." ++ lastDigits 6 m ++ "e" ++ (if e <? 0 then "-" else "+") ++ lastDigits (if Z.abs e <? 100 then 2 else 3) (Z.abs e)) ltac:(lia)) as (c & s & E & N).
    rewrite E. unfold read_number. destruct c as [[] [] [] [] [] [] [] []]; try reflexivity. exfalso. apply N. reflexivity.
Qed.

(* ---------- the buffer ---------- *)

Lemma length_app a b : String.length (a ++ b) = (String.length a + String.length b)%nat.
Proof. induction a; cbn; [reflexivity|f_equal; assumption]. Qed.

Lemma scientific_length m e : (String.length (scientific m e) <= 13)%nat.
Proof.
  unfold scientific. rewrite !length_app, !lastDigits_length. destruct (e <? 0), (Z.abs e <? 100); cbn; lia.
Qed.

(* The text of a number always fits the buffer of 32 bytes: nothing is cut. *)
Theorem C100_fits (x : f64) : (String.length (formatE x) <= 14)%nat /\ stringFormat x = formatE x.
Proof.
  assert (L : (String.length (formatE x) <= 14)%nat).
  { destruct x as [s|s| |s m e H]; try (destruct s; cbn; lia); [cbn; lia|]. cbn [formatE]. destruct (ratio m e) as [n d]. destruct (sevenDigits n d) as [M E].
    rewrite length_app. pose proof (scientific_length M E). destruct s; [change (String.length "-") with 1%nat|change (String.length "") with 0%nat]; lia. }
  split; [exact L|]. unfold stringFormat. revert L. generalize (formatE x). intros s. assert (G : forall k, (String.length s <= k)%nat -> substring 0 k s = s).
  { induction s as [|c s IH]; intros k Hk; destruct k; cbn in *; try reflexivity; [lia|]. f_equal. apply IH. lia. }
  intros L. apply G. lia.
Qed.
Print Assumptions C100_fits.

(* ---------- the value ---------- *)

Lemma shown s m e H : let x := (IZR (Zpos m) * bpow radix2 e)%R in
  exists M E, digits_of x M E /\ read_number (stringFormat (B754_finite s m e H)) = Some (if s then - scaled M E else scaled M E)%R.
Proof.
  intros x. destruct (finite_range s m e H) as (P & _ & B). fold x in P, B. rewrite (proj2 (C100_fits _)). cbn [formatE].
  pose proof (ratio_value m e) as V. destruct (ratio m e) as [n d]. destruct V as (Hn & Hd & V). pose proof (sevenDigits_spec n d Hn Hd) as S.
  destruct (sevenDigits n d) as [M E]. rewrite V in S. fold x in S. exists M, E. split; [exact S|].
  apply read_scientific; [exact (digits_bounds _ _ _ S)|]. pose proof (exponent_range _ _ _ S B). lia.
Qed.

Lemma shown_zero s : read_number (stringFormat (B754_zero s)) = Some 0%R.
Proof. destruct s; vm_compute read_number; f_equal; ring. Qed.

(* A finite double is written as a decimal number, and what a reader makes of it
   differs from the double by at most five ten-millionths of it. *)
Theorem C100_digits (x : f64) : is_finite x = true ->
  exists v, read_number (stringFormat x) = Some v /\ (Rabs (v - B2R x) <= 5 / 10 ^ 7 * Rabs (B2R x))%R.
Proof.
  intros F. destruct x as [s|s| |s m e H]; try discriminate.
  - exists 0%R. split; [apply shown_zero|]. cbn [B2R]. rewrite Rminus_diag_eq, Rabs_R0 by reflexivity. lra.
  - destruct (shown s m e H) as (M & E & D & R0). destruct (finite_range s m e H) as (P & V & _). eexists. split; [exact R0|]. rewrite V.
    set (x := (IZR (Zpos m) * bpow radix2 e)%R) in *. pose proof (digits_error _ _ _ D) as Er.
    assert (A : Rabs ((if s then - scaled M E else scaled M E) - (if s then - x else x)) = Rabs (scaled M E - x)).
    { destruct s; [|reflexivity]. replace (- scaled M E - - x)%R with (- (scaled M E - x))%R by ring. apply Rabs_Ropp. }
    assert (A' : Rabs (if s then - x else x)%R = x) by (destruct s; [rewrite Rabs_Ropp|]; apply Rabs_pos_eq; lra).
    rewrite A, A'. lra.
Qed.
Print Assumptions C100_digits.

(* A double with at most seven decimal digits is written exactly. *)
Theorem C100_exact (x : f64) z k : is_finite x = true -> Z.abs z < 10 ^ 7 -> B2R x = (IZR z * powerRZ 10 k)%R ->
  read_number (stringFormat x) = Some (B2R x).
Proof.
  intros F Hz Hx. destruct x as [s|s| |s m e H]; try discriminate.
  - apply shown_zero.
  - destruct (shown s m e H) as (M & E & D & R0). destruct (finite_range s m e H) as (P & V & _). rewrite R0, V. f_equal.
    set (x := (IZR (Zpos m) * bpow radix2 e)%R) in *. rewrite V, ten_power in Hx. pose proof (bpow_gt_0 radix10 k) as T.
    assert (X : scaled M E = x); [|destruct s; rewrite X; reflexivity].
    assert (Xz : exists w, 0 < w < 10 ^ 7 /\ x = (IZR w * ten k)%R).
    { destruct s.
      - exists (- z). assert (x = (IZR (- z) * ten k)%R) by (rewrite opp_IZR; lra). split; [|assumption].
        assert (0 < - z) by (apply lt_IZR; apply Rmult_lt_reg_r with (ten k); [exact T|]; lra). lia.
      - exists z. split; [|exact Hx]. assert (0 < z) by (apply lt_IZR; apply Rmult_lt_reg_r with (ten k); [exact T|]; lra). lia. }
    destruct Xz as (w & Hw & ->). rewrite (digits_exact w k M E Hw D). reflexivity.
Qed.
Print Assumptions C100_exact.

Lemma scaled_pos x M E : digits_of x M E -> (0 < scaled M E)%R.
Proof. intros D. pose proof (digits_bounds _ _ _ D). apply Rmult_lt_0_compat; [apply IZR_lt; lia|apply bpow_gt_0]. Qed.

(* The order of two numbers survives: the larger one is never written smaller. *)
Theorem C100_order (x y : f64) : is_finite x = true -> is_finite y = true -> (B2R x <= B2R y)%R ->
  exists v w, read_number (stringFormat x) = Some v /\ read_number (stringFormat y) = Some w /\ (v <= w)%R.
Proof.
  intros Fx Fy L. destruct x as [s|s| |s m e H]; try discriminate; destruct y as [t|t| |t m' e' H']; try discriminate.
  - exists 0%R, 0%R. rewrite !shown_zero. split; [reflexivity|]. split; [reflexivity|lra].
  - destruct (shown t m' e' H') as (M & E & D & R0). destruct (finite_range t m' e' H') as (P & V & _). pose proof (scaled_pos _ _ _ D).
    eexists _, _. rewrite shown_zero, R0. split; [reflexivity|]. split; [reflexivity|]. rewrite V in L. cbn [B2R] in L. destruct t; lra.
  - destruct (shown s m e H) as (M & E & D & R0). destruct (finite_range s m e H) as (P & V & _). pose proof (scaled_pos _ _ _ D).
    eexists _, _. rewrite shown_zero, R0. split; [reflexivity|]. split; [reflexivity|]. rewrite V in L. cbn [B2R] in L. destruct s; lra.
  - destruct (shown s m e H) as (M & E & D & R0). destruct (finite_range s m e H) as (P & V & _).
    destruct (shown t m' e' H') as (M' & E' & D' & R0'). destruct (finite_range t m' e' H') as (P' & V' & _).
    pose proof (scaled_pos _ _ _ D). pose proof (scaled_pos _ _ _ D'). rewrite V, V' in L.
    eexists _, _. rewrite R0, R0'. split; [reflexivity|]. split; [reflexivity|]. destruct s, t; try lra.
    + pose proof (digits_order _ _ _ _ _ _ D' D ltac:(lra)). lra.
    + exact (digits_order _ _ _ _ _ _ D D' L).
Qed.
Print Assumptions C100_order.

(* A result that is not a number is not written as one. *)
Theorem C100_not_a_number (x : f64) : is_finite x = false -> read_number (stringFormat x) = None.
Proof. destruct x as [s|s| |s m e H]; try discriminate; intros _; [destruct s|]; reflexivity. Qed.
Print Assumptions C100_not_a_number.

(* Numbers that differ by less than a unit of the seventh digit may have the
   same text: one and the next double. *)
Definition one : f64 := f64_of_Z 1.
Definition next : f64 := Bsucc one.
Theorem C100_distinct_refuted : exists x y : f64, is_finite x = true /\ is_finite y = true /\ Bltb x y = true /\ stringFormat x = stringFormat y.
Proof. exists one, next. repeat split; vm_compute; reflexivity. Qed.
Print Assumptions C100_distinct_refuted.

(* two thirds, a number below the least normal one, 123456.7 and others *)
Definition tiny : f64 := @B754_finite prec64 emax64 true 2024 (- 1074) eq_refl.
Example C100_texts :
  stringFormat (Bdiv mode_NE (f64_of_Z 2) (f64_of_Z 3)) = "6.666667e-01" /\
  stringFormat (f64_of_Z (- 9999998500)) = "-9.999998e+09" /\ stringFormat (f64_of_Z 9999999500) = "1.000000e+10" /\
  stringFormat tiny = "-9.999889e-321" /\
  stringFormat (Bdiv mode_NE (f64_of_Z 1234567) (f64_of_Z 10)) = "1.234567e+05" /\ stringFormat f64_nan = "    nan".
Proof. repeat split; vm_compute; reflexivity. Qed.

(* ---------- the numbers of a calculation, as the log file shows them ---------- *)

(* t is the text of the double x: a reader gets it up to five ten-millionths *)
Definition tells (t : string) (x : f64) : Prop :=
  exists v, read_number t = Some v /\ (Rabs (v - B2R x) <= 5 / 10 ^ 7 * Rabs (B2R x))%R.

Section Run.
Variable zfmt : Z -> string.
Variable thr : TraceLevel.
Variable mpi : f64.
Variable solver : mat f64 -> vec f64 -> vec f64.
Variable sort : list (f64 * vec f64) -> list (f64 * vec f64).
Variable eig : mat f64 -> mat f64 -> vec (f64 * f64) * mat (f64 * f64).
Variable croots : list f64 -> list (f64 * f64).
Variables expint3 bickley3f nexp nsqrt : f64 -> f64.
Variable to_unsigned : f64 -> res Z.
Let run := problemSolve mpi solver sort eig croots expint3 bickley3f nexp nsqrt to_unsigned.
Let lines oc := logLines stringFormat zfmt thr (oc_log oc).

(* Whatever the level of the log, the file of a transport calculation, or of a
   forward one with diffusion, has a line with the multiplication factor, and
   that line tells its value. *)
Theorem C100_kfactor o pk sd r oc k ks :
  run o pk [sd] r = Ok oc -> sd_kind sd = TRANSPORT \/ sd_kind sd = DIFFUSION /\ sd_dir sd = FORWARD ->
  rx_fwd (oc_reactor oc) = k :: ks -> is_finite k = true ->
  exists t, In ("Fundamental K-factor: " ++ t) (lines oc) /\ tells t k.
Proof.
  intros H K E F. exists (stringFormat k). split; [|apply C100_digits; exact F]. unfold lines.
  rewrite (C83_single_report stringFormat zfmt thr _ _ _ _ _ _ _ _ _ _ o pk sd r oc H) by (destruct K as [->|[-> _]]; discriminate).
  apply in_or_app. right. unfold results. rewrite E. destruct K as [->|[-> ->]]; left; reflexivity.
Qed.

(* The temperatures of a heat calculation stand in the file below their title,
   one line for each cell, in order, and every line tells its temperature. *)
Theorem C100_temperatures o pk sd r oc :
  run o pk [sd] r = Ok oc -> sd_kind sd = HEAT ->
  let ts := map (fun m => mt_temp m) (firstn (Z.to_nat (ms_cells (rx_mesh (oc_reactor oc)))) (ms_mats (rx_mesh (oc_reactor oc)))) in
  Forall (fun t => is_finite t = true) ts ->
  exists texts, lines oc = ("Final temperatures [C]:" :: texts ++ [" "])%list /\ Forall2 tells texts ts.
Proof.
  intros H K ts F. exists (map stringFormat ts). unfold lines.
  rewrite (C83_single_report stringFormat zfmt thr _ _ _ _ _ _ _ _ _ _ o pk sd r oc H) by (rewrite K; discriminate).
  unfold modes, results. rewrite K. unfold heatReport, perCell, ts. rewrite map_map. split; [reflexivity|].
  unfold ts in F. clear ts. revert F.
  generalize (firstn (Z.to_nat (ms_cells (rx_mesh (oc_reactor oc)))) (ms_mats (rx_mesh (oc_reactor oc)))). intros l F.
  induction l as [|m l IH]; cbn in *; [constructor|]. inversion_clear F. constructor; [apply C100_digits; assumption|auto].
Qed.
End Run.
Print Assumptions C100_kfactor.
Print Assumptions C100_temperatures.

(* the slab of two cells of C83, with diffusion alone and with heat alone *)
Module Texts.
Definition lines (oc : outcome f64) := logLines stringFormat Shown.zfmt CRITICAL (oc_log oc).
Definition hot : material f64 :=
  mkMaterial "fuel" 1 (Witness.q 1 3) (Witness.q 1 3) (mzeros 0 0) (mzeros 0 0) (vzeros 0) (Some [Witness.q 1 1; Witness.q 4 1])
    [[Witness.q 1 10]] [[Witness.q 1 10]] [[Witness.q 1 1]] [[Witness.q 0 1]] [[Witness.q 5 2]] [[Witness.q 1 1]].
Definition heated := mkReactor (mkMesh (vec_of_list n0 [Witness.q 0 1; Witness.q 1 2; Witness.q 1 1]) SLAB 2 1 [hot; hot] 1 1)
  (Witness.q 2 1) [] [] (mkKinetics n0 n0 [] [] [] []) (n0, 0, 0).
Definition alone sd := problemSolve (Witness.q 355 113) Witness.cramer (fun l => l) Witness.none (fun _ => [])
  (fun x => x) (fun x => x) (fun x => x) (fun x => x) (fun _ => Ok 0) newOutput [] [sd] heated.
Definition check sd l : bool :=
  match alone sd with
  | Ok a => (Shown.same (lines a) l && forallb (fun x => is_finite x) (rx_fwd (oc_reactor a)) &&
             forallb (fun m => is_finite (mt_temp m)) (ms_mats (rx_mesh (oc_reactor a))))%bool
  | _ => false
  end.
Definition neutrons : list string :=
  ["Fundamental K-factor: 2.500000e+00"; "Fundamental Neutron Flux [1/(cm2*s)]:"; "5.000000e-01"; "5.000000e-01"; " ";
   "Thermal power density [W/m3]:"; "2.000000e+00"; "2.000000e+00"; " "].
Definition heats : list string := ["Final temperatures [C]:"; "1.785714e-02"; "1.785714e-02"; " "].
End Texts.
Example C100_runs_met : Texts.check Witness.s1 Texts.neutrons = true /\ Texts.check Witness.s2 Texts.heats = true.
Proof. split; vm_compute; reflexivity. Qed.
