(* How a double is written in the log: the conversion "%7.6e" of
   PrintFuncs::stringFormat and of the {:7.6e} fields of Output::print. *)
From Coq Require Import String Ascii ZArith List Bool.
From Flocq Require Import IEEE754.BinarySingleNaN.
From Verif Require Import Base NumF ModelText.
Local Open Scope string_scope.
Local Open Scope Z_scope.

(* the last k decimal digits of z; snprintf of additionalPrintFuncs.cpp:331 *)
Fixpoint lastDigits (k : nat) (z : Z) : string :=
  match k with
  | O => ""
  | S k' => lastDigits k' (z / 10) ++ String (ascii_of_nat (48 + Z.to_nat (z mod 10))) ""
  end.

(* the largest e with 10^e <= n/D; snprintf of additionalPrintFuncs.cpp:331 *)
Fixpoint expUp (fuel : nat) (n D k : Z) : Z :=
  match fuel with
  | O => k
  | S f => if n <? 10 * D then k else expUp f n (10 * D) (k + 1)
  end.
(* the same below one: N is n 10^k; snprintf of additionalPrintFuncs.cpp:331 *)
Fixpoint expDown (fuel : nat) (N d k : Z) : Z :=
  match fuel with
  | O => - k
  | S f => if d <=? N then - k else expDown f (10 * N) d (k + 1)
  end.
(* the decimal exponent of n/d; snprintf of additionalPrintFuncs.cpp:331 *)
Definition decExp (n d : Z) : Z :=
  if d <=? n then expUp (Z.to_nat (Z.log2 n + 1)) n d 0
  else expDown (Z.to_nat (Z.log2 d + 2)) n d 0.

(* n/d to the nearest integer, ties to even: the rounding mode is never
   changed; snprintf of additionalPrintFuncs.cpp:331 *)
Definition nearest (n d : Z) : Z :=
  let q := n / d in let r := n mod d in
  if 2 * r <? d then q else if d <? 2 * r then q + 1 else if Z.even q then q else q + 1.

(* seven digits and the exponent of n/d, with the carry of 9.9999996;
   snprintf of additionalPrintFuncs.cpp:331 *)
Definition sevenDigits (n d : Z) : Z * Z :=
  let e := decExp n d in
  let m := if e <=? 6 then nearest (n * 10 ^ (6 - e)) d else nearest n (d * 10 ^ (e - 6)) in
  if m =? 10 ^ 7 then (10 ^ 6, e + 1) else (m, e).

(* d.dddddde+XX, two digits of exponent or three; snprintf of
   additionalPrintFuncs.cpp:331 *)
Definition scientific (m e : Z) : string :=
  lastDigits 1 (m / 10 ^ 6) ++ "." ++ lastDigits 6 m ++ "e" ++ (if e <? 0 then "-" else "+") ++
  lastDigits (if Z.abs e <? 100 then 2 else 3) (Z.abs e).

(* the numerator and denominator of m 2^e; a finite double of
   additionalPrintFuncs.cpp:331 *)
Definition ratio (m : positive) (e : Z) : Z * Z :=
  if 0 <=? e then (Zpos m * 2 ^ e, 1) else (Zpos m, 2 ^ (- e)).

(* snprintf(buffer, 32, "%7.6e", x), additionalPrintFuncs.cpp:327-335: numbers
   are longer than the width 7, nan and inf are padded. The sign of a NaN is
   not modelled. The 32 bytes are applied in stringFormat. *)
Definition formatE (x : f64) : string :=
  match x with
  | B754_nan => "    nan"
  | B754_infinity s => if s then "   -inf" else "    inf"
  | B754_zero s => (if s then "-" else "") ++ "0.000000e+00"
  | B754_finite s m e _ =>
      let '(n, d) := ratio m e in
      let '(m, e) := sevenDigits n d in
      (if s then "-" else "") ++ scientific m e
  end.

(* additionalPrintFuncs.cpp:327-335: at most 31 characters fit the buffer *)
Definition stringFormat (x : f64) : string := substring 0 31 (formatE x).
