(* IEEE 754 double precision, from Flocq: the Num instance in which NaN and
   infinities exist and every operation rounds to nearest even. *)
From Coq Require Import ZArith Reals.
From Flocq Require Import IEEE754.BinarySingleNaN Core.
From Verif Require Import Base.
Local Open Scope Z_scope.

Definition prec64 := 53.
Definition emax64 := 1024.
Definition f64 := binary_float prec64 emax64.
#[global] Instance Hprec64 : Prec_gt_0 prec64 := eq_refl.
#[global] Instance Hmax64 : Prec_lt_emax prec64 emax64 := eq_refl.

Definition f64_of_Z (z : Z) : f64 := binary_normalize prec64 emax64 Hprec64 Hmax64 mode_NE z 0 false.

#[global] Instance NumF : Num f64 := {|
  nofZ := f64_of_Z;
  nadd := Bplus mode_NE;
  nsub := Bminus mode_NE;
  nmul := Bmult mode_NE;
  ndiv := Bdiv mode_NE;
  nopp := Bopp;
  nabs := Babs;
  nltb := Bltb;
  nleb := Bleb
|}.

Definition f64_nan : f64 := B754_nan.
