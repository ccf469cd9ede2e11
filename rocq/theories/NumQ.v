(* Rational arithmetic, used only to run the model on examples. *)
From Coq Require Import ZArith QArith Qabs.
From Verif Require Import Base.

#[global] Instance NumQ : Num Q := {|
  nofZ := inject_Z;
  nadd := fun x y => Qred (x + y);
  nsub := fun x y => Qred (x - y);
  nmul := fun x y => Qred (x * y);
  ndiv := fun x y => Qred (x / y);
  nopp := Qopp;
  nabs := Qabs;
  nltb := fun x y => match Qcompare x y with Lt => true | _ => false end;
  nleb := Qle_bool
|}.
