(* Backbone/Library/Uranium.cpp: the properties of metallic uranium.  The class is
   not compiled (it is not in CMakeLists and the header of its base class,
   AbstractMaterial.h, does not exist); the three functions are modelled as they are
   written.  The singleton (Uranium.cpp:6-15) and whatAmI (17-20) are not. *)
From Coq Require Import ZArith Bool.
From Verif Require Import Base ModelNumTools.

Section Uranium.
Context {T : Type} {N : Num T}.

(* Uranium.cpp:29, 60, 90: T + 273.15 *)
Definition kelvin (t : T) : T := t [+] nlit 27315 100.

(* Uranium.cpp:27-51 *)
Definition density (t : T) : T :=
  let Tc := kelvin t in
  if is_lower Tc (nofZ 273) then n0
  else if is_greater Tc (nofZ 273) && is_lower Tc (nofZ 942)
  then nlit 1936 100 [*] nofZ 1000 [-] nlit 103347 100000 [*] Tc
  else if is_greater Tc (nofZ 942) && is_lower Tc (nofZ 1049)
  then nlit 19092 1000 [*] nofZ 1000 [-] nlit 9807 10000 [*] Tc
  else if is_greater Tc (nofZ 1049) && is_lower Tc (nofZ 1405)
  then nlit 18447 1000 [*] nofZ 1000 [-] nlit 5166 10000 [*] Tc
  else n0.

(* Uranium.cpp:58-82; pow(Tc, 2) is the product, which is what the C library
   returns up to rounding *)
Definition heatCapacity (t : T) : T :=
  let Tc := kelvin t in
  if is_lower Tc (nofZ 273) then n0
  else if is_greater Tc (nofZ 273) && is_lower Tc (nofZ 942)
  then nlit 10482 100 [+] nlit 53686 10000 [*] nlit 1 1000 [*] Tc
         [+] nlit 101823 10000 [*] nlit 1 100000 [*] (Tc [*] Tc)
  else if is_greater Tc (nofZ 942) && is_lower Tc (nofZ 1049) then nlit 1764 10
  else if is_greater Tc (nofZ 1049) && is_lower Tc (nofZ 1405) then nlit 1568 10
  else n0.

(* Uranium.cpp:88-104 *)
Definition thermalConductivity (t : T) : T :=
  let Tc := kelvin t in
  if is_lower Tc (nofZ 273) then n0
  else if is_greater Tc (nofZ 273) && is_lower Tc (nofZ 1405)
  then nofZ 22 [+] nlit 23 1000 [*] (Tc [-] nofZ 273)
  else n0.
End Uranium.
