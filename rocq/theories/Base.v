(* Common vocabulary of the model: outcomes, counting loops, the operations of
   C++ double, checked containers. Nothing here models a function of /repo; the
   containers stand for std::vector, Eigen::VectorXd/MatrixXd and
   Eigen::Tensor, whose out-of-range accesses are undefined behaviour. *)
From Coq Require Import String ZArith List Bool Lia.
Import ListNotations.
Local Open Scope Z_scope.

(* ---------- outcomes ---------- *)

Inductive res (A : Type) : Type :=
| Ok (a : A)              (* normal return *)
| Exit (m : string)       (* error message followed by exit(-1) *)
| Throw (m : string)      (* uncaught C++ exception *)
| UB (m : string).        (* undefined behaviour *)
Arguments Ok {A} a.
Arguments Exit {A} m.
Arguments Throw {A} m.
Arguments UB {A} m.

Definition bind {A B} (m : res A) (f : A -> res B) : res B :=
  match m with
  | Ok a => f a
  | Exit e => Exit e
  | Throw e => Throw e
  | UB e => UB e
  end.

Notation "x <- m ;; k" := (bind m (fun x => k))
  (at level 61, m at next level, right associativity).
Notation "' p <- m ;; k" := (bind m (fun x => match x with p => k end))
  (at level 61, p pattern, m at next level, right associativity).
Notation "m ;;; k" := (bind m (fun _ => k)) (at level 61, right associativity).

(* Normal return with a result satisfying Q. *)
Definition wp {A} (m : res A) (Q : A -> Prop) : Prop :=
  match m with Ok a => Q a | _ => False end.

(* Counting loops: for(i = lo; i < hi; i++) and for(i = hi; i >= lo; i--). *)
Fixpoint iter_up {S} (n : nat) (i : Z) (body : Z -> S -> res S) (s : S) : res S :=
  match n with
  | O => Ok s
  | Datatypes.S n' => s' <- body i s ;; iter_up n' (i + 1) body s'
  end.
Definition zfor {S} (lo hi : Z) (body : Z -> S -> res S) (s : S) : res S :=
  iter_up (Z.to_nat (hi - lo)) lo body s.

Fixpoint iter_down {S} (n : nat) (i : Z) (body : Z -> S -> res S) (s : S) : res S :=
  match n with
  | O => Ok s
  | Datatypes.S n' => s' <- body i s ;; iter_down n' (i - 1) body s'
  end.
Definition zfor_down {S} (hi lo : Z) (body : Z -> S -> res S) (s : S) : res S :=
  iter_down (Z.to_nat (hi - lo + 1)) hi body s.

(* for(auto x : l) *)
Fixpoint foreach {A S} (l : list A) (body : A -> S -> res S) (s : S) : res S :=
  match l with
  | [] => Ok s
  | x :: l' => s' <- body x s ;; foreach l' body s'
  end.

(* ---------- numbers ---------- *)

(* The operations of double the code uses; nltb and nleb are the C++ < and <=. *)
Class Num (T : Type) := {
  nofZ : Z -> T;
  nadd : T -> T -> T;
  nsub : T -> T -> T;
  nmul : T -> T -> T;
  ndiv : T -> T -> T;
  nopp : T -> T;
  nabs : T -> T;
  nltb : T -> T -> bool;
  nleb : T -> T -> bool
}.

Infix "[+]" := nadd (at level 50, left associativity).
Infix "[-]" := nsub (at level 50, left associativity).
Infix "[*]" := nmul (at level 40, left associativity).
Infix "[/]" := ndiv (at level 40, left associativity).
Infix "[<]" := nltb (at level 70, no associativity).
Infix "[<=]" := nleb (at level 70, no associativity).

(* A literal n/d: numerator over denominator, correctly rounded whenever both
   are representable. *)
Definition nlit {T} {N : Num T} (n : Z) (d : Z) : T := nofZ n [/] nofZ d.
Definition n0 {T} {N : Num T} : T := nofZ 0.
Definition n1 {T} {N : Num T} : T := nofZ 1.

(* ---------- containers ---------- *)

Section Containers.
Context {T : Type}.

Record vec := mkvec { vlen : Z; vat : Z -> T }.
Record mat := mkmat { mrows : Z; mcols : Z; mat_at : Z -> Z -> T }.
Record ten3 := mkten3 { td0 : Z; td1 : Z; td2 : Z; t3_at : Z -> Z -> Z -> T }.

Definition inb (i n : Z) : bool := (0 <=? i) && (i <? n).

Definition vget (v : vec) (i : Z) : res T :=
  if inb i (vlen v) then Ok (vat v i) else UB "vector index".
Definition vset (v : vec) (i : Z) (x : T) : res vec :=
  if inb i (vlen v)
  then Ok (mkvec (vlen v) (fun k => if k =? i then x else vat v k))
  else UB "vector index".

Definition mget (m : mat) (i j : Z) : res T :=
  if inb i (mrows m) && inb j (mcols m) then Ok (mat_at m i j) else UB "matrix index".
Definition mset (m : mat) (i j : Z) (x : T) : res mat :=
  if inb i (mrows m) && inb j (mcols m)
  then Ok (mkmat (mrows m) (mcols m)
            (fun a b => if (a =? i) && (b =? j) then x else mat_at m a b))
  else UB "matrix index".

Definition t3get (t : ten3) (i j k : Z) : res T :=
  if inb i (td0 t) && inb j (td1 t) && inb k (td2 t)
  then Ok (t3_at t i j k) else UB "tensor index".
Definition t3set (t : ten3) (i j k : Z) (x : T) : res ten3 :=
  if inb i (td0 t) && inb j (td1 t) && inb k (td2 t)
  then Ok (mkten3 (td0 t) (td1 t) (td2 t)
         (fun a b c => if (a =? i) && (b =? j) && (c =? k) then x else t3_at t a b c))
  else UB "tensor index".

(* std::vector as a list, with operator[] checked. *)
Definition lget (l : list T) (i : Z) : res T :=
  if 0 <=? i then
    match nth_error l (Z.to_nat i) with Some x => Ok x | None => UB "std::vector index" end
  else UB "std::vector index".

Fixpoint list_upd (l : list T) (n : nat) (x : T) : list T :=
  match l, n with
  | [], _ => []
  | _ :: l', O => x :: l'
  | y :: l', S n' => y :: list_upd l' n' x
  end.
Definition lset (l : list T) (i : Z) (x : T) : res (list T) :=
  if inb i (Z.of_nat (length l)) then Ok (list_upd l (Z.to_nat i) x)
  else UB "std::vector index".
Definition zlen (l : list T) : Z := Z.of_nat (length l).

End Containers.
Arguments vec : clear implicits.
Arguments mat : clear implicits.
Arguments ten3 : clear implicits.

Definition vconst {T} (n : Z) (x : T) : vec T := mkvec n (fun _ => x).
Definition mconst {T} (r c : Z) (x : T) : mat T := mkmat r c (fun _ _ => x).
Definition t3const {T} (a b c : Z) (x : T) : ten3 T := mkten3 a b c (fun _ _ _ => x).

Definition vzeros {T} {N : Num T} (n : Z) : vec T := vconst n n0.
Definition vones {T} {N : Num T} (n : Z) : vec T := vconst n n1.
Definition mzeros {T} {N : Num T} (r c : Z) : mat T := mconst r c n0.

(* x += y on one element *)
Definition vadd_at {T} {N : Num T} (v : vec T) (i : Z) (x : T) : res (vec T) :=
  y <- vget v i ;; vset v i (y [+] x).
Definition madd_at {T} {N : Num T} (m : mat T) (i j : Z) (x : T) : res (mat T) :=
  y <- mget m i j ;; mset m i j (y [+] x).
Definition msub_at {T} {N : Num T} (m : mat T) (i j : Z) (x : T) : res (mat T) :=
  y <- mget m i j ;; mset m i j (y [-] x).

(* Left-to-right sum of f i for lo <= i < lo + n. Eigen's sum() may associate
   differently, which matters for rounding only. *)
Fixpoint nsum_up {T} {N : Num T} (n : nat) (i : Z) (f : Z -> T) (acc : T) : T :=
  match n with
  | O => acc
  | S n' => nsum_up n' (i + 1) f (acc [+] f i)
  end.
Definition nsum {T} {N : Num T} (lo hi : Z) (f : Z -> T) : T :=
  nsum_up (Z.to_nat (hi - lo)) lo f n0.

(* Eigen's matrix-vector and matrix-matrix products; sizes must agree
   (an Eigen assertion otherwise). *)
Definition mvmul {T} {N : Num T} (m : mat T) (v : vec T) : vec T :=
  mkvec (mrows m) (fun i => nsum 0 (mcols m) (fun j => mat_at m i j [*] vat v j)).
Definition mmul {T} {N : Num T} (a b : mat T) : mat T :=
  mkmat (mrows a) (mcols b)
        (fun i j => nsum 0 (mcols a) (fun k => mat_at a i k [*] mat_at b k j)).
Definition vdot {T} {N : Num T} (a b : vec T) : T :=
  nsum 0 (vlen a) (fun i => vat a i [*] vat b i).
Definition vsum {T} {N : Num T} (a : vec T) : T := nsum 0 (vlen a) (vat a).
Definition vscale {T} {N : Num T} (a : vec T) (x : T) : vec T :=
  mkvec (vlen a) (fun i => vat a i [*] x).
Definition vdivs {T} {N : Num T} (a : vec T) (x : T) : vec T :=
  mkvec (vlen a) (fun i => vat a i [/] x).
Definition vnorm1 {T} {N : Num T} (a : vec T) : T :=
  nsum 0 (vlen a) (fun i => nabs (vat a i)).

(* Matrix-vector product with Eigen's size assertion. *)
Definition mvmul_c {T} {N : Num T} (m : mat T) (v : vec T) : res (vec T) :=
  if mcols m =? vlen v then Ok (mvmul m v) else UB "Eigen size mismatch".

Definition vec_of_list {T} (d : T) (l : list T) : vec T :=
  mkvec (zlen l) (fun i => nth (Z.to_nat i) l d).
Definition list_of_vec {T} (v : vec T) : list T :=
  map (fun n => vat v (Z.of_nat n)) (seq 0 (Z.to_nat (vlen v))).
