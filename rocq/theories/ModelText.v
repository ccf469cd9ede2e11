(* Text: the std::string, <cctype> and std::to_string operations the program
   calls. Nothing here models a function of /repo. Characters are bytes in the
   C locale: a byte of 128 or more is no letter, digit or blank. *)
From Coq Require Import String Ascii ZArith List Bool DecimalString.
Import ListNotations.
Local Open Scope string_scope.

(* The char values compared by isspace and isdigit (Input.cpp:156) *)
Definition code (c : ascii) : nat := nat_of_ascii c.
(* The ranges behind isdigit and isalpha (additionalPrintFuncs.cpp:364 and 405) *)
Definition between (lo hi : nat) (c : ascii) : bool := (Nat.leb lo (code c) && Nat.leb (code c) hi)%bool.

(* <cctype>; Input.cpp:156 *)
Definition isspace (c : ascii) : bool := (between 9 13 c || Nat.eqb (code c) 32)%bool.
(* additionalPrintFuncs.cpp:364 and 387 *)
Definition isdigit : ascii -> bool := between 48 57.
(* additionalPrintFuncs.cpp:405 *)
Definition isalpha (c : ascii) : bool := (between 65 90 c || between 97 122 c)%bool.
(* Input.cpp:170-172 *)
Definition tolower (c : ascii) : ascii := if between 65 90 c then ascii_of_nat (code c + 32) else c.

(* std::transform(s.begin(), s.end(), s.begin(), ::tolower); Input.cpp:170-172 and 203-204 *)
Fixpoint lower (s : string) : string :=
  match s with "" => "" | String c s' => String (tolower c) (lower s') end.

(* std::all_of over the characters; additionalPrintFuncs.cpp:367-368 and 387 *)
Fixpoint all_of (p : ascii -> bool) (s : string) : bool :=
  match s with "" => true | String c s' => (p c && all_of p s')%bool end.

(* s.find(key) != npos; Input.cpp:160-224 *)
Definition contains (key s : string) : bool :=
  match index 0 key s with Some _ => true | None => false end.

(* s.front(); libstdc++ keeps a '\0' behind the last character, which is what
   front() of an empty string reads; Input.cpp:168 and 201, additionalPrintFuncs.cpp:405 *)
Definition front (s : string) : ascii := match s with "" => "000"%char | String c _ => c end.

(* s.find_last_of(set); The loop of find_last_of at Output.cpp:78, 89 and 121 *)
Fixpoint last_of (p : ascii -> bool) (i : nat) (s : string) (acc : option nat) : option nat :=
  match s with
  | "" => acc
  | String c s' => last_of p (S i) s' (if p c then Some i else acc)
  end.
(* Output.cpp:78, 89 and 121 *)
Definition find_last_of (p : ascii -> bool) (s : string) : option nat := last_of p 0 s None.

(* s.substr(i); Output.cpp:83 and 94 *)
Definition substr_from (i : nat) (s : string) : string := substring i (String.length s) s.

(* std::to_string(int); Input.cpp:511 and 562, plot.cpp:84 and 128 *)
Definition to_string (z : Z) : string := NilZero.string_of_int (Z.to_int z).

(* the words an istream_iterator<std::string> yields: maximal runs of
   characters that are not blanks; Input.cpp:236-237 *)
Fixpoint words_acc (w : string) (s : string) : list string :=
  match s with
  | "" => match w with "" => [] | _ => [w] end
  | String c s' =>
      if isspace c
      then match w with "" => words_acc "" s' | _ => w :: words_acc "" s' end
      else words_acc (w ++ String c "") s'
  end.
(* Input.cpp:236-237 *)
Definition words (s : string) : list string := words_acc "" s.
