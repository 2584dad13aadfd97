(** Model of _separate_list of catlearn/preprocess/feature_engineering.py. *)
From Coq Require Import List Arith Bool.
From Verif Require Import Base.
Import ListNotations.

(** format(i, '0<n>b'), 260: the last n binary digits of i, first the largest; the loop only reaches i below 2^n, which has no
    more digits. True is '1'. *)
Fixpoint digits (n i : nat) : list bool :=
  match n with O => [] | S k => Nat.odd (i / 2 ^ k) :: digits k i end.

(** 261-267: the elements of p whose digit is b *)
Definition picked {A} (b : bool) (key : list bool) (p : list A) : list A :=
  map snd (filter (fun q => Bool.eqb (fst q) b) (combine key p)).

(** 255-268. [python3] is the version of the interpreter (setup.py 37 allows 2.7 and 3): '/' of line 256 is a float in
    version 3, which range does not take, and the integer quotient in version 2, -1 for no elements, where range is empty
    as well. *)
Definition separate_list {A} (python3 : bool) (p : list A) : result (list (list A * list A)) :=
  if python3 then Err TypeError else
  let n := length p in
  Ok (map (fun i => (picked false (digits n i) p, picked true (digits n i) p)) (seq 1 ((2 ^ n - 2) / 2))).
