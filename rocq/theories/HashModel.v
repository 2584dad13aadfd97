(** Model of geometry_hash in catlearn/utilities/utilities.py (113-155).

    Coordinates are whole multiples of 10^-6 Angstrom.  [wrap] is what ase's Atoms.wrap does
    to one position, [text] is numpy's text of an array of rounded floats without brackets,
    blanks and dots (its argument says whether the array was abbreviated), [md5] is the
    digest. *)
From Coq Require Import String ZArith List Arith Bool DecimalString.
From Verif Require Import Base.
Import ListNotations.
Local Open Scope nat_scope.

Notation vec := (Z * Z * Z)%type.
Record structure := Structure { cell : list vec; positions : list vec; numbers : list nat }.

Definition str (i : nat) : string := NilZero.string_of_uint (Nat.to_uint i).

(** 129-130, 140: the key (z, y, x) of the two calls of sorted *)
Definition before (a b : vec) : bool :=
  match a, b with
  | (xa, ya, za), (xb, yb, zb) => (za <? zb)%Z || ((za =? zb)%Z && ((ya <? yb)%Z || ((ya =? yb)%Z && (xa <=? xb)%Z)))
  end.

(** numpy's round(3), half to even; the result counts thousandths *)
Definition round3 (x : Z) : Z :=
  let q := (x / 1000)%Z in let r := (x mod 1000)%Z in
  if (r <? 500)%Z then q else if (500 <? r)%Z then (q + 1)%Z else if Z.even q then q else (q + 1)%Z.

Definition flat (l : list vec) : list Z := flat_map (fun v => match v with (x, y, z) => [x; y; z] end) l.

(** np.array_str abbreviates arrays of more than 1000 entries to the first and last three *)
Definition long {A} (l : list A) : bool := 1000 <? length l.
Definition shown {A} (l : list A) : list A * list A :=
  if long l then (firstn 3 l, skipn (length l - 3) l) else (l, []).

Section Hash.
Variable wrap : list vec -> vec -> vec.
Variable text : bool -> list Z -> string.
Variable md5 : string -> string.

(** 127: np.array_str of the flattened, rounded array, 134-135 *)
Definition float_text (l : list vec) : string :=
  let z := map round3 (flat l) in text (long z) (fst (shown z) ++ snd (shown z)).

(** 146-147: the dots of an abbreviated array stay *)
Definition int_text (l : list nat) : string :=
  (String.concat "" (map str (fst (shown l))) ++ (if long l then "..." else "") ++ String.concat "" (map str (snd (shown l))))%string.

(** 138-140, 145: positions and numbers in the sorted order *)
Definition sorted_atoms (pos : list vec) (z : list nat) : list (vec * nat) :=
  isort (fun a b => before (fst a) (fst b)) (combine pos z).

(** 113-155: the outcome and the structure afterwards; Python 3 refuses to digest text *)
Definition geometry_hash (python3 : bool) (a : structure) : result string * structure :=
  let pos := map (wrap (cell a)) (positions a) in
  let s := sorted_atoms pos (numbers a) in
  let master := (float_text (isort before (cell a)) ++ float_text (map fst s) ++ int_text (map snd s))%string in
  (if python3 then Err TypeError else Ok (md5 master), Structure (cell a) pos (numbers a)).
End Hash.
