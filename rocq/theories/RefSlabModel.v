(** Model of slab_positions2ads_index in catlearn/featurize/adsorbate_prep.py (334-386).

    Chemical symbols are numbers, [dist i j] is the periodic distance between atom i of the
    structure and atom j of the reference slab (ase's get_distances).  np.argsort is taken
    stable. *)
From Coq Require Import Reals List Arith Bool.
From Verif Require Import Base RBase.
Import ListNotations.
Local Open Scope nat_scope.

(** list.count *)
Definition occurrences (s : nat) (l : list nat) : nat := length (filter (Nat.eqb s) l).
(** np.where(symbols == s)[0], and the comprehension 347-348 *)
Definition indices_of (s : nat) (symbols : list nat) : list nat :=
  filter (fun i => nth i symbols 0 =? s) (seq 0 (length symbols)).

(** 343-348: all atoms of an element that has as many atoms as the species; the loop is over
    the symbols of the species with repetitions. *)
Definition all_of_symbol (symbols composition : list nat) : list nat :=
  flat_map (fun s => if occurrences s composition =? occurrences s symbols then indices_of s symbols else []) composition.

(** 361-371: the [k] atoms of element [s] with the largest distance to the nearest atom of the
    same element in the slab; np.min over no slab atoms raises. *)
Definition farthest (dist : nat -> nat -> R) (symbols slab : list nat) (s k : nat) : result (list nat) :=
  let index_a := indices_of s symbols in
  let index_r := indices_of s slab in
  match index_r with
  | [] => Err ValueError
  | _ :: _ =>
      let deviations := map (fun i => lmin (map (dist i) index_r)) index_a in
      let ascending := map snd (isort (fun a b => Rleb (fst a) (fst b)) (combine deviations (seq 0 (length index_a)))) in
      Ok (map (fun p => nth p index_a 0) (skipn (length ascending - k) ascending))
  end.

(** 358-371 *)
Fixpoint add_symbols (dist : nat -> nat -> R) (symbols slab composition todo ads : list nat) : result (list nat) :=
  match todo with
  | [] => Ok ads
  | s :: t =>
      if existsb (fun i => nth i symbols 0 =? s) ads then add_symbols dist symbols slab composition t ads
      else bind (farthest dist symbols slab s (occurrences s composition)) (fun new =>
           add_symbols dist symbols slab composition t (ads ++ new))
  end.

(** 334-386.  The test 352-353 compares atom indices with symbols (an array of integers with
    an array of strings: False), and the final check 374-384 compares np.unique(None) with
    np.unique(None), because list.sort and array.sort return None: neither ever acts. *)
Definition slab_positions2ads_index (dist : nat -> nat -> R) (symbols slab composition : list nat) : result (list nat) :=
  add_symbols dist symbols slab composition composition (all_of_symbol symbols composition).
