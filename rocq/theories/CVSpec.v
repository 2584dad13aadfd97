(** Specifications for the cross-validation properties, independent of how the
    splits are computed. *)
From Coq Require Import List Arith Permutation.
Import ListNotations.
Set Implicit Arguments.

(** Sizes that differ by at most one, and never increase along the list. *)
Definition balanced (sizes : list nat) : Prop :=
  forall a b, In a sizes -> In b sizes -> a <= b + 1.
Definition nonincreasing (sizes : list nat) : Prop :=
  forall i j, i < j -> j < length sizes -> nth j sizes 0 <= nth i sizes 0.

(** [part] is a sub-multiset of [whole]. *)
Definition sub_multiset {A} (part whole : list A) : Prop :=
  exists rest, Permutation (part ++ rest) whole.

(** The subsets of one level of a hierarchy split: entries are
    ((level, number), subset). *)
Definition level {I} (d : list ((nat * nat) * list I)) (i : nat) : list (list I) :=
  map snd (filter (fun e => Nat.eqb (fst (fst e)) i) d).

(** No element occurs in two subsets, or twice in one. *)
Definition disjoint_family {I} (L : list (list I)) : Prop := NoDup (concat L).

(** What it means for a dictionary of subsets to be a hierarchy of the index
    list [sel] with minimal subset size [m]. *)
Record hierarchy_of {I} (m : nat) (sel : list I) (d : list ((nat * nat) * list I)) : Prop := {
  h_keys : NoDup (map fst d);
  h_first : level d 1 <> [];
  h_contiguous : forall i, level d (S (S i)) <> [] -> level d (S i) <> [];
  h_numbering : forall i, level d i <> [] ->
    forall j, (exists s, In ((i, j), s) d) <-> 1 <= j <= 2 ^ i;
  h_count : forall i, level d i <> [] -> 1 <= i /\ length (level d i) = 2 ^ i;
  h_cover : forall i, level d i <> [] -> Permutation (concat (level d i)) sel;
  h_disjoint : NoDup sel -> forall i, disjoint_family (level d i);
  h_balanced : forall i, balanced (map (@length I) (level d i));
  h_min : forall i s, In s (level d i) -> m <= length s;
}.
