(** Shared vocabulary of the model: Python exceptions as values, stable sorting
    (Python's [sorted] / [list.sort]), and list helpers.  Nothing here models a
    CatLearn function; the [*Model.v] files do. *)
From Coq Require Import List Arith Lia Permutation Sorting.Sorted Bool.
Import ListNotations.

Set Implicit Arguments.

(** Python exceptions that the modelled code raises. *)
Inductive exn :=
| AssertionError | IndexError | ValueError | TypeError | ZeroDivisionError
| NotImplementedError | KeyError | AttributeError | RuntimeError
| LinAlgError | OperationalError | NameError.

(** Result of a Python call. *)
Inductive result (A : Type) :=
| Ok (a : A)
| Err (e : exn).
Arguments Ok {A} a.
Arguments Err {A} e.

Definition bind {A B} (r : result A) (f : A -> result B) : result B :=
  match r with Ok a => f a | Err e => Err e end.

Definition is_ok {A} (r : result A) : bool :=
  match r with Ok _ => true | Err _ => false end.

(** ** Total preorders given by a boolean comparison (floats without NaN). *)
Definition total_preorder {A} (leb : A -> A -> bool) : Prop :=
  (forall x y, leb x y = true \/ leb y x = true) /\
  (forall x y z, leb x y = true -> leb y z = true -> leb x z = true).

(** A total order additionally identifies order-equivalent values. *)
Definition total_order {A} (leb : A -> A -> bool) : Prop :=
  total_preorder leb /\
  (forall x y, leb x y = true -> leb y x = true -> x = y).

(** ** Stable insertion sort.  [r x y = true] means "x may stand before y".
    Python's [sorted] is stable, also with [reverse=True]; any stable sort
    returns the same list (see [Base.stable_sort_unique]). *)
Fixpoint insert {A} (r : A -> A -> bool) (x : A) (l : list A) : list A :=
  match l with
  | [] => [x]
  | y :: t => if r x y then x :: y :: t else y :: insert r x t
  end.

Fixpoint isort {A} (r : A -> A -> bool) (l : list A) : list A :=
  match l with
  | [] => []
  | x :: t => insert r x (isort r t)
  end.

(** ** Replacing one list cell: [l[i] = v]. *)
Fixpoint set_nth {A} (i : nat) (v : A) (l : list A) : list A :=
  match l, i with
  | [], _ => []
  | _ :: t, 0 => v :: t
  | x :: t, S j => x :: set_nth j v t
  end.

(** Selecting list cells by an index list: numpy's [a[idx]]. [d] is only used
    for indices out of range (numpy raises IndexError; theorems assume or prove
    that the indices are in range). *)
Definition gather {A} (d : A) (l : list A) (idx : list nat) : list A :=
  map (fun i => nth i l d) idx.

(** All cells whose position is not in [idx]: numpy's [np.delete(l, idx)]. *)
Definition delete_idx {A} (l : list A) (idx : list nat) : list A :=
  map snd (filter (fun p => negb (existsb (Nat.eqb (fst p)) idx))
                  (combine (seq 0 (length l)) l)).

(** Boolean mask selection: [l[mask]]. *)
Fixpoint mask_select {A} (m : list bool) (l : list A) : list A :=
  match m, l with
  | b :: m', x :: l' => if b then x :: mask_select m' l' else mask_select m' l'
  | _, _ => []
  end.

Definition count_true (m : list bool) : nat := length (filter (fun b => b) m).
