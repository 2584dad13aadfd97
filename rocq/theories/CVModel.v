(** Model of catlearn/cross_validation/k_fold_cv.py and
    catlearn/cross_validation/hierarchy_cv.py. *)
From Coq Require Import List Arith Bool.
From Verif Require Import Base.
Import ListNotations.
Set Implicit Arguments.

(** ** k_fold_cv.py *)
Section KFold.
(** [V]: the entries of the feature matrix and the targets (floats). *)
Context {V : Type}.
Notation row := (list V).

(** numpy [np.array_split(x, k)] (k >= 1): the first [n mod k] pieces have
    [n/k + 1] rows, the others [n/k].  k_fold_cv.py:50. *)
Definition split_sizes (n k : nat) : list nat :=
  repeat (n / k + 1) (n mod k) ++ repeat (n / k) (k - n mod k).

Fixpoint cut {A} (sizes : list nat) (l : list A) : list (list A) :=
  match sizes with
  | [] => []
  | s :: ss => firstn s l :: cut ss (skipn s l)
  end.

Definition array_split {A} (l : list A) (k : nat) : result (list (list A)) :=
  if k =? 0 then Err ValueError else Ok (cut (split_sizes (length l) k) l).

(** Truncation when [fix_size] is given.  k_fold_cv.py:42-47. *)
Definition fix_rows {A} (X : list A) (nsplit : nat) (fix_size : option nat)
  : result (list A) :=
  match fix_size with
  | None => Ok X
  | Some s => if nsplit * s <=? length X then Ok (firstn (nsplit * s) X)
              else Err AssertionError
  end.

(** k_fold with targets.  k_fold_cv.py:7-59.  [shuf] is the outcome of
    [np.random.shuffle]; rows and targets are glued together (33-34), shuffled
    (40), possibly truncated (42-47), split (50) and separated again (52-59).
    [d] is the value [last] returns on an empty row and is never used, because
    every glued row has a last entry. *)
Definition k_fold (d : V) (shuf : list row -> list row)
  (features : list row) (targets : list V) (nsplit : nat) (fix_size : option nat)
  : result (list (list row) * list (list V)) :=
  if length features =? length targets then
    let X := map (fun p => fst p ++ [snd p]) (combine features targets) in
    bind (fix_rows (shuf X) nsplit fix_size) (fun X =>
    bind (array_split X nsplit) (fun folds =>
    Ok (map (map (@removelast V)) folds, map (map (fun r => last r d)) folds)))
  else Err ValueError.

(** k_fold without targets.  k_fold_cv.py:36-37, 40-50, 60-64. *)
Definition k_fold_features (shuf : list row -> list row)
  (features : list row) (nsplit : nat) (fix_size : option nat)
  : result (list (list row)) :=
  bind (fix_rows (shuf features) nsplit fix_size) (fun X => array_split X nsplit).
End KFold.

(** ** hierarchy_cv.py *)
(** Keys ['i_j'] of the split dictionary are modelled as pairs (i, j): the
    decimal encoding is injective, so this changes nothing. *)
Notation key := (nat * nat)%type.
Definition key_eqb (a b : key) : bool := (fst a =? fst b) && (snd a =? snd b).

(** An OrderedDict: association list in insertion order. *)
Notation odict V := (list ((nat * nat) * V)).

Fixpoint dget {V} (d : odict V) (k : key) : option V :=
  match d with
  | [] => None
  | (k', v) :: t => if key_eqb k k' then Some v else dget t k
  end.

Fixpoint dset {V} (d : odict V) (k : key) (v : V) : odict V :=
  match d with
  | [] => [(k, v)]
  | (k', v') :: t => if key_eqb k k' then (k', v) :: t else (k', v') :: dset t k v
  end.

Section Hierarchy.
(** [I]: the type of the uuids. *)
Context {I : Type}.
(** Outcome of the first shuffle (line 82) and of the in-place shuffle of
    subset (i, j) (line 100). *)
Variable shuf0 : list I -> list I.
Variable shuf : key -> list I -> list I.

(** What one pass of a loop body does: fall through with a new state, or
    return the dictionary (lines 108-109), or raise KeyError (line 99). *)
Inductive flow :=
| Cont (d : odict (list I)) (sn : nat)
| Return (d : odict (list I))
| Raise (e : exn).

(** Body of the inner loop, lines 99-109. *)
Definition split_body (min_split i j : nat) (d : odict (list I)) (sn : nat) : flow :=
  match dget d (i, j) with
  | None => Raise KeyError
  | Some cur =>
    let cur := shuf (i, j) cur in
    let d := dset d (i, j) cur in                       (* shuffled in place *)
    let new_split := length cur / 2 in
    if min_split <=? new_split then
      let d := dset d (i + 1, sn) (firstn new_split cur) in
      let d := dset d (i + 1, sn + 1) (skipn new_split cur) in
      Cont d (sn + 2)
    else Return d
  end.

(** for j in range(1, subsplit + 1), lines 98-109. *)
Fixpoint split_inner (min_split i : nat) (js : list nat) (d : odict (list I)) (sn : nat) : flow :=
  match js with
  | [] => Cont d sn
  | j :: js' =>
    match split_body min_split i j d sn with
    | Cont d' sn' => split_inner min_split i js' d' sn'
    | f => f
    end
  end.

(** for i in range(1, no_split + 1), lines 95-109.  Falling off the end of the
    function returns None. *)
Fixpoint split_outer (min_split : nat) (is_ : list nat) (d : odict (list I))
  : result (option (odict (list I))) :=
  match is_ with
  | [] => Ok None
  | i :: is' =>
    match split_inner min_split i (seq 1 (2 ^ i)) d 1 with
    | Cont d' _ => split_outer min_split is' d'
    | Return d' => Ok (Some d')
    | Raise e => Err e
    end
  end.

(** Lines 82-88: shuffle, optional cut, assertions. *)
Definition split_select (min_split : nat) (max_split : option nat) (all_index : list I)
  : result (list I) :=
  let all_index := shuf0 all_index in
  match max_split with
  | None => if min_split <? length all_index then Ok all_index else Err AssertionError
  | Some m =>
    if (m <? length all_index) && (2 * min_split <=? m) then
      let all_index := firstn m all_index in
      if min_split <? length all_index then Ok all_index else Err AssertionError
    else Err AssertionError
  end.

(** split_index, hierarchy_cv.py:65-109.  [Ok (Some d)]: [d] was written to
    file and returned; [Ok None]: the loops ended without writing anything. *)
Definition split_index (min_split : nat) (max_split : option nat) (all_index : list I)
  : result (option (odict (list I))) :=
  bind (split_select min_split max_split all_index) (fun all_index =>
  let size := length all_index / 2 in
  let a := firstn size all_index in
  let b := skipn size all_index in
  let d := dset (dset [] (1, 1) a) (1, 2) b in
  if min_split =? 0 then Err ZeroDivisionError else
  let no_split := min (length a) (length b) / min_split in
  split_outer min_split (seq 1 no_split) d).

(** split_predict, hierarchy_cv.py:150-201: the list of calls to the user's
    prediction function, each with the (training key, test key) and the uuids
    of the two subsets.  Fetching the rows is [compile_split] below. *)
Definition split_predict_calls (d : odict (list I)) : list ((key * key) * (list I * list I)) :=
  flat_map (fun i =>
    flat_map (fun m =>
      if (fst (fst m) =? fst (fst i)) && negb (snd (fst i) =? snd (fst m))
      then [((fst i, fst m), (snd i, snd m))] else [])
    (rev d)) (rev d).
End Hierarchy.

Section Compile.
(** [I]: uuids with a decidable equality; [D]: the remaining columns. *)
Context {I D : Type}.
Variable eqb : I -> I -> bool.
(** The table: rows (uuid, data) in storage order. *)
Variable table : list (I * D).

(** _get_data, hierarchy_cv.py:300-313: SELECT ... WHERE uuid IN (ids), rows in
    table order. *)
Definition get_data (ids : list I) : list (I * D) :=
  filter (fun r => existsb (eqb (fst r)) ids) table.

(** np.concatenate of two row lists: an empty fetch is a 1-dimensional array,
    which cannot be joined with a 2-dimensional one (ValueError). *)
Definition np_concat {A} (a b : list A) : result (list A) :=
  match a, b with
  | [], [] => Ok []
  | [], _ => Err ValueError
  | _, [] => Err ValueError
  | _, _ => Ok (a ++ b)
  end.

(** Loop at lines 285-292.  [lim] is the constant 999. *)
Fixpoint compile_loop (lim : nat) (is_ : list nat) (ids : list I) (store : list (I * D))
  : result (list (I * D)) :=
  match is_ with
  | [] => Ok store
  | i :: is' =>
    let start := i * lim in
    let more := if length (skipn start ids) <? lim
                then get_data (skipn start ids)
                else get_data (firstn lim (skipn start ids)) in
    bind (np_concat store more) (fun store => compile_loop lim is' ids store)
  end.

(** _compile_split, hierarchy_cv.py:270-298, with the SQL limit as a parameter. *)
Definition compile_split_lim (lim : nat) (ids : list I) : result (list (I * D)) :=
  bind (if lim <? length ids
        then compile_loop lim (seq 1 (length ids / lim)) ids (get_data (firstn lim ids))
        else Ok (get_data ids))
  (fun store => if length store =? length ids then Ok store else Err AssertionError).

Definition compile_split := compile_split_lim 999.
End Compile.
