(** Model of catlearn/active_learning/algorithm.py. *)
From Coq Require Import List Arith Bool.
From Verif Require Import Base.
Import ListNotations.
Set Implicit Arguments.

Section Active.
(** [X]: rows, [Y]: targets, [S]: the user defined score. *)
Context {X Y S : Type}.
(** The surrogate model: (train rows, targets, test rows, targets) to
    (sample, score).  It may be any function. *)
Variable surrogate : list X -> list Y -> list X -> list Y -> list nat * S.

Notation data := (list (X * Y)).

(** Fancy indexing a[idx]; out of range raises IndexError.  Negative indices do
    not occur (sample entries are positions). *)
Fixpoint index_all {A} (l : list A) (idx : list nat) : result (list A) :=
  match idx with
  | [] => Ok []
  | i :: t => match nth_error l i with
              | None => Err IndexError
              | Some x => bind (index_all l t) (fun r => Ok (x :: r))
              end
  end.

(** np.delete(np.arange(n), np.array(train_index)), algorithm.py:85-86 / 290-291;
    an out of range index raises IndexError, and so does an empty list (its
    array is of type float). *)
Definition np_delete_range (n : nat) (train : list nat) : result (list nat) :=
  if (length train =? 0) || negb (forallb (fun i => i <? n) train) then Err IndexError
  else Ok (delete_idx (seq 0 n) train).

(** What one completed iteration did. *)
Record iteration := mkIt { it_train : list nat; it_test : list nat; it_acquired : list nat; it_score : S }.

(** Loop of _test_acquisition, 288-313 ([stop_empty = false]) and of
    test_acquisition, 83-110 ([stop_empty = true]: lines 104-105 leave the loop
    when nothing is acquired).  Returns the iterations and the final
    [train_index]. *)
Fixpoint acquisition_loop (stop_empty : bool) (all : data) (n batch : nat) (train : list nat)
  : result (list iteration * list nat) :=
  match n with
  | 0 => Ok ([], train)
  | Datatypes.S m =>
    bind (np_delete_range (length all) train) (fun test =>
    bind (index_all all train) (fun tr =>
    bind (index_all all test) (fun te =>
    if length test =? 0 then Ok ([], train)
    else
      let batch := if length test <? batch then length test else batch in
      let '(sample, score) := surrogate (map fst tr) (map snd tr) (map fst te) (map snd te) in
      bind (index_all test (firstn batch sample)) (fun acq =>
      if stop_empty && (length acq =? 0) then Ok ([], train)
      else
        bind (acquisition_loop stop_empty all m batch (train ++ acq)) (fun r =>
        Ok (mkIt train test acq score :: fst r, snd r))))))
  end.

(** test_acquisition 51-110 / _test_acquisition 193-313.  [permute]: the seeded
    permutation of the data (None without a seed).  Also returns the list object
    [train_index] after the call: when [initial_subset] is given this is the
    caller's list, extended in place by [+=]. *)
Definition acquisition_run (stop_empty : bool) (dflt : X * Y) (all : data) (permute : option (list nat))
  (initial_subset : option (list nat)) (batch : nat) (n_max : option nat)
  : result (list iteration * list nat) :=
  let train := match initial_subset with None => seq 0 (max batch 2) | Some l => l end in
  let n_max := match n_max with None => length all | Some n => n end in
  let all := match permute with None => all | Some p => gather dflt all p end in
  if batch =? 0 then Err ZeroDivisionError
  else acquisition_loop stop_empty all (n_max / batch) batch train.

Definition test_acquisition dflt all permute initial_subset batch n_max : result (list S) :=
  bind (acquisition_run true dflt all permute initial_subset batch n_max) (fun r =>
  Ok (map it_score (fst r))).

(** ensemble_test with nprocs == 1, 186-189: the same [initial_subset] object is
    passed to every run.  Returns the scores of every run and the caller's list
    afterwards. *)
Fixpoint ensemble_serial (dflt : X * Y) (all : data) (seeds : list (option (list nat)))
  (initial_subset : option (list nat)) (batch : nat) (n_max : option nat)
  : result (list (list S) * option (list nat)) :=
  match seeds with
  | [] => Ok ([], initial_subset)
  | p :: ps =>
    bind (acquisition_run false dflt all p initial_subset batch n_max) (fun r =>
    let initial_subset := match initial_subset with None => None | Some _ => Some (snd r) end in
    bind (ensemble_serial dflt all ps initial_subset batch n_max) (fun rs =>
    Ok (map it_score (fst r) :: fst rs, snd rs)))
  end.

(** One run in its own process: the arguments are pickled, so the caller's list
    is not shared (173-184). *)
Definition separate_run (dflt : X * Y) (all : data) (initial_subset : option (list nat)) (batch : nat)
  (n_max : option nat) (p : option (list nat)) : result (list S) :=
  bind (acquisition_run false dflt all p initial_subset batch n_max) (fun r =>
  Ok (map it_score (fst r))).

(** acquire, 112-141: [sample] is what the surrogate returned. *)
Definition acquire (sample : list nat) (batch : nat) : list nat := firstn batch sample.
End Active.
