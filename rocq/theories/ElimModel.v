(** Model of catlearn/preprocess/greedy_elimination.py and
    importance_testing.py. *)
From Coq Require Import List Arith Bool.
From Verif Require Import Base GAModel.
Import ListNotations.
Set Implicit Arguments.

(** What the user's prediction function returns: a float, or a list whose first
    entry is the score (greedy_elimination.py:354-359, importance_testing.py:
    289-294). *)
Inductive pred_out (F : Type) :=
| Scalar (x : F)
| Many (x : F) (meta : list F).
Arguments Scalar {F} x.
Arguments Many {F} x meta.
Definition score_of {F} (o : pred_out F) : F := match o with Scalar x => x | Many x _ => x end.
Definition meta_of {F} (o : pred_out F) : option (list F) :=
  match o with Scalar _ => None | Many _ m => Some m end.

(** ** The elimination loop shared by both classes.
    [ev k surv x]: outcome of the prediction for fold [k] when the surviving
    features are [surv] and the feature at position [x] of that list is removed
    (greedy) or perturbed (importance).
    [mean]: np.mean; [asort]: np.argsort (unstable sort: any order on ties). *)
Section Elimination.
Context {F : Type}.
Variable mean : list F -> F.
Variable zero : F.
Variable asort : list F -> list nat.
Variable nsplit step : nat.
Variable ev : nat -> list nat -> nat -> pred_out F.

(** One fold: _serial_iterator / _parallel_iterator (greedy_elimination.py
    229-318, importance_testing.py 158-249).  [order] is the order in which
    results arrive; serial execution has [order = seq 0 d]. *)
Definition fill_row (total : nat) (surv : list nat) (k : nat) (order : list nat) : list F :=
  fold_left (fun row x => set_nth x (score_of (ev k surv x)) row) order (repeat zero total).
Fixpoint somes {A} (l : list (option A)) : list A :=
  match l with [] => [] | Some x :: t => x :: somes t | None :: t => somes t end.
Definition fold_meta (surv : list nat) (k : nat) (order : list nat) : list (list F) :=
  somes (map (fun x => meta_of (ev k surv x)) order).

(** scores = np.mean(self.result, axis=0), line 125 / 139. *)
Definition column_means (total : nat) (rows : list (list F)) : list F :=
  map (fun j => mean (map (fun r => nth j r zero) rows)) (seq 0 total).

Record estate := mkE { output : list (nat * F * list F); survivors : list nat; total : nat }.

(** The rows [meta_row meta g] appends for the g-th eliminated feature; the two
    classes differ here (greedy 131-138, importance 145-150).  [meta] holds the
    non-empty [meta_k] lists. *)
Variable meta_row : list (list (list F)) -> nat -> result (list F).

Fixpoint emit (surv : list nat) (scores : list F) (s : list nat)
  (meta : list (list (list F))) (gs : list nat) : result (list (nat * F * list F)) :=
  match gs with
  | [] => Ok []
  | g :: gs' =>
    match nth_error s g with
    | None => Err IndexError
    | Some i =>
      match nth_error surv i, nth_error scores i with
      | Some f, Some x =>
        bind (meta_row meta g) (fun m =>
        bind (emit surv scores s meta gs') (fun t => Ok ((f, x, m) :: t)))
      | _, _ => Err IndexError
      end
    end
  end.

(** One round, lines 87-142 (greedy) / 99-154 (importance).  [orders k]: arrival
    order in fold [k].  With a single fold np.concatenate of the (empty) list of
    training folds raises ValueError (103 / 115). *)
Definition elim_round (orders : nat -> list nat) (st : estate) : result estate :=
  if nsplit =? 1 then Err ValueError else
  let surv := survivors st in
  let rows := map (fun k => fill_row (total st) surv k (orders k)) (seq 0 nsplit) in
  let meta := filter (fun m => negb (length m =? 0))
                     (map (fun k => fold_meta surv k (orders k)) (seq 0 nsplit)) in
  let scores := column_means (total st) rows in
  let s := asort scores in
  bind (emit surv scores s meta (seq 0 step)) (fun new =>
  Ok (mkE (output st ++ new) (delete_idx surv (firstn step s)) (total st - step))).

(** [sched r k]: arrival order in fold [k] of the [r]-th round executed. *)
Fixpoint elim_rounds (n : nat) (sched : nat -> nat -> list nat) (st : estate) : result estate :=
  match n with
  | 0 => Ok st
  | S m => bind (elim_round (sched 0) st) (fun st' =>
           elim_rounds m (fun r => sched (S r)) st')
  end.

(** Number of rounds: (total_features - 1) // step, line 81/84 (91/95);
    step == 0 raises ZeroDivisionError. *)
Definition elim_run (sched : nat -> nat -> list nat) (st : estate) : result estate :=
  if step =? 0 then Err ZeroDivisionError
  else elim_rounds ((total st - 1) / step) sched st.

Definition elim_start (t : nat) : estate := mkE [] (seq 0 t) t.
End Elimination.

(** Rows appended for meta data.
    importance_testing.py:146-148: [mean_meta[g]] with
    [mean_meta = np.mean(meta, axis=0)], entries of the g-th arrival. *)
Definition importance_meta_row {F} (mean : list F -> F) (zero : F)
  (meta : list (list (list F))) (g : nat) : result (list F) :=
  match meta with
  | [] => Ok []
  | m0 :: _ =>
    let width := length (nth g m0 []) in
    Ok (map (fun c => mean (map (fun mk => nth c (nth g mk []) zero) meta)) (seq 0 width))
  end.
(** greedy_elimination.py:132-136: [float(mean_meta[g])] raises TypeError unless
    there is exactly one extra value; then np.concatenate raises ValueError
    because the float is zero-dimensional. *)
Definition greedy_meta_row {F} (meta : list (list (list F))) (g : nat) : result (list F) :=
  match meta with
  | [] => Ok []
  | m0 :: _ => if length (nth g m0 []) =? 1 then Err ValueError else Err TypeError
  end.

(** ** Evaluation in greedy elimination: _single_elimination (321-359) on the
    data of lines 98-105. *)
Section Greedy.
Context {V T F : Type}.
Variable dV : V.
Variable predict : list (list V) -> list T -> list (list V) -> list T -> pred_out F.
Variable folds : list (list (list V * T)).
Definition greedy_ev (k : nat) (surv : list nat) (x : nat) : pred_out F :=
  let tr := cv_train folds k in
  let te := cv_test folds k in
  let cols := fun r : list V * T => delete_idx (gather dV (fst r) surv) [x] in
  predict (map cols tr) (map snd tr) (map cols te) (map snd te).
End Greedy.

(** ** Evaluation in importance elimination: _predictor (252-294) on the data of
    lines 110-119.  [transform f train test] is the perturbation. *)
Section Importance.
Context {V T F M : Type}.
Variable dV : V.
Variable train_predict : list (list V) -> list T -> M.
Variable test_predict : M -> list (list V) -> list T -> pred_out F.
Variable transform : nat -> list (list V) -> list (list V) -> list (list V) * list (list V).
Variable folds : list (list (list V * T)).
Definition importance_ev (k : nat) (surv : list nat) (x : nat) : pred_out F :=
  let tr := cv_train folds k in
  let te := cv_test folds k in
  let cols := fun r : list V * T => gather dV (fst r) surv in
  let pred := train_predict (map cols tr) (map snd tr) in
  test_predict pred (snd (transform x (map cols tr) (map cols te))) (map snd te).
End Importance.

(** ** The save file of greedy elimination (_load_data 150-200, _write_data
    202-227).  [Torn]: a process died between open(..., 'w') (which truncates)
    and the end of json.dump; json.load then raises JSONDecodeError, a
    ValueError.  [D]: the k-fold data; they are saved along with the progress.
    Simplification: floats and indices survive the JSON round trip unchanged. *)
Inductive file (D F : Type) := Absent | Torn | Saved (dat : D) (st : @estate F).
Arguments Absent {D F}.
Arguments Torn {D F}.
Arguments Saved {D F} dat st.

(** [fresh]: what k_fold (which shuffles) would return in this process. *)
Definition load_data {D F} (t : nat) (fresh : D) (f : file D F) : result (D * @estate F) :=
  match f with
  | Absent => Ok (fresh, elim_start t)
  | Torn => Err ValueError
  | Saved dat st => Ok (dat, st)
  end.

(** Contents the save file goes through during one _write_data call. *)
Definition write_steps {D F} (dat : D) (st : @estate F) : list (file D F) := [Torn; Saved dat st].

(** A process that loads the file, completes [r] rounds (saving after each) and
    then dies before the next save starts. *)
Section Sessions.
Context {D F : Type}.
Variable mean : list F -> F.
Variable zero : F.
Variable asort : list F -> list nat.
Variable nsplit step : nat.
Variable ev : D -> nat -> list nat -> nat -> pred_out F.
Variable t : nat.
Definition die_after (r : nat) (fresh : D) (sched : nat -> nat -> list nat) (f : file D F)
  : result (file D F) :=
  bind (load_data t fresh f) (fun ds =>
  if r =? 0 then Ok f
  else bind (elim_rounds mean zero asort nsplit step (ev (fst ds)) greedy_meta_row r sched (snd ds))
            (fun st' => Ok (Saved (fst ds) st'))).
(** A process that runs to completion (greedy_elimination, 75-148). *)
Definition complete (fresh : D) (sched : nat -> nat -> list nat) (f : file D F)
  : result (list (nat * F * list F)) :=
  bind (load_data t fresh f) (fun ds =>
  bind (elim_run mean zero asort nsplit step (ev (fst ds)) greedy_meta_row sched (snd ds))
       (fun st' => Ok (output st'))).
Fixpoint sessions (h : list (nat * D * (nat -> nat -> list nat))) (f : file D F)
  : result (file D F) :=
  match h with
  | [] => Ok f
  | (r, fresh, sched) :: h' => bind (die_after r fresh sched f) (sessions h')
  end.
End Sessions.

(** ** Perturbations (importance_testing.py:297-418).  The matrices are copied
    before the assignment, so the caller's data are not part of the result. *)
Definition set_column {V} (f : nat) (vals : list V) (m : list (list V)) : list (list V) :=
  map (fun p => set_nth f (fst p) (snd p)) (combine vals m).
Definition column {V} (d : V) (f : nat) (m : list (list V)) : list V :=
  map (fun r => nth f r d) m.

Section Perturb.
Context {V : Type}.
Variable d : V.
Variable mean std : list V -> V.
Variable add mul : V -> V -> V.
(** feature_invariance, 297-335. *)
Definition feature_invariance (f : nat) (train test : list (list V)) :=
  let all_f := column d f (train ++ test) in
  let v := add (std all_f) (mean all_f) in
  (set_column f (repeat v (length train)) train, set_column f (repeat v (length test)) test).
(** feature_randomize, 338-378; [r1 r2]: the random draws. *)
Definition feature_randomize (r1 r2 : list V) (f : nat) (train test : list (list V)) :=
  let all_f := column d f (train ++ test) in
  let v := fun r => add (mul r (std all_f)) (mean all_f) in
  (set_column f (map v r1) train, set_column f (map v r2) test).
(** feature_shuffle, 381-418; [sh1 sh2]: what the two in-place shuffles do. *)
Definition feature_shuffle (sh1 sh2 : list V -> list V) (f : nat) (train test : list (list V)) :=
  (set_column f (sh1 (column d f train)) train, set_column f (sh2 (column d f test)) test).
End Perturb.
