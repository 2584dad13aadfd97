(** Model of catlearn/preprocess/feature_elimination.py (FeatureScreening) and of
    feature_select in catlearn/regression/scikit_wrapper.py.

    A feature matrix is the list of its columns.  The correlation coefficients,
    the regression coefficients and the random columns come from scipy,
    scikit-learn and numpy: they are arbitrary functions here. *)
From Coq Require Import Reals List Bool Arith.
From Verif Require Import Base RBase FEModel.
Import ListNotations.
Open Scope R_scope.

Notation fcolumn := (list R).

(** Sorting by absolute value, largest first: sorted(zip(np.abs(c), order), key =
    first, reverse=True) is stable, feature_elimination.py:118-120 and
    scikit_wrapper.py:71-74. *)
Definition rank_abs (c : list R) : list (R * nat) :=
  isort (fun a b => Rleb (fst b) (fst a)) (combine (map Rabs c) (seq 0 (length c))).

(** ** scikit_wrapper.py: feature_select, 39-79 ([coeff] already fitted). *)
Definition feature_select (coeff : list R) (size : nat) : list nat * list nat :=
  let order := map snd (rank_abs coeff) in (firstn size order, skipn size order).

(** The [correlation] argument; anything but the three names behaves like the
    names other than 'pearson'. *)
Inductive corr_kind := Pearson | Spearman | Kendall.
Definition kind_eqb (a b : corr_kind) : bool :=
  match a, b with Pearson, Pearson | Spearman, Spearman | Kendall, Kendall => true | _, _ => false end.

Section Screening.
(** scipy's three coefficients of a column with the target, and
    np.allclose(d, d[0]). *)
Variables pearsonr spearmanr kendalltau : fcolumn -> list R -> R.
Variable flat : fcolumn -> bool.
(** Regression coefficients of a feature matrix (regression method fixed). *)
Variable regression : list fcolumn -> list R -> list R.

(** _get_correlation, 247-274: the tests are written with [!=]. *)
Definition get_correlation (kind : corr_kind) (target : list R) (cols : list fcolumn) : list R :=
  map (fun d =>
    if flat d then 0
    else if negb (kind_eqb kind Pearson) then pearsonr d target
    else if negb (kind_eqb kind Spearman) then spearmanr d target
    else kendalltau d target) cols.

(** _random_extend (380-396) and _set_index (225-245).  [rand]: None when
    random_check is False, otherwise the random columns drawn by this call. *)
Definition random_extend {C} (new : nat -> C) (cols : list C) : list C :=
  cols ++ map new (seq 0 (length cols / 10)).

Definition set_index {C} (rand : option (nat -> C)) (cols : list C)
  : result (list C * list nat * list nat) :=
  let f := length cols in
  match rand with
  | None => Ok (cols, seq 0 f, [])
  | Some new =>
    let ext := random_extend new cols in
    let r := (f / 10)%nat in
    if (length ext =? f)%nat then Err AssertionError
    else Ok (ext, seq 0 f, seq f r)
  end.

(** Position of a value in a list (list.index). *)
Fixpoint position (x : nat) (l : list nat) : nat :=
  match l with [] => 0 | y :: t => if (y =? x)%nat then 0%nat else S (position x t) end.

(** screen, 87-131, for [n] data points: order and size. *)
Definition screen (kind : corr_kind) (n : nat) (rand : option (nat -> fcolumn)) (target : list R)
  (cols : list fcolumn) : result (list nat * nat) :=
  bind (set_index rand cols) (fun s =>
  let '(ext, _, randf) := s in
  let order := map snd (rank_abs (get_correlation kind target ext)) in
  let size := fold_left Nat.min (map (fun i => position i order) randf) n in
  Ok (order, size)).

(** _reduce_matrix, 308-335. *)
Definition reduce_matrix {C} (rand : option (nat -> C)) (cols : list C) (order : list nat) (size : nat)
  : result (list nat * list C) :=
  bind (set_index rand cols) (fun s =>
  let '(ext, _, _) := s in
  if negb (length ext =? length order)%nat then Err AssertionError
  else
    let accepted := firstn size order in
    let m := delete_idx ext (skipn size order) in
    if (length m =? length accepted)%nat then Ok (accepted, m) else Err AssertionError).

(** eliminate_features, 41-85, with a given order (79-85).  Train and test may
    have different numbers of rows, so their column types differ. *)
Definition eliminate_with {C D} (randC : option (nat -> C)) (randD : option (nat -> D))
  (train : list C) (test : list D) (order : list nat) (size : nat)
  : result (list C * list D * list nat * nat) :=
  bind (reduce_matrix randC train order size) (fun rt =>
  bind (reduce_matrix randD test order size) (fun re =>
  Ok (snd rt, snd re, order, size))).

(** eliminate_features with iterative=False (73-77, 80-85). *)
Definition eliminate_screen {D} (kind : corr_kind) (n : nat)
  (rand1 rand2 : option (nat -> fcolumn)) (rand3 : option (nat -> D)) (target : list R)
  (train : list fcolumn) (test : list D) :=
  bind (screen kind n rand1 target train) (fun o =>
  eliminate_with rand2 rand3 train test (fst o) (snd o)).

(** Lines 204-209: collect the screened features chosen by the regression up to
    the first random one. *)
Fixpoint take_real (acc : list nat) (randf : list nat) (regr : list nat) : result (list nat * bool) :=
  match regr with
  | [] => Ok ([], true)
  | i :: t => match nth_error acc i with
              | None => Err IndexError
              | Some a => if existsb (Nat.eqb a) randf then Ok ([], false)
                          else bind (take_real acc randf t) (fun r => Ok (a :: fst r, snd r))
              end
  end.

(** Lines 210-212: accepted.append(rejected[i]); del rejected[i], from the
    largest position down. *)
Fixpoint move (ps : list nat) (accepted rejected : list nat) : result (list nat * list nat) :=
  match ps with
  | [] => Ok (accepted, rejected)
  | i :: t => match nth_error rejected i with
              | None => Err IndexError
              | Some x => move t (accepted ++ [x]) (delete_idx rejected [i])
              end
  end.

(** _iterator, 188-223 (random_check is False by then: line 164).  Returns
    (not_converged, accepted, rejected); the new feature matrices are the columns
    of [keep] that are not accepted / not rejected, without the random ones. *)
Definition iterator (kind : corr_kind) (n : nat) (target : list R) (features : list fcolumn)
  (size step : nat) (accepted rejected randf : list nat) : result (bool * list nat * list nat) :=
  bind (screen kind n None target features) (fun isc =>
  bind (reduce_matrix None features (fst isc) size) (fun rsc =>
  let regr := fst (feature_select (regression (snd rsc) target) step) in
  bind (take_real (fst rsc) randf regr) (fun sis =>
  bind (move (isort (fun a b => (b <=? a)%nat) (fst sis)) accepted rejected) (fun ar =>
  Ok (snd sis, fst ar, snd ar))))).

(** _get_response, 361-378: the inner loop overwrites r, so only the last
    accepted column counts.  Without an accepted column r is unbound
    (UnboundLocalError, a NameError). *)
Definition response (d : fcolumn) (reduced : list fcolumn) : fcolumn :=
  fold_left (fun _ a => zip (fun x y => (x - y * dot d a) / dot a a) d a) reduced [].
Definition get_response (train reduced : list fcolumn) : result (list fcolumn) :=
  match train, reduced with
  | _ :: _, [] => Err NameError
  | _, _ => Ok (map (fun d => response d reduced) train)
  end.

(** The while loop of iterative_screen, 174-184; [keep] is the matrix with the
    random columns. *)
Fixpoint screen_loop (fuel : nat) (kind : corr_kind) (n : nat) (target : list R) (keep : list fcolumn)
  (size step : nat) (st : bool * list nat * list nat) (randf : list nat)
  : result (option (list nat * list nat)) :=
  let '(nc, accepted, rejected) := st in
  if (length accepted <? size)%nat && nc then
    match fuel with
    | 0%nat => Ok None
    | S fuel' =>
      let step := if (size - length accepted <? step)%nat then (size - length accepted)%nat else step in
      let train := delete_idx keep (accepted ++ randf) in
      let reduced := delete_idx keep (rejected ++ randf) in
      bind (get_response train reduced) (fun resp =>
      bind (iterator kind n target resp size step accepted rejected randf)
        (fun st' => screen_loop fuel' kind n target keep size step st' randf))
    end
  else Ok (Some (accepted, rejected)).

(** iterative_screen, 133-186; None: the loop did not end within [fuel] rounds. *)
Definition iterative_screen (fuel : nat) (kind : corr_kind) (n : nat) (rand : option (nat -> fcolumn))
  (target : list R) (cols : list fcolumn) (size step : nat) : result (option (list nat * nat)) :=
  let f := length cols in
  if negb (2 * size <? f)%nat then Err AssertionError
  else if negb (step <? size)%nat then Err AssertionError
  else
    bind (set_index rand cols) (fun s =>
    let '(keep, rejected, randf) := s in
    bind (iterator kind n target keep size step [] rejected randf) (fun st =>
    bind (screen_loop fuel kind n target keep size step st randf) (fun r =>
    Ok (option_map (fun ar => (fst ar ++ snd ar, length (fst ar))) r)))).
End Screening.
