(** Iterative screening (catlearn/preprocess/feature_elimination.py) together with the
    linear models it fits (catlearn/regression/scikit_wrapper.py).

    [ScreenModel] leaves the fitted coefficients to one arbitrary function; here the order of
    features comes from [feature_select_full], whose line search can fail.  The scikit-learn
    fits stay arbitrary: [ridge r m t], [elastic r m t] and [lasso r m t k alpha] are the
    coefficients of the fits made in round [r] on the matrix [m] with targets [t], the last
    one of the k-th penalty. *)
From Coq Require Import Reals List Bool Arith.
From Verif Require Import Base RBase GPModel ScreenModel RegFitModel.
Import ListNotations.
Open Scope R_scope.

Section Fitted.
Variables pearsonr spearmanr kendalltau : fcolumn -> list R -> R.
Variable flat : fcolumn -> bool.
Variables ridge elastic lasso_cv : nat -> list fcolumn -> list R -> list R.
Variable lasso : nat -> list fcolumn -> list R -> nat -> R -> list R.
Variable method : reg_method.

(** _regression_ordering, feature_elimination.py:337-359; [f] is passed as the number of
    steps, 199-201.  Nothing is predicted: RegressionFit is made with predict=False. *)
Definition regression_ordering (r : nat) (m : list fcolumn) (t : list R) (size f : nat) : result (list nat) :=
  bind (feature_select_full (ridge r m t, []) (elastic r m t, []) (lasso_cv r m t, []) (lasso r m t) []
          method false true (Some size) (Some f) (/ 100000000) (/ 10))
       (fun s => Ok (s_accepted s)).

(** _iterator, feature_elimination.py:188-223, as [iterator] with that order. *)
Definition fit_iterator (r : nat) (kind : corr_kind) (n f : nat) (target : list R) (features : list fcolumn)
  (size step : nat) (accepted rejected randf : list nat) : result (bool * list nat * list nat) :=
  bind (screen pearsonr spearmanr kendalltau flat kind n None target features) (fun isc =>
  bind (reduce_matrix None features (fst isc) size) (fun rsc =>
  bind (regression_ordering r (snd rsc) target step f) (fun regr =>
  bind (take_real (fst rsc) randf regr) (fun sis =>
  bind (move (isort (fun a b => (b <=? a)%nat) (fst sis)) accepted rejected) (fun ar =>
  Ok (snd sis, fst ar, snd ar)))))).

(** The while loop, feature_elimination.py:174-184. *)
Fixpoint fit_loop (fuel r : nat) (kind : corr_kind) (n f : nat) (target : list R) (keep : list fcolumn)
  (size step : nat) (st : bool * list nat * list nat) (randf : list nat)
  : result (option (list nat * list nat)) :=
  let '(nc, accepted, rejected) := st in
  if (length accepted <? size)%nat && nc then
    match fuel with
    | 0%nat => Ok None
    | S fuel' =>
      let step := if (size - length accepted <? step)%nat then (size - length accepted)%nat else step in
      let train := delete_idx keep (accepted ++ randf) in
      let reduced := delete_idx keep (rejected ++ randf) in
      bind (get_response train reduced) (fun resp =>
      bind (fit_iterator r kind n f target resp size step accepted rejected randf)
        (fun st' => fit_loop fuel' (S r) kind n f target keep size step st' randf))
    end
  else Ok (Some (accepted, rejected)).

(** iterative_screen, feature_elimination.py:133-186; None: not ended within [fuel] rounds. *)
Definition fit_screen (fuel : nat) (kind : corr_kind) (n : nat) (rand : option (nat -> fcolumn))
  (target : list R) (cols : list fcolumn) (size step : nat) : result (option (list nat * nat)) :=
  let f := length cols in
  if negb (2 * size <? f)%nat then Err AssertionError
  else if negb (step <? size)%nat then Err AssertionError
  else
    bind (set_index rand cols) (fun s =>
    let '(keep, rejected, randf) := s in
    bind (fit_iterator 0 kind n f target keep size step [] rejected randf) (fun st =>
    bind (fit_loop fuel 1 kind n f target keep size step st randf) (fun r =>
    Ok (option_map (fun ar => (fst ar ++ snd ar, length (fst ar))) r)))).
End Fitted.
