(** Model of catlearn/regression/scikit_wrapper.py (RegressionFit) around
    feature_select (ScreenModel).

    The scikit-learn models are arbitrary functions: [ridge], [elastic] and [lasso_cv] are
    the fitted coefficients together with the predictions for the test matrix,
    [lasso k alpha] the coefficients of the k-th Lasso fit of the line search
    (selection='random' makes every fit a new draw).  The comparisons [method is 'lasso']
    are read as equality of the names. *)
From Coq Require Import Reals String List Bool Arith.
From Verif Require Import Base RBase GPModel ScreenModel.
Import ListNotations.
Open Scope R_scope.

Inductive reg_method := Ridge | Elastic | Lasso | OtherMethod.

(** The 'prediction' entry: None, or what get_error(...)['average'] returns. *)
Inductive reported := NoReport | EmptyList | Value (x : error_stats).

(** The keys get_error sets when no extra metric is asked for, cost_function.py:47-64. *)
Definition error_keys : list string :=
  ["residuals"; "signed_mean"; "signed_median"; "signed_percentiles"; "rmse_all"; "rmse_average";
   "rmse_percentiles"; "absolute_all"; "absolute_average"; "absolute_percentiles"]%string.

(** Looking a key up in that defaultdict(list) (cost_function.py:42): an unknown key gives
    an empty list. *)
Definition error_entry (key : string) (e : error_stats) : reported :=
  if existsb (String.eqb key) error_keys then Value e else EmptyList.

(** np.geomspace(first, last, n), n >= 0. *)
Definition geomspace (first last : R) (n : nat) : list R :=
  map (fun k => if (n =? 1)%nat then first else first * Rpower (last / first) (INR k / INR (n - 1))) (seq 0 n).

(** len(coef) - (coef == 0.).sum() *)
Definition nonzeros (coef : list R) : nat := length (filter (fun c => negb (Reqb c 0)) coef).

Section Fit.
Variables ridge elastic lasso_cv : list R * list R.
Variable lasso : nat -> R -> list R.
Variable test_target : list R.

(** get_error(prediction=data, target=test_target)['average'], when predict is set:
    100-104, 117-120, 152-155. *)
Definition report (predict : bool) (data : list R) : result reported :=
  if predict then bind (get_error data test_target false None) (fun e => Ok (error_entry "average" e))
  else Ok NoReport.

(** The loop 134-142 from the k-th penalty on: the first fit with at least [size] non-zero
    coefficients.  Without one, coeff is never bound (UnboundLocalError, a NameError). *)
Fixpoint first_fit (size k : nat) (alphas : list R) : result (list R) :=
  match alphas with
  | [] => Err NameError
  | a :: t => let coef := lasso k a in if (size <=? nonzeros coef)%nat then Ok coef else first_fit size (S k) t
  end.

(** _lasso with line_search, 122-142; [nz >= None] is a TypeError. *)
Definition line_search_fit (size steps : option nat) (min_alpha max_alpha : R) : result (list R) :=
  match steps with
  | None => Err TypeError
  | Some n => match size with
              | Some k => first_fit k 0 (geomspace max_alpha min_alpha n)
              | None => Err (if (n =? 0)%nat then NameError else TypeError)
              end
  end.

(** _get_coefficients, 81-92, with _ridge (94-105), _elast (107-120) and _lasso (122-157). *)
Definition get_coefficients (m : reg_method) (predict line_search : bool) (size steps : option nat)
  (min_alpha max_alpha : R) : result (list R * reported) :=
  match m with
  | Ridge => bind (report predict (snd ridge)) (fun p => Ok (fst ridge, p))
  | Elastic => bind (report predict (snd elastic)) (fun p => Ok (fst elastic, p))
  | Lasso =>
      if line_search then bind (line_search_fit size steps min_alpha max_alpha) (fun c => Ok (c, NoReport))
      else bind (report predict (snd lasso_cv)) (fun p => Ok (fst lasso_cv, p))
  | OtherMethod => Err NameError
  end.

(** select['coeff'], select['prediction'], select['accepted'], select['rejected'] *)
Record selection := Selection { s_coeff : list R; s_prediction : reported; s_accepted : list nat; s_rejected : list nat }.

(** feature_select, 39-79: order[:None] and order[None:] are both the whole order, and
    without coefficients sort_list[1] does not exist. *)
Definition feature_select_full (m : reg_method) (predict line_search : bool) (size steps : option nat)
  (min_alpha max_alpha : R) : result selection :=
  bind (get_coefficients m predict line_search size steps min_alpha max_alpha) (fun cp =>
  let '(coeff, p) := cp in
  if (length coeff =? 0)%nat then Err IndexError else
  let order := map snd (rank_abs coeff) in
  Ok (match size with
      | Some k => Selection coeff p (fst (feature_select coeff k)) (snd (feature_select coeff k))
      | None => Selection coeff p order order
      end)).
End Fit.
