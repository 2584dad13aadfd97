(** Fitness functions of the genetic feature selection: catlearn/ga/predictors.py.

    The Gaussian process is that of GPModel.v, optimized as in SensModel.v; matrix
    inversion, Cholesky decomposition, the minimizer of scipy and the clock are parameters. *)
From Coq Require Import Reals List Arith Bool.
From Verif Require Import Base RBase LinAlg KernModel GPModel SensModel.
Import ListNotations.
Open Scope R_scope.

Section Oracles.
Variable inv : matrix -> result matrix.
Variable cho : matrix -> result matrix.
Variable cho_solve : matrix -> list R -> list R.
Variable minimizer : list R -> list bound -> list R * R.

(** The kernel of 23-24, 61-62 and 100-101. *)
Definition fitness_kernel : list kdict := [plain_kernel KGaussian (Some Single) (Some 1) (Some (Num 1)) None None None].

(** 26-31, 64-69, 104-109: the model, regularization 1e-2, hyperparameters optimized, data
    scaled. *)
Definition fitness_gp (train : list row) (train_t : list R) : result gp :=
  gp_optimized inv cho cho_solve minimizer train train_t fitness_kernel (1 / 100) true.

(** 33-37, 71-75, 112-116: predict with validation and training errors
    (gaussian_process.py 137-180) and pred['validation_error']['rmse_average']. *)
Definition score_of (g : gp) (test : list row) (test_t : list R) : result R :=
  bind (predict g test) (fun p =>
  bind (get_error p test_t false None) (fun e =>
  bind (train_prediction g) (fun tp =>
  bind (get_error tp (train_reference g) false None) (fun _ =>
  Ok (e_rmse_average e))))).

(** 7-39 *)
Definition minimize_error (train : list row) (train_t : list R) (test : list row) (test_t : list R) : result (list R) :=
  bind (fitness_gp train train_t) (fun g =>
  bind (score_of g test test_t) (fun score => Ok [- score])).

(** 42-78 *)
Definition minimize_error_descriptors (train : list row) (train_t : list R) (test : list row) (test_t : list R) : result (list R) :=
  bind (fitness_gp train train_t) (fun g =>
  bind (score_of g test test_t) (fun score => Ok [- score; - INR (ncols train)])).

(** 81-118; [stime] and [etime] are the two readings of the clock. *)
Definition minimize_error_time (stime etime : R) (train : list row) (train_t : list R) (test : list row) (test_t : list R) : result (list R) :=
  bind (fitness_gp train train_t) (fun g =>
  let timing := etime - stime in
  bind (score_of g test test_t) (fun score => Ok [- score; - timing])).
End Oracles.
