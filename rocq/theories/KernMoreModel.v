(** The kernels of catlearn/regression/gpfunctions/kernels.py that kernel_setup.py does not
    prepare, and gpfunctions/hyperparameter_scaling.py.

    Widths and the parameters of the Aitchison-Aitken kernel are taken to be such that no
    negative number is raised to a fractional power and no variance is zero (nan and inf are
    not modelled). *)
From Coq Require Import Reals List Arith Bool.
From Verif Require Import Base RBase LinAlg KernModel.
Import ListNotations.
Open Scope R_scope.

(** cdist and pdist refuse rows of different widths. *)
Definition same_width (m1 : list row) (m2 : option (list row)) : bool :=
  match m2 with None => true | Some m => (ncols m =? ncols m1)%nat end.

(** exp(-.5 * d) of kernels.py 328 and 332, d being scipy's seuclidean distance with
    variances [v]. *)
Definition sqe_fn (v x y : row) : R :=
  exp (- / 2 * sqrt (sumR (map (fun p => (fst (fst p) - snd (fst p)) ^ 2 / snd p) (combine (combine x y) v)))).

(** 298-334; scipy refuses a number of variances other than the number of columns. *)
Definition sqe_kernel (theta : row) (log_scale grad : bool) (m1 : list row) (m2 : option (list row)) : result matrix :=
  if grad then Err NotImplementedError else
  let kwidth := map (logged log_scale) theta in
  if (length kwidth =? ncols m1)%nat && same_width m1 m2 then Ok (dist_matrix (sqe_fn kwidth) m1 m2) else Err ValueError.

(** 337-372: theta[:N_D] with the float N_D = len(theta) / 2. *)
Definition scaled_sqe_kernel (theta : row) (log_scale grad : bool) (m1 : list row) (m2 : option (list row)) : result matrix :=
  if grad then Err NotImplementedError else Err TypeError.

(** 403-409: the sum, over the entries of c and the features, of
    ll ** (n - |u - v|) * q ** |u - v|. *)
Definition aa_fn (ll : R) (c : row) (n : R) (u v : row) : R :=
  sumR (map (fun cc =>
    let q := (1 - ll) / (cc - ll) in
    sumR (map (fun p => let d := Rabs (fst p - snd p) in Rpower ll (n - d) * Rpower q d) (combine u v))) c).

(** 375-412; np.vstack of no rows is a ValueError. *)
Definition AA_kernel (theta : row) (log_scale grad : bool) (m1 : list row) (m2 : option (list row)) : result matrix :=
  if grad then Err NotImplementedError else
  match theta with
  | [] => Err IndexError
  | [_] => Err ValueError
  | ll :: c =>
      if same_width m1 m2 then
        Ok (Mx (length m1) (length (cols_of m1 m2)) (fun i j =>
          aa_fn (logged log_scale ll) (map (logged log_scale) c) (INR (ncols m1)) (row_at m1 i) (row_at (cols_of m1 m2) j)))
      else Err ValueError
  end.

(** hyperparameter_scaling.py 7-14 *)
Definition hyperparameters (std : row) (ks : list kdict) : result (list kdict) := kernel_scaling std ks false.
Definition rescale_hyperparameters (std : row) (ks : list kdict) : result (list kdict) := kernel_scaling std ks true.
