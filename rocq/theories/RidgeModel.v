(** Model of catlearn/regression/ridge_regression.py.

    Floats are real numbers and numpy's singular value decomposition is an oracle
    (its contract is stated with the theorems).  Feature matrices are rectangular
    lists of rows.  The prior p is a number.  The search for the regularization is
    modelled for any estimate of the prediction error, and the leave one out estimate is
    modelled; the estimate by bootstrap (210-381) is in BootModel. *)
From Coq Require Import Reals List Arith Bool Lia.
From Verif Require Import Base RBase LinAlg KernModel GPModel.
Import ListNotations.
Open Scope R_scope.

(** The attributes W2 and Vh of the object. *)
Record ridge := Ridge { r_W2 : option (list R); r_Vh : option matrix }.

(** X as a function of row and column. *)
Definition entry (X : list row) (i j : nat) : R := nth j (row_at X i) 0.

(** np.dot(X.T, X) and np.dot(X.T, Y) *)
Definition gram (X : list row) : matrix :=
  Mx (ncols X) (ncols X) (fun i j => Sum (length X) (fun k => entry X k i * entry X k j)).
Definition xty (X : list row) (Y : list R) (i : nat) : R := Sum (length X) (fun k => entry X k i * nth k Y 0).

Section SVD.
(** np.linalg.svd(M, full_matrices=True) of a square matrix: V, W, Vh. *)
Variable svd : matrix -> result (matrix * list R * matrix).

(** 104-106 and 196-198 *)
Definition use_svd (r : ridge) (X : list row) : result (ridge * list R * matrix) :=
  match r_W2 r, r_Vh r with
  | Some w, Some v => Ok (r, w, v)
  | _, _ => bind (svd (gram X)) (fun s => let '(_, w, vh) := s in Ok (Ridge (Some w) (Some vh), w, vh))
  end.

(** 171-208 RR: the object afterwards, the coefficients and the effective number of
    parameters. *)
Definition RR (r : ridge) (X : list row) (Y : list R) (omega2 p : R) (featvar : bool) : result (ridge * list R * R) :=
  bind (use_svd r X) (fun s => let '(r, W2, Vh) := s in
  let n := length W2 in
  let inv_W2_reg i := / (nth i W2 0 + omega2) in
  if negb ((length X =? length Y) && (nr Vh =? n) && (nc Vh =? ncols X))%nat then Err ValueError else
  let d := ncols X in
  let XtX_reg_inv i j := Sum n (fun k => at_ Vh k i * inv_W2_reg k * at_ Vh k j) in
  let coefs := tabulate d (fun i => Sum d (fun j => XtX_reg_inv i j * (xty X Y j + omega2 * p))) in
  let neff := Sum n (fun i => nth i W2 0 * inv_W2_reg i) in
  Ok (if featvar then Ridge None (r_Vh r) else r, coefs, neff)).

(** np.linspace *)
Definition linspace (a b : R) (n : nat) : list R := map (fun i => a + INR i * ((b - a) / INR (n - 1))) (seq 0 n).

(** np.argmin over the list of estimates and the element of the other list. *)
Fixpoint argmin_from (epe : R -> R) (best : R) (l : list R) : R :=
  match l with
  | [] => best
  | x :: t => argmin_from epe (if Rltb (epe x) (epe best) then x else best) t
  end.
Definition argmin (epe : R -> R) (l : list R) : option R :=
  match l with [] => None | x :: t => Some (argmin_from epe x t) end.

(** 112-117 *)
Definition first_range (W2 : list R) (wsteps : nat) : list R :=
  let whigh := ln (nth 0 W2 0 * 2) in
  let wlow := ln (last W2 0 * / 2) in
  / 1000000 * exp wlow :: map exp (linspace wlow whigh wsteps) ++ [1000000 * exp whigh].

(** 119-145.  argmin returns a numpy integer, which is never the same object as a
    Python integer, so 132-133 never returns.  None is the float infinity. *)
Fixpoint refine (epe : R -> R) (rsteps wsteps : nat) (tried range : list R) (width : R) : option R :=
  match rsteps with
  | O => argmin epe tried
  | S r =>
      let tried := tried ++ range in
      match argmin epe tried with
      | None => None
      | Some m =>
          let width := 2 * width / INR (wsteps - 1) in
          let wlow := ln m - width * / 2 in
          let whigh := ln m + width * / 2 in
          refine epe r wsteps tried (map exp (linspace wlow whigh wsteps)) width
      end
  end.

(** 81-145 for an estimate [epe] of the prediction error.  At least two steps, and no
    singular value that is exactly zero (logarithm of zero). *)
Definition find_optimal_regularization (epe : R -> R) (r : ridge) (X : list row) (wsteps rsteps : nat) : result (ridge * option R) :=
  bind (use_svd r X) (fun s => let '(r, W2, _) := s in
  let width := ln (nth 0 W2 0 * 2) - ln (last W2 0 * / 2) in
  Ok (r, refine epe rsteps wsteps [] (first_range W2 wsteps) width)).

(** 57-79 get_coefficients.  With a supplied regularization data['reg'] is the empty
    list, and the product of an array and an empty list is an error.  An infinite
    regularization (rsteps = 0) gives coefficients that are not numbers: not
    modelled. *)
Definition get_coefficients (epe : R -> R) (r : ridge) (X : list row) (Y : list R) (reg : option R) (p : R) (wsteps rsteps : nat) :
  result (ridge * list R) :=
  match reg with
  | Some _ => Err ValueError
  | None =>
      bind (find_optimal_regularization epe r X wsteps rsteps) (fun f =>
      match snd f with
      | None => Err RuntimeError
      | Some w => bind (RR (fst f) X Y w p false) (fun c => Ok (fst (fst c), snd (fst c)))
      end)
  end.
End SVD.

(** 41-55 predict with given coefficients, one of the two lists. *)
Fixpoint predict_rows (coef : list R) (m : list row) : result (list R) :=
  match m with
  | [] => Ok []
  | v :: t => if (length coef =? length v)%nat
              then bind (predict_rows coef t) (fun r => Ok (inner coef v :: r))
              else Err ValueError
  end.

(** 409-435 _LOOCV, from the left singular vectors and singular values of X. *)
Definition loocv_P (U : matrix) (W : list R) (omega2 : R) (i j : nat) : R :=
  ident i j - Sum (length W) (fun k => at_ U i k * (/ (nth k W 0 ^ 2 + omega2) * nth k W 0 ^ 2) * at_ U j k).

Definition loocv (X : list row) (Y : list R) (p omega2 : R) (U : matrix) (W : list R) : R :=
  let n := length Y in
  let Y_ i := nth i Y 0 - Sum (ncols X) (fun j => entry X i j * p) in
  let P := loocv_P U W omega2 in
  sqrt (/ INR n * Sum n (fun i => Sum n (fun j => Y_ j * P j i) * / (P i i) ^ 2 * Sum n (fun j => P i j * Y_ j))).
