(** catlearn/regression/ridge_regression.py, the bootstrap estimate of the prediction
    error (210-381), _LOOCV_l (383-407), the search with such an estimate (81-145) and
    regularization (147-169).

    Floats are real numbers; None stands for nan, the mean of no numbers.  numpy's
    singular value decomposition and its random number generator are parameters. *)
From Coq Require Import Reals List Arith Bool.
From Verif Require Import Base RBase LinAlg KernModel GPModel RidgeModel.
Import ListNotations.
Open Scope R_scope.

Fixpoint mapM {A B} (f : A -> result B) (l : list A) : result (list B) :=
  match l with [] => Ok [] | x :: t => bind (f x) (fun y => bind (mapM f t) (fun r => Ok (y :: r))) end.

(** 210-235 _RR_preSVD *)
Definition rr_presvd (X : list row) (Y : list R) (p omega2 : R) (W2 : list R) (Vh : matrix) : result (list R) :=
  let n := length W2 in
  if negb ((length X =? length Y) && (nr Vh =? n) && (nc Vh =? ncols X))%nat then Err ValueError else
  let d := ncols X in
  let inv_W2_reg i := / (nth i W2 0 + omega2) in
  let XtX_reg_inv i j := Sum n (fun k => at_ Vh k i * inv_W2_reg k * at_ Vh k j) in
  Ok (tabulate d (fun i => Sum d (fun j => XtX_reg_inv i j * (xty X Y j + omega2 * p)))).

(** X.take(sample, axis=0), Y.take(sample) *)
Definition take_rows (X : list row) (sample : list nat) : list row := map (row_at X) sample.
Definition take_values (Y : list R) (sample : list nat) : list R := map (fun i => nth i Y 0) sample.

(** np.dot(X, a) - Y *)
Definition residuals (X : list row) (Y : list R) (a : list R) : list R :=
  map (fun q => inner (fst q) a - snd q) (combine X Y).

(** np.mean *)
Definition nanmean (l : list R) : option R := match l with [] => None | _ => Some (sumR l / INR (length l)) end.

Definition is_in (i : nat) (l : list nat) : bool := existsb (Nat.eqb i) l.

(** 337-357 _bootstrap_ERR: [errors] are the residuals for each sample.  A mean with a
    nan is a nan. *)
Fixpoint all_some {A} (l : list (option A)) : option (list A) :=
  match l with [] => Some [] | x :: t => match x, all_some t with Some a, Some r => Some (a :: r) | _, _ => None end end.

Definition bootstrap_ERR (n : nat) (errors : list (list R)) (samples : list (list nat)) : option R :=
  match all_some (map (fun i => nanmean (map (fun q => nth i (fst q) 0 ^ 2) (filter (fun q => negb (is_in i (snd q))) (combine errors samples)))) (seq 0 n)) with
  | None => None
  | Some l => nanmean l
  end.

Section SVD.
Variable svd : matrix -> result (matrix * list R * matrix).

(** 359-381 _get_samples_svd.  Nothing is returned for no samples; the third axis that
    bootstrap_calc takes exists from two samples on (361-367). *)
Definition samples_svd (X : list row) (samples : list (list nat)) : result (list (list R * matrix)) :=
  match samples with
  | [] => Err NameError
  | _ => mapM (fun s => bind (svd (gram (take_rows X s))) (fun r => Ok (snd (fst r), snd r))) samples
  end.

(** 292-335 bootstrap_calc, the value EPE. *)
Definition bootstrap_calc (X : list row) (Y : list R) (p omega2 : R) (samples : list (list nat)) (W2 : list R) (Vh : matrix)
  (svds : list (list R * matrix)) : result (option R) :=
  bind (rr_presvd X Y p omega2 W2 Vh) (fun coefs =>
  let err := sumR (map (fun e => e ^ 2 / INR (length Y)) (residuals X Y coefs)) in
  if (length samples =? 1)%nat then Err IndexError else
  bind (mapM (fun q => rr_presvd (take_rows X (fst q)) (take_values Y (fst q)) p omega2 (fst (snd q)) (snd (snd q)))
             (combine samples svds)) (fun a =>
  let errors := map (residuals X Y) a in
  Ok match bootstrap_ERR (length Y) errors samples with
     | None => None
     | Some ERR => Some (sqrt (368 / 1000 * err + 632 / 1000 * ERR))
     end)).

(** np.argmin over the estimates so far; a nan counts as the smallest value. *)
Fixpoint first_nan (l : list (R * option R)) : option R :=
  match l with [] => None | (w, None) :: _ => Some w | _ :: t => first_nan t end.
Fixpoint smallest (w e : R) (l : list (R * option R)) : R :=
  match l with
  | (w', Some e') :: t => if Rltb e' e then smallest w' e' t else smallest w e t
  | _ :: t => smallest w e t
  | [] => w
  end.
Definition choose (l : list (R * option R)) : option R :=
  match first_nan l with
  | Some w => Some w
  | None => match l with (w, Some e) :: t => Some (smallest w e t) | _ => None end
  end.

(** 119-145 as in RidgeModel.refine, for an estimate that may fail or be nan.  The
    bootstrap draws its samples anew in every refinement, with the same seed, so they
    are the same samples (279-290). *)
Fixpoint search (epe : R -> result (option R)) (rsteps wsteps : nat) (tried : list (R * option R)) (range : list R) (width : R) : result (option R) :=
  match rsteps with
  | O => Ok (choose tried)
  | S r =>
      bind (mapM (fun w => bind (epe w) (fun e => Ok (w, e))) range) (fun es =>
      let tried := tried ++ es in
      match choose tried with
      | None => Err ValueError
      | Some m =>
          let width := 2 * width / INR (wsteps - 1) in
          let wlow := ln m - width * / 2 in
          let whigh := ln m + width * / 2 in
          search epe r wsteps tried (map exp (linspace wlow whigh wsteps)) width
      end)
  end.

(** 81-145 with cv='bootstrap', and 238-277 _bootstrap_master, for the samples drawn. *)
Definition find_bootstrap (r : ridge) (X : list row) (Y : list R) (p : R) (samples : list (list nat)) (wsteps rsteps : nat) : result (ridge * option R) :=
  bind (use_svd svd r X) (fun s => let '(r, W2, Vh) := s in
  let width := ln (nth 0 W2 0 * 2) - ln (last W2 0 * / 2) in
  bind (search (fun w => bind (samples_svd X samples) (fun svds => bootstrap_calc X Y p w samples W2 Vh svds))
          rsteps wsteps [] (first_range W2 wsteps) width) (fun m => Ok (r, m))).

(** 147-169 regularization: nothing is computed when coefficients are given.  The
    search [find] is that of the chosen method. *)
Definition regularization (find : ridge -> result (ridge * option R)) (r : ridge) (X : list row) (Y : list R) (coef : option (list R)) (featvar : bool)
  : result (ridge * option (list R * R)) :=
  match coef with
  | Some _ => Ok (r, None)
  | None => bind (find r) (fun f =>
      match snd f with
      | None => Err RuntimeError
      | Some b => bind (RR svd (fst f) X Y b 0 featvar) (fun c => Ok (fst (fst c), Some (snd (fst c), b)))
      end)
  end.
End SVD.

(** 279-290 _get_bootstrap_samples: the global generator is seeded, then drawn from. *)
Section Random.
Variable state : Type.
Variable seed : nat -> state.
Variable draw : state -> nat -> nat -> state * list (list nat).
Definition get_bootstrap_samples (g : state) (Nd Ns : nat) : state * list (list nat) := draw (seed 15) Nd Ns.
End Random.

(** 383-407 _LOOCV_l *)
Definition loocv_list (X : list row) (Y : list R) (p : R) (omegas : list R) (U : matrix) (W : list R) : result (list R) :=
  match omegas with [] => Err NameError | _ => Ok (map (fun w => loocv X Y p w U W) omegas) end.
