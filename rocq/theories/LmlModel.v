(** Model of the jacobian in catlearn/regression/gpfunctions/log_marginal_likelihood.py
    and of the derivatives of kernels with respect to hyperparameters in
    gpfunctions/kernels.py.  Derivatives are lists with one N by N matrix per
    hyperparameter (the last axis of the arrays). *)
From Coq Require Import Reals List Arith Bool Lia.
From Verif Require Import Base RBase LinAlg KernModel GPModel.
Import ListNotations.
Open Scope R_scope.

(** (m1[:, None, :] - m1[None, :, :]) combined with the widths, multiplied with k:
    one matrix per width; numpy broadcasts a single feature. *)
Definition per_width (f : R -> R -> R) (k : matrix) (m1 : list row) (w : list R) : result (list matrix) :=
  let x i d := nth d (row_at m1 i) 0 in
  let one d c := Mx (length m1) (length m1) (fun i j => f (x i d - x j d) c * at_ k i j) in
  if (length w =? ncols m1)%nat then Ok (map (fun d => one d (nth d w 0)) (seq 0 (length w)))
  else if (ncols m1 =? 1)%nat then Ok (map (one 0%nat) w)
  else Err ValueError.

(** kernels.py 269-295 *)
Definition gaussian_dk_dwidth (k : matrix) (m1 : list row) (w : list R) : result (list matrix) :=
  match w with
  | [c] => Ok [Mx (length m1) (length m1) (fun i j =>
             (if (i =? j)%nat then 0 else sqeuclidean (row_at m1 i) (row_at m1 j) / c ^ 3) * at_ k i j)]
  | _ => per_width (fun z c => z ^ 2 / c ^ 3) k m1 w
  end.

(** kernels.py 540-553 *)
Definition laplacian_dk_dwidth (k : matrix) (m1 : list row) (w : list R) : result (list matrix) :=
  match w with
  | [c] => Ok [Mx (length m1) (length m1) (fun i j =>
             (if (i =? j)%nat then 0
              else cityblock_dist (map (fun z => z / c ^ 2) (row_at m1 i)) (map (fun z => z / c ^ 2) (row_at m1 j))) * at_ k i j)]
  | _ => per_width (fun z c => Rabs z / c ^ 2) k m1 w
  end.

(** 97-144, one turn of the loop.  [kold] is the local variable k, unbound before it is
    first assigned.  The result: the new k, the new position ki, the matrices. *)
Definition scaled_by (k : kdict) (l : list matrix) : list matrix :=
  match k_scaling k with
  | Some s => map (fun M => Mx (nr M) (nc M) (fun i j => at_ M i j * s)) l
  | None => l
  end.

Definition bound_k (k : option matrix) : result matrix := match k with Some K => Ok K | None => Err NameError end.

Definition dk_step (theta : list R) (m : list row) (k : kdict) (ki : nat) (kold : option matrix) :
  result (option matrix * nat * list matrix) :=
  match k_type k with
  | None => Err KeyError
  | Some t =>
      if k_mult k then Err NotImplementedError else
      bind (if is_some (k_scaling k) || match t with KGaussian => true | _ => false end
            then bind (kdict2list k (ncols m)) (fun r => bind (kernel t (snd r) false false m None) (fun K => Ok (Some K)))
            else Ok kold) (fun knew =>
      bind (match k_scaling k with Some _ => bind (bound_k knew) (fun K => Ok ([K], S ki)) | None => Ok ([], ki) end) (fun r =>
      let '(js, ki) := r in
      match t with
      | KConstant => Ok (knew, S ki, js ++ [Mx (length m) (length m) (fun _ _ => 1)])
      | KLinear => Ok (knew, ki, js)
      | KGaussian =>
          bind (len (k_width k)) (fun n => bind (bound_k knew) (fun K =>
          bind (gaussian_dk_dwidth K m (slice theta ki n)) (fun d => Ok (knew, (ki + n)%nat, js ++ scaled_by k d))))
      | KLaplacian =>
          bind (len (k_width k)) (fun n => bind (bound_k knew) (fun K =>
          bind (laplacian_dk_dwidth K m (slice theta ki n)) (fun d => Ok (knew, (ki + n)%nat, js ++ scaled_by k d))))
      | KQuadratic => bind (len (k_slope k)) (fun _ => bind (bound_k knew) (fun _ => Err NotImplementedError))
      | _ => Err NotImplementedError
      end))
  end.

Fixpoint dk_loop (theta : list R) (m : list row) (ks : list kdict) (ki : nat) (kold : option matrix) : result (list matrix) :=
  match ks with
  | [] => Ok []
  | k :: t =>
      bind (dk_step theta m k ki kold) (fun r =>
      let '(knew, ki, js) := r in
      bind (dk_loop theta m t ki knew) (fun rest => Ok (js ++ rest)))
  end.

(** 78-149; the last matrix is for the noise. *)
Definition dK_dtheta_j (theta : list R) (m : list row) (ks : list kdict) : result (list matrix) :=
  bind (dk_loop theta m ks 0 None) (fun l => Ok (l ++ [Mx (length m) (length m) (fun i j => if (i =? j)%nat then 1 else 0)])).

Section Oracles.
Variable cho : matrix -> result matrix.
Variable cho_solve : matrix -> list R -> list R.

Definition unit_vec (n j : nat) : list R := tabulate n (fun i => if (i =? j)%nat then 1 else 0).

(** 12-75 with eval_jac=True and cinv=None: the negative likelihood and its jacobian. *)
Definition neg_lml_jac (theta : list R) (train : list row) (targets : list R) (ks : list kdict) (log_scale grad : bool) :
  result (R * list R) :=
  let n := length targets in
  bind (list2kdict theta ks) (fun ks' =>
  bind (get_covariance ks' log_scale train None (Some (last theta 0)) grad) (fun K =>
  bind (cho K) (fun L =>
  if negb (nr L =? n)%nat then Err ValueError else
  let a := cho_solve L targets in
  let datafit := - / 2 * Sum n (fun i => nth i targets 0 * nth i a 0) in
  let complexity := - Sum (nr L) (fun i => ln (at_ L i i)) in
  let normalization := - INR n * ln (2 * PI) / 2 in
  let p := datafit + complexity + normalization in
  let C i j := nth i (cho_solve L (unit_vec n j)) 0 in
  let Q i j := nth i a 0 * nth j a 0 - C i j in
  bind (dK_dtheta_j theta train ks') (fun dK =>
  if negb (forallb (fun M => (nr M =? n)%nat && (nc M =? n)%nat) dK) then Err ValueError else
  Ok (- p, map (fun M => - (/ 2 * Sum n (fun i => Sum n (fun j => Q i j * at_ M i j)))) dK))))).
End Oracles.
