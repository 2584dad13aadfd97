(** catlearn/regression/gpfunctions/sensitivity.py, catlearn/estimator/general_gp.py
    and catlearn/estimator/general_kernel.py.

    The Gaussian process, its kernels and the preprocessing are those of GPModel.v,
    KernModel.v and PrepModel.v.  Matrix inversion, Cholesky decomposition and the
    minimizer of scipy are parameters. *)
From Coq Require Import Reals List Arith Bool.
From Verif Require Import Base RBase LinAlg KernModel GPModel.
From Verif Require PrepModel.
Import ListNotations.
Open Scope R_scope.

Section Oracles.
Variable inv : matrix -> result matrix.
Variable cho : matrix -> result matrix.
Variable cho_solve : matrix -> list R -> list R.
Variable minimizer : list R -> list bound -> list R * R.

(** gaussian_process.py 21-85 with optimize_hyperparameters=True, no gradients and
    scale_optimizer=False. *)
Definition gp_optimized (fp : list row) (tgt : list R) (ks : list kdict) (reg : R) (sdata : bool) : result gp :=
  bind (gp_init inv cho cho_solve fp tgt ks None reg None false sdata) (fun s =>
  optimize_hyperparameters inv s minimizer).

(** ** sensitivity.py *)

(** np.delete(l, idx): the entries whose position is not in [idx]. *)
Definition del {A} (idx : list nat) (l : list A) : list A :=
  map snd (filter (fun p => negb (existsb (Nat.eqb (fst p)) idx)) (combine (seq 0 (length l)) l)).

(** The attributes of SensitivityAnalysis, 31-36 (self.width is only written). *)
Record sens := SA { s_train : list row; s_targets : list R; s_test : list row; s_kernels : list kdict; s_reg : R }.

(** What backward_selection stores for one step: 81-101 and 'abs_index' of 60, 86. *)
Record entry := EN { e_features : nat; e_widths : list R; e_reg : R; e_sorted : list nat; e_sens : list R; e_abs : list nat }.

(** self.kernel_list[0]['width'] *)
Definition first_width (ks : list kdict) : result (list R) :=
  match ks with
  | [] => Err IndexError
  | k :: _ => match k_width k with None => Err KeyError | Some (Num _) => Err TypeError | Some (Arr w) => Ok w end
  end.

(** 130-132: one feature.  [K] is ktb, the covariance of the training data with the
    noise; every row of it is multiplied by a number and summed. *)
Definition sensitivity_of (train test : list row) (alpha : list R) (K : matrix) (wj : R) (j : nat) : R :=
  sumR (map (fun q =>
    1 / INR (length train) *
    (sumR (map (fun i => Sum (nc K) (fun c => nth i alpha 0 * (nth j (row_at train i) 0 - nth j q 0) / wj * at_ K i c))
               (seq 0 (length train)))) ^ 2) test).

(** 103-138.  ktb is computed by the same call as cvm.  w[j] beyond the widths is an
    IndexError. *)
Definition mean_sensitivity (s : sens) : result (list R) :=
  bind (first_width (s_kernels s)) (fun w =>
  bind (get_covariance (s_kernels s) false (s_train s) None (Some (s_reg s)) false) (fun cvm =>
  bind (get_covariance (s_kernels s) false (s_train s) None (Some (s_reg s)) false) (fun ktb =>
  bind (inv cvm) (fun cinv =>
  bind (dot_vec cinv (s_targets s)) (fun alpha =>
  if (length w <? ncols (s_train s))%nat && negb (length (s_test s) =? 0)%nat then Err IndexError else
  Ok (map (fun j => sensitivity_of (s_train s) (s_test s) alpha ktb (nth j w 0) j) (seq 0 (ncols (s_train s))))))))).

(** 93-96: positions by falling sensitivity, equal ones in their order. *)
Definition rank (l : list R) : list nat :=
  map fst (isort (fun a b => Rleb (snd b) (snd a)) (combine (seq 0 (length l)) l)).

(** 77-101 with 140-151, without predictions.  An empty list of sensitivities makes
    the slice of line 95 fail. *)
Definition opt_step (s : sens) (abs_index : list nat) : result (sens * entry) :=
  bind (gp_optimized (s_train s) (s_targets s) (s_kernels s) (s_reg s) true) (fun g =>
  let s := SA (s_train s) (s_targets s) (s_test s) (g_kernels g) (g_reg g) in
  bind (first_width (s_kernels s)) (fun w =>
  bind (mean_sensitivity s) (fun l =>
  match l with
  | [] => Err IndexError
  | _ => Ok (s, EN (ncols (s_train s)) w (s_reg s) (rank l) l abs_index)
  end))).

(** 77-82: delete the features of dlist[i:] everywhere.  dlist is an array of floats
    (93: the array of pairs holds positions and sensitivities); [strict]: the version
    of numpy (1.19 and later) refuses such indices, earlier ones convert them. *)
Definition drop_features (strict : bool) (s : sens) (out : list nat) : result sens :=
  if strict then Err IndexError else
  bind (first_width (s_kernels s)) (fun w =>
  match s_kernels s with
  | [] => Err IndexError
  | k :: ks => Ok (SA (map (del out) (s_train s)) (s_targets s) (map (del out) (s_test s))
                      (set_width k (Arr (del out w)) :: ks) (s_reg s))
  end).

(** 75-87 *)
Fixpoint backward_loop (strict : bool) (pi : list nat) (s : sens) (index dlist : list nat) : result (sens * list (nat * entry)) :=
  match pi with
  | [] => Ok (s, [])
  | i :: pi =>
      bind (drop_features strict s (skipn i dlist)) (fun s =>
      let index := del (skipn i dlist) index in
      bind (opt_step s index) (fun r =>
      bind (backward_loop strict pi (fst r) index (e_sorted (snd r))) (fun t =>
      Ok (fst t, (i, snd r) :: snd t))))
  end.

(** Argument selection: None, a number or a list of two. *)
Inductive selection := All | Upto (n : nat) | Range (a b : nat).

(** 62-72 *)
Definition steps (sel : selection) (f : nat) : list nat :=
  let '(a, b) := match sel with All => (1, f)%nat | Upto n => (1, n)%nat | Range a b => (a, b) end in
  rev (seq a (b - a)).

(** 38-89: data['original'] and data[str(i)] in the order of insertion, and the object
    afterwards. *)
Definition backward_selection (strict : bool) (sel : selection) (s : sens) : result (sens * (entry * list (nat * entry))) :=
  let f := ncols (s_train s) in
  bind (opt_step s (seq 0 f)) (fun r =>
  bind (backward_loop strict (steps sel f) (fst r) (seq 0 f) (e_sorted (snd r))) (fun t =>
  Ok (fst t, (snd r, snd t)))).

(** ** general_kernel.py *)

(** 22-46.  The dimension is compared by identity with the literal 'single' (which
    is the same object for literals). *)
Definition default_lengthscale (features : list row) (dim : dimension) : result val :=
  match dim with
  | Single => Ok (Num (std (concat features)))
  | Features => Ok (Arr (PrepModel.axis0 0 std features))
  | OtherDim => Err AssertionError
  end.

Definition plain_kernel (t : ktype) (dim : option dimension) (sc : option R) (w : option val) (c : option R)
  (sl dg : option val) : kdict := KD (Some t) false None dim sc true None None w c sl dg None false.

(** 49-56 *)
Definition smooth_kernel (features : list row) (dim : dimension) : result (list kdict) :=
  bind (default_lengthscale features dim) (fun l =>
  Ok [plain_kernel KGaussian (Some dim) (Some 1) (Some l) None None None]).

(** 5-19 *)
Definition general_kernel (features : list row) (dim : dimension) : result (list kdict) :=
  bind (default_lengthscale features dim) (fun l =>
  Ok [plain_kernel KLinear None (Some 1) None None None None;
      plain_kernel KConstant None None None (Some 1) None None;
      plain_kernel KGaussian (Some dim) (Some 1) (Some l) None None None;
      plain_kernel KQuadratic (Some dim) (Some 1) None None (Some l) (Some (Num 1));
      plain_kernel KLaplacian None (Some 1) (Some l) None None None]).

(** ** general_gp.py *)

(** cho_factor refuses values that are not finite. *)
Definition finite_row (r : list PrepModel.fl) : result row :=
  if PrepModel.all_finite r then Ok (map PrepModel.fin_value r) else Err ValueError.
Fixpoint finite_rows (m : list (list PrepModel.fl)) : result (list row) :=
  match m with [] => Ok [] | r :: t => bind (finite_row r) (fun x => bind (finite_rows t) (fun y => Ok (x :: y))) end.

(** 34-62 and 83-103; [smooth]: 'smooth' is in the kernel argument.  The object keeps
    the cleaner and the model. *)
Definition train_general (smooth : bool) (dim : dimension) (features : list (list PrepModel.fl)) (targets : list PrepModel.fl)
  : result (PrepModel.prep * gp) :=
  bind (PrepModel.process features targets None) (fun r =>
  let '(p, (f, t, _)) := r in
  bind (finite_rows f) (fun f =>
  bind (finite_row t) (fun t =>
  bind (if smooth then smooth_kernel f dim else general_kernel f dim) (fun ks =>
  bind (gp_optimized f t ks (1 / 100) false) (fun g => Ok (p, g)))))).

(** 64-81 *)
Definition predict_general (o : PrepModel.prep * gp) (test : list (list PrepModel.fl)) : result (list R) :=
  bind (PrepModel.transform (Some (fst o)) test) (fun f =>
  bind (finite_rows f) (fun f => predict (snd o) f)).
End Oracles.
