(** The surrogate of ML-NEB as a Gaussian process (catlearn/optimize/mlneb.py 669-724), and
    the calculator that predicts with it (749-819).

    PathModel.train_gp_model has the arguments of the Gaussian process; here it is built and
    optimised.  MaskModel.ase_calculate has the calculator for any predicted mean; here the
    mean is that of the Gaussian process, one call for the energy and two for the forces. *)
From Coq Require Import Reals List Arith Bool.
From Verif Require Import Base RBase LinAlg KernModel GPModel MaskModel MinSurrModel.
From Verif Require PathModel.
From Coq Require Import List.
Import ListNotations.
Open Scope R_scope.

Definition bound_of (q : R * R) : bound := between (fst q) (snd q).

(** 690-699 *)
Definition path_kernels (s : PathModel.gp_settings) : list kdict :=
  [sq_kernel Single (Num (PathModel.g_width s)) [bound_of (PathModel.g_bounds s)] (PathModel.g_scaling s) [bound_of (PathModel.g_scaling_bounds s)];
   noise_kernel [fst (PathModel.g_noise s); snd (PathModel.g_noise s)]
     [bound_of (fst (PathModel.g_noise_bounds s)); bound_of (snd (PathModel.g_noise_bounds s))]].

Section Oracles.
Variable inv : matrix -> result matrix.
Variable cho : matrix -> result matrix.
Variable cho_solve : matrix -> list R -> list R.

(** 669-724: the model and max_target.  The arguments of GaussianProcess are those of
    MLMin's fit, followed by an optimisation of the hyperparameters. *)
Definition path_surrogate (minimizer : list R -> list bound -> list R * R) (train : list (list R)) (targets : list R)
  (gradients : list (list R)) (mask : option (list nat)) (path_distance : R) : result (gp * R) :=
  bind (PathModel.train_gp_model train targets gradients mask path_distance) (fun q =>
  let s := fst q in
  bind (fit inv cho cho_solve (PathModel.g_train s) (PathModel.g_targets s) (PathModel.g_gradients s) (path_kernels s)) (fun g =>
  bind (optimize_hyperparameters inv g minimizer) (fun g' => Ok (g', snd q)))).
End Oracles.

(** predictions['prediction'][0] *)
Definition first_of (l : list R) : result R := match l with [] => Err IndexError | x :: _ => Ok x end.

(** 769-819 *)
Definition calculator (g : gp) (idx : list nat) (scaling fs : R) (pos : list R) : result (R * list R) :=
  bind (take pos idx) (fun test =>
  bind (predict g [test]) (fun e =>
  bind (first_of e) (fun e =>
  let moved (h : R) := map (fun i => set_nth i (nth (nth i idx 0%nat) pos 0 + h) test) (seq 0 (length idx)) in
  bind (predict g (moved fs)) (fun f_pos =>
  bind (predict g (moved (- fs))) (fun f_neg =>
  let gradients_list := map (fun q => (- snd q + fst q) / (2 * fs)) (combine f_pos f_neg) in
  bind (write_back (repeat 0 (length pos)) idx gradients_list) (fun gradients =>
  Ok (e + scaling, map Ropp gradients))))))).
