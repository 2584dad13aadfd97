(** The surrogate of MLMin.run (catlearn/optimize/mlmin.py 153-241 and fit, 366-379): how the
    Gaussian process of a pass is set up and trained.  OptModel has the loop around it, with
    the surrogate as an oracle.

    The minimizer of scipy is an oracle that also returns theta_opt.success.  The locals
    opt_hyper and kdict keep their values from one pass to the next.  The list of kernels
    that gp.kernel_list, kdict and success_hyper refer to is one object: list2kdict writes
    the hyperparameters into its dictionaries.  np.std is that of PathModel. *)
From Coq Require Import Reals List Arith Bool String.
From Verif Require Import Base RBase LinAlg KernModel GPModel MaskModel OptModel.
From Verif Require PathModel.
From Coq Require Import List.
Import ListNotations.
Open Scope R_scope.

(** The two dictionaries of a surrogate. *)
Definition sq_kernel (dim : dimension) (width : val) (bounds : list bound) (scaling : R) (scaling_bounds : list bound) : kdict :=
  KD (Some KGaussian) false None (Some dim) (Some scaling) true (Some scaling_bounds) (Some bounds) (Some width) None None None None false.
Definition noise_kernel (h : list R) (bounds : list bound) : kdict :=
  KD (Some KNoiseMulti) false None None None true None (Some bounds) None None None None (Some (Arr h)) false.
Definition between (a b : R) : bound := (a, Some b).

(** opt_hyper and kdict, when they have been assigned *)
Notation locals := (option (bool * list kdict)).

(** 166-217: four if-statements in a row.  [nmask] is len(self.index_mask), [npoints]
    is len(self.list_targets).  0.4**2 is 4/25. *)
Definition kernel_setup (kernel : string) (noise sigma_f : R) (nmask npoints : nat) (l : locals) : locals :=
  let fixed_noise := noise_kernel [noise * (4 / 25); noise] [between (noise * (4 / 25)) (noise * (4 / 25)); between noise noise] in
  let l := if (kernel =? "SQE_fixed")%string then
             Some (false, [sq_kernel Single (Num (2 / 5)) [between (2 / 5) (2 / 5)] 1 [between 1 1]; fixed_noise]) else l in
  let l := if (kernel =? "SQE")%string then
             Some (true, [sq_kernel Single (Num (2 / 5)) [between (1 / 100) 1] sigma_f [between sigma_f sigma_f];
                          noise_kernel [noise; noise * (4 / 25)]
                            [between (noise / 5) (noise * 10); between (noise / 5 * (4 / 25)) (noise * 10)]]) else l in
  let l := if (kernel =? "ARD_SQE")%string then
             Some (true, [sq_kernel Features (Num (2 / 5)) (repeat (between (1 / 100) 1) nmask) sigma_f [between sigma_f sigma_f];
                          noise_kernel [noise / 2; noise / 10] [between (noise / 5) noise; between (noise / 10) (noise / 4)]]) else l in
  if (npoints =? 1)%nat then
    Some (false, [sq_kernel Single (Num (1 / 5)) [between (1 / 5) (1 / 5)] sigma_f [between sigma_f sigma_f]; fixed_noise])
  else l.

(** The data a pass starts with. *)
Record data := Data { d_train : list (list R); d_targets : list R; d_gradients : list (list R); d_mask : list nat }.

(** What a pass leaves behind: the locals, success_hyper (None: False), the model and u_prior. *)
Record surrogate := Surrogate { r_locals : locals; r_success : option (list kdict); r_gp : option gp; r_prior : R }.
Definition no_surrogate : surrogate := Surrogate None None None 0.

Section Oracles.
Variable inv : matrix -> result matrix.
Variable cho : matrix -> result matrix.
Variable cho_solve : matrix -> list R -> list R.

(** 366-379 *)
Definition fit (train : list (list R)) (targets : list R) (gradients : list (list R)) (ks : list kdict) : result gp :=
  gp_init inv cho cho_solve train targets ks (Some gradients) 0 (Some (between 0 0)) false false.

(** 158-241, one pass.  [minimizer] returns theta_opt.x, theta_opt.fun and
    theta_opt.success. *)
Definition train_surrogate (minimizer : list R -> list bound -> (list R * R) * bool) (kernel : string) (noise : R) (d : data) (st : surrogate)
  : result surrogate :=
  bind (maxR (d_targets d)) (fun u_prior =>
  let scaled := map (fun t => t - u_prior) (d_targets d) in
  let sigma_f := 1 / 1000 + PathModel.std scaled ^ 2 in
  match kernel_setup kernel noise sigma_f (length (d_mask d)) (length (d_targets d)) (r_locals st) with
  | None => Err NameError
  | Some (opt_hyper, kdict) =>
      let kdict := match r_success st with Some k => k | None => kdict end in
      bind (apply_mask (d_train d) (d_mask d)) (fun train =>
      bind (apply_mask (d_gradients d) (d_mask d)) (fun gradients =>
      bind (fit train scaled gradients kdict) (fun g =>
      if opt_hyper && (5 <? length (d_targets d))%nat then
        bind (optimize_hyperparameters inv g (fun th b => fst (minimizer th b))) (fun g' =>
        (* theta_opt.success, for the arguments of optimize_hyperparameters *)
        bind (kdicts2list (g_kernels g) (g_nd g)) (fun th =>
        let success := snd (minimizer (th ++ [g_reg g]) (g_bounds g)) in
        let kept := match r_success st with
                    | Some _ => Some (g_kernels g')
                    | None => if success then Some (g_kernels g') else None
                    end in
        Ok (Surrogate (Some (opt_hyper, g_kernels g')) kept (Some g') u_prior)))
      else
        Ok (Surrogate (Some (opt_hyper, g_kernels g)) (match r_success st with Some _ => Some (g_kernels g) | None => None end) (Some g) u_prior))))
  end).

(** The passes of a run: data and minimizer of each. *)
Fixpoint passes (kernel : string) (noise : R) (l : list (data * (list R -> list bound -> (list R * R) * bool))) (st : surrogate) : result surrogate :=
  match l with
  | [] => Ok st
  | (d, minimizer) :: t => bind (train_surrogate minimizer kernel noise d st) (passes kernel noise t)
  end.
End Oracles.
