(** Model of catlearn/regression/gaussian_process.py, gpfunctions/uncertainty.py,
    the value of gpfunctions/log_marginal_likelihood.py and cost_function.py.

    numpy's inverse, scipy's Cholesky factor and triangular solver and the minimizer
    are oracles (arguments of the section); their contracts are stated with the
    theorems.  Floats are real numbers: a division by a zero standard deviation of
    constant targets is not modelled here (see PrepModel).  The regularization is a
    number.  When a method raises, the half-updated object is not modelled. *)
From Coq Require Import Reals List Arith Bool Lia.
From Verif Require Import Base RBase LinAlg KernModel.
From Verif Require PrepModel.
Import ListNotations.
Open Scope R_scope.

(** The attributes of a GaussianProcess object. *)
Record gp := GP {
  g_nd : nat;                                  (* N_D *)
  g_reg : R;                                   (* regularization *)
  g_log : bool;                                (* scale_optimizer *)
  g_scale : bool;                              (* scale_data *)
  g_grad : bool;                               (* eval_gradients *)
  g_kernels : list kdict;
  g_bounds : list bound;
  g_scaling : option PrepModel.scale_data;
  g_fp : list row;                             (* train_fp *)
  g_target : list R;                           (* train_target *)
  g_cinv : matrix;
  g_lml : option R }.                          (* None: nan *)

Definition vnth (l : list R) : nat -> R := fun i => nth i l 0.
Definition tabulate (n : nat) (f : nat -> R) : list R := map f (seq 0 n).

(** np.dot of a matrix and a vector: shapes must agree. *)
Definition dot_vec (m : matrix) (v : list R) : result (list R) :=
  if (nc m =? length v)%nat then Ok (tabulate (nr m) (fun i => Sum (nc m) (fun j => at_ m i j * nth j v 0)))
  else Err ValueError.

Section Oracles.
Variable inv : matrix -> result matrix.           (* np.linalg.inv *)
Variable cho : matrix -> result matrix.           (* cho_factor, lower *)
Variable cho_solve : matrix -> list R -> list R.  (* cho_solve((L, lower), y) *)

(** ** uncertainty.py 10-43: the variance under the square root. *)
Definition variance (ks : list kdict) (test_fp : list row) (ktb cinv : matrix) (log_scale : bool) : result (list R) :=
  bind (get_covariance ks log_scale test_fp None None false) (fun kxx =>
  if ((nc ktb =? nr cinv) && (nc ktb =? nc cinv) && (nr ktb =? nr kxx))%nat then
    Ok (tabulate (nr kxx) (fun i =>
      at_ kxx i i - Sum (nc cinv) (fun j => Sum (nc ktb) (fun l => at_ ktb i l * at_ cinv l j) * at_ ktb i j)))
  else Err ValueError).

Definition get_uncertainty (ks : list kdict) (test_fp : list row) (ktb cinv : matrix) (log_scale : bool) : result (list R) :=
  bind (variance ks test_fp ktb cinv log_scale) (fun v => Ok (map sqrt v)).

(** ** log_marginal_likelihood.py 12-65, eval_jac=False: the negative likelihood, and
    the kernel list as list2kdict leaves it. *)
Definition neg_lml (theta : list R) (train : list row) (targets : list R) (ks : list kdict) (log_scale grad : bool)
  (cinv : option matrix) : result (R * list kdict) :=
  let n := length targets in
  bind (list2kdict theta ks) (fun ks' =>
  bind (get_covariance ks' log_scale train None (Some (last theta 0)) grad) (fun K =>
  bind (cho K) (fun L =>
  bind (match cinv with
        | None => if (nr L =? n)%nat then Ok (cho_solve L targets) else Err ValueError
        | Some c => dot_vec c targets
        end) (fun a =>
  if negb (length a =? n)%nat then Err ValueError else
  let datafit := - / 2 * Sum n (fun i => nth i targets 0 * nth i a 0) in
  let complexity := - Sum (nr L) (fun i => ln (at_ L i i)) in
  let normalization := - INR n * ln (2 * PI) / 2 in
  Ok (- (datafit + complexity + normalization), ks'))))).

(** ** gaussian_process.py *)

(** 485-498 *)
Definition update_lml (s : gp) : result gp :=
  bind (kdicts2list (g_kernels s) (g_nd s)) (fun th =>
  bind (neg_lml (th ++ [g_reg s]) (g_fp s) (g_target s) (g_kernels s) (g_log s) (g_grad s) (Some (g_cinv s))) (fun r =>
  Ok (GP (g_nd s) (g_reg s) (g_log s) (g_scale s) (g_grad s) (snd r) (g_bounds s) (g_scaling s)
         (g_fp s) (g_target s) (g_cinv s) (Some (- fst r))))).

(** 272-283 with ScaleData (default_scale.py 25-52).  [tgt] is the argument
    train_target, [old] the stored one. *)
Definition scale_train (fp : list row) (tgt : list R) : PrepModel.scale_data * list row * list R :=
  let '(sd, fp', t') := PrepModel.sd_train fp tgt in
  (sd, fp', map (fun o => match o with Some x => x | None => 0 end) t').

Definition scale_gradients (sd : PrepModel.scale_data) (g : list row) : list row :=
  map (fun r => tabulate (length r) (fun d => nth d r 0 / (PrepModel.t_std sd / nth d (PrepModel.f_std sd) 0))) g.

(** 237-297.  [sopt] is the argument scale_optimizer (default False). *)
Definition update_data (s : gp) (fp : list row) (tgt : option (list R)) (gradients : option (list row)) (sopt : bool) : result gp :=
  if negb (g_nd s =? ncols fp)%nat then Err AssertionError else
  bind (if g_scale s then
          match tgt with
          | None => Err TypeError
          | Some t => let '(sd, fp', t') := scale_train fp t in
                      Ok (Some sd, fp', t', option_map (scale_gradients sd) gradients)
          end
        else Ok (g_scaling s, fp, match tgt with Some t => t | None => g_target s end, gradients)) (fun r =>
  let '(scaling, fp', target, gradients) := r in
  let target := match gradients, tgt with
                | Some g, Some _ => target ++ concat g
                | _, _ => target
                end in
  bind (get_covariance (g_kernels s) sopt fp' None (Some (g_reg s)) (g_grad s)) (fun cvm =>
  bind (inv cvm) (fun cinv =>
  let s' l := GP (g_nd s) (g_reg s) (g_log s) (g_scale s) (g_grad s) (g_kernels s) (g_bounds s) scaling fp' target cinv l in
  match tgt with
  | None => Ok (s' None)
  | Some _ => update_lml (s' (g_lml s))
  end))).

(** 21-85 with optimize_hyperparameters=False. *)
Definition init_bounds (rb : option bound) (grad : bool) : bound :=
  match rb with Some b => b | None => if grad then (/ 1000, Some 1000) else (/ 1000000, None) end.

Definition gp_init (fp : list row) (tgt : list R) (ks : list kdict) (gradients : option (list row)) (reg : R)
  (rb : option bound) (sopt sdata : bool) : result gp :=
  if negb (length fp =? length tgt)%nat then Err AssertionError else
  let grad := is_some gradients in
  bind (prepare_kernels ks (init_bounds rb grad) grad (ncols fp)) (fun r =>
  update_data (GP (ncols fp) reg sopt sdata grad (fst r) (snd r) None [] [] (Mx 0 0 (fun _ _ => 0)) None)
    fp (Some tgt) gradients sopt).

(** 415-440 *)
Definition rescale (s : gp) (p : list R) : list R :=
  match g_scale s, g_scaling s with
  | true, Some sd => map (fun x => x * PrepModel.t_std sd + PrepModel.t_mean sd) p
  | _, _ => p
  end.

Definition make_prediction (s : gp) (ktb cinv : matrix) (target : list R) : result (list R) :=
  bind (dot_vec cinv target) (fun alpha => bind (dot_vec ktb alpha) (fun p => Ok (rescale s p))).

(** 133-147: test features and covariance with the training set. *)
Definition scale_test (s : gp) (test_fp : list row) : list row :=
  match g_scale s, g_scaling s with
  | true, Some sd => PrepModel.sd_test sd test_fp
  | _, _ => test_fp
  end.

Definition test_covariance (s : gp) (test_fp : list row) : result matrix :=
  get_covariance (g_kernels s) (g_log s) test_fp (Some (g_fp s)) None (g_grad s).

(** predict(test_fp)['prediction'], 133-151 *)
Definition predict (s : gp) (test_fp : list row) : result (list R) :=
  bind (test_covariance s (scale_test s test_fp)) (fun ktb => make_prediction s ktb (g_cinv s) (g_target s)).

(** 190-196, 228-234: uncertainty and uncertainty_with_reg *)
Definition finish_uncertainty (s : gp) (u : list R) : list R * list R :=
  let f := match g_scale s, g_scaling s with true, Some sd => PrepModel.t_std sd | _, _ => 1 end in
  (map (fun x => x * f) u, map (fun x => (x + g_reg s) * f) u).

(** predict(test_fp, uncertainty=True), 133-147 and 183-196 *)
Definition predict_with_uncertainty (s : gp) (test_fp : list row) : result (list R * list R) :=
  let test := scale_test s test_fp in
  bind (test_covariance s test) (fun ktb =>
  bind (make_prediction s ktb (g_cinv s) (g_target s)) (fun _ =>
  bind (get_uncertainty (g_kernels s) test ktb (g_cinv s) (g_log s)) (fun u => Ok (finish_uncertainty s u)))).

(** predict_uncertainty, 207-235 *)
Definition predict_uncertainty (s : gp) (test_fp : list row) : result (list R * list R) :=
  bind (test_covariance s test_fp) (fun ktb =>
  bind (get_uncertainty (g_kernels s) test_fp ktb (g_cinv s) (g_log s)) (fun u => Ok (finish_uncertainty s u))).

(** predict(..., get_training_error=True)['train_prediction'], 160-170, and the
    targets it is compared with, 173-176. *)
Definition train_prediction (s : gp) : result (list R) :=
  bind (get_covariance (g_kernels s) (g_log s) (g_fp s) None None (g_grad s)) (fun k =>
  make_prediction s k (g_cinv s) (g_target s)).
Definition train_reference (s : gp) : list R := rescale s (g_target s).

(** 442-476, the prediction data['gX'] of _fixed_basis.  [basis] maps a feature
    vector to a list of [nb] numbers. *)
Definition rows_mx (n nb : nat) (m : list row) : matrix := Mx n nb (fun i j => nth j (row_at m i) 0).

Definition fixed_basis (s : gp) (basis : row -> row) (nb : nat) (test_fp : list row) : result (list R) :=
  let test := scale_test s test_fp in
  bind (test_covariance s test) (fun ktb =>
  let n := length (g_fp s) in
  let H := rows_mx n nb (map basis (g_fp s)) in
  let Ht := rows_mx (length test) nb (map basis test) in
  let cinv := g_cinv s in
  if negb ((nc cinv =? n) && (nr cinv =? n) && (nc ktb =? n) && (length (g_target s) =? n))%nat then Err ValueError else
  (* cinv.dot(train_matrix) *)
  let CH i b := Sum n (fun j => at_ cinv i j * at_ H j b) in
  let r i b := at_ Ht i b - Sum n (fun j => at_ ktb i j * CH j b) in
  bind (inv (Mx nb nb (fun a b => Sum n (fun i => at_ H i a * CH i b)))) (fun b1 =>
  let b2 b := Sum n (fun i => nth i (g_target s) 0 * CH i b) in
  let beta a := Sum nb (fun b => at_ b1 a b * b2 b) in
  bind (make_prediction s ktb cinv (g_target s)) (fun p =>
  Ok (tabulate (length p) (fun i => nth i p 0 + Sum nb (fun b => beta b * r i b)))))).

(** 299-359 with loss_function='lml'.  [minimizer] returns theta_opt['x'] and
    theta_opt['fun'].  The evaluations of the likelihood overwrite the kernel
    dictionaries in place; list2kdict reads only the types and the numbers of
    parameters, which stay the same, so the final write is modelled from the
    original list. *)
Definition optimize_hyperparameters (s : gp) (minimizer : list R -> list bound -> list R * R) : result gp :=
  bind (kdicts2list (g_kernels s) (g_nd s)) (fun th =>
  let '(x, f) := minimizer (th ++ [g_reg s]) (g_bounds s) in
  bind (list2kdict (removelast x) (g_kernels s)) (fun ks =>
  let reg := last x 0 in
  bind (get_covariance ks (g_log s) (g_fp s) None (Some reg) (g_grad s)) (fun cvm =>
  bind (inv cvm) (fun cinv =>
  Ok (GP (g_nd s) reg (g_log s) (g_scale s) (g_grad s) ks (g_bounds s) (g_scaling s) (g_fp s) (g_target s) cinv (Some (- f))))))).

(** 361-413 with optimize_hyperparameters=False.  [grad] of the kernel setup is the
    local eval_gradients, not the attribute. *)
Definition update_gp (s : gp) (fp : option (list row)) (tgt : option (list R)) (ks : option (list kdict))
  (sopt : bool) (gradients : option (list row)) (rb : bound) : result gp :=
  let s := match fp with
           | None => s
           | Some f => GP (ncols f) (g_reg s) (g_log s) (g_scale s) (g_grad s) (g_kernels s) (g_bounds s) (g_scaling s)
                          f (g_target s) (g_cinv s) (g_lml s)
           end in
  bind (match ks with
        | None => Ok s
        | Some ks =>
            bind (prepare_kernels ks rb (is_some gradients) (g_nd s)) (fun r =>
            Ok (GP (g_nd s) (g_reg s) (g_log s) (g_scale s) (g_grad s) (fst r) (snd r) (g_scaling s)
                   (g_fp s) (g_target s) (g_cinv s) (g_lml s)))
        end) (fun s =>
  bind (match tgt with
        | None => Ok s
        | Some t => match fp with
                    | None => Err AssertionError
                    | Some f => update_data s f (Some t) gradients sopt
                    end
        end) (fun s => update_lml s)).

(** ** cost_function.py *)

(** 107-143; the error is [err prediction target], an entry of get_error. *)
Definition cost_function (err : list R -> list R -> R) (theta : list R) (train : list row) (targets : list R)
  (ks : list kdict) (log_scale : bool) : result R :=
  bind (list2kdict theta ks) (fun ks' =>
  bind (get_covariance ks' log_scale train None (Some (last theta 0)) false) (fun cvm =>
  bind (inv cvm) (fun cinv =>
  bind (dot_vec cinv targets) (fun alpha =>
  bind (dot_vec cvm alpha) (fun prediction => Ok (err prediction targets)))))).

End Oracles.

(** np.percentile(residuals, p): linear interpolation between order statistics. *)
Definition percentile (l : list R) (p : R) : R :=
  let s := isort Rleb l in
  let pos := p / 100 * INR (length l - 1) in
  let k := Z.to_nat (Int_part pos) in
  let f := pos - INR k in
  nth k s 0 + f * (nth (S k) s (nth k s 0) - nth k s 0).

Definition percentiles : list R := [99; 95; 75; 25; 5; 1].
Definition get_percentiles (l : list R) : list R := map (percentile l) percentiles.

(** get_error, 11-85, without the logarithmic metric (which needs nan). *)
Record error_stats := ES {
  e_residuals : list R; e_signed_mean : R; e_signed_median : R; e_signed_percentiles : list R;
  e_rmse_all : list R; e_rmse_average : R; e_rmse_percentiles : list R;
  e_abs_all : list R; e_abs_average : R; e_abs_percentiles : list R;
  e_ins_all : option (list R); e_ins_average : option R }.

Definition get_error (prediction target : list R) (insensitive : bool) (epsilon : option R) : result error_stats :=
  if negb (length prediction =? length target)%nat then Err AssertionError else
  let res := map (fun p => fst p - snd p) (combine prediction target) in
  let e_sq := map (fun r => r * r) res in
  let rmse_all := map sqrt e_sq in
  let e_abs := map Rabs res in
  bind (if insensitive then
          match epsilon with
          | None => Err AssertionError
          | Some eps =>
              let e := map (fun r => let x := Rabs r - eps in if Rltb x 0 then 0 else x) res in
              Ok (Some e, Some (mean e))
          end
        else Ok (None, None)) (fun ins =>
  Ok (ES res (mean res) (median res) (get_percentiles res)
         rmse_all (sqrt (mean e_sq)) (get_percentiles rmse_all)
         e_abs (mean e_abs) (get_percentiles e_abs) (fst ins) (snd ins))).
