(** Kernel lists are mutable Python objects.  prepare_kernels
    (catlearn/regression/gpfunctions/kernel_setup.py 5-60) returns the list it was given
    after replacing scalar widths in its dictionaries, and list2kdict (330-396) writes
    hyperparameters into the dictionaries; GaussianProcess
    (catlearn/regression/gaussian_process.py) keeps that very list.  Two models built from
    one list therefore share their hyperparameters.

    The values that are computed are those of GPModel.  Here the lists are numbered: a model
    holds the number of its list, and every operation reads and writes the list with that
    number.  Half-updated lists after an exception are not modelled.  Copies of a list made by
    the user are lists with other numbers. *)
From Coq Require Import Reals List Arith Bool.
From Verif Require Import Base RBase LinAlg KernModel GPModel.
Import ListNotations.
Open Scope R_scope.

(** Kernel lists of the program and the models built so far; the first component of a model
    is the number of its kernel list. *)
Record store := Store { s_lists : list (list kdict); s_models : list (nat * gp) }.

Definition with_kernels (s : gp) (ks : list kdict) : gp :=
  GP (g_nd s) (g_reg s) (g_log s) (g_scale s) (g_grad s) ks (g_bounds s) (g_scaling s) (g_fp s) (g_target s) (g_cinv s) (g_lml s).

(** The attributes of model [m] as they are now: self.kernel_list is the shared list. *)
Definition model (st : store) (m : nat) : result gp :=
  match nth_error (s_models st) m with
  | None => Err IndexError
  | Some (a, s) => match nth_error (s_lists st) a with
                   | None => Err IndexError
                   | Some ks => Ok (with_kernels s ks)
                   end
  end.

Definition list_of (st : store) (m : nat) : option nat := option_map fst (nth_error (s_models st) m).

Inductive operation :=
| NewModel (a : nat) (fp : list row) (tgt : list R) (gradients : option (list row)) (reg : R) (rb : option bound) (sopt sdata : bool)
| Optimize (m : nat) (minimizer : list R -> list bound -> list R * R)
| UpdateData (m : nat) (fp : list row) (tgt : option (list R)) (gradients : option (list row)) (sopt : bool).

Section Oracles.
Variable inv : matrix -> result matrix.
Variable cho : matrix -> result matrix.
Variable cho_solve : matrix -> list R -> list R.

(** A method of model [m] that leaves the model [s]. *)
Definition put (st : store) (m : nat) (s : gp) : result store :=
  match list_of st m with
  | None => Err IndexError
  | Some a => Ok (Store (set_nth a (g_kernels s) (s_lists st)) (set_nth m (a, s) (s_models st)))
  end.

(** gaussian_process.py 21-85, 299-359 and 237-297 *)
Definition perform (st : store) (o : operation) : result store :=
  match o with
  | NewModel a fp tgt gradients reg rb sopt sdata =>
      match nth_error (s_lists st) a with
      | None => Err IndexError
      | Some ks => bind (gp_init inv cho cho_solve fp tgt ks gradients reg rb sopt sdata) (fun s =>
                   Ok (Store (set_nth a (g_kernels s) (s_lists st)) (s_models st ++ [(a, s)])))
      end
  | Optimize m minimizer =>
      bind (model st m) (fun s => bind (optimize_hyperparameters inv s minimizer) (put st m))
  | UpdateData m fp tgt gradients sopt =>
      bind (model st m) (fun s => bind (update_data inv cho cho_solve s fp tgt gradients sopt) (put st m))
  end.

Fixpoint perform_all (st : store) (ops : list operation) : result store :=
  match ops with [] => Ok st | o :: t => bind (perform st o) (fun st => perform_all st t) end.
End Oracles.

(** The list that an operation may write to. *)
Definition touches (st : store) (o : operation) : option nat :=
  match o with
  | NewModel a _ _ _ _ _ _ _ => Some a
  | Optimize m _ => list_of st m
  | UpdateData m _ _ _ _ => list_of st m
  end.
