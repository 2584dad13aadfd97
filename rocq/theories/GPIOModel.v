(** Model of catlearn/regression/gpfunctions/io.py for ext='hdf5' (pickling, ext='pkl',
    is not modelled).

    h5py is modelled by what the code uses of it: datasets keep numbers, strings and
    arrays of numbers unchanged; lists come back as arrays; the members of a group
    come back in the byte order of their names.  A value read from a file is a new
    object, so [is 'single'] does not hold of a string that was read. *)
From Coq Require Import Reals String DecimalString Decimal List Arith Bool.
From Verif Require Import Base RBase LinAlg KernModel GPModel.
Import ListNotations.
Open Scope R_scope.

(** The datasets train_features, train_targets and regularization, and the members of
    the group kernel_list with their names. *)
Record h5 := H5 {
  h_fp : list row;
  h_target : list R;
  h_reg : R;
  h_kernels : list (string * kdict) }.

(** str(i) *)
Definition str (i : nat) : string := NilZero.string_of_uint (Nat.to_uint i).

(** 164-183: bounds are tuples (kernel_setup.py 67-228 adds them to a tuple), and a
    tuple cannot be saved.  All other values of a model that was set up are strings,
    floats, lists or arrays. *)
Definition savable (k : kdict) : bool := negb (is_some (k_bounds k) || is_some (k_scaling_bounds k)).

(** 122-135 *)
Definition kernel_group (ks : list kdict) : list (string * kdict) := combine (map str (seq 0 (length ks))) ks.

(** 9-34 and 68-91 *)
Definition gp_write (s : gp) : result h5 :=
  if forallb savable (g_kernels s)
  then Ok (H5 (g_fp s) (g_target s) (g_reg s) (kernel_group (g_kernels s)))
  else Err ValueError.

(** What float() (kernel_setup.py 143, 180, 214) makes of an array that was read: a
    number when the array has one element. *)
Definition loaded_val (v : val) : val := match v with Arr [x] => Num x | _ => v end.

Definition loaded_dim (d : option dimension) : option dimension := match d with Some Single => Some Features | d => d end.

(** 186-210 for one kernel. 'single' is only compared by identity (kernel_setup.py 39)
    and is therefore the same as 'features' after reading. *)
Definition load_kernel (k : kdict) : kdict :=
  KD (k_type k) (k_mult k) (k_features k)
     (loaded_dim (k_dimension k))
     (k_scaling k) (k_float k) (k_scaling_bounds k) (k_bounds k)
     (match k_type k with Some (KGaussian | KLaplacian) => option_map loaded_val (k_width k) | _ => k_width k end)
     (k_const k)
     (match k_type k with Some KQuadratic => option_map loaded_val (k_slope k) | _ => k_slope k end)
     (k_degree k) (k_hyper k) (k_unknown k).

(** 138-162; the group does not exist when no kernel was written. *)
Definition load_kernels (group : list (string * kdict)) : result (list kdict) :=
  match group with
  | [] => Err KeyError
  | _ => Ok (map (fun p => load_kernel (snd p)) (isort (fun a b => String.leb (fst a) (fst b)) group))
  end.

Section Read.
Variable inv cho : matrix -> result matrix.
Variable cho_solve : matrix -> list R -> list R.

(** 37-65 and 94-119.  A list of hyperparameters under the key 'hyperparameters' comes
    back as an array, and adding that to a list (kernel_setup.py 325) is a ValueError;
    the order of this and other exceptions is not modelled. *)
Definition gp_read (f : h5) : result gp :=
  bind (load_kernels (h_kernels f)) (fun ks =>
  if existsb (fun k => is_some (k_hyper k)) ks then Err ValueError
  else gp_init inv cho cho_solve (h_fp f) (h_target f) ks None (h_reg f) None false false).
End Read.
