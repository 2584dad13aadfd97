(** Model of catlearn/fingerprint/convoluted.py (conv_bulk, conv_term with their names and
    check_length) and of the names of catlearn/fingerprint/bulk.py.

    The elemental data, the magnetic moments and the connectivity matrix are parameters; a
    missing value (nan) is None. *)
From Coq Require Import Reals String List Arith Bool.
From Verif Require Import Base RBase PeriodicModel FingerModel.
Import ListNotations.
Local Open Scope string_scope.

(** convoluted.py:78-151, the names of conv_bulk *)
Definition conv_bulk_names : list string :=
  ["atomic_number_bulk_conv_0"; "atomic_volume_bulk_conv_0"; "boiling_point_bulk_conv_0"; "density_bulk_conv_0";
   "dipole_polarizability_bulk_conv_0"; "electron_affinity_bulk_conv_0"; "group_id_bulk_conv_0";
   "lattice_constant_bulk_conv_0"; "melting_point_bulk_conv_0"; "period_bulk_conv_0"; "vdw_radius_bulk_conv_0";
   "covalent_radius_cordero_bulk_conv_0"; "en_allen_bulk_conv_0"; "atomic_weight_bulk_conv_0"; "atomic_radius_bulk_conv_0";
   "heat_of_formation_bulk_conv_0"; "dft_bulk_modulus_bulk_conv_0"; "dft_rhodensity_bulk_conv_0"; "dbcenter_bulk_conv_0";
   "dbfilling_bulk_conv_0"; "dbwidth_bulk_conv_0"; "dbskew_bulk_conv_0"; "dbkurtosis_bulk_conv_0"; "oxi_min_bulk_conv_0";
   "oxi_med_bulk_conv_0"; "oxi_max_bulk_conv_0"; "sblock_bulk_conv_0"; "pblock_bulk_conv_0"; "dblock_bulk_conv_0";
   "fblock_bulk_conv_0"; "ne_outer_bulk_conv_0"; "ne_s_bulk_conv_0"; "ne_p_bulk_conv_0"; "ne_d_bulk_conv_0";
   "ne_f_bulk_conv_0"; "ionenergy_bulk_conv_0"; "ground_state_magmom_bulk_conv_0"; "atomic_number_bulk_conv_1";
   "atomic_volume_bulk_conv_1"; "boiling_point_bulk_conv_1"; "density_bulk_conv_1"; "dipole_polarizability_bulk_conv_1";
   "electron_affinity_bulk_conv_1"; "group_id_bulk_conv_1"; "lattice_constant_bulk_conv_1"; "melting_point_bulk_conv_1";
   "period_bulk_conv_1"; "vdw_radius_bulk_conv_1"; "covalent_radius_cordero_bulk_conv_1"; "en_allen_bulk_conv_1";
   "atomic_weight_bulk_conv_1"; "atomic_radius_bulk_conv_1"; "heat_of_formation_bulk_conv_1";
   "dft_bulk_modulus_bulk_conv_1"; "dft_rhodensity_bulk_conv_1"; "dbcenter_bulk_conv_1"; "dbfilling_bulk_conv_1";
   "dbwidth_bulk_conv_1"; "dbskew_bulk_conv_1"; "dbkurtosis_bulk_conv_1"; "oxi_min_bulk_conv_1"; "oxi_med_bulk_conv_1";
   "oxi_max_bulk_conv_1"; "sblock_bulk_conv_1"; "pblock_bulk_conv_1"; "dblock_bulk_conv_1"; "fblock_bulk_conv_1";
   "ne_outer_bulk_conv_1"; "ne_s_bulk_conv_1"; "ne_p_bulk_conv_1"; "ne_d_bulk_conv_1"; "ne_f_bulk_conv_1";
   "ionenergy_bulk_conv_1"; "ground_state_magmom_bulk_conv_1"].
(** convoluted.py:189-262, the names of conv_term *)
Definition conv_term_names : list string :=
  ["atomic_number_term_conv_0"; "atomic_volume_term_conv_0"; "boiling_point_term_conv_0"; "density_term_conv_0";
   "dipole_polarizability_term_conv_0"; "electron_affinity_term_conv_0"; "group_id_term_conv_0";
   "lattice_constant_term_conv_0"; "melting_point_term_conv_0"; "period_term_conv_0"; "vdw_radius_term_conv_0";
   "covalent_radius_cordero_term_conv_0"; "en_allen_term_conv_0"; "atomic_weight_term_conv_0"; "atomic_radius_term_conv_0";
   "heat_of_formation_term_conv_0"; "dft_bulk_modulus_term_conv_0"; "dft_rhodensity_term_conv_0"; "dbcenter_term_conv_0";
   "dbfilling_term_conv_0"; "dbwidth_term_conv_0"; "dbskew_term_conv_0"; "dbkurtosis_term_conv_0"; "oxi_min_term_conv_0";
   "oxi_med_term_conv_0"; "oxi_max_term_conv_0"; "sblock_term_conv_0"; "pblock_term_conv_0"; "dblock_term_conv_0";
   "fblock_term_conv_0"; "ne_outer_term_conv_0"; "ne_s_term_conv_0"; "ne_p_term_conv_0"; "ne_d_term_conv_0";
   "ne_f_term_conv_0"; "ionenergy_term_conv_0"; "ground_state_magmom_term_conv_0"; "atomic_number_term_conv_1";
   "atomic_volume_term_conv_1"; "boiling_point_term_conv_1"; "density_term_conv_1"; "dipole_polarizability_term_conv_1";
   "electron_affinity_term_conv_1"; "group_id_term_conv_1"; "lattice_constant_term_conv_1"; "melting_point_term_conv_1";
   "period_term_conv_1"; "vdw_radius_term_conv_1"; "covalent_radius_cordero_term_conv_1"; "en_allen_term_conv_1";
   "atomic_weight_term_conv_1"; "atomic_radius_term_conv_1"; "heat_of_formation_term_conv_1";
   "dft_term_modulus_term_conv_1"; "dft_rhodensity_term_conv_1"; "dbcenter_term_conv_1"; "dbfilling_term_conv_1";
   "dbwidth_term_conv_1"; "dbskew_term_conv_1"; "dbkurtosis_term_conv_1"; "oxi_min_term_conv_1"; "oxi_med_term_conv_1";
   "oxi_max_term_conv_1"; "sblock_term_conv_1"; "pblock_term_conv_1"; "dblock_term_conv_1"; "fblock_term_conv_1";
   "ne_outer_term_conv_1"; "ne_s_term_conv_1"; "ne_p_term_conv_1"; "ne_d_term_conv_1"; "ne_f_term_conv_1";
   "ionenergy_term_conv_1"; "ground_state_magmom_term_conv_1"].
(** bulk.py:58-104, the names of bulk_summation *)
Definition bulk_summation_names : list string :=
  ["atomic_number_sum"; "atomic_volume_sum"; "boiling_point_sum"; "density_sum"; "dipole_polarizability_sum";
   "electron_affinity_sum"; "group_id_sum"; "lattice_constant_sum"; "melting_point_sum"; "period_sum"; "vdw_radius_sum";
   "covalent_radius_cordero_sum"; "en_allen_sum"; "atomic_weight_sum"; "c6_sum"; "c6_gb_sum"; "en_allred-rochow_sum";
   "en_cottrell-sutton_sum"; "en_gordy_sum"; "en_martynov-batsanov_sum"; "en_mulliken_sum"; "en_nagle_sum"; "en_ghosh_sum";
   "gas_basicity_sum"; "metallic_radius_sum"; "atomic_radius_sum"; "heat_of_formation_sum"; "dft_sum_modulus_sum";
   "dft_rhodensity_sum"; "en_pauling_sum"; "dbcenter_sum"; "dbfilling_sum"; "dbwidth_sum"; "dbskew_sum"; "dbkurtosis_sum";
   "sblock_sum"; "pblock_sum"; "dblock_sum"; "fblock_sum"; "ne_outer_sum"; "ne_s_sum"; "ne_p_sum"; "ne_d_sum"; "ne_f_sum";
   "ionenergy_sum"; "ground_state_magmom_sum"].

(** All values, or None if one is missing: np.sum of an array with nan is nan. *)
Fixpoint all_known (c : list cell) : option (list R) :=
  match c with
  | [] => Some []
  | None :: _ => None
  | Some x :: t => match all_known t with Some l => Some (x :: l) | None => None end
  end.

(** np.sqrt(np.sum(c * c)) / n; 0. / 0 is nan. *)
Definition conv_self (c : list cell) (n : nat) : cell :=
  match all_known c with
  | Some xs => if Nat.eqb n 0 then None else Some (sqrt (sumR (map (fun x => (x * x)%R) xs)) / INR n)%R
  | None => None
  end.
(** np.sqrt(np.sum(c[:m].reshape(m, 1) * (c * connectivity))) / m, m = len(subset): missing
    values count also where the connectivity is zero. *)
Definition conv_bonds (c : list cell) (subset : list nat) (cmx : nat -> nat -> R) : cell :=
  match all_known c with
  | Some xs => if Nat.eqb (List.length subset) 0 then None
               else conv1 (List.length xs) subset cmx (fun i => nth i xs 0%R)
  | None => None
  end.

(** check_length, convoluted.py:27-49 *)
Definition check_length {A B} (labels : list A) (res : list B) : result unit :=
  if Nat.eqb (List.length res) (List.length labels) then Ok tt else Err AssertionError.

Section Conv.
Variable data : table.
Variable gs_magmom : nat -> R.

(** conv_bulk, convoluted.py:153-178, and conv_term, 264-289, after the subset has been
    looked up; without the subset they raise NotImplementedError (160-161, 271-272). *)
Definition conv_vec (labels params : list string) (zs : list nat) (subset : option (list nat)) (cmx : nat -> nat -> R)
  : result (list cell) :=
  match subset with
  | None => Err NotImplementedError
  | Some sub =>
      let numbers := map (fun i => nth i zs 0%nat) sub in
      bind (list_params data numbers params) (fun dat_b =>
      bind (list_params data zs params) (fun dat =>
      let n := List.length sub in
      let self := map (fun k => conv_self (column k dat_b) n) (seq 0 (n_columns params)) in
      let magmom := conv_self (map (fun z => Some (gs_magmom z)) numbers) n in
      let bonds := map (fun k => conv_bonds (column k dat) sub cmx) (seq 0 (n_columns params)) in
      let magmom_bonds := conv_bonds (map (fun z => Some (gs_magmom z)) zs) sub cmx in
      let result := (self ++ [magmom] ++ bonds ++ [magmom_bonds])%list in
      bind (check_length labels result) (fun _ => Ok result)))
  end.
Definition conv_bulk := conv_vec conv_bulk_names.
Definition conv_term := conv_vec conv_term_names.
End Conv.
