(** Model of catlearn/fingerprint/catapp.py (CatappFingerprintGenerator).

    Real numbers stand for floats; a missing value (None or nan) is None.  The element
    table and the magnetic moments are those of PeriodicModel, [symbols] is ase's
    string2symbols followed by the atomic numbers. *)
From Coq Require Import Reals String Ascii List Arith Bool.
From Verif Require Import Base RBase PeriodicModel.
Import ListNotations.
Local Open Scope string_scope.
Local Open Scope nat_scope.

(** 211-221: text_params *)
Definition text_params : list string := List.app default_params ["heat_of_formation"; "block"; "econf"; "ionenergies"].

(** 76-177: the feature names *)
Definition catapp_names : list string :=
  ["atomic_number_m1"; "atomic_volume_m1"; "boiling_point_m1"; "density_m1"; "dipole_polarizability_m1"; "electron_affinity_m1";
   "group_id_m1"; "lattice_constant_m1"; "melting_point_m1"; "period_m1"; "vdw_radius_m1"; "covalent_radius_cordero_m1";
   "en_allen_m1"; "atomic_weight_m1"; "heat_of_formation_m1"; "sblock_m1"; "pblock_m1"; "dblock_m1";
   "fblock_m1"; "ne_outer_m1"; "ne_s_m1"; "ne_p_m1"; "ne_d_m1"; "ne_f_m1";
   "ionenergy_m1"; "ground_state_magmom_m1"; "atomic_number_m2"; "atomic_volume_m2"; "boiling_point_m2"; "density_m2";
   "dipole_polarizability_m2"; "electron_affinity_m2"; "group_id_m2"; "lattice_constant_m2"; "melting_point_m2"; "period_m2";
   "vdw_radius_m2"; "covalent_radius_cordero_m2"; "en_allen_m2"; "atomic_weight_m2"; "heat_of_formation_m2"; "sblock_m2";
   "pblock_m2"; "dblock_m2"; "fblock_m2"; "ne_outer_m2"; "ne_s_m2"; "ne_p_m2";
   "ne_d_m2"; "ne_f_m2"; "ionenergy_m2"; "ground_state_magmom_m2"; "atomic_number_sum"; "atomic_volume_sum";
   "boiling_point_sum"; "density_sum"; "dipole_polarizability_sum"; "electron_affinity_sum"; "group_id_sum"; "lattice_constant_sum";
   "melting_point_sum"; "period_sum"; "vdw_radius_sum"; "covalent_radius_cordero_sum"; "en_allen_sum"; "atomic_weight_sum";
   "heat_of_formation_sum"; "sblock_sum"; "pblock_sum"; "dblock_sum"; "fblock_sum"; "ne_outer_sum";
   "ne_s_sum"; "ne_p_sum"; "ne_d_sum"; "ne_f_sum"; "ionenergy_sum"; "ground_state_magmom_sum";
   "concentration_catapp"; "facet_catapp"; "site_catapp"].

(** 52-54: facetdict *)
Definition facet_number (f : string) : result R :=
  if String.eqb f "001" then Ok 1%R else if String.eqb f "0001step" then Ok 2%R else if String.eqb f "100" then Ok 3%R
  else if String.eqb f "110" then Ok 4%R else if String.eqb f "111" then Ok 5%R else if String.eqb f "211" then Ok 6%R
  else if String.eqb f "311" then Ok 7%R else if String.eqb f "532" then Ok 8%R else Err KeyError.

(** str.replace(c, '') *)
Fixpoint remove_char (c : ascii) (s : string) : string :=
  match s with EmptyString => EmptyString | String a t => if Ascii.eqb a c then remove_char c t else String a (remove_char c t) end.
(** c in s *)
Fixpoint has_char (c : ascii) (s : string) : bool :=
  match s with EmptyString => false | String a t => orb (Ascii.eqb a c) (has_char c t) end.

(** collections.Counter *)
Definition count (z : nat) (l : list nat) : nat := List.length (filter (Nat.eqb z) l).

(** 180-185: sorted(raw, key=counts.get, reverse=True) keeps the order of equal keys *)
Definition by_count (raw : list nat) : list nat := isort (fun a b => count b raw <=? count a raw) raw.

(** 186-190: the first element, and the last one that differs from it *)
Definition main_elements (ligands : list nat) : result (nat * nat) :=
  match by_count ligands with
  | [] => Err IndexError
  | z1 :: t => Ok (z1, fold_left (fun z2 z => if z =? z1 then z2 else z) (z1 :: t) z1)
  end.

(** 191-198: the elif branch (3.) compares the same element with z2 *)
Definition site_code (ligands : list nat) (z1 z2 : nat) : result R :=
  match by_count ligands with
  | [] => Err IndexError
  | z0 :: _ =>
      if List.length (nodup Nat.eq_dec ligands) =? 1 then
        if z0 =? z1 then Ok 1%R else if z0 =? z2 then Ok 3%R else Err NameError
      else Ok 2%R
  end.

(** 200-210 *)
Definition concentration (symbols : string -> result (list nat)) (term : string) : result R :=
  bind (symbols term) (fun zs =>
  let n := List.length (nodup Nat.eq_dec zs) in
  if has_char "3" term then Ok 3%R else if n =? 1 then Ok 1%R else if n =? 2 then Ok 2%R else Err NotImplementedError).

Section Data.
Variable data : table.
Variable gs_magmom : nat -> R.

(** 222-225 and 229-232: the parameters of an element, its block, outer electrons,
    ionization energy and magnetic moment *)
Definition element_part (z : nat) : result (list cell) :=
  bind (line data text_params z) (fun l =>
  bind (mapM to_float (fst l)) (fun a => Ok (a ++ snd l ++ [Some (gs_magmom z)])%list)).

(** np.nansum([f1, f2], axis=0), 233 *)
Definition nansum2 (a b : cell) : cell :=
  match a, b with
  | Some x, Some y => Some (x + y)%R
  | Some x, None => Some x
  | None, Some y => Some y
  | None, None => Some 0%R
  end.
Definition part_sum (f1 f2 : list cell) : list cell := map (fun p => nansum2 (fst p) (snd p)) (combine f1 f2).

(** catapp_AB, 75-236; [ligands] are the atomic numbers of atoms.subsets['ligand_atoms'] *)
Definition catapp_AB (symbols : string -> result (list nat)) (ligands : list nat) (term facet : string) : result (list cell) :=
  bind (main_elements ligands) (fun z =>
  let '(z1, z2) := z in
  bind (site_code ligands z1 z2) (fun site =>
  bind (concentration symbols term) (fun conc =>
  bind (element_part z1) (fun f1 =>
  bind (if z1 =? z2 then Ok f1 else element_part z2) (fun f2 =>
  bind (facet_number (remove_char "(" (remove_char ")" facet))) (fun fc =>
  Ok (f1 ++ f2 ++ part_sum f1 f2 ++ [Some conc; Some fc; Some site])%list)))))).
End Data.
