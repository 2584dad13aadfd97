(** Model of catlearn/featurize/periodic_table_data.py and of the fingerprints that are
    statistics of elemental data: catlearn/fingerprint/adsorbate.py (term, bulk,
    mean_chemisorbed_atoms, mean/min/max/median/sum_site, mean_surf_ligands, ads_sum,
    ads_av), chalcogenide.py (mean/min/max/median/sum_cation) and bulk.py.

    Real numbers stand for floats; a missing value (nan) is None. *)
From Coq Require Import ZArith Reals String Ascii List Arith Bool.
From Verif Require Import Base RBase.
Import ListNotations.
Local Open Scope string_scope.

(** ** Element data *)
(** A value of proxy-mendeleev.json: null (or no such key), a number, the list of oxidation
    states, a string (block, econf), or the dictionary of ionization energies, of which only
    the entry '1' is read. *)
Inductive value :=
| VNone | VNum (x : R) | VStates (l : list R) | VStr (s : string) | VIon (first : option R).
(** data[str(z)]; None if there is no such key *)
Notation table := (nat -> option (string -> value)).
(** A float: None is nan *)
Notation cell := (option R).

Section Data.
Variable data : table.

(** 76-110: get_mendeleev_params for a list of atomic numbers *)
Fixpoint get_params (zs : list nat) (params : list string) : result (list value) :=
  match zs with
  | [] => Ok []
  | z :: t =>
      match data z with
      | None => Err KeyError
      | Some d => bind (get_params t params) (fun l => Ok (map d params ++ l)%list)
      end
  end.

(** str.split(' ') *)
Fixpoint split_space (s : string) : list string :=
  match s with
  | "" => [""]
  | String c t =>
      if Ascii.eqb c " " then "" :: split_space t
      else match split_space t with
           | [] => [String c ""]
           | w :: ws => String c w :: ws
           end
  end.

Definition is_letter (c : ascii) : bool :=
  let n := nat_of_ascii c in
  ((65 <=? n) && (n <=? 90) || (97 <=? n) && (n <=? 122))%nat.
(** int(c) *)
Definition digit (c : ascii) : result nat :=
  let n := nat_of_ascii c in
  if ((48 <=? n) && (n <=? 57))%nat then Ok (n - 48)%nat else Err ValueError.
Fixpoint has_char (c : ascii) (s : string) : bool :=
  match s with "" => false | String x t => Ascii.eqb c x || has_char c t end.
Fixpoint chars (s : string) : list ascii :=
  match s with "" => [] | String c t => c :: chars t end.

(** 57-64: the number of electrons in a shell such as '3d10' *)
Definition shell_count (shell : string) : result nat :=
  match rev (chars shell) with
  | [] => Err IndexError
  | c :: r =>
      if is_letter c then Ok 1%nat
      else if Nat.eqb (String.length shell) 3 then digit c
      else if Nat.eqb (String.length shell) 4 then
        match r with
        | b :: _ => bind (digit b) (fun x => bind (digit c) (fun y => Ok (10 * x + y)%nat))
        | [] => Err ValueError
        end
      else Ok 0%nat
  end.

(** The five counters of n_outer: all, s, p, d, f *)
Definition counters : Type := nat * nat * nat * nat * nat.
(** 65-73 *)
Definition add_shell (shell : string) (n : nat) (k : counters) : counters :=
  let '(tot, s, p, d, f) := k in
  if has_char "s" shell then (tot + n, s + n, p, d, f)%nat
  else if has_char "p" shell then (tot + n, s, p + n, d, f)%nat
  else if has_char "d" shell then (tot + n, s, p, d + n, f)%nat
  else if has_char "f" shell then (tot + n, s, p, d, f + n)%nat
  else (tot + n, s, p, d, f)%nat.
Fixpoint shell_loop (shells : list string) (k : counters) : result counters :=
  match shells with
  | [] => Ok k
  | sh :: t => bind (shell_count sh) (fun n => shell_loop t (add_shell sh n k))
  end.
(** 51-74: n_outer *)
Definition n_outer (econf : string) : result counters :=
  shell_loop (tl (split_space econf)) (0, 0, 0, 0, 0)%nat.

(** 20-23: block2number *)
Definition block2number (s : string) : result (list cell) :=
  if String.eqb s "s" then Ok [Some 1; Some 0; Some 0; Some 0]%R
  else if String.eqb s "p" then Ok [Some 0; Some 1; Some 0; Some 0]%R
  else if String.eqb s "d" then Ok [Some 0; Some 0; Some 1; Some 0]%R
  else if String.eqb s "f" then Ok [Some 0; Some 0; Some 0; Some 1]%R
  else Err KeyError.

Inductive special := Oxi | Econf | Block | Ion.
Definition special_of (p : string) : option special :=
  if String.eqb p "oxistates" then Some Oxi
  else if String.eqb p "econf" then Some Econf
  else if String.eqb p "block" then Some Block
  else if String.eqb p "ionenergies" then Some Ion
  else None.
Definition is_special (p : string) : bool := match special_of p with Some _ => true | None => false end.

(** 146-157: what the loop over the parameters appends to the line.  A value of an
    unexpected kind raises (np.nanmedian, split, dictionary look-up of None ...). *)
Definition expand (p : string) (v : value) : result (list cell) :=
  match special_of p with
  | None => Ok []
  | Some Oxi =>
      match v with
      | VStates [] => Err ValueError
      | VStates l => Ok [Some (lmin l); Some (median l); Some (lmax l)]
      | _ => Err TypeError
      end
  | Some Econf =>
      match v with
      | VStr s => bind (n_outer s) (fun k => let '(a, b, c, d, e) := k in
                  Ok (map (fun n => Some (INR n)) [a; b; c; d; e]))
      | _ => Err AttributeError
      end
  | Some Block => match v with VStr s => block2number s | VNone => Err KeyError | _ => Err TypeError end
  | Some Ion => match v with VIon (Some x) => Ok [Some x] | VIon None => Err KeyError | _ => Err TypeError end
  end.
Fixpoint expand_all (pvs : list (string * value)) : result (list cell) :=
  match pvs with
  | [] => Ok []
  | (p, v) :: t => bind (expand p v) (fun a => bind (expand_all t) (fun b => Ok (a ++ b)%list))
  end.

(** float(v) by np.array(..., dtype=float); None becomes nan *)
Definition to_float (v : value) : result cell :=
  match v with
  | VNone => Ok None
  | VNum x => Ok (Some x)
  | VStates _ | VStr _ => Err ValueError
  | VIon _ => Err TypeError
  end.
Fixpoint mapM {A B} (f : A -> result B) (l : list A) : result (list B) :=
  match l with
  | [] => Ok []
  | x :: t => bind (f x) (fun y => bind (mapM f t) (fun ys => Ok (y :: ys)))
  end.

(** 126-139: number of parameters with special treatment, and number of columns *)
Definition n_special (params : list string) : nat := List.length (filter is_special params).
Fixpoint n_columns (params : list string) : nat :=
  match params with
  | [] => 0
  | p :: t => (match special_of p with Some Oxi => 3 | Some Econf => 5 | Some Block => 4 | _ => 1 end + n_columns t)%nat
  end.

(** 141-157: a line before the conversion to floats: the raw values kept by the slice
    mnlv[:-special_params] and the expanded special ones *)
Definition line (params : list string) (z : nat) : result (list value * list cell) :=
  bind (get_params [z] params) (fun mnlv =>
  bind (expand_all (combine params mnlv)) (fun ex =>
  Ok (firstn (List.length mnlv - n_special params) mnlv, ex))).

(** 113-164: list_mendeleev_params *)
Definition list_params (zs : list nat) (params : list string) : result (list (list cell)) :=
  bind (mapM (line params) zs) (fun ls =>
  match ls with
  | [] => Ok [repeat None (n_columns params)]
  | _ => bind (mapM (fun l => bind (mapM to_float (fst l)) (fun a => Ok (a ++ snd l)%list)) ls) (fun rows =>
         if forallb (fun r => Nat.eqb (List.length r) (n_columns params)) rows then Ok rows else Err AssertionError)
  end).

(** 330-350: make_labels *)
Definition param_labels (p pre suf : string) : list string :=
  match special_of p with
  | Some Oxi => map (fun s => pre ++ "oxi_" ++ s ++ suf) ["min"; "med"; "max"]
  | Some Block => map (fun s => pre ++ s ++ "block" ++ suf) ["s"; "p"; "d"; "f"]
  | Some Econf => map (fun s => pre ++ "ne_" ++ s ++ suf) ["outer"; "s"; "p"; "d"; "f"]
  | Some Ion => [pre ++ "ionenergy" ++ suf]
  | None => [pre ++ p ++ suf]
  end.
Fixpoint make_labels (params : list string) (pre suf : string) : list string :=
  match params with
  | [] => []
  | p :: t => List.app (param_labels p pre suf) (make_labels t pre suf)
  end.

(** ** Radii *)
(** ase.data.covalent_radii *)
Variable covalent_radii : nat -> R.
(** The loop 291-296; float of a non-number raises as above *)
Fixpoint first_value (l : list value) : result (option R) :=
  match l with
  | [] => Ok None
  | VNone :: t => first_value t
  | v :: _ => bind (to_float v) (fun c => match c with Some x => Ok (Some (x / 100)%R) | None => Ok None end)
  end.
(** 281-298: get_radius *)
Definition get_radius (z : nat) (params : list string) : result R :=
  bind (get_params [z] params) (fun p =>
  bind (first_value p) (fun r => match r with Some x => Ok x | None => Ok (covalent_radii z) end)).
Definition radius_params : list string := ["atomic_radius"; "covalent_radius_cordero"].
(** 301-317: default_catlearn_radius *)
Definition default_radius (z : nat) : result R :=
  bind (if Nat.eqb z 6 then Ok (covalent_radii z)
        else if Nat.eqb z 1 then Ok (covalent_radii z + 0.2)%R
        else get_radius z radius_params) (fun r =>
  Ok (r * 1.15 + 0.1)%R).

(** ** Statistics over atoms *)
(** ase.data.ground_state_magnetic_moments *)
Variable gs_magmom : nat -> R.

Fixpoint somes (l : list cell) : list R :=
  match l with [] => [] | Some x :: t => x :: somes t | None :: t => somes t end.
Inductive stat := Nanmean | Nanmin | Nanmax | Nanmedian | Nansum | Nanstd.
(** np.nanmean(c) etc. of one column; only nan (or nothing) gives nan, a sum gives zero *)
Definition reduce (s : stat) (c : list cell) : cell :=
  match s, somes c with
  | Nansum, l => Some (sumR l)
  | _, [] => None
  | Nanmean, l => Some (mean l)
  | Nanmin, l => Some (lmin l)
  | Nanmax, l => Some (lmax l)
  | Nanmedian, l => Some (median l)
  | Nanstd, l => Some (std l)
  end.
(** np.nanmin([]) and np.nanmax([]) raise *)
Definition reduce_list (s : stat) (c : list cell) : result cell :=
  match s, c with
  | Nanmin, [] | Nanmax, [] => Err ValueError
  | _, _ => Ok (reduce s c)
  end.
(** Column k of a matrix *)
Definition column (k : nat) (m : list (list cell)) : list cell := map (fun r => nth k r None) m.

(** The common body of the fingerprints listed at the top: statistics of each column over
    the atoms of a subset, and of the ground state magnetic moments.  For example
    adsorbate.py 192-199 (mean_site), 217-224 (min_site), 99-106 (term), 533-540 (ads_sum),
    chalcogenide.py 121-126 (mean_cation), bulk.py 102-107 (bulk_summation; without the
    check). *)
Definition property_vec (s : stat) (params : list string) (suf : string) (zs : list nat) : result (list cell) :=
  bind (list_params zs params) (fun dat =>
  bind (reduce_list s (map (fun z => Some (gs_magmom z)) zs)) (fun m =>
  let result := (map (fun k => reduce s (column k dat)) (seq 0 (n_columns params)) ++ [m])%list in
  if Nat.eqb (List.length result) (List.length (List.app (make_labels params "" suf) ["ground_state_magmom" ++ suf]))
  then Ok result else Err AssertionError)).
Definition property_names (params : list string) (suf : string) : list string :=
  List.app (make_labels params "" suf) ["ground_state_magmom" ++ suf].

(** adsorbate.py 486-520: mean_surf_ligands *)
Definition mean_surf_ligands (params : list string) (zs : list nat) : result (list cell) :=
  bind (property_vec Nanmean params "_surf_ligands" zs) (fun r =>
  Ok (Some (INR (List.length zs)) :: Some (INR (List.length (nodup Nat.eq_dec zs))) :: r)).
Definition mean_surf_ligands_names (params : list string) : list string :=
  "nn_surf_ligands" :: "identnn_surf_ligands" :: property_names params "_surf_ligands".
End Data.

(** ** Default parameters *)
(** 26-39 *)
Definition default_params : list string :=
  ["atomic_number"; "atomic_volume"; "boiling_point"; "density"; "dipole_polarizability"; "electron_affinity";
   "group_id"; "lattice_constant"; "melting_point"; "period"; "vdw_radius"; "covalent_radius_cordero"; "en_allen"; "atomic_weight"].
(** adsorbate.py and convoluted.py: extra_slab_params *)
Definition extra_slab_params : list string :=
  ["atomic_radius"; "heat_of_formation"; "dft_bulk_modulus"; "dft_density"; "dbcenter"; "dbfilling"; "dbwidth"; "dbskew"; "dbkurt";
   "oxistates"; "block"; "econf"; "ionenergies"].
(** bulk.py 11-34 *)
Definition bulk_extra_params : list string :=
  ["c6"; "c6_gb"; "en_allred-rochow"; "en_cottrell-sutton"; "en_gordy"; "en_martynov-batsanov"; "en_mulliken"; "en_nagle"; "en_ghosh";
   "gas_basicity"; "metallic_radius_c12"; "atomic_radius"; "heat_of_formation"; "dft_std_modulus"; "dft_density"; "en_pauling";
   "dbcenter"; "dbfilling"; "dbwidth"; "dbskew"; "dbkurt"; "block"; "econf"; "ionenergies"].

(** bulk.py 113-158: names returned by bulk_average *)
Definition bulk_average_names : list string :=
  ["atomic_number_av"; "atomic_volume_av"; "boiling_point_av"; "density_av"; "dipole_polarizability_av"; "electron_affinity_av";
   "group_id_av"; "lattice_constant_av"; "melting_point_av"; "period_av"; "vdw_radius_av"; "covalent_radius_cordero_av"; "en_allen_av";
   "atomic_weight_av"; "c6_av"; "c6_gb_av"; "en_allred-rochow_av"; "en_cottrell-sutton_av"; "en_gordy"; "en_martynov-batsanov_av";
   "en_mulliken_av"; "en_nagle_av"; "en_ghosh_av"; "gas_basicity_av"; "metallic_radius_av"; "atomic_radius_av"; "heat_of_formation_av";
   "dft_av_modulus_av"; "dft_rhodensity_av"; "en_pauling_av"; "dbcenter_av"; "dbfilling_av"; "dbwidth_av"; "dbskew_av"; "dbkurtosis_av";
   "sblock_av"; "pblock_av"; "dblock_av"; "fblock_av"; "ne_outer_av"; "ne_s_av"; "ne_p_av"; "ne_d_av"; "ne_f_av"; "ionenergy_av";
   "ground_state_magmom_av"].
(** bulk.py 168-213: names returned by bulk_std *)
Definition bulk_std_names : list string :=
  ["atomic_number_std"; "atomic_volume_std"; "boiling_point_std"; "density_std"; "dipole_polarizability_std"; "electron_affinity_std";
   "group_id_std"; "lattice_constant_std"; "melting_point_std"; "period_std"; "vdw_radius_std"; "covalent_radius_cordero_std"; "en_allen_std";
   "atomic_weight_std"; "c6_std"; "c6_gb_std"; "en_allred-rochow_std"; "en_cottrell-sutton_std"; "en_gordy"; "en_martynov-batsanov_std";
   "en_mulliken_std"; "en_nagle_std"; "en_ghosh_std"; "gas_basicity_std"; "metallic_radius_std"; "atomic_radius"; "heat_of_formation_std";
   "dft_std_modulus_std"; "dft_rhodensity_std"; "en_pauling_std"; "dbcenter_std"; "dbfilling_std"; "dbwidth_std"; "dbskew_std";
   "dbkurtosis_std"; "sblock_std"; "pblock_std"; "dblock_std"; "fblock_std"; "ne_outer_std"; "ne_s_std"; "ne_p_std"; "ne_d_std"; "ne_f_std";
   "ionenergy_std"; "ground_state_magmom_std"].

(** ** Composition formulas *)
(** 167-230: the scanner of stat_mendeleev_params.  The formula is given as a sequence of
    symbols (upper case letter and lower case letters other than x), each with its atomic
    number or None if there is no such element, and an optional coefficient; the regular
    expression then finds the coefficients in order. *)
Record piece := Piece { sym : option nat; coef : option R }.
Record scan := Scan { s_numbers : list nat; s_weights : list R; n_float : Z; n_symbol : Z; current : option nat }.

Local Open Scope Z_scope.
(** l[i] for a Python index *)
Definition py_index (l : list R) (i : Z) : result R :=
  let n := Z.of_nat (List.length l) in
  let k := if i <? 0 then i + n else i in
  if (k <? 0) || (n <=? k) then Err IndexError else Ok (nth (Z.to_nat k) l 0%R).
(** 191-195 and 222-225: append 1 if there is no coefficient for the previous symbol *)
Definition fill (st : scan) : scan :=
  if n_float st <? n_symbol st
  then Scan (s_numbers st) (s_weights st ++ [1%R])%list (n_float st + 1) (n_symbol st) (current st) else st.
(** 189-205: an upper case letter *)
Definition start_symbol (p : piece) (st : scan) : scan :=
  let st1 :=
    if 0 <=? n_symbol st then
      let st := fill st in
      match current st with
      | Some z => Scan (s_numbers st ++ [z])%list (s_weights st) (n_float st) (n_symbol st) None
      | None => Scan (s_numbers st) (removelast (s_weights st)) (n_float st) (n_symbol st - 1) None
      end
    else st in
  Scan (s_numbers st1) (s_weights st1) (n_float st1) (n_symbol st1 + 1) (sym p).
(** 212-222: the first digit of a coefficient *)
Definition read_coef (coefs : list R) (p : piece) (st : scan) : result scan :=
  match coef p with
  | None => Ok st
  | Some _ => bind (py_index coefs (n_float st)) (fun w =>
              Ok (Scan (s_numbers st) (s_weights st ++ [w])%list (n_float st + 1) (n_symbol st) (current st)))
  end.
Fixpoint scan_loop (coefs : list R) (ps : list piece) (st : scan) : result scan :=
  match ps with
  | [] => Ok st
  | p :: t => bind (read_coef coefs p (start_symbol p st)) (scan_loop coefs t)
  end.
Definition stat_composition (ps : list piece) : result (list nat * list R) :=
  let coefs := somes (map coef ps) in
  bind (scan_loop coefs ps (Scan [] [] (-1) (-1) None)) (fun st =>
  let st := fill st in
  let '(ns, ws) := match current st with
    | Some z => (s_numbers st ++ [z], s_weights st)%list
    | None => (s_numbers st, removelast (s_weights st))
    end in
  if Nat.eqb (List.length ws) (List.length ns) then Ok (ns, ws) else Err AssertionError).
