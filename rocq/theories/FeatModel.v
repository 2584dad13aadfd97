(** Model of catlearn/featurize/setup.py (FeatureGenerator) and of the counting
    fingerprints of catlearn/fingerprint/standard.py.

    A structure is represented by what the code reads from it: the atomic numbers
    and the connectivity matrix.  Feature names are structured values ([label])
    instead of formatted strings. *)
From Coq Require Import ZArith String List Arith Bool.
From Verif Require Import Base.
Import ListNotations.

(** ** Structures *)
Record struct := Struct { numbers : list nat; conn : list (list Z) }.
Definition natoms (a : struct) : nat := length (numbers a).
Definition zat (a : struct) (i : nat) : nat := nth i (numbers a) 0.
Definition cm (a : struct) (i j : nat) : Z := nth j (nth i (conn a) []) 0%Z.

(** Names of features: '{z}_count', 'bag_X', 'bag_XY', 'bag_cn_X_n', 'bag_XnYm'. *)
Inductive label :=
| LCount (z : nat)
| LBag (z : nat)
| LPair (z1 z2 : nat)
| LCn (z : nat) (n : Z)
| LNodes (z1 : nat) (n1 : Z) (z2 : nat) (n2 : Z).

Definition count (z : nat) (l : list nat) : nat := length (filter (Nat.eqb z) l).
(** sorted(frozenset(l)) *)
Definition sorted_set (l : list nat) : list nat := isort Nat.leb (nodup Nat.eq_dec l).

(** ** standard.py 79-109: composition_vec; the first component is the new value of
    self.atom_types *)
Definition composition_vec (types : option (list nat)) (a : struct) : list nat * list nat :=
  let ts := match types with Some ts => ts | None => sorted_set (numbers a) end in
  (ts, map (fun z => count z (numbers a)) ts).
(** 94-98 *)
Definition composition_names (types : option (list nat)) : result (list label) :=
  match types with None => Err AssertionError | Some ts => Ok (map LCount ts) end.

Section Bags.
(** len(ase.data.chemical_symbols) *)
Variable n_symbols : nat.

(** chemical_symbols[z] for every z of the list *)
Definition symbols (ts : list nat) : result (list nat) :=
  if forallb (fun z => z <? n_symbols) ts then Ok ts else Err IndexError.

(** 292-315 *)
Definition bag_elements (ts : list nat) (a : struct) : result (list nat) :=
  bind (symbols ts) (fun _ => Ok (map (fun z => count z (numbers a)) ts)).
Definition bag_elements_names (ts : list nat) : result (list label) :=
  bind (symbols ts) (fun ss => Ok (map LBag ss)).

(** ** Counting pairs *)
(** np.where(np.ravel(np.triu(cm)) > 0) with a zeroed diagonal, unravelled *)
Definition bonds (a : struct) : list (nat * nat) :=
  filter (fun p => (fst p <? snd p) && (0 <? cm a (fst p) (snd p))%Z)
         (list_prod (seq 0 (natoms a)) (seq 0 (natoms a))).
(** np.triu_indices_from of an n x n array *)
Definition triu (n : nat) : list (nat * nat) :=
  filter (fun p => fst p <=? snd p) (list_prod (seq 0 n) (seq 0 n)).

(** l.index(x) *)
Fixpoint index_of {K} (eqb : K -> K -> bool) (x : K) (l : list K) : result nat :=
  match l with
  | [] => Err ValueError
  | y :: t => if eqb x y then Ok 0 else bind (index_of eqb x t) (fun i => Ok (S i))
  end.

(** boc[i, j] += 1 *)
Definition bump (m : nat -> nat -> nat) (i j : nat) : nat -> nat -> nat :=
  fun a b => if (a =? i) && (b =? j) then S (m a b) else m a b.

(** The loop over bonds shared by bag_edges (343-353) and bag_edges_cn (428-446): the
    keys of the two atoms are sorted, located in the list of nodes and counted. *)
Fixpoint pair_loop {K} (eqb leb : K -> K -> bool) (nodes : list K) (key : nat -> K)
    (bs : list (nat * nat)) (boc : nat -> nat -> nat) : result (nat -> nat -> nat) :=
  match bs with
  | [] => Ok boc
  | (r, c) :: t =>
      let (ka, kb) := if leb (key r) (key c) then (key r, key c) else (key c, key r) in
      bind (index_of eqb ka nodes) (fun i =>
      bind (index_of eqb kb nodes) (fun j =>
      pair_loop eqb leb nodes key t (bump boc i j)))
  end.

(** boc[np.triu_indices_from(boc)].tolist() *)
Definition triu_values (n : nat) (boc : nat -> nat -> nat) : list nat :=
  map (fun p => boc (fst p) (snd p)) (triu n).

(** 337-356 *)
Definition bag_edges (ts : list nat) (a : struct) : result (list nat) :=
  bind (pair_loop Nat.eqb Nat.leb ts (zat a) (bonds a) (fun _ _ => 0)) (fun boc =>
  Ok (triu_values (length ts) boc)).
(** 331-336: rows[i][j] = symbols[j], cols[i][j] = symbols[i] *)
Definition bag_edges_names (ts : list nat) : result (list label) :=
  bind (symbols ts) (fun ss =>
  Ok (map (fun p => LPair (nth (snd p) ss 0) (nth (fst p) ss 0)) (triu (length ss)))).

(** range(a, b) *)
Definition rangeZ (a b : Z) : list Z := map (fun k => a + Z.of_nat k)%Z (seq 0 (Z.to_nat (b - a))).
Fixpoint sumZ (l : list Z) : Z := match l with [] => 0%Z | x :: t => (x + sumZ t)%Z end.

(** Index of the last occurrence: a dictionary filled in order (374-376). *)
Fixpoint last_index (x : nat) (l : list nat) : option nat :=
  match l with
  | [] => None
  | y :: t => match last_index x t with
              | Some i => Some (S i)
              | None => if Nat.eqb x y then Some 0 else None
              end
  end.

Definition cn_names (cn_min cn_max : Z) (ts : list nat) : list label :=
  flat_map (fun z => map (LCn z) (rangeZ cn_min (cn_max + 1))) ts.
(** 358-394, names *)
Definition bag_element_cn_names (cn_min cn_max : Z) (ts : list nat) : result (list label) :=
  bind (symbols ts) (fun ss => Ok (cn_names cn_min cn_max ss)).

(** Outcome of the loop 383-392: the counts, or the early return of line 390. *)
Fixpoint cn_loop (cn_min cn_max : Z) (ts : list nat) (has_kvp : bool) (a : struct) (is : list nat)
    (m : nat -> nat -> nat) : result (option (nat -> nat -> nat)) :=
  match is with
  | [] => Ok (Some m)
  | i :: t =>
      let cn := sumZ (nth i (conn a) []) in
      if ((cn_max <? cn) || (cn <? cn_min))%Z then
        (* print(atoms.info['key_value_pairs'], cn) *)
        if has_kvp then Ok None else Err KeyError
      else
        match last_index (zat a i) ts with
        | None => Err KeyError
        | Some j => cn_loop cn_min cn_max ts has_kvp a t (bump m j (Z.to_nat (cn - cn_min)))
        end
  end.
(** 358-394, values; None stands for nan *)
Definition bag_element_cn (cn_min cn_max : Z) (ts : list nat) (has_kvp : bool) (a : struct) : result (list (option nat)) :=
  bind (symbols ts) (fun ss =>
  if (cn_max + 1 - cn_min <? 0)%Z then Err ValueError else
  bind (cn_loop cn_min cn_max ts has_kvp a (seq 0 (natoms a)) (fun _ _ => 0)) (fun r =>
  match r with
  | None => Ok (repeat None (length (cn_names cn_min cn_max ss)))
  | Some m => Ok (map (fun p => Some (m (fst p) (snd p)))
                      (list_prod (seq 0 (length ts)) (seq 0 (Z.to_nat (cn_max + 1 - cn_min)))))
  end)).

(** 410-413; a node string 'X' + str(n) is kept as the pair (X, n) *)
Definition nodes (cn_min cn_max : Z) (ts : list nat) : list (nat * Z) :=
  flat_map (fun z => map (fun n => (z, n)) (rangeZ cn_min (cn_max + 1))) ts.
Definition node_eqb (x y : nat * Z) : bool := (fst x =? fst y) && (snd x =? snd y)%Z.
(** np.lexsort((cn, z)): by z, then by cn *)
Definition node_leb (x y : nat * Z) : bool :=
  (fst x <? fst y) || ((fst x =? fst y) && (snd x <=? snd y)%Z).
(** 425-427: coordination number without the diagonal *)
Definition cn_of (a : struct) (i : nat) : Z :=
  sumZ (map (fun j => if i =? j then 0%Z else cm a i j) (seq 0 (natoms a))).
(** 419-447 *)
Definition bag_edges_cn (cn_min cn_max : Z) (ts : list nat) (a : struct) : result (list nat) :=
  bind (symbols ts) (fun ss =>
  if (Z.of_nat (length ts) * (cn_max - cn_min + 1) <? 0)%Z then Err ValueError else
  bind (pair_loop node_eqb node_leb (nodes cn_min cn_max ss) (fun i => (zat a i, cn_of a i)) (bonds a) (fun _ _ => 0))
       (fun boc => Ok (triu_values (Z.to_nat (Z.of_nat (length ts) * (cn_max - cn_min + 1))) boc))).
(** 414-418 *)
Definition bag_edges_cn_names (cn_min cn_max : Z) (ts : list nat) : result (list label) :=
  bind (symbols ts) (fun ss =>
  let ns := nodes cn_min cn_max ss in
  Ok (map (fun p => let x := nth (snd p) ns (0, 0%Z) in let y := nth (fst p) ns (0, 0%Z) in
                    LNodes (fst x) (snd x) (fst y) (snd y)) (triu (length ns)))).
End Bags.

(** ** setup.py *)
(** 283-306 *)
Definition get_atom_types (train : list struct) (test : option (list struct)) : list nat :=
  let cs := train ++ match test with Some t => t | None => [] end in
  sorted_set (concat (map numbers cs)).
(** 334-358 *)
Definition get_atom_length (train : list struct) (test : option (list struct)) : nat :=
  let cs := train ++ match test with Some t => t | None => [] end in
  fold_left (fun m a => if m <? natoms a then natoms a else m) cs 0.

(** 118-155: one-hot rows (pd.get_dummies, reindexed) and pair rows; distances are a
    given matrix.  A row is (distance, type counts, (z_row, z_col)). *)
Section Pairs.
Context {D : Type}.
Variable dist : struct -> nat -> nat -> D.
Definition one_hot (ts : list nat) (z : nat) : list nat := map (fun t => if Nat.eqb t z then 1 else 0) ts.
Definition pair_row (ts : list nat) (a : struct) (i : nat) : D * list nat * (nat * nat) :=
  let r := i / natoms a in let c := i mod natoms a in
  (dist a r c,
   map (fun p => fst p + snd p) (combine (one_hot ts (zat a r)) (one_hot ts (zat a c))),
   (zat a r, zat a c)).
Definition featurize_atomic_pairs (types : option (list nat)) (cs : list struct) : list (D * list nat * (nat * nat)) :=
  let ts := match types with Some ts => ts | None => get_atom_types cs None end in
  concat (map (fun a => map (pair_row ts a) (seq 0 (natoms a * natoms a))) cs).
End Pairs.

(** ** return_vec and return_names *)
Section Vec.
Context {A V N : Type}.

(** What a fingerprint function returns: numbers, or strings. *)
Inductive arr := Nums (l : list V) | Strs (l : list N).
Definition alen (x : arr) : nat := match x with Nums l => length l | Strs l => length l end.
(** arr.dtype.type is np.str_; np.array([]) is an array of floats *)
Definition is_str (x : arr) : bool := match x with Strs (_ :: _) => true | _ => false end.
(** np.concatenate of arrays of one kind, or of an empty array with any *)
Definition cat (x y : arr) : arr :=
  match x, y with
  | Nums a, Nums b => Nums (a ++ b)
  | Strs a, Strs b => Strs (a ++ b)
  | Nums _, Strs b => Strs b
  | Strs _, Nums b => Nums b
  end.
(** A fingerprint function called with None returns names, with a structure values. *)
Definition generator := option A -> result arr.

(** 266-281 *)
Fixpoint cat_loop (atoms : option A) (gs : list generator) (fp : arr) : result arr :=
  match gs with
  | [] => Ok fp
  | g :: t =>
      bind (g atoms) (fun x =>
      if (0 <? alen fp) && xorb (is_str x) (is_str fp) then Err AssertionError
      else cat_loop atoms t (cat fp x))
  end.
(** 248-281 *)
Definition concatenate_vec (atoms : option A) (gs : list generator) : result arr := cat_loop atoms gs (Nums []).
(** 225-246 *)
Definition get_vec (gs : list generator) (atoms : option A) : result arr :=
  match gs with [g] => g atoms | _ => concatenate_vec atoms gs end.
(** 204-223 *)
Definition return_names (gs : list generator) : result arr := get_vec gs None.

(** 196-200: the serial branch *)
Fixpoint serial (f : A -> result arr) (cs : list A) : result (list arr) :=
  match cs with
  | [] => Ok []
  | c :: t => bind (f c) (fun x => bind (serial f t) (fun xs => Ok (x :: xs)))
  end.

(** 190-195: map_async hands out the arguments in any order ([sched] is the order in
    which the tasks finish), stores every result at the index of its argument and
    calls the callback with the list of results when all have succeeded.  With a
    failed task or without tasks the callback is not called; fingerprint_vector
    stays empty and taking its element 0 raises IndexError. *)
Definition pool_step (f : A -> result arr) (cs : list A) (st : list (option (result arr))) (i : nat) : list (option (result arr)) :=
  match nth_error cs i with None => st | Some c => set_nth i (Some (f c)) st end.
Definition pool_map (f : A -> result arr) (cs : list A) (sched : list nat) : list (option (result arr)) :=
  fold_left (pool_step f cs) sched (repeat None (length cs)).
Fixpoint all_ok (l : list (option (result arr))) : option (list arr) :=
  match l with
  | [] => Some []
  | Some (Ok x) :: t => match all_ok t with Some xs => Some (x :: xs) | None => None end
  | _ :: _ => None
  end.
Definition parallel (f : A -> result arr) (cs : list A) (sched : list nat) : result (list arr) :=
  match cs with
  | [] => Err IndexError
  | _ => match all_ok (pool_map f cs sched) with Some xs => Ok xs | None => Err IndexError end
  end.
(** 157-202 for a list of structures; the array is kept as the list of its rows.
    [nprocs] <> Some 1 selects the parallel branch. *)
Definition return_vec (nprocs : option nat) (sched : list nat) (cs : list A) (gs : list generator) : result (list arr) :=
  let f := fun a => get_vec gs (Some a) in
  match nprocs with
  | Some 1 => serial f cs
  | _ => parallel f cs sched
  end.
(** 360-380: the data frame is built from the matrix and the names; pandas raises
    ValueError when a row and the names differ in length. *)
Definition get_dataframe (nprocs : option nat) (sched : list nat) (cs : list A) (gs : list generator) : result (list arr * arr) :=
  bind (return_vec nprocs sched cs gs) (fun m =>
  bind (return_names gs) (fun ns =>
  if forallb (fun r => alen r =? alen ns) m then Ok (m, ns) else Err ValueError)).
End Vec.
Arguments arr : clear implicits.
Arguments generator : clear implicits.

(** ** setup.py 29-57: default sets of fingerprint functions *)
Local Open Scope string_scope.
Definition default_molecule_fingerprinters : list string :=
  (* standard.py 22-30; there is no comma after 'bag_elements' *)
  ["element_parameter_vec"; "eigenspectrum_vec"; "composition_vec"; "distance_vec";
   "bag_elements" ++ "bag_edges"; "bag_element_cn"].
Definition default_particle_fingerprinters : list string := ["nearestneighbour_vec"].
Definition default_bulk_fingerprinters : list string := ["bulk_summation"; "bulk_average"; "bulk_std"].
Definition default_convoluted_fingerprinters : list string := ["conv_bulk"; "conv_term"].
Definition default_chalcogenide_fingerprinters : list string :=
  ["formal_charges"; "min_cation"; "max_cation"; "mean_cation"; "sum_cation"].
(** adsorbate.py 15-33 *)
Definition default_adsorbate_fingerprinters : list string :=
  ["mean_chemisorbed_atoms"; "mean_site"; "max_site"; "min_site"; "median_site"; "sum_site";
   "mean_surf_ligands"; "term"; "bulk"; "strain"; "en_difference_ads"; "en_difference_chemi";
   "en_difference_active"; "count_chemisorbed_fragment"; "generalized_cn"; "bag_cn"; "bag_atoms_ads";
   "bag_edges_ads"; "bag_edges_chemi"].
Definition default_sets : list (string * list string) :=
  [("bulk", default_bulk_fingerprinters);
   ("fragment", (default_molecule_fingerprinters ++ default_particle_fingerprinters)%list);
   ("adsorbates", (default_adsorbate_fingerprinters ++ default_convoluted_fingerprinters)%list);
   ("chalcogenides", default_chalcogenide_fingerprinters)].
(** Fingerprint methods of FeatureGenerator (the def lines of its base classes). *)
Definition feature_methods : list string :=
  ["term"; "bulk"; "mean_chemisorbed_atoms"; "mean_site"; "min_site"; "max_site"; "median_site"; "sum_site";
   "generalized_cn"; "bag_cn"; "bag_cn_general"; "bag_atoms_ads"; "count_chemisorbed_fragment"; "mean_surf_ligands";
   "ads_sum"; "ads_av"; "strain"; "bag_edges_ads"; "bag_edges_chemi"; "bag_edges_all"; "en_difference_ads";
   "en_difference_chemi"; "en_difference_active"; "delta_energy"; "db_size"; "dbid"; "ctime";
   "nearestneighbour_vec"; "bond_count_vec"; "distribution_vec"; "connections_vec"; "rdf_vec";
   "composition_vec"; "element_parameter_vec"; "element_mass_vec"; "eigenspectrum_vec"; "distance_vec";
   "bag_elements"; "bag_edges"; "bag_element_cn"; "bag_edges_cn"; "neighbor_sum_vec"; "neighbor_mean_vec";
   "bulk_summation"; "bulk_average"; "bulk_std"; "xyz_id"; "conv_bulk"; "conv_term";
   "formal_charges"; "mean_cation"; "min_cation"; "max_cation"; "median_cation"; "sum_cation";
   "catapp_AB"; "name"; "get_autocorrelation"].

(** getattr(generator, name); methods are represented by their names *)
Fixpoint getattrs (names : list string) : result (list string) :=
  match names with
  | [] => Ok []
  | n :: t => if existsb (String.eqb n) feature_methods then bind (getattrs t) (fun ms => Ok (n :: ms))
              else Err AttributeError
  end.
(** 37-57 *)
Definition default_fingerprinters (data_type : string) : result (list string) :=
  match find (fun p => String.eqb (fst p) data_type) default_sets with
  | None => Err ValueError
  | Some (_, names) => getattrs names
  end.
