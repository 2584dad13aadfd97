(** Model of real valued fingerprints: catlearn/fingerprint/standard.py
    (element_parameter_vec, eigenspectrum_vec, distance_vec), graph.py, molecule.py,
    particle.py (nearestneighbour_vec, bond_count_vec) and convoluted.py.

    Real numbers stand for floats; nan is None.  What ASE computes (distances, positions,
    neighbour shells, shortest paths, eigenvalues) is a parameter. *)
From Coq Require Import ZArith Reals String List Arith Bool.
From Verif Require Import Base RBase FeatModel PeriodicModel.
Import ListNotations.
Local Open Scope nat_scope.

(** Sum over range(n) *)
Definition sum_n (n : nat) (f : nat -> R) : R := sumR (map f (seq 0 n)).
(** x * c with nan *)
Definition omul (c : R) (x : option R) : option R := match x with Some v => Some (c * v)%R | None => None end.
(** np.sort(l)[::-1]: nan is sorted last, hence comes first after the reversal *)
Definition sort_down (l : list (option R)) : list (option R) :=
  (repeat None (length l - length (somes l)) ++ map Some (rev (isort Rleb (somes l))))%list.

(** ** standard.py 111-162: element_parameter_vec *)
Section Standard.
Variable data : nat -> option (string -> value).

(** 148-151: plist *)
Definition plist (ts : list nat) (p : string) : result (list (option R)) :=
  mapM (fun z => match data z with None => Err KeyError | Some d => to_float (d p) end) ts.
(** 153-156: the features of one parameter; np.nansum and np.nanmean are taken of the array
    that has two zeros at its end *)
Definition one_parameter (comp : list nat) (ps : list (option R)) : list (option R) :=
  let f := map (fun q => omul (INR (fst q)) (snd q)) (combine comp ps) in
  let padded := (f ++ [Some 0%R; Some 0%R])%list in
  (f ++ [reduce Nansum padded; reduce Nanmean padded])%list.
Definition element_parameter_vec (types : option (list nat)) (params : list string) (a : struct) : result (list (option R)) :=
  let (ts, comp) := composition_vec types a in
  bind (mapM (plist ts) params) (fun pss => Ok (concat (map (one_parameter comp) pss))).
(** 138-146: names *)
Inductive plabel := PSum (z : nat) (p : string) | PSumAll (p : string) | PMeanAll (p : string).
Definition element_parameter_names (types : option (list nat)) (params : list string) : result (list plabel) :=
  match types with
  | None => Err AssertionError
  | Some ts => Ok (concat (map (fun p => map (fun z => PSum z p) ts ++ [PSumAll p; PMeanAll p])%list params))
  end.
End Standard.

(** ** standard.py 183-214: _get_coulomb.  [dm] is the matrix of distances. *)
Definition coulomb_entry (zs : list nat) (dm : nat -> nat -> R) (i j : nat) : R :=
  let z k := INR (nth k zs 0) in
  if Nat.eqb i j then (0.5 * Rpower (z i) 2.4)%R else (z i * z j / dm i j)%R.
Definition coulomb (zs : list nat) (dm : nat -> nat -> R) : result (list (list R)) :=
  let n := length zs in
  if n <? 2 then Err ValueError
  else Ok (map (fun i => map (coulomb_entry zs dm i) (seq 0 n)) (seq 0 n)).
(** 216-244: eigenspectrum_vec; [eigvals] is np.linalg.eigvals *)
Definition eigenspectrum_vec (eigvals : list (list R) -> list R) (atom_len : nat) (zs : list nat) (dm : nat -> nat -> R) : result (list R) :=
  bind (coulomb zs dm) (fun m =>
  let v := rev (isort Rleb (eigvals m)) in
  if length v <=? atom_len then Ok (v ++ repeat 0%R (atom_len - length v))%list else Err ValueError).

(** ** standard.py 246-290: distance_vec *)
Record point := Point { px : R; py : R; pz : R }.
(** np.linalg.norm(j - l) *)
Definition norm_diff (a b : point) : R := sqrt ((px a - px b) ^ 2 + (py a - py b) ^ 2 + (pz a - pz b) ^ 2)%R.
(** all(j != l) *)
Definition all_differ (a b : point) : bool :=
  negb (Reqb (px a) (px b)) && negb (Reqb (py a) (py b)) && negb (Reqb (pz a) (pz b)).
(** 276-288: the loops for one element; co and ad are the number and the sum of distances *)
Definition element_pairs (at_z : nat) (atoms : list (nat * point)) : list (point * point) :=
  flat_map (fun i => if Nat.eqb (fst i) at_z
                     then flat_map (fun k => if Nat.eqb (fst k) at_z && all_differ (snd i) (snd k) then [(snd i, snd k)] else []) atoms
                     else []) atoms.
Definition one_distance (at_z : nat) (atoms : list (nat * point)) : R :=
  let ps := element_pairs at_z atoms in
  let co := INR (length ps) in
  let ad := sumR (map (fun q => norm_diff (fst q) (snd q)) ps) in
  if Reqb co 0 then co else (co / ad)%R.
Definition distance_vec (types : option (list nat)) (atoms : list (nat * point)) : list R :=
  let ts := match types with Some ts => ts | None => sorted_set (map fst atoms) end in
  map (fun z => one_distance z atoms) ts.

(** ** graph.py *)
(** 143-178: _normalize_neighbors; [shell i j] is the neighbour shell from
    catlearn_neighborlist, zero for no neighbours.  Without any neighbours 0 / 0 gives nan.
    Entry of the padded matrix: *)
Definition max_shell (n : nat) (shell : nat -> nat -> nat) : nat :=
  fold_left Nat.max (flat_map (fun i => map (shell i) (seq 0 n)) (seq 0 n)) 0.
Definition con_entry (n : nat) (shell : nat -> nat -> nat) (i j : nat) : option R :=
  if (i <? n) && (j <? n) then
    match max_shell n shell with
    | 0 => None
    | m => match shell i j with 0 => Some 0%R | s => Some (INR m / INR s)%R end
    end
  else Some 0%R.
(** Row sums of np.dot(con, pro), where pro is the diagonal matrix of [props] padded with
    zeros (180-207).  A nan property makes its column nan, as 0 * nan is nan, and so every row sum. *)
Definition prop_entry (props : list R) (j : nat) : R := nth j props 0%R.
Definition graph_row (atom_len n : nat) (shell : nat -> nat -> nat) (props : list (option R)) (i : nat) : option R :=
  let es := map (con_entry n shell i) (seq 0 atom_len) in
  if forallb (fun c => match c with Some _ => true | None => false end) es && Nat.eqb (length (somes props)) (length props)
  then Some (sum_n atom_len (fun j => match con_entry n shell i j with Some c => (c * prop_entry (somes props) j)%R | None => 0%R end))
  else None.
Section Graph.
Variable data : nat -> option (string -> value).
(** element_data[str(a)].get(prop) for each atom; numpy converts null to nan *)
Definition atom_props (zs : list nat) (p : string) : result (list (option R)) :=
  mapM (fun z => match data z with None => Err KeyError | Some d => to_float (d p) end) zs.
(** 54-115: neighbor_sum_vec and neighbor_mean_vec *)
Definition neighbor_vec (mean : bool) (atom_len : nat) (params : list string) (zs : list nat) (shell : nat -> nat -> nat) : result (list (option R)) :=
  if atom_len <? length zs then Err ValueError else
  bind (mapM (fun p => bind (atom_props zs p) (fun props =>
    Ok (sort_down (map (fun i => let r := graph_row atom_len (length zs) shell props i in
                                 if mean then omul (/ INR atom_len) r else r) (seq 0 atom_len))))) params) (fun blocks =>
  Ok (concat blocks)).
Definition neighbor_sum_vec := neighbor_vec false.
Definition neighbor_mean_vec := neighbor_vec true.

(** ** molecule.py 44-62: get_autocorrelation.  [hops i j] is the entry of
    nx.floyd_warshall_numpy: the length of a shortest path, None if there is none. *)
Definition hop_is (d : nat) (h : option nat) : bool := match h with Some k => Nat.eqb k d | None => false end.
(** The diagonal entry of W B W^T for one parameter; a nan in the column makes it nan *)
Definition correlation (col : list (option R)) (hops : nat -> nat -> option nat) (d : nat) : option R :=
  let n := length col in
  if Nat.eqb (length (somes col)) n
  then Some (sum_n n (fun i => sum_n n (fun j => if hop_is d (hops i j) then (nth i (somes col) 0 * nth j (somes col) 0)%R else 0%R)))
  else None.
Definition get_autocorrelation (dstar : nat) (params : list string) (zs : list nat) (hops : nat -> nat -> option nat) : result (list (option R)) :=
  bind (list_params data zs params) (fun w =>
  if Nat.eqb (n_columns params) (length params)
  then Ok (flat_map (fun d => map (fun k => correlation (column k w) hops d) (seq 0 (length params))) (seq 0 (dstar + 1)))
  else Err ValueError).

(** ** convoluted.py 132-152 (conv_bulk) and 241-261 (conv_term): for a subset of the atoms and a
    column x of elemental data; the part without
    connectivity is conv_self in ConvModel.v *)
(** dat[:, i][:len(connectivity)].reshape(...) * (dat[:, i] * connectivity): row r of
    connectivity is that of atom subset[r], but the value taken is that of atom r; np.sqrt of
    a negative number is nan *)
Definition conv1 (n : nat) (subset : list nat) (cmx : nat -> nat -> R) (x : nat -> R) : option R :=
  let s := sum_n (length subset) (fun r => sum_n n (fun j => (x r * (x j * cmx (nth r subset 0%nat) j))%R)) in
  if Rltb s 0 then None else Some (sqrt s / INR (length subset))%R.
End Graph.

(** ** particle.py *)
Section Particle.
(** [j for j in range(len(types)) if z == types[j]][0] *)
Definition first_index (z : nat) (ts : list nat) : result nat :=
  match filter (fun j => Nat.eqb z (nth j ts 0)) (seq 0 (length ts)) with [] => Err IndexError | j :: _ => Ok j end.
Variables (zs : list nat) (dm : nat -> nat -> R) (nndist : R).
(** 110-111 *)
Definition neighbors (i : nat) : list nat := filter (fun j => Rltb (dm i j) nndist) (seq 0 (length zs)).
(** 107-115 *)
Fixpoint neighbor_loop (ts : list nat) (row : nat) (ns : list nat) (m : nat -> nat -> nat) : result (nat -> nat -> nat) :=
  match ns with
  | [] => Ok m
  | n :: t => bind (first_index (nth n zs 0) ts) (fun c => neighbor_loop ts row t (bump m row c))
  end.
Fixpoint atom_loop (ts : list nat) (is : list nat) (m : nat -> nat -> nat) : result (nat -> nat -> nat) :=
  match is with
  | [] => Ok m
  | i :: t => bind (first_index (nth i zs 0) ts) (fun row => bind (neighbor_loop ts row (neighbors i) m) (atom_loop ts t))
  end.
(** 67-124: nearestneighbour_vec for given types; 0 / 0 is replaced by zero *)
Definition nearestneighbour_vec (ts : list nat) : result (list R) :=
  bind (atom_loop ts (seq 0 (length zs)) (fun _ _ => 0)) (fun m =>
  Ok (flat_map (fun i => map (fun j => let k := count (nth i ts 0) zs in
                                       if Nat.eqb k 0 then 0%R else (INR (m i j) / INR k)%R) (seq 0 (length ts))) (seq 0 (length ts)))).
Definition nearestneighbour_names (ts : list nat) : list (nat * nat) := list_prod ts ts.

(** 126-160: bond_count_vec.  track[ln][row][column] += 1 raises if max_bonds is too small *)
Definition bonded (i : nat) : list nat := filter (fun j => Rltb 0.1 (dm i j) && Rltb (dm i j) nndist) (seq 0 (length zs)).
Definition bond_count_vec (max_bonds : nat) : result (list nat) :=
  let es := sorted_set zs in
  let atoms := filter (fun i => negb (12 <? length (bonded i))) (seq 0 (length zs)) in
  if forallb (fun i => (length (bonded i) <? max_bonds) || Nat.eqb (length (bonded i)) 0) atoms then
    Ok (flat_map (fun ln => flat_map (fun r => map (fun c =>
      length (filter (fun q => Nat.eqb (length (bonded (fst q))) ln && Nat.eqb (nth (fst q) zs 0) r && Nat.eqb (nth (snd q) zs 0) c)
                     (flat_map (fun i => map (pair i) (bonded i)) atoms))) es) es) (seq 0 max_bonds))
  else Err IndexError.
End Particle.
