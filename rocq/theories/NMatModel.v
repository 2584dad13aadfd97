(** Model of catlearn/featurize/neighbor_matrix.py.

    A structure is given by its atomic numbers and the distances between its atoms, which
    are those of np.linalg.norm or, for periodic structures, of get_mic_distance.  Real
    numbers stand for floats.  A neighbour list stored in atoms.info is not modelled
    (reuse_nl is False), and the requested properties have a value for every element. *)
From Coq Require Import ZArith Reals List Arith Bool.
From Verif Require Import Base RBase.
Import ListNotations.
Local Open Scope nat_scope.

Record cluster := Cluster { elements : list nat; distance : nat -> nat -> R }.
Definition size (a : cluster) : nat := length (elements a).
Definition at_z (a : cluster) (i : nat) : nat := nth i (elements a) 0.
Definition idx (a : cluster) : list nat := seq 0 (size a).

Section Radii.
(** ase.data.covalent_radii *)
Variable radius : nat -> R.

(** 149-179 and 182-220: _get_neighborlist and _get_periodic_neighborlist, which differ in
    the distances only *)
Definition reach (a : cluster) (i j : nat) : R := (radius (at_z a j) + radius (at_z a i))%R.
Definition d_max1 (dx : R) (k : nat) (a : cluster) (i j : nat) : R :=
  if k =? 1 then 0%R else ((INR k - 1) * reach a i j + dx)%R.
Definition d_max2 (dx : R) (k : nat) (a : cluster) (i j : nat) : R := (INR k * reach a i j + dx)%R.
Definition is_neighbor (dx : R) (k : nat) (a : cluster) (i j : nat) : bool :=
  negb (i =? j) && Rltb (d_max1 dx k a i j) (distance a i j) && Rltb (distance a i j) (d_max2 dx k a i j).
(** The dictionary has an entry for every atom with a neighbour. *)
Definition neighborlist (dx : R) (k : nat) (a : cluster) : list (nat * list nat) :=
  filter (fun e => negb (length (snd e) =? 0))
         (map (fun i => (i, filter (is_neighbor dx k a i) (idx a))) (idx a)).
(** nl[i] of a defaultdict(list) *)
Definition entry (nl : list (nat * list nat)) (i : nat) : list nat :=
  match find (fun e => fst e =? i) nl with Some e => snd e | None => [] end.

(** 54-90: connection_matrix *)
Definition connection_matrix (dx : R) (k : nat) (a : cluster) (i j : nat) : R :=
  if existsb (Nat.eqb j) (entry (neighborlist dx k a) i) then 1%R else 0%R.

(** 93-125: connection_dict, which does not pass on neighbor_number *)
Definition connection_dict (dx : R) (k : nat) (a : cluster) : result (list (nat * list Z)) :=
  let nl := neighborlist dx 1 a in
  if length nl =? 0 then Err ValueError else
  let mlen := fold_right max 0 (map (fun e => length (snd e)) nl) in
  Ok (map (fun e => (fst e, map Z.of_nat (snd e) ++ repeat (-1)%Z (mlen - length (snd e)))) nl).

Section Matrix.
Variable a : cluster.
Notation matrix := (nat -> nat -> R).
(** np.sum(conn_mat, axis=1) *)
Definition row_total (m : matrix) (i : nat) : R := sumR (map (m i) (idx a)).
(** 128-146: conn_mat * property_matrix: every row of the latter lists the values of all atoms *)
Definition with_property (value : nat -> R) (m : matrix) : matrix := fun i j => (m i j * value (at_z a j))%R.
(** 276-294: _generalized_matrix *)
Definition generalized (m : matrix) (i : nat) : R :=
  (sumR (map (fun j => if Reqb (m i j) 0 then 0 else row_total m i)%R (idx a)) / 12)%R.

(** 223-239: _element_list *)
Definition element_list (e i : nat) : R := if at_z a i =? e then 1%R else 0%R.
(** 242-273: _heteroatomic_matrix, which does not use the second element *)
Definition heteroatomic (e eo : nat) : matrix := fun i j =>
  if at_z a i =? e then (if negb (at_z a j =? e) then 1%R else 0%R) else 0%R.
(** 297-344: _get_features, where [els] is the order in which Python iterates over set(an).
    A square root of a negative number, nan for numpy, is zero here. *)
Fixpoint features_loop (todo : list nat) (m : matrix) (gen : nat -> R) : list R :=
  match todo with
  | [] => []
  | e :: rest =>
    let x i := (row_total m i * element_list e i)%R in
    let g i := (gen i * element_list e i)%R in
    [sumR (map x (idx a)); sumR (map (fun i => x i ^ 2)%R (idx a)); sumR (map (fun i => sqrt (x i)) (idx a));
     sumR (map (fun i => sumR (map (fun j => element_list e j * m i j)%R (idx a))) (idx a))]
    ++ map (fun eo => sumR (map (fun i => sumR (map (fun j => heteroatomic e eo i j * m i j)%R (idx a))) (idx a))) rest
    ++ [sumR (map g (idx a)); sumR (map (fun i => g i ^ 2)%R (idx a)); sumR (map (fun i => sqrt (g i)) (idx a))]
    ++ features_loop rest m gen
  end.
Definition get_features (els : list nat) (m : matrix) : list R := features_loop els m (generalized m).
End Matrix.

(** 15-51: neighbor_features *)
Definition neighbor_features (dx : R) (k : nat) (els : list nat) (values : list (nat -> R)) (a : cluster) : list R :=
  let m := connection_matrix dx k a in
  get_features a els m ++ concat (map (fun v => get_features a els (with_property a v m)) values).
End Radii.
