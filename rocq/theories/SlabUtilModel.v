(** Model of catlearn/featurize/slab_utilities.py. Elements are atomic numbers, heights are exact real numbers.
    KMeans is an arbitrary function from the number of clusters and the heights to labels. *)
From Coq Require Import List Arith Bool Reals.
From Verif Require Import Base RBase.
Import ListNotations.
Set Implicit Arguments.
Local Open Scope nat_scope.

(** An ase.Atoms object: the elements and the z coordinates of its atoms. *)
Record slab := Slab { elements_of : list nat; heights_of : list R }.

Definition memb (x : nat) (l : list nat) : bool := existsb (Nat.eqb x) l.

(** 6-8 transition_metals *)
Definition transition_metals : list nat := seq 22 9 ++ seq 40 9 ++ seq 72 9.

(** 9-15 metals: the alkali, alkaline earth metals, lanthanides and actinides ("Lw" is no chemical symbol),
    B Al Si Ga Ge In Sn Tl Pb, and the transition metals *)
Definition metals : list nat :=
  [3; 4; 11; 12; 19; 20; 37; 38; 55; 56; 87; 88] ++ seq 57 15 ++ seq 89 14 ++ [5; 13; 14; 31; 32; 49; 50; 81; 82] ++ transition_metals.

Definition oxygen : nat := 8.

(** 46-61 is_metal *)
Definition is_metal (z : nat) : bool := memb z metals.

Section Order.
(** list(set(..)), whose order is that of the hash table *)
Variable as_set : list nat -> list nat.

(** 18-43 stoichiometry: the dictionary as a list in insertion order *)
Definition stoichiometry (symbols : list nat) : list (nat * nat) :=
  map (fun e => (e, count_occ Nat.eq_dec symbols e)) (as_set symbols).

Fixpoint lookup (k : nat) (d : list (nat * nat)) : option nat :=
  match d with [] => None | (k', v) :: t => if k =? k' then Some v else lookup k t end.

(** 82-99 the test of one element of the loop; both branches are the same; a missing key is ignored *)
Definition oxide_of (num_dict : list (nat * nat)) (all_count : nat) (e : nat) : bool :=
  (memb e transition_metals || memb e metals) &&
  match lookup e num_dict with
  | None => false
  | Some n => (all_count <? 4 * n) && match lookup oxygen num_dict with None => false | Some o => n <=? o end
  end.

(** 64-100 is_oxide: the first key is skipped, and its value is taken for the number of atoms *)
Definition is_oxide (symbols : list nat) : result bool :=
  let num_dict := stoichiometry symbols in
  match num_dict with
  | [] => Err IndexError
  | (_, all_count) :: rest => Ok (existsb (oxide_of num_dict all_count) (map fst rest))
  end.

(** 123-133 the atoms that are clustered: for oxides those of the last metal of the loop *)
Fixpoint last_metal (es : list nat) : option nat :=
  match es with
  | [] => None
  | e :: t => match last_metal t with Some m => Some m | None => if memb e metals then Some e else None end
  end.

Definition clustered (a : slab) : result (list nat) :=
  bind (is_oxide (elements_of a)) (fun ox =>
  let all := seq 0 (length (elements_of a)) in
  if ox then
    match last_metal (map fst (tl (stoichiometry (elements_of a)))) with
    | None => Err NameError
    | Some m => Ok (filter (fun i => nth i (elements_of a) 0 =? m) all)
    end
  else Ok all).

Variable kmeans : nat -> list R -> list nat.

(** 142-157 the layers of one clustering: for each label the average height, the atoms, and the contribution
    to the pooled variance *)
Definition layers (indices : list nat) (zpos : list R) (labels : list nat) : list (R * list nat * R) :=
  map (fun i =>
    let layer := filter (fun e => snd e =? i) (combine (combine indices zpos) labels) in
    let zs := map (fun e => snd (fst e)) layer in
    (mean zs, map (fun e => fst (fst e)) layer, (var zs * INR (length layer - 1))%R)) (as_set labels).

(** 159 the pooled standard deviation; None: 0/0 *)
Definition pooled (n_points : nat) (ls : list (R * list nat * R)) : option R :=
  if n_points - length ls =? 0 then None
  else Some (sqrt (sumR (map snd ls) / INR (n_points - length ls))).

(** 136-168 the loop over the number of clusters; the function returns None at its end *)
Fixpoint search (tolerance : R) (indices : list nat) (zpos : list R) (ns : list nat) : result (option (list R * list (list nat))) :=
  match ns with
  | [] => Ok None
  | n :: rest =>
    if length zpos <? n then Err ValueError else
    let ls := layers indices zpos (kmeans n zpos) in
    match pooled (length zpos) ls with
    | Some s => if Rleb s tolerance then
        let fin := isort (fun a b => Rleb (fst (fst a)) (fst (fst b))) ls in
        Ok (Some (map (fun l => fst (fst l)) fin, map (fun l => snd (fst l)) fin))
      else search tolerance indices zpos rest
    | None => search tolerance indices zpos rest
    end
  end.

(** 103-168 slab_layers *)
Definition slab_layers (max_layers : nat) (tolerance : R) (a : slab) : result (option (list R * list (list nat))) :=
  bind (clustered a) (fun indices =>
  search tolerance indices (map (fun i => nth i (heights_of a) 0%R) indices) (seq 1 max_layers)).
End Order.
