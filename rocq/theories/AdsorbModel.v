(** Model of the fingerprints of catlearn/fingerprint/adsorbate.py that use subsets of
    atoms and the connectivity matrix, of formal_charges in
    catlearn/fingerprint/chalcogenide.py and of formal_charges in
    catlearn/utilities/utilities.py.

    The atoms object is a structure of FeatModel together with the lists of indices
    atoms.subsets.  Real numbers stand for floats, None for nan.  Indices are taken to be
    smaller than the number of atoms (numpy raises an IndexError otherwise). *)
From Coq Require Import ZArith Reals List Arith Bool.
From Verif Require Import Base RBase FeatModel PeriodicModel.
Import ListNotations.
Local Open Scope nat_scope.

(** atoms.subsets *)
Record subsets := Subsets {
  slab_atoms : list nat; site_atoms : list nat; ligand_atoms : list nat;
  chemisorbed_atoms : list nat; ads_atoms : list nat }.

Definition mem (i : nat) (l : list nat) : bool := existsb (Nat.eqb i) l.
(** The connectivity matrix after np.fill_diagonal(cm, 0). *)
Definition off (a : struct) (i j : nat) : Z := if i =? j then 0%Z else cm a i j.
(** np.sum(cm[i, :][slab]) *)
Definition slab_cn (a : struct) (slab : list nat) (i : nat) : Z := sumZ (map (off a i) slab).

(** ** adsorbate.py 310-377: generalized_cn *)
(** 329-340; a site without atoms makes the division of line 357 fail *)
Definition cn_limit (n : nat) : result nat :=
  match n with
  | 0 => Err ZeroDivisionError
  | 1 => Ok 12 | 2 => Ok 18 | 3 => Ok 22 | 4 => Ok 26 | 5 => Ok 30
  | _ => Err AssertionError
  end.
(** 372: number of positive entries of a row *)
Definition row_count (a : struct) (i : nat) : nat := length (filter (fun j => (0 <? off a i j)%Z) (seq 0 (natoms a))).
(** 374-378: the inner loop, which uses the entry of the matrix as an index *)
Definition gcn_row (a : struct) (i : nat) : result R :=
  if forallb (fun j => (off a i j <? Z.of_nat (natoms a))%Z) (seq 0 (natoms a)) then
    Ok (sumR (map (fun j => let b := off a i j in
                            if (0 <? b)%Z then (IZR b * INR (row_count a (Z.to_nat b)) / 12)%R else 0%R)
                  (seq 0 (natoms a))))
  else Err IndexError.
Definition generalized_cn (a : struct) (s : subsets) : result (list R) :=
  let site := site_atoms s in let slab := slab_atoms s in let chemi := chemisorbed_atoms s in
  let nb := sorted_set (ligand_atoms s) in
  bind (cn_limit (length site)) (fun cn_max =>
  let av_cn_site := (IZR (sumZ (map (slab_cn a slab) site)) / INR (length site))%R in
  if length nb =? 0 then Err ZeroDivisionError else
  let gcn_site := (IZR (sumZ (map (slab_cn a slab) nb)) / INR (cn_max * length nb))%R in
  (* gcn_chemi is set to zero for every chemisorbed atom: the last value stays *)
  bind (mapM (gcn_row a) chemi) (fun gs =>
  if length chemi =? 0 then Err ZeroDivisionError else
  let cn_chemi := sumR (map (fun i => INR (row_count a i)) chemi) in
  Ok [av_cn_site; INR (length nb); gcn_site;
      (cn_chemi / INR (length chemi))%R; (last gs 0 / INR (length chemi))%R])).

(** ** adsorbate.py 379-416: bag_cn.  The name of entry k is count_{k+3}nn_site. *)
Definition bag_cn_names : list nat := map (fun k => k + 3) (seq 0 28).
(** fingerprint_nn[c] += 1 with numpy indices *)
Definition tally (c : Z) (m : nat -> nat) : result (nat -> nat) :=
  if (c <? -28)%Z || (28 <=? c)%Z then Err IndexError else
  let k := Z.to_nat (if (c <? 0)%Z then c + 28 else c)%Z in
  Ok (fun i => if i =? k then S (m i) else m i).
Fixpoint tally_loop (cs : list Z) (m : nat -> nat) : result (nat -> nat) :=
  match cs with [] => Ok m | c :: t => bind (tally c m) (tally_loop t) end.
Definition bag_cn (a : struct) (s : subsets) : result (list nat) :=
  bind (tally_loop (map (slab_cn a (slab_atoms s)) (sorted_set (ligand_atoms s))) (fun _ => 0)) (fun m =>
  Ok (map m (seq 0 28))).

(** ** adsorbate.py 437-466: bag_atoms_ads *)
Fixpoint ads_loop (ts : list nat) (a : struct) (is : list nat) (m : nat -> nat) : result (nat -> nat) :=
  match is with
  | [] => Ok m
  | i :: t => bind (index_of Nat.eqb (zat a i) ts) (fun k =>
              ads_loop ts a t (fun j => if j =? k then S (m j) else m j))
  end.
Definition bag_atoms_ads (ts : list nat) (a : struct) (s : subsets) : result (list nat) :=
  bind (ads_loop ts a (ads_atoms s) (fun _ => 0)) (fun m => Ok (map m (seq 0 (length ts)))).

(** ** adsorbate.py 468-502: count_chemisorbed_fragment: the bag, boc_site and n_site *)
Definition count_chemisorbed_fragment (ts : list nat) (a : struct) (s : subsets) : list Z * Z * nat :=
  let chemi := chemisorbed_atoms s in
  (map (fun z => sumZ (map (fun i => sumZ (map (fun c => cm a i c * (if Nat.eqb (zat a i) z then 1 else 0))%Z chemi)) (seq 0 (natoms a)))) ts,
   sumZ (map (fun i => sumZ (map (cm a i) chemi)) (site_atoms s)),
   length (site_atoms s)).

(** ** adsorbate.py 590-643: strain.  [radius] is get_radius.  The atomic numbers of
    termination and bulk come from the key value pairs or from the subsets. *)
Section Strain.
Variable radius : nat -> R.
Definition strain_of (l bulk : list nat) : option R :=
  (* np.average of an empty list is nan *)
  if (length l =? 0) || (length bulk =? 0) then None
  else Some ((mean (map radius l) - mean (map radius bulk)) / mean (map radius bulk))%R.
Definition strain (kvp_term kvp_bulk term_numbers bulk_numbers : option (list nat)) (site_numbers : list nat) : result (option R * option R) :=
  let choose x y := match x with Some l => Ok l | None => match y with Some l => Ok l | None => Err NotImplementedError end end in
  bind (choose kvp_term term_numbers) (fun term =>
  bind (choose kvp_bulk bulk_numbers) (fun bulk =>
  Ok (strain_of site_numbers bulk, strain_of term bulk))).
End Strain.

(** ** adsorbate.py 645-691: bag_edges_ads: rows and columns of the slab are set to zero *)
Definition outside (slab : list nat) (e : nat * nat) : bool := negb (mem (fst e) slab) && negb (mem (snd e) slab).
Definition bag_edges_ads (ts : list nat) (a : struct) (s : subsets) : result (list nat) :=
  bind (pair_loop Nat.eqb Nat.leb ts (zat a) (filter (outside (slab_atoms s)) (bonds a)) (fun _ _ => 0)) (fun boc =>
  Ok (triu_values (length ts) boc)).
(** 693-740: bag_edges_chemi: lines 727 and 728 assign to a copy of the matrix, which
    stays as it was *)
Definition bag_edges_chemi (ts : list nat) (a : struct) (s : subsets) : result (list nat) := bag_edges ts a.

(** 742-797: bag_edges_all.  The matrix has a row for every adsorbate atom; np.fill_diagonal
    and np.triu compare the index of that row with the index of an atom. *)
Definition rect_bonds (a : struct) (ads : list nat) : list (nat * nat) :=
  filter (fun p => (fst p <? snd p) && (0 <? cm a (nth (fst p) ads O) (snd p))%Z)
         (list_prod (seq 0 (length ads)) (seq 0 (natoms a))).
(** np.triu_indices_from of an r x c array *)
Definition triu_rect (r c : nat) : list (nat * nat) :=
  filter (fun p => fst p <=? snd p) (list_prod (seq 0 r) (seq 0 c)).
Fixpoint rect_loop (ads_ts ts : list nat) (a : struct) (ads : list nat) (bs : list (nat * nat)) (boc : nat -> nat -> nat) : result (nat -> nat -> nat) :=
  match bs with
  | [] => Ok boc
  | (k, j) :: t =>
      bind (index_of Nat.eqb (zat a (nth k ads 0)) ads_ts) (fun x =>
      bind (index_of Nat.eqb (zat a j) ts) (fun y =>
      rect_loop ads_ts ts a ads t (bump boc x y)))
  end.
Definition bag_edges_all (ads_ts ts : list nat) (a : struct) (s : subsets) : result (list nat) :=
  bind (rect_loop ads_ts ts a (ads_atoms s) (rect_bonds a (ads_atoms s)) (fun _ _ => 0)) (fun boc =>
  Ok (map (fun p => boc (fst p) (snd p)) (triu_rect (length ads_ts) (length ts)))).
Definition bag_edges_all_names (ads_ts ts : list nat) : list label :=
  map (fun p => LPair (nth (snd p) ts 0) (nth (fst p) ads_ts 0)) (triu_rect (length ads_ts) (length ts)).

(** ** adsorbate.py 799-888: electronegativity differences; [en] is one of the scales.
    A missing value makes the sum nan, also where the factor is zero. *)
Section Electronegativity.
Variable en : nat -> option R.
Definition en_known (a : struct) (l : list nat) : bool := forallb (fun i => match en (zat a i) with Some _ => true | None => false end) l.
Definition en_of (a : struct) (i : nat) : R := match en (zat a i) with Some x => x | None => 0%R end.
(** np.einsum("ij,ijk->k", cm[rows, :][:, cols], delta) *)
Definition en_sum (a : struct) (rows cols : list nat) : option R :=
  if (length rows =? 0) || (length cols =? 0) then Some 0%R
  else if en_known a rows && en_known a cols then
    Some (sumR (map (fun i => sumR (map (fun j => IZR (cm a i j) * (en_of a i - en_of a j) ^ 2)%R cols)) rows))
  else None.
Definition en_difference_ads (a : struct) (s : subsets) : option R := en_sum a (ads_atoms s) (ads_atoms s).
Definition en_difference_chemi (a : struct) (s : subsets) : option R := en_sum a (chemisorbed_atoms s) (site_atoms s).
Definition en_difference_active (a : struct) (s : subsets) : option R := en_sum a (ads_atoms s) (ads_atoms s ++ site_atoms s).
End Electronegativity.

(** ** Formal charges *)
Section Charges.
Variables (ion : nat) (q : R) (a : struct).
Definition is_anion (slab : list nat) (i : nat) : bool := mem i slab && (zat a i =? ion).
Definition anion_charge (slab : list nat) (i : nat) : R := if is_anion slab i then q else 0%R.
Definition transfer (slab : list nat) (i j : nat) : R := (IZR (cm a i j) * anion_charge slab i)%R.
Definition transfer_sum (slab : list nat) (i : nat) : R := sumR (map (transfer slab i) (seq 0 (natoms a))).
(** -np.nansum(ion_charge * transfer / row_sums, axis=0).  With entries that are not
    negative a vanishing row sum means a row of zeros, which becomes nan and is skipped. *)
Definition cation_charge (slab : list nat) (row_sum : nat -> R) (j : nat) : R :=
  (- sumR (map (fun i => if Reqb (row_sum i) 0 then 0%R else (q * transfer slab i j / row_sum i)%R) (seq 0 (natoms a))))%R.
(** chalcogenide.py 70-84 *)
Definition all_charges (slab : list nat) (j : nat) : R :=
  (anion_charge slab j + cation_charge slab (transfer_sum slab) j)%R.

(** utilities.py 8-39.  The charges computed for the last anion are returned; without an
    anion the name is not defined. *)
Definition util_sum (i : nat) : R :=
  let r := transfer_sum (seq 0 (natoms a)) i in if Reqb r q then (r * Rabs q)%R else r.
Definition util_charges : result (list R) :=
  if existsb (fun i => zat a i =? ion) (seq 0 (natoms a)) then
    Ok (map (fun j => (anion_charge (seq 0 (natoms a)) j + cation_charge (seq 0 (natoms a)) util_sum j)%R) (seq 0 (natoms a)))
  else Err NameError.

(** chalcogenide.py 86-99: oxidation states and excess charges *)
Variable oxistates : nat -> list R.
(** np.argmin: first position of the smallest value *)
Fixpoint nearest (c best : R) (l : list R) : R :=
  match l with [] => best | o :: t => nearest c (if Rltb (Rabs (c - o)) (Rabs (c - best)) then o else best) t end.
Definition excess : Type := R * R * R.
Fixpoint excess_loop (charge : nat -> R) (site : list nat) (is : list nat) (x : excess) : result excess :=
  match is with
  | [] => Ok x
  | i :: t =>
      let c := charge i in
      if existsb (Reqb c) (oxistates (zat a i)) then excess_loop charge site t x
      else match oxistates (zat a i) with
           | [] => Err ValueError
           | o :: os =>
               let d := (c - nearest c o os)%R in
               let '(site_x, slab_x, tr) := x in
               excess_loop charge site t ((if mem i site then site_x + d else site_x)%R, (slab_x + d)%R, (tr + Rabs d)%R)
           end
  end.
(** 58-106; the mean over an empty site is nan *)
Definition formal_charges (s : subsets) : result (option R * R * excess) :=
  if negb (existsb (fun i => zat a i =? ion) (slab_atoms s)) then Ok (Some 0, 0, (0, 0, 0))%R else
  let charge := all_charges (slab_atoms s) in
  bind (excess_loop charge (site_atoms s) (slab_atoms s) (0, 0, 0)%R) (fun x =>
  let total := sumR (map charge (site_atoms s)) in
  Ok (if length (site_atoms s) =? 0 then None else Some (total / INR (length (site_atoms s)))%R, total, x)).
End Charges.
