(** Model of catlearn/optimize/constraints.py and of the surrogate calculator
    (ASECalc in catlearn/optimize/mlneb.py).

    Positions are flat lists of coordinates, three per atom.  Floats are real numbers.
    The objects of ASE are modelled by the attributes the code looks at:
    a constraint with [a] and [mask] (FixCartesian), where True in mask is a fixed
    direction; a constraint with [index] (FixAtoms); and others, for which the three
    attempts fail and are ignored. *)
From Coq Require Import Reals List Arith Bool.
From Verif Require Import Base RBase.
Import ListNotations.

Inductive constr :=
| Cartesian (a : nat) (mask : list bool)
| FixAtoms (index : list nat)
| OtherConstraint.

(** An assignment mask_constraints[a] = ~mask: an error (out of range, or a mask that is
    not of length three) is ignored. *)
Definition set_cartesian (k : option constr) (m : list (list bool)) : list (list bool) :=
  match k with
  | Some (Cartesian a mask) =>
      if ((a <? length m) && (length mask =? 3))%nat then set_nth a (map negb mask) m else m
  | _ => m
  end.

(** mask_constraints[index] = False *)
Definition set_index (k : option constr) (m : list (list bool)) : list (list bool) :=
  match k with
  | Some (FixAtoms index) =>
      if forallb (fun i => i <? length m)%nat index
      then fold_left (fun m i => set_nth i [false; false; false] m) index m else m
  | _ => m
  end.

(** 7-29 the body of the loop for constraint i *)
Definition mask_step (cs : list constr) (m : list (list bool)) (i : nat) : list (list bool) :=
  let m := set_cartesian (nth_error cs i) m in
  let m := set_index (nth_error cs i) m in
  let m := set_cartesian (nth_error cs 0) m in
  set_cartesian (nth_error cs (length cs - 1)) m.

(** np.argwhere of a flat mask *)
Fixpoint argwhere (k : nat) (m : list bool) : list nat :=
  match m with [] => [] | b :: t => if b then k :: argwhere (S k) t else argwhere (S k) t end.

(** 4-33 create_mask, for a structure of [n] atoms *)
Definition create_mask (n : nat) (cs : list constr) : list nat :=
  let mask := fold_left (mask_step cs) (seq 0 (length cs)) (repeat [true; true; true] n) in
  argwhere 0 (concat mask).

(** org_list_to_mask[i][mask_index].flatten() *)
Fixpoint take {A} (l : list A) (idx : list nat) : result (list A) :=
  match idx with
  | [] => Ok []
  | i :: t => match nth_error l i with
              | None => Err IndexError
              | Some x => bind (take l t) (fun r => Ok (x :: r))
              end
  end.

(** 36-41 apply_mask, second element of the list returned (the first one is the input) *)
Fixpoint apply_mask {A} (rows : list (list A)) (idx : list nat) : result (list (list A)) :=
  match rows with
  | [] => Ok []
  | r :: t => bind (take r idx) (fun m => bind (apply_mask t idx) (fun l => Ok (m :: l)))
  end.

(** 44-52 unmask_geometry for masked_geom of one row *)
Fixpoint write_back {A} (geom : list A) (idx : list nat) (vals : list A) : result (list A) :=
  match idx, vals with
  | [], _ => Ok geom
  | i :: t, v :: vt => if (i <? length geom)%nat then write_back (set_nth i v geom) t vt else Err IndexError
  | _ :: _, [] => Err IndexError
  end.
Definition unmask_geometry {A} (org : list (list A)) (masked : list A) (idx : list nat) : result (list A) :=
  match org with [] => Err IndexError | g :: _ => write_back g idx masked end.

Open Scope R_scope.
(** 769-819 ASECalc.calculate: energy and forces (flat).  [pred] is the mean predicted by
    the Gaussian process for one row of features. *)
Definition ase_calculate (pred : list R -> R) (idx : list nat) (scaling fs : R) (pos : list R) : result (R * list R) :=
  bind (take pos idx) (fun test =>
  let energy := pred test + scaling in
  let f_pos := map (fun i => pred (set_nth i (nth (nth i idx 0%nat) pos 0 + fs) test)) (seq 0 (length idx)) in
  let f_neg := map (fun i => pred (set_nth i (nth (nth i idx 0%nat) pos 0 - fs) test)) (seq 0 (length idx)) in
  let gradients_list := map (fun q => (- snd q + fst q) / (2 * fs)) (combine f_pos f_neg) in
  bind (write_back (repeat 0 (length pos)) idx gradients_list) (fun gradients =>
  Ok (energy, map Ropp gradients))).
