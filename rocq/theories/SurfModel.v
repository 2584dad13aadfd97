(** Model of catlearn/featurize/adsorbate_prep.py: identification of the adsorbate, the
    site and the layers of a slab.

    Elements are atomic numbers instead of symbols.  Warnings and printed messages are
    left out.  Indices in user supplied subsets are taken to be smaller than the number of
    atoms. *)
From Coq Require Import ZArith List Arith Bool.
From Verif Require Import Base FeatModel.
Import ListNotations.
Local Open Scope nat_scope.

Definition inside (i : nat) (l : list nat) : bool := existsb (Nat.eqb i) l.

(** ** What is read from an atoms object *)
(** The key value pair 'species': whether the string is empty, whether it contains one of
    '-', '+' and ',', and the outcome of string2symbols. *)
Record species := Species { sp_empty : bool; sp_coads : bool; sp_formula : result (list nat) }.
(** atoms.info['key_value_pairs'] *)
Record pairs := Pairs { kv_species : option species; kv_layers : option Z }.
(** atoms.subsets, where a missing key is None *)
Record groups := Groups {
  g_ads : option (list nat); g_slab : option (list nat);
  g_chemi : option (list nat); g_site : option (list nat); g_ligand : option (list nat);
  g_bulk : option (list nat); g_term : option (list nat); g_subsurf : option (list nat) }.
Definition no_groups : groups := Groups None None None None None None None None.
Record image := Image {
  atoms : struct; tags : list Z; fixed : list (list nat); kvp : option pairs; grp : groups }.
Definition indices (im : image) : list nat := seq 0 (natoms (atoms im)).
Definition elem (im : image) (i : nat) : nat := zat (atoms im) i.
Definition tag (im : image) (i : nat) : Z := nth i (tags im) 0%Z.

(** 238-269: slab_index and ads_index *)
Definition others (im : image) (l : list nat) : list nat :=
  filter (fun i => negb (inside i l)) (indices im).
(** sorted(symbols2numbers(species)) == sorted(atoms[idx].numbers) *)
Definition matches (im : image) (comp : list nat) (idx : list nat) : bool :=
  if list_eq_dec Nat.eq_dec (isort Nat.leb comp) (isort Nat.leb (map (elem im) idx)) then true else false.

(** ** Identification of the adsorbate *)
(** 272-282: sym2ads_index *)
Definition sym2ads_index (im : image) (syms : list nat) : list nat :=
  filter (fun i => inside (elem im i) syms) (indices im).
(** 388-406: tags2ads_index *)
Definition tags2ads_index (im : image) : result (list nat) :=
  let ads := filter (fun i => (tag im i <? 0)%Z) (indices im) in
  match kvp im with
  | Some (Pairs (Some s) _) =>
    bind (sp_formula s) (fun comp => if matches im comp ads then Ok ads else Err AssertionError)
  | _ => Ok ads
  end.
(** 435-459: formula2ads_index *)
Definition formula2ads_index (im : image) (comp : list nat) : result (list nat) :=
  let ads := filter (fun i => inside (elem im i) comp) (indices im) in
  if matches im comp ads then Ok ads else Err AssertionError.
(** 285-331: connectivity2ads_index.  The final check compares np.unique(None) with
    itself, because list.sort and numpy's sort return None, and never fails. *)
Definition connectivity2ads_index (im : image) (comp : list nat) : result (list nat) :=
  let own := concat (map (fun z => if count z comp =? count z (numbers (atoms im))
                                   then filter (fun i => elem im i =? z) (indices im) else []) comp) in
  if length own =? length comp then Ok own else
  if length own =? 0 then Err AssertionError else
  let connected := concat (map (fun a => filter (fun i => (0 <? cm (atoms im) a i)%Z && inside (elem im i) comp
                                                          && negb (elem im i =? elem im a)) (indices im)) own) in
  Ok (sorted_set (own ++ connected)).
(** 409-432: last2ads_index; a species with more atoms than the structure, for which Python
    counts from the end, is an error here *)
Definition last2ads_index (im : image) (comp : list nat) : result (list nat) :=
  let n := natoms (atoms im) in
  if n <? length comp then Err AssertionError else
  let ads := seq (n - length comp) (length comp) in
  if matches im comp ads then Ok ads else Err AssertionError.

(** number of different tags, smallest and largest tag *)
Definition many_tags (im : image) (low : Z) : bool :=
  (4 <=? length (nodup Z.eq_dec (tags im))) &&
  existsb (fun t => (t <=? low)%Z) (tags im) && existsb (fun t => (2 <? t)%Z) (tags im).
(** 18: ads_syms *)
Definition ads_syms : list nat := [1; 6; 8; 7; 16; 9; 17; 15; 11; 19].

(** except AssertionError *)
Definition or_else {A} (r : result A) (f : unit -> result A) : result A :=
  match r with Err AssertionError => f tt | _ => r end.
(** 102-134: detect_adsorbate *)
Definition detect_adsorbate (im : image) : result (list nat) :=
  match g_ads (grp im), g_slab (grp im) with
  | Some l, _ => Ok l
  | None, Some s => Ok (others im s)
  | None, None =>
    if many_tags im (-1) then tags2ads_index im else
    match kvp im with
    | Some (Pairs (Some s) _) =>
      if sp_empty s then Ok [] else
      if sp_coads s then Err NotImplementedError else
      bind (sp_formula s) (fun comp =>
        or_else (formula2ads_index im comp) (fun _ =>
        or_else (connectivity2ads_index im comp) (fun _ => last2ads_index im comp)))
    | _ => Ok (sym2ads_index im ads_syms)
    end
  end.

(** ** Identification of the site *)
(** 511-554: info2primary_index: chemi, site, ligand *)
Definition info2primary_index (im : image) (ads slab : list nat) : list nat * list nat * list nat :=
  let cm := cm (atoms im) in
  let hits := filter (fun p => (0 <? cm (fst p) (snd p))%Z) (list_prod ads slab) in
  let chemi := sorted_set (map fst hits) in
  let site := sorted_set (map snd hits) in
  let ligand := concat (map (fun j => filter (fun s => (0 <? cm s j)%Z) slab) site) in
  (chemi, site, filter (fun l => negb (inside l site)) (sorted_set ligand)).

(** ** Identification of the layers: bulk, term, subsurf *)
Notation layers3 := (list nat * list nat * list nat)%type.
(** 557-571: tags_termination *)
Definition tags_termination (im : image) : layers3 :=
  (filter (fun i => (1 <? tag im i)%Z) (indices im),
   filter (fun i => (tag im i =? 1)%Z) (indices im),
   filter (fun i => (tag im i =? 2)%Z) (indices im)).
(** 615-652: constraints_termination; np.max of an empty list is a ValueError *)
Definition connected (im : image) (i j : nat) : bool :=
  negb (i =? j) && negb (cm (atoms im) i j =? 0)%Z.
Definition coord (im : image) (slab : list nat) (i : nat) : nat := length (filter (connected im i) slab).
Definition max_coord (im : image) (slab : list nat) : nat := fold_right max 0 (map (coord im slab) slab).
Definition is_bulk (im : image) (con slab : list nat) (i : nat) : bool :=
  inside i con || (max_coord im slab - 2 <=? coord im slab i).
Definition constraints_termination (im : image) (con slab : list nat) : result layers3 :=
  if length slab =? 0 then Err ValueError else
  let bulk := filter (is_bulk im con slab) slab in
  let term := filter (fun i => negb (is_bulk im con slab i)) slab in
  let subsurf := concat (map (fun b => concat (map (fun t =>
                   if negb (t =? b) && (0 <? cm (atoms im) t b)%Z then [b] else []) term)) bulk) in
  Ok (bulk, term, sorted_set subsurf).

Section Layers.
(** 694-710: auto_layers with ase.geometry.get_layers: the layer of each atom, given the
    atoms of the slab *)
Variable auto_layers : image -> list nat -> list nat.

(** 574-612: layers_termination *)
Definition layers_termination (im : image) (ads slab : list nat) : layers3 :=
  let il := auto_layers im slab in
  let layer i := nth i il 0 in
  let nlayers := Z.of_nat (length (nodup Nat.eq_dec (map layer (others im ads)))) in
  (filter (fun i => (Z.of_nat (layer i) <=? nlayers - 2)%Z) (indices im),
   filter (fun i => (nlayers - 1 <=? Z.of_nat (layer i))%Z && negb (inside i ads)) (indices im),
   filter (fun i => (Z.of_nat (layer i) =? nlayers - 2)%Z) (indices im)).

(** 137-192: detect_termination; the check of 'supercell' only warns and is left out.
    connectivity_termination (655-691) always raises
    NotImplementedError. *)
Definition detect_termination (im : image) : result layers3 :=
  if many_tags im 0 then Ok (tags_termination im) else
  match fixed im with
  | [con] => match g_slab (grp im) with
             | Some slab => constraints_termination im con slab
             | None => Err KeyError
             end
  | _ =>
    match kvp im with
    | Some (Pairs _ (Some _)) =>
      match g_slab (grp im), g_ads (grp im) with
      | Some slab, Some ads => Ok (layers_termination im ads slab)
      | _, _ => Err KeyError
      end
    | _ => Err NotImplementedError
    end
  end.

Definition set_groups (im : image) (g : groups) : image := Image (atoms im) (tags im) (fixed im) (kvp im) g.

(** 25-75: autogen_info for one image *)
Definition autogen_layers (im : image) : result image :=
  let g := grp im in
  match g_bulk g, g_term g, g_subsurf g with
  | Some _, Some _, Some _ => Ok im
  | _, _, _ =>
    bind (detect_termination im) (fun r => let '(bulk, term, subsurf) := r in
    Ok (set_groups im (Groups (g_ads g) (g_slab g) (g_chemi g) (g_site g) (g_ligand g)
                              (Some bulk) (Some term) (Some subsurf))))
  end.
Definition autogen_site (im : image) (ads slab : list nat) : image :=
  let g := grp im in
  match g_chemi g, g_site g, g_ligand g with
  | Some _, Some _, Some _ => im
  | _, _, _ =>
    let '(chemi, site, ligand) := info2primary_index im ads slab in
    set_groups im (Groups (g_ads g) (g_slab g) (Some chemi) (Some site) (Some ligand)
                          (g_bulk g) (g_term g) (g_subsurf g))
  end.
Definition autogen_rest (im : image) (ads : list nat) : result image :=
  let g := grp im in
  let slab := match g_slab g with Some s => s | None => others im ads end in
  let im1 := set_groups im (Groups (Some ads) (Some slab) (g_chemi g) (g_site g) (g_ligand g)
                                   (g_bulk g) (g_term g) (g_subsurf g)) in
  if negb (length slab + length ads =? natoms (atoms im)) then Err AssertionError else
  autogen_layers (autogen_site im1 ads slab).
Definition autogen_image (im : image) : result image :=
  match g_ads (grp im) with
  | Some ads => autogen_rest im ads
  | None =>
    bind (detect_adsorbate im) (fun ads =>
    if length ads =? 0 then
      let g := grp im in
      Ok (set_groups im (Groups (Some ads) (g_slab g) (g_chemi g) (g_site g) (g_ligand g)
                                (g_bulk g) (g_term g) (g_subsurf g)))
    else autogen_rest im ads)
  end.
Fixpoint autogen_info (ims : list image) : result (list image) :=
  match ims with
  | [] => Ok []
  | im :: t => bind (autogen_image im) (fun x => bind (autogen_info t) (fun y => Ok (x :: y)))
  end.

(** 78-99: termination_info for one image, which takes the second of the three lists for
    the subsurface atoms and the third for the termination *)
Definition termination_info (im : image) : result image :=
  bind (detect_termination im) (fun r => let '(bulk, subsurf, term) := r in
  let g := grp im in
  Ok (set_groups im (Groups (g_ads g) (g_slab g) (g_chemi g) (g_site g) (g_ligand g)
                            (Some bulk) (Some term) (Some subsurf)))).

(** 462-482: layers2ads_index *)
Definition layers2ads_index (im : image) (slab : list nat) (layers : Z) (comp : list nat) : result (list nat) :=
  let il := auto_layers im slab in
  let ads := filter (fun i => (layers - 1 <? Z.of_nat (nth i il O))%Z) (indices im) in
  if matches im comp ads then Ok ads else Err AssertionError.
End Layers.

(** 485-508: z2ads_index, where [order] is np.argsort(z) *)
Definition z2ads_index (im : image) (order : list nat) (comp : list nat) : result (list nat) :=
  let n := length comp in
  let ads := if n =? 0 then order else skipn (length order - n) order in
  if matches im comp ads then Ok ads else Err AssertionError.

(** ** 195-243: compare_slab_connectivity and check_reconstructions.  Matrices of integers
    are close if they are equal; numpy stretches an array of shape (1, 1). *)
Definition allclose (n m : nat) (x y : nat -> nat -> Z) : result bool :=
  let all k f := forallb (fun p => f (fst p) (snd p)) (list_prod (seq 0 k) (seq 0 k)) in
  if n =? m then Ok (all n (fun i j => (x i j =? y i j)%Z)) else
  if m =? 1 then Ok (all n (fun i j => (x i j =? y O O)%Z)) else
  if n =? 1 then Ok (all m (fun i j => (x O O =? y i j)%Z)) else Err ValueError.
Definition compare_slab_connectivity (im : image) (slab : list nat) (reference : image) : result bool :=
  allclose (length slab) (natoms (atoms reference))
           (fun i j => cm (atoms im) (nth i slab 0) (nth j slab 0)) (cm (atoms reference)).
Fixpoint check_from (i : nat) (l : list (image * list nat * image)) : result (list nat) :=
  match l with
  | [] => Ok []
  | (im, slab, reference) :: t =>
    bind (compare_slab_connectivity im slab reference) (fun same =>
    bind (check_from (S i) t) (fun r => Ok (if same then r else i :: r)))
  end.
Definition check_reconstructions (l : list (image * list nat * image)) : result (list nat) := check_from 0 l.

(** ** 711-729: attach_cations: cations and anions *)
Definition attach_cations (im : image) (anion : nat) : result (list nat * list nat) :=
  if inside anion (numbers (atoms im)) then
    Ok (filter (fun i => negb (elem im i =? anion)) (indices im),
        filter (fun i => elem im i =? anion) (indices im))
  else Err ValueError.
