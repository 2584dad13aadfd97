(** Model of catlearn/api/ase_atoms_api.py, catlearn/featurize/base.py, the ASE part of
    catlearn/utilities/neighborlist.py, catmap.py get_rate_control and the vectors of
    catlearn/fingerprint/particle.py that ASE or ASAP compute.

    Geometries and the values attached to structures are abstract. *)
From Coq Require Import ZArith Reals String Ascii List Arith Bool.
From Verif Require Import Base RBase ApiModel.
Import ListNotations.

(** ** Data attached to a structure: ase_atoms_api.py *)
Inductive slot := Features | Neighborlist | Graph_.
Definition slot_eqb (a b : slot) : bool :=
  match a, b with Features, Features | Neighborlist, Neighborlist | Graph_, Graph_ => true | _, _ => false end.

Section Attached.
Context {G V M : Type}.

(** An atoms object: its geometry, whether extend_atoms_class was applied, the dictionary
    atoms.catlearn, and atoms.connectivity and atoms.pair_distances if set *)
Record atoms := Atoms { geometry : G; extended : bool; store : option (list (slot * V)); connectivity : option M; distances : option M }.

Definition fresh (g : G) : atoms := Atoms g false None None None.

(** 76-90 *)
Definition extend (a : atoms) : atoms := Atoms (geometry a) true (store a) (connectivity a) (distances a).

Fixpoint sget (d : list (slot * V)) (s : slot) : option V :=
  match d with [] => None | (s', v) :: t => if slot_eqb s s' then Some v else sget t s end.
Fixpoint sput (d : list (slot * V)) (s : slot) (v : V) : list (slot * V) :=
  match d with
  | [] => [(s, v)]
  | (s', v') :: t => if slot_eqb s s' then (s', v) :: t else (s', v') :: sput t s v
  end.

(** 216-221 *)
Definition initialize (a : atoms) : atoms :=
  match store a with Some _ => a | None => Atoms (geometry a) (extended a) (Some []) (connectivity a) (distances a) end.
Definition the_store (a : atoms) : list (slot * V) := match store a with Some d => d | None => [] end.

(** 93-108, 134-149, 175-190 set_features, set_neighborlist, set_graph *)
Definition set_ (s : slot) (v : V) (a : atoms) : result atoms :=
  if extended a then
    let a := initialize a in Ok (Atoms (geometry a) (extended a) (Some (sput (the_store a) s v)) (connectivity a) (distances a))
  else Err AttributeError.

(** 111-131, 152-172, 193-213 get_features, get_neighborlist, get_graph *)
Definition get_ (s : slot) (a : atoms) : result (atoms * option V) :=
  if extended a then let a := initialize a in Ok (a, sget (the_store a) s) else Err AttributeError.

(** What a user may do with a structure; [Move] changes positions, cell or elements *)
Inductive step := Extend | Set_ (s : slot) (v : V) | Get_ (s : slot) | Move (g : G).
Definition do_step (a : atoms) (x : step) : result atoms :=
  match x with
  | Extend => Ok (extend a)
  | Set_ s v => set_ s v a
  | Get_ s => bind (get_ s a) (fun q => Ok (fst q))
  | Move g => Ok (Atoms g (extended a) (store a) (connectivity a) (distances a))
  end.
Fixpoint do_steps (a : atoms) (l : list step) : result atoms :=
  match l with [] => Ok a | x :: t => bind (do_step a x) (fun a => do_steps a t) end.

(** ** base.py *)
Variable nl_of : G -> V.        (* ase_neighborlist with the default radii *)

(** 25-47 make_neighborlist; neighbor_number is not used *)
Definition make_neighborlist (is_atoms : bool) (neighbor_number : nat) (a : atoms) : result (atoms * V) :=
  if is_atoms then
    let a := extend a in bind (set_ Neighborlist (nl_of (geometry a)) a) (fun a' => Ok (a', nl_of (geometry a)))
  else Err NotImplementedError.

(** 49-68 *)
Definition base_get_neighborlist (is_atoms : bool) (a : atoms) : result (atoms * V) :=
  match get_ Neighborlist a with
  | Ok (a, Some nl) => Ok (a, nl)
  | Ok (a, None) => make_neighborlist is_atoms 1 a
  | Err AttributeError => make_neighborlist is_atoms 1 a
  | Err e => Err e
  end.

(** networkx_graph_api.py 43-46: the neighbour list of the graph; [nl_cut] is
    ase_neighborlist with given cutoffs or None *)
Definition graph_neighborlist {K} (nl_cut : option K -> G -> V) (cutoffs : option K) (a : atoms) : atoms * V :=
  match get_ Neighborlist (extend a) with
  | Ok (a, Some nl) => (a, nl)
  | Ok (a, None) => (a, nl_cut cutoffs (geometry a))
  | Err _ => (a, nl_cut cutoffs (geometry a))
  end.

(** ** ase_atoms_api.py 37-73 *)
Variable conn_of : G -> result M.       (* ase_connectivity with the default radii *)
Variable crowded : M -> bool.           (* max(np.sum(connectivity, axis=0)) > 12 *)

(** 37-58: the images and the numbers of those with a warning *)
Fixpoint images_connectivity (check : bool) (i : nat) (images : list atoms) : result (list atoms * list nat) :=
  match images with
  | [] => Ok ([], [])
  | a :: t =>
      bind (match connectivity a with
            | Some _ => Ok (a, [])
            | None => bind (conn_of (geometry a)) (fun m =>
                Ok (Atoms (geometry a) (extended a) (store a) (Some m) (distances a), if check && crowded m then [i] else []))
            end) (fun q =>
      bind (images_connectivity check (S i) t) (fun r => Ok (fst q :: fst r, snd q ++ snd r)))
  end.

(** 61-73 *)
Variable distances_of : bool -> G -> M.
Definition images_pair_distances (mic : bool) (images : list atoms) : list atoms :=
  map (fun a => Atoms (geometry a) (extended a) (store a) (connectivity a) (Some (distances_of mic (geometry a)))) images.
End Attached.
Arguments atoms : clear implicits.
Arguments step : clear implicits.

(** 127-147 of base.py check_labels *)
Definition check_labels {L F} (labels : list L) (fp : list F) : result unit :=
  if (length fp =? length labels)%nat then Ok tt else Err AssertionError.

(** ** neighborlist.py 8-40, 146-171 *)
Definition offset := (Z * Z * Z)%type.
Definition zero : offset := (0, 0, 0)%Z.
Definition opp (o : offset) : offset := let '(a, b, c) := o in (- a, - b, - c)%Z.
Definition offset_eqb (a b : offset) : bool :=
  let '(a1, a2, a3) := a in let '(b1, b2, b3) := b in ((a1 =? b1) && (a2 =? b2) && (a3 =? b3))%Z.

Section ASE.
Variable n : nat.                                   (* len(atoms) *)
Variable offs : list offset.                        (* the translations considered *)
Variable dist : nat -> nat -> offset -> R.          (* from atom i to the image of atom j *)
Variable order : nat -> list nat -> list nat.       (* the order in which ASE finds them *)

(** ASE's NeighborList with skin=0, bothways=True, self_interaction=False: every image of
    an atom closer than the sum of the cutoffs, but for the atom itself *)
Definition in_range (cut : nat -> R) (i j : nat) (o : offset) : bool :=
  Rltb (dist i j o) (cut i + cut j)%R && negb ((i =? j)%nat && offset_eqb o zero).
Definition raw (cut : nat -> R) (i : nat) : list nat :=
  flat_map (fun j => map (fun _ => j) (filter (in_range cut i j) offs)) (seq 0 n).
Definition get_neighbors (cut : nat -> R) (i : nat) : list nat := order i (raw cut i).

(** 8-40 *)
Definition ase_neighborlist (radius : nat -> R) (cutoffs : option (nat -> R)) : list (nat * list nat) :=
  let cut := match cutoffs with Some c => c | None => radius end in
  map (fun i => (i, isort Nat.leb (get_neighbors cut i))) (seq 0 n).

(** 146-171; with an attribute neighborlist conn_mat is not bound; cutoffs of None cannot
    be added up.  NeighborList.get_connectivity_matrix sets entries to one. *)
Definition ase_connectivity (attached : bool) (cutoffs : option (nat -> R)) : result (list (list nat)) :=
  if attached then Err NameError else
  match cutoffs with
  | None => Err TypeError
  | Some cut => Ok (map (fun i => map (fun j => if existsb (Nat.eqb j) (get_neighbors cut i) then 1%nat else 0%nat) (seq 0 n)) (seq 0 n))
  end.
End ASE.

(** ** catmap.py 70-73 get_rate_control *)
Local Open Scope string_scope.
(** s.split('_') *)
Fixpoint split_ (s : string) : list string :=
  match s with
  | "" => [""]
  | String c t =>
      if Ascii.eqb c "_"%char then "" :: split_ t
      else match split_ t with [] => [String c ""] | x :: r => String c x :: r end
  end.
Definition get_rate_control (state : string) : result string :=
  match split_ state with
  | [_; species; _; _; _; _] => Ok species
  | _ => Err ValueError
  end.

(** ** particle.py 163-218 *)
Section Particle.
Context {G F : Type}.
Variable numbers : G -> list nat.
Variable centered : G -> G.                    (* set_cell([cell_size]*3); center() *)
Variable distribution : G -> nat -> list F.    (* get_atoms_distribution without one type *)
Variable connections : G -> nat -> list F.     (* get_atoms_connections without one type *)
Variable rdf : G -> nat -> nat -> list F.      (* partial radial distribution function *)
Variable set_order : list nat -> list nat.     (* iteration over a set *)

(** sorted(frozenset(numbers)) *)
Definition sorted_types (g : G) : list nat := isort Nat.leb (nodup Nat.eq_dec (numbers g)).

Inductive pvec := Distribution | Connections | Rdf.

(** The generator's atom_types, the structure after the call and the vector *)
Definition particle_vec (v : pvec) (types : option (list nat)) (g : G) : option (list nat) * G * list F :=
  match v with
  | Rdf => let s := set_order (nodup Nat.eq_dec (numbers g)) in (types, g, flat_map (fun a => flat_map (fun b => rdf g a b) s) s)
  | _ =>
      let g := match v with Distribution => centered g | _ => g end in
      let ts := match types with Some ts => ts | None => sorted_types g end in
      (Some ts, g, flat_map (fun t => match v with Distribution => distribution g t | _ => connections g t end) ts)
  end.

(** The vectors of a list of structures, in order *)
Fixpoint particle_vecs (v : pvec) (types : option (list nat)) (gs : list G) : list (list F) :=
  match gs with
  | [] => []
  | g :: t => let '(types', _, fp) := particle_vec v types g in fp :: particle_vecs v types' t
  end.
End Particle.
