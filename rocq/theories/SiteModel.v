(** Model of Material and SiteFeaturizer in catlearn/featurize/site_stability.py (GAFeatureSelection is in
    GAFSModel.v). Elements are atomic numbers, energies and positions exact real numbers, missing values (NaN)
    are None. Data frames are lists of columns and rows; a row is a list of pairs of column and value.
    Not modelled: EMT energies, the names of compositions, pickling, printing and plotting. The value in the
    column "symbol" is the atomic number. *)
From Coq Require Import Ascii String List Arith Bool Reals DecimalString Decimal.
From Verif Require Import Base RBase SlabUtilModel.
Import ListNotations.
Set Implicit Arguments.
Local Open Scope string_scope.
Local Open Scope list_scope.
Local Open Scope nat_scope.

Notation vec := (R * R * R)%type.

(** ase.Atoms with the energy its calculator knows *)
Record atoms := Atoms { syms : list nat; pos : list vec; calc : option R }.

(** 163-219 Material: the atoms, reference_dict and the private _total_energy. The cohesive energy is
    computed on each access here; the code keeps the first value. *)
Record material := Mat { m_atoms : atoms; m_ref : nat -> option R; m_total : option R }.

Notation row := (list (string * option R)).
Record frame := Frame { cols : list string; rows : list row }.

Definition origin : vec := (0%R, 0%R, 0%R).
Definition sub (a b : vec) : vec := (fst (fst a) - fst (fst b), snd (fst a) - snd (fst b), snd a - snd b)%R.
Definition dot (a b : vec) : R := (fst (fst a) * fst (fst b) + snd (fst a) * snd (fst b) + snd a * snd b)%R.
Definition norm (a : vec) : R := sqrt (dot a a).

Fixpoint field (c : string) (r : row) : option (option R) :=
  match r with [] => None | (k, v) :: t => if String.eqb c k then Some v else field c t end.

(** A cell of the frame; a column the row does not have is NaN. *)
Definition value (c : string) (r : row) : option R := match field c r with Some v => v | None => None end.

(** df[c] = v: an existing column is overwritten in place, a new one is the last *)
Fixpoint assign (c : string) (v : option R) (r : row) : row :=
  match r with
  | [] => [(c, v)]
  | (k, w) :: t => if String.eqb c k then (k, v) :: t else (k, w) :: assign c v t
  end.

Definition smemb (c : string) (l : list string) : bool := existsb (String.eqb c) l.

(** pd.concat([df, r], axis=0, sort=False): new columns are appended *)
Definition concat_row (d : frame) (r : row) : frame :=
  Frame (cols d ++ filter (fun c => negb (smemb c (cols d))) (map fst r)) (rows d ++ [r]).

(** df.fillna(0) *)
Definition fillna (d : frame) : frame :=
  Frame (cols d) (map (fun r => map (fun c => (c, Some (match value c r with Some x => x | None => 0%R end))) (cols d)) (rows d)).

Definition str (i : nat) : string := NilZero.string_of_uint (Nat.to_uint i).

(** 551 '1' in x, 553 x.replace('1', '0') *)
Fixpoint has_one (s : string) : bool :=
  match s with EmptyString => false | String c t => Ascii.eqb c "1"%char || has_one t end.
Fixpoint one_to_zero (s : string) : string :=
  match s with EmptyString => EmptyString | String c t => String (if Ascii.eqb c "1"%char then "0"%char else c) (one_to_zero t) end.

Section Sites.
(** list(set(..)) of elements; the connection matrix with dx=2.0 (177) as a function of the atoms; the number
    of valence electrons; the default references (42-47) *)
Variable as_set : list nat -> list nat.
Variable bonded : atoms -> nat -> nat -> bool.
Variable nvalence : nat -> R.
Variable atom_dict : nat -> option R.

(** 221-233 total_energy *)
Definition total_energy (m : material) : option R :=
  match m_total m with Some e => Some e | None => calc (m_atoms m) end.

(** 240-242 the loop over the composition: None - x is a TypeError *)
Fixpoint subtract_references (ref : nat -> option R) (c : option R) (comp : list (nat * nat)) : result (option R) :=
  match comp with
  | [] => Ok c
  | (e, n) :: t =>
    match ref e with
    | None => Err KeyError
    | Some r => match c with None => Err TypeError | Some x => subtract_references ref (Some (x - r * INR n)%R) t end
    end
  end.

(** 235-245 cohesive_energy *)
Definition cohesive_energy (m : material) : result R :=
  bind (subtract_references (m_ref m) (total_energy m) (stoichiometry as_set (syms (m_atoms m)))) (fun c =>
  match c with
  | None => Err TypeError
  | Some x => if length (syms (m_atoms m)) =? 0 then Err ZeroDivisionError
              else Ok (x / INR (length (syms (m_atoms m))))%R
  end).

Definition number_of (a : atoms) : nat := length (syms a).
Definition position (a : atoms) (i : nat) : vec := nth i (pos a) origin.

(** 178 cn_list *)
Definition cn (a : atoms) (i : nat) : nat := length (filter (bonded a i) (seq 0 (number_of a))).

(** 278-279 and 287-288: products with a row of the matrix, of which the zeros are masked *)
Definition masked (a : atoms) (i : nat) (v : nat -> nat) : list R :=
  map INR (filter (fun x => negb (x =? 0)) (map (fun j => v j * (if bonded a i j then 1 else 0)) (seq 0 (number_of a)))).

(** 336-338 and 381-383: the diagonal is set to zero *)
Definition neighbors (a : atoms) (i : nat) : list nat :=
  filter (fun j => bonded a i j && negb (j =? i)) (seq 0 (number_of a)).

(** 339 all pairs *)
Fixpoint pairs (l : list nat) : list (nat * nat) :=
  match l with [] => [] | x :: t => map (pair x) t ++ pairs t end.

(** 344-353: None if a vector is zero *)
Definition angle (b a c : vec) : option R :=
  let ba := sub a b in let bc := sub c b in
  if Reqb (norm ba) 0 || Reqb (norm bc) 0 then None
  else Some (acos (dot ba bc / (norm ba * norm bc)) * 180 / PI)%R.

Fixpoint somes {A} (l : list (option A)) : list A :=
  match l with [] => [] | Some x :: t => x :: somes t | None :: t => somes t end.

(** 356 *)
Definition site_angles (a : atoms) (i : nat) : list R :=
  somes (map (fun p => angle (position a i) (position a (fst p)) (position a (snd p))) (pairs (neighbors a i))).

(** 388-394 *)
Definition site_distances (a : atoms) (i : nat) : list R :=
  map (fun j => norm (sub (position a j) (position a i))) (neighbors a i).

(** min, max, mean, std; 359-369 for an empty list *)
Definition statistics (l : list R) : list (option R) :=
  match l with [] => [None; None; None; None] | _ => [Some (lmin l); Some (lmax l); Some (mean l); Some (std l)] end.

Definition names (prefix : string) (suffix : string) : list string :=
  map (fun s => prefix ++ s ++ suffix)%string ["min"; "max"; "mean"; "std"].

(** 262-329 get_site_features with use_EMT=False. np.min of an empty array fails (397). *)
Definition get_site_features (atomic_symbol : bool) (m : material) (i : nat) : result row :=
  let a := m_atoms m in
  match nth_error (syms a) i with
  | None => Err IndexError
  | Some z =>
    if length (site_distances a i) =? 0 then Err ValueError else
    Ok ((if atomic_symbol then [("symbol", Some (INR z))] else []) ++
        [("site_index", Some (INR i)); ("site_atomic_number", Some (INR z));
         ("site_e_val", Some (nvalence z)); ("site_cn", Some (INR (cn a i)))] ++
        combine (names "" "_neighbor_cn") (statistics (masked a i (cn a))) ++
        combine (names "" "_neighbor_atomic_number") (statistics (masked a i (fun j => nth j (syms a) 0))) ++
        combine (names "site_distance_" "") (statistics (site_distances a i)) ++
        combine (names "site_angles_" "") (statistics (site_angles a i)))
  end.

(** 401-428 system_features *)
Definition system_features (m : material) : result row :=
  bind (cohesive_energy m) (fun c =>
  let comp := stoichiometry as_set (syms (m_atoms m)) in
  Ok ([("natoms", Some (INR (number_of (m_atoms m)))); ("DFT_cohesive_energy", Some c)] ++
      concat (map (fun p => let i := fst p in let e := fst (snd p) in
        [(("Z" ++ str i)%string, Some (INR e)); (("n" ++ str i)%string, Some (INR (snd (snd p)))); (("e_val" ++ str i)%string, Some (nvalence e))])
        (combine (seq 0 (length comp)) comp)) ++
      [("Z_mean", Some (mean (map (fun p => INR (fst p)) comp))); ("e_val_mean", Some (mean (map (fun p => nvalence (fst p)) comp)))])).

(** 247-260 get_features *)
Definition get_features (atomic_symbol : bool) (m : material) (i : nat) : result row :=
  bind (get_site_features atomic_symbol m i) (fun r => bind (system_features m) (fun s => Ok (r ++ s)%list)).

Definition remove_at {A} (i : nat) (l : list A) : list A := (firstn i l ++ skipn (S i) l)%list.

(** 430-439 create_defect: the copy has no calculator *)
Definition create_defect (m : material) (i : nat) : result atoms :=
  if i <? number_of (m_atoms m) then Ok (Atoms (remove_at i (syms (m_atoms m))) (remove_at i (pos (m_atoms m))) None)
  else Err IndexError.

(** 129-146 get_site_index; NaN is None *)
Definition close1 (x y : R) : bool := Rleb (Rabs (x - y)) (/ 100000000 + / 1000 * Rabs y)%R.
Definition close (a b : vec) : bool :=
  close1 (fst (fst a)) (fst (fst b)) && close1 (snd (fst a)) (snd (fst b)) && close1 (snd a) (snd b).
Definition get_site_index (mat def : list vec) : option nat :=
  hd_error (filter (fun i => negb (existsb (close (nth i mat origin)) def)) (seq 0 (length mat))).

(** A site; its index is None if it was not found *)
Record site := Site { s_image : nat; s_index : option nat; s_material : material; s_defect : material }.

(** 472-496 SiteFeaturizer *)
Record featurizer := Feat {
  images : list atoms; sites : option (list site); f_symbols : bool; f_ref : nat -> option R;
  c_all : option frame; c_features : option frame; c_norm : option frame }.

Definition with_sites (f : featurizer) (s : list site) : featurizer :=
  Feat (images f) (Some s) (f_symbols f) (f_ref f) (c_all f) (c_features f) (c_norm f).
Definition with_features (f : featurizer) (d : frame) : featurizer :=
  Feat (images f) (sites f) (f_symbols f) (f_ref f) (c_all f) (Some d) (c_norm f).
Definition with_norm (f : featurizer) (d : frame) : featurizer :=
  Feat (images f) (sites f) (f_symbols f) (f_ref f) (c_all f) (c_features f) (Some d).

(** 523-528 refresh *)
Definition refresh (f : featurizer) : featurizer :=
  Feat (images f) (sites f) (f_symbols f) (f_ref f) None None None.

(** 574-592 get_DFT_site_stability *)
Definition get_DFT_site_stability (ref : nat -> option R) (s : site) : result (option R) :=
  match s_index s with
  | None => Err IndexError
  | Some i =>
    match nth_error (syms (m_atoms (s_material s))) i with
    | None => Err IndexError
    | Some z =>
      match ref z with
      | None => Err KeyError
      | Some r => Ok match total_energy (s_material s), total_energy (s_defect s) with
                     | Some e, Some d => Some (e - d - r)%R
                     | _, _ => None
                     end
      end
    end
  end.

(** 538-543 the row of one site *)
Definition site_row (f : featurizer) (s : site) : result row :=
  match s_index s with
  | None => Err IndexError
  | Some i =>
    bind (get_features (f_symbols f) (s_material s) i) (fun r =>
    bind (get_DFT_site_stability (f_ref f) s) (fun e =>
    Ok (assign "DFT_site_stability" e (assign "site_index" (Some (INR i)) (assign "material_image_index" (Some (INR (s_image s))) r)))))
  end.

(** 535-549 the loop over the sites *)
Fixpoint collect (f : featurizer) (acc : option frame) (l : list site) : result frame :=
  match l with
  | [] => match acc with None => Err NameError | Some d => Ok d end
  | s :: t =>
    bind (site_row f s) (fun r =>
    match acc with
    | None => collect f (Some (Frame (map fst r) [r])) t
    | Some d => collect f (Some (fillna (concat_row d r))) t
    end)
  end.

(** 554 one column: every cell that is zero takes the value of the other column *)
Fixpoint fill_column (c : string) (other : string) (exists_ : bool) (rs : list row) : result (list row) :=
  match rs with
  | [] => Ok []
  | r :: t =>
    bind (match value c r with
          | Some x => if Reqb x 0 then (if exists_ then Ok (value other r) else Err KeyError) else Ok (Some x)
          | None => Ok None
          end) (fun v => bind (fill_column c other exists_ t) (fun t' => Ok (assign c v r :: t')))
  end.

Fixpoint fill_columns (cs : list string) (d : frame) : result frame :=
  match cs with
  | [] => Ok d
  | c :: t => bind (fill_column c (one_to_zero c) (smemb (one_to_zero c) (cols d)) (rows d)) (fun rs => fill_columns t (Frame (cols d) rs))
  end.

(** 530-557 site_features; iterating over None is a TypeError *)
Definition site_features (f : featurizer) : result (featurizer * frame) :=
  match c_features f with
  | Some d => Ok (f, d)
  | None =>
    match sites f with
    | None => Err TypeError
    | Some l => bind (collect f None l) (fun d => bind (fill_columns (filter has_one (cols d)) d) (fun d' => Ok (with_features f d', d')))
    end
  end.

(** 559-572 normalized_site_features; the scaler is an arbitrary function *)
Variable scale : frame -> frame.
Definition normalized_site_features (f : featurizer) : result (featurizer * frame) :=
  match c_norm f with
  | Some d => Ok (f, d)
  | None => bind (site_features f) (fun p => Ok (with_norm (fst p) (scale (snd p)), scale (snd p)))
  end.

(** 819-834 remove_outlier: pop the positions from the list of sites, one after the other *)
Fixpoint pops {A} (idx : list nat) (l : list A) : list A * option exn :=
  match idx with
  | [] => (l, None)
  | i :: t => if i <? length l then pops t (remove_at i l) else (l, Some IndexError)
  end.

Definition equals (x : R) (v : option R) : bool := match v with Some y => Reqb y x | None => false end.

Definition remove_outlier (column : string) (x : R) (f : featurizer) : featurizer * option exn :=
  match site_features f with
  | Err e => (f, Some e)
  | Ok (f1, d) =>
    if negb (smemb column (cols d)) then (f1, Some KeyError) else
    let bad := filter (fun i => equals x (value column (nth i (rows d) []))) (seq 0 (length (rows d))) in
    match bad with
    | [] => (f1, None)
    | _ =>
      let f2 := with_features f1 (Frame (cols d) (delete_idx (rows d) bad)) in
      match sites f2 with
      | None => (f2, Some AttributeError)
      | Some l => let p := pops bad l in (with_sites f2 (fst p), snd p)
      end
    end
  end.

(** 619-630 unique_sites *)
Definition unique_sites (f : featurizer) : list (nat * nat) :=
  concat (map (fun p => map (pair (fst p)) (seq 0 (number_of (snd p)))) (combine (seq 0 (length (images f))) (images f))).

(** 641-650 and 678-686: the loops that create the sites. Material() is called without references. *)
Definition make_site (f : featurizer) (t : nat * nat) : result site :=
  match nth_error (images f) (fst t) with
  | None => Err IndexError
  | Some a => let m := Mat a atom_dict None in
    bind (create_defect m (snd t)) (fun d => Ok (Site (fst t) (Some (snd t)) m (Mat d atom_dict None)))
  end.

Fixpoint make_sites (f : featurizer) (ts : list (nat * nat)) : result (list site) :=
  match ts with [] => Ok [] | t :: r => bind (make_site f t) (fun s => bind (make_sites f r) (fun l => Ok (s :: l))) end.

(** 632-650 select_specific_sites *)
Definition select_specific_sites (sel : list (nat * nat)) (f : featurizer) : result featurizer :=
  bind (make_sites f sel) (fun l => Ok (with_sites f l)).

(** 652-687 select_random_sites; [order]: the list of a set of pairs; [draws]: np.random.choice with its
    default replace=True *)
Definition pair_eqb (p q : nat * nat) : bool := (fst p =? fst q) && (snd p =? snd q).
Definition candidates (order : list (nat * nat) -> list (nat * nat)) (exclude : option (list (nat * nat))) (f : featurizer) : list (nat * nat) :=
  match exclude with
  | None => unique_sites f
  | Some ex => order (filter (fun p => negb (existsb (pair_eqb p) ex)) (unique_sites f))
  end.
Definition select_random_sites (order : list (nat * nat) -> list (nat * nat)) (draws : list nat) (exclude : option (list (nat * nat))) (f : featurizer) : result featurizer :=
  let c := candidates order exclude f in
  if (length c =? 0) && negb (length draws =? 0) then Err ValueError
  else bind (make_sites f (map (fun i => nth i c (0, 0)) draws)) (fun l => Ok (with_sites f l)).

(** 594-617 features_of_all_sites (pandas with sort=False) *)
Definition all_rows (f : featurizer) : list (result row) :=
  concat (map (fun p => map (fun n => bind (get_features (f_symbols f) (Mat (snd p) (f_ref f) None) n) (fun r => Ok (assign "material_number" (Some (INR (fst p))) r)))
    (seq 0 (number_of (snd p)))) (combine (seq 0 (length (images f))) (images f))).
Fixpoint collect_all (acc : option frame) (l : list (result row)) : result frame :=
  match l with
  | [] => match acc with None => Err NameError | Some d => Ok d end
  | r :: t => bind r (fun r => match acc with
      | None => collect_all (Some (Frame (map fst r) [r])) t
      | Some d => collect_all (Some (fillna (concat_row d r))) t end)
  end.
Definition features_of_all_sites (f : featurizer) : result frame :=
  match c_all f with
  | Some d => Ok d
  | None => bind (collect_all None (all_rows f)) (fun d =>
      let cl := "material_number" :: removelast (cols d) in
      Ok (Frame cl (map (fun r => map (fun c => (c, value c r)) cl) (rows d))))
  end.

(** 732-775 traj_to_sites, with the two structures that were read *)
Definition traj_to_sites (mat def : atoms) (extend : bool) (f : featurizer) : featurizer :=
  let l := match sites f with Some l => l | None => [] end in
  let s := Site (length l) (get_site_index (pos mat) (pos def)) (Mat mat (f_ref f) None) (Mat def (f_ref f) None) in
  with_sites f (if extend then (l ++ [s])%list else [s]).

(** 714-730 read_sites, with the list that was read *)
Definition read_sites (new : list site) (extend : bool) (f : featurizer) : featurizer :=
  with_sites f (if extend then match sites f with Some l => (l ++ new)%list | None => new end else new).

(** 498-521 _update_materials; the loop changes the dictionaries in place *)
Definition update_site (ref : nat -> option R) (s : site) : result site :=
  match total_energy (s_material s), total_energy (s_defect s) with
  | Some e, Some d =>
    let m' := Mat (m_atoms (s_material s)) ref (Some e) in
    let d' := Mat (m_atoms (s_defect s)) ref (Some d) in
    bind (cohesive_energy m') (fun _ => bind (cohesive_energy d') (fun _ => Ok (Site (s_image s) (s_index s) m' d')))
  | _, _ => Ok s
  end.

(** 112-121 update_site_file: the loop over the rows (material, site, energy) of the file; Material() is called
    without references and without the stored energy *)
Fixpoint update_energy (k i : nat) (e : R) (l : list site) : result (list site) :=
  match l with
  | [] => Ok []
  | s :: t =>
    bind (if (s_image s =? k) && (match s_index s with Some j => j =? i | None => false end)
          then let d := Mat (m_atoms (s_defect s)) atom_dict (Some e) in
               bind (cohesive_energy d) (fun _ => Ok (Site (s_image s) (s_index s) (Mat (m_atoms (s_material s)) atom_dict None) d))
          else Ok s) (fun s' =>
    bind (update_energy k i e t) (fun t' => Ok (s' :: t')))
  end.
Fixpoint update_site_file (rs : list (nat * nat * R)) (l : list site) : result (list site) :=
  match rs with [] => Ok l | (k, i, e) :: t => bind (update_energy k i e l) (update_site_file t) end.
End Sites.
