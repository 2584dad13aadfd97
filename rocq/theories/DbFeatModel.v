(** Model of database_to_list (catlearn/api/ase_atoms_api.py 11-33), of the features that repeat
    stored data (catlearn/fingerprint/adsorbate.py delta_energy, db_size, dbid, ctime;
    bulk.py xyz_id; catapp.py name; standard.py element_mass_vec) and of
    FeatureGenerator._get_ads_atom_types (catlearn/featurize/setup.py).

    Stored values are real numbers or text; [None] stands for nan. *)
From Coq Require Import String List Arith Bool Reals.
From Verif Require Import Base RBase.
Import ListNotations.
Local Open Scope string_scope.
Local Open Scope nat_scope.

Inductive value := Num (x : R) | Txt (s : string).
Fixpoint get {A} (k : string) (d : list (string * A)) : option A :=
  match d with [] => None | (k', v) :: t => if String.eqb k k' then Some v else get k t end.

(** An atoms object: its numbers and masses, info (id, ctime, xyz_id, key_value_pairs), subsets, connectivity. *)
Record image := Image {
  i_numbers : list nat; i_masses : list R;
  i_id : option nat; i_ctime : option R; i_xyz_id : option value; i_kvp : option (list (string * value));
  i_subsets : list (string * list nat); i_connectivity : option (list (list nat)) }.

(** A row of the database; d_connectivity is data['connectivity'] if present. *)
Record dbrow := Row {
  d_id : nat; d_ctime : R; d_numbers : list nat; d_masses : list R; d_kvp : list (string * value);
  d_connectivity : option (list (list nat)) }.

(** 20-33; get_atoms with add_additional_information stores the key-value pairs *)
Definition database_to_list (selected : list dbrow) : list image :=
  map (fun d => Image (d_numbers d) (d_masses d) (Some (d_id d)) (Some (d_ctime d)) None (Some (d_kvp d)) [] (d_connectivity d)) selected.

(** float(...) of a stored value: text is parsed, [parse] *)
Section Features.
Variable parse : string -> option R.
Definition to_float (v : value) : result R :=
  match v with Num x => Ok x | Txt s => match parse s with Some x => Ok x | None => Err ValueError end end.

(** A value of key_value_pairs as a number; a missing one is nan. *)
Definition stored (k : string) (a : image) : result (option R) :=
  match i_kvp a with
  | None => Ok None
  | Some d => match get k d with None => Ok None | Some v => bind (to_float v) (fun x => Ok (Some x)) end
  end.

(** adsorbate.py 890-911 delta_energy *)
Definition delta_energy (a : image) : result (list (option R)) := bind (stored "delta_energy" a) (fun x => Ok [x]).

(** numpy's true_divide by a count: None also stands for the infinite results *)
Definition true_divide (x : option R) (n : nat) : option R :=
  match x with None => None | Some x => if n =? 0 then None else Some (x / INR n)%R end.

(** 913-942 db_size *)
Definition db_size (a : image) : result (list (option R)) :=
  bind (stored "layers" a) (fun layers =>
  bind (stored "n" a) (fun n =>
  match get "termination_atoms" (i_subsets a) with
  | None => Err KeyError
  | Some t => Ok [layers; Some (INR (length t)); true_divide n (length t)]
  end)).

(** 944-962 dbid, 964-982 ctime *)
Definition dbid (a : image) : list (option R) := [match i_id a with Some i => Some (INR i) | None => None end].
Definition ctime (a : image) : list (option R) := [i_ctime a].

(** bulk.py 229-233 xyz_id *)
Definition xyz_id (a : image) : result (list value) := match i_xyz_id a with None => Err KeyError | Some v => Ok [v] end.

(** catapp.py 238-257 name *)
Definition text (k : string) (d : list (string * value)) : result string :=
  match get k d with None => Err KeyError | Some (Txt s) => Ok s | Some (Num _) => Err TypeError end.
Definition catapp_name (a : image) : result string :=
  match i_kvp a with
  | None => Err KeyError
  | Some d => bind (text "species" d) (fun s => bind (text "name" d) (fun n => bind (text "facet" d) (fun f => Ok (s ++ "*" ++ n ++ f))))
  end.

(** standard.py 164-181 element_mass_vec *)
Definition element_mass (a : image) : list R := [sumR (i_masses a)].
End Features.

(** setup.py 308-331 _get_ads_atom_types: the sorted set *)
Fixpoint dedup (l : list nat) : list nat :=
  match l with [] => [] | x :: t => if existsb (Nat.eqb x) t then dedup t else x :: dedup t end.
Fixpoint pick (numbers idx : list nat) : result (list nat) :=
  match idx with
  | [] => Ok []
  | i :: t => match nth_error numbers i with None => Err IndexError | Some z => bind (pick numbers t) (fun r => Ok (z :: r)) end
  end.
Fixpoint ads_numbers (l : list image) : result (list nat) :=
  match l with
  | [] => Ok []
  | a :: t =>
    match get "ads_atoms" (i_subsets a) with
    | None => Err KeyError
    | Some idx => bind (pick (i_numbers a) idx) (fun z => bind (ads_numbers t) (fun r => Ok (app z r)))
    end
  end.
Definition ads_atom_types (train : list image) (test : option (list image)) : result (list nat) :=
  bind (ads_numbers (app train (match test with Some t => t | None => [] end))) (fun z => Ok (isort Nat.leb (dedup z))).
