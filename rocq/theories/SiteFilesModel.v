(** Model of the files and of the EMT energies of catlearn/featurize/site_stability.py (the rest of
    the file is in SiteModel.v and GAFSModel.v).

    A file system is a list of directories and a list of files, the last written first.  The
    content of a trajectory is a number.  Reading of folders ([os.listdir] in any order), EMT
    energies and the text of compositions are parameters. *)
From Coq Require Import Ascii String List Arith Bool Reals DecimalString.
From Verif Require Import Base RBase SiteModel.
Import ListNotations.
Local Open Scope string_scope.
Local Open Scope nat_scope.

(** ** 689-712 write_site_trajectories *)
Record fs := FS { dirs : list string; files : list (string * nat) }.

Fixpoint find {A} (p : string) (l : list (string * A)) : option A :=
  match l with [] => None | (q, c) :: t => if String.eqb p q then Some c else find p t end.

(** One entry of self.sites: material_image_index, site_index (nan is None), defect_composition, and the
    two structures. *)
Record entry := Entry { e_image : nat; e_index : option nat; e_composition : string; e_material : nat; e_defect : nat }.

Definition index_text (i : option nat) : string := match i with Some i => str i | None => "nan" end.

(** 697-700: the folder with a slash at its end *)
Definition ends_with_slash (s : string) : bool := String.eqb (substring (String.length s - 1) 1 s) "/".
Definition folder (cwd : string) (folderpath : string) : string :=
  let fp := if String.eqb folderpath "default" then cwd else folderpath in
  if ends_with_slash fp then fp else fp ++ "/".

Definition matpath (fp : string) (i : nat) : string := fp ++ "material" ++ str i.
Definition defpath (fp : string) (e : entry) : string :=
  matpath fp (e_image e) ++ "/site" ++ index_text (e_index e) ++ "_" ++ e_composition e ++ "/".

(** 703-706: only for a new directory *)
Definition write_material (fp : string) (e : entry) (s : fs) : fs :=
  let m := matpath fp (e_image e) in
  if smemb m (dirs s) then s
  else FS ((m ++ "/defect_free/") :: m :: dirs s) ((m ++ "/defect_free/init.traj", e_material e) :: files s).
(** 709-711 *)
Definition write_defect (fp : string) (e : entry) (s : fs) : fs :=
  FS (defpath fp e :: matpath fp (e_image e) :: dirs s) ((defpath fp e ++ "init.traj", e_defect e) :: files s).
Definition write_site_trajectories (cwd folderpath : string) (l : list entry) (s : fs) : fs :=
  fold_left (fun s e => write_defect (folder cwd folderpath) e (write_material (folder cwd folderpath) e s)) l s.

(** ** 61-76 traj_to_reference_dict: a later file replaces an earlier one of the same formula *)
Fixpoint string_rev (s : string) (acc : string) : string := match s with EmptyString => acc | String c t => string_rev t (String c acc) end.
Definition ends_with (suffix s : string) : bool := prefix (string_rev suffix "") (string_rev s "").
Definition is_reference (name : string) : bool := ends_with "traj" name || ends_with "json" name.
(** A file of the folder: its name, its formula and its energy. *)
Notation reference := (string * (string * R))%type.
Definition traj_to_reference_dict (listing : list reference) : list (string * R) :=
  fold_left (fun d f => if is_reference (fst f) then snd f :: d else d) listing [].

(** ** 794-817 save_dataset and 79-88 get_df: tables of a header and rows of cells *)
Record table := Tab { header : list string; body : list (list (option R)) }.
(** df.to_csv: the index is the first column and has no name *)
Definition save_dataset (d : table) : table :=
  Tab ("" :: header d) (map (fun p => Some (INR (fst p)) :: snd p) (combine (seq 0 (length (body d))) (body d))).
(** pd.read_csv calls a first column without a name 'Unnamed: 0' *)
Definition read_csv (d : table) : table :=
  Tab (match header d with "" :: t => "Unnamed: 0" :: t | h => h end) (body d).
(** 86-87: all columns of these names *)
Definition rename (a b : string) (d : table) : table := Tab (map (fun c => if String.eqb c a then b else c) (header d)) (body d).
Definition drop_column (a : string) (d : table) : table :=
  Tab (filter (fun c => negb (String.eqb c a)) (header d))
      (map (fun r => map snd (filter (fun p => negb (String.eqb (fst p) a)) (combine (header d) r))) (body d)).
Definition get_df (d : table) : result table :=
  let df := read_csv d in
  match header df with
  | [] => Err IndexError
  | c :: _ => Ok (drop_column "INDEX" (rename c "INDEX" df))
  end.

(** ** 441-466 get_EMT_site_stability *)
Section EMT.
Variable emt : atoms -> R.
(** 451-466; ase.Atoms(symbol) is a single atom at the origin *)
Definition emt_site_stability (m : material) (i : nat) : result R :=
  match nth_error (syms (m_atoms m)) i with
  | None => Err IndexError
  | Some z =>
    let e_atoms := emt (Atoms (syms (m_atoms m)) (pos (m_atoms m)) None) in
    let e_site_atom := emt (Atoms [z] [origin] None) in
    bind (create_defect m i) (fun defect => Ok (e_atoms - e_site_atom - emt defect)%R)
  end.
End EMT.
