(** Model of write_split and read_split of catlearn/cross_validation/k_fold_cv.py, the file and database methods of
    catlearn/cross_validation/hierarchy_cv.py and catlearn/ga/io.py. Numbers pass through text, json, pickle and
    sqlite unchanged (Python writes the shortest text that reads back as the same number). *)
From Coq Require Import String List Arith Bool.
From Verif Require Import Base CVModel DBModel.
Import ListNotations.
Set Implicit Arguments.
Local Open Scope string_scope.
Local Open Scope list_scope.
Local Open Scope nat_scope.

(** ** Arrays and json *)
Section Json.
Context {V : Type}.
(** Arrays of one and of two dimensions; the second kind knows its number of columns without any rows. *)
Inductive array := Vec (l : list V) | Mat (columns : nat) (rows : list (list V)).
Inductive json := JNum (v : V) | JList (l : list json).

(** ndarray.tolist *)
Definition tolist (a : array) : json :=
  match a with
  | Vec l => JList (map JNum l)
  | Mat _ rows => JList (map (fun r => JList (map JNum r)) rows)
  end.

Fixpoint numbers_of (l : list json) : option (list V) :=
  match l with
  | [] => Some []
  | JNum v :: t => option_map (cons v) (numbers_of t)
  | _ => None
  end.
Fixpoint rows_of (l : list json) : option (list (list V)) :=
  match l with
  | [] => Some []
  | JList r :: t => match numbers_of r, rows_of t with Some x, Some y => Some (x :: y) | _, _ => None end
  | _ => None
  end.
(** np.asarray of nested lists; rows of different lengths are an error. An empty list has one dimension. *)
Definition asarray (j : json) : result array :=
  match j with
  | JNum _ => Err ValueError
  | JList l =>
    match numbers_of l with
    | Some v => Ok (Vec v)
    | None => match rows_of l with
              | Some (r :: t) => if forallb (fun x => length x =? length r) t then Ok (Mat (length r) (r :: t)) else Err ValueError
              | _ => Err ValueError
              end
    end
  end.

Fixpoint map_r {A B} (f : A -> result B) (l : list A) : result (list B) :=
  match l with [] => Ok [] | x :: t => bind (f x) (fun y => bind (map_r f t) (fun r => Ok (y :: r))) end.

(** ** k_fold_cv.py *)
(** What a file may contain: the dictionary as pickle or as json. *)
Inductive split_file := Pickle (features : list array) (targets : option (list array)) | Json (features targets : list json).
Notation files := (string -> option split_file).
Definition put (name : string) (c : split_file) (fs : files) : files := fun n => if String.eqb n name then Some c else fs n.

(** 67-104 write_split: the files afterwards and the outcome. Targets None cannot be iterated. *)
Definition write_split (features : list array) (targets : option (list array)) (fname fformat : string) (fs : files) : files * result unit :=
  if String.eqb fformat "json" then
    match targets with
    | None => (fs, Err TypeError)
    | Some t => (put (fname ++ ".json")%string (Json (map tolist features) (map tolist t)) fs, Ok tt)
    end
  else if String.eqb fformat "pickle" then (put (fname ++ ".pickle")%string (Pickle features targets) fs, Ok tt)
  else (fs, Err NotImplementedError).

(** 107-146 read_split; a missing file (FileNotFoundError) is recorded as OperationalError, a file of the other
    format under the name as ValueError *)
Definition read_split (fname fformat : string) (fs : files) : result (list array * option (list array)) :=
  if String.eqb fformat "json" then
    match fs (fname ++ ".json")%string with
    | None => Err OperationalError
    | Some (Pickle _ _) => Err ValueError
    | Some (Json f t) => bind (map_r asarray f) (fun f' => bind (map_r asarray t) (fun t' => Ok (f', Some t')))
    end
  else if String.eqb fformat "pickle" then
    match fs (fname ++ ".pickle")%string with
    | None => Err OperationalError
    | Some (Json _ _) => Err ValueError
    | Some (Pickle f t) => Ok (f, t)
    end
  else Err NotImplementedError.

(** The arrays k_fold returns (k_fold_cv.py 50-59) for features with [d] columns *)
Definition fold_arrays (d : nat) (folds : list (list (list V)) * list (list V)) : list array * list array :=
  (map (Mat d) (fst folds), map Vec (snd folds)).

(** ** ga/io.py *)
(** A json file: absent, opened for writing but not complete, or complete *)
Inductive saved := Absent | Truncated | Saved (population fitness : json).

(** 6-19 _write_data is two steps: opening truncates the file, then the data are written *)
Definition write_steps (d : array * array) : list saved := [Truncated; Saved (tolist (fst d)) (tolist (snd d))].
(** The file after the first [c] steps of saving the given generations one after the other *)
Definition file_at (c : nat) (gens : list (array * array)) (before : saved) : saved :=
  last (firstn c (flat_map write_steps gens)) before.

(** 22-43 read_data *)
Definition read_data (f : saved) : result (array * array) :=
  match f with
  | Absent => Err OperationalError
  | Truncated => Err ValueError
  | Saved p t => bind (asarray p) (fun p' => bind (asarray t) (fun t' => Ok (p', t')))
  end.

(** ** hierarchy_cv.py *)
(** A Python string: its text, and whether it is the same object as the equal literal in the source *)
Record pystr := PyStr { text : string; interned : bool }.
Notation split := (list ((nat * nat) * list string)).
Inductive index_file := IPickle (d : split) | IJson (d : split).
Notation ifiles := (string -> option index_file).
Definition iput (name : string) (c : index_file) (fs : ifiles) : ifiles := fun n => if String.eqb n name then Some c else fs n.

(** 249-267 _write_split compares with == *)
Definition hierarchy_write (name : string) (fmt : pystr) (d : split) (fs : ifiles) : ifiles * result unit :=
  if String.eqb (text fmt) "json" then (iput (name ++ "." ++ text fmt)%string (IJson d) fs, Ok tt)
  else if String.eqb (text fmt) "pickle" then (iput (name ++ "." ++ text fmt)%string (IPickle d) fs, Ok tt)
  else (fs, Err NotImplementedError).

(** 111-124 load_split compares with is *)
Definition hierarchy_load (name : string) (fmt : pystr) (fs : ifiles) : result split :=
  if String.eqb (text fmt) "json" && interned fmt then
    match fs (name ++ "." ++ text fmt)%string with Some (IJson d) => Ok d | Some _ => Err ValueError | None => Err OperationalError end
  else if String.eqb (text fmt) "pickle" && interned fmt then
    match fs (name ++ "." ++ text fmt)%string with Some (IPickle d) => Ok d | Some _ => Err ValueError | None => Err OperationalError end
  else Err NotImplementedError.

(** 46-64 todb; [uids] are the outcomes of uuid4, [show_nat] the decimal text of a number *)
Variable show_nat : nat -> string.
Definition column_names (d : nat) : list string := map (fun i => ("f" ++ show_nat i)%string) (seq 0 d) ++ ["target"].
Definition todb (uids : list string) (d : nat) (features : list (list V)) (targets : list V) (c : conn V) : conn V * result unit :=
  if negb (length features =? length targets) then (c, Err ValueError) else
  let data := map (fun p => (fst p, map Some (fst (snd p) ++ [snd (snd p)]))) (combine uids (combine features targets)) in
  match create_db (column_names d) c with
  | (c1, Ok _) => fill_db (column_names d) data c1
  | (c1, Err e) => (c1, Err e)
  end.

(** 235-247 _get_index *)
Definition get_index (c : conn V) : result (list string) :=
  match seen c with None => Err OperationalError | Some t => Ok (map fst (t_rows t)) end.

(** 139-148, 322-333: the columns of compiled rows; no rows make an array of one dimension *)
Definition columns_of (rows : list (string * list (option V))) : result (list (list (option V)) * list (option V)) :=
  match rows with
  | [] => Err IndexError
  | _ => Ok (map (fun r => removelast (snd r)) rows, map (fun r => last (snd r) None) rows)
  end.
Definition subset_rows (c : conn V) (ids : list string) : result (list (list (option V)) * list (option V)) :=
  match seen c with
  | None => Err OperationalError
  | Some t => bind (compile_split String.eqb (t_rows t) ids) columns_of
  end.

(** 126-148 get_subset_data: features and targets of one subset *)
Definition get_subset_data (c : conn V) (index_split : split) (i j : nat) (other : option nat) : result (list (list (option V)) * list (option V)) :=
  match dget index_split (i, match other with None => j | Some k => k end) with
  | None => Err KeyError
  | Some ids => subset_rows c ids
  end.

(** 315-336 globalscaledata: all features, and the features and targets of the first half *)
Definition globalscaledata (c : conn V) (index_split : split) : result (list (list (option V)) * list (list (option V)) * list (option V)) :=
  match dget index_split (1, 1), dget index_split (1, 2) with
  | Some a, Some b => bind (subset_rows c a) (fun x => bind (subset_rows c b) (fun y => Ok (fst x ++ fst y, fst x, snd x)))
  | _, _ => Err KeyError
  end.
End Json.
Arguments array : clear implicits.
Arguments json : clear implicits.
Arguments split_file : clear implicits.
Arguments saved : clear implicits.
