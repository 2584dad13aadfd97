(** Model of catlearn/fingerprint/prototype.py and catlearn/fingerprint/voro.py.

    Magpie is a parameter that maps the files of the temporary directory to those it leaves
    there.  EnvironmentError is called RuntimeError here.  Values of the site dictionary are
    given as their texts.  Not modelled: the commands sent to Magpie, names of columns that
    occur both in the input and in the output. *)
From Coq Require Import String Ascii List Arith Bool DecimalString.
From Verif Require Import Base.
Import ListNotations.
Local Open Scope string_scope.
Local Open Scope nat_scope.

Definition str (i : nat) : string := NilZero.string_of_uint (Nat.to_uint i).

Fixpoint mem (x : string) (l : list string) : bool := match l with [] => false | y :: t => String.eqb x y || mem x t end.
Fixpoint lookup {A} (x : string) (l : list (string * A)) : option A :=
  match l with [] => None | (y, v) :: t => if String.eqb x y then Some v else lookup x t end.

(** str.replace('1', '') *)
Fixpoint remove_ones (s : string) : string :=
  match s with EmptyString => EmptyString | String a t => if Ascii.eqb a "1" then remove_ones t else String a (remove_ones t) end.

(** Values of attributes and of cells of the tables. *)
Inductive value := VStr (s : string) | VNum (n : nat) | VNone.
(** An atoms object by its attributes. *)
Notation object := (list (string * value)).

(** ** prototype.py *)
Record sites := Sites { site_dict : list (string * list string); site_list : list string; site_str : string }.

Fixpoint string_le (a b : string) : bool :=
  match a, b with
  | EmptyString, _ => true
  | String _ _, EmptyString => false
  | String x s, String y t => (nat_of_ascii x <? nat_of_ascii y) || ((nat_of_ascii x =? nat_of_ascii y) && string_le s t)
  end.

(** 13-26: keys() of Python 3 has no method sort *)
Definition default_sites : list (string * list string) := [("A", ["1"]); ("B", ["1"]); ("C", ["3"; "-omit"])].
Definition prototype_sites (python3 : bool) (d : option (list (string * list string))) : result sites :=
  let d := match d with None => default_sites | Some d => d end in
  if python3 then Err AttributeError else
  let l := isort string_le (map fst d) in
  Ok (Sites d l (String.concat (String "010" "") (map (fun si => String.concat " " (match lookup si d with Some t => t | None => [] end)) l))).

(** 85-89: one structure *)
Fixpoint site_names (s : sites) (at_ : object) (l : list string) : result string :=
  match l with
  | [] => Ok ""
  | si :: t =>
      match lookup si at_ with
      | None => Err AttributeError
      | Some v =>
          match lookup si (site_dict s) with
          | None => Err KeyError
          | Some [] => Err IndexError
          | Some (c :: _) =>
              match v with
              | VStr x => bind (site_names s at_ t) (fun r => Ok ((x ++ c) ++ r))
              | _ => Err TypeError
              end
          end
      end
  end.
Definition site_formula (s : sites) (at_ : object) : result string :=
  bind (site_names s at_ (site_list s)) (fun n => Ok (remove_ones n)).

Fixpoint mapM {A B} (f : A -> result B) (l : list A) : result (list B) :=
  match l with [] => Ok [] | x :: t => bind (f x) (fun y => bind (mapM f t) (fun r => Ok (y :: r))) end.

(** 91-95: the list of a property grows once for every time its name is listed *)
Definition property_column (props : list string) (p : string) (ats : list object) : list value :=
  flat_map (fun at_ => repeat (match lookup p at_ with Some v => v | None => VNone end) (length (filter (String.eqb p) props))) ats.

(** 98-101: the columns of pro_dict *)
Definition column_of (props : list string) (fml : list string) (ats : list object) (p : string) : list value :=
  if String.eqb p "formula" then map VStr fml
  else if String.eqb p "id" then map VNum (seq 0 (length ats))
  else property_column props p ats.

(** 73-101: the data frame input_pd as a list of columns *)
Definition proto_table (s : sites) (props : list string) (ats : list object) : result (list (string * list value)) :=
  if forallb (fun si => mem si props) (site_list s) then
    bind (mapM (site_formula s) ats) (fun fml =>
      let cols := map (fun p => (p, column_of props fml ats p)) ("formula" :: "id" :: props) in
      if forallb (fun c => length (snd c) =? length ats) cols then Ok cols else Err ValueError)
  else Err ValueError.

(** Files of the temporary directory. *)
Inductive content (F : Type) := Table (t : list (string * list value)) | Text (s : string) | Poscar (n : nat) | Rows (r : list (nat * F)).
Arguments Table {F}. Arguments Text {F}. Arguments Poscar {F}. Arguments Rows {F}.

Section Magpie.
Variable F : Type.
Notation dir := (list (string * content F)).
Variable magpie : dir -> dir.

(** 66-71 (voro.py 43-48): a fresh directory in any case *)
Definition fresh (old : option dir) : dir := match old with None => [] | Some _ => [] end.

(** pd.read_csv, prototype.py 139-143 *)
Definition read (name : string) (d : dir) : result (list (nat * F)) :=
  match lookup name d with Some (Rows r) => Ok r | _ => Err RuntimeError end.

(** 102-109 *)
Definition write_proto (s : sites) (input : string) (t : list (string * list value)) (old : option dir) : dir :=
  ("prototypes.txt", Table t) :: ("prototype_FP.in", Text input) :: ("site-info.txt", Text (site_str s)) :: fresh old.

(** 127-147; the directory afterwards is the second component *)
Definition generate_proto (s : sites) (input : string) (props : list string) (ats : list object) (delete_temp : bool) (old : option dir)
  : result (list (nat * F)) * option dir :=
  match proto_table s props ats with
  | Err e => (Err e, Some (fresh old))
  | Ok t =>
      let d := magpie (write_proto s input t old) in
      match read "proto_FP.csv" d with
      | Err e => (Err e, Some d)
      | Ok r => (Ok r, if delete_temp then None else Some d)
      end
  end.

(** pd.merge with its default how='inner': the order of the left rows *)
Definition merge {A} (l : list (nat * A)) (r : list (nat * F)) : list (nat * A * F) :=
  flat_map (fun a => map (fun b => (fst a, snd a, snd b)) (filter (fun b => fst b =? fst a) r)) l.

(** Row i of a table. *)
Definition table_row (t : list (string * list value)) (i : nat) : list value := map (fun c => nth i (snd c) VNone) t.

(** 149-152 *)
Definition generate_all (s : sites) (input : string) (props : list string) (ats : list object) (delete_temp : bool) (old : option dir)
  : result (list (nat * list value * F)) :=
  bind (fst (generate_proto s input props ats delete_temp old)) (fun fp =>
    bind (proto_table s props ats) (fun t => Ok (merge (map (fun i => (i, table_row t i)) (seq 0 (length ats))) fp))).

(** ** voro.py *)

(** 56-59: the name of the file of structure i; a structure is its formula here *)
Definition voro_name (i : nat) (formula : string) : string := str i ++ "-" ++ formula.
Definition voro_names (fml : list string) : list string := map (fun p => voro_name (fst p) (snd p)) (combine (seq 0 (length fml)) fml).

(** 63-69 *)
Definition voro_table (fml : list string) : list (string * list value) :=
  [("filename", map VStr (voro_names fml)); ("id", map VNum (seq 0 (length fml))); ("formula", map VStr fml)].

(** A later file replaces an earlier one of the same name. *)
Definition put (name : string) (c : content F) (d : dir) : dir := (name, c) :: filter (fun f => negb (String.eqb name (fst f))) d.
(** 41-72; names are relative to the directory *)
Definition write_voro (fml : list string) (input : string) (old : option dir) : dir :=
  let d := fold_left (fun d p => put ("cif/" ++ voro_name (fst p) (snd p)) (Poscar (fst p)) d) (combine (seq 0 (length fml)) fml) (fresh old) in
  put "voro_FP.in" (Text input) (put "cif/properties.txt" (Table (voro_table fml)) d).

(** 79-99 *)
Definition generate_voro (fml : list string) (input : string) (delete_temp : bool) (old : option dir) : result (list F) * option dir :=
  let d := magpie (write_voro fml input old) in
  match read "voro_FP.csv" d with
  | Err e => (Err e, Some d)
  | Ok r => (Ok (map snd (merge (map (fun i => (i, nth i fml "")) (seq 0 (length fml))) r)), if delete_temp then None else Some d)
  end.
End Magpie.
