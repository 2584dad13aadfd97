(** Specifications for the database properties: what one cell of the descriptor
    table holds after a history of calls, described cell by cell without tables,
    and which value of a fingerprint was written first. *)
From Coq Require Import String List Arith Bool.
From Verif Require Import Base DBModel.
Import ListNotations.
Set Implicit Arguments.

Section Spec.
Context {V : Type}.

(** Columns a create_column call adds: up to the first name already in use. *)
Fixpoint accepted_columns (cols names : list string) : list string :=
  match names with
  | [] => cols
  | n :: t => if memb n ("uuid"%string :: cols) then cols else accepted_columns (cols ++ [n]) t
  end.

(** Columns known after a call ([None]: no table yet). *)
Definition spec_cols (st : option (list string)) (op : dcall V) : option (list string) :=
  match op, st with
  | CreateDb names, None => if nodupb ("uuid"%string :: names) then Some names else None
  | CreateColumn names, Some cols => Some (accepted_columns cols names)
  | _, _ => st
  end.

Definition assoc (name : string) (l : list (string * option V)) : option V :=
  match find (fun p => String.eqb (fst p) name) l with Some p => snd p | None => None end.

(** Rows that a fill_db call with [w] names enters: up to the first ragged one. *)
Fixpoint accepted_rows (w : nat) (data : list (string * list (option V))) :=
  match data with
  | [] => []
  | r :: t => if length (snd r) =? w then r :: accepted_rows w t else []
  end.

(** Content of the cell (id, name) after a call, from its content before:
    [None] no entry for id; [Some None] NULL; [Some (Some v)] the number v.
    The first row filled for an id gives the value; later updates of exactly
    this id and name replace it; nothing else changes it. *)
Definition spec_cell (id name : string) (st : option (list string)) (old : option (option V))
  (op : dcall V) : option (option V) :=
  match op, st, old with
  | Fill names data, Some cols, None =>
      if length names =? length cols then
        match find (fun r => String.eqb (fst r) id) (accepted_rows (length names) data) with
        | Some r => Some (assoc name (combine cols (snd r)))
        | None => None
        end
      else None
  | Update n v i, Some cols, Some _ =>
      if String.eqb n name && String.eqb i id && memb name cols then Some (Some v) else old
  | _, _, _ => old
  end.

Fixpoint spec_run (id name : string) (ops : list (dcall V))
  (st : option (list string)) (cellv : option (option V))
  : option (list string) * option (option V) :=
  match ops with
  | [] => (st, cellv)
  | op :: t => spec_run id name t (spec_cols st op) (spec_cell id name st cellv op)
  end.

(** Columns and cell content after a history on a new file. *)
Definition spec_columns (ops : list (dcall V)) : option (list string) :=
  fold_left spec_cols ops None.
Definition spec_value (ops : list (dcall V)) (id name : string) : option (option V) :=
  snd (spec_run id name ops None None).

Definition no_uuid_update (op : dcall V) : Prop :=
  match op with Update n _ _ => n <> "uuid"%string | _ => True end.

(** ** Fingerprints *)
(** Value stored for (ase id, parameter id). *)
Definition stored (d : fdb V) (a : string) (pid : nat) : option V :=
  match find (fun e => (snd (fst e) =? pid) &&
                       match ase_of d (fst (fst e)) with Some b => String.eqb b a | None => false end)
             (fingerprints d) with
  | Some e => Some (snd e)
  | None => None
  end.

Variable show_nat : nat -> string.

(** The successful fingerprint_entry calls of a history, in order. *)
Fixpoint writes (ops : list (fcall V)) (c : fconn V) : list (string * nat * V) :=
  match ops with
  | [] => []
  | op :: t =>
    let here := match op, snd (fstep show_nat op c) with
                | Entry a p v, Ok _ => match resolve p (fseen c) with
                                       | Ok n => [(a, n, v)] | Err _ => [] end
                | _, _ => []
                end in
    here ++ writes t (fst (fstep show_nat op c))
  end.

Definition first_written (l : list (string * nat * V)) (a : string) (pid : nat) : option V :=
  match find (fun w => String.eqb (fst (fst w)) a && (snd (fst w) =? pid)) l with
  | Some w => Some (snd w)
  | None => None
  end.

Definition is_parameter (op : fcall V) : bool := match op with Param _ _ => true | _ => false end.
End Spec.
