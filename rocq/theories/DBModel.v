(** Model of catlearn/utilities/database_functions.py.

    SQLite is modelled by what the SQL statements of the file do:
    - a table is a list of rows in insertion (rowid) order, and SELECT without
      ORDER BY returns rows in that order;
    - GROUP BY ase_id returns the groups in increasing (BINARY collation) order
      of ase_id, GROUP_CONCAT concatenates in insertion order;
    - a connection sees its own uncommitted changes; what a crash leaves is the
      last committed state; Python's sqlite3 opens a transaction before
      INSERT/UPDATE only, so CREATE/ALTER take effect at once when no
      transaction is open.
    Simplifications: identifiers are compared exactly (SQLite ignores case) and
    are assumed to be valid SQL words; ids contain no quotes; numbers are
    finite (abstract type [V]). *)
From Coq Require Import String List Arith Bool.
From Verif Require Import Base.
Import ListNotations.
Set Implicit Arguments.

(** ** DescriptorDatabase *)
Section Descriptor.
Context {V : Type}.
(** Text of a number, only used if someone overwrites the uuid column. *)
Variable show : V -> string.

(** The columns after uuid, and the rows: uuid with one cell per column. *)
Record table := mkTable { t_cols : list string; t_rows : list (string * list (option V)) }.
Notation db := (option table).

(** A connection: what it sees and what is committed to the file. *)
Record conn := mkConn { seen : db; committed : db }.

Definition memb (s : string) (l : list string) : bool := existsb (String.eqb s) l.

Fixpoint nodupb (l : list string) : bool :=
  match l with [] => true | x :: t => negb (memb x t) && nodupb t end.

(** A state changing call returns the new connection and its outcome. *)
Notation outcome := (conn * result unit)%type.

(** self.conn.commit(). *)
Definition commit (c : conn) : conn := mkConn (seen c) (seen c).

(** create_db, 31-46: CREATE TABLE IF NOT EXISTS; duplicate column names are an
    OperationalError.  Without a table no INSERT can be pending, so the creation
    is durable. *)
Definition create_db (names : list string) (c : conn) : outcome :=
  match seen c with
  | Some _ => (c, Ok tt)
  | None => if nodupb ("uuid"%string :: names)
            then (commit (mkConn (Some (mkTable names [])) (committed c)), Ok tt)
            else (c, Err OperationalError)
  end.

(** ALTER TABLE ... ADD COLUMN, 59-61: old rows get NULL. *)
Definition add_column (name : string) (t : table) : table :=
  mkTable (t_cols t ++ [name]) (map (fun r => (fst r, snd r ++ [None])) (t_rows t)).

(** create_column, 48-62: one ALTER and commit per name; names already added
    stay when a later one fails. *)
Fixpoint create_column (names : list string) (c : conn) : outcome :=
  match names with
  | [] => (c, Ok tt)
  | n :: rest =>
    match seen c with
    | None => (c, Err OperationalError)
    | Some t => if memb n ("uuid"%string :: t_cols t) then (c, Err OperationalError)
                else create_column rest (commit (mkConn (Some (add_column n t)) (committed c)))
    end
  end.

(** executemany of line 80-81: rows are inserted until one has a wrong number of
    bindings (ProgrammingError, recorded as ValueError). *)
Fixpoint insert_rows (width : nat) (data : list (string * list (option V))) (t : table)
  : table * result unit :=
  match data with
  | [] => (t, Ok tt)
  | r :: rest => if length (snd r) =? width
                 then insert_rows width rest (mkTable (t_cols t) (t_rows t ++ [r]))
                 else (t, Err ValueError)
  end.

(** fill_db, 64-82.  Only the NUMBER of descriptor names is used. *)
Definition fill_db (names : list string) (data : list (string * list (option V))) (c : conn)
  : outcome :=
  match seen c with
  | None => (c, Err OperationalError)
  | Some t =>
    if length names =? length (t_cols t) then
      match insert_rows (length names) data t with
      | (t', Ok _) => (commit (mkConn (Some t') (committed c)), Ok tt)
      | (t', Err e) => (mkConn (Some t') (committed c), Err e)
      end
    else (c, Err OperationalError)
  end.

(** Position of a column. *)
Fixpoint col_index (name : string) (cols : list string) : option nat :=
  match cols with
  | [] => None
  | c :: t => if String.eqb name c then Some 0
              else match col_index name t with Some i => Some (S i) | None => None end
  end.

(** UPDATE of lines 96-100 on one row. *)
Definition update_row (i : nat) (v : option V) (id : string) (r : string * list (option V)) :=
  if String.eqb (fst r) id then (fst r, set_nth i v (snd r)) else r.

(** update_descriptor, 84-103. *)
Definition update_descriptor (name : string) (v : V) (id : string) (c : conn) : outcome :=
  match seen c with
  | None => (c, Err OperationalError)
  | Some t =>
    if String.eqb name "uuid" then
      (commit (mkConn (Some (mkTable (t_cols t)
         (map (fun r => if String.eqb (fst r) id then (show v, snd r) else r) (t_rows t))))
         (committed c)), Ok tt)
    else match col_index name (t_cols t) with
      | None => (c, Err OperationalError)
      | Some i => (commit (mkConn (Some (mkTable (t_cols t)
                     (map (update_row i (Some v) id) (t_rows t)))) (committed c)), Ok tt)
      end
  end.

(** A value returned by SELECT. *)
Inductive cell := Text (s : string) | Num (v : V) | Null.
Definition cell_of (o : option V) : cell := match o with Some v => Num v | None => Null end.

(** One selected column of one row. *)
Definition select_cell (cols : list string) (r : string * list (option V)) (name : string)
  : result cell :=
  if String.eqb name "uuid" then Ok (Text (fst r))
  else match col_index name cols with
       | None => Err OperationalError
       | Some i => Ok (cell_of (nth i (snd r) None))
       end.

Fixpoint map_result {A B} (f : A -> result B) (l : list A) : result (list B) :=
  match l with
  | [] => Ok []
  | x :: t => bind (f x) (fun y => bind (map_result f t) (fun ys => Ok (y :: ys)))
  end.

(** SELECT names FROM table [WHERE uuid=id]; unknown names fail at preparation,
    that is also when no row matches. *)
Definition select (t : table) (names : list string) (rows : list (string * list (option V)))
  : result (list (list cell)) :=
  if forallb (fun n => memb n ("uuid"%string :: t_cols t)) names
  then map_result (fun r => map_result (select_cell (t_cols t) r) names) rows
  else Err OperationalError.

Definition all_names (t : table) := "uuid"%string :: t_cols t.

(** query_db, 105-138: [names = None] is '*'; an empty list raises IndexError at
    names[0] (line 120). *)
Definition query_names (t : table) (names : option (list string)) : result (list string) :=
  match names with
  | None => Ok (all_names t)
  | Some [] => Err IndexError
  | Some l => Ok l
  end.

(** query_db(unique_id=id, names): first matching row (line 136). *)
Definition query_id (c : conn) (id : string) (names : option (list string)) : result (list cell) :=
  match names, seen c with
  | Some [], _ => Err IndexError
  | _, None => Err OperationalError
  | _, Some t =>
    bind (query_names t names) (fun ns =>
    bind (select t ns (filter (fun r => String.eqb (fst r) id) (t_rows t))) (fun rows =>
    match rows with [] => Err IndexError | r :: _ => Ok r end))
  end.

(** query_db(None, names): all rows (lines 127-131). *)
Definition query_all (c : conn) (names : option (list string)) : result (list (list cell)) :=
  match names, seen c with
  | Some [], _ => Err IndexError
  | _, None => Err OperationalError
  | _, Some t => bind (query_names t names) (fun ns => select t ns (t_rows t))
  end.

(** get_column_names, 140-144. *)
Definition get_column_names (c : conn) : result (list string) :=
  match seen c with None => Err OperationalError | Some t => Ok (all_names t) end.

(** The calls that change the database, and a history of them.  Python code may
    catch the exception of a call and go on. *)
Inductive dcall :=
| CreateDb (names : list string)
| CreateColumn (names : list string)
| Fill (names : list string) (data : list (string * list (option V)))
| Update (name : string) (v : V) (id : string).

Definition dstep (op : dcall) (c : conn) : outcome :=
  match op with
  | CreateDb n => create_db n c
  | CreateColumn n => create_column n c
  | Fill n d => fill_db n d c
  | Update n v i => update_descriptor n v i c
  end.

Fixpoint drun (ops : list dcall) (c : conn) : conn :=
  match ops with [] => c | op :: t => drun t (fst (dstep op c)) end.

(** Outcomes of all calls of a history. *)
Fixpoint doutcomes (ops : list dcall) (c : conn) : list (result unit) :=
  match ops with [] => [] | op :: t => snd (dstep op c) :: doutcomes t (fst (dstep op c)) end.

(** A connection to a fresh file, and to the file left by a crash. *)
Definition fresh : conn := mkConn None None.
Definition crash (c : conn) : conn := mkConn (committed c) (committed c).
End Descriptor.
Arguments table V : clear implicits.
Arguments conn V : clear implicits.
Arguments cell V : clear implicits.
Arguments dcall V : clear implicits.

(** ** FingerprintDB *)
Section Fingerprint.
Context {V : Type}.
(** Round trip of a value through GROUP_CONCAT's text (15 significant digits). *)
Variable through_text : V -> V.
(** Decimal text of an integer. *)
Variable show_nat : nat -> string.

(** Tables: images (iid, ase_id), parameters (pid, symbol), fingerprints
    (image_id, param_id, value).  identity and description are only stored and
    displayed, so they are left out.  [next_*]: the AUTOINCREMENT counters. *)
Record fdb := mkF {
  images : list (nat * string); next_iid : nat;
  parameters : list (nat * string); next_pid : nat;
  fingerprints : list (nat * nat * V) }.

(** File state and the state seen inside the "with" block. *)
Record fconn := mkFC { fseen : fdb; fcommitted : fdb }.

Definition empty_fdb : fdb := mkF [] 1 [] 1 [].

Definition lookup_fst (s : string) (l : list (nat * string)) : option nat :=
  match find (fun p => String.eqb (snd p) s) l with Some p => Some (fst p) | None => None end.

(** image_entry, 226-255.  A refused duplicate may burn ids: [gap] is chosen by
    SQLite. *)
Definition image_entry (ase_id : string) (gap : nat) (c : fconn) : fconn :=
  let d := fseen c in
  match lookup_fst ase_id (images d) with
  | Some _ => mkFC (mkF (images d) (next_iid d + gap) (parameters d) (next_pid d) (fingerprints d))
                   (fcommitted c)
  | None => mkFC (mkF (images d ++ [(next_iid d, ase_id)]) (S (next_iid d))
                      (parameters d) (next_pid d) (fingerprints d)) (fcommitted c)
  end.

(** SELECT MAX(pid), None (NULL) for an empty table. *)
Definition max_pid (l : list (nat * string)) : option nat :=
  match l with [] => None | p :: t => Some (fold_left (fun m q => Nat.max m (fst q)) t (fst p)) end.

(** parameter_entry, 257-283; commits (line 283).  A missing or empty symbol is
    replaced by str(MAX(pid)+1); int(None) raises TypeError. *)
Definition insert_parameter (symbol : string) (gap : nat) (c : fconn) : fconn :=
  let d := fseen c in
  let d' := match lookup_fst symbol (parameters d) with
            | Some _ => mkF (images d) (next_iid d) (parameters d) (next_pid d + gap) (fingerprints d)
            | None => mkF (images d) (next_iid d) (parameters d ++ [(next_pid d, symbol)])
                          (S (next_pid d)) (fingerprints d)
            end in
  mkFC d' d'.

Definition parameter_entry (symbol : option string) (gap : nat) (c : fconn) : fconn * result unit :=
  match symbol with
  | Some s => if String.eqb s ""
              then match max_pid (parameters (fseen c)) with
                   | None => (c, Err TypeError)
                   | Some m => (insert_parameter (show_nat (S m)) gap c, Ok tt)
                   end
              else (insert_parameter s gap c, Ok tt)
  | None => match max_pid (parameters (fseen c)) with
            | None => (c, Err TypeError)
            | Some m => (insert_parameter (show_nat (S m)) gap c, Ok tt)
            end
  end.

(** A parameter given by symbol or by id. *)
Inductive pref := BySymbol (s : string) | ById (n : nat).

(** Lines 337-345: an unknown symbol executes raise(KeyError, '...'), which in
    Python 3 raises TypeError. *)
Definition resolve (p : pref) (d : fdb) : result nat :=
  match p with
  | ById n => Ok n
  | BySymbol s => match lookup_fst s (parameters d) with Some n => Ok n | None => Err TypeError end
  end.

Definition has_entry (i p : nat) (l : list (nat * nat * V)) : bool :=
  existsb (fun e => (fst (fst e) =? i) && (snd (fst e) =? p)) l.

(** fingerprint_entry, 323-357.  Foreign keys are not enforced by SQLite unless
    switched on, so an unknown integer parameter id is accepted; an unknown
    image raises TypeError (None[0], line 349); a second value for the same pair
    is ignored (UNIQUE, lines 351-357). *)
Definition fingerprint_entry (ase_id : string) (p : pref) (v : V) (c : fconn)
  : fconn * result unit :=
  let d := fseen c in
  match resolve p d with
  | Err e => (c, Err e)
  | Ok pid =>
    match lookup_fst ase_id (images d) with
    | None => (c, Err TypeError)
    | Some iid =>
      if has_entry iid pid (fingerprints d) then (c, Ok tt)
      else (mkFC (mkF (images d) (next_iid d) (parameters d) (next_pid d)
                      (fingerprints d ++ [(iid, pid, v)])) (fcommitted c), Ok tt)
    end
  end.

(** get_parameters, 285-321: no selection gives all ids in table order (IndexError
    on an empty table); a selected symbol that does not exist makes the array of
    rows ragged and raises (AttributeError). *)
Definition get_parameters (selection : list string) (d : fdb) : result (list nat) :=
  match selection with
  | [] => match parameters d with [] => Err IndexError | l => Ok (map fst l) end
  | _ => map_result (fun s => match lookup_fst s (parameters d) with
                              | Some n => Ok n | None => Err AttributeError end) selection
  end.

(** Requested parameters of get_fingerprints: symbols, or integer ids. *)
Inductive psel := Symbols (l : list string) | Ids (l : list nat).

(** Lines 378-382; an empty list of any kind selects everything. *)
Definition select_params (p : psel) (d : fdb) : result (list nat) :=
  match p with
  | Symbols l => get_parameters l d
  | Ids [] => get_parameters [] d
  | Ids l => Ok l
  end.

Definition ase_of (d : fdb) (iid : nat) : option string :=
  match find (fun p => fst p =? iid) (images d) with Some p => Some (snd p) | None => None end.

(** Rows of the join of lines 389-391 that satisfy the WHERE clause. *)
Definition joined (d : fdb) (pids : list nat) (ids : list string) : list (string * V) :=
  flat_map (fun e => match ase_of d (fst (fst e)) with
                     | None => []
                     | Some a => if existsb (Nat.eqb (snd (fst e))) pids && memb a ids
                                 then [(a, snd e)] else []
                     end) (fingerprints d).

Fixpoint dedup (l : list string) : list string :=
  match l with [] => [] | x :: t => x :: filter (fun y => negb (String.eqb x y)) (dedup t) end.

(** GROUP BY ase_id with GROUP_CONCAT(value). *)
Definition groups (rows : list (string * V)) : list (string * list V) :=
  map (fun a => (a, map (fun r => through_text (snd r)) (filter (fun r => String.eqb (fst r) a) rows)))
      (isort String.leb (dedup (map fst rows))).

(** Assignment of a row of text values to a row of [n] zeros, line 397: numpy
    broadcasts a single value and otherwise needs the exact length. *)
Definition assign_row (n : nat) (vals : list V) : result (list V) :=
  if length vals =? n then Ok vals
  else match vals with [v] => Ok (repeat v n) | _ => Err ValueError end.

(** Lines 395-397: row i of the result is the i-th group; rows without a group
    stay zero. *)
Definition fill_matrix (zero : V) (nrows ncols : nat) (gs : list (string * list V))
  : result (list (list V)) :=
  bind (map_result (fun g => assign_row ncols (snd g)) gs) (fun rows =>
  Ok (rows ++ repeat (repeat zero ncols) (nrows - length rows))).

(** get_fingerprints, 359-399.  A one element id list gives the text "('a',)",
    a syntax error (OperationalError). *)
Definition get_fingerprints (zero : V) (ids : list string) (p : psel) (c : fconn)
  : result (list (list V)) :=
  let d := fseen c in
  bind (select_params p d) (fun pids =>
  match ids with
  | [_] => Err OperationalError
  | _ => fill_matrix zero (length ids) (length pids) (groups (joined d pids ids))
  end).

(** Calls inside a "with" block. *)
Inductive fcall :=
| Image (ase_id : string) (gap : nat)
| Param (symbol : option string) (gap : nat)
| Entry (ase_id : string) (p : pref) (v : V).

Definition fstep (op : fcall) (c : fconn) : fconn * result unit :=
  match op with
  | Image a g => (image_entry a g c, Ok tt)
  | Param s g => parameter_entry s g c
  | Entry a p v => fingerprint_entry a p v c
  end.

(** A history in which exceptions are caught by the caller. *)
Fixpoint frun (ops : list fcall) (c : fconn) : fconn :=
  match ops with [] => c | op :: t => frun t (fst (fstep op c)) end.

(** A "with" block: __enter__ (174-180) opens the file, the body runs up to the
    first exception that it does not catch, __exit__ (182-185) commits in either
    case and lets the exception pass. *)
Fixpoint body (ops : list fcall) (c : fconn) : fconn * result unit :=
  match ops with
  | [] => (c, Ok tt)
  | op :: t => match fstep op c with
               | (c', Ok _) => body t c'
               | (c', Err e) => (c', Err e)
               end
  end.

Definition open_file (d : fdb) : fconn := mkFC d d.
Definition with_block (ops : list fcall) (file : fdb) : fdb * result unit :=
  let '(c, r) := body ops (open_file file) in (fseen c, r).

(** The process is killed after the first [k] calls of the block. *)
Definition crash_after (k : nat) (ops : list fcall) (file : fdb) : fdb :=
  fcommitted (fst (body (firstn k ops) (open_file file))).
End Fingerprint.
Arguments fdb V : clear implicits.
Arguments fconn V : clear implicits.
Arguments fcall V : clear implicits.
