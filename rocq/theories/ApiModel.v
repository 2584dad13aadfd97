(** Model of catlearn/api (ase_data_setup.py, catmap.py, networkx_graph_api.py) and of
    catlearn/utilities (penalty_functions.py, neighborlist.py).

    ASE and NetworkX objects are represented by the data the code reads from them; the
    shuffle is an oracle. *)
From Coq Require Import ZArith Reals String Ascii List Arith Bool.
From Verif Require Import Base RBase.
Import ListNotations.

(** ** ase_data_setup.py *)
Section Data.
Context {A V : Type}.
(** atoms.info['key_value_pairs'][key]; None where the key is missing *)
Variable target : A -> option V.
(** random.shuffle *)
Variable shuffle : list (nat * A) -> list (nat * A).

(** The three lists of the returned dictionary. *)
Record dataset := Dataset { d_atoms : list A; d_target : list V; d_index : list nat }.

Definition d_add (ds : dataset) (a : nat * A) : result dataset :=
  match target (snd a) with
  | None => Err KeyError
  | Some v => Ok (Dataset (d_atoms ds ++ [snd a]) (d_target ds ++ [v]) (d_index ds ++ [fst a]))
  end.

Definition orderlist (atoms : list A) : list (nat * A) := shuffle (combine (seq 0 (length atoms)) atoms).

(** 28-34 *)
Fixpoint unique_loop (size : Z) (l : list (nat * A)) (ds : dataset) : result dataset :=
  match l with
  | [] => Ok ds
  | a :: t => if (Z.of_nat (length (d_atoms ds)) <? size)%Z then bind (d_add ds a) (unique_loop size t) else Ok ds
  end.
(** 9-36 *)
Definition get_unique (atoms : list A) (size : Z) : result dataset := unique_loop size (orderlist atoms) (Dataset [] [] []).

(** 58-65 *)
Fixpoint train_loop (size : option Z) (taken : option (list nat)) (l : list (nat * A)) (ds : dataset) : result dataset :=
  match l with
  | [] => Ok ds
  | a :: t =>
      let n := Z.of_nat (length (d_atoms ds)) in
      if match size with None => true | Some s => (n <? s)%Z end then
        if match taken with None => true | Some tk => negb (existsb (Nat.eqb (fst a)) tk) end
        then bind (d_add ds a) (train_loop size taken t)
        else train_loop size taken t ds
      else if match size with None => false | Some s => (n =? s)%Z end then Ok ds
      else train_loop size taken t ds
  end.
(** 39-67 *)
Definition get_train (atoms : list A) (size : option Z) (taken : option (list nat)) : result dataset :=
  train_loop size taken (orderlist atoms) (Dataset [] [] []).
End Data.
Arguments Dataset {A V}.

(** ** catmap.py *)
Local Open Scope string_scope.

(** '_'.join(l) *)
Fixpoint join_ (l : list string) : string :=
  match l with
  | [] => ""
  | [x] => x
  | x :: t => x ++ "_" ++ join_ t
  end.

Section Catmap.
(** A database row: the seven fields of _get_adsorbate_fields as strings, and the site if
    it has one.  [fetch] is c.get, which fails for an unknown id. *)
Record dbrow := DbRow { db_fields : list string; db_site : option string }.
Variable fetch : nat -> result dbrow.

(** 43-48 *)
Definition state_key (site_specific : bool) (d : dbrow) : string :=
  join_ (db_fields d ++ [if site_specific then match db_site d with Some s => s | None => "site" end else "site"])%list.

(** Dictionaries as association lists; [put] is d[k] = v. *)
Fixpoint get {V} (d : list (string * V)) (k : string) : option V :=
  match d with [] => None | (k', v) :: t => if String.eqb k k' then Some v else get t k end.
Fixpoint put {V} (d : list (string * V)) (k : string) (v : V) : list (string * V) :=
  match d with
  | [] => [(k, v)]
  | (k', v') :: t => if String.eqb k k' then (k', v) :: t else (k', v') :: put t k v
  end.
(** d.update(e) *)
Definition update {V} (d e : list (string * V)) : list (string * V) := fold_left (fun d q => put d (fst q) (snd q)) e d.

Record landscape := Landscape { formation : list (string * R); std_ : list (string * R); dbid : list (string * nat) }.

(** 39-56; [uncertainty] is None by default, which cannot be indexed. *)
Fixpoint catmap_loop (site_specific : bool) (ids : list nat) (prediction : list R) (uncertainty : option (list R)) (i : nat) (l : landscape) : result landscape :=
  match ids with
  | [] => Ok l
  | id :: t =>
      bind (fetch id) (fun d =>
      let key := state_key site_specific d in
      let store p :=
        match uncertainty with
        | None => Err TypeError
        | Some u => match nth_error u i with
                    | None => Err IndexError
                    | Some s => Ok (Landscape (put (formation l) key p) (put (std_ l) key s) (put (dbid l) key id))
                    end
        end in
      bind (match nth_error prediction i with
            | None => Err IndexError
            | Some p => match get (formation l) key with
                        | None => store p
                        | Some e => if Rltb e p then store p else Ok l
                        end
            end)
      (fun l => catmap_loop site_specific t prediction uncertainty (S i) l))
  end.

(** 6-61; [catmap] is None by default, which has no attributes. *)
Definition catmap_energy_landscape (ids : list nat) (prediction : list R) (uncertainty : option (list R)) (catmap : option landscape)
  (site_specific : bool) : result landscape :=
  match catmap with
  | None => Err AttributeError
  | Some c =>
      bind (catmap_loop site_specific ids prediction uncertainty 0 (Landscape [] [] [])) (fun l =>
      Ok (Landscape (update (formation c) (formation l)) (update (std_ c) (std_ l)) (update (dbid c) (dbid l))))
  end.
End Catmap.

(** ** networkx_graph_api.py *)
(** A graph: the atomic numbers of the nodes 0, 1, ... and the edges. *)
Record graph := Graph { g_numbers : list Z; g_edges : list (nat * nat) }.

(** 14-52 for a structure with neighbour list [nl] (attached or from ASE); a neighbour
    outside the structure, which would add a node without atomic number, is not
    represented and is an error here already rather than in networkx_to_adjacency. *)
Definition ase_to_networkx (numbers : list Z) (nl : list (nat * list nat)) : result graph :=
  let es := flat_map (fun q => map (fun j => (fst q, j)) (snd q)) nl in
  if forallb (fun e => (fst e <? length numbers)%nat && (snd e <? length numbers)%nat) es then Ok (Graph numbers es) else Err TypeError.

Definition has_edge (g : graph) (i j : nat) : bool :=
  existsb (fun e => ((fst e =? i) && (snd e =? j) || (fst e =? j) && (snd e =? i))%nat) (g_edges g).

(** 55-78; NetworkX edges are undirected and not counted twice *)
Definition networkx_to_adjacency (g : graph) : list (list Z) :=
  let n := length (g_numbers g) in
  map (fun i => map (fun j => ((if has_edge g i j then 1 else 0) + (if (i =? j)%nat then nth i (g_numbers g) 0 else 0))%Z) (seq 0 n)) (seq 0 n).

(** 81-100 for integer matrices; those which are not square are rejected here *)
Definition matrix_to_nl (matrix : list (list Z)) : result (list (nat * list nat)) :=
  let n := length matrix in
  if negb (forallb (fun r => (length r =? n)%nat) matrix) then Err AttributeError else
  let at_ i j := if (i =? j)%nat then 0%Z else nth j (nth i matrix []) 0%Z in
  if forallb (fun i => forallb (fun j => (at_ i j =? at_ j i)%Z) (seq 0 n)) (seq 0 n)
  then Ok (map (fun i => (i, filter (fun j => (at_ i j =? 1)%Z) (seq 0 n))) (seq 0 n))
  else Err AssertionError.

Local Open Scope R_scope.

(** ** penalty_functions.py *)
Definition euclidean (x y : list R) : R := sqrt (sumR (map (fun q => (fst q - snd q) ^ 2) (combine x y))).

(** np.min(distance.cdist([i], train, 'euclidean')) *)
Definition min_dist (i : list R) (train : list (list R)) : result R :=
  if forallb (fun r => (length r =? length i)%nat) train then
    match train with [] => Err ValueError | _ => Ok (lmin (map (euclidean i) train)) end
  else Err ValueError.

Fixpoint mapR {A B} (f : A -> result B) (l : list A) : result (list B) :=
  match l with
  | [] => Ok []
  | x :: t => bind (f x) (fun y => bind (mapR f t) (fun r => Ok (y :: r)))
  end.

(** 33-58 *)
Definition penalty_close (train test : list (list R)) (c_min_crit d_min_crit : R) : result (list R) :=
  mapR (fun i => bind (min_dist i train) (fun d => Ok (if Rltb d d_min_crit then c_min_crit * (d - d_min_crit) ^ 2 else 0))) test.
(** 60-85 *)
Definition penalty_far (train test : list (list R)) (c_max_crit d_max_crit : R) : result (list R) :=
  mapR (fun i => bind (min_dist i train) (fun d => Ok (if Rltb d_max_crit d then c_max_crit * (d - d_max_crit) ^ 2 else 0))) test.

(** ** neighborlist.py: catlearn_neighborlist *)
(** Matrices of one entry for each pair of atoms, as functions. *)
Notation mat := (nat -> nat -> R).

(** 133-136 *)
Definition shell_res (dist rb : mat) (n : nat) : mat := fun i j =>
  let r := dist i j - rb i j * INR (n + 1) in
  let r := if Rltb 0 r then 0 else r in
  if Rltb r 0 then INR (n + 1) else r.
(** 106-143: the new distances and connection matrix *)
Definition neighbor_iterator (dist rb : mat) (n : nat) (conn : mat) : mat * mat :=
  let res := shell_res dist rb n in
  (fun i j => dist i j + res i j * 10000, fun i j => conn i j + res i j).
(** 141 for [k] atoms *)
Definition unconnected (k : nat) (conn : mat) : nat :=
  List.length (filter (fun q => Reqb (conn (fst q) (snd q)) 0) (list_prod (seq 0 k) (seq 0 k))).

(** 88-90: shells n, n + 1, ... *)
Fixpoint shells (m : nat) (n : nat) (rb : mat) (s : mat * mat) : mat * mat :=
  match m with O => s | S m => shells m (S n) rb (neighbor_iterator (fst s) rb n (snd s)) end.
(** 92-96; the number of passes is not bounded by the code *)
Fixpoint shells_full (fuel k n : nat) (rb : mat) (s : mat * mat) : option mat :=
  match fuel with
  | O => None
  | S fuel =>
      let s := neighbor_iterator (fst s) rb n (snd s) in
      if (unconnected k (snd s) =? 0)%nat then Some (snd s) else shells_full fuel k (S n) rb s
  end.

Inductive max_neighbor := Shells (m : nat) | Full | Other.

(** 82-84 with radii [r] and buffers [b] of the atoms: the sum of the two matrices *)
Definition cutoff_matrix (r b : nat -> R) : mat := fun i j => (r j + r i) + (b j + b i / 2).

(** 43-103 for [k] atoms with numbers [an], distances [dist]; [radius] is get_radius *)
Definition catlearn_neighborlist (fuel k : nat) (an : nat -> Z) (dist : mat) (radius : Z -> R) (dx : option (Z -> option R)) (max : max_neighbor) :
  option (result mat) :=
  let dx := match dx with None => fun z => Some (radius z / 5) | Some d => d end in
  if forallb (fun i => match dx (an i) with Some _ => true | None => false end) (seq 0 k) then
    let b i := match dx (an i) with Some x => x | None => 0 end in
    let rb := cutoff_matrix (fun i => radius (an i)) b in
    let zero_diag (c : mat) : mat := fun i j => if (i =? j)%nat then 0 else c i j in
    match max with
    | Shells m => Some (Ok (zero_diag (snd (shells m 0 rb (dist, fun _ _ => 0)))))
    | Full => match shells_full fuel k 0 rb (dist, fun _ _ => 0) with None => None | Some c => Some (Ok (zero_diag c)) end
    | Other => Some (Err NotImplementedError)
    end
  else Some (Err KeyError).
