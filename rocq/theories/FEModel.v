(** Model of catlearn/preprocess/feature_engineering.py and of catlearn_pca in
    catlearn/preprocess/feature_extraction.py.

    Here a feature matrix is the list of its columns, because all functions work
    column by column.  Real numbers stand for finite floats.  The MemoryError
    checks (51-53, 86-88) are left out. *)
From Coq Require Import String Reals List Bool Arith.
From Verif Require Import Base RBase PrepModel DBModel.
Import ListNotations.
Open Scope R_scope.

(** Entrywise operation on two columns of one matrix. *)
Definition zip {A B C} (f : A -> B -> C) (a : list A) (b : list B) : list C :=
  map (fun p => f (fst p) (snd p)) (combine a b).

(** A[:, f]. *)
Definition column_of {A} (cols : list (list A)) (f : nat) : list A := nth f cols [].

(** The loop pattern new_features[:, nfi] = value; nfi += 1 on preallocated zeros. *)
Definition write_columns {A} (zeros vals : list (list A)) : list (list A) :=
  fst (fold_left (fun st v => (set_nth (snd st) v (fst st), S (snd st))) vals (zeros, 0%nat)).

(** Loop indices f1 in range(m), f2 in range(f1, m), and all f1, f2. *)
Definition tri_pairs (m : nat) : list (nat * nat) :=
  flat_map (fun f1 => map (pair f1) (seq f1 (m - f1))) (seq 0 m).
Definition all_pairs (m : nat) : list (nat * nat) :=
  flat_map (fun f1 => map (pair f1) (seq 0 m)) (seq 0 m).

(** sum(range(m + 1)). *)
Definition triangular (m : nat) : nat := fold_left Nat.add (seq 0 (m + 1)) 0%nat.

(** single_transform, 10-28: squares, square roots and logarithms. *)
Definition shifted (c : list R) : list R := map (fun x => x + Rabs (lmin c) + 1) c.
Definition single_transform (cols : list (list R)) : list (list R) :=
  map (map (fun x => x ^ 2)) cols ++ map (fun c => map sqrt (shifted c)) cols ++
  map (fun c => map ln (shifted c)) cols.

(** get_order_2, 31-62, with [n] rows. *)
Definition get_order_2 (n : nat) (cols : list (list R)) : list (list R) :=
  let m := length cols in
  write_columns (repeat (repeat 0 n) (triangular m))
    (map (fun p => zip Rmult (column_of cols (fst p)) (column_of cols (snd p))) (tri_pairs m)).

(** numpy true_divide: x/0 is infinite, 0/0 is nan. *)
Definition true_divide (x y : R) : fl :=
  if Reqb y 0 then (if Reqb x 0 then NaN else Inf) else Fin (x / y).

(** get_div_order_2, 65-98. *)
Definition get_div_order_2 (n : nat) (cols : list (list R)) : list (list fl) :=
  let m := length cols in
  write_columns (repeat (repeat (Fin 0) n) (m ^ 2))
    (map (fun p => zip true_divide (column_of cols (fst p)) (column_of cols (snd p)))
         (filter (fun p => negb (fst p =? snd p)%nat) (all_pairs m))).

(** get_labels_order_2, 101-126. *)
Definition get_labels_order_2 (l : list string) (div : bool) : list string :=
  map (fun p => (nth (fst p) l "" ++ (if div then "_div_" else "_x_") ++ nth (snd p) l "")%string)
      (if div then all_pairs (length l) else tri_pairs (length l)).

(** get_order_2ab, 129-156; [pa] and [pb] are x -> x**a and x -> x**b. *)
Definition get_order_2ab (n : nat) (cols : list (list R)) (pa pb : R -> R) : list (list R) :=
  let m := length cols in
  write_columns (repeat (repeat 0 n) (triangular m))
    (map (fun p => zip (fun x y => pa x * pb y) (column_of cols (fst p)) (column_of cols (snd p)))
         (tri_pairs m)).

(** get_labels_order_2ab, 159-178; [sa], [sb]: str(a), str(b). *)
Definition get_labels_order_2ab (l : list string) (sa sb : string) : list string :=
  map (fun p => (nth (fst p) l "" ++ "_" ++ sa ++ "_x_" ++ nth (snd p) l "" ++ "_" ++ sb)%string)
      (tri_pairs (length l)).

(** get_ablog, 181-210.  Also returns the caller's matrix after the call: line
    202 shifts it in place. *)
Definition get_ablog (n : nat) (cols : list (list R)) (a b : R) : list (list R) * list (list R) :=
  let m := length cols in
  let A := map shifted cols in
  (write_columns (repeat (repeat 0 n) (triangular m))
     (map (fun p => zip (fun x y => a * ln x + b * ln y) (column_of A (fst p)) (column_of A (snd p)))
          (tri_pairs m)), A).

(** get_labels_ablog, 213-233. *)
Definition get_labels_ablog (l : list string) (sa sb : string) : list string :=
  map (fun p => ("log" ++ sa ++ "_" ++ nth (fst p) l "" ++ "log" ++ sb ++ "_" ++ nth (snd p) l "")%string)
      (tri_pairs (length l)).

(** ** Monomials *)
(** itertools.combinations_with_replacement(p, k), in its (lexicographic) order. *)
Fixpoint cwr {A} (p : list A) : nat -> list (list A) :=
  match p with
  | [] => fun k => match k with 0%nat => [[]] | S _ => [] end
  | x :: t => fix go k := match k with
                          | 0%nat => [[]]
                          | S k' => map (cons x) (go k') ++ cwr t (S k')
                          end
  end.

(** Loop of lines 357-358: degrees N, N-1, ..., 1. *)
Definition powers {A} (p : list A) (N : nat) : list (list A) := flat_map (cwr p) (rev (seq 1 N)).

(** '*'.join. *)
Definition join (l : list string) : string := String.concat "*" l.

(** generate_positive_features with s=True, 314-371, for a list of strings. *)
Definition positive_strings (p : list string) (N : nat) (exclude : bool) : list string :=
  if (N =? 0)%nat then ["1"%string]
  else if (N =? 1)%nat then p ++ (if exclude then [] else ["1"%string])
  else (map join (powers p N) ++ (if exclude then [] else ["1"%string]))%list.

(** generate_positive_features with s=False for a list of numbers: line 363
    evaluates the text v1*v2*...; the text of a float evaluates to that float
    and * is left associative. *)
Definition product (l : list R) : R := match l with [] => 1 | x :: t => fold_left Rmult t x end.
Definition positive_features (p : list R) (N : nat) (exclude : bool) : list R :=
  if (N =? 0)%nat then [1]
  else if (N =? 1)%nat then p ++ (if exclude then [] else [1])
  else map product (powers p N) ++ (if exclude then [] else [1]).

(** _decode_key, 271-311, as a number.  The elements of the key are looked up and
    equal ones collected as element^count; '^' becomes '**' (448) before
    evaluation, so a negative number raised to a power c >= 2 is the text
    -v**c, which Python reads as -(v**c).  Sorting the factors (297) does not
    change the exact product and is left out. *)
Fixpoint uniq (l : list R) : list R :=
  match l with [] => [] | x :: t => x :: filter (fun y => negb (Reqb x y)) (uniq t) end.
Definition count (x : R) (l : list R) : nat := length (filter (Reqb x) l).
Definition factor (v : R) (c : nat) : R :=
  if (c =? 1)%nat then v else if Rltb v 0 then - ((- v) ^ c) else v ^ c.
Definition decode_key (p : list R) (key : list nat) : R :=
  let l := map (fun i => nth i p 0) key in
  product (map (fun v => factor v (count v l)) (uniq l)).

(** Python float division. *)
Definition pydiv (x y : R) : result R := if Reqb y 0 then Err ZeroDivisionError else Ok (x / y).

(** Line 435-436: no common element. *)
Definition disjointb (k1 k2 : list nat) : bool := negb (existsb (fun i => existsb (Nat.eqb i) k2) k1).

(** generate_features with s=False for a list of numbers, 374-449.  With
    max_num = 0 and max_den = 1 the keys are the numbers themselves and the
    concatenation of line 418 raises TypeError. *)
Definition generate_features (p : list R) (max_num max_den : nat) (exclude : bool) : result (list R) :=
  let n := length p in
  if (max_den =? 0)%nat then Ok (positive_features p max_num exclude)
  else if (max_num =? 0)%nat then
    if (max_den =? 1)%nat && negb (n =? 0)%nat then Err TypeError
    else map_result (fun k => pydiv 1 (product k))
           (powers p max_den ++ (if exclude then [] else [[]]))
  else
    let K1 := powers (seq 0 n) max_num in
    let K2 := powers (seq 0 n) max_den in
    let quotients := flat_map (fun k1 => map (pair k1) (filter (disjointb k1) K2)) K1 in
    map_result (fun q => pydiv (decode_key p (fst q)) (decode_key p (snd q)))
      (quotients ++ map (fun k1 => (k1, [])) K1 ++ map (fun k2 => ([], k2)) K2 ++
       (if exclude then [] else [([], [])])).

(** ** catlearn_pca, feature_extraction.py:102-148.  [u] are the left singular
    vectors and [s] the singular values returned by np.linalg.svd; numpy returns
    them in decreasing order. *)
Definition variance_percent (s : list R) : list R :=
  map (fun x => x / sumR s * 100) (rev (isort Rleb s)).

(** Projection matrix, lines 137-141: its columns. *)
Definition projection (u : list (list R)) (s : list R) (components : nat) : result (list (list R)) :=
  if (components =? 0)%nat then Err AssertionError
  else match s with
       | [] => Err IndexError
       | _ => if (components - 1 <=? length s)%nat
              then Ok (column_of u 0 :: map (column_of u) (seq 0 (components - 1)))
              else Err IndexError
       end.

Definition dot (a b : list R) : R := sumR (zip Rmult a b).

Definition pca_transform (pm : list (list R)) (rows : matrix) : matrix :=
  map (fun r => map (dot r) pm) rows.
