(** Model of catlearn/utilities/clustering.py, sammon.py, distribution.py, target_correlation of
    catlearn/utilities/utilities.py and cluster of catlearn/active_learning/acquisition_functions.py.
    Real numbers stand for floats; infinities and NaN are separate values where the code can produce them. *)
From Coq Require Import String List Arith Bool Reals.
From Verif Require Import Base RBase PrepModel.
Import ListNotations.
Set Implicit Arguments.
Local Open Scope string_scope.
Local Open Scope list_scope.
Local Open Scope nat_scope.

Notation row := (list R).

(** np.linalg.norm(x - y) *)
Definition distance (x y : row) : R := sqrt (sumR (map (fun p => (fst p - snd p) ^ 2)%R (combine x y))).

(** ** clustering.py *)
(** A defaultdict(list) with the keys in order of insertion. *)
Fixpoint dappend {A} (l : nat) (v : A) (d : list (nat * list A)) : list (nat * list A) :=
  match d with
  | [] => [(l, [v])]
  | (k, vs) :: t => if l =? k then (k, vs ++ [v]) :: t else (k, vs) :: dappend l v t
  end.

(** 52-66 _cluster_split: without targets the loop unpacks pairs into three names *)
Definition cluster_split (features : list row) (target : option (list R)) (order : list nat) :
  result (list (nat * list row) * option (list (nat * list R))) :=
  match target with
  | Some ts =>
    let z := combine (combine features ts) order in
    Ok (fold_left (fun d e => dappend (snd e) (fst (fst e)) d) z [], Some (fold_left (fun d e => dappend (snd e) (snd (fst e)) d) z []))
  | None => match combine features order with [] => Ok ([], None) | _ => Err ValueError end
  end.

(** 35-40 the loop over the centroids, with the index and distance found so far *)
Fixpoint nearest (t : row) (cs : list row) (i : nat) (best : option (nat * R)) : option nat :=
  match cs with
  | [] => option_map fst best
  | c :: rest =>
    let d := distance t c in
    nearest t rest (S i) (match best with
                          | None => Some (i, d)
                          | Some b => if Rltb d (snd b) then Some (i, d) else best
                          end)
  end.

Fixpoint test_order (centroids : list row) (ts : list row) : result (list nat) :=
  match ts with
  | [] => Ok []
  | t :: r => match nearest t centroids 0 None with
              | None => Err NameError
              | Some i => bind (test_order centroids r) (fun l => Ok (i :: l))
              end
  end.

Record clusters := Clusters {
  train_order : list nat; train_features : list (nat * list row); train_target : option (list (nat * list R));
  order_of_test : list nat; test_features : list (nat * list row); test_target : option (list (nat * list R)) }.

Section Clustering.
(** scipy.cluster.vq.kmeans2: centroids and the cluster of each row *)
Variable kmeans2 : list row -> nat -> list row * list nat.

(** 7-49 cluster_features; iterating over None is a TypeError *)
Definition cluster_features (train : list row) (target : option (list R)) (k : nat) (test : option (list row)) (ttarget : option (list R)) : result clusters :=
  let co := kmeans2 train k in
  bind (cluster_split train target (snd co)) (fun tr =>
  match test, ttarget with
  | Some ts, Some tg =>
    bind (test_order (fst co) (map fst (combine ts tg))) (fun order =>
    bind (cluster_split ts (Some tg) order) (fun te =>
    Ok (Clusters (snd co) (fst tr) (snd tr) order (fst te) (snd te))))
  | _, _ => Err TypeError
  end).

(** 7-8: a call with keyword arguments fails for a name that is not a parameter *)
Definition parameters : list string := ["train_matrix"; "train_target"; "k"; "test_matrix"; "test_target"].
Definition call_cluster_features (keywords : list string) (train : list row) (target : option (list R)) (k : nat) (test : option (list row)) (ttarget : option (list R)) : result clusters :=
  if forallb (fun w => existsb (String.eqb w) parameters) keywords then cluster_features train target k test ttarget else Err TypeError.

(** acquisition_functions.py 153-182 cluster; Counter and division by zero of numpy floats as in Python *)
Definition acquisition_cluster (train : list row) (targets : list R) (test : list row) (predictions : list R) (k_means : nat) : result (list R) :=
  bind (call_cluster_features ["train_matrix"; "train_target"; "k_means"; "test_matrix"; "test_target"] train (Some targets) k_means (Some test) (Some predictions)) (fun cf =>
  Ok (map (fun p => nth (fst p) predictions 0 / INR (count_occ Nat.eq_dec (train_order cf) (snd p)))%R
          (combine (seq 0 (length (order_of_test cf))) (order_of_test cf)))).
End Clustering.

(** ** sammon.py *)
Inductive number := Fin (x : R) | Inf | NaN.

(** The entries below the diagonal of the distance matrix, row by row. *)
Definition lower_pairs (n : nat) : list (nat * nat) := concat (map (fun i => map (pair i) (seq 0 i)) (seq 0 n)).
Definition lower_distances (m : list row) : list R := map (fun p => distance (nth (fst p) m []) (nth (snd p) m [])) (lower_pairs (length m)).

(** 30-34: 0/0 is replaced by zero, but x/0 is infinite *)
Definition entry_error (o r : R) : number :=
  if Reqb o 0 then (if Reqb r 0 then Fin 0%R else Inf) else Fin ((o - r) ^ 2 / o)%R.
Fixpoint total (l : list number) : number :=
  match l with
  | [] => Fin 0%R
  | x :: t => match x, total t with Fin a, Fin b => Fin (a + b)%R | NaN, _ => NaN | _, NaN => NaN | _, _ => Inf end
  end.

(** 6-39 sammons_error for as many reduced as original points (one point against several, which numpy
    broadcasts, is outside the model) *)
Definition sammons_error (original reduced : list row) : result number :=
  if negb (length original =? length reduced) then Err ValueError else
  let o := lower_distances original in
  let r := lower_distances reduced in
  let d := total (map (fun p => entry_error (fst p) (snd p)) (combine o r)) in
  Ok (if Reqb (sumR o) 0 then match d with Fin x => if Reqb x 0 then NaN else Inf | _ => d end
      else match d with Fin x => Fin (/ sumR o * x)%R | _ => d end).

(** ** distribution.py *)
(** An atoms object: atomic numbers and the distances, with and without the minimum image convention *)
Record geometry := Geom { numbers : list nat; all_distances : bool -> nat -> nat -> R }.
Inductive selection := Every | One (z : nat) | Two (a b : nat).

(** np.histogram with a range: the last bin is closed *)
Definition edge (lo hi : R) (bins i : nat) : R := (lo + INR i * ((hi - lo) / INR bins))%R.
Definition in_bin (lo hi : R) (bins i : nat) (x : R) : bool :=
  Rleb (edge lo hi bins i) x && (Rltb x (edge lo hi bins (S i)) || ((S i =? bins) && Rleb x hi)).
Definition histogram (lo hi : R) (bins : nat) (xs : list R) : list R :=
  map (fun i => INR (length (filter (in_bin lo hi bins i) xs))) (seq 0 bins).
Definition add_lists (a b : list R) : list R := map (fun p => fst p + snd p)%R (combine a b).

Definition with_number (z : nat) (g : geometry) : list nat := filter (fun i => nth i (numbers g) 0 =? z) (seq 0 (length (numbers g))).
Definition subset (l : list nat) (g : geometry) : geometry :=
  Geom (map (fun i => nth i (numbers g) 0) l) (fun mic i j => all_distances g mic (nth i l 0) (nth j l 0)).

Fixpoint radii (f : nat -> option R) (zs : list nat) : result (list R) :=
  match zs with [] => Ok [] | z :: t => match f z with None => Err KeyError | Some r => bind (radii f t) (fun l => Ok (r :: l)) end end.

(** 86-144 _distance_hist: the rows of distances. Line 112 passes the atoms in place of mic, so that the minimum
    image convention is used whatever mic is. Cutoffs given as a list are not modelled. *)
Definition distance_rows (mic : bool) (element : selection) (cutoffs : option (nat -> option R)) (g : geometry) : result (list (list R)) :=
  let a := match element with Two x y => if x =? y then subset (with_number x g) g else g | _ => g end in
  bind (match cutoffs with None => Ok (map (fun _ => 0%R) (numbers a)) | Some f => radii f (numbers a) end) (fun c =>
  let all := seq 0 (length (numbers a)) in
  let d := fun i j => (all_distances a true i j - nth j c 0 - nth i c 0)%R in
  let sel := match element with
             | Every => (all, all)
             | One z => (with_number z a, all)
             | Two x y => if x =? y then (all, all) else (with_number x a, with_number y a)
             end in
  Ok (map (fun i => map (d i) (snd sel)) (fst sel))).

(** 134-144: None is an array of NaN *)
Definition distance_hist (lo hi : R) (bins : nat) (rows : list (list R)) : option (list R) :=
  if length rows =? 0 then None
  else Some (map (fun x => x / INR (length rows))%R (fold_left (fun acc r => add_lists acc (histogram lo hi bins r)) rows (repeat 0%R bins))).

(** 33-39 and 73-80: np.nansum takes NaN for zero *)
Fixpoint accumulate (lo hi : R) (bins : nat) (mic : bool) (element : selection) (cutoffs : option (nat -> option R)) (images : list geometry) (pdf : list R) : result (list R) :=
  match images with
  | [] => Ok pdf
  | g :: t => bind (distance_rows mic element cutoffs g) (fun rows =>
      accumulate lo hi bins mic element cutoffs t (match distance_hist lo hi bins rows with None => pdf | Some h => add_lists pdf h end))
  end.

(** 46-47 and 82-83: len(x0) is bins + 1 *)
Definition positions (lo hi : R) (bins : nat) : list R :=
  map (fun i => edge lo hi bins i + (edge lo hi bins bins - edge lo hi bins 0) / INR (bins + 1) / 2)%R (seq 0 bins).

(** 9-48 pair_distribution; None for no images (0/0) *)
Definition pair_distribution (images : list geometry) (bins : nat) (lo hi : R) (mic : bool) (element : selection) : result (option (list R) * list R) :=
  bind (accumulate lo hi bins mic element None images (repeat 0%R bins)) (fun pdf =>
  Ok (if length images =? 0 then None
      else Some (map (fun p => snd p / (INR (length images) * 4 * PI * (edge lo hi bins (S (fst p)) ^ 3 - edge lo hi bins (fst p) ^ 3) / 3))%R
                     (combine (seq 0 bins) pdf)),
      positions lo hi bins)).

(** 51-83 pair_deviation *)
Definition pair_deviation (images : list geometry) (cutoffs : nat -> option R) (bins : nat) (lo hi : R) (mic : bool) (element : selection) : result (option (list R) * list R) :=
  bind (accumulate lo hi bins mic element (Some cutoffs) images (repeat 0%R bins)) (fun pdf =>
  Ok (if length images =? 0 then None else Some (map (fun x => x / INR (length images))%R pdf), positions lo hi bins)).

(** ** utilities.py target_correlation *)
(** scipy.stats.pearsonr: None is NaN *)
Definition pearson (x y : list R) : option R :=
  let mx := mean x in let my := mean y in
  let sxy := sumR (map (fun p => (fst p - mx) * (snd p - my))%R (combine x y)) in
  let sx := sumR (map (fun a => (a - mx) ^ 2)%R x) in
  let sy := sumR (map (fun b => (b - my) ^ 2)%R y) in
  if Reqb sx 0 || Reqb sy 0 then None else Some (sxy / (sqrt sx * sqrt sy))%R.

(** scipy.stats.rankdata with averaged ties *)
Definition ranks (x : list R) : list R :=
  map (fun a => (INR (length (filter (fun b => Rltb b a) x)) + (INR (length (filter (fun b => Reqb b a) x)) + 1) / 2)%R) x.
Definition spearman (x y : list R) : option R := pearson (ranks x) (ranks y).

(** scipy.stats.kendalltau (tau-b) *)
Definition sign (x : R) : R := if Rltb 0 x then 1%R else if Rltb x 0 then (-1)%R else 0%R.
Definition kendall (x y : list R) : option R :=
  let ps := list_prod (seq 0 (length x)) (seq 0 (length x)) in
  let sx := fun p => sign (nth (fst p) x 0 - nth (snd p) x 0)%R in
  let sy := fun p => sign (nth (fst p) y 0 - nth (snd p) y 0)%R in
  let a := sumR (map (fun p => sx p ^ 2)%R ps) in
  let b := sumR (map (fun p => sy p ^ 2)%R ps) in
  if Reqb a 0 || Reqb b 0 then None else Some (sumR (map (fun p => sx p * sy p)%R ps) / (sqrt a * sqrt b))%R.

Definition coefficient (name : string) : option (list R -> list R -> option R) :=
  if String.eqb name "pearson" then Some pearson
  else if String.eqb name "spearman" then Some spearman
  else if String.eqb name "kendall" then Some kendall else None.

(** 90-125 target_correlation: a name that is not known gives an empty row; different lengths are an error *)
Definition target_correlation (train : matrix) (target : list R) (names : list string) : result (list (list (option R))) :=
  let data := s_train (standardize train None None None true) in
  if negb (length train =? length target) then Err ValueError else
  Ok (map (fun name => match coefficient name with
                       | None => []
                       | Some f => map (fun j => f (col 0%R j data) target) (seq 0 (width data))
                       end) names).
