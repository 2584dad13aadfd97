(** Model of catlearn/ga (algorithm.py, natural_selection.py, convergence.py,
    mutate.py, mating.py, initialize.py). *)
From Coq Require Import List Arith Bool ZArith QArith.
From Verif Require Import Base.
Import ListNotations.
Set Implicit Arguments.
Local Open Scope nat_scope.

(** ** natural_selection.py *)
Section Selection.
(** [C]: candidates; [F]: fitness values, compared by [leb] (floats, no NaN). *)
Context {C F G : Type}.
Variable leb : F -> F -> bool.

(** population_reduction, natural_selection.py:26-34 (lines 36-46 of the source
    are unreachable): zip, stable sort by decreasing fitness, keep the first
    [size]. *)
Definition desc_pair (a b : C * F) : bool := leb (snd b) (snd a).

Definition population_reduction (pop : list C) (fit : list F) (size : nat) : list C * list F :=
  let g := isort desc_pair (combine pop fit) in
  (map fst (firstn size g), map snd (firstn size g)).

(** remove_duplicates, natural_selection.py:49-83.  [rnd] is
    [np.round(., accuracy)], [geqb] equality of rounded values.  [unique] is the
    set of rounded values still unseen; its (sorted) order is irrelevant. *)
Variable rnd : F -> G.
Variable geqb : G -> G -> bool.

Fixpoint remove_first (x : G) (l : list G) : list G :=
  match l with [] => [] | y :: t => if geqb y x then t else y :: remove_first x t end.

Fixpoint unique_vals (l : list G) : list G :=
  match l with
  | [] => []
  | x :: t => let u := unique_vals t in if existsb (geqb x) u then u else x :: u
  end.

(** Loop at lines 73-78: indices (from [i] on) classified as duplicate. *)
Fixpoint find_duplicates (i : nat) (rounded : list G) (unique : list G) : list nat :=
  match rounded with
  | [] => []
  | r :: t =>
    if existsb (fun u => geqb u r) unique
    then find_duplicates (S i) t (remove_first r unique)
    else i :: find_duplicates (S i) t unique
  end.

Definition remove_duplicates (pop : list C) (fit : list F) : list C * list F :=
  let rounded := map rnd fit in
  let dup := find_duplicates 0 rounded (unique_vals rounded) in
  (delete_idx pop dup, delete_idx fit dup).
End Selection.

(** ** convergence.py *)
Section Convergence.
Context {F : Type}.
Variable leb : F -> F -> bool.
(** [ninf]: float('-inf'). *)
Variable ninf : F.

Fixpoint maxl (x : F) (l : list F) : F :=
  match l with [] => x | y :: t => maxl (if leb x y then y else x) t end.
Fixpoint minl (x : F) (l : list F) : F :=
  match l with [] => x | y :: t => minl (if leb y x then y else x) t end.

(** np.max / np.min raise ValueError on an empty array. *)
Definition np_max (l : list F) : result F :=
  match l with [] => Err ValueError | x :: t => Ok (maxl x t) end.
Definition np_min (l : list F) : result F :=
  match l with [] => Err ValueError | x :: t => Ok (minl x t) end.

(** no_progress, convergence.py:14-40, on the maximum of the fitness list.
    State: (previous, count); the initial state is (-inf, 0) (lines 9-12). *)
Definition no_progress_max (repeat : nat) (st : F * nat) (m : F) : bool * (F * nat) :=
  let '(previous, count) := st in
  let st' := if leb m previous then (previous, count + 1) else (m, 0) in
  (repeat <? snd st', st').

Definition no_progress (repeat : nat) (st : F * nat) (fitness : list F)
  : result (bool * (F * nat)) :=
  bind (np_max fitness) (fun m => Ok (no_progress_max repeat st m)).

(** stagnation, convergence.py:42-68, on the pair (min, max).  The initial
    [previous] is the float -inf, which differs from every tuple. *)
Variable feqb : F -> F -> bool.
Definition stagnation_pair (repeat : nat) (st : option (F * F) * nat) (mm : F * F)
  : bool * (option (F * F) * nat) :=
  let '(previous, count) := st in
  let same := match previous with
              | None => false
              | Some (a, b) => feqb (fst mm) a && feqb (snd mm) b
              end in
  let st' := if same then (previous, count + 1) else (Some mm, 0) in
  (repeat <? snd st', st').
End Convergence.

(** ** algorithm.py: the search loop (lines 100-166), single objective. *)
Section Search.
Context {C F G : Type}.
Variable leb : F -> F -> bool.
Variable ninf : F.
Variable rnd : F -> G.
Variable geqb : G -> G -> bool.
(** [score c]: the cross-validated fitness of [c] (_cross_validate; a failed
    fitness function gives -inf).  It depends only on the candidate because the
    folds are fixed in __init__. *)
Variable score : C -> F.
(** Settings: population_size, accuracy is not None, natural_selection, repeat. *)
Variable size : nat.
Variable dedup : bool.
Variable natsel : bool.
Variable repeat_ : nat.
(** [offs k pop fit]: the offspring list of generation [k] (_new_generation),
    any function of the state: it covers every random outcome. *)
Variable offs : nat -> list C -> list F -> list C.

Record state := mkState { pop : list C; fit : list F; conv : F * nat }.

(** Combination and selection, lines 147-156. *)
Definition combine_select (st : state) (offspring : list C) : list C * list F :=
  let f := fit st ++ map score offspring in
  let p := pop st ++ offspring in
  let '(p, f) := if dedup then remove_duplicates rnd geqb p f else (p, f) in
  if natsel then population_reduction leb p f size else (p, f).

(** One generation: lines 139-166; also tells whether the search stops. *)
Definition generation (k : nat) (st : state) : result (bool * (list C * state)) :=
  let offspring := offs k (pop st) (fit st) in
  let '(p, f) := combine_select st offspring in
  bind (no_progress leb repeat_ (conv st) f) (fun r =>
  Ok (fst r, (offspring, mkState p f (snd r)))).

(** The loop over steps; returns the offspring and state of every executed
    generation. *)
Fixpoint search_loop (steps k : nat) (st : state) : result (list (list C * state)) :=
  match steps with
  | 0 => Ok []
  | S n =>
    bind (generation k st) (fun r =>
    if fst r then Ok [snd r]
    else bind (search_loop n (S k) (snd (snd r))) (fun tr => Ok (snd r :: tr)))
  end.

(** search, lines 128-166: evaluate the initial population, one initial
    convergence call, then the loop. *)
Definition search (steps : nat) (pop0 : list C) : result (state * list (list C * state)) :=
  let fit0 := map score pop0 in
  bind (no_progress leb repeat_ (ninf, 0) fit0) (fun r =>
  let st0 := mkState pop0 fit0 (snd r) in
  bind (search_loop steps 0 st0) (fun tr => Ok (st0, tr))).
End Search.

(** ** algorithm.py:283-306 _parallel_iterator.
    [order]: the (unspecified) order argsort gives, i.e. the list [i] of line
    288, any permutation of the positions.  [done]: the order in which
    imap_unordered yields the workers' results. *)
Definition argsort (l : list nat) : list nat :=
  map snd (isort (fun a b => Nat.leb (fst a) (fst b)) (combine l (seq 0 (length l)))).

Definition parallel_iterator {C F} (dC : C) (zero : F) (score : C -> F)
  (order done_ : list nat) (params : list C) : list F :=
  let param_list := gather dC params order in
  let fit := fold_left (fun fit x => set_nth x (score (nth x param_list dC)) fit)
                       done_ (repeat zero (length params)) in
  gather zero fit (argsort order).

(** algorithm.py:247-281 _serial_iterator with nprocs == 1. *)
Definition serial_iterator {C F} (score : C -> F) (params : list C) : list F :=
  map score params.

(** ** algorithm.py:363-420 _cross_validate.
    Folds are lists of (row, target); [mask] switches columns on and off.
    [fit_func] gets (train rows, train targets, test rows, test targets).
    Scores are summed and divided by nsplit; [Err LinAlgError] counts as
    [ninf]; other exceptions propagate.  [add]/[dv] are float addition and
    division by nsplit. *)
Section CrossValidate.
Context {V T F : Type}.
Variable add : F -> F -> F.
Variable dv : F -> nat -> F.
Variable zero ninf : F.
Variable fit_func : list (list V) -> list T -> list (list V) -> list T -> result F.

Definition cv_train (folds : list (list (list V * T))) (k : nat) : list (list V * T) :=
  concat (firstn k folds ++ skipn (S k) folds).
Definition cv_test (folds : list (list (list V * T))) (k : nat) : list (list V * T) :=
  nth k folds [].

Fixpoint cv_sum (mask : list bool) (folds : list (list (list V * T))) (ks : list nat) (acc : F) : result F :=
  match ks with
  | [] => Ok acc
  | k :: ks' =>
    let tr := cv_train folds k in
    let te := cv_test folds k in
    match fit_func (map (fun r => mask_select mask (fst r)) tr) (map snd tr)
                   (map (fun r => mask_select mask (fst r)) te) (map snd te) with
    | Ok s => cv_sum mask folds ks' (add acc s)
    | Err LinAlgError => cv_sum mask folds ks' (add acc ninf)
    | Err e => Err e
    end
  end.

Definition cross_validate (mask : list bool) (folds : list (list (list V * T))) : result F :=
  let nsplit := length folds in
  bind (cv_sum mask folds (seq 0 nsplit) zero) (fun s => Ok (dv s nsplit)).
End CrossValidate.

(** ** Operators.  Candidates are lists of booleans (the floats 0. and 1.). *)
Notation cand := (list bool).
Definition active (p : cand) : nat := count_true p.

(** cut_and_splice, mating.py:5-32.  [cut] is the draw of
    randint(1, len(parent_one)), which raises ValueError when len <= 1. *)
Definition cut_and_splice (cut : nat) (p1 p2 : cand) : result cand :=
  if length p1 <=? 1 then Err ValueError else Ok (firstn cut p1 ++ skipn cut p2).

(** random_permutation, mutate.py:6-26: flips the gene at the drawn index. *)
Definition random_permutation (index : nat) (p : cand) : cand :=
  set_nth index (negb (nth index p false)) p.

(** probability_remove, mutate.py:29-53.  [hit i] is the outcome of
    [random() >= probability] at index [i]; [index] the draw of line 50. *)
Fixpoint mapi_from {A B} (f : nat -> A -> B) (i : nat) (l : list A) : list B :=
  match l with [] => [] | x :: t => f i x :: mapi_from f (S i) t end.

Definition probability_remove (hit : nat -> bool) (index : nat) (p : cand) : cand :=
  let p1 := mapi_from (fun i g => if g && hit i then false else g) 0 p in
  if length (filter negb p1) =? length p1 then set_nth index true p1 else p1.

(** probability_include, mutate.py:56-75. *)
Definition probability_include (hit : nat -> bool) (p : cand) : cand :=
  mapi_from (fun i g => if negb g && hit i then true else g) 0 p.

(** One pass of the loop of _new_generation, algorithm.py:183-199: the operator
    and its draws are given by [op]; [hit2]/[index2] are the draws of the
    additional probability_remove of line 198. *)
Inductive operation :=
| Mate (p2 : cand) (cut : nat)
| Flip (index : nat)
| Remove (hit : nat -> bool) (index : nat)
| Include (hit : nat -> bool).

Definition mutate (op : operation) (p1 : cand) : cand :=
  match op with
  | Mate _ _ => p1
  | Flip i => random_permutation i p1
  | Remove h i => probability_remove h i p1
  | Include h => probability_include h p1
  end.

Definition make_child (dmax : option nat) (op : operation) (hit2 : nat -> bool) (index2 : nat)
  (p1 : cand) : result cand :=
  match op with
  | Mate p2 cut => cut_and_splice cut p1 p2
  | _ =>
    let mutant := mutate op p1 in
    match dmax with
    | None => Ok mutant
    | Some m => if m <? active mutant then Ok (probability_remove hit2 index2 mutant)
                else Ok mutant
    end
  end.

(** initialize_population, initialize.py:5-29.  [draws]: for each candidate the
    outcome of np.random.choice(n_active, size, replace=False). *)
Definition n_active (dimension : nat) (dmax : option nat) : nat :=
  match dmax with None => dimension | Some m => m end.

(** A possible outcome of line 25-26: between 1 and dmax distinct indices below
    [n_active]. *)
Definition valid_draw (dimension : nat) (dmax : option nat) (idx : list nat) : Prop :=
  NoDup idx /\ (forall i, In i idx -> i < n_active dimension dmax) /\
  1 <= length idx <= n_active dimension dmax.

Fixpoint activate (idx : list nat) (p : cand) : result cand :=
  match idx with
  | [] => Ok p
  | i :: t => if i <? length p then activate t (set_nth i true p) else Err IndexError
  end.

Fixpoint initialize_population (dimension : nat) (draws : list (list nat)) : result (list cand) :=
  match draws with
  | [] => Ok []
  | idx :: t =>
    bind (activate idx (repeat false dimension)) (fun p =>
    bind (initialize_population dimension t) (fun ps => Ok (p :: ps)))
  end.

(** ** _selection, algorithm.py:218-232: the acceptance probability assigned to
    each candidate.  Pairs (fitness, index) are sorted in decreasing
    lexicographic order; position k gets (k+1)/(length+2); then the scales are
    put back in index order. *)
Section SelectionProb.
Context {F : Type}.
Variable leb : F -> F -> bool.
Definition pair_geb (a b : F * nat) : bool :=
  if leb (fst a) (fst b)
  then (if leb (fst b) (fst a) then Nat.leb (snd b) (snd a) else false)
  else true.
Definition selection_order (fits : list F) : list nat :=
  map snd (isort pair_geb (combine fits (seq 0 (length fits)))).
Definition scale (n k : nat) : Q := Z.of_nat (S k) # Pos.of_nat (n + 2).
Definition selection_prob (fits : list F) : list Q :=
  let n := length fits in
  map snd (isort (fun a b => Nat.leb (fst a) (fst b))
                 (combine (selection_order fits) (map (scale n) (seq 0 n)))).
End SelectionProb.

(** ** Pareto ranking, algorithm.py:308-351.
    Entries are compared by [leb]; [ninf] is -inf. *)
Section Pareto.
Context {E : Type}.
Variable leb : E -> E -> bool.
Variable ninf : E.

(** np.any(row >= fit): *)
Definition some_geq (row fit : list E) : bool :=
  existsb (fun p => leb (snd p) (fst p)) (combine row fit).

(** One step of the loop in _locate_pareto (lines 346-349). *)
Definition pareto_step (fitness : list (list E)) (front : list bool) (index : nat) : list bool :=
  if nth index front false then
    let fit := nth index fitness [] in
    map (fun p => if (fst p : bool) then some_geq (snd p) fit else false)
        (combine front fitness)
  else front.

Definition locate_pareto (fitness : list (list E)) : list bool :=
  fold_left (pareto_step fitness) (seq 0 (length fitness)) (repeat true (length fitness)).

(** entry > -inf *)
Definition is_finite (e : E) : bool := negb (leb e ninf).
Definition any_finite (fitness : list (list E)) : bool := existsb (existsb is_finite) fitness.

(** One pass of the while loop of _pareto_transform (lines 324-328):
    [result[front] = pareto; fit_copy[front] = -inf]. *)
Definition mark (front : list bool) (pareto : Z) (result : list Z) : list Z :=
  map (fun p => if (fst p : bool) then pareto else snd p) (combine front result).
Definition clear (front : list bool) (fitness : list (list E)) : list (list E) :=
  map (fun p => if (fst p : bool) then map (fun _ => ninf) (snd p) else snd p) (combine front fitness).

(** The while loop with fuel; [None] means the fuel ran out (proved
    impossible for [pareto_transform]). *)
Fixpoint pareto_loop (fuel : nat) (fitness : list (list E)) (pareto : Z) (result : list Z)
  : option (list Z) :=
  if any_finite fitness then
    match fuel with
    | 0 => None
    | S n =>
      let front := locate_pareto fitness in
      pareto_loop n (clear front fitness) (pareto - 1) (mark front pareto result)
    end
  else Some result.

Definition pareto_transform (fitness : list (list E)) : option (list Z) :=
  pareto_loop (length fitness) fitness (-1) (repeat 0%Z (length fitness)).
End Pareto.

(** ** algorithm.py:139-156 for a multi-objective search: the offspring's ranks
    are computed among the offspring only (line 142 -> 278-279) and are then
    merged with the ranks the population got in earlier generations; accuracy
    is None in this mode (lines 91-94). *)
Section ParetoGeneration.
Context {C E : Type}.
Variable leb : E -> E -> bool.
Variable ninf : E.
Variable scores : C -> list E.
Definition pareto_generation (size : nat) (pop : list C) (ranks : list Z) (offspring : list C)
  : option (list C * list Z) :=
  match pareto_transform leb ninf (map scores offspring) with
  | None => None
  | Some r => Some (population_reduction Z.leb (pop ++ offspring) (ranks ++ r) size)
  end.
End ParetoGeneration.
