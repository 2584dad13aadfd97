(** Model of GAFeatureSelection (and unique_set) in catlearn/featurize/site_stability.py.
    Chromosomes are Python lists that are changed in place and shared between the
    population, the list of genes and the list of all combinations, so they live in a heap and
    are referred to by their position in it. Scores are rational numbers. The score of a
    chromosome is an arbitrary function (the estimator is deterministic: 949 resets the seed).
    Features are column numbers. Not modelled: printing, plotting, the data frame around the
    rows of [evolve]. *)
From Coq Require Import List Arith Bool QArith.
From Verif Require Import Base.
Import ListNotations.
Set Implicit Arguments.
Local Open Scope nat_scope.

(** An entry [chromosome, weight, score] of the population (980); the weight is what the
    population is sorted by. *)
Record entry := Entry { e_gene : nat; e_weight : Q; e_score : Q }.

(** The attributes population, genes and all_feature_combinations (lists of references), and the heap. *)
Record ga := GA { heap : list (list nat); combos : option (list nat); pop : list entry; genes : list nat }.

Definition cell (h : list (list nat)) (r : nat) : list nat := nth r h [].
Definition memb (x : nat) (l : list nat) : bool := existsb (Nat.eqb x) l.

(** itertools.combinations *)
Fixpoint combinations (k : nat) (l : list nat) : list (list nat) :=
  match k, l with
  | 0, _ => [[]]
  | S _, [] => []
  | S k', x :: t => map (cons x) (combinations k' t) ++ combinations k t
  end.

(** 149-159 unique_set: the chain ranges over one size only *)
Definition unique_set (l : list nat) (feature_dim : nat) : list (list nat) := combinations feature_dim l.

(** np.percentile with linear interpolation *)
Definition percentile (p : nat) (l : list Q) : Q :=
  let s := isort Qle_bool l in
  let m := p * (length l - 1) in
  let k := m / 100 in
  (nth k s 0 + (Z.of_nat (m mod 100) # 100) * (nth (S k) s 0 - nth k s 0))%Q.

(** 914-917 population_percentile with its default *)
Definition population_percentile (p : list entry) : Q := percentile 75 (map e_score p).

Fixpoint maxq (x : Q) (l : list Q) : Q :=
  match l with [] => x | y :: t => maxq (if Qle_bool x y then y else x) t end.

(** 920-923 max_population_fitness: np.max fails for an empty list *)
Definition max_population_fitness (p : list entry) : result Q :=
  match map e_score p with [] => Err ValueError | x :: t => Ok (maxq x t) end.

(** 909-912 mean_population_fitness *)
Definition mean_population_fitness (p : list entry) : Q :=
  (fold_right Qplus 0 (map e_score p) / inject_Z (Z.of_nat (length p)))%Q.

(** sorted(.., reverse=True, key=lambda tup: tup[1]) *)
Definition by_weight (a b : entry) : bool := Qle_bool (e_weight b) (e_weight a).

(** All random numbers of one generation: the two calls of random.shuffle for offspring i (993, 995);
    np.random.choice(candidates, size=k, replace=False) for offspring i (1027); the number of mutations
    (1039-1040); for each mutation the two positions (1043, 1045) and the new feature (1048). *)
Record draws := Draws {
  sh1 : nat -> list nat -> list nat; sh2 : nat -> list nat -> list nat;
  pick : nat -> list nat -> nat -> list nat;
  n_mut : nat; gpos : nat -> nat; cpos : nat -> nat; new_feature : nat -> list nat -> nat }.

Section Selection.
(** score: get_chromosome_score (942-959) of the columns of a chromosome, in the order of the list.
    as_set: list(set(..)), whose order is that of the hash table. *)
Variable score : list nat -> Q.
Variable as_set : list nat -> list nat.
Variables total n_features population_size offspring_size : nat.

(** list(set(range(total)) - set(c)) *)
Definition others (c : list nat) : list nat := filter (fun x => negb (memb x c)) (seq 0 total).

(** 925-940 random_genes; [s1], [s2]: the two shuffles. The combinations are created once; their
    lists are shared by all results. *)
Definition random_genes (s1 s2 : list nat -> list nat) (n : nat) (s : ga) : ga * list nat :=
  let hc := match combos s with
            | None => let l := unique_set (seq 0 total) n_features in
                      (heap s ++ l, s1 (seq (length (heap s)) (length l)))
            | Some c => (heap s, c)
            end in
  (GA (fst hc) (Some (snd hc)) (pop s) (genes s), firstn n (s2 (snd hc))).

(** 961-981 get_fitness *)
Definition get_fitness (h : list (list nat)) (chromosomes : list nat) : list entry :=
  isort by_weight (map (fun r => let x := score (cell h r) in Entry r x x) chromosomes).

(** 896-902 the constructor with starting_population=None. Line 903 computes the frequencies,
    which fails if there is no gene (np.bincount of an array of floats). *)
Definition create (s1 s2 : list nat -> list nat) : result ga :=
  let g := random_genes s1 s2 population_size (GA [] None [] []) in
  let p := get_fitness (heap (fst g)) (snd g) in
  if Nat.eqb (length (concat (map (fun e => cell (heap (fst g)) (e_gene e)) p))) 0 then Err TypeError
  else Ok (GA (heap (fst g)) (combos (fst g)) p (map e_gene p)).

(** 991-996 the loop over the parents: both are shuffled in place before they are cut. *)
Fixpoint mate (d : draws) (parents : list nat) (point : nat) (is : list nat) (h : list (list nat)) :
  result (list (list nat) * list (list nat)) :=
  match is with
  | [] => Ok (h, [])
  | i :: rest =>
    match nth_error parents i with
    | None => Err IndexError
    | Some p1 =>
      let h1 := set_nth p1 (sh1 d i (cell h p1)) h in
      match nth_error parents (i + i) with
      | None => Err IndexError
      | Some p2 =>
        let h2 := set_nth p2 (sh2 d i (cell h1 p2)) h1 in
        bind (mate d parents point rest h2) (fun r =>
        Ok (fst r, (firstn point (cell h2 p1) ++ skipn point (cell h2 p2)) :: snd r))
      end
    end
  end.

(** 1014-1029 mutate_duplicate_chromosomes *)
Fixpoint mutate_duplicates (d : draws) (i : nat) (l : list (list nat)) : result (list (list nat)) :=
  match l with
  | [] => Ok []
  | c :: rest =>
    let u := as_set c in
    let k := length c - length u in
    let fixed := if Nat.eqb (length c) (length u) then Ok c
                 else if length (others c) <? k then Err ValueError
                 else Ok (u ++ pick d i (others c) k) in
    bind fixed (fun c' => bind (mutate_duplicates d (S i) rest) (fun r => Ok (c' :: r)))
  end.

(** 1004-1007 the weights of the first parents_size members; IndexError if there are fewer *)
Definition lower_weights (parents_size : nat) (x : Q) (p : list entry) : result (list entry) :=
  if length p <? parents_size then Err IndexError
  else Ok (map (fun e => Entry (e_gene e) (e_weight e * x)%Q (e_score e)) (firstn parents_size p) ++ skipn parents_size p).

(** 983-1012 crossover *)
Definition crossover (d : draws) (s : ga) : result ga :=
  let parents := map e_gene (pop s) in
  match parents with
  | [] => Err IndexError
  | p0 :: _ =>
    bind (mate d parents (length (cell (heap s) p0) / 2) (seq 0 offspring_size) (heap s)) (fun m =>
    bind (mutate_duplicates d 0 (snd m)) (fun off =>
    let h := fst m ++ off in
    let offspring := get_fitness h (seq (length (fst m)) (length off)) in
    bind (lower_weights (length off + 1) (population_percentile (pop s)) (pop s)) (fun p =>
    let p' := isort by_weight (firstn (length p - length offspring) p ++ offspring) in
    Ok (GA h (combos s) p' (map e_gene p')))))
  end.

(** 1041-1049 the mutations: the list that is changed is the one in the population *)
Fixpoint mutations (d : draws) (gs : list nat) (is : list nat) (h : list (list nat)) : result (list (list nat)) :=
  match is with
  | [] => Ok h
  | i :: rest =>
    match nth_error gs (gpos d i) with
    | None => Err IndexError
    | Some r =>
      let c := cell h r in
      match others c with
      | [] => Err ValueError
      | cands => if length c <=? cpos d i then Err IndexError
                 else mutations d gs rest (set_nth r (set_nth (cpos d i) (new_feature d i cands) c) h)
      end
    end
  end.

(** 1037-1051 mutate *)
Definition mutate (d : draws) (s : ga) : result ga :=
  bind (mutations d (genes s) (seq 0 (n_mut d)) (heap s)) (fun h =>
  Ok (GA h (combos s) (pop s) (genes s))).

(** 1031-1035 homogeneity *)
Definition homogeneity (s : ga) : Q :=
  (1 - inject_Z (Z.of_nat (length (as_set (concat (map (cell (heap s)) (genes s)))))) / inject_Z (Z.of_nat total))%Q.

(** 1086-1095 feature_frequencies: np.bincount has entries up to the largest feature that occurs *)
Definition feature_frequencies (s : ga) : list (nat * Q) :=
  let all := concat (map (cell (heap s)) (genes s)) in
  let counts := map (fun f => count_occ Nat.eq_dec all f) (seq 0 (S (list_max all))) in
  let occ := isort (fun a b => snd b <=? snd a) (combine (seq 0 total) counts) in
  let sum := list_sum (map snd occ) in
  map (fun p => (fst p, (inject_Z (Z.of_nat (snd p)) / inject_Z (Z.of_nat sum) * 100)%Q)) occ.

(** 1053-1084 evolve: one element of [ds] per generation; returns the rows of the evolution *)
Fixpoint evolve (i : nat) (ds : list draws) (s : ga) : result (ga * list (nat * Q * Q * Q)) :=
  match ds with
  | [] => Ok (s, [])
  | d :: rest =>
    bind (max_population_fitness (pop s)) (fun mx =>
    let row := (i, mx, mean_population_fitness (pop s), homogeneity s) in
    bind (crossover d s) (fun s1 =>
    bind (mutate d s1) (fun s2 =>
    bind (evolve (S i) rest s2) (fun r => Ok (fst r, row :: snd r)))))
  end.
End Selection.
