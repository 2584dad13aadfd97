(** Properties of FeatureGenerator: feature matrices, names, element types, pairs and
    default sets. *)
From Coq Require Import ZArith String List Arith Bool Permutation Sorted Lia.
From Verif Require Import Base BaseFacts FeatModel FeatProperties.
Import ListNotations.

(** * Element types and sizes *)
(** normalize_features: the element types are those that occur in the training or the test
    structures, each once and in increasing order; the length is that of the largest
    structure. *)
Theorem normalize_features_spec : forall train test,
  let all := train ++ match test with Some t => t | None => [] end in
  let ts := get_atom_types train test in let n := get_atom_length train test in
  increasing ts /\ (forall z, In z ts <-> exists a, In a all /\ In z (numbers a)) /\
  (forall a, In a all -> natoms a <= n) /\ (all <> [] -> exists a, In a all /\ natoms a = n) /\ (all = [] -> n = 0).
Proof.
  intros train test all ts n. split; [apply sorted_set_spec|]. split; [|].
  - intros z. unfold ts, get_atom_types. rewrite (proj2 (sorted_set_spec _)), in_concat. split.
    + intros (l & H1 & H2). apply in_map_iff in H1 as (a & <- & H1). eauto.
    + intros (a & H1 & H2). exists (numbers a). split; [apply in_map; auto|auto].
  - unfold n, get_atom_length. fold all. generalize all. clear. intros l.
    assert (H : forall l m, let k := fold_left (fun m a => if m <? natoms a then natoms a else m) l m in
      m <= k /\ (forall a, In a l -> natoms a <= k) /\ (k = m \/ exists a, In a l /\ natoms a = k)).
    { clear. induction l as [|a l IH]; intros m; cbn [fold_left]; [cbn; split; [auto|split; [intros a []|auto]]|].
      destruct (Nat.ltb_spec m (natoms a)).
      - destruct (IH (natoms a)) as (H1 & H2 & H3). cbv zeta in *. split; [lia|]. split; [intros b [<-|Hb]; auto|].
        right. destruct H3 as [->|(b & Hb & E)]; [exists a; cbn; auto|exists b; cbn; auto].
      - destruct (IH m) as (H1 & H2 & H3). cbv zeta in *. split; [lia|]. split; [intros b [<-|Hb]; [lia|auto]|].
        destruct H3 as [->|(b & Hb & E)]; [auto|right; exists b; cbn; auto]. }
    destruct (H l 0) as (_ & H2 & H3). cbv zeta in *. split; [auto|]. split; [|intros ->; reflexivity].
    intros Hne. destruct H3 as [H3|H3]; [|auto]. destruct l as [|a l]; [contradiction|]. exists a. split; [cbn; auto|].
    specialize (H2 a ltac:(cbn; auto)). lia.
Qed.

Example normalize_case : get_atom_types [Struct [6; 1; 1] []; Struct [8; 1] []] (Some [Struct [1; 1; 1; 1; 79] []]) = [1; 6; 8; 79] /\
  get_atom_length [Struct [6; 1; 1] []; Struct [8; 1] []] (Some [Struct [1; 1; 1; 1; 79] []]) = 5.
Proof. split; reflexivity. Qed.

(** * Rows and columns *)
Section Vec.
Context {A V N : Type}.
Notation arr := (arr V N).
Notation generator := (generator A V N).

(** A fingerprint function that gives [names g] and, for a structure, as many numbers. *)
Definition consistent (names : generator -> list N) (values : generator -> A -> list V) (cs : list A) (g : generator) : Prop :=
  g None = Ok (Strs (names g)) /\ names g <> [] /\
  forall c, In c cs -> g (Some c) = Ok (Nums (values g c)) /\ length (values g c) = length (names g).

Lemma cat_loop_nums (values : generator -> list V) x : forall gs acc, (forall g, In g gs -> g x = Ok (Nums (values g))) ->
  cat_loop x gs (Nums acc) = Ok (Nums (acc ++ concat (map values gs))).
Proof.
  induction gs as [|g t IH]; intros acc H; cbn; [rewrite app_nil_r; auto|]. rewrite H by (cbn; auto). cbn [bind is_str xorb].
  rewrite andb_false_r. cbn [cat]. rewrite IH by (intros; apply H; cbn; auto). rewrite app_assoc. reflexivity.
Qed.
Lemma cat_loop_strs (names : generator -> list N) x : forall gs acc, acc <> [] -> (forall g, In g gs -> g x = Ok (Strs (names g)) /\ names g <> []) ->
  cat_loop x gs (Strs acc) = Ok (Strs (acc ++ concat (map names gs))).
Proof.
  induction gs as [|g t IH]; intros acc Ha H; cbn [cat_loop map concat]; [rewrite app_nil_r; auto|].
  destruct (H g) as [-> Hn]; [cbn; auto|]. cbn [bind]. destruct acc as [|y acc]; [contradiction|]. destruct (names g) as [|z l] eqn:E; [contradiction|].
  cbn [is_str xorb]. rewrite andb_false_r. cbn [cat]. rewrite IH; [|discriminate|intros; apply H; cbn; auto]. rewrite app_assoc. reflexivity.
Qed.

Lemma get_vec_nums (values : generator -> list V) x gs : (forall g, In g gs -> g x = Ok (Nums (values g))) ->
  get_vec gs x = Ok (Nums (concat (map values gs))).
Proof.
  intros H. unfold get_vec. destruct gs as [|g [|g' t]]; [reflexivity| |].
  - cbn. rewrite app_nil_r. apply H. cbn. auto.
  - apply (cat_loop_nums values x _ []). auto.
Qed.
Lemma get_vec_strs (names : generator -> list N) x gs : gs <> [] -> (forall g, In g gs -> g x = Ok (Strs (names g)) /\ names g <> []) ->
  get_vec gs x = Ok (Strs (concat (map names gs))).
Proof.
  intros Hne H. unfold get_vec. destruct gs as [|g [|g' t]]; [contradiction| |].
  - cbn. rewrite app_nil_r. apply H. cbn. auto.
  - unfold concatenate_vec. cbn [cat_loop]. destruct (H g) as [-> Hg]; [cbn; auto|]. cbn [bind alen Nat.ltb Nat.leb length andb cat].
    apply (cat_loop_strs names x (g' :: t)); [auto|]. intros; apply H; cbn; auto.
Qed.

Lemma serial_map (f : A -> result arr) (v : A -> arr) cs : (forall c, In c cs -> f c = Ok (v c)) -> serial f cs = Ok (map v cs).
Proof. induction cs as [|c t IH]; intros H; [reflexivity|]. cbn. rewrite H, IH; [reflexivity|intros; apply H; cbn; auto|cbn; auto]. Qed.

(** ** The pool *)
Lemma pool_fold (f : A -> result arr) (cs : list A) : forall sched st i, length st = length cs ->
  nth_error (fold_left (pool_step f cs) sched st) i =
    match nth_error cs i with
    | None => None
    | Some c => if existsb (Nat.eqb i) sched then Some (Some (f c)) else nth_error st i
    end.
Proof.
  induction sched as [|k t IH]; intros st i HL; cbn [fold_left existsb].
  - destruct (nth_error cs i) eqn:E; [auto|]. apply nth_error_None in E. apply nth_error_None. lia.
  - assert (HL' : length (pool_step f cs st k) = length cs) by (unfold pool_step; destruct (nth_error cs k); [rewrite set_nth_length|]; auto).
    rewrite IH by auto. destruct (nth_error cs i) as [c|] eqn:E; [|auto]. destruct (existsb (Nat.eqb i) t); [rewrite orb_true_r; auto|]. rewrite orb_false_r.
    assert (Hi : i < length cs) by (apply nth_error_Some; congruence).
    unfold pool_step. destruct (Nat.eqb_spec i k) as [<-|Hne].
    + rewrite E. rewrite (nth_error_nth' _ None) by (rewrite set_nth_length; lia). f_equal. apply nth_set_nth_eq. lia.
    + destruct (nth_error cs k); [|auto]. rewrite !(nth_error_nth' _ None) by (rewrite ?set_nth_length; lia). f_equal. apply nth_set_nth_neq. auto.
Qed.

Lemma pool_all (f : A -> result arr) (cs : list A) sched : Permutation sched (seq 0 (length cs)) -> pool_map f cs sched = map (fun c => Some (f c)) cs.
Proof.
  intros HP. apply (nth_ext _ _ None None).
  - unfold pool_map. assert (H : forall st, length st = length cs -> length (fold_left (pool_step f cs) sched st) = length cs).
    { clear. induction sched as [|k t IH]; intros st H; cbn; [auto|]. apply IH. unfold pool_step. destruct (nth_error cs k); [rewrite set_nth_length|]; auto. }
    rewrite H, map_length by (apply repeat_length). auto.
  - intros i Hi.
    assert (HE : nth_error (pool_map f cs sched) i = nth_error (map (fun c => Some (f c)) cs) i).
    { unfold pool_map. rewrite pool_fold by (apply repeat_length). rewrite nth_error_map. destruct (nth_error cs i) as [c|] eqn:E; [|auto].
      assert (Hx : existsb (Nat.eqb i) sched = true).
      { apply existsb_exists. exists i. split; [|apply Nat.eqb_refl]. apply (Permutation_in _ (Permutation_sym HP)). apply in_seq.
        assert (i < length cs) by (apply nth_error_Some; congruence). lia. }
      rewrite Hx. reflexivity. }
    revert HE. rewrite (nth_error_nth' _ None Hi). destruct (nth_error (map _ cs) i) eqn:E2; [|discriminate].
    rewrite (nth_error_nth _ _ None E2). congruence.
Qed.

Lemma all_ok_serial (f : A -> result arr) (cs : list A) : all_ok (map (fun c => Some (f c)) cs) = match serial f cs with Ok m => Some m | Err _ => None end.
Proof.
  induction cs as [|c t IH]; [reflexivity|]. cbn. destruct (f c) as [x|]; cbn; [|reflexivity]. rewrite IH. destruct (serial f t); reflexivity.
Qed.

(** ** Theorems *)
(** The number of processes and the order in which they finish do not matter: for a
    non-empty list of structures and fingerprint functions that do not fail the matrix is
    that of the serial calculation. *)
Theorem return_vec_schedule_independent : forall nprocs sched cs (gs : list generator) m, cs <> [] -> Permutation sched (seq 0 (length cs)) ->
  return_vec (Some 1) [] cs gs = Ok m -> return_vec nprocs sched cs gs = Ok m.
Proof.
  intros nprocs sched cs gs m Hne HP E. unfold return_vec in *. destruct nprocs as [[|[|k]]|]; auto.
  all: unfold parallel; destruct cs as [|c t]; [contradiction|]; rewrite pool_all by auto; rewrite all_ok_serial, E; reflexivity.
Qed.

(** A fingerprint function that fails makes both fail, but with several processes the error
    is always IndexError; an empty list of structures fails with several processes only. *)
Theorem return_vec_errors_refuted : forall nprocs sched cs (gs : list generator) e, nprocs <> Some 1 -> Permutation sched (seq 0 (length cs)) ->
  return_vec (Some 1) [] cs gs = Err e -> return_vec nprocs sched cs gs = Err IndexError.
Proof.
  intros nprocs sched cs gs e Hn HP E. unfold return_vec in *. destruct nprocs as [[|[|k]]|]; [|contradiction| |].
  all: unfold parallel; destruct cs as [|c t]; [reflexivity|]; rewrite pool_all by auto; rewrite all_ok_serial, E; reflexivity.
Qed.
Theorem return_vec_empty_refuted : forall nprocs (gs : list generator), nprocs <> Some 1 ->
  return_vec (Some 1) [] [] gs = Ok [] /\ return_vec nprocs [] [] gs = Err IndexError.
Proof. intros nprocs gs Hn. split; [reflexivity|]. unfold return_vec. destruct nprocs as [[|[|k]]|]; [|contradiction| |]; reflexivity. Qed.

(** Row i is the concatenation of the outputs for structure i and has one column for each
    name, in the same order; the data frame can be built. *)
Theorem return_vec_rows : forall names values nprocs sched cs (gs : list generator),
  cs <> [] -> gs <> [] -> Permutation sched (seq 0 (length cs)) -> (forall g, In g gs -> consistent names values cs g) ->
  let row c := Nums (concat (map (fun g => values g c) gs)) in let cols := Strs (concat (map names gs)) in
  return_vec nprocs sched cs gs = Ok (map row cs) /\ return_names gs = Ok cols /\
  (forall c, In c cs -> alen (row c : arr) = alen (cols : arr)) /\
  get_dataframe nprocs sched cs gs = Ok (map row cs, cols).
Proof.
  intros names values nprocs sched cs gs Hc Hg HP HC row cols.
  assert (EV : return_vec nprocs sched cs gs = Ok (map row cs)).
  { apply return_vec_schedule_independent; auto. unfold return_vec. apply serial_map. intros c Hin.
    apply (get_vec_nums (fun g => values g c)). intros g Hgin. apply (HC g Hgin). auto. }
  assert (EN : return_names gs = Ok cols).
  { apply get_vec_strs; [auto|]. intros g Hgin. destruct (HC g Hgin) as (H1 & H2 & _). auto. }
  assert (EL : forall c, In c cs -> alen (row c) = alen cols).
  { intros c Hin. unfold row, cols. cbn [alen]. clear EV EN Hg. induction gs as [|g t IH]; [reflexivity|]. cbn. rewrite !app_length.
    rewrite IH by (intros; apply HC; cbn; auto). destruct (HC g) as (_ & _ & H); [cbn; auto|]. destruct (H c Hin) as [_ ->]. reflexivity. }
  split; [auto|]. split; [auto|]. split; [auto|]. unfold get_dataframe. rewrite EV, EN. cbn [bind].
  replace (forallb _ _) with true; [reflexivity|]. symmetry. apply forallb_forall. intros r Hr. apply in_map_iff in Hr as (c & <- & Hin).
  apply Nat.eqb_eq. auto.
Qed.
End Vec.

(** A case: two fingerprint functions, three structures, tasks finishing in reverse order. *)
Example rows_case :
  let g1 : generator nat nat string := fun x => match x with None => Ok (Strs ["a"; "b"]%string) | Some c => Ok (Nums [c; c + 1]) end in
  let g2 : generator nat nat string := fun x => match x with None => Ok (Strs ["c"]%string) | Some c => Ok (Nums [10 * c]) end in
  return_vec (Some 4) [2; 1; 0] [5; 6; 7] [g1; g2] = Ok [Nums [5; 6; 50]; Nums [6; 7; 60]; Nums [7; 8; 70]] /\
  return_names [g1; g2] = Ok (Strs ["a"; "b"; "c"]%string).
Proof. split; reflexivity. Qed.

(** * Pairs of atoms *)
Lemma one_hot_sum ts z : NoDup ts -> In z ts -> sum (one_hot ts z) = 1.
Proof. intros HN HI. apply (sum_indicator Nat.eqb); auto. apply Nat.eqb_eq. Qed.
Lemma combine_sum l l' : length l = length l' -> sum (map (fun p => fst p + snd p) (combine l l')) = sum l + sum l'.
Proof. revert l'. induction l as [|x l IH]; intros [|y l']; cbn; intros H; try discriminate; [auto|]. rewrite IH by lia. lia. Qed.

(** featurize_atomic_pairs: n^2 rows for a structure of n atoms, structure after structure;
    row r * n + c is about the atoms r and c: their distance, the number of atoms of each
    element among the two, and their atomic numbers. *)
Theorem atomic_pairs_rows : forall {D} (dist : struct -> nat -> nat -> D) types cs,
  let ts := match types with Some ts => ts | None => get_atom_types cs None end in
  exists rows : struct -> list (D * list nat * (nat * nat)),
    featurize_atomic_pairs dist types cs = concat (map rows cs) /\
    forall a, In a cs -> length (rows a) = natoms a * natoms a /\
      forall r c, r < natoms a -> c < natoms a -> exists counts,
        nth_error (rows a) (r * natoms a + c) = Some (dist a r c, counts, (zat a r, zat a c)) /\
        length counts = length ts /\
        (forall k t, nth_error ts k = Some t ->
           nth_error counts k = Some ((if Nat.eq_dec (zat a r) t then 1 else 0) + (if Nat.eq_dec (zat a c) t then 1 else 0))) /\
        (NoDup ts -> In (zat a r) ts -> In (zat a c) ts -> sum counts = 2).
Proof.
  intros D dist types cs ts. exists (fun a => map (pair_row dist ts a) (seq 0 (natoms a * natoms a))). split; [reflexivity|].
  intros a _. split; [rewrite map_length, seq_length; auto|]. intros r c Hr Hc.
  assert (HB : r * natoms a + c < natoms a * natoms a) by nia.
  assert (HX : nth_error (map (pair_row dist ts a) (seq 0 (natoms a * natoms a))) (r * natoms a + c) = Some (pair_row dist ts a (r * natoms a + c))).
  { rewrite nth_error_map. rewrite (nth_error_nth' _ 0) by (rewrite seq_length; auto). rewrite seq_nth by auto. reflexivity. }
  rewrite HX. unfold pair_row. rewrite (Nat.add_comm (r * _)). rewrite Nat.div_add, Nat.mod_add, Nat.div_small, Nat.mod_small by lia. cbn [Nat.add].
  assert (HL : forall z, length (one_hot ts z) = length ts) by (intros; apply map_length).
  eexists. split; [reflexivity|]. split; [rewrite map_length, combine_length, !HL; lia|]. split.
  - intros k t E. rewrite nth_error_map.
    assert (HC : forall (l l' : list nat) k x y, nth_error l k = Some x -> nth_error l' k = Some y -> nth_error (combine l l') k = Some (x, y)).
    { clear. induction l as [|u l IH]; intros [|w l'] [|k] x y H1 H2; try discriminate; cbn in *; [congruence|auto]. }
    rewrite (HC _ _ k (if Nat.eqb t (zat a r) then 1 else 0) (if Nat.eqb t (zat a c) then 1 else 0)); [|unfold one_hot; rewrite nth_error_map, E; auto..].
    cbn. f_equal. destruct (Nat.eqb_spec t (zat a r)), (Nat.eqb_spec t (zat a c)), (Nat.eq_dec (zat a r) t), (Nat.eq_dec (zat a c) t); congruence.
  - intros HN H1 H2. rewrite combine_sum by (rewrite !HL; auto). rewrite !one_hot_sum; auto.
Qed.

Example atomic_pairs_case : featurize_atomic_pairs (fun _ r c => r + c) None [Struct [8; 1] []] =
  [(0, [0; 2], (8, 8)); (1, [1; 1], (8, 1)); (1, [1; 1], (1, 8)); (2, [2; 0], (1, 1))].
Proof. reflexivity. Qed.

(** * Default sets *)
(** The documented set 'fragment' cannot be obtained: the names of two functions run
    together. *)
Theorem default_fragment_refuted : default_fingerprinters "fragment" = Err AttributeError.
Proof. reflexivity. Qed.
(** The other sets are there, and anything else is rejected. *)
Theorem default_fingerprinters_partial : forall t,
  match default_fingerprinters t with
  | Ok fs => (t = "bulk" \/ t = "adsorbates" \/ t = "chalcogenides")%string /\ fs <> [] /\ NoDup fs
  | Err ValueError => ~ In t ["bulk"; "fragment"; "adsorbates"; "chalcogenides"]%string
  | Err e => e = AttributeError /\ t = "fragment"%string
  end.
Proof.
  intros t. destruct (in_dec string_dec t ["bulk"; "fragment"; "adsorbates"; "chalcogenides"]%string) as [H|H].
  - assert (HN : forall l, (if list_eq_dec string_dec (nodup string_dec l) l then true else false) = true -> NoDup l).
    { intros l. destruct (list_eq_dec _ _ _) as [<-|]; [intros _; apply NoDup_nodup|discriminate]. }
    repeat (destruct H as [<-|H]); [..|destruct H].
    + cbn. split; [auto|]. split; [discriminate|]. apply HN. reflexivity.
    + cbn. auto.
    + cbn. split; [auto|]. split; [discriminate|]. apply HN. reflexivity.
    + cbn. split; [auto|]. split; [discriminate|]. apply HN. reflexivity.
  - unfold default_fingerprinters. destruct (find _ default_sets) as [[n l]|] eqn:E; [|auto].
    exfalso. apply H. apply find_some in E as [H1 H2]. apply String.eqb_eq in H2. cbn [fst] in H2. subst t.
    cbn in H1. repeat (destruct H1 as [[= <- <-]|H1]; [cbn; auto|]). destruct H1.
Qed.

Print Assumptions normalize_features_spec.
Print Assumptions return_vec_schedule_independent.
Print Assumptions return_vec_errors_refuted.
Print Assumptions return_vec_empty_refuted.
Print Assumptions return_vec_rows.
Print Assumptions atomic_pairs_rows.
Print Assumptions default_fragment_refuted.
Print Assumptions default_fingerprinters_partial.
