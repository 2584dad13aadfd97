(** Properties C01-C06: cross-validation splits. *)
From Coq Require Import List Arith Lia Permutation Bool.
From Verif Require Import Base BaseFacts CVModel CVSpec CVProofs.
Import ListNotations.
Set Implicit Arguments.

(** C01. For every shuffle outcome, k_fold returns nsplit folds whose
    (row, target) pairs are exactly the input pairs, with balanced sizes. *)
Theorem k_fold_partition :
  forall (V : Type) (d : V) (shuf : list (list V) -> list (list V))
         (features : list (list V)) (targets : list V) (nsplit : nat),
  (forall l, Permutation (shuf l) l) ->
  length features = length targets -> 1 <= nsplit ->
  exists fs ts,
    k_fold d shuf features targets nsplit None = Ok (fs, ts) /\
    length fs = nsplit /\ length ts = nsplit /\
    map (@length _) fs = map (@length _) ts /\
    Permutation (combine (concat fs) (concat ts)) (combine features targets) /\
    balanced (map (@length _) fs) /\ nonincreasing (map (@length _) fs).
Proof.
  intros V d shuf X y k Hs HL Hk.
  destruct (@k_fold_inv V d shuf X y k None Hs HL ltac:(lia) ltac:(lia))
    as (folds & pairs & rest & E & H1 & H2 & H3 & H4 & H5).
  assert (rest = []) as ->.
  { apply Permutation_length in H5. rewrite app_length, combine_length in H5.
    destruct rest; auto; simpl in *; lia. }
  rewrite app_nil_r in H5.
  eexists _, _. split; [exact E|]. rewrite !map_length. repeat split; auto.
  - rewrite !map_length_map. reflexivity.
  - rewrite !map_map_concat, H2, unglue, unglue_t, combine_map_fst_snd. auto.
  - rewrite map_length_map, H4. apply balanced_split_sizes.
  - rewrite map_length_map, H4. apply split_sizes_noninc.
Qed.

Example k_fold_partition_case :
  k_fold 0 (@rev _) [[1; 2]; [3; 4]; [5; 6]; [7; 8]; [9; 10]] [11; 12; 13; 14; 15] 2 None
  = Ok ([[[9; 10]; [7; 8]; [5; 6]]; [[3; 4]; [1; 2]]], [[15; 14; 13]; [12; 11]]).
Proof. reflexivity. Qed.

(** C01, without targets. *)
Theorem k_fold_features_partition :
  forall (V : Type) (shuf : list (list V) -> list (list V)) features nsplit,
  (forall l, Permutation (shuf l) l) -> 1 <= nsplit ->
  exists fs, k_fold_features shuf features nsplit None = Ok fs /\
    length fs = nsplit /\ Permutation (concat fs) features /\
    balanced (map (@length _) fs) /\ nonincreasing (map (@length _) fs).
Proof.
  intros V shuf X k Hs Hk. unfold k_fold_features, fix_rows. simpl.
  destruct (@array_split_ok _ (shuf X) k ltac:(lia)) as (fs & E & H1 & H2 & H3).
  exists fs. rewrite E, H2, H3. repeat split; auto.
  - apply balanced_split_sizes.
  - apply split_sizes_noninc.
Qed.

(** C02. With fix_size, k_fold either raises (exactly when there is not enough
    data) or returns nsplit folds of exactly that size drawn from the data. *)
Theorem k_fold_fix_size :
  forall (V : Type) (d : V) (shuf : list (list V) -> list (list V))
         (features : list (list V)) (targets : list V) (nsplit s : nat),
  (forall l, Permutation (shuf l) l) ->
  length features = length targets -> 1 <= nsplit ->
  (length features < nsplit * s ->
     k_fold d shuf features targets nsplit (Some s) = Err AssertionError) /\
  (nsplit * s <= length features ->
     exists fs ts,
       k_fold d shuf features targets nsplit (Some s) = Ok (fs, ts) /\
       length fs = nsplit /\ length ts = nsplit /\
       (forall f, In f fs -> length f = s) /\ (forall t, In t ts -> length t = s) /\
       sub_multiset (combine (concat fs) (concat ts)) (combine features targets)).
Proof.
  intros V d shuf X y k s Hs HL Hk. split.
  - intros H. unfold k_fold. rewrite HL, Nat.eqb_refl. unfold fix_rows. cbv zeta.
    set (Z := map _ (combine X y)).
    assert (HZ : length (shuf Z) = length X).
    { rewrite (Permutation_length (Hs Z)). unfold Z. rewrite map_length, combine_length. lia. }
    destruct (Nat.leb_spec (k * s) (length (shuf Z))); [lia|]. reflexivity.
  - intros H.
    destruct (@k_fold_inv V d shuf X y k (Some s) Hs HL ltac:(lia) H)
      as (folds & pairs & rest & E & H1 & H2 & H3 & H4 & H5).
    assert (HS : forall f, In f folds -> length f = s).
    { intros f Hf. apply (in_map (@length _)) in Hf. rewrite H4 in Hf.
      unfold split_sizes in Hf. rewrite Nat.mul_comm, Nat.div_mul, Nat.mod_mul in Hf by lia.
      simpl in Hf. apply repeat_spec in Hf. auto. }
    eexists _, _. split; [exact E|]. rewrite !map_length. repeat split; auto.
    + intros f Hf. apply in_map_iff in Hf. destruct Hf as (g & <- & Hg). rewrite map_length; auto.
    + intros f Hf. apply in_map_iff in Hf. destruct Hf as (g & <- & Hg). rewrite map_length; auto.
    + exists rest. rewrite !map_map_concat, H2, unglue, unglue_t, combine_map_fst_snd. auto.
Qed.

Example k_fold_fix_size_case :
  k_fold 0 (@rev _) [[1]; [2]; [3]; [4]; [5]] [11; 12; 13; 14; 15] 2 (Some 2)
  = Ok ([[[5]; [4]]; [[3]; [2]]], [[15; 14]; [13; 12]])
  /\ k_fold 0 (@rev _) [[1]; [2]; [3]; [4]; [5]] [11; 12; 13; 14; 15] 3 (Some 2) = Err AssertionError.
Proof. split; reflexivity. Qed.

(** C03. Every accepted input with at least 2*min_split selected indices gives a
    hierarchy: each level is a balanced partition of the selection into 2^i
    subsets of at least min_split members. *)
Theorem split_index_hierarchy :
  forall (I : Type) (shuf0 : list I -> list I) (shuf : nat * nat -> list I -> list I)
         (min_split : nat) (max_split : option nat) (all_index sel : list I),
  (forall l, Permutation (shuf0 l) l) -> (forall k l, Permutation (shuf k l) l) ->
  1 <= min_split ->
  split_select shuf0 min_split max_split all_index = Ok sel ->
  2 * min_split <= length sel ->
  exists d, split_index shuf0 shuf min_split max_split all_index = Ok (Some d) /\
    hierarchy_of min_split sel d /\
    sub_multiset sel all_index /\
    length sel = match max_split with None => length all_index | Some n => n end.
Proof.
  intros I shuf0 shuf m M idx sel H0 H1 Hm Hsel H2.
  destruct (@split_index_ok I shuf H1 shuf0 m M idx sel Hm Hsel H2) as (d & E & H).
  destruct (@split_select_ok I shuf0 H0 m M idx sel Hsel) as (_ & A & B).
  exists d. auto.
Qed.

(** With max_split the size condition is part of the assertions, so every
    accepted call succeeds. *)
Theorem split_index_hierarchy_max :
  forall (I : Type) (shuf0 : list I -> list I) (shuf : nat * nat -> list I -> list I)
         (min_split n : nat) (all_index : list I),
  (forall l, Permutation (shuf0 l) l) -> (forall k l, Permutation (shuf k l) l) ->
  1 <= min_split -> 2 * min_split <= n -> n < length all_index ->
  exists d sel, split_index shuf0 shuf min_split (Some n) all_index = Ok (Some d) /\
    hierarchy_of min_split sel d /\ sub_multiset sel all_index /\ length sel = n.
Proof.
  intros I shuf0 shuf m n idx H0 H1 Hm H2 Hn.
  set (s := shuf0 idx). assert (Hl : length s = length idx) by (apply Permutation_length, H0).
  assert (Hsel : split_select shuf0 m (Some n) idx = Ok (firstn n s)).
  { unfold split_select. fold s. destruct (Nat.ltb_spec n (length s)); [|lia].
    destruct (Nat.leb_spec (2 * m) n); [|lia]. cbn [andb].
    rewrite firstn_length. destruct (Nat.ltb_spec m (min n (length s))); [reflexivity|lia]. }
  destruct (@split_index_ok I shuf H1 shuf0 m (Some n) idx (firstn n s) Hm Hsel) as (d & E & H).
  { rewrite firstn_length. lia. }
  destruct (@split_select_ok I shuf0 H0 m (Some n) idx _ Hsel) as (_ & A & B).
  exists d, (firstn n s). auto.
Qed.

Example split_index_hierarchy_case :
  split_index (@rev nat) (fun _ => @rev nat) 2 None [1; 2; 3; 4; 5; 6; 7; 8; 9] =
  Ok (Some [((1, 1), [6; 7; 8; 9]); ((1, 2), [1; 2; 3; 4; 5]);
            ((2, 1), [7; 6]); ((2, 2), [8; 9]); ((2, 3), [1; 2]); ((2, 4), [3; 4; 5])]).
Proof. reflexivity. Qed.

(** C04, refuted: an accepted call (len > min_split) that writes and returns
    nothing. *)
Theorem split_index_always_returns_refuted :
  exists (min_split : nat) (all_index : list nat),
    min_split < length all_index /\ 1 <= min_split /\ NoDup all_index /\
    split_index (fun l => l) (fun _ l => l) min_split None all_index = Ok None.
Proof.
  exists 2, [1; 2; 3]. repeat split; simpl; auto.
  repeat constructor; simpl; intuition discriminate.
Qed.

(** C04, exact characterisation: an accepted call with min_split >= 1 returns a
    split if and only if at least 2*min_split indices are selected. *)
Theorem split_index_returns_iff_partial :
  forall (I : Type) (shuf0 : list I -> list I) (shuf : nat * nat -> list I -> list I)
         (min_split : nat) (max_split : option nat) (all_index sel : list I),
  (forall l, Permutation (shuf0 l) l) -> (forall k l, Permutation (shuf k l) l) ->
  1 <= min_split ->
  split_select shuf0 min_split max_split all_index = Ok sel ->
  ((exists d, split_index shuf0 shuf min_split max_split all_index = Ok (Some d))
     <-> 2 * min_split <= length sel) /\
  (length sel < 2 * min_split ->
     split_index shuf0 shuf min_split max_split all_index = Ok None).
Proof.
  intros I shuf0 shuf m M idx sel H0 H1 Hm Hsel. split; [split|].
  - intros (d & E). destruct (le_lt_dec (2 * m) (length sel)) as [|Hlt]; auto.
    rewrite (@split_index_none I shuf shuf0 m M idx sel Hsel Hm Hlt) in E. discriminate.
  - intros H. destruct (@split_index_ok I shuf H1 shuf0 m M idx sel Hm Hsel H) as (d & E & _). eauto.
  - intros H. apply (@split_index_none I shuf shuf0 m M idx sel); auto.
Qed.

(** C05. split_predict evaluates each ordered pair of distinct subsets of a
    level exactly once, and never on data it was trained on. *)
Theorem split_predict_pairs :
  forall (I : Type) (m : nat) (sel : list I) (d : list ((nat * nat) * list I)),
  NoDup sel -> hierarchy_of m sel d ->
  (forall k1 k2 a b,
     In ((k1, k2), (a, b)) (split_predict_calls d) <->
     In (k1, a) d /\ In (k2, b) d /\ fst k1 = fst k2 /\ k1 <> k2) /\
  NoDup (map fst (split_predict_calls d)) /\
  (forall k1 k2 train test x,
     In ((k1, k2), (train, test)) (split_predict_calls d) ->
     In x train -> In x test -> False).
Proof.
  intros I m sel d HN H. split; [|split].
  - intros; apply calls_in.
  - apply calls_NoDup. apply H.
  - intros k1 k2 a b x Hc Hx Hy. apply calls_in in Hc. destruct Hc as (A & B & C & D).
    apply (@hierarchy_disjoint I m sel d k1 k2 a b x); auto.
Qed.

(** C05, end to end: whatever split_index returns for duplicate-free indices. *)
Theorem split_predict_never_tests_on_training_data :
  forall (I : Type) (shuf0 : list I -> list I) (shuf : nat * nat -> list I -> list I)
         (min_split : nat) (max_split : option nat) (all_index : list I) d,
  (forall l, Permutation (shuf0 l) l) -> (forall k l, Permutation (shuf k l) l) ->
  NoDup all_index ->
  split_index shuf0 shuf min_split max_split all_index = Ok (Some d) ->
  forall k1 k2 train test, In ((k1, k2), (train, test)) (split_predict_calls d) ->
  fst k1 = fst k2 /\ forall x, In x train -> In x test -> False.
Proof.
  intros I shuf0 shuf m M idx d H0 H1 HN E k1 k2 a b Hc.
  assert (exists sel, split_select shuf0 m M idx = Ok sel) as (sel & Hsel).
  { unfold split_index in E. destruct (split_select shuf0 m M idx); simpl in E; [eauto|discriminate]. }
  assert (Hm : 1 <= m).
  { destruct m; [|lia]. unfold split_index in E. rewrite Hsel in E. simpl in E. discriminate. }
  destruct (le_lt_dec (2 * m) (length sel)) as [H2|H2].
  - destruct (@split_index_ok I shuf H1 shuf0 m M idx sel Hm Hsel H2) as (d' & E' & H).
    assert (d' = d) as -> by congruence.
    destruct (@split_select_ok I shuf0 H0 m M idx sel Hsel) as (_ & (rest & Hr) & _).
    assert (NoDup sel).
    { apply (Permutation_NoDup (l' := sel ++ rest)) in HN; [|symmetry; auto].
      apply NoDup_app_inv in HN. tauto. }
    split.
    + apply calls_in in Hc. tauto.
    + intros x. destruct (split_predict_pairs H3 H) as (_ & _ & HD). apply (HD _ _ _ _ x Hc).
  - rewrite (@split_index_none I shuf shuf0 m M idx sel Hsel Hm H2) in E. discriminate.
Qed.

Example split_predict_case :
  map fst (split_predict_calls [((1, 1), [1; 2]); ((1, 2), [3; 4])]) = [((1, 2), (1, 1)); ((1, 1), (1, 2))]
  /\ hierarchy_of 1 [1; 2] [((1, 1), [1]); ((1, 2), [2])].
Proof.
  split; [reflexivity|].
  assert (HL : forall i, level [((1, 1), [1]); ((1, 2), [2])] i <> [] -> i = 1).
  { intros i. unfold level. simpl. destruct i as [|[|i]]; simpl; congruence. }
  constructor.
  - repeat constructor; simpl; intuition congruence.
  - discriminate.
  - intros i Hi. apply HL in Hi. lia.
  - intros i Hi j. apply HL in Hi. subst i. split.
    + intros (s & [H|[H|[]]]); inversion H; simpl; lia.
    + intros H. simpl in H. assert (j = 1 \/ j = 2) as [->| ->] by lia; eexists; simpl; eauto.
  - intros i Hi. apply HL in Hi. subst. split; auto.
  - intros i Hi. apply HL in Hi. subst. simpl. auto.
  - intros _ i. unfold disjoint_family. destruct i as [|[|i]]; simpl; repeat constructor; simpl; intuition congruence.
  - intros [|[|i]] a b; simpl; intuition; subst; auto.
  - intros [|[|i]] s; simpl; intuition; subst; auto.
Qed.

(** C06, refuted at 999k (k >= 2): fetching fails although all rows exist. *)
Theorem compile_split_complete_refuted :
  exists (table : list (nat * unit)) (ids : list nat),
    NoDup (map fst table) /\ NoDup ids /\ (forall x, In x ids -> In x (map fst table)) /\
    compile_split Nat.eqb table ids = Err ValueError.
Proof.
  exists (map (fun i => (i, tt)) (seq 0 (2 * 999))), (seq 0 (2 * 999)).
  assert (E : map fst (map (fun i => (i, tt)) (seq 0 (2 * 999))) = seq 0 (2 * 999)).
  { rewrite map_map. apply map_id. }
  rewrite E. split; [apply seq_NoDup|]. split; [apply seq_NoDup|]. split; [auto|].
  unfold compile_split.
  refine (proj1 (@compile_split_char nat unit Nat.eqb Nat.eqb_eq _ _ 999 _ _ _ _) _).
  - rewrite E; apply seq_NoDup.
  - lia.
  - apply seq_NoDup.
  - intros x Hx. rewrite E. auto.
  - rewrite seq_length. split; [lia|]. apply Nat.mod_mul. lia.
Qed.

(** C06, the part that holds: for every other size, each requested row is
    returned exactly once. *)
Theorem compile_split_complete_partial :
  forall (I D : Type) (eqb : I -> I -> bool) (table : list (I * D)) (ids : list I),
  (forall x y, eqb x y = true <-> x = y) ->
  NoDup (map fst table) -> NoDup ids -> (forall x, In x ids -> In x (map fst table)) ->
  length ids <= 999 \/ length ids mod 999 <> 0 ->
  exists rows, compile_split eqb table ids = Ok rows /\
    Permutation (map fst rows) ids /\ (forall r, In r rows -> In r table).
Proof.
  intros I D eqb table ids He HT HN Hin Hsz.
  destruct (@compile_split_char I D eqb He table HT 999 ltac:(lia) ids HN Hin) as [_ H].
  apply H. intros [H1 H2]. destruct Hsz; [lia|auto].
Qed.

(** ... and at every larger multiple of 999 it raises. *)
Theorem compile_split_fails_at_multiples :
  forall (I D : Type) (eqb : I -> I -> bool) (table : list (I * D)) (ids : list I),
  (forall x y, eqb x y = true <-> x = y) ->
  NoDup (map fst table) -> NoDup ids -> (forall x, In x ids -> In x (map fst table)) ->
  999 < length ids -> length ids mod 999 = 0 ->
  compile_split eqb table ids = Err ValueError.
Proof.
  intros I D eqb table ids He HT HN Hin H1 H2.
  destruct (@compile_split_char I D eqb He table HT 999 ltac:(lia) ids HN Hin) as [H _].
  apply H. auto.
Qed.

Example compile_split_case :
  compile_split Nat.eqb [(1, 10); (2, 20); (3, 30)] [3; 1] = Ok [(1, 10); (3, 30)].
Proof. reflexivity. Qed.

Print Assumptions k_fold_partition.
Print Assumptions k_fold_features_partition.
Print Assumptions k_fold_fix_size.
Print Assumptions split_index_hierarchy.
Print Assumptions split_index_hierarchy_max.
Print Assumptions split_index_always_returns_refuted.
Print Assumptions split_index_returns_iff_partial.
Print Assumptions split_predict_pairs.
Print Assumptions split_predict_never_tests_on_training_data.
Print Assumptions compile_split_complete_refuted.
Print Assumptions compile_split_complete_partial.
Print Assumptions compile_split_fails_at_multiples.
