(** Feature screening and selection by regression: C39, C65, C88-C92. *)
From Coq Require Import Reals Lra List Bool Arith Lia Permutation Sorting.Sorted.
From Verif Require Import Base BaseFacts RBase ElimProofs FEModel ScreenModel ScreenProofs.
Import ListNotations.
Open Scope R_scope.

(** ** C65.  [good] are the [k] best of [n] candidates, [bad] the others. *)
Definition best_by (score : nat -> R) (n k : nat) (good bad : list nat) : Prop :=
  Permutation (good ++ bad) (seq 0 n) /\ length good = Nat.min k n /\
  (forall i j, In i good -> In j bad -> score j <= score i).

Theorem feature_select_ranks coeff size :
  let score i := Rabs (nth i coeff 0) in
  let good := fst (feature_select coeff size) in
  best_by score (length coeff) size good (snd (feature_select coeff size)) /\
  (forall a b, (a < b < length good)%nat -> score (nth b good 0%nat) <= score (nth a good 0%nat)).
Proof.
  cbv zeta. unfold feature_select. cbn [fst snd]. fold (ranking coeff).
  split; [split; [|split]|].
  - rewrite firstn_skipn. apply ranking_perm.
  - rewrite firstn_length, ranking_length. reflexivity.
  - intros i j. apply firstn_skipn_ranked.
  - intros a b H. rewrite firstn_length, ranking_length in H.
    assert (E : forall x, (x < size)%nat -> (x < length coeff)%nat ->
        nth x (firstn size (ranking coeff)) 0%nat = nth x (ranking coeff) 0%nat).
    { intros x H1 H2. rewrite <- (firstn_skipn size (ranking coeff)) at 2.
      rewrite app_nth1; auto. rewrite firstn_length, ranking_length. lia. }
    rewrite !E by lia. apply ranking_sorted. lia.
Qed.

Example feature_select_example : feature_select [1; -3; 2] 2 = ([1; 2], [0])%nat.
Proof.
  assert (A1 : Rabs 1 = 1) by (apply Rabs_pos_eq; lra). assert (A2 : Rabs 2 = 2) by (apply Rabs_pos_eq; lra).
  assert (A3 : Rabs (-3) = 3) by (rewrite Rabs_left; lra).
  unfold feature_select, rank_abs. cbn [map length seq combine]. rewrite A1, A2, A3.
  unfold isort, insert. cbn [fst].
  repeat (match goal with |- context [Rleb ?a ?b] =>
     first [rewrite (proj2 (Rleb_true a b)) by lra | rewrite (proj2 (Rleb_false a b)) by lra] end; cbn [fst]).
  reflexivity.
Qed.

(** ** C39.  The same columns stay in the train and the test matrix, in their
    original order: [kept] is increasing and lists the indices of the first [size]
    features of the importance order. *)
Definition keeps {C D} (c0 : C) (d0 : D) (train : list C) (test : list D) (train' : list C) (test' : list D)
  (chosen : list nat) : Prop :=
  exists kept, StronglySorted lt kept /\ Permutation kept chosen /\
    (forall i, In i kept -> (i < length train)%nat) /\
    train' = map (fun i => nth i train c0) kept /\ test' = map (fun i => nth i test d0) kept.

(** With an importance order computed beforehand. *)
Theorem elimination_keeps_same_columns {C D} (c0 : C) (d0 : D) train test order size :
  length train = length test -> Permutation order (seq 0 (length train)) ->
  exists train' test', eliminate_with None None train test order size = Ok (train', test', order, size) /\
    keeps c0 d0 train test train' test' (firstn size order).
Proof.
  intros L P. unfold eliminate_with. rewrite reduce_none_ok by auto. cbn [bind].
  rewrite reduce_none_ok by (rewrite <- L; auto). cbn [bind snd].
  do 2 eexists. split; [reflexivity|].
  exists (filter (notin (skipn size order)) (seq 0 (length train))).
  destruct (delete_order c0 train order size P) as (S1 & P1 & E1).
  split; auto. split; auto. split; [|split].
  - intros i Hi. eapply Permutation_in in Hi; [|exact P1]. apply firstn_In in Hi.
    apply (Permutation_in _ P) in Hi. apply in_seq in Hi. lia.
  - auto.
  - rewrite (delete_idx_nth d0), <- L. reflexivity.
Qed.

Example elimination_example :
  eliminate_with None None [10; 20; 30]%nat [1; 2; 3]%nat [2; 0; 1]%nat 2 = Ok ([10; 30], [1; 3], [2; 0; 1], 2)%nat.
Proof. reflexivity. Qed.

Section Correlations.
Variables pearsonr spearmanr kendalltau : fcolumn -> list R -> R.
Variable flat : fcolumn -> bool.
Notation corr := (get_correlation pearsonr spearmanr kendalltau flat).

(** Some columns are real features, the others (indices [f], [f]+1, ...) random. *)
Definition extended (rand : option (nat -> fcolumn)) (cols : list fcolumn) : list fcolumn :=
  match rand with None => cols | Some new => cols ++ map new (seq 0 (length cols / 10)) end.

Lemma position_spec x l : In x l -> (position x l < length l)%nat /\ nth (position x l) l 0%nat = x.
Proof.
  induction l as [|y l IH]; [contradiction|]. cbn [position]. destruct (Nat.eqb_spec y x) as [->|N].
  - intros _. cbn. split; auto; lia.
  - intros [->|H]; [tauto|]. apply IH in H. cbn. split; [lia|tauto].
Qed.

Lemma firstn_position x l k : NoDup l -> In x (firstn k l) -> (position x l < k)%nat.
Proof.
  intros ND H. revert k H. induction l as [|y l IH]; intros k H; [rewrite firstn_nil in H; contradiction|].
  destruct k as [|k]; [contradiction|]. cbn [firstn] in H. cbn [position].
  destruct (Nat.eqb_spec y x); [lia|]. destruct H as [->|H]; [tauto|].
  inversion ND; subst. specialize (IH ltac:(auto) k H). lia.
Qed.

Lemma fold_min_spec l n : (fold_left Nat.min l n <= n)%nat /\ (forall x, In x l -> (fold_left Nat.min l n <= x)%nat) /\
  (fold_left Nat.min l n = n \/ In (fold_left Nat.min l n) l).
Proof.
  revert n. induction l as [|a l IH]; intros n; cbn [fold_left].
  - repeat split; auto. intros x [].
  - destruct (IH (Nat.min n a)) as (H1 & H2 & H3). split; [lia|]. split.
    + intros x [<-|Hx]; [lia|]. apply H2; auto.
    + destruct H3 as [->|H3]; [|right; right; auto]. destruct (Nat.min_spec n a) as [[_ ->]|[_ ->]]; [left|right; left]; auto.
Qed.

(** ** C88.  The random check: every feature kept by the screening is a real
    feature that correlates with the target at least as strongly as every random
    feature; and a feature is dropped only when there are as many kept features as
    data points or some random feature does at least as well. *)
Theorem screening_beats_random kind n new target cols order size :
  screen pearsonr spearmanr kendalltau flat kind n (Some new) target cols = Ok (order, size) ->
  let f := length cols in
  let c i := Rabs (nth i (corr kind target (cols ++ map new (seq 0 (f / 10)))) 0) in
  (size <= n)%nat /\
  (forall i, In i (firstn size order) ->
     (i < f)%nat /\ forall j, (f <= j < f + f / 10)%nat -> c j <= c i) /\
  (forall i, (i < f)%nat -> ~ In i (firstn size order) ->
     size = n \/ exists j, (f <= j < f + f / 10)%nat /\ c i <= c j).
Proof.
  intros H. cbv zeta. unfold screen, set_index, random_extend in H.
  set (f := length cols) in *. set (ext := cols ++ map new (seq 0 (f / 10))) in *.
  assert (Le : length ext = (f + f / 10)%nat) by (unfold ext; rewrite app_length, map_length, seq_length; auto).
  destruct (length ext =? f)%nat; [discriminate|]. cbn [bind] in H.
  fold (ranking (corr kind target ext)) in H. set (rk := ranking (corr kind target ext)) in *.
  assert (IN : forall i, In i rk <-> (i < f + f / 10)%nat).
  { intros i. unfold rk. rewrite ranking_in, corr_length, Le. reflexivity. }
  assert (ND : NoDup rk) by apply ranking_nodup.
  injection H as Eo Es.
  destruct (fold_min_spec (map (fun i => position i rk) (seq f (f / 10))) n) as (M1 & M2 & M3).
  assert (Es' : size = fold_left Nat.min (map (fun i => position i rk) (seq f (f / 10))) n) by (symmetry; exact Es).
  rewrite <- Es' in M1, M2, M3. clear Es Es'. subst order.
  assert (SP : forall x, In x rk -> ~ In x (firstn size rk) -> In x (skipn size rk)).
  { intros x Hx Hn. rewrite <- (firstn_skipn size rk) in Hx. apply in_app_or in Hx. tauto. }
  assert (NR : forall j, (f <= j < f + f / 10)%nat -> ~ In j (firstn size rk)).
  { intros j Hj Hin. apply firstn_position in Hin; auto.
    assert (size <= position j rk)%nat; [|lia].
    apply M2. apply in_map_iff. exists j. split; auto. apply in_seq. lia. }
  split; auto. split.
  - intros i Hi. split.
    + assert (i < f + f / 10)%nat by (apply IN; eapply firstn_In; eauto).
      destruct (Nat.lt_ge_cases i f); auto. exfalso. apply (NR i); auto.
    + intros j Hj. apply firstn_skipn_ranked with (k := size); auto. apply SP; auto. apply IN. lia.
  - intros i Hi Hn. destruct M3 as [M3|M3]; auto. right.
    apply in_map_iff in M3. destruct M3 as [j [Ej Hj]]. apply in_seq in Hj. exists j. split; auto.
    assert (Hjr : In j rk) by (apply IN; lia).
    destruct (position_spec j rk Hjr) as [Pl Pn]. rewrite Ej in *.
    assert (His : In i (skipn size rk)) by (apply SP; auto; apply IN; lia).
    apply (In_nth _ _ 0%nat) in His. destruct His as [a [La Ea]]. rewrite skipn_length in La.
    assert (E2 : nth (size + a) rk 0%nat = i).
    { rewrite <- Ea. rewrite <- (firstn_skipn size rk) at 1.
      rewrite app_nth2; rewrite firstn_length; [f_equal; lia|lia]. }
    destruct a as [|a].
    + rewrite Nat.add_0_r in E2. rewrite <- E2, <- Pn. lra.
    + rewrite <- E2, <- Pn. apply ranking_sorted. fold rk. rewrite <- (ranking_length (corr kind target ext)).
      fold rk. lia.
Qed.

(** C39 for the whole non-iterative elimination; [check]: the random_check option
    (the three draws of random columns are arbitrary). *)
Definition draw {C} (check : bool) (new : nat -> C) : option (nat -> C) := if check then Some new else None.

Lemma reduce_some_ok {C} (new : nat -> C) (cols : list C) order size :
  (10 <= length cols)%nat -> Permutation order (seq 0 (length cols + length cols / 10)) ->
  reduce_matrix (Some new) cols order size =
  Ok (firstn size order, delete_idx (random_extend new cols) (skipn size order)).
Proof.
  intros T P.
  assert (Le : length (random_extend new cols) = (length cols + length cols / 10)%nat).
  { unfold random_extend. rewrite app_length, map_length, seq_length. auto. }
  assert (D : (1 <= length cols / 10)%nat) by (apply Nat.div_le_lower_bound; lia).
  unfold reduce_matrix, set_index. rewrite Le.
  destruct (Nat.eqb_spec (length cols + length cols / 10) (length cols)); [lia|]. cbn [bind].
  assert (length order = length (random_extend new cols)).
  { rewrite (Permutation_length P), seq_length. auto. }
  rewrite H, Nat.eqb_refl. cbn [negb]. rewrite delete_order_length, Nat.eqb_refl; auto. rewrite Le. auto.
Qed.

Theorem screening_keeps_same_columns {D} (d0 : D) kind n check new1 new2 new3 target train (test : list D) :
  length train = length test -> (check = true -> (10 <= length train)%nat) ->
  exists train' test' order size,
    eliminate_screen pearsonr spearmanr kendalltau flat kind n
      (draw check new1) (draw check new2) (draw check new3) target train test =
      Ok (train', test', order, size) /\
    keeps [] d0 train test train' test' (firstn size order).
Proof.
  intros L T. unfold eliminate_screen. destruct check; cbn [draw].
  - specialize (T eq_refl). set (f := length train) in *.
    assert (D1 : (1 <= f / 10)%nat) by (apply Nat.div_le_lower_bound; lia).
    destruct (screen pearsonr spearmanr kendalltau flat kind n (Some new1) target train) as [[order size]|e] eqn:E.
    2:{ exfalso. unfold screen, set_index, random_extend in E. rewrite app_length, map_length, seq_length in E.
        fold f in E. destruct (Nat.eqb_spec (f + f / 10) f); [lia|]. discriminate. }
    destruct (screening_beats_random _ _ _ _ _ _ _ E) as (_ & K & _). fold f in K.
    assert (P : Permutation order (seq 0 (f + f / 10))).
    { unfold screen, set_index, random_extend in E. destruct (_ =? _)%nat; [discriminate|]. cbn [bind] in E.
      injection E as Eo _. fold (ranking (corr kind target (train ++ map new1 (seq 0 (length train / 10))))) in Eo.
      rewrite <- Eo. etransitivity; [apply ranking_perm|]. rewrite corr_length, app_length, map_length, seq_length.
      reflexivity. }
    cbn [bind fst snd]. unfold eliminate_with. rewrite reduce_some_ok by auto. cbn [bind].
    rewrite reduce_some_ok by (rewrite <- L; auto). cbn [bind snd].
    do 4 eexists. split; [reflexivity|].
    assert (Le : length (random_extend new2 train) = (f + f / 10)%nat).
    { unfold random_extend. rewrite app_length, map_length, seq_length. auto. }
    assert (Le' : length (random_extend new3 test) = (f + f / 10)%nat).
    { unfold random_extend. rewrite app_length, map_length, seq_length, <- L. auto. }
    destruct (elimination_keeps_same_columns [] d0 (random_extend new2 train) (random_extend new3 test) order size)
      as (tr & te & E2 & kept & S1 & P1 & B1 & -> & ->).
    { rewrite Le, Le'; auto. } { rewrite Le; auto. }
    unfold eliminate_with in E2. rewrite reduce_none_ok in E2 by (rewrite Le; auto). cbn [bind] in E2.
    rewrite reduce_none_ok in E2 by (rewrite Le'; auto). cbn [bind snd] in E2.
    injection E2 as -> ->.
    assert (B : forall i, In i kept -> (i < f)%nat).
    { intros i Hi. apply K. eapply Permutation_in; eauto. }
    exists kept. split; auto. split; auto. split; auto. split.
    + apply map_ext_in. intros i Hi. unfold random_extend. rewrite app_nth1; auto.
    + apply map_ext_in. intros i Hi. unfold random_extend. rewrite app_nth1; auto. rewrite <- L. apply B; auto.
  - unfold screen, set_index. cbn [bind fst snd].
    fold (ranking (corr kind target train)).
    destruct (elimination_keeps_same_columns [] d0 train test (ranking (corr kind target train)) n)
      as (tr & te & E2 & K).
    + auto.
    + pose proof (ranking_perm (corr kind target train)) as P. rewrite corr_length in P. auto.
    + cbn [map fold_left]. do 4 eexists. split; [exact E2|]. exact K.
Qed.

(** Which coefficient each option should use. *)
Definition coefficient (kind : corr_kind) : fcolumn -> list R -> R :=
  match kind with Pearson => pearsonr | Spearman => spearmanr | Kendall => kendalltau end.

(** Asking for Pearson gives Spearman, asking for Spearman or Kendall gives
    Pearson. *)
Theorem correlation_swapped target cols :
  corr Pearson target cols = map (fun d => if flat d then 0 else spearmanr d target) cols /\
  corr Spearman target cols = map (fun d => if flat d then 0 else pearsonr d target) cols /\
  corr Kendall target cols = map (fun d => if flat d then 0 else pearsonr d target) cols.
Proof. repeat split. Qed.
End Correlations.

(** So no option is honoured. *)
Theorem correlation_choice_refuted kind :
  ~ (forall pearsonr spearmanr kendalltau flat target cols,
      get_correlation pearsonr spearmanr kendalltau flat kind target cols =
      map (fun d => if flat d then 0 else coefficient pearsonr spearmanr kendalltau kind d target) cols).
Proof.
  intros H. specialize (H (fun _ _ => 1) (fun _ _ => 2) (fun _ _ => 3) (fun _ => false) [] [[]]).
  destruct kind; cbn in H; injection H; lra.
Qed.

(** ** C89.  With fewer than ten features the random check always fails, with ten
    or more it never does (screening_keeps_same_columns). *)
Theorem random_check_few_features_refuted pearsonr spearmanr kendalltau flat regression
  kind n new1 new2 (new3 : nat -> fcolumn) target train test fuel size step :
  (length train < 10)%nat -> (2 * size < length train)%nat -> (step < size)%nat ->
  eliminate_screen pearsonr spearmanr kendalltau flat kind n (Some new1) (Some new2) (Some new3) target train test
    = Err AssertionError /\
  iterative_screen pearsonr spearmanr kendalltau flat regression fuel kind n (Some new1) target train size step
    = Err AssertionError.
Proof.
  intros L H1 H2. unfold eliminate_screen, screen, iterative_screen, set_index, random_extend.
  rewrite app_length, map_length, seq_length, (Nat.div_small (length train) 10), Nat.add_0_r, Nat.eqb_refl by auto.
  cbn [bind]. split; auto.
  rewrite (proj2 (Nat.ltb_lt _ _) H1), (proj2 (Nat.ltb_lt _ _) H2). reflexivity.
Qed.

(** ** C90.  Iterative screening ends, returns every feature exactly once, and
    accepts exactly the requested number of features (at most that many when the
    random check stops it). *)
Theorem iterative_screen_partitions pearsonr spearmanr kendalltau flat regression
  kind n check new target cols size step fuel :
  (forall m t, length (regression m t) = length m) ->
  (2 * size < length cols)%nat -> (1 <= step < size)%nat -> (size <= fuel)%nat ->
  (check = true -> (10 <= length cols)%nat) ->
  exists order k,
    iterative_screen pearsonr spearmanr kendalltau flat regression fuel kind n (draw check new) target cols size step
      = Ok (Some (order, k)) /\
    Permutation order (seq 0 (length cols)) /\ (k <= size)%nat /\ (check = false -> k = size).
Proof.
  intros FIT H1 H2 H3 T. unfold iterative_screen.
  rewrite (proj2 (Nat.ltb_lt _ _) H1), (proj2 (Nat.ltb_lt _ _) (proj2 H2)). cbn [negb].
  set (f := length cols) in *. set (r := if check then (f / 10)%nat else 0%nat).
  assert (SI : exists keep, length keep = (f + r)%nat /\
             set_index (draw check new) cols = Ok (keep, seq 0 f, seq f r)).
  { unfold set_index, draw. destruct check; fold f.
    - specialize (T eq_refl). exists (random_extend new cols).
      assert (Le : length (random_extend new cols) = (f + f / 10)%nat).
      { unfold random_extend. rewrite app_length, map_length, seq_length. auto. }
      assert (D1 : (1 <= f / 10)%nat) by (apply Nat.div_le_lower_bound; lia).
      split; auto. rewrite Le. destruct (Nat.eqb_spec (f + f / 10) f); [lia|]. reflexivity.
    - exists cols. split; [unfold r, f; lia|reflexivity]. }
  destruct SI as (keep & Lk & ->). cbn [bind].
  destruct (iterator_ok pearsonr spearmanr kendalltau flat regression FIT kind n target keep size step
              [] (seq 0 f) (seq f r)) as (nc & new1 & rej & -> & SR & P & Ln & Tn & Fn).
  - lia.
  - lia.
  - assert (G : forall k m, StronglySorted lt (seq k m)).
    { intros k m; revert k; induction m; intros k; cbn; constructor; auto. apply Forall_forall.
      intros x Hx. apply in_seq in Hx. lia. }
    apply G.
  - intros x Hx Hn. rewrite seq_length. rewrite in_seq in Hn. lia.
  - cbn [bind app].
    destruct (loop_ok pearsonr spearmanr kendalltau flat regression FIT kind n target keep f r size Lk H1
                fuel step nc new1 rej) as (acc' & rej' & -> & [P' S'] & La & _ & Tl).
    + lia.
    + lia.
    + split; auto.
    + lia.
    + intros ->. rewrite Tn; auto. lia.
    + lia.
    + cbn [bind option_map fst snd]. do 2 eexists. split; [reflexivity|]. split; [exact P'|]. split; auto.
      intros ->. apply Tl. apply Fn. intros x Hx. unfold r. cbn [seq]. auto.
Qed.

Example iterative_screen_example :
  exists order k, iterative_screen (fun _ _ => 0) (fun _ _ => 0) (fun _ _ => 0) (fun _ => true)
     (fun m _ => map (fun _ => 0) m) 2 Pearson 3 None [1; 2] [[1; 0]; [0; 1]; [1; 1]; [2; 1]; [1; 2]] 2 1
     = Ok (Some (order, k)) /\ Permutation order [0; 1; 2; 3; 4]%nat /\ k = 2%nat.
Proof.
  destruct (iterative_screen_partitions (fun _ _ => 0) (fun _ _ => 0) (fun _ _ => 0) (fun _ => true)
     (fun m _ => map (fun _ => 0) m) Pearson 3 false (fun _ => []) [1; 2]
     [[1; 0]; [0; 1]; [1; 1]; [2; 1]; [1; 2]] 2 1 2) as (o & k & E & P & _ & K);
    cbn; try lia; try discriminate.
  - intros; apply map_length.
  - exists o, k. auto.
Qed.

(** ** C91.  A round should accept the features with the largest regression
    coefficients.  [columns]: the features the regression is fitted on, in the
    order of the columns of its matrix. *)
Definition accepts_best (columns : list nat) (coef : list R) (chosen : list nat) : Prop :=
  exists good bad, best_by (fun i => Rabs (nth i coef 0)) (length columns) (length chosen) good bad /\
    Permutation chosen (map (fun i => nth i columns 0%nat) good).

(** It holds when the screened features happen to be in increasing order. *)
Theorem iteration_accepts_best_partial pearsonr spearmanr kendalltau flat regression
  kind n target features size step :
  (forall m t, length (regression m t) = length m) ->
  (size <= length features)%nat -> (step <= size)%nat ->
  let screened := firstn size (ranking (get_correlation pearsonr spearmanr kendalltau flat kind target features)) in
  StronglySorted lt screened ->
  exists accepted rejected,
    iterator pearsonr spearmanr kendalltau flat regression kind n target features size step
      [] (seq 0 (length features)) [] = Ok (true, accepted, rejected) /\
    accepts_best screened (regression (map (fun i => nth i features []) screened) target) accepted /\
    length accepted = step.
Proof.
  intros FIT Sz St screened SS. unfold iterator, screen, set_index. cbn [bind fst snd].
  fold (ranking (get_correlation pearsonr spearmanr kendalltau flat kind target features)).
  set (order := ranking (get_correlation pearsonr spearmanr kendalltau flat kind target features)) in *.
  assert (P : Permutation order (seq 0 (length features))).
  { pose proof (ranking_perm (get_correlation pearsonr spearmanr kendalltau flat kind target features)) as Q.
    rewrite corr_length in Q. exact Q. }
  assert (Lo : length order = length features) by (rewrite (Permutation_length P); apply seq_length).
  assert (ND : NoDup order) by (eapply Permutation_NoDup; [symmetry; eauto|apply seq_NoDup]).
  rewrite (reduce_none_ok features order size P). cbn [bind fst snd]. fold screened.
  assert (La : length screened = size) by (unfold screened; rewrite firstn_length; lia).
  assert (EM : delete_idx features (skipn size order) = map (fun i => nth i features []) screened).
  { destruct (delete_order [] features order size P) as (S1 & P1 & ->). f_equal.
    apply (@sorted_perm_unique _ le); auto; try (intros; lia).
    - clear -S1. induction S1; constructor; auto. eapply Forall_impl; [|eauto]. intros; cbn in *; lia.
    - clear -SS. induction SS; constructor; auto. eapply Forall_impl; [|eauto]. intros; cbn in *; lia. }
  rewrite EM. set (coef := regression (map (fun i => nth i features []) screened) target).
  assert (Lc : length coef = size) by (unfold coef; rewrite FIT, map_length; auto).
  destruct (feature_select_ranks coef step) as [B _].
  set (regr := fst (feature_select coef step)) in *.
  assert (Lr : length regr = step) by (destruct B as (_ & -> & _); lia).
  assert (Br : forall i, In i regr -> (i < length screened)%nat).
  { intros i Hi. destruct B as (B1 & _). assert (In i (seq 0 (length coef))).
    { eapply Permutation_in; [exact B1|]. apply in_or_app; auto. }
    apply in_seq in H. lia. }
  destruct (take_real_ok screened [] regr Br) as (q & nc & E & Lq & Tq & Nq & Fq).
  assert (nc = true) as -> by (destruct nc; auto; destruct (Fq eq_refl); contradiction).
  rewrite E. rewrite (Tq eq_refl), firstn_all. cbn [bind fst snd].
  set (sis := map (fun i => nth i screened 0%nat) regr).
  assert (NDr : NoDup regr).
  { destruct B as (B1 & _). assert (NoDup (regr ++ snd (feature_select coef step))).
    { eapply Permutation_NoDup; [symmetry; exact B1|apply seq_NoDup]. }
    apply NoDup_app_inv in H. tauto. }
  assert (NDs : NoDup sis).
  { apply map_nth_nodup; auto. apply nodup_firstn; auto. }
  assert (Bs : forall x, In x sis -> (x < length features)%nat).
  { intros x Hx. apply in_map_iff in Hx. destruct Hx as [i [<- Hi]].
    assert (In (nth i screened 0%nat) order) by (eapply firstn_In; apply nth_In; apply Br; auto).
    apply (Permutation_in _ P) in H. apply in_seq in H. lia. }
  set (ps := isort (fun a b => (b <=? a)%nat) sis).
  assert (Pp : Permutation ps sis) by apply isort_perm.
  destruct (move_ok ps [] (seq 0 (length features))) as (rej' & -> & SR' & P').
  - apply isort_desc; auto.
  - intros i Hi. rewrite seq_length. apply Bs. eapply Permutation_in; eauto.
  - assert (G : forall k m, StronglySorted lt (seq k m)).
    { intros k m; revert k; induction m; intros k; cbn; constructor; auto. apply Forall_forall.
      intros x Hx. apply in_seq in Hx. lia. }
    apply G.
  - cbn [bind fst snd app].
    assert (EA : map (fun i => nth i (seq 0 (length features)) 0%nat) ps = ps).
    { rewrite <- (map_id ps) at 2. apply map_ext_in. intros i Hi.
      assert (i < length features)%nat by (apply Bs; eapply Permutation_in; eauto).
      rewrite seq_nth; lia. }
    rewrite EA. do 2 eexists. split; [reflexivity|].
    assert (Lp : length ps = step) by (rewrite (Permutation_length Pp); unfold sis; rewrite map_length; auto).
    split; [|auto]. exists regr, (snd (feature_select coef step)). rewrite La, Lp, <- Lc. split; auto.
Qed.

(** In general the positions chosen by the regression, which refer to columns in
    increasing feature order, are looked up in the list ordered by correlation.
    Here features 0 and 1 are screened, 1 correlating better; the regression finds
    that feature 1 matters, and feature 0 is accepted. *)
Definition bug_cols : list fcolumn := [[10]; [20]; [0]; [0]; [0]].
Definition bug_corr (d : fcolumn) (_ : list R) : R := hd 0 d.
Definition bug_regression (m : list fcolumn) (_ : list R) : list R := map (hd 0) m.

Theorem iteration_accepts_best_refuted :
  exists rejected,
    iterator bug_corr bug_corr bug_corr (fun _ => false) bug_regression Pearson 1 [0] bug_cols 2 1
      [] (seq 0 5) [] = Ok (true, [0%nat], rejected) /\
    (forall m t, length (bug_regression m t) = length m) /\
    ~ accepts_best [0; 1]%nat (bug_regression [[10]; [20]] [0]) [0%nat].
Proof.
  assert (A0 : Rabs 0 = 0) by (apply Rabs_pos_eq; lra). assert (A2 : Rabs 20 = 20) by (apply Rabs_pos_eq; lra).
  assert (A1 : Rabs 10 = 10) by (apply Rabs_pos_eq; lra).
  assert (O : map snd (rank_abs [10; 20; 0; 0; 0]) = [1; 0; 2; 3; 4]%nat).
  { unfold rank_abs. cbn [map length seq combine]. rewrite A0, A1, A2. unfold isort, insert. cbn [fst].
    repeat (match goal with |- context [Rleb ?a ?b] =>
       first [rewrite (proj2 (Rleb_true a b)) by lra | rewrite (proj2 (Rleb_false a b)) by lra] end; cbn [fst]).
    reflexivity. }
  assert (Q : map snd (rank_abs [10; 20]) = [1; 0]%nat).
  { unfold rank_abs. cbn [map length seq combine]. rewrite A1, A2. unfold isort, insert. cbn [fst].
    repeat (match goal with |- context [Rleb ?a ?b] =>
       first [rewrite (proj2 (Rleb_true a b)) by lra | rewrite (proj2 (Rleb_false a b)) by lra] end; cbn [fst]).
    reflexivity. }
  exists [1; 2; 3; 4]%nat. split; [|split].
  - unfold iterator, screen, set_index. cbn [bind fst snd].
    assert (EC : get_correlation bug_corr bug_corr bug_corr (fun _ => false) Pearson [0] bug_cols = [10; 20; 0; 0; 0]) by reflexivity.
    rewrite EC, O. cbn [bind fst snd]. unfold reduce_matrix, set_index. cbn [bind fst snd].
    cbn -[feature_select rank_abs bug_regression]. unfold feature_select.
    assert (ER : bug_regression [[10]; [20]] [0] = [10; 20]) by reflexivity.
    rewrite ER, Q. reflexivity.
  - intros. apply map_length.
  - intros (good & bad & (Pg & Lg & Sg) & Pc).
    cbn [length Nat.min] in Lg. destruct good as [|g [|? ?]]; try discriminate.
    cbn [map] in Pc. apply Permutation_length_1 in Pc.
    assert (g < 2)%nat.
    { assert (In g (seq 0 2)) by (eapply Permutation_in; [exact Pg|left; auto]). apply in_seq in H. lia. }
    destruct g as [|[|g]]; [|discriminate Pc|lia].
    assert (In 1%nat bad).
    { assert (In 1%nat ([0%nat] ++ bad)) by (eapply Permutation_in; [symmetry; exact Pg|cbn; auto]).
      destruct H0 as [?|?]; [discriminate|auto]. }
    specialize (Sg 0%nat 1%nat (or_introl eq_refl) H0). cbn in Sg. rewrite A1, A2 in Sg. lra.
Qed.

(** ** C92.  The response of a remaining feature should be orthogonal to every
    accepted feature.  True for one accepted feature of norm 1. *)
Lemma dot_zip_scale d a c : length d = length a ->
  dot (zip (fun x y => (x - y * c) / 1) d a) a = dot d a - c * dot a a.
Proof.
  unfold dot, zip. revert a. induction d as [|x d IH]; intros [|y a] L; try discriminate; cbn; [lra|].
  assert (L' : length d = length a) by (cbn in L; lia). specialize (IH a L'). cbn in IH. unfold sumR in *. lra.
Qed.

Theorem response_orthogonal_partial d a :
  length d = length a -> dot a a = 1 -> dot (response d [a]) a = 0.
Proof.
  intros L N. unfold response. cbn [fold_left]. rewrite N, dot_zip_scale by auto. rewrite N. lra.
Qed.

Theorem response_not_orthogonal_refuted :
  (* one feature of norm 2 *)
  dot (response [1; 0] [[2; 0]]) [2; 0] <> 0 /\
  (* two orthonormal features: only the last one is removed *)
  dot (response [1; 1] [[1; 0]; [0; 1]]) [1; 0] <> 0.
Proof.
  unfold response, dot. cbn. split; lra.
Qed.

(** Only the last accepted feature has any influence. *)
Theorem response_uses_last_only_refuted d a others : response d (others ++ [a]) = response d [a].
Proof. unfold response. rewrite fold_left_app. reflexivity. Qed.

Print Assumptions screening_keeps_same_columns.
Print Assumptions iterative_screen_partitions.
