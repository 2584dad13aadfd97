(** Proofs about parallel evaluation, cross validation, the genetic operators,
    population initialisation and parent selection. *)
From Coq Require Import List Arith Lia Permutation Bool Sorting.Sorted ZArith QArith.
From Verif Require Import Base BaseFacts GAModel.
Import ListNotations.
Local Open Scope nat_scope.

(** ** Parallel evaluation *)
Lemma fold_set_nth {F} (v : nat -> F) d l fit x :
  x < length fit ->
  nth x (fold_left (fun fit i => set_nth i (v i) fit) l fit) d =
  if existsb (Nat.eqb x) l then v x else nth x fit d.
Proof.
  revert fit. induction l as [|i l IH]; simpl; intros fit Hx; auto.
  rewrite IH by (rewrite set_nth_length; auto).
  destruct (existsb (Nat.eqb x) l); [rewrite orb_true_r; auto|]. rewrite orb_false_r.
  destruct (Nat.eqb_spec x i) as [->|Hne].
  - apply nth_set_nth_eq; auto.
  - apply nth_set_nth_neq; auto.
Qed.
Lemma fold_set_nth_length {F} (v : nat -> F) l fit :
  length (fold_left (fun fit i => set_nth i (v i) fit) l fit) = length fit.
Proof.
  revert fit; induction l; simpl; intros; auto. rewrite IHl, set_nth_length; auto.
Qed.

Lemma parallel_serial {C F} (dC : C) (zero : F) score order done_ params :
  Permutation order (seq 0 (length params)) -> Permutation done_ (seq 0 (length params)) ->
  parallel_iterator dC zero score order done_ params = serial_iterator score params.
Proof.
  intros Ho Hd. unfold parallel_iterator, serial_iterator. cbv zeta.
  set (n := length params) in *.
  assert (HLo : length order = n) by (rewrite (Permutation_length Ho), seq_length; auto).
  set (fit := fold_left _ done_ (repeat zero n)).
  assert (Hfl : length fit = n) by (unfold fit; rewrite fold_set_nth_length, repeat_length; auto).
  assert (Hfit : forall x, x < n -> nth x fit zero = score (nth (nth x order 0) params dC)).
  { intros x Hx. unfold fit.
    rewrite (fold_set_nth (fun x => score (nth x (gather dC params order) dC))) by (rewrite repeat_length; auto).
    destruct (existsb (Nat.eqb x) done_) eqn:E.
    - rewrite nth_gather by lia. auto.
    - exfalso. assert (In x done_).
      { eapply Permutation_in; [symmetry; exact Hd|]. apply in_seq. lia. }
      assert (existsb (Nat.eqb x) done_ = true); [|congruence].
      apply existsb_exists. exists x. split; auto. apply Nat.eqb_refl. }
  assert (HLa : length (argsort order) = n).
  { unfold argsort. rewrite map_length, isort_length, combine_length, seq_length. lia. }
  apply list_ext_nth with (d := zero).
  - rewrite gather_length, map_length. auto.
  - rewrite gather_length, HLa. intros i Hi.
    rewrite nth_gather by lia.
    destruct (@sort_by_index nat 0 order (seq 0 (length order)) n Ho) with (i := i) as (p & Hp & Hpo & Hpn);
      [rewrite seq_length; auto|auto|].
    unfold argsort. rewrite Hpn. rewrite seq_nth by lia. simpl. rewrite Hfit by auto. rewrite Hpo.
    rewrite nth_indep with (d' := score dC) by (rewrite map_length; auto). rewrite map_nth. auto.
Qed.

(** ** Cross validation *)
Lemma cv_partition {V T} (folds : list (list (list V * T))) k :
  k < length folds -> Permutation (cv_train folds k ++ cv_test folds k) (concat folds).
Proof.
  intros Hk. unfold cv_train, cv_test.
  rewrite <- (firstn_skipn k folds) at 4.
  assert (E : skipn k folds = nth k folds [] :: skipn (S k) folds).
  { revert k Hk. induction folds as [|f folds IH]; simpl; intros [|k] Hk; auto; try lia. apply IH; lia. }
  rewrite E, !concat_app. simpl. rewrite <- app_assoc. apply Permutation_app_head.
  apply Permutation_app_comm.
Qed.

(** ** Operators *)
Lemma mapi_from_length {A B} (f : nat -> A -> B) i l : length (mapi_from f i l) = length l.
Proof. revert i; induction l; simpl; auto. Qed.
Lemma nth_mapi_from {A B} (f : nat -> A -> B) i l j dA dB :
  j < length l -> nth j (mapi_from f i l) dB = f (i + j) (nth j l dA).
Proof.
  revert i j; induction l as [|x l IH]; simpl; intros i [|j] H; try lia.
  - rewrite Nat.add_0_r; auto.
  - rewrite IH by lia. f_equal. lia.
Qed.

Lemma splice_nth cut (p1 p2 : cand) i d :
  length p1 = length p2 -> cut <= length p1 -> i < length p1 ->
  nth i (firstn cut p1 ++ skipn cut p2) d = if i <? cut then nth i p1 d else nth i p2 d.
Proof.
  intros HL Hc Hi. destruct (Nat.ltb_spec i cut).
  - rewrite app_nth1 by (rewrite firstn_length; lia).
    revert i cut H Hi Hc; clear HL; induction p1; intros [|i] [|cut] H Hi Hc; simpl in *; auto; try lia.
    apply IHp1; lia.
  - rewrite app_nth2 by (rewrite firstn_length; lia). rewrite firstn_length.
    replace (min cut (length p1)) with cut by lia.
    assert (Hn : forall (l : cand) c j, nth j (skipn c l) d = nth (c + j) l d).
    { induction l; intros [|c] j; simpl; auto. destruct j; auto. }
    rewrite Hn. f_equal. lia.
Qed.

Lemma count_true_0 p : count_true p = 0 <-> forall i, nth i p false = false.
Proof.
  unfold count_true. induction p as [|b p IH]; simpl.
  - split; auto. intros _ [|i]; auto.
  - destruct b; simpl.
    + split; [lia|]. intros H. specialize (H 0). discriminate.
    + rewrite IH. split.
      * intros H [|i]; auto.
      * intros H i. apply (H (S i)).
Qed.

Lemma filter_negb_all (p : cand) : length (filter negb p) = length p <-> count_true p = 0.
Proof.
  unfold count_true. pose proof (filter_length_split negb p).
  assert (E : filter (fun x => negb (negb x)) p = filter (fun b => b) p).
  { apply filter_ext. intros; apply negb_involutive. }
  rewrite E in H. lia.
Qed.

Lemma count_true_set i p : i < length p -> 1 <= count_true (set_nth i true p).
Proof.
  intros Hi. destruct (count_true (set_nth i true p)) eqn:E; [|lia].
  rewrite count_true_0 in E. specialize (E i). rewrite nth_set_nth_eq in E by auto. discriminate.
Qed.

Lemma count_true_mono p q : length p = length q -> (forall i, nth i p false = true -> nth i q false = true) ->
  count_true p <= count_true q.
Proof.
  unfold count_true. revert q; induction p as [|b p IH]; intros [|c q]; simpl; intros HL H; try lia.
  specialize (IH q ltac:(lia) (fun i => H (S i))). pose proof (H 0) as H0. simpl in H0.
  destruct b, c; simpl; try lia; discriminate (H0 eq_refl).
Qed.

Lemma count_true_set_le i p : count_true (set_nth i true p) <= S (count_true p).
Proof.
  unfold count_true. revert i; induction p as [|b p IH]; intros [|i]; simpl; auto.
  - destruct b; simpl; lia.
  - specialize (IH i). destruct b; simpl; lia.
Qed.

Lemma probability_remove_spec hit index p :
  let q := probability_remove hit index p in
  length q = length p /\
  ((exists i, nth i p false = true /\ hit i = false /\ i < length p) ->
     forall i, i < length p -> nth i q false = nth i p false && negb (hit i)) /\
  ((forall i, nth i p false = true -> hit i = true) -> index < length p ->
     forall i, i < length p -> nth i q false = Nat.eqb i index).
Proof.
  unfold probability_remove. set (p1 := mapi_from _ 0 p).
  assert (HL : length p1 = length p) by apply mapi_from_length.
  assert (Hn : forall i, i < length p -> nth i p1 false = nth i p false && negb (hit i)).
  { intros i Hi. unfold p1. rewrite nth_mapi_from with (dA := false) by auto. simpl.
    destruct (nth i p false), (hit i); auto. }
  destruct (Nat.eqb_spec (length (filter negb p1)) (length p1)) as [E|E].
  - apply filter_negb_all in E. rewrite count_true_0 in E. split; [|split].
    + rewrite set_nth_length; auto.
    + intros (i & H1 & H2 & H3). specialize (E i). rewrite Hn, H1, H2 in E by auto. discriminate.
    + intros _ Hi i Hi'. destruct (Nat.eqb_spec i index) as [->|Hne].
      * apply nth_set_nth_eq. lia.
      * rewrite nth_set_nth_neq; auto.
  - split; [|split]; auto.
    intros H Hi i Hi'. exfalso. apply E. apply filter_negb_all, count_true_0. intros j.
    destruct (lt_dec j (length p)).
    + rewrite Hn by auto. destruct (nth j p false) eqn:Ej; auto. rewrite (H j Ej). auto.
    + apply nth_overflow. lia.
Qed.

Lemma probability_remove_nonempty hit index p :
  index < length p -> 1 <= active (probability_remove hit index p).
Proof.
  intros Hi. unfold probability_remove, active. set (p1 := mapi_from _ 0 p).
  assert (HL : length p1 = length p) by apply mapi_from_length.
  destruct (Nat.eqb_spec (length (filter negb p1)) (length p1)) as [E|E].
  - apply count_true_set. lia.
  - destruct (count_true p1) eqn:Ec; [|lia]. exfalso. apply E, filter_negb_all; auto.
Qed.

Lemma probability_remove_sub hit index p :
  1 <= active p -> index < length p ->
  (* some active gene survives the draws, or the result is the single gene [index] *)
  active (probability_remove hit index p) <= active p.
Proof.
  intros Ha Hi. unfold probability_remove, active in *. set (p1 := mapi_from _ 0 p).
  assert (HL : length p1 = length p) by apply mapi_from_length.
  destruct (Nat.eqb_spec (length (filter negb p1)) (length p1)) as [E|E].
  - apply filter_negb_all in E. pose proof (count_true_set_le index p1). lia.
  - apply count_true_mono; auto. intros j Hj.
    destruct (lt_dec j (length p)); [|rewrite nth_overflow in Hj by lia; discriminate].
    unfold p1 in Hj. rewrite nth_mapi_from with (dA := false) in Hj by auto. simpl in Hj.
    destruct (nth j p false); auto.
Qed.

Lemma probability_include_spec hit p :
  let q := probability_include hit p in
  length q = length p /\ forall i, i < length p -> nth i q false = nth i p false || hit i.
Proof.
  unfold probability_include. split; [apply mapi_from_length|].
  intros i Hi. rewrite nth_mapi_from with (dA := false) by auto. simpl.
  destruct (nth i p false), (hit i); auto.
Qed.

(** ** Initialisation *)
Lemma activate_spec idx p :
  (forall i, In i idx -> i < length p) ->
  exists q, activate idx p = Ok q /\ length q = length p /\
    forall i, nth i q false = existsb (Nat.eqb i) idx && (i <? length p) || nth i p false.
Proof.
  revert p. induction idx as [|j idx IH]; simpl; intros p H.
  - exists p. auto.
  - destruct (Nat.ltb_spec j (length p)) as [Hj|Hj]; [|specialize (H j (or_introl eq_refl)); lia].
    destruct (IH (set_nth j true p)) as (q & E & HL & Hn).
    { intros i Hi. rewrite set_nth_length. apply H; auto. }
    exists q. rewrite set_nth_length in *. repeat split; auto.
    intros i. rewrite Hn. destruct (Nat.eqb_spec i j) as [->|Hne]; simpl.
    + rewrite nth_set_nth_eq by auto. destruct (Nat.ltb_spec j (length p)); [|lia].
      rewrite orb_true_r. auto.
    + rewrite nth_set_nth_neq by auto. auto.
Qed.

Lemma count_true_idx idx p :
  NoDup idx -> (forall i, In i idx -> i < length p) ->
  (forall i, nth i p false = existsb (Nat.eqb i) idx && (i <? length p)) ->
  count_true p = length idx.
Proof.
  intros HN Hb Hp. unfold count_true.
  assert (E : length (filter (fun b : bool => b) p) = length (filter (fun i => nth i p false) (seq 0 (length p)))).
  { clear. induction p as [|b p IH]; simpl; auto.
    rewrite <- seq_shift. 
    assert (Hm : forall (f : nat -> bool) l, length (filter f (map S l)) = length (filter (fun i => f (S i)) l)).
    { induction l; simpl; auto. destruct (f (S a)); simpl; auto. }
    destruct b; simpl; rewrite Hm; auto. }
  rewrite E. symmetry. apply Permutation_length. apply NoDup_Permutation; auto.
  - apply NoDup_filter, seq_NoDup.
  - intros x. rewrite filter_In, in_seq, Hp. rewrite andb_true_iff, Nat.ltb_lt, existsb_exists. split.
    + intros Hx. specialize (Hb x Hx). repeat split; try lia. exists x. split; auto. apply Nat.eqb_refl.
    + intros (_ & (y & Hy & Ey) & _). apply Nat.eqb_eq in Ey. subst; auto.
Qed.

Lemma initialize_spec dimension dmax draws :
  n_active dimension dmax <= dimension ->
  (forall idx, In idx draws -> valid_draw dimension dmax idx) ->
  exists pop, initialize_population dimension draws = Ok pop /\
    Forall2 (fun idx p => length p = dimension /\ active p = length idx /\
                 forall i, nth i p false = true <-> In i idx) draws pop.
Proof.
  intros Hd. induction draws as [|idx draws IH]; simpl; intros H.
  - exists []. auto.
  - destruct (H idx (or_introl eq_refl)) as (HN & Hb & _).
    destruct (activate_spec idx (repeat false dimension)) as (q & E & HL & Hn).
    { intros i Hi. rewrite repeat_length. specialize (Hb i Hi). lia. }
    rewrite repeat_length in *.
    destruct IH as (pop & E' & HF). { intros; apply H; auto. }
    rewrite E. simpl. rewrite E'. simpl. exists (q :: pop). split; auto. constructor; auto.
    assert (Hn' : forall i, nth i q false = existsb (Nat.eqb i) idx && (i <? length q)).
    { intros i. rewrite Hn, HL.
      assert (Hr : nth i (repeat false dimension) false = false).
      { destruct (lt_dec i dimension).
        - apply nth_repeat.
        - apply nth_overflow. rewrite repeat_length; lia. }
      rewrite Hr, orb_false_r. auto. }
    split; [auto|]. split.
    + apply count_true_idx; auto. intros i Hi. specialize (Hb i Hi). lia.
    + intros i. rewrite Hn', andb_true_iff, existsb_exists, Nat.ltb_lt. split.
      * intros [(y & Hy & Ey) _]. apply Nat.eqb_eq in Ey. subst; auto.
      * intros Hi. split; [exists i; split; auto; apply Nat.eqb_refl|]. specialize (Hb i Hi). lia.
Qed.

(** ** Selection probabilities *)
Section Sel.
Context {F : Type}.
Variable leb : F -> F -> bool.
Hypothesis Hord : total_preorder leb.

Lemma pair_geb_tp : total_preorder (pair_geb leb).
Proof.
  destruct Hord as [Htot Htr]. unfold pair_geb. split.
  - intros [a i] [b j]; simpl. destruct (leb a b) eqn:E1, (leb b a) eqn:E2; auto.
    rewrite !Nat.leb_le. lia.
  - intros [a i] [b j] [c k]; simpl.
    destruct (leb a b) eqn:E1, (leb b a) eqn:E2, (leb b c) eqn:E3, (leb c b) eqn:E4;
    destruct (leb a c) eqn:E5; destruct (leb c a) eqn:E6; auto; intros H1 H2;
    try discriminate; rewrite ?Nat.leb_le in *; try lia;
    exfalso;
    repeat match goal with
    | H : leb ?x ?y = true, H' : leb ?y ?z = true, H'' : leb ?x ?z = false |- _ =>
        rewrite (Htr x y z H H') in H''; discriminate
    | H : leb ?x ?y = false, H' : leb ?y ?x = false |- _ => destruct (Htot x y); congruence
    end.
Qed.

Lemma selection_order_perm fits : Permutation (selection_order leb fits) (seq 0 (length fits)).
Proof.
  unfold selection_order. rewrite <- (map_combine_snd fits (seq 0 (length fits))) at 2 by (rewrite seq_length; auto).
  apply Permutation_map, isort_perm.
Qed.

Lemma selection_prob_spec fits i :
  i < length fits ->
  exists r, r < length fits /\ nth r (selection_order leb fits) 0 = i /\
    nth i (selection_prob leb fits) 0%Q = scale (length fits) r.
Proof.
  intros Hi. unfold selection_prob. cbv zeta.
  destruct (@sort_by_index Q 0%Q (selection_order leb fits) (map (scale (length fits)) (seq 0 (length fits)))
     (length fits) (selection_order_perm fits)) with (i := i) as (p & Hp & Hpo & Hpn); auto.
  - rewrite map_length, seq_length; auto.
  - exists p. rewrite Hpn. repeat split; auto.
    rewrite nth_indep with (d' := scale (length fits) 0) by (rewrite map_length, seq_length; auto).
    rewrite map_nth, seq_nth by auto. auto.
Qed.

Lemma selection_order_desc fits dF r1 r2 :
  r1 < r2 -> r2 < length fits ->
  leb (nth (nth r2 (selection_order leb fits) 0) fits dF)
      (nth (nth r1 (selection_order leb fits) 0) fits dF) = true.
Proof.
  intros H1 H2. unfold selection_order.
  set (s := isort (pair_geb leb) (combine fits (seq 0 (length fits)))).
  assert (HS : StronglySorted (rel (pair_geb leb)) s) by (apply isort_sorted, pair_geb_tp).
  assert (HLs : length s = length fits) by (unfold s; rewrite isort_length, combine_length, seq_length; lia).
  assert (Hpair : forall r, r < length fits -> fst (nth r s (dF, 0)) = nth (snd (nth r s (dF, 0))) fits dF).
  { intros r Hr. assert (Hin : In (nth r s (dF, 0)) s) by (apply nth_In; lia).
    unfold s in Hin at 2. apply isort_in in Hin. destruct (nth r s (dF, 0)) as [x j] eqn:E.
    destruct (combine_nth_ex _ _ _ _ Hin) as (q & A & B). simpl.
    assert (q < length (seq 0 (length fits))) by (apply nth_error_Some; congruence).
    rewrite seq_length in H.
    apply nth_error_nth with (d := 0) in B. rewrite seq_nth in B by auto. simpl in B. subst q.
    symmetry. apply nth_error_nth; auto. }
  change (nth r2 (map snd s) 0) with (nth r2 (map snd s) (snd (dF, 0))).
  change (nth r1 (map snd s) 0) with (nth r1 (map snd s) (snd (dF, 0))).
  rewrite !map_nth.
  rewrite <- !Hpair by lia.
  pose proof (@StronglySorted_nth _ _ s (dF, 0) r1 r2 HS H1 ltac:(lia)) as H. unfold rel, pair_geb in H.
  destruct Hord as [Htot _].
  destruct (leb (fst (nth r2 s (dF, 0))) (fst (nth r1 s (dF, 0)))) eqn:E; auto.
  destruct (leb (fst (nth r1 s (dF, 0))) (fst (nth r2 s (dF, 0)))) eqn:E2; [discriminate|].
  destruct (Htot (fst (nth r2 s (dF, 0))) (fst (nth r1 s (dF, 0)))); congruence.
Qed.

(** the fitter of two candidates gets the strictly smaller probability *)
Lemma selection_prob_anti fits dF i j :
  i < length fits -> j < length fits ->
  leb (nth i fits dF) (nth j fits dF) = false ->    (* i is strictly fitter *)
  (nth i (selection_prob leb fits) 0 < nth j (selection_prob leb fits) 0)%Q.
Proof.
  intros Hi Hj Hf.
  destruct (selection_prob_spec fits i Hi) as (ri & Hri & Eri & Pi).
  destruct (selection_prob_spec fits j Hj) as (rj & Hrj & Erj & Pj).
  rewrite Pi, Pj.
  assert (Hlt : ri < rj).
  { destruct (lt_eq_lt_dec ri rj) as [[H|H]|H]; auto.
    - subst rj. rewrite Eri in Erj. subst j. destruct Hord as [Htot _]. destruct (Htot (nth i fits dF) (nth i fits dF)); congruence.
    - pose proof (selection_order_desc fits dF rj ri H Hri) as HD. rewrite Eri, Erj in HD. congruence. }
  unfold scale, Qlt. simpl. nia.
Qed.
End Sel.
