(** Properties C19-C23, C69, C70: backward elimination. *)
From Coq Require Import List Arith Lia Permutation Bool Sorting.Sorted ZArith.
From Verif Require Import Base BaseFacts GAModel GAOpsProofs ElimModel ElimProofs.
Import ListNotations.
Local Open Scope nat_scope.
Local Arguments Nat.div : simpl never.

(** ** Specification *)

(** The score of removing feature [f] from the features [S]: average over the
    folds of the prediction score on the remaining columns. *)
Section Spec.
Context {V T F : Type}.
Variable dV : V.
Variable mean : list F -> F.
Variable predict : list (list V) -> list T -> list (list V) -> list T -> pred_out F.
Variable folds : list (list (list V * T)).
Definition without (f : nat) (S : list nat) : list nat := filter (fun x => negb (x =? f)) S.
Definition columns (S : list nat) (rows : list (list V * T)) : list (list V) :=
  map (fun r => map (fun j => nth j (fst r) dV) S) rows.
Definition removal_score (S : list nat) (f : nat) : F :=
  mean (map (fun k =>
    let train := concat (firstn k folds ++ skipn (Datatypes.S k) folds) in
    let test := nth k folds [] in
    score_of (predict (columns (without f S) train) (map snd train)
                      (columns (without f S) test) (map snd test))) (seq 0 (length folds))).

(** The score of perturbing the [p]-th of the features [S]. *)
Context {M : Type}.
Variable train_predict : list (list V) -> list T -> M.
Variable test_predict : M -> list (list V) -> list T -> pred_out F.
Variable transform : nat -> list (list V) -> list (list V) -> list (list V) * list (list V).
Definition perturb_result (S : list nat) (p k : nat) : pred_out F :=
  let train := concat (firstn k folds ++ skipn (Datatypes.S k) folds) in
  let test := nth k folds [] in
  test_predict (train_predict (columns S train) (map snd train))
    (snd (transform p (columns S train) (columns S test))) (map snd test).
Definition perturb_score (S : list nat) (p : nat) : F :=
  mean (map (fun k => score_of (perturb_result S p k)) (seq 0 (length folds))).
End Spec.

(** A worker schedule: in every round and fold each remaining position is
    reported exactly once, in any order. *)
Definition schedule (T step : nat) (sched : nat -> nat -> list nat) : Prop :=
  forall r k, Permutation (sched r k) (seq 0 (T - r * step)).
Definition serial (T step : nat) : nat -> nat -> list nat := fun r _ => seq 0 (T - r * step).
Lemma serial_schedule T step : schedule T step (serial T step).
Proof. intros r k. apply Permutation_refl. Qed.

(** Features reported, in order. *)
Notation reported out := (map (fun e => fst (fst e)) out).

(** The features which were not reported in the first [r] rounds. *)
Definition left_before (T step r : nat) {F} (out : list (nat * F * list F)) : list nat :=
  filter (fun f => negb (existsb (Nat.eqb f) (firstn (r * step) (reported out)))) (seq 0 T).

(** [out] is a faithful backward elimination of [T] features by [step] for the
    score [sc S f] of feature [f] among [S]. *)
Record faithful_elimination {F} (leb : F -> F -> bool) (T step : nat) (sc : list nat -> nat -> F)
  (out : list (nat * F * list F)) (surv : list nat) : Prop := {
  fe_count : length out = step * ((T - 1) / step);
  fe_cover : Permutation (reported out ++ surv) (seq 0 T);
  fe_rounds : forall r, r < (T - 1) / step ->
    let S := left_before T step r out in
    let round := firstn step (skipn (r * step) out) in
    length round = step /\
    (forall f x m, In (f, x, m) round -> In f S /\ x = sc S f) /\
    (forall f x m f', In (f, x, m) round -> In f' S -> ~ In f' (reported round) ->
        leb x (sc S f') = true) /\
    (forall a b e, a < b -> b < step ->
        leb (snd (fst (nth a round e))) (snd (fst (nth b round e))) = true)
}.

(** ** Proofs *)
Lemma firstn_seq a n m : n <= m -> firstn n (seq a m) = seq a n.
Proof.
  revert a m; induction n as [|n IH]; intros a m H; simpl; auto. destruct m; [lia|]. simpl. f_equal. apply IH. lia.
Qed.

Lemma skipn_firstn_rounds {A} (l : list A) a n : length (firstn n (skipn a l)) = min n (length l - a).
Proof. rewrite firstn_length, skipn_length. auto. Qed.

Lemma reported_firstn {F} n (l : list (nat * F * list F)) : feats (firstn n l) = firstn n (reported l).
Proof. unfold feats. rewrite firstn_map. auto. Qed.

Section Faithful.
Context {F : Type}.
Variable leb : F -> F -> bool.
Variable mean : list F -> F.
Variable zero : F.
Variable asort : list F -> list nat.
Variable nsplit step : nat.
Variable ev : nat -> list nat -> nat -> pred_out F.
Variable meta_row : list (list (list F)) -> nat -> result (list F).
Hypothesis Hsort : asort_ok leb asort.
Hypothesis Hnsplit : nsplit <> 1.
Variable sc : list nat -> nat -> F.
Hypothesis Hsc : forall S i, NoDup S -> i < length S -> pos_score mean nsplit ev S i = sc S (nth i S 0).

Lemma run_faithful T sched :
  1 <= step -> schedule T step sched ->
  (forall meta g, exists m, meta_row meta g = Ok m) \/
  (forall k surv x, meta_of (ev k surv x) = None) /\ (forall g, exists m, meta_row [] g = Ok m) ->
  exists st, elim_run mean zero asort nsplit step ev meta_row sched (elim_start T) = Ok st /\
    faithful_elimination leb T step sc (output st) (survivors st) /\
    (1 <= T -> survivors st <> []).
Proof.
  intros Hst Hsch Hm. unfold elim_run. rewrite (proj2 (Nat.eqb_neq step 0)) by lia. simpl total.
  destruct (rounds_trace leb mean zero asort nsplit step ev meta_row Hsort Hnsplit T ((T-1)/step) 0 sched (elim_start T))
    as (st & rest & E & [G1 G2 G3 G4 G5] & R1 & R2); auto.
  { apply good_start. }
  { destruct (rounds_bound T step Hst); auto. }
  simpl in G1, G4.
  exists st. split; auto. split.
  - constructor.
    + rewrite G1. lia.
    + exact G5.
    + intros r Hr S rnd. specialize (R2 r Hr). simpl Nat.add in R2. cbv zeta in R2.
      rewrite reported_firstn in R2.
      change (remaining T (firstn (r * step) (reported (output st)))) with S in R2.
      destruct R2 as [L R]. fold rnd in R.
      set (s := asort (pos_scores mean nsplit ev S)) in *.
      destruct (Hsort (pos_scores mean nsplit ev S) zero) as [Hs1 Hs2]. fold s in Hs1, Hs2.
      assert (HLs : length (pos_scores mean nsplit ev S) = length S)
        by (unfold pos_scores; rewrite map_length, seq_length; auto).
      rewrite HLs in Hs1, Hs2.
      assert (Hls : length s = length S) by (rewrite (Permutation_length Hs1), seq_length; auto).
      assert (HN : NoDup S) by (apply remaining_nodup).
      assert (HrT : (r + 1) * step < T).
      { pose proof (rounds_bound T step Hst). nia. }
      assert (Hst2 : step <= length S) by nia.
      assert (Hsb : forall i, In i s -> i < length S).
      { intros i Hi. assert (In i (seq 0 (length S))) by (eapply Permutation_in; eauto). apply in_seq in H. lia. }
      assert (Hlr : length rnd = step).
      { assert (length (map fst rnd) = step) by (rewrite R, map_length, firstn_length; lia).
        rewrite map_length in H. auto. }
      assert (Hps : forall i, i < length S -> nth i (pos_scores mean nsplit ev S) zero = sc S (nth i S 0)).
      { intros i Hi. unfold pos_scores. rewrite (@nth_map_lt _ _ _ _ _ 0) by (rewrite seq_length; auto).
        rewrite seq_nth by auto. apply Hsc; auto. }
      assert (Hent : forall a e, a < step ->
        fst (nth a rnd e) = (nth (nth a s 0) S 0, sc S (nth (nth a s 0) S 0))).
      { intros a e Ha.
        transitivity (nth a (map fst rnd) (fst e)); [symmetry; apply map_nth|].
        rewrite R. rewrite (@nth_map_lt _ _ _ _ _ 0) by (rewrite firstn_length; lia).
        assert (En : nth a (firstn step s) 0 = nth a s 0).
        { rewrite <- (firstn_skipn step s) at 2. rewrite app_nth1; auto. rewrite firstn_length; lia. }
        rewrite En. f_equal. apply Hsc; auto. apply Hsb, nth_In. lia. }
      split; auto. split; [|split].
      * intros f x m Hin. destruct (In_nth _ _ (0, zero, []) Hin) as (a & Ha & Ea).
        rewrite Hlr in Ha. pose proof (Hent a (0, zero, []) Ha) as Hf. rewrite Ea in Hf. simpl in Hf.
        inversion Hf as [[Q1 Q2]]. split; auto. apply nth_In, Hsb, nth_In. lia.
      * intros f x m f' Hin Hf' Hnin. destruct (In_nth _ _ (0, zero, []) Hin) as (a & Ha & Ea).
        rewrite Hlr in Ha. pose proof (Hent a (0, zero, []) Ha) as Hf. rewrite Ea in Hf. simpl in Hf.
        inversion Hf as [[Q1 Q2]]. clear Q1 Q2.
        destruct (In_nth _ _ 0 Hf') as (j & Hj & Ej).
        assert (Hjs : In j s) by (eapply Permutation_in; [symmetry; exact Hs1|apply in_seq; lia]).
        destruct (In_nth _ _ 0 Hjs) as (b & Hb & Eb).
        assert (Hbs : step <= b).
        { destruct (le_lt_dec step b); auto. exfalso. apply Hnin.
          apply in_map_iff. exists (nth b rnd (0, zero, [])). split.
          - rewrite (Hent b) by auto. simpl. rewrite Eb. auto.
          - apply nth_In. lia. }
        assert (Hab : a < b) by lia.
        specialize (Hs2 a b Hab ltac:(lia)). rewrite Eb in Hs2. rewrite !Hps in Hs2; auto.
        { rewrite <- Ej. auto. }
        { apply Hsb, nth_In. lia. }
      * intros a b e Hab Hb. rewrite !Hent by lia. simpl.
        specialize (Hs2 a b Hab ltac:(lia)). rewrite !Hps in Hs2; auto; apply Hsb, nth_In; lia.
  - intros HT Hn. rewrite Hn in G3. simpl in G3. destruct (rounds_bound T step Hst); nia.
Qed.
End Faithful.

Lemma greedy_pos_score {V T F} (dV : V) (mean : list F -> F) predict (folds : list (list (list V * T))) S i :
  NoDup S -> i < length S ->
  pos_score mean (length folds) (greedy_ev dV predict folds) S i
  = removal_score dV mean predict folds S (nth i S 0).
Proof.
  intros HN Hi. unfold pos_score, removal_score. f_equal. apply map_ext. intros k. f_equal.
  unfold greedy_ev, cv_train, cv_test.
  assert (E : forall rows : list (list V * T),
    map (fun r : list V * T => delete_idx (gather dV (fst r) S) [i]) rows
    = columns dV (without (nth i S 0) S) rows).
  { intros rows. unfold columns. apply map_ext. intros r. unfold gather. rewrite delete_idx_map. f_equal.
    rewrite delete_idx_filter; auto.
    - unfold without. apply filter_ext. intros x. unfold notin. simpl. rewrite orb_false_r. auto.
    - intros j [<-|[]]. auto. }
  rewrite !E. auto.
Qed.

Lemma greedy_nometa {F} g : greedy_meta_row (@nil (list (list F))) g = Ok [].
Proof. reflexivity. Qed.
Lemma greedy_meta_nil {F} : forall g, exists m, greedy_meta_row (@nil (list (list F))) g = Ok m.
Proof. intros g. exists []. reflexivity. Qed.
Lemma scalar_meta {V T F} (dV : V) predict (folds : list (list (list V * T))) k surv x :
  (forall a b c d, exists y : F, predict a b c d = Scalar y) ->
  meta_of (greedy_ev dV predict folds k surv x) = None.
Proof.
  intros H. unfold greedy_ev.
  match goal with |- meta_of (predict ?a ?b ?c ?d) = _ => destruct (H a b c d) as (y & ->) end. reflexivity.
Qed.

(** C19. For every prediction function returning a number, every data set, every
    number of features and step: the run ends, eliminates in each round the
    [step] features with the lowest removal scores among the remaining ones, with
    those scores, and at least one feature survives. *)
Theorem greedy_elimination_faithful :
  forall (V T F : Type) (leb : F -> F -> bool) (dV : V) mean zero asort predict
         (folds : list (list (list V * T))) (nfeat step : nat) sched,
  asort_ok leb asort ->
  (forall a b c d, exists y : F, predict a b c d = Scalar y) ->
  2 <= length folds -> 1 <= nfeat -> 1 <= step -> schedule nfeat step sched ->
  exists st,
    elim_run mean zero asort (length folds) step (greedy_ev dV predict folds) greedy_meta_row
      sched (elim_start nfeat) = Ok st /\
    faithful_elimination leb nfeat step (removal_score dV mean predict folds) (output st) (survivors st) /\
    survivors st <> [].
Proof.
  intros V T F leb dV mean zero asort predict folds nfeat step sched Hs Hp Hk HT Hst Hsch.
  destruct (@run_faithful F leb mean zero asort (length folds) step (greedy_ev dV predict folds)
     greedy_meta_row Hs ltac:(lia) (removal_score dV mean predict folds)
     (fun S i => greedy_pos_score dV mean predict folds S i) nfeat sched Hst Hsch) as (st & E & H1 & H2).
  - right. split; [intros; apply scalar_meta; auto|apply greedy_meta_nil].
  - exists st. auto.
Qed.

(** The same for importance elimination, whatever the test function returns. *)
Theorem importance_elimination_faithful :
  forall (V T F M : Type) (leb : F -> F -> bool) (dV : V) mean zero asort
         (train_predict : list (list V) -> list T -> M) test_predict transform
         (folds : list (list (list V * T))) (nfeat step : nat) sched,
  asort_ok leb asort ->
  2 <= length folds -> 1 <= nfeat -> 1 <= step -> schedule nfeat step sched ->
  exists st,
    elim_run mean zero asort (length folds) step
      (importance_ev dV train_predict test_predict transform folds) (importance_meta_row mean zero)
      sched (elim_start nfeat) = Ok st /\
    (forall sc, (forall S i, NoDup S -> i < length S ->
        sc S (nth i S 0) = perturb_score dV mean folds train_predict test_predict transform S i) ->
      faithful_elimination leb nfeat step sc (output st) (survivors st)) /\
    survivors st <> [].
Proof.
  intros V T F M leb dV mean zero asort trp tep tf folds nfeat step sched Hs Hk HT Hst Hsch.
  assert (Hm : forall meta g, exists m, @importance_meta_row F mean zero meta g = Ok m).
  { intros [|m0 ms] g; eexists; reflexivity. }
  assert (Hrun : forall sc, (forall S i, NoDup S -> i < length S ->
        pos_score mean (length folds) (importance_ev dV trp tep tf folds) S i = sc S (nth i S 0)) -> _)
   by exact (fun sc Hsc => @run_faithful F leb mean zero asort (length folds) step (importance_ev dV trp tep tf folds)
     (importance_meta_row mean zero) Hs ltac:(lia) sc Hsc nfeat sched Hst Hsch (or_introl Hm)).
  set (idx := fun S f => find (fun i => nth i S 0 =? f) (seq 0 (length S))).
  set (sc0 := fun S f => match idx S f with
     | Some i => perturb_score dV mean folds trp tep tf S i | None => zero end).
  assert (Hsc0 : forall S i, NoDup S -> i < length S ->
     pos_score mean (length folds) (importance_ev dV trp tep tf folds) S i = sc0 S (nth i S 0)).
  { intros S i HN Hi. unfold sc0. destruct (idx S (nth i S 0)) as [j|] eqn:Ej.
    - apply find_some in Ej. destruct Ej as [Ej1 Ej2]. apply in_seq in Ej1. apply Nat.eqb_eq in Ej2.
      assert (j = i) as -> by (rewrite NoDup_nth in HN; apply HN; eauto; lia). reflexivity.
    - exfalso. unfold idx in Ej. pose proof (find_none _ _ Ej i) as Hn. simpl in Hn.
      rewrite Nat.eqb_refl in Hn. discriminate Hn. apply in_seq. lia. }
  destruct (Hrun sc0 Hsc0) as (st & E & H1 & H2). exists st. split; auto. split; auto.
  intros sc Hsc. destruct (Hrun sc) as (st' & E' & H1' & _).
  { intros S i HN Hi. rewrite Hsc by auto. reflexivity. }
  rewrite E in E'. inversion E'; subst. auto.
Qed.

(** ** Schedules *)

(** C21. The worker schedule does not matter: with a number-valued prediction
    function the whole output equals the serial one. *)
Theorem greedy_elimination_schedule_independent :
  forall (V T F : Type) (leb : F -> F -> bool) (dV : V) mean zero asort predict
         (folds : list (list (list V * T))) (nfeat step : nat) sched,
  asort_ok leb asort ->
  (forall a b c d, exists y : F, predict a b c d = Scalar y) ->
  2 <= length folds -> 1 <= step -> schedule nfeat step sched ->
  elim_run mean zero asort (length folds) step (greedy_ev dV predict folds) greedy_meta_row
    sched (elim_start nfeat)
  = elim_run mean zero asort (length folds) step (greedy_ev dV predict folds) greedy_meta_row
    (serial nfeat step) (elim_start nfeat).
Proof.
  intros V T F leb dV mean zero asort predict folds nfeat step sched Hs Hp Hk Hst Hsch.
  unfold elim_run. destruct (step =? 0); auto. simpl total.
  apply (rounds_schedule leb mean zero asort (length folds) step _ _ Hs ltac:(lia) nfeat _ 0); auto.
  - apply good_start.
  - destruct (rounds_bound nfeat step Hst); auto.
  - intros; apply scalar_meta; auto.
  - apply greedy_meta_nil.
Qed.

(** For importance elimination the features, scores and survivors are those of
    the serial run for every test function. *)
Theorem importance_elimination_schedule_independent :
  forall (V T F M : Type) (leb : F -> F -> bool) (dV : V) mean zero asort
         (train_predict : list (list V) -> list T -> M) test_predict transform
         (folds : list (list (list V * T))) (nfeat step : nat) sched,
  asort_ok leb asort ->
  2 <= length folds -> 1 <= step -> schedule nfeat step sched ->
  exists st st',
    let run := fun sc => elim_run mean zero asort (length folds) step
      (importance_ev dV train_predict test_predict transform folds) (importance_meta_row mean zero)
      sc (elim_start nfeat) in
    run sched = Ok st /\ run (serial nfeat step) = Ok st' /\
    map fst (output st) = map fst (output st') /\ survivors st = survivors st'.
Proof.
  intros V T F M leb dV mean zero asort trp tep tf folds nfeat step sched Hs Hk Hst Hsch.
  cbv zeta. unfold elim_run. rewrite (proj2 (Nat.eqb_neq step 0)) by lia. simpl total.
  apply (rounds_schedule_fst leb mean zero asort (length folds) step _ _ Hs ltac:(lia) nfeat _ 0); auto.
  - apply good_start.
  - apply good_start.
  - destruct (rounds_bound nfeat step Hst); auto.
  - intros [|m0 ms] g; eexists; reflexivity.
Qed.

(** ** Crashes *)

(** The folds the final result is based on: those of the first process that
    completed a round, else those drawn by the last process. *)
Fixpoint deciding_folds {D} (h : list (nat * D * (nat -> nat -> list nat))) (last : D) : D :=
  match h with
  | [] => last
  | (0, _, _) :: h' => deciding_folds h' last
  | (S _, d, _) :: _ => d
  end.

(** Every process works with valid worker schedules for the rounds it runs. *)
Fixpoint valid_history {D} (T step base : nat) (h : list (nat * D * (nat -> nat -> list nat)))
  (last : nat -> nat -> list nat) : Prop :=
  match h with
  | [] => base <= (T - 1) / step /\ forall r k, Permutation (last r k) (seq 0 (T - (base + r) * step))
  | (n, _, sched) :: h' =>
    (forall r k, Permutation (sched r k) (seq 0 (T - (base + r) * step))) /\
    valid_history T step (base + n) h' last
  end.

Lemma valid_history_bound {D} T step h : forall base last,
  @valid_history D T step base h last -> base <= (T - 1) / step.
Proof.
  induction h as [|[[n d] s] h IH]; simpl; intros base last H; [tauto|].
  destruct H as [_ H]. apply IH in H. lia.
Qed.

Section Crash.
Context {V T F : Type}.
Variable leb : F -> F -> bool.
Variable dV : V.
Variable mean : list F -> F.
Variable zero : F.
Variable asort : list F -> list nat.
Variable nsplit step nfeat : nat.
Variable predict : list (list V) -> list T -> list (list V) -> list T -> pred_out F.
Hypothesis Hs : asort_ok leb asort.
Hypothesis Hp : forall a b c d, exists y : F, predict a b c d = Scalar y.
Hypothesis Hk : 2 <= nsplit.
Hypothesis Hst : 1 <= step.
Notation rounds D := (elim_rounds mean zero asort nsplit step (greedy_ev dV predict D) greedy_meta_row).
Notation R := ((nfeat - 1) / step).

Lemma bound_step n : n <= R -> n * step < nfeat \/ n = 0.
Proof. intros H. destruct (rounds_bound nfeat step Hst); nia. Qed.

Lemma saved_sessions (folds : list (list (list V * T))) h : forall base st sched last,
  good step nfeat base st -> rounds folds base (serial nfeat step) (elim_start nfeat) = Ok st ->
  valid_history nfeat step base h sched ->
  exists f, sessions mean zero asort nsplit step (fun D => greedy_ev dV predict D) nfeat h (Saved folds st) = Ok f /\
    complete mean zero asort nsplit step (fun D => greedy_ev dV predict D) nfeat last sched f
    = bind (rounds folds R (serial nfeat step) (elim_start nfeat)) (fun st => Ok (output st)).
Proof.
  induction h as [|[[n d] s] h IH]; intros base st sched last HG E HV.
  - simpl. eexists. split; [reflexivity|]. unfold complete. simpl.
    destruct HV as [HV1 HV2].
    unfold elim_run. rewrite (proj2 (Nat.eqb_neq step 0)) by lia.
    assert (Et : (total st - 1) / step = R - base).
    { rewrite <- rounds_left by auto. f_equal. destruct HG as [_ _ _ G4 _]. lia. }
    rewrite Et. 
    replace R with (base + (R - base)) at 2 by lia. rewrite elim_rounds_app, E. simpl.
    rewrite (rounds_schedule leb mean zero asort nsplit step (greedy_ev dV predict folds) greedy_meta_row
      Hs ltac:(lia) nfeat (R - base) base sched (fun i => serial nfeat step (base + i)) st); auto.
    + replace (base + (R - base)) with R by lia. destruct (bound_step R); auto. right; lia.
    + intros; apply scalar_meta; auto.
    + apply greedy_meta_nil.
  - destruct HV as [HV1 HV2]. simpl sessions. unfold die_after. simpl load_data. simpl bind.
    destruct n as [|n].
    + simpl. apply (IH base); auto. rewrite Nat.add_0_r in HV2. auto.
    + simpl (S n =? 0). cbv iota.
      assert (Hb : base + S n <= R) by (eapply valid_history_bound; eauto).
      assert (Hb2 : (base + S n) * step < nfeat \/ S n = 0).
      { destruct (bound_step _ Hb); auto. lia. }
      destruct (good_rounds leb mean zero asort nsplit step (greedy_ev dV predict folds) greedy_meta_row
        Hs ltac:(lia) nfeat (S n) base s st HG Hst Hb2 HV1) as (st' & E' & HG').
      { right. split; [intros; apply scalar_meta; auto|apply greedy_meta_nil]. }
      rewrite E'. simpl bind. apply (IH (base + S n)); auto.
      rewrite elim_rounds_app, E. cbn [bind]. rewrite <- E'. symmetry.
      apply (rounds_schedule leb mean zero asort nsplit step (greedy_ev dV predict folds) greedy_meta_row
        Hs ltac:(lia) nfeat (S n) base s); auto.
      * intros; apply scalar_meta; auto.
      * apply greedy_meta_nil.
Qed.

Lemma absent_sessions h : forall sched last,
  valid_history nfeat step 0 h sched ->
  exists f, sessions mean zero asort nsplit step (fun D => greedy_ev dV predict D) nfeat h Absent = Ok f /\
    complete mean zero asort nsplit step (fun D => greedy_ev dV predict D) nfeat last sched f
    = bind (elim_run mean zero asort nsplit step (greedy_ev dV predict (deciding_folds h last))
             greedy_meta_row (serial nfeat step) (elim_start nfeat)) (fun st => Ok (output st)).
Proof.
  unfold elim_run at 1. rewrite (proj2 (Nat.eqb_neq step 0)) by lia. simpl total.
  induction h as [|[[n d] s] h IH]; intros sched last HV.
  - simpl. eexists. split; [reflexivity|]. unfold complete. simpl.
    unfold elim_run. rewrite (proj2 (Nat.eqb_neq step 0)) by lia. simpl total.
    destruct HV as [_ HV].
    rewrite (rounds_schedule leb mean zero asort nsplit step (greedy_ev dV predict last) greedy_meta_row
      Hs ltac:(lia) nfeat R 0 sched (serial nfeat step) (elim_start nfeat)); auto.
    + apply good_start.
    + destruct (bound_step R); auto.
    + intros; apply scalar_meta; auto.
    + apply greedy_meta_nil.
  - destruct HV as [HV1 HV2]. destruct n as [|n].
    + simpl. apply IH. exact HV2.
    + cbn [sessions]. unfold die_after. cbn [load_data bind Nat.eqb fst snd].
      assert (Hb : 0 + S n <= R) by (eapply valid_history_bound; eauto).
      assert (Hb2 : (0 + S n) * step < nfeat \/ S n = 0).
      { destruct (bound_step _ Hb); auto. }
      destruct (good_rounds leb mean zero asort nsplit step (greedy_ev dV predict d) greedy_meta_row
        Hs ltac:(lia) nfeat (S n) 0 s (elim_start nfeat) (good_start step nfeat) Hst Hb2 HV1) as (st' & E' & HG').
      { right. split; [intros; apply scalar_meta; auto|apply greedy_meta_nil]. }
      rewrite E'. cbn [bind deciding_folds].
      apply (saved_sessions d h (S n)); auto.
      rewrite <- E'. symmetry.
      apply (rounds_schedule leb mean zero asort nsplit step (greedy_ev dV predict d) greedy_meta_row
        Hs ltac:(lia) nfeat (S n) 0 s); auto.
      * apply good_start.
      * intros; apply scalar_meta; auto.
      * apply greedy_meta_nil.
Qed.
End Crash.

(** C20. Any number of processes, each dying after completing any number of
    rounds (between two saves), followed by one that runs to completion, return
    exactly what one uninterrupted serial process returns on the folds of the
    first process that saved anything. *)
Theorem greedy_elimination_crash_resume :
  forall (V T F : Type) (leb : F -> F -> bool) (dV : V) mean zero asort predict
         (nsplit nfeat step : nat) (h : list (nat * list (list (list V * T)) * (nat -> nat -> list nat)))
         last sched,
  asort_ok leb asort ->
  (forall a b c d, exists y : F, predict a b c d = Scalar y) ->
  2 <= nsplit -> 1 <= step -> valid_history nfeat step 0 h sched ->
  bind (sessions mean zero asort nsplit step (fun D => greedy_ev dV predict D) nfeat h Absent)
       (complete mean zero asort nsplit step (fun D => greedy_ev dV predict D) nfeat last sched)
  = bind (elim_run mean zero asort nsplit step (greedy_ev dV predict (deciding_folds h last))
            greedy_meta_row (serial nfeat step) (elim_start nfeat))
         (fun st => Ok (output st)).
Proof.
  intros V T F leb dV mean zero asort predict nsplit nfeat step h last sched Hs Hp Hk Hst HV.
  destruct (@absent_sessions V T F leb dV mean zero asort nsplit step nfeat predict Hs Hp Hk Hst h sched last HV)
    as (f & E1 & E2).
  rewrite E1. simpl. auto.
Qed.

(** C70. Not every crash point is safe: a process killed while it writes the
    save file leaves a file every later run fails to load, even though earlier
    rounds had been saved. *)
Theorem greedy_elimination_crash_during_save_refuted :
  forall (D F : Type) (dat : D) (st : @estate F),
  exists f, In f (write_steps dat st) /\
    forall mean zero asort nsplit step ev t last sched,
      complete mean zero asort nsplit step ev t last sched f = Err ValueError.
Proof.
  intros D F dat st. exists Torn. split; [simpl; auto|]. reflexivity.
Qed.

(** ** Worked example: three features, two folds, scores are sums. *)
Definition ex_mean (l : list Z) : Z := fold_right Z.add 0%Z l.
Definition ex_asort (l : list Z) : list nat :=
  map snd (isort (fun p q : Z * nat => Z.leb (fst p) (fst q)) (combine l (seq 0 (length l)))).
Definition ex_folds : list (list (list Z * Z)) := [[([1; 5; 2], 0)]; [([3; 1; 7], 1)]]%Z.
Definition ex_predict (a : list (list Z)) (b : list Z) (c : list (list Z)) (d : list Z) : pred_out Z :=
  Scalar (fold_right Z.add 0%Z (concat (a ++ c))).

Lemma combine_seq_nth (l : list Z) : forall k i, i < length l ->
  nth i (combine l (seq k (length l))) (0%Z, 0) = (nth i l 0%Z, k + i).
Proof.
  induction l as [|x l IH]; intros k i Hi; simpl in *; [lia|].
  destruct i; simpl; [f_equal; lia|]. rewrite IH by lia. f_equal. lia.
Qed.

Lemma ex_asort_ok : asort_ok Z.leb ex_asort.
Proof.
  set (r := fun p q : Z * nat => Z.leb (fst p) (fst q)).
  assert (Ht : total_preorder r).
  { split.
    - intros x y. unfold r. destruct (Z.leb_spec (fst x) (fst y)); auto. right. apply Z.leb_le. lia.
    - intros x y z. unfold r. rewrite !Z.leb_le. lia. }
  intros l d. unfold ex_asort. fold r.
  set (c := combine l (seq 0 (length l))).
  pose proof (isort_perm r c) as HP.
  assert (Hc : forall p, In p c -> nth (snd p) l d = fst p /\ snd p < length l).
  { intros p Hp. destruct (In_nth _ _ (0%Z, 0) Hp) as (i & Hi & Ei). unfold c in Hi, Ei.
    rewrite combine_length, seq_length, Nat.min_id in Hi. rewrite combine_seq_nth in Ei by auto.
    subst p. simpl. split; auto. apply nth_indep. auto. }
  split.
  - rewrite (Permutation_map snd HP). unfold c. rewrite map_combine_snd by (rewrite seq_length; auto). auto.
  - intros a b Hab Hb.
    assert (Hlen : length (isort r c) = length l).
    { rewrite (Permutation_length HP). unfold c. rewrite combine_length, seq_length. lia. }
    rewrite !(@nth_map_lt _ _ _ _ _ (0%Z, 0)) by lia.
    assert (H1 : forall i, i < length l -> In (nth i (isort r c) (0%Z,0)) c).
    { intros i Hi. eapply Permutation_in; [exact HP|]. apply nth_In. lia. }
    rewrite (proj1 (Hc _ (H1 a ltac:(lia)))), (proj1 (Hc _ (H1 b ltac:(lia)))).
    apply (@StronglySorted_nth _ (fun x y => r x y = true)); try lia.
    apply isort_sorted; auto.
Qed.

Example greedy_case :
  match elim_run ex_mean 0%Z ex_asort 2 1 (greedy_ev 0%Z ex_predict ex_folds) greedy_meta_row
    (fun r k => rev (seq 0 (3 - r * 1))) (elim_start 3) with
  | Ok st => output st = [(2, 20%Z, []); (1, 8%Z, [])] /\ survivors st = [0]
  | Err _ => False
  end.
Proof. vm_compute. auto. Qed.

Example greedy_crash_case :
  let ser := fun base (r k : nat) => seq 0 (3 - (base + r) * 1) in
  let h := [(0, [], ser 0); (1, ex_folds, ser 0); (0, [], ser 1)] in
  valid_history 3 1 0 h (ser 1) /\
  bind (sessions ex_mean 0%Z ex_asort 2 1 (fun D => greedy_ev 0%Z ex_predict D) 3 h Absent)
       (complete ex_mean 0%Z ex_asort 2 1 (fun D => greedy_ev 0%Z ex_predict D) 3 [] (ser 1))
  = Ok [(2, 20%Z, []); (1, 8%Z, [])].
Proof.
  split; [|vm_compute; reflexivity]. simpl. repeat split; auto. vm_compute. lia.
Qed.

(** ** Meta data *)

(** C69. The documentation lets the prediction function return a list whose
    first entry is the score.  Greedy elimination then raises: whatever the data,
    no run with at least two features and a list-valued prediction succeeds. *)
Theorem greedy_elimination_list_result_refuted :
  forall (V T F : Type) (dV : V) (leb : F -> F -> bool) mean zero asort predict
         (folds : list (list (list V * T))) (nfeat step : nat) sched,
  asort_ok leb asort ->
  (forall a b c d, exists (y : F) m, predict a b c d = Many y m) ->
  2 <= length folds -> 1 <= step -> step < nfeat -> schedule nfeat step sched ->
  exists e,
    elim_run mean zero asort (length folds) step (greedy_ev dV predict folds) greedy_meta_row
      sched (elim_start nfeat) = Err e.
Proof.
  intros V T F dV leb mean zero asort predict folds nfeat step sched Hs Hp Hk Hst HT Hsch.
  unfold elim_run. rewrite (proj2 (Nat.eqb_neq step 0)) by lia. simpl total.
  assert (HR : 1 <= (nfeat - 1) / step).
  { apply Nat.div_le_lower_bound; lia. }
  destruct ((nfeat - 1) / step) as [|R]; [lia|]. simpl elim_rounds.
  unfold elim_round. rewrite (proj2 (Nat.eqb_neq (length folds) 1)) by lia. cbv zeta.
  set (scores := column_means _ _ _ _). set (meta := filter _ _).
  assert (Hmeta : exists m0 ms, meta = m0 :: ms).
  { unfold meta. destruct (length folds) as [|n]; [lia|]. simpl.
    assert (Hn : length (fold_meta (greedy_ev dV predict folds) (seq 0 nfeat) 0 (sched 0 0)) <> 0).
    { specialize (Hsch 0 0). simpl in Hsch. rewrite Nat.sub_0_r in Hsch.
      pose proof (Permutation_length Hsch) as HL. rewrite seq_length in HL.
      unfold fold_meta. destruct (sched 0 0) as [|x o]; [simpl in HL; lia|]. simpl.
      unfold greedy_ev at 1.
      match goal with |- context [meta_of (predict ?a ?b ?c ?d)] => destruct (Hp a b c d) as (y & m & ->) end.
      simpl. lia. }
    rewrite (proj2 (Nat.eqb_neq _ _) Hn). simpl. eauto. }
  destruct Hmeta as (m0 & ms & ->).
  destruct step as [|step']; [lia|]. simpl seq.
  assert (Hlen : length scores = nfeat).
  { unfold scores, column_means. rewrite map_length, seq_length. auto. }
  destruct (Hs scores zero) as [HP _]. rewrite Hlen in HP.
  assert (Hls : length (asort scores) = nfeat) by (rewrite (Permutation_length HP), seq_length; auto).
  simpl emit.
  destruct (asort scores) as [|i s] eqn:Eas; [simpl in Hls; lia|]. simpl.
  destruct (nth_error (seq 0 nfeat) i); [|eexists; reflexivity].
  destruct (nth_error scores i); [|eexists; reflexivity].
  destruct (length (nth 0 m0 []) =? 1); eexists; reflexivity.
Qed.

Example greedy_list_case :
  elim_run ex_mean 0%Z ex_asort 2 1
    (greedy_ev 0%Z (fun a b c d => Many (score_of (ex_predict a b c d)) [7%Z]) ex_folds) greedy_meta_row
    (serial 3 1) (elim_start 3) = Err ValueError.
Proof. vm_compute. reflexivity. Qed.

(** C22. The extra values reported next to an eliminated feature are not those of
    that feature: with the columns 3 and 5, zeroing feature 1 leaves the lower
    score, so feature 1 is eliminated; the extra value should be ten times its
    score, but the row carries feature 0's value. *)
Definition meta_folds : list (list (list Z * Z)) := [[([3; 5], 0)]; [([3; 5], 0)]]%Z.
(** the perturbation sets the column to zero; the test function returns the sum
    of what is left and ten times that sum *)
Definition zero_column (f : nat) (a b : list (list Z)) := (a, map (set_nth f 0%Z) b).
Definition sum_and_ten (m : unit) (te : list (list Z)) (t : list Z) : pred_out Z :=
  let s := fold_right Z.add 0%Z (concat te) in Many s [(10 * s)%Z].
Definition meta_mean {F} (mean : list F -> F) (zero : F) (nsplit : nat) (res : nat -> pred_out F) (c : nat) : F :=
  mean (map (fun k => match meta_of (res k) with Some l => nth c l zero | None => zero end) (seq 0 nsplit)).
Theorem importance_metadata_attribution_refuted :
  exists st,
    elim_run ex_mean 0%Z ex_asort 2 1
      (importance_ev 0%Z (fun _ _ => tt) sum_and_ten zero_column meta_folds)
      (importance_meta_row ex_mean 0%Z) (serial 2 1) (elim_start 2) = Ok st /\
    exists f x m, In (f, x, [m]) (output st) /\
      m <> meta_mean ex_mean 0%Z 2
             (perturb_result 0%Z meta_folds (fun _ _ => tt) sum_and_ten zero_column [0; 1] f) 0.
Proof.
  eexists. split; [vm_compute; reflexivity|].
  exists 1, 6%Z, 100%Z. split; [simpl; auto|]. vm_compute. discriminate.
Qed.

(** What holds: in a serial run the extra values of the [g]-th row of a round are
    the fold means obtained when the [g]-th remaining feature was perturbed, so
    they are right whenever the [g]-th lowest score belongs to the [g]-th
    remaining feature.  One round from any state. *)
Lemma somes_all {A B} (f : A -> option B) (g : A -> B) l :
  (forall x, In x l -> f x = Some (g x)) -> somes (map f l) = map g l.
Proof.
  induction l as [|x l IH]; simpl; intros H; auto. rewrite H by auto. f_equal. auto.
Qed.

Theorem importance_metadata_partial :
  forall (F : Type) (leb : F -> F -> bool) (mean : list F -> F) zero asort nsplit step width
         (score : nat -> list nat -> nat -> F) (meta : nat -> list nat -> nat -> list F)
         (st st' : @estate F),
  let ev := fun k S x => Many (score k S x) (meta k S x) in
  asort_ok leb asort -> 2 <= nsplit -> 1 <= step -> step <= length (survivors st) ->
  total st = length (survivors st) ->
  (forall k S x, length (meta k S x) = width) ->
  elim_round mean zero asort nsplit step ev (importance_meta_row mean zero)
    (fun _ => seq 0 (length (survivors st))) st = Ok st' ->
  forall g, g < step ->
  snd (nth g (skipn (length (output st)) (output st')) (0, zero, []))
  = map (meta_mean mean zero nsplit (fun k => ev k (survivors st) g)) (seq 0 width).
Proof.
  intros F leb mean zero asort nsplit step width score meta st st' ev Hs Hk Hst Hl Ht Hw E g Hg.
  unfold elim_round in E. rewrite (proj2 (Nat.eqb_neq nsplit 1)) in E by lia. cbv zeta in E.
  set (surv := survivors st) in *.
  set (mt := filter _ _) in E.
  assert (Hfm : forall k, fold_meta ev surv k (seq 0 (length surv)) = map (meta k surv) (seq 0 (length surv))).
  { intros k. unfold fold_meta. apply somes_all. reflexivity. }
  assert (Hmt : mt = map (fun k => map (meta k surv) (seq 0 (length surv))) (seq 0 nsplit)).
  { unfold mt. rewrite filter_true.
    - apply map_ext. auto.
    - intros m Hm. apply in_map_iff in Hm. destruct Hm as (k & <- & _). rewrite Hfm, map_length, seq_length.
      apply negb_true_iff, Nat.eqb_neq. lia. }
  set (scores := column_means _ _ _ _) in E.
  destruct (emit (importance_meta_row mean zero) surv scores (asort scores) mt (seq 0 step)) as [new|e] eqn:En;
    simpl in E; [|discriminate].
  inversion E; subst st'. simpl. clear E.
  rewrite skipn_app, skipn_all, Nat.sub_diag. simpl.
  assert (Hrow : forall gs new', emit (importance_meta_row mean zero) surv scores (asort scores) mt gs = Ok new' ->
    Forall2 (fun g e => importance_meta_row mean zero mt g = Ok (snd e)) gs new').
  { clear. induction gs as [|g gs IH]; simpl; intros new' E.
    - inversion E; auto.
    - destruct (nth_error (asort scores) g); [|discriminate].
      destruct (nth_error surv n), (nth_error scores n); try discriminate.
      destruct (importance_meta_row mean zero mt g) eqn:Em; simpl in E; [|discriminate].
      destruct (emit _ _ _ _ _ gs) eqn:Eg; simpl in E; [|discriminate].
      inversion E; subst. constructor; auto. }
  specialize (Hrow _ _ En).
  pose proof (Forall2_length Hrow) as Hlen. rewrite seq_length in Hlen.
  assert (Hg2 : importance_meta_row mean zero mt g = Ok (snd (nth g new (0, zero, [])))).
  { pose proof (@Forall2_nth _ _ (fun g e => importance_meta_row mean zero mt g = Ok (snd e)) _ _ 0 (0, zero, []) Hrow g) as H.
    rewrite seq_length in H. specialize (H Hg). rewrite seq_nth in H by auto. exact H. }
  assert (Hnth : forall k, nth g (map (meta k surv) (seq 0 (length surv))) [] = meta k surv g).
  { intros k. rewrite (@nth_map_lt _ _ _ _ _ 0) by (rewrite seq_length; lia). rewrite seq_nth by lia. auto. }
  assert (Hrows : importance_meta_row mean zero mt g =
     Ok (map (fun c => mean (map (fun mk => nth c (nth g mk []) zero) mt)) (seq 0 width))).
  { unfold importance_meta_row. destruct mt as [|m0 ms] eqn:Em.
    - assert (length (@nil (list (list F))) = nsplit) by (rewrite Hmt, map_length, seq_length; auto). simpl in H. lia.
    - assert (Hw0 : length (nth g m0 []) = width); [|rewrite Hw0; auto].
      destruct nsplit as [|n]; [lia|]. simpl in Hmt. inversion Hmt. rewrite Hnth. auto. }
  rewrite Hrows in Hg2. injection Hg2 as Hq. transitivity (snd (nth g new (0, zero, []))); [reflexivity|]. rewrite <- Hq.
  apply map_ext. intros c. unfold meta_mean. f_equal. rewrite Hmt, map_map. apply map_ext. intros k.
  rewrite Hnth. reflexivity.
Qed.

Example importance_metadata_case :
  exists st',
  elim_round ex_mean 0%Z ex_asort 2 1 (fun k S x => Many (Z.of_nat (10 - x)) [Z.of_nat (k + x)])
    (importance_meta_row ex_mean 0%Z) (fun _ => seq 0 3) (elim_start 3) = Ok st' /\
  output st' = [(2, 16%Z, [1%Z])].
Proof. eexists. split; [vm_compute; reflexivity|reflexivity]. Qed.

(** The extra values also depend on the worker schedule, unlike the rest. *)
Theorem importance_metadata_schedule_refuted :
  exists sched, schedule 2 1 sched /\
    elim_run ex_mean 0%Z ex_asort 2 1
      (importance_ev 0%Z (fun _ _ => tt) sum_and_ten zero_column meta_folds)
      (importance_meta_row ex_mean 0%Z) sched (elim_start 2)
    <> elim_run ex_mean 0%Z ex_asort 2 1
      (importance_ev 0%Z (fun _ _ => tt) sum_and_ten zero_column meta_folds)
      (importance_meta_row ex_mean 0%Z) (serial 2 1) (elim_start 2).
Proof.
  exists (fun r k => rev (seq 0 (2 - r * 1))). split.
  - intros r k. symmetry. apply Permutation_rev.
  - vm_compute. discriminate.
Qed.

(** ** Perturbations *)

(** Same shape, and every entry outside column [f] is unchanged. *)
Definition only_column {V} (d : V) (f : nat) (m m' : list (list V)) : Prop :=
  length m' = length m /\
  forall i, length (nth i m' []) = length (nth i m []) /\
    forall j, j <> f -> nth j (nth i m' []) d = nth j (nth i m []) d.

Lemma set_column_only {V} (d : V) f vals m :
  length vals = length m -> only_column d f m (set_column f vals m).
Proof.
  unfold only_column, set_column. intros HL. split.
  - rewrite map_length, combine_length. lia.
  - revert vals HL. induction m as [|r m IH]; intros [|v vals] HL i; try discriminate.
    + destruct i; auto.
    + destruct i; simpl.
      * split; [apply set_nth_length|]. intros j Hj. apply nth_set_nth_neq. auto.
      * apply IH. simpl in HL. lia.
Qed.

Lemma column_set_column {V} (d : V) f vals m :
  length vals = length m -> (forall r, In r m -> f < length r) -> column d f (set_column f vals m) = vals.
Proof.
  revert vals. induction m as [|r m IH]; intros [|v vals] HL Hf; try discriminate; auto.
  simpl. f_equal.
  - apply nth_set_nth_eq. apply Hf. simpl. auto.
  - apply IH; [simpl in HL; lia|]. intros. apply Hf. simpl. auto.
Qed.

(** C23. *)
Theorem feature_invariance_spec :
  forall (V : Type) (d : V) mean std add f (train test : list (list V)),
  (forall r, In r (train ++ test) -> f < length r) ->
  let (train', test') := feature_invariance d mean std add f train test in
  only_column d f train train' /\ only_column d f test test' /\
  (exists v, forall x, In x (column d f train' ++ column d f test') -> x = v).
Proof.
  intros V d mean std add f train test Hf. unfold feature_invariance.
  set (v := add _ _). split; [apply set_column_only; rewrite repeat_length; auto|].
  split; [apply set_column_only; rewrite repeat_length; auto|].
  exists v. intros x Hx.
  rewrite !column_set_column in Hx by (try (rewrite repeat_length; auto); intros; apply Hf, in_app_iff; auto).
  apply in_app_iff in Hx. destruct Hx as [Hx|Hx]; eapply repeat_spec; eauto.
Qed.

Theorem feature_randomize_spec :
  forall (V : Type) (d : V) mean std add mul r1 r2 f (train test : list (list V)),
  length r1 = length train -> length r2 = length test ->
  let (train', test') := feature_randomize d mean std add mul r1 r2 f train test in
  only_column d f train train' /\ only_column d f test test'.
Proof.
  intros V d mean std add mul r1 r2 f train test H1 H2. unfold feature_randomize.
  split; apply set_column_only; rewrite map_length; auto.
Qed.

Theorem feature_shuffle_spec :
  forall (V : Type) (d : V) sh1 sh2 f (train test : list (list V)),
  (forall l, Permutation (sh1 l) l) -> (forall l, Permutation (sh2 l) l) ->
  (forall r, In r (train ++ test) -> f < length r) ->
  let (train', test') := feature_shuffle d sh1 sh2 f train test in
  only_column d f train train' /\ only_column d f test test' /\
  Permutation (column d f train') (column d f train) /\
  Permutation (column d f test') (column d f test).
Proof.
  intros V d sh1 sh2 f train test H1 H2 Hf. unfold feature_shuffle.
  assert (L1 : length (sh1 (column d f train)) = length train)
    by (rewrite (Permutation_length (H1 _)); apply map_length).
  assert (L2 : length (sh2 (column d f test)) = length test)
    by (rewrite (Permutation_length (H2 _)); apply map_length).
  rewrite !column_set_column by (auto; intros; apply Hf, in_app_iff; auto).
  repeat split; auto; try (apply set_column_only; auto).
Qed.

Example feature_shuffle_case :
  feature_shuffle 0 (@rev nat) (@rev nat) 1 [[1; 2; 3]; [4; 5; 6]] [[7; 8; 9]]
  = ([[1; 5; 3]; [4; 2; 6]], [[7; 8; 9]]).
Proof. reflexivity. Qed.
Example feature_invariance_case :
  feature_invariance 0 (fun l => list_sum l) (fun _ => 1) Nat.add 1 [[1; 2; 3]; [4; 5; 6]] [[7; 8; 9]]
  = ([[1; 16; 3]; [4; 16; 6]], [[7; 16; 9]]).
Proof. reflexivity. Qed.
Example feature_randomize_case :
  feature_randomize 0 (fun l => list_sum l) (fun _ => 1) Nat.add Nat.mul [3; 4] [5] 1 [[1; 2; 3]; [4; 5; 6]] [[7; 8; 9]]
  = ([[1; 18; 3]; [4; 19; 6]], [[7; 20; 9]]).
Proof. reflexivity. Qed.

Print Assumptions greedy_elimination_faithful.
Print Assumptions importance_elimination_faithful.
Print Assumptions greedy_elimination_schedule_independent.
Print Assumptions importance_elimination_schedule_independent.
Print Assumptions greedy_elimination_crash_resume.
Print Assumptions greedy_elimination_crash_during_save_refuted.
Print Assumptions greedy_elimination_list_result_refuted.
Print Assumptions importance_metadata_attribution_refuted.
Print Assumptions importance_metadata_partial.
Print Assumptions importance_metadata_schedule_refuted.
Print Assumptions feature_invariance_spec.
Print Assumptions feature_randomize_spec.
Print Assumptions feature_shuffle_spec.
