(** Properties C24-C26: active learning. *)
From Coq Require Import List Arith Lia Permutation Bool Sorting.Sorted ZArith.
From Verif Require Import Base BaseFacts ElimProofs ActiveModel.
Import ListNotations.
Local Open Scope nat_scope.
Local Arguments Nat.div : simpl never.

(** ** Specification *)
Section Spec.
Context {X Y S : Type}.
Variable surrogate : list X -> list Y -> list X -> list Y -> list nat * S.
Variable dflt : X * Y.
Variable all : list (X * Y).

Definition rows (idx : list nat) : list X := map (fun i => fst (nth i all dflt)) idx.
Definition targets (idx : list nat) : list Y := map (fun i => snd (nth i all dflt)) idx.

(** The surrogate proposes distinct test rows, at least [batch] of them if there
    are so many. *)
Definition proposes (batch : nat) : Prop :=
  forall a b c d, length c = length d ->
    let sample := fst (surrogate a b c d) in
    NoDup sample /\ (forall i, In i sample -> i < length c) /\ min batch (length c) <= length sample.

(** A history of iterations starting with training set [train] and ending with
    [final]: every iteration sees a partition of the data, asks the surrogate for
    exactly these rows, and moves the first [batch] proposals (fewer only if fewer
    test rows are left) to the end of the training set. *)
Fixpoint acquisition_history (batch : nat) (train : list nat) (its : list (@iteration S)) (final : list nat) : Prop :=
  match its with
  | [] => final = train
  | it :: rest =>
    it_train it = train /\
    Permutation (it_train it ++ it_test it) (seq 0 (length all)) /\
    StronglySorted lt (it_test it) /\
    (let '(sample, score) := surrogate (rows (it_train it)) (targets (it_train it))
                                       (rows (it_test it)) (targets (it_test it)) in
     it_score it = score /\
     it_acquired it = map (fun p => nth p (it_test it) 0) (firstn batch sample)) /\
    length (it_acquired it) = min batch (length (it_test it)) /\ 1 <= length (it_acquired it) /\
    NoDup (it_acquired it) /\ (forall i, In i (it_acquired it) -> In i (it_test it)) /\
    acquisition_history batch (train ++ it_acquired it) rest final
  end.

(** The loop ends when the iterations are used up or no test row is left. *)
Definition iterations_needed (n batch start : nat) : nat :=
  min n ((length all - start + (batch - 1)) / batch).
End Spec.

(** ** Proofs *)
Lemma index_all_ok {A} (d : A) l idx :
  (forall i, In i idx -> i < length l) -> index_all l idx = Ok (map (fun i => nth i l d) idx).
Proof.
  induction idx as [|i idx IH]; simpl; intros H; auto.
  rewrite (nth_error_nth' l d) by auto. rewrite IH by auto. auto.
Qed.

Lemma delete_range n train : (forall i, In i train -> i < n) ->
  delete_idx (seq 0 n) train = remaining n train.
Proof.
  intros H. rewrite delete_idx_filter.
  - unfold remaining. f_equal. f_equal. rewrite <- (map_id train) at 2. apply map_ext_in.
    intros i Hi. rewrite seq_nth; auto.
  - apply seq_NoDup.
  - intros i Hi. rewrite seq_length. auto.
Qed.

Lemma remaining_partition n train : NoDup train -> (forall i, In i train -> i < n) ->
  Permutation (train ++ remaining n train) (seq 0 n).
Proof.
  intros HN Hb. apply NoDup_Permutation.
  - apply NoDup_app_intro; auto.
    + apply remaining_nodup.
    + intros x Hx Hr. unfold remaining in Hr. apply filter_In in Hr. destruct Hr as [_ Hr].
      apply notin_true in Hr. tauto.
  - apply seq_NoDup.
  - intros x. rewrite in_app_iff. unfold remaining. rewrite filter_In, notin_true, in_seq. split.
    + intros [H|H]; [|tauto]. apply Hb in H. lia.
    + intros H. destruct (in_dec Nat.eq_dec x train); auto.
Qed.

Lemma remaining_sorted n train : StronglySorted lt (remaining n train).
Proof.
  unfold remaining. generalize 0 as k. induction n as [|n IH]; intros k; simpl; [constructor|].
  destruct (notin train k); auto. constructor; auto.
  apply Forall_forall. intros x Hx. apply filter_In in Hx. destruct Hx as [Hx _]. apply in_seq in Hx. lia.
Qed.

Lemma remaining_length n train : NoDup train -> (forall i, In i train -> i < n) ->
  length (remaining n train) = n - length train /\ length train <= n.
Proof.
  intros HN Hb. pose proof (Permutation_length (remaining_partition n train HN Hb)) as H.
  rewrite app_length, seq_length in H. lia.
Qed.

Lemma lt_le_sorted l : StronglySorted lt l -> StronglySorted le l.
Proof.
  induction 1 as [|a l Hs IH Hf]; constructor; auto. eapply Forall_impl; [|exact Hf]. simpl. lia.
Qed.

Section Proofs.
Context {X Y S : Type}.
Variable surrogate : list X -> list Y -> list X -> list Y -> list nat * S.
Variable dflt : X * Y.
Variable all : list (X * Y).
Notation N := (length all).

Lemma range_ok train : train <> [] -> (forall i, In i train -> i < N) ->
  np_delete_range N train = Ok (remaining N train).
Proof.
  intros Hne Hb. unfold np_delete_range. destruct train as [|t0 train]; [congruence|]. simpl length.
  simpl (Datatypes.S _ =? 0). cbn [orb].
  assert (forallb (fun i => i <? N) (t0 :: train) = true) as ->.
  { apply forallb_forall. intros i Hi. apply Nat.ltb_lt. auto. }
  cbn [negb]. rewrite delete_range; auto.
Qed.

Lemma loop_done stop n batch train : train <> [] -> (forall i, In i train -> i < N) ->
  remaining N train = [] ->
  acquisition_loop surrogate stop all n batch train = Ok ([], train).
Proof.
  intros Hne Hb Hr. destruct n as [|n]; simpl; auto.
  rewrite range_ok, Hr by auto. simpl. rewrite (index_all_ok dflt) by auto. simpl. auto.
Qed.

Lemma ceil_step a b : 1 <= b -> b < a -> (a + (b - 1)) / b = Datatypes.S ((a - b + (b - 1)) / b).
Proof.
  intros Hb Ha. replace (a + (b - 1)) with ((a - b + (b - 1)) + 1 * b) by lia.
  rewrite Nat.div_add by lia. lia.
Qed.
Lemma ceil_one a b : 1 <= a -> a <= b -> (a + (b - 1)) / b = 1.
Proof.
  intros Ha Hb. symmetry. apply Nat.div_unique with (r := a - 1); lia.
Qed.

Lemma loop_ok stop batch : 1 <= batch -> proposes surrogate batch -> forall n train,
  train <> [] -> NoDup train -> (forall i, In i train -> i < N) ->
  exists its final, acquisition_loop surrogate stop all n batch train = Ok (its, final) /\
    acquisition_history surrogate dflt all batch train its final /\
    length its = iterations_needed all n batch (length train) /\
    NoDup final /\ (forall i, In i final -> i < N) /\
    length final = min N (length train + n * batch).
Proof.
  intros Hbt Hprop. induction n as [|n IH]; intros train Hne HN Hb.
  - exists [], train. simpl. destruct (remaining_length N train HN Hb).
    split; [|split; [|split; [|split; [|split]]]]; auto. unfold iterations_needed. auto. lia.
  - pose proof (remaining_partition N train HN Hb) as HP.
    destruct (remaining_length N train HN Hb) as [HL HL2].
    destruct (remaining N train) as [|q0 qs] eqn:Eq.
    + exists [], train. rewrite loop_done by (auto; congruence). simpl in HL. simpl acquisition_history.
      split; [|split; [|split; [|split; [|split]]]]; auto.
      * unfold iterations_needed. simpl length. replace (N - length train) with 0 by lia.
        rewrite Nat.div_small by lia. auto.
      * nia.
    + simpl acquisition_loop. rewrite range_ok by auto. rewrite Eq.
      set (test := q0 :: qs) in *. cbn [bind].
      assert (Htb : forall i, In i test -> i < N).
      { intros i Hi. assert (In i (seq 0 N)) by (eapply Permutation_in; [exact HP|apply in_app_iff; auto]).
        apply in_seq in H. lia. }
      rewrite !(index_all_ok dflt) by auto. cbn [bind].
      assert (Hlt : 1 <= length test) by (simpl; lia).
      assert (length test =? 0 = false) as -> by reflexivity.
      set (batch' := if length test <? batch then length test else batch).
      assert (Hb' : batch' = min batch (length test)).
      { unfold batch'. destruct (Nat.ltb_spec (length test) batch); lia. }
      rewrite !map_map.
      change (map (fun x => fst (nth x all dflt)) train) with (rows dflt all train).
      change (map (fun x => snd (nth x all dflt)) train) with (targets dflt all train).
      change (map (fun x => fst (nth x all dflt)) test) with (rows dflt all test).
      change (map (fun x => snd (nth x all dflt)) test) with (targets dflt all test).
      destruct (surrogate (rows dflt all train) (targets dflt all train) (rows dflt all test) (targets dflt all test))
        as [sample score] eqn:Es.
      assert (Hpr : NoDup sample /\ (forall i, In i sample -> i < length test) /\ min batch (length test) <= length sample).
      { pose proof (Hprop (rows dflt all train) (targets dflt all train) (rows dflt all test) (targets dflt all test)) as H.
        rewrite Es in H. cbn [fst] in H.
        assert (Lr : length (rows dflt all test) = length test) by apply map_length.
        assert (Lt : length (targets dflt all test) = length test) by apply map_length.
        rewrite Lr, Lt in H. exact (H eq_refl). }
      destruct Hpr as (P1 & P2 & P3).
      rewrite (index_all_ok 0) by (intros i Hi; apply P2; eapply firstn_In; eauto). cbn [bind].
      set (acq := map (fun i => nth i test 0) (firstn batch' sample)).
      assert (Hla : length acq = min batch (length test)).
      { unfold acq. rewrite map_length, firstn_length. lia. }
      assert (Hst : stop && (length acq =? 0) = false).
      { rewrite (proj2 (Nat.eqb_neq _ _)) by lia. apply andb_false_r. }
      rewrite Hst. clear Hst.
      assert (HNt : NoDup test) by (rewrite <- Eq; apply remaining_nodup).
      assert (Hacq : forall i, In i acq -> In i test).
      { intros i Hi. apply in_map_iff in Hi. destruct Hi as (p & <- & Hp). apply nth_In, P2. eapply firstn_In; eauto. }
      assert (HNa : NoDup acq).
      { unfold acq. assert (HNf : NoDup (firstn batch' sample)).
        { apply NoDup_app_inv with (l2 := skipn batch' sample). rewrite firstn_skipn. auto. }
        assert (Hbf : forall i, In i (firstn batch' sample) -> i < length test).
        { intros i Hi. apply P2. eapply firstn_In; eauto. }
        clear -HNf Hbf HNt. induction (firstn batch' sample) as [|p l IH]; simpl; [constructor|].
        inversion HNf; subst. constructor.
        - intros Hin. apply in_map_iff in Hin. destruct Hin as (p' & E & Hp').
          rewrite NoDup_nth in HNt. apply HNt in E; try (apply Hbf; simpl; auto). subst. tauto.
        - apply IH; auto. intros; apply Hbf; simpl; auto. }
      assert (Hdis : forall x, In x train -> In x test -> False).
      { intros x Hx1 Hx2. rewrite <- Eq in Hx2. unfold remaining in Hx2. apply filter_In in Hx2.
        destruct Hx2 as [_ Hx2]. apply notin_true in Hx2. tauto. }
      assert (Hacqeq : acq = map (fun p => nth p test 0) (firstn batch sample)).
      { unfold acq. f_equal. rewrite Hb'.
        destruct (le_lt_dec batch (length test)).
        - rewrite Nat.min_l by lia. auto.
        - rewrite Nat.min_r by lia.
          assert (length sample <= length test).
          { rewrite <- (seq_length (length test) 0). apply NoDup_incl_length; auto.
            intros i Hi. apply in_seq. specialize (P2 i Hi). lia. }
          rewrite !firstn_all2; auto; lia. }
      assert (Hne' : train ++ acq <> []) by (destruct train; simpl; congruence).
      assert (HN' : NoDup (train ++ acq)).
      { apply NoDup_app_intro; auto. intros x H1 H2. eapply Hdis; eauto. }
      assert (Hbd' : forall i, In i (train ++ acq) -> i < N).
      { intros i Hi. apply in_app_iff in Hi. destruct Hi; auto. }
      assert (Hrec : exists its final,
        acquisition_loop surrogate stop all n batch' (train ++ acq) = Ok (its, final) /\
        acquisition_history surrogate dflt all batch (train ++ acq) its final /\
        length its = iterations_needed all n batch (length (train ++ acq)) /\
        NoDup final /\ (forall i, In i final -> i < N) /\
        length final = min N (length (train ++ acq) + n * batch)).
      { unfold batch'. destruct (Nat.ltb_spec (length test) batch).
        - assert (HLr : length (remaining N (train ++ acq)) = 0).
          { destruct (remaining_length N (train ++ acq) HN' Hbd') as [-> _].
            rewrite app_length, Hla, Nat.min_r by lia. lia. }
          destruct (remaining_length N (train ++ acq) HN' Hbd') as [HLx HLy].
          exists [], (train ++ acq). rewrite loop_done; auto.
          2:{ destruct (remaining N (train ++ acq)); auto; discriminate. }
          split; [|split; [|split; [|split; [|split]]]]; simpl; auto.
          + unfold iterations_needed. rewrite HLr in HLx.
            replace (N - length (train ++ acq)) with 0 by lia.
            rewrite Nat.div_small by lia. rewrite Nat.min_0_r. auto.
          + rewrite HLr in HLx. lia.
        - apply IH; auto. }
      destruct Hrec as (its & final & E & Hh & Hlen & HNf & Hbf & Hlf).
      rewrite E. cbn [bind fst snd].
      exists (mkIt train test acq score :: its), final. split; auto. split.
      { cbn [acquisition_history it_train it_test it_acquired it_score].
        rewrite Es. repeat split; auto.
        - rewrite <- Eq. apply remaining_sorted.
        - lia. }
      split.
      { simpl length. rewrite Hlen. unfold iterations_needed. rewrite app_length, Hla.
        destruct (le_lt_dec (length test) batch).
        - rewrite (Nat.min_r batch) by lia. replace (N - (length train + length test)) with 0 by lia.
          rewrite (Nat.div_small (0 + (batch - 1))) by lia. rewrite ceil_one by lia. lia.
        - rewrite (Nat.min_l batch) by lia. rewrite (ceil_step (N - length train)) by lia.
          replace (N - (length train + batch)) with (N - length train - batch) by lia.
          symmetry. apply Nat.succ_min_distr. }
      split; auto. split; auto. rewrite Hlf, app_length, Hla.
      destruct (le_lt_dec (length test) batch).
      * rewrite (Nat.min_r batch) by lia. rewrite !Nat.min_l by nia. auto.
      * rewrite (Nat.min_l batch) by lia. f_equal. nia.
Qed.
End Proofs.

Lemma acquisition_run_ok {X Y S} (surrogate : list X -> list Y -> list X -> list Y -> list nat * S)
  dflt stop all permute initial batch n_max :
  1 <= batch -> proposes surrogate batch ->
  (forall p, permute = Some p -> length p = length all) ->
  let all' := match permute with None => all | Some p => map (fun i => nth i all dflt) p end in
  let start := match initial with None => seq 0 (max batch 2) | Some l => l end in
  let n := match n_max with None => length all | Some n => n end / batch in
  start <> [] -> NoDup start -> (forall i, In i start -> i < length all) ->
  exists its final, acquisition_run surrogate stop dflt all permute initial batch n_max = Ok (its, final) /\
    acquisition_history surrogate dflt all' batch start its final /\
    length its = iterations_needed all' n batch (length start) /\
    NoDup final /\ (forall i, In i final -> i < length all') /\
    length final = min (length all') (length start + n * batch).
Proof.
  intros Hb Hp Hperm all' start n H1 H2 H3. unfold acquisition_run.
  rewrite (proj2 (Nat.eqb_neq batch 0)) by lia.
  change (match permute with Some p => gather dflt all p | None => all end) with all'.
  fold start. 
  assert (HL : length all' = length all).
  { unfold all'. destruct permute as [p|]; auto. rewrite map_length. auto. }
  apply loop_ok; auto. intros i Hi. rewrite HL. auto.
Qed.

(** C24. Every iteration of an acquisition test works on a partition of the data
    into training and test rows and moves exactly min(batch, remaining) proposed
    test rows to the training set; it runs as many iterations as the budget and
    the data allow. *)
Theorem acquisition_keeps_partition :
  forall (X Y S : Type) (surrogate : list X -> list Y -> list X -> list Y -> list nat * S)
         dflt all permute initial batch n_max,
  1 <= batch -> proposes surrogate batch ->
  (forall p, permute = Some p -> Permutation p (seq 0 (length all))) ->
  let all' := match permute with None => all | Some p => map (fun i => nth i all dflt) p end in
  let start := match initial with None => seq 0 (max batch 2) | Some l => l end in
  let n := match n_max with None => length all | Some n => n end / batch in
  start <> [] -> NoDup start -> (forall i, In i start -> i < length all) ->
  exists its final,
    acquisition_run surrogate true dflt all permute initial batch n_max = Ok (its, final) /\
    acquisition_run surrogate false dflt all permute initial batch n_max = Ok (its, final) /\
    test_acquisition surrogate dflt all permute initial batch n_max = Ok (map it_score its) /\
    acquisition_history surrogate dflt all' batch start its final /\
    length its = iterations_needed all' n batch (length start).
Proof.
  intros X Y S sur dflt all permute initial batch n_max Hb Hp Hperm all' start n H1 H2 H3.
  assert (Hl : forall p, permute = Some p -> length p = length all).
  { intros p Ep. rewrite (Permutation_length (Hperm p Ep)), seq_length. auto. }
  destruct (acquisition_run_ok sur dflt true all permute initial batch n_max Hb Hp Hl H1 H2 H3)
    as (its & final & E & Hh & Hlen & _).
  destruct (acquisition_run_ok sur dflt false all permute initial batch n_max Hb Hp Hl H1 H2 H3)
    as (its' & final' & E' & Hh' & Hlen' & _).
  assert (Heq : its' = its /\ final' = final).
  { fold all' in Hh, Hh', Hlen, Hlen'. fold start in Hh, Hh', Hlen, Hlen'. fold n in Hlen, Hlen'.
    rewrite <- Hlen in Hlen'. clear -Hh Hh' Hlen' Hb Hp.
    revert its' Hlen' Hh' Hh. generalize start as tr. induction its as [|it its IH]; intros tr its' HL H1 H2.
    - destruct its'; [|discriminate]. simpl in *. split; congruence.
    - destruct its' as [|it' its']; [discriminate|]. cbn [acquisition_history] in H1, H2.
      destruct it as [a b c s], it' as [a' b' c' s']. cbn [it_train it_test it_acquired it_score] in *.
      destruct H1 as (-> & P1 & S1 & Q1 & _ & _ & _ & _ & R1).
      destruct H2 as (-> & P2 & S2 & Q2 & _ & _ & _ & _ & R2).
      assert (b' = b) as ->.
      { assert (Pb : Permutation b' b).
        { apply Permutation_app_inv_l with tr. rewrite P1, P2. auto. }
        apply (@sorted_perm_unique _ le); auto.
        - intros x y Hxy Hyx. lia.
        - apply lt_le_sorted. auto.
        - apply lt_le_sorted. auto. }
      destruct (sur _ _ _ _) as [smp sc]. destruct Q1 as [-> ->], Q2 as [-> ->].
      destruct (IH _ its' ltac:(simpl in HL; lia) R1 R2) as [-> ->]. auto. }
  destruct Heq as [-> ->].
  exists its, final. split; auto. split; auto. split.
  { unfold test_acquisition. rewrite E. auto. }
  auto.
Qed.

(** Initial training rows that are missing or do not exist are refused, for any surrogate. *)
Theorem acquisition_refuses_bad_start :
  forall (X Y S : Type) (surrogate : list X -> list Y -> list X -> list Y -> list nat * S)
         stop dflt all (start : list nat) batch n_max,
  1 <= batch -> 1 <= match n_max with None => length all | Some n => n end / batch ->
  start = [] \/ (exists i, In i start /\ length all <= i) ->
  acquisition_run surrogate stop dflt all None (Some start) batch n_max = Err IndexError.
Proof.
  intros X Y S sur stop dflt all start batch n_max Hb Hn H. unfold acquisition_run.
  rewrite (proj2 (Nat.eqb_neq batch 0)) by lia.
  destruct (_ / batch) as [|m]; [lia|]. cbn [acquisition_loop]. unfold np_delete_range.
  destruct H as [->|[i [Hi HL]]]; [reflexivity|].
  assert (E : forallb (fun i => i <? length all) start = false).
  { apply not_true_is_false. rewrite forallb_forall. intros F. specialize (F i Hi). apply Nat.ltb_lt in F. lia. }
  rewrite E, Bool.orb_true_r. reflexivity.
Qed.

(** A surrogate that proposes the test rows from the last to the first. *)
Definition last_first {X Y : Type} (a : list X) (b : list Y) (c : list X) (d : list Y) : list nat * nat :=
  (rev (seq 0 (length c)), length a).
Lemma last_first_proposes {X Y} batch : proposes (@last_first X Y) batch.
Proof.
  intros a b c d _. simpl. repeat split.
  - apply NoDup_rev, seq_NoDup.
  - intros i Hi. apply in_rev in Hi. apply in_seq in Hi. lia.
  - rewrite rev_length, seq_length. lia.
Qed.

Definition five : list (nat * nat) := [(10, 0); (11, 1); (12, 2); (13, 3); (14, 4)].

Example acquisition_case :
  acquisition_run last_first true (0, 0) five None (Some [1]) 2 None
  = Ok ([mkIt [1] [0; 2; 3; 4] [4; 3] 1; mkIt [1; 4; 3] [0; 2] [2; 0] 3], [1; 4; 3; 2; 0]).
Proof. vm_compute. reflexivity. Qed.

(** ** Ensembles *)

(** C25, refuted.  A serial ensemble started from the caller's list: the first run
    turns that list into an enumeration of the whole data set (when no budget is
    given and batch is 1), and every later run has no test data left and reports
    nothing at all, for every surrogate, data set and initial subset. *)
Theorem serial_ensemble_shares_subset_refuted :
  forall (X Y S : Type) (surrogate : list X -> list Y -> list X -> list Y -> list nat * S)
         dflt all (initial : list nat) (k : nat),
  proposes surrogate 1 -> initial <> [] -> NoDup initial -> (forall i, In i initial -> i < length all) ->
  length initial < length all ->
  exists first final,
    ensemble_serial surrogate dflt all (repeat None (Datatypes.S k)) (Some initial) 1 None
    = Ok (first :: repeat [] k, Some final) /\
    length first = length all - length initial /\
    Permutation final (seq 0 (length all)) /\ final <> initial /\
    separate_run surrogate dflt all (Some initial) 1 None None = Ok first.
Proof.
  intros X Y S sur dflt all initial k Hp Hne HN Hb Hlt.
  destruct (acquisition_run_ok sur dflt false all None (Some initial) 1 None (le_n 1) Hp)
    as (its & final & E & Hh & Hlen & HNf & Hbf & Hlf); auto; try discriminate.
  assert (Hfl : length final = length all) by (rewrite Hlf, Nat.div_1_r; lia).
  assert (Hperm : Permutation final (seq 0 (length all))).
  { apply NoDup_Permutation_bis; auto.
    - rewrite seq_length. lia.
    - intros i Hi. apply in_seq. specialize (Hbf i Hi). lia. }
  exists (map it_score its), final.
  assert (Hrest : forall k, ensemble_serial sur dflt all (repeat None k) (Some final) 1 None
     = Ok (repeat [] k, Some final)).
  { induction k0 as [|k0 IH]; simpl; auto.
    assert (Er : acquisition_run sur false dflt all None (Some final) 1 None = Ok ([], final)).
    { unfold acquisition_run. simpl (1 =? 0). cbv iota. apply (loop_done sur dflt); auto.
      - intros ->. simpl in Hfl. lia.
      - destruct (remaining_length (length all) final HNf Hbf) as [HL _].
        destruct (remaining (length all) final); auto. simpl in HL. lia. }
    rewrite Er. cbn [bind fst snd map]. rewrite IH. auto. }
  split.
  { simpl. rewrite E. cbn [bind fst snd]. rewrite Hrest. auto. }
  split.
  { rewrite map_length, Hlen. unfold iterations_needed. simpl (1 - 1). rewrite Nat.add_0_r, !Nat.div_1_r. lia. }
  split; auto. split.
  { intros ->. lia. }
  unfold separate_run. rewrite E. auto.
Qed.

Example serial_ensemble_case :
  ensemble_serial last_first (0, 0) five [None; None; None] (Some [1]) 1 None
  = Ok ([[1; 2; 3; 4]; []; []], Some [1; 4; 3; 2; 0]).
Proof. vm_compute. reflexivity. Qed.

(** What holds: without a user supplied subset the serial ensemble is the list of
    the separate runs, for any surrogate and data. *)
Theorem serial_ensemble_default_subset_partial :
  forall (X Y S : Type) (surrogate : list X -> list Y -> list X -> list Y -> list nat * S)
         dflt all seeds batch n_max res sub,
  ensemble_serial surrogate dflt all seeds None batch n_max = Ok (res, sub) ->
  sub = None /\ Forall2 (fun p r => separate_run surrogate dflt all None batch n_max p = Ok r) seeds res.
Proof.
  intros X Y S sur dflt all seeds batch n_max. induction seeds as [|p ps IH]; simpl; intros res sub E.
  - inversion E; subst. auto.
  - destruct (acquisition_run sur false dflt all p None batch n_max) as [r|e] eqn:Er; simpl in E; [|discriminate].
    destruct (ensemble_serial sur dflt all ps None batch n_max) as [rs|e] eqn:Es; simpl in E; [|discriminate].
    inversion E; subst. destruct rs as [rr ss]. destruct (IH rr ss eq_refl) as [H1 H2]. simpl. split; auto.
    constructor; auto. unfold separate_run. rewrite Er. auto.
Qed.

Example serial_ensemble_default_case :
  ensemble_serial last_first (0, 0) five [None; Some [4; 3; 2; 1; 0]] None 1 (Some 2)
  = Ok ([[2; 3]; [2; 3]], None).
Proof. vm_compute. reflexivity. Qed.

(** C26.  When the surrogate returns its candidates ranked by decreasing value,
    acquire returns the min(batch, n) best ones, best first, without repetition. *)
Theorem acquire_returns_best :
  forall (F : Type) (leb : F -> F -> bool) (value : nat -> F) (n batch : nat) (sample : list nat),
  Permutation sample (seq 0 n) ->
  StronglySorted (fun i j => leb (value j) (value i) = true) sample ->
  let got := acquire sample batch in
  length got = min batch n /\ NoDup got /\ (forall i, In i got -> i < n) /\
  StronglySorted (fun i j => leb (value j) (value i) = true) got /\
  (forall i j, In i got -> j < n -> ~ In j got -> leb (value j) (value i) = true).
Proof.
  intros F leb value n batch sample HP HS got. unfold got, acquire.
  pose proof (firstn_skipn batch sample) as Hfs.
  assert (HN : NoDup sample) by (eapply Permutation_NoDup; [symmetry; exact HP|apply seq_NoDup]).
  rewrite <- Hfs in HN, HS.
  destruct (@StronglySorted_app_inv _ _ _ _ HS) as (S1 & S2 & S3).
  destruct (@NoDup_app_inv _ _ _ HN) as (N1 & N2 & N3).
  repeat split; auto.
  - rewrite firstn_length, (Permutation_length HP), seq_length. auto.
  - intros i Hi. apply firstn_In in Hi. assert (In i (seq 0 n)) by (eapply Permutation_in; eauto).
    apply in_seq in H. lia.
  - intros i j Hi Hj Hn.
    assert (Hjs : In j sample) by (eapply Permutation_in; [symmetry; exact HP|apply in_seq; lia]).
    rewrite <- Hfs in Hjs. apply in_app_iff in Hjs. destruct Hjs as [Hjs|Hjs]; [tauto|].
    apply S3; auto.
Qed.

Example acquire_case : acquire [2; 0; 3; 1] 2 = [2; 0] /\
  StronglySorted (fun i j => Z.leb (nth j [5; 1; 9; 4]%Z 0%Z) (nth i [5; 1; 9; 4]%Z 0%Z) = true) [2; 0; 3; 1].
Proof. split; [reflexivity|]. repeat constructor. Qed.

Print Assumptions acquisition_keeps_partition.
Print Assumptions serial_ensemble_shares_subset_refuted.
Print Assumptions serial_ensemble_default_subset_partial.
Print Assumptions acquire_returns_best.
Print Assumptions acquisition_refuses_bad_start.
