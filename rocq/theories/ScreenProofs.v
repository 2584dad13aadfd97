(** Proofs about feature screening. *)
From Coq Require Import Reals Lra List Bool Arith Lia Permutation Sorting.Sorted.
From Verif Require Import Base BaseFacts RBase ElimProofs FEModel ScreenModel.
Import ListNotations.
Open Scope R_scope.

(** ** Ranking by absolute value *)
Definition by_abs (a b : R * nat) : bool := Rleb (fst b) (fst a).

Lemma by_abs_preorder : total_preorder by_abs.
Proof.
  destruct Rleb_total_order as [[T1 T2] _]. unfold by_abs. split.
  - intros x y. destruct (T1 (fst x) (fst y)); auto.
  - intros x y z H1 H2. eapply T2; eauto.
Qed.

Definition ranking (c : list R) : list nat := map snd (rank_abs c).

Lemma ranking_perm c : Permutation (ranking c) (seq 0 (length c)).
Proof.
  unfold ranking, rank_abs. etransitivity; [apply Permutation_map, isort_perm|].
  rewrite map_combine_snd by (rewrite map_length, seq_length; auto). reflexivity.
Qed.

Lemma ranking_length c : length (ranking c) = length c.
Proof. rewrite (Permutation_length (ranking_perm c)). apply seq_length. Qed.

Lemma ranking_nodup c : NoDup (ranking c).
Proof. eapply Permutation_NoDup; [symmetry; apply ranking_perm|apply seq_NoDup]. Qed.

Lemma ranking_in c i : In i (ranking c) <-> (i < length c)%nat.
Proof.
  split; intros H.
  - apply (Permutation_in _ (ranking_perm c)) in H. apply in_seq in H. lia.
  - apply (Permutation_in _ (Permutation_sym (ranking_perm c))). apply in_seq. lia.
Qed.

Lemma in_combine_abs c k p :
  In p (combine (map Rabs c) (seq k (length c))) ->
  (k <= snd p)%nat /\ fst p = Rabs (nth (snd p - k) c 0).
Proof.
  revert k. induction c as [|x c IH]; intros k; [contradiction|]. cbn [map length seq combine].
  intros [<-|H].
  - cbn. rewrite Nat.sub_diag. auto.
  - apply IH in H. destruct H as [H1 H2]. split; [lia|].
    replace (snd p - k)%nat with (S (snd p - S k)) by lia. auto.
Qed.

Lemma rank_abs_fst c p : In p (rank_abs c) -> fst p = Rabs (nth (snd p) c 0).
Proof.
  intros H. unfold rank_abs in H. apply isort_in, in_combine_abs in H.
  destruct H as [_ H]. rewrite Nat.sub_0_r in H. auto.
Qed.

Lemma ranking_sorted c i j : (i < j < length c)%nat ->
  Rabs (nth (nth j (ranking c) 0%nat) c 0) <= Rabs (nth (nth i (ranking c) 0%nat) c 0).
Proof.
  intros H. assert (L : length (rank_abs c) = length c).
  { unfold rank_abs. rewrite isort_length, combine_length, map_length, seq_length. lia. }
  assert (S := isort_sorted by_abs_preorder (combine (map Rabs c) (seq 0 (length c)))).
  fold (rank_abs c) in S.
  assert (S' : rel by_abs (nth i (rank_abs c) (0, 0%nat)) (nth j (rank_abs c) (0, 0%nat))).
  { apply (StronglySorted_nth (R:=rel by_abs)); auto; try lia. }
  unfold rel, by_abs in S'. apply Rleb_true in S'.
  unfold ranking. rewrite !(nth_map_lt _ _ _ (0, 0%nat)) by lia.
  rewrite <- !rank_abs_fst by (apply nth_In; lia). auto.
Qed.

Lemma firstn_skipn_ranked c k i j :
  In i (firstn k (ranking c)) -> In j (skipn k (ranking c)) ->
  Rabs (nth j c 0) <= Rabs (nth i c 0).
Proof.
  intros Hi Hj. apply (In_nth _ _ 0%nat) in Hi. apply (In_nth _ _ 0%nat) in Hj.
  destruct Hi as [a [La <-]], Hj as [b [Lb <-]].
  rewrite firstn_length, ranking_length in La. rewrite skipn_length, ranking_length in Lb.
  assert (E1 : nth a (firstn k (ranking c)) 0%nat = nth a (ranking c) 0%nat).
  { rewrite <- (firstn_skipn k (ranking c)) at 2. rewrite app_nth1; auto.
    rewrite firstn_length, ranking_length. lia. }
  assert (E2 : nth b (skipn k (ranking c)) 0%nat = nth (k + b) (ranking c) 0%nat).
  { rewrite <- (firstn_skipn k (ranking c)) at 2.
    rewrite app_nth2; rewrite firstn_length, ranking_length; [f_equal; lia|lia]. }
  rewrite E1, E2. apply ranking_sorted. lia.
Qed.

(** ** Deleting columns *)
Lemma seq_nth_list {A} (d : A) l : map (fun i => nth i l d) (seq 0 (length l)) = l.
Proof. exact (gather_seq d l). Qed.

Lemma delete_idx_nth {A} (d : A) l idx :
  delete_idx l idx = map (fun i => nth i l d) (filter (notin idx) (seq 0 (length l))).
Proof.
  rewrite <- (seq_nth_list d l) at 1. rewrite delete_idx_map. f_equal.
  unfold delete_idx. rewrite seq_length.
  assert (G : forall k n, map snd (filter (fun p => negb (existsb (Nat.eqb (fst p)) idx))
             (combine (seq k n) (seq k n))) = filter (notin idx) (seq k n)).
  { intros k n. revert k. induction n as [|n IH]; intros k; simpl; auto. fold (notin idx k).
    destruct (notin idx k); simpl; rewrite IH; auto. }
  apply G.
Qed.

Lemma delete_order {A} (d : A) l order size :
  Permutation order (seq 0 (length l)) ->
  let kept := filter (notin (skipn size order)) (seq 0 (length l)) in
  StronglySorted lt kept /\ Permutation kept (firstn size order) /\
  delete_idx l (skipn size order) = map (fun i => nth i l d) kept.
Proof.
  intros P. cbv zeta.
  assert (ND : NoDup order) by (eapply Permutation_NoDup; [symmetry; eauto|apply seq_NoDup]).
  split; [|split].
  - assert (G : forall k n, StronglySorted lt (filter (notin (skipn size order)) (seq k n))).
    { intros k n; revert k; induction n as [|n IH]; intros k; simpl; [constructor|].
      destruct (notin _ k); auto. constructor; auto. apply Forall_forall. intros x Hx.
      apply filter_In in Hx. destruct Hx as [Hx _]. apply in_seq in Hx. lia. }
    apply G.
  - etransitivity; [apply Permutation_filter; symmetry; exact P|].
    rewrite <- (firstn_skipn size order) at 2. rewrite filter_app.
    rewrite <- (firstn_skipn size order) in ND. apply NoDup_app_inv in ND. destruct ND as (_ & _ & D).
    rewrite filter_true, filter_none, app_nil_r; auto.
    + intros x Hx. destruct (notin (skipn size order) x) eqn:E; auto.
      apply notin_true in E. contradiction.
    + intros x Hx. apply notin_true. intros Hx'. eapply D; eauto.
  - apply delete_idx_nth.
Qed.

Lemma delete_order_length {A} (l : list A) order size :
  Permutation order (seq 0 (length l)) ->
  length (delete_idx l (skipn size order)) = length (firstn size order).
Proof.
  intros P. destruct l as [|d l'].
  - apply Permutation_sym, Permutation_nil in P. subst. rewrite skipn_nil, firstn_nil. reflexivity.
  - destruct (delete_order d (d :: l') order size P) as (_ & P2 & ->).
    rewrite map_length. apply Permutation_length. auto.
Qed.

Lemma delete_one {A} (l : list A) i : delete_idx l [i] = firstn i l ++ skipn (S i) l.
Proof.
  unfold delete_idx.
  assert (G : forall k i, map snd (filter (fun p => negb (existsb (Nat.eqb (fst p)) [(k + i)%nat]))
             (combine (seq k (length l)) l)) = firstn i l ++ skipn (S i) l).
  { clear i. induction l as [|x l IH]; intros k i.
    - simpl. rewrite firstn_nil. reflexivity.
    - cbn [length seq combine filter fst existsb]. rewrite orb_false_r. destruct i as [|i].
      + rewrite Nat.add_0_r, Nat.eqb_refl. cbn [negb firstn skipn app].
        rewrite filter_true.
        * rewrite map_combine_snd by (rewrite seq_length; auto). auto.
        * intros [a b] H. apply in_combine_l in H. apply in_seq in H. cbn [fst existsb].
          rewrite orb_false_r. apply negb_true_iff, Nat.eqb_neq. lia.
      + destruct (Nat.eqb_spec k (k + S i)); [lia|]. cbn [negb map snd firstn skipn app]. f_equal.
        replace (k + S i)%nat with (S k + i)%nat by lia. apply IH. }
  apply (G 0%nat i).
Qed.

(** ** Moving chosen positions from the rejected to the accepted list *)
Lemma sorted_drop (l1 l2 : list nat) x :
  StronglySorted lt (l1 ++ x :: l2) -> StronglySorted lt (l1 ++ l2).
Proof.
  induction l1 as [|y l1 IH]; simpl; intros H.
  - inversion H; auto.
  - inversion H as [|? ? H1 H2]; subst. constructor; auto.
    rewrite Forall_forall in *. intros z Hz. apply H2. apply in_app_or in Hz. apply in_or_app.
    destruct Hz; auto. right; right; auto.
Qed.

Lemma move_ok ps : forall accepted rejected,
  StronglySorted gt ps -> (forall i, In i ps -> (i < length rejected)%nat) ->
  StronglySorted lt rejected ->
  exists rejected', move ps accepted rejected =
      Ok (accepted ++ map (fun i => nth i rejected 0%nat) ps, rejected') /\
    StronglySorted lt rejected' /\
    Permutation (map (fun i => nth i rejected 0%nat) ps ++ rejected') rejected.
Proof.
  induction ps as [|i t IH]; intros accepted rejected HS B SR.
  - exists rejected. cbn. rewrite app_nil_r. auto.
  - cbn [move]. assert (Hi : (i < length rejected)%nat) by (apply B; left; auto).
    destruct (nth_error rejected i) as [x|] eqn:E; [|apply nth_error_None in E; lia].
    assert (Ex : nth i rejected 0%nat = x) by (apply nth_error_nth; auto).
    pose proof (nth_error_split rejected i E) as (l1 & l2 & El & L1).
    assert (ED : delete_idx rejected [i] = l1 ++ l2).
    { rewrite delete_one, El. rewrite firstn_app, skipn_app.
      replace (i - length l1)%nat with 0%nat by lia. replace (S i - length l1)%nat with 1%nat by lia.
      rewrite firstn_all2, skipn_all2 by lia. cbn. rewrite app_nil_r. reflexivity. }
    apply StronglySorted_inv in HS. destruct HS as [S1 S2].
    destruct (IH (accepted ++ [x]) (delete_idx rejected [i])) as (rej' & E' & SR' & P').
    + auto.
    + intros j Hj. rewrite Forall_forall in S2. specialize (S2 j Hj). rewrite ED.
      assert (length rejected = (length l1 + S (length l2))%nat) by (rewrite El, app_length; auto).
      rewrite app_length. lia.
    + rewrite ED. apply sorted_drop with (x := x). rewrite <- El. auto.
    + assert (M : map (fun j => nth j (delete_idx rejected [i]) 0%nat) t = map (fun j => nth j rejected 0%nat) t).
      { apply map_ext_in. intros j Hj. rewrite Forall_forall in S2. specialize (S2 j Hj).
        rewrite ED, El. rewrite !app_nth1 by lia. auto. }
      exists rej'. rewrite E', M. cbn [map]. rewrite Ex, <- app_assoc. split; auto. split; auto.
      rewrite M, ED in P'. cbn [app]. apply (Permutation_trans (l' := x :: l1 ++ l2)); [constructor; auto|]. rewrite El at 1. apply Permutation_middle.
Qed.

(** ** The choice made by the regression *)
Lemma take_real_ok acc randf regr : (forall i, In i regr -> (i < length acc)%nat) ->
  exists q nc, take_real acc randf regr = Ok (map (fun i => nth i acc 0%nat) (firstn q regr), nc) /\
    (q <= length regr)%nat /\ (nc = true -> q = length regr) /\
    (forall x, In x (map (fun i => nth i acc 0%nat) (firstn q regr)) -> ~ In x randf) /\
    (nc = false -> (q < length regr)%nat /\ In (nth (nth q regr 0%nat) acc 0%nat) randf).
Proof.
  induction regr as [|i t IH]; intros B.
  - exists 0%nat, true. cbn. repeat split; auto; try discriminate.
  - cbn [take_real]. assert (Hi : (i < length acc)%nat) by (apply B; left; auto).
    destruct (nth_error acc i) as [a|] eqn:E; [|apply nth_error_None in E; lia].
    assert (Ea : nth i acc 0%nat = a) by (apply nth_error_nth; auto).
    destruct (existsb (Nat.eqb a) randf) eqn:X.
    + exists 0%nat, false. cbn. repeat split; auto; try discriminate; try lia.
      apply existsb_exists in X. destruct X as [y [Hy Ey]]. apply Nat.eqb_eq in Ey. subst. auto.
    + destruct IH as (q & nc & -> & L & T & N & F); [intros; apply B; right; auto|].
      exists (S q), nc. cbn [bind fst snd firstn map length nth]. rewrite Ea. repeat split; try lia.
      * intros H. rewrite T; auto.
      * intros x [<-|Hx]; auto. intros Hin.
        assert (existsb (Nat.eqb a) randf = true); [|congruence].
        apply existsb_exists. exists a. rewrite Nat.eqb_refl. auto.
      * destruct (F H). lia.
      * apply F; auto.
Qed.

Lemma ranking_firstn_lt c k i : In i (firstn k (ranking c)) -> (i < length c)%nat.
Proof. intros H. apply ranking_in. eapply firstn_In; eauto. Qed.

Lemma map_nth_nodup (l : list nat) idx :
  NoDup l -> NoDup idx -> (forall i, In i idx -> (i < length l)%nat) ->
  NoDup (map (fun i => nth i l 0%nat) idx).
Proof.
  intros NL NI. induction NI as [|i t Hi NI IH]; intros B; cbn; constructor.
  - intros H. apply in_map_iff in H. destruct H as [j [E Hj]]. apply Hi.
    rewrite (NoDup_nth l 0%nat) in NL. rewrite <- (NL j i); [auto|apply B; right; auto|apply B; left; auto|auto].
  - apply IH. intros; apply B; right; auto.
Qed.

Lemma nodup_firstn {A} k (l : list A) : NoDup l -> NoDup (firstn k l).
Proof. intros H. rewrite <- (firstn_skipn k l) in H. apply NoDup_app_inv in H. tauto. Qed.

Lemma isort_desc l : NoDup l -> StronglySorted gt (isort (fun a b => (b <=? a)%nat) l).
Proof.
  intros ND.
  assert (TP : total_preorder (fun a b => (b <=? a)%nat)).
  { split; intros; rewrite ?Nat.leb_le in *; lia. }
  assert (S := isort_sorted TP l).
  assert (ND' : NoDup (isort (fun a b => (b <=? a)%nat) l)).
  { eapply Permutation_NoDup; [symmetry; apply isort_perm|auto]. }
  revert ND'. induction S as [|a t S IH F]; intros ND'; constructor.
  - apply IH. inversion ND'; auto.
  - rewrite Forall_forall in *. intros x Hx. specialize (F x Hx). unfold rel in F. apply Nat.leb_le in F.
    assert (x <> a). { intros ->. inversion ND'; auto. } lia.
Qed.

(** ** One round *)
Section Round.
Variables pearsonr spearmanr kendalltau : fcolumn -> list R -> R.
Variable flat : fcolumn -> bool.
Variable regression : list fcolumn -> list R -> list R.
(** The fitted model has one coefficient per column. *)
Hypothesis fitted : forall m t, length (regression m t) = length m.

Notation corr := (get_correlation pearsonr spearmanr kendalltau flat).
Notation iter := (iterator pearsonr spearmanr kendalltau flat regression).

Lemma corr_length kind target cols : length (corr kind target cols) = length cols.
Proof. apply map_length. Qed.

Lemma reduce_none_ok {C} (cols : list C) order size :
  Permutation order (seq 0 (length cols)) ->
  reduce_matrix None cols order size = Ok (firstn size order, delete_idx cols (skipn size order)).
Proof.
  intros P. unfold reduce_matrix, set_index. cbn [bind].
  assert (length order = length cols) by (rewrite (Permutation_length P); apply seq_length).
  rewrite H, Nat.eqb_refl. cbn [negb]. rewrite delete_order_length, Nat.eqb_refl; auto.
Qed.

Lemma iterator_ok kind n target features size step accepted rejected randf :
  (size <= length features)%nat -> (step <= size)%nat -> StronglySorted lt rejected ->
  (forall x, (x < length features)%nat -> ~ In x randf -> (x < length rejected)%nat) ->
  exists nc new rejected', iter kind n target features size step accepted rejected randf =
      Ok (nc, accepted ++ new, rejected') /\
    StronglySorted lt rejected' /\ Permutation (new ++ rejected') rejected /\
    (length new <= step)%nat /\ (nc = true -> length new = step) /\
    ((forall x, (x < length features)%nat -> ~ In x randf) -> nc = true).
Proof.
  intros Sz St SR B. unfold iterator, screen, set_index. cbn [bind fst snd].
  set (order := map snd (rank_abs (corr kind target features))).
  assert (P : Permutation order (seq 0 (length features))).
  { unfold order. pose proof (ranking_perm (corr kind target features)) as Q.
    rewrite corr_length in Q. exact Q. }
  assert (Lo : length order = length features) by (rewrite (Permutation_length P); apply seq_length).
  assert (ND : NoDup order) by (eapply Permutation_NoDup; [symmetry; eauto|apply seq_NoDup]).
  rewrite (reduce_none_ok features order size P). cbn [bind fst snd].
  set (acc := firstn size order). set (mat := delete_idx features (skipn size order)).
  assert (La : length acc = size) by (unfold acc; rewrite firstn_length; lia).
  assert (Lm : length mat = size).
  { unfold mat. rewrite delete_order_length by auto. exact La. }
  set (coef := regression mat target).
  assert (Lc : length coef = size) by (unfold coef; rewrite fitted; auto).
  unfold feature_select. cbn [fst]. fold (ranking coef). set (regr := firstn step (ranking coef)).
  assert (Lr : length regr = step) by (unfold regr; rewrite firstn_length, ranking_length; lia).
  assert (Br : forall i, In i regr -> (i < length acc)%nat).
  { intros i Hi. apply ranking_firstn_lt in Hi. lia. }
  destruct (take_real_ok acc randf regr Br) as (q & nc & E & Lq & Tq & Nq & Fq).
  rewrite E. cbn [bind fst snd]. set (sis := map (fun i => nth i acc 0%nat) (firstn q regr)) in *.
  assert (Lsis : length sis = q) by (unfold sis; rewrite map_length, firstn_length; lia).
  assert (NDs : NoDup sis).
  { apply map_nth_nodup.
    - apply nodup_firstn; auto.
    - do 2 apply nodup_firstn. apply ranking_nodup.
    - intros i Hi. apply Br. eapply firstn_In; eauto. }
  assert (In_feat : forall i, (i < size)%nat -> (nth i acc 0 < length features)%nat).
  { intros i Hi. assert (In (nth i acc 0%nat) acc) by (apply nth_In; lia).
    apply firstn_In in H. apply (Permutation_in _ P) in H. apply in_seq in H. lia. }
  assert (Bs : forall x, In x sis -> (x < length rejected)%nat).
  { intros x Hx. apply B; [|apply Nq; auto]. apply in_map_iff in Hx. destruct Hx as [i [<- Hi]].
    apply In_feat. apply firstn_In, Br in Hi. lia. }
  set (ps := isort (fun a b => (b <=? a)%nat) sis).
  assert (Pp : Permutation ps sis) by apply isort_perm.
  destruct (move_ok ps accepted rejected) as (rej' & -> & SR' & P').
  - apply isort_desc; auto.
  - intros i Hi. apply Bs. eapply Permutation_in; eauto.
  - auto.
  - cbn [bind fst snd]. do 3 eexists. split; [reflexivity|]. rewrite map_length, (Permutation_length Pp), Lsis.
    repeat split; auto; try lia.
    + intros H. rewrite Tq; auto.
    + intros H. destruct nc; auto. destruct (Fq eq_refl) as [Hq Hin]. exfalso.
      eapply H; [|exact Hin]. apply In_feat. rewrite <- La. apply Br. apply nth_In. auto.
Qed.

Definition split_ok (f : nat) (accepted rejected : list nat) : Prop :=
  Permutation (accepted ++ rejected) (seq 0 f) /\ StronglySorted lt rejected.

Lemma left_over f r accepted rejected :
  split_ok f accepted rejected ->
  length (filter (notin (accepted ++ seq f r)) (seq 0 (f + r))) = length rejected /\
  length (filter (notin (rejected ++ seq f r)) (seq 0 (f + r))) = length accepted.
Proof.
  intros [P S].
  assert (ND : NoDup (accepted ++ rejected)) by (eapply Permutation_NoDup; [symmetry; eauto|apply seq_NoDup]).
  pose proof (NoDup_app_inv _ _ ND) as (N1 & N2 & D).
  assert (IN : forall x, In x (accepted ++ rejected) <-> (x < f)%nat).
  { intros x. split; intros H.
    - apply (Permutation_in _ P) in H. apply in_seq in H. lia.
    - apply (Permutation_in _ (Permutation_sym P)). apply in_seq. lia. }
  split; apply Permutation_length, NoDup_Permutation; auto; try (apply NoDup_filter, seq_NoDup);
  intros x; rewrite filter_In, in_seq, notin_true, in_app_iff, in_seq; specialize (IN x);
  rewrite in_app_iff in IN; specialize (D x);
  destruct (in_dec Nat.eq_dec x accepted), (in_dec Nat.eq_dec x rejected);
  split; intros; try tauto; try lia; try (exfalso; tauto).
  all: try (assert (x < f)%nat by tauto; split; [lia|]; intros [?|?]; [tauto|lia]).
  all: destruct H as [Hx Hn]; exfalso; apply Hn; right;
       assert (~ (x < f)%nat) by tauto; lia.
Qed.

Notation loop := (screen_loop pearsonr spearmanr kendalltau flat regression).

Lemma loop_ok kind n target keep f r size :
  length keep = (f + r)%nat -> (2 * size < f)%nat ->
  forall fuel step nc accepted rejected,
  (1 <= step)%nat -> (step <= size)%nat -> split_ok f accepted rejected ->
  (length accepted <= size)%nat -> (nc = true -> (1 <= length accepted)%nat) ->
  (size - length accepted <= fuel)%nat ->
  exists accepted' rejected',
    loop fuel kind n target keep size step (nc, accepted, rejected) (seq f r) = Ok (Some (accepted', rejected')) /\
    split_ok f accepted' rejected' /\ (length accepted' <= size)%nat /\
    (exists more, accepted' = accepted ++ more) /\
    (nc = true -> length accepted' = size).
Proof.
  intros Lk Hf fuel. induction fuel as [|fuel IH]; intros step nc accepted rejected St1 St2 SO La Lnc Fu;
  cbn [screen_loop].
  - assert ((length accepted <? size)%nat = false) as -> by (apply Nat.ltb_ge; lia).
    cbn [andb]. do 2 eexists. split; [reflexivity|]. split; auto. split; auto. split; [exists []; rewrite app_nil_r; auto|].
    intros; lia.
  - destruct ((length accepted <? size)%nat && nc) eqn:E.
    + apply andb_true_iff in E. destruct E as [E ->]. apply Nat.ltb_lt in E.
      set (step' := if (size - length accepted <? step)%nat then (size - length accepted)%nat else step).
      assert (S1 : (1 <= step')%nat).
      { unfold step'. destruct (Nat.ltb_spec (size - length accepted) step); lia. }
      assert (S2 : (step' <= size - length accepted)%nat).
      { unfold step'. destruct (Nat.ltb_spec (size - length accepted) step); lia. }
      destruct (left_over f r accepted rejected SO) as [LO1 LO2].
      set (train := delete_idx keep (accepted ++ seq f r)).
      set (red := delete_idx keep (rejected ++ seq f r)).
      assert (L1 : length train = length rejected).
      { unfold train. rewrite (delete_idx_nth []), map_length, Lk. auto. }
      assert (L2 : length red = length accepted).
      { unfold red. rewrite (delete_idx_nth []), map_length, Lk. auto. }
      assert (LR : length rejected = (f - length accepted)%nat).
      { destruct SO as [P _]. apply Permutation_length in P. rewrite app_length, seq_length in P. lia. }
      assert (GR : get_response train red = Ok (map (fun d => response d red) train)).
      { unfold get_response. destruct train; auto. destruct red; auto. cbn in L2. specialize (Lnc eq_refl). lia. }
      rewrite GR. cbn [bind]. destruct SO as [P SR].
      destruct (iterator_ok kind n target (map (fun d => response d red) train) size step' accepted rejected (seq f r))
        as (nc' & new & rej' & -> & SR' & P' & Ln & Tn & Fn).
      * rewrite map_length. lia.
      * lia.
      * auto.
      * intros x Hx _. rewrite map_length in Hx. lia.
      * cbn [bind]. assert (nc' = true) as ->.
        { apply Fn. intros x Hx. rewrite map_length in Hx. rewrite in_seq. lia. }
        specialize (Tn eq_refl).
        destruct (IH step' true (accepted ++ new) rej') as (a' & r' & E' & SO' & La' & [more Em] & T').
        -- auto.
        -- lia.
        -- split; auto. rewrite <- app_assoc, P'. auto.
        -- rewrite app_length. lia.
        -- rewrite app_length. intros; lia.
        -- rewrite app_length. lia.
        -- exists a', r'. split; [exact E'|]. split; auto. split; auto. split.
           ++ exists (new ++ more). rewrite Em, app_assoc. auto.
           ++ auto.
    + do 2 eexists. split; [reflexivity|]. split; auto. split; auto. split; [exists []; rewrite app_nil_r; auto|].
      intros ->. rewrite andb_true_r in E. apply Nat.ltb_ge in E. lia.
Qed.
End Round.
