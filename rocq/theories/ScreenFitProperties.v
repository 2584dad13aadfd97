(** Iterative screening with the linear models it fits. *)
From Coq Require Import Reals Lra List Bool Arith Lia Permutation Sorting.
From Verif Require Import Base BaseFacts RBase GPModel ScreenModel ScreenProofs ScreenProperties RegFitModel RegFitProperties ScreenFitModel.
Import ListNotations.
Open Scope R_scope.

Lemma nonzero_count_unique c a b : nonzero_count c a -> nonzero_count c b -> a = b.
Proof.
  intros (l & L1 & <- & L3) (l' & L1' & <- & L3'). apply Permutation_length, NoDup_Permutation; auto.
  intros i. rewrite L3, L3'. tauto.
Qed.

Section Fitted.
Variables pearsonr spearmanr kendalltau : fcolumn -> list R -> R.
Variable flat : fcolumn -> bool.
Variables ridge elastic lasso_cv : nat -> list fcolumn -> list R -> list R.
Variable lasso : nat -> list fcolumn -> list R -> nat -> R -> list R.
Variable method : reg_method.

(** Every fit has one coefficient per column. *)
Definition fits_ok : Prop :=
  (forall r m t, length (ridge r m t) = length m) /\ (forall r m t, length (elastic r m t) = length m) /\
  (forall r m t k a, length (lasso r m t k a) = length m).
Hypothesis fitted : fits_ok.

Notation ordering := (regression_ordering ridge elastic lasso_cv lasso method).
Notation fiter := (fit_iterator pearsonr spearmanr kendalltau flat ridge elastic lasso_cv lasso method).
Notation floop := (fit_loop pearsonr spearmanr kendalltau flat ridge elastic lasso_cv lasso method).
Notation fscreen := (fit_screen pearsonr spearmanr kendalltau flat ridge elastic lasso_cv lasso method).

Lemma ordering_cases r m t size f : (0 < length m)%nat ->
  (exists c, length c = length m /\ ordering r m t size f = Ok (fst (feature_select c size))) \/
  ordering r m t size f = Err NameError.
Proof.
  intros Lm. destruct fitted as (F1 & F2 & F3). unfold regression_ordering, feature_select_full, get_coefficients, report, line_search_fit.
  destruct method; cbn [bind fst snd]; auto.
  - left. exists (ridge r m t). split; [auto|]. rewrite F1. destruct (Nat.eqb_spec (length m) 0); [lia|reflexivity].
  - left. exists (elastic r m t). split; [auto|]. rewrite F2. destruct (Nat.eqb_spec (length m) 0); [lia|reflexivity].
  - destruct (first_fit _ _ _ _) as [c|e] eqn:E; cbn [bind].
    + left. destruct (first_fit_spec _ _ _ _ _ E) as (j & _ & -> & _). eexists. split; [apply F3|]. rewrite F3.
      destruct (Nat.eqb_spec (length m) 0); [lia|reflexivity].
    + right. rewrite (first_fit_err _ _ _ _ _ E). reflexivity.
Qed.

(** [works r m t size f]: this fit gives an order. *)
Definition works r m t size f : Prop := exists acc, ordering r m t size f = Ok acc.

Lemma fit_iterator_ok r kind n f target features size step accepted rejected randf :
  (0 < size <= length features)%nat -> (step <= size)%nat -> StronglySorted lt rejected ->
  (forall x, (x < length features)%nat -> ~ In x randf -> (x < length rejected)%nat) ->
  (exists nc new rejected', fiter r kind n f target features size step accepted rejected randf =
      Ok (nc, accepted ++ new, rejected') /\
    StronglySorted lt rejected' /\ Permutation (new ++ rejected') rejected /\
    (length new <= step)%nat /\ (nc = true -> length new = step) /\
    ((forall x, (x < length features)%nat -> ~ In x randf) -> nc = true)) \/
  (fiter r kind n f target features size step accepted rejected randf = Err NameError /\
   exists m, length m = size /\ ordering r m target step f = Err NameError).
Proof.
  intros Sz St SR B.
  set (corr := get_correlation pearsonr spearmanr kendalltau flat kind target features).
  assert (P : Permutation (ranking corr) (seq 0 (length features))).
  { pose proof (ranking_perm corr) as Q. unfold corr in Q at 2. rewrite corr_length in Q. exact Q. }
  assert (Lm : length (delete_idx features (skipn size (ranking corr))) = size).
  { rewrite delete_order_length by auto. rewrite firstn_length, (Permutation_length P), seq_length. lia. }
  set (mat := delete_idx features (skipn size (ranking corr))) in *.
  unfold fit_iterator, screen, set_index. cbn [bind fst snd]. fold corr. fold (ranking corr).
  rewrite (reduce_none_ok features (ranking corr) size P). cbn [bind fst snd]. fold mat.
  destruct (ordering_cases r mat target step f) as [(c & Lc & E)|E]; [lia| |].
  - left. rewrite E. cbn [bind].
    destruct (iterator_ok pearsonr spearmanr kendalltau flat
      (fun m _ => if (length m =? length c)%nat then c else map (fun _ => 0) m)) with
      (kind := kind) (n := n) (target := target) (features := features) (size := size) (step := step)
      (accepted := accepted) (rejected := rejected) (randf := randf) as (nc & new & rej & E1 & R1); auto; try lia.
    { intros m _. destruct (Nat.eqb_spec (length m) (length c)); [auto|apply map_length]. }
    exists nc, new, rej. split; [|exact R1]. rewrite <- E1.
    unfold iterator, screen, set_index. cbn [bind fst snd]. fold corr. fold (ranking corr).
    rewrite (reduce_none_ok features (ranking corr) size P). cbn [bind fst snd]. fold mat.
    rewrite <- Lc, Nat.eqb_refl. reflexivity.
  - right. rewrite E. split; [reflexivity|]. exists mat. auto.
Qed.

Lemma fit_loop_ok kind n target keep f r size step0 :
  length keep = (f + r)%nat -> (2 * size < f)%nat ->
  forall fuel round step nc accepted rejected,
  (1 <= step <= step0)%nat -> (step0 <= size)%nat -> split_ok f accepted rejected ->
  (length accepted <= size)%nat -> (nc = true -> (1 <= length accepted)%nat) ->
  (size - length accepted <= fuel)%nat ->
  (exists accepted' rejected',
    floop fuel round kind n f target keep size step (nc, accepted, rejected) (seq f r) = Ok (Some (accepted', rejected')) /\
    split_ok f accepted' rejected' /\ (length accepted' <= size)%nat /\
    (nc = true -> length accepted' = size)) \/
  (floop fuel round kind n f target keep size step (nc, accepted, rejected) (seq f r) = Err NameError /\
   exists round m s, length m = size /\ (1 <= s <= step0)%nat /\ ordering round m target s f = Err NameError).
Proof.
  intros Lk Hf fuel. induction fuel as [|fuel IH]; intros round step nc accepted rejected St1 St2 SO La Lnc Fu;
  cbn [fit_loop].
  - assert ((length accepted <? size)%nat = false) as -> by (apply Nat.ltb_ge; lia).
    cbn [andb]. left. do 2 eexists. split; [reflexivity|]. split; auto. split; auto. intros; lia.
  - destruct ((length accepted <? size)%nat && nc) eqn:E.
    + apply andb_true_iff in E. destruct E as [E ->]. apply Nat.ltb_lt in E.
      set (step' := if (size - length accepted <? step)%nat then (size - length accepted)%nat else step).
      assert (S1 : (1 <= step' <= step0)%nat).
      { unfold step'. destruct (Nat.ltb_spec (size - length accepted) step); lia. }
      assert (S2 : (step' <= size - length accepted)%nat).
      { unfold step'. destruct (Nat.ltb_spec (size - length accepted) step); lia. }
      destruct (left_over f r accepted rejected SO) as [LO1 LO2].
      set (train := delete_idx keep (accepted ++ seq f r)).
      set (red := delete_idx keep (rejected ++ seq f r)).
      assert (L1 : length train = length rejected).
      { unfold train. rewrite (delete_idx_nth []), map_length, Lk. auto. }
      assert (L2 : length red = length accepted).
      { unfold red. rewrite (delete_idx_nth []), map_length, Lk. auto. }
      assert (LR : length rejected = (f - length accepted)%nat).
      { destruct SO as [P _]. apply Permutation_length in P. rewrite app_length, seq_length in P. lia. }
      assert (GR : get_response train red = Ok (map (fun d => response d red) train)).
      { unfold get_response. destruct train; auto. destruct red; auto. cbn in L2. specialize (Lnc eq_refl). lia. }
      rewrite GR. cbn [bind]. destruct SO as [P SR].
      destruct (fit_iterator_ok round kind n f target (map (fun d => response d red) train) size step' accepted rejected (seq f r))
        as [(nc' & new & rej' & -> & SR' & P' & Ln & Tn & Fn)|[-> (m & M1 & M2)]].
      * rewrite map_length. lia.
      * lia.
      * auto.
      * intros x Hx _. rewrite map_length in Hx. lia.
      * cbn [bind]. assert (nc' = true) as ->.
        { apply Fn. intros x Hx. rewrite map_length in Hx. rewrite in_seq. lia. }
        specialize (Tn eq_refl).
        destruct (IH (S round) step' true (accepted ++ new) rej') as [(a' & r' & E' & SO' & La' & T')|Q].
        -- auto.
        -- lia.
        -- split; auto. rewrite <- app_assoc, P'. auto.
        -- rewrite app_length. lia.
        -- rewrite app_length. intros; lia.
        -- rewrite app_length. lia.
        -- left. exists a', r'. auto.
        -- right. exact Q.
      * right. split; [reflexivity|]. exists round, m, step'. auto.
    + left. do 2 eexists. split; [reflexivity|]. split; auto. split; auto.
      intros ->. rewrite andb_true_r in E. apply Nat.ltb_ge in E. lia.
Qed.

Lemma fit_screen_cases kind n check new target cols size step fuel :
  (2 * size < length cols)%nat -> (1 <= step < size)%nat -> (size <= fuel)%nat ->
  (check = true -> (10 <= length cols)%nat) ->
  (exists order k,
    fscreen fuel kind n (draw check new) target cols size step = Ok (Some (order, k)) /\
    Permutation order (seq 0 (length cols)) /\ (k <= size)%nat /\ (check = false -> k = size)) \/
  (fscreen fuel kind n (draw check new) target cols size step = Err NameError /\
   exists r m s, length m = size /\ (1 <= s <= step)%nat /\ ordering r m target s (length cols) = Err NameError).
Proof.
  intros H1 H2 H3 T. unfold fit_screen.
  rewrite (proj2 (Nat.ltb_lt _ _) H1), (proj2 (Nat.ltb_lt _ _) (proj2 H2)). cbn [negb].
  set (f := length cols) in *. set (r := if check then (f / 10)%nat else 0%nat).
  assert (SI : exists keep, length keep = (f + r)%nat /\
             set_index (draw check new) cols = Ok (keep, seq 0 f, seq f r)).
  { unfold set_index, draw. destruct check; fold f.
    - specialize (T eq_refl). exists (random_extend new cols).
      assert (Le : length (random_extend new cols) = (f + f / 10)%nat).
      { unfold random_extend. rewrite app_length, map_length, seq_length. auto. }
      assert (D1 : (1 <= f / 10)%nat) by (apply Nat.div_le_lower_bound; lia).
      split; auto. rewrite Le. destruct (Nat.eqb_spec (f + f / 10) f); [lia|]. reflexivity.
    - exists cols. split; [unfold r, f; lia|reflexivity]. }
  destruct SI as (keep & Lk & ->). cbn [bind].
  destruct (fit_iterator_ok 0 kind n f target keep size step [] (seq 0 f) (seq f r))
    as [(nc & new1 & rej & -> & SR & P & Ln & Tn & Fn)|[-> (m & M1 & M2)]].
  - lia.
  - lia.
  - clear. clearbody f. generalize 0%nat. induction f as [|f IH]; intros k; cbn; constructor; auto.
    rewrite Forall_forall. intros x Hx. apply in_seq in Hx. lia.
  - intros x Hx Hn. rewrite seq_length. rewrite Lk in Hx. destruct (Nat.lt_ge_cases x f); auto.
    exfalso. apply Hn. apply in_seq. lia.
  - cbn [bind app].
    destruct (fit_loop_ok kind n target keep f r size step Lk H1 fuel 1 step nc new1 rej) as [(a & rj & -> & [Pa _] & La & Ta)|[-> (r' & m & s & M)]].
    + lia.
    + lia.
    + split; auto.
    + lia.
    + intros H. rewrite (Tn H). lia.
    + lia.
    + cbn [bind option_map fst snd]. left. do 2 eexists. split; [reflexivity|]. split; [exact Pa|]. split; [auto|].
      intros ->. apply Ta. apply Fn. intros x Hx. unfold r in *. rewrite in_seq. lia.
    + right. split; [reflexivity|]. exists r', m, s. exact M.
  - right. split; [reflexivity|]. exists 0%nat, m, step. split; [auto|]. split; [lia|auto].
Qed.

(** With ridge regression or the elastic net, iterative screening always ends with a complete
    order of the features and accepts exactly as many as requested (at most as many with the
    random check).  With LASSO it does so too if every fit made has a penalty with as many
    non-zero coefficients as features are added per round. *)
Theorem fitted_screen kind n check new target cols size step fuel :
  (2 * size < length cols)%nat -> (1 <= step < size)%nat -> (size <= fuel)%nat ->
  (check = true -> (10 <= length cols)%nat) ->
  method = Ridge \/ method = Elastic \/
  method = Lasso /\ (forall r m s, length m = size -> (1 <= s <= step)%nat ->
    exists k z, (k < length cols)%nat /\ (s <= z)%nat /\
      nonzero_count (lasso r m target k (nth k (geomspace (/ 10) (/ 100000000) (length cols)) 0)) z) ->
  exists order k,
    fscreen fuel kind n (draw check new) target cols size step = Ok (Some (order, k)) /\
    Permutation order (seq 0 (length cols)) /\ (k <= size)%nat /\ (check = false -> k = size).
Proof.
  intros H1 H2 H3 T M. destruct (fit_screen_cases kind n check new target cols size step fuel H1 H2 H3 T) as [?|[_ (r & m & s & M1 & M2 & M3)]]; [auto|].
  exfalso. destruct fitted as (F1 & F2 & F3). unfold regression_ordering, feature_select_full, get_coefficients, report, line_search_fit in M3.
  destruct M as [->|[->|[-> M]]]; cbn [bind fst] in M3.
  - rewrite F1, M1 in M3. destruct (Nat.eqb_spec size 0); [lia|discriminate].
  - rewrite F2, M1 in M3. destruct (Nat.eqb_spec size 0); [lia|discriminate].
  - destruct (M r m s M1 M2) as (k & z & K1 & K2 & K3). destruct (first_fit _ _ _ _) as [c|e] eqn:E; cbn [bind] in M3.
    + destruct (first_fit_spec _ _ _ _ _ E) as (j & _ & -> & _). rewrite F3, M1 in M3. destruct (Nat.eqb_spec size 0); [lia|discriminate].
    + assert (N := proj1 (first_fit_none (lasso r m target) s (geomspace (/ 10) (/ 100000000) (length cols)) 0) (ex_intro _ e E) k).
      rewrite geomspace_length in N. specialize (N K1). cbn [Nat.add] in N.
      rewrite (nonzero_count_unique _ _ _ K3 (nonzeros_count _)) in K2. lia.
Qed.

(** If no LASSO fit has as many non-zero coefficients as features are to be added in the
    first round, for instance because more are asked for than there are data points, screening
    fails instead of ending early; so it does for an unknown regression method. *)
Theorem lasso_screen_fails_refuted kind n check new target cols size step fuel :
  (2 * size < length cols)%nat -> (1 <= step < size)%nat -> (size <= fuel)%nat ->
  (check = true -> (10 <= length cols)%nat) ->
  method = OtherMethod \/
  method = Lasso /\ (forall m k a, length m = size -> exists z, nonzero_count (lasso 0 m target k a) z /\ (z < step)%nat) ->
  fscreen fuel kind n (draw check new) target cols size step = Err NameError.
Proof.
  intros H1 H2 H3 T M.
  assert (A : forall m, length m = size -> ordering 0 m target step (length cols) = Err NameError).
  { intros m Lm. destruct (ordering_cases 0 m target step (length cols)) as [(c & Lc & E)|E]; [lia| |auto]. exfalso.
    unfold regression_ordering, feature_select_full, get_coefficients, report, line_search_fit in E. destruct M as [M|[M1 M2]].
    - rewrite M in E. discriminate.
    - rewrite M1 in E. destruct (first_fit _ _ _ _) as [d|e] eqn:D; cbn [bind] in E; [|discriminate].
      destruct (first_fit_spec _ _ _ _ _ D) as (j & _ & Ed & Z & _). destruct (M2 m (0 + j)%nat (nth j (geomspace (/ 10) (/ 100000000) (length cols)) 0) Lm) as (z & Z1 & Z2).
      rewrite Ed in Z. rewrite (nonzero_count_unique _ _ _ Z1 (nonzeros_count _)) in Z2. lia. }
  unfold fit_screen. rewrite (proj2 (Nat.ltb_lt _ _) H1), (proj2 (Nat.ltb_lt _ _) (proj2 H2)). cbn [negb].
  assert (SI : exists keep rej randf, (size <= length keep)%nat /\ set_index (draw check new) cols = Ok (keep, rej, randf)).
  { unfold set_index, draw. destruct check.
    - specialize (T eq_refl). assert (D1 : (1 <= length cols / 10)%nat) by (apply Nat.div_le_lower_bound; lia).
      assert (Le : length (random_extend new cols) = (length cols + length cols / 10)%nat).
      { unfold random_extend. rewrite app_length, map_length, seq_length. auto. }
      do 3 eexists. split; [|rewrite Le; destruct (Nat.eqb_spec (length cols + length cols / 10) (length cols)); [lia|reflexivity]]. lia.
    - do 3 eexists. split; [|reflexivity]. lia. }
  destruct SI as (keep & rej & randf & Lk & ->). cbn [bind].
  unfold fit_iterator, screen, set_index. cbn [bind fst snd].
  set (corr := get_correlation pearsonr spearmanr kendalltau flat kind target keep). fold (ranking corr).
  assert (P : Permutation (ranking corr) (seq 0 (length keep))).
  { pose proof (ranking_perm corr) as Q. unfold corr in Q at 2. rewrite corr_length in Q. exact Q. }
  rewrite (reduce_none_ok keep (ranking corr) size P). cbn [bind fst snd]. rewrite A; [reflexivity|].
  rewrite delete_order_length by auto. rewrite firstn_length, (Permutation_length P), seq_length. lia.
Qed.
End Fitted.

(** Five features of two data points, two to be accepted one by one: LASSO fits whose first
    coefficient never vanishes. *)
Example fitted_screen_example :
  let c (m : list fcolumn) (t : list R) := map (fun i => if (i =? 0)%nat then 1 else 0) (seq 0 (length m)) in
  exists order k, fit_screen (fun _ _ => 0) (fun _ _ => 0) (fun _ _ => 0) (fun _ => false)
    (fun _ => c) (fun _ => c) (fun _ => c) (fun _ m t _ _ => c m t) Lasso 2 Pearson 2 None [1; 2]
    [[1; 0]; [0; 1]; [1; 1]; [2; 1]; [1; 2]] 2 1 = Ok (Some (order, k)) /\ Permutation order [0; 1; 2; 3; 4]%nat /\ k = 2%nat.
Proof.
  intros c. destruct (fitted_screen (fun _ _ => 0) (fun _ _ => 0) (fun _ _ => 0) (fun _ => false)
    (fun _ => c) (fun _ => c) (fun _ => c) (fun _ m t _ _ => c m t) Lasso) with
    (kind := Pearson) (n := 2%nat) (check := false) (new := fun _ : nat => @nil R) (target := [1; 2])
    (cols := [[1; 0]; [0; 1]; [1; 1]; [2; 1]; [1; 2]]) (size := 2%nat) (step := 1%nat) (fuel := 2%nat) as (o & k & E & P & _ & K);
  try (cbn [length]; lia); try discriminate.
  - repeat split; intros; unfold c; rewrite map_length, seq_length; reflexivity.
  - right. right. split; [reflexivity|]. intros r m s Lm Hs. exists 0%nat, 1%nat. split; [cbn; lia|]. split; [lia|].
    unfold c. rewrite Lm. exists [0%nat]. split; [constructor; [easy|constructor]|]. split; [reflexivity|].
    intros i. cbn. split.
    + intros [<-|[]]. split; [lia|lra].
    + intros [Hi Hn]. destruct i as [|[|i]]; [auto|destruct Hn; reflexivity|lia].
  - exists o, k. split; [exact E|]. split; [exact P|auto].
Qed.

(** The same with fits that are all zero: nothing is accepted and screening fails. *)
Example lasso_screen_fails_example :
  fit_screen (fun _ _ => 0) (fun _ _ => 0) (fun _ _ => 0) (fun _ => false)
    (fun _ m _ => map (fun _ => 0) m) (fun _ m _ => map (fun _ => 0) m) (fun _ m _ => map (fun _ => 0) m) (fun _ m _ _ _ => map (fun _ => 0) m)
    Lasso 2 Pearson 2 None [1; 2] [[1; 0]; [0; 1]; [1; 1]; [2; 1]; [1; 2]] 2 1 = Err NameError.
Proof.
  apply (lasso_screen_fails_refuted (fun _ _ => 0) (fun _ _ => 0) (fun _ _ => 0) (fun _ => false)
    (fun _ m _ => map (fun _ => 0) m) (fun _ m _ => map (fun _ => 0) m) (fun _ m _ => map (fun _ => 0) m) (fun _ m _ _ _ => map (fun _ => 0) m) Lasso)
    with (check := false) (new := fun _ : nat => @nil R); try (cbn [length]; lia); try discriminate.
  - repeat split; intros; apply map_length.
  - right. split; [reflexivity|]. intros m k a Lm. exists 0%nat. split; [|lia]. exists []. split; [constructor|]. split; [reflexivity|].
    intros i. split; [intros []|]. intros [Hi Hn]. exfalso. apply Hn. rewrite (nth_map_lt _ _ _ []) by (rewrite map_length in Hi; auto). reflexivity.
Qed.

Print Assumptions fitted_screen.
Print Assumptions lasso_screen_fails_refuted.
