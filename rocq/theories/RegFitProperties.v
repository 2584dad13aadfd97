(** Feature selection with fitted linear models (scikit_wrapper.RegressionFit). *)
From Coq Require Import Reals Lra String List Bool Arith Lia Permutation.
From Verif Require Import Base BaseFacts RBase GPModel ScreenModel ScreenProofs ScreenProperties RegFitModel.
Import ListNotations.
Open Scope R_scope.

(** [picked fits k]: fit [k] is the first of [fits] with at least [size] non-zero coefficients. *)
Definition nonzero_count (c : list R) (n : nat) : Prop :=
  exists idx, NoDup idx /\ length idx = n /\ forall i, In i idx <-> (i < length c)%nat /\ nth i c 0 <> 0.

Lemma nonzeros_count c : nonzero_count c (nonzeros c).
Proof.
  exists (filter (fun i => negb (Reqb (nth i c 0) 0)) (seq 0 (length c))). split; [apply NoDup_filter, seq_NoDup|]. split.
  - unfold nonzeros. transitivity (length (filter (fun v => negb (Reqb v 0)) (map (fun i => nth i c 0) (seq 0 (length c))))).
    + generalize (seq 0 (length c)). intros l. induction l; cbn; [auto|]. destruct (negb (Reqb (nth a c 0) 0)); cbn; auto.
    + rewrite seq_nth_list. reflexivity.
  - intros i. rewrite filter_In, in_seq, negb_true_iff. unfold Reqb. destruct (Req_EM_T (nth i c 0) 0); intuition (try lia; congruence).
Qed.

Lemma first_fit_spec lasso size : forall alphas k c, first_fit lasso size k alphas = Ok c ->
  exists j, (j < length alphas)%nat /\ c = lasso (k + j)%nat (nth j alphas 0) /\ (size <= nonzeros c)%nat /\
    forall i, (i < j)%nat -> (nonzeros (lasso (k + i)%nat (nth i alphas 0%R)) < size)%nat.
Proof.
  induction alphas as [|a t IH]; intros k c H; cbn in H; [discriminate|].
  destruct (Nat.leb_spec size (nonzeros (lasso k a))).
  - injection H as <-. exists 0%nat. rewrite Nat.add_0_r. cbn. split; [lia|]. split; [auto|]. split; [auto|]. intros; lia.
  - destruct (IH _ _ H) as (j & J1 & J2 & J3 & J4). exists (S j). cbn. split; [lia|]. rewrite Nat.add_succ_r. split; [exact J2|]. split; [auto|].
    intros [|i] Hi; cbn; [rewrite Nat.add_0_r; auto|]. rewrite Nat.add_succ_r. apply (J4 i). lia.
Qed.

Lemma first_fit_none lasso size : forall alphas k,
  (exists e, first_fit lasso size k alphas = Err e) <->
  forall i, (i < length alphas)%nat -> (nonzeros (lasso (k + i)%nat (nth i alphas 0%R)) < size)%nat.
Proof.
  induction alphas as [|a t IH]; intros k; cbn.
  - split; [intros _ i Hi; lia|]. intros _. eauto.
  - destruct (Nat.leb_spec size (nonzeros (lasso k a))).
    + split; [intros [e He]; discriminate|]. intros H1. specialize (H1 0%nat). cbn in H1. rewrite Nat.add_0_r in H1. lia.
    + rewrite IH. split; intros H1 i Hi.
      * destruct i; cbn; [rewrite Nat.add_0_r; auto|]. rewrite Nat.add_succ_r. apply H1. lia.
      * specialize (H1 (S i)). cbn in H1. rewrite Nat.add_succ_r in H1. apply H1. lia.
Qed.

Lemma first_fit_err lasso size : forall alphas k e, first_fit lasso size k alphas = Err e -> e = NameError.
Proof. induction alphas; cbn; intros k e H; [congruence|]. destruct (_ <=? _)%nat; [discriminate|eauto]. Qed.

Lemma geomspace_length a b n : length (geomspace a b n) = n.
Proof. unfold geomspace. rewrite map_length, seq_length. reflexivity. Qed.

Lemma geomspace_nth a b n k : (k < n)%nat ->
  nth k (geomspace a b n) 0 = if (n =? 1)%nat then a else a * Rpower (b / a) (INR k / INR (n - 1)).
Proof. intros H. unfold geomspace. rewrite (nth_map_lt _ _ _ 0%nat) by (rewrite seq_length; auto). rewrite seq_nth by auto. reflexivity. Qed.

(** The penalties tried start at max_alpha, end at min_alpha and fall strictly, by the
    same factor every step. *)
Theorem penalties_fall lo hi n : 0 < lo < hi -> (2 <= n)%nat ->
  let alphas := geomspace hi lo n in
  length alphas = n /\ nth 0 alphas 0 = hi /\ nth (n - 1) alphas 0 = lo /\
  exists q, 0 < q < 1 /\ forall k, (S k < n)%nat -> nth (S k) alphas 0 = q * nth k alphas 0 /\ 0 < nth k alphas 0.
Proof.
  intros H Hn alphas. unfold alphas. split; [apply geomspace_length|].
  assert (N1 : 0 < INR (n - 1)) by (apply lt_0_INR; lia). assert (B : 0 < lo / hi) by (apply Rdiv_lt_0_compat; lra).
  assert (NE : (n =? 1)%nat = false) by (apply Nat.eqb_neq; lia).
  rewrite !geomspace_nth, NE by lia. split; [|split].
  - cbn. replace (0 / INR (n - 1)) with 0 by (field; lra). rewrite Rpower_O by auto. lra.
  - replace (INR (n - 1) / INR (n - 1)) with 1 by (field; lra). rewrite Rpower_1 by auto. field. lra.
  - exists (Rpower (lo / hi) (1 / INR (n - 1))). split.
    + split; [apply exp_pos|]. unfold Rpower. apply Rlt_le_trans with (exp 0); [|rewrite exp_0; lra]. apply exp_increasing.
      assert (L : ln (lo / hi) < 0) by (rewrite <- ln_1; apply ln_increasing; [auto|]; apply (Rmult_lt_reg_r hi); [lra|]; field_simplify; lra).
      assert (P : 0 < 1 / INR (n - 1)) by (apply Rdiv_lt_0_compat; lra). generalize dependent (ln (lo / hi)). generalize dependent (1 / INR (n - 1)). intros u Hu v Hv. nra.
    + intros k Hk. rewrite !geomspace_nth, NE by lia. split.
      * replace (INR (S k) / INR (n - 1)) with (1 / INR (n - 1) + INR k / INR (n - 1)) by (rewrite S_INR; field; lra). rewrite Rpower_plus. ring.
      * apply Rmult_lt_0_compat; [lra|apply exp_pos].
Qed.

(** The line search keeps the coefficients of the largest penalty whose fit has at least
    [size] non-zero coefficients, and accepts exactly [size] features, all with non-zero
    coefficients and none with a smaller coefficient than a rejected one. *)
Theorem line_search_selects ridge elastic lasso_cv lasso y predict size n lo hi s :
  feature_select_full ridge elastic lasso_cv lasso y Lasso predict true (Some size) (Some n) lo hi = Ok s ->
  exists k, (k < n)%nat /\ s_coeff s = lasso k (nth k (geomspace hi lo n) 0) /\
    (exists z, nonzero_count (s_coeff s) z /\ (size <= z)%nat) /\
    (forall j, (j < k)%nat -> exists z, nonzero_count (lasso j (nth j (geomspace hi lo n) 0)) z /\ (z < size)%nat) /\
    best_by (fun i => Rabs (nth i (s_coeff s) 0)) (length (s_coeff s)) size (s_accepted s) (s_rejected s) /\
    length (s_accepted s) = size /\ Forall (fun i => nth i (s_coeff s) 0 <> 0) (s_accepted s).
Proof.
  intros H. unfold feature_select_full, get_coefficients, line_search_fit in H.
  destruct (first_fit lasso size 0 (geomspace hi lo n)) as [c|] eqn:E; [|discriminate H]. cbn [bind] in H.
  destruct (length c =? 0)%nat; [discriminate H|]. injection H as <-. cbn [s_coeff s_accepted s_rejected].
  destruct (first_fit_spec _ _ _ _ _ E) as (k & K1 & K2 & K3 & K4). rewrite geomspace_length in K1.
  destruct (feature_select_ranks c size) as [B _].
  exists k. split; [auto|]. split; [exact K2|]. split; [exists (nonzeros c); split; [apply nonzeros_count|auto]|].
  split. { intros j Hj. eexists. split; [apply nonzeros_count|]. apply (K4 j Hj). }
  split; [exact B|]. destruct B as (B1 & B2 & B3).
  destruct (nonzeros_count c) as (idx & I1 & I2 & I3).
  assert (LN : (nonzeros c <= length c)%nat) by (unfold nonzeros; clear; induction c; cbn; [lia|]; destruct (negb _); cbn; lia).
  assert (LA : length (fst (feature_select c size)) = size) by (etransitivity; [exact B2|]; lia).
  split; [exact LA|]. rewrite Forall_forall. intros i Hi Zi.
  (* all non-zero coefficients are accepted before a zero one: too few places *)
  assert (Inc : incl idx (fst (feature_select c size))).
  { intros j Hj. assert (J := proj1 (I3 j) Hj). destruct (in_dec Nat.eq_dec j (fst (feature_select c size))) as [|NI]; [auto|]. exfalso.
    assert (In j (snd (feature_select c size))).
    { assert (In j (seq 0 (length c))) by (apply in_seq; lia). apply (Permutation_in _ (Permutation_sym B1)) in H. apply in_app_or in H. tauto. }
    specialize (B3 i j Hi H). rewrite Zi, Rabs_R0 in B3. pose proof (Rabs_pos_lt _ (proj2 J)). lra. }
  assert (ND : NoDup (fst (feature_select c size))).
  { assert (NoDup (fst (feature_select c size) ++ snd (feature_select c size))) by (eapply Permutation_NoDup; [apply Permutation_sym, B1|apply seq_NoDup]).
    clear - H. induction (fst (feature_select c size)); [constructor|]. cbn in H. inversion H; subst. constructor; [|auto].
    intros Q. apply H2. apply in_or_app. auto. }
  assert (Inc2 : incl (i :: idx) (fst (feature_select c size))) by (intros j [<-|Hj]; auto).
  apply NoDup_incl_length in Inc2. 2: { constructor; auto. intros Q. apply I3 in Q. tauto. }
  cbn [length] in Inc2. rewrite LA, I2 in Inc2. lia.
Qed.

(** When no tried penalty leaves enough non-zero coefficients the selection fails, and
    only then (given at least one feature). *)
Theorem line_search_fails_iff ridge elastic lasso_cv lasso y predict size n lo hi :
  (forall k a, lasso k a <> []) ->
  (exists e, feature_select_full ridge elastic lasso_cv lasso y Lasso predict true (Some size) (Some n) lo hi = Err e) <->
  forall k, (k < n)%nat -> exists z, nonzero_count (lasso k (nth k (geomspace hi lo n) 0)) z /\ (z < size)%nat.
Proof.
  intros HN. unfold feature_select_full, get_coefficients, line_search_fit.
  pose proof (first_fit_none lasso size (geomspace hi lo n) 0) as Q. rewrite geomspace_length in Q. cbn [Nat.add] in Q.
  assert (U : forall c z, nonzero_count c z -> z = nonzeros c).
  { intros c z (i1 & A1 & A2 & A3). destruct (nonzeros_count c) as (i2 & C1 & C2 & C3). rewrite <- A2, <- C2.
    apply Permutation_length, NoDup_Permutation; auto. intros j. rewrite A3, C3. tauto. }
  split.
  - intros [e He]. assert (R : forall i, (i < n)%nat -> (nonzeros (lasso i (nth i (geomspace hi lo n) 0%R)) < size)%nat).
    { apply Q. destruct (first_fit lasso size 0 (geomspace hi lo n)) as [c|] eqn:E; [|eauto]. exfalso. cbn [bind] in He.
      destruct (first_fit_spec _ _ _ _ _ E) as (k & _ & K2 & _). specialize (HN k (nth k (geomspace hi lo n) 0)). cbn in K2. rewrite <- K2 in HN.
      destruct c; [congruence|]. cbn in He. discriminate. }
    intros k Hk. eexists. split; [apply nonzeros_count|auto].
  - intros H. assert (R : exists e, first_fit lasso size 0 (geomspace hi lo n) = Err e).
    { apply Q. intros k Hk. destruct (H k Hk) as (z & Z1 & Z2). rewrite <- (U _ _ Z1). auto. }
    destruct R as [e Re]. rewrite Re. cbn. eauto.
Qed.

(** Asking for the error of the fitted model (predict=True) never returns it: the entry is
    an empty list, or None after a line search. *)
Theorem fit_error_reported_refuted ridge elastic lasso_cv lasso y m ls size steps lo hi s :
  feature_select_full ridge elastic lasso_cv lasso y m true ls size steps lo hi = Ok s ->
  s_prediction s = EmptyList \/ s_prediction s = NoReport.
Proof.
  unfold feature_select_full, get_coefficients, report. intros H.
  assert (E : forall d r, bind (get_error d y false None) (fun e => Ok (error_entry "average" e)) = Ok r -> r = EmptyList).
  { intros d r. destruct (get_error d y false None) as [e|]; cbn [bind]; [|discriminate]. unfold error_entry. cbn. congruence. }
  destruct m; [ | | destruct ls | discriminate].
  all: match type of H with bind (bind ?x _) _ = _ => destruct x as [r|] eqn:Er; [|discriminate] end; cbn [bind] in H;
    try apply E in Er; subst;
    match type of H with (if ?b then _ else _) = _ => destruct b; [discriminate|] end; destruct size; injection H as <-; cbn; auto.
Qed.

(** With the default size (None) every feature is both accepted and rejected. *)
Theorem default_size_refuted ridge elastic lasso_cv lasso y m predict ls steps lo hi s :
  feature_select_full ridge elastic lasso_cv lasso y m predict ls None steps lo hi = Ok s ->
  s_accepted s = s_rejected s /\ Permutation (s_accepted s) (seq 0 (length (s_coeff s))) /\ s_coeff s <> [].
Proof.
  unfold feature_select_full. intros H. match type of H with bind ?x _ = _ => destruct x as [[c p]|]; [|discriminate] end. cbn [bind] in H.
  destruct (Nat.eqb_spec (length c) 0); [discriminate|]. injection H as <-. cbn. split; [auto|]. split; [apply ranking_perm|]. destruct c; [cbn in *; congruence|discriminate].
Qed.

(** With a size the accepted and rejected features are a split of all features with the
    largest coefficients accepted, for every method. *)
Theorem selection_is_ranked ridge elastic lasso_cv lasso y m predict ls size steps lo hi s :
  feature_select_full ridge elastic lasso_cv lasso y m predict ls (Some size) steps lo hi = Ok s ->
  best_by (fun i => Rabs (nth i (s_coeff s) 0)) (length (s_coeff s)) size (s_accepted s) (s_rejected s) /\
  (m = Ridge -> s_coeff s = fst ridge) /\ (m = Elastic -> s_coeff s = fst elastic) /\
  (m = Lasso -> ls = false -> s_coeff s = fst lasso_cv) /\ m <> OtherMethod.
Proof.
  unfold feature_select_full, get_coefficients. intros H. match type of H with bind ?x _ = _ => destruct x as [[c p]|] eqn:E; [|discriminate] end. cbn [bind] in H.
  destruct (Nat.eqb_spec (length c) 0); [discriminate|]. injection H as <-. cbn. split; [apply feature_select_ranks|].
  destruct m; [ | | destruct ls | discriminate E];
    match type of E with bind ?x _ = _ => destruct x as [r|]; [|discriminate] end; cbn [bind] in E; injection E as <- _;
    repeat split; intros; congruence.
Qed.

(** Two features: the first penalty keeps one, the second both. *)
Definition two_fits (k : nat) (_ : R) : list R := match k with 0%nat => [0; 2] | _ => [1; -3] end.
Example line_search_example :
  exists s, feature_select_full ([], []) ([], []) ([], []) two_fits [] Lasso false true (Some 2%nat) (Some 3%nat) (/ 100) 1 = Ok s /\
    s_coeff s = [1; -3] /\ s_accepted s = [1; 0]%nat.
Proof.
  assert (Z : forall x, x <> 0 -> Reqb x 0 = false) by (intros x Hx; unfold Reqb; destruct (Req_EM_T x 0); congruence).
  assert (Z0 : Reqb 0 0 = true) by (unfold Reqb; destruct (Req_EM_T 0 0); congruence).
  unfold feature_select_full, get_coefficients, line_search_fit, geomspace. cbn [map seq first_fit Nat.eqb]. unfold nonzeros. cbn [two_fits filter].
  rewrite Z0, (Z 2), (Z 1), (Z (-3)) by lra. cbn [negb length Nat.leb bind Nat.eqb]. eexists. split; [reflexivity|]. cbn [s_coeff s_accepted]. split; [auto|].
  assert (A1 : Rabs 1 = 1) by (apply Rabs_pos_eq; lra). assert (A3 : Rabs (-3) = 3) by (rewrite Rabs_left; lra).
  unfold feature_select, rank_abs. cbn [map length seq combine]. rewrite A1, A3. unfold isort, insert. cbn [fst].
  rewrite (proj2 (Rleb_false 3 1)) by lra. reflexivity.
Qed.

Print Assumptions penalties_fall.
Print Assumptions line_search_selects.
Print Assumptions line_search_fails_iff.
Print Assumptions fit_error_reported_refuted.
Print Assumptions default_size_refuted.
Print Assumptions selection_is_ranked.
