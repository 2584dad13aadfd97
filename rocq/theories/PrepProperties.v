(** Properties C31-C35, C40, C78-C81: scaling, cleaning, preprocessing. *)
From Coq Require Import Reals List Bool Arith Lia Lra Permutation.
From Verif Require Import Base BaseFacts RBase PrepModel PrepProofs.
Import ListNotations.
Open Scope R_scope.

(** A usable training (and test) matrix: w columns, at least one row. *)
Definition usable (w : nat) (train : matrix) (test : option matrix) : Prop :=
  train <> [] /\ rect w train /\ match test with Some t => rect w t | None => True end.

(** ** C32.  Statistics of the scaled data.  With local=True they are those of
    the training data, with local=False those of training and test data
    together. *)
Theorem standardize_statistics train test local w j :
  usable w train test -> (j < w)%nat ->
  let s := standardize train test None None local in
  let before := col 0 j (stat_data local train test) in
  let after := col 0 j (stat_data local (s_train s) (s_test s)) in
  mean after = 0 /\
  (~ constant before -> var after = 1) /\
  (constant before -> forall x, In x after -> x = 0).
Proof.
  intros [NE [R1 R2]] Hj s before after.
  set (data := stat_data local train test) in *.
  assert (W : width data = w) by (apply stat_data_width; auto).
  assert (ND : before <> []) by (apply col_nonempty, stat_data_nonempty; auto).
  assert (A : after = map (fun x => (x - mean before) / (if Reqb (std before) 0 then 1 else std before)) before).
  { unfold after, s, standardize. fold data. rewrite stat_data_scaled with (w := w); auto.
    - apply map_ext. intros x. rewrite nth_axis0 by (rewrite W; auto). fold before.
      rewrite nth_place_one by (rewrite axis0_length, W; auto).
      rewrite nth_axis0 by (rewrite W; auto). reflexivity.
    - rewrite axis0_length; auto.
    - unfold place_one. rewrite map_length, axis0_length; auto. }
  rewrite A. split; [|split].
  - rewrite mean_affine by auto. unfold Rdiv. rewrite Rminus_diag_eq by auto. ring.
  - intros NC. rewrite constant_std in NC by auto.
    rewrite var_affine by auto.
    rewrite (proj2 (Reqb_false (std before) 0) NC). rewrite std_sq.
    field. intros V. apply NC. apply std_zero_iff; auto.
  - intros C x Hx. apply in_map_iff in Hx. destruct Hx as [y [<- Hy]].
    rewrite (mean_const y before ND) by (intros; apply C; auto).
    unfold Rdiv. rewrite Rminus_diag_eq by auto. ring.
Qed.

Theorem normalize_statistics train test local w j :
  usable w train test -> (j < w)%nat ->
  let s := normalize train test None None local in
  let before := col 0 j (stat_data local train test) in
  let after := col 0 j (stat_data local (s_train s) (s_test s)) in
  mean after = 0 /\
  (~ constant before -> lmax after - lmin after = 1) /\
  (constant before -> forall x, In x after -> x = 0).
Proof.
  intros [NE [R1 R2]] Hj s before after.
  set (data := stat_data local train test) in *.
  assert (W : width data = w) by (apply stat_data_width; auto).
  assert (ND : before <> []) by (apply col_nonempty, stat_data_nonempty; auto).
  assert (A : after = map (fun x => (x - mean before) /
       (if Reqb (lmax before - lmin before) 0 then 1 else lmax before - lmin before)) before).
  { unfold after, s, normalize. fold data. rewrite stat_data_scaled with (w := w); auto.
    - apply map_ext. intros x. rewrite nth_axis0 by (rewrite W; auto). fold before.
      rewrite nth_place_one by (rewrite axis0_length, W; auto).
      rewrite nth_axis0 by (rewrite W; auto). reflexivity.
    - rewrite axis0_length; auto.
    - unfold place_one. rewrite map_length, axis0_length; auto. }
  rewrite A. split; [|split].
  - rewrite mean_affine by auto. unfold Rdiv. rewrite Rminus_diag_eq by auto. ring.
  - intros NC. pose proof (range_pos before ND NC) as P.
    rewrite (proj2 (Reqb_false (lmax before - lmin before) 0)) by lra.
    rewrite lmax_affine, lmin_affine by auto. field. lra.
  - intros C x Hx. apply in_map_iff in Hx. destruct Hx as [y [<- Hy]].
    rewrite (mean_const y before ND) by (intros; apply C; auto).
    unfold Rdiv. rewrite Rminus_diag_eq by auto. ring.
Qed.

Theorem min_max_statistics train test local w j :
  usable w train test -> (j < w)%nat ->
  let s := min_max train test local in
  let before := col 0 j (stat_data local train test) in
  let after := col 0 j (stat_data local (s_train s) (s_test s)) in
  (forall x, In x after -> 0 <= x <= 1) /\ In 0 after /\
  (~ constant before -> In 1 after) /\
  (constant before -> forall x, In x after -> x = 0).
Proof.
  intros [NE [R1 R2]] Hj s before after.
  set (data := stat_data local train test) in *.
  assert (W : width data = w) by (apply stat_data_width; auto).
  assert (ND : before <> []) by (apply col_nonempty, stat_data_nonempty; auto).
  assert (A : after = map (fun x => (x - lmin before) /
       (if Reqb (lmax before - lmin before) 0 then 1 else lmax before - lmin before)) before).
  { unfold after, s, min_max. fold data. rewrite stat_data_scaled with (w := w); auto.
    - apply map_ext. intros x. rewrite nth_axis0 by (rewrite W; auto). fold before.
      rewrite nth_place_one by (rewrite axis0_length, W; auto).
      rewrite nth_axis0 by (rewrite W; auto). reflexivity.
    - rewrite axis0_length; auto.
    - unfold place_one. rewrite map_length, axis0_length; auto. }
  assert (C0 : constant before -> forall x, In x after -> x = 0).
  { rewrite A. intros C x Hx. apply in_map_iff in Hx. destruct Hx as [y [<- Hy]].
    rewrite (C (lmin before) y (lmin_in _ ND) Hy).
    unfold Rdiv. rewrite Rminus_diag_eq by auto. ring. }
  assert (DEC : constant before \/ ~ constant before).
  { rewrite constant_range by auto. destruct (Req_dec (lmax before - lmin before) 0); auto. }
  split; [|split; [|split]]; auto.
  - intros x Hx. destruct DEC as [C|NC]; [rewrite (C0 C x Hx); lra|].
    rewrite A in Hx. apply in_map_iff in Hx. destruct Hx as [y [<- Hy]].
    pose proof (range_pos before ND NC) as P.
    rewrite (proj2 (Reqb_false (lmax before - lmin before) 0)) by lra.
    pose proof (lmax_ge _ _ Hy). pose proof (lmin_le _ _ Hy). split.
    + apply Rmult_le_pos; [lra|]. left. apply Rinv_0_lt_compat; auto.
    + apply (Rmult_le_reg_r (lmax before - lmin before)); auto.
      unfold Rdiv. rewrite Rmult_assoc, Rinv_l by lra. lra.
  - rewrite A. apply in_map_iff. exists (lmin before). split; [|apply lmin_in; auto].
    unfold Rdiv. rewrite Rminus_diag_eq by auto. ring.
  - intros NC. rewrite A. apply in_map_iff. exists (lmax before). split; [|apply lmax_in; auto].
    pose proof (range_pos before ND NC) as P.
    rewrite (proj2 (Reqb_false (lmax before - lmin before) 0)) by lra. field. lra.
Qed.

Theorem unit_length_rows train test r :
  In r (fst (unit_length train test)) \/
  (exists t, snd (unit_length train test) = Some t /\ In r t) ->
  sumR (map (fun x => x ^ 2) r) = 1 \/ (forall x, In x r -> x = 0).
Proof.
  intros H.
  assert (X : exists m, In r (unit_rows m)).
  { destruct H as [H|[t [E H]]]; [exists train; auto|].
    simpl in E. destruct test as [t'|]; [|discriminate]. injection E as <-. exists t'; auto. }
  destruct X as [m X]. apply in_map_iff in X. destruct X as [row [<- _]].
  assert (NN : forall x, In x (map (fun x => x ^ 2) row) -> 0 <= x).
  { intros x Hx. apply in_map_iff in Hx. destruct Hx as [y [<- _]]. apply pow2_ge_0. }
  pose proof (sumR_nonneg _ NN) as SN.
  assert (SQ : norm2 row ^ 2 = sumR (map (fun x => x ^ 2) row)).
  { unfold norm2. rewrite <- Rsqr_pow2. apply Rsqr_sqrt; auto. }
  destruct (Reqb (norm2 row) 0) eqn:E.
  - apply Reqb_true in E. rewrite E in SQ. right. intros x Hx.
    apply in_map_iff in Hx. destruct Hx as [y [<- Hy]].
    assert (y ^ 2 = 0).
    { apply (sumR_zero_all _ NN); [rewrite <- SQ; ring|]. apply in_map_iff. exists y; auto. }
    assert (y = 0) by (destruct (Req_dec y 0) as [|N]; auto; exfalso; revert H0; apply pow_nonzero; auto).
    subst. unfold Rdiv. ring.
  - apply Reqb_false in E. left. rewrite map_map.
    rewrite (sumR_map_ext _ (fun x => / norm2 row ^ 2 * x ^ 2)).
    + rewrite sumR_map_scal, <- SQ. field. auto.
    + intros x _. unfold Rdiv. rewrite Rpow_mult_distr, pow_inv. ring.
Qed.

(** A concrete matrix with a constant and a varying column. *)
Example scaling_example :
  usable 2 [[1; 5]; [3; 5]] (Some [[2; 7]]) /\
  ~ constant (col 0 0 (stat_data true [[1; 5]; [3; 5]] (Some [[2; 7]]))) /\
  constant (col 0 1 (stat_data true [[1; 5]; [3; 5]] (Some [[2; 7]]))).
Proof.
  split; [|split].
  - split; [discriminate|]. split; repeat constructor.
  - intros C. specialize (C 1 3). simpl in C. assert (1 = 3) by (apply C; auto). lra.
  - intros x y [<-|[<-|[]]] [<-|[<-|[]]]; reflexivity.
Qed.

(** ** C31.  ScaleData. *)
(** Targets that are not all equal come back exactly. *)
Theorem rescale_inverts_partial features targets sd tf tt_ :
  targets <> [] -> ~ constant targets ->
  sd_train features targets = (sd, tf, tt_) ->
  sd_rescale sd tt_ = map Some targets.
Proof.
  intros NE NC H. unfold sd_train, target_standardize in H. injection H as <- <- <-.
  unfold sd_rescale. simpl. rewrite map_map. apply map_ext. intros x.
  rewrite constant_std in NC by auto. unfold ndiv.
  rewrite (proj2 (Reqb_false (std targets) 0) NC). simpl. f_equal. field. auto.
Qed.

(** Constant targets (a single training point, for example) are turned into
    values that are not finite and do not come back. *)
Theorem rescale_constant_refuted features targets sd tf tt_ :
  targets <> [] -> constant targets ->
  sd_train features targets = (sd, tf, tt_) ->
  sd_rescale sd tt_ = map (fun _ => None) targets.
Proof.
  intros NE C H. unfold sd_train, target_standardize in H. injection H as <- <- <-.
  unfold sd_rescale. simpl. rewrite map_map. apply map_ext. intros x.
  apply constant_std in C; auto. unfold ndiv. rewrite C, Reqb_refl. reflexivity.
Qed.

(** Test rows get the training statistics: a test row equal to a training row is
    mapped to the same scaled row, and all of the training matrix to the scaled
    training matrix. *)
Theorem test_rows_scaled_like_training features targets sd tf tt_ T i j :
  sd_train features targets = (sd, tf, tt_) ->
  (i < length T)%nat -> (j < length features)%nat ->
  nth i T [] = nth j features [] ->
  nth i (sd_test sd T) [] = nth j tf [].
Proof.
  intros H Hi Hj E. unfold sd_train, target_standardize in H. injection H as <- <- <-.
  unfold sd_test, standardize, apply_scale, scale_matrix. simpl.
  rewrite (nth_map_lt _ _ _ []) by auto. rewrite (nth_map_lt _ _ _ []) by auto. rewrite E. reflexivity.
Qed.

Example scale_data_example :
  ~ constant [1; 2; 4] /\ constant [3] /\
  exists sd tf tt_, sd_train [[1]; [2]; [4]] [1; 2; 4] = (sd, tf, tt_) /\ t_mean sd = 7 / 3.
Proof.
  split; [|split].
  - intros C. specialize (C 1 2). assert (1 = 2) by (apply C; simpl; auto). lra.
  - intros x y [<-|[]] [<-|[]]; auto.
  - do 3 eexists. split; [reflexivity|]. simpl. unfold mean. simpl. lra.
Qed.

(** ** C81.  Scaling functions leave their arguments alone: refuted, a zero in
    the caller's std (dif) array is overwritten by one. *)
Theorem scaling_changes_caller_arrays_refuted :
  standardize_arg_after [2; 0] = [2; 1] /\ standardize_arg_after [2; 0] <> [2; 0] /\
  normalize_arg_after [0] <> [0].
Proof.
  unfold standardize_arg_after, normalize_arg_after, place_one. simpl.
  rewrite (proj2 (Reqb_false 2 0)) by lra. rewrite Reqb_refl.
  split; auto. split; intros H; injection H; lra.
Qed.

Theorem scaling_keeps_caller_arrays_partial s :
  (forall x, In x s -> x <> 0) -> standardize_arg_after s = s /\ normalize_arg_after s = s.
Proof.
  intros H. assert (place_one s = s).
  { unfold place_one. rewrite <- (map_id s) at 2. apply map_ext_in. intros x Hx.
    rewrite (proj2 (Reqb_false x 0)) by auto. reflexivity. }
  split; assumption.
Qed.

(** ** C33.  Cleaning: the columns are those satisfying the criterion, in order,
    and the same for train, test and labels. *)
Definition keep {A} (kept : list nat) (d : A) (m : list (list A)) : list (list A) :=
  map (fun r => map (fun j => nth j r d) kept) m.

Definition kept_from {L} (crit : nat -> Prop) (w : nat) (train : list (list fl)) test
  (labels : option (list L)) (d : L) (c : cleaned L) : Prop :=
  exists kept : list nat,
    (forall j, In j kept <-> (j < w)%nat /\ crit j) /\
    (forall i k, (i < k < length kept)%nat -> (nth i kept 0 < nth k kept 0)%nat) /\
    c_train c = keep kept NaN train /\
    c_test c = option_map (keep kept NaN) test /\
    c_labels c = option_map (fun l => map (fun j => nth j l d) kept) labels.

Lemma filter_seq_increasing P w i k :
  (i < k < length (filter P (seq 0 w)))%nat ->
  (nth i (filter P (seq 0 w)) 0 < nth k (filter P (seq 0 w)) 0)%nat.
Proof.
  assert (S : forall n s, Sorted.StronglySorted lt (filter P (seq s n))).
  { induction n as [|n IH]; intros s; simpl; [constructor|].
    destruct (P s); auto. constructor; auto. apply Forall_forall. intros x Hx.
    apply filter_In in Hx. destruct Hx as [Hx _]. apply in_seq in Hx. lia. }
  intros H. apply (StronglySorted_nth (R := lt)); auto; lia.
Qed.

Lemma clean_by_kept {L} (P : nat -> bool) crit w train test (labels : option (list L)) d c :
  (forall j, (j < w)%nat -> P j = true <-> crit j) ->
  rect w train -> match test with Some t => rect w t | None => True end ->
  match labels with Some l => length l = w | None => True end ->
  clean_by (map P (seq 0 w)) train test labels = Ok c ->
  kept_from crit w train test labels d c.
Proof.
  intros HP R1 R2 R3 H. unfold clean_by in H.
  rewrite (select_cols_ok P w train NaN R1) in H. cbn [bind] in H.
  exists (filter P (seq 0 w)). split; [|split].
  - intros j. rewrite filter_In, in_seq. split; intros [A B]; split; try lia; apply HP; auto; lia.
  - intros i k. apply filter_seq_increasing.
  - destruct test as [t|]; destruct labels as [l|]; cbn [opt_result bind] in H.
    + rewrite (select_cols_ok P w t NaN R2) in H. cbn [bind] in H.
      unfold select_labels in H. rewrite map_length, seq_length, R3, Nat.eqb_refl in H.
      cbn [bind] in H. injection H as <-. simpl. split; [|split]; auto.
      f_equal. rewrite (mask_select_gather P w l d R3). reflexivity.
    + rewrite (select_cols_ok P w t NaN R2) in H. cbn [bind] in H. injection H as <-. auto.
    + unfold select_labels in H. rewrite map_length, seq_length, R3, Nat.eqb_refl in H.
      cbn [bind] in H. injection H as <-. simpl. split; [|split]; auto.
      f_equal. rewrite (mask_select_gather P w l d R3). reflexivity.
    + injection H as <-. auto.
Qed.

Lemma axis0_map_seq {A B C} (d : A) (f : list A -> B) (g : B -> C) w m :
  m <> [] -> rect w m -> map g (axis0 d f m) = map (fun j => g (f (col d j m))) (seq 0 w).
Proof. intros NE R. unfold axis0. rewrite map_map, (rect_width w m NE R). reflexivity. Qed.

(** clean_variance keeps the columns whose standard deviation is above numpy's
    tolerance (1e-8 plus a relative part); columns holding an infinity or
    nothing but NaN have no standard deviation and are kept too. *)
Definition informative (c : list fl) : Prop :=
  let rest := filter (fun x => negb (isnan x)) c in
  rest = [] \/ In Inf rest \/ std (map fin_value rest) * (1 - 1 / 10 ^ 5) > 1 / 10 ^ 8.

Lemma fl_eq_dec (a b : fl) : {a = b} + {a <> b}.
Proof.
  destruct a, b; try (right; discriminate); try (left; reflexivity).
  destruct (Req_EM_T r r0) as [->|N]; [left; reflexivity|right; congruence].
Qed.

Theorem clean_variance_aligned {L} w train test (labels : option (list L)) d mask c :
  train <> [] -> rect w train -> match test with Some t => rect w t | None => True end ->
  match labels with Some l => length l = w | None => True end ->
  clean_variance train test labels mask = Ok c ->
  kept_from (fun j => informative (col NaN j train)) w train test labels d c.
Proof.
  intros NE R1 R2 R3 H. unfold clean_variance in H.
  rewrite (axis0_map_seq NaN nanstd (fun s => negb (isclose0 s)) w train NE R1) in H.
  eapply clean_by_kept; eauto.
  intros j Hj. cbv beta. unfold informative, nanstd.
  set (rest := filter (fun x => negb (isnan x)) (col NaN j train)).
  destruct (forallb isfinite rest) eqn:F.
  - assert (NI : ~ In Inf rest).
    { intros I. rewrite forallb_forall in F. apply F in I. discriminate. }
    destruct rest as [|x t] eqn:E.
    + simpl. split; auto.
    + rewrite <- E in *. assert (LZ : (length rest =? 0)%nat = false) by (rewrite E; reflexivity).
      rewrite LZ. cbn [orb negb isclose0].
      set (s := std (map fin_value rest)).
      assert (S0 : 0 <= s) by apply sqrt_pos.
      replace (0 - s) with (- s) by ring. rewrite Rabs_Ropp, (Rabs_pos_eq s S0).
      rewrite negb_true_iff, Rleb_false. split.
      * intros Hs. right. right. lra.
      * intros [Hr|[Hr|Hr]]; [rewrite E in Hr; discriminate|tauto|lra].
  - rewrite orb_true_r. cbn [isclose0 negb]. split; auto. intros _. right. left.
    apply Bool.not_true_iff_false in F. destruct (in_dec fl_eq_dec Inf rest) as [I|I]; auto.
    exfalso. apply F. apply forallb_forall. intros x Hx. destruct x as [r| |]; [reflexivity|contradiction|].
    unfold rest in Hx. apply filter_In in Hx. destruct Hx; discriminate.
Qed.

(** In particular a column of equal numbers is always removed. *)
Theorem clean_variance_removes_constant c :
  c <> [] -> (exists r, forall x, In x c -> x = Fin r) -> ~ informative c.
Proof.
  intros NE [r H]. unfold informative.
  assert (E : filter (fun x => negb (isnan x)) c = c).
  { apply filter_true. intros x Hx. rewrite (H x Hx). reflexivity. }
  rewrite E. intros [A|[A|A]].
  - auto.
  - apply H in A. discriminate.
  - assert (S : std (map fin_value c) = 0).
    { apply constant_std; [destruct c; [congruence|discriminate]|].
      intros x y Hx Hy. apply in_map_iff in Hx, Hy.
      destruct Hx as [x' [<- Hx]], Hy as [y' [<- Hy]]. rewrite (H _ Hx), (H _ Hy). reflexivity. }
    rewrite S in A. lra.
Qed.

Theorem clean_skewness_aligned {L} skew w train test (labels : option (list L)) d mask sk c :
  train <> [] -> rect w train -> match test with Some t => rect w t | None => True end ->
  match labels with Some l => length l = w | None => True end ->
  clean_skewness skew train test labels mask sk = Ok c ->
  kept_from (fun j => exists r, skew (col NaN j train) = Fin r /\ Rabs r < sk) w train test labels d c.
Proof.
  intros NE R1 R2 R3 H. unfold clean_skewness in H.
  rewrite (axis0_map_seq NaN skew (fun s => match s with Fin r => Rltb (Rabs r) sk | _ => false end)
             w train NE R1) in H.
  eapply clean_by_kept; eauto.
  intros j Hj. cbv beta. destruct (skew (col NaN j train)) as [r| |].
  - rewrite Rltb_true. split; [intros; exists r; auto|intros [r' [[= <-] H']]; auto].
  - split; [discriminate|intros [r [A _]]; discriminate].
  - split; [discriminate|intros [r [A _]]; discriminate].
Qed.

(** clean_infinite: kept columns are those with only finite entries in the rows
    whose target is finite, and the masked ones. *)
Theorem clean_infinite_aligned {L} w train test targets (labels : option (list L)) mask d c :
  train <> [] -> rect w train -> match test with Some t => rect w t | None => True end ->
  match labels with Some l => length l = w | None => True end ->
  clean_infinite train test targets labels mask = Ok c ->
  kept_from (fun j => (forall r, In r (drop_rows train targets) -> isfinite (nth j r NaN) = true) \/
                      match mask with Some m => In j m | None => False end)
            w (drop_rows train targets) test labels d c.
Proof.
  intros NE R1 R2 R3 H. unfold clean_infinite in H. rewrite (rect_width w train NE R1) in H.
  destruct (match targets with Some t => _ | None => false end); [discriminate|].
  set (tr := drop_rows train targets) in *.
  assert (Rt : rect w tr).
  { unfold tr, drop_rows. destruct targets as [t|]; auto. apply Forall_forall. intros r Hr.
    apply mask_select_in in Hr. unfold rect in R1. rewrite Forall_forall in R1. auto. }
  set (P0 := fun j => forallb isfinite (col NaN j tr)).
  assert (X : exists P, (match mask with
        | None => Ok (finite_columns w tr)
        | Some m => if forallb (fun i => (i <? w)%nat) m
                    then Ok (fold_left (fun b i => set_nth i true b) m (finite_columns w tr)) else Err IndexError
        end = Ok (map P (seq 0 w)) \/ exists e, match mask with
        | None => Ok (finite_columns w tr)
        | Some m => if forallb (fun i => (i <? w)%nat) m
                    then Ok (fold_left (fun b i => set_nth i true b) m (finite_columns w tr)) else Err IndexError
        end = Err e) /\
     forall j, P j = true <-> P0 j = true \/ match mask with Some m => In j m | None => False end).
  { destruct mask as [m|].
    - exists (fun j => P0 j || existsb (Nat.eqb j) m). split.
      + destruct (forallb (fun i => (i <? w)%nat) m) eqn:FB; [left; f_equal|eauto].
        unfold finite_columns. fold P0.
        apply (@list_ext_nth _ true).
        * rewrite map_length, seq_length.
          assert (G : forall b, length (fold_left (fun b i => set_nth i true b) m b) = length b).
          { clear. induction m as [|i t IH]; intros b; simpl; auto. rewrite IH, set_nth_length. auto. }
          rewrite G, map_length, seq_length. auto.
        * intros j Hj.
          assert (G : forall b : list bool, nth j (fold_left (fun b i => set_nth i true b) m b) true =
                      nth j b true || existsb (Nat.eqb j) m).
          { clear. induction m as [|i t IH]; intros b; simpl; [rewrite orb_false_r; auto|].
            rewrite IH. destruct (Nat.eqb j i) eqn:E.
            - apply Nat.eqb_eq in E. subst. destruct (Nat.lt_ge_cases i (length b)).
              + rewrite nth_set_nth_eq by auto. rewrite orb_true_r. reflexivity.
              + rewrite (nth_overflow (set_nth i true b)) by (rewrite set_nth_length; auto).
                rewrite orb_true_r. reflexivity.
            - apply Nat.eqb_neq in E. rewrite nth_set_nth_neq by auto. reflexivity. }
          rewrite G.
          destruct (Nat.lt_ge_cases j w) as [Hw|Hw].
          -- rewrite (nth_map_lt _ _ _ 0%nat) by (rewrite seq_length; auto).
             rewrite (nth_map_lt _ _ _ 0%nat) by (rewrite seq_length; auto).
             rewrite !seq_nth by auto. reflexivity.
          -- rewrite !nth_overflow by (rewrite map_length, seq_length; auto). reflexivity.
      + intros j. rewrite orb_true_iff, existsb_exists. split; intros [A|A]; auto.
        * right. destruct A as [x [Hx E]]. apply Nat.eqb_eq in E. subst; auto.
        * right. exists j. split; auto. apply Nat.eqb_refl.
    - exists P0. split; [left; reflexivity|]. intros j. tauto. }
  destruct X as [P [[X|[e X]] HP]]; rewrite X in H; cbn [bind] in H; [|discriminate].
  rewrite (select_cols_ok P w tr NaN Rt) in H. cbn [bind] in H.
  exists (filter P (seq 0 w)). split; [|split].
  - intros j. rewrite filter_In, in_seq, HP. unfold P0. rewrite forallb_forall.
    assert (Q : (forall x, In x (col NaN j tr) -> isfinite x = true) <->
                (forall r, In r tr -> isfinite (nth j r NaN) = true)).
    { unfold col. split; intros A.
      - intros r Hr. apply A. apply in_map_iff. exists r; auto.
      - intros x Hx. apply in_map_iff in Hx. destruct Hx as [r [<- Hr]]. auto. }
    rewrite Q. split; intros [A B]; split; auto; lia.
  - intros i k. apply filter_seq_increasing.
  - destruct test as [t|].
    + destruct (width t =? w)%nat eqn:Wt; cbn [bind] in H; [|discriminate].
      rewrite (select_cols_ok P w t NaN R2) in H. cbn [bind] in H.
      destruct labels as [l|].
      * rewrite R3, Nat.eqb_refl in H. cbn [bind] in H. injection H as <-. simpl.
        split; [|split]; auto. f_equal. rewrite (mask_select_gather P w l d R3). reflexivity.
      * cbn [bind] in H. injection H as <-. auto.
    + cbn [bind] in H. destruct labels as [l|].
      * rewrite R3, Nat.eqb_refl in H. cbn [bind] in H. injection H as <-. simpl.
        split; [|split]; auto. f_equal. rewrite (mask_select_gather P w l d R3). reflexivity.
      * cbn [bind] in H. injection H as <-. auto.
Qed.

Example clean_infinite_example :
  clean_infinite [[Fin 1; NaN; Fin 2]; [Fin 1; Fin 0; Inf]; [Inf; Inf; Inf]]
    (Some [[NaN; Fin 5; Fin 6]]) (Some [Fin 1; Fin 2; NaN]) (Some [10; 11; 12]%nat) (Some [2%nat]) =
  Ok (mkClean [true; false; true] [[Fin 1; Fin 2]; [Fin 1; Inf]] (Some [[NaN; Fin 6]]) (Some [10; 12]%nat)).
Proof. reflexivity. Qed.

(** ** C78.  Features listed in [mask] are "not subject to cleaning".  True of
    clean_infinite; clean_variance and clean_skewness do not look at mask. *)
Theorem clean_infinite_respects_mask {L} w train test targets (labels : option (list L)) m c j :
  train <> [] -> rect w train -> match test with Some t => rect w t | None => True end ->
  match labels with Some l => length l = w | None => True end ->
  clean_infinite train test targets labels (Some m) = Ok c -> In j m ->
  (j < w)%nat /\ nth j (c_index c) false = true.
Proof.
  intros NE R1 R2 R3 H Hj. unfold clean_infinite in H. rewrite (rect_width w train NE R1) in H.
  destruct (match targets with Some t => _ | None => false end); [discriminate|].
  destruct (forallb (fun i => (i <? w)%nat) m) eqn:FB; cbn [bind] in H; [|discriminate].
  assert (Jw : (j < w)%nat) by (rewrite forallb_forall in FB; apply FB in Hj; apply Nat.ltb_lt; auto).
  split; auto.
  assert (G : forall b : list bool, (j < length b)%nat -> In j m \/ nth j b false = true ->
     nth j (fold_left (fun b i => set_nth i true b) m b) false = true).
  { clear. induction m as [|i t IH]; intros b Hb [A|A]; simpl in *; auto; try tauto.
    - destruct A as [->|A].
      + apply IH; [rewrite set_nth_length; auto|]. right. apply nth_set_nth_eq; auto.
      + apply IH; [rewrite set_nth_length; auto|auto].
    - apply IH; [rewrite set_nth_length; auto|]. right.
      destruct (Nat.eq_dec j i) as [->|N]; [apply nth_set_nth_eq; auto|rewrite nth_set_nth_neq; auto]. }
  set (index := fold_left (fun b i => set_nth i true b) m (finite_columns w (drop_rows train targets))) in *.
  assert (I : nth j index false = true).
  { apply G; auto. unfold finite_columns. rewrite map_length, seq_length. auto. }
  clearbody index.
  assert (c_index c = index); [|congruence].
  destruct (select_cols index (drop_rows train targets)); cbn [bind] in H; [|discriminate].
  destruct test as [t|]; [destruct (width t =? w)%nat; [destruct (select_cols index t)|]|];
    cbn [bind] in H; try discriminate;
    (destruct labels as [l|]; [destruct (length l =? w)%nat|]; cbn [bind] in H; try discriminate;
     injection H as <-; reflexivity).
Qed.

Theorem clean_variance_ignores_mask_refuted :
  exists (train : list (list fl)) mask c,
    clean_variance (L := nat) train None (Some [0%nat]) mask = Ok c /\ In 0%nat mask /\ c_labels c = Some [].
Proof.
  exists [[Fin 1]; [Fin 1]], [0%nat].
  assert (E : map (fun s => negb (isclose0 s)) (axis0 NaN nanstd [[Fin 1]; [Fin 1]]) = [false]).
  { cbn [axis0 width hd length seq map col nth nanstd isnan negb filter forallb isfinite andb orb].
    unfold axis0, width, nanstd. cbn. unfold isclose0.
    assert (S : std [1; 1] = 0).
    { apply constant_std; [discriminate|]. intros x y [<-|[<-|[]]] [<-|[<-|[]]]; auto. }
    rewrite S. rewrite (proj2 (Rleb_true _ _)); auto.
    rewrite Rminus_0_r, Rabs_R0. lra. }
  eexists. split; [|split].
  - unfold clean_variance. rewrite E. reflexivity.
  - simpl; auto.
  - reflexivity.
Qed.

Theorem clean_masks_have_no_effect_refuted {L} skew train test (labels : option (list L)) m m' sk :
  clean_variance train test labels m = clean_variance train test labels m' /\
  clean_skewness skew train test labels m sk = clean_skewness skew train test labels m' sk.
Proof. split; reflexivity. Qed.

(** ** C34.  remove_outliers. *)
(** What is kept: pairs strictly within one scaled deviation of the median, in
    order, whatever [dev] is. *)
Theorem remove_outliers_keeps_within_one_mad {X} (features : list X) targets con dev cn :
  length features = length targets ->
  let med := median targets in
  let d := mad con targets in
  let res := remove_outliers features targets con dev cn in
  length (fst res) = length (snd res) /\
  combine (snd res) (fst res) =
  filter (fun p => (match cn with Low => true | _ => Rltb (fst p) (med + d) end) &&
                   (match cn with High => true | _ => Rltb (med - d) (fst p) end))
         (combine targets features).
Proof.
  intros L. cbv zeta. unfold remove_outliers.
  set (hi := fun t => Rltb t (median targets + mad con targets)).
  set (lo := fun t => Rltb (median targets - mad con targets) t).
  destruct cn; cbn [fst snd].
  - split; [apply mask_select_same_length; auto|].
    rewrite (mask_select_map_filter hi) by auto. apply filter_ext. intros p. rewrite andb_true_r. reflexivity.
  - split; [apply mask_select_same_length; auto|].
    rewrite (mask_select_map_filter lo) by auto. reflexivity.
  - assert (L2 : length (mask_select (map hi targets) targets) = length (mask_select (map hi targets) features))
      by (apply mask_select_same_length; auto).
    split; [apply mask_select_same_length; auto|].
    rewrite (mask_select_map_filter lo) by auto.
    rewrite (mask_select_map_filter hi) by auto. rewrite filter_filter_and. reflexivity.
Qed.

(** The requested deviation has no effect ... *)
Theorem remove_outliers_ignores_dev_refuted {X} (features : list X) targets con dev dev' cn :
  remove_outliers features targets con dev cn = remove_outliers features targets con dev' cn.
Proof. reflexivity. Qed.

(** ... so a target within dev deviations is removed; and when all targets are
    equal, everything is. *)
Theorem remove_outliers_removes_constant_refuted {X} (features : list X) targets con dev :
  targets <> [] -> constant targets -> length features = length targets ->
  remove_outliers features targets con dev Both = ([], []).
Proof.
  intros NE C L.
  assert (M : forall l, l <> [] -> constant l -> forall x, In x l -> median l = x).
  { clear. intros l NE C x Hx. unfold median.
    assert (P : Permutation (isort Rleb l) l) by apply isort_perm.
    assert (N : forall i, (i < length l)%nat -> nth i (isort Rleb l) 0 = x).
    { intros i Hi. apply C; auto. apply (Permutation_in _ P). apply nth_In.
      rewrite (Permutation_length P). auto. }
    assert (Ln : (0 < length l)%nat) by (destruct l; [congruence|simpl; lia]).
    assert (D : (length l / 2 < length l)%nat) by (apply Nat.div_lt; lia).
    destruct (Nat.even (length l)) eqn:E.
    - rewrite (N (length l / 2 - 1)%nat) by lia. rewrite (N (length l / 2)%nat) by lia. lra.
    - apply N; auto. }
  assert (MD : forall t, In t targets -> median targets = t) by (apply M; auto).
  assert (D0 : mad con targets = 0).
  { unfold mad. rewrite (M (map (fun t => Rabs (t - median targets)) targets)) with (x := 0); [ring| | |].
    - destruct targets; [congruence|discriminate].
    - intros x y Hx Hy. apply in_map_iff in Hx, Hy. destruct Hx as [a [<- Ha]], Hy as [b [<- Hb]].
      rewrite <- (MD a Ha), <- (MD b Hb). reflexivity.
    - destruct targets as [|t r]; [congruence|]. apply in_map_iff. exists t. split; [|left; auto].
      rewrite (MD t) by (left; auto). replace (t - t) with 0 by ring. apply Rabs_R0. }
  unfold remove_outliers. rewrite D0.
  assert (F : map (fun t => Rltb t (median targets + 0)) targets = map (fun _ => false) targets).
  { apply map_ext_in. intros t Ht. apply Rltb_false. rewrite (MD t Ht). lra. }
  rewrite F.
  assert (S : forall A (l : list A) (ts : list R), mask_select (map (fun _ => false) ts) l = []).
  { clear. intros A l ts. revert l. induction ts as [|t r IH]; intros [|x l]; simpl; auto. }
  rewrite !S. reflexivity.
Qed.

(** The part that holds: when no target sits exactly at one scaled deviation,
    the call with dev = 1 keeps exactly the samples within dev deviations. *)
Theorem remove_outliers_dev_one_partial {X} (features : list X) targets con :
  length features = length targets ->
  (forall t, In t targets -> Rabs (t - median targets) <> mad con targets) ->
  let res := remove_outliers features targets con 1 Both in
  forall t x, In (t, x) (combine (snd res) (fst res)) <->
    In (t, x) (combine targets features) /\ Rabs (t - median targets) <= 1 * mad con targets.
Proof.
  intros L NT res t x. unfold res.
  destruct (remove_outliers_keeps_within_one_mad features targets con 1 Both L) as [_ E].
  rewrite E. rewrite filter_In. cbn [fst]. rewrite andb_true_iff, !Rltb_true.
  split; intros [A B]; split; auto.
  - rewrite Rmult_1_l. apply Rabs_le. lra.
  - specialize (NT t (in_combine_l _ _ _ _ A)). rewrite Rmult_1_l in B.
    assert (B' : Rabs (t - median targets) < mad con targets) by lra.
    apply Rabs_def2 in B'. lra.
Qed.

Example remove_outliers_example :
  median [1; 2; 4; 10; 3] = 3 /\
  mad 1 [1; 2; 4; 10; 3] = 1 /\
  remove_outliers [0; 1; 2; 3; 4]%nat [1; 2; 4; 10; 3] 1 3 Both = ([4]%nat, [3]).
Proof.
  assert (S : forall a b, a <= b -> Rleb a b = true) by (intros; apply Rleb_true; auto).
  assert (S' : forall a b, b < a -> Rleb a b = false) by (intros; apply Rleb_false; auto).
  assert (M : median [1; 2; 4; 10; 3] = 3).
  { unfold median. cbn [length Nat.even isort insert].
    rewrite !S' by lra || rewrite !S by lra.
    repeat (rewrite ?S, ?S' by lra; cbn [insert]).
    cbn. reflexivity. }
  assert (D : mad 1 [1; 2; 4; 10; 3] = 1).
  { unfold mad. rewrite M. cbn [map].
    replace (Rabs (1 - 3)) with 2 by (rewrite Rabs_left; lra).
    replace (Rabs (2 - 3)) with 1 by (rewrite Rabs_left; lra).
    replace (Rabs (4 - 3)) with 1 by (rewrite Rabs_right; lra).
    replace (Rabs (10 - 3)) with 7 by (rewrite Rabs_right; lra).
    replace (Rabs (3 - 3)) with 0 by (rewrite Rminus_diag_eq, Rabs_R0; auto).
    unfold median. cbn [length Nat.even isort insert].
    repeat (rewrite ?S, ?S' by lra; cbn [insert]).
    cbn. lra. }
  split; [exact M|]. split; [exact D|].
  unfold remove_outliers. rewrite M, D. cbn [map fst snd].
  repeat (match goal with |- context [Rltb ?a ?b] =>
            first [rewrite (proj2 (Rltb_true a b)) by lra | rewrite (proj2 (Rltb_false a b)) by lra] end;
          cbn [mask_select fst snd map]).
  reflexivity.
Qed.

(** ** C35.  The preprocessor. *)
Theorem transform_repeats_process train targets test p tr tg te :
  process train targets test = Ok (p, (tr, tg, te)) ->
  transform (Some p) train = Ok tr /\ tg = targets /\
  match test with
  | Some t => exists t', te = Some t' /\ transform (Some p) t = Ok t'
  | None => te = None
  end.
Proof.
  unfold process. destruct (clean_index train targets test) as [index|]; cbn [bind]; [|discriminate].
  destruct (select_cols index train) as [tr0|] eqn:E1; cbn [bind]; [|discriminate].
  destruct test as [t|]; cbn [opt_result].
  - destruct (select_cols index t) as [te0|] eqn:E2; cbn [bind]; [|discriminate].
    destruct (length tr0 =? 0)%nat; [discriminate|].
    intros [= <- <- <- <-]. unfold transform. cbn [p_index p_mean p_std].
    rewrite E1, E2. cbn [bind]. split; auto. split; auto. eexists. split; reflexivity.
  - cbn [bind]. destruct (length tr0 =? 0)%nat; [discriminate|].
    intros [= <- <- <- <-]. unfold transform. cbn [p_index p_mean p_std].
    rewrite E1. cbn [bind]. auto.
Qed.

(** New rows are treated like training rows: equal raw rows give equal results. *)
Theorem transform_rowwise train targets test p out X Y i j :
  process train targets test = Ok (p, out) ->
  transform (Some p) X = Ok Y -> (i < length X)%nat -> (j < length train)%nat ->
  nth i X [] = nth j train [] -> nth i Y [] = nth j (fst (fst out)) [].
Proof.
  intros P T Hi Hj E. destruct out as [[tr tg] te].
  apply transform_repeats_process in P. destruct P as [P _]. simpl.
  unfold transform in *. unfold select_cols in *.
  destruct (forallb _ X); cbn [bind] in T; [|discriminate].
  destruct (forallb _ train); cbn [bind] in P; [|discriminate].
  injection T as <-. injection P as <-. rewrite !map_map.
  rewrite (nth_map_lt _ _ _ []) by auto. rewrite (nth_map_lt _ _ _ []) by auto. rewrite E. reflexivity.
Qed.

(** transform before process raises AttributeError. *)
Theorem transform_needs_process X : transform None X = Err AttributeError.
Proof. reflexivity. Qed.

(** ** C79.  "All features has been eliminated": the check counts rows, so
    process never raises AssertionError for a matrix that has rows, even when no
    column is left. *)
Theorem all_features_eliminated_refuted :
  exists p out, process [[Fin 1]; [Fin 1]] [Fin 0; Fin 1] None = Ok (p, out) /\
    p_index p = [false] /\ fst (fst out) = [[]; []].
Proof.
  assert (E : clean_index [[Fin 1]; [Fin 1]] [Fin 0; Fin 1] None = Ok [false]).
  { unfold clean_index, clean_infinite, clean_variance. cbn.
    unfold clean_by, axis0, nanstd, isclose0. cbn.
    assert (S : std [1; 1] = 0).
    { apply constant_std; [discriminate|]. intros x y [<-|[<-|[]]] [<-|[<-|[]]]; auto. }
    rewrite S. rewrite (proj2 (Rleb_true _ _)) by (rewrite Rminus_0_r, Rabs_R0; lra). reflexivity. }
  do 2 eexists. unfold process. rewrite E. cbn. split; [reflexivity|]. split; reflexivity.
Qed.

Theorem process_raises_only_for_no_rows train targets test :
  process train targets test = Err AssertionError ->
  train <> [] -> match test with Some t => width t = width train | None => True end -> False.
Proof.
  intros H NE TW. unfold process in H.
  destruct (clean_index train targets test) as [index|e] eqn:CI; cbn [bind] in H.
  - unfold select_cols at 1 in H.
    destruct (forallb _ train); cbn [bind] in H; [|discriminate].
    assert (X : exists r, opt_result (select_cols index) test = r /\ r <> Err AssertionError).
    { eexists. split; [reflexivity|]. destruct test as [t|]; cbn [opt_result]; [|discriminate].
      unfold select_cols. destruct (forallb _ t); discriminate. }
    destruct X as [r [X1 X2]]. rewrite X1 in H. destruct r as [te|e]; cbn [bind] in H; [|congruence].
    rewrite map_length in H. destruct train; [congruence|]. cbn in H. discriminate.
  - injection H as ->. unfold clean_index in CI.
    unfold clean_infinite in CI.
    destruct (negb (length targets =? length train)%nat); [discriminate|]. cbn [bind] in CI.
    set (idx := finite_columns (width train) (drop_rows train (Some targets))) in *.
    unfold select_cols at 1 in CI.
    destruct (forallb _ (drop_rows train (Some targets))); cbn [bind] in CI; [|discriminate].
    assert (V : forall s, clean_variance (L := unit) train test None [] <> Err AssertionError \/ s).
    { intros s. left. unfold clean_variance, clean_by, select_cols.
      destruct (forallb _ train); cbn [bind]; [|discriminate].
      destruct test as [t|]; cbn [opt_result bind]; [|discriminate].
      destruct (forallb _ t); cbn [bind]; discriminate. }
    destruct (V False) as [V'|[]].
    destruct test as [t|].
    + rewrite TW, Nat.eqb_refl in CI. unfold select_cols at 1 in CI.
      destruct (forallb _ t); cbn [bind] in CI; [|discriminate].
      destruct (clean_variance (L := unit) train (Some t) None []); cbn [bind] in CI; congruence.
    + cbn [bind] in CI.
      destruct (clean_variance (L := unit) train None None []); cbn [bind] in CI; congruence.
Qed.

(** ** C80.  Processed training data contain only finite numbers: true when all
    targets are finite, refuted otherwise (the rows with a bad target are only
    left out when the columns are chosen, not when data are returned). *)
Theorem processed_data_finite_partial train targets test w p tr tg te :
  train <> [] -> rect w train ->
  (forall t, In t targets -> isfinite t = true) ->
  process train targets test = Ok (p, (tr, tg, te)) ->
  forall r x, In r tr -> In x r -> isfinite x = true.
Proof.
  intros NE R FT H r x Hr Hx. unfold process in H.
  destruct (clean_index train targets test) as [index|e] eqn:CI; cbn [bind] in H; [|discriminate].
  destruct (select_cols index train) as [tr0|] eqn:ST; cbn [bind] in H; [|discriminate].
  destruct (opt_result (select_cols index) test) as [te0|]; cbn [bind] in H; [|discriminate].
  destruct (length tr0 =? 0)%nat eqn:LZ; [discriminate|]. injection H as <- <- <- <-.
  (* the index only selects finite columns *)
  assert (IX : forall j, nth j index false = true -> (j < w)%nat /\
                 forall row, In row train -> isfinite (nth j row NaN) = true).
  { unfold clean_index in CI.
    destruct (clean_infinite (L := unit) train test (Some targets) None None) as [fin|] eqn:CF; cbn [bind] in CI; [|discriminate].
    destruct (clean_variance (L := unit) train test None []) as [inf|]; cbn [bind] in CI; [|discriminate].
    injection CI as <-.
    assert (IFin : c_index fin = finite_columns w train).
    { unfold clean_infinite in CF. rewrite (rect_width w train NE R) in CF.
      destruct (negb (length targets =? length train)%nat) eqn:LT; [discriminate|].
      apply negb_false_iff, Nat.eqb_eq in LT.
      assert (DR : drop_rows train (Some targets) = train).
      { unfold drop_rows. clear -FT LT. revert train LT. induction targets as [|t ts IH]; intros [|r rs] L; simpl in *; auto; try discriminate.
        rewrite (FT t) by auto. f_equal. apply IH; auto. }
      rewrite DR in CF. cbn [bind] in CF.
      destruct (select_cols (finite_columns w train) train); cbn [bind] in CF; [|discriminate].
      destruct test as [t|]; [destruct (width t =? w)%nat; cbn [bind] in CF; [|discriminate];
        destruct (select_cols (finite_columns w train) t); cbn [bind] in CF; [|discriminate]|cbn [bind] in CF];
        injection CF as <-; reflexivity. }
    rewrite IFin. intros j Hj.
    destruct (Nat.lt_ge_cases j (length (combine (finite_columns w train) (c_index inf)))) as [Lj|Lj].
    - rewrite (nth_map_lt _ _ _ (false, false)) in Hj by auto.
      rewrite combine_length in Lj.
      assert (Lj' : (j < length (finite_columns w train))%nat) by lia.
      assert (Q : nth j (finite_columns w train) false = true).
      { assert (X : forall (a b : list bool) k, (k < length (combine a b))%nat ->
             fst (nth k (combine a b) (false, false)) = nth k a false).
        { clear. induction a as [|x a IH]; intros [|y b] k Hk; simpl in *; try lia. destruct k; auto. apply IH. lia. }
        rewrite <- (X _ (c_index inf)) by (rewrite combine_length; lia).
        apply andb_true_iff in Hj. tauto. }
      unfold finite_columns in Q, Lj'. rewrite map_length, seq_length in Lj'. split; auto.
      rewrite (nth_map_lt _ _ _ 0%nat) in Q by (rewrite seq_length; auto).
      rewrite seq_nth in Q by auto. simpl in Q. rewrite forallb_forall in Q.
      intros row Hrow. apply Q. unfold col. apply in_map_iff. exists row; auto.
    - rewrite nth_overflow in Hj by (rewrite map_length; auto). discriminate. }
  (* all entries of the selected rows are finite *)
  assert (MS : forall (ix : list bool) (row : list fl),
     (forall j, nth j ix false = true -> isfinite (nth j row NaN) = true) ->
     forall y, In y (mask_select ix row) -> isfinite y = true).
  { clear. induction ix as [|b ix IH]; intros [|z row] Hrow y; simpl; try tauto.
    destruct b.
    - intros [<-|Hy]; [apply (Hrow 0%nat); auto|]. apply (IH row); auto. intros j Hj. apply (Hrow (S j)); auto.
    - intros Hy. apply (IH row); auto. intros j Hj. apply (Hrow (S j)); auto. }
  assert (FIN : forall row y, In row tr0 -> In y row -> isfinite y = true).
  { unfold select_cols in ST. destruct (forallb _ train); [|discriminate]. injection ST as <-.
    intros row y Hrow Hy. apply in_map_iff in Hrow. destruct Hrow as [row0 [<- H0]].
    apply (MS index row0); auto. intros j Hj. apply IX; auto. }
  (* equal widths *)
  assert (WID : exists w0, rect w0 tr0).
  { unfold select_cols in ST. destruct (forallb _ train) eqn:FB; [|discriminate]. injection ST as <-.
    exists (length (mask_select index (map (fun _ => NaN) index))). apply Forall_forall.
    intros row Hrow. apply in_map_iff in Hrow. destruct Hrow as [row0 [<- H0]].
    apply mask_select_same_length. rewrite map_length. rewrite forallb_forall in FB.
    apply Nat.eqb_eq. auto. }
  destruct WID as [w0 WID].
  assert (NE0 : tr0 <> []) by (intros E; rewrite E in LZ; discriminate).
  assert (COL : forall j, (j < w0)%nat -> all_finite (col NaN j tr0) = true).
  { intros j Hj. apply forallb_forall. intros y Hy. unfold col in Hy. apply in_map_iff in Hy.
    destruct Hy as [row [<- Hrow]]. apply (FIN row); auto. apply nth_In.
    unfold rect in WID. rewrite Forall_forall in WID. rewrite (WID row Hrow). auto. }
  (* the scaled row *)
  apply in_map_iff in Hr. destruct Hr as [row [<- Hrow]].
  unfold fl_scale_row in Hx. apply in_map_iff in Hx. destruct Hx as [[a [m s]] [<- Hc]].
  cbn [fst snd].
  pose proof (in_combine_l _ _ _ _ Hc) as Ha. apply in_combine_r in Hc.
  pose proof (in_combine_l _ _ _ _ Hc) as Hm. apply in_combine_r in Hc.
  specialize (FIN row a Hrow Ha). destruct a as [a| |]; try discriminate.
  unfold axis0 in Hm. apply in_map_iff in Hm. destruct Hm as [j [Em Hj]].
  apply in_seq in Hj. rewrite (rect_width w0 tr0 NE0 WID) in Hj.
  unfold lift_stat in Em. rewrite COL in Em by lia. subst m.
  apply in_map_iff in Hc. destruct Hc as [s0 [Es Hs0]].
  unfold axis0 in Hs0. apply in_map_iff in Hs0. destruct Hs0 as [k [Ek Hk]].
  apply in_seq in Hk. rewrite (rect_width w0 tr0 NE0 WID) in Hk.
  unfold lift_stat in Ek. rewrite COL in Ek by lia. subst s0.
  cbn [fl_scale]. destruct (Reqb (std (map fin_value (col NaN k tr0))) 0) eqn:Z; subst s; cbn [fl_scale].
  - rewrite (proj2 (Reqb_false 1 0)) by lra. reflexivity.
  - rewrite Z. reflexivity.
Qed.

Theorem processed_data_finite_refuted :
  exists p tr tg te,
    process [[Fin 0]; [Fin 2]; [NaN]] [Fin 0; Fin 1; NaN] None = Ok (p, (tr, tg, te)) /\
    tr = [[NaN]; [NaN]; [NaN]] /\ tg = [Fin 0; Fin 1; NaN].
Proof.
  assert (E : clean_index [[Fin 0]; [Fin 2]; [NaN]] [Fin 0; Fin 1; NaN] None = Ok [true]).
  { unfold clean_index, clean_infinite, clean_variance. cbn.
    unfold clean_by, axis0, nanstd, isclose0. cbn.
    assert (S : std [0; 2] = 1).
    { unfold std, var, mean. cbn. match goal with |- sqrt ?e = 1 => replace e with 1 by field end. apply sqrt_1. }
    rewrite S. rewrite (proj2 (Rleb_false _ _)); [reflexivity|].
    replace (0 - 1) with (- (1)) by ring. rewrite Rabs_Ropp, Rabs_R1. lra. }
  do 4 eexists. unfold process. rewrite E. cbn. split; [reflexivity|]. split; reflexivity.
Qed.

(** ** C40.  holdout_set. *)
(** Rows: train and holdout partition the data. *)
Theorem holdout_rows_partition_partial {X Y} (data shuffled : list X) index (target : option (list Y)) :
  Permutation shuffled data ->
  let '(train, _, holdout, _) := holdout_set shuffled index target in
  Permutation (holdout ++ train) data /\ length holdout = Nat.min index (length data).
Proof.
  intros P. simpl. rewrite firstn_skipn. split; auto.
  rewrite firstn_length, (Permutation_length P). reflexivity.
Qed.

(** Targets: sizes are exchanged and the order is not that of the rows. *)
Theorem holdout_targets_refuted :
  exists (data : list (nat * nat)) shuffled train ttr hold tho,
    Permutation shuffled data /\
    holdout_set (map fst shuffled) 1 (Some (map snd data)) = (train, Some ttr, hold, Some tho) /\
    length train <> length ttr /\ length hold <> length tho /\
    (forall x, In x hold -> ~ In (x, hd 0%nat tho) data).
Proof.
  exists [(1, 10); (2, 20); (3, 30)]%nat, [(3, 30); (2, 20); (1, 10)]%nat.
  exists [2; 1]%nat, [10]%nat, [3]%nat, [20; 30]%nat.
  split; [symmetry; apply (Permutation_rev [(1, 10); (2, 20); (3, 30)]%nat)|].
  split; [reflexivity|]. split; [discriminate|]. split; [discriminate|].
  intros x [<-|[]] H. simpl in H. intuition congruence.
Qed.

Example holdout_example :
  holdout_set [3; 2; 1]%nat 1 (Some [10; 20; 30]%nat) =
  ([2; 1]%nat, Some [10]%nat, [3]%nat, Some [20; 30]%nat).
Proof. reflexivity. Qed.

Print Assumptions standardize_statistics.
Print Assumptions processed_data_finite_partial.
Print Assumptions clean_variance_aligned.
