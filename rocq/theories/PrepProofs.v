(** Supporting lemmas for PrepProperties.v. *)
From Coq Require Import Reals List Bool Arith Lia Lra Permutation.
From Verif Require Import Base BaseFacts RBase PrepModel.
Import ListNotations.
Open Scope R_scope.

Definition rect {A} (w : nat) (m : list (list A)) : Prop := Forall (fun r => length r = w) m.

Lemma rect_width {A} w (m : list (list A)) : m <> [] -> rect w m -> width m = w.
Proof. destruct m; [congruence|]. intros _ H. inversion H; auto. Qed.

Lemma axis0_length {A B} (d : A) (f : list A -> B) m : length (axis0 d f m) = width m.
Proof. unfold axis0. rewrite map_length, seq_length. auto. Qed.

Lemma nth_axis0 {A B} (d : A) (f : list A -> B) m j e :
  (j < width m)%nat -> nth j (axis0 d f m) e = f (col d j m).
Proof.
  intros H. unfold axis0. rewrite (nth_map_lt _ _ _ 0%nat) by (rewrite seq_length; auto).
  rewrite seq_nth by auto. reflexivity.
Qed.

Lemma scale_row_length shift scale row :
  length shift = length row -> length scale = length row -> length (scale_row shift scale row) = length row.
Proof. intros. unfold scale_row. rewrite map_length, !combine_length. lia. Qed.

Lemma nth_scale_row shift scale row j :
  length shift = length row -> length scale = length row -> (j < length row)%nat ->
  nth j (scale_row shift scale row) 0 = (nth j row 0 - nth j shift 0) / nth j scale 0.
Proof.
  intros H1 H2 Hj. unfold scale_row.
  rewrite (nth_map_lt _ _ _ (0, (0, 0))) by (rewrite !combine_length; lia).
  rewrite !combine_nth by (rewrite ?combine_length; lia). reflexivity.
Qed.

Lemma col_scale shift scale m w j :
  rect w m -> length shift = w -> length scale = w -> (j < w)%nat ->
  col 0 j (scale_matrix shift scale m) =
  map (fun x => (x - nth j shift 0) / nth j scale 0) (col 0 j m).
Proof.
  intros R H1 H2 Hj. unfold col, scale_matrix. rewrite !map_map. apply map_ext_in.
  intros r Hr. unfold rect in R. rewrite Forall_forall in R. specialize (R r Hr).
  apply nth_scale_row; lia.
Qed.

Lemma col_app {A} (d : A) j m1 m2 : col d j (m1 ++ m2) = col d j m1 ++ col d j m2.
Proof. apply map_app. Qed.

Lemma col_nonempty {A} (d : A) j m : m <> [] -> col d j m <> [].
Proof. destruct m; [congruence|discriminate]. Qed.

Lemma nth_place_one l j : (j < length l)%nat ->
  nth j (place_one l) 0 = if Reqb (nth j l 0) 0 then 1 else nth j l 0.
Proof. intros H. unfold place_one. rewrite (nth_map_lt _ _ _ 0) by auto. reflexivity. Qed.

Definition constant (l : list R) : Prop := forall x y, In x l -> In y l -> x = y.

Lemma constant_std l : l <> [] -> (constant l <-> std l = 0).
Proof.
  intros NE. rewrite std_zero_iff. split.
  - intros C. unfold var. apply mean_const.
    + destruct l; [congruence|discriminate].
    + intros x Hx. apply in_map_iff in Hx. destruct Hx as [y [<- Hy]].
      rewrite (mean_const y l NE) by (intros; apply C; auto). replace (y - y) with 0 by lra. simpl; lra.
  - intros V x y Hx Hy. rewrite (var_zero l x V Hx), (var_zero l y V Hy). auto.
Qed.

Lemma constant_range l : l <> [] -> (constant l <-> lmax l - lmin l = 0).
Proof.
  intros NE. split.
  - intros C. rewrite (C (lmax l) (lmin l)); [lra|apply lmax_in; auto|apply lmin_in; auto].
  - intros H x y Hx Hy. pose proof (lmax_ge l x Hx). pose proof (lmax_ge l y Hy).
    pose proof (lmin_le l x Hx). pose proof (lmin_le l y Hy). lra.
Qed.

Lemma range_pos l : l <> [] -> ~ constant l -> 0 < lmax l - lmin l.
Proof.
  intros NE N. rewrite constant_range in N by auto.
  pose proof (lmax_ge l (lmin l) (lmin_in l NE)). lra.
Qed.

Lemma lmax_affine m s l : l <> [] -> 0 < s -> lmax (map (fun x => (x - m) / s) l) = (lmax l - m) / s.
Proof.
  intros NE S. apply lmax_unique.
  - apply in_map_iff. exists (lmax l). split; auto. apply lmax_in; auto.
  - intros x Hx. apply in_map_iff in Hx. destruct Hx as [y [<- Hy]].
    apply Rmult_le_compat_r; [left; apply Rinv_0_lt_compat; auto|].
    pose proof (lmax_ge l y Hy). lra.
Qed.

Lemma lmin_affine m s l : l <> [] -> 0 < s -> lmin (map (fun x => (x - m) / s) l) = (lmin l - m) / s.
Proof.
  intros NE S. apply lmin_unique.
  - apply in_map_iff. exists (lmin l). split; auto. apply lmin_in; auto.
  - intros x Hx. apply in_map_iff in Hx. destruct Hx as [y [<- Hy]].
    apply Rmult_le_compat_r; [left; apply Rinv_0_lt_compat; auto|].
    pose proof (lmin_le l y Hy). lra.
Qed.

(** The transformed data is the column-wise affine image of the data the
    statistics were taken of. *)
Lemma stat_data_scaled local shift scale train test w j :
  rect w train -> match test with Some t => rect w t | None => True end ->
  length shift = w -> length scale = w -> (j < w)%nat ->
  let s := apply_scale shift scale train test in
  col 0 j (stat_data local (s_train s) (s_test s)) =
  map (fun x => (x - nth j shift 0) / nth j scale 0) (col 0 j (stat_data local train test)).
Proof.
  intros R1 R2 H1 H2 Hj. simpl. unfold stat_data. destruct test as [t|]; simpl.
  - destruct local.
    + apply (col_scale shift scale train w); auto.
    + rewrite !col_app, map_app. f_equal; apply (col_scale shift scale _ w); auto.
  - apply (col_scale shift scale train w); auto.
Qed.

Lemma stat_data_width local train test w :
  train <> [] -> rect w train -> width (stat_data local train test) = w.
Proof.
  intros NE R. unfold stat_data. destruct test as [t|]; [destruct local|];
    try (apply rect_width; auto; fail).
  destruct train; [congruence|]. simpl. inversion R; auto.
Qed.

Lemma stat_data_nonempty local train test : train <> [] -> stat_data local train test <> [].
Proof.
  intros NE. unfold stat_data. destruct test as [t|]; [destruct local|]; auto.
  destruct train; [congruence|discriminate].
Qed.

(** ** Column selection *)
Lemma mask_select_seq {A} (P : nat -> bool) (row : list A) d k :
  mask_select (map P (seq k (length row))) row =
  map (fun j => nth (j - k) row d) (filter P (seq k (length row))).
Proof.
  revert k. induction row as [|x t IH]; intros k; simpl; auto.
  rewrite IH. destruct (P k); simpl.
  - rewrite Nat.sub_diag. f_equal. apply map_ext_in. intros j Hj.
    apply filter_In in Hj. destruct Hj as [Hj _]. apply in_seq in Hj.
    replace (j - k)%nat with (S (j - S k)) by lia. reflexivity.
  - apply map_ext_in. intros j Hj.
    apply filter_In in Hj. destruct Hj as [Hj _]. apply in_seq in Hj.
    replace (j - k)%nat with (S (j - S k)) by lia. reflexivity.
Qed.

Lemma mask_select_gather {A} (P : nat -> bool) w (row : list A) d :
  length row = w ->
  mask_select (map P (seq 0 w)) row = gather d row (filter P (seq 0 w)).
Proof.
  intros <-. rewrite (mask_select_seq P row d 0). unfold gather. apply map_ext.
  intros j. rewrite Nat.sub_0_r. reflexivity.
Qed.

Lemma select_cols_ok {A} (P : nat -> bool) w (m : list (list A)) d :
  rect w m ->
  select_cols (map P (seq 0 w)) m = Ok (map (fun r => gather d r (filter P (seq 0 w))) m).
Proof.
  intros R. unfold select_cols. rewrite map_length, seq_length.
  assert (F : forallb (fun r : list A => (length r =? w)%nat) m = true).
  { apply forallb_forall. unfold rect in R. rewrite Forall_forall in R. intros r Hr.
    apply Nat.eqb_eq. auto. }
  rewrite F. f_equal. apply map_ext_in. intros r Hr. apply mask_select_gather.
  unfold rect in R. rewrite Forall_forall in R. auto.
Qed.

Lemma mask_select_map_filter {A B} (f : A -> bool) (l : list A) (l' : list B) :
  length l = length l' ->
  combine (mask_select (map f l) l) (mask_select (map f l) l') =
  filter (fun p => f (fst p)) (combine l l').
Proof.
  revert l'. induction l as [|x t IH]; intros [|y t'] L; simpl in *; auto; try discriminate.
  destruct (f x); simpl; [f_equal|]; apply IH; lia.
Qed.

Lemma mask_select_same_length {A B} m (l : list A) (l' : list B) :
  length l = length l' -> length (mask_select m l) = length (mask_select m l').
Proof.
  revert m l'. induction l as [|x t IH]; intros m [|y t'] L; simpl in *; try discriminate; destruct m; auto.
  destruct b; simpl; auto.
Qed.

Lemma mask_select_filter {A} (f : A -> bool) l : mask_select (map f l) l = filter f l.
Proof. induction l as [|x t IH]; simpl; auto. destruct (f x); rewrite IH; auto. Qed.

Lemma filter_filter_and {A} (f g : A -> bool) l :
  filter g (filter f l) = filter (fun x => f x && g x) l.
Proof.
  induction l as [|x t IH]; simpl; auto.
  destruct (f x); simpl; [|auto]. destruct (g x); rewrite IH; auto.
Qed.
