(** Real-valued lists: numpy's reductions (sum, mean, std, min, max, median) over
    a one dimensional array, with real numbers for floats. *)
From Coq Require Import Reals List Bool Arith Lia Lra Permutation Sorting.Sorted.
From Verif Require Import Base BaseFacts.
Import ListNotations.
Open Scope R_scope.

Definition Rltb (x y : R) : bool := if Rlt_dec x y then true else false.
Definition Rleb (x y : R) : bool := if Rle_dec x y then true else false.
Definition Reqb (x y : R) : bool := if Req_EM_T x y then true else false.

(** np.sum, np.mean, np.var and np.std (population formulas). *)
Fixpoint sumR (l : list R) : R := match l with [] => 0 | x :: t => x + sumR t end.
Definition mean (l : list R) : R := sumR l / INR (length l).
Definition var (l : list R) : R := mean (map (fun x => (x - mean l) ^ 2) l).
Definition std (l : list R) : R := sqrt (var l).

(** np.max, np.min of a non-empty array (0 for an empty one, where numpy raises). *)
Definition lmax (l : list R) : R := match l with [] => 0 | x :: t => fold_left Rmax t x end.
Definition lmin (l : list R) : R := match l with [] => 0 | x :: t => fold_left Rmin t x end.

(** np.median of a non-empty array. *)
Definition median (l : list R) : R :=
  let s := isort Rleb l in
  let n := length l in
  if Nat.even n then (nth (n / 2 - 1) s 0 + nth (n / 2) s 0) / 2 else nth (n / 2) s 0.

Lemma Rltb_true x y : Rltb x y = true <-> x < y.
Proof. unfold Rltb. destruct (Rlt_dec x y); split; auto; discriminate. Qed.
Lemma Rltb_false x y : Rltb x y = false <-> y <= x.
Proof. unfold Rltb. destruct (Rlt_dec x y); split; auto; try discriminate; intros; lra. Qed.
Lemma Rleb_true x y : Rleb x y = true <-> x <= y.
Proof. unfold Rleb. destruct (Rle_dec x y); split; auto; discriminate. Qed.
Lemma Rleb_false x y : Rleb x y = false <-> y < x.
Proof. unfold Rleb. destruct (Rle_dec x y); split; auto; try discriminate; intros; lra. Qed.
Lemma Reqb_true x y : Reqb x y = true <-> x = y.
Proof. unfold Reqb. destruct (Req_EM_T x y); split; auto; discriminate. Qed.
Lemma Reqb_false x y : Reqb x y = false <-> x <> y.
Proof. unfold Reqb. destruct (Req_EM_T x y); split; auto; try discriminate; tauto. Qed.
Lemma Reqb_refl x : Reqb x x = true.
Proof. apply Reqb_true; auto. Qed.

Lemma Rleb_total_order : total_order Rleb.
Proof.
  split; [split|].
  - intros x y. rewrite !Rleb_true. lra.
  - intros x y z. rewrite !Rleb_true. lra.
  - intros x y. rewrite !Rleb_true. lra.
Qed.

Lemma sumR_app l1 l2 : sumR (l1 ++ l2) = sumR l1 + sumR l2.
Proof. induction l1; simpl; lra. Qed.

Lemma sumR_perm l1 l2 : Permutation l1 l2 -> sumR l1 = sumR l2.
Proof. induction 1; simpl; lra. Qed.

Lemma sumR_map_plus {A} (f g : A -> R) l :
  sumR (map (fun x => f x + g x) l) = sumR (map f l) + sumR (map g l).
Proof. induction l; simpl; lra. Qed.

Lemma sumR_map_minus {A} (f g : A -> R) l :
  sumR (map (fun x => f x - g x) l) = sumR (map f l) - sumR (map g l).
Proof. induction l; simpl; lra. Qed.

Lemma sumR_map_scal {A} (f : A -> R) c l : sumR (map (fun x => c * f x) l) = c * sumR (map f l).
Proof. induction l; simpl; lra. Qed.

Lemma sumR_map_const {A} c (l : list A) : sumR (map (fun _ => c) l) = INR (length l) * c.
Proof.
  induction l as [|x t IH]; [simpl; lra|]. cbn [map sumR length].
  rewrite IH, S_INR. lra.
Qed.

Lemma sumR_map_ext {A} (f g : A -> R) l : (forall x, In x l -> f x = g x) -> sumR (map f l) = sumR (map g l).
Proof.
  induction l as [|x t IH]; simpl; intros H; auto. rewrite H by auto. rewrite IH by auto. reflexivity.
Qed.

Lemma sumR_nonneg l : (forall x, In x l -> 0 <= x) -> 0 <= sumR l.
Proof.
  induction l as [|x t IH]; simpl; intros H; [lra|].
  assert (0 <= x) by auto. assert (0 <= sumR t) by auto. lra.
Qed.

Lemma sumR_le {A} (f g : A -> R) l : (forall x, In x l -> f x <= g x) -> sumR (map f l) <= sumR (map g l).
Proof.
  induction l as [|x t IH]; simpl; intros H; [lra|].
  assert (f x <= g x) by auto. assert (sumR (map f t) <= sumR (map g t)) by auto. lra.
Qed.

Lemma sumR_zero_all l : (forall x, In x l -> 0 <= x) -> sumR l = 0 -> forall x, In x l -> x = 0.
Proof.
  induction l as [|x t IH]; simpl; intros H S y; [tauto|].
  assert (0 <= x) by auto. assert (0 <= sumR t) by (apply sumR_nonneg; auto).
  intros [<-|Hy]; [lra|]. apply IH; auto. lra.
Qed.

Lemma length_pos {A} (l : list A) : l <> [] -> 0 < INR (length l).
Proof. destruct l; [congruence|]. intros _. apply lt_0_INR. simpl. lia. Qed.

Lemma mean_const c l : l <> [] -> (forall x, In x l -> x = c) -> mean l = c.
Proof.
  intros NE H. unfold mean. pose proof (length_pos l NE).
  rewrite <- (map_id l) at 1.
  rewrite (sumR_map_ext _ (fun _ => c)) by auto. rewrite sumR_map_const. field. lra.
Qed.

Lemma mean_nonneg l : (forall x, In x l -> 0 <= x) -> 0 <= mean l.
Proof.
  intros H. unfold mean. pose proof (sumR_nonneg l H).
  destruct l as [|x t]; [simpl; unfold Rdiv; lra|].
  apply Rmult_le_pos; auto. left. apply Rinv_0_lt_compat, length_pos. discriminate.
Qed.

Lemma var_nonneg l : 0 <= var l.
Proof.
  apply mean_nonneg. intros x Hx. apply in_map_iff in Hx. destruct Hx as [y [<- _]]. apply pow2_ge_0.
Qed.

Lemma var_zero l x : var l = 0 -> In x l -> x = mean l.
Proof.
  intros V Hx. assert (NE : l <> []) by (destruct l; [destruct Hx|discriminate]).
  pose proof (length_pos l NE) as L.
  set (sq := map (fun y => (y - mean l) ^ 2) l) in *.
  assert (LS : length sq = length l) by (unfold sq; apply map_length).
  assert (S0 : sumR sq = 0).
  { unfold var in V. fold sq in V. unfold mean in V. rewrite LS in V.
    apply (Rmult_eq_compat_r (INR (length l))) in V. rewrite Rmult_0_l in V.
    unfold Rdiv in V. rewrite Rmult_assoc, Rinv_l in V by lra. lra. }
  assert (Z : (x - mean l) ^ 2 = 0).
  { apply (sumR_zero_all sq).
    - intros y Hy. unfold sq in Hy. apply in_map_iff in Hy. destruct Hy as [z [<- _]]. apply pow2_ge_0.
    - exact S0.
    - unfold sq. apply in_map_iff. exists x; auto. }
  assert (x - mean l = 0).
  { destruct (Req_dec (x - mean l) 0) as [|N]; auto. exfalso. revert Z. apply pow_nonzero; auto. }
  lra.
Qed.

Lemma std_zero_iff l : std l = 0 <-> var l = 0.
Proof.
  unfold std. split.
  - apply sqrt_eq_0, var_nonneg.
  - intros ->. apply sqrt_0.
Qed.

Lemma std_sq l : std l ^ 2 = var l.
Proof. unfold std. rewrite <- Rsqr_pow2. apply Rsqr_sqrt, var_nonneg. Qed.

(** Affine maps. *)
Lemma mean_affine m s l : l <> [] -> mean (map (fun x => (x - m) / s) l) = (mean l - m) / s.
Proof.
  intros NE. pose proof (length_pos l NE) as L. unfold mean. rewrite map_length.
  rewrite (sumR_map_ext _ (fun x => / s * (x - m))) by (intros; unfold Rdiv; ring).
  rewrite sumR_map_scal, sumR_map_minus, map_id, sumR_map_const. 
  unfold Rdiv. set (n := INR (length l)) in *. set (q := / s).
  replace (q * (sumR l - n * m) * / n) with (sumR l * / n * q - m * q * (n * / n)) by ring.
  rewrite Rinv_r by lra. ring.
Qed.

Lemma var_affine m s l : l <> [] -> var (map (fun x => (x - m) / s) l) = var l / s ^ 2.
Proof.
  intros NE. unfold var at 1. rewrite mean_affine by auto.
  rewrite map_map. unfold var, mean. rewrite !map_length.
  rewrite (sumR_map_ext _ (fun x => / s ^ 2 * (x - mean l) ^ 2)).
  - rewrite sumR_map_scal. fold (mean l). unfold Rdiv. ring.
  - intros x _. unfold Rdiv. rewrite <- pow_inv. unfold mean, Rdiv. ring.
Qed.

(** Minimum and maximum. *)
Lemma fold_Rmax_spec t x : x <= fold_left Rmax t x /\ (forall y, In y t -> y <= fold_left Rmax t x) /\
  (fold_left Rmax t x = x \/ In (fold_left Rmax t x) t).
Proof.
  revert x. induction t as [|z t IH]; intros x; simpl; [split; [lra|split; [tauto|auto]]|].
  destruct (IH (Rmax x z)) as [A [B C]]. pose proof (Rmax_l x z). pose proof (Rmax_r x z).
  split; [lra|]. split.
  - intros y [<-|Hy]; [lra|auto].
  - destruct C as [C|C]; [|auto]. rewrite C. unfold Rmax. destruct (Rle_dec x z); auto.
Qed.

Lemma fold_Rmin_spec t x : fold_left Rmin t x <= x /\ (forall y, In y t -> fold_left Rmin t x <= y) /\
  (fold_left Rmin t x = x \/ In (fold_left Rmin t x) t).
Proof.
  revert x. induction t as [|z t IH]; intros x; simpl; [split; [lra|split; [tauto|auto]]|].
  destruct (IH (Rmin x z)) as [A [B C]]. pose proof (Rmin_l x z). pose proof (Rmin_r x z).
  split; [lra|]. split.
  - intros y [<-|Hy]; [lra|auto].
  - destruct C as [C|C]; [|auto]. rewrite C. unfold Rmin. destruct (Rle_dec x z); auto.
Qed.

Lemma lmax_ge l x : In x l -> x <= lmax l.
Proof.
  destruct l as [|y t]; [intros []|]. simpl. destruct (fold_Rmax_spec t y) as [A [B _]].
  intros [<-|H]; auto.
Qed.

Lemma lmax_in l : l <> [] -> In (lmax l) l.
Proof.
  destruct l as [|y t]; [congruence|]. intros _. simpl.
  destruct (fold_Rmax_spec t y) as [_ [_ [H|H]]]; auto.
Qed.

Lemma lmin_le l x : In x l -> lmin l <= x.
Proof.
  destruct l as [|y t]; [intros []|]. simpl. destruct (fold_Rmin_spec t y) as [A [B _]].
  intros [<-|H]; auto.
Qed.

Lemma lmin_in l : l <> [] -> In (lmin l) l.
Proof.
  destruct l as [|y t]; [congruence|]. intros _. simpl.
  destruct (fold_Rmin_spec t y) as [_ [_ [H|H]]]; auto.
Qed.

Lemma lmax_unique l m : In m l -> (forall x, In x l -> x <= m) -> lmax l = m.
Proof.
  intros Hm H. assert (NE : l <> []) by (destruct l; [destruct Hm|discriminate]).
  apply Rle_antisym; [apply H, lmax_in; auto|apply lmax_ge; auto].
Qed.

Lemma lmin_unique l m : In m l -> (forall x, In x l -> m <= x) -> lmin l = m.
Proof.
  intros Hm H. assert (NE : l <> []) by (destruct l; [destruct Hm|discriminate]).
  apply Rle_antisym; [apply lmin_le; auto|apply H, lmin_in; auto].
Qed.
