(** Properties C27, C71, C72: acquisition functions. *)
From Coq Require Import Reals Lra Psatz List Arith Lia Permutation.
From Coquelicot Require Import Coquelicot.
From Verif Require Import Base BaseFacts GAOpsProofs AcqModel AcqProofs.
Import ListNotations.
Open Scope R_scope.

(** ** Specification *)

(** [better obj p q]: prediction [p] is strictly better than [q]. *)
Definition better (obj : objective) (p q : R) : Prop :=
  match obj with Max => q < p | Min => p < q | Value _ => False end.

(** The acquisition value [f prediction uncertainty] is strictly higher for the
    better prediction at equal, positive uncertainty. *)
Definition respects (obj : objective) (f : R -> R -> option R) : Prop :=
  forall p q u, 0 < u -> better obj p q ->
    exists v w, f p u = Some v /\ f q u = Some w /\ w < v.

(** It is higher for the more uncertain of two equal predictions. *)
Definition explores (f : R -> R -> option R) : Prop :=
  forall p u1 u2, 0 < u1 -> u1 < u2 ->
    exists v w, f p u1 = Some v /\ f p u2 = Some w /\ v <= w.

Definition is_goal (obj : objective) : Prop := obj = Max \/ obj = Min.

(** C27 for expected improvement. *)
Theorem ei_respects_objective :
  forall y obj, is_goal obj ->
  respects obj (fun p u => EI y p u obj) /\ explores (fun p u => EI y p u obj) /\
  forall p u, 0 < u -> exists v, EI y p u obj = Some v /\ 0 <= v.
Proof.
  assert (Emax : forall y p u, EI y p u Max = Some (eif (p - y) u)) by reflexivity.
  assert (Emin : forall y p u, EI y p u Min = Some (eif (y - p) u)).
  { intros. unfold EI, eif. f_equal. replace (- p + y) with (y - p) by ring. ring. }
  intros y obj [-> | ->].
  - split; [|split].
    + intros p q u Hu Hb. rewrite !Emax. do 2 eexists. split; [reflexivity|]. split; [reflexivity|].
      simpl in Hb. apply eif_lt_d; lra.
    + intros p u1 u2 H1 H2. rewrite !Emax. do 2 eexists. split; [reflexivity|]. split; [reflexivity|].
      left. apply eif_lt_s; auto.
    + intros p u Hu. rewrite Emax. eexists. split; [reflexivity|]. apply eif_ge0. auto.
  - split; [|split].
    + intros p q u Hu Hb. rewrite !Emin. do 2 eexists. split; [reflexivity|]. split; [reflexivity|].
      simpl in Hb. apply eif_lt_d; lra.
    + intros p u1 u2 H1 H2. rewrite !Emin. do 2 eexists. split; [reflexivity|]. split; [reflexivity|].
      left. apply eif_lt_s; auto.
    + intros p u Hu. rewrite Emin. eexists. split; [reflexivity|]. apply eif_ge0. auto.
Qed.

Example better_case : better Min (-3) 2 /\ better Max 2 (-3).
Proof. simpl. lra. Qed.

(** C27 for probability of improvement: strictly increasing in the better
    direction, and a prediction at least as good as the best one has at least
    the probability norm_cdf 0. *)
Theorem pi_respects_objective :
  forall y obj, is_goal obj -> respects obj (fun p u => PI_ y p u obj).
Proof.
  intros y obj [-> | ->] p q u Hu Hb; simpl in Hb; do 2 eexists; (split; [reflexivity|]); (split; [reflexivity|]);
    apply norm_cdf_increasing.
  - apply Rmult_lt_compat_r; [apply Rinv_0_lt_compat; auto|lra].
  - apply Ropp_lt_contravar. apply Rmult_lt_compat_r; [apply Rinv_0_lt_compat; auto|lra].
Qed.

(** C27 for UCB, the part that holds: minimisation. *)
Theorem ucb_min_respects_objective_partial :
  forall kappa, 0 <= kappa ->
  respects Min (fun p u => UCB p u Min kappa) /\ explores (fun p u => UCB p u Min kappa) /\
  explores (fun p u => UCB p u Max kappa).
Proof.
  intros kappa Hk. split; [|split].
  - intros p q u Hu Hb. simpl in *. do 2 eexists. split; [reflexivity|]. split; [reflexivity|]. lra.
  - intros p u1 u2 H1 H2. simpl. do 2 eexists. split; [reflexivity|]. split; [reflexivity|]. nra.
  - intros p u1 u2 H1 H2. simpl. do 2 eexists. split; [reflexivity|]. split; [reflexivity|]. nra.
Qed.

(** ... and refuted for maximisation: among any two predictions with equal
    uncertainty the worse one gets the strictly higher value, and the two
    objectives give the same numbers. *)
Theorem ucb_max_respects_objective_refuted :
  forall kappa,
  (forall p u, UCB p u Max kappa = UCB p u Min kappa) /\
  (forall p q u, better Max p q ->
     exists v w, UCB p u Max kappa = Some v /\ UCB q u Max kappa = Some w /\ v < w).
Proof.
  intros kappa. split.
  - intros p u. simpl. f_equal. ring.
  - intros p q u Hb. simpl in *. do 2 eexists. split; [reflexivity|]. split; [reflexivity|]. lra.
Qed.

(** C27 for optimistic: right for maximisation, refuted for minimisation (rank
    calls it with the objective's best target in both cases). *)
Theorem optimistic_max_respects_objective_partial :
  forall y, respects Max (fun p u => Some (optimistic y p u)) /\ explores (fun p u => Some (optimistic y p u)).
Proof.
  intros y. split.
  - intros p q u Hu Hb. simpl in Hb. do 2 eexists. split; [reflexivity|]. split; [reflexivity|]. unfold optimistic. lra.
  - intros p u1 u2 H1 H2. do 2 eexists. split; [reflexivity|]. split; [reflexivity|]. unfold optimistic. lra.
Qed.

Theorem optimistic_min_respects_objective_refuted :
  forall targets kappa p q u, targets <> [] -> better Min p q ->
  exists v w, rank Moptimistic targets Min kappa [(p, u); (q, u)] = Ok [Some v; Some w] /\ v < w.
Proof.
  intros targets kappa p q u Hne Hb. destruct targets as [|t ts]; [congruence|].
  unfold rank. simpl. do 2 eexists. split; [reflexivity|]. unfold optimistic. simpl in Hb. lra.
Qed.

(** proximity prefers predictions closer to the target value. *)
Theorem proximity_prefers_closer :
  forall y p q u,
  Rabs (p - y) < Rabs (q - y) ->
  proximity y q < proximity y p /\ optimistic_proximity y q u < optimistic_proximity y p u /\
  (forall u', u < u' -> optimistic_proximity y p u < optimistic_proximity y p u').
Proof. intros. unfold proximity, optimistic_proximity. split; [lra|]. split; [lra|]. intros. lra. Qed.

Example proximity_case : Rabs (3 - 2) < Rabs (-1 - 2).
Proof. rewrite (Rabs_right (3 - 2)), (Rabs_left (-1 - 2)) by lra. lra. Qed.

(** probability_density prefers predictions closer to the target value. *)
Theorem probability_density_prefers_closer :
  forall y p q u, 0 < u -> Rabs (p - y) < Rabs (q - y) ->
  probability_density y q u < probability_density y p u.
Proof.
  intros y p q u Hu H. unfold probability_density. apply Rmult_lt_compat_r; [apply Rinv_0_lt_compat; auto|].
  unfold norm_pdf. apply Rmult_lt_compat_r; [apply Rinv_0_lt_compat, sqrt_2pi_pos|].
  apply exp_increasing.
  assert (Hsq : (p - y) ^ 2 < (q - y) ^ 2).
  { rewrite <- (pow2_abs (p - y)), <- (pow2_abs (q - y)). pose proof (Rabs_pos (p - y)). nra. }
  assert (E : forall a b, ((a - b) / u) ^ 2 = (b - a) ^ 2 * / u ^ 2) by (intros; field; lra).
  rewrite !E. pose proof (Rinv_0_lt_compat (u ^ 2) ltac:(nra)). nra.
Qed.

(** rank: the reference is the best target for the objective, and each name selects the
    acquisition function of that name. *)
Lemma fold_max_spec ts : forall t, In (fold_left Rmax ts t) (t :: ts) /\ forall x, In x (t :: ts) -> x <= fold_left Rmax ts t.
Proof.
  induction ts as [|a ts IH]; intros t; cbn [fold_left]; [split; [left; auto|intros x [->|[]]; lra]|].
  destruct (IH (Rmax t a)) as [H1 H2]. split.
  - destruct H1 as [H1|H1]; [|right; right; auto]. rewrite <- H1. unfold Rmax. destruct (Rle_dec t a); [right; left; auto|left; auto].
  - intros x [->|[->|Hx]]; [| |apply H2; right; auto].
    + apply Rle_trans with (Rmax x a); [apply Rmax_l|apply H2; left; auto].
    + apply Rle_trans with (Rmax t x); [apply Rmax_r|apply H2; left; auto].
Qed.
Lemma fold_min_spec ts : forall t, In (fold_left Rmin ts t) (t :: ts) /\ forall x, In x (t :: ts) -> fold_left Rmin ts t <= x.
Proof.
  induction ts as [|a ts IH]; intros t; cbn [fold_left]; [split; [left; auto|intros x [->|[]]; lra]|].
  destruct (IH (Rmin t a)) as [H1 H2]. split.
  - destruct H1 as [H1|H1]; [|right; right; auto]. rewrite <- H1. unfold Rmin. destruct (Rle_dec t a); [left; auto|right; left; auto].
  - intros x [->|[->|Hx]]; [| |apply H2; right; auto].
    + apply Rle_trans with (Rmin x a); [apply H2; left; auto|apply Rmin_l].
    + apply Rle_trans with (Rmin t x); [apply H2; left; auto|apply Rmin_r].
Qed.
Theorem rank_scores : forall targets obj kappa pus, is_goal obj ->
  (targets = [] -> forall m, rank m targets obj kappa pus = Err ValueError) /\
  (targets <> [] -> exists y, In y targets /\ (forall t, In t targets -> ~ better obj t y) /\
     rank MEI targets obj kappa pus = Ok (map (fun pu => EI y (fst pu) (snd pu) obj) pus) /\
     rank MPI targets obj kappa pus = Ok (map (fun pu => PI_ y (fst pu) (snd pu) obj) pus) /\
     rank MUCB targets obj kappa pus = Ok (map (fun pu => UCB (fst pu) (snd pu) obj kappa) pus) /\
     rank Moptimistic targets obj kappa pus = Ok (map (fun pu => Some (fst pu + snd pu - y)) pus) /\
     rank Mpdf targets obj kappa pus = Ok (map (fun pu => Some (probability_density y (fst pu) (snd pu))) pus)) /\
  forall y, rank Moptimistic targets (Value y) kappa pus = Ok (map (fun pu => Some (fst pu + snd pu - y)) pus) /\
     rank Mpdf targets (Value y) kappa pus = Ok (map (fun pu => Some (probability_density y (fst pu) (snd pu))) pus).
Proof.
  intros targets obj kappa pus G. split; [|split].
  - intros -> m. destruct G as [-> | ->]; reflexivity.
  - intros HN. destruct targets as [|t ts]; [contradiction|]. destruct G as [-> | ->].
    + destruct (fold_max_spec ts t) as [H1 H2]. eexists. split; [exact H1|]. split; [|repeat split; reflexivity].
      intros x Hx. cbn. pose proof (H2 x Hx). lra.
    + destruct (fold_min_spec ts t) as [H1 H2]. eexists. split; [exact H1|]. split; [|repeat split; reflexivity].
      intros x Hx. cbn. pose proof (H2 x Hx). lra.
  - intros y. split; reflexivity.
Qed.

(** C71. A float objective (documented as allowed in rank) leaves UCB, EI and PI
    without any value. *)
Theorem rank_float_objective_refuted :
  forall m targets y kappa pus, In m [MUCB; MEI; MPI] ->
  rank m targets (Value y) kappa pus = Ok (map (fun _ => None) pus).
Proof.
  intros m targets y kappa pus [<-|[<-|[<-|[]]]]; reflexivity.
Qed.

(** C72. classify: the classes have no influence at all; the result is that of
    rank, for every classifier. *)
Lemma fold_left_ext_in {A B} (f g : A -> B -> A) l a :
  (forall a b, In b l -> f a b = g a b) -> fold_left f l a = fold_left g l a.
Proof.
  revert a; induction l as [|b l IH]; simpl; intros a H; auto. rewrite H by auto. apply IH. auto.
Qed.

Section Classify.
Context {K : Type}.
Variable keqb : K -> K -> bool.

Definition members (g : list (K * list nat)) : list nat := concat (map snd g).

Lemma add_to_group_members g c i : Permutation (members (add_to_group keqb g c i)) (i :: members g).
Proof.
  induction g as [|[c' l] g IH]; simpl; auto.
  destruct (keqb c' c); unfold members in *; simpl.
  - rewrite <- app_assoc. simpl. symmetry. apply Permutation_middle.
  - rewrite IH. symmetry. apply Permutation_middle.
Qed.

Lemma groups_members_gen (ps : list (nat * K)) g :
  Permutation (members (fold_left (fun g p => add_to_group keqb g (snd p) (fst p)) ps g))
              (map fst ps ++ members g).
Proof.
  revert g; induction ps as [|[i c] ps IH]; simpl; intros g; auto.
  rewrite IH, add_to_group_members. symmetry. apply Permutation_middle.
Qed.

Lemma groups_members cls : Permutation (members (groups keqb cls)) (seq 0 (length cls)).
Proof.
  unfold groups. rewrite groups_members_gen. unfold members at 1. simpl. rewrite app_nil_r.
  rewrite map_combine_fst by (rewrite seq_length; auto). auto.
Qed.

Lemma combine_map_fun {V} (f : nat -> V) l : combine l (map f l) = map (fun i => (i, f i)) l.
Proof. induction l; simpl; congruence. Qed.

Lemma scatter_all {V} (f : nat -> V) gs (res : list V) :
  fold_left (fun res g => scatter (snd g) (map f (snd g)) res) gs res
  = fold_left (fun r i => set_nth i (f i) r) (members gs) res.
Proof.
  revert res; induction gs as [|[c l] gs IH]; simpl; intros res; auto.
  rewrite IH. unfold members; simpl. rewrite fold_left_app. f_equal.
  unfold scatter. rewrite combine_map_fun. clear. revert res. induction l; simpl; auto.
Qed.
End Classify.

Theorem classify_ignores_classes_refuted :
  forall (K : Type) (keqb : K -> K -> bool) m train_cls test_cls targets obj kappa pus,
  train_cls <> [] -> length test_cls = length pus ->
  classify keqb m train_cls test_cls targets obj kappa pus = rank m targets obj kappa pus.
Proof.
  intros K keqb m train_cls test_cls targets obj kappa pus Hne HL.
  unfold classify, rank. destruct train_cls as [|c0 cs]; [congruence|].
  destruct (y_best_of targets obj) as [y|e]; simpl; auto. f_equal.
  set (f := fun i => metric_value m obj kappa y (nth i pus (0, 0))).
  rewrite (fold_left_ext_in _ (fun res g => scatter (snd g) (map f (snd g)) res)).
  2:{ intros res g _. f_equal. unfold gather. rewrite map_map. reflexivity. }
  rewrite scatter_all.
  pose proof (groups_members keqb test_cls) as HP. rewrite HL in *.
  apply list_ext_nth with (d := Some 0).
  - rewrite fold_set_nth_length, repeat_length, map_length. auto.
  - rewrite fold_set_nth_length, repeat_length. intros i Hi.
    rewrite (fold_set_nth f) by (rewrite repeat_length; auto).
    rewrite (@nth_map_lt _ _ _ _ _ (0, 0)) by auto.
    assert (existsb (Nat.eqb i) (members (groups keqb test_cls)) = true) as ->; auto.
    apply existsb_exists. exists i. split; [|apply Nat.eqb_refl].
    eapply Permutation_in; [symmetry; exact HP|]. apply in_seq. lia.
Qed.

(** Two classes whose own best targets differ: the candidate of class 1 exceeds
    the best of its class by 2, yet is scored against the overall best 10. *)
Example classify_case :
  classify Nat.eqb Moptimistic [0; 1]%nat [0; 1; 0]%nat [10; 1] Max 1 [(9, 1); (3, 0); (11, 1)]
  = Ok [Some (optimistic (Rmax 10 1) 9 1); Some (optimistic (Rmax 10 1) 3 0); Some (optimistic (Rmax 10 1) 11 1)].
Proof. reflexivity. Qed.

Print Assumptions ei_respects_objective.
Print Assumptions pi_respects_objective.
Print Assumptions ucb_min_respects_objective_partial.
Print Assumptions ucb_max_respects_objective_refuted.
Print Assumptions optimistic_max_respects_objective_partial.
Print Assumptions optimistic_min_respects_objective_refuted.
Print Assumptions proximity_prefers_closer.
Print Assumptions probability_density_prefers_closer.
Print Assumptions rank_float_objective_refuted.
Print Assumptions classify_ignores_classes_refuted.
Print Assumptions norm_cdf_is_integral.
Print Assumptions rank_scores.
