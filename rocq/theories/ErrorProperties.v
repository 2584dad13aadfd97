(** Properties of error statistics (C50) and of the training cost function. *)
From Coq Require Import Reals Lra Lia List Arith Bool ZArith Permutation Sorting.Sorted.
From Verif Require Import Base BaseFacts RBase LinAlg KernModel GPModel GPProofs GPMoreProofs.
Import ListNotations.
Open Scope R_scope.

(** ** Specification: residuals p_i - t_i *)
Definition residual (p t : list R) (i : nat) : R := nth i p 0 - nth i t 0.

Lemma residuals_nth p t i : length p = length t -> (i < length p)%nat ->
  nth i (map (fun p => fst p - snd p) (combine p t)) 0 = residual p t i.
Proof.
  intros HL Hi. rewrite (nth_map_lt _ _ _ (0, 0)) by (rewrite combine_length; lia). rewrite combine_nth by auto. auto.
Qed.

Lemma mean_map_sum {A} (f : A -> R) (l : list A) d : mean (map f l) = Sum (length l) (fun i => f (nth i l d)) / INR (length l).
Proof.
  unfold mean. rewrite map_length. f_equal. rewrite Sum_list. f_equal.
  apply (list_ext_nth 0); [rewrite !map_length, seq_length; auto|]. intros i Hi. rewrite map_length in Hi.
  rewrite (nth_map_lt _ _ _ d) by auto. rewrite (nth_map_lt _ _ _ 0%nat) by (rewrite seq_length; auto). rewrite seq_nth by auto. auto.
Qed.

Lemma get_error_ok p t ins eps st : get_error p t ins eps = Ok st -> length p = length t.
Proof. unfold get_error. destruct (Nat.eqb_spec (length p) (length t)); [auto|discriminate]. Qed.

(** get_error raises exactly when the lengths differ. *)
Theorem get_error_lengths : forall p t eps,
  ((exists st, get_error p t false eps = Ok st) <-> length p = length t) /\
  (length p <> length t -> forall ins, get_error p t ins eps = Err AssertionError) /\
  ((exists st, get_error p t true eps = Ok st) <-> length p = length t /\ eps <> None).
Proof.
  intros p t eps. unfold get_error. destruct (Nat.eqb_spec (length p) (length t)) as [E|E]; cbn [negb]; split; [|split| |split].
  - split; auto. intros _. cbn. eauto.
  - intros; contradiction.
  - destruct eps; cbn; split; try (intros [? ?]; discriminate); try (intros [? ?]; congruence); eauto. intros _. split; auto. discriminate.
  - split; [intros [? ?]; discriminate|intros; contradiction].
  - auto.
  - split; [intros [? ?]; discriminate|intros [? _]; contradiction].
Qed.
Print Assumptions get_error_lengths.

(** The averages are what their names say. *)
Lemma averages p t ins eps st : get_error p t ins eps = Ok st -> let n := length p in
  e_signed_mean st = Sum n (residual p t) / INR n /\
  e_abs_average st = Sum n (fun i => Rabs (residual p t i)) / INR n /\
  e_rmse_average st = sqrt (Sum n (fun i => residual p t i ^ 2) / INR n).
Proof.
  intros H n. pose proof (get_error_ok _ _ _ _ _ H) as HL. unfold get_error in H. rewrite HL, Nat.eqb_refl in H. cbn [negb] in H.
  match type of H with bind ?x _ = _ => destruct x as [ins'|]; [|discriminate H] end. cbn [bind] in H. injection H as <-. cbn [e_signed_mean e_abs_average e_rmse_average].
  assert (LC : length (combine p t) = n) by (rewrite combine_length; unfold n; lia).
  assert (G : forall f : R -> R, mean (map f (map (fun p => fst p - snd p) (combine p t))) = Sum n (fun i => f (residual p t i)) / INR n).
  { intros f. rewrite (mean_map_sum f _ 0), map_length, LC. f_equal. apply Sum_ext. intros i Hi. rewrite residuals_nth by auto. auto. }
  split; [|split].
  - rewrite <- (map_id (map _ _)). rewrite (G (fun x => x)). auto.
  - apply G.
  - f_equal. rewrite G. f_equal. apply Sum_ext. intros; ring.
Qed.

Theorem error_statistics : forall p t ins eps st, get_error p t ins eps = Ok st ->
  let n := length p in
  e_residuals st = map (residual p t) (seq 0 n) /\
  e_abs_all st = map (fun i => Rabs (residual p t i)) (seq 0 n) /\
  e_rmse_all st = e_abs_all st /\
  e_signed_mean st = Sum n (residual p t) / INR n /\
  e_abs_average st = Sum n (fun i => Rabs (residual p t i)) / INR n /\
  e_rmse_average st = sqrt (Sum n (fun i => residual p t i ^ 2) / INR n).
Proof.
  intros p t ins eps st H n. destruct (averages _ _ _ _ _ H) as [A1 [A2 A3]].
  pose proof (get_error_ok _ _ _ _ _ H) as HL. unfold get_error in H. rewrite HL, Nat.eqb_refl in H. cbn [negb] in H.
  match type of H with bind ?x _ = _ => destruct x as [ins'|]; [|discriminate H] end. cbn [bind] in H. injection H as <-.
  cbn [e_residuals e_abs_all e_rmse_all e_signed_mean e_abs_average e_rmse_average] in *.
  assert (LC : length (combine p t) = n) by (rewrite combine_length; unfold n; lia).
  assert (ER : map (fun p => fst p - snd p) (combine p t) = map (residual p t) (seq 0 n)).
  { apply (list_ext_nth 0); [rewrite !map_length, seq_length; auto|]. intros i Hi. rewrite map_length, LC in Hi.
    rewrite residuals_nth by auto. rewrite (nth_map_lt _ _ _ 0%nat) by (rewrite seq_length; auto). rewrite seq_nth by auto. auto. }
  split; [auto|]. split; [rewrite ER, map_map; auto|]. split; [|auto].
  rewrite map_map. apply map_ext. intros r. apply sqrt_Rsqr_abs.
Qed.
Print Assumptions error_statistics.

(** ** C50: 0 <= MAE <= RMSE <= largest error, |signed mean| <= MAE, zero iff equal *)

Lemma Sum_cauchy n f : Sum n f ^ 2 <= INR n * Sum n (fun i => f i ^ 2).
Proof.
  destruct n as [|n]; [cbn; lra|]. set (m := S n). assert (Hm : 0 < INR m) by (apply lt_0_INR; unfold m; lia).
  assert (H : 0 <= Sum m (fun i => (INR m * f i - Sum m f) ^ 2)) by (apply Sum_nonneg; intros; apply pow2_ge_0).
  rewrite (Sum_ext m _ (fun i => INR m ^ 2 * f i ^ 2 + ((- 2 * INR m * Sum m f) * f i + Sum m f ^ 2 * 1))) in H by (intros; ring).
  rewrite !Sum_plus, !Sum_scal in H. replace (Sum m (fun _ => 1)) with (INR m) in H.
  - assert (0 <= INR m * (INR m * Sum m (fun i => f i ^ 2) - Sum m f ^ 2)) by nra. nra.
  - clear. induction m; [auto|]. rewrite S_INR, IHm. auto.
Qed.

Lemma Sum_abs n f : Rabs (Sum n f) <= Sum n (fun i => Rabs (f i)).
Proof. induction n; cbn [Sum]; [rewrite Rabs_R0; lra|]. eapply Rle_trans; [apply Rabs_triang|]. lra. Qed.

Lemma Sum_const n c : Sum n (fun _ => c) = INR n * c.
Proof. induction n; [cbn; lra|]. rewrite S_INR. cbn [Sum]. rewrite IHn. ring. Qed.

Theorem error_metrics_consistent : forall p t ins eps st, get_error p t ins eps = Ok st -> p <> [] ->
  0 <= e_abs_average st <= e_rmse_average st /\
  (forall B, (forall i, (i < length p)%nat -> Rabs (residual p t i) <= B) -> e_rmse_average st <= B) /\
  Rabs (e_signed_mean st) <= e_abs_average st /\
  (e_abs_average st = 0 <-> p = t) /\ (e_rmse_average st = 0 <-> p = t).
Proof.
  intros p t ins eps st H HN. pose proof (get_error_ok _ _ _ _ _ H) as HL.
  destruct (averages _ _ _ _ _ H) as [A1 [A2 A3]]. set (n := length p) in *.
  assert (Hn : 0 < INR n) by (apply length_pos; auto). pose proof (Rinv_0_lt_compat _ Hn) as Hi.
  set (S1 := Sum n (fun i => Rabs (residual p t i))) in *. set (S2 := Sum n (fun i => residual p t i ^ 2)) in *.
  assert (P1 : 0 <= S1) by (apply Sum_nonneg; intros; apply Rabs_pos).
  assert (P2 : 0 <= S2) by (apply Sum_nonneg; intros; apply pow2_ge_0).
  assert (C : S1 ^ 2 <= INR n * S2).
  { pose proof (Sum_cauchy n (fun i => Rabs (residual p t i))) as Q. cbv beta in Q.
    rewrite (Sum_ext n (fun i => Rabs (residual p t i) ^ 2) (fun i => residual p t i ^ 2)) in Q; [exact Q|]. intros. apply pow2_abs. }
  assert (Q0 : 0 <= S1 / INR n) by (unfold Rdiv; nra).
  assert (Q1 : 0 <= S2 / INR n) by (unfold Rdiv; nra).
  assert (M : S1 / INR n <= sqrt (S2 / INR n)).
  { rewrite <- (sqrt_pow2 (S1 / INR n)) by auto. apply sqrt_le_1_alt. unfold Rdiv.
    replace ((S1 * / INR n) ^ 2) with (S1 ^ 2 * (/ INR n * / INR n)) by ring.
    replace (S2 * / INR n) with (INR n * S2 * (/ INR n * / INR n)) by (field; lra). apply Rmult_le_compat_r; nra. }
  assert (EQ : (forall i, (i < n)%nat -> residual p t i = 0) -> p = t).
  { intros Z. apply (list_ext_nth 0); auto. intros i Hi'. specialize (Z i Hi'). unfold residual in Z. lra. }
  assert (EQ' : p = t -> forall i, residual p t i = 0) by (intros -> i; unfold residual; ring).
  rewrite A2, A3. split; [split; auto|]. split; [|split; [|split]].
  - intros B HB. assert (0 <= B).
    { eapply Rle_trans; [apply Rabs_pos|]. apply (HB 0%nat). destruct p; [congruence|]. cbn. lia. }
    rewrite <- (sqrt_pow2 B) by auto. apply sqrt_le_1_alt. unfold Rdiv.
    assert (S2 <= INR n * B ^ 2).
    { rewrite <- Sum_const. apply Sum_le. intros i Hi'. rewrite <- pow2_abs. apply pow_incr. split; [apply Rabs_pos|auto]. }
    apply (Rmult_le_reg_l (INR n)); [auto|]. replace (INR n * (S2 * / INR n)) with S2 by (field; lra). auto.
  - rewrite A1. unfold Rdiv. rewrite Rabs_mult, (Rabs_pos_eq (/ INR n)) by lra. apply Rmult_le_compat_r; [lra|]. apply Sum_abs.
  - split; [intros Z|intros E].
    + assert (S1 = 0) by (unfold Rdiv in Z; nra). apply EQ. intros i Hi'.
      pose proof (Sum_pos_zero n (fun i => Rabs (residual p t i)) (fun i _ => Rabs_pos _) H0 i Hi') as R0. cbv beta in R0.
      destruct (Req_dec (residual p t i) 0) as [|NZ]; auto. apply Rabs_no_R0 in NZ. contradiction.
    + unfold S1. rewrite Sum_zero; [unfold Rdiv; ring|]. intros i _. rewrite (EQ' E). apply Rabs_R0.
  - split; [intros Z|intros E].
    + apply sqrt_eq_0 in Z; auto. assert (S2 = 0) by (unfold Rdiv in Z; nra). apply EQ. intros i Hi'.
      pose proof (Sum_pos_zero n (fun i => residual p t i ^ 2) (fun i _ => pow2_ge_0 _) H0 i Hi') as R0. cbv beta in R0. nra.
    + unfold S2. rewrite Sum_zero; [unfold Rdiv; rewrite Rmult_0_l; apply sqrt_0|]. intros i _. rewrite (EQ' E). ring.
Qed.
Print Assumptions error_metrics_consistent.

Example error_example : exists st, get_error [1; 3] [0; 0] false None = Ok st /\ e_abs_average st = 2 /\ e_signed_mean st = 2 /\
  e_rmse_average st = sqrt 5.
Proof.
  eexists. split; [reflexivity|]. cbn [e_abs_average e_signed_mean e_rmse_average]. unfold mean. cbn.
  rewrite !Rabs_pos_eq by lra. split; [lra|]. split; [lra|]. f_equal. lra.
Qed.

(** Exchanging prediction and target changes the sign of the mean only. *)
Theorem error_symmetric : forall p t st st', get_error p t false None = Ok st -> get_error t p false None = Ok st' ->
  e_abs_average st' = e_abs_average st /\ e_rmse_average st' = e_rmse_average st /\ e_signed_mean st' = - e_signed_mean st.
Proof.
  intros p t st st' H H'. pose proof (get_error_ok _ _ _ _ _ H) as HL.
  destruct (averages _ _ _ _ _ H) as [A1 [A2 A3]]. destruct (averages _ _ _ _ _ H') as [B1 [B2 B3]].
  rewrite A1, A2, A3, B1, B2, B3, <- HL.
  assert (R : forall i, residual t p i = - residual p t i) by (intros; unfold residual; ring).
  split; [|split].
  - f_equal. apply Sum_ext. intros. rewrite R. apply Rabs_Ropp.
  - f_equal. f_equal. apply Sum_ext. intros. rewrite R. ring.
  - rewrite (Sum_ext _ (residual t p) (fun i => -1 * residual p t i)) by (intros; rewrite R; ring). rewrite Sum_scal. unfold Rdiv. ring.
Qed.
Print Assumptions error_symmetric.

(** The insensitive error. *)
Theorem insensitive_error : forall p t eps st, get_error p t true (Some eps) = Ok st -> p <> [] -> 0 <= eps ->
  exists v, e_ins_average st = Some v /\ 0 <= v /\ e_abs_average st - eps <= v <= e_abs_average st /\
    (v = 0 <-> forall i, (i < length p)%nat -> Rabs (residual p t i) <= eps).
Proof.
  intros p t eps st H HN He. pose proof (get_error_ok _ _ _ _ _ H) as HL.
  destruct (averages _ _ _ _ _ H) as [_ [A2 _]].
  unfold get_error in H. rewrite HL, Nat.eqb_refl in H. cbn [negb bind fst snd] in H. injection H as <-. set (n := length p) in *. cbn [e_ins_average e_abs_average] in *.
  assert (LC : length (combine p t) = n) by (rewrite combine_length; unfold n; lia).
  eexists. split; [reflexivity|].
  set (f := fun r : R => if Rltb (Rabs r - eps) 0 then 0 else Rabs r - eps).
  change (map (fun r => let x := Rabs r - eps in if Rltb x 0 then 0 else x)) with (map f).
  assert (G : mean (map f (map (fun p => fst p - snd p) (combine p t))) = Sum n (fun i => f (residual p t i)) / INR n).
  { rewrite (mean_map_sum f _ 0), map_length, LC. f_equal. apply Sum_ext. intros i Hi. rewrite residuals_nth by auto. auto. }
  rewrite G, A2. assert (Hn : 0 < INR n) by (apply length_pos; auto). pose proof (Rinv_0_lt_compat _ Hn) as Hi.
  assert (F : forall r, 0 <= f r /\ Rabs r - eps <= f r <= Rabs r /\ (f r = 0 <-> Rabs r <= eps)).
  { intros r. unfold f. pose proof (Rabs_pos r). destruct (Rltb (Rabs r - eps) 0) eqn:E; [apply Rltb_true in E|apply Rltb_false in E]; repeat split; intros; lra. }
  assert (P : 0 <= Sum n (fun i => f (residual p t i))) by (apply Sum_nonneg; intros; apply F).
  split; [unfold Rdiv; nra|]. split; [split|].
  - assert (Sum n (fun i => Rabs (residual p t i)) - INR n * eps <= Sum n (fun i => f (residual p t i))).
    { rewrite <- Sum_const, <- Sum_minus. apply Sum_le. intros; apply F. }
    apply (Rmult_le_reg_l (INR n)); [auto|]. unfold Rdiv. rewrite Rmult_minus_distr_l.
    replace (INR n * (Sum n (fun i => Rabs (residual p t i)) * / INR n)) with (Sum n (fun i => Rabs (residual p t i))) by (field; lra).
    replace (INR n * (Sum n (fun i => f (residual p t i)) * / INR n)) with (Sum n (fun i => f (residual p t i))) by (field; lra). auto.
  - unfold Rdiv. apply Rmult_le_compat_r; [lra|]. apply Sum_le. intros; apply F.
  - split.
    + intros Z i Hi'. assert (Z' : Sum n (fun i => f (residual p t i)) = 0) by (unfold Rdiv in Z; nra).
      apply F. apply (Sum_pos_zero n (fun i => f (residual p t i)) (fun i _ => proj1 (F _)) Z' i Hi').
    + intros Z. rewrite Sum_zero; [unfold Rdiv; ring|]. intros i Hi'. apply F. auto.
Qed.
Print Assumptions insensitive_error.

(** ** Percentiles *)

Lemma sorted_nth l i j : StronglySorted (rel Rleb) l -> (i <= j < length l)%nat -> nth i l 0 <= nth j l 0.
Proof.
  revert i j. induction l as [|x l IH]; intros i j HS Hij; [cbn in Hij; lia|].
  apply StronglySorted_inv in HS. destruct HS as [HS HF]. destruct i as [|i], j as [|j]; cbn [nth]; try lra; [|lia|apply IH; auto; cbn in Hij; lia].
  rewrite Forall_forall in HF. cbn in Hij. assert (Hj : (j < length l)%nat) by lia. specialize (HF (nth j l 0) (nth_In _ _ Hj)). unfold rel in HF. apply Rleb_true in HF. auto.
Qed.

Lemma floor_nat x : 0 <= x -> let k := Z.to_nat (Int_part x) in INR k <= x < INR k + 1.
Proof.
  intros Hx k. destruct (base_Int_part x) as [B1 B2]. assert (0 <= Int_part x)%Z.
  { assert (-1 < Int_part x)%Z; [|lia]. apply lt_IZR. cbn. lra. }
  assert (E : INR k = IZR (Int_part x)) by (unfold k; rewrite INR_IZR_INZ, Z2Nat.id; auto). rewrite E. lra.
Qed.

(** [interp s x]: the broken line through the points (i, s_i). *)
Lemma interp_mono s x y : StronglySorted (rel Rleb) s -> s <> [] -> 0 <= x -> x <= y -> y <= INR (length s - 1) ->
  let g x := let k := Z.to_nat (Int_part x) in nth k s 0 + (x - INR k) * (nth (S k) s (nth k s 0) - nth k s 0) in
  nth 0 s 0 <= g x <= g y /\ g y <= nth (length s - 1) s 0.
Proof.
  intros HS HN Hx Hxy Hy g. set (n := length s) in *. assert (Hn : (1 <= n)%nat) by (unfold n; destruct s; [congruence|cbn; lia]).
  assert (K : forall z, 0 <= z <= INR (n - 1) -> exists k, (k <= n - 1)%nat /\ INR k <= z < INR k + 1 /\
     nth k s 0 <= g z <= nth (Nat.min (S k) (n - 1)) s 0 /\ g z = nth k s 0 + (z - INR k) * (nth (Nat.min (S k) (n - 1)) s 0 - nth k s 0)).
  { intros z Hz. pose proof (floor_nat z (proj1 Hz)) as F. cbv zeta in F. unfold g. set (k := Z.to_nat (Int_part z)) in *. exists k.
    assert (Hk : (k <= n - 1)%nat) by (apply INR_le; lra).
    assert (E : nth (S k) s (nth k s 0) = nth (Nat.min (S k) (n - 1)) s 0).
    { destruct (Nat.eq_dec k (n - 1)) as [->|Nk].
      - rewrite nth_overflow by (fold n; lia). f_equal. lia.
      - rewrite Nat.min_l by lia. apply nth_indep. fold n. lia. }
    rewrite E. split; [auto|]. split; [auto|]. split; [|auto].
    assert (nth k s 0 <= nth (Nat.min (S k) (n - 1)) s 0) by (apply sorted_nth; auto; fold n; lia). nra. }
  destruct (K x) as (k & K1 & K2 & K3 & K4); [lra|]. destruct (K y) as (l & L1 & L2 & L3 & L4); [lra|].
  assert (B0 : nth 0 s 0 <= nth k s 0) by (apply sorted_nth; auto; fold n; lia).
  assert (B1 : nth (Nat.min (S l) (n - 1)) s 0 <= nth (n - 1) s 0) by (apply sorted_nth; auto; fold n; lia).
  split; [split; [lra|]|lra].
  assert (k <= l)%nat. { apply Nat.lt_succ_r. apply INR_lt. rewrite S_INR. lra. }
  destruct (Nat.eq_dec k l) as [->|Nk].
  - rewrite K4, L4. assert (nth l s 0 <= nth (Nat.min (S l) (n - 1)) s 0) by (apply sorted_nth; auto; fold n; lia). nra.
  - assert (nth (Nat.min (S k) (n - 1)) s 0 <= nth l s 0) by (apply sorted_nth; auto; fold n; lia). lra.
Qed.

(** Percentiles grow with the percentage, and stay between two elements of the list. *)
Theorem percentiles_ordered : forall l p q, l <> [] -> 0 <= p -> p <= q -> q <= 100 ->
  percentile l p <= percentile l q /\
  (exists x, In x l /\ (forall y, In y l -> x <= y) /\ x <= percentile l p) /\
  (exists x, In x l /\ (forall y, In y l -> y <= x) /\ percentile l q <= x).
Proof.
  intros l p q HN Hp Hpq Hq. set (s := isort Rleb l).
  assert (SS : StronglySorted (rel Rleb) s) by (apply isort_sorted; apply (proj1 Rleb_total_order)).
  assert (LS : length s = length l) by apply isort_length.
  assert (SN : s <> []) by (intros Q; rewrite Q in LS; destruct l; [congruence|discriminate]).
  pose proof (pos_INR (length l - 1)) as P0.
  assert (A1 : 0 <= p / 100 * INR (length l - 1)) by (unfold Rdiv; nra).
  assert (A2 : p / 100 * INR (length l - 1) <= q / 100 * INR (length l - 1)) by (unfold Rdiv; nra).
  assert (A3 : q / 100 * INR (length l - 1) <= INR (length s - 1)) by (rewrite LS; unfold Rdiv; nra).
  pose proof (interp_mono s _ _ SS SN A1 A2 A3) as [[B1 B2] B3]. cbv zeta in *. unfold percentile. fold s.
  assert (0 < length s)%nat by (destruct s; [congruence|cbn; lia]).
  split; [exact B2|]. split.
  - exists (nth 0 s 0). split; [apply (isort_in Rleb); apply nth_In; auto|]. split; [|exact B1].
    intros y Hy. apply (isort_in Rleb) in Hy. fold s in Hy. destruct (In_nth _ _ 0 Hy) as [j [Hj <-]]. apply sorted_nth; auto. lia.
  - exists (nth (length s - 1) s 0). split; [apply (isort_in Rleb); apply nth_In; fold s; lia|]. split; [|exact B3].
    intros y Hy. apply (isort_in Rleb) in Hy. fold s in Hy. destruct (In_nth _ _ 0 Hy) as [j [Hj <-]]. apply sorted_nth; auto. lia.
Qed.
Print Assumptions percentiles_ordered.

(** Reported percentiles: 99, 95, 75, 25, 5, 1, in decreasing order, with the median in
    the middle. *)
Lemma percentile_median l : l <> [] -> median l = percentile l 50.
Proof.
  intros HN. unfold median, percentile. set (s := isort Rleb l). set (n := length l).
  assert (LS : length s = n) by apply isort_length. assert (Hn : (1 <= n)%nat) by (unfold n; destruct l; [congruence|cbn; lia]).
  replace (50 / 100 * INR (n - 1)) with (INR (n - 1) / 2) by lra.
  assert (FL : forall x k, INR k <= x < INR k + 1 -> Z.to_nat (Int_part x) = k).
  { intros x k Hk. pose proof (pos_INR k). pose proof (floor_nat x ltac:(lra)) as F. cbv zeta in F. set (j := Z.to_nat (Int_part x)) in *.
    assert (j < S k)%nat by (apply INR_lt; rewrite S_INR; lra). assert (k < S j)%nat by (apply INR_lt; rewrite S_INR; lra). lia. }
  destruct (Nat.even n) eqn:Ev.
  - apply Nat.even_spec in Ev. destruct Ev as [m Em]. assert (Hm : (1 <= m)%nat) by lia.
    replace (n / 2)%nat with m by (rewrite Em, Nat.mul_comm, Nat.div_mul; auto).
    assert (EN : INR (n - 1) / 2 = INR (m - 1) + / 2).
    { rewrite Em. rewrite !minus_INR by lia. rewrite mult_INR. cbn. lra. }
    rewrite (FL (INR (n - 1) / 2) (m - 1)%nat) by (rewrite EN; lra). rewrite EN. replace (S (m - 1)) with m by lia.
    rewrite (nth_indep s (nth (m - 1) s 0) 0) by lia. lra.
  - assert (Od : Nat.odd n = true) by (unfold Nat.odd; rewrite Ev; auto). apply Nat.odd_spec in Od. destruct Od as [m Em].
    replace (n / 2)%nat with m. 2:{ rewrite Em. replace (2 * m + 1)%nat with (1 + m * 2)%nat by lia. rewrite Nat.div_add by lia. auto. }
    assert (EN : INR (n - 1) / 2 = INR m).
    { rewrite Em. replace (2 * m + 1 - 1)%nat with (2 * m)%nat by lia. rewrite mult_INR. cbn. lra. }
    rewrite (FL (INR (n - 1) / 2) m) by (rewrite EN; lra). rewrite EN. lra.
Qed.

Theorem reported_percentiles : forall p t ins eps st, get_error p t ins eps = Ok st -> p <> [] ->
  exists p99 p95 p75 p25 p5 p1, e_signed_percentiles st = [p99; p95; p75; p25; p5; p1] /\
    p1 <= p5 <= p25 /\ p25 <= e_signed_median st <= p75 /\ p75 <= p95 <= p99.
Proof.
  intros p t ins eps st H HN. pose proof (get_error_ok _ _ _ _ _ H) as HL.
  unfold get_error in H. rewrite HL, Nat.eqb_refl in H. cbn [negb] in H.
  match type of H with bind ?x _ = _ => destruct x as [ins'|]; [|discriminate H] end. cbn [bind] in H. injection H as <-.
  cbn [e_signed_percentiles e_signed_median]. set (l := map _ _).
  assert (LN : l <> []) by (unfold l; destruct p, t; cbn in *; congruence).
  assert (M : forall a b, 0 <= a -> a <= b -> b <= 100 -> percentile l a <= percentile l b) by (intros; apply percentiles_ordered; auto).
  do 6 eexists. split; [reflexivity|]. rewrite (percentile_median l LN). repeat split; apply M; lra.
Qed.
Print Assumptions reported_percentiles.

(** ** The training cost function *)

(** The cost compares the targets with themselves: it does not depend on the
    hyperparameters. *)
Lemma cost_function_blind inv err theta train targets ks log_scale v : sound_inv inv ->
  cost_function inv err theta train targets ks log_scale = Ok v -> v = err targets targets.
Proof.
  intros SI H. unfold cost_function in H.
  destruct (list2kdict theta ks) as [ks'|]; [|discriminate]. cbn [bind] in H.
  destruct (get_covariance ks' _ _ _ _ _) as [K|]; [|discriminate]. cbn [bind] in H.
  destruct (inv K) as [C|] eqn:EI; [|discriminate]. cbn [bind] in H. destruct (SI _ _ EI) as [S0 [S1 [S2 S3]]].
  unfold dot_vec in H. rewrite S2 in H. destruct (Nat.eqb_spec (nr K) (length targets)) as [EL|]; [|discriminate]. cbn [bind] in H.
  rewrite tabulate_length, S1, <- S0, Nat.eqb_refl in H. cbn [bind] in H. injection H as <-. f_equal.
  transitivity (tabulate (length targets) (fun i => nth i targets 0)); [rewrite EL|apply tabulate_nth]. apply tabulate_ext. intros i Hi.
  rewrite <- (mulv_inverse _ _ _ (fun i => nth i targets 0) S3 i) by lia. rewrite EL. apply Sum_ext. intros j Hj. f_equal.
  rewrite nth_tabulate by lia. auto.
Qed.

Theorem cost_ignores_hyperparameters_refuted : forall inv theta train targets ks log_scale v,
  sound_inv inv -> targets <> [] ->
  cost_function inv (fun p t => match get_error p t false None with Ok st => e_rmse_average st | Err _ => 0 end) theta train targets ks log_scale = Ok v ->
  v = 0.
Proof.
  intros inv theta train targets ks log_scale v SI HN H. apply cost_function_blind in H; auto. subst v.
  destruct (get_error targets targets false None) as [st|] eqn:E; auto. apply (error_metrics_consistent _ _ _ _ _ E HN). auto.
Qed.
Print Assumptions cost_ignores_hyperparameters_refuted.
