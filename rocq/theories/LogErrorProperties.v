(** Properties of the logarithmic error of get_error. *)
From Coq Require Import Reals Lra Lia List Arith Bool.
From Verif Require Import Base BaseFacts RBase LogErrorModel.
Import ListNotations.
Open Scope R_scope.

Set Bullet Behavior "Strict Subproofs".

(** ** Specification: a negative prediction counts as zero; one is added before the logarithm *)
Definition log_ratio (q : R * R) : R := ln ((1 + Rmax (fst q) 0) / (1 + snd q)).
Definition rms (l : list R) : R := sqrt (sumR (map (fun x => x ^ 2) l) / INR (length l)).
Definition has_log (q : R * R) : bool := Rltb (-1) (snd q).

Lemma entry_ratio p t : -1 < t -> log_entry p t = Fin (log_ratio (p, t) ^ 2).
Proof.
  intros H. unfold log_entry. rewrite (proj2 (Rltb_true 0 (t + 1))) by lra. f_equal. f_equal. unfold log_ratio. cbn [fst snd].
  pose proof (Rmax_r p 0). unfold Rdiv. rewrite ln_mult by (try apply Rinv_0_lt_compat; lra). rewrite ln_Rinv by lra.
  rewrite (Rplus_comm 1 (Rmax p 0)), (Rplus_comm 1 t). ring.
Qed.

Lemma root_pow x : root (Fin (x ^ 2)) = Fin (Rabs x).
Proof. cbn [root]. f_equal. replace (x ^ 2) with (Rsqr x) by (unfold Rsqr; ring). apply sqrt_Rsqr_abs. Qed.

Lemma kept_entries l : filter (fun x => negb (is_nan x)) (map (fun q => log_entry (fst q) (snd q)) l) =
  map (fun q => log_entry (fst q) (snd q)) (filter (fun q => Rleb (-1) (snd q)) l).
Proof.
  induction l as [|[p t] l IH]; [reflexivity|]. cbn [map filter fst snd]. rewrite IH. clear IH.
  assert (N : is_nan (log_entry p t) = negb (Rleb (-1) t)).
  { unfold log_entry. destruct (Rltb 0 (t + 1)) eqn:E.
    - apply Rltb_true in E. rewrite (proj2 (Rleb_true (-1) t)) by lra. reflexivity.
    - apply Rltb_false in E. destruct (Reqb (t + 1) 0) eqn:E0.
      + apply Reqb_true in E0. rewrite (proj2 (Rleb_true (-1) t)) by lra. reflexivity.
      + apply Reqb_false in E0. rewrite (proj2 (Rleb_false (-1) t)) by lra. reflexivity. }
  rewrite N, negb_involutive. destruct (Rleb (-1) t); reflexivity.
Qed.

Lemma nanmean_ratio l : l <> [] -> (forall q, In q l -> -1 < snd q) ->
  root (nanmean (map (fun q => log_entry (fst q) (snd q)) l)) = Fin (rms (map log_ratio l)).
Proof.
  intros HN H. unfold nanmean. rewrite kept_entries.
  assert (F : filter (fun q : R * R => Rleb (-1) (snd q)) l = l).
  { clear HN. induction l as [|q l IH]; [reflexivity|]. cbn [filter]. rewrite (proj2 (Rleb_true (-1) (snd q))) by (left; apply H; cbn; auto).
    f_equal. apply IH. intros; apply H; cbn; auto. }
  rewrite F. rewrite (map_ext_in _ (fun q => Fin (log_ratio q ^ 2))) by (intros [p t] Hq; cbn [fst snd]; apply entry_ratio; apply (H _ Hq)).
  destruct l as [|q l]; [congruence|]. cbn [map].
  assert (X : existsb is_inf (Fin (log_ratio q ^ 2) :: map (fun q => Fin (log_ratio q ^ 2)) l) = false).
  { cbn [existsb is_inf orb]. clear. induction l; [reflexivity|]. cbn. auto. }
  rewrite X. cbn [root]. f_equal. unfold rms, mean. f_equal. cbn [map value length sumR]. rewrite !map_length, !map_map. reflexivity.
Qed.

(** ** Targets above -1 *)
(** The reported error is the root mean square of the logarithms of the ratios. *)
Theorem log_error_is_rms : forall p t, length p = length t -> p <> [] -> (forall y, In y t -> -1 < y) ->
  exists st, log_error p t = Ok st /\ rmsle_all st = map (fun q => Fin (Rabs (log_ratio q))) (combine p t) /\
    rmsle_average st = Fin (rms (map log_ratio (combine p t))).
Proof.
  intros p t HL HN HT. unfold log_error. rewrite HL, Nat.eqb_refl. cbn [negb]. eexists. split; [reflexivity|]. cbn [rmsle_all rmsle_average].
  assert (HQ : forall q, In q (combine p t) -> -1 < snd q) by (intros [x y] Hq; apply HT; apply in_combine_r in Hq; exact Hq).
  split.
  - rewrite map_map. apply map_ext_in. intros [x y] Hq. cbn [fst snd]. rewrite entry_ratio by (apply (HQ _ Hq)). apply root_pow.
  - apply nanmean_ratio; [|exact HQ]. destruct p as [|x p]; [congruence|]. destruct t; [discriminate|]. discriminate.
Qed.

Lemma rms_nonneg l : 0 <= rms l.
Proof. apply sqrt_pos. Qed.
Lemma INR_len_pos {A} (l : list A) : l <> [] -> 0 < INR (length l).
Proof. destruct l; [congruence|]. intros _. apply lt_0_INR. cbn. lia. Qed.
Lemma rms_zero l : l <> [] -> (rms l = 0 <-> forall x, In x l -> x = 0).
Proof.
  intros HN. pose proof (INR_len_pos l HN) as Q. assert (P : forall x, In x (map (fun x => x ^ 2) l) -> 0 <= x).
  { intros x Hx. apply in_map_iff in Hx as (y & <- & _). apply pow2_ge_0. }
  pose proof (sumR_nonneg _ P) as S0. pose proof (Rinv_0_lt_compat _ Q) as QI. unfold rms. split.
  - intros H x Hx. apply sqrt_eq_0 in H; [|unfold Rdiv; nra].
    assert (Z : sumR (map (fun x => x ^ 2) l) = 0) by (unfold Rdiv in H; nra).
    pose proof (sumR_zero_all _ P Z (x ^ 2)) as Y. assert (x ^ 2 = 0) by (apply Y; apply in_map_iff; eauto). nra.
  - intros H. replace (sumR _) with 0; [unfold Rdiv; rewrite Rmult_0_l; apply sqrt_0|].
    clear - H. induction l as [|x l IH]; [reflexivity|]. cbn [map sumR]. rewrite <- IH by (intros; apply H; cbn; auto). rewrite (H x) by (cbn; auto). ring.
Qed.
Lemma rms_mono {A} (f g : A -> R) l : l <> [] -> (forall x, In x l -> Rabs (f x) <= Rabs (g x)) -> rms (map f l) <= rms (map g l).
Proof.
  intros HN H. unfold rms. rewrite !map_length, !map_map. apply sqrt_le_1_alt. pose proof (Rinv_0_lt_compat _ (INR_len_pos l HN)).
  apply Rmult_le_compat_r; [lra|]. apply sumR_le. intros x Hx. specialize (H x Hx).
  rewrite <- (pow2_abs (f x)), <- (pow2_abs (g x)). apply pow_incr. split; [apply Rabs_pos|exact H].
Qed.

Lemma log_ratio_zero p t : -1 < t -> (log_ratio (p, t) = 0 <-> Rmax p 0 = t).
Proof.
  intros H. unfold log_ratio. cbn [fst snd]. pose proof (Rmax_r p 0). assert (P : 0 < (1 + Rmax p 0) / (1 + t)).
  { apply Rmult_lt_0_compat; [lra|]. apply Rinv_0_lt_compat. lra. }
  split.
  - intros E. assert (E' : ln ((1 + Rmax p 0) / (1 + t)) = ln 1) by (rewrite E, ln_1; reflexivity). clear E. rename E' into E. apply ln_inv in E; [|exact P|lra]. apply (Rmult_eq_compat_r (1 + t)) in E.
    unfold Rdiv in E. rewrite Rmult_assoc, Rinv_l in E by lra. lra.
  - intros ->. unfold Rdiv. rewrite Rinv_r by lra. apply ln_1.
Qed.

Lemma ln_below x : 0 < x -> ln x <= x - 1.
Proof.
  intros H. destruct (Rle_or_lt (ln x) (x - 1)) as [L|L]; [exact L|exfalso].
  pose proof (exp_ineq1_le (ln x)). rewrite exp_ln in H0 by exact H. lra.
Qed.
Lemma log_ratio_bound p t : 0 <= t -> Rabs (log_ratio (p, t)) <= Rabs (p - t).
Proof.
  intros H. unfold log_ratio. cbn [fst snd]. pose proof (Rmax_r p 0) as M0. set (m := Rmax p 0) in *.
  assert (A : forall a b, 0 <= a -> 0 <= b -> ln ((1 + a) / (1 + b)) <= Rabs (a - b)).
  { intros a b Ha Hb. eapply Rle_trans; [apply ln_below; apply Rmult_lt_0_compat; [lra|apply Rinv_0_lt_compat; lra]|].
    replace ((1 + a) / (1 + b) - 1) with ((a - b) * / (1 + b)) by (field; lra).
    assert (I : 0 < / (1 + b) <= 1) by (split; [apply Rinv_0_lt_compat; lra|replace 1 with (/ 1) at 2 by field; apply Rinv_le_contravar; lra]).
    pose proof (Rle_abs (a - b)). pose proof (Rabs_pos (a - b)). destruct (Rle_or_lt 0 (a - b)); nra. }
  assert (B : ln ((1 + m) / (1 + t)) = - ln ((1 + t) / (1 + m))).
  { replace ((1 + m) / (1 + t)) with (/ ((1 + t) / (1 + m))) by (field; lra). apply ln_Rinv.
    apply Rmult_lt_0_compat; [lra|apply Rinv_0_lt_compat; lra]. }
  assert (C : Rabs (m - t) <= Rabs (p - t)).
  { unfold m, Rmax. destruct (Rle_dec p 0); [|lra]. rewrite !Rabs_left1 by lra. lra. }
  eapply Rle_trans; [|exact C]. apply Rabs_le. split.
  - rewrite B. apply Ropp_le_contravar. rewrite Rabs_minus_sym. apply A; lra.
  - apply A; lra.
Qed.

(** For targets that are not negative, the error is at most the ordinary root mean square error, and it is zero exactly
    when each prediction, cut off at zero, is the target. *)
Theorem log_error_below_rmse : forall p t, length p = length t -> p <> [] -> (forall y, In y t -> 0 <= y) ->
  exists st e, log_error p t = Ok st /\ rmsle_average st = Fin e /\
    0 <= e <= rms (map (fun q => fst q - snd q) (combine p t)) /\
    (e = 0 <-> map (fun x => Rmax x 0) p = t).
Proof.
  intros p t HL HN HT. destruct (log_error_is_rms p t HL HN) as (st & E1 & _ & E2); [intros y Hy; specialize (HT y Hy); lra|].
  assert (HC : combine p t <> []) by (destruct p; [congruence|]; destruct t; discriminate).
  exists st, (rms (map log_ratio (combine p t))). split; [exact E1|]. split; [exact E2|]. split; [split; [apply rms_nonneg|]|].
  - apply rms_mono; [exact HC|]. intros [x y] Hq. apply log_ratio_bound. apply in_combine_r in Hq. auto.
  - rewrite rms_zero by (intros X; apply map_eq_nil in X; auto). clear HN HC E1 E2. revert t HL HT. induction p as [|x p IH]; intros [|y t] HL HT; try discriminate.
    + split; [reflexivity|]. intros _ z [].
    + injection HL as HL. specialize (IH t HL (fun z Hz => HT z (or_intror Hz))). cbn [combine map]. split.
      * intros H. f_equal; [|apply IH; intros; apply H; cbn; auto]. apply log_ratio_zero; [specialize (HT y (or_introl eq_refl)); lra|]. apply H. cbn. auto.
      * intros H z [<-|Hz].
        -- apply log_ratio_zero; [specialize (HT y (or_introl eq_refl)); lra|]. injection H. auto.
        -- apply IH; [injection H; auto|exact Hz].
Qed.

(** Only the predictions cut off at zero matter, and lists of different lengths are refused. *)
Theorem log_error_cut : forall p t, log_error (map (fun x => Rmax x 0) p) t = log_error p t /\
  (length p <> length t -> log_error p t = Err AssertionError).
Proof.
  intros p t. split.
  - unfold log_error. rewrite map_length. destruct (length p =? length t)%nat; cbn [negb]; [|reflexivity].
    assert (E : map (fun q => log_entry (fst q) (snd q)) (combine (map (fun x => Rmax x 0) p) t) = map (fun q => log_entry (fst q) (snd q)) (combine p t)).
    { revert t. induction p as [|x p IH]; intros [|y t]; try reflexivity. cbn [map combine fst snd]. rewrite IH. f_equal. unfold log_entry.
      rewrite (Rmax_left (Rmax x 0) 0) by apply Rmax_r. reflexivity. }
    rewrite E. reflexivity.
  - intros H. unfold log_error. apply Nat.eqb_neq in H. rewrite H. reflexivity.
Qed.

(** ** Other targets *)
(** Samples with a target below -1 are left out of the average, however large their error is. *)
Theorem log_error_every_sample_refuted : forall p t, length p = length t ->
  (forall y, In y t -> y <> -1) -> existsb has_log (combine p t) = true ->
  exists st, log_error p t = Ok st /\ rmsle_average st = Fin (rms (map log_ratio (filter has_log (combine p t)))).
Proof.
  intros p t HL HT HE. unfold log_error. rewrite HL, Nat.eqb_refl. cbn [negb]. eexists. split; [reflexivity|]. cbn [rmsle_average].
  assert (F : forall l, (forall q : R * R, In q l -> snd q <> -1) -> filter (fun q => Rleb (-1) (snd q)) l = filter has_log l).
  { intros l Hl. apply filter_ext_in. intros q Hq. specialize (Hl q Hq). unfold has_log. destruct (Rltb (-1) (snd q)) eqn:E.
    - apply Rltb_true in E. apply Rleb_true. lra.
    - apply Rltb_false in E. apply Rleb_false. lra. }
  assert (HQ : forall q, In q (combine p t) -> snd q <> -1) by (intros [x y] Hq; apply HT; apply in_combine_r in Hq; exact Hq).
  rewrite <- (nanmean_ratio (filter has_log (combine p t))).
  - unfold nanmean. rewrite !kept_entries, !F; auto.
    + assert (I : forall l, filter has_log (filter has_log l) = filter has_log l).
      { clear. induction l as [|q l IH]; [reflexivity|]. cbn [filter]. destruct (has_log q) eqn:E; [|exact IH]. cbn [filter]. rewrite E, IH. reflexivity. }
      rewrite I. reflexivity.
    + intros q Hq. apply filter_In in Hq as [Hq _]. auto.
  - intros X. apply existsb_exists in HE as (q & Hq & E). assert (I : In q (filter has_log (combine p t))) by (apply filter_In; auto). rewrite X in I. destruct I.
  - intros q Hq. apply filter_In in Hq as [_ Hq]. apply Rltb_true in Hq. exact Hq.
Qed.

(** One target of -1 makes the average infinite; if all targets are below -1 there is no average. *)
Theorem log_error_no_average : forall p t, length p = length t ->
  (In (-1) t -> exists st, log_error p t = Ok st /\ rmsle_average st = Inf) /\
  ((forall y, In y t -> y < -1) -> exists st, log_error p t = Ok st /\ rmsle_average st = NaN).
Proof.
  intros p t HL. unfold log_error. rewrite HL, Nat.eqb_refl. cbn [negb]. split.
  - intros H. eexists. split; [reflexivity|]. cbn [rmsle_average]. unfold nanmean. rewrite kept_entries.
    assert (Q : exists x, In (x, -1) (combine p t)).
    { clear - HL H. revert t HL H. induction p as [|x p IH]; intros [|y t] HL H; try discriminate; [destruct H|]. destruct H as [->|H]; [exists x; cbn; auto|].
      destruct (IH t) as [z Hz]; [injection HL; auto|exact H|]. exists z. cbn. auto. }
    destruct Q as [x Q]. set (l := filter _ _). assert (I : In Inf (map (fun q => log_entry (fst q) (snd q)) l)).
    { apply in_map_iff. exists (x, -1). split.
      - cbn [fst snd]. unfold log_entry. rewrite (proj2 (Rltb_false 0 (-1 + 1))) by lra. rewrite (proj2 (Reqb_true (-1 + 1) 0)) by lra. reflexivity.
      - apply filter_In. split; [exact Q|]. apply Rleb_true. cbn. lra. }
    destruct (map _ l) as [|a m]; [destruct I|]. assert (X : existsb is_inf (a :: m) = true) by (apply existsb_exists; exists Inf; auto). rewrite X. reflexivity.
  - intros H. eexists. split; [reflexivity|]. cbn [rmsle_average]. unfold nanmean. rewrite kept_entries.
    replace (filter _ (combine p t)) with (@nil (R * R)); [reflexivity|]. symmetry.
    assert (HQ : forall q, In q (combine p t) -> snd q < -1) by (intros [x y] Hq; apply H; apply in_combine_r in Hq; exact Hq).
    induction (combine p t) as [|q l IH]; [reflexivity|]. cbn [filter]. rewrite (proj2 (Rleb_false (-1) (snd q))) by (apply HQ; cbn; auto).
    apply IH. intros; apply HQ; cbn; auto.
Qed.

(** ** Concrete cases *)
Example log_case : exists st, log_error [-3; 1] [0; 0] = Ok st /\ rmsle_average st = Fin (rms [0; ln 2]).
Proof.
  destruct (log_error_is_rms [-3; 1] [0; 0]) as (st & E & _ & H); [reflexivity|discriminate|intros y [<-|[<-|[]]]; lra|].
  exists st. split; [exact E|]. rewrite H. cbn [combine map]. unfold log_ratio. cbn [fst snd]. rewrite Rmax_right, Rmax_left by lra.
  replace ((1 + 0) / (1 + 0)) with 1 by field. replace ((1 + 1) / (1 + 0)) with 2 by field. rewrite ln_1. reflexivity.
Qed.
(** A sample that is wrong by a hundred is not seen. *)
Example log_unseen_case : exists st, log_error [1; 90] [1; -10] = Ok st /\ rmsle_average st = Fin 0.
Proof.
  destruct (log_error_every_sample_refuted [1; 90] [1; -10]) as (st & E & H); [reflexivity|intros y [<-|[<-|[]]]; lra| |].
  - cbn [combine existsb]. unfold has_log. cbn [snd]. rewrite (proj2 (Rltb_true (-1) 1)) by lra. reflexivity.
  - exists st. split; [exact E|]. rewrite H. f_equal. cbn [combine filter]. unfold has_log. cbn [snd].
    rewrite (proj2 (Rltb_true (-1) 1)), (proj2 (Rltb_false (-1) (-10))) by lra. apply rms_zero; [discriminate|]. intros x [<-|[]].
    apply log_ratio_zero; [lra|]. apply Rmax_left. lra.
Qed.
Example log_edge_case : exists st, log_error [1; 90] [-1; 2] = Ok st /\ rmsle_average st = Inf.
Proof. apply log_error_no_average; [reflexivity|cbn; auto]. Qed.

Print Assumptions log_error_is_rms.
Print Assumptions log_error_below_rmse.
Print Assumptions log_error_cut.
Print Assumptions log_error_every_sample_refuted.
Print Assumptions log_error_no_average.
