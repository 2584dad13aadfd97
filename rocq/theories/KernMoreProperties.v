(** Properties of the kernels sqe, scaled_sqe and AA. *)
From Coq Require Import Reals Lra Lia List Arith Bool.
From Verif Require Import Base BaseFacts RBase LinAlg PSD MaternPSD KernModel KernProofs KernDefProofs KernScaleProofs KernEntryProofs KernProperties KernMoreModel.
Import ListNotations.
Open Scope R_scope.

(** ** sqe_kernel *)

(** Distance of two rows with variances [v] of the features. *)
Definition distance_with (D : nat) (v x y : row) : R := sqrt (Sum D (fun d => (nth d x 0 - nth d y 0) ^ 2 / nth d v 0)).

Lemma sqe_fn_value D v x y : length v = D -> length x = D -> length y = D -> sqe_fn v x y = exp (- / 2 * distance_with D v x y).
Proof.
  intros Hv Hx Hy. unfold sqe_fn, distance_with. do 3 f_equal. subst D. revert x y Hx Hy. induction v as [|a v IH]; intros [|b x] [|c y] Hx Hy; try discriminate; [reflexivity|].
  cbn [length combine map]. rewrite Sum_S_first. cbn [nth]. unfold sumR in *. cbn [fold_right fst snd]. f_equal. apply IH; cbn in *; lia.
Qed.

Lemma distance_self D v x : distance_with D v x x = 0.
Proof. unfold distance_with. rewrite Sum_zero; [apply sqrt_0|]. intros. unfold Rdiv. ring. Qed.

Lemma distance_sym D v x y : distance_with D v x y = distance_with D v y x.
Proof. unfold distance_with. f_equal. apply Sum_ext. intros. unfold Rdiv. ring. Qed.

(** The covariance matrix of usable data: entries exp(-d/2) of the distance, hence 1 on the
    diagonal, symmetric, in (0, 1], and positive semidefinite. *)
Theorem sqe_covariance : forall theta log_scale D m1 m2, length theta = D -> (log_scale = false -> Forall (fun w => 0 < w) theta) ->
  m1 <> [] -> Forall (fun r => length r = D) m1 ->
  match m2 with Some m => m <> [] /\ Forall (fun r => length r = D) m | None => True end ->
  let v := if log_scale then map exp theta else theta in
  let cols := match m2 with Some m => m | None => m1 end in
  exists K, sqe_kernel theta log_scale false m1 m2 = Ok K /\ nr K = length m1 /\ nc K = length cols /\
    (forall i j, (i < length m1)%nat -> (j < length cols)%nat ->
       at_ K i j = exp (- / 2 * distance_with D v (nth i m1 []) (nth j cols [])) /\ 0 < at_ K i j <= 1) /\
    (m2 = None -> (forall i j, (i < length m1)%nat -> (j < length m1)%nat -> at_ K i j = at_ K j i /\ at_ K i i = 1) /\
       forall x, 0 <= Sum (length m1) (fun i => Sum (length m1) (fun j => x i * at_ K i j * x j))).
Proof.
  intros theta log_scale D m1 m2 HL HP HN HR H2 v cols.
  assert (Ev : map (logged log_scale) theta = v) by (unfold v, logged; destruct log_scale; [reflexivity|apply map_id]).
  assert (Lv : length v = D) by (rewrite <- Ev, map_length; auto).
  assert (Pv : forall d, (d < D)%nat -> 0 < nth d v 0).
  { intros d Hd. unfold v. destruct log_scale.
    - rewrite (nth_map_lt _ _ _ 0) by lia. apply exp_pos.
    - specialize (HP eq_refl). rewrite Forall_forall in HP. apply HP, nth_In. lia. }
  assert (Rc : Forall (fun r => length r = D) cols) by (unfold cols; destruct m2; [apply H2|auto]).
  assert (SW : same_width m1 m2 = true).
  { unfold same_width. destruct m2 as [m|]; [|auto]. destruct H2 as [H2 H3]. rewrite (rectangular_ncols _ D H3 H2), (rectangular_ncols _ D HR HN). apply Nat.eqb_refl. }
  assert (R1 : forall i, (i < length m1)%nat -> length (nth i m1 []) = D) by (intros i Hi; rewrite Forall_forall in HR; apply HR, nth_In; auto).
  assert (R2 : forall i, (i < length cols)%nat -> length (nth i cols []) = D) by (intros i Hi; rewrite Forall_forall in Rc; apply Rc, nth_In; auto).
  exists (dist_matrix (sqe_fn v) m1 m2). unfold sqe_kernel. rewrite Ev, Lv, (rectangular_ncols _ D HR HN), Nat.eqb_refl, SW. split; [reflexivity|].
  split; [destruct m2; reflexivity|]. split; [destruct m2; reflexivity|].
  assert (E : forall i j, (i < length m1)%nat -> (j < length cols)%nat -> at_ (dist_matrix (sqe_fn v) m1 m2) i j = exp (- / 2 * distance_with D v (nth i m1 []) (nth j cols []))).
  { intros i j Hi Hj. unfold cols in *. destruct m2 as [m|]; cbn [dist_matrix at_].
    - unfold row_at. apply sqe_fn_value; auto.
    - destruct (Nat.eqb_spec i j) as [<-|N]; [rewrite distance_self, Rmult_0_r, exp_0; auto|]. unfold row_at. apply sqe_fn_value; auto. }
  split.
  - intros i j Hi Hj. split; [auto|]. rewrite E by auto. split; [apply exp_pos|]. apply Rle_trans with (exp 0); [|rewrite exp_0; lra].
    destruct (Rle_lt_or_eq_dec 0 (distance_with D v (nth i m1 []) (nth j cols []))) as [Q|Q]; [apply sqrt_pos| |].
    + left. apply exp_increasing. lra.
    + right. rewrite <- Q. f_equal. lra.
  - intros ->. cbn [cols] in *. split.
    + intros i j Hi Hj. rewrite !E by auto. split; [f_equal; f_equal; apply distance_sym|]. rewrite distance_self, Rmult_0_r. apply exp_0.
    + intros x. apply (psd_quad (length m1) (at_ (dist_matrix (sqe_fn v) m1 None))).
      apply (psd_ext _ (fun i j => exp (- / 2 * sqrt (sqdist (fun d i => nth d (nth i m1 []) 0 / sqrt (nth d v 0)) D i j)))).
      * intros i j Hi Hj. rewrite E by auto. unfold distance_with, sqdist. do 3 f_equal. apply Sum_ext. intros d Hd. specialize (Pv d Hd). change cols with m1.
        assert (S0 : 0 < sqrt (nth d v 0)) by (apply sqrt_lt_R0; auto). assert (SE : nth d v 0 = sqrt (nth d v 0) ^ 2) by (rewrite pow2_sqrt; lra). set (s := sqrt (nth d v 0)) in *. rewrite SE. field. lra.
      * apply mult_psd. apply mult_matern. lra.
Qed.

(** It is not the Gaussian kernel of the same widths, nor with the widths taken as squares:
    with unit widths the covariance of points at distance 2 is exp(-1), not exp(-2). *)
Theorem sqe_is_gaussian_refuted : exists K G, sqe_kernel [1] false false [[0]; [2]] None = Ok K /\
  gaussian_kernel [1] false [[0]; [2]] None = Ok G /\ at_ K 0 1 = exp (- 1) /\ at_ G 0 1 = exp (- 2) /\ at_ G 0 1 < at_ K 0 1.
Proof.
  eexists. eexists. split; [reflexivity|]. split; [reflexivity|]. cbn [dist_matrix at_ Nat.eqb row_at nth].
  assert (A : sqe_fn [1] [0] [2] = exp (- 1)).
  { rewrite (sqe_fn_value 1) by reflexivity. f_equal. unfold distance_with. cbn. replace (_ / 1) with (2 ^ 2) by field. rewrite Rplus_0_l, sqrt_pow2 by lra. field. }
  assert (B : gaussian_fn [0 / 1] [2 / 1] = exp (- 2)).
  { unfold gaussian_fn, sqeuclidean. cbn. f_equal. field. }
  cbv [logged map]. rewrite A. unfold broadcast. cbn [length Nat.eqb combine map fst snd]. rewrite ?B. repeat split. apply exp_increasing. lra.
Qed.

(** scaled_sqe_kernel fails for every input. *)
Theorem scaled_sqe_refuted : forall theta log_scale grad m1 m2, exists e, scaled_sqe_kernel theta log_scale grad m1 m2 = Err e.
Proof. intros theta log_scale [] m1 m2; cbn; eauto. Qed.

(** ** AA_kernel *)

(** The covariance of two rows for one number of categories [c]: per feature a power of
    l and of (1-l)/(c-l). *)
Definition aa_value (D : nat) (l c : R) (x y : row) : R :=
  Sum D (fun d => let t := Rabs (nth d x 0 - nth d y 0) in Rpower l (INR D - t) * Rpower ((1 - l) / (c - l)) t).

Lemma aa_fn_value l cs D x y : length x = D -> length y = D -> aa_fn l cs (INR D) x y = sumR (map (fun c => aa_value D l c x y) cs).
Proof.
  intros Hx Hy. unfold aa_fn. f_equal. apply map_ext. intros c. rewrite sumR_combine by congruence. rewrite Hx. reflexivity.
Qed.

Lemma aa_value_sym D l c x y : aa_value D l c x y = aa_value D l c y x.
Proof. apply Sum_ext. intros d _. cbv zeta. rewrite Rabs_minus_sym. reflexivity. Qed.

(** With l between 1/c and 1 every feature is a Laplacian kernel. *)
Lemma aa_laplacian l c : 0 < l < 1 -> 1 <= c * l -> exists lam, 0 <= lam /\
  forall n t, 0 <= t -> Rpower l (n - t) * Rpower ((1 - l) / (c - l)) t = Rpower l n * exp (- (lam * t)).
Proof.
  intros Hl Hc. assert (C1 : 1 < c) by nra. set (q := (1 - l) / (c - l)).
  assert (Q0 : 0 < q) by (apply Rdiv_lt_0_compat; lra).
  assert (Q1 : q <= l). { unfold q. apply (Rmult_le_reg_r (c - l)); [lra|]. unfold Rdiv. rewrite Rmult_assoc, Rinv_l by lra. nra. }
  exists (ln l - ln q). split.
  - destruct (Rle_lt_or_eq_dec _ _ Q1) as [H|H]; [assert (ln q < ln l) by (apply ln_increasing; auto); lra|rewrite H; lra].
  - intros n t Ht. unfold Rpower. rewrite <- !exp_plus. f_equal. ring.
Qed.

(** For l between 1/c and 1 the AA covariance is symmetric, positive, largest for equal
    rows, and positive semidefinite. *)
Theorem aa_covariance_partial : forall l cs D m1, 0 < l < 1 -> cs <> [] -> Forall (fun c => 1 <= c * l) cs ->
  m1 <> [] -> Forall (fun r => length r = D) m1 -> (1 <= D)%nat ->
  exists K, AA_kernel (l :: cs) false false m1 None = Ok K /\ nr K = length m1 /\ nc K = length m1 /\
    (forall i j, (i < length m1)%nat -> (j < length m1)%nat ->
       at_ K i j = sumR (map (fun c => aa_value D l c (nth i m1 []) (nth j m1 [])) cs) /\
       at_ K i j = at_ K j i /\ 0 < at_ K i j <= at_ K i i) /\
    forall x, 0 <= Sum (length m1) (fun i => Sum (length m1) (fun j => x i * at_ K i j * x j)).
Proof.
  intros l cs D m1 Hl HC Hc HN HR HD. unfold AA_kernel. destruct cs as [|c0 cs]; [congruence|]. cbn [same_width]. set (C := c0 :: cs) in *.
  assert (Mi : map (logged false) C = C) by (apply map_id). rewrite Mi. cbn [cols_of logged]. rewrite (rectangular_ncols _ D HR HN).
  eexists. split; [reflexivity|]. cbn [nr nc at_]. split; [auto|]. split; [auto|].
  assert (R1 : forall i, (i < length m1)%nat -> length (nth i m1 []) = D) by (intros i Hi; rewrite Forall_forall in HR; apply HR, nth_In; auto).
  assert (E : forall i j, (i < length m1)%nat -> (j < length m1)%nat ->
    aa_fn l C (INR D) (row_at m1 i) (row_at m1 j) = sumR (map (fun c => aa_value D l c (nth i m1 []) (nth j m1 [])) C)) by (intros; apply aa_fn_value; apply R1; auto).
  split.
  - intros i j Hi Hj. rewrite !E by auto. split; [auto|]. split; [f_equal; apply map_ext; intros; apply aa_value_sym|].
    assert (G : forall c, 1 <= c * l -> 0 < aa_value D l c (nth i m1 []) (nth j m1 []) <= aa_value D l c (nth i m1 []) (nth i m1 [])).
    { intros c Hcc. destruct (aa_laplacian l c Hl Hcc) as (lam & L0 & L1). unfold aa_value. split.
      - destruct D as [|D]; [lia|]. rewrite Sum_S_first. apply Rplus_lt_le_0_compat; [cbv zeta; apply Rmult_lt_0_compat; apply exp_pos|].
        apply Sum_nonneg. intros; cbv zeta; left; apply Rmult_lt_0_compat; apply exp_pos.
      - apply Sum_le. intros d Hd. cbv zeta. rewrite !L1 by apply Rabs_pos. apply Rmult_le_compat_l; [left; apply exp_pos|].
        replace (nth d (nth i m1 []) 0 - nth d (nth i m1 []) 0) with 0 by ring. rewrite Rabs_R0, Rmult_0_r, Ropp_0.
        set (t := Rabs _). assert (T : 0 <= t) by apply Rabs_pos. assert (0 <= lam * t) by (apply Rmult_le_pos; auto).
        destruct (Rle_lt_or_eq_dec 0 (lam * t)) as [Q|Q]; [auto|left; apply exp_increasing; lra|right; f_equal; lra]. }
    clear - Hc G HC. unfold sumR. split.
    + apply Forall_cons_iff in Hc. destruct Hc as [H0 Hc]. unfold C. cbn [map fold_right]. apply Rplus_lt_le_0_compat; [apply G; auto|].
      clear - Hc G. induction cs as [|c cs IH]; cbn; [lra|]. apply Forall_cons_iff in Hc. destruct Hc as [H0 Hc]. apply Rplus_le_le_0_compat; [left; apply G; auto|auto].
    + clear HC. induction C as [|c t IH]; cbn; [lra|]. apply Forall_cons_iff in Hc. destruct Hc as [H0 Hc]. apply Rplus_le_compat; [apply G; auto|auto].
  - intros x. apply (psd_quad (length m1) (fun i j => aa_fn l C (INR D) (row_at m1 i) (row_at m1 j))).
    apply (psd_ext _ (fun i j => sumR (map (fun c => aa_value D l c (nth i m1 []) (nth j m1 [])) C))); [intros; symmetry; apply E; auto|].
    apply mult_psd. clear - Hl Hc. induction C as [|c t IH]; cbn; [apply (mult_const _ 0); lra|]. apply Forall_cons_iff in Hc. destruct Hc as [H0 Hc].
    apply (mult_plus _ (fun i j => aa_value D l c (nth i m1 []) (nth j m1 []))); [|auto].
    destruct (aa_laplacian l c Hl H0) as (lam & L0 & L1). unfold aa_value. apply mult_Sum. intros d Hd.
    apply (mult_ext _ (fun i j => Rpower l (INR D) * exp (- cityblock (fun _ i => lam * nth d (nth i m1 []) 0) 1 i j))).
    + intros i j _ _. cbv zeta. rewrite L1 by apply Rabs_pos. f_equal. f_equal. unfold cityblock. cbn. rewrite Rplus_0_l.
      rewrite <- Rmult_minus_distr_l, Rabs_mult, (Rabs_pos_eq lam) by auto. reflexivity.
    + apply mult_scal; [left; apply exp_pos|]. apply mult_laplacian.
Qed.

(** For smaller l different rows have a larger covariance than equal ones, and the matrix is
    not positive semidefinite. *)
Theorem aa_covariance_refuted : exists l c K, 0 < l < 1 /\ 1 < c /\ AA_kernel [l; c] false false [[0]; [1]] None = Ok K /\
  at_ K 0 0 < at_ K 0 1 /\ exists x, Sum 2 (fun i => Sum 2 (fun j => x i * at_ K i j * x j)) < 0.
Proof.
  exists (/ 4), 2. eexists. split; [lra|]. split; [lra|]. split; [reflexivity|]. cbn [at_ cols_of logged map ncols row_at nth length].
  set (f := aa_fn (/ 4) [2] (INR 1)).
  assert (V : forall a b, f [a] [b] = Rpower (/ 4) (1 - Rabs (a - b)) * Rpower (3 / 7) (Rabs (a - b))).
  { intros a b. unfold f. rewrite (aa_fn_value _ _ 1) by reflexivity. unfold aa_value. cbn. rewrite Rplus_0_l, Rplus_0_r. do 2 f_equal. field. }
  assert (A : f [0] [0] = / 4 /\ f [1] [1] = / 4).
  { split; rewrite V; [replace (0 - 0) with 0 by ring|replace (1 - 1) with 0 by ring]; rewrite Rabs_R0, Rminus_0_r, Rpower_1, Rpower_O by lra; ring. }
  assert (B : f [0] [1] = 3 / 7 /\ f [1] [0] = 3 / 7).
  { split; rewrite V; [replace (Rabs (0 - 1)) with 1 by (rewrite Rabs_left; lra)|replace (Rabs (1 - 0)) with 1 by (rewrite Rabs_pos_eq; lra)];
      replace (1 - 1) with 0 by ring; rewrite Rpower_1, Rpower_O by lra; ring. }
  destruct A as [A1 A2], B as [B1 B2]. clearbody f. rewrite A1, B1. split; [lra|].
  exists (fun i => match i with 0%nat => 1 | _ => -1 end). cbn [Sum row_at nth]. rewrite A1, A2, B1, B2. lra.
Qed.

(** The documented parameters [l, n, c] are read as two numbers of categories n and c. *)
Theorem aa_parameters_refuted : forall l n c D m1, m1 <> [] -> Forall (fun r => length r = D) m1 ->
  exists K Kn Kc, AA_kernel [l; n; c] false false m1 None = Ok K /\ AA_kernel [l; n] false false m1 None = Ok Kn /\ AA_kernel [l; c] false false m1 None = Ok Kc /\
    forall i j, at_ K i j = at_ Kn i j + at_ Kc i j.
Proof.
  intros l n c D m1 HN HR. do 3 eexists. repeat (split; [reflexivity|]). intros i j. cbn [at_ logged map]. unfold aa_fn. cbn [map]. unfold sumR. cbn [fold_right]. ring.
Qed.

(** The weights of one feature do not sum to one over its c categories (the kernel of
    Aitchison and Aitken divides by c - 1, not by c - l). *)
Theorem aa_normalised_refuted : forall l c, 0 < l < 1 -> 1 < c -> aa_value 1 l c [0] [0] + (c - 1) * aa_value 1 l c [0] [1] < 1.
Proof.
  intros l c Hl Hc. assert (Q : 0 < (1 - l) / (c - l)) by (apply Rdiv_lt_0_compat; lra).
  assert (A : aa_value 1 l c [0] [0] = l).
  { unfold aa_value. cbn. replace (0 - 0) with 0 by ring. rewrite Rabs_R0, Rminus_0_r, Rpower_1, Rpower_O by lra. ring. }
  assert (B : aa_value 1 l c [0] [1] = (1 - l) / (c - l)).
  { unfold aa_value. cbn. replace (Rabs (0 - 1)) with 1 by (rewrite Rabs_left; lra). replace (1 - 1) with 0 by ring. rewrite Rpower_1, Rpower_O by lra. ring. }
  rewrite A, B. apply (Rmult_lt_reg_r (c - l)); [lra|]. unfold Rdiv.
  replace ((l + (c - 1) * ((1 - l) * / (c - l))) * (c - l)) with (l * (c - l) + (c - 1) * (1 - l)) by (field; lra). nra.
Qed.

(** ** Scaling of hyperparameters *)
Theorem hyperparameters_round_trip : forall ks rb g nd ks' b std,
  prepare_kernels ks rb g nd = Ok (ks', b) -> Forall (in_range nd) ks -> Forall basic ks -> length std = nd -> Forall (fun s => s <> 0) std ->
  exists ks1, hyperparameters std ks' = Ok ks1 /\ rescale_hyperparameters std ks1 = Ok ks'.
Proof. intros. eapply (kernel_scaling_round_trip ks rb g nd ks' b std false); eauto. Qed.

Example sqe_example : exists K, sqe_kernel [1; 4] false false [[0; 0]; [0; 2]] None = Ok K /\ at_ K 0 1 = exp (- / 2).
Proof.
  eexists. split; [reflexivity|]. cbn [dist_matrix at_ Nat.eqb row_at nth]. cbv [logged map]. rewrite (sqe_fn_value 2) by reflexivity. f_equal.
  unfold distance_with. cbn. replace (0 + (0 - 0) * ((0 - 0) * 1) / 1 + (0 - 2) * ((0 - 2) * 1) / 4) with (1 ^ 2) by field. rewrite sqrt_pow2 by lra. ring.
Qed.

Example aa_example : 0 < / 2 < 1 /\ Forall (fun c => 1 <= c * / 2) [2; 3].
Proof. repeat split; try lra. repeat constructor; lra. Qed.

Print Assumptions sqe_covariance.
Print Assumptions sqe_is_gaussian_refuted.
Print Assumptions scaled_sqe_refuted.
Print Assumptions aa_covariance_partial.
Print Assumptions aa_covariance_refuted.
Print Assumptions aa_parameters_refuted.
Print Assumptions aa_normalised_refuted.
Print Assumptions hyperparameters_round_trip.
