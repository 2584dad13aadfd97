(** Predictions of a Gaussian process far from its data (catlearn/regression/gaussian_process.py). *)
From Coq Require Import Reals Lra Lia List Arith Bool.
From Verif Require Import Base BaseFacts RBase LinAlg KernModel KernProofs KernSetupProofs KernDefProofs
  KernScaleProofs KernEntryProofs KernProperties KernFormProofs GPModel GPProofs GPMoreProofs GPProperties
  SensModel SensProperties ErrorProperties RidgeModel RidgeProofs RidgeFacts RidgeProperties GPRidgeProperties GPDataProperties GPNextProperties.
Import ListNotations.
Open Scope R_scope.
Set Bullet Behavior "Strict Subproofs".

Lemma gaussian_covariance w D x y : Forall (evaluable D) [gaussian w] -> length x = D -> length y = D ->
  kappa [gaussian w] false x y = exp (- / 2 * Sum D (fun d => ((nth d x 0 - nth d y 0) / wnth w d) ^ 2)).
Proof.
  intros HE Hx Hy. rewrite (kappa_form D) by (auto; discriminate). cbn [fold_left]. unfold combine_forms. cbn [k_mult gaussian set_width bare].
  cbv zeta. unfold scale_of, form, n_used, used, width_of, logged. cbn. rewrite Rmult_1_l, Rplus_0_l. reflexivity.
Qed.
Lemma exp_small d : 0 < d -> exp (- / d) <= d.
Proof.
  intros H. rewrite exp_Ropp. pose proof (Rinv_0_lt_compat d H) as I. pose proof (exp_ineq1 (/ d) ltac:(lra)) as E.
  rewrite <- (Rinv_inv d) at 2. apply Rinv_le_contravar; lra.
Qed.
Lemma Sum_bound n f e M : 0 <= e -> (forall i, (i < n)%nat -> Rabs (f i) <= e * M i) -> Rabs (Sum n f) <= e * Sum n M.
Proof.
  intros He H. rewrite <- Sum_scal. eapply Rle_trans; [apply Sum_abs|]. apply Sum_le. exact H.
Qed.

Lemma Sum_term n (f : nat -> R) i : (i < n)%nat -> (forall k, (k < n)%nat -> 0 <= f k) -> f i <= Sum n f.
Proof.
  induction n as [|n IH]; intros Hi H; [lia|]. cbn [Sum]. assert (P : 0 <= Sum n f) by (apply Sum_nonneg; intros; apply H; lia).
  destruct (Nat.eq_dec i n) as [->|N]; [lra|]. assert (f i <= Sum n f) by (apply IH; [lia|intros; apply H; lia]). specialize (H n ltac:(lia)). lra.
Qed.

(** A model with a gaussian kernel of one width per feature returns to zero and to the uncertainty of the kernel: for every
    tolerance there is a distance, in units of the widths, such that at every point which differs by it from each training point
    in some feature, the prediction is zero and the squared uncertainty one up to the tolerance. *)
Theorem far_from_data : forall inv cho cho_solve D fp tgt w reg rb s,
  oracles_ok inv cho -> inputs_ok D fp [gaussian w] -> length w = D -> Forall (fun v => 0 < v) w ->
  gp_init inv cho cho_solve fp tgt [gaussian w] None reg rb false false = Ok s ->
  forall eps, 0 < eps -> exists dist, 0 < dist /\ forall z, length z = D ->
    (forall t, In t fp -> exists d, (d < D)%nat /\ dist * nth d w 0 <= Rabs (nth d z 0 - nth d t 0)) ->
    exists p u r, predict s [z] = Ok [p] /\ predict_with_uncertainty s [z] = Ok ([u], r) /\
      Rabs p <= eps /\ 1 - eps <= u ^ 2 <= 1.
Proof.
  intros inv cho cho_solve D fp tgt w reg rb s HO HI LW HW E eps He.
  destruct (init_facts _ _ _ HO _ _ _ _ _ _ _ _ _ HI E) as (ks' & b & EP & T & El & Es & Er & _ & _ & HL & ET & _).
  destruct (gaussian_prepared w D (init_bounds rb false) LW HW) as [b' EP']. rewrite EP' in EP. injection EP as <- <-.
  cbn in ET. injection ET as Esc Ef Et.
  pose proof (gaussian_sensible w HW) as HS.
  assert (ST : forall t, scale_test s t = t) by (intros; unfold scale_test; rewrite Es; auto).
  set (n := length fp). set (k := fun z j => kappa [gaussian w] false z (row_at fp j)).
  set (A := Sum n (fun j => Rabs (weights s j))). set (B := Sum n (fun i => Sum n (fun j => Rabs (at_ (g_cinv s) i j)))).
  assert (A0 : 0 <= A) by (apply Sum_nonneg; intros; apply Rabs_pos).
  assert (B0 : 0 <= B) by (apply Sum_nonneg; intros; apply Sum_nonneg; intros; apply Rabs_pos).
  set (d0 := Rmin 1 (eps / (A + B + 1))).
  assert (D0 : 0 < d0) by (unfold d0; apply Rmin_glb_lt; [lra|apply Rdiv_lt_0_compat; lra]).
  assert (D1 : d0 <= 1) by apply Rmin_l.
  assert (D2 : d0 * (A + B) <= eps).
  { apply Rle_trans with (eps / (A + B + 1) * (A + B)).
    - apply Rmult_le_compat_r; [lra|]. apply Rmin_r.
    - apply Rle_trans with (eps / (A + B + 1) * (A + B + 1)); [apply Rmult_le_compat_l; [left; apply Rdiv_lt_0_compat; lra|lra]|]. right. field. lra. }
  exists (sqrt (2 / d0)). assert (R2 : 0 < 2 / d0) by (apply Rdiv_lt_0_compat; lra). split; [apply sqrt_lt_R0, R2|]. intros z HZ HF.
  assert (RL : forall j, (j < n)%nat -> length (row_at fp j) = D) by (intros; apply row_at_length; auto; apply (i_rect _ _ _ HI)).
  assert (KZ : forall j, (j < n)%nat -> 0 <= k z j <= d0).
  { intros j Hj. unfold k. rewrite (gaussian_covariance w D) by (auto; apply (t_eval _ _ _ T)). split; [left; apply exp_pos|].
    eapply Rle_trans; [|apply exp_small, D0].
    destruct (HF (row_at fp j)) as (d & Hd & Hdist); [unfold row_at; apply nth_In; exact Hj|].
    assert (W : 0 < nth d w 0) by (rewrite Forall_forall in HW; apply HW, nth_In; lia).
    assert (WN : wnth w d = nth d w 0).
    { unfold wnth. destruct w as [|a [|c w']]; auto. cbn in LW. assert (d = 0)%nat by lia. subst d. reflexivity. }
    set (f := fun d => ((nth d z 0 - nth d (row_at fp j) 0) / wnth w d) ^ 2).
    assert (F : f d <= Sum D f) by (apply (Sum_term D f d Hd); intros; unfold f; apply pow2_ge_0).
    assert (G : 2 / d0 <= f d).
    { unfold f. rewrite WN. rewrite <- (Rsqr_sqrt (2 / d0)) by lra. rewrite <- Rsqr_pow2. apply Rsqr_le_abs_1.
      rewrite (Rabs_pos_eq (sqrt _)) by apply sqrt_pos. unfold Rdiv at 2. rewrite Rabs_mult, (Rabs_pos_eq (/ _)) by (left; apply Rinv_0_lt_compat, W).
      apply Rmult_le_reg_r with (nth d w 0); [exact W|]. rewrite Rmult_assoc, Rinv_l by lra. lra. }
    assert (Q : - / 2 * Sum D f <= - / d0).
    { assert (2 / d0 = 2 * / d0) by reflexivity. lra. }
    destruct Q as [Q|Q]; [left; apply exp_increasing, Q|right; f_equal; exact Q]. }
  set (p := Sum n (fun j => k z j * weights s j)). set (v := kappa [gaussian w] false z z - reduction s [gaussian w] z).
  assert (ZN : [z] <> []) by discriminate. assert (ZR : rectangular [z] D) by (constructor; auto; constructor).
  destruct (uncertainty_trained s [gaussian w] D [z] T Es ZN ZR) as [r EV].
  exists p, (sqrt v), r. split.
  { rewrite (predict_trained s [gaussian w] D T) by (rewrite ST; auto). rewrite ST. unfold rescale. rewrite Es, Ef, El. reflexivity. }
  split; [rewrite EV, El; reflexivity|]. split.
  - unfold p. eapply Rle_trans; [apply (Sum_bound n _ d0 (fun j => Rabs (weights s j))); [lra|]|].
    + intros j Hj. rewrite Rabs_mult. destruct (KZ j Hj). rewrite (Rabs_pos_eq (k z j)) by auto. apply Rmult_le_compat_r; [apply Rabs_pos|auto].
    + fold A. nra.
  - assert (KK : kappa [gaussian w] false z z = 1).
    { rewrite (gaussian_covariance w D) by (auto; apply (t_eval _ _ _ T)).
      rewrite (Sum_ext D _ (fun _ => 0 * 0)) by (intros; unfold Rdiv; ring). rewrite Sum_scal. rewrite Rmult_0_l, Rmult_0_r. apply exp_0. }
    pose proof (reduction_bounds s [gaussian w] D T z) as RB. rewrite El in RB. specialize (RB HS HZ). rewrite KK in RB.
    assert (RS : reduction s [gaussian w] z <= eps).
    { eapply Rle_trans; [apply Rle_abs|]. unfold reduction. rewrite Ef, El. rewrite quad_dot. unfold dotv.
      eapply Rle_trans; [apply (Sum_bound n _ d0 (fun i => Sum n (fun j => Rabs (at_ (g_cinv s) i j)))); [lra|]|fold B; nra].
      intros i Hi. rewrite Rabs_mult. destruct (KZ i Hi) as [K1 K2]. fold (k z i). rewrite (Rabs_pos_eq (k z i)) by auto.
      apply Rmult_le_compat; [auto|apply Rabs_pos|auto|]. unfold mulv.
      eapply Rle_trans; [apply (Sum_bound n _ 1 (fun j => Rabs (at_ (g_cinv s) i j))); [lra|]|lra].
      intros j Hj. rewrite Rabs_mult. destruct (KZ j Hj) as [K3 K4]. fold (k z j). rewrite (Rabs_pos_eq (k z j)) by auto.
      rewrite Rmult_comm. apply Rmult_le_compat_r; [apply Rabs_pos|lra]. }
    unfold v. rewrite KK. rewrite <- Rsqr_pow2, Rsqr_sqrt by lra. lra.
Qed.

(** Targets 3 and 5 at the points 0 and 2. *)
Example far_case : exists s dist, 0 < dist /\
  gp_init ref_inv ref_cho (fun _ v => v) [[0]; [2]] [3; 5] [gaussian [1]] None 1 None false false = Ok s /\
  exists p u r, predict s [[2 + dist]] = Ok [p] /\ predict_with_uncertainty s [[2 + dist]] = Ok ([u], r) /\
    Rabs p <= 1 / 1000 /\ 1 - 1 / 1000 <= u ^ 2 <= 1.
Proof.
  destruct oracles_exist as [HO HC]. pose proof HO as [SI SC]. pose proof HC as [CI CC].
  assert (HW : Forall (fun v => 0 < v) [1]) by (repeat constructor; lra).
  assert (HI : inputs_ok 1 [[0]; [2]] [gaussian [1]]) by (constructor; auto; try discriminate; try apply gaussian_usable; repeat constructor).
  destruct (gaussian_prepared [1] 1 (init_bounds None false) eq_refl HW) as [b EP].
  assert (G : exists s, gp_init ref_inv ref_cho (fun _ v => v) [[0]; [2]] [3; 5] [gaussian [1]] None 1 None false false = Ok s).
  { eapply (gp_init_ok ref_inv ref_cho (fun _ v => v) SI); [exact CI|exact CC|exact EP|apply gaussian_usable|discriminate|lia|discriminate| | |apply gaussian_sensible, HW|cbn; lra].
    - repeat constructor.
    - reflexivity. }
  destruct G as [s E].
  destruct (far_from_data _ _ _ 1 _ _ [1] _ _ s HO HI eq_refl HW E (1 / 1000) ltac:(lra)) as (dist & D0 & H).
  exists s, dist. split; [exact D0|]. split; [exact E|]. apply H; [reflexivity|].
  intros t [<-|[<-|[]]]; exists 0%nat; (split; [lia|]); cbn [nth]; rewrite Rabs_pos_eq; lra.
Qed.

Print Assumptions far_from_data.
