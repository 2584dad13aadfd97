(** Predictions of a Gaussian process with scaled data far from that data (catlearn/regression/gaussian_process.py). *)
From Coq Require Import Reals Lra Lia List Arith Bool.
From Verif Require Import Base BaseFacts RBase LinAlg KernModel KernProofs KernSetupProofs KernDefProofs
  KernScaleProofs KernEntryProofs KernProperties KernFormProofs GPModel GPProofs GPMoreProofs GPProperties GPScaleProperties
  SensModel SensProperties ErrorProperties GPUpdateProofs GPNextProperties FitnessProperties GPFarProperties.
Import ListNotations.
Open Scope R_scope.
Set Bullet Behavior "Strict Subproofs".

(** The unit of a feature: its standard deviation in the training data, one for a constant feature. *)
Definition unit_of (fp : list row) (d : nat) : R := let c := map (fun t => nth d t 0) fp in if Req_EM_T (std c) 0 then 1 else std c.

Lemma unit_positive fp d : 0 < unit_of fp d.
Proof. unfold unit_of. cbv zeta. destruct (Req_EM_T _ 0) as [E|E]; [lra|]. pose proof (sqrt_pos (var (map (fun t => nth d t 0) fp))). unfold std in *. lra. Qed.
Lemma zscore_unit fp d x : zscore (column d fp) x = (x - mean (column d fp)) / unit_of fp d.
Proof.
  unfold zscore, unit_of. cbv zeta. fold (column d fp). destruct (Reqb (std (column d fp)) 0) eqn:E; destruct (Req_EM_T (std (column d fp)) 0) as [F|F]; auto.
  - apply Reqb_true in E. contradiction.
  - apply Reqb_false in E. contradiction.
Qed.

(** A model with scaled data returns to the mean of its targets, and to their standard deviation as the uncertainty: for every
    tolerance there is a distance, in units of the widths and of the spread of the features, such that at every point which
    differs by it from each training point in some feature, the prediction is the mean and the squared uncertainty the variance
    of the targets, up to the tolerance. *)
Theorem far_from_scaled_data : forall inv cho cho_solve D fp tgt w reg rb s,
  oracles_ok inv cho -> inputs_ok D fp [gaussian w] -> length w = D -> Forall (fun v => 0 < v) w -> std tgt <> 0 ->
  gp_init inv cho cho_solve fp tgt [gaussian w] None reg rb false true = Ok s ->
  forall eps, 0 < eps -> exists dist, 0 < dist /\ forall z, length z = D ->
    (forall t, In t fp -> exists d, (d < D)%nat /\ dist * (nth d w 0 * unit_of fp d) <= Rabs (nth d z 0 - nth d t 0)) ->
    exists p u r, predict s [z] = Ok [p] /\ predict_with_uncertainty s [z] = Ok ([u], r) /\
      Rabs (p - mean tgt) <= eps /\ std tgt ^ 2 - eps <= u ^ 2 <= std tgt ^ 2.
Proof.
  intros inv cho cho_solve D fp tgt w reg rb s HO HI LW HW HS E eps He.
  destruct (scale_data_is_manual_scaling _ _ _ _ _ _ _ _ _ _ _ HO HI E) as (sd & f1 & t1 & s0 & ES & E0 & HP).
  pose proof HI as [iD ifp irect iks ine]. pose proof (scale_train_shape fp tgt D ifp irect) as Q. rewrite ES in Q.
  destruct Q as [Q0 [Q1 [Q2 _]]]. destruct (scale_train_zscore _ _ _ _ _ _ ifp irect ES) as (ZM & ZS & _ & ZT).
  assert (I0 : inputs_ok D f1 [gaussian w]) by (constructor; auto; destruct fp, f1; cbn in *; congruence).
  assert (S0 : 0 < std tgt) by (pose proof (sqrt_pos (var tgt)); unfold std in *; lra).
  set (e0 := Rmin (eps / std tgt) (eps / std tgt ^ 2)).
  assert (S2 : 0 < std tgt ^ 2) by (apply pow_lt, S0).
  assert (E1 : 0 < e0) by (apply Rmin_glb_lt; apply Rdiv_lt_0_compat; auto).
  assert (E2 : e0 * std tgt <= eps).
  { apply Rle_trans with (eps / std tgt * std tgt); [apply Rmult_le_compat_r; [lra|apply Rmin_l]|right; field; lra]. }
  assert (E3 : e0 * std tgt ^ 2 <= eps).
  { apply Rle_trans with (eps / std tgt ^ 2 * std tgt ^ 2); [apply Rmult_le_compat_r; [lra|apply Rmin_r]|right; field; lra]. }
  destruct (far_from_data _ _ _ _ _ _ _ _ _ _ HO I0 LW HW E0 e0 E1) as (dist & D0 & H).
  exists dist. split; [exact D0|]. intros z HZ HF.
  assert (ZR : rectangular [z] D) by (constructor; auto; constructor). destruct (ZT [z] ZR) as (L1 & R1 & N1).
  destruct (PrepModel.sd_test sd [z]) as [|z1 [|]] eqn:EZ; try discriminate L1.
  destruct (H z1) as (p & u & r & EP & EU & BP & BU).
  - inversion R1; auto.
  - intros t Ht. apply (In_nth _ _ []) in Ht. destruct Ht as (i & Hi & Et). rewrite Q2 in Hi. destruct (HF (nth i fp [])) as (d & Hd & B); [apply nth_In, Hi|].
    exists d. split; [exact Hd|]. destruct (ZT fp irect) as (_ & _ & NF). specialize (NF i d Hi Hd). rewrite <- Q0, Et in NF.
    specialize (N1 0%nat d ltac:(cbn; lia) Hd). cbn [nth] in N1. rewrite N1, NF, !zscore_unit. pose proof (unit_positive fp d) as U.
    replace ((nth d z 0 - mean (column d fp)) / unit_of fp d - (nth d (nth i fp []) 0 - mean (column d fp)) / unit_of fp d)
      with ((nth d z 0 - nth d (nth i fp []) 0) / unit_of fp d) by (field; lra).
    unfold Rdiv. rewrite Rabs_mult, (Rabs_pos_eq (/ _)) by (left; apply Rinv_0_lt_compat, U).
    apply Rmult_le_reg_r with (unit_of fp d); [exact U|]. rewrite (Rmult_assoc (Rabs _)), Rinv_l by lra. lra.
  - destruct (HP [z]) as [P1 P2]. rewrite EZ in P1, P2. rewrite EP in P1. rewrite EU in P2. cbn in P1, P2. rewrite ZM, ZS in P1. rewrite ZS in P2.
    eexists _, _, _. split; [exact P1|]. split; [exact P2|]. split.
    + replace (p * std tgt + mean tgt - mean tgt) with (p * std tgt) by ring. rewrite Rabs_mult, (Rabs_pos_eq (std tgt)) by lra.
      apply Rle_trans with (e0 * std tgt); [apply Rmult_le_compat_r; lra|exact E2].
    + rewrite Rpow_mult_distr. nra.
Qed.

(** Targets 3 and 5 at the points 0 and 2: mean 4 and standard deviation 1. *)
Example far_scaled_case : exists s dist, 0 < dist /\
  gp_init ref_inv ref_cho (fun _ v => v) [[0]; [2]] [3; 5] [gaussian [1]] None 1 None false true = Ok s /\
  exists p u r, predict s [[2 + dist]] = Ok [p] /\ predict_with_uncertainty s [[2 + dist]] = Ok ([u], r) /\
    Rabs (p - 4) <= 1 / 1000 /\ 1 - 1 / 1000 <= u ^ 2 <= 1.
Proof.
  destruct oracles_exist as [HO HC]. pose proof HO as [SI SC]. pose proof HC as [CI CC].
  assert (HW : Forall (fun v => 0 < v) [1]) by (repeat constructor; lra).
  assert (HI : inputs_ok 1 [[0]; [2]] [gaussian [1]]) by (constructor; auto; try discriminate; try apply gaussian_usable; repeat constructor).
  assert (M : mean [3; 5] = 4) by (unfold mean, sumR; cbn; lra).
  assert (SD : std [3; 5] = 1) by (unfold std, var; rewrite M; unfold mean, sumR; cbn; replace (_ / _) with 1 by field; apply sqrt_1).
  assert (SU : unit_of [[0]; [2]] 0 = 1).
  { assert (C : std [0; 2] = 1) by (unfold std, var; replace (mean [0; 2]) with 1 by (unfold mean, sumR; cbn; lra); unfold mean, sumR; cbn; replace (_ / _) with 1 by field; apply sqrt_1).
    unfold unit_of. cbn [map nth]. cbv zeta. rewrite C. destruct (Req_EM_T 1 0); lra. }
  destruct (gaussian_prepared [1] 1 (init_bounds None false) eq_refl HW) as [b EP].
  pose proof (init_scaled ref_inv ref_cho (fun _ v => v) [[0]; [2]] [3; 5] [gaussian [1]] 1 None false 1 ltac:(discriminate) ltac:(repeat constructor) eq_refl) as IS.
  destruct (scale_train [[0]; [2]] [3; 5]) as [[sd f1] t1] eqn:ES.
  pose proof (scale_train_shape [[0]; [2]] [3; 5] 1 ltac:(discriminate) ltac:(repeat constructor)) as Q. rewrite ES in Q. destruct Q as (Q0 & Q1 & Q2 & Q3 & _).
  assert (G : exists s, gp_init ref_inv ref_cho (fun _ v => v) f1 t1 [gaussian [1]] None 1 None false false = Ok s).
  { eapply (gp_init_ok ref_inv ref_cho (fun _ v => v) SI); [exact CI|exact CC|exact EP|apply gaussian_usable|discriminate|lia| | | |apply gaussian_sensible, HW|cbn; lra].
    - destruct f1; discriminate.
    - exact Q1.
    - cbn in Q2, Q3. congruence. }
  destruct G as [s0 E0]. rewrite E0 in IS. cbn [bind] in IS.
  match type of IS with _ = Ok ?x => set (s := x) in IS end.
  destruct (far_from_scaled_data _ _ _ 1 _ _ [1] _ _ s HO HI eq_refl HW ltac:(rewrite SD; lra) IS (1 / 1000) ltac:(lra)) as (dist & D0 & H).
  exists s, dist. split; [exact D0|]. split; [exact IS|]. rewrite M, SD in H. replace (1 ^ 2) with 1 in H by ring. apply H; [reflexivity|].
  intros t [<-|[<-|[]]]; exists 0%nat; (split; [lia|]); cbn [nth]; rewrite SU, Rabs_pos_eq; lra.
Qed.

Print Assumptions far_from_scaled_data.
