(** A Gaussian process with a constant kernel (catlearn/regression/gaussian_process.py). *)
From Coq Require Import Reals Lra Lia List Arith Bool.
From Verif Require Import Base BaseFacts RBase LinAlg KernModel KernProofs KernSetupProofs KernDefProofs
  KernScaleProofs KernEntryProofs KernProperties KernFormProofs GPModel GPProofs GPMoreProofs GPProperties
  SensModel SensProperties ErrorProperties RidgeModel RidgeProofs RidgeFacts RidgeProperties GPRidgeProperties GPDataProperties GPNextProperties.
Import ListNotations.
Open Scope R_scope.
Set Bullet Behavior "Strict Subproofs".

Lemma Sum_same n c : Sum n (fun _ => c) = INR n * c.
Proof. induction n as [|n IH]; [cbn; ring|]. cbn [Sum]. rewrite IH, S_INR. ring. Qed.

Lemma map_same {A} (K : R) (l : list A) : map (fun _ => K) l = tabulate (length l) (fun _ => K).
Proof. unfold tabulate. rewrite <- (map_map (fun _ => tt) (fun _ => K)), <- (map_map (fun _ : nat => tt) (fun _ => K)). f_equal. generalize 0%nat. induction l as [|a l IH]; intros m; [reflexivity|]. cbn. f_equal. apply IH. Qed.

(** The sum of the solution of (c 1 1^T + r2 I) w = x. *)
Lemma constant_solution n c r2 A V x : 0 < INR n * c + r2 -> inverse n A V ->
  (forall i j, (i < n)%nat -> (j < n)%nat -> A i j = c + r2 * (if (i =? j)%nat then 1 else 0)) ->
  Sum n (mulv n V x) = Sum n x / (INR n * c + r2).
Proof.
  intros HP IV HA. set (w := mulv n V x).
  assert (H : Sum n x = INR n * (c * Sum n w) + r2 * Sum n w).
  { rewrite <- (Sum_same n (c * Sum n w)), <- (Sum_scal n r2 w), <- Sum_plus. apply Sum_ext. intros i Hi.
    rewrite <- (mulv_inverse n _ _ x IV i Hi). fold w. unfold mulv. rewrite <- (Sum_scal n c w), <- (Sum_delta n i (fun j => r2 * w j) Hi), <- Sum_plus.
    apply Sum_ext. intros j Hj. rewrite HA by auto. ring. }
  apply Rmult_eq_reg_r with (INR n * c + r2); [|lra]. unfold Rdiv. rewrite Rmult_assoc, Rinv_l, H by lra. ring.
Qed.

Lemma constant_prepared c D rb : exists b, prepare_kernels [constant c] rb false D = Ok ([constant c], b).
Proof. unfold prepare_kernels. cbn -[default_bound]. rewrite Nat.leb_refl. unfold require. cbn -[default_bound]. eauto. Qed.
Lemma constant_usable c D : Forall (usable D) [constant c].
Proof. repeat constructor; cbn; auto; discriminate. Qed.

(** With a constant kernel every prediction is the mean of the targets times n c / (n c + noise), and every squared
    uncertainty is c noise / (n c + noise), for [n] observations and the constant [c]. *)
Theorem constant_kernel_shrinks_mean : forall inv cho cho_solve D fp tgt c reg rb s test,
  oracles_ok inv cho -> inputs_ok D fp [constant c] -> test_ok D test -> 0 < c ->
  gp_init inv cho cho_solve fp tgt [constant c] None reg rb false false = Ok s ->
  let n := INR (length fp) in
  predict s test = Ok (map (fun _ => mean tgt * (n * c / (n * c + reg ^ 2))) test) /\
  exists r, predict_with_uncertainty s test = Ok (map (fun _ => sqrt (c * reg ^ 2 / (n * c + reg ^ 2))) test, r).
Proof.
  intros inv cho cho_solve D fp tgt c reg rb s test HO HI [TN TR] Hc E N.
  destruct (init_facts _ _ _ HO _ _ _ _ _ _ _ _ _ HI E) as (ks' & b & EP & T & El & Es & Er & _ & _ & HL & ET & _).
  destruct (constant_prepared c D (init_bounds rb false)) as [b' EP']. rewrite EP' in EP. injection EP as <- <-.
  cbn in ET. injection ET as Esc Ef Et.
  assert (ST : forall t, scale_test s t = t) by (intros; unfold scale_test; rewrite Es; auto).
  set (n := length fp) in *.
  assert (N1 : 1 <= N) by (unfold N; change 1 with (INR 1); apply le_INR; pose proof (i_fp _ _ _ HI); unfold n; destruct fp; [congruence|cbn; lia]).
  assert (KK : forall x y, length x = D -> length y = D -> kappa [constant c] false x y = c).
  { intros x y Hx Hy. rewrite (kappa_form D) by (auto; try discriminate; apply (t_eval _ _ _ T)). cbn [fold_left]. unfold combine_forms. cbn [k_mult constant set_const bare].
    cbv zeta. unfold scale_of, form, logged. cbn. ring. }
  assert (RL : forall j, (j < n)%nat -> length (row_at fp j) = D) by (intros; apply row_at_length; auto; apply (i_rect _ _ _ HI)).
  assert (TL : forall j, (j < length test)%nat -> length (row_at test j) = D) by (intros; apply row_at_length; auto).
  assert (P0 : 0 < N * c + reg ^ 2) by (pose proof (pow2_ge_0 reg); nra).
  assert (SOL : forall x, Sum n (mulv n (at_ (g_cinv s)) x) = Sum n x / (N * c + reg ^ 2)).
  { intros x. pose proof (t_inv _ _ _ T) as V. rewrite Ef, El, Er in V. fold n in V. eapply constant_solution; [exact P0|exact V|].
    intros i j Hi Hj. cbv beta. rewrite KK by auto. unfold logged, ident. destruct (i =? j)%nat; ring. }
  split.
  - rewrite (predict_trained s [constant c] D T) by (rewrite ST; auto). rewrite ST. unfold rescale. rewrite Es. f_equal.
    rewrite map_same. apply tabulate_ext. intros i Hi.
    rewrite Ef, El. fold n. rewrite (Sum_ext n _ (fun j => c * weights s j)) by (intros j Hj; rewrite KK by (auto; apply TL; lia); reflexivity).
    rewrite Sum_scal. unfold weights. rewrite Ef, Et. fold n. rewrite (SOL (vnth tgt)). unfold vnth.
    unfold mean. rewrite <- (Sum_nth tgt). rewrite <- HL. fold N. field. split; lra.
  - assert (ZR : rectangular test D) by exact TR. destruct (uncertainty_trained s [constant c] D test T Es TN ZR) as [r EV]. exists r. rewrite EV, El. f_equal. f_equal.
    rewrite map_same. apply tabulate_ext. intros i Hi. f_equal.
    rewrite KK by (apply TL; lia). unfold reduction. rewrite Ef, El. fold n. rewrite quad_dot. unfold dotv.
    rewrite (Sum_ext n _ (fun j => c * mulv n (at_ (g_cinv s)) (fun j0 => kappa [constant c] false (row_at test i) (row_at fp j0)) j))
      by (intros j Hj; rewrite KK by (auto; apply TL; lia); reflexivity).
    rewrite Sum_scal, SOL. rewrite (Sum_ext n _ (fun _ => c)) by (intros j Hj; apply KK; auto; apply TL; lia). rewrite Sum_same. fold N. field. lra.
Qed.

(** Targets 3 and 5, the constant 1 and noise 2: the prediction is 4 times 2 / 4. *)
Example constant_case : exists s,
  gp_init ref_inv ref_cho (fun _ v => v) [[0]; [2]] [3; 5] [constant 1] None (sqrt 2) None false false = Ok s /\
  predict s [[1]; [9]] = Ok [2; 2].
Proof.
  destruct oracles_exist as [HO HC]. pose proof HO as [SI SC]. pose proof HC as [CI CC].
  assert (HI : inputs_ok 1 [[0]; [2]] [constant 1]) by (constructor; auto; try discriminate; try apply constant_usable; repeat constructor).
  destruct (constant_prepared 1 1 (init_bounds None false)) as [b EP].
  assert (S2 : 0 < sqrt 2) by (apply sqrt_lt_R0; lra).
  assert (G : exists s, gp_init ref_inv ref_cho (fun _ v => v) [[0]; [2]] [3; 5] [constant 1] None (sqrt 2) None false false = Ok s).
  { eapply (gp_init_ok ref_inv ref_cho (fun _ v => v) SI); [exact CI|exact CC|exact EP|apply constant_usable|discriminate|lia|discriminate| | | |cbn; lra].
    - repeat constructor.
    - reflexivity.
    - repeat constructor; cbn; auto; intros; try discriminate; try lra. }
  destruct G as [s E]. exists s. split; [exact E|].
  destruct (constant_kernel_shrinks_mean _ _ _ 1 _ _ 1 _ _ s [[1]; [9]] HO HI ltac:(split; [discriminate|repeat constructor]) ltac:(lra) E) as [H _].
  rewrite H. cbn [map]. rewrite pow2_sqrt by lra.
  assert (Q : mean [3; 5] * (INR (length [[0]; [2]]) * 1 / (INR (length [[0]; [2]]) * 1 + 2)) = 2) by (unfold mean, sumR; cbn; field).
  rewrite Q. reflexivity.
Qed.

Print Assumptions constant_kernel_shrinks_mean.
