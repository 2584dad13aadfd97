(** Scalings of kernels in a Gaussian process (catlearn/regression/gpfunctions/covariance.py 43-69). *)
From Coq Require Import Reals Lra Lia List Arith Bool.
From Verif Require Import Base BaseFacts RBase LinAlg KernModel KernProofs KernSetupProofs KernDefProofs
  KernScaleProofs KernEntryProofs KernProperties KernFormProofs GPModel GPProofs GPMoreProofs GPProperties GPSymProperties
  SensModel SensProperties ErrorProperties GPRatioProperties.
Import ListNotations.
Open Scope R_scope.
Set Bullet Behavior "Strict Subproofs".

Definition multiplied (k : kdict) : kdict :=
  KD (k_type k) true (k_features k) (k_dimension k) (k_scaling k) (k_float k) (k_scaling_bounds k) (k_bounds k)
     (k_width k) (k_const k) (k_slope k) (k_degree k) (k_hyper k) (k_unknown k).

Lemma scaled_form D w a q b x y : prepare_kernel (set_scaling (gaussian w) a) D (default_bound false) = Ok (q, b) -> length w = D ->
  k_mult q = false /\ scale_of false q * form D false q x y = a * exp (- / 2 * Sum D (fun d => ((nth d x 0 - nth d y 0) / wnth w d) ^ 2)).
Proof.
  intros P L. destruct (prepare_kernel_facts _ _ _ _ _ P) as (T & M & F & S1 & _ & _ & w1 & l1 & A & B & W). cbn in T, M, F, S1, A, B.
  injection A as <-. unfold format_vec in B. cbn in B. rewrite L, Nat.eqb_refl in B. injection B as <-.
  split; [exact M|]. unfold scale_of. rewrite S1. unfold form. cbv zeta. rewrite T. unfold n_used, used, width_of. rewrite F, W. reflexivity.
Qed.

(** Two gaussian kernels of the same widths, added, are one with the sum of the scalings: the same predictions, uncertainties
    and likelihood. *)
Theorem scalings_add : forall inv cho cho_solve D fp tgt w a1 a2 reg rb s s' test,
  oracles_ok inv cho -> test_ok D test -> length w = D ->
  inputs_ok D fp [set_scaling (gaussian w) a1; set_scaling (gaussian w) a2] -> inputs_ok D fp [set_scaling (gaussian w) (a1 + a2)] ->
  gp_init inv cho cho_solve fp tgt [set_scaling (gaussian w) a1; set_scaling (gaussian w) a2] None reg rb false false = Ok s ->
  gp_init inv cho cho_solve fp tgt [set_scaling (gaussian w) (a1 + a2)] None reg rb false false = Ok s' ->
  predict s' test = predict s test /\ predict_with_uncertainty s' test = predict_with_uncertainty s test /\
  predict_uncertainty s' test = predict_uncertainty s test /\ g_lml s' = g_lml s.
Proof.
  intros inv cho cho_solve D fp tgt w a1 a2 reg rb s s' test HO HT LW HI HI' E E'.
  destruct (gp_init_prepared _ _ _ _ _ _ _ _ _ _ _ HO HI E) as [p [b EP]].
  destruct (gp_init_prepared _ _ _ _ _ _ _ _ _ _ _ HO HI' E') as [p' [b' EP']].
  assert (Q : predict s' (map (fun x => x) test) = predict s test /\ predict_with_uncertainty s' (map (fun x => x) test) = predict_with_uncertainty s test /\
    predict_uncertainty s' (map (fun x => x) test) = predict_uncertainty s test /\ g_lml s' = g_lml s).
  2: { rewrite map_id in Q. exact Q. }
  rewrite <- (map_id fp) in E', HI'.
  refine (same_models inv cho cho_solve D D fp tgt _ _ p p' b b' reg rb false s s' test (fun x => x) HO HI HI' HT E E' EP EP' (fun x H => H) _).
  intros H1 H2 HN x y Hx Hy. pose proof (prepare_kernels_facts _ _ _ _ _ EP) as P1. pose proof (prepare_kernels_facts _ _ _ _ _ EP') as P2.
  inversion P1 as [|? q1 ? ? [b1 Q1] P1']. inversion P1' as [|? q2 ? ? [b2 Q2] P1'']. inversion P1''. inversion P2 as [|? q3 ? ? [b3 Q3] P2']. inversion P2'. revert Hx Hy LW. subst. intros Hx Hy LW.
  rewrite !(kappa_form D) by (auto; discriminate). cbn [fold_left]. unfold combine_forms. cbv zeta.
  destruct (scaled_form D w _ _ _ x y Q1 LW) as (M1 & F1). destruct (scaled_form D w _ _ _ x y Q2 LW) as (M2 & F2). destruct (scaled_form D w _ _ _ x y Q3 LW) as (M3 & F3).
  rewrite M1, M2, M3, F1, F2, F3. ring.
Qed.

(** Multiplying a gaussian kernel by a constant kernel is the same as a scaling. *)
Theorem constant_factor_is_scaling : forall inv cho cho_solve D fp tgt w a c reg rb s s' test,
  oracles_ok inv cho -> test_ok D test -> length w = D ->
  inputs_ok D fp [set_scaling (gaussian w) a; multiplied (constant c)] -> inputs_ok D fp [set_scaling (gaussian w) (a * c)] ->
  gp_init inv cho cho_solve fp tgt [set_scaling (gaussian w) a; multiplied (constant c)] None reg rb false false = Ok s ->
  gp_init inv cho cho_solve fp tgt [set_scaling (gaussian w) (a * c)] None reg rb false false = Ok s' ->
  predict s' test = predict s test /\ predict_with_uncertainty s' test = predict_with_uncertainty s test /\
  predict_uncertainty s' test = predict_uncertainty s test /\ g_lml s' = g_lml s.
Proof.
  intros inv cho cho_solve D fp tgt w a c reg rb s s' test HO HT LW HI HI' E E'.
  destruct (gp_init_prepared _ _ _ _ _ _ _ _ _ _ _ HO HI E) as [p [b EP]].
  destruct (gp_init_prepared _ _ _ _ _ _ _ _ _ _ _ HO HI' E') as [p' [b' EP']].
  assert (Q : predict s' (map (fun x => x) test) = predict s test /\ predict_with_uncertainty s' (map (fun x => x) test) = predict_with_uncertainty s test /\
    predict_uncertainty s' (map (fun x => x) test) = predict_uncertainty s test /\ g_lml s' = g_lml s).
  2: { rewrite map_id in Q. exact Q. }
  rewrite <- (map_id fp) in E', HI'.
  refine (same_models inv cho cho_solve D D fp tgt _ _ p p' b b' reg rb false s s' test (fun x => x) HO HI HI' HT E E' EP EP' (fun x H => H) _).
  intros H1 H2 HN x y Hx Hy. pose proof (prepare_kernels_facts _ _ _ _ _ EP) as P1. pose proof (prepare_kernels_facts _ _ _ _ _ EP') as P2.
  inversion P1 as [|? q1 ? ? [b1 Q1] P1']. inversion P1' as [|? q2 ? ? [b2 Q2] P1'']. inversion P1''. inversion P2 as [|? q3 ? ? [b3 Q3] P2']. inversion P2'. revert Hx Hy LW. subst. intros Hx Hy LW.
  rewrite !(kappa_form D) by (auto; discriminate). cbn [fold_left]. unfold combine_forms. cbv zeta.
  destruct (scaled_form D w _ _ _ x y Q1 LW) as (M1 & F1). destruct (scaled_form D w _ _ _ x y Q3 LW) as (M3 & F3).
  assert (F2 : k_mult q2 = true /\ scale_of false q2 * form D false q2 x y = c).
  { cbn -[default_bound] in Q2. rewrite Nat.leb_refl in Q2. cbn -[default_bound] in Q2. injection Q2 as <- _. split; [reflexivity|]. unfold scale_of, form. cbn. ring. }
  destruct F2 as [M2 F2]. rewrite M1, M2, M3, F1, F2, F3. ring.
Qed.

(** Scalings 1 and 2 of a gaussian kernel, and a factor 3. *)
Example scaling_case : exists s1 s2 s3,
  gp_init ref_inv ref_cho (fun _ v => v) [[0]; [2]] [3; 5] [set_scaling (gaussian [1]) 1; set_scaling (gaussian [1]) 2] None 1 None false false = Ok s1 /\
  gp_init ref_inv ref_cho (fun _ v => v) [[0]; [2]] [3; 5] [set_scaling (gaussian [1]) 1; multiplied (constant 3)] None 1 None false false = Ok s2 /\
  gp_init ref_inv ref_cho (fun _ v => v) [[0]; [2]] [3; 5] [set_scaling (gaussian [1]) 3] None 1 None false false = Ok s3 /\
  predict s1 [[1]] = predict s3 [[1]] /\ predict s2 [[1]] = predict s3 [[1]].
Proof.
  destruct oracles_exist as [HO HC]. pose proof HO as [SI SC]. pose proof HC as [CI CC].
  assert (POS : forall x, 0 < x -> Rltb 0 x = true) by (intros x Hx; unfold Rltb; destruct (Rlt_dec 0 x); [reflexivity|contradiction]).
  set (k1 := [set_scaling (gaussian [1]) 1; set_scaling (gaussian [1]) 2]). set (k2 := [set_scaling (gaussian [1]) 1; multiplied (constant 3)]). set (k3 := [set_scaling (gaussian [1]) 3]).
  assert (U1 : Forall (usable 1) k1) by (repeat constructor; cbn; auto; try discriminate).
  assert (U2 : Forall (usable 1) k2) by (repeat constructor; cbn; auto; try discriminate).
  assert (U3 : Forall (usable 1) k3) by (repeat constructor; cbn; auto; try discriminate).
  assert (P1 : exists b, prepare_kernels k1 (init_bounds None false) false 1 = Ok (k1, b)).
  { unfold prepare_kernels, k1. cbn -[default_bound Rltb]. rewrite !POS by lra. cbn -[default_bound]. eauto. }
  assert (P2 : exists b, prepare_kernels k2 (init_bounds None false) false 1 = Ok (k2, b)).
  { unfold prepare_kernels, k2. cbn -[default_bound Rltb]. rewrite !POS by lra. cbn -[default_bound]. eauto. }
  assert (P3 : exists b, prepare_kernels k3 (init_bounds None false) false 1 = Ok (k3, b)).
  { unfold prepare_kernels, k3. cbn -[default_bound Rltb]. rewrite !POS by lra. cbn -[default_bound]. eauto. }
  assert (S1 : Forall (sensible false) k1) by (repeat constructor; cbn; auto; intros; try discriminate; repeat constructor; try lra).
  assert (S2 : Forall (sensible false) k2) by (repeat constructor; cbn; auto; intros; try discriminate; repeat constructor; try lra).
  assert (S3 : Forall (sensible false) k3) by (repeat constructor; cbn; auto; intros; try discriminate; repeat constructor; try lra).
  assert (G : forall k, Forall (usable 1) k -> k <> [] -> (exists b, prepare_kernels k (init_bounds None false) false 1 = Ok (k, b)) -> Forall (sensible false) k ->
    match k with q :: _ => k_mult q = false | [] => True end ->
    exists s, gp_init ref_inv ref_cho (fun _ v => v) [[0]; [2]] [3; 5] k None 1 None false false = Ok s).
  { intros k U N [b EP] HS _.
    eapply (gp_init_ok ref_inv ref_cho (fun _ v => v) SI); [exact CI|exact CC|exact EP|exact U|exact N|lia|discriminate| |reflexivity|exact HS|cbn; lra].
    repeat constructor. }
  destruct (G k1 U1 ltac:(discriminate) P1 S1 eq_refl) as [s1 E1]. destruct (G k2 U2 ltac:(discriminate) P2 S2 eq_refl) as [s2 E2]. destruct (G k3 U3 ltac:(discriminate) P3 S3 eq_refl) as [s3 E3].
  exists s1, s2, s3. split; [exact E1|]. split; [exact E2|]. split; [exact E3|].
  assert (I : forall k, Forall (usable 1) k -> k <> [] -> inputs_ok 1 [[0]; [2]] k) by (intros; constructor; auto; try discriminate; repeat constructor).
  assert (T : test_ok 1 [[1]]) by (split; [discriminate|repeat constructor]).
  assert (A3 : k3 = [set_scaling (gaussian [1]) (1 + 2)]) by (unfold k3; do 3 f_equal; ring).
  assert (M3 : k3 = [set_scaling (gaussian [1]) (1 * 3)]) by (unfold k3; do 3 f_equal; ring).
  split; symmetry.
  - pose proof (I k3 U3 ltac:(discriminate)) as I3. rewrite A3 in E3, I3.
    apply (scalings_add ref_inv ref_cho (fun _ v => v) 1 [[0]; [2]] [3; 5] [1] 1 2 1 None s1 s3 [[1]] HO T eq_refl (I k1 U1 ltac:(discriminate)) I3 E1 E3).
  - pose proof (I k3 U3 ltac:(discriminate)) as I3. rewrite M3 in E3, I3.
    apply (constant_factor_is_scaling ref_inv ref_cho (fun _ v => v) 1 [[0]; [2]] [3; 5] [1] 1 3 1 None s2 s3 [[1]] HO T eq_refl (I k2 U2 ltac:(discriminate)) I3 E2 E3).
Qed.

Print Assumptions scalings_add.
Print Assumptions constant_factor_is_scaling.
