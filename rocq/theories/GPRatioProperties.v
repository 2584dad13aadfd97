(** The ratio of signal and noise in a Gaussian process (catlearn/regression/gaussian_process.py). *)
From Coq Require Import Reals Lra Lia List Arith Bool.
From Verif Require Import Base BaseFacts RBase LinAlg KernModel KernProofs KernSetupProofs KernDefProofs
  KernScaleProofs KernEntryProofs KernProperties KernFormProofs GPModel GPProofs GPMoreProofs GPProperties
  RidgeModel RidgeProofs RidgeFacts RidgeProperties GPRidgeProperties GPDataProperties SensModel SensProperties ErrorProperties GPErrorProperties.
Import ListNotations.
Open Scope R_scope.
Set Bullet Behavior "Strict Subproofs".

Lemma scaled_inverse n c A A2 V V2 : 0 < c -> inverse n A V -> inverse n A2 V2 ->
  (forall i j, (i < n)%nat -> (j < n)%nat -> A2 i j = c * A i j) ->
  forall x i, (i < n)%nat -> c * mulv n V2 x i = mulv n V x i.
Proof.
  intros Hc IV IV2 HA x i Hi.
  rewrite <- (mulv_inverse' n _ _ (fun i => c * mulv n V2 x i) IV i Hi). apply mulv_ext; [intros ? ? ? ?; reflexivity| |exact Hi].
  intros j Hj. transitivity (mulv n A2 (mulv n V2 x) j); [|apply (mulv_inverse n _ _ x IV2 j Hj)].
  unfold mulv at 1 3. apply Sum_ext. intros l Hl. rewrite HA by auto. ring.
Qed.

(** Multiplying all covariances and the noise by one number leaves predictions unchanged and multiplies squared
    uncertainties by this number: predictions depend on the ratio of the kernel to the noise only. *)
Theorem signal_to_noise : forall inv cho cho_solve D fp tgt ks ks2 reg reg2 rb sopt s s2 c test,
  oracles_ok inv cho -> inputs_ok D fp ks -> inputs_ok D fp ks2 -> test_ok D test -> 0 < c ->
  gp_init inv cho cho_solve fp tgt ks None reg rb sopt false = Ok s ->
  gp_init inv cho cho_solve fp tgt ks2 None reg2 rb sopt false = Ok s2 ->
  (forall x y, length x = D -> length y = D -> cov (g_kernels s2) sopt x y = c * cov (g_kernels s) sopt x y) ->
  noise_of sopt reg2 = c * noise_of sopt reg ->
  predict s2 test = predict s test /\
  exists u r r2, predict_with_uncertainty s test = Ok (u, r) /\ predict_with_uncertainty s2 test = Ok (map (fun x => sqrt c * x) u, r2).
Proof.
  intros inv cho cho_solve D fp tgt ks ks2 reg reg2 rb sopt s s2 c test HO HI HI2 [TN TR] Hc E E2 HC HNo.
  destruct (init_facts _ _ _ HO _ _ _ _ _ _ _ _ _ HI E) as [ks' [b [EP [T [El [Es [Er [_ [_ [HL [ET _]]]]]]]]]]].
  destruct (init_facts _ _ _ HO _ _ _ _ _ _ _ _ _ HI2 E2) as [ks2' [b2 [EP2 [T2 [El2 [Es2 [Er2 [_ [_ [HL2 [ET2 _]]]]]]]]]]].
  cbn in ET, ET2. injection ET as Esc Ef Et. injection ET2 as Esc2 Ef2 Et2.
  assert (ST : forall t, scale_test s t = t) by (intros; unfold scale_test; rewrite Es; auto).
  assert (ST2 : forall t, scale_test s2 t = t) by (intros; unfold scale_test; rewrite Es2; auto).
  assert (HK : forall x y, length x = D -> length y = D -> kappa ks2' sopt x y = c * kappa ks' sopt x y).
  { intros x y Hx Hy. specialize (HC x y Hx Hy). rewrite (t_kernels _ _ _ T), (t_kernels _ _ _ T2) in HC. unfold cov in HC.
    rewrite !get_covariance_boxed in HC. exact HC. }
  set (n := length fp) in *.
  assert (RL : forall j, (j < n)%nat -> length (row_at fp j) = D) by (intros; apply row_at_length; auto; apply (i_rect _ _ _ HI)).
  assert (TL : forall j, (j < length test)%nat -> length (row_at test j) = D) by (intros; apply row_at_length; auto).
  pose proof (t_inv _ _ _ T) as V. pose proof (t_inv _ _ _ T2) as V2. rewrite Ef, El, Er in V. rewrite Ef2, El2, Er2 in V2. fold n in V, V2.
  assert (SOL : forall x i, (i < n)%nat -> c * mulv n (at_ (g_cinv s2)) x i = mulv n (at_ (g_cinv s)) x i).
  { apply (scaled_inverse n c _ _ _ _ Hc V V2). intros i j Hi Hj. cbv beta. rewrite HK by auto.
    assert (NO : (logged sopt reg2 * ident i j) ^ 2 = c * (logged sopt reg * ident i j) ^ 2).
    { unfold noise_of in HNo. unfold logged, ident. destruct (i =? j)%nat, sopt; rewrite ?Rmult_1_r, ?Rmult_0_r; auto; ring. }
    rewrite NO. ring. }
  split.
  - rewrite (predict_trained s ks' D T), (predict_trained s2 ks2' D T2) by (rewrite ?ST, ?ST2; auto). rewrite ST, ST2. unfold rescale. rewrite Es, Es2.
    f_equal. apply tabulate_ext. intros i Hi. rewrite Ef, Ef2, El, El2. fold n. apply Sum_ext. intros j Hj. rewrite HK by auto.
    unfold weights. rewrite Ef, Ef2, Et, Et2. fold n. rewrite <- (SOL (vnth tgt) j Hj). ring.
  - destruct (test_covariance_trained s ks' D T test TN TR) as [C [EC [N1 [N2 HC1]]]].
    destruct (test_covariance_trained s2 ks2' D T2 test TN TR) as [C2 [EC2 [N3 [N4 HC2]]]].
    pose proof (variance_trained s ks' D T test C TN TR EC) as EV. pose proof (variance_trained s2 ks2' D T2 test C2 TN TR EC2) as EV2.
    assert (LC : nc C = length (g_fp s)) by (rewrite N2; reflexivity). assert (LC2 : nc C2 = length (g_fp s2)) by (rewrite N4; reflexivity).
    unfold predict_with_uncertainty. cbv zeta. rewrite ST, ST2, EC, EC2. cbn [bind].
    rewrite (make_prediction_trained s ks' D T C (length test) LC N1), (make_prediction_trained s2 ks2' D T2 C2 (length test) LC2 N3). cbn [bind].
    unfold get_uncertainty. rewrite EV, EV2. cbn [bind]. unfold finish_uncertainty. rewrite Es, Es2.
    do 3 eexists. split; [reflexivity|]. f_equal. f_equal. rewrite !map_map. unfold tabulate. rewrite !map_map. apply map_ext_in. intros i Hi. apply in_seq in Hi.
    rewrite El, El2. rewrite HK by (apply TL; lia).
    assert (RE : reduction s2 ks2' (row_at test i) = c * reduction s ks' (row_at test i)).
    { unfold reduction. rewrite Ef, Ef2, El, El2. fold n. rewrite !quad_dot. unfold dotv. rewrite <- Sum_scal. apply Sum_ext. intros j Hj. rewrite HK by (auto; apply TL; lia).
      rewrite <- (SOL (fun j => kappa ks' sopt (row_at test i) (row_at fp j)) j Hj). 
      rewrite (mulv_ext n (at_ (g_cinv s2)) (at_ (g_cinv s2)) (fun j0 => kappa ks2' sopt (row_at test i) (row_at fp j0)) (fun j0 => c * kappa ks' sopt (row_at test i) (row_at fp j0)));
        [|intros ? ? ? ?; reflexivity|intros l Hl; apply HK; auto; apply TL; lia|exact Hj].
      unfold mulv. rewrite (Sum_ext n (fun l => at_ (g_cinv s2) j l * (c * _)) (fun l => c * (at_ (g_cinv s2) j l * kappa ks' sopt (row_at test i) (row_at fp l)))) by (intros; ring).
      rewrite Sum_scal. ring. }
    rewrite RE, <- Rmult_minus_distr_l, sqrt_mult_alt by lra. ring.
Qed.

Lemma scaled_prepared w a D rb : length w = D -> Forall (fun v => 0 < v) w ->
  exists b, prepare_kernels [set_scaling (gaussian w) a] rb false D = Ok ([set_scaling (gaussian w) a], b).
Proof.
  intros L P. unfold prepare_kernels. cbn -[default_bound]. rewrite L, Nat.eqb_refl. cbn -[default_bound].
  assert (EF : forallb (fun x : R => Rltb 0 x) w = true).
  { apply forallb_forall. intros x Hx. rewrite Forall_forall in P. specialize (P x Hx). unfold Rltb.
    destruct (Rlt_dec 0 x); [reflexivity|contradiction]. }
  rewrite Nat.leb_refl, EF. unfold require. cbn -[default_bound]. eauto.
Qed.
Lemma scaled_usable w a D : Forall (usable D) [set_scaling (gaussian w) a].
Proof. repeat constructor; cbn; auto; discriminate. Qed.

(** For a gaussian kernel: multiplying the scaling by [c] and the regularization by the root of [c]. *)
Theorem gaussian_signal_to_noise : forall inv cho cho_solve D fp tgt w a reg rb s s2 c test,
  oracles_ok inv cho -> (1 <= D)%nat -> fp <> [] -> Forall (fun r => length r = D) fp -> test_ok D test ->
  length w = D -> Forall (fun v => 0 < v) w -> 0 < c ->
  gp_init inv cho cho_solve fp tgt [set_scaling (gaussian w) a] None reg rb false false = Ok s ->
  gp_init inv cho cho_solve fp tgt [set_scaling (gaussian w) (c * a)] None (sqrt c * reg) rb false false = Ok s2 ->
  predict s2 test = predict s test /\
  exists u r r2, predict_with_uncertainty s test = Ok (u, r) /\ predict_with_uncertainty s2 test = Ok (map (fun x => sqrt c * x) u, r2).
Proof.
  intros inv cho cho_solve D fp tgt w a reg rb s s2 c test HO HD HN HR HT LW HW Hc E E2.
  assert (HI : forall q, inputs_ok D fp [set_scaling (gaussian w) q]) by (intros; constructor; auto; try discriminate; apply scaled_usable).
  assert (K : forall q reg s, gp_init inv cho cho_solve fp tgt [set_scaling (gaussian w) q] None reg rb false false = Ok s ->
    forall x y, length x = D -> length y = D -> cov (g_kernels s) false x y = q * exp (- / 2 * Sum D (fun d => ((nth d x 0 - nth d y 0) / wnth w d) ^ 2))).
  { intros q r0 s0 E0 x y Hx Hy. destruct (init_facts _ _ _ HO _ _ _ _ _ _ _ _ _ (HI q) E0) as [ks' [b [EP [T _]]]].
    destruct (scaled_prepared w q D (init_bounds rb false) LW HW) as [b' EP']. rewrite EP' in EP. injection EP as <- <-.
    unfold cov. rewrite (t_kernels _ _ _ T), get_covariance_boxed. fold (kappa [set_scaling (gaussian w) q] false x y).
    rewrite (kappa_form D) by (auto; try discriminate; apply (t_eval _ _ _ T)). cbn [fold_left]. unfold combine_forms. cbn [k_mult gaussian set_width set_scaling bare].
    cbv zeta. unfold scale_of, form, n_used, used, width_of, logged. cbn. rewrite Rplus_0_l. reflexivity. }
  eapply (signal_to_noise _ _ _ D fp tgt _ _ reg (sqrt c * reg)); [exact HO|apply HI|apply HI|exact HT|exact Hc|exact E|exact E2| |].
  - intros x y Hx Hy. rewrite (K _ _ _ E x y Hx Hy), (K _ _ _ E2 x y Hx Hy). ring.
  - unfold noise_of. rewrite Rpow_mult_distr, pow2_sqrt by lra. reflexivity.
Qed.

(** A line of slope with variance 2 and noise 1, and one with variance 8 and noise 4. *)
Example ratio_case : exists s s2,
  gp_init ref_inv ref_cho (fun _ v => v) [[1]] [3] [linear (Some 2)] None 1 None false false = Ok s /\
  gp_init ref_inv ref_cho (fun _ v => v) [[1]] [3] [linear (Some 8)] None 2 None false false = Ok s2 /\
  predict s2 [[1]] = Ok [2] /\
  exists u r r2, predict_with_uncertainty s [[1]] = Ok (u, r) /\ predict_with_uncertainty s2 [[1]] = Ok (map (fun x => 2 * x) u, r2).
Proof.
  destruct (one_point 1 3) as (s & E & P); [lra|]. exists s. destruct oracles_exist as [HO HC]. pose proof HO as [SI SC]. pose proof HC as [CI CC].
  assert (HU : forall a, Forall (usable 1) [linear (Some a)]) by (intros; repeat constructor; cbn; auto; discriminate).
  assert (HSe : Forall (sensible false) [linear (Some 8)]).
  { repeat constructor; cbn; auto; try discriminate. all: intros; try discriminate; try lra. }
  assert (HI : forall a, inputs_ok 1 [[1]] [linear (Some a)]) by (intros; constructor; auto; try discriminate; repeat constructor).
  assert (G : exists s, gp_init ref_inv ref_cho (fun _ v => v) [[1]] [3] [linear (Some 8)] None 2 None false false = Ok s).
  { eapply (gp_init_ok ref_inv ref_cho (fun _ v => v) SI _ _ _ _ _ _ _ 1%nat [linear (Some 8)]); eauto; try discriminate; try reflexivity;
      [repeat constructor|cbn; lra]. }
  destruct G as [s2 E2]. exists s2. split; [exact E|]. split; [exact E2|].
  assert (K : forall a reg s, gp_init ref_inv ref_cho (fun _ v => v) [[1]] [3] [linear (Some a)] None reg None false false = Ok s -> g_kernels s = map boxed [linear (Some a)]).
  { intros a reg s0 E0. destruct (init_facts _ _ _ HO _ _ _ _ _ _ _ _ _ (HI a) E0) as [ks' [b [EP [T _]]]]. rewrite (t_kernels _ _ _ T). f_equal.
    unfold prepare_kernels in EP. cbn in EP. injection EP as <- _; reflexivity. }
  assert (S4 : sqrt 4 = 2) by (replace 4 with (2 * 2) by ring; apply sqrt_square; lra).
  destruct (signal_to_noise ref_inv ref_cho (fun _ v => v) 1 [[1]] [3] [linear (Some 2)] [linear (Some 8)] 1 2 None false s s2 4 [[1]] HO (HI 2) (HI 8)) as [H1 H2].
  - split; [discriminate|repeat constructor].
  - lra.
  - exact E.
  - exact E2.
  - intros x y Hx Hy. rewrite (K _ _ _ E), (K _ _ _ E2), !linear_cov by congruence. cbn [prefactor]. ring.
  - unfold noise_of. ring.
  - split; [rewrite H1, P; f_equal; f_equal; field|]. rewrite S4 in H2. exact H2.
Qed.

(** Two points, a gaussian kernel with scaling 1 and noise 1, and one with scaling 4 and noise 4. *)
Example gaussian_ratio_case : exists s s2,
  gp_init ref_inv ref_cho (fun _ v => v) [[0]; [2]] [3; 5] [set_scaling (gaussian [1]) 1] None 1 None false false = Ok s /\
  gp_init ref_inv ref_cho (fun _ v => v) [[0]; [2]] [3; 5] [set_scaling (gaussian [1]) (4 * 1)] None (sqrt 4 * 1) None false false = Ok s2 /\
  predict s2 [[1]] = predict s [[1]].
Proof.
  destruct oracles_exist as [HO HC]. pose proof HO as [SI SC]. pose proof HC as [CI CC].
  assert (HW : Forall (fun v => 0 < v) [1]) by (repeat constructor; lra).
  assert (G : forall a reg, 0 < a -> 0 < reg ->
    exists s, gp_init ref_inv ref_cho (fun _ v => v) [[0]; [2]] [3; 5] [set_scaling (gaussian [1]) a] None reg None false false = Ok s).
  { intros a reg Ha Hr. destruct (scaled_prepared [1] a 1 (init_bounds None false) eq_refl HW) as [b EP].
    eapply (gp_init_ok ref_inv ref_cho (fun _ v => v) SI); [exact CI|exact CC|exact EP|apply scaled_usable|discriminate|lia|discriminate| | | |cbn; lra].
    - repeat constructor.
    - reflexivity.
    - repeat constructor; cbn; auto; intros; try discriminate; repeat constructor; try lra. }
  assert (S4 : 0 < sqrt 4 * 1) by (rewrite Rmult_1_r; apply sqrt_lt_R0; lra).
  destruct (G 1 1) as [s E]; [lra|lra|]. destruct (G (4 * 1) (sqrt 4 * 1)) as [s2 E2]; [lra|exact S4|]. exists s, s2. split; [exact E|]. split; [exact E2|].
  eapply (gaussian_signal_to_noise _ _ _ 1 [[0]; [2]] [3; 5] [1] 1 1 None s s2 4); [exact HO|lia|discriminate| | |reflexivity|exact HW| |exact E|exact E2].
  - repeat constructor.
  - split; [discriminate|repeat constructor].
  - lra.
Qed.

Print Assumptions signal_to_noise.
Print Assumptions gaussian_signal_to_noise.
