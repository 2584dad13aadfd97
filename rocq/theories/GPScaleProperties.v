(** Properties of scaled data, noise and partial updates of Gaussian process models. *)
From Coq Require Import Reals Lra Lia List Arith Bool Permutation.
From Verif Require Import Base BaseFacts RBase LinAlg LogDet KernModel KernProofs KernSetupProofs KernDefProofs
  KernScaleProofs KernEntryProofs KernProperties GPModel GPProofs GPMoreProofs GPProperties GPUpdateProofs GPUpdateProperties.
From Verif Require PrepModel PrepProofs.
Import ListNotations.
Open Scope R_scope.

Lemma with_scaling_id s : g_scale s = false -> g_scaling s = None -> with_scaling s false None = s.
Proof. destruct s. cbn. intros -> ->. reflexivity. Qed.

(** ** Scaled data *)

(** scale_data=True is the same as standardizing the features and targets by hand and
    transforming predictions back. *)
Theorem scale_data_is_manual_scaling : forall inv cho cho_solve D fp tgt ks reg rb sopt s,
  oracles_ok inv cho -> inputs_ok D fp ks ->
  gp_init inv cho cho_solve fp tgt ks None reg rb sopt true = Ok s ->
  exists sd fp' tgt' s0, scale_train fp tgt = (sd, fp', tgt') /\
    gp_init inv cho cho_solve fp' tgt' ks None reg rb sopt false = Ok s0 /\
    forall test,
      predict s test = bind (predict s0 (PrepModel.sd_test sd test)) (fun p =>
        Ok (map (fun x => x * PrepModel.t_std sd + PrepModel.t_mean sd) p)) /\
      predict_with_uncertainty s test = bind (predict_with_uncertainty s0 (PrepModel.sd_test sd test)) (fun u =>
        Ok (map (fun x => x * PrepModel.t_std sd) (fst u), map (fun x => x * PrepModel.t_std sd) (snd u))).
Proof.
  intros inv cho cho_solve D fp tgt ks reg rb sopt s HO HI E.
  assert (HL : length fp = length tgt).
  { unfold gp_init in E. destruct (Nat.eqb_spec (length fp) (length tgt)); [auto|discriminate]. }
  destruct HI as [iD ifp irect iks ine].
  pose proof (init_scaled inv cho cho_solve fp tgt ks reg rb sopt D ifp irect HL) as H.
  pose proof (scale_train_shape fp tgt D ifp irect) as Q.
  destruct (scale_train fp tgt) as [[sd f1] t1] eqn:ES. rewrite H in E.
  destruct (gp_init inv cho cho_solve f1 t1 ks None reg rb sopt false) as [s0|] eqn:E0; [|discriminate]. cbn in E. injection E as <-.
  exists sd, f1, t1, s0. split; [auto|]. split; [auto|].
  assert (I0 : inputs_ok D f1 ks).
  { destruct Q as [_ [Q1 [Q2 _]]]. constructor; auto. destruct fp, f1; cbn in *; congruence. }
  destruct (init_facts _ _ _ HO _ _ _ _ _ _ _ _ _ I0 E0) as (ks' & b & _ & _ & _ & Es & _ & _ & _ & _ & ET & _).
  cbn in ET. injection ET as Esc _ _.
  intros test. rewrite predict_with, uncertainty_with, (with_scaling_id s0 Es Esc). auto.
Qed.
Print Assumptions scale_data_is_manual_scaling.

(** With scaled data, changing the unit and the zero of the targets changes the unit and
    zero of predictions, and the unit of uncertainties. *)
Theorem target_units_equivariance : forall inv cho cho_solve D fp tgt ks reg rb sopt s a b,
  oracles_ok inv cho -> inputs_ok D fp ks -> 0 < a -> std tgt <> 0 ->
  gp_init inv cho cho_solve fp tgt ks None reg rb sopt true = Ok s ->
  exists s', gp_init inv cho cho_solve fp (map (fun y => a * y + b) tgt) ks None reg rb sopt true = Ok s' /\
    forall test,
      predict s' test = bind (predict s test) (fun p => Ok (map (fun x => a * x + b) p)) /\
      predict_with_uncertainty s' test = bind (predict_with_uncertainty s test) (fun u =>
        Ok (map (fun x => a * x) (fst u), map (fun x => a * x) (snd u))).
Proof.
  intros inv cho cho_solve D fp tgt ks reg rb sopt s a b HO HI Ha HS E.
  assert (HL : length fp = length tgt).
  { unfold gp_init in E. destruct (Nat.eqb_spec (length fp) (length tgt)); [auto|discriminate]. }
  assert (HT : tgt <> []) by (destruct HI as [_ ? _ _ _]; destruct fp, tgt; cbn in *; congruence).
  destruct (scale_data_is_manual_scaling _ _ _ _ _ _ _ _ _ _ _ HO HI E) as (sd & f1 & t1 & s0 & ES & E0 & HP).
  pose proof (scale_train_targets fp tgt a b sd f1 t1 HT Ha HS ES) as ES'.
  pose proof HI as [iD ifp irect iks ine].
  assert (HL' : length fp = length (map (fun y => a * y + b) tgt)) by (rewrite map_length; auto).
  pose proof (init_scaled inv cho cho_solve fp (map (fun y => a * y + b) tgt) ks reg rb sopt D ifp irect HL') as H.
  rewrite ES', E0 in H. cbn [bind] in H. eexists. split; [exact H|].
  destruct (scale_data_is_manual_scaling _ _ _ _ _ _ _ _ _ _ _ HO HI H) as (sd2 & f2 & t2 & s2 & ES2 & E2 & HP2).
  rewrite ES' in ES2. injection ES2 as <- <- <-. rewrite E0 in E2. injection E2 as <-.
  intros test. destruct (HP2 test) as [-> ->]. destruct (HP test) as [-> ->]. cbn [PrepModel.t_std PrepModel.t_mean]. split.
  - destruct (predict s0 _); cbn [bind]; auto. f_equal. rewrite map_map. apply map_ext. intros x. ring.
  - destruct (predict_with_uncertainty s0 _); cbn [bind fst snd]; auto. rewrite !map_map. f_equal. f_equal; apply map_ext; intros x; ring.
Qed.
Print Assumptions target_units_equivariance.

(** With scaled data, changing units and zeros of features changes nothing. *)
Theorem feature_units_invariance : forall inv cho cho_solve D fp tgt ks reg rb sopt s a b,
  oracles_ok inv cho -> inputs_ok D fp ks ->
  (forall d, (d < D)%nat -> 0 < nth d a 0 /\ std (map (fun r => nth d r 0) fp) <> 0) ->
  gp_init inv cho cho_solve fp tgt ks None reg rb sopt true = Ok s ->
  exists s', gp_init inv cho cho_solve (map (affine_row a b) fp) tgt ks None reg rb sopt true = Ok s' /\
    forall test, test_ok D test ->
      predict s' (map (affine_row a b) test) = predict s test /\
      predict_with_uncertainty s' (map (affine_row a b) test) = predict_with_uncertainty s test.
Proof.
  intros inv cho cho_solve D fp tgt ks reg rb sopt s a b HO HI Ha E.
  assert (HL : length fp = length tgt).
  { unfold gp_init in E. destruct (Nat.eqb_spec (length fp) (length tgt)); [auto|discriminate]. }
  destruct (scale_data_is_manual_scaling _ _ _ _ _ _ _ _ _ _ _ HO HI E) as (sd & f1 & t1 & s0 & ES & E0 & HP).
  pose proof HI as [iD ifp irect iks ine].
  destruct (scale_train_features fp tgt a b sd f1 t1 D ifp irect Ha ES) as (sd' & ES' & M1 & M2 & M3).
  assert (HI' : inputs_ok D (map (affine_row a b) fp) ks).
  { constructor; auto. - destruct fp; [congruence|discriminate]. - apply rect_affine; auto. }
  assert (HL' : length (map (affine_row a b) fp) = length tgt) by (rewrite map_length; auto).
  pose proof HI' as [_ ifp' irect' _ _].
  pose proof (init_scaled inv cho cho_solve _ tgt ks reg rb sopt D ifp' irect' HL') as H.
  rewrite ES', E0 in H. cbn [bind] in H. eexists. split; [exact H|].
  destruct (scale_data_is_manual_scaling _ _ _ _ _ _ _ _ _ _ _ HO HI' H) as (sd2 & f2 & t2 & s2 & ES2 & E2 & HP2).
  rewrite ES' in ES2. injection ES2 as <- <- <-. rewrite E0 in E2. injection E2 as <-.
  intros test [_ HR]. destruct (HP2 (map (affine_row a b) test)) as [-> ->]. destruct (HP test) as [-> ->]. rewrite M1, M2, M3 by auto. auto.
Qed.
Print Assumptions feature_units_invariance.

(** Two features in different units; both columns vary. *)
Example feature_units_example : std [0; 2] <> 0 /\ std (map (fun r => nth 0 r 0) [[0]; [2]]) <> 0.
Proof.
  assert (S1 : std [0; 2] <> 0); [|auto].
  unfold std, var. replace (mean [0; 2]) with 1 by (unfold mean; cbn; lra). unfold mean. cbn.
  replace (_ / _) with 1 by lra. rewrite sqrt_1. lra.
Qed.

(** ** Dependence on the targets *)

Lemma init_other_targets inv cho cho_solve fp tgt tgt2 ks reg rb sopt s D : oracles_ok inv cho -> inputs_ok D fp ks ->
  gp_init inv cho cho_solve fp tgt ks None reg rb sopt false = Ok s -> length tgt2 = length tgt ->
  exists l, gp_init inv cho cho_solve fp tgt2 ks None reg rb sopt false =
    Ok (GP (g_nd s) (g_reg s) (g_log s) (g_scale s) (g_grad s) (g_kernels s) (g_bounds s) (g_scaling s) (g_fp s) tgt2 (g_cinv s) (Some l)).
Proof.
  intros HO HI E HL2.
  destruct (init_facts _ _ _ HO _ _ _ _ _ _ _ _ _ HI E) as (ks' & b & EP & T & El & Es & Er & En & Eb & HL & ET & _).
  pose proof HI as [iD ifp irect iks ine]. unfold gp_init in *. rewrite HL2.
  destruct (length fp =? length tgt)%nat; [|discriminate]. cbn [negb is_some] in *. cbv zeta in *.
  rewrite (rectangular_ncols fp D irect ifp) in *. rewrite EP in *. cbn [bind fst snd] in *.
  unfold update_data in *. cbn [g_nd g_scale g_scaling g_kernels g_reg g_grad g_log g_bounds g_lml option_map] in *.
  destruct (negb (D =? ncols fp)%nat); [discriminate|]. cbn [bind] in *.
  destruct (get_covariance ks' sopt fp None (Some reg) false) as [K|]; [|discriminate]. cbn [bind] in *.
  destruct (inv K) as [C|]; [|discriminate]. cbn [bind] in *.
  unfold update_lml in *. cbn [g_nd g_scale g_scaling g_kernels g_reg g_grad g_log g_bounds g_lml g_fp g_target g_cinv] in *.
  destruct (kdicts2list ks' D) as [th|]; [|discriminate]. cbn [bind] in *. unfold neg_lml in *.
  destruct (list2kdict (th ++ [reg]) ks') as [kb|]; [|discriminate]. cbn [bind] in *.
  destruct (get_covariance kb sopt fp None _ false) as [K2|]; [|discriminate]. cbn [bind] in *.
  destruct (cho K2) as [L|]; [|discriminate]. cbn [bind] in *. unfold dot_vec in *. rewrite HL2.
  destruct (nc C =? length tgt)%nat; [|discriminate]. cbn [bind] in *. rewrite tabulate_length in *.
  destruct (nr C =? length tgt)%nat; [|discriminate]. cbn [negb bind fst snd] in *. injection E as <-. cbn. eauto.
Qed.

(** Predictions are linear in the targets, uncertainties do not depend on them. *)
Theorem prediction_linear_in_targets : forall inv cho cho_solve D fp tgt1 tgt2 ks reg rb sopt s1 s2 c,
  oracles_ok inv cho -> inputs_ok D fp ks ->
  gp_init inv cho cho_solve fp tgt1 ks None reg rb sopt false = Ok s1 ->
  gp_init inv cho cho_solve fp tgt2 ks None reg rb sopt false = Ok s2 ->
  exists s, gp_init inv cho cho_solve fp (map (fun p => c * fst p + snd p) (combine tgt1 tgt2)) ks None reg rb sopt false = Ok s /\
    forall test, test_ok D test -> exists p1 p2, predict s1 test = Ok p1 /\ predict s2 test = Ok p2 /\ length p1 = length p2 /\
      predict s test = Ok (map (fun p => c * fst p + snd p) (combine p1 p2)) /\
      predict_with_uncertainty s test = predict_with_uncertainty s1 test /\
      predict_with_uncertainty s1 test = predict_with_uncertainty s2 test.
Proof.
  intros inv cho cho_solve D fp tgt1 tgt2 ks reg rb sopt s1 s2 c HO HI E1 E2.
  destruct (init_facts _ _ _ HO _ _ _ _ _ _ _ _ _ HI E1) as (ks' & b & EP & T & El & Es & Er & _ & _ & HL & ET & _).
  destruct (init_facts _ _ _ HO _ _ _ _ _ _ _ _ _ HI E2) as (ks2 & b2 & EP2 & T2 & El2 & Es2 & Er2 & _ & _ & HL2 & ET2 & _).
  assert (LL : length (map (fun p => c * fst p + snd p) (combine tgt1 tgt2)) = length tgt1) by (rewrite map_length, combine_length; lia).
  destruct (init_other_targets inv cho cho_solve fp tgt1 tgt2 ks reg rb sopt s1 D HO HI E1 (eq_sym (eq_trans (eq_sym HL) HL2))) as [l2 F2].
  rewrite E2 in F2. injection F2 as ->.
  destruct (init_other_targets inv cho cho_solve fp tgt1 _ ks reg rb sopt s1 D HO HI E1 LL) as [l3 F3].
  eexists. split; [exact F3|]. intros test HT.
  destruct (init_facts _ _ _ HO _ _ _ _ _ _ _ _ _ HI F3) as (ks3 & b3 & EP3 & T3 & El3 & Es3 & Er3 & _ & _ & HL3 & ET3 & _).
  destruct (init_test _ _ _ HO _ _ _ _ _ _ _ _ _ HI E1 test HT) as [N1 [R1 L1]].
  destruct (init_test _ _ _ HO _ _ _ _ _ _ _ _ _ HI E2 test HT) as [N2 [R2 L2]].
  destruct (init_test _ _ _ HO _ _ _ _ _ _ _ _ _ HI F3 test HT) as [N3 [R3 L3]].
  rewrite EP in EP2, EP3. injection EP2 as <- <-. injection EP3 as <- <-.
  rewrite (predict_trained _ ks' D T) by auto. rewrite (predict_trained _ ks' D T2) by auto. rewrite (predict_trained _ ks' D T3) by auto.
  rewrite (uncertainty_trained _ ks' D test T N1 R1), (uncertainty_trained _ ks' D test T2 N2 R2), (uncertainty_trained _ ks' D test T3 N3 R3).
  unfold scale_test, rescale, finish_uncertainty, reduction in *. cbn [g_scale g_scaling g_fp g_target g_cinv g_log g_reg] in *. rewrite Es in *.
  eexists. eexists. split; [reflexivity|]. split; [reflexivity|]. split; [rewrite !tabulate_length; auto|].
  split; [|auto]. f_equal. unfold tabulate.
  apply (list_ext_nth 0); [rewrite !map_length, combine_length, !map_length, seq_length; lia|].
  intros i Hi. rewrite map_length, seq_length in Hi.
  rewrite !(nth_map_lt _ _ _ (0, 0)) by (rewrite combine_length, !map_length, seq_length; lia).
  rewrite combine_nth by (rewrite !map_length; auto). cbn [fst snd].
  rewrite !(nth_map_lt _ _ _ 0%nat) by (rewrite seq_length; auto). rewrite !seq_nth by auto. cbn [plus].
  unfold weights. cbn [g_fp g_cinv g_target]. cbn in ET, ET2. injection ET as _ Ef Et. 
  set (n := length (g_fp s1)). rewrite <- Sum_scal, <- Sum_plus. apply Sum_ext. intros j Hj.
  assert (W : forall t : list R, mulv n (at_ (g_cinv s1)) (vnth t) j = Sum n (fun k => at_ (g_cinv s1) j k * nth k t 0)) by reflexivity.
  rewrite !W. rewrite Et.
  rewrite (Sum_ext n (fun k => at_ (g_cinv s1) j k * nth k (map (fun p => c * fst p + snd p) (combine tgt1 tgt2)) 0)
                     (fun k => c * (at_ (g_cinv s1) j k * nth k tgt1 0) + at_ (g_cinv s1) j k * nth k tgt2 0)).
  - rewrite Sum_plus, Sum_scal. ring.
  - intros k Hk. assert (Hk' : (k < length (combine tgt1 tgt2))%nat) by (unfold n in Hk; rewrite Ef in Hk; rewrite combine_length; lia).
    rewrite (nth_map_lt _ _ _ (0, 0)) by auto. rewrite combine_nth by lia. cbn [fst snd]. ring.
Qed.
Print Assumptions prediction_linear_in_targets.

(** ** Noise and training points *)

(** Predictions for the training set: what is missing to the target is the noise times
    the weight of the point. *)
Lemma predict_training inv cho cho_solve D fp tgt ks reg rb sopt s : oracles_ok inv cho -> inputs_ok D fp ks ->
  gp_init inv cho cho_solve fp tgt ks None reg rb sopt false = Ok s ->
  predict s fp = Ok (tabulate (length fp) (fun i => nth i tgt 0 - logged sopt reg ^ 2 * weights s i)).
Proof.
  intros HO HI E.
  destruct (init_facts _ _ _ HO _ _ _ _ _ _ _ _ _ HI E) as (ks' & b & EP & T & El & Es & Er & _ & _ & HL & ET & _).
  cbn in ET. injection ET as Esc Ef Et. destruct HI as [iD ifp irect iks ine].
  assert (ST : scale_test s fp = fp) by (unfold scale_test; rewrite Es; auto).
  rewrite (predict_trained s ks' D T) by (rewrite ST; auto). rewrite ST. unfold rescale. rewrite Es. f_equal. apply tabulate_ext.
  intros i Hi. pose proof (weights_spec s ks' D T i) as W. rewrite Ef, El, Er, Et in *. rewrite <- (W Hi).
  rewrite (Sum_ext _ (fun j => (kappa ks' sopt (row_at fp i) (row_at fp j) + (logged sopt reg * ident i j) ^ 2) * weights s j)
    (fun j => kappa ks' sopt (row_at fp i) (row_at fp j) * weights s j + logged sopt reg ^ 2 * ((if (i =? j)%nat then 1 else 0) * weights s j))).
  - rewrite Sum_plus, Sum_scal, (Sum_delta _ _ (weights s) Hi). ring.
  - intros j Hj. unfold ident. destruct (i =? j)%nat; ring.
Qed.

(** Without noise the model reproduces its training targets, scaled data or not. *)
Theorem zero_noise_interpolates : forall inv cho cho_solve D fp tgt ks rb sdata s,
  oracles_ok inv cho -> inputs_ok D fp ks -> (sdata = true -> std tgt <> 0) ->
  gp_init inv cho cho_solve fp tgt ks None 0 rb false sdata = Ok s ->
  predict s fp = Ok tgt.
Proof.
  intros inv cho cho_solve D fp tgt ks rb sdata s HO HI HS E.
  assert (HL : length fp = length tgt).
  { unfold gp_init in E. destruct (Nat.eqb_spec (length fp) (length tgt)); [auto|discriminate]. }
  assert (Z : forall f t s0, inputs_ok D f ks -> length f = length t -> gp_init inv cho cho_solve f t ks None 0 rb false false = Ok s0 -> predict s0 f = Ok t).
  { intros f t s0 I0 L0 E0. rewrite (predict_training _ _ _ _ _ _ _ _ _ _ _ HO I0 E0). f_equal. rewrite L0. rewrite <- (tabulate_nth t) at 2.
    apply tabulate_ext. intros i Hi. cbn. ring. }
  destruct sdata; [|eapply Z; eauto].
  destruct (scale_data_is_manual_scaling _ _ _ _ _ _ _ _ _ _ _ HO HI E) as (sd & f1 & t1 & s0 & ES & E0 & HP).
  pose proof HI as [iD ifp irect iks ine]. pose proof (scale_train_shape fp tgt D ifp irect) as Q. rewrite ES in Q.
  destruct Q as [Q0 [Q1 [Q2 [Q3 _]]]]. destruct (HP fp) as [-> _]. rewrite <- Q0. rewrite (Z f1 t1 s0); auto.
  - cbn [bind]. f_equal. unfold scale_train, PrepModel.sd_train, PrepModel.target_standardize in ES. cbn in ES. injection ES as <- _ <-. cbn.
    rewrite !map_map. rewrite <- (map_id tgt) at 2. apply map_ext. intros y. unfold PrepModel.ndiv.
    destruct (Reqb (std tgt) 0) eqn:R0; [apply Reqb_true in R0; exfalso; apply HS; auto|]. apply Reqb_false in R0. field. auto.
  - constructor; auto. destruct fp, f1; cbn in *; congruence.
  - congruence.
Qed.
Print Assumptions zero_noise_interpolates.

(** predict(get_training_error=True) compares the targets with what predict returns for
    the training features. *)
Theorem training_prediction_matches : forall inv cho cho_solve D fp tgt ks reg rb sopt sdata s,
  oracles_ok inv cho -> inputs_ok D fp ks -> (sdata = true -> std tgt <> 0) ->
  gp_init inv cho cho_solve fp tgt ks None reg rb sopt sdata = Ok s ->
  train_prediction s = predict s fp /\ train_reference s = tgt.
Proof.
  intros inv cho cho_solve D fp tgt ks reg rb sopt sdata s HO HI HS E.
  destruct (init_facts _ _ _ HO _ _ _ _ _ _ _ _ _ HI E) as (ks' & b & EP & T & El & Es & Er & _ & _ & HL & ET & _).
  pose proof HI as [iD ifp irect iks ine].
  assert (ST : scale_test s fp = g_fp s).
  { unfold scale_test. rewrite Es. unfold train_data in ET. pose proof (scale_train_shape fp tgt D ifp irect) as Q. destruct sdata.
    - destruct (scale_train fp tgt) as [[sd f1] t1]. injection ET as -> -> _. destruct Q as [-> _]. auto.
    - injection ET as _ -> _. auto. }
  split.
  - rewrite (predict_trained s ks' D T) by (rewrite ST; [apply (t_ne _ _ _ T) || apply (t_rect _ _ _ T)]). rewrite ST.
    unfold train_prediction. rewrite (t_kernels _ _ _ T), (t_grad _ _ _ T), get_covariance_boxed.
    destruct (covariance_kappa D ks' (g_log s) (g_fp s) None (t_eval _ _ _ T) (t_ks _ _ _ T) (t_ne _ _ _ T) (t_rect _ _ _ T) Logic.I) as [K [EK [K1 [K2 HK]]]].
    rewrite EK. cbn [bind]. cbn [cols_of] in *. rewrite (make_prediction_trained s ks' D T K _ K2 K1). f_equal. f_equal. apply tabulate_ext. intros i Hi.
    apply Sum_ext. intros j Hj. rewrite HK by auto. auto.
  - unfold train_reference, rescale. rewrite Es. unfold train_data in ET. destruct sdata; [|injection ET as _ _ ->; auto].
    unfold scale_train, PrepModel.sd_train, PrepModel.target_standardize in ET. cbn in ET. injection ET as -> _ ->. cbn.
    rewrite !map_map. transitivity (map (fun x : R => x) tgt); [|apply map_id]. apply map_ext. intros y. unfold PrepModel.ndiv.
    destruct (Reqb (std tgt) 0) eqn:R0; [apply Reqb_true in R0; exfalso; apply HS; auto|]. apply Reqb_false in R0. field. auto.
Qed.
Print Assumptions training_prediction_matches.

(** ** The uncertainty including noise *)

(** It is a bound for the standard deviation of a noisy observation:
    at least the standard deviation sqrt(u^2 + noise^2) and at most the sum. *)
Theorem uncertainty_with_noise_partial : forall inv cho cho_solve D fp tgt ks reg rb s test u ur,
  oracles_ok inv cho -> inputs_ok D fp ks -> test_ok D test -> 0 <= reg ->
  gp_init inv cho cho_solve fp tgt ks None reg rb false false = Ok s ->
  predict_with_uncertainty s test = Ok (u, ur) ->
  length ur = length u /\ length u = length test /\
  forall i, (i < length u)%nat -> 0 <= nth i u 0 /\ sqrt (nth i u 0 ^ 2 + reg ^ 2) <= nth i ur 0 <= nth i u 0 + reg.
Proof.
  intros inv cho cho_solve D fp tgt ks reg rb s test u ur HO HI HT Hr E HU.
  destruct (init_facts _ _ _ HO _ _ _ _ _ _ _ _ _ HI E) as (ks' & b & EP & T & El & Es & Er & _).
  destruct (init_test _ _ _ HO _ _ _ _ _ _ _ _ _ HI E test HT) as [N1 [R1 L1]].
  rewrite (uncertainty_trained s ks' D test T N1 R1) in HU. unfold finish_uncertainty in HU. rewrite Es, Er in HU. injection HU as <- <-.
  rewrite !map_length, tabulate_length. split; [auto|]. split; [auto|]. intros i Hi.
  rewrite !(nth_map_lt _ _ _ 0) by (rewrite tabulate_length; auto). rewrite !nth_tabulate by auto. rewrite !Rmult_1_r.
  set (x := sqrt _). assert (0 <= x) by apply sqrt_pos. split; [auto|]. split; [|lra].
  rewrite <- (sqrt_pow2 (x + reg)) by lra. apply sqrt_le_1_alt. nra.
Qed.
Print Assumptions uncertainty_with_noise_partial.

(** ** Concrete failures of partial updates *)

Lemma inverse_1 K B : inverse 1 K B -> K 0%nat 0%nat <> 0 -> B 0%nat 0%nat = / K 0%nat 0%nat.
Proof.
  intros [H _] HK. specialize (H 0%nat 0%nat ltac:(lia) ltac:(lia)). unfold mulm, ident in H. cbn in H.
  rewrite Rplus_0_l in H || rewrite Rplus_0_r in H || idtac.
  apply (Rmult_eq_reg_l (K 0%nat 0%nat)); [|auto]. rewrite Rinv_r by auto. lra.
Qed.

(** Update one-point models with kernels that setup leaves unchanged. *)
Lemma lml_ok cho cho_solve s ks D flat : complete_cho cho ->
  g_kernels s = ks -> map boxed ks = ks -> Forall (evaluable D) ks -> Forall (sensible (g_log s)) ks -> ks <> [] ->
  kdicts2list ks (g_nd s) = Ok flat -> (forall rest, list2kdict (flat ++ rest) ks = Ok (map boxed ks)) ->
  g_fp s <> [] -> rectangular (g_fp s) D -> logged (g_log s) (g_reg s) <> 0 -> g_grad s = false ->
  nr (g_cinv s) = length (g_target s) -> nc (g_cinv s) = length (g_target s) ->
  exists l, update_lml cho cho_solve s =
    Ok (GP (g_nd s) (g_reg s) (g_log s) (g_scale s) (g_grad s) ks (g_bounds s) (g_scaling s) (g_fp s) (g_target s) (g_cinv s) (Some l)).
Proof.
  intros CC EK HB HE HS HN Hf Hl HF HR Hr HG C1 C2. unfold update_lml. rewrite EK, Hf. cbn [bind]. unfold neg_lml. rewrite Hl, HB. cbn [bind].
  rewrite last_last, HG.
  destruct (covariance_posdef D ks (g_log s) (g_fp s) (g_reg s) HE HS HN HF HR Hr) as [K [EKK [K1 [K2 [Ksy [Kpd _]]]]]].
  rewrite EKK. cbn [bind]. destruct (CC K) as [L EL]; [congruence|rewrite K1; auto|rewrite K1; auto|]. rewrite EL. cbn [bind].
  unfold dot_vec. rewrite C2, Nat.eqb_refl. cbn [bind]. rewrite tabulate_length, C1, Nat.eqb_refl. cbn [negb bind fst snd]. eauto.
Qed.

Lemma predict_1 s D ks x x1 t y : g_scale s = false -> g_grad s = false -> g_kernels s = ks -> Forall (evaluable D) ks -> ks <> [] ->
  length x = D -> length x1 = D -> g_fp s = [x1] -> g_target s = [t] -> nr (g_cinv s) = 1%nat -> nc (g_cinv s) = 1%nat ->
  y = kappa ks (g_log s) x x1 * (at_ (g_cinv s) 0 0 * t) -> predict s [x] = Ok [y].
Proof.
  intros Es Eg EK HE HN Lx Lx1 Ef Et C1 C2 ->. unfold predict, scale_test. rewrite Es. unfold test_covariance. rewrite Eg, EK, Ef.
  destruct (covariance_kappa D ks (g_log s) [x] (Some [x1]) HE HN) as [K [E1 [K1 [K2 HK]]]]; [discriminate|repeat constructor; auto|split; [repeat constructor; auto|discriminate]|].
  cbn [cols_of length] in *. rewrite E1. cbn [bind]. unfold make_prediction, dot_vec. rewrite C2, Et. cbn [length Nat.eqb bind].
  rewrite K2, tabulate_length, C1. cbn [Nat.eqb bind]. unfold rescale. rewrite Es, K1. unfold tabulate. cbn [seq map Sum nth].
  rewrite (HK 0%nat 0%nat) by lia. unfold row_at. cbn [nth]. f_equal. f_equal. ring.
Qed.

Lemma prepare_gauss : exists b, prepare_kernels [gaussian [1]] (init_bounds None false) false 1 = Ok ([gaussian [1]], b).
Proof. unfold prepare_kernels. cbn. replace (Rltb 0 1) with true by (symmetry; apply Rltb_true; lra). eexists. reflexivity. Qed.

(** update_data called as documented on a model with scale_optimizer=True: the model
    after updating with its own training data differs from the model. *)
Theorem update_default_scale_refuted : forall inv cho cho_solve y, oracles_ok inv cho -> oracles_total inv cho ->
  exists s s2, gp_init inv cho cho_solve [[0]] [y] [gaussian [1]] None 1 None true false = Ok s /\
    update_data inv cho cho_solve s [[0]] (Some [y]) None false = Ok s2 /\
    predict s [[0]] = Ok [y / (1 + exp 1)] /\ predict s2 [[0]] = Ok [exp 1 / 2 * y].
Proof.
  intros inv cho cho_solve y HO HC. pose proof HO as [SI SC]. pose proof HC as [CI CC]. destruct prepare_gauss as [bb PG].
  assert (HU : Forall (usable 1) [gaussian [1]]) by (repeat constructor; cbn; auto; discriminate).
  assert (HSe : forall b, Forall (sensible b) [gaussian [1]]) by (intros; repeat constructor; cbn; auto; discriminate).
  pose proof (exp_pos 1) as E1.
  destruct (gp_init_ok inv cho cho_solve SI [[0]] [y] [gaussian [1]] 1 None true false 1 [gaussian [1]] bb CI CC PG HU) as [s E];
    try discriminate; auto; [repeat constructor|cbn; lra|].
  assert (HI : inputs_ok 1 [[0]] [gaussian [1]]) by (constructor; auto; try discriminate; repeat constructor).
  destruct (init_facts _ _ _ HO _ _ _ _ _ _ _ _ _ HI E) as (ks' & b & EP & T & El & Es & Er & En & Eb & _ & ET & _).
  rewrite PG in EP. injection EP as <- <-. cbn in ET. injection ET as Esc Ef Et.
  destruct (prepare_usable _ _ _ _ _ _ (le_n 1) PG HU ltac:(discriminate)) as [HE [HN [flat [Hf Hl]]]].
  destruct (covariance_posdef 1 [gaussian [1]] false [[0]] 1 HE (HSe false)) as [K [EK [K1 [K2 [Ksy [Kpd _]]]]]];
    try discriminate; [repeat constructor|cbn; lra|].
  destruct (covariance_with_reg 1 [gaussian [1]] false [[0]] 1 HE) as [K' [EK' [_ [_ HKe]]]]; try discriminate; [repeat constructor|].
  rewrite EK in EK'. injection EK' as <-.
  destruct (CI K) as [C EC]; [congruence|rewrite K1; auto|rewrite K1; auto|].
  destruct (SI _ _ EC) as [_ [C1 [C2 C3]]]. rewrite K1 in *. cbn [length] in *.
  pose proof (t_kernels _ _ _ T) as TK. change (map boxed [gaussian [1]]) with [gaussian [1]] in TK.
  set (s0 := GP 1 1 true false false [gaussian [1]] (g_bounds s) None [[0]] [y] C (g_lml s)).
  destruct (lml_ok cho cho_solve s0 [gaussian [1]] 1 flat CC eq_refl eq_refl HE (HSe true)) as [l UL]; auto; try discriminate;
    [repeat constructor|cbn; lra|].
  exists s. eexists. split; [exact E|]. split.
  { unfold update_data. rewrite En, Es, Er, El, (t_grad _ _ _ T), TK, Esc. cbn [ncols hd length Nat.eqb negb bind option_map].
    rewrite EK. cbn [bind]. rewrite EC. cbn [bind]. exact UL. }
  split.
  - apply (predict_1 s 1 [gaussian [1]] [0] [0] y); auto; try (apply (t_grad _ _ _ T)).
    + rewrite (t_nr _ _ _ T), Ef. auto.
    + rewrite (t_nc _ _ _ T), Ef. auto.
    + pose proof (t_inv _ _ _ T) as V. rewrite Ef, El, Er in V. cbn [length] in V.
      rewrite (inverse_1 _ _ V); unfold row_at, ident, logged; cbn [nth Nat.eqb]; rewrite ?El, ?kappa_gauss.
      * field. split; nra.
      * nra.
  - apply (predict_1 _ 1 [gaussian [1]] [0] [0] y); auto.
    + cbn [g_cinv g_log s0]. assert (V : inverse 1 (fun i j => kappa [gaussian [1]] false (row_at [[0]] i) (row_at [[0]] j) + (logged false 1 * ident i j) ^ 2) (at_ C))
        by (eapply inverse_ext; [exact HKe|apply eqm_refl|exact C3]).
      rewrite (inverse_1 _ _ V); unfold row_at, ident, logged; cbn [nth Nat.eqb]; rewrite ?kappa_gauss; [field|lra].
Qed.
Print Assumptions update_default_scale_refuted.

Lemma kappa_lin b x y : kappa [bare KLinear] b [x] [y] = (if b then exp 1 else 1) * (x * y).
Proof. unfold kappa. destruct b; cbn; ring. Qed.

(** update_gp with new features only: predictions mix the covariance of the new features
    with the inverse for the old ones. *)
Theorem update_features_only_refuted : forall inv cho cho_solve rb, oracles_ok inv cho -> oracles_total inv cho ->
  exists s s2 s3, gp_init inv cho cho_solve [[1]] [1] [bare KLinear] None 1 None false false = Ok s /\
    update_gp inv cho cho_solve s (Some [[2]]) None None false None rb = Ok s2 /\
    gp_init inv cho cho_solve [[2]] [1] [bare KLinear] None 1 None false false = Ok s3 /\
    predict s2 [[2]] = Ok [2] /\ predict s3 [[2]] = Ok [4 / 5].
Proof.
  intros inv cho cho_solve rb HO HC. pose proof HO as [SI SC]. pose proof HC as [CI CC].
  assert (PG : exists bb, prepare_kernels [bare KLinear] (init_bounds None false) false 1 = Ok ([bare KLinear], bb)) by (eexists; reflexivity).
  destruct PG as [bb PG].
  assert (HU : Forall (usable 1) [bare KLinear]) by (repeat constructor; cbn; auto; discriminate).
  assert (HSe : forall b, Forall (sensible b) [bare KLinear]) by (intros; repeat constructor; cbn; auto; discriminate).
  assert (M : forall x, exists s, gp_init inv cho cho_solve [[x]] [1] [bare KLinear] None 1 None false false = Ok s).
  { intros x. eapply (gp_init_ok inv cho cho_solve SI [[x]] [1] [bare KLinear] 1 None false false 1 [bare KLinear] bb CI CC PG HU);
     try discriminate; auto; [repeat constructor|cbn; lra]. }
  destruct (M 1) as [s E]. destruct (M 2) as [s3 E3].
  assert (HI : forall x, inputs_ok 1 [[x]] [bare KLinear]) by (intros; constructor; auto; try discriminate; repeat constructor).
  destruct (init_facts _ _ _ HO _ _ _ _ _ _ _ _ _ (HI 1) E) as (ks' & b & EP & T & El & Es & Er & En & Eb & _ & ET & _).
  rewrite PG in EP. injection EP as <- <-. cbn in ET. injection ET as Esc Ef Et.
  destruct (init_facts _ _ _ HO _ _ _ _ _ _ _ _ _ (HI 2) E3) as (ks' & b & EP & T3 & El3 & Es3 & Er3 & En3 & Eb3 & _ & ET3 & _).
  rewrite PG in EP. injection EP as <- <-. cbn in ET3. injection ET3 as Esc3 Ef3 Et3.
  destruct (prepare_usable _ _ _ _ _ _ (le_n 1) PG HU ltac:(discriminate)) as [HE [HN [flat [Hf Hl]]]].
  pose proof (t_kernels _ _ _ T) as TK. change (map boxed [bare KLinear]) with [bare KLinear] in TK.
  pose proof (t_kernels _ _ _ T3) as TK3. change (map boxed [bare KLinear]) with [bare KLinear] in TK3.
  assert (C1 : nr (g_cinv s) = 1%nat) by (rewrite (t_nr _ _ _ T), Ef; auto).
  assert (C2 : nc (g_cinv s) = 1%nat) by (rewrite (t_nc _ _ _ T), Ef; auto).
  set (s0 := GP 1 1 false false false [bare KLinear] (g_bounds s) None [[2]] [1] (g_cinv s) (g_lml s)).
  destruct (lml_ok cho cho_solve s0 [bare KLinear] 1 flat CC eq_refl eq_refl HE (HSe false)) as [l UL]; auto; try discriminate;
    [repeat constructor|cbn; lra|].
  exists s. eexists. exists s3. split; [exact E|]. split.
  { unfold update_gp. cbv zeta. cbn [bind]. rewrite Es, Er, El, (t_grad _ _ _ T), TK, Esc, Et. exact UL. }
  split; [exact E3|]. split.
  - apply (predict_1 _ 1 [bare KLinear] [2] [2] 1); auto; try discriminate.
    cbn [g_cinv g_log s0]. pose proof (t_inv _ _ _ T) as V. rewrite Ef, El, Er in V. cbn [length] in V.
    rewrite (inverse_1 _ _ V); unfold row_at, ident, logged; cbn [nth Nat.eqb]; rewrite ?kappa_lin; [field|lra].
  - apply (predict_1 s3 1 [bare KLinear] [2] [2] 1); auto; try (apply (t_grad _ _ _ T3)).
    + rewrite (t_nr _ _ _ T3), Ef3. auto.
    + rewrite (t_nc _ _ _ T3), Ef3. auto.
    + pose proof (t_inv _ _ _ T3) as V. rewrite Ef3, El3, Er3 in V. cbn [length] in V.
      rewrite (inverse_1 _ _ V); unfold row_at, ident, logged; cbn [nth Nat.eqb]; rewrite ?El3, ?kappa_lin; [field|lra].
Qed.
Print Assumptions update_features_only_refuted.

(** With logarithmic noise the "uncertainty with noise" can be smaller than the
    uncertainty without. *)
Theorem uncertainty_with_log_noise_refuted : forall inv cho cho_solve, oracles_ok inv cho -> oracles_total inv cho ->
  exists s u ur, gp_init inv cho cho_solve [[0]] [0] [gaussian [1]] None (-1) None true false = Ok s /\
    predict_with_uncertainty s [[0]] = Ok ([u], [ur]) /\ ur < u.
Proof.
  intros inv cho cho_solve HO HC. pose proof HO as [SI SC]. pose proof HC as [CI CC]. destruct prepare_gauss as [bb PG].
  assert (HU : Forall (usable 1) [gaussian [1]]) by (repeat constructor; cbn; auto; discriminate).
  assert (HSe : forall b, Forall (sensible b) [gaussian [1]]) by (intros; repeat constructor; cbn; auto; discriminate).
  pose proof (exp_pos (-1)) as E1.
  destruct (gp_init_ok inv cho cho_solve SI [[0]] [0] [gaussian [1]] (-1) None true false 1 [gaussian [1]] bb CI CC PG HU) as [s E];
    try discriminate; auto; [repeat constructor|cbn; lra|].
  assert (HI : inputs_ok 1 [[0]] [gaussian [1]]) by (constructor; auto; try discriminate; repeat constructor).
  destruct (init_facts _ _ _ HO _ _ _ _ _ _ _ _ _ HI E) as (ks' & b & EP & T & El & Es & Er & _).
  assert (HT : test_ok 1 [[0]]) by (split; [discriminate|repeat constructor]).
  destruct (init_test _ _ _ HO _ _ _ _ _ _ _ _ _ HI E _ HT) as [N1 [R1 L1]].
  exists s. eexists. eexists. split; [exact E|]. rewrite (uncertainty_trained s ks' 1 _ T N1 R1). unfold scale_test in *. rewrite Es in *.
  unfold finish_uncertainty. rewrite Es, Er. cbn [length tabulate seq map]. split; [reflexivity|]. lra.
Qed.
Print Assumptions uncertainty_with_log_noise_refuted.
