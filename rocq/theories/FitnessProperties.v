(** Properties of the fitness functions of the genetic feature selection. *)
From Coq Require Import Reals Lra Lia List Arith Bool.
From Verif Require Import Base BaseFacts RBase LinAlg LogDet KernModel KernProofs KernSetupProofs KernDefProofs KernEntryProofs
  KernProperties GPModel GPProofs GPMoreProofs GPProperties GPUpdateProofs GPUpdateProperties GPScaleProperties GPOptProperties
  KernScaleProofs SensModel SensProperties GenGPProperties FitnessModel.
From Verif Require PrepModel PrepProofs.
Import ListNotations.
Open Scope R_scope.

(** ** Optimized models *)
Lemma optimized_fields inv cho cho_solve minimizer D fp tgt ks reg g : oracles_ok inv cho -> inputs_ok D fp ks ->
  gp_optimized inv cho cho_solve minimizer fp tgt ks reg false = Ok g ->
  g_fp g = fp /\ g_target g = tgt /\ g_log g = false /\ g_grad g = false /\ g_scale g = false /\ g_scaling g = None.
Proof.
  intros HO HI E. unfold gp_optimized in E. destruct (gp_init inv cho cho_solve fp tgt ks None reg None false false) as [s|] eqn:EI; [|discriminate]. cbn [bind] in E.
  destruct (init_facts _ _ _ HO _ _ _ _ _ _ _ _ _ HI EI) as (ks' & b & _ & T & El & Es & _ & _ & _ & _ & ET & _). cbn in ET. injection ET as Esc Ef Et.
  unfold optimize_hyperparameters in E. destruct (kdicts2list (g_kernels s) (g_nd s)) as [th|]; [|discriminate]. cbn [bind] in E.
  destruct (minimizer (th ++ [g_reg s]) (g_bounds s)) as [x f]. destruct (list2kdict (removelast x) (g_kernels s)) as [k2|]; [|discriminate]. cbn [bind] in E.
  match type of E with bind ?c _ = _ => destruct c as [cv|]; [|discriminate] end. cbn [bind] in E. destruct (inv cv) as [ci|]; [|discriminate]. cbn [bind] in E.
  injection E as <-. cbn. rewrite (t_grad _ _ _ T). auto 10.
Qed.

(** Optimizing a model of scaled data is optimizing one of the transformed data. *)
Lemma optimized_scaled inv cho cho_solve minimizer fp tgt ks reg D sd f1 t1 : fp <> [] -> rectangular fp D -> length fp = length tgt ->
  scale_train fp tgt = (sd, f1, t1) ->
  gp_optimized inv cho cho_solve minimizer fp tgt ks reg true =
  bind (gp_optimized inv cho cho_solve minimizer f1 t1 ks reg false) (fun s => Ok (with_scaling s true (Some sd))).
Proof.
  intros HN HR HL ES. pose proof (init_scaled inv cho cho_solve fp tgt ks reg None false D HN HR HL) as H. rewrite ES in H. unfold gp_optimized. rewrite H.
  destruct (gp_init inv cho cho_solve f1 t1 ks None reg None false false) as [s0|]; cbn [bind]; [|reflexivity].
  unfold optimize_hyperparameters. cbn [with_scaling g_kernels g_nd g_reg g_bounds g_log g_fp g_target g_grad g_scale g_scaling].
  destruct (kdicts2list (g_kernels s0) (g_nd s0)) as [th|]; cbn [bind]; [|reflexivity]. destruct (minimizer (th ++ [g_reg s0]) (g_bounds s0)) as [x f].
  destruct (list2kdict (removelast x) (g_kernels s0)) as [k2|]; cbn [bind]; [|reflexivity].
  match goal with |- bind ?c _ = _ => destruct c as [cv|]; cbn [bind]; [|reflexivity] end. destruct (inv cv); reflexivity.
Qed.

Lemma train_prediction_with s sd : train_prediction (with_scaling s true (Some sd)) =
  bind (train_prediction (with_scaling s false None)) (fun p => Ok (map (fun x => x * PrepModel.t_std sd + PrepModel.t_mean sd) p)).
Proof.
  unfold train_prediction. cbn [with_scaling g_kernels g_log g_fp g_grad g_cinv g_target].
  destruct (get_covariance _ _ _ _ _ _) as [K|]; cbn [bind]; auto.
  unfold make_prediction. destruct (dot_vec (g_cinv s) (g_target s)) as [l|]; cbn [bind]; auto. destruct (dot_vec K l); cbn [bind]; auto.
Qed.

Lemma train_reference_with s sd : train_reference (with_scaling s true (Some sd)) = map (fun x => x * PrepModel.t_std sd + PrepModel.t_mean sd) (g_target s).
Proof. reflexivity. Qed.

(** The training targets are compared with the predictions at the training features. *)
Lemma train_prediction_at g D : g_fp g <> [] -> Forall (fun r => length r = D) (g_fp g) -> Forall (evaluable D) (g_kernels g) -> g_kernels g <> [] ->
  g_grad g = false -> g_scale g = false -> train_prediction g = predict g (g_fp g).
Proof.
  intros HN HR HE HK HG HS. unfold predict, train_prediction, scale_test, test_covariance. rewrite HS, HG.
  destruct (covariance_kappa D (g_kernels g) (g_log g) (g_fp g) None HE HK HN HR Logic.I) as (K & EK & K1 & K2 & HKe).
  destruct (covariance_kappa D (g_kernels g) (g_log g) (g_fp g) (Some (g_fp g)) HE HK HN HR (conj HR HN)) as (K' & EK' & K1' & K2' & HKe').
  rewrite EK, EK'. cbn [bind]. unfold make_prediction. destruct (dot_vec (g_cinv g) (g_target g)) as [l|]; cbn [bind]; [|reflexivity].
  cbn [cols_of] in *. unfold dot_vec. rewrite K1, K1', K2, K2'. destruct (_ =? _)%nat; cbn [bind]; [|reflexivity].
  do 2 f_equal. apply tabulate_ext. intros i Hi. apply Sum_ext. intros j Hj. rewrite HKe, HKe' by auto. reflexivity.
Qed.

(** ** The value of the fitness *)

(** Standardization: mean 0 and standard deviation 1, constant columns only shifted. *)
Definition zscore (c : list R) (x : R) : R := (x - mean c) / (if Reqb (std c) 0 then 1 else std c).
Definition column (d : nat) (m : list row) : list R := map (fun r => nth d r 0) m.

Lemma scale_train_zscore fp tgt D sd f1 t1 : fp <> [] -> rectangular fp D -> scale_train fp tgt = (sd, f1, t1) ->
  PrepModel.t_mean sd = mean tgt /\ PrepModel.t_std sd = std tgt /\
  (std tgt <> 0 -> t1 = map (fun y => (y - mean tgt) / std tgt) tgt) /\
  forall m, rectangular m D -> length (PrepModel.sd_test sd m) = length m /\ rectangular (PrepModel.sd_test sd m) D /\
    forall i d, (i < length m)%nat -> (d < D)%nat -> nth d (nth i (PrepModel.sd_test sd m) []) 0 = zscore (column d fp) (nth d (nth i m []) 0).
Proof.
  intros HN HR H. unfold scale_train, PrepModel.sd_train, PrepModel.target_standardize in H. cbn in H. injection H as <- _ <-. cbn [PrepModel.t_mean PrepModel.t_std].
  split; [auto|]. split; [auto|]. split.
  - intros HS. rewrite map_map. apply map_ext. intros y. unfold PrepModel.ndiv. destruct (Reqb (std tgt) 0) eqn:E; [apply Reqb_true in E; contradiction|]. auto.
  - intros m HM. unfold PrepModel.sd_test, PrepModel.scale_matrix. cbn [PrepModel.f_mean PrepModel.f_std].
    assert (W : PrepModel.width fp = D) by (apply PrepProofs.rect_width; auto).
    assert (L1 : length (PrepModel.axis0 0 mean fp) = D) by (rewrite PrepProofs.axis0_length; auto).
    assert (L2 : length (PrepModel.place_one (PrepModel.axis0 0 std fp)) = D) by (unfold PrepModel.place_one; rewrite map_length, PrepProofs.axis0_length; auto).
    unfold rectangular in *. split; [apply map_length|]. split.
    + apply Forall_map. eapply Forall_impl; [|exact HM]. intros r Hr. cbv beta in *. rewrite PrepProofs.scale_row_length; [exact Hr|rewrite Hr; exact L1|rewrite Hr; exact L2].
    + intros i d Hi Hd. rewrite (nth_map_lt _ _ _ []) by auto. rewrite Forall_forall in HM. assert (Lr : length (nth i m []) = D) by (apply HM, nth_In; auto).
      rewrite PrepProofs.nth_scale_row; [|exact (eq_trans L1 (eq_sym Lr))|exact (eq_trans L2 (eq_sym Lr))|rewrite Lr; exact Hd]. rewrite PrepProofs.nth_place_one by (rewrite PrepProofs.axis0_length; congruence).
      rewrite !PrepProofs.nth_axis0 by congruence. reflexivity.
Qed.

(** The root of the mean squared difference. *)
Definition rmse (p t : list R) : R := sqrt (Sum (length p) (fun i => (nth i p 0 - nth i t 0) ^ 2) / INR (length p)).

Lemma rmse_value p t : length p = length t -> exists e, get_error p t false None = Ok e /\ e_rmse_average e = rmse p t.
Proof.
  intros HL. unfold get_error. rewrite HL, Nat.eqb_refl. cbn [negb bind fst snd]. eexists. split; [reflexivity|]. cbn [e_rmse_average].
  unfold rmse. f_equal. unfold mean. rewrite !map_length, combine_length, HL, Nat.min_id. f_equal.
  rewrite map_map. revert t HL. induction p as [|x p IH]; intros [|y t] HL; try discriminate; [reflexivity|].
  cbn in HL. injection HL as HL. cbn [combine map length]. rewrite Sum_S_first. unfold sumR in *. cbn [fold_right fst snd nth]. rewrite (IH t HL). ring.
Qed.

Lemma rmse_nonneg p t : 0 <= rmse p t.
Proof. apply sqrt_pos. Qed.

Lemma rmse_zero p t : p <> [] -> length p = length t -> (rmse p t = 0 <-> p = t).
Proof.
  intros HN HL. assert (N : 0 < INR (length p)) by (apply lt_0_INR; destruct p; [congruence|cbn; lia]). unfold rmse. split.
  - intros H. assert (P : 0 <= Sum (length p) (fun i => (nth i p 0 - nth i t 0) ^ 2)) by (apply Sum_nonneg; intros; apply pow2_ge_0).
    apply sqrt_eq_0 in H; [|apply Rmult_le_pos; [auto|left; apply Rinv_0_lt_compat; auto]].
    assert (Z : Sum (length p) (fun i => (nth i p 0 - nth i t 0) ^ 2) = 0).
    { apply (Rmult_eq_reg_r (/ INR (length p))); [|apply Rinv_neq_0_compat; lra]. unfold Rdiv in H. rewrite H. ring. }
    apply list_ext_nth with (d := 0); [auto|]. intros i Hi. pose proof (Sum_pos_zero _ _ (fun i _ => pow2_ge_0 (nth i p 0 - nth i t 0)) Z i Hi) as Q. cbv beta in Q. nra.
  - intros <-. rewrite Sum_zero by (intros; ring). replace (0 / INR (length p)) with 0 by (field; lra). apply sqrt_0.
Qed.

(** Usable data: training and test rows of equal width, as many targets as rows, training
    targets that vary. *)
Record data_ok (D : nat) (train : list row) (train_t : list R) (test : list row) (test_t : list R) : Prop := {
  d_D : (1 <= D)%nat;
  d_train : train <> [] /\ Forall (fun r => length r = D) train;
  d_train_t : length train = length train_t;
  d_vary : std train_t <> 0;
  d_test : test <> [] /\ Forall (fun r => length r = D) test;
  d_test_t : length test = length test_t }.

(** The fitness is minus the root mean squared error, on the test data, of the predictions
    of a Gaussian process with one Gaussian kernel and noise, trained on the standardized
    training data; the further objectives are minus the number of features and minus the
    time between the readings of the clock. *)
Theorem fitness_value : forall inv cho cho_solve minimizer D train train_t test test_t stime etime,
  oracles_ok inv cho -> oracles_total inv cho -> keeps_positive minimizer -> data_ok D train train_t test test_t ->
  exists s w reg alpha pred, 0 < s /\ 0 < w /\ 0 < reg /\
    (let n := length train in
     let k x y := s * exp (- / 2 * Sum D (fun d => ((zscore (column d train) (nth d x 0) - zscore (column d train) (nth d y 0)) / w) ^ 2)) in
     (forall i, (i < n)%nat -> Sum n (fun j => (k (nth i train []) (nth j train []) + (if (i =? j)%nat then reg ^ 2 else 0)) * alpha j) =
        (nth i train_t 0 - mean train_t) / std train_t) /\
     length pred = length test /\
     forall i, (i < length test)%nat -> nth i pred 0 = Sum n (fun j => k (nth i test []) (nth j train []) * alpha j) * std train_t + mean train_t) /\
    minimize_error inv cho cho_solve minimizer train train_t test test_t = Ok [- rmse pred test_t] /\
    minimize_error_descriptors inv cho cho_solve minimizer train train_t test test_t = Ok [- rmse pred test_t; - INR D] /\
    minimize_error_time inv cho cho_solve minimizer stime etime train train_t test test_t = Ok [- rmse pred test_t; stime - etime] /\
    - rmse pred test_t <= 0 /\ (- rmse pred test_t = 0 <-> pred = test_t).
Proof.
  intros inv cho cho_solve minimizer D train train_t test test_t stime etime HO HC HM [HD [HN HR] HL HS [TN TR] TL].
  destruct (scale_train train train_t) as [[sd f1] t1] eqn:ES.
  pose proof (scale_train_shape train train_t D HN HR) as Q. rewrite ES in Q. destruct Q as (Q0 & Q1 & Q2 & Q3 & _).
  destruct (scale_train_zscore _ _ _ _ _ _ HN HR ES) as (Z1 & Z2 & Z3 & Z4). specialize (Z3 HS).
  destruct (Z4 train HR) as (_ & _ & Z5). rewrite <- Q0 in Z5. destruct (Z4 test TR) as (Z6 & Z7 & Z8).
  assert (F1 : f1 <> []) by (destruct train, f1; cbn in *; congruence).
  destruct (smooth_init inv cho cho_solve minimizer f1 t1 Single D (Num 1) HO HC HM HD F1 Q1) as (g & s & w & reg & EG & Ek & Er & Ps & Pr & Pw & Lw & alpha & HA & HP);
    [congruence|discriminate|exists [1]; split; [reflexivity|repeat constructor; lra]|].
  destruct w as [|w [|]]; try discriminate. apply Forall_cons_iff in Pw. destruct Pw as [Pw _].
  change (fun v : R => 0 < v) with (fun v => 0 < v) in Pw. cbv beta in Pw.
  assert (HI : inputs_ok D f1 fitness_kernel).
  { constructor; auto; [|discriminate]. unfold fitness_kernel, plain_kernel. repeat constructor; cbn; auto; try discriminate. }
  destruct (optimized_fields _ _ _ _ _ _ _ _ _ _ HO HI EG) as (Gf & Gt & Gl & Gg & Gs & Gc).
  assert (EF : fitness_gp inv cho cho_solve minimizer train train_t = Ok (with_scaling g true (Some sd))).
  { unfold fitness_gp. rewrite (optimized_scaled inv cho cho_solve minimizer train train_t fitness_kernel (1 / 100) D sd f1 t1 HN HR HL ES).
    unfold fitness_kernel in *. rewrite EG. reflexivity. }
  assert (Tne : PrepModel.sd_test sd test <> []) by (intros E; rewrite E in Z6; destruct test; [congruence|discriminate]).
  destruct (HP (PrepModel.sd_test sd test) (conj Tne Z7)) as (p & P1 & P2 & P3). rewrite Z6 in P2, P3.
  destruct (HP f1 (conj F1 Q1)) as (pt & PT1 & PT2 & _).
  set (pred := map (fun x => x * PrepModel.t_std sd + PrepModel.t_mean sd) p).
  assert (SC : score_of (with_scaling g true (Some sd)) test test_t = Ok (rmse pred test_t)).
  { unfold score_of. rewrite predict_with, (with_scaling_id g Gs Gc), P1. cbn [bind]. fold pred.
    destruct (rmse_value pred test_t) as (e & E1 & E2); [unfold pred; rewrite map_length; congruence|]. rewrite E1. cbn [bind].
    rewrite train_prediction_with, (with_scaling_id g Gs Gc), (train_prediction_at g D); try rewrite Gf; auto.
    2: { rewrite Ek. repeat constructor; cbn; auto. exists [w]. split; auto. }
    2: { rewrite Ek. discriminate. }
    rewrite PT1. cbn [bind]. rewrite train_reference_with, Gt.
    destruct (rmse_value (map (fun x => x * PrepModel.t_std sd + PrepModel.t_mean sd) pt) (map (fun x => x * PrepModel.t_std sd + PrepModel.t_mean sd) t1)) as (e' & E1' & _);
      [rewrite !map_length; congruence|]. rewrite E1'. cbn [bind]. rewrite E2. reflexivity. }
  assert (Lp : length pred = length test) by (unfold pred; rewrite map_length; auto).
  exists s, w, reg, alpha, pred. do 3 (split; [assumption|]). split; [|split; [|split; [|split; [|split]]]].
  - cbv zeta. split; [|split; [exact Lp|]].
    + intros i Hi. rewrite <- Q2 in Hi. specialize (HA i Hi). rewrite Z3 in HA at 1. rewrite (nth_map_lt _ _ _ 0) in HA by congruence.
      etransitivity; [|exact HA]. rewrite Q2. apply Sum_ext. intros j Hj. do 5 f_equal. apply Sum_ext. intros d Hd. rewrite !Z5 by lia. reflexivity.
    + intros i Hi. unfold pred. rewrite (nth_map_lt _ _ _ 0) by congruence. rewrite (P3 i Hi), Z1, Z2, Q2. f_equal. f_equal. apply Sum_ext. intros j Hj.
      do 4 f_equal. apply Sum_ext. intros d Hd. rewrite Z8, Z5 by lia. reflexivity.
  - unfold minimize_error. rewrite EF. cbn [bind]. rewrite SC. reflexivity.
  - unfold minimize_error_descriptors. rewrite EF. cbn [bind]. rewrite SC. cbn [bind]. rewrite (rectangular_ncols train D HR HN). reflexivity.
  - unfold minimize_error_time. rewrite EF. cbn [bind]. rewrite SC. cbn [bind]. do 3 f_equal. ring.
  - pose proof (rmse_nonneg pred test_t). lra.
  - rewrite <- (rmse_zero pred test_t); [|destruct test, pred; cbn in *; congruence|congruence]. split; intros; lra.
Qed.

(** ** Units *)
Lemma fitness_gp_scaled inv cho cho_solve minimizer train train_t D sd f1 t1 : train <> [] -> rectangular train D -> length train = length train_t ->
  scale_train train train_t = (sd, f1, t1) ->
  fitness_gp inv cho cho_solve minimizer train train_t =
  bind (gp_optimized inv cho cho_solve minimizer f1 t1 fitness_kernel (1 / 100) false) (fun s => Ok (with_scaling s true (Some sd))).
Proof. intros. unfold fitness_gp. eapply optimized_scaled; eauto. Qed.

Lemma score_of_with g sd test test_t : score_of (with_scaling g true (Some sd)) test test_t =
  bind (predict (with_scaling g false None) (PrepModel.sd_test sd test)) (fun p =>
  let back := map (fun x => x * PrepModel.t_std sd + PrepModel.t_mean sd) in
  if negb (length p =? length test_t)%nat then Err AssertionError else
  bind (train_prediction (with_scaling g false None)) (fun tp =>
  if negb (length tp =? length (g_target g))%nat then Err AssertionError else Ok (rmse (back p) test_t))).
Proof.
  unfold score_of. rewrite predict_with. destruct (predict (with_scaling g false None) (PrepModel.sd_test sd test)) as [p|]; cbn [bind]; [|reflexivity].
  cbv zeta. destruct (Nat.eqb_spec (length p) (length test_t)) as [E|E]; cbn [negb].
  2: { unfold get_error. rewrite map_length. apply Nat.eqb_neq in E. rewrite E. reflexivity. }
  destruct (rmse_value (map (fun x => x * PrepModel.t_std sd + PrepModel.t_mean sd) p) test_t) as (e & E1 & E2); [rewrite map_length; auto|].
  rewrite E1. cbn [bind]. rewrite train_prediction_with, train_reference_with. destruct (train_prediction (with_scaling g false None)) as [tp|]; cbn [bind]; [|reflexivity].
  unfold get_error. rewrite !map_length. destruct (length tp =? length (g_target g))%nat; cbn [negb bind]; [|reflexivity]. rewrite E2. reflexivity.
Qed.

(** All three fitness functions are unchanged by changes of unit and origin of the features. *)
Theorem fitness_feature_units : forall inv cho cho_solve minimizer D train train_t test test_t stime etime a b,
  data_ok D train train_t test test_t ->
  (forall d, (d < D)%nat -> 0 < nth d a 0 /\ std (column d train) <> 0) ->
  let new := map (affine_row a b) in
  minimize_error inv cho cho_solve minimizer (new train) train_t (new test) test_t =
    minimize_error inv cho cho_solve minimizer train train_t test test_t /\
  minimize_error_descriptors inv cho cho_solve minimizer (new train) train_t (new test) test_t =
    minimize_error_descriptors inv cho cho_solve minimizer train train_t test test_t /\
  minimize_error_time inv cho cho_solve minimizer stime etime (new train) train_t (new test) test_t =
    minimize_error_time inv cho cho_solve minimizer stime etime train train_t test test_t.
Proof.
  intros inv cho cho_solve minimizer D train train_t test test_t stime etime a b [HD [HN HR] HL HS [TN TR] TL] Ha new.
  destruct (scale_train train train_t) as [[sd f1] t1] eqn:ES.
  destruct (scale_train_features train train_t a b sd f1 t1 D HN HR Ha ES) as (sd' & ES' & M1 & M2 & M3).
  assert (HN' : new train <> []) by (unfold new; destruct train; [congruence|discriminate]).
  assert (HR' : rectangular (new train) D) by (apply rect_affine; auto).
  assert (HL' : length (new train) = length train_t) by (unfold new; rewrite map_length; auto).
  assert (NC : ncols (new train) = ncols train) by (rewrite (rectangular_ncols _ D HR' HN'), (rectangular_ncols _ D HR HN); auto).
  unfold minimize_error, minimize_error_descriptors, minimize_error_time. rewrite NC.
  rewrite (fitness_gp_scaled inv cho cho_solve minimizer _ _ D sd' f1 t1 HN' HR' HL' ES'), (fitness_gp_scaled inv cho cho_solve minimizer _ _ D sd f1 t1 HN HR HL ES).
  destruct (gp_optimized inv cho cho_solve minimizer f1 t1 fitness_kernel (1 / 100) false) as [g|]; cbn [bind]; [|auto].
  assert (SE : score_of (with_scaling g true (Some sd')) (new test) test_t = score_of (with_scaling g true (Some sd)) test test_t).
  { rewrite !score_of_with. unfold new. rewrite M1, M2, M3 by exact TR. reflexivity. }
  rewrite SE. auto.
Qed.

Lemma rmse_aff a b p t : 0 < a -> length p = length t -> rmse (map (fun y => a * y + b) p) (map (fun y => a * y + b) t) = a * rmse p t.
Proof.
  intros Ha HL. unfold rmse. rewrite map_length.
  replace (Sum (length p) (fun i => (nth i (map (fun y => a * y + b) p) 0 - nth i (map (fun y => a * y + b) t) 0) ^ 2) / INR (length p))
    with (a ^ 2 * (Sum (length p) (fun i => (nth i p 0 - nth i t 0) ^ 2) / INR (length p))).
  - rewrite sqrt_mult_alt by (apply pow2_ge_0). f_equal. apply sqrt_pow2. lra.
  - unfold Rdiv. rewrite <- Rmult_assoc. f_equal. rewrite <- Sum_scal. apply Sum_ext. intros i Hi. rewrite !(nth_map_lt _ _ _ 0) by congruence. ring.
Qed.

(** A change of unit and origin of all targets changes the unit of the first objective only. *)
Theorem fitness_target_units : forall inv cho cho_solve minimizer D train train_t test test_t stime etime a b,
  data_ok D train train_t test test_t -> 0 < a ->
  let new := map (fun y => a * y + b) in
  let first l := match l with [] => [] | x :: l => a * x :: l end in
  minimize_error inv cho cho_solve minimizer train (new train_t) test (new test_t) =
    bind (minimize_error inv cho cho_solve minimizer train train_t test test_t) (fun l => Ok (first l)) /\
  minimize_error_descriptors inv cho cho_solve minimizer train (new train_t) test (new test_t) =
    bind (minimize_error_descriptors inv cho cho_solve minimizer train train_t test test_t) (fun l => Ok (first l)) /\
  minimize_error_time inv cho cho_solve minimizer stime etime train (new train_t) test (new test_t) =
    bind (minimize_error_time inv cho cho_solve minimizer stime etime train train_t test test_t) (fun l => Ok (first l)).
Proof.
  intros inv cho cho_solve minimizer D train train_t test test_t stime etime a b [HD [HN HR] HL HS [TN TR] TL] Ha new first.
  destruct (scale_train train train_t) as [[sd f1] t1] eqn:ES.
  assert (HT : train_t <> []) by (destruct train, train_t; cbn in *; congruence).
  pose proof (scale_train_targets train train_t a b sd f1 t1 HT Ha HS ES) as ES'. fold new in ES'.
  assert (HL' : length train = length (new train_t)) by (unfold new; rewrite map_length; auto).
  unfold minimize_error, minimize_error_descriptors, minimize_error_time.
  rewrite (fitness_gp_scaled inv cho cho_solve minimizer _ _ D _ f1 t1 HN HR HL' ES'), (fitness_gp_scaled inv cho cho_solve minimizer _ _ D sd f1 t1 HN HR HL ES).
  destruct (gp_optimized inv cho cho_solve minimizer f1 t1 fitness_kernel (1 / 100) false) as [g|]; cbn [bind]; [|auto].
  match goal with |- bind ?x _ = _ /\ _ => assert (SE : x = bind (score_of (with_scaling g true (Some sd)) test test_t) (fun s => Ok (a * s))) end.
  { rewrite !score_of_with. unfold new. rewrite map_length. unfold PrepModel.sd_test. cbn [PrepModel.f_mean PrepModel.f_std PrepModel.t_mean PrepModel.t_std].
    destruct (predict _ _) as [p|]; cbn [bind]; [|reflexivity]. cbv zeta.
    destruct (Nat.eqb_spec (length p) (length test_t)) as [E|E]; cbn [negb bind]; [|reflexivity].
    destruct (train_prediction _) as [tp|]; cbn [bind]; [|reflexivity]. destruct (length tp =? length (g_target g))%nat; cbn [negb bind]; [|reflexivity].
    f_equal. rewrite <- (rmse_aff a b) by (auto; rewrite map_length; auto). f_equal. rewrite map_map. apply map_ext. intros x. ring. }
  rewrite SE. destruct (score_of (with_scaling g true (Some sd)) test test_t) as [v|]; cbn [bind]; [|auto]. unfold first.
  repeat split; do 2 f_equal; ring.
Qed.

(** Two training points with different targets and one test point. *)
Example fitness_example : data_ok 1 [[0]; [2]] [0; 2] [[1]] [1] /\ forall d, (d < 1)%nat -> 0 < nth d [3] 0 /\ std (column d [[0]; [2]]) <> 0.
Proof.
  destruct feature_units_example as [S1 S2]. split.
  - constructor; cbn; auto; try discriminate; split; try discriminate; repeat constructor.
  - intros [|d] Hd; [|lia]. split; [cbn; lra|exact S2].
Qed.

Print Assumptions fitness_value.
Print Assumptions fitness_feature_units.
Print Assumptions fitness_target_units.
