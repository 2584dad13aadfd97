(** C48: saving a Gaussian process model to a file and loading it again. *)
From Coq Require Import Reals Lra Lia String List Arith Bool Permutation.
From Verif Require Import Base BaseFacts RBase LinAlg LogDet KernModel KernProofs KernSetupProofs KernDefProofs
  KernScaleProofs KernEntryProofs KernProperties GPModel GPProofs GPMoreProofs GPProperties GPUpdateProofs GPGradProofs
  GPUpdateProperties GPScaleProperties GPIOModel.
From Verif Require PrepModel PrepProofs.
Import ListNotations.
Open Scope R_scope.

Lemma combine_perm {A B C} (f : B -> C) : forall (l : list A) (m : list B), length l = length m ->
  map (fun p => f (snd p)) (combine l m) = map f m.
Proof. induction l as [|a l IH]; intros [|b m] H; cbn in *; try discriminate; auto. f_equal. apply IH. lia. Qed.

(** Every kernel comes back exactly once, however many there are. *)
Theorem saved_kernels_all_return : forall ks, ks <> [] ->
  exists ks', load_kernels (kernel_group ks) = Ok ks' /\ Permutation ks' (map load_kernel ks).
Proof.
  intros ks H. unfold load_kernels. destruct (kernel_group ks) as [|p g] eqn:E.
  { destruct ks; [congruence|discriminate]. }
  rewrite <- E. eexists. split; [reflexivity|].
  rewrite <- (combine_perm load_kernel (map str (seq 0 (length ks))) ks) by (rewrite map_length, seq_length; auto).
  apply Permutation_map. apply isort_perm.
Qed.
Print Assumptions saved_kernels_all_return.

(** A file without kernels cannot be read. *)
Theorem saved_without_kernels : forall inv cho cho_solve f, h_kernels f = [] -> gp_read inv cho cho_solve f = Err KeyError.
Proof. intros inv cho cho_solve f H. unfold gp_read. rewrite H. reflexivity. Qed.
Print Assumptions saved_without_kernels.

(** Up to ten kernels come back in the same order. *)
Theorem saved_kernels_keep_order_partial : forall ks, ks <> [] -> (length ks <= 10)%nat ->
  load_kernels (kernel_group ks) = Ok (map load_kernel ks).
Proof.
  intros ks H HL.
  do 11 (destruct ks as [|? ks]; [try (exfalso; apply H; reflexivity); cbn -[load_kernel]; reflexivity|]).
  cbn in HL. lia.
Qed.
Print Assumptions saved_kernels_keep_order_partial.

(** Of eleven kernels the last one comes back as the third. *)
Theorem saved_kernels_reordered_refuted : forall k0 k1 k2 k3 k4 k5 k6 k7 k8 k9 k10,
  load_kernels (kernel_group [k0; k1; k2; k3; k4; k5; k6; k7; k8; k9; k10]) =
  Ok (map load_kernel [k0; k1; k10; k2; k3; k4; k5; k6; k7; k8; k9]).
Proof. intros. cbn -[load_kernel]. reflexivity. Qed.
Print Assumptions saved_kernels_reordered_refuted.

(** ** Setting up kernels that were read *)
Definition not_single (k : kdict) : Prop := k_dimension k <> Some Single.

Lemma format_loaded l c : length l = c -> format_vec (loaded_val (Arr l)) c = Ok l.
Proof.
  intros H. destruct l as [|x [|y l]]; cbn; subst c; auto. cbn. rewrite Nat.eqb_refl. auto.
Qed.

Lemma reload_kernel k nd d k' b : prepare_kernel k nd d = Ok (k', b) -> basic k -> plain k -> own_bounds k nd -> not_single k -> not_quadratic k ->
  prepare_kernel (load_kernel k') nd d = Ok (k', b) /\ k_hyper k' = None /\ k_bounds k' = k_bounds k /\ k_scaling_bounds k' = k_scaling_bounds k.
Proof.
  intros H HA HP HB HS HQ. unfold basic in HA. destruct (prepare_kernel_spec _ _ _ _ _ H HP HB) as [P1 [P2 _]].
  assert (HH : k_hyper k' = None).
  { unfold prepared in P1. unfold plain in HP. rewrite P2 in P1. clear -P1 HA HP. destruct (k_type k) as [[]|]; tauto. }
  destruct k as [t mu ft dm sc fl sb bd w c sl dg hy un]. unfold not_single, not_quadratic in *. cbn in HS, HQ.
  unfold prepare_kernel in H. cbn [k_type k_features k_dimension k_scaling] in H. destruct t as [t|]; [|discriminate].
  apply require_ok in H. destruct H as [R1 H]. apply require_ok in H. destruct H as [R2 H].
  set (c0 := match dm with Some Single => 1%nat | _ => match ft with Some f => length f | None => nd end end) in *.
  assert (Ec : c0 = match ft with Some f => length f | None => nd end) by (unfold c0; destruct dm as [[]|]; congruence).
  match type of H with bind ?x _ = _ => destruct x as [s1|] eqn:Es end; [|discriminate]. cbn [bind] in H.
  match type of H with bind ?x _ = _ => destruct x as [[k1 b1]|] eqn:Et end; [|discriminate]. cbn [bind fst snd] in H.
  injection H as -> <-. unfold plain in HP. cbn in HP, HA.
  assert (Ed : loaded_dim dm = dm) by (unfold loaded_dim; destruct dm as [[]|]; congruence).
  assert (Fin : forall k2, k_type k2 = Some t -> k_features k2 = ft -> k_dimension k2 = dm -> k_scaling k2 = sc ->
     scaling_setup k2 d = scaling_setup (KD (Some t) mu ft dm sc fl sb bd w c sl dg hy un) d ->
     type_setup t k2 c0 d = Ok (k', b1) ->
     prepare_kernel k2 nd d = Ok (k', s1 ++ b1)).
  { intros k2 F1 F2 F3 F4 F5 F6. unfold prepare_kernel. rewrite F1, F2, F3, F4, F5, R1, R2. cbn [require bind].
    fold c0. rewrite Es. cbn [bind]. rewrite F6. reflexivity. }
  destruct t; cbn [type_setup] in Et; try contradiction; try congruence.
  - (* constant *)
    apply require_ok in Et. destruct Et as [Q Et]. cbn [k_const] in Et. destruct c as [x|]; [|discriminate].
    injection Et as <- <-. split; [|auto]. unfold load_kernel; cbn [k_type k_mult k_features k_dimension k_scaling k_float k_scaling_bounds k_bounds k_width k_const k_slope k_degree k_hyper k_unknown].
    rewrite Ed. apply Fin; auto. cbn [type_setup]. rewrite Q. reflexivity.
  - (* gaussian *)
    cbn [k_width] in Et. destruct w as [w|]; [|discriminate]. apply require_ok in Et. destruct Et as [Q Et].
    destruct (format_vec w c0) as [l|] eqn:Ef; [|discriminate]. cbn [bind] in Et. apply require_ok in Et. destruct Et as [Q2 Et].
    injection Et as <- <-. split; [|auto]. unfold load_kernel, set_width; cbn [k_type k_mult k_features k_dimension k_scaling k_float k_scaling_bounds k_bounds k_width k_const k_slope k_degree k_hyper k_unknown option_map].
    rewrite Ed. apply Fin; auto. cbn [type_setup k_width].
    cbn [k_type k_mult k_features k_dimension k_scaling k_float k_scaling_bounds k_bounds k_width k_const k_slope k_degree k_hyper k_unknown] in *.
    rewrite Q. rewrite (format_loaded l c0) by (eapply format_vec_ok; eauto). cbn [require bind]. rewrite Q2. reflexivity.
  - (* laplacian *)
    cbn [k_width] in Et. destruct w as [w|]; [|discriminate]. apply require_ok in Et. destruct Et as [Q Et].
    destruct (format_vec w c0) as [l|] eqn:Ef; [|discriminate]. cbn [bind] in Et.
    injection Et as <- <-. split; [|auto]. unfold load_kernel, set_width; cbn [k_type k_mult k_features k_dimension k_scaling k_float k_scaling_bounds k_bounds k_width k_const k_slope k_degree k_hyper k_unknown option_map].
    rewrite Ed. apply Fin; auto. cbn [type_setup k_width].
    cbn [k_type k_mult k_features k_dimension k_scaling k_float k_scaling_bounds k_bounds k_width k_const k_slope k_degree k_hyper k_unknown] in *.
    rewrite Q. rewrite (format_loaded l c0) by (eapply format_vec_ok; eauto). reflexivity.
  - (* linear *)
    injection Et as <- <-. split; [|auto]. unfold load_kernel; cbn [k_type k_mult k_features k_dimension k_scaling k_float k_scaling_bounds k_bounds k_width k_const k_slope k_degree k_hyper k_unknown].
    rewrite Ed. apply Fin; auto.
Qed.

Lemma reload_loop ks nd d : forall ks' b, prepare_loop ks nd d = Ok (ks', b) -> Forall (usable nd) ks -> Forall not_single ks -> Forall not_quadratic ks ->
  prepare_loop (map load_kernel ks') nd d = Ok (ks', b) /\ existsb (fun k => is_some (k_hyper k)) (map load_kernel ks') = false /\
  forallb savable ks' = forallb savable ks.
Proof.
  induction ks as [|k ks IH]; intros ks' b H HU HS HQ; cbn [prepare_loop] in H.
  - injection H as <- <-. auto.
  - apply Forall_cons_iff in HU as [[[U0 _ _ _] U1 U2] HU]. apply Forall_cons_iff in HS as [S1 HS]. apply Forall_cons_iff in HQ as [Q1 HQ].
    destruct (prepare_kernel k nd d) as [[k1 b1]|] eqn:Ek; [|discriminate]. cbn [bind fst snd] in H.
    destruct (prepare_loop ks nd d) as [[ks2 b2]|]; [|discriminate]. cbn [bind fst snd] in H. injection H as <- <-.
    destruct (reload_kernel _ _ _ _ _ Ek U0 U1 U2 S1 Q1) as [R1 [R2 [R3 R4]]]. destruct (IH _ _ eq_refl HU HS HQ) as [I1 [I2 I3]].
    cbn [map prepare_loop existsb forallb]. rewrite R1. cbn [bind fst snd]. rewrite I1, I2, I3. cbn [load_kernel k_hyper]. rewrite R2.
    split; [auto|]. split; [auto|]. unfold savable. rewrite R3, R4. auto.
Qed.

Lemma reload_usable k nd d k' b : prepare_kernel k nd d = Ok (k', b) -> usable nd k -> not_single k -> not_quadratic k ->
  usable nd (load_kernel k').
Proof.
  intros H [[W1 W2 W3 W4] P B] HS HQ. pose proof (reload_kernel _ _ _ _ _ H W1 P B HS HQ) as [_ [Hh [B1 B2]]].
  destruct k as [t mu ft dm sc fl sb bd w c sl dg hy un]. unfold not_single, not_quadratic, basic, plain, in_range, own_bounds in *.
  cbn in W1, W2, W3, W4, P, B, HS, HQ, B1, B2.
  unfold prepare_kernel in H. cbn [k_type k_features k_dimension k_scaling] in H. destruct t as [t|]; [|discriminate].
  apply require_ok in H. destruct H as [R1 H]. apply require_ok in H. destruct H as [R2 H].
  match type of H with bind ?x _ = _ => destruct x as [s1|] end; [|discriminate]. cbn [bind] in H.
  match type of H with bind ?x _ = _ => destruct x as [[k1 b1]|] eqn:Et end; [|discriminate]. cbn [bind fst snd] in H.
  injection H as -> <-.
  assert (K : k_type k' = Some t /\ k_features k' = ft /\ k_dimension k' = dm /\ k_scaling k' = sc /\ (t = KLinear -> k_width k' = w /\ k_const k' = c /\ k_hyper k' = hy)).
  { destruct t; cbn [type_setup] in Et; try contradiction; try congruence.
    - apply require_ok in Et. destruct Et as [_ Et]. cbn in Et. destruct c; [|discriminate]. injection Et as <- <-. cbn. repeat split; auto; discriminate.
    - cbn in Et. destruct w; [|discriminate]. apply require_ok in Et. destruct Et as [_ Et].
      match type of Et with bind ?x _ = _ => destruct x end; [|discriminate]. cbn [bind] in Et. apply require_ok in Et. destruct Et as [_ Et].
      injection Et as <- <-. cbn. repeat split; auto; discriminate.
    - cbn in Et. destruct w; [|discriminate]. apply require_ok in Et. destruct Et as [_ Et].
      match type of Et with bind ?x _ = _ => destruct x end; [|discriminate]. cbn [bind] in Et.
      injection Et as <- <-. cbn. repeat split; auto; discriminate.
    - injection Et as <- <-. cbn. repeat split; auto. }
  destruct K as [K1 [K2 [K3 [K4 K5]]]].
  assert (Ed : loaded_dim dm = dm) by (unfold loaded_dim; destruct dm as [[]|]; congruence).
  constructor; [constructor| |]; unfold basic, in_range, plain, own_bounds, load_kernel;
    cbn [k_type k_features k_dimension k_width k_const k_hyper k_bounds k_scaling_bounds k_scaling k_degree]; rewrite ?K1, ?K2, ?K3, ?K4, ?B1, ?B2, ?Ed; auto.
  - destruct t; auto; congruence.
  - intros [= ->]. destruct K5 as [-> _]; auto.
  - destruct t; auto; try contradiction; try congruence. destruct K5 as [-> [-> ->]]; auto.
Qed.

(** The model that predicts for scaled features in scaled units, with other bounds for
    the optimizer. *)
Definition without_scaling (s : gp) (b : list bound) : gp :=
  GP (g_nd s) (g_reg s) (g_log s) false (g_grad s) (g_kernels s) b None (g_fp s) (g_target s) (g_cinv s) (g_lml s).

Section Trip.
Variables (inv cho : matrix -> result matrix) (cho_solve : matrix -> list R -> list R).
Hypothesis HO : oracles_ok inv cho.
Variables (D : nat) (fp : list row) (tgt : list R) (ks : list kdict) (reg : R) (rb : option bound) (sopt sdata : bool) (s : gp).
Hypothesis HI : inputs_ok D fp ks.
Hypothesis HQ : Forall not_quadratic ks.
Hypothesis HS : Forall not_single ks.
Hypothesis HW : forallb savable ks = true.
Hypothesis HL : (length ks <= 10)%nat.
Hypothesis E : gp_init inv cho cho_solve fp tgt ks None reg rb sopt sdata = Ok s.

(** What reading the file that was written amounts to. *)
Lemma read_written : exists ks' b f, prepare_kernels ks (init_bounds rb false) false D = Ok (ks', b) /\ g_kernels s = ks' /\
  gp_write s = Ok f /\
  (forall rb', prepare_kernels (map load_kernel ks') (init_bounds rb' false) false D = Ok (ks', removelast b ++ [init_bounds rb' false])) /\
  gp_read inv cho cho_solve f = gp_init inv cho cho_solve (g_fp s) (g_target s) (map load_kernel ks') None reg None false false /\
  Forall (usable D) (map load_kernel ks').
Proof.
  destruct (init_facts _ _ _ HO _ _ _ _ _ _ _ _ _ HI E) as (ks' & b & EP & T & El & Es & Er & En & Eb & _ & ET & _).
  pose proof HI as [iD ifp irect iks ine].
  assert (EK : g_kernels s = ks').
  { rewrite (t_kernels _ _ _ T). apply boxed_id. eapply not_quadratic_types; [|exact HQ]. eapply prepare_types; eauto. }
  pose proof (prepare_types _ _ _ _ _ _ EP iks) as PT.
  pose proof EP as EP2. unfold prepare_kernels in EP2.
  destruct (prepare_loop ks D (default_bound false)) as [[k1 b1]|] eqn:EL; [|discriminate]. cbn [bind fst snd] in EP2.
  injection EP2 as -> <-. destruct (reload_loop _ _ _ _ _ EL iks HS HQ) as [R1 [R2 R3]].
  assert (NE : ks' <> []). { intros ->. destruct ks; [congruence|discriminate PT]. }
  assert (Lk : length ks' = length ks) by (rewrite <- (map_length k_type ks'), PT, map_length; auto).
  exists ks', (b1 ++ [init_bounds rb false]), (H5 (g_fp s) (g_target s) (g_reg s) (kernel_group ks')).
  split; [auto|]. split; [auto|]. split; [unfold gp_write; rewrite EK, R3, HW; auto|]. split; [|split].
  - intros rb'. unfold prepare_kernels. rewrite R1. cbn [bind fst snd]. rewrite removelast_last. auto.
  - unfold gp_read. cbn [h_kernels h_fp h_target h_reg]. rewrite saved_kernels_keep_order_partial by (auto; lia). cbn [bind].
    rewrite R2, Er. auto.
  - clear -R1 EL iks HS HQ. revert ks' b1 R1 EL. induction ks as [|k t IH]; intros ks' b1 R1 EL; cbn [prepare_loop] in EL.
    { injection EL as <- <-. constructor. }
    apply Forall_cons_iff in iks as [U iks]. apply Forall_cons_iff in HS as [S1 HS']. apply Forall_cons_iff in HQ as [Q1 HQ'].
    destruct (prepare_kernel k D (default_bound false)) as [[k1 b2]|] eqn:Ek; [|discriminate]. cbn [bind fst snd] in EL.
    destruct (prepare_loop t D (default_bound false)) as [[t' b3]|] eqn:Et; [|discriminate]. cbn [bind fst snd] in EL.
    injection EL as <- <-. cbn [map] in *. constructor.
    + eapply reload_usable; eauto.
    + eapply IH; eauto. eapply reload_loop; eauto.
Qed.

Lemma read_model : sopt = false -> exists b f, gp_write s = Ok f /\ gp_read inv cho cho_solve f = Ok (without_scaling s b).
Proof.
  intros Hsopt. destruct read_written as (ks' & b & f & EP & EK & EW & EP2 & ER & _).
  destruct (init_facts _ _ _ HO _ _ _ _ _ _ _ _ _ HI E) as (ks2 & b2 & EP3 & T & El & Es & Er & En & Eb & HLt & ET & _).
  rewrite EP in EP3. injection EP3 as <- <-. exists (removelast b ++ [init_bounds None false]), f. split; [auto|]. rewrite ER. clear ER.
  pose proof HI as [iD ifp irect iks ine].
  pose proof (t_rect _ _ _ T) as TR. pose proof (t_ne _ _ _ T) as TN. pose proof (t_len _ _ _ T) as TL.
  unfold gp_init. rewrite TL, Nat.eqb_refl. cbn [negb is_some]. rewrite (rectangular_ncols _ D TR TN), EP2. cbn [bind fst snd].
  pose proof E as E'. unfold gp_init in E'. rewrite HLt, Nat.eqb_refl in E'. cbn [negb is_some] in E'.
  rewrite (rectangular_ncols _ D irect ifp), EP in E'. cbn [bind fst snd] in E'. subst sopt.
  unfold update_data in E' |- *. cbn [g_nd g_scale g_scaling g_kernels g_reg g_grad g_log g_bounds g_lml option_map] in E' |- *.
  rewrite (rectangular_ncols _ D irect ifp), Nat.eqb_refl in E'. rewrite (rectangular_ncols _ D TR TN), Nat.eqb_refl. cbn [negb bind] in E' |- *.
  assert (X : exists cv ci sc, get_covariance ks' false (g_fp s) None (Some reg) false = Ok cv /\ inv cv = Ok ci /\
     update_lml cho cho_solve (GP D reg false sdata false ks' b sc (g_fp s) (g_target s) ci None) = Ok s).
  { unfold train_data in ET. destruct sdata.
    - destruct (scale_train fp tgt) as [[sd f1] t1]. injection ET as E1 E2 E3. cbn [bind] in E'. rewrite <- E2, <- E3 in E'.
      destruct (get_covariance ks' false (g_fp s) None (Some reg) false) as [cv|]; [|discriminate]. cbn [bind] in E'.
      destruct (inv cv) as [ci|] eqn:Ei; [|discriminate]. cbn [bind] in E'. eauto 6.
    - injection ET as E1 E2 E3. cbn [bind] in E'. rewrite <- E2, <- E3 in E'.
      destruct (get_covariance ks' false (g_fp s) None (Some reg) false) as [cv|]; [|discriminate]. cbn [bind] in E'.
      destruct (inv cv) as [ci|] eqn:Ei; [|discriminate]. cbn [bind] in E'. eauto 6. }
  destruct X as (cv & ci & sc & X1 & X2 & X3). rewrite X1. cbn [bind]. rewrite X2. cbn [bind].
  unfold update_lml in X3 |- *. cbn [g_nd g_reg g_log g_scale g_grad g_kernels g_bounds g_scaling g_fp g_target g_cinv g_lml] in X3 |- *.
  match type of X3 with bind ?x _ = _ => destruct x as [th|] end; [|discriminate]. cbn [bind] in X3 |- *.
  match type of X3 with bind ?x _ = _ => destruct x as [r|] end; [|discriminate]. cbn [bind] in X3 |- *.
  injection X3 as <-. reflexivity.
Qed.
End Trip.

(** ** C48 *)

(** What a model must be like for its file to be as good as the model: no scaled data,
    no logarithmic parameters, no gradients, no bounds given for single kernels, at
    most ten kernels, none quadratic or with one parameter for all features.  The
    model that is read then has the same data, kernels, noise, covariance and
    likelihood and differs from the one written at most in the bounds for the
    optimizer; every kind of prediction is the same. *)
Theorem hdf5_round_trip_partial : forall inv cho cho_solve D fp tgt ks reg rb s,
  oracles_ok inv cho -> inputs_ok D fp ks ->
  Forall not_quadratic ks -> Forall not_single ks ->
  Forall (fun k => k_bounds k = None /\ k_scaling_bounds k = None) ks -> (length ks <= 10)%nat ->
  gp_init inv cho cho_solve fp tgt ks None reg rb false false = Ok s ->
  exists f s', gp_write s = Ok f /\ gp_read inv cho cho_solve f = Ok s' /\
    g_fp s' = fp /\ g_target s' = tgt /\ g_kernels s' = g_kernels s /\ g_reg s' = reg /\ g_lml s' = g_lml s /\
    (rb = None -> s' = s) /\
    forall test, predict s' test = predict s test /\ predict_with_uncertainty s' test = predict_with_uncertainty s test /\
      predict_uncertainty s' test = predict_uncertainty s test.
Proof.
  intros inv cho cho_solve D fp tgt ks reg rb s HO HI HQ HS HB HL E.
  assert (HW : forallb savable ks = true).
  { apply forallb_forall. intros k Hk. rewrite Forall_forall in HB. destruct (HB k Hk) as [B1 B2]. unfold savable. rewrite B1, B2. auto. }
  destruct (read_model inv cho cho_solve HO D fp tgt ks reg rb false false s HI HQ HS HW HL E eq_refl) as [b [f [EW ER]]].
  destruct (init_facts _ _ _ HO _ _ _ _ _ _ _ _ _ HI E) as (ks' & b' & EP & T & El & Es & Er & En & Eb & _ & ET & _).
  cbn in ET. injection ET as E1 E2 E3.
  exists f, (without_scaling s b). split; [auto|]. split; [auto|]. cbn [without_scaling g_fp g_target g_kernels g_reg g_lml].
  split; [auto|]. split; [auto|]. split; [auto|]. split; [auto|]. split; [auto|]. split.
  - intros ->. destruct (read_written inv cho cho_solve HO D fp tgt ks reg None false false s HI HQ HS HW HL E) as (k2 & b2 & f2 & EP2 & EK & EW2 & EP3 & ER2 & _).
    rewrite EP in EP2. injection EP2 as <- <-. rewrite EW in EW2. injection EW2 as <-. rewrite ER2 in ER.
    pose proof (EP3 None) as EP4.
    assert (Q : b = b').
    { unfold gp_init in ER. rewrite (t_len _ _ _ T), Nat.eqb_refl in ER. cbn [negb is_some] in ER.
      rewrite (rectangular_ncols _ D (t_rect _ _ _ T) (t_ne _ _ _ T)), EP4 in ER. cbn [bind fst snd] in ER.
      unfold prepare_kernels in EP. destruct (prepare_loop ks D (default_bound false)) as [[k1 b1]|]; [|discriminate].
      cbn [bind fst snd] in EP. injection EP as _ EP. rewrite <- EP, removelast_last in ER.
      unfold update_data, update_lml in ER. cbn [g_nd g_scale g_scaling g_kernels g_reg g_grad g_log g_bounds g_lml option_map] in ER.
      match type of ER with (if ?x then _ else _) = _ => destruct x end; [discriminate|]. cbn [bind] in ER.
      match type of ER with bind ?x _ = _ => destruct x end; [|discriminate]. cbn [bind] in ER.
      match type of ER with bind ?x _ = _ => destruct x end; [|discriminate]. cbn [bind] in ER.
      match type of ER with bind ?x _ = _ => destruct x end; [|discriminate]. cbn [bind] in ER.
      match type of ER with bind ?x _ = _ => destruct x end; [|discriminate]. cbn [bind] in ER.
      apply (f_equal (fun r => match r with Ok g => g_bounds g | Err _ => [] end)) in ER. cbn in ER. rewrite <- ER. auto. }
    unfold without_scaling. rewrite Q, <- Eb. destruct s. cbn in *. congruence.
  - intros test. unfold predict, predict_with_uncertainty, predict_uncertainty, scale_test, test_covariance, make_prediction, rescale, finish_uncertainty, without_scaling.
    cbn [g_scale g_scaling g_kernels g_log g_fp g_grad g_cinv g_target g_reg]. rewrite Es. auto.
Qed.
Print Assumptions hdf5_round_trip_partial.

(** A model with scaled data comes back as the model of the scaled data: its
    predictions for scaled features are the scaled predictions. *)
Theorem hdf5_scaled_model_partial : forall inv cho cho_solve D fp tgt ks reg rb s,
  oracles_ok inv cho -> inputs_ok D fp ks ->
  Forall not_quadratic ks -> Forall not_single ks ->
  Forall (fun k => k_bounds k = None /\ k_scaling_bounds k = None) ks -> (length ks <= 10)%nat ->
  gp_init inv cho cho_solve fp tgt ks None reg rb false true = Ok s ->
  exists f s' sd, gp_write s = Ok f /\ gp_read inv cho cho_solve f = Ok s' /\ g_scaling s = Some sd /\
    forall test, predict s test =
      bind (predict s' (PrepModel.sd_test sd test)) (fun p => Ok (map (fun x => x * PrepModel.t_std sd + PrepModel.t_mean sd) p)).
Proof.
  intros inv cho cho_solve D fp tgt ks reg rb s HO HI HQ HS HB HL E.
  assert (HW : forallb savable ks = true).
  { apply forallb_forall. intros k Hk. rewrite Forall_forall in HB. destruct (HB k Hk) as [B1 B2]. unfold savable. rewrite B1, B2. auto. }
  destruct (read_model inv cho cho_solve HO D fp tgt ks reg rb false true s HI HQ HS HW HL E eq_refl) as [b [f [EW ER]]].
  destruct (init_facts _ _ _ HO _ _ _ _ _ _ _ _ _ HI E) as (ks' & b' & EP & T & El & Es & Er & En & Eb & _ & ET & _).
  unfold train_data in ET. destruct (scale_train fp tgt) as [[sd f1] t1]. injection ET as E1 E2 E3.
  exists f, (without_scaling s b), sd. split; [auto|]. split; [auto|]. split; [auto|].
  intros test. unfold predict, scale_test, test_covariance, make_prediction, rescale, without_scaling.
  cbn [g_scale g_scaling g_kernels g_log g_fp g_grad g_cinv g_target g_reg]. rewrite Es, E1.
  destruct (get_covariance _ _ _ _ _ _) as [K|]; [|reflexivity]. cbn [bind].
  destruct (dot_vec (g_cinv s) (g_target s)) as [a|]; [|reflexivity]. cbn [bind].
  destruct (dot_vec K a); reflexivity.
Qed.
Print Assumptions hdf5_scaled_model_partial.

(** ** C48: models that do not come back *)

Lemma boxed_hyper k : k_hyper (boxed k) = k_hyper k.
Proof. unfold boxed. destruct (k_type k) as [[]|]; auto; destruct (k_degree k) as [[]|]; auto. Qed.
Lemma boxed_bounds k : k_bounds (boxed k) = k_bounds k.
Proof. unfold boxed. destruct (k_type k) as [[]|]; auto; destruct (k_degree k) as [[]|]; auto. Qed.
Lemma boxed_scaling_bounds k : k_scaling_bounds (boxed k) = k_scaling_bounds k.
Proof. unfold boxed. destruct (k_type k) as [[]|]; auto; destruct (k_degree k) as [[]|]; auto. Qed.

Lemma prepare_keeps ks nd d : forall ks' b, prepare_loop ks nd d = Ok (ks', b) ->
  Forall2 (fun k k' => k_hyper k' = k_hyper k /\ k_bounds k' = k_bounds k /\ k_scaling_bounds k' = k_scaling_bounds k) ks ks'.
Proof.
  induction ks as [|k ks IH]; intros ks' b H; cbn [prepare_loop] in H; [injection H as <- _; constructor|].
  destruct (prepare_kernel k nd d) as [[k1 b1]|] eqn:Ek; [|discriminate]. cbn [bind fst snd] in H.
  destruct (prepare_loop ks nd d) as [[ks2 b2]|]; [|discriminate]. cbn [bind fst snd] in H. injection H as <- <-.
  constructor; [|eauto]. clear IH. unfold prepare_kernel in Ek. destruct (k_type k) as [t|]; [|discriminate].
  apply require_ok in Ek. destruct Ek as [_ Ek]. apply require_ok in Ek. destruct Ek as [_ Ek].
  match type of Ek with bind ?x _ = _ => destruct x end; [|discriminate]. cbn [bind] in Ek.
  match type of Ek with bind (type_setup _ _ ?c _) _ = _ => set (c0 := c) in * end.
  destruct (type_setup t k c0 d) as [[k2 b3]|] eqn:Et; [|discriminate]. cbn [bind fst snd] in Ek. injection Ek as -> _.
  destruct t; cbn [type_setup] in Et; try discriminate.
  - apply require_ok in Et. destruct Et as [_ Et]. destruct (k_const k); [|discriminate]. injection Et as <- _. auto.
  - apply require_ok in Et. destruct Et as [_ Et]. injection Et as <- _. auto.
  - apply require_ok in Et. destruct Et as [_ Et]. injection Et as <- _. auto.
  - destruct (k_width k); [|discriminate]. apply require_ok in Et. destruct Et as [_ Et].
    destruct (format_vec v c0); [|discriminate]. cbn [bind] in Et. apply require_ok in Et. destruct Et as [_ Et]. injection Et as <- _. auto.
  - destruct (k_slope k); [|discriminate]. destruct (k_degree k); [|discriminate]. apply require_ok in Et. destruct Et as [_ Et].
    destruct (format_vec v c0); [|discriminate]. injection Et as <- _. auto.
  - destruct (k_width k); [|discriminate]. apply require_ok in Et. destruct Et as [_ Et].
    destruct (format_vec v c0); [|discriminate]. injection Et as <- _. auto.
  - injection Et as <- _. auto.
  - injection Et as <- _. auto.
Qed.

(** Features 0 and 2, targets 0 and 2, scaled data: the model predicts 1 between the
    two points, the model that was read predicts 2/3. *)
Theorem hdf5_scaled_model_refuted : forall inv cho cho_solve, oracles_ok inv cho -> oracles_total inv cho ->
  exists s f s', gp_init inv cho cho_solve [[0]; [2]] [0; 2] [bare KLinear] None 1 None false true = Ok s /\
    gp_write s = Ok f /\ gp_read inv cho cho_solve f = Ok s' /\
    predict s [[1]] = Ok [1] /\ predict s' [[1]] = Ok [2 / 3].
Proof.
  intros inv cho cho_solve HO HC. destruct (concrete_linear inv cho cho_solve HO HC) as [s E].
  assert (HI : inputs_ok 1 [[0]; [2]] [bare KLinear]).
  { constructor; try discriminate; auto; repeat constructor; cbn; auto; discriminate. }
  assert (HT : test_ok 1 [[1]]) by (split; [discriminate|repeat constructor]).
  destruct (read_model inv cho cho_solve HO 1 [[0]; [2]] [0; 2] [bare KLinear] 1 None false true s HI) as [b [f [EW ER]]]; auto;
    try (repeat constructor; cbn; discriminate); try (cbn; lia); try (constructor; [discriminate|constructor]).
  exists s, f, (without_scaling s b). split; [auto|]. split; [auto|]. split; [auto|].
  destruct (init_facts _ _ _ HO _ _ _ _ _ _ _ _ _ HI E) as (ks' & b' & EP & T & El & Es & Er & En & Eb & _ & ET & _).
  destruct (init_test _ _ _ HO _ _ _ _ _ _ _ _ _ HI E _ HT) as [N1 [R1 _]]. destruct HT as [TN TR].
  unfold train_data in ET. rewrite scaled_linear in ET. injection ET as E1 E2 E3. cbn in EP. injection EP as <- <-.
  assert (KL : forall x y, kappa [bare KLinear] false [x] [y] = x * y) by (intros; cbn; ring).
  pose proof (t_inv _ _ _ T) as V. rewrite E2, El, Er in V. cbn [length] in V.
  assert (T' : trained (without_scaling s b) [bare KLinear] 1) by (destruct T; constructor; auto).
  assert (W : forall j, (j < 2)%nat -> mulv 2 (at_ (g_cinv s)) (fun i => nth i [-1; 1] 0) j = nth j [-1; 1] 0 / 3).
  { apply (mulv_inverse' _ _ _ (fun i => nth i [-1; 1] 0 / 3)) in V as V'.
    intros j Hj. etransitivity; [|exact (V' j Hj)]. apply mulv_ext; [apply eqm_refl| |auto].
    intros i Hi. unfold mulv. cbn [Sum]. unfold row_at, ident, logged.
    destruct i as [|[|i]]; [| |lia]; cbn [nth Nat.eqb]; rewrite !KL; cbn; lra. }
  assert (W2 : forall j, (j < 2)%nat -> weights s j = nth j [-1; 1] 0 / 3).
  { intros j Hj. rewrite <- (W j Hj). unfold weights. rewrite E2, E3. reflexivity. }
  split.
  - rewrite (predict_trained s _ 1 T) by auto.
    assert (ST : scale_test s [[1]] = [[0]]).
    { unfold scale_test. rewrite Es, E1. cbn. repeat (f_equal; try lra). }
    rewrite ST. unfold rescale. rewrite Es, E1, E2, El. unfold tabulate. cbn [length seq map PrepModel.t_std PrepModel.t_mean Sum].
    rewrite !W2 by lia. unfold row_at. cbn [nth]. rewrite !KL. f_equal. f_equal. lra.
  - assert (W3 : forall j, (j < 2)%nat -> weights (without_scaling s b) j = nth j [-1; 1] 0 / 3) by exact W2.
    rewrite (predict_trained _ _ 1 T') by auto. change (g_fp (without_scaling s b)) with (g_fp s). change (g_log (without_scaling s b)) with (g_log s).
    change (scale_test (without_scaling s b) [[1]]) with [[1]]. rewrite E2, El. unfold tabulate. cbn [length seq map Sum].
    rewrite !W3 by lia. unfold row_at. cbn [nth]. rewrite !KL. cbn. f_equal. f_equal. lra.
Qed.
Print Assumptions hdf5_scaled_model_refuted.

(** A model with scale_optimizer=True comes back with the logarithms of its
    parameters in place of the parameters. *)
Theorem hdf5_scale_optimizer_refuted : forall inv cho cho_solve y, oracles_ok inv cho -> oracles_total inv cho ->
  exists s f s', gp_init inv cho cho_solve [[0]] [y] [gaussian [1]] None 1 None true false = Ok s /\
    gp_write s = Ok f /\ gp_read inv cho cho_solve f = Ok s' /\
    predict s [[0]] = Ok [y / (1 + exp 1)] /\ predict s' [[0]] = Ok [y / 2].
Proof.
  intros inv cho cho_solve y HO HC.
  destruct (update_default_scale_refuted inv cho cho_solve y HO HC) as (s & _ & E & _ & EP1 & _).
  pose proof HO as [SI SC]. pose proof HC as [CI CC]. destruct prepare_gauss as [bb PG].
  assert (HU : Forall (usable 1) [gaussian [1]]) by (repeat constructor; cbn; auto; discriminate).
  assert (HI : inputs_ok 1 [[0]] [gaussian [1]]) by (constructor; auto; try discriminate; repeat constructor).
  destruct (read_written inv cho cho_solve HO 1 [[0]] [y] [gaussian [1]] 1 None true false s HI) as (ks' & b & f & EP & EK & EW & EP2 & ER & HU2); auto;
    try (cbn; lia); try (constructor; [discriminate|constructor]).
  rewrite PG in EP. injection EP as <- <-.
  destruct (init_facts _ _ _ HO _ _ _ _ _ _ _ _ _ HI E) as (ks' & b' & EP3 & T & El & Es & Er & En & Eb & _ & ET & _).
  rewrite PG in EP3. injection EP3 as <- <-. cbn in ET. injection ET as Esc Ef Et. rewrite Ef, Et in ER.
  destruct (gp_init_ok inv cho cho_solve SI [[0]] [y] (map load_kernel [gaussian [1]]) 1 None false false 1 [gaussian [1]] _ CI CC (EP2 None) HU2) as [s' E'];
    try discriminate; auto; [repeat constructor|repeat constructor; cbn; auto; discriminate|cbn; lra|].
  exists s, f, s'. split; [auto|]. split; [auto|]. split; [rewrite ER; auto|]. split; [auto|].
  assert (HI2 : inputs_ok 1 [[0]] (map load_kernel [gaussian [1]])) by (constructor; auto; try discriminate; repeat constructor).
  destruct (init_facts _ _ _ HO _ _ _ _ _ _ _ _ _ HI2 E') as (k2 & b2 & EP4 & T' & El' & Es' & Er' & En' & Eb' & _ & ET' & _).
  rewrite (EP2 None) in EP4. injection EP4 as <- <-. cbn in ET'. injection ET' as Esc' Ef' Et'.
  assert (KG : kappa [gaussian [1]] false [0] [0] = 1).
  { rewrite kappa_gauss. reflexivity. }
  apply (predict_1 s' 1 [gaussian [1]] [0] [0] y); auto; try (apply (t_grad _ _ _ T')).
  - apply (t_kernels _ _ _ T').
  - apply (t_eval _ _ _ T').
  - discriminate.
  - rewrite (t_nr _ _ _ T'), Ef'. auto.
  - rewrite (t_nc _ _ _ T'), Ef'. auto.
  - pose proof (t_inv _ _ _ T') as V. rewrite Ef', El', Er' in V. cbn [length] in V. unfold row_at, logged, ident in V. cbn [nth] in V.
    apply inverse_1 in V; rewrite ?KG in *; cbn [Nat.eqb] in *; [|lra]. rewrite El', KG, V. field.
Qed.
Print Assumptions hdf5_scale_optimizer_refuted.

(** A model trained with gradients is written without complaint and cannot be read. *)
Theorem hdf5_gradient_model_refuted : forall inv cho cho_solve D fp tgt G ks reg rb sopt sdata s,
  oracles_ok inv cho -> inputs_ok D fp ks -> Forall (fun k => k_bounds k = None /\ k_scaling_bounds k = None) ks ->
  concat G <> [] -> Forall (fun k => k_hyper k = None) ks ->
  gp_init inv cho cho_solve fp tgt ks (Some G) reg rb sopt sdata = Ok s ->
  exists f, gp_write s = Ok f /\ gp_read inv cho cho_solve f = Err AssertionError.
Proof.
  intros inv cho cho_solve D fp tgt G ks reg rb sopt sdata s [SI _] [iD ifp irect iks ine] HB HG HH E.
  destruct (gp_init_grad inv cho cho_solve SI _ _ _ _ _ _ _ _ _ _ E iks ine iD ifp irect)
    as (ks' & b & K & EP & HE & NE & EK & El & Es & Er & Eg & ET & HL & _).
  unfold prepare_kernels in EP. destruct (prepare_loop ks D (default_bound true)) as [[k1 b1]|] eqn:EL; [|discriminate].
  cbn [bind fst snd] in EP. injection EP as -> _. pose proof (prepare_keeps _ _ _ _ _ EL) as KP.
  assert (A : Forall (fun k => k_hyper k = None /\ k_bounds k = None /\ k_scaling_bounds k = None) (g_kernels s)).
  { rewrite EK. apply Forall_map. clear -KP HB HH. induction KP as [|k k' t t' [P1 [P2 P3]] _ IH]; [constructor|].
    apply Forall_cons_iff in HB as [[B1 B2] HB]. apply Forall_cons_iff in HH as [H1 HH]. constructor; [|auto].
    rewrite boxed_hyper, boxed_bounds, boxed_scaling_bounds. rewrite P1, P2, P3. auto. }
  exists (H5 (g_fp s) (g_target s) (g_reg s) (kernel_group (g_kernels s))). split.
  - unfold gp_write. replace (forallb savable (g_kernels s)) with true; auto. symmetry. apply forallb_forall. intros k Hk.
    rewrite Forall_forall in A. destruct (A k Hk) as [_ [B1 B2]]. unfold savable. rewrite B1, B2. auto.
  - unfold gp_read. cbn [h_kernels h_fp h_target h_reg].
    destruct (saved_kernels_all_return (g_kernels s)) as [kl [EKL PL]]. { rewrite EK. destruct ks'; [congruence|discriminate]. }
    rewrite EKL. cbn [bind].
    replace (existsb (fun k => is_some (k_hyper k)) kl) with false.
    2:{ symmetry. apply not_true_iff_false. intros X. apply existsb_exists in X as [k [Hk Hs]].
        apply (Permutation_in _ PL) in Hk. apply in_map_iff in Hk as [k0 [<- Hk0]]. rewrite Forall_forall in A.
        cbn [load_kernel k_hyper] in Hs. destruct (A k0 Hk0) as [B _]. rewrite B in Hs. discriminate. }
    unfold gp_init. replace (length (g_fp s) =? length (g_target s))%nat with false; auto. symmetry. apply Nat.eqb_neq.
    assert (LG : (1 <= length (concat G))%nat) by (destruct (concat G); [congruence|cbn; lia]).
    unfold grad_data in ET. destruct sdata.
    + pose proof (scale_train_shape fp tgt D ifp irect) as Q. destruct (scale_train fp tgt) as [[sd f1] t1]. injection ET as _ -> ->.
      destruct Q as [_ [_ [Q1 [Q2 _]]]]. rewrite app_length, Q1, Q2.
      assert (LS : length (concat (scale_gradients sd G)) = length (concat G)).
      { clear. unfold scale_gradients. induction G as [|g G IH]; cbn; auto. rewrite !app_length, tabulate_length, IH. auto. }
      lia.
    + injection ET as _ -> ->. rewrite app_length. lia.
Qed.
Print Assumptions hdf5_gradient_model_refuted.

(** A model with bounds for the parameters of some kernel cannot be written. *)
Theorem hdf5_bounds_refuted : forall inv cho cho_solve D fp tgt ks reg rb sopt sdata s k,
  oracles_ok inv cho -> inputs_ok D fp ks -> In k ks -> k_bounds k <> None \/ k_scaling_bounds k <> None ->
  gp_init inv cho cho_solve fp tgt ks None reg rb sopt sdata = Ok s -> gp_write s = Err ValueError.
Proof.
  intros inv cho cho_solve D fp tgt ks reg rb sopt sdata s k HO HI Hk HB E.
  destruct (init_facts _ _ _ HO _ _ _ _ _ _ _ _ _ HI E) as (ks' & b & EP & T & _).
  unfold prepare_kernels in EP. destruct (prepare_loop ks D (default_bound false)) as [[k1 b1]|] eqn:EL; [|discriminate].
  cbn [bind fst snd] in EP. injection EP as -> _. pose proof (prepare_keeps _ _ _ _ _ EL) as KP.
  assert (X : exists k', In k' ks' /\ k_bounds k' = k_bounds k /\ k_scaling_bounds k' = k_scaling_bounds k).
  { clear -KP Hk. induction KP as [|k1 k2 t t' [_ [P2 P3]] _ IH]; [destruct Hk|]. destruct Hk as [->|Hk].
    - exists k2. cbn. auto.
    - destruct (IH Hk) as [k' [? ?]]. exists k'. cbn. auto. }
  destruct X as [k' [I1 [I2 I3]]]. unfold gp_write. rewrite (t_kernels _ _ _ T).
  replace (forallb savable (map boxed ks')) with false; auto. symmetry. apply not_true_iff_false. intros X.
  rewrite forallb_forall in X. specialize (X (boxed k') (in_map _ _ _ I1)). unfold savable in X.
  rewrite boxed_bounds, boxed_scaling_bounds, I2, I3 in X. destruct (k_bounds k), (k_scaling_bounds k); cbn in X; destruct HB; congruence.
Qed.
Print Assumptions hdf5_bounds_refuted.

(** A gaussian kernel with one width for two features comes back with two widths. *)
Definition single (w : R) : kdict := KD (Some KGaussian) false None (Some Single) None true None None (Some (Num w)) None None None None false.

Theorem hdf5_single_refuted : forall w, 0 < w -> exists ks b ks2 b2, prepare_kernels [single w] (init_bounds None false) false 2 = Ok (ks, b) /\
  prepare_kernels (map load_kernel ks) (init_bounds None false) false 2 = Ok (ks2, b2) /\
  kdicts2list ks 2 = Ok [w] /\ kdicts2list ks2 2 = Ok [w; w] /\ length b = 2%nat /\ length b2 = 3%nat.
Proof.
  intros w Hw. unfold prepare_kernels. cbn. replace (Rltb 0 w) with true by (symmetry; apply Rltb_true; auto). cbn.
  eexists. eexists. eexists. eexists. split; [reflexivity|]. cbn.
  replace (Rltb 0 w) with true by (symmetry; apply Rltb_true; auto). cbn. split; [reflexivity|]. auto.
Qed.
Print Assumptions hdf5_single_refuted.

(** The order matters: ten constants 1 and a factor of 2 are 20, with the factor moved to
    the third place they are 12. *)
Definition const_kernel (mult : bool) (c : R) : kdict := KD (Some KConstant) mult None None None true None None None (Some c) None None None false.

Lemma const_step x m c ks a : nr a = 1%nat -> nc a = 1%nat ->
  exists a', cov_loop (const_kernel m c :: ks) false false [[x]] None (Some a) = cov_loop ks false false [[x]] None (Some a') /\
    nr a' = 1%nat /\ nc a' = 1%nat /\ at_ a' 0 0 = if m then at_ a 0 0 * c else at_ a 0 0 + c.
Proof.
  intros N1 N2. cbn [cov_loop]. cbn -[accumulate cov_loop]. unfold accumulate. cbn [nr nc at_]. rewrite N1, N2. cbn [Nat.eqb andb bind].
  eexists. split; [reflexivity|]. split; [reflexivity|]. split; [reflexivity|]. cbn [at_]. destruct m; ring.
Qed.

Lemma const_chain x l : forall a, nr a = 1%nat -> nc a = 1%nat ->
  exists a', cov_loop (map (fun p : bool * R => const_kernel (fst p) (snd p)) l) false false [[x]] None (Some a) = Ok (Some a') /\
    at_ a' 0 0 = fold_left (fun (v : R) (p : bool * R) => if fst p then v * snd p else v + snd p) l (at_ a 0 0).
Proof.
  induction l as [|[m c] l IH]; intros a N1 N2; cbn [map fst snd fold_left].
  - exists a. auto.
  - destruct (const_step x m c (map (fun p : bool * R => const_kernel (fst p) (snd p)) l) a N1 N2) as [a1 [E [M1 [M2 M3]]]].
    rewrite E. destruct (IH a1 M1 M2) as [a2 [E2 V]]. exists a2. rewrite V, M3. auto.
Qed.

Lemma const_covariance x l : l <> [] -> exists C, get_covariance (map (fun p : bool * R => const_kernel (fst p) (snd p)) l) false [[x]] None None false = Ok C /\
    at_ C 0 0 = fold_left (fun (v : R) (p : bool * R) => if fst p then v * snd p else v + snd p) l 0.
Proof.
  intros H. destruct (const_chain x l (Mx 1 1 (fun _ _ => 0)) eq_refl eq_refl) as [a [E V]].
  exists a. split; [|exact V]. unfold get_covariance. cbn [require bind].
  destruct l as [|[m c] l]; [congruence|]. cbn [map fst snd] in *. cbn [cov_loop] in *. cbn -[accumulate cov_loop] in *. rewrite E. reflexivity.
Qed.

Theorem hdf5_order_matters_refuted : exists ks ks', length ks = 11%nat /\ load_kernels (kernel_group ks) = Ok ks' /\
  forall x, exists C C', get_covariance ks false [[x]] None None false = Ok C /\ get_covariance ks' false [[x]] None None false = Ok C' /\
    at_ C 0 0 = 20 /\ at_ C' 0 0 = 12.
Proof.
  exists (map (fun p : bool * R => const_kernel (fst p) (snd p)) (repeat (false, 1) 10 ++ [(true, 2)])),
    (map (fun p : bool * R => const_kernel (fst p) (snd p)) ([(false, 1); (false, 1); (true, 2)] ++ repeat (false, 1) 8)).
  split; [reflexivity|]. split; [reflexivity|].
  intros x. destruct (const_covariance x (repeat (false, 1) 10 ++ [(true, 2)])) as [C [E V]]; [discriminate|].
  destruct (const_covariance x ([(false, 1); (false, 1); (true, 2)] ++ repeat (false, 1) 8)) as [C' [E' V']]; [discriminate|].
  exists C, C'. split; [exact E|]. split; [exact E'|]. rewrite V, V'. cbn. lra.
Qed.
Print Assumptions hdf5_order_matters_refuted.

(** Two points, a gaussian and a linear kernel. *)
Example round_trip_case : forall inv cho cho_solve, oracles_ok inv cho -> oracles_total inv cho ->
  exists s f, gp_init inv cho cho_solve [[0]; [2]] [0; 2] [gaussian [1]; bare KLinear] None 1 None false false = Ok s /\
    gp_write s = Ok f /\ gp_read inv cho cho_solve f = Ok s.
Proof.
  intros inv cho cho_solve HO [CI CC]. pose proof HO as [SI SC].
  assert (PG : exists b, prepare_kernels [gaussian [1]; bare KLinear] (init_bounds None false) false 1 = Ok ([gaussian [1]; bare KLinear], b)).
  { unfold prepare_kernels. cbn. replace (Rltb 0 1) with true by (symmetry; apply Rltb_true; lra). eexists. reflexivity. }
  destruct PG as [b PG].
  assert (HU : Forall (usable 1) [gaussian [1]; bare KLinear]) by (repeat constructor; cbn; auto; discriminate).
  destruct (gp_init_ok inv cho cho_solve SI [[0]; [2]] [0; 2] [gaussian [1]; bare KLinear] 1 None false false 1 _ b CI CC PG HU) as [s E];
    try discriminate; auto; [repeat constructor|repeat constructor; cbn; auto; discriminate|cbn; lra|].
  assert (HI : inputs_ok 1 [[0]; [2]] [gaussian [1]; bare KLinear]) by (constructor; auto; try discriminate; repeat constructor).
  destruct (hdf5_round_trip_partial inv cho cho_solve 1 [[0]; [2]] [0; 2] [gaussian [1]; bare KLinear] 1 None s HO HI)
    as (f & s' & W & Rd & _ & _ & _ & _ & _ & Q & _); auto; try (cbn; lia); try (repeat constructor; cbn; auto; discriminate).
  exists s, f. rewrite Q in Rd by auto. auto.
Qed.
