(** Properties of updating, scaling and using Gaussian process models. *)
From Coq Require Import Reals Lra Lia List Arith Bool Permutation.
From Verif Require Import Base BaseFacts RBase LinAlg LogDet KernModel KernProofs KernSetupProofs KernDefProofs
  KernScaleProofs KernEntryProofs KernProperties GPModel GPProofs GPMoreProofs GPProperties GPUpdateProofs.
From Verif Require PrepModel PrepProofs.
Import ListNotations.
Open Scope R_scope.

(** ** C46: ways of asking for uncertainty *)

(** Without scaled data the two methods return the same. *)
Theorem uncertainty_methods_agree_partial : forall inv cho cho_solve D fp tgt ks reg rb sopt s test,
  oracles_ok inv cho -> inputs_ok D fp ks -> test_ok D test ->
  gp_init inv cho cho_solve fp tgt ks None reg rb sopt false = Ok s ->
  exists u, predict_with_uncertainty s test = Ok u /\ predict_uncertainty s test = Ok u.
Proof.
  intros inv cho cho_solve D fp tgt ks reg rb sopt s test HO HI HT E.
  destruct (init_facts _ _ _ HO _ _ _ _ _ _ _ _ _ HI E) as (ks' & b & EP & T & El & Es & _).
  destruct (init_test _ _ _ HO _ _ _ _ _ _ _ _ _ HI E test HT) as [N1 [R1 _]]. destruct HT as [TN TR].
  rewrite (uncertainty_trained s ks' D test T N1 R1), (predict_uncertainty_trained s ks' D test T TN TR).
  assert (ST : scale_test s test = test) by (unfold scale_test; rewrite Es; auto). rewrite ST. eauto.
Qed.
Print Assumptions uncertainty_methods_agree_partial.

(** With scaled data they agree when the caller of predict_uncertainty scales the test
    features. *)
Theorem uncertainty_methods_scaled_partial : forall inv cho cho_solve D fp tgt ks reg rb sopt s test,
  oracles_ok inv cho -> inputs_ok D fp ks -> test_ok D test ->
  gp_init inv cho cho_solve fp tgt ks None reg rb sopt true = Ok s ->
  exists sd u, g_scaling s = Some sd /\ predict_with_uncertainty s test = Ok u /\
    predict_uncertainty s (PrepModel.sd_test sd test) = Ok u.
Proof.
  intros inv cho cho_solve D fp tgt ks reg rb sopt s test HO HI HT E.
  destruct (init_facts _ _ _ HO _ _ _ _ _ _ _ _ _ HI E) as (ks' & b & EP & T & El & Es & _ & _ & _ & _ & ET & _).
  destruct (init_test _ _ _ HO _ _ _ _ _ _ _ _ _ HI E test HT) as [N1 [R1 _]].
  unfold train_data in ET. destruct (scale_train fp tgt) as [[sd f1] t1]. injection ET as ET1 _ _.
  assert (ST : scale_test s test = PrepModel.sd_test sd test) by (unfold scale_test; rewrite Es, ET1; auto).
  exists sd. rewrite (uncertainty_trained s ks' D test T N1 R1). rewrite ST in *.
  rewrite (predict_uncertainty_trained s ks' D _ T N1 R1). eauto.
Qed.
Print Assumptions uncertainty_methods_scaled_partial.

(** A concrete model: features 0 and 2, targets 0 and 2, a linear kernel, noise 1. *)
Lemma concrete_linear inv cho cho_solve : oracles_ok inv cho -> oracles_total inv cho ->
  exists s, gp_init inv cho cho_solve [[0]; [2]] [0; 2] [bare KLinear] None 1 None false true = Ok s.
Proof.
  intros HO [CI CC]. destruct HO as [SI SC].
  eapply (gp_init_ok inv cho cho_solve SI _ _ _ _ _ _ _ 1%nat [bare KLinear]); eauto; try discriminate; try reflexivity.
  - repeat constructor; cbn; auto; discriminate.
  - repeat constructor.
  - repeat constructor; cbn; auto.
  - cbn. lra.
Qed.

Lemma scaled_linear : scale_train [[0]; [2]] [0; 2] = (PrepModel.mkSD [1] [1] 1 1, [[-1]; [1]], [-1; 1]).
Proof.
  assert (M : mean [0; 2] = 1) by (unfold mean; cbn; lra).
  assert (Sd : std [0; 2] = 1).
  { unfold std, var. rewrite M. unfold mean. cbn. replace ((0 - 1) * ((0 - 1) * 1)) with 1 by lra.
    replace ((2 - 1) * ((2 - 1) * 1)) with 1 by lra. replace ((1 + (1 + 0)) / (1 + 1)) with 1 by lra. apply sqrt_1. }
  unfold scale_train, PrepModel.sd_train, PrepModel.target_standardize. cbn.
  rewrite M, Sd. unfold PrepModel.ndiv. replace (Reqb 1 0) with false by (symmetry; apply Reqb_false; lra).
  repeat (f_equal; try lra).
Qed.

(** The documented default way to ask for the uncertainty of the point 1 gives 0, the
    other method gives the square root of 1/3. *)
Theorem uncertainty_methods_differ_refuted : forall inv cho cho_solve, oracles_ok inv cho -> oracles_total inv cho ->
  exists s u v r r', gp_init inv cho cho_solve [[0]; [2]] [0; 2] [bare KLinear] None 1 None false true = Ok s /\
    predict_with_uncertainty s [[1]] = Ok ([u], r) /\ predict_uncertainty s [[1]] = Ok ([v], r') /\ u = 0 /\ v = sqrt (1 / 3).
Proof.
  intros inv cho cho_solve HO HC. destruct (concrete_linear inv cho cho_solve HO HC) as [s E]. exists s.
  assert (HI : inputs_ok 1 [[0]; [2]] [bare KLinear]).
  { constructor; try discriminate; auto; repeat constructor; cbn; auto; discriminate. }
  assert (HT : test_ok 1 [[1]]) by (split; [discriminate|repeat constructor]).
  destruct (init_facts _ _ _ HO _ _ _ _ _ _ _ _ _ HI E) as (ks' & b & EP & T & El & Es & Er & _ & _ & _ & ET & _).
  destruct (init_test _ _ _ HO _ _ _ _ _ _ _ _ _ HI E _ HT) as [N1 [R1 _]]. destruct HT as [TN TR].
  rewrite (uncertainty_trained s ks' 1 _ T N1 R1), (predict_uncertainty_trained s ks' 1 _ T TN TR).
  unfold train_data in ET. rewrite scaled_linear in ET. injection ET as E1 E2 E3.
  cbn in EP. injection EP as <- <-.
  assert (ST : scale_test s [[1]] = [[0]]).
  { unfold scale_test. rewrite Es, E1. cbn. repeat (f_equal; try lra). }
  rewrite ST. unfold finish_uncertainty. rewrite Es, E1, El. cbn [length tabulate seq map row_at nth PrepModel.t_std].
  assert (KL : forall x y, kappa [bare KLinear] false [x] [y] = x * y) by (intros; cbn; ring).
  unfold row_at. cbn [nth]. rewrite !KL.
  eexists. eexists. eexists. eexists. split; [auto|]. split; [reflexivity|]. split; [reflexivity|].
  pose proof (t_inv _ _ _ T) as V. rewrite E2, El, Er in V. cbn [length] in V.
  split.
  - unfold reduction. rewrite E2, El. cbn [length].
    replace (quad 2 (at_ (g_cinv s)) _) with 0; [rewrite Rmult_1_r; replace (0 * 0 - 0) with 0 by lra; apply sqrt_0|].
    symmetry. unfold quad. apply Sum_zero. intros i Hi. apply Sum_zero. intros j Hj.
    replace (kappa [bare KLinear] false [0] (row_at [[-1]; [1]] i)) with 0; [ring|].
    destruct i as [|[|i]]; [| |lia]; unfold row_at; cbn [nth]; rewrite KL; ring.
  - rewrite Rmult_1_r. f_equal.
    set (k := fun i : nat => match i with O => -1 | S O => 1 | _ => 0 end).
    assert (Rk : reduction s [bare KLinear] [1] = quad 2 (at_ (g_cinv s)) k).
    { unfold reduction. rewrite E2, El. apply quad_ext; [apply eqm_refl|]. intros i Hi.
      destruct i as [|[|i]]; [| |lia]; unfold row_at; cbn [nth]; rewrite KL; cbn; ring. }
    rewrite Rk, quad_dot.
    assert (Bk : eqv 2 (mulv 2 (at_ (g_cinv s)) k) (fun i => k i / 3)).
    { intros i Hi. rewrite <- (mulv_inverse' _ _ _ (fun i => k i / 3) V i Hi). apply mulv_ext; [apply eqm_refl| |auto].
      intros j Hj. unfold mulv. cbn [Sum]. unfold row_at, ident, logged.
      destruct j as [|[|j]]; [| |lia]; cbn [nth Nat.eqb]; rewrite !KL; cbn; lra. }
    rewrite (dotv_ext 2 k k _ (fun i => k i / 3)); [|intros ? ?; auto|exact Bk]. unfold dotv. cbn. lra.
Qed.
Print Assumptions uncertainty_methods_differ_refuted.

(** ** C46: updating *)

(** update_data and update_gp, given new features and targets and the scale_optimizer
    of the model, give exactly the model trained from scratch on the new data. *)
Theorem update_is_retraining_partial : forall inv cho cho_solve D fp tgt ks reg rb sopt sdata s fp2 tgt2 rb',
  oracles_ok inv cho -> inputs_ok D fp ks -> Forall not_quadratic ks ->
  gp_init inv cho cho_solve fp tgt ks None reg rb sopt sdata = Ok s ->
  fp2 <> [] -> Forall (fun r => length r = D) fp2 -> length fp2 = length tgt2 ->
  update_data inv cho cho_solve s fp2 (Some tgt2) None sopt = gp_init inv cho cho_solve fp2 tgt2 ks None reg rb sopt sdata /\
  update_gp inv cho cho_solve s (Some fp2) (Some tgt2) None sopt None rb' = gp_init inv cho cho_solve fp2 tgt2 ks None reg rb sopt sdata.
Proof.
  intros inv cho cho_solve D fp tgt ks reg rb sopt sdata s fp2 tgt2 rb' HO HI HQ E HN HR HL. split.
  - eapply update_data_fresh; eauto.
  - eapply update_gp_fresh; eauto.
Qed.
Print Assumptions update_is_retraining_partial.

(** Any history of updates: only the last data matter. *)
Fixpoint updates (inv cho : matrix -> result matrix) cho_solve (sopt : bool) (s : gp) (h : list (list row * list R)) : result gp :=
  match h with
  | [] => Ok s
  | (f, t) :: h => bind (update_data inv cho cho_solve s f (Some t) None sopt) (fun s' => updates inv cho cho_solve sopt s' h)
  end.

Theorem update_history_no_quadratic : forall inv cho cho_solve D ks reg rb sopt sdata h fp tgt s s' fp2 tgt2,
  oracles_ok inv cho -> inputs_ok D fp ks -> Forall not_quadratic ks ->
  gp_init inv cho cho_solve fp tgt ks None reg rb sopt sdata = Ok s ->
  Forall (fun p => fst p <> [] /\ Forall (fun r => length r = D) (fst p) /\ length (fst p) = length (snd p)) (h ++ [(fp2, tgt2)]) ->
  updates inv cho cho_solve sopt s (h ++ [(fp2, tgt2)]) = Ok s' ->
  gp_init inv cho cho_solve fp2 tgt2 ks None reg rb sopt sdata = Ok s'.
Proof.
  intros inv cho cho_solve D ks reg rb sopt sdata h. induction h as [|[f t] h IH]; intros fp tgt s s' fp2 tgt2 HO HI HQ E HF HU.
  - cbn in *. apply Forall_cons_iff in HF. destruct HF as [[F1 [F2 F3]] _]. cbn in *.
    rewrite (update_data_fresh inv cho cho_solve HO D fp tgt ks reg rb sopt sdata s HI HQ E fp2 tgt2 F1 F2 F3) in HU.
    destruct (gp_init _ _ _ fp2 _ _ _ _ _ _ _); cbn in HU; auto.
  - cbn [app updates] in HU. cbn [app] in HF. apply Forall_cons_iff in HF. destruct HF as [[F1 [F2 F3]] HF]. cbn [fst snd] in *.
    rewrite (update_data_fresh inv cho cho_solve HO D fp tgt ks reg rb sopt sdata s HI HQ E f t F1 F2 F3) in HU.
    destruct (gp_init _ _ _ f _ _ _ _ _ _ _) as [s1|] eqn:E1; [|discriminate]. cbn [bind] in HU.
    assert (HI1 : inputs_ok D f ks) by (destruct HI; constructor; auto).
    eapply IH; eauto.
Qed.
Print Assumptions update_history_no_quadratic.

Lemma quadratic_flat_fails inv cho cho_solve D fp tgt ks reg rb sopt sdata s :
  oracles_ok inv cho -> inputs_ok D fp ks -> ~ Forall not_quadratic ks ->
  gp_init inv cho cho_solve fp tgt ks None reg rb sopt sdata = Ok s ->
  exists e, kdicts2list (g_kernels s) (g_nd s) = Err e.
Proof.
  intros HO HI HQ E.
  destruct (init_facts _ _ _ HO _ _ _ _ _ _ _ _ _ HI E) as (ks' & b & EP & T & El & Es & Er & En & Eb & _ & ET & _).
  rewrite (t_kernels _ _ _ T), En. destruct HI as [_ _ _ HU _]. pose proof (prepare_types _ _ _ _ _ _ EP HU) as Ety.
    assert (HQ' : ~ Forall not_quadratic ks') by (intros Q; apply HQ; eapply not_quadratic_types; [symmetry|]; eauto).
    pose proof (t_eval _ _ _ T) as HE. pose proof (t_ks _ _ _ T) as HN. clear -HQ' HE HN.
    assert (G : exists e, kdicts_loop (map boxed ks') D = Err e).
    { induction ks' as [|k ks' IH]; [exfalso; apply HQ'; constructor|].
      cbn [map]. rewrite kdicts_loop_cons. apply Forall_cons_iff in HE. destruct HE as [HE1 HE2].
      destruct (block (boxed k) D) as [blk|e] eqn:Eb; cbn [bind]; [|eauto].
      destruct (ktype_eqb (match k_type k with Some t => t | None => KOther end) KQuadratic) eqn:Eq.
      - exfalso. destruct HE1 as [_ HE1]. destruct (k_type k) as [t|] eqn:Et; [|discriminate Eq]. destruct t; try discriminate Eq.
        cbv zeta in HE1. destruct HE1 as [Hw [Hh [l [d [Hs [Hd _]]]]]].
        unfold block, kdict2list, get_theta, boxed in Eb. rewrite Et, Hd in Eb. cbn [set_degree k_type k_scaling k_features k_width k_const k_slope k_degree k_hyper] in Eb.
        rewrite Et, Hw, Hs, Hh in Eb. cbn [bind to_list fst snd] in Eb. rewrite floats_app, floats_nums in Eb. cbn in Eb. discriminate.
      - destruct ks' as [|k2 t].
        + exfalso. apply HQ'. constructor; auto. unfold not_quadratic. intros Q. rewrite Q in Eq. discriminate.
        + destruct IH as [e IHe]; [|auto|discriminate|].
          * intros Q. apply HQ'. constructor; auto. unfold not_quadratic. intros Q'. rewrite Q' in Eq. discriminate.
          * rewrite IHe. cbn. eauto. }
    destruct G as [e G]. exists e. unfold kdicts2list. destruct ks' as [|k t]; [congruence|]. exact G.
Qed.

(** A model with a quadratic kernel cannot be updated. *)
Theorem quadratic_update_fails_refuted : forall inv cho cho_solve D fp tgt ks reg rb sopt sdata s fp2 tgt2 sopt2,
  oracles_ok inv cho -> inputs_ok D fp ks -> ~ Forall not_quadratic ks ->
  gp_init inv cho cho_solve fp tgt ks None reg rb sopt sdata = Ok s ->
  exists e, update_data inv cho cho_solve s fp2 (Some tgt2) None sopt2 = Err e.
Proof.
  intros inv cho cho_solve D fp tgt ks reg rb sopt sdata s fp2 tgt2 sopt2 HO HI HQ E.
  pose proof (quadratic_flat_fails _ _ _ _ _ _ _ _ _ _ _ _ HO HI HQ E) as F.
  destruct F as [e F]. unfold update_data.
  destruct (negb (g_nd s =? ncols fp2)%nat); [eauto|].
  match goal with |- context [bind ?x _] => destruct x as [[[[sc f1] t1] gr]|e1] end; cbn [bind]; [|eauto].
  match goal with |- context [bind ?x _] => destruct x as [m|e1] end; cbn [bind]; [|eauto].
  match goal with |- context [bind ?x _] => destruct x as [m2|e1] end; cbn [bind]; [|eauto].
  unfold update_lml. cbn [g_kernels g_nd]. rewrite F. cbn. eauto.
Qed.
Print Assumptions quadratic_update_fails_refuted.

Lemma not_quadratic_dec ks : {Forall not_quadratic ks} + {~ Forall not_quadratic ks}.
Proof. apply Forall_dec. intros k. unfold not_quadratic. destruct (k_type k) as [[]|]; (left; congruence) || (right; congruence). Qed.

(** Only the last update matters, for every kernel list: with quadratic kernels no update
    succeeds. *)
Theorem update_history : forall inv cho cho_solve D ks reg rb sopt sdata h fp tgt s s' fp2 tgt2,
  oracles_ok inv cho -> inputs_ok D fp ks ->
  gp_init inv cho cho_solve fp tgt ks None reg rb sopt sdata = Ok s ->
  Forall (fun p => fst p <> [] /\ Forall (fun r => length r = D) (fst p) /\ length (fst p) = length (snd p)) (h ++ [(fp2, tgt2)]) ->
  updates inv cho cho_solve sopt s (h ++ [(fp2, tgt2)]) = Ok s' ->
  gp_init inv cho cho_solve fp2 tgt2 ks None reg rb sopt sdata = Ok s'.
Proof.
  intros inv cho cho_solve D ks reg rb sopt sdata h fp tgt s s' fp2 tgt2 HO HI E HF HU.
  destruct (not_quadratic_dec ks) as [HQ|HQ]; [eapply update_history_no_quadratic; eauto|]. exfalso.
  assert (H : forall f t, exists e, update_data inv cho cho_solve s f (Some t) None sopt = Err e)
    by (intros; eapply quadratic_update_fails_refuted; eauto).
  destruct h as [|[f t] h]; cbn [app updates] in HU.
  - destruct (H fp2 tgt2) as [e He]. rewrite He in HU. discriminate.
  - destruct (H f t) as [e He]. rewrite He in HU. discriminate.
Qed.
Print Assumptions update_history.

(** update_gp with new features but no targets, or with a new kernel list only, keeps
    the inverse covariance of the old data and kernels. *)
Theorem stale_covariance_refuted : forall inv cho cho_solve s fp2 ks2 sopt rb s2,
  update_gp inv cho cho_solve s fp2 None ks2 sopt None rb = Ok s2 -> g_cinv s2 = g_cinv s.
Proof.
  intros inv cho cho_solve s fp2 ks2 sopt rb s2 H. unfold update_gp in H. cbv zeta in H.
  set (s1 := match fp2 with None => s | Some f => _ end) in H.
  assert (C1 : g_cinv s1 = g_cinv s) by (unfold s1; destruct fp2; auto). clearbody s1.
  match type of H with bind ?x _ = _ => destruct x as [s3|] eqn:E3 end; [|discriminate H]. cbn [bind] in H.
  assert (C3 : g_cinv s3 = g_cinv s1).
  { destruct ks2 as [k|]; [|injection E3 as <-; auto].
    destruct (prepare_kernels k rb (is_some None) (g_nd s1)); [|discriminate]. cbn in E3. injection E3 as <-. auto. }
  unfold update_lml in H.
  destruct (kdicts2list (g_kernels s3) (g_nd s3)); [|discriminate H]. cbn [bind] in H.
  match type of H with bind ?x _ = _ => destruct x as [m|] end; [|discriminate H]. cbn in H. injection H as <-. cbn. congruence.
Qed.
Print Assumptions stale_covariance_refuted.

(** update_data does not know the scale_optimizer of the model: by default it inverts the
    covariance of the unlogged hyperparameters, and predictions use the logged ones.  With
    one training point, a gaussian kernel and reg = 0 the prediction at the training point
    is e times the target instead of e / (e + 1) times. *)
Lemma one_gaussian_ok inv cho cho_solve y : oracles_ok inv cho -> oracles_total inv cho ->
  exists s, gp_init inv cho cho_solve [[0]] [y] [gaussian [1]] None 0 None true false = Ok s.
Proof.
  intros [SI SC] [CI CC].
  eapply (gp_init_ok inv cho cho_solve SI _ _ _ _ _ _ _ 1%nat [gaussian [1]]); eauto; try discriminate; try reflexivity.
  - unfold prepare_kernels. cbn. replace (Rltb 0 1) with true by (symmetry; apply Rltb_true; lra). reflexivity.
  - repeat constructor; cbn; auto; discriminate.
  - repeat constructor.
  - repeat constructor; cbn; auto; discriminate.
  - cbn. pose proof (exp_pos 0). lra.
Qed.

Lemma kappa_gauss b x : kappa [gaussian [1]] b [x] [x] = if b then exp 1 else 1.
Proof.
  unfold kappa. destruct b; cbn; unfold gaussian_fn, sqeuclidean; cbn.
  - replace (x / exp 1 - x / exp 1) with 0 by ring. rewrite ?Rmult_0_l, ?Rmult_0_r, ?Rplus_0_r. rewrite ?Ropp_0, ?Rmult_0_r, ?exp_0. ring.
  - replace (x / 1 - x / 1) with 0 by ring. rewrite ?Rmult_0_l, ?Rmult_0_r, ?Rplus_0_r. rewrite ?Ropp_0, ?Rmult_0_r, ?exp_0. ring.
Qed.
