(** Properties of Gaussian process models (C43, C44, C46 and C103 on). *)
From Coq Require Import Reals Lra Lia List Arith Bool Permutation.
From Verif Require Import Base BaseFacts RBase LinAlg LogDet KernModel KernProofs KernSetupProofs KernDefProofs
  KernScaleProofs KernEntryProofs KernProperties GPModel GPProofs GPMoreProofs.
From Verif Require PrepModel PrepProofs.
Import ListNotations.
Open Scope R_scope.

(** ** Specification vocabulary *)

(** Training features with D columns and a list of kernels a user may write down. *)
Record inputs_ok (D : nat) (fp : list row) (ks : list kdict) : Prop := {
  i_D : (1 <= D)%nat;
  i_fp : fp <> [];
  i_rect : Forall (fun r => length r = D) fp;
  i_ks : Forall (usable D) ks;
  i_ne : ks <> [] }.

Definition test_ok (D : nat) (test : list row) : Prop := test <> [] /\ Forall (fun r => length r = D) test.

(** The arguments of the theorems: np.linalg.inv returns inverses and scipy's
    cho_factor returns Cholesky factors, when they return. *)
Record oracles_ok (inv cho : matrix -> result matrix) : Prop := { o_inv : sound_inv inv; o_cho : sound_cho cho }.
(** They return for symmetric positive definite matrices. *)
Record oracles_total (inv cho : matrix -> result matrix) : Prop := { o_cinv : complete_inv inv; o_ccho : complete_cho cho }.

(** The contracts can be met. *)
Theorem oracles_exist : oracles_ok ref_inv ref_cho /\ oracles_total ref_inv ref_cho.
Proof. split; constructor; [apply ref_inv_sound|apply ref_cho_sound|apply ref_inv_complete|apply ref_cho_complete]. Qed.
Print Assumptions oracles_exist.

(** A gaussian kernel of width 1 over one feature, as the running example. *)
Example inputs_example : inputs_ok 1 [[0]; [2]] [gaussian [1]; constant 3] /\ test_ok 1 [[1]].
Proof.
  split; [|split; [discriminate|repeat constructor]].
  constructor; try discriminate; auto; repeat constructor; cbn; auto.
all: try (intros; discriminate). all: try lia.
Qed.

Section Facts.
Variables (inv cho : matrix -> result matrix) (cho_solve : matrix -> list R -> list R).
Hypothesis O : oracles_ok inv cho.
Variables (D : nat) (fp : list row) (tgt : list R) (ks : list kdict) (reg : R) (rb : option bound) (sopt sdata : bool) (s : gp).
Hypothesis I : inputs_ok D fp ks.
Hypothesis E : gp_init inv cho cho_solve fp tgt ks None reg rb sopt sdata = Ok s.

Lemma init_facts : exists ks' b, prepare_kernels ks (init_bounds rb false) false D = Ok (ks', b) /\ trained s ks' D /\
    g_log s = sopt /\ g_scale s = sdata /\ g_reg s = reg /\ g_nd s = D /\ g_bounds s = b /\
    length fp = length tgt /\
    (g_scaling s, g_fp s, g_target s) = train_data sdata fp tgt /\
    exists K L, get_covariance ks' sopt (g_fp s) None (Some reg) false = Ok K /\ cho K = Ok L /\
      g_lml s = Some (- / 2 * Sum (length tgt) (fun i => nth i (g_target s) 0 *
                         Sum (length tgt) (fun j => at_ (g_cinv s) i j * nth j (g_target s) 0))
                      - Sum (nr L) (fun i => ln (at_ L i i)) - INR (length tgt) * ln (2 * PI) / 2).
Proof. destruct O, I. eapply gp_init_trained; eauto. Qed.

Lemma init_test test : test_ok D test -> scale_test s test <> [] /\ rectangular (scale_test s test) D /\
  length (scale_test s test) = length test.
Proof.
  intros [HN HR]. destruct init_facts as [ks' [b [_ [_ [_ [Hs [_ [_ [_ [_ [HT _]]]]]]]]]]]. destruct I.
  unfold scale_test. rewrite Hs. destruct sdata; [|auto].
  unfold train_data in HT. pose proof (scale_train_shape fp tgt D i_fp0 i_rect0) as Q.
  destruct (scale_train fp tgt) as [[sd f1] t1]. injection HT as -> _ _. destruct Q as [_ [_ [_ [_ [L1 L2]]]]].
  unfold PrepModel.sd_test, PrepModel.scale_matrix. split; [|split].
  - destruct test; [congruence|discriminate].
  - unfold rectangular. apply Forall_map. eapply Forall_impl; [|exact HR]. intros r Hr. cbv beta in *.
    etransitivity; [apply PrepProofs.scale_row_length|]; rewrite Hr; auto.
  - apply map_length.
Qed.
End Facts.

(** ** C43 *)

(** The number under the square root of the uncertainty is between zero and the prior
    variance, the covariance of the test point with itself. *)
Theorem predictive_variance_bounds : forall inv cho cho_solve D fp tgt ks reg rb sopt s test,
  oracles_ok inv cho -> inputs_ok D fp ks -> Forall (sensible sopt) ks -> test_ok D test ->
  gp_init inv cho cho_solve fp tgt ks None reg rb sopt false = Ok s ->
  exists ktb v prior, test_covariance s test = Ok ktb /\
    variance (g_kernels s) test ktb (g_cinv s) sopt = Ok v /\
    get_covariance (g_kernels s) sopt test None None false = Ok prior /\
    length v = length test /\
    forall i, (i < length test)%nat -> 0 <= nth i v 0 <= at_ prior i i.
Proof.
  intros inv cho cho_solve D fp tgt ks reg rb sopt s test HO HI HS [HN HR] E.
  destruct (init_facts _ _ _ HO _ _ _ _ _ _ _ _ _ HI E) as [ks' [b [EP [T [El [Es _]]]]]].
  pose proof (prepare_sensible _ _ _ _ _ _ _ EP HS) as HS'.
  destruct (test_covariance_trained s ks' D T test HN HR) as [K [EK _]].
  pose proof (variance_trained s ks' D T test K HN HR EK) as V. rewrite El in V.
  destruct (covariance_kappa D ks' sopt test None (t_eval _ _ _ T) (t_ks _ _ _ T) HN HR Logic.I) as [X [EX [X1 [_ HX]]]].
  exists K. eexists. exists X. split; [auto|]. split; [exact V|]. split; [rewrite (t_kernels _ _ _ T), get_covariance_boxed; auto|].
  split; [apply tabulate_length|]. intros i Hi. rewrite nth_tabulate by auto. rewrite HX by auto. cbn [cols_of].
  pose proof (reduction_bounds s ks' D T (row_at test i)) as B. rewrite El in B.
  destruct (B HS' (row_at_length _ _ _ HR Hi)). lra.
Qed.
Print Assumptions predictive_variance_bounds.

(** More training data never increases the uncertainty of a prediction. *)
Theorem more_data_less_uncertainty : forall inv cho cho_solve D fp tgt more tgt2 ks reg rb sopt s s2 test u r,
  oracles_ok inv cho -> inputs_ok D fp ks -> Forall (sensible sopt) ks -> test_ok D test ->
  Forall (fun x => length x = D) more ->
  gp_init inv cho cho_solve fp tgt ks None reg rb sopt false = Ok s ->
  gp_init inv cho cho_solve (fp ++ more) tgt2 ks None reg rb sopt false = Ok s2 ->
  predict_with_uncertainty s test = Ok (u, r) ->
  exists u2 r2, predict_with_uncertainty s2 test = Ok (u2, r2) /\ length u2 = length u /\
    forall i, (i < length test)%nat -> nth i u2 0 <= nth i u 0.
Proof.
  intros inv cho cho_solve D fp tgt more tgt2 ks reg rb sopt s s2 test u r HO HI HS HT HM E E2 Hu.
  assert (HI2 : inputs_ok D (fp ++ more) ks).
  { destruct HI. constructor; auto. - destruct fp; [congruence|discriminate]. - apply Forall_app; auto. }
  destruct (init_facts _ _ _ HO _ _ _ _ _ _ _ _ _ HI E) as [ks' [b [EP [T [El [Es [Er [_ [_ [_ [ET _]]]]]]]]]]].
  destruct (init_facts _ _ _ HO _ _ _ _ _ _ _ _ _ HI2 E2) as [ks2 [b2 [EP2 [T2 [El2 [Es2 [Er2 [_ [_ [_ [ET2 _]]]]]]]]]]].
  rewrite EP in EP2. injection EP2 as <- <-.
  pose proof (prepare_sensible _ _ _ _ _ _ _ EP HS) as HS'.
  cbn in ET, ET2. injection ET as Esc Ef Et. injection ET2 as Esc2 Ef2 Et2.
  destruct (init_test _ _ _ HO _ _ _ _ _ _ _ _ _ HI E test HT) as [N1 [R1 L1]].
  destruct (init_test _ _ _ HO _ _ _ _ _ _ _ _ _ HI2 E2 test HT) as [N2 [R2 L2]].
  rewrite (uncertainty_trained s ks' D test T N1 R1) in Hu. rewrite (uncertainty_trained s2 ks' D test T2 N2 R2).
  assert (ST : scale_test s test = test) by (unfold scale_test; rewrite Es; auto).
  assert (ST2 : scale_test s2 test = test) by (unfold scale_test; rewrite Es2; auto).
  rewrite ST in *. rewrite ST2 in *. unfold finish_uncertainty in *. rewrite Es in Hu. rewrite Es2. injection Hu as <- <-.
  eexists. eexists. split; [reflexivity|]. split; [rewrite !map_length, !tabulate_length; auto|].
  intros i Hi. rewrite !(nth_map_lt _ _ _ 0) by (rewrite tabulate_length; auto). rewrite !nth_tabulate by auto. rewrite !Rmult_1_r.
  apply sqrt_le_1_alt. rewrite El, El2.
  set (x := row_at test i). assert (Lx : length x = D) by (apply row_at_length; auto).
  enough (reduction s ks' x <= reduction s2 ks' x) by lra.
  pose proof (t_inv _ _ _ T) as V1. pose proof (t_inv _ _ _ T2) as V2. unfold reduction. rewrite Ef, Ef2, El, El2, Er, Er2 in *.
  set (K := fun i j => kappa ks' sopt (row_at (fp ++ more) i) (row_at (fp ++ more) j) + (logged sopt reg * ident i j) ^ 2) in *.
  set (n := length fp) in *. set (m := length (fp ++ more)) in *.
  assert (Hnm : (n <= m)%nat) by (unfold n, m; rewrite app_length; lia).
  assert (RO : forall j, (j < n)%nat -> row_at (fp ++ more) j = row_at fp j).
  { intros j Hj. unfold row_at. rewrite app_nth1 by auto. auto. }
  assert (V1' : inverse n K (at_ (g_cinv s))).
  { eapply inverse_ext; [|apply eqm_refl|exact V1]. intros a c Ha Hc. unfold K. rewrite !RO by auto. auto. }
  destruct (kappa_symm_psd D ks' sopt (t_eval _ _ _ T) HS' (t_ks _ _ _ T)) as [KS KP].
  assert (RL : forall j, (j < m)%nat -> length (row_at (fp ++ more) j) = D) by (intros; apply row_at_length; destruct HI2; auto).
  rewrite (quad_ext n _ (at_ (g_cinv s)) _ (fun j => kappa ks' sopt x (row_at (fp ++ more) j))).
  - apply (reduction_more n m K); auto.
    + intros a c Ha Hc. unfold K. rewrite (KS (row_at (fp ++ more) a)) by auto. unfold ident. rewrite (Nat.eqb_sym c a). auto.
    + intros v. unfold K. rewrite (quad_reg m (fun i j => kappa ks' sopt (row_at (fp ++ more) i) (row_at (fp ++ more) j)) (logged sopt reg) v).
      pose proof (KP m (row_at (fp ++ more)) RL v) as Q1. assert (0 <= dotv m v v) by (apply Sum_nonneg; intros; nra). nra.
  - apply eqm_refl.
  - intros j Hj. rewrite RO by auto. auto.
Qed.
Print Assumptions more_data_less_uncertainty.

(** ** C44 *)

Theorem training_order_irrelevant : forall inv cho cho_solve D fp tgt fp' tgt' ks reg rb sopt sdata s s' test,
  oracles_ok inv cho -> inputs_ok D fp ks -> test_ok D test ->
  Permutation (combine fp tgt) (combine fp' tgt') ->
  gp_init inv cho cho_solve fp tgt ks None reg rb sopt sdata = Ok s ->
  gp_init inv cho cho_solve fp' tgt' ks None reg rb sopt sdata = Ok s' ->
  predict s' test = predict s test /\
  predict_with_uncertainty s' test = predict_with_uncertainty s test /\
  predict_uncertainty s' test = predict_uncertainty s test /\
  g_lml s' = g_lml s.
Proof.
  intros inv cho cho_solve D fp tgt fp' tgt' ks reg rb sopt sdata s s' test HO HI HT HP E E'.
  destruct (init_facts _ _ _ HO _ _ _ _ _ _ _ _ _ HI E) as (ks' & b & EP & T & El & Es & Er & _ & _ & HL & ET & K & L & EK & EL & Elml).
  assert (HL' : length fp' = length tgt').
  { unfold gp_init in E'. destruct (Nat.eqb_spec (length fp') (length tgt')); [auto|discriminate]. }
  destruct (Permutation_gather ([], 0) HP) as [p [P Ep]].
  rewrite combine_length, <- HL, Nat.min_id in P.
  assert (Lp : length p = length fp) by (rewrite (Permutation_length P), seq_length; auto).
  assert (Efp : fp' = gather [] fp p).
  { rewrite <- (map_combine_fst fp' tgt') by lia. rewrite Ep. unfold gather. rewrite map_map. apply map_ext_in. intros i Hi.
    rewrite combine_nth by auto. auto. }
  assert (Etg : tgt' = gather 0 tgt p).
  { rewrite <- (map_combine_snd fp' tgt') by lia. rewrite Ep. unfold gather. rewrite map_map. apply map_ext_in. intros i Hi.
    rewrite combine_nth by auto. auto. }
  assert (HI' : inputs_ok D fp' ks).
  { destruct HI. constructor; auto.
    - rewrite Efp. intros Q. apply (f_equal (@length _)) in Q. rewrite gather_length, Lp in Q. destruct fp; [congruence|discriminate].
    - rewrite Efp. apply Forall_forall. intros r Hr. rewrite Forall_forall in i_rect0. apply i_rect0.
      eapply Permutation_in; [|exact Hr]. apply gather_perm; auto. }
  destruct (init_facts _ _ _ HO _ _ _ _ _ _ _ _ _ HI' E') as (ks2 & b2 & EP2 & T2 & El2 & Es2 & Er2 & _ & _ & _ & ET2 & K2 & L2 & EK2 & EL2 & Elml2).
  rewrite EP in EP2. injection EP2 as <- <-.
  destruct HI as [iD ifp irect iks ine].
  symmetry in ET. pose proof (train_data_perm sdata fp tgt p D _ _ _ ifp irect HL P ET) as Q. rewrite <- Efp, <- Etg, <- ET2 in Q.
  injection Q as Qs Qf Qt.
  destruct (train_data_shape _ _ _ _ _ _ _ ifp irect HL ET) as [_ [_ [Lf Lt]]].
  assert (P' : Permutation p (seq 0 (length (g_fp s)))) by (rewrite Lf; auto).
  assert (A1 : g_log s' = g_log s) by congruence. assert (A2 : g_reg s' = g_reg s) by congruence.
  assert (A3 : g_scale s' = g_scale s) by congruence.
  destruct (init_test _ _ _ HO _ _ _ _ _ _ _ _ _ (Build_inputs_ok _ _ _ iD ifp irect iks ine) E test HT) as [N1 [R1 _]].
  destruct (init_test _ _ _ HO _ _ _ _ _ _ _ _ _ HI' E' test HT) as [N2 [R2 _]].
  assert (ST : scale_test s' test = scale_test s test) by (unfold scale_test; rewrite A3, Qs; auto).
  assert (FU : forall u, finish_uncertainty s' u = finish_uncertainty s u) by (intros; unfold finish_uncertainty; rewrite A3, Qs, A2; auto).
  destruct HT as [TN TR].
  split; [|split; [|split]].
  - eapply order_predict; eauto.
  - rewrite (uncertainty_trained s ks' D test T N1 R1), (uncertainty_trained s' ks' D test T2 N2 R2), ST, FU, A1. f_equal. f_equal.
    apply tabulate_ext. intros i Hi. f_equal. f_equal. eapply order_reduction; eauto.
  - rewrite (predict_uncertainty_trained s ks' D test T TN TR), (predict_uncertainty_trained s' ks' D test T2 TN TR), FU, A1. f_equal. f_equal.
    apply tabulate_ext. intros i Hi. f_equal. f_equal. eapply order_reduction; eauto.
  - rewrite Elml, Elml2. f_equal.
    assert (LL : length tgt' = length tgt) by (rewrite Etg, gather_length, Lp; auto). rewrite LL.
    assert (Lg : length tgt = length (g_fp s)) by congruence. rewrite Lg.
    rewrite (order_fit s s' ks' D p T T2 A1 A2 P' Qf Qt).
    destruct (o_cho _ _ HO _ _ EL) as [_ [C1 [_ C2]]]. destruct (o_cho _ _ HO _ _ EL2) as [_ [C3 [_ C4]]].
    destruct (covariance_with_reg D ks' sopt (g_fp s) reg (t_eval _ _ _ T) (t_ks _ _ _ T) (t_ne _ _ _ T) (t_rect _ _ _ T)) as [K0 [F1 [F2 [_ F3]]]].
    rewrite EK in F1. injection F1 as <-.
    destruct (covariance_with_reg D ks' sopt (g_fp s') reg (t_eval _ _ _ T2) (t_ks _ _ _ T2) (t_ne _ _ _ T2) (t_rect _ _ _ T2)) as [K0 [G1 [G2 [_ G3]]]].
    rewrite EK2 in G1. injection G1 as <-.
    assert (Ln : length (g_fp s') = length (g_fp s)) by (rewrite Qf, gather_length, Lp; auto). rewrite Ln in *.
    rewrite C1, C3, F2, G2. rewrite F2 in C2. rewrite G2 in C4. f_equal. f_equal.
    apply (cholesky_perm (length (g_fp s)) p (at_ K) (at_ K2)); auto.
    + intros i j Hi Hj. destruct C2 as [_ [_ C2]]. rewrite <- !C2 by auto. apply Sum_ext. intros; ring.
    + intros i j Hi Hj. rewrite G3 by auto. unfold permm. rewrite F3 by (eapply perm_lt; eauto).
      rewrite !(order_row s s' p P' Qf) by auto. f_equal. f_equal. f_equal.
      unfold ident. destruct (Nat.eqb_spec i j) as [->|N]; [rewrite Nat.eqb_refl; auto|].
      destruct (Nat.eqb_spec (nth i p 0%nat) (nth j p 0%nat)) as [Eq|]; auto. exfalso. apply N. eapply perm_inj; eauto.
Qed.
Print Assumptions training_order_irrelevant.

(** ** C103: the prediction is the posterior mean *)

(** The weights alpha solve (K + r^2 I) alpha = y, where K is the covariance of the
    training points and r the noise, and the prediction for a point is the sum of its
    covariances with the training points times alpha; no other weights solve it. *)
Theorem prediction_is_posterior_mean : forall inv cho cho_solve D fp tgt ks reg rb sopt s test,
  oracles_ok inv cho -> inputs_ok D fp ks -> test_ok D test ->
  gp_init inv cho cho_solve fp tgt ks None reg rb sopt false = Ok s ->
  let n := length fp in
  exists ks' b alpha p,
    prepare_kernels ks (init_bounds rb false) false D = Ok (ks', b) /\
    predict s test = Ok p /\ length p = length test /\
    let cov x y := match get_covariance ks' sopt [x] (Some [y]) None false with Ok m => at_ m 0 0 | Err _ => 0 end in
    let noise := (if sopt then exp reg else reg) ^ 2 in
    let solves a := forall i, (i < n)%nat ->
       Sum n (fun j => (cov (nth i fp []) (nth j fp []) + (if (i =? j)%nat then noise else 0)) * a j) = nth i tgt 0 in
    solves alpha /\ (forall a, solves a -> forall i, (i < n)%nat -> a i = alpha i) /\
    forall i, (i < length test)%nat -> nth i p 0 = Sum n (fun j => cov (nth i test []) (nth j fp []) * alpha j).
Proof.
  intros inv cho cho_solve D fp tgt ks reg rb sopt s test HO HI HT E n.
  destruct (init_facts _ _ _ HO _ _ _ _ _ _ _ _ _ HI E) as [ks' [b [EP [T [El [Es [Er [_ [_ [HL [ET _]]]]]]]]]]].
  cbn in ET. injection ET as Esc Ef Et.
  assert (ST : scale_test s test = test) by (unfold scale_test; rewrite Es; auto).
  destruct HT as [TN TR].
  exists ks', b, (weights s). eexists. split; [auto|]. split.
  { rewrite (predict_trained s ks' D T) by (rewrite ST; auto). rewrite ST. unfold rescale. rewrite Es. reflexivity. }
  split; [apply tabulate_length|].
  assert (ND : forall i j, (logged sopt reg * ident i j) ^ 2 = if (i =? j)%nat then (if sopt then exp reg else reg) ^ 2 else 0).
  { intros i j. unfold logged, ident. destruct (i =? j)%nat, sopt; ring. }
  pose proof (t_inv _ _ _ T) as V. rewrite Ef, El, Er in V. fold n in V.
  split; [|split].
  - intros i Hi. pose proof (weights_spec s ks' D T i) as W. rewrite Ef, El, Er, Et in W. rewrite <- (W Hi).
    apply Sum_ext. intros j Hj. rewrite ND. auto.
  - intros a Ha i Hi. unfold weights. rewrite Ef, Et. fold n.
    rewrite <- (mulv_inverse' _ _ _ a V i Hi). apply mulv_ext; [apply eqm_refl| |auto].
    intros j Hj. unfold vnth. rewrite <- (Ha j Hj). apply Sum_ext. intros l Hl. rewrite ND. auto.
  - intros i Hi. rewrite nth_tabulate by auto. rewrite Ef, El. auto.
Qed.
Print Assumptions prediction_is_posterior_mean.

(** ** C104: one test point does not influence another *)

Lemma rescale_nth s l i : (i < length l)%nat -> nth i (rescale s l) 0 = nth 0 (rescale s [nth i l 0]) 0.
Proof.
  intros H. unfold rescale. destruct (g_scale s), (g_scaling s); auto. rewrite (nth_map_lt _ _ _ 0) by auto. auto.
Qed.

Lemma rescale_length s l : length (rescale s l) = length l.
Proof. unfold rescale. destruct (g_scale s), (g_scaling s); auto. apply map_length. Qed.

Lemma scale_test_nth s test i : (i < length test)%nat -> length (scale_test s test) = length test ->
  scale_test s [nth i test []] = [nth i (scale_test s test) []].
Proof.
  intros H _. unfold scale_test. destruct (g_scale s), (g_scaling s) as [sd|]; auto. unfold PrepModel.sd_test, PrepModel.scale_matrix.
  rewrite (nth_map_lt _ _ _ []) by auto. auto.
Qed.

Theorem predictions_pointwise : forall inv cho cho_solve D fp tgt ks reg rb sopt sdata s test,
  oracles_ok inv cho -> inputs_ok D fp ks -> test_ok D test ->
  gp_init inv cho cho_solve fp tgt ks None reg rb sopt sdata = Ok s ->
  exists p u ur, predict s test = Ok p /\ predict_with_uncertainty s test = Ok (u, ur) /\
    length p = length test /\ length u = length test /\ length ur = length test /\
    forall i, (i < length test)%nat ->
      predict s [nth i test []] = Ok [nth i p 0] /\
      predict_with_uncertainty s [nth i test []] = Ok ([nth i u 0], [nth i ur 0]).
Proof.
  intros inv cho cho_solve D fp tgt ks reg rb sopt sdata s test HO HI HT E.
  destruct (init_facts _ _ _ HO _ _ _ _ _ _ _ _ _ HI E) as [ks' [b [EP [T _]]]].
  destruct (init_test _ _ _ HO _ _ _ _ _ _ _ _ _ HI E test HT) as [N1 [R1 L1]].
  rewrite (predict_trained s ks' D T) by auto. rewrite (uncertainty_trained s ks' D test T N1 R1).
  unfold finish_uncertainty. set (f := match g_scale s with true => _ | false => _ end).
  eexists. eexists. eexists. split; [reflexivity|]. split; [reflexivity|].
  split; [rewrite rescale_length, tabulate_length; auto|]. split; [rewrite map_length, tabulate_length; auto|].
  split; [rewrite map_length, tabulate_length; auto|]. intros i Hi.
  assert (T1 : test_ok D [nth i test []]).
  { split; [discriminate|]. constructor; auto. destruct HT as [_ HR]. rewrite Forall_forall in HR. apply HR. apply nth_In. auto. }
  destruct (init_test _ _ _ HO _ _ _ _ _ _ _ _ _ HI E _ T1) as [N2 [R2 L2]].
  rewrite (predict_trained s ks' D T) by auto. rewrite (uncertainty_trained s ks' D _ T N2 R2).
  rewrite (scale_test_nth s test i Hi L1). cbn [length tabulate seq map].
  rewrite rescale_nth by (rewrite tabulate_length, L1; auto).
  rewrite !(nth_map_lt _ _ _ 0) by (rewrite tabulate_length, L1; auto). rewrite !nth_tabulate by (rewrite L1; auto).
  split.
  - unfold row_at at 1. cbn [nth]. change (nth i (scale_test s test) []) with (row_at (scale_test s test) i).
    unfold rescale. destruct (g_scale s), (g_scaling s); auto.
  - unfold finish_uncertainty. fold f. cbn [tabulate seq map]. unfold row_at at 1 2 3. cbn [nth].
    change (nth i (scale_test s test) []) with (row_at (scale_test s test) i). auto.
Qed.
Print Assumptions predictions_pointwise.
