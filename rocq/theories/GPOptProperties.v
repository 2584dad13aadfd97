(** Properties of hyperparameter optimization and of fixed basis predictions. *)
From Coq Require Import Reals Lra Lia List Arith Bool Permutation.
From Verif Require Import Base BaseFacts RBase LinAlg LogDet KernModel KernProofs KernSetupProofs KernDefProofs
  KernScaleProofs KernEntryProofs KernProperties GPModel GPProofs GPMoreProofs GPProperties GPUpdateProofs GPUpdateProperties
  GPScaleProperties.
From Verif Require PrepModel PrepProofs.
Import ListNotations.
Open Scope R_scope.

(** ** Writing hyperparameters back keeps kernels usable *)
Lemma slice_length h i n : (i + n <= length h)%nat -> length (slice h i n) = n.
Proof. intros H. unfold slice. rewrite firstn_length, skipn_length. lia. Qed.

Lemma step_evaluable h k ki k' ki' D : list2kdict_step h ki k = Ok (k', ki') -> evaluable D k -> not_quadratic k ->
  (ki' <= length h)%nat -> evaluable D k'.
Proof.
  intros H [HR HE] HQ HL. unfold list2kdict_step in H. unfold not_quadratic in HQ. cbv zeta in HE.
  destruct (k_type k) as [t|] eqn:Et; [|discriminate].
  assert (S1 : exists k1 k1i, (match k_scaling k with
            | Some _ => bind (item h ki) (fun x => Ok (set_scaling k x, S ki))
            | None => Ok (k, ki) end) = Ok (k1, k1i) /\ k_type k1 = Some t /\ k_features k1 = k_features k /\ k_width k1 = k_width k /\
            k_const k1 = k_const k /\ k_hyper k1 = k_hyper k).
  { destruct (k_scaling k); [|exists k, ki; repeat split; auto]. destruct (item h ki); [|discriminate]. cbn. eexists. eexists. split; [reflexivity|].
    cbn. repeat split; auto. }
  destruct S1 as (k1 & k1i & E1 & T1 & F1 & W1 & C1 & H1). rewrite E1 in H. cbn [bind] in H.
  unfold evaluable, in_range in *. destruct t; try contradiction; try congruence.
  - (* constant *) destruct (item h k1i); [|discriminate]. cbn in H. injection H as <- <-. cbn. rewrite T1, F1, W1, H1. split; auto.
    destruct HE as [? [? ?]]. auto.
  - (* gaussian *) destruct HE as [A1 [A2 [w [A3 A4]]]]. rewrite W1, A3 in H. cbn in H. injection H as <- <-. cbn. rewrite T1, F1, C1, H1.
    split; auto. split; auto. split; auto. eexists. split; [reflexivity|]. rewrite slice_length by lia. auto.
  - destruct HE as [A1 [A2 [w [A3 A4]]]]. rewrite W1, A3 in H. cbn in H. injection H as <- <-. cbn. rewrite T1, F1, C1, H1.
    split; auto. split; auto. split; auto. eexists. split; [reflexivity|]. rewrite slice_length by lia. auto.
  - injection H as <- <-. rewrite T1, F1, W1. auto.
Qed.

Lemma evaluable_advances D k : evaluable D k -> advances k = true.
Proof. intros [_ H]. unfold advances. cbv zeta in H. destruct (k_type k) as [[]|]; auto; contradiction. Qed.

Lemma list2kdict_evaluable D ks nd : Forall prepared ks -> Forall (evaluable D) ks -> Forall not_quadratic ks ->
  forall flat, kdicts_loop ks nd = Ok flat -> forall pre flat' post, length flat' = length flat ->
  exists ks', list2kdict_from (pre ++ flat' ++ post) (length pre) ks = Ok ks' /\ Forall (evaluable D) ks' /\
    kdicts_loop ks' nd = Ok flat' /\ map k_type ks' = map k_type ks.
Proof.
  induction ks as [|k ks IH]; intros HP HE HQ flat HF pre flat' post HL.
  - cbn in HF. injection HF as <-. destruct flat'; [|discriminate]. exists []. repeat split; auto.
  - rewrite kdicts_loop_cons in HF. destruct (block k nd) as [b|] eqn:Eb; [|discriminate]. cbn [bind] in HF.
    destruct (kdicts_loop ks nd) as [rest|] eqn:Er; [|discriminate]. injection HF as <-.
    rewrite app_length in HL.
    apply Forall_cons_iff in HP. destruct HP as [HP1 HP2]. apply Forall_cons_iff in HQ. destruct HQ as [HQ1 HQ2].
    apply Forall_cons_iff in HE. destruct HE as [HE1 HE2].
    set (b' := firstn (length b) flat'). set (r' := skipn (length b) flat').
    assert (Ef : flat' = b' ++ r') by (symmetry; apply firstn_skipn).
    assert (Lb : length b' = length b) by (unfold b'; rewrite firstn_length; lia).
    assert (Lr : length r' = length rest) by (unfold r'; rewrite skipn_length; lia).
    clearbody b' r'. subst flat'.
    assert (HQ1' : is_quadratic k = false) by (unfold is_quadratic, not_quadratic in *; destruct (k_type k) as [[]|]; congruence).
    destruct (step_spec k nd b HP1 HQ1' Eb pre b' (r' ++ post) Lb) as [k' [S1 [S2 [S3 [S4 S5]]]]].
    rewrite (evaluable_advances D k HE1) in S1.
    cbn [list2kdict_from]. rewrite <- app_assoc, S1. cbn [bind snd fst].
    destruct (IH HP2 HE2 HQ2 rest eq_refl (pre ++ b') r' post Lr) as [ks' [T1 [T2 [T3 T4]]]].
    rewrite app_length in T1. rewrite <- !app_assoc in T1. rewrite T1. cbn [bind].
    exists (k' :: ks'). split; auto. split; [|split].
    + constructor; auto. apply (step_evaluable _ _ _ _ _ D S1); auto. rewrite !app_length. lia.
    + rewrite kdicts_loop_cons, S4. cbn [bind]. rewrite T3. auto.
    + cbn. rewrite S3, T4. auto.
Qed.

Lemma init_flat inv cho cho_solve D fp tgt ks reg rb sopt sdata s : oracles_ok inv cho -> inputs_ok D fp ks -> Forall not_quadratic ks ->
  gp_init inv cho cho_solve fp tgt ks None reg rb sopt sdata = Ok s ->
  trained s (g_kernels s) D /\ Forall prepared (g_kernels s) /\ Forall not_quadratic (g_kernels s) /\ g_log s = sopt /\ g_scale s = sdata /\
  exists flat, kdicts2list (g_kernels s) (g_nd s) = Ok flat.
Proof.
  intros HO HI HQ E.
  destruct (init_facts _ _ _ HO _ _ _ _ _ _ _ _ _ HI E) as (ks' & b & EP & T & El & Es & Er & En & Eb & _).
  pose proof HI as [iD _ _ iks ine].
  assert (NQ : Forall not_quadratic ks') by (eapply not_quadratic_types; [|exact HQ]; eapply prepare_types; eauto).
  assert (EK : g_kernels s = ks') by (rewrite (t_kernels _ _ _ T); apply boxed_id; auto).
  destruct (prepare_usable _ _ _ _ _ _ iD EP iks ine) as [_ [_ [flat [Hf _]]]].
  rewrite EK, En. split; [auto|]. split; [|split; [auto|split; [auto|split; [auto|eauto]]]].
  unfold prepare_kernels in EP. destruct (prepare_loop ks D (default_bound false)) as [[k1 b1]|] eqn:E1; [|discriminate].
  cbn in EP. injection EP as <- _.
  destruct (prepare_loop_spec _ _ _ _ _ E1) as [H1 _]; auto;
    (eapply Forall_impl; [|exact iks]); intros k [? ? ?]; auto.
Qed.

(** ** Optimizing hyperparameters *)

(** After optimization the model stores the minimizer's hyperparameters, noise and
    likelihood, and its predictions are the posterior mean for exactly these: they use
    the unique weights that solve the linear system of the new covariance. *)
Theorem optimized_model_consistent_plain : forall inv cho cho_solve D fp tgt ks reg rb sopt s minimizer x f,
  oracles_ok inv cho -> inputs_ok D fp ks -> Forall not_quadratic ks ->
  gp_init inv cho cho_solve fp tgt ks None reg rb sopt false = Ok s ->
  (forall th b, kdicts2list (g_kernels s) D = Ok th -> b = g_bounds s -> minimizer (th ++ [reg]) b = (x, f) /\ length x = S (length th)) ->
  forall s', optimize_hyperparameters inv s minimizer = Ok s' ->
  kdicts2list (g_kernels s') D = Ok (removelast x) /\ g_reg s' = last x 0 /\ g_lml s' = Some (- f) /\
  map k_type (g_kernels s') = map k_type (g_kernels s) /\
  let n := length fp in
  let cov x y := match get_covariance (g_kernels s') sopt [x] (Some [y]) None false with Ok m => at_ m 0 0 | Err _ => 0 end in
  let noise := (if sopt then exp (g_reg s') else g_reg s') ^ 2 in
  let solves a := forall i, (i < n)%nat ->
     Sum n (fun j => (cov (nth i fp []) (nth j fp []) + (if (i =? j)%nat then noise else 0)) * a j) = nth i tgt 0 in
  exists alpha, solves alpha /\ (forall a, solves a -> forall i, (i < n)%nat -> a i = alpha i) /\
  forall test, test_ok D test -> exists p, predict s' test = Ok p /\ length p = length test /\
    forall i, (i < length test)%nat -> nth i p 0 = Sum n (fun j => cov (nth i test []) (nth j fp []) * alpha j).
Proof.
  intros inv cho cho_solve D fp tgt ks reg rb sopt s minimizer x f HO HI HQ E HM s' HS.
  destruct (init_flat _ _ _ _ _ _ _ _ _ _ _ _ HO HI HQ E) as (T & HP & NQ & _ & _ & flat & Hf).
  destruct (init_facts _ _ _ HO _ _ _ _ _ _ _ _ _ HI E) as (_ & b & _ & _ & El & Es & Er & En & Eb & HL & ET & _).
  cbn in ET. injection ET as Esc Ef Et. rewrite En in Hf.
  destruct (HM flat (g_bounds s) Hf eq_refl) as [Em Lx].
  unfold optimize_hyperparameters in HS. rewrite En, Hf in HS. cbn [bind] in HS. rewrite Er, Em in HS.
  assert (HF : kdicts_loop (g_kernels s) D = Ok flat) by (unfold kdicts2list in Hf; destruct (g_kernels s); [discriminate|auto]).
  assert (Lr : length (removelast x) = length flat).
  { rewrite removelast_firstn_len, firstn_length. lia. }
  destruct (list2kdict_evaluable D (g_kernels s) D HP (t_eval _ _ _ T) NQ flat HF [] (removelast x) [] Lr) as (k2 & K1 & K2 & K3 & K4).
  cbn [app length] in K1. rewrite app_nil_r in K1. unfold list2kdict in HS. rewrite K1 in HS. cbn [bind] in HS.
  assert (N2 : k2 <> []).
  { pose proof (t_ks _ _ _ T) as Q. destruct (g_kernels s), k2; cbn in *; congruence. }
  rewrite (t_grad _ _ _ T), El, Ef in HS.
  pose proof HI as [iD ifp irect iks ine].
  destruct (covariance_with_reg D k2 sopt fp (last x 0) K2 N2 ifp irect) as [C [EC [C1 [C2 HC]]]]. rewrite EC in HS. cbn [bind] in HS.
  destruct (inv C) as [ci|] eqn:EI; [|discriminate]. cbn [bind] in HS. destruct (o_inv _ _ HO _ _ EI) as [_ [J1 [J2 J3]]].
  injection HS as <-. cbv beta iota delta [g_kernels g_reg g_lml].
  split; [unfold kdicts2list; destruct k2; [congruence|auto]|]. split; [auto|]. split; [auto|]. split; [auto|].
  assert (NQ2 : map boxed k2 = k2) by (apply boxed_id; eapply not_quadratic_types; [exact K4|auto]).
  set (s' := GP _ _ _ _ _ _ _ _ _ _ _ _).
  assert (T' : trained s' k2 D).
  { constructor; cbn; auto; rewrite ?Et; try congruence; try lia; rewrite C1 in *; auto.
    eapply inverse_ext; [exact HC|apply eqm_refl|exact J3]. }
  assert (Es' : g_scale s' = false) by (cbn; auto).
  intros n cov noise solves. exists (weights s').
  assert (ND : forall i j, (logged sopt (last x 0) * ident i j) ^ 2 = if (i =? j)%nat then noise else 0).
  { intros i j. unfold noise, logged, ident. cbn. destruct (i =? j)%nat, sopt; ring. }
  pose proof (t_inv _ _ _ T') as V. cbn [s' g_fp g_log g_reg g_cinv] in V.
  split; [|split].
  - intros i Hi. pose proof (weights_spec s' k2 D T' i) as W. cbn [s' g_fp g_log g_reg g_target] in W. rewrite Et in W. rewrite <- (W Hi).
    apply Sum_ext. intros j Hj. rewrite ND. auto.
  - intros a Ha i Hi. unfold weights. cbn [s' g_fp g_cinv g_target]. rewrite Et. fold n.
    rewrite <- (mulv_inverse' _ _ _ a V i Hi). apply mulv_ext; [apply eqm_refl| |auto].
    intros j Hj. unfold vnth. rewrite <- (Ha j Hj). apply Sum_ext. intros l Hl. rewrite ND. auto.
  - intros test [TN TR]. assert (ST : scale_test s' test = test) by (unfold scale_test; rewrite Es'; auto). eexists.
    split; [rewrite (predict_trained s' k2 D T') by (rewrite ST; auto); rewrite ST; unfold rescale; rewrite Es'; reflexivity|].
    split; [apply tabulate_length|]. intros i Hi. rewrite nth_tabulate by auto. auto.
Qed.
Print Assumptions optimized_model_consistent_plain.

(** The data the model is trained on, the test features it evaluates and the unit of its
    predictions: with scale_data, features and targets are standardized. *)
Definition standardized (sdata : bool) (fp : list row) (tgt : list R) (fp' : list row) (tgt' : list R)
  (scale : list row -> list row) (back : R -> R) : Prop :=
  if sdata then exists sd, scale_train fp tgt = (sd, fp', tgt') /\ (forall t, scale t = PrepModel.sd_test sd t) /\
                           (forall y, back y = y * PrepModel.t_std sd + PrepModel.t_mean sd)
  else fp' = fp /\ tgt' = tgt /\ (forall t, scale t = t) /\ (forall y, back y = y).

(** The same for every kernel list (with quadratic kernels the optimization fails) and with
    scaled data. *)
Theorem optimized_model_consistent : forall inv cho cho_solve D fp tgt ks reg rb sopt sdata s minimizer x f,
  oracles_ok inv cho -> inputs_ok D fp ks ->
  gp_init inv cho cho_solve fp tgt ks None reg rb sopt sdata = Ok s ->
  (forall th b, kdicts2list (g_kernels s) D = Ok th -> b = g_bounds s -> minimizer (th ++ [reg]) b = (x, f) /\ length x = S (length th)) ->
  forall s', optimize_hyperparameters inv s minimizer = Ok s' ->
  kdicts2list (g_kernels s') D = Ok (removelast x) /\ g_reg s' = last x 0 /\ g_lml s' = Some (- f) /\
  map k_type (g_kernels s') = map k_type (g_kernels s) /\
  exists fp' tgt' scale back, standardized sdata fp tgt fp' tgt' scale back /\
  let n := length fp in
  let cov x y := match get_covariance (g_kernels s') sopt [x] (Some [y]) None false with Ok m => at_ m 0 0 | Err _ => 0 end in
  let noise := (if sopt then exp (g_reg s') else g_reg s') ^ 2 in
  let solves a := forall i, (i < n)%nat ->
     Sum n (fun j => (cov (nth i fp' []) (nth j fp' []) + (if (i =? j)%nat then noise else 0)) * a j) = nth i tgt' 0 in
  exists alpha, solves alpha /\ (forall a, solves a -> forall i, (i < n)%nat -> a i = alpha i) /\
  forall test, test_ok D test -> exists p, predict s' test = Ok p /\ length p = length test /\
    forall i, (i < length test)%nat -> nth i p 0 = back (Sum n (fun j => cov (nth i (scale test) []) (nth j fp' []) * alpha j)).
Proof.
  intros inv cho cho_solve D fp tgt ks reg rb sopt sdata s minimizer x f HO HI E HM s' HS.
  destruct (not_quadratic_dec ks) as [HQ|HQ].
  2: { exfalso. destruct (quadratic_flat_fails _ _ _ _ _ _ _ _ _ _ _ _ HO HI HQ E) as [e He]. unfold optimize_hyperparameters in HS.
       rewrite He in HS. discriminate. }
  destruct sdata.
  2: { destruct (optimized_model_consistent_plain _ _ _ _ _ _ _ _ _ _ _ _ _ _ HO HI HQ E HM _ HS) as (H1 & H2 & H3 & H4 & H5).
       do 4 (split; [assumption|]). exists fp, tgt, (fun t => t), (fun y => y). split; [cbn; auto|exact H5]. }
  assert (HL : length fp = length tgt).
  { unfold gp_init in E. destruct (Nat.eqb_spec (length fp) (length tgt)); [auto|discriminate]. }
  pose proof HI as [iD ifp irect iks ine].
  pose proof (init_scaled inv cho cho_solve fp tgt ks reg rb sopt D ifp irect HL) as H.
  pose proof (scale_train_shape fp tgt D ifp irect) as Q.
  destruct (scale_train fp tgt) as [[sd f1] t1] eqn:ES. rewrite H in E.
  destruct (gp_init inv cho cho_solve f1 t1 ks None reg rb sopt false) as [s0|] eqn:E0; [|discriminate]. cbn in E. injection E as <-.
  destruct Q as (_ & Q1 & Q2 & Q3 & Q4 & Q5).
  assert (I0 : inputs_ok D f1 ks).
  { constructor; auto. destruct fp, f1; cbn in *; congruence. }
  assert (HS0 : exists s0', optimize_hyperparameters inv s0 minimizer = Ok s0' /\ s' = with_scaling s0' true (Some sd)).
  { unfold optimize_hyperparameters in *. cbn [with_scaling g_kernels g_nd g_reg g_bounds g_log g_fp g_target g_grad g_scale g_scaling] in HS.
    destruct (kdicts2list (g_kernels s0) (g_nd s0)) as [th|]; [|discriminate]. cbn [bind] in *. destruct (minimizer (th ++ [g_reg s0]) (g_bounds s0)) as [x0 f0].
    destruct (list2kdict (removelast x0) (g_kernels s0)) as [k2|]; [|discriminate]. cbn [bind] in *.
    match type of HS with bind ?c _ = _ => destruct c as [cv|]; [|discriminate] end. cbn [bind] in *. destruct (inv cv) as [ci|]; [|discriminate]. cbn [bind] in *.
    eexists. split; [reflexivity|]. injection HS as <-. reflexivity. }
  destruct HS0 as (s0' & HS0 & ->).
  destruct (optimized_model_consistent_plain _ _ _ _ _ _ _ _ _ _ _ _ _ _ HO I0 HQ E0 HM _ HS0) as (H1 & H2 & H3 & H4 & H5).
  do 4 (split; [assumption|]). exists f1, t1, (PrepModel.sd_test sd), (fun y => y * PrepModel.t_std sd + PrepModel.t_mean sd).
  split; [cbn; exists sd; auto|]. rewrite <- Q2. destruct H5 as (alpha & A1 & A2 & A3). exists alpha. split; [exact A1|]. split; [exact A2|].
  intros test HT.
  assert (HT' : test_ok D (PrepModel.sd_test sd test)).
  { destruct HT as [T1 T2]. unfold PrepModel.sd_test, PrepModel.scale_matrix. split.
    - destruct test; [congruence|discriminate].
    - apply Forall_map. eapply Forall_impl; [|exact T2]. intros r Hr. cbv beta in *.
      etransitivity; [apply PrepProofs.scale_row_length|]; rewrite Hr; auto. }
  destruct (A3 _ HT') as (p & P1 & P2 & P3). rewrite predict_with.
  assert (Esc : with_scaling s0' false None = s0').
  { destruct (init_facts _ _ _ HO _ _ _ _ _ _ _ _ _ I0 E0) as (ks' & b & _ & _ & _ & Es & _ & _ & _ & _ & ET & _). cbn in ET. injection ET as Esc _ _.
    unfold optimize_hyperparameters in HS0. destruct (kdicts2list (g_kernels s0) (g_nd s0)) as [th|]; [|discriminate]. cbn [bind] in *. destruct (minimizer (th ++ [g_reg s0]) (g_bounds s0)) as [x0 f0].
    destruct (list2kdict (removelast x0) (g_kernels s0)) as [k2|]; [|discriminate]. cbn [bind] in *.
    match type of HS0 with bind ?c _ = _ => destruct c as [cv|]; [|discriminate] end. cbn [bind] in *. destruct (inv cv) as [ci|]; [|discriminate]. cbn [bind] in *.
    injection HS0 as <-. apply with_scaling_id; assumption. }
  rewrite Esc, P1. cbn [bind]. eexists. split; [reflexivity|]. rewrite map_length. 
  assert (LT : length (PrepModel.sd_test sd test) = length test) by (unfold PrepModel.sd_test, PrepModel.scale_matrix; apply map_length).
  rewrite LT in P2, P3. split; [exact P2|].
  intros i Hi. rewrite (nth_map_lt _ _ _ 0) by lia. rewrite P3 by exact Hi. reflexivity.
Qed.
Print Assumptions optimized_model_consistent.

(** ** Fixed basis *)

(** Targets that are a combination of the basis functions are reproduced exactly at every
    test point. *)
Theorem fixed_basis_reproduces_partial : forall inv cho cho_solve D fp tgt ks reg rb sopt s basis nb beta test p,
  oracles_ok inv cho -> inputs_ok D fp ks -> Forall (sensible sopt) ks -> test_ok D test ->
  gp_init inv cho cho_solve fp tgt ks None reg rb sopt false = Ok s ->
  (forall i, (i < length fp)%nat -> nth i tgt 0 = Sum nb (fun b => beta b * nth b (basis (nth i fp [])) 0)) ->
  fixed_basis inv s basis nb test = Ok p ->
  length p = length test /\
  forall i, (i < length test)%nat -> nth i p 0 = Sum nb (fun b => beta b * nth b (basis (nth i test [])) 0).
Proof.
  intros inv cho cho_solve D fp tgt ks reg rb sopt s basis nb beta test p HO HI HSe [TN TR] E HB H.
  destruct (init_facts _ _ _ HO _ _ _ _ _ _ _ _ _ HI E) as (ks' & b0 & EP & T & El & Es & Er & _ & _ & HL & ET & _).
  cbn in ET. injection ET as Esc Ef Et. pose proof (prepare_sensible _ _ _ _ _ _ _ EP HSe) as HS'.
  assert (ST : scale_test s test = test) by (unfold scale_test; rewrite Es; auto).
  unfold fixed_basis in H. rewrite ST in H. cbv zeta in H.
  destruct (test_covariance_trained s ks' D T test TN TR) as [K [EK [N1 [N2 HK]]]]. rewrite EK in H. cbn [bind] in H.
  rewrite N2, (t_nr _ _ _ T), (t_nc _ _ _ T), (t_len _ _ _ T), Nat.eqb_refl in H. cbn [andb negb] in H.
  rewrite (make_prediction_trained s ks' D T K _ N2 N1) in H.
  set (n := length (g_fp s)) in *. assert (En : n = length fp) by (unfold n; rewrite Ef; auto).
  set (C := at_ (g_cinv s)) in *.
  set (Hm := fun i b => nth b (row_at (map basis (g_fp s)) i) 0).
  set (Ht := fun i b => nth b (row_at (map basis test) i) 0).
  match type of H with bind (inv ?m) _ = _ => set (M := m) in * end.
  destruct (inv M) as [b1|] eqn:EI; [|discriminate]. cbn [bind] in H. destruct (o_inv _ _ HO _ _ EI) as [_ [_ [_ J]]].
  cbn [M nr at_] in J. unfold rescale in H. rewrite Es in H. rewrite tabulate_length in H.
  assert (Ep := H). injection Ep as <-. clear H. split; [apply tabulate_length|]. intros i Hi. rewrite nth_tabulate by auto.
  rewrite nth_tabulate by auto.
  (* symmetry of the inverse *)
  destruct (kappa_symm_psd D ks' (g_log s) (t_eval _ _ _ T) ltac:(rewrite El; auto) (t_ks _ _ _ T)) as [KS _].
  assert (CS : symm n C).
  { eapply inverse_symm; [|apply (t_inv _ _ _ T)]. intros a c Ha Hc. cbv beta.
    rewrite (KS (row_at (g_fp s) a)) by (apply row_at_length; auto; apply (t_rect _ _ _ T)). unfold ident. rewrite (Nat.eqb_sym c a). auto. }
  set (CH := fun j b => Sum n (fun l => C j l * Hm l b)).
  assert (TB : forall j, (j < n)%nat -> nth j (g_target s) 0 = Sum nb (fun b => beta b * Hm j b)).
  { intros j Hj. rewrite Et, HB by lia. apply Sum_ext. intros b _. unfold Hm. rewrite Ef, row_at_map by lia. auto. }
  (* weights *)
  assert (W : forall j, (j < n)%nat -> weights s j = Sum nb (fun b => beta b * CH j b)).
  { intros j Hj. unfold weights, mulv, vnth. fold n C. rewrite (Sum_ext n _ (fun l => Sum nb (fun b => beta b * (C j l * Hm l b)))).
    - rewrite Sum_swap. apply Sum_ext. intros b _. unfold CH. rewrite <- Sum_scal. auto.
    - intros l Hl. rewrite TB by auto. rewrite <- Sum_scal. apply Sum_ext. intros; ring. }
  set (Mf := fun a b => Sum n (fun i => Hm i a * CH i b)).
  assert (MS : symm nb Mf).
  { intros a c Ha Hc. unfold Mf, CH.
    rewrite (Sum_ext n (fun i => Hm i a * Sum n (fun l => C i l * Hm l c)) (fun i => Sum n (fun l => Hm i a * (C i l * Hm l c))))
      by (intros; rewrite Sum_scal; auto).
    rewrite Sum_swap. apply Sum_ext. intros l Hl. rewrite <- Sum_scal. apply Sum_ext. intros j Hj. rewrite (CS j l) by auto. ring. }
  assert (BH : forall a, (a < nb)%nat ->
     Sum nb (fun b => at_ b1 a b * Sum n (fun i => nth i (g_target s) 0 * CH i b)) = beta a).
  { intros a Ha. rewrite <- (mulv_inverse' nb Mf (at_ b1) beta J a Ha). unfold mulv. apply Sum_ext. intros b Hb. f_equal.
    rewrite (Sum_ext n _ (fun j => Sum nb (fun c => beta c * (Hm j c * CH j b)))).
    - rewrite Sum_swap. apply Sum_ext. intros c Hc. rewrite Sum_scal, Rmult_comm. f_equal. change (Mf c b = Mf b c). apply MS; auto.
    - intros j Hj. rewrite TB by auto. rewrite <- Sum_scal_r. apply Sum_ext. intros; ring. }
  rewrite (Sum_ext nb _ (fun b => beta b * Ht i b - beta b * Sum n (fun j => at_ K i j * CH j b))).
  2:{ intros b Hb. change (at_ (rows_mx (length test) nb (map basis test)) i b) with (Ht i b). 
      transitivity (beta b * (Ht i b - Sum n (fun j => at_ K i j * CH j b))); [|ring]. f_equal. apply BH. auto. }
  rewrite Sum_minus.
  rewrite (Sum_ext n (fun j => at_ K i j * weights s j) (fun j => Sum nb (fun b => beta b * (at_ K i j * CH j b)))).
  2:{ intros j Hj. rewrite W by auto. rewrite <- Sum_scal. apply Sum_ext. intros; ring. }
  rewrite Sum_swap. rewrite (Sum_ext nb (fun j => Sum n _) (fun b => beta b * Sum n (fun j => at_ K i j * CH j b))) by (intros; rewrite Sum_scal; auto).
  rewrite (Sum_ext nb (fun b => beta b * nth b (basis (nth i test [])) 0) (fun b => beta b * Ht i b)); [lra|].
  intros b _. unfold Ht. rewrite row_at_map by auto. auto.
Qed.
Print Assumptions fixed_basis_reproduces_partial.

(** With scaled data the contribution of the basis is added without scaling it back:
    targets 0 and 4 at features 0 and 2 are twice the only basis function x, but the
    prediction at 2 is 11/3. *)
Lemma scaled_linear4 : scale_train [[0]; [2]] [0; 4] = (PrepModel.mkSD [1] [1] 2 2, [[-1]; [1]], [-1; 1]).
Proof.
  assert (M : mean [0; 2] = 1) by (unfold mean; cbn; lra).
  assert (Sd : std [0; 2] = 1).
  { unfold std, var. rewrite M. unfold mean. cbn. replace (_ / _) with 1 by lra. apply sqrt_1. }
  assert (M4 : mean [0; 4] = 2) by (unfold mean; cbn; lra).
  assert (Sd4 : std [0; 4] = 2).
  { unfold std, var. rewrite M4. unfold mean. cbn. replace (_ / _) with (2 * 2) by lra. apply sqrt_square. lra. }
  unfold scale_train, PrepModel.sd_train, PrepModel.target_standardize. cbn.
  rewrite M, Sd, M4, Sd4. unfold PrepModel.ndiv. replace (Reqb 1 0) with false by (symmetry; apply Reqb_false; lra).
  replace (Reqb 2 0) with false by (symmetry; apply Reqb_false; lra).
  repeat (f_equal; try lra).
Qed.

Theorem fixed_basis_scaled_refuted : forall inv cho cho_solve, oracles_ok inv cho -> oracles_total inv cho ->
  exists s, gp_init inv cho cho_solve [[0]; [2]] [0; 4] [bare KLinear] None 1 None false true = Ok s /\
    fixed_basis inv s (fun r => r) 1 [[2]] = Ok [11 / 3].
Proof.
  intros inv cho cho_solve HO HC. pose proof HO as [SI SC]. pose proof HC as [CI CC].
  assert (HU : Forall (usable 1) [bare KLinear]) by (repeat constructor; cbn; auto; discriminate).
  assert (G : exists s, gp_init inv cho cho_solve [[0]; [2]] [0; 4] [bare KLinear] None 1 None false true = Ok s).
  { eapply (gp_init_ok inv cho cho_solve SI _ _ _ _ _ _ _ 1%nat [bare KLinear]); eauto; try discriminate; try reflexivity;
      [repeat constructor|repeat constructor; cbn; auto|cbn; lra]. }
  destruct G as [s E]. exists s. split; [exact E|].
  assert (HI : inputs_ok 1 [[0]; [2]] [bare KLinear]) by (constructor; try discriminate; auto; repeat constructor).
  destruct (init_facts _ _ _ HO _ _ _ _ _ _ _ _ _ HI E) as (ks' & b & EP & T & El & Es & Er & _ & _ & _ & ET & _).
  unfold train_data in ET. rewrite scaled_linear4 in ET. injection ET as E1 E2 E3. cbn in EP. injection EP as <- <-.
  assert (ST : scale_test s [[2]] = [[1]]) by (unfold scale_test; rewrite Es, E1; cbn; repeat (f_equal; try lra)).
  unfold fixed_basis. rewrite ST. cbv zeta.
  destruct (test_covariance_trained s _ 1 T [[1]]) as [K [EK [N1 [N2 HK]]]]; [discriminate|repeat constructor|]. rewrite EK. cbn [bind].
  rewrite N2, (t_nr _ _ _ T), (t_nc _ _ _ T), (t_len _ _ _ T), Nat.eqb_refl. cbn [andb negb].
  rewrite (make_prediction_trained s _ 1 T K _ N2 N1). rewrite E2 in *. cbn [length] in *.
  pose proof (t_inv _ _ _ T) as V. rewrite E2, El, Er in V. cbn [length] in V. rewrite El in HK.
  set (k := fun i : nat => match i with O => -1 | S O => 1 | _ => 0 end).
  assert (Bk : eqv 2 (mulv 2 (at_ (g_cinv s)) k) (fun i => k i / 3)).
  { intros i Hi. rewrite <- (mulv_inverse' _ _ _ (fun i => k i / 3) V i Hi). apply mulv_ext; [apply eqm_refl| |auto].
    intros j Hj. unfold mulv. cbn [Sum]. unfold row_at, ident, logged.
    destruct j as [|[|j]]; [| |lia]; cbn [nth Nat.eqb]; rewrite !kappa_lin; cbn; lra. }
  pose proof (Bk 0%nat ltac:(lia)) as B0. pose proof (Bk 1%nat ltac:(lia)) as B1. unfold mulv in B0, B1. cbn [Sum k] in B0, B1.
  assert (K0 : at_ K 0 0 = -1) by (rewrite HK by lia; unfold row_at; cbn [nth]; rewrite kappa_lin; lra).
  assert (K1 : at_ K 0 1 = 1) by (rewrite HK by lia; unfold row_at; cbn [nth]; rewrite kappa_lin; lra).
  match goal with |- bind (inv ?m) _ = _ => set (M := m) end.
  assert (M0 : at_ M 0 0 = 2 / 3).
  { unfold M. cbn [at_ rows_mx Sum map row_at nth]. cbn in *. lra. }
  destruct (CI M) as [b1 EI]; [reflexivity| | |].
  { intros i j Hi Hj. cbn in Hi, Hj. replace i with 0%nat by lia. replace j with 0%nat by lia. auto. }
  { intros v [j [Hj Hv]]. change (nr M) with 1%nat in *. replace j with 0%nat in Hv by lia. unfold quad. cbn [Sum]. rewrite M0. nra. }
  rewrite EI. cbn [bind]. destruct (SI _ _ EI) as [_ [_ [_ J]]]. change (nr M) with 1%nat in J.
  pose proof (inverse_1 _ _ J ltac:(rewrite M0; lra)) as I1. rewrite M0 in I1.
  unfold rescale. rewrite Es, E1. rewrite map_length, tabulate_length. cbn [length]. unfold tabulate. cbn [seq map nth Sum]. f_equal. f_equal.
  unfold weights, mulv, vnth. rewrite E2, E3. cbn [length Sum nth]. rewrite I1, K0, K1. cbn [rows_mx at_ map row_at nth PrepModel.t_std PrepModel.t_mean].
  set (a := at_ (g_cinv s) 0 0) in *. set (c := at_ (g_cinv s) 0 1) in *. set (d := at_ (g_cinv s) 1 0) in *. set (e := at_ (g_cinv s) 1 1) in *.
  assert (P : - a + c = -1 / 3) by lra. assert (Q : - d + e = 1 / 3) by lra.
  replace a with (c + 1 / 3) by lra. replace d with (e - 1 / 3) by lra. cbn. field.
Qed.
Print Assumptions fixed_basis_scaled_refuted.
