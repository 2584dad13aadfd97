(** Reference oracles, training order, scaled data. *)
From Coq Require Import Reals Lra Lia List Arith Bool Permutation.
From Verif Require Import Base BaseFacts RBase LinAlg LogDet KernModel KernProofs KernSetupProofs KernDefProofs
  KernScaleProofs KernEntryProofs KernProperties GPModel GPProofs.
From Verif Require PrepModel PrepProofs.
Import ListNotations.
Open Scope R_scope.

(** ** Oracles that meet the contracts *)
Definition forall_lt (n : nat) (f : nat -> bool) : bool := forallb f (seq 0 n).
Lemma forall_lt_spec n f : forall_lt n f = true <-> forall i, (i < n)%nat -> f i = true.
Proof.
  unfold forall_lt. rewrite forallb_forall. split; intros H i Hi; apply H; [apply in_seq; lia|apply in_seq in Hi; lia].
Qed.

Definition eqmb (n : nat) (A B : mat) : bool := forall_lt n (fun i => forall_lt n (fun j => Reqb (A i j) (B i j))).
Lemma eqmb_spec n A B : eqmb n A B = true <-> eqm n A B.
Proof.
  unfold eqmb, eqm. rewrite forall_lt_spec. split.
  - intros H i j Hi Hj. specialize (H i Hi). rewrite forall_lt_spec in H. apply Reqb_true. auto.
  - intros H i Hi. apply forall_lt_spec. intros j Hj. apply Reqb_true. auto.
Qed.

(** Compute a candidate and check it. *)
Definition ref_inv (M : matrix) : result matrix :=
  let n := nr M in
  let B := ginv n (at_ M) in
  if ((nr M =? nc M)%nat && eqmb n (mulm n (at_ M) B) ident && eqmb n (mulm n B (at_ M)) ident)%bool
  then Ok (Mx n n B) else Err LinAlgError.

Definition ref_cho (M : matrix) : result matrix :=
  let n := nr M in
  let L := gchol n (at_ M) in
  if ((nr M =? nc M)%nat && forall_lt n (fun i => forall_lt n (fun j => negb (i <? j)%nat || Reqb (L i j) 0)) &&
      forall_lt n (fun i => Rltb 0 (L i i)) && eqmb n (fun i j => Sum n (fun k => L i k * L j k)) (at_ M))%bool
  then Ok (Mx n n L) else Err LinAlgError.

Lemma ref_inv_sound : sound_inv ref_inv.
Proof.
  intros M C H. unfold ref_inv in H. cbv zeta in H.
  destruct (Nat.eqb_spec (nr M) (nc M)) as [E|]; [|discriminate]. cbn [andb] in H.
  destruct (eqmb _ (mulm _ (at_ M) _) ident) eqn:E1; [|discriminate].
  destruct (eqmb _ (mulm _ _ (at_ M)) ident) eqn:E2; [|discriminate]. cbn in H. injection H as <-. cbn.
  split; [auto|]. split; [auto|]. split; [auto|]. split; apply eqmb_spec; auto.
Qed.

Lemma ref_inv_complete : complete_inv ref_inv.
Proof.
  intros M E HS HP. destruct (ginv_inverse _ _ HS HP) as [H1 H2]. unfold ref_inv. cbv zeta.
  replace (nr M =? nc M)%nat with true by (symmetry; apply Nat.eqb_eq; auto).
  apply eqmb_spec in H1. apply eqmb_spec in H2. rewrite H1, H2. cbn. eauto.
Qed.

Lemma ref_cho_sound : sound_cho ref_cho.
Proof.
  intros M C H. unfold ref_cho in H. cbv zeta in H.
  destruct (Nat.eqb_spec (nr M) (nc M)) as [E|]; [|discriminate]. cbn [andb] in H.
  destruct (forall_lt (nr M) (fun i => forall_lt _ _)) eqn:E1; [|discriminate].
  destruct (forall_lt (nr M) (fun i => Rltb 0 _)) eqn:E2; [|discriminate].
  destruct (eqmb _ _ _) eqn:E3; [|discriminate]. cbn in H. injection H as <-. cbn.
  split; [auto|]. split; [auto|]. split; [auto|]. split; [|split].
  - intros i j Hi Hj Hij. rewrite forall_lt_spec in E1. specialize (E1 i Hi). rewrite forall_lt_spec in E1. specialize (E1 j Hj).
    apply Nat.ltb_lt in Hij. rewrite Hij in E1. cbn in E1. apply Reqb_true in E1. auto.
  - intros i Hi. rewrite forall_lt_spec in E2. apply Rltb_true. auto.
  - intros i j Hi Hj. apply eqmb_spec in E3. apply (E3 i j Hi Hj).
Qed.

Lemma ref_cho_complete : complete_cho ref_cho.
Proof.
  intros M E HS HP. destruct (gchol_cholesky _ _ HS HP) as [H1 [H2 H3]]. unfold ref_cho. cbv zeta.
  replace (nr M =? nc M)%nat with true by (symmetry; apply Nat.eqb_eq; auto). cbn [andb].
  replace (forall_lt (nr M) (fun i => forall_lt _ _)) with true.
  2:{ symmetry. apply forall_lt_spec. intros i Hi. apply forall_lt_spec. intros j Hj. destruct (Nat.ltb_spec i j); cbn; auto.
      apply Reqb_true. auto. }
  replace (forall_lt (nr M) (fun i => Rltb 0 _)) with true.
  2:{ symmetry. apply forall_lt_spec. intros i Hi. apply Rltb_true. auto. }
  replace (eqmb _ _ _) with true. 2:{ symmetry. apply eqmb_spec. intros i j Hi Hj. auto. }
  cbn. eauto.
Qed.

(** ** Sensible hyperparameters stay sensible *)
Lemma format_vec_all (Q : R -> Prop) v nd l : format_vec v nd = Ok l ->
  match v with Num x => Q x | Arr a => Forall Q a end -> Forall Q l.
Proof.
  destruct v as [x|a]; cbn.
  - intros [= <-] H. apply Forall_forall. intros y Hy. apply repeat_spec in Hy. subst. auto.
  - destruct (length a =? nd)%nat; [intros [= <-]; auto|discriminate].
Qed.

Lemma prepare_kernel_sensible k nd dflt k' b log_scale : prepare_kernel k nd dflt = Ok (k', b) -> sensible log_scale k -> sensible log_scale k'.
Proof.
  intros H HS. unfold prepare_kernel in H. destruct (k_type k) as [t|]; [|discriminate]. cbv zeta in H.
  apply require_ok in H. destruct H as [_ H]. apply require_ok in H. destruct H as [_ H].
  set (c := match k_dimension k with Some Single => 1%nat | _ => _ end) in H.
  destruct (match k_scaling k with Some _ => scaling_setup k dflt | None => Ok [] end) as [sb|]; [|discriminate]. cbn [bind] in H.
  destruct (type_setup t k c dflt) as [[k1 b1]|] eqn:E; [|discriminate]. cbn in H. injection H as <- _.
  destruct HS as [S1 S2 S3 S4 S5 S6].
  unfold type_setup in E. destruct t; try discriminate E; try (injection E as <- _; constructor; auto; fail).
  - apply require_ok in E. destruct E as [_ E]. destruct (k_const k) eqn:Ec; [|discriminate]. injection E as <- _. constructor; rewrite ?Ec; auto.
  - apply require_ok in E. destruct E as [_ E]. injection E as <- _. constructor; auto.
  - apply require_ok in E. destruct E as [_ E]. injection E as <- _. constructor; auto.
  - destruct (k_width k) as [w|] eqn:Ew; [|discriminate]. apply require_ok in E. destruct E as [_ E].
    destruct (format_vec w c) as [l|] eqn:El; [|discriminate]. cbn [bind] in E. apply require_ok in E. destruct E as [_ E].
    injection E as <- _. constructor; auto. intros Hl. cbn. eapply format_vec_all; eauto. destruct w; cbn; apply S6; auto.
  - destruct (k_slope k) as [w|] eqn:Ew; [|discriminate]. destruct (k_degree k) eqn:Ed; [|discriminate].
    apply require_ok in E. destruct E as [_ E].
    destruct (format_vec w c) as [l|] eqn:El; [|discriminate]. cbn [bind] in E.
    injection E as <- _. constructor; cbn; auto; intros Hl.
    + eapply format_vec_all; eauto. specialize (S3 Hl). destruct w; cbn in *; auto.
    + rewrite Ed. auto.
    + eapply format_vec_all; eauto. specialize (S5 Hl). destruct w; cbn in *; auto.
  - destruct (k_width k) as [w|] eqn:Ew; [|discriminate]. apply require_ok in E. destruct E as [_ E].
    destruct (format_vec w c) as [l|] eqn:El; [|discriminate]. cbn [bind] in E.
    injection E as <- _. constructor; auto. intros Hl. cbn. eapply format_vec_all; eauto. destruct w; cbn; apply S6; auto.
Qed.

Lemma prepare_sensible ks rb g nd ks' b log_scale : prepare_kernels ks rb g nd = Ok (ks', b) ->
  Forall (sensible log_scale) ks -> Forall (sensible log_scale) ks'.
Proof.
  unfold prepare_kernels. intros H HS. destruct (prepare_loop ks nd (default_bound g)) as [[k1 b1]|] eqn:E; [|discriminate].
  injection H as <- _. cbn. revert k1 b1 E. induction ks as [|k ks IH]; intros k1 b1 E; cbn [prepare_loop] in E.
  - injection E as <- _. auto.
  - apply Forall_cons_iff in HS. destruct HS as [HS1 HS2].
    destruct (prepare_kernel k nd (default_bound g)) as [[k2 b2]|] eqn:E2; [|discriminate]. cbn [bind] in E.
    destruct (prepare_loop ks nd (default_bound g)) as [[k3 b3]|] eqn:E3; [|discriminate]. injection E as <- _. cbn.
    constructor; [eapply prepare_kernel_sensible; eauto|eapply IH; eauto].
Qed.

(** ** Training order *)
Section Order.
Variables (s s' : gp) (ks : list kdict) (D : nat) (p : list nat).
Hypothesis T : trained s ks D.
Hypothesis T' : trained s' ks D.
Hypothesis Elog : g_log s' = g_log s.
Hypothesis Ereg : g_reg s' = g_reg s.
Hypothesis Escale : g_scale s' = g_scale s.
Hypothesis Escaling : g_scaling s' = g_scaling s.
Hypothesis P : Permutation p (seq 0 (length (g_fp s))).
Hypothesis Efp : g_fp s' = gather [] (g_fp s) p.
Hypothesis Etg : g_target s' = gather 0 (g_target s) p.
Local Notation n := (length (g_fp s)).

Lemma order_length : length (g_fp s') = n.
Proof. rewrite Efp, gather_length, (Permutation_length P), seq_length. auto. Qed.

Lemma order_p : length p = n.
Proof. rewrite (Permutation_length P), seq_length. auto. Qed.

Lemma order_row i : (i < n)%nat -> row_at (g_fp s') i = row_at (g_fp s) (nth i p 0%nat).
Proof. intros Hi. unfold row_at. rewrite Efp, nth_gather by (rewrite order_p; auto). auto. Qed.

Lemma order_target i : (i < n)%nat -> nth i (g_target s') 0 = nth (nth i p 0%nat) (g_target s) 0.
Proof. intros Hi. rewrite Etg, nth_gather by (rewrite order_p; auto). auto. Qed.

Lemma order_cinv : eqm n (at_ (g_cinv s')) (permm p (at_ (g_cinv s))).
Proof.
  pose proof (t_inv _ _ _ T) as I0. pose proof (t_inv _ _ _ T') as I1. rewrite order_length, Elog, Ereg in I1.
  apply (inverse_unique n (permm p (fun i j => kappa ks (g_log s) (row_at (g_fp s) i) (row_at (g_fp s) j) +
    (logged (g_log s) (g_reg s) * ident i j) ^ 2))).
  - eapply inverse_ext; [|apply eqm_refl|exact I1]. intros i j Hi Hj. unfold permm. rewrite !order_row by auto. f_equal. f_equal. f_equal.
    unfold ident. destruct (Nat.eqb_spec i j) as [->|N]; [rewrite Nat.eqb_refl; auto|].
    destruct (Nat.eqb_spec (nth i p 0%nat) (nth j p 0%nat)) as [E|]; auto. exfalso. apply N. eapply perm_inj; eauto.
  - apply inverse_perm; auto.
Qed.

Lemma order_weights i : (i < n)%nat -> weights s' i = weights s (nth i p 0%nat).
Proof.
  intros Hi. unfold weights. rewrite order_length.
  rewrite (mulv_ext n _ (permm p (at_ (g_cinv s))) _ (permv p (vnth (g_target s))) order_cinv); auto.
  - rewrite mulv_perm; auto.
  - intros j Hj. unfold vnth, permv. apply order_target; auto.
Qed.

Lemma order_predict test : scale_test s test <> [] -> rectangular (scale_test s test) D -> predict s' test = predict s test.
Proof.
  intros HN HR. assert (ES : scale_test s' test = scale_test s test) by (unfold scale_test; rewrite Escale, Escaling; auto).
  rewrite (predict_trained s ks D T) by auto. rewrite (predict_trained s' ks D T') by (rewrite ES; auto).
  rewrite ES, order_length, Elog. f_equal. unfold rescale. rewrite Escale, Escaling.
  assert (E : tabulate (length (scale_test s test)) (fun i => Sum n (fun j => kappa ks (g_log s) (row_at (scale_test s test) i) (row_at (g_fp s') j) * weights s' j))
      = tabulate (length (scale_test s test)) (fun i => Sum n (fun j => kappa ks (g_log s) (row_at (scale_test s test) i) (row_at (g_fp s) j) * weights s j))).
  { apply tabulate_ext. intros i Hi.
    rewrite <- (Sum_perm n p (fun j => kappa ks (g_log s) (row_at (scale_test s test) i) (row_at (g_fp s) j) * weights s j) P).
    apply Sum_ext. intros j Hj. rewrite order_row, order_weights by auto. auto. }
  rewrite E. auto.
Qed.

Lemma order_reduction x : reduction s' ks x = reduction s ks x.
Proof.
  unfold reduction. rewrite order_length, Elog.
  rewrite (quad_ext n _ (permm p (at_ (g_cinv s))) _ (permv p (fun j => kappa ks (g_log s) x (row_at (g_fp s) j))) order_cinv).
  - rewrite !quad_dot. rewrite <- (dotv_perm n p (fun j => kappa ks (g_log s) x (row_at (g_fp s) j))) by auto.
    apply dotv_ext; [intros ? ?; auto|]. intros i Hi. rewrite mulv_perm by auto. auto.
  - intros i Hi. unfold permv. rewrite order_row by auto. auto.
Qed.

Lemma order_fit :
  Sum n (fun i => nth i (g_target s') 0 * Sum n (fun j => at_ (g_cinv s') i j * nth j (g_target s') 0)) =
  Sum n (fun i => nth i (g_target s) 0 * Sum n (fun j => at_ (g_cinv s) i j * nth j (g_target s) 0)).
Proof.
  rewrite <- (Sum_perm n p (fun i => nth i (g_target s) 0 * Sum n (fun j => at_ (g_cinv s) i j * nth j (g_target s) 0)) P).
  apply Sum_ext. intros i Hi. rewrite order_target by auto. f_equal.
  pose proof (order_weights i Hi) as E. unfold weights, mulv in E. rewrite order_length in E. exact E.
Qed.
End Order.

Lemma uncertainty_trained s ks D test : trained s ks D -> scale_test s test <> [] -> rectangular (scale_test s test) D ->
  predict_with_uncertainty s test = Ok (finish_uncertainty s (tabulate (length (scale_test s test)) (fun i =>
    sqrt (kappa ks (g_log s) (row_at (scale_test s test) i) (row_at (scale_test s test) i) -
          reduction s ks (row_at (scale_test s test) i))))).
Proof.
  intros T HN HR. unfold predict_with_uncertainty. destruct (test_covariance_trained s ks D T _ HN HR) as [K [EK [N1 [N2 _]]]].
  cbv zeta. rewrite EK. cbn [bind]. rewrite (make_prediction_trained s ks D T K _ N2 N1). cbn [bind].
  unfold get_uncertainty. rewrite (variance_trained s ks D T _ K HN HR EK). cbn [bind].
  unfold tabulate. rewrite map_map. auto.
Qed.

Lemma predict_uncertainty_trained s ks D test : trained s ks D -> test <> [] -> rectangular test D ->
  predict_uncertainty s test = Ok (finish_uncertainty s (tabulate (length test) (fun i =>
    sqrt (kappa ks (g_log s) (row_at test i) (row_at test i) - reduction s ks (row_at test i))))).
Proof.
  intros T HN HR. unfold predict_uncertainty. destruct (test_covariance_trained s ks D T _ HN HR) as [K [EK [N1 [N2 _]]]].
  rewrite EK. cbn [bind].
  unfold get_uncertainty. rewrite (variance_trained s ks D T _ K HN HR EK). cbn [bind].
  unfold tabulate. rewrite map_map. auto.
Qed.

(** ** Permuting the data before scaling *)
Lemma col_perm j m m' : Permutation m m' -> Permutation (PrepModel.col 0 j m) (PrepModel.col 0 j m').
Proof. intros H. apply Permutation_map. auto. Qed.

Lemma sumR_perm l l' : Permutation l l' -> sumR l' = sumR l.
Proof. induction 1; cbn; auto; unfold sumR in *; cbn in *; lra. Qed.

Lemma mean_perm l l' : Permutation l l' -> mean l' = mean l.
Proof. intros P. unfold mean. rewrite (sumR_perm _ _ P), (Permutation_length P). auto. Qed.

Lemma std_perm l l' : Permutation l l' -> std l' = std l.
Proof. intros P. unfold std, var. f_equal. rewrite (mean_perm l l' P). apply mean_perm. apply Permutation_map. auto. Qed.

Lemma train_data_perm sdata fp tgt p D sc f1 t1 : fp <> [] -> rectangular fp D -> length fp = length tgt ->
  Permutation p (seq 0 (length fp)) ->
  train_data sdata fp tgt = (sc, f1, t1) ->
  train_data sdata (gather [] fp p) (gather 0 tgt p) = (sc, gather [] f1 p, gather 0 t1 p).
Proof.
  intros HN HR HL P H. unfold train_data in *. destruct sdata; [|injection H as <- <- <-; auto].
  pose proof (gather_perm [] fp P) as P1. assert (P2 : Permutation (gather 0 tgt p) tgt) by (apply gather_perm; rewrite <- HL; auto).
  assert (HN' : gather [] fp p <> []) by (intros E; rewrite E in P1; apply Permutation_nil in P1; auto).
  assert (HR' : rectangular (gather [] fp p) D).
  { unfold rectangular. apply Forall_forall. intros r Hr. unfold rectangular in HR. rewrite Forall_forall in HR. apply HR. eapply Permutation_in; eauto. }
  assert (W : PrepModel.width fp = D) by (apply PrepProofs.rect_width; auto).
  assert (W' : PrepModel.width (gather [] fp p) = D) by (apply PrepProofs.rect_width; auto).
  unfold scale_train, PrepModel.sd_train, PrepModel.target_standardize in *. cbn in *. injection H as <- <- <-.
  assert (A : forall f : list R -> R, (forall l l', Permutation l l' -> f l' = f l) ->
     PrepModel.axis0 0 f (gather [] fp p) = PrepModel.axis0 0 f fp).
  { intros f Hf. unfold PrepModel.axis0. rewrite W, W'. apply map_ext. intros j. apply Hf. apply col_perm. apply Permutation_sym. auto. }
  rewrite !(A mean mean_perm), !(A std std_perm), (mean_perm _ _ (Permutation_sym P2)), (std_perm _ _ (Permutation_sym P2)).
  f_equal.
  - f_equal. unfold PrepModel.scale_matrix, gather. rewrite !map_map. apply map_ext_in. intros i Hi.
    assert (Hi' : (i < length fp)%nat) by (pose proof (Permutation_in _ P Hi) as Q; apply in_seq in Q; lia).
    rewrite (nth_map_lt _ _ _ []) by auto. auto.
  - unfold gather. rewrite !map_map. apply map_ext_in. intros i Hi.
    assert (Hi' : (i < length tgt)%nat) by (pose proof (Permutation_in _ P Hi) as Q; apply in_seq in Q; lia).
    rewrite (nth_map_lt _ _ _ 0) by (rewrite ?map_length; auto). auto.
Qed.
