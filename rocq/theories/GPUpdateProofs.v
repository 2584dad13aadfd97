(** Proofs about updating models and about scaled data. *)
From Coq Require Import Reals Lra Lia List Arith Bool Permutation.
From Verif Require Import Base BaseFacts RBase LinAlg LogDet KernModel KernProofs KernSetupProofs KernDefProofs
  KernScaleProofs KernEntryProofs KernProperties GPModel GPProofs GPMoreProofs GPProperties.
From Verif Require PrepModel PrepProofs.
Import ListNotations.
Open Scope R_scope.

(** ** Models that differ in their scaling only *)
Definition with_scaling (s : gp) (b : bool) (sc : option PrepModel.scale_data) : gp :=
  GP (g_nd s) (g_reg s) (g_log s) b (g_grad s) (g_kernels s) (g_bounds s) sc (g_fp s) (g_target s) (g_cinv s) (g_lml s).

Lemma update_lml_with cho cho_solve s b sc :
  update_lml cho cho_solve (with_scaling s b sc) = bind (update_lml cho cho_solve s) (fun s' => Ok (with_scaling s' b sc)).
Proof.
  unfold update_lml. cbn [with_scaling g_kernels g_nd g_reg g_fp g_target g_log g_grad g_cinv g_scale g_bounds g_scaling].
  destruct (kdicts2list (g_kernels s) (g_nd s)); cbn [bind]; auto.
  destruct (neg_lml _ _ _ _ _ _ _ _ _); cbn [bind]; auto.
Qed.

(** Training on scaled data is training on the transformed data. *)
Lemma init_scaled inv cho cho_solve fp tgt ks reg rb sopt D : fp <> [] -> rectangular fp D -> length fp = length tgt ->
  let '(sd, fp', t') := scale_train fp tgt in
  gp_init inv cho cho_solve fp tgt ks None reg rb sopt true =
  bind (gp_init inv cho cho_solve fp' t' ks None reg rb sopt false) (fun s => Ok (with_scaling s true (Some sd))).
Proof.
  intros HN HR HL. pose proof (scale_train_shape fp tgt D HN HR) as Q.
  destruct (scale_train fp tgt) as [[sd f1] t1] eqn:ES. destruct Q as [_ [R1 [L1 [L2 _]]]].
  assert (N1 : f1 <> []) by (destruct fp, f1; cbn in *; congruence).
  unfold gp_init. replace (length f1 =? length t1)%nat with (length fp =? length tgt)%nat by (rewrite L1, L2; auto).
  destruct (Nat.eqb_spec (length fp) (length tgt)); [|contradiction]. cbn [negb is_some].
  rewrite (rectangular_ncols fp D HR HN), (rectangular_ncols f1 D R1 N1).
  destruct (prepare_kernels ks (init_bounds rb false) false D) as [[ks' b]|]; cbn [bind]; auto. cbn [fst snd].
  unfold update_data. cbn [g_nd g_scale g_scaling g_kernels g_reg g_grad g_log g_bounds g_lml option_map].
  rewrite (rectangular_ncols fp D HR HN), (rectangular_ncols f1 D R1 N1), Nat.eqb_refl. cbn [negb]. rewrite ES. cbn [bind].
  destruct (get_covariance ks' sopt f1 None (Some reg) false) as [K|]; cbn [bind]; auto.
  destruct (inv K) as [C|]; cbn [bind]; auto.
  exact (update_lml_with cho cho_solve (GP D reg sopt false false ks' b None f1 t1 C None) true (Some sd)).
Qed.

Lemma predict_with s sd test :
  predict (with_scaling s true (Some sd)) test =
  bind (predict (with_scaling s false None) (PrepModel.sd_test sd test)) (fun p =>
    Ok (map (fun x => x * PrepModel.t_std sd + PrepModel.t_mean sd) p)).
Proof.
  unfold predict. cbn [scale_test with_scaling g_scale g_scaling].
  change (test_covariance (with_scaling s true (Some sd))) with (test_covariance s).
  change (test_covariance (with_scaling s false None)) with (test_covariance s).
  destruct (test_covariance s (PrepModel.sd_test sd test)) as [K|]; cbn [bind]; auto.
  unfold make_prediction. cbn [with_scaling g_cinv g_target]. destruct (dot_vec (g_cinv s) (g_target s)) as [l|]; cbn [bind]; auto.
  destruct (dot_vec K l); cbn [bind]; auto.
Qed.

Lemma uncertainty_with s sd test :
  predict_with_uncertainty (with_scaling s true (Some sd)) test =
  bind (predict_with_uncertainty (with_scaling s false None) (PrepModel.sd_test sd test)) (fun p =>
    Ok (map (fun x => x * PrepModel.t_std sd) (fst p), map (fun x => x * PrepModel.t_std sd) (snd p))).
Proof.
  unfold predict_with_uncertainty. cbn [scale_test with_scaling g_scale g_scaling]. cbv zeta.
  change (test_covariance (with_scaling s true (Some sd))) with (test_covariance s).
  change (test_covariance (with_scaling s false None)) with (test_covariance s).
  destruct (test_covariance s (PrepModel.sd_test sd test)) as [K|]; cbn [bind]; auto.
  unfold make_prediction. cbn [with_scaling g_cinv g_target]. destruct (dot_vec (g_cinv s) (g_target s)) as [l|]; cbn [bind]; auto.
  destruct (dot_vec K l); cbn [bind]; auto. cbn [with_scaling g_kernels g_log].
  destruct (get_uncertainty (g_kernels s) (PrepModel.sd_test sd test) K (g_cinv s) (g_log s)) as [u|]; cbn [bind]; auto.
  unfold finish_uncertainty. cbn [with_scaling g_scale g_scaling g_reg fst snd]. rewrite !map_map. f_equal. f_equal; apply map_ext; intros; ring.
Qed.

(** ** Affine changes of the targets and of the features *)
Lemma mean_aff a b l : l <> [] -> mean (map (fun y => a * y + b) l) = a * mean l + b.
Proof.
  intros HN. unfold mean. rewrite map_length. assert (INR (length l) <> 0) by (apply not_0_INR; destruct l; cbn; congruence).
  replace (sumR (map (fun y => a * y + b) l)) with (a * sumR l + INR (length l) * b); [field; auto|].
  clear. induction l as [|x l IH]; [cbn; ring|]. cbn [map length]. rewrite S_INR. unfold sumR in *. cbn [fold_right] in *. rewrite <- IH. ring.
Qed.

Lemma std_aff a b l : l <> [] -> 0 <= a -> std (map (fun y => a * y + b) l) = a * std l.
Proof.
  intros HN Ha. unfold std. replace (var (map (fun y => a * y + b) l)) with (a ^ 2 * var l).
  - rewrite sqrt_mult by (try apply var_nonneg; nra). f_equal. replace (a ^ 2) with (a * a) by ring. apply sqrt_square. auto.
  - unfold var. rewrite mean_aff by auto. rewrite map_map.
    rewrite (map_ext (fun x => (a * x + b - (a * mean l + b)) ^ 2) (fun x => a ^ 2 * (x - mean l) ^ 2 + 0)) by (intros; ring).
    rewrite <- (map_map (fun x => (x - mean l) ^ 2) (fun y => a ^ 2 * y + 0)). rewrite mean_aff by (destruct l; [congruence|discriminate]). ring.
Qed.

Lemma scale_train_targets fp tgt a b sd fp' t' : tgt <> [] -> 0 < a -> std tgt <> 0 ->
  scale_train fp tgt = (sd, fp', t') ->
  scale_train fp (map (fun y => a * y + b) tgt) =
    (PrepModel.mkSD (PrepModel.f_mean sd) (PrepModel.f_std sd) (a * PrepModel.t_mean sd + b) (a * PrepModel.t_std sd), fp', t').
Proof.
  intros HN Ha HS H. unfold scale_train, PrepModel.sd_train, PrepModel.target_standardize in *. cbn in *. injection H as <- <- <-. cbn.
  rewrite mean_aff, std_aff by (auto; lra). f_equal. rewrite !map_map. apply map_ext. intros y. unfold PrepModel.ndiv.
  assert (a * std tgt <> 0) by (apply Rmult_integral_contrapositive_currified; lra).
  destruct (Reqb (std tgt) 0) eqn:E1; [apply Reqb_true in E1; contradiction|].
  destruct (Reqb (a * std tgt) 0) eqn:E2; [apply Reqb_true in E2; contradiction|]. field. split; lra.
Qed.

(** x_d becomes a_d x_d + b_d *)
Definition affine_row (a b : list R) (r : row) : row := tabulate (length r) (fun d => nth d a 0 * nth d r 0 + nth d b 0).

Lemma affine_row_length a b r : length (affine_row a b r) = length r.
Proof. apply tabulate_length. Qed.

Lemma col_affine a b m D d : rectangular m D -> (d < D)%nat ->
  PrepModel.col 0 d (map (affine_row a b) m) = map (fun x => nth d a 0 * x + nth d b 0) (PrepModel.col 0 d m).
Proof.
  intros HR Hd. unfold PrepModel.col. rewrite !map_map. apply map_ext_in. intros r Hr. unfold affine_row.
  unfold rectangular in HR. rewrite Forall_forall in HR. rewrite nth_tabulate; [auto|]. rewrite (HR r Hr). auto.
Qed.

Lemma rect_affine a b m D : rectangular m D -> rectangular (map (affine_row a b) m) D.
Proof.
  intros H. unfold rectangular. apply Forall_map. eapply Forall_impl; [|exact H]. intros r Hr. cbv beta. rewrite affine_row_length. auto.
Qed.

Lemma scale_train_features fp tgt a b sd fp' t' D : fp <> [] -> rectangular fp D ->
  (forall d, (d < D)%nat -> 0 < nth d a 0 /\ std (PrepModel.col 0 d fp) <> 0) ->
  scale_train fp tgt = (sd, fp', t') ->
  exists sd', scale_train (map (affine_row a b) fp) tgt = (sd', fp', t') /\
    PrepModel.t_mean sd' = PrepModel.t_mean sd /\ PrepModel.t_std sd' = PrepModel.t_std sd /\
    forall test, rectangular test D -> PrepModel.sd_test sd' (map (affine_row a b) test) = PrepModel.sd_test sd test.
Proof.
  intros HN HR Ha H. set (fpa := map (affine_row a b) fp).
  assert (HNa : fpa <> []) by (unfold fpa; destruct fp; [congruence|discriminate]).
  assert (HRa : rectangular fpa D) by (apply rect_affine; auto).
  assert (W : PrepModel.width fp = D) by (apply PrepProofs.rect_width; auto).
  assert (W' : PrepModel.width fpa = D) by (apply PrepProofs.rect_width; auto).
  set (mu := PrepModel.axis0 0 mean fp). set (sg := PrepModel.place_one (PrepModel.axis0 0 std fp)).
  set (mu' := PrepModel.axis0 0 mean fpa). set (sg' := PrepModel.place_one (PrepModel.axis0 0 std fpa)).
  assert (Lm : length mu = D) by (unfold mu; rewrite PrepProofs.axis0_length; auto).
  assert (Lm' : length mu' = D) by (unfold mu'; rewrite PrepProofs.axis0_length; auto).
  assert (Lg : length sg = D) by (unfold sg, PrepModel.place_one; rewrite map_length, PrepProofs.axis0_length; auto).
  assert (Lg' : length sg' = D) by (unfold sg', PrepModel.place_one; rewrite map_length, PrepProofs.axis0_length; auto).
  assert (G : forall r, length r = D -> PrepModel.scale_row mu' sg' (affine_row a b r) = PrepModel.scale_row mu sg r).
  { intros r Lr.
    assert (L1 : length (PrepModel.scale_row mu sg r) = D) by (etransitivity; [apply PrepProofs.scale_row_length|]; congruence).
    assert (L2 : length (PrepModel.scale_row mu' sg' (affine_row a b r)) = D).
    { etransitivity; [apply PrepProofs.scale_row_length|]; rewrite affine_row_length; congruence. }
    apply list_ext_nth with (d := 0); [congruence|]. intros d Hd. rewrite L2 in Hd. destruct (Ha d Hd) as [Ha1 Ha2].
    rewrite PrepProofs.nth_scale_row by (rewrite ?affine_row_length; congruence).
    rewrite PrepProofs.nth_scale_row by congruence.
    unfold affine_row. rewrite nth_tabulate by congruence.
    unfold mu, mu', sg, sg'. rewrite !PrepProofs.nth_place_one by (rewrite PrepProofs.axis0_length; congruence).
    rewrite !PrepProofs.nth_axis0 by congruence. unfold fpa. rewrite (col_affine a b fp D d HR Hd).
    assert (NC : PrepModel.col 0 d fp <> []) by (destruct fp; [congruence|discriminate]).
    rewrite mean_aff, std_aff by (auto; lra). set (sgd := std (PrepModel.col 0 d fp)) in *.
    assert (nth d a 0 * sgd <> 0) by (apply Rmult_integral_contrapositive_currified; lra).
    destruct (Reqb sgd 0) eqn:E1; [apply Reqb_true in E1; contradiction|].
    destruct (Reqb (nth d a 0 * sgd) 0) eqn:E2; [apply Reqb_true in E2; contradiction|]. field. split; lra. }
  assert (GM : forall m, rectangular m D -> PrepModel.scale_matrix mu' sg' (map (affine_row a b) m) = PrepModel.scale_matrix mu sg m).
  { intros m Hm. unfold PrepModel.scale_matrix. rewrite map_map. apply map_ext_in. intros r Hr. apply G.
    unfold rectangular in Hm. rewrite Forall_forall in Hm. auto. }
  unfold scale_train, PrepModel.sd_train, PrepModel.target_standardize in *. cbn in *. injection H as <- <- <-.
  exists (PrepModel.mkSD mu' sg' (mean tgt) (std tgt)). split; [|split; [|split]].
  - f_equal. f_equal. exact (GM fp HR).
  - reflexivity.
  - reflexivity.
  - intros test Ht. exact (GM test Ht).
Qed.

(** ** Updating *)
Definition not_quadratic (k : kdict) : Prop := k_type k <> Some KQuadratic.

Lemma boxed_id ks : Forall not_quadratic ks -> map boxed ks = ks.
Proof.
  induction 1 as [|k ks H HF IH]; cbn; [auto|]. rewrite IH. f_equal. unfold boxed, not_quadratic in *. destruct (k_type k) as [[]|]; auto. congruence.
Qed.

Lemma prepare_types ks rb g nd ks' b : prepare_kernels ks rb g nd = Ok (ks', b) -> Forall (usable nd) ks -> map k_type ks' = map k_type ks.
Proof.
  intros HP HU. unfold prepare_kernels in HP. destruct (prepare_loop ks nd (default_bound g)) as [[k1 b1]|] eqn:E; [|discriminate].
  cbn in HP. injection HP as <- _.
  destruct (prepare_loop_spec _ _ _ _ _ E) as [_ [H2 _]]; auto.
  { eapply Forall_impl; [|exact HU]; intros k [? ? ?]; auto. }
  { eapply Forall_impl; [|exact HU]; intros k [? ? ?]; auto. }
Qed.

Lemma not_quadratic_types ks ks' : map k_type ks' = map k_type ks -> Forall not_quadratic ks -> Forall not_quadratic ks'.
Proof.
  intros E H. assert (A : Forall (fun t => t <> Some KQuadratic) (map k_type ks')) by (rewrite E; apply Forall_map; exact H).
  apply (proj1 (Forall_map _ _ _)) in A. exact A.
Qed.

Lemma update_lml_lml cho cho_solve s l :
  update_lml cho cho_solve (GP (g_nd s) (g_reg s) (g_log s) (g_scale s) (g_grad s) (g_kernels s) (g_bounds s) (g_scaling s) (g_fp s) (g_target s) (g_cinv s) l) =
  update_lml cho cho_solve s.
Proof. reflexivity. Qed.

Lemma update_lml_idem cho cho_solve s s' : update_lml cho cho_solve s = Ok s' -> g_kernels s' = g_kernels s -> update_lml cho cho_solve s' = Ok s'.
Proof.
  intros H HK. unfold update_lml in H. destruct (kdicts2list (g_kernels s) (g_nd s)) as [th|] eqn:E1; [|discriminate]. cbn [bind] in H.
  destruct (neg_lml _ _ _ _ _ _ _ _ _) as [r|] eqn:E2; [|discriminate]. cbn [bind] in H. injection H as <-. cbn in HK.
  unfold update_lml. cbn [g_kernels g_nd g_reg g_fp g_target g_log g_grad g_cinv g_scale g_bounds g_scaling g_lml].
  rewrite HK, E1. cbn [bind]. rewrite E2. cbn [bind]. rewrite HK. auto.
Qed.

Section Update.
Variables (inv cho : matrix -> result matrix) (cho_solve : matrix -> list R -> list R).
Hypothesis O : oracles_ok inv cho.
Variables (D : nat) (fp : list row) (tgt : list R) (ks : list kdict) (reg : R) (rb : option bound) (sopt sdata : bool) (s : gp).
Hypothesis I : inputs_ok D fp ks.
Hypothesis NQ : Forall not_quadratic ks.
Hypothesis E : gp_init inv cho cho_solve fp tgt ks None reg rb sopt sdata = Ok s.

Lemma update_data_fresh fp2 tgt2 : fp2 <> [] -> rectangular fp2 D -> length fp2 = length tgt2 ->
  update_data inv cho cho_solve s fp2 (Some tgt2) None sopt = gp_init inv cho cho_solve fp2 tgt2 ks None reg rb sopt sdata.
Proof.
  intros HN HR HL.
  destruct (init_facts _ _ _ O _ _ _ _ _ _ _ _ _ I E) as (ks' & b & EP & T & El & Es & Er & En & Eb & _ & ET & _).
  unfold gp_init. replace (length fp2 =? length tgt2)%nat with true by (symmetry; apply Nat.eqb_eq; auto). cbn [negb is_some].
  rewrite (rectangular_ncols fp2 D HR HN), EP. cbn [bind fst snd].
  assert (EK : g_kernels s = ks').
  { rewrite (t_kernels _ _ _ T). apply boxed_id. eapply not_quadratic_types; [|exact NQ]. eapply prepare_types; eauto. destruct I; auto. }
  unfold update_data. rewrite En, Es, EK, Er, El, Eb, (t_grad _ _ _ T). cbn [g_nd g_scale g_scaling g_kernels g_reg g_grad g_log g_bounds g_lml option_map].
  rewrite (rectangular_ncols fp2 D HR HN), Nat.eqb_refl. cbn [negb].
  assert (SC : sdata = false -> g_scaling s = None) by (intros ->; cbn in ET; congruence).
  destruct sdata.
  - destruct (scale_train fp2 tgt2) as [[sd f1] t1]. cbn [bind].
    destruct (get_covariance ks' sopt f1 None (Some reg) false); reflexivity.
  - rewrite SC by auto. cbn [bind].
    destruct (get_covariance ks' sopt fp2 None (Some reg) false); reflexivity.
Qed.

Lemma update_gp_fresh fp2 tgt2 rb' : fp2 <> [] -> rectangular fp2 D -> length fp2 = length tgt2 ->
  update_gp inv cho cho_solve s (Some fp2) (Some tgt2) None sopt None rb' = gp_init inv cho cho_solve fp2 tgt2 ks None reg rb sopt sdata.
Proof.
  intros HN HR HL. pose proof (update_data_fresh fp2 tgt2 HN HR HL) as U.
  destruct (init_facts _ _ _ O _ _ _ _ _ _ _ _ _ I E) as (ks' & b & EP & T & El & Es & Er & En & Eb & _ & ET & _).
  unfold update_gp. cbv zeta. cbn [bind].
  assert (U2 : update_data inv cho cho_solve
     (GP (ncols fp2) (g_reg s) (g_log s) (g_scale s) (g_grad s) (g_kernels s) (g_bounds s) (g_scaling s) fp2 (g_target s) (g_cinv s) (g_lml s))
     fp2 (Some tgt2) None sopt = update_data inv cho cho_solve s fp2 (Some tgt2) None sopt).
  { unfold update_data. rewrite (rectangular_ncols fp2 D HR HN), En. cbn [g_nd g_scale g_scaling g_kernels g_reg g_grad g_log g_bounds g_lml]. reflexivity. }
  rewrite U2, U. destruct (gp_init inv cho cho_solve fp2 tgt2 ks None reg rb sopt sdata) as [s2|] eqn:E2; cbn [bind]; auto.
  (* the second evaluation of the likelihood changes nothing *)
  assert (I2 : inputs_ok D fp2 ks) by (destruct I; constructor; auto).
  destruct (init_facts _ _ _ O _ _ _ _ _ _ _ _ _ I2 E2) as (ks2 & b2 & EP2 & T2 & _). rewrite EP in EP2. injection EP2 as <- <-.
  assert (EK : g_kernels s = ks' /\ g_kernels s2 = ks').
  { rewrite (t_kernels _ _ _ T), (t_kernels _ _ _ T2). split; apply boxed_id; eapply not_quadratic_types; try exact NQ; eapply prepare_types; eauto; destruct I; auto. }
  destruct EK as [EK1 EK2]. clear U2. rename E2 into E3. rename U into E2.
  unfold update_data in E2. rewrite (rectangular_ncols fp2 D HR HN), En, Nat.eqb_refl in E2. cbn [negb] in E2.
    match type of E2 with bind ?x _ = _ => destruct x as [[[[sc f1] t1] gr]|] end; [|discriminate E2]. cbn [bind] in E2.
  match type of E2 with bind ?x _ = _ => destruct x as [m|] end; [|discriminate E2]. cbn [bind] in E2.
  match type of E2 with bind ?x _ = _ => destruct x as [m2|] end; [|discriminate E2]. cbn [bind] in E2.
  eapply update_lml_idem; [exact E2|]. cbn. congruence.
Qed.
End Update.
