(** Proofs about Gaussian processes. *)
From Coq Require Import Reals Lra Lia List Arith Bool Permutation.
From Verif Require Import Base BaseFacts RBase LinAlg LogDet KernModel KernProofs KernSetupProofs KernDefProofs
  KernScaleProofs KernEntryProofs KernProperties GPModel.
From Verif Require PrepModel PrepProofs.
Import ListNotations.
Open Scope R_scope.

(** ** Quadratic forms of an inverse *)
Lemma quad_sub n A x y : symm n A ->
  quad n A (fun i => x i - y i) = quad n A x - 2 * dotv n x (mulv n A y) + quad n A y.
Proof.
  intros HS. rewrite !quad_dot.
  assert (E : eqv n (mulv n A (fun i => x i - y i)) (fun i => mulv n A x i - mulv n A y i)).
  { intros i Hi. unfold mulv. rewrite <- Sum_minus. apply Sum_ext. intros; ring. }
  rewrite (dotv_ext n _ (fun i => x i - y i) _ _ ltac:(intros i Hi; reflexivity) E).
  replace (dotv n (fun i => x i - y i) (fun i => mulv n A x i - mulv n A y i))
    with (dotv n x (mulv n A x) - dotv n x (mulv n A y) - dotv n y (mulv n A x) + dotv n y (mulv n A y)).
  - rewrite (dotv_symm n A y x HS). rewrite (dotv_sym n (mulv n A y) x). ring.
  - unfold dotv. rewrite <- !Sum_minus, <- Sum_plus. apply Sum_ext. intros; ring.
Qed.

(** k B k is the maximum of 2 a.k - a K a. *)
Lemma quad_inverse_max n K B k a : symm n K -> possemidef n K -> inverse n K B ->
  2 * dotv n a k - quad n K a <= quad n B k.
Proof.
  intros HS HP HB. pose proof (HP (fun i => a i - mulv n B k i)) as H. rewrite quad_sub in H by auto.
  rewrite (dotv_ext n a a (mulv n K (mulv n B k)) k) in H; [|intros i Hi; reflexivity|apply mulv_inverse; auto].
  rewrite (quad_dot n K (mulv n B k)) in H.
  rewrite (dotv_ext n (mulv n B k) (mulv n B k) (mulv n K (mulv n B k)) k) in H; [|intros i Hi; reflexivity|apply mulv_inverse; auto].
  rewrite (quad_dot n B k), (dotv_sym n k). lra.
Qed.

Lemma quad_inverse_attained n K B k : inverse n K B ->
  2 * dotv n (mulv n B k) k - quad n K (mulv n B k) = quad n B k.
Proof.
  intros HB. rewrite (quad_dot n K).
  rewrite (dotv_ext n (mulv n B k) (mulv n B k) (mulv n K (mulv n B k)) k); [|intros i Hi; reflexivity|apply mulv_inverse; auto].
  rewrite (quad_dot n B), (dotv_sym n k). lra.
Qed.

Lemma quad_inverse_nonneg n K B k : symm n K -> possemidef n K -> inverse n K B -> 0 <= quad n B k.
Proof.
  intros HS HP HB. pose proof (quad_inverse_max n K B k (fun _ => 0) HS HP HB) as H.
  unfold dotv, quad in *. rewrite Sum_zero, Sum_zero in H; [lra| |]; intros; try ring. apply Sum_zero. intros; ring.
Qed.

Lemma tabulate_length n f : length (tabulate n f) = n.
Proof. unfold tabulate. rewrite map_length, seq_length. auto. Qed.

Lemma nth_tabulate n f i d : (i < n)%nat -> nth i (tabulate n f) d = f i.
Proof. intros H. unfold tabulate. rewrite (nth_map_lt _ _ _ 0%nat) by (rewrite seq_length; auto). rewrite seq_nth by auto. auto. Qed.

Lemma tabulate_ext n f g : (forall i, (i < n)%nat -> f i = g i) -> tabulate n f = tabulate n g.
Proof. intros H. unfold tabulate. apply map_ext_in. intros i Hi. apply in_seq in Hi. apply H. lia. Qed.

Lemma tabulate_nth l : tabulate (length l) (fun i => nth i l 0) = l.
Proof.
  apply list_ext_nth with (d := 0); [apply tabulate_length|]. intros i Hi. rewrite tabulate_length in Hi. apply nth_tabulate; auto.
Qed.

(** ** Boxed kernels *)

(** What writing the hyperparameters back does to a prepared kernel: the degree of a
    quadratic kernel becomes an array of one number. *)
Definition boxed (k : kdict) : kdict :=
  match k_type k, k_degree k with
  | Some KQuadratic, Some (Num d) => set_degree k (Arr [d])
  | _, _ => k
  end.

Lemma set_slope_id k w : k_slope k = Some w -> set_slope k w = k.
Proof. intros H. destruct k; cbn in *. subst. reflexivity. Qed.

Lemma step_boxed k nd blk : prepared k -> block k nd = Ok blk -> forall pre post,
  list2kdict_step (pre ++ blk ++ post) (length pre) k =
    Ok (boxed k, if advances k then (length pre + length blk)%nat else length pre).
Proof.
  intros HP Hb pre post. destruct (is_quadratic k) eqn:EQ.
  - unfold is_quadratic in EQ. destruct (k_type k) as [t|] eqn:Et; [|discriminate]. destruct t; try discriminate.
    destruct HP as [Hf HP]. rewrite Et in HP. destruct HP as [[l [d [Hs Hd]]] [Hw [Hc Hh]]].
    unfold block, kdict2list, get_theta in Hb. rewrite Et, Hw, ?Hc, Hh, Hs, Hd in Hb. cbn [bind to_list fst snd] in Hb.
    rewrite floats_app, floats_nums in Hb. cbn [bind floats] in Hb. injection Hb as <-.
    unfold list2kdict_step, advances, boxed. rewrite Et, Hd.
    assert (SL : forall p, slice (p ++ (l ++ [d]) ++ post) (length p) (length l + 1) = l ++ [d]).
    { intros p. replace (length l + 1)%nat with (length (l ++ [d])) by (rewrite app_length; auto). apply slice_app. }
    assert (F1 : firstn (length l) (l ++ [d]) = l) by (rewrite firstn_app, Nat.sub_diag, firstn_all, firstn_O, app_nil_r; auto).
    assert (F2 : skipn (length l) (l ++ [d]) = [d]) by (rewrite skipn_app, Nat.sub_diag, skipn_all, skipn_O; auto).
    destruct (k_scaling k) as [s|] eqn:Es.
    + cbn [app]. rewrite item_app. cbn [bind set_scaling k_slope]. rewrite Hs. cbn [len bind].
      replace (pre ++ s :: (l ++ [d]) ++ post) with ((pre ++ [s]) ++ (l ++ [d]) ++ post) by (rewrite <- app_assoc; auto).
      replace (S (length pre)) with (length (pre ++ [s])) by (rewrite app_length; cbn; lia).
      rewrite SL, F1, F2. f_equal. f_equal.
      * fold (set_scaling k s). rewrite set_scaling_id by auto. rewrite set_slope_id by auto. auto.
      * rewrite !app_length. cbn. rewrite app_length. cbn. lia.
    + cbn [app bind]. rewrite Hs. cbn [len bind]. rewrite SL, F1, F2. f_equal. f_equal.
      * rewrite set_slope_id by auto. auto.
      * rewrite app_length. cbn. lia.
  - destruct (step_spec k nd blk HP EQ Hb pre blk post eq_refl) as [k' [E1 [_ [_ [_ E2]]]]].
    rewrite E1, (E2 eq_refl). f_equal. f_equal. unfold boxed. unfold is_quadratic in EQ. destruct (k_type k) as [[]|]; auto; discriminate.
Qed.

Lemma list2kdict_boxed ks nd : Forall prepared ks -> multi_last ks -> forall flat, kdicts_loop ks nd = Ok flat ->
  forall pre post, list2kdict_from (pre ++ flat ++ post) (length pre) ks = Ok (map boxed ks).
Proof.
  induction ks as [|k ks IH]; intros HP HM flat HF pre post; [reflexivity|].
  rewrite kdicts_loop_cons in HF. destruct (block k nd) as [b|] eqn:Eb; [|discriminate]. cbn [bind] in HF.
  destruct (kdicts_loop ks nd) as [rest|] eqn:Er; [|discriminate]. injection HF as <-.
  apply Forall_cons_iff in HP. destruct HP as [HP1 HP2]. cbn [list2kdict_from].
  rewrite <- app_assoc, (step_boxed k nd b HP1 Eb pre (rest ++ post)). cbn [bind snd fst map].
  assert (HM' : ks = [] \/ (advances k = true /\ multi_last ks)) by (destruct ks; auto).
  destruct HM' as [->|[HA HM']]; [reflexivity|]. rewrite HA.
  specialize (IH HP2 HM' rest eq_refl (pre ++ b) post). rewrite app_length, <- app_assoc in IH. rewrite IH. reflexivity.
Qed.

Lemma scaled_kernel_boxed k log_scale grad m1 m2 : scaled_kernel (boxed k) log_scale grad m1 m2 = scaled_kernel k log_scale grad m1 m2.
Proof.
  unfold boxed. destruct (k_type k) as [t|] eqn:Et; auto. destruct t; auto. destruct (k_degree k) as [[d|]|] eqn:Ed; auto.
  unfold scaled_kernel, kdict2list. cbn [set_degree k_type k_scaling k_features]. rewrite Et.
  change (select (set_degree k (Arr [d]))) with (select k).
  destruct (select k m1) as [s1|]; cbn [bind]; auto.
  destruct (match m2 with Some m => bind (select k m) (fun s => Ok (Some s)) | None => Ok None end) as [s2|]; cbn [bind]; auto.
  unfold get_theta. cbn [set_degree k_type k_width k_const k_slope k_degree k_hyper]. rewrite Et, Ed.
  destruct (match k_width k with Some w => to_list w | None => Ok [] end); cbn [bind]; auto.
  destruct (k_slope k) as [sl|]; cbn [bind]; auto. destruct (to_list sl) as [l|]; cbn [bind]; auto.
  destruct (k_hyper k) as [[|]|]; cbn [bind]; auto. cbn [fst snd kernel]. destruct grad; auto.
  assert (A : forall i, as_number (l ++ [Arr [d]]) i = as_number (l ++ [Num d]) i).
  { intros i. unfold as_number. destruct (Nat.lt_ge_cases i (length l)).
    - rewrite !nth_error_app1 by auto. auto.
    - rewrite !nth_error_app2 by auto. destruct (i - length l)%nat as [|[|j]]; auto. }
  rewrite !A. auto.
Qed.

Lemma cov_loop_boxed ks log_scale grad m1 m2 : forall c, cov_loop (map boxed ks) log_scale grad m1 m2 c = cov_loop ks log_scale grad m1 m2 c.
Proof.
  induction ks as [|k ks IH]; intros c; cbn [cov_loop map]; auto. rewrite scaled_kernel_boxed.
  destruct (scaled_kernel k log_scale grad m1 m2); cbn [bind]; auto.
  replace (k_mult (boxed k)) with (k_mult k) by (unfold boxed; destruct (k_type k) as [[]|]; auto; destruct (k_degree k) as [[]|]; auto).
  destruct (accumulate _ _ _); cbn [bind]; auto.
Qed.

Lemma get_covariance_boxed ks log_scale m1 m2 reg grad :
  get_covariance (map boxed ks) log_scale m1 m2 reg grad = get_covariance ks log_scale m1 m2 reg grad.
Proof. unfold get_covariance. rewrite cov_loop_boxed. auto. Qed.

(** ** Contracts of the oracles *)
Definition sound_inv (inv : matrix -> result matrix) : Prop := forall M C, inv M = Ok C ->
  nr M = nc M /\ nr C = nr M /\ nc C = nr M /\ inverse (nr M) (at_ M) (at_ C).
Definition complete_inv (inv : matrix -> result matrix) : Prop := forall M,
  nr M = nc M -> symm (nr M) (at_ M) -> posdef (nr M) (at_ M) -> exists C, inv M = Ok C.
Definition complete_cho (cho : matrix -> result matrix) : Prop := forall M,
  nr M = nc M -> symm (nr M) (at_ M) -> posdef (nr M) (at_ M) -> exists L, cho M = Ok L.
Definition sound_cho (cho : matrix -> result matrix) : Prop := forall M L, cho M = Ok L ->
  nr M = nc M /\ nr L = nr M /\ nc L = nr M /\ cholesky (nr M) (at_ M) (at_ L).

(** ** Trained models *)
Record usable (nd : nat) (k : kdict) : Prop := {
  u_wf : well_formed nd k;
  u_plain : plain k;
  u_bounds : own_bounds k nd }.

Record trained (s : gp) (ks : list kdict) (D : nat) : Prop := {
  t_kernels : g_kernels s = map boxed ks;
  t_eval : Forall (evaluable D) ks;
  t_ks : ks <> [];
  t_ne : g_fp s <> [];
  t_rect : rectangular (g_fp s) D;
  t_len : length (g_target s) = length (g_fp s);
  t_grad : g_grad s = false;
  t_nr : nr (g_cinv s) = length (g_fp s);
  t_nc : nc (g_cinv s) = length (g_fp s);
  t_inv : inverse (length (g_fp s))
            (fun i j => kappa ks (g_log s) (row_at (g_fp s) i) (row_at (g_fp s) j) + (logged (g_log s) (g_reg s) * ident i j) ^ 2)
            (at_ (g_cinv s)) }.

Lemma usable_multi_last D ks ks' : Forall (usable D) ks -> map k_type ks' = map k_type ks -> multi_last ks'.
Proof.
  intros H E. assert (A : Forall (fun t => t <> Some KConstantMulti /\ t <> Some KNoiseMulti) (map k_type ks')).
  { rewrite E. apply Forall_map. eapply Forall_impl; [|exact H]. intros k [[HT _ _ _] _ _]. unfold basic in HT.
    destruct (k_type k) as [[]|]; try contradiction; split; discriminate. }
  clear -A. induction ks' as [|k [|k2 t] IH]; cbn; auto. cbn [map] in A. apply Forall_cons_iff in A. destruct A as [[A1 A2] A3].
  split; [|apply IH; auto]. unfold advances. destruct (k_type k) as [[]|]; auto; congruence.
Qed.

Lemma prepare_usable ks rb g nd ks' b : (1 <= nd)%nat -> prepare_kernels ks rb g nd = Ok (ks', b) ->
  Forall (usable nd) ks -> ks <> [] ->
  Forall (evaluable nd) ks' /\ ks' <> [] /\
  exists flat, kdicts2list ks' nd = Ok flat /\ forall rest, list2kdict (flat ++ rest) ks' = Ok (map boxed ks').
Proof.
  intros Hn HP HU HN.
  assert (HW : Forall (well_formed nd) ks) by (eapply Forall_impl; [|exact HU]; intros k [? ? ?]; auto).
  destruct (prepare_kernels_evaluable _ _ _ _ _ _ Hn HP HW HN) as [HE HN'].
  split; [auto|]. split; [auto|].
  unfold prepare_kernels in HP. destruct (prepare_loop ks nd (default_bound g)) as [[k1 b1]|] eqn:E; [|discriminate].
  cbn in HP. injection HP as <- _.
  destruct (prepare_loop_spec _ _ _ _ _ E) as [H1 [H2 [_ [blocks [_ [H3 _]]]]]].
  { eapply Forall_impl; [|exact HU]; intros k [? ? ?]; auto. }
  { eapply Forall_impl; [|exact HU]; intros k [? ? ?]; auto. }
  eexists. split.
  - unfold kdicts2list. destruct k1; [congruence|]. exact H3.
  - intros rest. exact (list2kdict_boxed k1 nd H1 (usable_multi_last _ _ _ HU H2) _ H3 [] rest).
Qed.

(** The last part of update_data for a model whose kernels are prepared. *)
Lemma covariance_with_reg D ks log_scale m r : Forall (evaluable D) ks -> ks <> [] -> m <> [] -> rectangular m D ->
  exists C, get_covariance ks log_scale m None (Some r) false = Ok C /\ nr C = length m /\ nc C = length m /\
    eqm (length m) (at_ C) (fun i j => kappa ks log_scale (row_at m i) (row_at m j) + (logged log_scale r * ident i j) ^ 2).
Proof.
  intros HE HK HN HR.
  destruct (covariance_reg D ks log_scale m r HE HK HN HR) as [C [C0 [E1 [E2 [N1 [N2 H]]]]]].
  destruct (covariance_kappa D ks log_scale m None HE HK HN HR I) as [C1 [E3 [_ [_ H1]]]].
  rewrite E2 in E3. injection E3 as <-. cbn [cols_of] in H1.
  exists C. split; [auto|]. split; [auto|]. split; [auto|]. intros i j Hi Hj. rewrite H, H1 by auto. auto.
Qed.

Lemma eqm_refl n A : eqm n A A.
Proof. intros i j _ _. reflexivity. Qed.

(** Scaled training data. *)
Definition train_data (sdata : bool) (fp : list row) (tgt : list R) : option PrepModel.scale_data * list row * list R :=
  if sdata then let '(sd, fp', t') := scale_train fp tgt in (Some sd, fp', t') else (None, fp, tgt).

Lemma scale_train_shape fp tgt D : fp <> [] -> rectangular fp D ->
  let '(sd, fp', t') := scale_train fp tgt in
  fp' = PrepModel.sd_test sd fp /\ rectangular fp' D /\ length fp' = length fp /\ length t' = length tgt /\
  length (PrepModel.f_mean sd) = D /\ length (PrepModel.f_std sd) = D.
Proof.
  intros HN HR. unfold scale_train, PrepModel.sd_train, PrepModel.target_standardize.
  cbn. unfold PrepModel.sd_test. cbn.
  assert (W : PrepModel.width fp = D) by (apply PrepProofs.rect_width; auto).
  assert (L1 : length (PrepModel.axis0 0 mean fp) = D) by (rewrite PrepProofs.axis0_length; auto).
  assert (L2 : length (PrepModel.place_one (PrepModel.axis0 0 std fp)) = D).
  { unfold PrepModel.place_one. rewrite map_length, PrepProofs.axis0_length; auto. }
  repeat split; auto.
  - unfold rectangular, PrepModel.scale_matrix. apply Forall_map. eapply Forall_impl; [|exact HR].
    intros r Hr. cbv beta in *. etransitivity; [apply PrepProofs.scale_row_length|]; rewrite Hr; auto.
  - apply map_length.
  - rewrite !map_length. auto.
Qed.

Lemma train_data_shape sdata fp tgt D sc fp' t' : fp <> [] -> rectangular fp D -> length fp = length tgt ->
  train_data sdata fp tgt = (sc, fp', t') ->
  fp' <> [] /\ rectangular fp' D /\ length fp' = length fp /\ length t' = length tgt.
Proof.
  intros HN HR HL H. unfold train_data in H. destruct sdata.
  - pose proof (scale_train_shape fp tgt D HN HR) as Q. destruct (scale_train fp tgt) as [[sd f1] t1]. injection H as <- <- <-.
    destruct Q as [_ [Q1 [Q2 [Q3 _]]]]. split; [|auto]. destruct fp, f1; cbn in *; congruence.
  - injection H as <- <- <-. auto.
Qed.

Section Init.
Variable inv cho : matrix -> result matrix.
Variable cho_solve : matrix -> list R -> list R.
Hypothesis Hinv : sound_inv inv.

(** A model trained without gradients. *)
Lemma gp_init_trained fp tgt ks reg rb sopt sdata s D :
  gp_init inv cho cho_solve fp tgt ks None reg rb sopt sdata = Ok s ->
  Forall (usable D) ks -> ks <> [] -> (1 <= D)%nat -> fp <> [] -> rectangular fp D ->
  exists ks' b, prepare_kernels ks (init_bounds rb false) false D = Ok (ks', b) /\ trained s ks' D /\
    g_log s = sopt /\ g_scale s = sdata /\ g_reg s = reg /\ g_nd s = D /\ g_bounds s = b /\
    length fp = length tgt /\
    (g_scaling s, g_fp s, g_target s) = train_data sdata fp tgt /\
    exists K L, get_covariance ks' sopt (g_fp s) None (Some reg) false = Ok K /\ cho K = Ok L /\
      g_lml s = Some (- / 2 * Sum (length tgt) (fun i => nth i (g_target s) 0 *
                         Sum (length tgt) (fun j => at_ (g_cinv s) i j * nth j (g_target s) 0))
                      - Sum (nr L) (fun i => ln (at_ L i i)) - INR (length tgt) * ln (2 * PI) / 2).
Proof.
  intros H HU HK HD HN HR. unfold gp_init in H.
  destruct (Nat.eqb_spec (length fp) (length tgt)) as [HL|]; [|discriminate]. cbn [negb] in H. cbv zeta in H.
  cbn [is_some] in H. rewrite (rectangular_ncols fp D HR HN) in H.
  destruct (prepare_kernels ks (init_bounds rb false) false D) as [[ks' b]|] eqn:EP; [|discriminate]. cbn [bind fst snd] in H.
  destruct (prepare_usable _ _ _ _ _ _ HD EP HU HK) as [HE [HK' [flat [Hf Hl]]]].
  exists ks', b. split; [auto|].
  unfold update_data in H. cbn [g_nd] in H. rewrite (rectangular_ncols fp D HR HN), Nat.eqb_refl in H. cbn [negb] in H.
  cbn [g_scale g_scaling g_kernels g_reg g_grad g_log g_bounds g_lml option_map] in H.
  destruct (train_data sdata fp tgt) as [[sc fp'] t'] eqn:ET.
  destruct (train_data_shape _ _ _ _ _ _ _ HN HR HL ET) as [HN' [HR' [L1 L2]]].
  assert (EB : (if sdata then let '(sd, fp', t') := scale_train fp tgt in Ok (Some sd, fp', t', @None (list row)) else Ok (None, fp, tgt, None))
     = Ok (sc, fp', t', None)).
  { unfold train_data in ET. destruct sdata.
    - destruct (scale_train fp tgt) as [[sd f1] t1]. injection ET as <- <- <-. auto.
    - injection ET as <- <- <-. auto. }
  rewrite EB in H. cbn [bind] in H. clear EB.
  destruct (covariance_with_reg D ks' sopt fp' reg HE HK' HN' HR') as [K [EK [K1 [K2 HKe]]]]. rewrite EK in H. cbn [bind] in H.
  destruct (inv K) as [cinv|] eqn:EI; [|discriminate]. cbn [bind] in H. destruct (Hinv _ _ EI) as [_ [I1 [I2 I3]]]. rewrite K1 in *.
  unfold update_lml in H. cbn [g_kernels g_nd g_reg g_fp g_target g_log g_grad g_cinv g_scale g_bounds g_scaling] in H.
  rewrite Hf in H. cbn [bind] in H. unfold neg_lml in H. rewrite Hl in H. cbn [bind] in H.
  rewrite last_last, get_covariance_boxed, EK in H. cbn [bind] in H.
  destruct (cho K) as [L|] eqn:EL; [|discriminate]. cbn [bind] in H.
  unfold dot_vec in H. rewrite I2 in H. replace (length fp' =? length t')%nat with true in H by (symmetry; apply Nat.eqb_eq; congruence).
  cbn [bind] in H. rewrite tabulate_length, I1 in H.
  replace (length fp' =? length t')%nat with true in H by (symmetry; apply Nat.eqb_eq; congruence).
  cbn [negb bind fst snd] in H. injection H as <-. split.
  - constructor; cbn; auto; try congruence.
    eapply inverse_ext; [exact HKe|apply eqm_refl|exact I3].
  - cbn. split; [auto|]. split; [auto|]. split; [auto|]. split; [auto|]. split; [auto|]. split; [auto|]. split; [auto|].
    exists K, L. split; [auto|]. split; [auto|]. f_equal.
    rewrite L2. rewrite !Ropp_involutive. unfold Rminus. f_equal; [|lra]. f_equal.
    f_equal. apply Sum_ext. intros i Hi. rewrite nth_tabulate by (rewrite L1, HL; auto). rewrite L1, HL. auto.
Qed.

Lemma gp_init_ok fp tgt ks reg rb sopt sdata D ks' b :
  complete_inv inv -> complete_cho cho ->
  prepare_kernels ks (init_bounds rb false) false D = Ok (ks', b) ->
  Forall (usable D) ks -> ks <> [] -> (1 <= D)%nat -> fp <> [] -> rectangular fp D -> length fp = length tgt ->
  Forall (sensible sopt) ks' -> logged sopt reg <> 0 ->
  exists s, gp_init inv cho cho_solve fp tgt ks None reg rb sopt sdata = Ok s.
Proof.
  intros CI CC EP HU HK HD HN HR HL HS Hr. unfold gp_init.
  replace (length fp =? length tgt)%nat with true by (symmetry; apply Nat.eqb_eq; auto). cbn [negb is_some].
  rewrite (rectangular_ncols fp D HR HN), EP. cbn [bind fst snd].
  destruct (prepare_usable _ _ _ _ _ _ HD EP HU HK) as [HE [HK' [flat [Hf Hl]]]].
  unfold update_data. cbn [g_nd]. rewrite (rectangular_ncols fp D HR HN), Nat.eqb_refl. cbn [negb].
  cbn [g_scale g_scaling g_kernels g_reg g_grad g_log g_bounds g_lml option_map].
  destruct (train_data sdata fp tgt) as [[sc fp'] t'] eqn:ET.
  destruct (train_data_shape _ _ _ _ _ _ _ HN HR HL ET) as [HN' [HR' [L1 L2]]].
  assert (EB : (if sdata then let '(sd, fp', t') := scale_train fp tgt in Ok (Some sd, fp', t', @None (list row)) else Ok (None, fp, tgt, None))
     = Ok (sc, fp', t', None)).
  { unfold train_data in ET. destruct sdata.
    - destruct (scale_train fp tgt) as [[sd f1] t1]. injection ET as <- <- <-. auto.
    - injection ET as <- <- <-. auto. }
  rewrite EB. cbn [bind]. clear EB.
  destruct (covariance_posdef D ks' sopt fp' reg HE HS HK' HN' HR' Hr) as [K [EK [K1 [K2 [Ksy [Kpd _]]]]]].
  rewrite EK. cbn [bind].
  destruct (CI K) as [cinv EI]; [congruence|rewrite K1; auto|rewrite K1; auto|].
  rewrite EI. cbn [bind]. destruct (Hinv _ _ EI) as [_ [I1 [I2 _]]].
  unfold update_lml. cbn [g_kernels g_nd g_reg g_fp g_target g_log g_grad g_cinv g_scale g_bounds g_scaling].
  rewrite Hf. cbn [bind]. unfold neg_lml. rewrite Hl. cbn [bind].
  rewrite last_last, get_covariance_boxed, EK. cbn [bind].
  destruct (CC K) as [L EL]; [congruence|rewrite K1; auto|rewrite K1; auto|].
  rewrite EL. cbn [bind]. unfold dot_vec. rewrite I2, K1.
  replace (length fp' =? length t')%nat with true by (symmetry; apply Nat.eqb_eq; congruence). cbn [bind].
  rewrite tabulate_length, I1, K1.
  replace (length fp' =? length t')%nat with true by (symmetry; apply Nat.eqb_eq; congruence). cbn [negb bind]. eauto.
Qed.
End Init.

(** ** Predictions of a trained model *)
Section Predict.
Variables (s : gp) (ks : list kdict) (D : nat).
Hypothesis T : trained s ks D.
Local Notation n := (length (g_fp s)).
Local Notation kap := (kappa ks (g_log s)).
Local Notation pt := (row_at (g_fp s)).

Lemma test_covariance_trained test : test <> [] -> rectangular test D ->
  exists K, test_covariance s test = Ok K /\ nr K = length test /\ nc K = n /\
    forall i j, (i < length test)%nat -> (j < n)%nat -> at_ K i j = kap (row_at test i) (pt j).
Proof.
  intros HN HR. destruct T. unfold test_covariance. rewrite t_kernels0, t_grad0, get_covariance_boxed.
  destruct (covariance_kappa D ks (g_log s) test (Some (g_fp s)) t_eval0 t_ks0 HN HR) as [K HK]; [split; auto|].
  exists K. exact HK.
Qed.

Definition weights : nat -> R := mulv n (at_ (g_cinv s)) (vnth (g_target s)).

Lemma make_prediction_trained K m : nc K = n -> nr K = m ->
  make_prediction s K (g_cinv s) (g_target s) =
  Ok (rescale s (tabulate m (fun i => Sum n (fun j => at_ K i j * weights j)))).
Proof.
  intros HC HRr. destruct T. unfold make_prediction, dot_vec. rewrite t_nc0, t_len0, Nat.eqb_refl. cbn [bind].
  rewrite tabulate_length, t_nr0, HC, Nat.eqb_refl. cbn [bind]. rewrite HRr. f_equal. f_equal. apply tabulate_ext. intros i Hi.
  apply Sum_ext. intros j Hj. rewrite nth_tabulate by auto. unfold weights, mulv, vnth. auto.
Qed.

Lemma predict_trained test : scale_test s test <> [] -> rectangular (scale_test s test) D ->
  predict s test = Ok (rescale s (tabulate (length (scale_test s test)) (fun i =>
    Sum n (fun j => kap (row_at (scale_test s test) i) (pt j) * weights j)))).
Proof.
  intros HN HR. unfold predict. destruct (test_covariance_trained _ HN HR) as [K [EK [N1 [N2 HK]]]]. rewrite EK. cbn [bind].
  rewrite (make_prediction_trained K _ N2 N1). f_equal. f_equal. apply tabulate_ext. intros i Hi. apply Sum_ext. intros j Hj.
  rewrite HK by auto. auto.
Qed.

Lemma weights_spec i : (i < n)%nat ->
  Sum n (fun j => (kap (pt i) (pt j) + (logged (g_log s) (g_reg s) * ident i j) ^ 2) * weights j) = nth i (g_target s) 0.
Proof. intros Hi. destruct T. apply (mulv_inverse _ _ _ (vnth (g_target s)) t_inv0 i Hi). Qed.

Definition reduction (x : row) : R := quad n (at_ (g_cinv s)) (fun j => kap x (pt j)).

Lemma variance_trained test K : test <> [] -> rectangular test D -> test_covariance s test = Ok K ->
  variance (g_kernels s) test K (g_cinv s) (g_log s) =
  Ok (tabulate (length test) (fun i => kap (row_at test i) (row_at test i) - reduction (row_at test i))).
Proof.
  intros HN HR EK. destruct (test_covariance_trained test HN HR) as [K0 [EK0 [N1 [N2 HK]]]]. rewrite EK in EK0. injection EK0 as <-.
  destruct T. unfold variance. rewrite t_kernels0, get_covariance_boxed.
  destruct (covariance_kappa D ks (g_log s) test None t_eval0 t_ks0 HN HR I) as [X [EX [X1 [_ HX]]]].
  rewrite EX. cbn [bind]. rewrite N1, N2, t_nr0, t_nc0, X1, !Nat.eqb_refl. cbn [andb]. f_equal. apply tabulate_ext. intros i Hi.
  rewrite HX by auto. cbn [cols_of]. f_equal. unfold reduction, quad.
  transitivity (Sum n (fun j => Sum n (fun l => kap (row_at test i) (pt l) * at_ (g_cinv s) l j * kap (row_at test i) (pt j)))).
  - apply Sum_ext. intros j Hj. rewrite <- Sum_scal_r. apply Sum_ext. intros l Hl'. rewrite !HK by auto. auto.
  - rewrite Sum_swap. auto.
Qed.

(** The reduction of the variance is between zero and the prior variance. *)
Lemma reduction_bounds x : Forall (sensible (g_log s)) ks -> length x = D ->
  0 <= reduction x /\ reduction x <= kap x x.
Proof.
  intros HS Hx. destruct T.
  destruct (kappa_symm_psd D ks (g_log s) t_eval0 HS t_ks0) as [KS KP].
  assert (RL : forall i, (i < n)%nat -> length (pt i) = D) by (intros; apply row_at_length; auto).
  set (r := logged (g_log s) (g_reg s)) in *.
  set (K0 := fun i j => kap (pt i) (pt j)).
  set (K := fun i j => kap (pt i) (pt j) + (r * ident i j) ^ 2) in *.
  assert (SK : symm n K).
  { intros i j Hi Hj. unfold K. rewrite (KS (pt i) (pt j)) by auto. unfold ident. rewrite (Nat.eqb_sym j i). auto. }
  assert (PK0 : possemidef n K0) by (apply KP; auto).
  assert (PK : possemidef n K).
  { intros v. change (quad n K v) with (quad n (fun i j => K0 i j + (r * ident i j) ^ 2) v). rewrite (quad_reg n K0 r v). pose proof (PK0 v). assert (0 <= dotv n v v) by (apply Sum_nonneg; intros; nra). nra. }
  split; [apply (quad_inverse_nonneg n K); auto|].
  set (k := fun j => kap x (pt j)). unfold reduction. fold k.
  rewrite <- (quad_inverse_attained n K (at_ (g_cinv s)) k t_inv0).
  set (a := mulv n (at_ (g_cinv s)) k).
  assert (HJ := KP (S n) (fun i => if (i =? n)%nat then x else pt i)).
  assert (possemidef (S n) (fun i j => kap (if (i =? n)%nat then x else pt i) (if (j =? n)%nat then x else pt j))) as HJ'.
  { apply HJ. intros i Hi. destruct (Nat.eqb_spec i n) as [Ei|Ei]; auto. apply RL. lia. }
  specialize (HJ' (fun i => if (i =? n)%nat then 1 else - a i)).
  rewrite quad_S, Nat.eqb_refl in HJ'.
  assert (Q1 : quad n (fun i j => kap (if (i =? n)%nat then x else pt i) (if (j =? n)%nat then x else pt j))
                (fun i => if (i =? n)%nat then 1 else - a i) = quad n K0 a).
  { unfold quad. apply Sum_ext. intros i Hi. apply Sum_ext. intros j Hj.
    destruct (Nat.eqb_spec i n) as [Ei|Ei]; [lia|]. destruct (Nat.eqb_spec j n) as [Ej|Ej]; [lia|]. unfold K0. ring. }
  assert (Q2 : Sum n (fun i => (kap (if (i =? n)%nat then x else pt i) x + kap x (if (i =? n)%nat then x else pt i)) *
                (if (i =? n)%nat then 1 else - a i)) = - 2 * dotv n a k).
  { unfold dotv. rewrite <- Sum_scal. apply Sum_ext. intros i Hi. destruct (Nat.eqb_spec i n) as [Ei|Ei]; [lia|].
    rewrite (KS (pt i) x) by auto. unfold k. ring. }
  rewrite Q1, Q2 in HJ'. change (quad n K a) with (quad n (fun i j => K0 i j + (r * ident i j) ^ 2) a). rewrite (quad_reg n K0 r a).
  assert (0 <= dotv n a a) by (apply Sum_nonneg; intros; nra). nra.
Qed.
End Predict.

(** ** More data *)

(** The reduction of the variance with the first n of n+m points. *)
Lemma reduction_more n m K B B' k : (n <= m)%nat -> symm m K -> possemidef m K ->
  inverse n K B -> inverse m K B' -> quad n B k <= quad m B' k.
Proof.
  intros Hnm HS HP HB HB'. rewrite <- (quad_inverse_attained n K B k HB). set (a := mulv n B k).
  set (a' := fun i => if (i <? n)%nat then a i else 0).
  pose proof (quad_inverse_max m K B' k a' HS HP HB') as H.
  assert (C : forall f : nat -> R, Sum m (fun i => a' i * f i) = Sum n (fun i => a i * f i)).
  { intros f. replace m with (n + (m - n))%nat by lia. rewrite Sum_app.
    rewrite (Sum_zero (m - n)).
    - rewrite Rplus_0_r. apply Sum_ext. intros i Hi. unfold a'. apply Nat.ltb_lt in Hi. rewrite Hi. auto.
    - intros i _. unfold a'. destruct (Nat.ltb_spec (n + i) n); [lia|ring]. }
  assert (E1 : dotv m a' k = dotv n a k) by (unfold dotv; apply C).
  assert (E2 : quad m K a' = quad n K a).
  { unfold quad.
    transitivity (Sum m (fun i => a' i * Sum m (fun j => a' j * K i j))).
    - apply Sum_ext. intros i _. rewrite <- Sum_scal. apply Sum_ext. intros; ring.
    - rewrite C. apply Sum_ext. intros i _. rewrite C, <- Sum_scal. apply Sum_ext. intros; ring. }
  rewrite E1, E2 in H. exact H.
Qed.
