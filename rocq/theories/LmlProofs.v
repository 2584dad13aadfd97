(** Proofs about the jacobian of the likelihood: derivatives of the kernels with
    respect to their hyperparameters. *)
From Coq Require Import Reals Lra Lia List Arith Bool.
From Coquelicot Require Import Coquelicot.
From Verif Require Import Base BaseFacts RBase LinAlg PSD KernModel KernProofs KernSetupProofs KernDefProofs KernScaleProofs
  KernEntryProofs GradSpec GradProofs GradKernProofs GPModel GPProofs GPUpdateProofs GPOptProperties MatDeriv LmlModel.
From Coq Require Import List.
Import ListNotations.
Open Scope R_scope.

(** ** Kernel functions of the hyperparameters *)
Definition lap (w : nat -> R) (D : nat) (x y : row) : R :=
  exp (- Sum D (fun d => Rabs (nth d x 0 / w d - nth d y 0 / w d))).

Lemma d_exp (f : R -> R) (t f' : R) : is_derive f t f' -> is_derive (fun u => exp (f u)) t (f' * exp (f t)).
Proof.
  intros H. evar_last; [apply (is_derive_comp exp f t (exp (f t)) f'); [apply is_derive_exp|exact H]|]. reflexivity.
Qed.

Lemma d_opp (f : R -> R) (t f' : R) : is_derive f t f' -> is_derive (fun u => - f u) t (- f').
Proof. intros H. apply (is_derive_opp f t f' H). Qed.

Lemma d_scal c (f : R -> R) (t f' : R) : is_derive f t f' -> is_derive (fun u => c * f u) t (c * f').
Proof. intros H. apply (is_derive_scal f t c f' H). Qed.

Lemma d_val (f : R -> R) (t a b : R) : is_derive f t a -> a = b -> is_derive f t b.
Proof. intros H ->. auto. Qed.

Lemma d_gauss D x y (w : R -> nat -> R) w' t : (forall d, (d < D)%nat -> is_derive (fun u => w u d) t (w' d)) ->
  (forall d, (d < D)%nat -> w t d <> 0) ->
  is_derive (fun u => gauss (w u) D x y) t (Sum D (fun d => (nth d x 0 - nth d y 0) ^ 2 / w t d ^ 3 * w' d) * gauss (w t) D x y).
Proof.
  intros H HW. unfold gauss. set (z := fun d => nth d x 0 - nth d y 0).
  assert (A : is_derive (fun u => sqd (w u) D x y) t (Sum D (fun d => - 2 * (z d ^ 2 / w t d ^ 3) * w' d))).
  { unfold sqd. apply (d_Sum D (fun u d => (z d / w u d) ^ 2)). intros d Hd.
    pose proof (d_div (fun _ => z d) (fun u => w u d) t 0 (w' d) (d_const (z d) t) (H d Hd) (HW d Hd)) as Q. cbv beta in Q.
    pose proof (d_mult _ _ t _ _ Q Q) as Q2. cbv beta in Q2.
    apply (is_derive_ext (fun u => z d / w u d * (z d / w u d))); [intros u; cbn [pow]; rewrite Rmult_1_r; reflexivity|].
    eapply d_val; [exact Q2|]. field. auto. }
  pose proof (d_exp _ t _ (d_scal (- / 2) _ t _ A)) as Q. cbv beta in Q. eapply d_val; [exact Q|].
  f_equal. rewrite <- Sum_scal. apply Sum_ext. intros d Hd. unfold z. field. auto.
Qed.

Lemma d_lap D x y (w : R -> nat -> R) w' t : (forall d, (d < D)%nat -> is_derive (fun u => w u d) t (w' d)) ->
  (forall d, (d < D)%nat -> 0 < w t d) ->
  is_derive (fun u => lap (w u) D x y) t (Sum D (fun d => Rabs (nth d x 0 - nth d y 0) / w t d ^ 2 * w' d) * lap (w t) D x y).
Proof.
  intros H HW. unfold lap. set (z := fun d => nth d x 0 - nth d y 0).
  assert (A : is_derive (fun u => Sum D (fun d => Rabs (nth d x 0 / w u d - nth d y 0 / w u d))) t
                (Sum D (fun d => - (Rabs (z d) / w t d ^ 2) * w' d))).
  { apply (d_Sum D (fun u d => Rabs (nth d x 0 / w u d - nth d y 0 / w u d))). intros d Hd.
    apply (derive_near (fun u => Rabs (z d) / w u d)).
    - apply (filter_imp (fun u => 0 < w u d)); [|apply (near_pos (fun u => w u d) t (w' d)); auto].
      intros u Hu. unfold z. replace (nth d x 0 / w u d - nth d y 0 / w u d) with ((nth d x 0 - nth d y 0) / w u d) by (field; lra).
      unfold Rdiv. rewrite Rabs_mult, (Rabs_right (/ w u d)); auto. apply Rle_ge. left. apply Rinv_0_lt_compat. auto.
    - assert (N : w t d <> 0) by (specialize (HW d Hd); lra).
      pose proof (d_div (fun _ => Rabs (z d)) (fun u => w u d) t 0 (w' d) (d_const _ t) (H d Hd) N) as Q. cbv beta in Q.
      eapply d_val; [exact Q|]. field. auto. }
  pose proof (d_exp _ t _ (d_opp _ t _ A)) as Q. cbv beta in Q. eapply d_val; [exact Q|].
  f_equal. replace (- Sum D (fun d => - (Rabs (z d) / w t d ^ 2) * w' d)) with (- 1 * Sum D (fun d => - (Rabs (z d) / w t d ^ 2) * w' d)) by ring.
  rewrite <- Sum_scal. apply Sum_ext. intros d Hd. unfold z. ring.
Qed.

(** ** The parameters of one kernel *)
Definition n_scaling (k : kdict) : nat := match k_scaling k with Some _ => 1 | None => 0 end.
Definition n_width (k : kdict) : nat := match k_width k with Some (Arr w) => length w | _ => 0 end.
Definition n_params (k : kdict) : nat :=
  (n_scaling k + match k_type k with Some KConstant => 1 | Some KGaussian | Some KLaplacian => n_width k | _ => 0 end)%nat.

Definition wpos (k : kdict) (d : nat) : nat := (n_scaling k + if (n_width k =? 1)%nat then 0 else d)%nat.

Definition kval (D : nat) (k : kdict) (h : nat -> R) (x y : row) : R :=
  (match k_scaling k with Some _ => h 0%nat | None => 1 end) *
  match k_type k with
  | Some KConstant => h (n_scaling k)
  | Some KLinear => Sum D (fun d => nth d x 0 * nth d y 0)
  | Some KGaussian => gauss (fun d => h (wpos k d)) D x y
  | Some KLaplacian => lap (fun d => h (wpos k d)) D x y
  | _ => 0
  end.

(** The kernels whose hyperparameter derivatives are right. *)
Definition jac_ok (D : nat) (k : kdict) : Prop :=
  evaluable D k /\ sensible false k /\ k_features k = None /\ k_mult k = false /\
  match k_type k with
  | Some KConstant => k_scaling k = None
  | Some KLinear | Some KGaussian => True
  | Some KLaplacian => k_scaling k <> None
  | _ => False
  end.

Lemma kval_sym D k h x y : kval D k h x y = kval D k h y x.
Proof.
  unfold kval. f_equal. destruct (k_type k) as [[]|]; auto.
  - unfold gauss. do 2 f_equal. unfold sqd. apply Sum_ext. intros. unfold Rdiv. ring.
  - unfold lap. do 2 f_equal. apply Sum_ext. intros. apply Rabs_minus_sym.
  - apply Sum_ext. intros. ring.
Qed.

Lemma kval_ext D k h h' x y : (forall e, (e < n_params k)%nat -> h e = h' e) ->
  (exists t, k_type k = Some t /\ match t with KGaussian | KLaplacian => (n_width k = D \/ n_width k = 1%nat) | _ => True end) ->
  kval D k h x y = kval D k h' x y.
Proof.
  intros H [t [Ht HW]]. unfold kval, n_params in *. rewrite Ht in *.
  assert (A : match k_scaling k with Some _ => h 0%nat | None => 1 end = match k_scaling k with Some _ => h' 0%nat | None => 1 end).
  { unfold n_scaling in H. destruct (k_scaling k); auto. apply H. lia. }
  rewrite A. f_equal. destruct t; auto.
  - apply H. lia.
  - unfold gauss. do 2 f_equal. unfold sqd. apply Sum_ext. intros d Hd. rewrite H; auto. unfold wpos.
    destruct (Nat.eqb_spec (n_width k) 1); lia.
  - unfold lap. do 2 f_equal. apply Sum_ext. intros d Hd. rewrite H; auto. unfold wpos. destruct (Nat.eqb_spec (n_width k) 1); lia.
Qed.

Lemma slice_nth h i n e : (e < n)%nat -> nth e (slice h i n) 0 = nth (i + e) h 0.
Proof.
  intros H. unfold slice. revert i e H. induction n as [|n IH]; intros i e H; [lia|].
  destruct (skipn i h) as [|a r] eqn:E.
  - cbn. assert (length h <= i)%nat. { pose proof (skipn_length i h) as Q. rewrite E in Q. cbn in Q. lia. }
    rewrite (nth_overflow h) by lia. destruct e; auto.
  - assert (N0 : nth i h 0 = a). { rewrite <- (firstn_skipn i h), E.
      assert (length (firstn i h) = i). { rewrite firstn_length. pose proof (skipn_length i h) as Q. rewrite E in Q. cbn in Q. lia. }
      rewrite app_nth2 by lia. rewrite H0, Nat.sub_diag. auto. }
    destruct e as [|e]; cbn [firstn nth]; [rewrite Nat.add_0_r; auto|].
    assert (E2 : skipn (S i) h = r).
    { clear - E. revert h E. induction i as [|i IHi]; intros h E; destruct h as [|b h]; cbn in *; try discriminate.
      - injection E; auto.
      - apply IHi. auto. }
    replace (i + S e)%nat with (S i + e)%nat by lia. rewrite <- IH by lia. rewrite E2. auto.
Qed.

Lemma wnth_slice h i n d D : (n = D \/ n = 1%nat) -> (d < D)%nat -> (i + n <= length h)%nat ->
  wnth (slice h i n) d = nth (i + if (n =? 1)%nat then 0 else d) h 0.
Proof.
  intros HN Hd HL. pose proof (slice_length h i n HL) as L. unfold wnth.
  destruct (Nat.eqb_spec n 1) as [E|E].
  - destruct (slice h i n) as [|a [|b r]] eqn:ES; cbn in L; try lia. rewrite <- (slice_nth h i n) by lia. rewrite ES. auto.
  - rewrite <- (slice_nth h i n) by lia. destruct (slice h i n) as [|a [|b r]]; cbn in L; auto. lia.
Qed.

Lemma Forall_nth_pos (theta : list R) i : Forall (fun x => 0 < x) theta -> (i < length theta)%nat -> 0 < nth i theta 0.
Proof. intros H Hi. rewrite Forall_forall in H. apply H, nth_In. auto. Qed.

Lemma slice_pos theta i n : Forall (fun x => 0 < x) theta -> Forall (fun x => 0 < x) (slice theta i n).
Proof.
  intros H. unfold slice. rewrite Forall_forall in *. intros x Hx. apply H.
  assert (A : forall (T : Type) n (l : list T) z, In z (firstn n l) -> In z l).
  { intros T0 n0 l z Hz. rewrite <- (firstn_skipn n0 l). apply in_or_app. auto. }
  apply A in Hx. rewrite <- (firstn_skipn i theta). apply in_or_app. auto.
Qed.

(** ** The kernel after the hyperparameters are written back *)
Lemma item_nth (h : list R) i : (i < length h)%nat -> item h i = Ok (nth i h 0).
Proof. intros H. unfold item. rewrite (nth_error_nth' h 0) by auto. auto. Qed.

Definition put (theta : list R) (ki : nat) (k : kdict) : kdict :=
  let k1 := match k_scaling k with Some _ => set_scaling k (nth ki theta 0) | None => k end in
  let o := (ki + n_scaling k)%nat in
  match k_type k with
  | Some KConstant => set_const k1 (nth o theta 0)
  | Some KGaussian | Some KLaplacian => set_width k1 (Arr (slice theta o (n_width k)))
  | _ => k1
  end.

Lemma put_step D theta ki k : jac_ok D k -> (ki + n_params k <= length theta)%nat ->
  list2kdict_step theta ki k = Ok (put theta ki k, (ki + n_params k)%nat).
Proof.
  intros [[_ HE] [_ [HF [HM HT]]]] HL. cbv zeta in HE. unfold list2kdict_step, put, n_params, n_scaling, n_width in *.
  destruct (k_type k) as [t|] eqn:Et; [|contradiction]. rewrite HF in HE.
  assert (S1 : (match k_scaling k with Some _ => bind (item theta ki) (fun x => Ok (set_scaling k x, S ki)) | None => Ok (k, ki) end) =
    Ok (match k_scaling k with Some _ => set_scaling k (nth ki theta 0) | None => k end,
        (ki + match k_scaling k with Some _ => 1 | None => 0 end)%nat)).
  { destruct (k_scaling k); [|rewrite Nat.add_0_r; auto]. rewrite item_nth by (destruct t; lia). cbn [bind]. do 2 f_equal. lia. }
  rewrite S1. cbn [bind].
  assert (W : k_width (match k_scaling k with Some _ => set_scaling k (nth ki theta 0) | None => k end) = k_width k)
    by (destruct (k_scaling k); auto).
  destruct t; try contradiction.
  - rewrite item_nth by lia. cbn [bind]. do 2 f_equal. lia.
  - destruct HE as [_ [_ [w [Hw _]]]]. rewrite W, Hw in *. cbn [len bind]. do 2 f_equal. lia.
  - destruct HE as [_ [_ [w [Hw _]]]]. rewrite W, Hw in *. cbn [len bind]. do 2 f_equal. lia.
  - do 2 f_equal. lia.
Qed.

Lemma put_fields D theta ki k : jac_ok D k -> (ki + n_params k <= length theta)%nat -> Forall (fun x => 0 < x) theta ->
  let k' := put theta ki k in
  evaluable D k' /\ sensible false k' /\ k_features k' = None /\ k_mult k' = false /\ k_type k' = k_type k /\
  k_scaling k' = option_map (fun _ => nth ki theta 0) (k_scaling k).
Proof.
  intros HJ HL HP k'. pose proof (put_step D theta ki k HJ HL) as HS. pose proof HJ as [HE [HSe [HF [HM HT]]]].
  assert (HQ : not_quadratic k) by (unfold not_quadratic; destruct (k_type k) as [[]|]; auto; congruence).
  assert (E' : evaluable D k') by (apply (step_evaluable theta k ki k' _ D HS HE HQ HL)).
  split; [auto|]. unfold k', put in *. destruct HE as [_ HE]. cbv zeta in HE. rewrite HF in HE.
  assert (P : forall i, (i < length theta)%nat -> 0 < nth i theta 0) by (intros; apply Forall_nth_pos; auto).
  assert (WP : forall i n, Forall (fun x => x <> 0) (slice theta i n)).
  { intros i n. eapply Forall_impl; [|apply slice_pos; exact HP]. cbv beta. intros; lra. }
  destruct HSe as [S1 S2 S3 S4 S5 S6]. unfold n_params, n_scaling in *.
  assert (SC : match k_scaling k with Some _ => 0 <= nth ki theta 0 | None => True end).
  { destruct (k_scaling k); auto. left. apply P. destruct (k_type k) as [[]|]; lia. }
  destruct (k_type k) as [[]|] eqn:Et; try contradiction; destruct (k_scaling k) as [s|] eqn:Es;
    (split; [constructor; cbn in *; rewrite ?Es in *; auto|cbn; rewrite ?Et, ?Es; cbn; auto]);
    cbn in *; intros; auto; try (left; apply P; lia); try apply WP.
Qed.

Lemma theta_of D theta ki k nd : jac_ok D k -> (ki + n_params k <= length theta)%nat ->
  exists th, kdict2list (put theta ki k) nd = Ok (match k_scaling k with Some _ => [nth ki theta 0] | None => [] end, th) /\
    match k_type k with
    | Some KConstant => th = [Num (nth (ki + n_scaling k) theta 0)]
    | Some KGaussian | Some KLaplacian => th = map Num (slice theta (ki + n_scaling k) (n_width k))
    | _ => True
    end.
Proof.
  intros [[_ HE] [HSe [HF [HM HT]]]] HL. cbv zeta in HE. rewrite HF in HE. unfold put, kdict2list, get_theta, n_scaling.
  destruct (k_type k) as [[]|] eqn:Et; try contradiction.
  - destruct HE as [H1 [H2 H3]]. destruct (k_scaling k) eqn:Es; cbn; rewrite ?Et, ?H1, ?H2, ?Es; cbn; eauto.
  - destruct HE as [H1 [H2 H3]]. destruct (k_scaling k) eqn:Es; cbn; rewrite ?Et, ?H1, ?H2, ?Es; cbn; eauto.
  - destruct HE as [H1 [H2 H3]]. destruct (k_scaling k) eqn:Es; cbn; rewrite ?Et, ?H1, ?H2, ?Es; cbn; eauto.
  - destruct (k_width k) as [[x|l]|] eqn:Ew; cbn in HE; [destruct HE; discriminate| |];
      destruct (k_scaling k) eqn:Es; cbn; rewrite ?Et, ?Ew, ?Es; cbn; destruct (k_const k); destruct (k_hyper k) as [[]|]; cbn; eauto.
Qed.

(** The kernel without its scaling. *)
Definition kbare (D : nat) (k : kdict) (h : nat -> R) (x y : row) : R :=
  match k_type k with
  | Some KConstant => h (n_scaling k)
  | Some KLinear => Sum D (fun d => nth d x 0 * nth d y 0)
  | Some KGaussian => gauss (fun d => h (wpos k d)) D x y
  | Some KLaplacian => lap (fun d => h (wpos k d)) D x y
  | _ => 0
  end.

Definition at_theta (theta : list R) (ki : nat) : nat -> R := fun e => nth (ki + e) theta 0.

Lemma laplacian_fn_lap x y w x' y' D : length x = D -> length y = D -> (length w = D \/ length w = 1%nat) ->
  broadcast Rdiv x w = Ok x' -> broadcast Rdiv y w = Ok y' -> laplacian_fn x' y' = lap (wnth w) D x y.
Proof.
  intros Hx Hy Hl Ex Ey. destruct (wnth_broadcast _ _ _ _ Hx Hl Ex) as [Lx Nx].
  destruct (wnth_broadcast _ _ _ _ Hy Hl Ey) as [Ly Ny].
  unfold laplacian_fn, lap. f_equal. f_equal. rewrite (cityblock_Sum _ _ D) by auto. apply Sum_ext.
  intros d Hd. rewrite Nx, Ny by auto. auto.
Qed.

Lemma kernel_value D theta ki k m1 m2 nd : jac_ok D k -> (ki + n_params k <= length theta)%nat -> Forall (fun x => 0 < x) theta ->
  rectangular m1 D -> opt (fun m => rectangular m D) m2 ->
  exists t th K, k_type (put theta ki k) = Some t /\
    kdict2list (put theta ki k) nd = Ok (match k_scaling k with Some _ => [nth ki theta 0] | None => [] end, th) /\
    kernel t th false false m1 m2 = Ok K /\ nr K = length m1 /\ nc K = length (cols_of m1 m2) /\
    forall i j, (i < length m1)%nat -> (j < length (cols_of m1 m2))%nat ->
      at_ K i j = kbare D k (at_theta theta ki) (row_at m1 i) (row_at (cols_of m1 m2) j).
Proof.
  intros HJ HL HP HR1 HR2.
  destruct (theta_of D theta ki k nd HJ HL) as [th [E1 E2]].
  pose proof (put_fields D theta ki k HJ HL HP) as [_ [_ [_ [_ [HT _]]]]]. destruct HJ as [[_ HE] [_ [HF [_ HC]]]]. cbv zeta in HE.
  rewrite HF in HE.
  assert (RC : rectangular (cols_of m1 m2) D) by (destruct m2; cbn in *; auto).
  assert (LEN : forall m i, rectangular m D -> (i < length m)%nat -> length (row_at m i) = D) by (intros; apply row_at_length; auto).
  destruct (k_type k) as [[]|] eqn:Et; try contradiction.
  - exists KConstant, th. rewrite E2. cbn [kernel as_number nth_error bind]. eexists. split; [auto|]. split; [rewrite E1, E2; auto|].
    split; [reflexivity|]. split; [destruct m2; auto|]. split; [destruct m2; auto|]. intros i j Hi Hj. unfold kbare. rewrite Et.
    destruct m2; cbn; unfold logged; auto; apply f_equal3; auto; lia.
  - exists KGaussian, th. rewrite E2. destruct HE as [_ [_ [w0 [Hw Hl]]]]. set (w := slice theta (ki + n_scaling k) (n_width k)).
    assert (NW : n_width k = length w0) by (unfold n_width; rewrite Hw; auto).
    assert (HO : (ki + n_scaling k + n_width k <= length theta)%nat) by (unfold n_params in HL; rewrite Et in HL; lia).
    assert (Hlw : length w = D \/ length w = 1%nat) by (unfold w; rewrite slice_length by auto; lia).
    assert (MP : map (logged false) w = w) by (rewrite <- (map_id w) at 2; apply map_ext; auto).
    cbn [kernel]. rewrite floats_nums. cbn [bind]. rewrite MP. unfold gaussian_kernel.
    destruct (divide_ok m1 w D HR1 Hlw) as [s1 [Es1 Ls1]]. rewrite Es1. cbn [bind].
    assert (exists s2, divide_opt m2 w = Ok s2 /\ opt (fun s => length s = length (cols_of m1 m2)) s2 /\
      (forall j, (j < length (cols_of m1 m2))%nat -> broadcast Rdiv (row_at (cols_of m1 m2) j) w = Ok (row_at (cols_of s1 s2) j)) /\
      length (cols_of s1 s2) = length (cols_of m1 m2)) as [s2 [Es2 [Q0 [Q Q2]]]].
    { destruct m2 as [m2|]; cbn in *.
      - destruct (divide_ok m2 w D HR2 Hlw) as [s [E L]]. rewrite E. cbn. eexists. split; [reflexivity|]. split; [auto|]. split; [|auto].
        intros j Hj. cbn. apply (divide_rows_nth m2 w s E j Hj).
      - eexists. split; [reflexivity|]. cbn. split; auto. split; auto. intros j Hj. apply (divide_rows_nth m1 w s1 Es1 j Hj). }
    rewrite Es2. cbn [bind negb]. eexists. split; [auto|]. split; [rewrite E1, E2; auto|]. split; [reflexivity|].
    destruct (dist_matrix_shape gaussian_fn s1 s2) as [N1 N2]. rewrite N1, N2. split; [auto|]. split; [auto|]. intros i j Hi Hj.
    rewrite dist_matrix_entry by apply gaussian_self. unfold kbare. rewrite Et.
    assert (PW : forall d, (d < D)%nat -> wnth w d = at_theta theta ki (wpos k d)).
    { intros d Hd. unfold w. rewrite (wnth_slice _ _ _ _ D) by (auto; lia). unfold at_theta, wpos. f_equal. lia. }
    rewrite (gaussian_fn_gauss (row_at m1 i) (row_at (cols_of m1 m2) j) w _ _ D); auto.
    + unfold gauss. do 2 f_equal. unfold sqd. apply Sum_ext. intros d Hd. rewrite PW by auto. auto.
    + intros d Hd. rewrite PW by auto. unfold at_theta, wpos. apply Rgt_not_eq. apply Forall_nth_pos; auto.
      destruct (Nat.eqb_spec (n_width k) 1); lia.
    + apply (divide_rows_nth m1 w s1 Es1 i Hi).
  - exists KLaplacian, th. rewrite E2. destruct HE as [_ [_ [w0 [Hw Hl]]]]. set (w := slice theta (ki + n_scaling k) (n_width k)).
    assert (NW : n_width k = length w0) by (unfold n_width; rewrite Hw; auto).
    assert (HO : (ki + n_scaling k + n_width k <= length theta)%nat) by (unfold n_params in HL; rewrite Et in HL; lia).
    assert (Hlw : length w = D \/ length w = 1%nat) by (unfold w; rewrite slice_length by auto; lia).
    assert (MP : map (logged false) w = w) by (rewrite <- (map_id w) at 2; apply map_ext; auto).
    cbn [kernel]. rewrite floats_nums. cbn [bind]. rewrite MP. unfold laplacian_kernel.
    destruct (divide_ok m1 w D HR1 Hlw) as [s1 [Es1 Ls1]]. rewrite Es1. cbn [bind].
    assert (exists s2, divide_opt m2 w = Ok s2 /\ opt (fun s => length s = length (cols_of m1 m2)) s2 /\
      (forall j, (j < length (cols_of m1 m2))%nat -> broadcast Rdiv (row_at (cols_of m1 m2) j) w = Ok (row_at (cols_of s1 s2) j)) /\
      length (cols_of s1 s2) = length (cols_of m1 m2)) as [s2 [Es2 [Q0 [Q Q2]]]].
    { destruct m2 as [m2|]; cbn in *.
      - destruct (divide_ok m2 w D HR2 Hlw) as [s [E L]]. rewrite E. cbn. eexists. split; [reflexivity|]. split; [auto|]. split; [|auto].
        intros j Hj. cbn. apply (divide_rows_nth m2 w s E j Hj).
      - eexists. split; [reflexivity|]. cbn. split; auto. split; auto. intros j Hj. apply (divide_rows_nth m1 w s1 Es1 j Hj). }
    rewrite Es2. cbn [bind negb]. eexists. split; [auto|]. split; [rewrite E1, E2; auto|]. split; [reflexivity|].
    destruct (dist_matrix_shape laplacian_fn s1 s2) as [N1 N2]. rewrite N1, N2. split; [auto|]. split; [auto|]. intros i j Hi Hj.
    rewrite dist_matrix_entry by apply laplacian_self. unfold kbare. rewrite Et.
    rewrite (laplacian_fn_lap (row_at m1 i) (row_at (cols_of m1 m2) j) w _ _ D); auto.
    + unfold lap. do 2 f_equal. apply Sum_ext. intros d Hd. unfold w. rewrite (wnth_slice _ _ _ _ D) by (auto; lia).
      unfold at_theta, wpos. rewrite Nat.add_assoc. auto.
    + apply (divide_rows_nth m1 w s1 Es1 i Hi).
  - exists KLinear, th. eexists. split; [auto|]. split; [rewrite E1; auto|]. split; [reflexivity|]. cbn. split; [auto|]. split; [auto|].
    intros i j Hi Hj. unfold kbare. rewrite Et. apply inner_Sum; auto.
Qed.

Lemma kfun_put D theta ki k x y : jac_ok D k -> (ki + n_params k <= length theta)%nat -> Forall (fun x => 0 < x) theta ->
  length x = D -> length y = D -> kfun (put theta ki k) false x y = kval D k (at_theta theta ki) x y.
Proof.
  intros HJ HL HP Hx Hy.
  destruct (kernel_value D theta ki k [x] (Some [y]) (ncols [x]) HJ HL HP) as (t & th & K & E1 & E2 & E3 & _ & _ & HK).
  { repeat constructor; auto. } { cbn. repeat constructor; auto. }
  unfold kfun, scaled_kernel, select. rewrite E1.
  destruct (put_fields D theta ki k HJ HL HP) as [_ [_ [HF _]]]. rewrite HF. cbn [bind]. rewrite E2. cbn [bind fst snd].
  rewrite E3. cbn [bind at_]. rewrite (HK 0%nat 0%nat) by (cbn; lia). unfold kval, kbare, logged, at_theta.
  destruct (k_scaling k); rewrite ?Nat.add_0_r; auto.
Qed.

(** ** The derivatives of the kernel matrices *)
Definition M0 : matrix := Mx 0 0 (fun _ _ => 0).
Definition square (n : nat) (M : matrix) : Prop := nr M = n /\ nc M = n.

(** dw_d / dw_l *)
Definition dw (n l d : nat) : R := if (n =? 1)%nat then 1 else if (l =? d)%nat then 1 else 0.

Lemma Sum_dw D n l f : (n = D \/ n = 1%nat) -> n <> 1%nat -> (l < n)%nat -> Sum D (fun d => f d * dw n l d) = f l.
Proof.
  intros H H1 Hl. rewrite (Sum_ext D _ (fun d => (if (l =? d)%nat then 1 else 0) * f d)).
  - rewrite Sum_delta by lia. auto.
  - intros d Hd. unfold dw. destruct (Nat.eqb_spec n 1); [lia|]. ring.
Qed.

Lemma per_width_spec D f K m w : m <> [] -> rectangular m D -> length w = D ->
  exists js, per_width f K m w = Ok js /\ length js = length w /\ Forall (square (length m)) js /\
    forall l i j, (l < length w)%nat ->
      at_ (nth l js M0) i j = f (nth l (row_at m i) 0 - nth l (row_at m j) 0) (nth l w 0) * at_ K i j.
Proof.
  intros HN HR HL. unfold per_width. rewrite (rectangular_ncols m D) by auto. rewrite HL, Nat.eqb_refl.
  eexists. split; [reflexivity|]. rewrite map_length, seq_length. split; [auto|]. split.
  - rewrite Forall_forall. intros M HM. apply in_map_iff in HM. destruct HM as [d [<- _]]. split; auto.
  - intros l i j Hl. rewrite (nth_map_lt _ _ _ 0%nat) by (rewrite seq_length; lia). rewrite seq_nth by lia. auto.
Qed.

Lemma gaussian_dk D K m w : m <> [] -> rectangular m D -> (length w = D \/ length w = 1%nat) ->
  exists js, gaussian_dk_dwidth K m w = Ok js /\ length js = length w /\ Forall (square (length m)) js /\
    forall l i j, (l < length w)%nat -> (i < length m)%nat -> (j < length m)%nat ->
      at_ (nth l js M0) i j =
      Sum D (fun d => (nth d (row_at m i) 0 - nth d (row_at m j) 0) ^ 2 / wnth w d ^ 3 * dw (length w) l d) * at_ K i j.
Proof.
  intros HN HR HL. unfold gaussian_dk_dwidth.
  destruct (Nat.eq_dec (length w) 1) as [E|E].
  - destruct w as [|c [|? ?]]; cbn in E; try lia. eexists. split; [reflexivity|]. split; [auto|].
    split; [repeat constructor|]. intros l i j Hl Hi Hj. cbn in Hl. replace l with 0%nat by lia. cbn [nth at_ wnth length]. f_equal.
    unfold dw. cbn [Nat.eqb].
    rewrite (Sum_ext D _ (fun d => / c ^ 3 * (nth d (row_at m i) 0 - nth d (row_at m j) 0) ^ 2)) by (intros; unfold Rdiv; ring).
    rewrite Sum_scal. destruct (Nat.eqb_spec i j) as [->|N].
    + rewrite (Sum_zero D); [ring|]. intros; ring.
    + rewrite (sqeuclidean_Sum _ _ D) by (apply row_at_length; auto). unfold Rdiv. ring.
  - destruct (per_width_spec D (fun z c => z ^ 2 / c ^ 3) K m w HN HR ltac:(lia)) as [js [E1 [E2 [E3 E4]]]].
    assert (Q : match w with [c] => Ok [Mx (length m) (length m) (fun i j =>
             (if (i =? j)%nat then 0 else sqeuclidean (row_at m i) (row_at m j) / c ^ 3) * at_ K i j)]
             | _ => per_width (fun z c => z ^ 2 / c ^ 3) K m w end = Ok js) by (destruct w as [|? [|? ?]]; auto; cbn in E; lia).
    exists js. split; [exact Q|]. split; [auto|]. split; [auto|]. intros l i j Hl Hi Hj. rewrite E4 by auto. f_equal.
    rewrite (Sum_dw D (length w) l (fun d => (nth d (row_at m i) 0 - nth d (row_at m j) 0) ^ 2 / wnth w d ^ 3)) by auto.
    unfold wnth. destruct w as [|? [|? ?]]; auto. cbn in E. lia.
Qed.

Lemma nth_div_c (r : row) c d : nth d (map (fun z => z / c) r) 0 = nth d r 0 / c.
Proof.
  destruct (Nat.lt_ge_cases d (length r)).
  - rewrite (nth_map_lt _ _ _ 0) by auto. auto.
  - rewrite !nth_overflow by (rewrite ?map_length; lia). unfold Rdiv. ring.
Qed.

Lemma laplacian_dk D K m w : m <> [] -> rectangular m D -> (length w = D \/ length w = 1%nat) -> Forall (fun x => 0 < x) w ->
  exists js, laplacian_dk_dwidth K m w = Ok js /\ length js = length w /\ Forall (square (length m)) js /\
    forall l i j, (l < length w)%nat -> (i < length m)%nat -> (j < length m)%nat ->
      at_ (nth l js M0) i j =
      Sum D (fun d => Rabs (nth d (row_at m i) 0 - nth d (row_at m j) 0) / wnth w d ^ 2 * dw (length w) l d) * at_ K i j.
Proof.
  intros HN HR HL HP. unfold laplacian_dk_dwidth.
  destruct (Nat.eq_dec (length w) 1) as [E|E].
  - destruct w as [|c [|? ?]]; cbn in E; try lia. eexists. split; [reflexivity|]. split; [auto|].
    split; [repeat constructor|]. intros l i j Hl Hi Hj. cbn in Hl. replace l with 0%nat by lia. cbn [nth at_ wnth length]. f_equal.
    unfold dw. cbn [Nat.eqb]. apply Forall_cons_iff in HP. destruct HP as [Hc _]. assert (0 < c ^ 2) by nra.
    destruct (Nat.eqb_spec i j) as [->|N].
    + rewrite (Sum_zero D); [ring|]. intros. rewrite Rminus_diag_eq by auto. rewrite Rabs_R0. unfold Rdiv. ring.
    + rewrite (cityblock_Sum _ _ D) by (rewrite map_length; apply row_at_length; auto). apply Sum_ext. intros d Hd.
      rewrite !nth_div_c.
      replace (nth d (row_at m i) 0 / c ^ 2 - nth d (row_at m j) 0 / c ^ 2) with ((nth d (row_at m i) 0 - nth d (row_at m j) 0) * / c ^ 2) by (field; lra).
      unfold Rdiv. rewrite Rabs_mult, (Rabs_right (/ c ^ 2)); [ring|].
      apply Rle_ge. left. apply Rinv_0_lt_compat. auto.
  - destruct (per_width_spec D (fun z c => Rabs z / c ^ 2) K m w HN HR ltac:(lia)) as [js [E1 [E2 [E3 E4]]]].
    assert (Q : match w with [c] => Ok [Mx (length m) (length m) (fun i j =>
             (if (i =? j)%nat then 0
              else cityblock_dist (map (fun z => z / c ^ 2) (row_at m i)) (map (fun z => z / c ^ 2) (row_at m j))) * at_ K i j)]
             | _ => per_width (fun z c => Rabs z / c ^ 2) K m w end = Ok js) by (destruct w as [|? [|? ?]]; auto; cbn in E; lia).
    exists js. split; [exact Q|]. split; [auto|]. split; [auto|]. intros l i j Hl Hi Hj. rewrite E4 by auto. f_equal.
    rewrite (Sum_dw D (length w) l (fun d => Rabs (nth d (row_at m i) 0 - nth d (row_at m j) 0) / wnth w d ^ 2)) by auto.
    unfold wnth. destruct w as [|? [|? ?]]; auto. cbn in E. lia.
Qed.

Lemma scaled_by_spec k n js : Forall (square n) js ->
  length (scaled_by k js) = length js /\ Forall (square n) (scaled_by k js) /\
  forall l i j, (l < length js)%nat -> at_ (nth l (scaled_by k js) M0) i j =
    (match k_scaling k with Some s => s | None => 1 end) * at_ (nth l js M0) i j.
Proof.
  intros H. unfold scaled_by. destruct (k_scaling k) as [s|].
  - rewrite map_length. split; [auto|]. split.
    + rewrite Forall_forall in *. intros M HM. apply in_map_iff in HM. destruct HM as [M1 [<- HM]]. apply H in HM. destruct HM; split; auto.
    + intros l i j Hl. rewrite (nth_map_lt _ _ _ M0) by auto. cbn. ring.
  - split; [auto|]. split; [auto|]. intros. ring.
Qed.

(** A hyperparameter replaced. *)
Definition upd (h : nat -> R) (l : nat) (u : R) : nat -> R := fun e => if (e =? l)%nat then u else h e.

Lemma d_upd h l p : is_derive (fun u => upd h l u p) (h l) (if (p =? l)%nat then 1 else 0).
Proof. unfold upd. destruct (p =? l)%nat; [apply (is_derive_id (h l))|apply d_const]. Qed.

Lemma upd_same h l e : upd h l (h l) e = h e.
Proof. unfold upd. destruct (Nat.eqb_spec e l) as [->|]; auto. Qed.

Definition scale_of (k : kdict) (h : nat -> R) : R := match k_scaling k with Some _ => h 0%nat | None => 1 end.

Lemma kval_split D k h x y : kval D k h x y = scale_of k h * kbare D k h x y.
Proof. reflexivity. Qed.

Lemma kbare_ext D k h h' x y : (forall e, (n_scaling k <= e)%nat -> h e = h' e) -> kbare D k h x y = kbare D k h' x y.
Proof.
  intros H. unfold kbare. destruct (k_type k) as [[]|]; auto.
  - unfold gauss. do 2 f_equal. unfold sqd. apply Sum_ext. intros d _. rewrite H; auto. unfold wpos. lia.
  - unfold lap. do 2 f_equal. apply Sum_ext. intros d _. rewrite H; auto. unfold wpos. lia.
Qed.

(** The scaling is the first hyperparameter of a kernel. *)
Lemma scaling_derivative D k h x y s : k_scaling k = Some s ->
  is_derive (fun u => kval D k (upd h 0 u) x y) (h 0%nat) (kbare D k h x y).
Proof.
  intros Hs. apply (is_derive_ext (fun u => u * kbare D k h x y)).
  - intros u. rewrite kval_split. unfold scale_of. rewrite Hs. unfold upd at 1. cbn [Nat.eqb]. f_equal.
    apply kbare_ext. unfold n_scaling. rewrite Hs. intros e He. unfold upd. destruct (Nat.eqb_spec e 0); [lia|auto].
  - pose proof (d_mult (fun u => u) (fun _ => kbare D k h x y) (h 0%nat) 1 0 (is_derive_id (h 0%nat)) (d_const _ _)) as Q. cbv beta in Q.
    eapply d_val; [exact Q|]. ring.
Qed.

(** The other hyperparameters. *)
Lemma other_derivative D k h x y l v : (n_scaling k <= l)%nat ->
  is_derive (fun u => kbare D k (upd h l u) x y) (h l) v ->
  is_derive (fun u => kval D k (upd h l u) x y) (h l) (scale_of k h * v).
Proof.
  intros Hl H. apply (is_derive_ext (fun u => scale_of k h * kbare D k (upd h l u) x y)).
  - intros u. rewrite kval_split. f_equal. unfold scale_of, upd, n_scaling in *. destruct (k_scaling k); auto.
    destruct (Nat.eqb_spec 0 l); [lia|auto].
  - apply (d_scal _ (fun u => kbare D k (upd h l u) x y)). auto.
Qed.

Lemma gauss_ext w w' D x y : (forall d, (d < D)%nat -> w d = w' d) -> gauss w D x y = gauss w' D x y.
Proof. intros H. unfold gauss, sqd. do 2 f_equal. apply Sum_ext. intros d Hd. rewrite H; auto. Qed.
Lemma lap_ext w w' D x y : (forall d, (d < D)%nat -> w d = w' d) -> lap w D x y = lap w' D x y.
Proof. intros H. unfold lap. do 2 f_equal. apply Sum_ext. intros d Hd. rewrite H; auto. Qed.

Lemma wpos_dw k l d : (l < n_width k)%nat -> (if (wpos k d =? n_scaling k + l)%nat then 1 else 0) = dw (n_width k) l d.
Proof.
  intros Hl. unfold wpos, dw. destruct (Nat.eqb_spec (n_width k) 1).
  - replace l with 0%nat by lia. rewrite Nat.eqb_refl. auto.
  - destruct (Nat.eqb_spec l d) as [->|]; [rewrite Nat.eqb_refl; auto|]. destruct (Nat.eqb_spec (n_scaling k + d) (n_scaling k + l)); [lia|auto].
Qed.

Lemma gaussian_width_derivative D k h x y l : k_type k = Some KGaussian -> (l < n_width k)%nat ->
  (forall d, (d < D)%nat -> 0 < h (wpos k d)) ->
  is_derive (fun u => kbare D k (upd h (n_scaling k + l) u) x y) (h (n_scaling k + l)%nat)
    (Sum D (fun d => (nth d x 0 - nth d y 0) ^ 2 / h (wpos k d) ^ 3 * dw (n_width k) l d) * kbare D k h x y).
Proof.
  intros Ht Hl HP. unfold kbare. rewrite Ht.
  pose proof (d_gauss D x y (fun u d => upd h (n_scaling k + l) u (wpos k d))
    (fun d => if (wpos k d =? n_scaling k + l)%nat then 1 else 0) (h (n_scaling k + l)%nat)) as Q. cbv beta in Q.
  eapply d_val; [apply Q|].
  - intros d Hd. apply d_upd.
  - intros d Hd. rewrite upd_same. apply Rgt_not_eq. apply HP. auto.
  - f_equal; [|apply gauss_ext; intros; apply upd_same].
    apply Sum_ext. intros d Hd. rewrite upd_same, wpos_dw by auto. auto.
Qed.

Lemma laplacian_width_derivative D k h x y l : k_type k = Some KLaplacian -> (l < n_width k)%nat ->
  (forall d, (d < D)%nat -> 0 < h (wpos k d)) ->
  is_derive (fun u => kbare D k (upd h (n_scaling k + l) u) x y) (h (n_scaling k + l)%nat)
    (Sum D (fun d => Rabs (nth d x 0 - nth d y 0) / h (wpos k d) ^ 2 * dw (n_width k) l d) * kbare D k h x y).
Proof.
  intros Ht Hl HP. unfold kbare. rewrite Ht.
  pose proof (d_lap D x y (fun u d => upd h (n_scaling k + l) u (wpos k d))
    (fun d => if (wpos k d =? n_scaling k + l)%nat then 1 else 0) (h (n_scaling k + l)%nat)) as Q. cbv beta in Q.
  eapply d_val; [apply Q|].
  - intros d Hd. apply d_upd.
  - intros d Hd. rewrite upd_same. apply HP. auto.
  - f_equal; [|apply lap_ext; intros; apply upd_same].
    apply Sum_ext. intros d Hd. rewrite upd_same, wpos_dw by auto. auto.
Qed.

(** One turn of the loop gives the derivatives in all hyperparameters of the kernel. *)
Lemma block_derivatives D theta ki k m kold : jac_ok D k -> (ki + n_params k <= length theta)%nat -> Forall (fun x => 0 < x) theta ->
  m <> [] -> rectangular m D ->
  exists knew js, dk_step theta m (put theta ki k) ki kold = Ok (knew, (ki + n_params k)%nat, js) /\
    length js = n_params k /\ Forall (square (length m)) js /\
    forall l i j, (l < n_params k)%nat -> (i < length m)%nat -> (j < length m)%nat ->
      is_derive (fun u => kval D k (upd (at_theta theta ki) l u) (row_at m i) (row_at m j)) (at_theta theta ki l) (at_ (nth l js M0) i j).
Proof.
  intros HJ HL HP HN HR.
  destruct (put_fields D theta ki k HJ HL HP) as [_ [_ [_ [PM [PT PS]]]]].
  destruct (kernel_value D theta ki k m None (ncols m) HJ HL HP HR I) as (t & th & K & E1 & E2 & E3 & N1 & N2 & HK). cbn [cols_of] in *.
  assert (LW : match k_type k with Some (KGaussian | KLaplacian) =>
            (n_width k = D \/ n_width k = 1%nat) /\ len (k_width (put theta ki k)) = Ok (n_width k) | _ => True end).
  { destruct HJ as [[_ HE] [_ [HF _]]]. cbv zeta in HE. rewrite HF in HE.
    unfold put, n_params in *. destruct (k_type k) as [[]|]; auto; destruct HE as [_ [_ [w [Hw Hl]]]];
    unfold n_width in *; rewrite Hw in *; cbn [k_width set_width len]; rewrite slice_length by lia; auto. }
  destruct HJ as [_ [_ [_ [_ HT]]]]. unfold dk_step. rewrite PM, E1. rewrite PT in E1.
  assert (HS : (if is_some (k_scaling (put theta ki k)) || match t with KGaussian => true | _ => false end
            then bind (kdict2list (put theta ki k) (ncols m)) (fun r => bind (kernel t (snd r) false false m None) (fun K => Ok (Some K)))
            else Ok kold) = Ok (if is_some (k_scaling k) || match t with KGaussian => true | _ => false end then Some K else kold)).
  { rewrite PS. replace (is_some (option_map (fun _ : R => nth ki theta 0) (k_scaling k))) with (is_some (k_scaling k)) by (destruct (k_scaling k); auto).
    destruct (is_some (k_scaling k) || _); auto. rewrite E2. cbn [bind snd]. rewrite E3. auto. }
  rewrite HS. cbn [bind]. clear HS.
  set (knew := if is_some (k_scaling k) || match t with KGaussian => true | _ => false end then Some K else kold).
  set (js0 := match k_scaling k with Some _ => [K] | None => [] end).
  assert (HB : (match k_scaling (put theta ki k) with Some _ => bind (bound_k knew) (fun K => Ok ([K], S ki)) | None => Ok ([], ki) end) =
    Ok (js0, (ki + n_scaling k)%nat)).
  { rewrite PS. unfold js0, knew, n_scaling. destruct (k_scaling k); cbn; do 2 f_equal; lia. }
  rewrite HB. cbn [bind]. clear HB.
  assert (L0 : length js0 = n_scaling k) by (unfold js0, n_scaling; destruct (k_scaling k); auto).
  assert (S0 : Forall (square (length m)) js0) by (unfold js0; destruct (k_scaling k); repeat constructor; auto).
  assert (SCD : forall js l i j, (l < n_scaling k)%nat -> (i < length m)%nat -> (j < length m)%nat ->
    is_derive (fun u => kval D k (upd (at_theta theta ki) l u) (row_at m i) (row_at m j)) (at_theta theta ki l) (at_ (nth l (js0 ++ js) M0) i j)).
  { intros js l i j Hl Hi Hj. unfold n_scaling in Hl. unfold js0. destruct (k_scaling k) as [s|] eqn:Es; [|lia].
    replace l with 0%nat by lia. cbn [app nth]. rewrite HK by auto. apply (scaling_derivative D k _ _ _ s). auto. }
  assert (OTH : forall js l i j, (n_scaling k <= l)%nat -> (i < length m)%nat -> (j < length m)%nat ->
    (forall v, at_ (nth (l - n_scaling k) js M0) i j = scale_of k (at_theta theta ki) * v ->
      is_derive (fun u => kbare D k (upd (at_theta theta ki) l u) (row_at m i) (row_at m j)) (at_theta theta ki l) v ->
      is_derive (fun u => kval D k (upd (at_theta theta ki) l u) (row_at m i) (row_at m j)) (at_theta theta ki l) (at_ (nth l (js0 ++ js) M0) i j))).
  { intros js l i j Hl Hi Hj v E Q. rewrite app_nth2 by lia. rewrite L0, E. apply other_derivative; auto. }
  assert (SK : match k_scaling (put theta ki k) with Some s => s | None => 1 end = scale_of k (at_theta theta ki)).
  { rewrite PS. unfold scale_of, at_theta. destruct (k_scaling k); cbn; auto. rewrite Nat.add_0_r. auto. }
  assert (NP := HL). unfold n_params in HL |- *. rewrite E1 in *.
  destruct t; try contradiction.
  - (* constant *)
    exists knew. eexists. split; [do 2 f_equal; f_equal; lia|]. rewrite app_length. cbn [length]. split; [lia|].
    split; [apply Forall_app; split; auto; repeat constructor|].
    intros l i j Hl Hi Hj. assert (Hz : n_scaling k = 0%nat) by (unfold n_scaling; rewrite HT; auto). 
    apply (OTH _ l i j) with (v := 1); [lia|auto|auto| |].
    + replace (l - n_scaling k)%nat with 0%nat by lia. cbn. unfold scale_of. rewrite HT. ring.
    + replace l with (n_scaling k) by lia. unfold kbare. rewrite E1.
      pose proof (d_upd (at_theta theta ki) (n_scaling k) (n_scaling k)) as Q. rewrite Nat.eqb_refl in Q. exact Q.
  - (* gaussian *)
    destruct LW as [LW1 LW2]. rewrite LW2. cbn [bind]. unfold knew at 1. rewrite orb_true_r. cbn [bound_k bind].
    set (w := slice theta (ki + n_scaling k) (n_width k)).
    assert (Lw : length w = n_width k) by (unfold w; apply slice_length; lia).
    destruct (gaussian_dk D K m w HN HR ltac:(lia)) as [js [EJ [L1 [S1 V1]]]]. rewrite EJ. cbn [bind].
    destruct (scaled_by_spec (put theta ki k) (length m) js S1) as [L2 [S2 V2]].
    exists knew. eexists. split; [do 2 f_equal; f_equal; lia|]. rewrite app_length. split; [lia|]. split; [apply Forall_app; auto|].
    intros l i j Hl Hi Hj. destruct (Nat.lt_ge_cases l (n_scaling k)) as [C|C]; [apply SCD; auto|].
    apply (OTH _ l i j C Hi Hj (Sum D (fun d => (nth d (row_at m i) 0 - nth d (row_at m j) 0) ^ 2 / wnth w d ^ 3 * dw (length w) (l - n_scaling k) d) * at_ K i j)).
    + rewrite V2 by lia. rewrite SK, V1 by lia. auto.
    + pose proof (gaussian_width_derivative D k (at_theta theta ki) (row_at m i) (row_at m j) (l - n_scaling k) E1 ltac:(lia)) as Q.
      replace (n_scaling k + (l - n_scaling k))%nat with l in Q by lia. rewrite HK by auto.
      eapply d_val; [apply Q|].
      * intros d Hd. unfold at_theta, wpos. apply Forall_nth_pos; auto. destruct (Nat.eqb_spec (n_width k) 1); lia.
      * f_equal. apply Sum_ext. intros d Hd. unfold w. rewrite (wnth_slice _ _ _ _ D) by (auto; lia). fold w. rewrite Lw.
        unfold at_theta, wpos. rewrite Nat.add_assoc. auto.
  - (* laplacian *)
    destruct LW as [LW1 LW2]. rewrite LW2. cbn [bind].
    assert (HKN : bound_k knew = Ok K) by (unfold knew; destruct (k_scaling k); [auto|congruence]). rewrite HKN. cbn [bind].
    set (w := slice theta (ki + n_scaling k) (n_width k)).
    assert (Lw : length w = n_width k) by (unfold w; apply slice_length; lia).
    destruct (laplacian_dk D K m w HN HR ltac:(lia) (slice_pos _ _ _ HP)) as [js [EJ [L1 [S1 V1]]]]. rewrite EJ. cbn [bind].
    destruct (scaled_by_spec (put theta ki k) (length m) js S1) as [L2 [S2 V2]].
    exists knew. eexists. split; [do 2 f_equal; f_equal; lia|]. rewrite app_length. split; [lia|]. split; [apply Forall_app; auto|].
    intros l i j Hl Hi Hj. destruct (Nat.lt_ge_cases l (n_scaling k)) as [C|C]; [apply SCD; auto|].
    apply (OTH _ l i j C Hi Hj (Sum D (fun d => Rabs (nth d (row_at m i) 0 - nth d (row_at m j) 0) / wnth w d ^ 2 * dw (length w) (l - n_scaling k) d) * at_ K i j)).
    + rewrite V2 by lia. rewrite SK, V1 by lia. auto.
    + pose proof (laplacian_width_derivative D k (at_theta theta ki) (row_at m i) (row_at m j) (l - n_scaling k) E1 ltac:(lia)) as Q.
      replace (n_scaling k + (l - n_scaling k))%nat with l in Q by lia. rewrite HK by auto.
      eapply d_val; [apply Q|].
      * intros d Hd. unfold at_theta, wpos. apply Forall_nth_pos; auto. destruct (Nat.eqb_spec (n_width k) 1); lia.
      * f_equal. apply Sum_ext. intros d Hd. unfold w. rewrite (wnth_slice _ _ _ _ D) by (auto; lia). fold w. rewrite Lw.
        unfold at_theta, wpos. rewrite Nat.add_assoc. auto.
  - (* linear *)
    exists knew, js0. split; [do 2 f_equal; f_equal; lia|]. split; [lia|]. split; [auto|].
    intros l i j Hl Hi Hj. pose proof (SCD [] l i j ltac:(lia) Hi Hj) as Q. rewrite app_nil_r in Q. exact Q.
Qed.
