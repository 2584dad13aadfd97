(** Proofs about the jacobian of the likelihood: the whole list of kernels and the
    likelihood. *)
From Coq Require Import Reals Lra Lia List Arith Bool.
From Coquelicot Require Import Coquelicot.
From Verif Require Import Base BaseFacts RBase LinAlg LogDet PSD KernModel KernProofs KernSetupProofs KernDefProofs KernScaleProofs
  KernEntryProofs GradSpec GradProofs GradKernProofs GPModel GPProofs MatDeriv LmlModel LmlProofs.
From Coq Require Import List.
Import ListNotations.
Open Scope R_scope.

(** ** The sum of the kernels as a function of all hyperparameters *)
Fixpoint total (ks : list kdict) : nat := match ks with [] => 0 | k :: t => (n_params k + total t)%nat end.

Fixpoint puts (theta : list R) (ki : nat) (ks : list kdict) : list kdict :=
  match ks with [] => [] | k :: t => put theta ki k :: puts theta (ki + n_params k) t end.

Fixpoint ksumv (D : nat) (ks : list kdict) (ki : nat) (theta : list R) (x y : row) : R :=
  match ks with [] => 0 | k :: t => kval D k (at_theta theta ki) x y + ksumv D t (ki + n_params k) theta x y end.

Lemma ksumv_sym D ks ki theta x y : ksumv D ks ki theta x y = ksumv D ks ki theta y x.
Proof. revert ki; induction ks as [|k ks IH]; intros ki; cbn; auto. rewrite kval_sym, IH. auto. Qed.

Lemma jac_ok_width D k : jac_ok D k ->
  exists t, k_type k = Some t /\ match t with KGaussian | KLaplacian => (n_width k = D \/ n_width k = 1%nat) | _ => True end.
Proof.
  intros [[_ HE] [_ [HF [_ HT]]]]. cbv zeta in HE. rewrite HF in HE. destruct (k_type k) as [t|]; [|contradiction].
  exists t. split; auto. destruct t; auto; destruct HE as [_ [_ [w [Hw Hl]]]]; unfold n_width; rewrite Hw; auto.
Qed.

Lemma set_theta theta ki l u e : (ki + l < length theta)%nat -> at_theta (set_coord (ki + l) u theta) ki e = upd (at_theta theta ki) l u e.
Proof.
  intros H. unfold at_theta, upd. rewrite nth_set_coord by auto.
  destruct (Nat.eqb_spec e l) as [->|]; [rewrite Nat.eqb_refl; auto|]. destruct (Nat.eqb_spec (ki + e) (ki + l)); [lia|auto].
Qed.

Lemma ksumv_outside D ks ki theta q u x y : Forall (jac_ok D) ks -> (q < length theta)%nat -> (q < ki \/ ki + total ks <= q)%nat ->
  ksumv D ks ki (set_coord q u theta) x y = ksumv D ks ki theta x y.
Proof.
  revert ki; induction ks as [|k ks IH]; intros ki HJ Hq HO; cbn [ksumv total] in *; auto.
  apply Forall_cons_iff in HJ. destruct HJ as [H1 H2]. rewrite IH by (auto; lia). f_equal.
  apply kval_ext; [|apply jac_ok_width; auto]. intros e He. unfold at_theta. rewrite nth_set_coord by auto.
  destruct (Nat.eqb_spec (ki + e) q); [lia|auto].
Qed.

Lemma puts_step D theta ks ki : Forall (jac_ok D) ks -> (ki + total ks <= length theta)%nat ->
  list2kdict_from theta ki ks = Ok (puts theta ki ks).
Proof.
  revert ki; induction ks as [|k ks IH]; intros ki HJ HL; cbn [list2kdict_from puts total] in *; auto.
  apply Forall_cons_iff in HJ. destruct HJ as [H1 H2]. rewrite (put_step D) by (auto; lia). cbn [bind fst snd].
  rewrite IH by (auto; lia). auto.
Qed.

Lemma puts_ok D theta ks ki : Forall (jac_ok D) ks -> (ki + total ks <= length theta)%nat -> Forall (fun x => 0 < x) theta ->
  Forall (evaluable D) (puts theta ki ks) /\ Forall (sensible false) (puts theta ki ks) /\
  Forall (fun k => k_mult k = false) (puts theta ki ks) /\
  forall x y, length x = D -> length y = D -> ksum (puts theta ki ks) false x y = ksumv D ks ki theta x y.
Proof.
  revert ki; induction ks as [|k ks IH]; intros ki HJ HL HP; cbn [puts total] in *.
  - repeat split; auto.
  - apply Forall_cons_iff in HJ. destruct HJ as [H1 H2]. destruct (IH (ki + n_params k)%nat H2 ltac:(lia) HP) as [A1 [A2 [A3 A4]]].
    destruct (put_fields D theta ki k H1 ltac:(lia) HP) as [B1 [B2 [_ [B3 _]]]].
    split; [constructor; auto|]. split; [constructor; auto|]. split; [constructor; auto|]. intros x y Hx Hy.
    unfold ksum in *. cbn [map sumR ksumv]. rewrite A4 by auto. rewrite (kfun_put D) by (auto; lia). auto.
Qed.

Lemma loop_derivatives D theta m : Forall (fun x => 0 < x) theta -> m <> [] -> rectangular m D ->
  forall ks ki kold, Forall (jac_ok D) ks -> (ki + total ks <= length theta)%nat ->
  exists js, dk_loop theta m (puts theta ki ks) ki kold = Ok js /\ length js = total ks /\ Forall (square (length m)) js /\
    forall l i j, (l < total ks)%nat -> (i < length m)%nat -> (j < length m)%nat ->
      is_derive (fun u => ksumv D ks ki (set_coord (ki + l) u theta) (row_at m i) (row_at m j)) (nth (ki + l) theta 0)
        (at_ (nth l js M0) i j).
Proof.
  intros HP HN HR. induction ks as [|k ks IH]; intros ki kold HJ HL; cbn [puts total dk_loop] in *.
  - exists []. split; [auto|]. split; [auto|]. split; [constructor|]. intros; lia.
  - apply Forall_cons_iff in HJ. destruct HJ as [H1 H2].
    destruct (block_derivatives D theta ki k m kold H1 ltac:(lia) HP HN HR) as (knew & js1 & E1 & L1 & S1 & V1).
    rewrite E1. cbn [bind]. destruct (IH (ki + n_params k)%nat knew H2 ltac:(lia)) as (js2 & E2 & L2 & S2 & V2).
    rewrite E2. cbn [bind]. exists (js1 ++ js2). split; [auto|]. rewrite app_length. split; [lia|]. split; [apply Forall_app; auto|].
    intros l i j Hl Hi Hj. cbn [ksumv]. set (x := row_at m i). set (y := row_at m j).
    destruct (Nat.lt_ge_cases l (n_params k)) as [C|C].
    + rewrite app_nth1 by lia.
      apply (is_derive_ext (fun u => kval D k (upd (at_theta theta ki) l u) x y + ksumv D ks (ki + n_params k) theta x y)).
      * intros u. rewrite (ksumv_outside D ks) by (auto; lia). f_equal.
        apply kval_ext; [|apply jac_ok_width; auto]. intros e _. rewrite set_theta by lia. auto.
      * eapply d_val; [apply (d_plus (fun u => kval D k (upd (at_theta theta ki) l u) x y) (fun _ => ksumv D ks (ki + n_params k) theta x y));
          [apply (V1 l i j C Hi Hj)|apply d_const]|]. apply Rplus_0_r.
    + rewrite app_nth2 by lia. rewrite L1.
      apply (is_derive_ext (fun u => kval D k (at_theta theta ki) x y + ksumv D ks (ki + n_params k) (set_coord (ki + l) u theta) x y)).
      * intros u. f_equal. apply kval_ext; [|apply jac_ok_width; auto]. intros e He. unfold at_theta. rewrite nth_set_coord by lia.
        destruct (Nat.eqb_spec (ki + e) (ki + l)); [lia|auto].
      * pose proof (V2 (l - n_params k)%nat i j ltac:(lia) Hi Hj) as Q. fold x y in Q.
        replace (ki + n_params k + (l - n_params k))%nat with (ki + l)%nat in Q by lia.
        eapply d_val; [apply (d_plus (fun _ => kval D k (at_theta theta ki) x y) (fun u => ksumv D ks (ki + n_params k) (set_coord (ki + l) u theta) x y));
          [apply d_const|exact Q]|]. apply Rplus_0_l.
Qed.

(** ** The covariance and the likelihood as functions of the hyperparameters *)
Definition covf (D : nat) (ks : list kdict) (m : list row) (theta : list R) : mat := fun i j =>
  ksumv D ks 0 theta (row_at m i) (row_at m j) + (last theta 0 * ident i j) ^ 2.

Lemma covf_symm D ks m theta n : symm n (covf D ks m theta).
Proof. intros i j _ _. unfold covf, ident. rewrite ksumv_sym, (Nat.eqb_sym i j). auto. Qed.

Lemma last_nth (theta : list R) n : length theta = S n -> last theta 0 = nth n theta 0.
Proof.
  revert n; induction theta as [|a t IH]; intros n H; [discriminate|]. destruct t as [|b t].
  - cbn in *. injection H as <-. auto.
  - destruct n as [|n]; [discriminate|]. change (last (a :: b :: t) 0) with (last (b :: t) 0). cbn [nth]. apply IH. cbn in *. lia.
Qed.

Lemma covariance_value D ks m theta : Forall (jac_ok D) ks -> ks <> [] -> m <> [] -> rectangular m D ->
  length theta = S (total ks) -> Forall (fun x => 0 < x) theta ->
  exists K, list2kdict theta ks = Ok (puts theta 0 ks) /\
    get_covariance (puts theta 0 ks) false m None (Some (last theta 0)) false = Ok K /\ nr K = length m /\ nc K = length m /\
    eqm (length m) (at_ K) (covf D ks m theta) /\ posdef (length m) (covf D ks m theta).
Proof.
  intros HJ HK HN HR HL HP. unfold list2kdict. rewrite (puts_step D theta ks 0 HJ) by lia.
  destruct (puts_ok D theta ks 0 HJ ltac:(lia) HP) as [A1 [A2 [A3 A4]]].
  assert (NE : puts theta 0 ks <> []) by (destruct ks; [congruence|discriminate]).
  assert (PR : 0 < last theta 0). { rewrite (last_nth theta (total ks)) by auto. apply Forall_nth_pos; auto. lia. }
  destruct (covariance_reg D (puts theta 0 ks) false m (last theta 0) A1 NE HN HR) as [C [C0 [EC [EC0 [N1 [N2 HA]]]]]].
  destruct (covariance_kappa D (puts theta 0 ks) false m None A1 NE HN HR I) as [C1 [EC1 [_ [_ HC1]]]].
  rewrite EC0 in EC1. injection EC1 as <-.
  destruct (covariance_posdef D (puts theta 0 ks) false m (last theta 0) A1 A2 NE HN HR) as [C2 [EC2 [_ [_ [_ [PD _]]]]]].
  { unfold logged. lra. }
  rewrite EC in EC2. injection EC2 as <-.
  assert (EQ : eqm (length m) (at_ C) (covf D ks m theta)).
  { intros i j Hi Hj. rewrite HA. unfold covf, logged. f_equal. cbn [cols_of] in HC1. rewrite HC1 by auto.
    rewrite (kappa_ksum D) by (auto; apply row_at_length; auto). apply A4; apply row_at_length; auto. }
  exists C. split; [auto|]. split; [auto|]. split; [auto|]. split; [auto|]. split; [auto|].
  intros x Hx. rewrite <- (quad_ext (length m) (at_ C) _ x x); auto. intros ? ?; auto.
Qed.

(** Solving with a Cholesky factor. *)
Definition sound_solve (cho_solve : matrix -> list R -> list R) : Prop := forall n M L y,
  cholesky n M (at_ L) -> nr L = n -> nc L = n -> length y = n ->
  length (cho_solve L y) = n /\ eqv n (mulv n M (fun j => nth j (cho_solve L y) 0)) (fun i => nth i y 0).

Lemma cholesky_ext n M M' L : eqm n M M' -> cholesky n M L -> cholesky n M' L.
Proof. intros H [H1 [H2 H3]]. split; [auto|]. split; [auto|]. intros. rewrite <- H by auto. auto. Qed.

Lemma solve_ginv n M x y : symm n M -> posdef n M -> eqv n (mulv n M x) y -> eqv n x (mulv n (ginv n M) y).
Proof.
  intros HS HP H i Hi. rewrite <- (mulv_inverse' n M (ginv n M) x (ginv_inverse n M HS HP) i Hi).
  apply mulv_ext; auto. intros ? ?; auto.
Qed.

Section Likelihood.
Variables (cho : matrix -> result matrix) (cho_solve : matrix -> list R -> list R).
Hypothesis HC1 : sound_cho cho.
Hypothesis HC2 : complete_cho cho.
Hypothesis HC3 : sound_solve cho_solve.
Variables (D : nat) (ks : list kdict) (m : list row) (y : list R).
Hypothesis HJ : Forall (jac_ok D) ks.
Hypothesis HK : ks <> [].
Hypothesis HN : m <> [].
Hypothesis HR : rectangular m D.
Hypothesis HY : length y = length m.

Definition n := length m.
Definition yv : vec := fun i => nth i y 0.

Definition nlml_formula (theta : list R) : R :=
  / 2 * dotv n yv (mulv n (ginv n (covf D ks m theta)) yv) + / 2 * glogdet n (covf D ks m theta) + INR n * ln (2 * PI) / 2.

Lemma nlml_value theta : length theta = S (total ks) -> Forall (fun x => 0 < x) theta ->
  neg_lml cho cho_solve theta m y ks false false None = Ok (nlml_formula theta, puts theta 0 ks).
Proof.
  intros HL HP. destruct (covariance_value D ks m theta HJ HK HN HR HL HP) as (K & E1 & E2 & N1 & N2 & EQ & PD). fold n in *.
  assert (SY := covf_symm D ks m theta n).
  assert (SK : symm n (at_ K)) by (intros i j Hi Hj; rewrite !EQ by auto; apply SY; auto).
  assert (PK : posdef n (at_ K)). { intros x Hx. rewrite (quad_ext n _ _ x x EQ); auto. intros ? ?; auto. }
  destruct (HC2 K) as [L EL]; [lia|rewrite N1; auto|rewrite N1; auto|]. destruct (HC1 K L EL) as [_ [L1 [L2 CH]]]. rewrite N1 in *.
  apply (cholesky_ext n _ (covf D ks m theta) _ EQ) in CH.
  unfold neg_lml. rewrite E1. cbn [bind]. rewrite E2. cbn [bind]. rewrite EL. cbn [bind]. rewrite L1, HY. fold n. rewrite Nat.eqb_refl. cbn [bind].
  destruct (HC3 n (covf D ks m theta) L y CH L1 L2 HY) as [Lx Ex]. rewrite Lx, Nat.eqb_refl. cbn [negb]. do 2 f_equal.
  unfold nlml_formula. rewrite (cholesky_glogdet n _ _ SY PD CH).
  pose proof (solve_ginv n _ _ _ SY PD Ex) as Q.
  replace (Sum n (fun i => nth i y 0 * nth i (cho_solve L y) 0)) with (dotv n yv (mulv n (ginv n (covf D ks m theta)) yv)).
  - field.
  - unfold dotv. apply Sum_ext. intros i Hi. unfold yv at 1. f_equal. symmetry. apply Q. auto.
Qed.

(** The result of the likelihood as a number. *)
Definition nlml (theta : list R) : R :=
  match neg_lml cho cho_solve theta m y ks false false None with Ok r => fst r | Err _ => 0 end.

(** Derivative of the covariance in one hyperparameter. *)
Lemma likelihood_derivative theta l A' : length theta = S (total ks) -> Forall (fun x => 0 < x) theta -> (l < length theta)%nat ->
  dmat n (fun u => covf D ks m (set_coord l u theta)) (nth l theta 0) A' -> (forall i j, (i < n)%nat -> (j < n)%nat -> A' i j = A' j i) ->
  let B := ginv n (covf D ks m theta) in let a := mulv n B yv in
  is_derive (fun u => nlml (set_coord l u theta)) (nth l theta 0)
    (- (/ 2 * Sum n (fun i => Sum n (fun j => (a i * a j - B i j) * A' i j)))).
Proof.
  intros HL HP Hl HA SA B a. set (t := nth l theta 0). set (A := fun u => covf D ks m (set_coord l u theta)).
  assert (Et : set_coord l t theta = theta) by (apply set_coord_same; auto).
  apply (derive_near (fun u => nlml_formula (set_coord l u theta))).
  - apply (filter_imp (fun u => 0 < u)).
    + intros u Hu. unfold nlml. rewrite nlml_value; auto.
      * rewrite set_coord_length; auto.
      * rewrite Forall_forall. intros x Hx. apply In_nth with (d := 0) in Hx. destruct Hx as [e [He <-]].
        rewrite set_coord_length in He by auto. rewrite nth_set_coord by auto. destruct (Nat.eqb_spec e l); auto. apply Forall_nth_pos; auto.
    + apply (near_pos (fun u => u) t 1); [apply (is_derive_id t)|]. apply Forall_nth_pos; auto.
  - destruct (covariance_value D ks m theta HJ HK HN HR HL HP) as (K & _ & _ & _ & _ & _ & PD). fold n in PD.
    assert (SYA : forall n u, symm n (A u)) by (intros; apply covf_symm).
    assert (At : A t = covf D ks m theta) by (unfold A; rewrite Et; auto).
    pose proof (inverse_form_derive A t SYA n A' yv HA) as Q1. rewrite At in Q1. specialize (Q1 PD).
    pose proof (glogdet_derive A t SYA n A' HA) as Q2. rewrite At in Q2. specialize (Q2 PD SA).
    unfold nlml_formula. cbv zeta in Q1.
    pose proof (d_plus _ _ t _ _ (d_plus _ _ t _ _ (d_scal (/ 2) _ t _ Q1) (d_scal (/ 2) _ t _ Q2)) (d_const (INR n * ln (2 * PI) / 2) t)) as Q.
    cbv beta in Q. eapply d_val; [exact Q|]. fold B a.
    rewrite (Sum_ext n (fun i => Sum n (fun j => (a i * a j - B i j) * A' i j)) (fun i => Sum n (fun j => a i * A' i j * a j) - Sum n (fun j => B i j * A' i j))).
    + rewrite Sum_minus. ring.
    + intros i Hi. rewrite <- Sum_minus. apply Sum_ext. intros. ring.
Qed.

(** The matrices of derivatives. *)
Lemma dK_spec theta : length theta = S (total ks) -> Forall (fun x => 0 < x) theta ->
  exists js, dK_dtheta_j theta m (puts theta 0 ks) = Ok js /\ length js = S (total ks) /\ Forall (square n) js /\
    (forall l, (l < total ks)%nat -> dmat n (fun u => covf D ks m (set_coord l u theta)) (nth l theta 0) (at_ (nth l js M0))) /\
    dmat n (fun u => covf D ks m (set_coord (total ks) u theta)) (nth (total ks) theta 0)
      (fun i j => 2 * last theta 0 * at_ (nth (total ks) js M0) i j) /\
    forall l i j, (l <= total ks)%nat -> (i < n)%nat -> (j < n)%nat -> at_ (nth l js M0) i j = at_ (nth l js M0) j i.
Proof.
  intros HL HP. destruct (loop_derivatives D theta m HP HN HR ks 0 None HJ ltac:(lia)) as (js & E & Lj & Sj & V).
  unfold dK_dtheta_j. rewrite E. cbn [bind]. eexists. split; [reflexivity|]. rewrite app_length. cbn [length]. split; [lia|].
  split; [apply Forall_app; split; auto; repeat constructor|].
  assert (V1 : forall l, (l < total ks)%nat -> dmat n (fun u => covf D ks m (set_coord l u theta)) (nth l theta 0) (at_ (nth l js M0))).
  { intros l Hl i j Hi Hj. unfold covf.
    apply (is_derive_ext (fun u => ksumv D ks 0 (set_coord l u theta) (row_at m i) (row_at m j) + (last theta 0 * ident i j) ^ 2)).
    - intros u. f_equal. do 2 f_equal. rewrite (last_nth theta (total ks)) by auto.
      rewrite (last_nth (set_coord l u theta) (total ks)) by (rewrite set_coord_length; lia). rewrite nth_set_coord by lia.
      destruct (Nat.eqb_spec (total ks) l); [lia|auto].
    - eapply d_val; [apply (d_plus (fun u => ksumv D ks 0 (set_coord l u theta) (row_at m i) (row_at m j)) (fun _ => (last theta 0 * ident i j) ^ 2));
        [apply (V l i j Hl Hi Hj)|apply d_const]|]. apply Rplus_0_r. }
  split; [|split].
  - intros l Hl. rewrite app_nth1 by lia. auto.
  - rewrite app_nth2, Lj, Nat.sub_diag by lia. cbn [nth at_]. intros i j Hi Hj. unfold covf.
    apply (is_derive_ext (fun u => ksumv D ks 0 theta (row_at m i) (row_at m j) + u * u * ident i j ^ 2)).
    + intros u. rewrite (ksumv_outside D) by (auto; lia). f_equal.
      rewrite (last_nth (set_coord (total ks) u theta) (total ks)) by (rewrite set_coord_length; lia). rewrite nth_set_coord by lia.
      rewrite Nat.eqb_refl. cbn [pow]. cbv beta. rewrite !Rmult_1_r. rewrite !Rmult_assoc. f_equal. rewrite <- !Rmult_assoc. f_equal. apply Rmult_comm.
    + set (t := nth (total ks) theta 0).
      pose proof (d_mult _ _ t _ _ (d_mult (fun u => u) (fun u => u) t 1 1 (is_derive_id t) (is_derive_id t)) (d_const (ident i j ^ 2) t)) as Q.
      cbv beta in Q. eapply d_val; [apply (d_plus (fun _ => ksumv D ks 0 theta (row_at m i) (row_at m j)) (fun u => u * u * ident i j ^ 2));
        [apply d_const|exact Q]|]. rewrite (last_nth theta (total ks)) by auto. fold t. unfold ident. destruct (i =? j)%nat; ring.
  - intros l i j Hl Hi Hj. destruct (Nat.eq_dec l (total ks)) as [->|C].
    + rewrite app_nth2, Lj, Nat.sub_diag by lia. cbn. rewrite (Nat.eqb_sym i j). auto.
    + rewrite app_nth1 by lia. pose proof (V1 l ltac:(lia) i j Hi Hj) as Q1. pose proof (V1 l ltac:(lia) j i Hj Hi) as Q2.
      assert (Q3 : is_derive (fun u => covf D ks m (set_coord l u theta) i j) (nth l theta 0) (at_ (nth l js M0) j i)).
      { apply (is_derive_ext (fun u => covf D ks m (set_coord l u theta) j i)); [|exact Q2]. intros u. apply (covf_symm D ks m _ n); auto. }
      cbv beta in Q1. apply is_derive_unique in Q1. apply is_derive_unique in Q3. rewrite <- Q1, <- Q3. auto.
Qed.

Theorem jacobian_ok theta : length theta = S (total ks) -> Forall (fun x => 0 < x) theta ->
  exists jac, neg_lml_jac cho cho_solve theta m y ks false false = Ok (nlml theta, jac) /\ length jac = length theta /\
    (forall l, (l < total ks)%nat -> is_derive (fun u => nlml (set_coord l u theta)) (nth l theta 0) (nth l jac 0)) /\
    is_derive (fun u => nlml (set_coord (total ks) u theta)) (nth (total ks) theta 0) (2 * last theta 0 * nth (total ks) jac 0).
Proof.
  intros HL HP. destruct (covariance_value D ks m theta HJ HK HN HR HL HP) as (K & E1 & E2 & N1 & N2 & EQ & PD). fold n in *.
  assert (SY := covf_symm D ks m theta n).
  assert (SK : symm n (at_ K)) by (intros i j Hi Hj; rewrite !EQ by auto; apply SY; auto).
  assert (PK : posdef n (at_ K)). { intros x Hx. rewrite (quad_ext n _ _ x x EQ); auto. intros ? ?; auto. }
  destruct (HC2 K) as [L EL]; [lia|rewrite N1; auto|rewrite N1; auto|]. destruct (HC1 K L EL) as [_ [L1 [L2 CH]]]. rewrite N1 in *.
  apply (cholesky_ext n _ (covf D ks m theta) _ EQ) in CH.
  destruct (dK_spec theta HL HP) as (js & EJ & LJ & SJ & V1 & V2 & SYM).
  destruct (HC3 n (covf D ks m theta) L y CH L1 L2 HY) as [Lx Ex].
  assert (NV : nlml theta = - (- / 2 * Sum n (fun i => nth i y 0 * nth i (cho_solve L y) 0) + - Sum n (fun i => ln (at_ L i i)) + - INR n * ln (2 * PI) / 2)).
  { unfold nlml, neg_lml. rewrite E1. cbn [bind]. rewrite E2. cbn [bind]. rewrite EL. cbn [bind]. rewrite L1, HY. fold n. rewrite Nat.eqb_refl.
    cbn [bind]. rewrite Lx, Nat.eqb_refl. reflexivity. }
  unfold neg_lml_jac. rewrite E1. cbn [bind]. rewrite E2. cbn [bind]. rewrite EL. cbn [bind]. rewrite L1, HY. fold n. rewrite Nat.eqb_refl.
  cbn [negb]. rewrite <- NV.
  rewrite EJ. cbn [bind].
  assert (FB : forallb (fun M => (nr M =? n)%nat && (nc M =? n)%nat) js = true).
  { apply forallb_forall. intros M HM. rewrite Forall_forall in SJ. destruct (SJ M HM) as [-> ->]. rewrite Nat.eqb_refl. auto. }
  rewrite FB. cbn [negb].
  set (B := ginv n (covf D ks m theta)). set (a := mulv n B yv).
  assert (Ea : eqv n (fun j => nth j (cho_solve L y) 0) a) by (apply (solve_ginv n _ _ _ SY PD Ex)).
  assert (EB : forall i j, (i < n)%nat -> (j < n)%nat -> nth i (cho_solve L (unit_vec n j)) 0 = B i j).
  { intros i j Hi Hj. destruct (HC3 n (covf D ks m theta) L (unit_vec n j) CH L1 L2) as [_ Eu]; [apply tabulate_length|].
    pose proof (solve_ginv n _ _ _ SY PD Eu i Hi) as Q. cbv beta in Q. rewrite Q. unfold mulv. fold B.
    rewrite (Sum_ext n _ (fun k => B i k * (if (k =? j)%nat then 1 else 0))).
    - apply Sum_delta_r. auto.
    - intros k Hk. f_equal. unfold unit_vec. rewrite nth_tabulate by auto. auto. }
  assert (EJC : forall l, (l < length js)%nat -> nth l (map (fun M => - (/ 2 * Sum n (fun i => Sum n (fun j =>
      (nth i (cho_solve L y) 0 * nth j (cho_solve L y) 0 - nth i (cho_solve L (unit_vec n j)) 0) * at_ M i j)))) js) 0 =
      - (/ 2 * Sum n (fun i => Sum n (fun j => (a i * a j - B i j) * at_ (nth l js M0) i j)))).
  { intros l Hl. rewrite (nth_map_lt _ _ _ M0) by auto. do 2 f_equal. apply Sum_ext. intros i Hi. apply Sum_ext. intros j Hj.
    rewrite EB by auto. pose proof (Ea i Hi) as Q1. pose proof (Ea j Hj) as Q2. cbv beta in Q1, Q2. rewrite Q1, Q2. auto. }
  eexists. split; [reflexivity|]. rewrite map_length. split; [lia|]. split.
  - intros l Hl. rewrite EJC by lia. apply likelihood_derivative; auto; try lia. intros; apply SYM; auto; lia.
  - rewrite EJC by lia. eapply d_val; [apply (likelihood_derivative theta (total ks) (fun i j => 2 * last theta 0 * at_ (nth (total ks) js M0) i j) HL HP ltac:(lia) V2)|].
    + intros i j Hi Hj. cbv beta. rewrite SYM; auto.
    + cbv zeta. fold B a. rewrite <- Ropp_mult_distr_r. f_equal. rewrite <- Rmult_assoc, (Rmult_comm _ (/ 2)), Rmult_assoc. f_equal.
      rewrite <- Sum_scal. apply Sum_ext. intros i Hi. rewrite <- Sum_scal. apply Sum_ext. intros j Hj. ring.
Qed.
End Likelihood.
