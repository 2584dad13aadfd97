(** How the log marginal likelihood of a Gaussian process grows with its data
    (catlearn/regression/gaussian_process.py). *)
From Coq Require Import Reals Lra Lia List Arith Bool.
From Verif Require Import Base BaseFacts RBase LinAlg LogDet KernModel KernProofs KernSetupProofs KernDefProofs
  KernScaleProofs KernEntryProofs KernProperties GPModel GPProofs GPMoreProofs GPProperties
  RidgeModel RidgeProofs RidgeFacts RidgeProperties GPRidgeProperties GPDataProperties GPNextProperties.
Import ListNotations.
Open Scope R_scope.
Set Bullet Behavior "Strict Subproofs".

(** ** Triangular factors with one more row *)
Lemma Sum_only n f i : (i < n)%nat -> (forall k, (k < n)%nat -> k <> i -> f k = 0) -> Sum n f = f i.
Proof.
  intros Hi H. rewrite <- (Sum_delta n i f Hi). apply Sum_ext. intros k Hk. destruct (Nat.eqb_spec i k) as [->|N]; [try rewrite Nat.eqb_refl; ring|].
  rewrite (H k Hk) by auto. ring.
Qed.
Lemma lower_inj n L u v : (forall i j, (i < n)%nat -> (j < n)%nat -> (i < j)%nat -> L i j = 0) -> (forall i, (i < n)%nat -> 0 < L i i) ->
  (forall i, (i < n)%nat -> Sum n (fun k => L i k * u k) = Sum n (fun k => L i k * v k)) -> forall i, (i < n)%nat -> u i = v i.
Proof.
  intros H1 H2 H3. induction i as [i IH] using lt_wf_ind. intros Hi. pose proof (H3 i Hi) as E.
  assert (Z : Sum n (fun k => L i k * (u k - v k)) = 0).
  { rewrite (Sum_ext n _ (fun k => L i k * u k - L i k * v k)) by (intros; ring). rewrite Sum_minus. lra. }
  rewrite (Sum_only n _ i Hi) in Z.
  - pose proof (H2 i Hi). apply Rmult_integral in Z. destruct Z; lra.
  - intros k Hk N. destruct (Nat.lt_ge_cases k i) as [Lt|Ge]; [rewrite (IH k Lt Hk); ring|]. rewrite H1 by (auto; lia). ring.
Qed.
Lemma cholesky_leading n M L : cholesky (S n) M L -> cholesky n M L.
Proof.
  intros (H1 & H2 & H3). repeat split; intros.
  - apply H1; lia.
  - apply H2; lia.
  - rewrite <- H3 by lia. cbn [Sum]. rewrite (H1 i n) by lia. ring.
Qed.
Lemma cholesky_logs n M M' L L' : (forall i j, (i < n)%nat -> (j < n)%nat -> M' i j = M i j) -> cholesky n M L -> cholesky n M' L' ->
  Sum n (fun i => ln (L' i i)) = Sum n (fun i => ln (L i i)).
Proof.
  intros E C C'. destruct (cholesky_logdet _ _ _ C) as [G E1]. destruct (cholesky_logdet _ _ _ C') as [G' E2]. rewrite E1, E2. f_equal.
  apply good_ext; [|exact G]. intros i j Hi Hj. apply in_seq in Hi, Hj. symmetry. apply E; lia.
Qed.
(** The square of the last diagonal entry is what is left of the last diagonal entry of the matrix. *)
Lemma cholesky_last n A B A2 kz L : inverse n A B -> (forall i j, (i < n)%nat -> (j < n)%nat -> A2 i j = A i j) ->
  (forall i, (i < n)%nat -> A2 i n = kz i /\ A2 n i = kz i) -> cholesky (S n) A2 L -> L n n ^ 2 = pivot n B A2 kz.
Proof.
  intros IV EA EZ C. pose proof C as (H1 & H2 & H3). destruct (cholesky_leading _ _ _ C) as (C1 & C2 & C3).
  set (w := mulv n B kz). set (u := fun k => Sum n (fun i => L i k * w i)).
  assert (EW : forall i, (i < n)%nat -> mulv n A w i = kz i) by (intros i Hi; apply (mulv_inverse n A B kz IV i Hi)).
  assert (EU : forall k, (k < n)%nat -> u k = L n k).
  { apply (lower_inj n L u (fun k => L n k) C1 C2). intros i Hi.
    transitivity (kz i).
    - rewrite <- EW by auto. unfold mulv, u. rewrite (Sum_ext n _ (fun k => Sum n (fun j => L i k * (L j k * w j)))) by (intros; rewrite <- Sum_scal; reflexivity).
      rewrite Sum_swap. apply Sum_ext. intros j Hj. rewrite <- EA by auto. rewrite <- C3 by auto. rewrite Rmult_comm, <- Sum_scal. apply Sum_ext. intros; ring.
    - rewrite <- (proj1 (EZ i Hi)). rewrite <- H3 by lia. cbn [Sum]. rewrite (H1 i n) by lia. ring. }
  unfold pivot. fold w. rewrite <- (H3 n n) by lia. cbn [Sum].
  assert (Q : dotv n kz w = Sum n (fun k => L n k * L n k)); [|rewrite Q; ring].
  unfold dotv. rewrite (Sum_ext n _ (fun i => Sum n (fun k => L n k * (L i k * w i)))).
  - rewrite Sum_swap. apply Sum_ext. intros k Hk. rewrite Sum_scal. f_equal. apply EU, Hk.
  - intros i Hi. rewrite <- (proj2 (EZ i Hi)). rewrite <- (H3 n i) by lia. cbn [Sum]. rewrite (H1 i n) by lia.
    rewrite Rmult_0_r, Rplus_0_r, Rmult_comm, <- Sum_scal. apply Sum_ext. intros; ring.
Qed.

(** ** The likelihood of one more observation *)
(** The density at y of the normal distribution with the given mean and variance. *)
Definition density (mean variance y : R) : R := exp (- (y - mean) ^ 2 / (2 * variance)) / sqrt (2 * PI * variance).
Lemma ln_density q w y : 0 < w -> ln (density q w y) = - (y - q) ^ 2 / (2 * w) - / 2 * (ln (2 * PI) + ln w).
Proof.
  intros W0. pose proof PI_RGT_0 as PI0. assert (W : 0 < 2 * PI * w) by (apply Rmult_lt_0_compat; lra).
  unfold density. unfold Rdiv at 1. rewrite ln_mult by (first [apply exp_pos|apply Rinv_0_lt_compat, sqrt_lt_R0, W]).
  rewrite ln_exp, ln_Rinv by (apply sqrt_lt_R0, W).
  assert (SS : ln (2 * PI * w) = 2 * ln (sqrt (2 * PI * w))).
  { rewrite <- (sqrt_sqrt (2 * PI * w)) at 1 by lra. rewrite ln_mult by (apply sqrt_lt_R0, W). ring. }
  rewrite ln_mult in SS by lra. lra.
Qed.

(** With one more observation y at z, the log marginal likelihood grows by the logarithm of the density at y of the normal
    distribution that the model trained before predicts at z: its mean is the prediction and its variance the squared uncertainty plus the noise. *)
Theorem likelihood_of_next : forall inv cho cho_solve D fp tgt z y ks reg rb sopt s s2,
  oracles_ok inv cho -> inputs_ok D fp ks -> Forall (sensible sopt) ks -> length z = D ->
  gp_init inv cho cho_solve fp tgt ks None reg rb sopt false = Ok s ->
  gp_init inv cho cho_solve (fp ++ [z]) (tgt ++ [y]) ks None reg rb sopt false = Ok s2 ->
  exists q v rv l l2,
    predict s [z] = Ok [q] /\ predict_with_uncertainty s [z] = Ok ([v], rv) /\
    g_lml s = Some l /\ g_lml s2 = Some l2 /\ 0 < v ^ 2 + noise_of sopt reg /\
    l2 = l + ln (density q (v ^ 2 + noise_of sopt reg) y).
Proof.
  intros inv cho cho_solve D fp tgt z y ks reg rb sopt s s2 HO HI HS HZ E E2. set (noise := noise_of sopt reg).
  assert (HI2 : inputs_ok D (fp ++ [z]) ks).
  { destruct HI. constructor; auto. - destruct fp; [congruence|discriminate]. - apply Forall_app; auto. }
  destruct (init_facts _ _ _ HO _ _ _ _ _ _ _ _ _ HI E) as (ks' & b & EP & T & El & Es & Er & _ & _ & HL & ET & K & L & EK & EL & Elml).
  destruct (init_facts _ _ _ HO _ _ _ _ _ _ _ _ _ HI2 E2) as (ks2 & b2 & EP2 & T2 & El2 & Es2 & Er2 & _ & _ & HL2 & ET2 & K2 & L2 & EK2 & EL2 & Elml2).
  rewrite EP in EP2. injection EP2 as <- <-.
  pose proof (prepare_sensible _ _ _ _ _ _ _ EP HS) as HS'.
  cbn in ET, ET2. injection ET as Esc Ef Et. injection ET2 as Esc2 Ef2 Et2.
  assert (ST : forall t, scale_test s t = t) by (intros; unfold scale_test; rewrite Es; auto).
  assert (ST2 : forall t, scale_test s2 t = t) by (intros; unfold scale_test; rewrite Es2; auto).
  destruct (kappa_symm_psd D ks' sopt (t_eval _ _ _ T) HS' (t_ks _ _ _ T)) as [KS _].
  assert (ZN : [z] <> []) by discriminate. assert (ZR : rectangular [z] D) by (constructor; auto; constructor).
  destruct (uncertainty_trained s ks' D [z] T Es ZN ZR) as [rv EV].
  set (n := length fp) in *. set (kap := kappa ks' sopt) in *.
  assert (RL : forall i, (i < n)%nat -> length (row_at fp i) = D) by (intros; apply row_at_length; auto; apply (i_rect _ _ _ HI)).
  assert (EN : length (fp ++ [z]) = S n) by (rewrite app_length; cbn; unfold n; lia).
  assert (RO : forall j, (j < n)%nat -> row_at (fp ++ [z]) j = row_at fp j) by (intros j Hj; unfold row_at; rewrite app_nth1 by auto; auto).
  assert (RZ : row_at (fp ++ [z]) n = z) by (unfold row_at; rewrite app_nth2 by (unfold n; lia); unfold n; rewrite Nat.sub_diag; reflexivity).
  set (A := fun i j => kap (row_at fp i) (row_at fp j) + (logged sopt reg * ident i j) ^ 2).
  set (A2 := fun i j => kap (row_at (fp ++ [z]) i) (row_at (fp ++ [z]) j) + (logged sopt reg * ident i j) ^ 2).
  set (kz := fun j => kap z (row_at fp j)).
  assert (IV : inverse n A (at_ (g_cinv s))) by (pose proof (t_inv _ _ _ T) as V; rewrite Ef, El, Er in V; exact V).
  assert (IV2 : inverse (S n) A2 (at_ (g_cinv s2))) by (pose proof (t_inv _ _ _ T2) as V; rewrite Ef2, El2, Er2, EN in V; exact V).
  assert (EA : forall i j, (i < n)%nat -> (j < n)%nat -> A2 i j = A i j) by (intros i j Hi Hj; unfold A2, A; rewrite !RO by auto; reflexivity).
  assert (EZ : forall i, (i < n)%nat -> A2 i n = kz i /\ A2 n i = kz i).
  { intros i Hi. unfold A2. rewrite RZ, RO by auto. unfold ident. destruct (Nat.eqb_spec i n); [lia|]. destruct (Nat.eqb_spec n i); [lia|].
    unfold kz. split; [|ring]. rewrite (KS (row_at fp i) z) by auto. ring. }
  assert (SB : symm n (at_ (g_cinv s))).
  { eapply inverse_symm; [|exact IV]. intros i j Hi Hj. unfold A. rewrite (KS (row_at fp i)) by auto. unfold ident. rewrite (Nat.eqb_sym j i). reflexivity. }
  set (B := at_ (g_cinv s)) in *.
  assert (NO : (logged sopt reg * ident n n) ^ 2 = noise) by (unfold noise, noise_of, logged, ident; rewrite Nat.eqb_refl; destruct sopt; ring).
  assert (RD : forall x, reduction s ks' x = dotv n (fun j => kap x (row_at fp j)) (mulv n B (fun j => kap x (row_at fp j)))).
  { intros x. unfold reduction. rewrite Ef, El. rewrite quad_dot. reflexivity. }
  assert (BND : forall x, length x = D -> 0 <= kap x x - reduction s ks' x).
  { intros x Hx. pose proof (reduction_bounds s ks' D T x) as H. rewrite El in H. specialize (H HS' Hx). fold kap in H. lra. }
  pose proof (pivot_nonzero n A B A2 _ kz IV IV2 EA EZ) as PN.
  assert (PV : pivot n B A2 kz = kap z z - reduction s ks' z + noise).
  { unfold pivot. rewrite RD. unfold A2. rewrite RZ, NO. fold kz. ring. }
  assert (N0 : 0 <= noise) by (unfold noise, noise_of; apply pow2_ge_0).
  set (q := Sum n (fun j => kap z (row_at fp j) * weights s j)).
  set (v := sqrt (kap z z - reduction s ks' z)).
  assert (V2 : v ^ 2 = kap z z - reduction s ks' z) by (unfold v; rewrite <- Rsqr_pow2; apply Rsqr_sqrt, BND, HZ).
  rewrite <- V2 in PV. pose proof (pow2_ge_0 v) as VP.
  assert (PP : 0 < v ^ 2 + noise) by (rewrite PV in PN; lra).
  exists q, v, rv. do 2 eexists. split.
  { rewrite (predict_trained s ks' D T) by (rewrite ST; auto). rewrite ST. unfold rescale. rewrite Es, Ef, El. reflexivity. }
  split; [rewrite EV, El; reflexivity|]. split; [exact Elml|]. split; [exact Elml2|]. split; [exact PP|].
  destruct (o_cho _ _ HO _ _ EL) as [_ [C1 [_ C2]]]. destruct (o_cho _ _ HO _ _ EL2) as [_ [C3 [_ C4]]].
  destruct (covariance_with_reg D ks' sopt (g_fp s) reg (t_eval _ _ _ T) (t_ks _ _ _ T) (t_ne _ _ _ T) (t_rect _ _ _ T)) as [K0 [F1 [F2 [_ F3]]]].
  rewrite EK in F1. injection F1 as <-.
  destruct (covariance_with_reg D ks' sopt (g_fp s2) reg (t_eval _ _ _ T2) (t_ks _ _ _ T2) (t_ne _ _ _ T2) (t_rect _ _ _ T2)) as [K0 [G1 [G2 [_ G3]]]].
  rewrite EK2 in G1. injection G1 as <-.
  rewrite Ef in F2, F3. rewrite Ef2, EN in G2, G3. fold n in F2, F3. rewrite C1, C3, F2, G2. rewrite F2 in C2. rewrite G2 in C4.
  assert (HL' : length tgt = n) by (symmetry; exact HL). assert (HL2' : length (tgt ++ [y]) = S n) by (rewrite <- EN; symmetry; exact HL2). rewrite HL', HL2'.
  assert (C4' : cholesky (S n) A2 (at_ L2)).
  { destruct C4 as (X1 & X2 & X3). repeat split; auto. intros i j Hi Hj. rewrite X3 by auto. rewrite G3 by auto. reflexivity. }
  assert (C2' : cholesky n A (at_ L)).
  { destruct C2 as (X1 & X2 & X3). repeat split; auto. intros i j Hi Hj. rewrite X3 by auto. rewrite F3 by auto. reflexivity. }
  pose proof (cholesky_logs n A A2 (at_ L) (at_ L2) EA C2' (cholesky_leading _ _ _ C4')) as LOGS.
  pose proof (cholesky_last n A B A2 kz (at_ L2) IV EA EZ C4') as LAST. rewrite PV in LAST.
  assert (LP : 0 < at_ L2 n n) by (apply (proj1 (proj2 C4')); lia).
  assert (LN : ln (at_ L2 n n) = / 2 * ln (v ^ 2 + noise)).
  { rewrite <- LAST. replace (at_ L2 n n ^ 2) with (at_ L2 n n * at_ L2 n n) by ring. rewrite ln_mult by auto. lra. }
  assert (QUAD : Sum (S n) (fun i => nth i (g_target s2) 0 * Sum (S n) (fun j => at_ (g_cinv s2) i j * nth j (g_target s2) 0)) =
                 Sum n (fun i => nth i (g_target s) 0 * Sum n (fun j => B i j * nth j (g_target s) 0)) + (y - q) ^ 2 / (v ^ 2 + noise)).
  { rewrite Et, Et2.
    pose proof (bordered_product n A B A2 _ kz IV IV2 EA EZ (vnth tgt) (vnth (tgt ++ [y])) (vnth tgt) (vnth (tgt ++ [y]))) as H.
    etransitivity; [refine (H _ _)|].
    - intros i Hi. unfold vnth. rewrite app_nth1 by lia. reflexivity.
    - intros i Hi. unfold vnth. rewrite app_nth1 by lia. reflexivity.
    - f_equal. rewrite PV. unfold vnth at 1. rewrite app_nth2 by lia. rewrite HL', Nat.sub_diag. cbn [nth].
      assert (Q1 : dotv n kz (mulv n B (vnth tgt)) = q) by (unfold q, weights; rewrite Ef, Et; reflexivity).
      assert (Q2 : dotv n (vnth tgt) (mulv n B kz) = q) by (rewrite <- Q1, (dotv_symm n B _ _ SB); apply dotv_sym).
      unfold vnth at 2. rewrite app_nth2 by lia. rewrite HL', Nat.sub_diag. cbn [nth]. rewrite Q1, Q2. field. lra. }
  rewrite QUAD. rewrite S_INR. cbn [Sum]. rewrite LOGS, LN. rewrite ln_density by exact PP. field. lra.
Qed.

(** With a single observation it is the logarithm of the density at y of the normal distribution of mean zero, whose variance
    is the covariance of z with itself plus the noise. *)
Theorem likelihood_of_first : forall inv cho cho_solve D z y ks reg rb sopt s,
  oracles_ok inv cho -> inputs_ok D [z] ks -> Forall (sensible sopt) ks ->
  gp_init inv cho cho_solve [z] [y] ks None reg rb sopt false = Ok s ->
  exists ks' b c,
    prepare_kernels ks (init_bounds rb false) false D = Ok (ks', b) /\
    get_covariance ks' sopt [z] None None false = Ok c /\ 0 < at_ c 0 0 + noise_of sopt reg /\
    g_lml s = Some (ln (density 0 (at_ c 0 0 + noise_of sopt reg) y)).
Proof.
  intros inv cho cho_solve D z y ks reg rb sopt s HO HI HS E. set (noise := noise_of sopt reg).
  destruct (init_facts _ _ _ HO _ _ _ _ _ _ _ _ _ HI E) as (ks' & b & EP & T & El & Es & Er & _ & _ & HL & ET & K & L & EK & EL & Elml).
  cbn in ET. injection ET as Esc Ef Et.
  destruct (covariance_kappa D ks' sopt [z] None (t_eval _ _ _ T) (t_ks _ _ _ T) ltac:(discriminate) (i_rect _ _ _ HI) I) as [c [Ec [_ [_ Hc]]]].
  specialize (Hc 0%nat 0%nat ltac:(cbn; lia) ltac:(cbn; lia)).
  destruct (o_cho _ _ HO _ _ EL) as [_ [C1 [_ C2]]].
  destruct (covariance_with_reg D ks' sopt (g_fp s) reg (t_eval _ _ _ T) (t_ks _ _ _ T) (t_ne _ _ _ T) (t_rect _ _ _ T)) as [K0 [F1 [F2 [_ F3]]]].
  rewrite EK in F1. injection F1 as <-. rewrite Ef in F2, F3. cbn [length] in F2, F3.
  assert (NO : (logged sopt reg * ident 0 0) ^ 2 = noise) by (unfold noise, noise_of, logged, ident; cbn [Nat.eqb]; destruct sopt; ring).
  set (w := at_ c 0 0 + noise).
  assert (K00 : at_ K 0 0 = w).
  { rewrite (F3 0%nat 0%nat) by lia. rewrite NO. unfold w. rewrite Hc. reflexivity. }
  rewrite F2 in C1, C2. destruct C2 as (_ & X2 & X3). specialize (X2 0%nat ltac:(lia)). specialize (X3 0%nat 0%nat ltac:(lia) ltac:(lia)).
  cbn [Sum] in X3. rewrite K00 in X3. assert (W : 0 < w) by (rewrite <- X3; nra).
  assert (LN : ln (at_ L 0 0) = / 2 * ln w).
  { rewrite <- X3, Rplus_0_l, ln_mult by auto. lra. }
  assert (B0 : w * at_ (g_cinv s) 0 0 = 1).
  { pose proof (t_inv _ _ _ T) as [V _]. rewrite Ef, El, Er in V. specialize (V 0%nat 0%nat ltac:(cbn; lia) ltac:(cbn; lia)).
    unfold mulm in V. cbn [length Sum] in V. rewrite NO in V. unfold w. rewrite Hc. cbn [cols_of]. unfold ident in V. cbn [Nat.eqb] in V. lra. }
  exists ks', b, c. split; [exact EP|]. split; [exact Ec|]. split; [exact W|]. fold w. rewrite Elml, C1, Et. cbn [length Sum nth]. rewrite LN.
  assert (B1 : at_ (g_cinv s) 0 0 = / w) by (apply Rmult_eq_reg_l with w; [rewrite B0, Rinv_r by lra; reflexivity|lra]). rewrite B1.
  f_equal. rewrite ln_density by exact W.
  cbn [INR]. field. lra.
Qed.

(** The logarithm of the density of y in the distribution that a model predicts at z. *)
Definition log_predicted (s : gp) (noise : R) (z : list R) (y : R) : R :=
  match predict s [z], predict_with_uncertainty s [z] with
  | Ok [q], Ok ([v], _) => ln (density q (v ^ 2 + noise) y)
  | _, _ => 0
  end.

(** Over any history of models, each trained on the first observations in order, the log marginal likelihood of the last one is
    that of the first plus the sum of the logarithms of the densities of all later observations, each predicted by the model
    trained on those before it. *)
Theorem likelihood_chain : forall inv cho cho_solve D fp tgt ks reg rb sopt (ss : nat -> gp) m,
  oracles_ok inv cho -> inputs_ok D fp ks -> Forall (sensible sopt) ks -> length tgt = length fp -> (m < length fp)%nat ->
  (forall i, (i <= m)%nat -> gp_init inv cho cho_solve (firstn (S i) fp) (firstn (S i) tgt) ks None reg rb sopt false = Ok (ss i)) ->
  exists l0 l, g_lml (ss 0%nat) = Some l0 /\ g_lml (ss m) = Some l /\
    l = l0 + Sum m (fun i => log_predicted (ss i) (noise_of sopt reg) (nth (S i) fp []) (nth (S i) tgt 0)).
Proof.
  intros inv cho cho_solve D fp tgt ks reg rb sopt ss m HO HI HS HL. induction m as [|m IH]; intros Hm H.
  - specialize (H 0%nat ltac:(lia)).
    assert (HI1 : inputs_ok D (firstn 1 fp) ks).
    { destruct HI. destruct fp; [congruence|]. constructor; auto; [discriminate|]. cbn [firstn]. inversion i_rect. constructor; auto. }
    destruct (init_facts _ _ _ HO _ _ _ _ _ _ _ _ _ HI1 H) as (ks' & b & EP & T & El & Es & Er & _ & _ & HL' & ET & K & L & EK & EL & Elml).
    rewrite Elml. do 2 eexists. split; [reflexivity|]. split; [reflexivity|]. cbn [Sum]. ring.
  - destruct IH as (l0 & l & E0 & E1 & E2); [lia|intros i Hi; apply H; lia|].
    assert (HR : Forall (fun r => length r = D) fp) by apply (i_rect _ _ _ HI).
    assert (HI1 : inputs_ok D (firstn (S m) fp) ks).
    { destruct HI. constructor; auto; [destruct fp; [congruence|discriminate]|].
      apply Forall_forall. intros r Hr. rewrite Forall_forall in i_rect. apply i_rect. eapply firstn_In; exact Hr. }
    pose proof (H m ltac:(lia)) as Ea. pose proof (H (S m) ltac:(lia)) as Eb.
    assert (SP : forall A (d : A) l, (S m < length l)%nat -> firstn (S (S m)) l = firstn (S m) l ++ [nth (S m) l d]).
    { intros A d l'. generalize (S m) as k. induction l' as [|a l' IHl]; intros k Hk; [cbn in Hk; lia|].
      destruct k as [|k]; [destruct l'; reflexivity|]. cbn [firstn nth app]. f_equal. apply IHl. cbn in Hk. lia. }
    rewrite (SP _ [] fp), (SP _ 0 tgt) in Eb by lia.
    assert (HZ : length (nth (S m) fp []) = D) by (rewrite Forall_forall in HR; apply HR, nth_In; lia).
    destruct (likelihood_of_next _ _ _ D _ _ _ _ _ _ _ _ _ _ HO HI1 HS HZ Ea Eb) as (q & v & rv & l1 & l2 & P1 & P2 & L1 & L2 & PP & Q).
    exists l0, l2. split; [exact E0|]. split; [exact L2|]. cbn [Sum]. unfold log_predicted at 2. rewrite P1, P2. rewrite E1 in L1. injection L1 as <-. lra.
Qed.

(** One point at 1 with target 3 on a line through the origin with noise 1, then a target of 7 at the same point. *)
Example chain_case : exists s s2 v l l2,
  gp_init ref_inv ref_cho (fun _ v => v) [[1]] [3] [linear (Some 2)] None 1 None false false = Ok s /\
  gp_init ref_inv ref_cho (fun _ v => v) [[1]; [1]] [3; 7] [linear (Some 2)] None 1 None false false = Ok s2 /\
  g_lml s = Some l /\ g_lml s2 = Some l2 /\ l2 = l + ln (density 2 (v ^ 2 + 1) 7).
Proof.
  destruct (one_point 1 3) as (s & E & P); [lra|].
  assert (HU : Forall (usable 1) [linear (Some 2)]) by (repeat constructor; cbn; auto; discriminate).
  assert (HI : inputs_ok 1 [[1]] [linear (Some 2)]) by (constructor; auto; try discriminate; repeat constructor).
  assert (HSe : Forall (sensible false) [linear (Some 2)]).
  { repeat constructor; cbn; auto; try discriminate. all: intros; try discriminate; try lra. }
  assert (G : exists s, gp_init ref_inv ref_cho (fun _ v => v) ([[1]] ++ [[1]]) ([3] ++ [7]) [linear (Some 2)] None 1 None false false = Ok s).
  { destruct oracles_exist as [HO HC]. pose proof HO as [SI SC]. pose proof HC as [CI CC].
    eapply (gp_init_ok ref_inv ref_cho (fun _ v => v) SI _ _ _ _ _ _ _ 1%nat [linear (Some 2)]); eauto; try discriminate; try reflexivity;
      [repeat constructor|cbn; lra]. }
  destruct G as [s2 E2]. destruct oracles_exist as [HO _].
  destruct (likelihood_of_next _ _ _ 1 [[1]] [3] [1] 7 _ 1 None false s s2 HO HI HSe eq_refl E E2)
    as (q & v & rv & l & l2 & A1 & A2 & A3 & A4 & A5 & A6).
  assert (Q : q = 2) by (rewrite P in A1; injection A1 as <-; field). subst q.
  assert (N : noise_of false 1 = 1) by (unfold noise_of; ring). rewrite N in A6.
  exists s, s2, v, l, l2. repeat split; auto.
Qed.

Print Assumptions likelihood_of_next.
Print Assumptions likelihood_of_first.
Print Assumptions likelihood_chain.
