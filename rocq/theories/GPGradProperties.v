(** Properties of Gaussian processes with gradients. *)
From Coq Require Import Reals Lra Lia List Arith Bool.
From Coquelicot Require Import Coquelicot.
From Verif Require Import Base BaseFacts RBase LinAlg PSD LogDet KernModel KernProofs KernSetupProofs KernDefProofs KernScaleProofs
  KernEntryProofs KernProperties GPModel GPProofs GPMoreProofs GPProperties GradSpec GradProofs GradPSD GradKernProofs GPGradProofs.
From Verif Require PrepModel PrepProofs.
From Coq Require Import List.
Import ListNotations.
Open Scope R_scope.

(** ** C45 *)

(** With eval_gradients, for sums of gaussian and constant kernels the covariance matrix contains the
    values, the first and the mixed second derivatives of the covariance function that
    is used without gradients, for any number of features. *)
Theorem gradient_blocks_are_derivatives_partial : forall ks rb nd ks' bnds log_scale m1 m2,
  prepare_kernels ks rb true nd = Ok (ks', bnds) -> (1 <= nd)%nat -> Forall (well_formed nd) ks -> ks <> [] ->
  sum_of_smooth log_scale ks ->
  m1 <> [] -> Forall (fun r => length r = nd) m1 -> m2 <> [] -> Forall (fun r => length r = nd) m2 ->
  let k x y := match get_covariance ks' log_scale [x] (Some [y]) None false with Ok c => at_ c 0 0 | Err _ => 0 end in
  (exists K, get_covariance ks' log_scale m1 None None true = Ok K /\ gradient_covariance k nd m1 K) /\
  (exists C, get_covariance ks' log_scale m1 (Some m2) None true = Ok C /\ gradient_cross_covariance k nd m1 m2 C).
Proof.
  intros ks rb nd ks' bnds log_scale m1 m2 HP Hn HW HK HS HN1 HR1 HN2 HR2 k.
  destruct (prepare_kernels_evaluable _ _ _ _ _ _ Hn HP HW HK) as [HE HK'].
  destruct (prepare_smooth _ _ _ _ _ _ _ HP HS) as [H1 [H2 HM]].
  split; [apply covariance_grad; auto|apply covariance_gradx; auto].
Qed.
Print Assumptions gradient_blocks_are_derivatives_partial.

Lemma smooth_example : sum_of_smooth false [gaussian [1; 2]; constant 2].
Proof.
  repeat apply Forall_cons; try apply Forall_nil; (split; [auto|]); (split; [cbn; auto|]); (split; [auto|]);
    constructor; cbn; intros; try exact I; try discriminate; repeat constructor; cbn; lra.
Qed.

Example gradient_blocks_example :
  let ks := [gaussian [1; 2]; constant 2] in
  (exists b, prepare_kernels ks (0, None) true 2 = Ok (ks, b)) /\ Forall (well_formed 2) ks /\ sum_of_smooth false ks.
Proof.
  cbv zeta. split; [|split; [|exact smooth_example]].
  - unfold prepare_kernels. cbn. unfold Rltb. destruct (Rlt_dec 0 1), (Rlt_dec 0 2); try lra. cbn. eauto.
  - repeat apply Forall_cons; try apply Forall_nil; constructor; cbn; eauto; try exact I; discriminate.
Qed.

(** The two implementations, for at most 30 and for more features, give the same
    formula: every entry equals one expression that does not depend on the branch. *)
Theorem gaussian_branches_agree : forall w m D, m <> [] -> Forall (fun r => length r = D) m ->
  (length w = D \/ length w = 1%nat) -> (forall d, (d < D)%nat -> wnth w d <> 0) ->
  exists K, gaussian_kernel w true m None = Ok K /\
  forall i j a b, (i < length m)%nat -> (j < length m)%nat -> (a < D)%nat -> (b < D)%nat ->
    let z d := (nth d (row_at m i) 0 - nth d (row_at m j) 0) / wnth w d ^ 2 in
    at_ K (length m + i * D + a) (length m + j * D + b) =
    ((if (a =? b)%nat then / wnth w b ^ 2 else 0) - z a * z b) * at_ K i j.
Proof.
  intros w m D HN HR Hl Hw. destruct (gaussian_grad w m D HN HR Hl Hw) as [K [EK [N1 [N2 H]]]]. exists K. split; [auto|].
  intros i j a b Hi Hj Ha Hb z. rewrite !H by nia. unfold entry.
  destruct (index_value (length m) D i Hi) as [-> ->]. destruct (index_value (length m) D j Hj) as [-> ->].
  destruct (index_grad (length m) D i a Ha) as [-> ->]. destruct (index_grad (length m) D j b Hb) as [-> ->].
  unfold gjet, delta, z. destruct (a =? b)%nat; unfold Rdiv; ring.
Qed.
Print Assumptions gaussian_branches_agree.


(** The linear kernel with two or more features fills the block of second derivatives
    with ones: the entry for two different coordinates should be zero. *)
Theorem linear_gradient_block_refuted : forall x y,
  let k u v := match get_covariance [bare KLinear] false [u] (Some [v]) None false with Ok c => at_ c 0 0 | Err _ => 0 end in
  exists K, get_covariance [bare KLinear] false [[x; y]] None None true = Ok K /\ ~ gradient_covariance k 2 [[x; y]] K.
Proof.
  intros x y k. eexists. split; [reflexivity|].
  intros [_ _ _ _ _ G]. destruct (G 0 0 0 1)%nat as [g [G1 G2]]; auto.
  assert (Ek : forall a b c d, k [a; b] [c; d] = a * c + b * d).
  { intros. unfold k, get_covariance. cbn. ring. }
  assert (Hg : forall a b, g [a; b] = b).
  { intros a b. apply (partial_unique (fun v => k [a; b] v) 1 [x; y]); [apply G1; auto|].
    unfold partial. cbn [nth set_coord firstn skipn app]. apply is_derive_Reals.
    apply (is_derive_ext (fun t => a * x + b * t)); [intros t; rewrite Ek; auto|]. auto_derive; auto. ring. }
  assert (E : 1 = 0); [|lra].
  apply (partial_unique g 0 [x; y]).
  - match type of G2 with partial _ _ _ ?v => replace v with 1 in G2 by (cbn; ring) end. exact G2.
  - unfold partial. cbn [nth set_coord firstn skipn app]. apply is_derive_Reals.
    apply (is_derive_ext (fun _ => y)); [intros t; rewrite Hg; auto|]. auto_derive; auto.
Qed.
Print Assumptions linear_gradient_block_refuted.

(** Nor is that matrix positive semidefinite. *)
Theorem linear_gradient_covariance_refuted : forall x y, x <> y ->
  exists K v, get_covariance [bare KLinear] false [[x; y]] None None true = Ok K /\ nr K = 3%nat /\ nc K = 3%nat /\
    Sum 3 (fun i => Sum 3 (fun j => v i * at_ K i j * v j)) < 0.
Proof.
  intros x y Hxy. eexists. exists (fun i => match i with O => - (x - y) / (x * x + y * y) | 1%nat => 1 | _ => -1 end).
  split; [reflexivity|]. split; [reflexivity|]. split; [reflexivity|].
  assert (P : 0 < x * x + y * y).
  { destruct (Req_dec x 0) as [->|]; [|nra]. assert (y <> 0) by congruence. nra. }
  cbn. match goal with |- ?e < 0 => replace e with (- (((x - y) * (x - y)) / (x * x + y * y))) by (field; lra) end.
  assert (0 < (x - y) * (x - y) / (x * x + y * y)); [|lra]. apply Rdiv_lt_0_compat; nra.
Qed.
Print Assumptions linear_gradient_covariance_refuted.

(** Kernels that are multiplied: the blocks are multiplied entry by entry, so the
    derivative blocks are not the derivatives of the product. *)
Definition times (k : kdict) : kdict :=
  KD (k_type k) true (k_features k) (k_dimension k) (k_scaling k) (k_float k) (k_scaling_bounds k) (k_bounds k)
    (k_width k) (k_const k) (k_slope k) (k_degree k) (k_hyper k) (k_unknown k).

Theorem product_gradient_block_refuted :
  let ks := [gaussian [1]; times (gaussian [1])] in
  let k u v := match get_covariance ks false [u] (Some [v]) None false with Ok c => at_ c 0 0 | Err _ => 0 end in
  exists K, get_covariance ks false [[0]; [1]] None None true = Ok K /\ ~ gradient_covariance k 1 [[0]; [1]] K.
Proof.
  intros ks k. eexists. split; [reflexivity|].
  intros [_ _ _ G _ _]. specialize (G 0 1 0)%nat. cbn [length nth] in G.
  specialize (G ltac:(auto) ltac:(auto) ltac:(auto)).
  assert (Ek : forall t, k [0] [t] = exp (- (t * t))).
  { intros t. unfold k, get_covariance. cbn. unfold gaussian_fn, sqeuclidean. cbn. rewrite Rplus_0_l, !Rmult_1_l, <- exp_plus. f_equal. field. }
  assert (H : partial (fun v => k [0] v) 0 [1] (- 2 * exp (-1))).
  { unfold partial. cbn [nth set_coord firstn skipn app]. apply is_derive_Reals.
    apply (is_derive_ext (fun t => exp (- (t * t)))); [intros t; rewrite Ek; auto|]. auto_derive; auto.
    replace (- (1 * 1)) with (-1) by ring. ring. }
  pose proof (partial_unique _ _ _ _ _ G H) as E. clear G H.
  pose proof (exp_pos (-1)). cbn in E. unfold gaussian_fn, sqeuclidean in E. cbn in E.
  match type of E with ?l = _ => assert (0 <= l); [|lra] end.
  rewrite Rplus_0_l. match goal with |- 0 <= ?a * ?b => replace b with a by auto end. nra.
Qed.
Print Assumptions product_gradient_block_refuted.

(** Quadratic and laplacian kernels have no gradients. *)
Theorem other_kernels_reject_gradients : forall k log_scale m1 m2,
  k_type k = Some KQuadratic \/ k_type k = Some KLaplacian ->
  forall K, scaled_kernel k log_scale true m1 m2 <> Ok K.
Proof.
  intros k log_scale m1 m2 H K E. unfold scaled_kernel in E.
  destruct H as [H|H]; rewrite H in E; (destruct (select k m1); [|discriminate]); cbn [bind] in E;
  match type of E with bind ?x _ = _ => destruct x; [|discriminate] end; cbn [bind] in E;
  (destruct (kdict2list k (ncols m1)); [|discriminate]); discriminate.
Qed.
Print Assumptions other_kernels_reject_gradients.

(** ** C117: the covariance matrix with gradients *)

(** For lists of gaussian and constant kernels (added or multiplied) the matrix with gradients is symmetric positive
    semidefinite, and positive definite as soon as the noise is not zero. *)
Theorem gradient_covariance_positive_definite : forall ks rb nd ks' bnds log_scale m,
  prepare_kernels ks rb true nd = Ok (ks', bnds) -> (1 <= nd)%nat -> Forall (well_formed nd) ks -> ks <> [] ->
  Forall smooth ks' -> Forall (sensible log_scale) ks ->
  m <> [] -> Forall (fun r => length r = nd) m ->
  let N := (length m + length m * nd)%nat in
  exists K, get_covariance ks' log_scale m None None true = Ok K /\ nr K = N /\ nc K = N /\
    (forall i j, (i < N)%nat -> (j < N)%nat -> at_ K i j = at_ K j i) /\
    (forall x, 0 <= Sum N (fun i => Sum N (fun j => x i * at_ K i j * x j))) /\
    forall r, (if log_scale then exp r else r) <> 0 ->
      exists Kr, get_covariance ks' log_scale m None (Some r) true = Ok Kr /\ nr Kr = N /\ nc Kr = N /\
        forall x, (exists i, (i < N)%nat /\ x i <> 0) -> 0 < Sum N (fun i => Sum N (fun j => x i * at_ Kr i j * x j)).
Proof.
  intros ks rb nd ks' bnds log_scale m HP Hn HW HK HS1 HS2 HN HR N.
  destruct (prepare_kernels_evaluable _ _ _ _ _ _ Hn HP HW HK) as [HE HK'].
  pose proof (prepare_sensible _ _ _ _ _ _ _ HP HS2) as HS'.
  destruct (covariance_grad_posdef nd ks' log_scale m HE HS' HS1 HK' HN HR) as [K [EK [K1 [K2 [K3 [K4 K5]]]]]].
  exists K. split; [auto|]. split; [auto|]. split; [auto|]. split; [|split].
  - intros i j Hi Hj. apply K3; auto.
  - intros x. apply K4.
  - intros r Hr. destruct (K5 r) as [Kr [E1 [E2 [E3 [_ [_ E4]]]]]]; [unfold logged; auto|].
    exists Kr. split; [auto|]. split; [auto|]. split; [auto|]. intros x Hx. apply E4. auto.
Qed.
Print Assumptions gradient_covariance_positive_definite.

(** ** C118: Gaussian processes trained with gradients *)

(** The prediction for one point. *)
Definition predicted (s : gp) (x : row) : R := match predict s [x] with Ok [p] => p | _ => 0 end.

(** A set of gradients: one row per training point, one number per feature. *)
Definition gradients_ok (D : nat) (fp G : list row) : Prop := length G = length fp /\ Forall (fun r => length r = D) G.

Section GradFacts.
Variables (inv cho : matrix -> result matrix) (cho_solve : matrix -> list R -> list R).
Hypothesis O : oracles_ok inv cho.
Variables (D : nat) (fp : list row) (tgt : list R) (G : list row) (ks : list kdict) (reg : R) (rb : option bound) (sopt sdata : bool) (s : gp).
Hypothesis I : inputs_ok D fp ks.
Hypothesis HS : sum_of_smooth sopt ks.
Hypothesis E : gp_init inv cho cho_solve fp tgt ks (Some G) reg rb sopt sdata = Ok s.

Lemma grad_init_facts : exists ks' b K, prepare_kernels ks (init_bounds rb true) true D = Ok (ks', b) /\
  Forall (evaluable D) ks' /\ Forall (sensible sopt) ks' /\ Forall smooth ks' /\ Forall (fun k => k_mult k = false) ks' /\ ks' <> [] /\
  g_kernels s = map boxed ks' /\ g_log s = sopt /\ g_scale s = sdata /\ g_grad s = true /\
  (g_scaling s, g_fp s, g_target s) = grad_data sdata fp tgt G /\ length fp = length tgt /\
  length (g_fp s) = length fp /\ g_fp s <> [] /\ rectangular (g_fp s) D /\
  let N := (length fp + length fp * D)%nat in
  get_covariance ks' sopt (g_fp s) None None true = Ok K /\ gradient_covariance (kappa ks' sopt) D (g_fp s) K /\
  length (g_target s) = N /\ nr (g_cinv s) = N /\ nc (g_cinv s) = N /\
  inverse N (fun i j => at_ K i j + (logged sopt reg * ident i j) ^ 2) (at_ (g_cinv s)).
Proof.
  destruct O as [O1 O2]. pose proof I as [iD ifp irect iks ine].
  destruct (gp_init_grad inv cho cho_solve O1 _ _ _ _ _ _ _ _ _ _ E iks ine iD ifp irect)
    as (ks' & b & K & EP & HE & HK & S1 & S2 & S3 & S4 & S5 & EG & HL & EK & K1 & K2 & C1 & C2 & CI).
  destruct (prepare_smooth _ _ _ _ _ _ _ EP HS) as [A1 [A2 A3]].
  assert (F : length (g_fp s) = length fp /\ rectangular (g_fp s) D).
  { unfold grad_data in EG. pose proof (scale_train_shape fp tgt D ifp irect) as Q. destruct sdata.
    - destruct (scale_train fp tgt) as [[sd f1] t1]. injection EG as _ -> _. destruct Q as [_ [? [? _]]]. auto.
    - injection EG as _ -> _. auto. }
  destruct F as [F1 F2]. assert (F3 : g_fp s <> []) by (destruct (g_fp s), fp; cbn in *; congruence).
  destruct (covariance_grad D ks' sopt (g_fp s) HE A2 A1 A3 HK F3 F2) as [K0 [EK0 HG]].
  exists ks', b, K0. rewrite F1 in *. repeat (split; [solve [auto]|]).
  unfold get_covariance in EK, EK0. cbn [require] in EK, EK0.
  destruct (cov_loop ks' sopt true (g_fp s) None None) as [[c|]|]; try discriminate.
  cbn [bind] in *. destruct ((nr c =? nc c)%nat); [|discriminate].
  injection EK as <-. injection EK0 as ->. cbn [nr nc at_] in *. pose proof (gc_rows _ _ _ _ HG) as N1. rewrite F1 in N1. rewrite N1 in *.
  repeat (split; [solve [auto]|]). auto.
Qed.
End GradFacts.

(** The prediction is the posterior mean: the weights are the unique solution of the
    linear system of the covariance with gradients and noise, and a new point is
    weighted with its covariances to the training values and training gradients. *)
Theorem gradient_prediction_is_posterior_mean : forall inv cho cho_solve D fp tgt G ks reg rb sopt s,
  oracles_ok inv cho -> inputs_ok D fp ks -> sum_of_smooth sopt ks -> gradients_ok D fp G ->
  gp_init inv cho cho_solve fp tgt ks (Some G) reg rb sopt false = Ok s ->
  let n := length fp in
  let noise := (if sopt then exp reg else reg) ^ 2 in
  exists ks' b K w, prepare_kernels ks (init_bounds rb true) true D = Ok (ks', b) /\
    let k x y := match get_covariance ks' sopt [x] (Some [y]) None false with Ok c => at_ c 0 0 | Err _ => 0 end in
    gradient_covariance k D fp K /\
    let solves w := (forall i, (i < n)%nat -> Sum (n + n * D) (fun q => at_ K i q * w q) + noise * w i = nth i tgt 0) /\
      (forall i d, (i < n)%nat -> (d < D)%nat ->
         Sum (n + n * D) (fun q => at_ K (n + i * D + d) q * w q) + noise * w (n + i * D + d)%nat = nth d (nth i G []) 0) in
    solves w /\ (forall v, solves v -> forall q, (q < n + n * D)%nat -> v q = w q) /\
    forall x, length x = D -> exists g, (forall j b, (j < n)%nat -> (b < D)%nat -> partial (fun y => k x y) b (nth j fp []) (g j b)) /\
      predict s [x] = Ok [Sum n (fun j => k x (nth j fp []) * w j) + Sum n (fun j => Sum D (fun b => g j b * w (n + j * D + b)%nat))].
Proof.
  intros inv cho cho_solve D fp tgt G ks reg rb sopt s HO HI HS [G1 G2] E n noise.
  destruct (grad_init_facts inv cho cho_solve HO D fp tgt G ks reg rb sopt false s HI HS E)
    as (ks' & b & K & EP & HE & A2 & A1 & A3 & HK & S1 & S2 & S3 & S4 & EG & HL & F1 & F2 & F3 & EK & HG & T1 & C1 & C2 & CI).
  cbn in EG. injection EG as EG1 EG2 EG3. rewrite EG2 in *. fold n in T1, C1, C2, CI, F1.
  exists ks', b, K, (alpha D fp s). split; [auto|]. cbv zeta. split; [exact HG|].
  assert (Tv : forall i, (i < n)%nat -> nth i (g_target s) 0 = nth i tgt 0).
  { intros i Hi. rewrite EG3, app_nth1; auto. unfold n in Hi. lia. }
  assert (Tg : forall i d, (i < n)%nat -> (d < D)%nat -> nth (n + i * D + d) (g_target s) 0 = nth d (nth i G []) 0).
  { intros i d Hi Hd. rewrite EG3, app_nth2 by (unfold n in *; lia). replace (n + i * D + d - length tgt)%nat with (i * D + d)%nat by (unfold n; lia).
    apply nth_concat_rect; auto. unfold n in Hi. lia. }
  assert (Sys : forall p, (p < n + n * D)%nat -> Sum (n + n * D) (fun q => at_ K p q * alpha D fp s q) + noise * alpha D fp s p = nth p (g_target s) 0).
  { intros p Hp. unfold n. rewrite (alpha_system D fp s K (logged sopt reg) CI p Hp). unfold noise, logged. ring. }
  split; [|split].
  - split; intros.
    + rewrite Sys by lia. auto.
    + rewrite Sys by nia. auto.
  - intros v [V1 V2] q Hq.
    assert (V : forall p, (p < n + n * D)%nat -> Sum (n + n * D) (fun q => at_ K p q * v q) + noise * v p = nth p (g_target s) 0).
    { intros p Hp. destruct (index_cases D fp p Hp) as [H|[j [c [Hj [Hc ->]]]]]; [rewrite V1, Tv; auto|]. fold n. rewrite V2, Tg; auto. }
    clear V1 V2. set (A := fun i j => at_ K i j + (logged sopt reg * ident i j) ^ 2) in *.
    assert (M : forall u p, (p < n + n * D)%nat -> mulv (n + n * D) A u p = Sum (n + n * D) (fun q => at_ K p q * u q) + noise * u p).
    { intros u p Hp. unfold mulv, A.
      rewrite (Sum_ext _ _ (fun j => at_ K p j * u j + ident p j * (noise * u j))).
      2:{ intros j _. unfold noise, logged, ident. destruct (p =? j)%nat, sopt; ring. }
      rewrite Sum_plus. f_equal. apply (mulv_ident _ (fun j => noise * u j) p Hp). }
    pose proof (mulv_inverse' _ _ _ v CI q Hq) as Ev. rewrite <- Ev. unfold alpha. unfold mulv at 1. apply Sum_ext. intros j Hj.
    f_equal. rewrite M by auto. apply V; auto.
  - intros x Hx. exists (fun j c => ktest ks' sopt fp x (n + j * D + c)). split.
    + intros j c Hj Hc. apply (ktest_deriv D); auto.
    + assert (ST : scale_test s [x] = [x]) by (unfold scale_test; rewrite S3; auto).
      rewrite (predict_raw D ks' sopt fp HE A2 A1 A3 HK F2 F3 s S1 S2 S4 EG2 T1 C1 C2 [x]); rewrite ST;
        [|discriminate|repeat constructor; auto].
      unfold rescale. rewrite S3. cbn [map]. f_equal. f_equal. unfold raw. rewrite Sum_app, Sum_blocks. f_equal.
      * apply Sum_ext. intros j Hj. rewrite (ktest_value D); auto.
      * apply Sum_ext. intros j Hj. apply Sum_ext. intros c Hc. rewrite !Nat.add_assoc. auto.
Qed.
Print Assumptions gradient_prediction_is_posterior_mean.

(** Without noise the trained model reproduces every training value, and the derivatives
    of its prediction at the training points are the training gradients, with and
    without scaling of the data. *)
Theorem gradients_reproduced : forall inv cho cho_solve D fp tgt G ks rb sdata s,
  oracles_ok inv cho -> inputs_ok D fp ks -> sum_of_smooth false ks -> gradients_ok D fp G ->
  (sdata = true -> std tgt <> 0) ->
  gp_init inv cho cho_solve fp tgt ks (Some G) 0 rb false sdata = Ok s ->
  predict s fp = Ok tgt /\
  forall i d, (i < length fp)%nat -> (d < D)%nat -> partial (predicted s) d (nth i fp []) (nth d (nth i G []) 0).
Proof.
  intros inv cho cho_solve D fp tgt G ks rb sdata s HO HI HS [G1 G2] Hstd E.
  destruct (grad_init_facts inv cho cho_solve HO D fp tgt G ks 0 rb false sdata s HI HS E)
    as (ks' & b & K & EP & HE & A2 & A1 & A3 & HK & S1 & S2 & S3 & S4 & EG & HL & F1 & F2 & F3 & EK & HG & T1 & C1 & C2 & CI).
  pose proof HI as [iD ifp irect iks ine]. rewrite <- F1 in T1, C1, C2, CI.
  pose proof (predict_raw D ks' false (g_fp s) HE A2 A1 A3 HK F2 F3 s S1 S2 S4 eq_refl T1 C1 C2) as PR.
  pose proof (raw_value D ks' false (g_fp s) HE A2 A1 A3 HK F2 F3 s K (logged false 0) T1 C1 C2 EK CI) as RV.
  pose proof (raw_deriv D ks' false (g_fp s) HE A2 A1 A3 HK F2 F3 s K (logged false 0) T1 C1 C2 EK CI) as RD.
  set (w := alpha D (g_fp s) s) in *. change (logged false 0) with 0 in *. rewrite F1 in RV, RD.
  set (f := raw D ks' false (g_fp s) s) in *. clearbody f w.
  assert (Z : forall a, 0 ^ 2 * a = 0) by (intros; cbn; ring).
  destruct sdata.
  - (* scaled *)
    pose proof (scale_train_shape fp tgt D ifp irect) as Q. unfold grad_data in EG.
    destruct (scale_train fp tgt) as [[sd f1] t1] eqn:ES. injection EG as Esc Ef Et. rewrite Ef in *.
    destruct Q as [Q0 [Q1 [Q2 [Q3 [Q4 Q5]]]]].
    assert (P : PrepModel.t_std sd = std tgt /\ t1 = map (fun y => (y - PrepModel.t_mean sd) / PrepModel.t_std sd) tgt /\
                (forall d, (d < D)%nat -> nth d (PrepModel.f_std sd) 0 <> 0)).
    { unfold scale_train, PrepModel.sd_train, PrepModel.target_standardize in ES. cbn in ES. injection ES as <- _ <-. cbn in *. split; [auto|]. split.
      - rewrite map_map. apply map_ext. intros y. unfold PrepModel.ndiv. destruct (Reqb (std tgt) 0) eqn:R0; auto.
        apply Reqb_true in R0. exfalso. apply Hstd; auto.
      - intros d Hd. unfold PrepModel.place_one in *. rewrite map_length in Q5. rewrite (nth_map_lt _ _ _ 0) by lia.
        destruct (Reqb _ 0) eqn:R0; [lra|]. apply Reqb_false in R0. auto. }
    destruct P as [P1 [P2 P3]]. pose proof (Hstd eq_refl) as Hs. rewrite <- P1 in Hs.
    assert (ST : forall test, scale_test s test = PrepModel.sd_test sd test) by (intros; unfold scale_test; rewrite S3, Esc; auto).
    assert (NR : forall i, (i < length fp)%nat -> nth i f1 [] = PrepModel.scale_row (PrepModel.f_mean sd) (PrepModel.f_std sd) (nth i fp [])).
    { intros i Hi. rewrite Q0. unfold PrepModel.sd_test, PrepModel.scale_matrix. apply nth_map_lt; auto. }
    split.
    + rewrite PR; rewrite ST, <- Q0; auto. f_equal. unfold rescale. rewrite S3, Esc.
      apply (nth_ext _ _ 0 0); [rewrite !map_length; lia|]. intros i Hi. rewrite !map_length in Hi.
      rewrite (nth_map_lt _ _ _ 0) by (rewrite map_length; lia). rewrite (nth_map_lt _ _ _ []) by lia.
      rewrite RV by lia. rewrite Z, Et, app_nth1 by lia. rewrite P2. rewrite (nth_map_lt _ _ _ 0) by lia. field. auto.
    + intros i d Hi Hd. pose proof (nth_rect D fp irect i Hi) as Lx.
      apply (partial_ext (fun x => PrepModel.t_std sd * f (PrepModel.scale_row (PrepModel.f_mean sd) (PrepModel.f_std sd) x) + PrepModel.t_mean sd)); [lia| |].
      { intros z Hz. unfold predicted. rewrite PR; rewrite ST.
        - unfold rescale. rewrite S3, Esc. cbn. ring.
        - discriminate.
        - unfold PrepModel.sd_test, PrepModel.scale_matrix. repeat constructor. cbv beta. etransitivity; [apply PrepProofs.scale_row_length; lia|]; lia. }
      replace (nth d (nth i G []) 0) with (PrepModel.t_std sd * (nth (length fp + i * D + d) (g_target s) 0 / nth d (PrepModel.f_std sd) 0) + 0).
      { apply (partial_plus (fun x => PrepModel.t_std sd * f (PrepModel.scale_row (PrepModel.f_mean sd) (PrepModel.f_std sd) x)) (fun _ => PrepModel.t_mean sd)).
        - apply (partial_scal (PrepModel.t_std sd) (fun x => f (PrepModel.scale_row (PrepModel.f_mean sd) (PrepModel.f_std sd) x))).
          apply partial_scale; try lia; auto. rewrite <- NR by auto. specialize (RD i d Hi Hd). rewrite Z, Rminus_0_r in RD. exact RD.
        - apply partial_const. }
      rewrite Et, app_nth2 by lia. replace (length fp + i * D + d - length t1)%nat with (i * D + d)%nat by lia.
      assert (GR : rectangular (scale_gradients sd G) D).
      { unfold rectangular, scale_gradients. apply Forall_map. eapply Forall_impl; [|exact G2]. intros r Hr. cbv beta. rewrite tabulate_length. auto. }
      rewrite (nth_concat_rect _ D) by (auto; unfold scale_gradients; rewrite map_length; lia).
      unfold scale_gradients. rewrite (nth_map_lt _ _ _ []) by lia.
      assert (LG : length (nth i G []) = D) by (apply nth_rect; auto; lia).
      rewrite nth_tabulate by lia. pose proof (P3 d Hd). field. split; auto.
  - (* unscaled *)
    cbn in EG. injection EG as Esc Ef Et. rewrite Ef in *.
    assert (ST : forall test, scale_test s test = test) by (intros; unfold scale_test; rewrite S3; auto).
    split.
    + rewrite PR; rewrite ST; auto. f_equal. unfold rescale. rewrite S3.
      apply (nth_ext _ _ 0 0); [rewrite !map_length; lia|]. intros i Hi. rewrite !map_length in Hi.
      rewrite (nth_map_lt _ _ _ []) by lia. rewrite RV by lia. rewrite Z, Et, app_nth1 by lia. ring.
    + intros i d Hi Hd. pose proof (nth_rect D fp irect i Hi) as Lx.
      apply (partial_ext f); [lia| |].
      { intros z Hz. unfold predicted. rewrite PR; rewrite ST; [|discriminate|repeat constructor; lia]. unfold rescale. rewrite S3. auto. }
      specialize (RD i d Hi Hd). rewrite Z, Rminus_0_r, Et, app_nth2 in RD by lia.
      replace (length fp + i * D + d - length tgt)%nat with (i * D + d)%nat in RD by lia.
      rewrite (nth_concat_rect _ D) in RD by (auto; lia). exact RD.
Qed.
Print Assumptions gradients_reproduced.

(** Training with gradients succeeds whenever the noise is not zero. *)
Theorem gradient_training_succeeds : forall inv cho cho_solve D fp tgt G ks reg rb sopt sdata ks' b,
  oracles_ok inv cho -> oracles_total inv cho -> inputs_ok D fp ks -> sum_of_smooth sopt ks -> gradients_ok D fp G ->
  length fp = length tgt -> (if sopt then exp reg else reg) <> 0 ->
  prepare_kernels ks (init_bounds rb true) true D = Ok (ks', b) ->
  exists s, gp_init inv cho cho_solve fp tgt ks (Some G) reg rb sopt sdata = Ok s.
Proof.
  intros inv cho cho_solve D fp tgt G ks reg rb sopt sdata ks' b [O1 O2] [O3 O4] [iD ifp irect iks ine] HS [G1 G2] HL Hr EP.
  eapply gp_init_grad_ok; eauto. intros sc fp' t' EG.
  assert (F : length fp' = length fp /\ rectangular fp' D /\ length t' = (length fp + length fp * D)%nat).
  { unfold grad_data in EG. pose proof (scale_train_shape fp tgt D ifp irect) as Q. destruct sdata.
    - destruct (scale_train fp tgt) as [[sd f1] t1]. injection EG as _ <- <-. destruct Q as [_ [? [? [? _]]]]. split; [auto|]. split; [auto|].
      assert (GR : rectangular (scale_gradients sd G) D).
      { unfold rectangular, scale_gradients. apply Forall_map. eapply Forall_impl; [|exact G2]. intros r Hr'. cbv beta. rewrite tabulate_length. auto. }
      rewrite app_length, (concat_rect_length _ D GR). unfold scale_gradients. rewrite map_length. congruence.
    - injection EG as _ <- <-. split; [auto|]. split; [auto|]. rewrite app_length, (concat_rect_length _ D G2). congruence. }
  destruct F as [F1 [F2 F4]]. assert (F3 : fp' <> []) by (destruct fp', fp; cbn in *; congruence).
  destruct (prepare_smooth _ _ _ _ _ _ _ EP HS) as [A1 [A2 A3]].
  destruct (prepare_usable _ _ _ _ _ _ iD EP iks ine) as [HE [HK' _]].
  destruct (covariance_grad_posdef D ks' sopt fp' HE A2 A1 HK' F3 F2) as [K [EK [K1 [K2 [K3 [K4 K5]]]]]].
  destruct (K5 reg) as [Kr [E1 [E2 [E3 [_ [E5 E4]]]]]]; [unfold logged; auto|].
  exists Kr. rewrite E2, E3, F1 in *. repeat (split; [solve [auto]|]). auto.
Qed.
Print Assumptions gradient_training_succeeds.

(** The hypotheses can be met: one point, one feature, no noise; two points with noise follow from
    gradient_training_succeeds. *)
Example gradients_reproduced_example :
  exists s, gp_init ref_inv ref_cho (fun _ v => v) [[0]] [3] [gaussian [1]] (Some [[5]]) 0 None false false = Ok s /\
  oracles_ok ref_inv ref_cho /\ inputs_ok 1 [[0]] [gaussian [1]] /\ sum_of_smooth false [gaussian [1]] /\ gradients_ok 1 [[0]] [[5]] /\
  predict s [[0]] = Ok [3] /\ partial (predicted s) 0 [0] 5.
Proof.
  destruct oracles_exist as [HO [O3 O4]].
  assert (HI : inputs_ok 1 [[0]] [gaussian [1]]).
  { constructor; try discriminate; auto; repeat constructor; cbn; auto; intros; try discriminate; lia. }
  assert (HS : sum_of_smooth false [gaussian [1]]).
  { repeat apply Forall_cons; try apply Forall_nil; (split; [auto|]); (split; [cbn; auto|]); (split; [auto|]);
    constructor; cbn; intros; try exact I; try discriminate; repeat constructor; cbn; lra. }
  assert (HG : gradients_ok 1 [[0]] [[5]]) by (split; [auto|repeat constructor]).
  assert (EP : exists b, prepare_kernels [gaussian [1]] (init_bounds None true) true 1 = Ok ([gaussian [1]], b)).
  { unfold prepare_kernels. cbn. unfold Rltb. destruct (Rlt_dec 0 1); [|lra]. cbn. eauto. }
  destruct EP as [b EP].
  destruct (gp_init_grad_ok ref_inv ref_cho (fun _ v => v) (o_inv _ _ HO) [[0]] [3] [[5]] [gaussian [1]] 0 None false false 1 _ _ O3 O4 EP)
    as [s Es]; try apply HI; auto.
  { intros sc fp' t' EG. cbn in EG. injection EG as <- <- <-.
    assert (D0 : exists K, get_covariance [gaussian [1]] false [[0]] None (Some 0) true = Ok K /\ nr K = 2%nat /\ nc K = 2%nat /\
      at_ K 0 0 = 1 /\ at_ K 0 1 = 0 /\ at_ K 1 0 = 0 /\ at_ K 1 1 = 1).
    { eexists. split; [reflexivity|]. split; [reflexivity|]. split; [reflexivity|].
      cbn. split; [field|]. split; [field|]. split; field. }
    destruct D0 as [K [EK [K1 [K2 [D1 [D2 [D3 D4]]]]]]]. exists K. rewrite K1, K2. split; [auto|]. split; [auto|]. split; [auto|]. split.
    - intros [|[|i]] [|[|j]] Hi Hj; try lia; congruence.
    - intros x [i [Hi Hx]]. unfold quad. cbn. rewrite D1, D2, D3, D4.
      destruct i as [|[|i]]; [| |lia]; pose proof (pow2_ge_0 (x 0%nat)); pose proof (pow2_ge_0 (x 1%nat)); cbn in *;
        match type of Hx with ?a <> 0 => assert (0 < a * a) by nra end; nra. }
  exists s. split; [auto|]. split; [auto|]. split; [auto|]. split; [auto|]. split; [auto|].
  destruct (gradients_reproduced _ _ _ _ _ _ _ _ _ _ _ HO HI HS HG (fun H : false = true => False_ind _ (diff_false_true H)) Es) as [P1 P2].
  split; [auto|]. apply (P2 0 0)%nat; cbn; auto.
Qed.
