(** How a Gaussian process responds to data it predicted itself, to its noise and to changes
    of the targets (catlearn/regression/gaussian_process.py). *)
From Coq Require Import Reals Lra Lia List Arith Bool.
From Verif Require Import Base BaseFacts RBase LinAlg LogDet KernModel KernProofs KernSetupProofs KernDefProofs
  KernScaleProofs KernEntryProofs KernProperties GPModel GPProofs GPMoreProofs GPProperties
  RidgeModel RidgeProofs RidgeFacts RidgeProperties GPRidgeProperties.
Import ListNotations.
Open Scope R_scope.
Set Bullet Behavior "Strict Subproofs".

(** ** Specification *)
(** The sum of squared differences. *)
Definition squared_distance (a b : list R) : R := sumR (map (fun q => (fst q - snd q) ^ 2) (combine a b)).
Definition square_sum (a : list R) : R := sumR (map (fun v => v ^ 2) a).
Definition noise_of (sopt : bool) (reg : R) : R := (if sopt then exp reg else reg) ^ 2.

(** ** Data that the model predicted *)
(** Points added with their predicted values as targets leave every prediction as it is. *)
Theorem predicted_data_change_nothing : forall inv cho cho_solve D fp tgt more pm ks reg rb sopt s s2 test,
  oracles_ok inv cho -> inputs_ok D fp ks -> test_ok D test -> test_ok D more ->
  gp_init inv cho cho_solve fp tgt ks None reg rb sopt false = Ok s -> predict s more = Ok pm ->
  gp_init inv cho cho_solve (fp ++ more) (tgt ++ pm) ks None reg rb sopt false = Ok s2 ->
  predict s2 test = predict s test.
Proof.
  intros inv cho cho_solve D fp tgt more pm ks reg rb sopt s s2 test HO HI [TN TR] [MN MR] E EM E2.
  assert (HI2 : inputs_ok D (fp ++ more) ks).
  { destruct HI. constructor; auto. - destruct fp; [congruence|discriminate]. - apply Forall_app; auto. }
  destruct (init_facts _ _ _ HO _ _ _ _ _ _ _ _ _ HI E) as [ks' [b [EP [T [El [Es [Er [_ [_ [HL [ET _]]]]]]]]]]].
  destruct (init_facts _ _ _ HO _ _ _ _ _ _ _ _ _ HI2 E2) as [ks2 [b2 [EP2 [T2 [El2 [Es2 [Er2 [_ [_ [HL2 [ET2 _]]]]]]]]]]].
  rewrite EP in EP2. injection EP2 as <- <-.
  cbn in ET, ET2. injection ET as Esc Ef Et. injection ET2 as Esc2 Ef2 Et2.
  assert (ST : forall t, scale_test s t = t) by (intros; unfold scale_test; rewrite Es; auto).
  assert (ST2 : forall t, scale_test s2 t = t) by (intros; unfold scale_test; rewrite Es2; auto).
  rewrite (predict_trained s ks' D T) in EM by (rewrite ST; auto). rewrite ST in EM. unfold rescale in EM. rewrite Es, Ef, El in EM. injection EM as EM.
  set (n := length fp) in *. set (m := length more) in *.
  assert (RO : forall j, (j < n)%nat -> row_at (fp ++ more) j = row_at fp j) by (intros j Hj; unfold row_at; rewrite app_nth1 by auto; auto).
  assert (RM : forall j, row_at (fp ++ more) (n + j) = row_at more j).
  { intros j. unfold row_at. rewrite app_nth2 by (unfold n; lia). f_equal. unfold n. lia. }
  set (w := fun j => if (j <? n)%nat then weights s j else 0).
  assert (HW : forall f, Sum (n + m) (fun j => f j * w j) = Sum n (fun j => f j * weights s j)).
  { intros f. rewrite Sum_app. replace (Sum m _) with 0.
    - rewrite Rplus_0_r. apply Sum_ext. intros j Hj. unfold w. destruct (Nat.ltb_spec j n); [reflexivity|lia].
    - symmetry. transitivity (Sum m (fun _ => 0)); [|clear; induction m; cbn; [auto|rewrite IHm; ring]].
      apply Sum_ext. intros j Hj. unfold w. destruct (Nat.ltb_spec (n + j) n); [lia|ring]. }
  assert (EN : length (fp ++ more) = (n + m)%nat) by apply app_length.
  assert (HS : eqv (n + m) (weights s2) w).
  { pose proof (t_inv _ _ _ T2) as V. rewrite Ef2, El2, Er2, EN in V. set (K := fun i j => _) in V.
    intros i Hi. unfold weights. rewrite Ef2, Et2, EN. rewrite <- (mulv_inverse' _ _ _ w V i Hi). apply mulv_ext; [intros ? ? ? ?; reflexivity| |exact Hi].
    intros a Ha. unfold mulv. rewrite HW. unfold K, vnth. symmetry. destruct (Nat.ltb_spec a n) as [Hl|Hl].
    - rewrite app_nth1 by (rewrite <- HL; exact Hl). pose proof (weights_spec s ks' D T a) as W. rewrite Ef, El, Er, Et in W. rewrite <- (W Hl).
      apply Sum_ext. intros j Hj. rewrite !RO by auto. reflexivity.
    - assert (exists c, a = (n + c)%nat /\ (c < m)%nat) as [c [-> Hc]] by (exists (a - n)%nat; lia).
      rewrite app_nth2 by (rewrite <- HL; fold n; lia). rewrite <- HL. fold n. replace (n + c - n)%nat with c by lia. rewrite <- EM, nth_tabulate by exact Hc.
      apply Sum_ext. intros j Hj. rewrite RM, RO by auto. f_equal. unfold ident. destruct (Nat.eqb_spec (n + c) j); [lia|]. ring. }
  rewrite (predict_trained s ks' D T), (predict_trained s2 ks' D T2) by (rewrite ?ST, ?ST2; auto). rewrite ST, ST2. unfold rescale. rewrite Es, Es2.
  f_equal. apply tabulate_ext. intros i Hi. rewrite Ef, Ef2, El, El2, EN. fold n.
  transitivity (Sum (n + m) (fun j => kappa ks' sopt (row_at test i) (row_at (fp ++ more) j) * w j)).
  - apply Sum_ext. intros j Hj. rewrite HS by auto. reflexivity.
  - rewrite HW. apply Sum_ext. intros j Hj. rewrite RO by auto. reflexivity.
Qed.

(** ** Noise *)
Lemma combine_map_sq (h : row -> R) fp : forall tgt, squared_distance (map h fp) tgt = sumR (map (fun q => (h (fst q) - snd q) ^ 2) (combine fp tgt)).
Proof. unfold squared_distance. induction fp as [|x l IH]; intros [|t tgt]; cbn [map combine sumR fst snd]; try reflexivity. rewrite IH. reflexivity. Qed.
Lemma squares_nonneg w : 0 <= square_sum w.
Proof. unfold square_sum. induction w as [|x w IH]; cbn [map sumR]; [lra|]. pose proof (pow2_ge_0 x). lra. Qed.

(** With more noise the training data are fitted no better, the predicted function is no rougher
    and no prediction is more certain. *)
Theorem more_noise_worse_fit : forall inv cho cho_solve D fp tgt ks reg reg2 rb sopt s s2,
  oracles_ok inv cho -> inputs_ok D fp ks -> Forall (sensible sopt) ks ->
  gp_init inv cho cho_solve fp tgt ks None reg rb sopt false = Ok s ->
  gp_init inv cho cho_solve fp tgt ks None reg2 rb sopt false = Ok s2 ->
  noise_of sopt reg < noise_of sopt reg2 ->
  let k := cov (g_kernels s) sopt in
  g_kernels s2 = g_kernels s /\
  exists g g2 p p2,
    (forall test, test_ok D test ->
      predict s test = Ok (map (value k g) test) /\ predict s2 test = Ok (map (value k g2) test)) /\
    roughness k g2 <= roughness k g /\
    predict s fp = Ok p /\ predict s2 fp = Ok p2 /\
    squared_distance p tgt <= squared_distance p2 tgt /\ squared_distance p2 tgt <= square_sum tgt /\
    forall test, test_ok D test -> exists u u2 r r2,
      predict_with_uncertainty s test = Ok (u, r) /\ predict_with_uncertainty s2 test = Ok (u2, r2) /\
      length u = length test /\ length u2 = length test /\
      forall i, (i < length test)%nat -> nth i u 0 <= nth i u2 0.
Proof.
  intros inv cho cho_solve D fp tgt ks reg reg2 rb sopt s s2 HO HI HS E E2 HN k.
  assert (HF : test_ok D fp) by (destruct HI; split; auto).
  assert (HKL : g_kernels s2 = g_kernels s /\ length fp = length tgt /\
    (forall n pt, (forall i, (i < n)%nat -> length (pt i) = D) -> possemidef n (fun i j => k (pt i) (pt j)))).
  { destruct (init_facts _ _ _ HO _ _ _ _ _ _ _ _ _ HI E) as [ks' [b [EP [T [_ [_ [_ [_ [_ [HL _]]]]]]]]]].
    destruct (init_facts _ _ _ HO _ _ _ _ _ _ _ _ _ HI E2) as [ks2 [b2 [EP2 [T2 _]]]].
    rewrite EP in EP2. injection EP2 as <- <-. rewrite (t_kernels _ _ _ T2). split; [rewrite (t_kernels _ _ _ T); reflexivity|]. split; [exact HL|].
    assert (HKK : k = kappa ks' sopt).
    { unfold k, cov. rewrite (t_kernels _ _ _ T). apply FunctionalExtensionality.functional_extensionality. intros x.
      apply FunctionalExtensionality.functional_extensionality. intros y. rewrite get_covariance_boxed. reflexivity. }
    rewrite HKK. apply (kappa_symm_psd D ks' sopt (t_eval _ _ _ T) (prepare_sensible _ _ _ _ _ _ _ EP HS) (t_ks _ _ _ T)). }
  destruct HKL as [HK [HL HP]]. split; [exact HK|].
  destruct (prediction_is_best_tradeoff _ _ _ _ _ _ _ _ _ _ _ HO HI HS E) as (g & EG & Ep & HB).
  destruct (prediction_is_best_tradeoff _ _ _ _ _ _ _ _ _ _ _ HO HI HS E2) as (g2 & EG2 & Ep2 & HB2).
  fold k in Ep, HB. rewrite HK in Ep2, HB2. fold k in Ep2, HB2. fold (noise_of sopt reg) in HB. fold (noise_of sopt reg2) in HB2.
  assert (HC : forall f, map snd f = fp -> Forall (fun c : R * row => length (snd c) = D) f).
  { intros f Hf. apply Forall_map with (f := snd) (P := fun x => length x = D). rewrite Hf. apply (i_rect _ _ _ HI). }
  assert (N0 : 0 <= noise_of sopt reg) by (unfold noise_of; apply pow2_ge_0).
  destruct (HB g2 (HC _ EG2)) as [B1 _]. destruct (HB2 g (HC _ EG)) as [B2 _]. destruct (HB2 [] (Forall_nil _)) as [B3 _].
  unfold tradeoff in B1, B2, B3. rewrite <- !combine_map_sq in B1, B2, B3.
  assert (RG : 0 <= roughness k g2).
  { replace g2 with (combine (map fst g2) fp) by (rewrite <- EG2; clear; induction g2 as [|[a b] l IH]; cbn [map combine fst snd]; congruence). rewrite roughness_quad by (rewrite map_length, <- EG2, map_length; reflexivity).
    apply (HP (length fp) (fun i => row_at fp i)). intros i Hi. apply row_at_length; auto. apply (i_rect _ _ _ HI). }
  set (E1 := squared_distance (map (value k g) fp) tgt) in *. set (e2 := squared_distance (map (value k g2) fp) tgt) in *.
  exists g, g2, (map (value k g) fp), (map (value k g2) fp). split; [intros t Ht; split; auto|].
  assert (RR' : roughness k g2 <= roughness k g) by nra.
  split; [exact RR'|]. split; [apply Ep, HF|]. split; [apply Ep2, HF|]. fold E1 e2. split; [nra|]. split.
  { replace (squared_distance (map (value k []) fp) tgt) with (square_sum tgt) in B3.
    - change (roughness k []) with 0 in B3. nra.
    - revert HL. clear. unfold square_sum, squared_distance. revert tgt. induction fp as [|x l IH]; intros [|t tgt] HL; try discriminate; [reflexivity|].
      cbn [map combine sumR fst snd]. rewrite (IH tgt) by (cbn in HL; lia). change (value k [] x) with 0. ring. }
  intros test HT.
  destruct (prediction_is_best_linear _ _ _ _ _ _ _ _ _ _ _ _ HO HI HS HT E) as (q & u & r & _ & EU & _ & LU & HU).
  destruct (prediction_is_best_linear _ _ _ _ _ _ _ _ _ _ _ _ HO HI HS HT E2) as (q2 & u2 & r2 & _ & EU2 & _ & LU2 & HU2).
  rewrite HK in HU2. fold k in HU, HU2. fold (noise_of sopt reg) in HU. fold (noise_of sopt reg2) in HU2.
  exists u, u2, r, r2. split; [exact EU|]. split; [exact EU2|]. split; [exact LU|]. split; [exact LU2|].
  intros i Hi. destruct (HU i Hi) as (w & _ & _ & P1 & Q1 & M1). destruct (HU2 i Hi) as (w2 & L2 & _ & P2 & Q2 & _).
  destruct (M1 w2 L2) as [M _]. pose proof (squares_nonneg w2) as SN. unfold square_sum in SN.
  assert (nth i u 0 ^ 2 <= nth i u2 0 ^ 2) by (rewrite Q1, Q2; unfold expected_error in *; nra). nra.
Qed.

(** ** Changes of the targets *)
Definition residuals (tgt p : list R) : list R := map (fun q => fst q - snd q) (combine tgt p).
Lemma squared_distance_Sum n a b : length a = n -> length b = n -> squared_distance a b = Sum n (fun i => (nth i a 0 - nth i b 0) ^ 2).
Proof.
  intros Ha Hb. unfold squared_distance. rewrite (sumR_Sum _ _ (0, 0)), combine_length, Ha, Hb, Nat.min_id. apply Sum_ext. intros i Hi.
  rewrite combine_nth by lia. reflexivity.
Qed.
Lemma residuals_nth n a b i : length a = n -> length b = n -> (i < n)%nat -> nth i (residuals a b) 0 = nth i a 0 - nth i b 0.
Proof.
  intros Ha Hb Hi. unfold residuals. rewrite (nth_map_lt _ _ _ (0, 0)) by (rewrite combine_length; lia). rewrite combine_nth by lia. reflexivity.
Qed.

(** The changes of the predictions at the training points and of the residuals, squared and
    summed, are together no larger than the change of the targets. *)
Theorem fit_changes_less_than_targets : forall inv cho cho_solve D fp tgt tgt2 ks reg rb sopt s s2,
  oracles_ok inv cho -> inputs_ok D fp ks -> Forall (sensible sopt) ks ->
  gp_init inv cho cho_solve fp tgt ks None reg rb sopt false = Ok s ->
  gp_init inv cho cho_solve fp tgt2 ks None reg rb sopt false = Ok s2 ->
  exists p p2, predict s fp = Ok p /\ predict s2 fp = Ok p2 /\ length p = length tgt /\ length p2 = length tgt2 /\
    squared_distance p p2 + squared_distance (residuals tgt p) (residuals tgt2 p2) <= squared_distance tgt tgt2.
Proof.
  intros inv cho cho_solve D fp tgt tgt2 ks reg rb sopt s s2 HO HI HS E E2.
  destruct (init_facts _ _ _ HO _ _ _ _ _ _ _ _ _ HI E) as [ks' [b [EP [T [El [Es [Er [_ [_ [HL [ET _]]]]]]]]]]].
  destruct (init_facts _ _ _ HO _ _ _ _ _ _ _ _ _ HI E2) as [ks2 [b2 [EP2 [T2 [El2 [Es2 [Er2 [_ [_ [HL2 [ET2 _]]]]]]]]]]].
  rewrite EP in EP2. injection EP2 as <- <-.
  cbn in ET, ET2. injection ET as Esc Ef Et. injection ET2 as Esc2 Ef2 Et2.
  destruct (kappa_symm_psd D ks' sopt (t_eval _ _ _ T) (prepare_sensible _ _ _ _ _ _ _ EP HS) (t_ks _ _ _ T)) as [_ KP].
  pose proof (i_rect _ _ _ HI) as HR. pose proof (i_fp _ _ _ HI) as HN.
  assert (ST : forall t, scale_test s t = t) by (intros; unfold scale_test; rewrite Es; auto).
  assert (ST2 : forall t, scale_test s2 t = t) by (intros; unfold scale_test; rewrite Es2; auto).
  set (n := length fp) in *. set (K := fun i j => kappa ks' sopt (row_at fp i) (row_at fp j)).
  set (r2 := logged sopt reg ^ 2).
  exists (tabulate n (mulv n K (weights s))), (tabulate n (mulv n K (weights s2))).
  split. { rewrite (predict_trained s ks' D T) by (rewrite ST; auto). rewrite ST. unfold rescale. rewrite Es, Ef, El. reflexivity. }
  split. { rewrite (predict_trained s2 ks' D T2) by (rewrite ST2; auto). rewrite ST2. unfold rescale. rewrite Es2, Ef2, El2. reflexivity. }
  split; [rewrite tabulate_length; exact HL|]. split; [rewrite tabulate_length; exact HL2|].
  assert (W1 : forall i, (i < n)%nat -> nth i tgt 0 = mulv n K (weights s) i + r2 * weights s i).
  { intros i Hi. pose proof (weights_spec s ks' D T i) as W. rewrite Ef, El, Er, Et in W. rewrite <- (W Hi).
    rewrite <- (Sum_delta n i (fun l => r2 * weights s l) Hi). unfold mulv. rewrite <- Sum_plus. apply Sum_ext. intros l _.
    unfold K, r2, ident. destruct (i =? l)%nat; ring. }
  assert (W2 : forall i, (i < n)%nat -> nth i tgt2 0 = mulv n K (weights s2) i + r2 * weights s2 i).
  { intros i Hi. pose proof (weights_spec s2 ks' D T2 i) as W. rewrite Ef2, El2, Er2, Et2 in W. rewrite <- (W Hi).
    rewrite <- (Sum_delta n i (fun l => r2 * weights s2 l) Hi). unfold mulv. rewrite <- Sum_plus. apply Sum_ext. intros l _.
    unfold K, r2, ident. destruct (i =? l)%nat; ring. }
  assert (LT : forall v, length (tabulate n v) = n) by (intros v; apply tabulate_length).
  assert (LR : forall a c, length a = n -> length c = n -> length (residuals a c) = n).
  { intros a c Ha Hc. unfold residuals. rewrite map_length, combine_length. lia. }
  symmetry in HL, HL2.
  rewrite !(squared_distance_Sum n) by auto.
  set (d := fun i => weights s i - weights s2 i).
  assert (MD : forall i, mulv n K d i = mulv n K (weights s) i - mulv n K (weights s2) i).
  { intros i. unfold mulv, d. rewrite <- Sum_minus. apply Sum_ext. intros; ring. }
  assert (Q : quad n K d = Sum n (fun i => d i * mulv n K d i)) by apply quad_dot.
  assert (0 <= quad n K d) by (apply (KP n (fun i => row_at fp i)); intros; apply row_at_length; auto).
  assert (0 <= r2) by (unfold r2; apply pow2_ge_0).
  replace (Sum n (fun i => (nth i tgt 0 - nth i tgt2 0) ^ 2)) with
    (Sum n (fun i => mulv n K d i ^ 2) + Sum n (fun i => (r2 * d i) ^ 2) + 2 * r2 * quad n K d).
  2:{ rewrite Q, <- Sum_scal, <- !Sum_plus. apply Sum_ext. intros i Hi. rewrite W1, W2, MD by auto. unfold d. ring. }
  replace (Sum n (fun i => (nth i (tabulate n (mulv n K (weights s))) 0 - nth i (tabulate n (mulv n K (weights s2))) 0) ^ 2)) with (Sum n (fun i => mulv n K d i ^ 2)).
  2:{ apply Sum_ext. intros i Hi. rewrite !nth_tabulate, MD by auto. reflexivity. }
  replace (Sum n (fun i => (nth i (residuals tgt _) 0 - _) ^ 2)) with (Sum n (fun i => (r2 * d i) ^ 2)).
  2:{ apply Sum_ext. intros i Hi. rewrite !(residuals_nth n) by auto. rewrite !nth_tabulate, W1, W2 by auto. unfold d. ring. }
  nra.
Qed.

(** ** Cases *)
(** One point at 1 with target 3 on a line through the origin: noise 1 gives the slope 2 and noise 2
    the slope 1; the value 4 predicted at 2 can be added as a target, and for the target 6 the slope is 4. *)
Lemma one_point reg t : reg <> 0 -> exists s, gp_init ref_inv ref_cho (fun _ v => v) [[1]] [t] [linear (Some 2)] None reg None false false = Ok s /\
  forall x, predict s [[x]] = Ok [x * (t / (1 + reg ^ 2 / 2))].
Proof.
  intros Hreg. destruct oracles_exist as [HO HC]. pose proof HO as [SI SC]. pose proof HC as [CI CC].
  assert (HU : Forall (usable 1) [linear (Some 2)]) by (repeat constructor; cbn; auto; discriminate).
  assert (HSe : Forall (sensible false) [linear (Some 2)]).
  { repeat constructor; cbn; auto; try discriminate. all: intros; try discriminate; try lra. }
  assert (G : exists s, gp_init ref_inv ref_cho (fun _ v => v) [[1]] [t] [linear (Some 2)] None reg None false false = Ok s).
  { eapply (gp_init_ok ref_inv ref_cho (fun _ v => v) SI _ _ _ _ _ _ _ 1%nat [linear (Some 2)]); eauto; try discriminate; try reflexivity;
      repeat constructor. }
  destruct G as [s E]. exists s. split; [exact E|]. intros x.
  assert (0 < reg ^ 2) by nra.
  assert (ER : exists r n, RR svd_one (Ridge None None) [[1]] [t] (reg ^ 2 / prefactor (Some 2)) 0 false = Ok (r, [t / (1 + reg ^ 2 / 2)], n)).
  { unfold RR, use_svd, svd_one, gram. cbn -[Rle_dec].
    destruct (Rle_dec 0 _) as [H1|H1]; [|exfalso; apply H1; unfold entry; cbn; lra]. cbn. unfold xty, entry. cbn.
    eexists. eexists. f_equal. f_equal. f_equal. f_equal. field. nra. }
  destruct ER as (r & n & ER).
  destruct (ridge_is_linear_gp ref_inv ref_cho (fun _ v => v) svd_one 1 [[1]] [t] (Some 2) reg None s [[x]] (reg ^ 2 / prefactor (Some 2)) false r [t / (1 + reg ^ 2 / 2)] n HO svd_one_ok)
    as (p & P1 & P2); auto; try discriminate; try (cbn; lra); try (repeat constructor); try discriminate.
  rewrite P1. cbn in P2. injection P2 as <-. f_equal. f_equal. unfold Rdiv. cbn. ring.
Qed.
Example data_case : exists s s2 s3 s4,
  gp_init ref_inv ref_cho (fun _ v => v) [[1]] [3] [linear (Some 2)] None 1 None false false = Ok s /\
  gp_init ref_inv ref_cho (fun _ v => v) [[1]] [3] [linear (Some 2)] None 2 None false false = Ok s2 /\
  gp_init ref_inv ref_cho (fun _ v => v) [[1]] [6] [linear (Some 2)] None 1 None false false = Ok s3 /\
  gp_init ref_inv ref_cho (fun _ v => v) [[1]; [2]] [3; 4] [linear (Some 2)] None 1 None false false = Ok s4 /\
  predict s [[1]] = Ok [2] /\ predict s2 [[1]] = Ok [1] /\ predict s3 [[1]] = Ok [4] /\
  predict s [[2]] = Ok [4] /\ predict s4 [[1]] = Ok [2].
Proof.
  destruct (one_point 1 3) as (s & E & P); [lra|]. destruct (one_point 2 3) as (s2 & E2 & P2); [lra|]. destruct (one_point 1 6) as (s3 & E3 & P3); [lra|].
  assert (HU : Forall (usable 1) [linear (Some 2)]) by (repeat constructor; cbn; auto; discriminate).
  assert (HI : inputs_ok 1 [[1]] [linear (Some 2)]) by (constructor; auto; try discriminate; repeat constructor).
  assert (G : exists s, gp_init ref_inv ref_cho (fun _ v => v) [[1]; [2]] [3; 4] [linear (Some 2)] None 1 None false false = Ok s).
  { destruct oracles_exist as [HO HC]. pose proof HO as [SI SC]. pose proof HC as [CI CC].
    assert (HSe : Forall (sensible false) [linear (Some 2)]).
    { repeat constructor; cbn; auto; try discriminate. all: intros; try discriminate; try lra. }
    eapply (gp_init_ok ref_inv ref_cho (fun _ v => v) SI _ _ _ _ _ _ _ 1%nat [linear (Some 2)]); eauto; try discriminate; try reflexivity;
      [repeat constructor|cbn; lra]. }
  destruct G as [s4 E4].
  assert (P4 : predict s [[2]] = Ok [4]) by (rewrite P; f_equal; f_equal; field).
  assert (P1 : predict s [[1]] = Ok [2]) by (rewrite P; f_equal; f_equal; field).
  exists s, s2, s3, s4. repeat split; auto; try (rewrite ?P2, ?P3; f_equal; f_equal; field).
  rewrite (predicted_data_change_nothing ref_inv ref_cho (fun _ v => v) 1 [[1]] [3] [[2]] [4] [linear (Some 2)] 1 None false s s4 [[1]]); auto;
    try (split; [discriminate|repeat constructor]). apply oracles_exist.
Qed.

Print Assumptions predicted_data_change_nothing.
Print Assumptions more_noise_worse_fit.
Print Assumptions fit_changes_less_than_targets.
