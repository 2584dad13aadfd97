(** What the uncertainty of a Gaussian process says about its errors, and repeated data
    (catlearn/regression/gaussian_process.py). *)
From Coq Require Import Reals Lra Lia List Arith Bool.
From Verif Require Import Base BaseFacts RBase LinAlg LogDet KernModel KernProofs KernSetupProofs KernDefProofs
  KernScaleProofs KernEntryProofs KernProperties GPModel GPProofs GPMoreProofs GPProperties
  RidgeModel RidgeProofs RidgeFacts RidgeProperties GPRidgeProperties GPDataProperties.
Import ListNotations.
Open Scope R_scope.
Set Bullet Behavior "Strict Subproofs".

(** ** Cauchy-Schwarz for combinations *)
Definition scaled (t : R) (f : combination) : combination := map (fun p => (t * fst p, snd p)) f.

Lemma discriminant a b c : 0 <= c -> (forall t, 0 <= a + 2 * t * b + t * t * c) -> b ^ 2 <= a * c.
Proof.
  intros Hc H. destruct (Req_dec c 0) as [->|N].
  - destruct (Req_dec b 0) as [->|B]; [nra|]. exfalso. pose proof (H (- (a + 1) / (2 * b))) as Q.
    replace (a + 2 * (- (a + 1) / (2 * b)) * b + - (a + 1) / (2 * b) * (- (a + 1) / (2 * b)) * 0) with (-1) in Q by (field; exact B). lra.
  - assert (P : 0 < c) by lra. pose proof (H (- b / c)) as Q.
    replace (a + 2 * (- b / c) * b + - b / c * (- b / c) * c) with ((a * c - b ^ 2) / c) in Q by (field; lra).
    destruct (Rle_dec (b ^ 2) (a * c)) as [L|L]; [exact L|]. exfalso. assert (0 < (b ^ 2 - a * c) / c) by (apply Rdiv_lt_0_compat; lra).
    replace ((b ^ 2 - a * c) / c) with (- ((a * c - b ^ 2) / c)) in H0 by (field; lra). lra.
Qed.
Lemma value_scaled k t f x : value k (scaled t f) x = t * value k f x.
Proof. unfold value, scaled. rewrite map_map. cbn [fst snd]. induction f as [|p f IH]; cbn [map sumR]; [ring|]. rewrite IH. ring. Qed.
Lemma pair_scaled_l k t f g : pair_with k (scaled t f) g = t * pair_with k f g.
Proof. unfold pair_with, scaled. rewrite map_map. cbn [fst snd]. induction f as [|p f IH]; cbn [map sumR]; [ring|]. rewrite IH. ring. Qed.
Lemma pair_scaled_r k t f g : pair_with k f (scaled t g) = t * pair_with k f g.
Proof. unfold pair_with. induction f as [|p f IH]; cbn [map sumR]; [ring|]. rewrite IH, value_scaled. ring. Qed.

Section Bound.
Variable k : row -> row -> R.
Variable D : nat.
Hypothesis KS : forall x y, length x = D -> length y = D -> k x y = k y x.
Hypothesis KP : forall n pt, (forall i, (i < n)%nat -> length (pt i) = D) -> possemidef n (fun i j => k (pt i) (pt j)).

Lemma pair_bound f g : centred D f -> centred D g -> pair_with k f g ^ 2 <= roughness k f * roughness k g.
Proof.
  intros HF HG. apply discriminant; [eapply roughness_nonneg; eauto|]. intros t.
  assert (HS : centred D (scaled t g)) by (unfold centred, scaled; apply Forall_map; exact HG).
  assert (HC : centred D (f ++ scaled t g)) by (apply Forall_app; auto).
  pose proof (roughness_nonneg k D KP _ HC) as H. change (roughness k (f ++ scaled t g)) with (pair_with k (f ++ scaled t g) (f ++ scaled t g)) in H.
  rewrite pair_app_l, !pair_app_r, !pair_scaled_l, !pair_scaled_r in H. rewrite (pair_sym k D KS g f) in H by auto.
  change (roughness k f) with (pair_with k f f). change (roughness k g) with (pair_with k g g). lra.
Qed.

Lemma pair_combine f fp : forall w, length w = length fp ->
  pair_with k (combine w fp) f = sumR (map (fun q => fst q * snd q) (combine w (map (value k f) fp))).
Proof. unfold pair_with. induction fp as [|x l IH]; intros [|v w] H; try discriminate; [reflexivity|]. cbn [map combine sumR fst snd]. rewrite IH by (cbn in H; lia). reflexivity. Qed.

Lemma combine_centred w fp : Forall (fun r => length r = D) fp -> centred D (combine w fp).
Proof.
  intros H. unfold centred. apply Forall_forall. intros [v x] I. apply in_combine_r in I. rewrite Forall_forall in H. exact (H _ I).
Qed.

(** The difference of evaluating at a point and of a weighted sum of evaluations. *)
Definition difference (w : list R) (fp : list row) (x : row) : combination := (1, x) :: negc (combine w fp).
Lemma error_centred w fp x : Forall (fun r => length r = D) fp -> length x = D -> centred D (difference w fp x).
Proof. intros HR HX. constructor; [exact HX|]. unfold negc. apply Forall_map. apply combine_centred, HR. Qed.
Lemma error_roughness fp w x : Forall (fun r => length r = D) fp -> length x = D ->
  roughness k (difference w fp x) = expected_error k 0 fp x w.
Proof.
  intros HR HX. assert (HC : centred D (combine w fp)) by (apply combine_centred; auto).
  change (roughness k (difference w fp x)) with (pair_with k (difference w fp x) (difference w fp x)). unfold difference. rewrite pair_cons_l, pair_neg_l. cbn [fst snd].
  change ((1, x) :: negc (combine w fp)) with ([(1, x)] ++ negc (combine w fp)).
  rewrite pair_app_r, (pair_single k D KS _ (1, x) HC HX), pair_neg_r, value_app, value_neg. cbn [fst snd].
  change (pair_with k (combine w fp) (combine w fp)) with (roughness k (combine w fp)).
  unfold expected_error. replace (value k [(1, x)] x) with (k x x) by (unfold value; cbn; ring).
  change (value k (combine w fp) x) with (sumR (map (fun q => fst q * k x (snd q)) (combine w fp))). ring.
Qed.
Lemma weighted_error f fp w x : centred D f -> Forall (fun r => length r = D) fp -> length w = length fp -> length x = D ->
  (value k f x - sumR (map (fun q => fst q * snd q) (combine w (map (value k f) fp)))) ^ 2 <=
  roughness k f * (expected_error k 0 fp x w).
Proof.
  intros HF HR HW HX. pose proof (error_centred w fp x HR HX) as HE.
  pose proof (pair_bound f _ HF HE) as H. rewrite (pair_sym k D KS f _) in H by auto. rewrite error_roughness in H by auto.
  replace (pair_with k (difference w fp x) f) with (value k f x - sumR (map (fun q => fst q * snd q) (combine w (map (value k f) fp)))) in H; [exact H|].
  unfold difference. rewrite pair_cons_l, pair_neg_l, pair_combine by auto. cbn [fst snd]. ring.
Qed.
End Bound.

Lemma sum_products : forall w a b : list R, length w = length a -> length w = length b ->
  (sumR (map (fun q => fst q * snd q) (combine w a)) - sumR (map (fun q => fst q * snd q) (combine w b))) ^ 2 <=
  square_sum w * squared_distance a b.
Proof.
  intros w a b Ha Hb. rewrite Rmult_comm. apply discriminant; [apply squares_nonneg|]. intros t. revert a b Ha Hb.
  induction w as [|x w IH]; intros [|y a] [|z b] Ha Hb; try discriminate.
  - unfold square_sum, squared_distance. cbn. lra.
  - cbn in Ha, Hb. specialize (IH a b ltac:(lia) ltac:(lia)). unfold square_sum, squared_distance in *. cbn [map combine sumR fst snd] in *.
    pose proof (pow2_ge_0 (y - z + t * x)). lra.
Qed.

(** ** Errors *)
(** For every function built from covariances, the squared error of a prediction is at most
    the squared uncertainty times the roughness of the function if its values are the targets; for other targets
    the noise times the squared error is at most the squared uncertainty times the trade-off of
    squared errors at the training points and roughness. *)
Theorem uncertainty_bounds_error : forall inv cho cho_solve D fp tgt ks reg rb sopt s test f,
  oracles_ok inv cho -> inputs_ok D fp ks -> Forall (sensible sopt) ks -> test_ok D test ->
  gp_init inv cho cho_solve fp tgt ks None reg rb sopt false = Ok s ->
  Forall (fun c => length (snd c) = D) f ->
  let k := cov (g_kernels s) sopt in
  exists p u r, predict s test = Ok p /\ predict_with_uncertainty s test = Ok (u, r) /\
    length p = length test /\ length u = length test /\
    forall i, (i < length test)%nat -> let x := nth i test [] in
      (tgt = map (value k f) fp -> (nth i p 0 - value k f x) ^ 2 <= roughness k f * nth i u 0 ^ 2) /\
      noise_of sopt reg * (nth i p 0 - value k f x) ^ 2 <= tradeoff k (noise_of sopt reg) fp tgt f * nth i u 0 ^ 2.
Proof.
  intros inv cho cho_solve D fp tgt ks reg rb sopt s test f HO HI HS HT E HF k.
  assert (HKL : length fp = length tgt /\ (forall x y, length x = D -> length y = D -> k x y = k y x) /\
    (forall n pt, (forall i, (i < n)%nat -> length (pt i) = D) -> possemidef n (fun i j => k (pt i) (pt j)))).
  { destruct (init_facts _ _ _ HO _ _ _ _ _ _ _ _ _ HI E) as [ks' [b [EP [T [_ [_ [_ [_ [_ [HL _]]]]]]]]]]. split; [exact HL|].
    assert (HKK : k = kappa ks' sopt).
    { unfold k, cov. rewrite (t_kernels _ _ _ T). apply FunctionalExtensionality.functional_extensionality. intros x.
      apply FunctionalExtensionality.functional_extensionality. intros y. rewrite get_covariance_boxed. reflexivity. }
    rewrite HKK. apply (kappa_symm_psd D ks' sopt (t_eval _ _ _ T) (prepare_sensible _ _ _ _ _ _ _ EP HS) (t_ks _ _ _ T)). }
  destruct HKL as [HL [KS KP]].
  destruct (prediction_is_best_linear _ _ _ _ _ _ _ _ _ _ _ _ HO HI HS HT E) as (p & u & r & EPr & EU & LP & LU & HU).
  fold k in HU. fold (noise_of sopt reg) in HU.
  exists p, u, r. split; [exact EPr|]. split; [exact EU|]. split; [exact LP|]. split; [exact LU|].
  intros i Hi x. destruct (HU i Hi) as (w & LW & Pw & _ & Qw & _). fold x in Qw. clear HU.
  assert (Hx : length x = D) by (apply (row_at_length test D i); auto; apply HT).
  pose proof (weighted_error k D KS KP f fp w x HF (i_rect _ _ _ HI) LW Hx) as A.
  assert (N0 : 0 <= noise_of sopt reg) by (unfold noise_of; apply pow2_ge_0).
  set (N := noise_of sopt reg) in *. pose proof (squares_nonneg w) as W0.
  assert (QQ : nth i u 0 ^ 2 = expected_error k 0 fp x w + N * square_sum w) by (rewrite Qw; unfold expected_error, square_sum; ring).
  pose proof (roughness_nonneg k D KP f HF) as R0.
  split.
  - intros ET. rewrite Pw, ET, QQ. replace (_ ^ 2) with ((value k f x - sumR (map (fun q => fst q * snd q) (combine w (map (value k f) fp)))) ^ 2) by ring.
    assert (0 <= roughness k f * (N * square_sum w)) by (apply Rmult_le_pos; [exact R0|apply Rmult_le_pos; auto]). lra.
  - pose proof (sum_products w (map (value k f) fp) tgt ltac:(rewrite map_length; exact LW) ltac:(congruence)) as B.
    unfold tradeoff. rewrite <- combine_map_sq. rewrite QQ, Pw.
    set (e := squared_distance (map (value k f) fp) tgt) in *. set (W := square_sum w) in *. set (re := expected_error k 0 fp x w) in *. set (rf := roughness k f) in *.
    set (s0 := sumR (map (fun q => fst q * snd q) (combine w (map (value k f) fp)))) in *. set (s1 := sumR (map (fun q => fst q * snd q) (combine w tgt))) in *.
    assert (e0 : 0 <= e).
    { unfold e, squared_distance. clear. generalize (combine (map (value k f) fp) tgt). intros l. induction l as [|q l IH]; cbn [map sumR]; [lra|]. pose proof (pow2_ge_0 (fst q - snd q)). lra. }
    assert (re0 : 0 <= re).
    { unfold re. rewrite <- (error_roughness k D KS fp w x (i_rect _ _ _ HI) Hx). apply (roughness_nonneg k D KP). apply error_centred; auto. apply (i_rect _ _ _ HI). }
    set (a := value k f x - s0) in *. set (b := s0 - s1) in *.
    replace ((s1 - value k f x) ^ 2) with ((a + b) ^ 2) by (unfold a, b; ring).
    clearbody a b e W re rf. clear - A B N0 W0 R0 e0 re0.
    assert (C : 2 * N * (a * b) <= N * N * (rf * W) + e * re).
    { assert (P : (a * b) ^ 2 <= (rf * re) * (W * e)). { replace ((a * b) ^ 2) with (a ^ 2 * b ^ 2) by ring. apply Rmult_le_compat; auto; apply pow2_ge_0. }
      set (X := N * N * (rf * W)). set (Y := e * re).
      assert (0 <= X) by (unfold X; apply Rmult_le_pos; [nra|apply Rmult_le_pos; auto]). assert (0 <= Y) by (unfold Y; apply Rmult_le_pos; auto).
      assert (S : (2 * N * (a * b)) ^ 2 <= (X + Y) ^ 2).
      { assert ((2 * N * (a * b)) ^ 2 <= 4 * (X * Y)).
        { replace ((2 * N * (a * b)) ^ 2) with (4 * (N * N) * (a * b) ^ 2) by ring. replace (4 * (X * Y)) with (4 * (N * N) * (rf * re * (W * e))) by (unfold X, Y; ring).
          apply Rmult_le_compat_l; [nra|exact P]. }
        pose proof (pow2_ge_0 (X - Y)). nra. }
      destruct (Rle_dec (2 * N * (a * b)) (X + Y)) as [L|L]; [exact L|]. exfalso. nra. }
    nra.
Qed.

(** ** Similar points *)
(** The squared distance of two points as the kernels see it. *)
Definition dissimilarity (k : row -> row -> R) (x y : row) : R := k x x - 2 * k x y + k y y.

Section Near.
Variable k : row -> row -> R.
Variable D : nat.
Hypothesis KS : forall x y, length x = D -> length y = D -> k x y = k y x.
Hypothesis KP : forall n pt, (forall i, (i < n)%nat -> length (pt i) = D) -> possemidef n (fun i j => k (pt i) (pt j)).

Lemma dissimilarity_error x y : length x = D -> length y = D -> dissimilarity k x y = roughness k (difference [1] [y] x).
Proof.
  intros Hx Hy. rewrite (error_roughness k D KS) by (auto; repeat constructor; auto). unfold dissimilarity, expected_error, roughness, value. cbn [combine map sumR fst snd]. ring.
Qed.
Lemma dissimilarity_nonneg x y : length x = D -> length y = D -> 0 <= dissimilarity k x y.
Proof. intros Hx Hy. rewrite dissimilarity_error by auto. apply (roughness_nonneg k D KP). apply error_centred; auto. Qed.

Lemma value_near f x y : centred D f -> length x = D -> length y = D -> (value k f x - value k f y) ^ 2 <= roughness k f * dissimilarity k x y.
Proof.
  intros HF Hx Hy. rewrite dissimilarity_error, (error_roughness k D KS) by (auto; repeat constructor; auto).
  pose proof (weighted_error k D KS KP f [y] [1] x HF ltac:(repeat constructor; auto) eq_refl Hx) as H. cbn [map combine sumR fst snd] in H.
  replace (value k f x - value k f y) with (value k f x - (1 * value k f y + 0)) by ring. exact H.
Qed.
Lemma error_near fp w x y : Forall (fun r => length r = D) fp -> length x = D -> length y = D ->
  let d := sqrt (dissimilarity k x y) in
  expected_error k 0 fp x w <= (d + sqrt (expected_error k 0 fp y w)) ^ 2.
Proof.
  intros HR Hx Hy d. pose proof (dissimilarity_nonneg x y Hx Hy) as D0.
  rewrite <- !(error_roughness k D KS) by auto.
  pose proof (error_centred D w fp y HR Hy) as Cy. pose proof (error_centred D [1] [y] x ltac:(repeat constructor; auto) Hx) as Cd.
  set (g := difference w fp y) in *. set (h := difference [1] [y] x) in *.
  pose proof (roughness_nonneg k D KP g Cy) as G0.
  assert (EX : roughness k (difference w fp x) = roughness k (h ++ g)).
  { transitivity (pair_with k (difference w fp x) (difference w fp x)); [reflexivity|].
    assert (HV : forall z, value k (difference w fp x) z = value k (h ++ g) z).
    { intros z. unfold h, g, difference. cbn [combine negc map fst snd app]. unfold value. cbn [map sumR fst snd]. ring. }
    transitivity (pair_with k (difference w fp x) (h ++ g)).
    - unfold pair_with. apply sumR_mapext. intros q _. rewrite HV. reflexivity.
    - unfold roughness, h, g, difference, pair_with. cbn [combine negc map fst snd app sumR]. ring. }
  rewrite EX. change (roughness k (h ++ g)) with (pair_with k (h ++ g) (h ++ g)). rewrite pair_app_l, !pair_app_r, (pair_sym k D KS g h) by auto.
  pose proof (pair_bound k D KS KP h g Cd Cy) as B. change (pair_with k h h) with (roughness k h). change (pair_with k g g) with (roughness k g).
  unfold h in B at 2. rewrite <- dissimilarity_error in B by auto. unfold h at 1. rewrite <- dissimilarity_error by auto.
  pose proof (pow2_sqrt _ D0) as S1. pose proof (pow2_sqrt _ G0) as S2. fold d in S1. pose proof (sqrt_pos (dissimilarity k x y)) as P1. fold d in P1.
  pose proof (sqrt_pos (roughness k g)) as P2. set (v := sqrt (roughness k g)) in *. rewrite <- S1, <- S2 in B.
  assert (L : pair_with k h g <= d * v).
  { destruct (Rle_dec (pair_with k h g) (d * v)) as [L|L]; [exact L|]. exfalso. assert (0 <= d * v) by (apply Rmult_le_pos; auto). nra. }
  rewrite <- S1, <- S2 at 1. nra.
Qed.
End Near.

(** Points that the kernels hardly tell apart get nearly the same predictions and uncertainties. *)
Theorem similar_points_similar_predictions : forall inv cho cho_solve D fp tgt ks reg rb sopt s test,
  oracles_ok inv cho -> inputs_ok D fp ks -> Forall (sensible sopt) ks -> test_ok D test ->
  gp_init inv cho cho_solve fp tgt ks None reg rb sopt false = Ok s ->
  let k := cov (g_kernels s) sopt in
  exists p u r, predict s test = Ok p /\ predict_with_uncertainty s test = Ok (u, r) /\
    length p = length test /\ length u = length test /\
    forall i j, (i < length test)%nat -> (j < length test)%nat -> let d := dissimilarity k (nth i test []) (nth j test []) in
      0 <= d /\ noise_of sopt reg * (nth i p 0 - nth j p 0) ^ 2 <= square_sum tgt * d /\
      nth i u 0 <= nth j u 0 + sqrt d.
Proof.
  intros inv cho cho_solve D fp tgt ks reg rb sopt s test HO HI HS HT E k.
  assert (HKL : length fp = length tgt /\ (forall x y, length x = D -> length y = D -> k x y = k y x) /\
    (forall n pt, (forall i, (i < n)%nat -> length (pt i) = D) -> possemidef n (fun i j => k (pt i) (pt j)))).
  { destruct (init_facts _ _ _ HO _ _ _ _ _ _ _ _ _ HI E) as [ks' [b [EP [T [_ [_ [_ [_ [_ [HL _]]]]]]]]]]. split; [exact HL|].
    assert (HKK : k = kappa ks' sopt).
    { unfold k, cov. rewrite (t_kernels _ _ _ T). apply FunctionalExtensionality.functional_extensionality. intros x.
      apply FunctionalExtensionality.functional_extensionality. intros y. rewrite get_covariance_boxed. reflexivity. }
    rewrite HKK. apply (kappa_symm_psd D ks' sopt (t_eval _ _ _ T) (prepare_sensible _ _ _ _ _ _ _ EP HS) (t_ks _ _ _ T)). }
  destruct HKL as [HL [KS KP]].
  destruct (prediction_is_best_linear _ _ _ _ _ _ _ _ _ _ _ _ HO HI HS HT E) as (p & u & r & EPr & EU & LP & LU & HU).
  destruct (prediction_is_best_tradeoff _ _ _ _ _ _ _ _ _ _ _ HO HI HS E) as (g & EG & Ep & HB).
  fold k in HU, Ep, HB. fold (noise_of sopt reg) in HU, HB.
  assert (N0 : 0 <= noise_of sopt reg) by (unfold noise_of; apply pow2_ge_0). set (N := noise_of sopt reg) in *.
  exists p, u, r. split; [exact EPr|]. split; [exact EU|]. split; [exact LP|]. split; [exact LU|].
  intros i j Hi Hj d.
  assert (RT : forall l, (l < length test)%nat -> length (nth l test []) = D) by (intros l Hl; apply (row_at_length test D l); auto; apply HT).
  assert (D0 : 0 <= d) by (apply (dissimilarity_nonneg k D KS KP); auto). split; [exact D0|].
  assert (CG : centred D g) by (apply Forall_map with (f := snd) (P := fun x => length x = D); rewrite EG; apply (i_rect _ _ _ HI)).
  split.
  - rewrite (Ep test HT) in EPr. injection EPr as <-. rewrite !(nth_map_lt _ _ _ []) by auto.
    pose proof (value_near k D KS KP g _ _ CG (RT i Hi) (RT j Hj)) as V. fold d in V.
    assert (T0 : N * roughness k g <= square_sum tgt).
    { destruct (HB [] (Forall_nil _)) as [B _]. unfold tradeoff in B. rewrite <- !combine_map_sq in B. change (roughness k []) with 0 in B.
      replace (squared_distance (map (value k []) fp) tgt) with (square_sum tgt) in B.
      - assert (0 <= squared_distance (map (value k g) fp) tgt).
        { unfold squared_distance. clear. generalize (combine (map (value k g) fp) tgt). intros l. induction l as [|q l IH]; cbn [map sumR]; [lra|]. pose proof (pow2_ge_0 (fst q - snd q)). lra. }
        lra.
      - revert HL. clear. unfold square_sum, squared_distance. revert tgt. induction fp as [|x l IH]; intros [|t tgt] HL; try discriminate; [reflexivity|].
        cbn [map combine sumR fst snd]. rewrite (IH tgt) by (cbn in HL; lia). change (value k [] x) with 0. ring. }
    apply Rle_trans with (N * (roughness k g * d)); [apply Rmult_le_compat_l; auto|].
    replace (N * (roughness k g * d)) with (N * roughness k g * d) by ring. apply Rmult_le_compat_r; auto.
  - destruct (HU i Hi) as (wi & _ & _ & Ui & Qi & Mi). destruct (HU j Hj) as (w & LW & _ & Uj & Qj & _).
    destruct (Mi w LW) as [M _]. rewrite <- Qi in M.
    pose proof (error_near k D KS KP fp w _ _ (i_rect _ _ _ HI) (RT i Hi) (RT j Hj)) as B. cbv zeta in B. fold d in B.
    pose proof (squares_nonneg w) as W0.
    assert (EX : forall x, expected_error k N fp x w = expected_error k 0 fp x w + N * square_sum w) by (intros; unfold expected_error, square_sum; ring).
    rewrite EX in M, Qj.
    assert (J0 : 0 <= expected_error k 0 fp (nth j test []) w).
    { rewrite <- (error_roughness k D KS) by (auto; apply (i_rect _ _ _ HI)). apply (roughness_nonneg k D KP). apply error_centred; auto. apply (i_rect _ _ _ HI). }
    pose proof (sqrt_pos d) as S0. pose proof (pow2_sqrt _ D0) as Sd. pose proof (pow2_sqrt _ J0) as Sj. pose proof (sqrt_pos (expected_error k 0 fp (nth j test []) w)) as P0.
    set (v := sqrt (expected_error k 0 fp (nth j test []) w)) in *. set (e := sqrt d) in *.
    assert (NW : 0 <= N * square_sum w) by (apply Rmult_le_pos; auto).
    assert (VU : v <= nth j u 0) by nra.
    assert (nth i u 0 ^ 2 <= (nth j u 0 + e) ^ 2) by nra. nra.
Qed.

(** ** Repeated data *)
Definition repeated {A} (m : nat) (l : list A) : list A := concat (repeat l m).

Lemma repeated_length {A} m (l : list A) : length (repeated m l) = (m * length l)%nat.
Proof. unfold repeated. induction m as [|m IH]; cbn [repeat concat]; [reflexivity|]. rewrite app_length, IH. reflexivity. Qed.
Lemma mod_shift n i : (n <> 0)%nat -> ((n + i) mod n = i mod n)%nat.
Proof. intros H. replace (n + i)%nat with (i + 1 * n)%nat by lia. apply Nat.mod_add, H. Qed.
Lemma repeated_nth {A} (d : A) l : l <> [] -> forall m a, (a < m * length l)%nat -> nth a (repeated m l) d = nth (a mod length l) l d.
Proof.
  intros HN. assert (N0 : length l <> 0%nat) by (destruct l; [congruence|discriminate]).
  induction m as [|m IH]; intros a Ha; [lia|]. unfold repeated. cbn [repeat concat]. fold (repeated m l).
  destruct (Nat.ltb_spec a (length l)) as [L|L].
  - rewrite app_nth1 by auto. rewrite Nat.mod_small by auto. reflexivity.
  - rewrite app_nth2 by auto. rewrite IH by (cbn in Ha; lia). f_equal. rewrite <- (mod_shift (length l) (a - length l)) by auto. f_equal. lia.
Qed.
Lemma Sum_repeated n g : n <> 0%nat -> forall m, Sum (m * n) (fun a => g (a mod n)%nat) = INR m * Sum n g.
Proof.
  intros HN. induction m as [|m IH]; [cbn; ring|]. rewrite S_INR. cbn [Nat.mul]. rewrite Sum_app.
  replace (Sum n (fun a => g (a mod n)%nat)) with (Sum n g) by (apply Sum_ext; intros i Hi; rewrite Nat.mod_small by auto; reflexivity).
  replace (Sum (m * n) (fun i => g ((n + i) mod n)%nat)) with (Sum (m * n) (fun a => g (a mod n)%nat)) by (apply Sum_ext; intros i Hi; rewrite mod_shift by auto; reflexivity).
  rewrite IH. ring.
Qed.

(** The solution of the system with repeated rows. *)
Lemma repeated_solution n m K r2 A2 V V2 : n <> 0%nat -> m <> 0%nat ->
  inverse n (fun i j => K i j + (if (i =? j)%nat then r2 else 0)) V ->
  inverse (m * n) A2 V2 ->
  (forall a c, (a < m * n)%nat -> (c < m * n)%nat -> A2 a c = K (a mod n)%nat (c mod n)%nat + (if (a =? c)%nat then INR m * r2 else 0)) ->
  forall b b2, (forall a, (a < m * n)%nat -> b2 a = b (a mod n)%nat) ->
  forall a, (a < m * n)%nat -> mulv (m * n) V2 b2 a = / INR m * mulv n V b (a mod n)%nat.
Proof.
  intros HN HM IV IV2 HA b b2 HB a Ha. assert (M0 : INR m <> 0) by (apply not_0_INR, HM).
  set (w := fun c => / INR m * mulv n V b (c mod n)%nat).
  change (/ INR m * mulv n V b (a mod n)%nat) with (w a). rewrite <- (mulv_inverse' _ _ _ w IV2 a Ha). apply mulv_ext; [intros ? ? ? ?; reflexivity| |exact Ha].
  intros c Hc. rewrite HB by auto. assert (CN : (c mod n < n)%nat) by (apply Nat.mod_upper_bound, HN).
  rewrite <- (mulv_inverse n _ _ b IV (c mod n)%nat CN). unfold mulv at 1 3.
  transitivity (Sum (m * n) (fun e => K (c mod n)%nat (e mod n)%nat * w e) + INR m * r2 * w c).
  - transitivity (INR m * Sum n (fun j => / INR m * (K (c mod n)%nat j * mulv n V b j)) + r2 * mulv n V b (c mod n)%nat).
    + rewrite Sum_scal, <- Rmult_assoc, Rinv_r, Rmult_1_l by auto. rewrite <- (Sum_delta n (c mod n)%nat (fun l => r2 * mulv n V b l) CN), <- Sum_plus.
      apply Sum_ext. intros j _. destruct (c mod n =? j)%nat; ring.
    + f_equal.
      * rewrite <- (Sum_repeated n (fun j => / INR m * (K (c mod n)%nat j * mulv n V b j)) HN m). apply Sum_ext. intros e _. unfold w. ring.
      * unfold w. field. auto.
  - rewrite <- (Sum_delta (m * n) c (fun e => INR m * r2 * w e) Hc), <- Sum_plus. apply Sum_ext. intros e He. rewrite HA by auto.
    destruct (c =? e)%nat; ring.
Qed.

(** Training on [m] copies of the data with [m] times the noise gives the same predictions and
    uncertainties as training on the data once. *)
Theorem repeated_data_divide_noise : forall inv cho cho_solve D m fp tgt ks reg reg2 rb sopt s s2 test,
  oracles_ok inv cho -> inputs_ok D fp ks -> test_ok D test -> m <> 0%nat ->
  gp_init inv cho cho_solve fp tgt ks None reg rb sopt false = Ok s ->
  gp_init inv cho cho_solve (repeated m fp) (repeated m tgt) ks None reg2 rb sopt false = Ok s2 ->
  noise_of sopt reg2 = INR m * noise_of sopt reg ->
  predict s2 test = predict s test /\
  exists u r r2, predict_with_uncertainty s test = Ok (u, r) /\ predict_with_uncertainty s2 test = Ok (u, r2).
Proof.
  intros inv cho cho_solve D m fp tgt ks reg reg2 rb sopt s s2 test HO HI [TN TR] HM E E2 HNo.
  pose proof (i_fp _ _ _ HI) as FN. assert (N0 : length fp <> 0%nat) by (destruct fp; [congruence|discriminate]).
  assert (HI2 : inputs_ok D (repeated m fp) ks).
  { destruct HI as [H1 H2 H3 H4 H5]. constructor; auto.
    - intros Q. apply (f_equal (@length _)) in Q. rewrite repeated_length in Q. cbn in Q. destruct m; [congruence|]. cbn in Q. lia.
    - apply Forall_forall. intros x Hx. unfold repeated in Hx. apply in_concat in Hx. destruct Hx as [l [Hl Hx]]. apply repeat_spec in Hl. subst l.
      rewrite Forall_forall in H3. auto. }
  destruct (init_facts _ _ _ HO _ _ _ _ _ _ _ _ _ HI E) as [ks' [b [EP [T [El [Es [Er [_ [_ [HL [ET _]]]]]]]]]]].
  destruct (init_facts _ _ _ HO _ _ _ _ _ _ _ _ _ HI2 E2) as [ks2 [b2 [EP2 [T2 [El2 [Es2 [Er2 [_ [_ [HL2 [ET2 _]]]]]]]]]]].
  rewrite EP in EP2. injection EP2 as <- <-.
  cbn in ET, ET2. injection ET as Esc Ef Et. injection ET2 as Esc2 Ef2 Et2.
  assert (ST : forall t, scale_test s t = t) by (intros; unfold scale_test; rewrite Es; auto).
  assert (ST2 : forall t, scale_test s2 t = t) by (intros; unfold scale_test; rewrite Es2; auto).
  set (n := length fp) in *.
  assert (EN : length (repeated m fp) = (m * n)%nat) by apply repeated_length.
  assert (RA : forall a, (a < m * n)%nat -> row_at (repeated m fp) a = row_at fp (a mod n)%nat) by (intros a Ha; apply repeated_nth; auto).
  set (K := fun i j => kappa ks' sopt (row_at fp i) (row_at fp j)).
  assert (IV : inverse n (fun i j => K i j + (if (i =? j)%nat then noise_of sopt reg else 0)) (at_ (g_cinv s))).
  { pose proof (t_inv _ _ _ T) as V. rewrite Ef, El, Er in V. eapply inverse_ext; [| |exact V].
    - intros i j Hi Hj. unfold K, noise_of, logged, ident. destruct (i =? j)%nat, sopt; ring.
    - intros i j Hi Hj. reflexivity. }
  pose proof (t_inv _ _ _ T2) as V2. rewrite Ef2, El2, Er2, EN in V2.
  assert (SOL : forall b b2, (forall a, (a < m * n)%nat -> b2 a = b (a mod n)%nat) ->
    forall a, (a < m * n)%nat -> mulv (m * n) (at_ (g_cinv s2)) b2 a = / INR m * mulv n (at_ (g_cinv s)) b (a mod n)%nat).
  { eapply repeated_solution; [exact N0|exact HM|exact IV|exact V2|]. intros a c Ha Hc. cbv beta. rewrite !RA by auto. unfold K. f_equal. rewrite <- HNo.
    unfold noise_of, logged, ident. destruct (a =? c)%nat, sopt; ring. }
  assert (M0 : INR m <> 0) by (apply not_0_INR, HM).
  assert (FOLD : forall f f2 v v2, (forall a, (a < m * n)%nat -> f2 a = f (a mod n)%nat) -> (forall a, (a < m * n)%nat -> v2 a = / INR m * v (a mod n)%nat) ->
    Sum (m * n) (fun a => f2 a * v2 a) = Sum n (fun j => f j * v j)).
  { intros f f2 v v2 H1 H2. transitivity (INR m * Sum n (fun j => / INR m * (f j * v j))).
    - rewrite <- (Sum_repeated n (fun j => / INR m * (f j * v j)) N0 m). apply Sum_ext. intros a Ha. rewrite H1, H2 by auto. ring.
    - rewrite Sum_scal. field. exact M0. }
  assert (TL : tgt <> []) by (intros ->; cbn in HL; apply N0; exact HL).
  split.
  - rewrite (predict_trained s ks' D T), (predict_trained s2 ks' D T2) by (rewrite ?ST, ?ST2; auto). rewrite ST, ST2. unfold rescale. rewrite Es, Es2.
    f_equal. apply tabulate_ext. intros i Hi. rewrite Ef, Ef2, El, El2, EN. fold n. apply FOLD.
    + intros a Ha. cbv beta. rewrite RA by auto. reflexivity.
    + intros a Ha. unfold weights. rewrite Ef, Ef2, EN. fold n. apply SOL; auto. intros c Hc. rewrite Et, Et2. unfold vnth. rewrite (repeated_nth 0 tgt TL m c) by (rewrite <- HL; exact Hc).
      rewrite <- HL. reflexivity.
  - destruct (test_covariance_trained s ks' D T test TN TR) as [C [EC [N1 [N2 HC]]]].
    destruct (test_covariance_trained s2 ks' D T2 test TN TR) as [C2 [EC2 [N3 [N4 HC2]]]].
    pose proof (variance_trained s ks' D T test C TN TR EC) as EV. pose proof (variance_trained s2 ks' D T2 test C2 TN TR EC2) as EV2.
    assert (LC : nc C = length (g_fp s)) by (rewrite N2; reflexivity). assert (LC2 : nc C2 = length (g_fp s2)) by (rewrite N4; reflexivity).
    unfold predict_with_uncertainty. cbv zeta. rewrite ST, ST2, EC, EC2. cbn [bind].
    rewrite (make_prediction_trained s ks' D T C (length test) LC N1), (make_prediction_trained s2 ks' D T2 C2 (length test) LC2 N3). cbn [bind].
    unfold get_uncertainty. rewrite EV, EV2. cbn [bind]. unfold finish_uncertainty. rewrite Es, Es2.
    do 3 eexists. split; [reflexivity|]. f_equal. f_equal. f_equal. f_equal. apply tabulate_ext. intros i Hi. rewrite El, El2. f_equal.
    unfold reduction. rewrite Ef, Ef2, El, El2, EN. fold n. rewrite !quad_dot. unfold dotv. apply FOLD.
    + intros a Ha. cbv beta. rewrite RA by auto. reflexivity.
    + apply SOL. intros c Hc. cbv beta. rewrite RA by auto. reflexivity.
Qed.

(** ** Cases *)
(** One point at 1 with target 3 on a line through the origin with noise 1: the prediction at 1 is 2.
    The line with slope 3 passes through the data; its squared error 1 is below its roughness 9/2 times the
    squared uncertainty 2/3. *)
Example error_case : exists s, gp_init ref_inv ref_cho (fun _ v => v) [[1]] [3] [linear (Some 2)] None 1 None false false = Ok s /\
  let k := cov (g_kernels s) false in
  [3] = map (value k [(3 / 2, [1])]) [[1]] /\ roughness k [(3 / 2, [1])] = 9 / 2 /\ value k [(3 / 2, [1])] [1] = 3 /\ predict s [[1]] = Ok [2] /\
  dissimilarity k [1] [2] = 2.
Proof.
  destruct (one_point 1 3) as (s & E & P); [lra|]. exists s. split; [exact E|]. intros k.
  assert (HK : forall x y, k [x] [y] = 2 * (x * y)).
  { intros x y. assert (HI : inputs_ok 1 [[1]] [linear (Some 2)]).
    { constructor; auto; try discriminate; repeat constructor; cbn; auto; discriminate. }
    destruct oracles_exist as [HO _].
    destruct (init_facts _ _ _ HO _ _ _ _ _ _ _ _ _ HI E) as [ks' [b [EP [T _]]]].
    assert (EK : ks' = [linear (Some 2)]).
    { unfold prepare_kernels in EP. cbn in EP. injection EP as <- _; reflexivity. }
    subst ks'. unfold k. rewrite (t_kernels _ _ _ T), linear_cov by reflexivity. unfold inner. cbn. ring. }
  unfold roughness, value, dissimilarity. cbn [map sumR fst snd]. rewrite !HK, P. repeat split; try (f_equal; f_equal; field); try field.
Qed.
(** Two copies of the point with twice the noise. *)
Example repeated_case : repeated 2 [[1]] = [[1]; [1]] /\ noise_of true (ln 2 / 2) = INR 2 * noise_of true 0 /\
  exists s s2, gp_init ref_inv ref_cho (fun _ v => v) [[1]] [3] [linear (Some 2)] None 1 None false false = Ok s /\
    gp_init ref_inv ref_cho (fun _ v => v) (repeated 2 [[1]]) (repeated 2 [3]) [linear (Some 2)] None (sqrt 2) None false false = Ok s2 /\
    noise_of false (sqrt 2) = INR 2 * noise_of false 1.
Proof.
  split; [reflexivity|]. split.
  { unfold noise_of. rewrite exp_0. replace (exp (ln 2 / 2) ^ 2) with (exp (ln 2)); [rewrite exp_ln by lra; cbn; ring|].
    cbn [pow]. rewrite Rmult_1_r, <- exp_plus. f_equal. field. }
  destruct (one_point 1 3) as (s & E & P); [lra|]. exists s.
  assert (HU : Forall (usable 1) [linear (Some 2)]) by (repeat constructor; cbn; auto; discriminate).
  assert (HSe : Forall (sensible false) [linear (Some 2)]).
  { repeat constructor; cbn; auto; try discriminate. all: intros; try discriminate; try lra. }
  assert (Q : 0 < sqrt 2) by (apply sqrt_lt_R0; lra).
  assert (G : exists s, gp_init ref_inv ref_cho (fun _ v => v) [[1]; [1]] [3; 3] [linear (Some 2)] None (sqrt 2) None false false = Ok s).
  { destruct oracles_exist as [HO HC]. pose proof HO as [SI SC]. pose proof HC as [CI CC].
    eapply (gp_init_ok ref_inv ref_cho (fun _ v => v) SI _ _ _ _ _ _ _ 1%nat [linear (Some 2)]); eauto; try discriminate; try reflexivity;
      [repeat constructor|cbn; lra]. }
  destruct G as [s2 E2]. exists s2. split; [exact E|]. split; [exact E2|]. unfold noise_of. rewrite pow2_sqrt by lra. cbn. ring.
Qed.

Print Assumptions uncertainty_bounds_error.
Print Assumptions similar_points_similar_predictions.
Print Assumptions repeated_data_divide_noise.
