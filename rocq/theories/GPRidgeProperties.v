(** What a Gaussian process prediction optimises, and its relation to ridge regression
    (catlearn/regression/gaussian_process.py, catlearn/regression/ridge_regression.py). *)
From Coq Require Import Reals Lra Lia List Arith Bool.
From Verif Require Import Base BaseFacts RBase LinAlg LogDet KernModel KernProofs KernSetupProofs KernDefProofs
  KernScaleProofs KernEntryProofs KernProperties GPModel GPProofs GPMoreProofs GPProperties
  RidgeModel RidgeProofs RidgeFacts RidgeProperties.
Import ListNotations.
Open Scope R_scope.
Set Bullet Behavior "Strict Subproofs".

(** ** Specification *)
(** The covariance of two points. *)
Definition cov (ks : list kdict) (lg : bool) (x y : row) : R :=
  match get_covariance ks lg [x] (Some [y]) None false with Ok m => at_ m 0 0 | Err _ => 0 end.
(** A function built from covariances: weights and centres, with its values and the square
    of its norm (the roughness). *)
Notation combination := (list (R * row)).
Definition value (k : row -> row -> R) (f : combination) (x : row) : R := sumR (map (fun p => fst p * k x (snd p)) f).
Definition roughness (k : row -> row -> R) (f : combination) : R := sumR (map (fun p => fst p * value k f (snd p)) f).
(** Squared errors plus the noise times the roughness. *)
Definition tradeoff (k : row -> row -> R) (noise : R) (fp : list row) (tgt : list R) (f : combination) : R :=
  sumR (map (fun q => (value k f (fst q) - snd q) ^ 2) (combine fp tgt)) + noise * roughness k f.

(** The expected squared error of predicting the value at [x] by a weighted sum of the noisy
    training targets, if values have these covariances. *)
Definition expected_error (k : row -> row -> R) (noise : R) (fp : list row) (x : row) (w : list R) : R :=
  k x x - 2 * sumR (map (fun q => fst q * k x (snd q)) (combine w fp)) + roughness k (combine w fp) + noise * sumR (map (fun v => v ^ 2) w).

(** ** Combinations *)
Section Comb.
Variable k : row -> row -> R.
Variable D : nat.
Hypothesis KS : forall x y, length x = D -> length y = D -> k x y = k y x.
Hypothesis KP : forall n pt, (forall i, (i < n)%nat -> length (pt i) = D) -> possemidef n (fun i j => k (pt i) (pt j)).

Definition pair_with (f g : combination) : R := sumR (map (fun p => fst p * value k g (snd p)) f).
Definition centred (f : combination) : Prop := Forall (fun p => length (snd p) = D) f.
Definition negc (f : combination) : combination := map (fun p => (- fst p, snd p)) f.

Lemma sumR_app l l' : sumR (l ++ l') = sumR l + sumR l'.
Proof. induction l as [|x l IH]; cbn [app sumR]; [ring|]. rewrite IH. ring. Qed.
Lemma sumR_mapext {A} (f g : A -> R) l : (forall x, In x l -> f x = g x) -> sumR (map f l) = sumR (map g l).
Proof. intros H. f_equal. apply map_ext_in. exact H. Qed.
Lemma sumR_lin {A} (f g : A -> R) c l : sumR (map (fun x => f x + c * g x) l) = sumR (map f l) + c * sumR (map g l).
Proof. induction l as [|x l IH]; cbn [map sumR]; [ring|]. rewrite IH. ring. Qed.
Lemma value_app f g x : value k (f ++ g) x = value k f x + value k g x.
Proof. unfold value. rewrite map_app, sumR_app. reflexivity. Qed.
Lemma value_neg f x : value k (negc f) x = - value k f x.
Proof.
  unfold value, negc. rewrite map_map. cbn [fst snd]. induction f as [|p f IH]; cbn [map sumR]; [ring|]. rewrite IH. ring.
Qed.
Lemma pair_app_l f f' g : pair_with (f ++ f') g = pair_with f g + pair_with f' g.
Proof. unfold pair_with. rewrite map_app, sumR_app. reflexivity. Qed.
Lemma pair_app_r f g g' : pair_with f (g ++ g') = pair_with f g + pair_with f g'.
Proof.
  unfold pair_with. rewrite <- (Rmult_1_l (sumR (map (fun p => fst p * value k g' (snd p)) f))), <- sumR_lin.
  apply sumR_mapext. intros p _. rewrite value_app. ring.
Qed.
Lemma pair_neg_l f g : pair_with (negc f) g = - pair_with f g.
Proof. unfold pair_with, negc. rewrite map_map. cbn [fst snd]. induction f as [|p f IH]; cbn [map sumR]; [ring|]. rewrite IH. ring. Qed.
Lemma pair_neg_r f g : pair_with f (negc g) = - pair_with f g.
Proof.
  unfold pair_with. induction f as [|p f IH]; cbn [map sumR]; [ring|]. rewrite IH, value_neg. ring.
Qed.
Lemma pair_cons_l p f g : pair_with (p :: f) g = fst p * value k g (snd p) + pair_with f g.
Proof. reflexivity. Qed.
Lemma pair_single f p : centred f -> length (snd p) = D -> pair_with f [p] = fst p * value k f (snd p).
Proof.
  intros HF HP. unfold pair_with, value. cbn [map sumR]. induction HF as [|q f HQ HF IH]; cbn [map sumR]; [ring|].
  rewrite IH, (KS (snd q)) by auto. ring.
Qed.
Lemma pair_sym f g : centred f -> centred g -> pair_with f g = pair_with g f.
Proof.
  intros HF HG. revert f HF. induction HG as [|p g HP HG IH]; intros f HF.
  - unfold pair_with at 2. cbn [map sumR]. unfold pair_with, value. cbn [map sumR]. induction f as [|q f IHf]; cbn [map sumR]; [reflexivity|].
    inversion HF; subst. rewrite IHf by auto. ring.
  - rewrite pair_cons_l. change (p :: g) with ([p] ++ g). rewrite pair_app_r, pair_single, IH by auto. reflexivity.
Qed.
Lemma roughness_nonneg f : centred f -> 0 <= roughness k f.
Proof.
  intros HF. set (d := (0, []) : R * row).
  pose proof (KP (length f) (fun i => snd (nth i f d))) as H. unfold centred in HF. rewrite Forall_forall in HF.
  specialize (H (fun i Hi => HF _ (nth_In f d Hi)) (fun i => fst (nth i f d))).
  unfold roughness, value. rewrite (sumR_Sum _ f d).
  replace (Sum (length f) (fun i => fst (nth i f d) * sumR (map (fun p => fst p * k (snd (nth i f d)) (snd p)) f))) with
    (quad (length f) (fun i j => k (snd (nth i f d)) (snd (nth j f d))) (fun i => fst (nth i f d))); [exact H|].
  unfold quad. apply Sum_ext. intros i _. rewrite (sumR_Sum _ f d), <- Sum_scal. apply Sum_ext. intros j _. ring.
Qed.
(** A combination without roughness is zero everywhere. *)
Lemma roughness_zero f x : centred f -> length x = D -> roughness k f = 0 -> value k f x = 0.
Proof.
  intros HF HX H0. assert (HQ : forall t, 0 <= 2 * t * value k f x + t * t * k x x).
  { intros t. assert (HC : centred (f ++ [(t, x)])) by (apply Forall_app; split; [exact HF|repeat constructor; exact HX]).
    pose proof (roughness_nonneg _ HC) as H. unfold roughness in H. fold (pair_with (f ++ [(t, x)]) (f ++ [(t, x)])) in H.
    rewrite pair_app_l, !pair_app_r in H. rewrite (pair_single f (t, x) HF HX) in H.
    unfold roughness in H0. fold (pair_with f f) in H0. rewrite H0 in H.
    rewrite (pair_cons_l (t, x) [] f), (pair_cons_l (t, x) [] [(t, x)]) in H. cbn [fst snd] in H.
    unfold pair_with, value in H. cbn [map sumR fst snd] in H. unfold value. lra. }
  assert (HK : 0 <= k x x) by (pose proof (HQ 1); pose proof (HQ (-1)); lra).
  set (v := value k f x) in *. clearbody v. set (c := k x x) in *. clearbody c. clear - HQ HK.
  pose proof (HQ (- v / (c + 1))) as H1. assert (HC : 0 < c + 1) by lra.
  assert (E : 2 * (- v / (c + 1)) * v + - v / (c + 1) * (- v / (c + 1)) * c = - (v * v) * ((c + 2) / ((c + 1) * (c + 1)))) by (field; lra).
  rewrite E in H1. assert (HP : 0 < (c + 2) / ((c + 1) * (c + 1))) by (apply Rdiv_lt_0_compat; nra).
  destruct (Req_dec v 0) as [HV|HV]; [exact HV|]. exfalso. assert (H2 : 0 < v * v) by nra. pose proof (Rmult_lt_0_compat _ _ H2 HP). lra.
Qed.

Variables (fp : list row) (tgt : list R) (noise : R) (alpha : nat -> R).
Hypothesis HL : length tgt = length fp.
Hypothesis HR : Forall (fun r => length r = D) fp.
Hypothesis Hn : 0 <= noise.
Hypothesis HA : forall i, (i < length fp)%nat ->
  Sum (length fp) (fun j => (k (row_at fp i) (row_at fp j) + (if (i =? j)%nat then noise else 0)) * alpha j) = nth i tgt 0.
Definition best_fit : combination := combine (tabulate (length fp) alpha) fp.

Lemma best_fit_value x : value k best_fit x = Sum (length fp) (fun j => k x (row_at fp j) * alpha j).
Proof.
  unfold value, best_fit. rewrite (sumR_Sum _ _ (0, [])). rewrite combine_length, tabulate_length, Nat.min_id.
  apply Sum_ext. intros j Hj. rewrite combine_nth by (rewrite tabulate_length; auto). cbn [fst snd]. rewrite nth_tabulate by auto.
  unfold row_at. ring.
Qed.
Lemma best_fit_centred : centred best_fit.
Proof. apply Forall_forall. intros [u v] HP. apply in_combine_r in HP. rewrite Forall_forall in HR. auto. Qed.
Lemma best_fit_residual i : (i < length fp)%nat -> value k best_fit (row_at fp i) - nth i tgt 0 = - noise * alpha i.
Proof.
  intros Hi. rewrite best_fit_value, <- (HA i Hi), <- Sum_minus.
  transitivity (Sum (length fp) (fun j => (if (i =? j)%nat then 1 else 0) * (- noise * alpha j))).
  - apply Sum_ext. intros j _. destruct (i =? j)%nat; ring.
  - apply (Sum_delta _ _ (fun j => - noise * alpha j) Hi).
Qed.
Lemma tradeoff_gap f : centred f -> let h := f ++ negc best_fit in
  tradeoff k noise fp tgt f = tradeoff k noise fp tgt best_fit + sumR (map (fun x => value k h x ^ 2) fp) + noise * roughness k h.
Proof.
  intros HF h. pose proof best_fit_centred as HB. set (g := best_fit) in *.
  assert (HV : forall x, value k f x = value k g x + value k h x) by (intros x; unfold h; rewrite value_app, value_neg; ring).
  assert (HNC : centred (negc g)).
  { unfold negc, centred. rewrite Forall_map. cbn [snd]. exact HB. }
  assert (HC : centred h) by (apply Forall_app; auto).
  assert (R1 : roughness k f = roughness k g + 2 * pair_with g h + roughness k h).
  { unfold roughness. fold (pair_with f f) (pair_with g g) (pair_with h h). unfold h.
    rewrite !pair_app_l, !pair_app_r, !pair_neg_r, !pair_neg_l, (pair_sym f g HF HB). ring. }
  assert (R2 : pair_with g h = Sum (length fp) (fun i => alpha i * value k h (row_at fp i))).
  { unfold pair_with, g, best_fit. rewrite (sumR_Sum _ _ (0, [])), combine_length, tabulate_length, Nat.min_id.
    apply Sum_ext. intros i Hi. rewrite combine_nth by (rewrite tabulate_length; auto). cbn [fst snd]. rewrite nth_tabulate by auto. reflexivity. }
  assert (R3 : forall u, sumR (map (fun q => (value k u (fst q) - snd q) ^ 2) (combine fp tgt)) =
     Sum (length fp) (fun i => (value k u (row_at fp i) - nth i tgt 0) ^ 2)).
  { intros u. rewrite (sumR_Sum _ _ ([], 0)), combine_length, HL, Nat.min_id. apply Sum_ext. intros i Hi.
    rewrite combine_nth by auto. reflexivity. }
  unfold tradeoff. rewrite !R3, R1, R2, (sumR_Sum _ fp []).
  assert (R4 : Sum (length fp) (fun i => (value k f (row_at fp i) - nth i tgt 0) ^ 2) =
    Sum (length fp) (fun i => (value k g (row_at fp i) - nth i tgt 0) ^ 2) +
    (- (2 * noise) * Sum (length fp) (fun i => alpha i * value k h (row_at fp i)) + Sum (length fp) (fun i => value k h (nth i fp []) ^ 2))).
  { rewrite <- Sum_scal, <- !Sum_plus. apply Sum_ext. intros i Hi. rewrite HV. fold (row_at fp i).
    pose proof (best_fit_residual i Hi) as HQ. fold g in HQ.
    replace (value k g (row_at fp i) + value k h (row_at fp i) - nth i tgt 0) with
      ((value k g (row_at fp i) - nth i tgt 0) + value k h (row_at fp i)) by ring. rewrite HQ. ring. }
  rewrite R4. ring.
Qed.
Lemma best_fit_optimal f : centred f ->
  tradeoff k noise fp tgt best_fit <= tradeoff k noise fp tgt f /\
  (0 < noise -> tradeoff k noise fp tgt f <= tradeoff k noise fp tgt best_fit -> forall x, length x = D -> value k f x = value k best_fit x).
Proof.
  intros HF. pose proof (tradeoff_gap f HF) as G. cbv zeta in G. set (h := f ++ negc best_fit) in *.
  assert (HC : centred h).
  { apply Forall_app. split; [exact HF|]. unfold negc. rewrite Forall_map. cbn [snd]. exact best_fit_centred. }
  pose proof (roughness_nonneg h HC) as HN.
  assert (HS : 0 <= sumR (map (fun x => value k h x ^ 2) fp)).
  { rewrite (sumR_Sum _ fp []). apply Sum_nonneg. intros; nra. }
  split; [nra|]. intros H0 HLE x HX. assert (HZ : roughness k h = 0) by nra.
  pose proof (roughness_zero h x HC HX HZ) as HV. unfold h in HV. rewrite value_app, value_neg in HV. lra.
Qed.
End Comb.

(** ** The prediction as the best trade-off *)
(** The predictions are the values of a combination centred at the training points, which
    no combination, with any number of other centres, surpasses in squared errors plus noise
    times roughness; with noise, all that are as good have the same values everywhere. *)
Theorem prediction_is_best_tradeoff : forall inv cho cho_solve D fp tgt ks reg rb sopt s,
  oracles_ok inv cho -> inputs_ok D fp ks -> Forall (sensible sopt) ks ->
  gp_init inv cho cho_solve fp tgt ks None reg rb sopt false = Ok s ->
  let k := cov (g_kernels s) sopt in
  let noise := (if sopt then exp reg else reg) ^ 2 in
  exists g, map snd g = fp /\
    (forall test, test_ok D test -> predict s test = Ok (map (value k g) test)) /\
    forall f, Forall (fun c => length (snd c) = D) f ->
      tradeoff k noise fp tgt g <= tradeoff k noise fp tgt f /\
      (noise <> 0 -> tradeoff k noise fp tgt f <= tradeoff k noise fp tgt g ->
       forall x, length x = D -> value k f x = value k g x).
Proof.
  intros inv cho cho_solve D fp tgt ks reg rb sopt s HO HI HS E k noise.
  destruct (init_facts _ _ _ HO _ _ _ _ _ _ _ _ _ HI E) as [ks' [b [EP [T [El [Es [Er [_ [_ [HL [ET _]]]]]]]]]]].
  pose proof (prepare_sensible _ _ _ _ _ _ _ EP HS) as HS'.
  cbn in ET. injection ET as Esc Ef Et.
  assert (ST : forall test, scale_test s test = test) by (intros; unfold scale_test; rewrite Es; auto).
  destruct (kappa_symm_psd D ks' sopt (t_eval _ _ _ T) HS' (t_ks _ _ _ T)) as [KS KP].
  assert (HKK : k = kappa ks' sopt).
  { unfold k, cov. rewrite (t_kernels _ _ _ T). apply FunctionalExtensionality.functional_extensionality. intros x.
    apply FunctionalExtensionality.functional_extensionality. intros y. rewrite get_covariance_boxed. reflexivity. }
  assert (Hn : 0 <= noise) by (unfold noise; nra).
  pose proof (i_rect _ _ _ HI) as HR.
  assert (HA : forall i, (i < length fp)%nat ->
    Sum (length fp) (fun j => (k (row_at fp i) (row_at fp j) + (if (i =? j)%nat then noise else 0)) * weights s j) = nth i tgt 0).
  { intros i Hi. pose proof (weights_spec s ks' D T i) as W. rewrite Ef, El, Er, Et in W. rewrite <- (W Hi), HKK.
    apply Sum_ext. intros j Hj. f_equal. f_equal. unfold noise, logged, ident. destruct (i =? j)%nat, sopt; ring. }
  exists (best_fit fp (weights s)).
  assert (HP : forall test, test_ok D test -> predict s test = Ok (map (value k (best_fit fp (weights s))) test)).
  { intros test [TN TR]. rewrite (predict_trained s ks' D T) by (rewrite ST; auto). rewrite ST. unfold rescale. rewrite Es. f_equal.
    apply nth_ext with 0 0; [rewrite tabulate_length, map_length; reflexivity|]. rewrite tabulate_length. intros i Hi.
    rewrite nth_tabulate by auto. rewrite (nth_map_lt _ _ _ []) by auto. rewrite best_fit_value, Ef, El, HKK. reflexivity. }
  split.
  { unfold best_fit. clear. generalize (weights s). intros a. assert (L : length (tabulate (length fp) a) = length fp) by apply tabulate_length.
    revert L. generalize (tabulate (length fp) a). intros l. revert l. induction fp as [|x m IH]; intros [|y l] L; try discriminate; [reflexivity|].
    cbn [combine map snd]. f_equal. apply IH. cbn in L. lia. }
  split; [exact HP|]. intros f HF.
  destruct (best_fit_optimal k D) with (fp := fp) (tgt := tgt) (noise := noise) (alpha := weights s) (f := f) as [B1 B2]; auto.
  - rewrite HKK. exact KS.
  - rewrite HKK. exact KP.
  - split; [exact B1|]. intros HN. apply B2. lra.
Qed.

(** ** The prediction as the best linear predictor *)
Lemma roughness_quad k w fp : length w = length fp ->
  roughness k (combine w fp) = quad (length fp) (fun i j => k (row_at fp i) (row_at fp j)) (fun i => nth i w 0).
Proof.
  intros HL. unfold roughness, value, quad. rewrite (sumR_Sum _ _ (0, [])), combine_length, HL, Nat.min_id. apply Sum_ext. intros i Hi.
  rewrite combine_nth by auto. cbn [fst snd]. rewrite (sumR_Sum _ _ (0, [])), combine_length, HL, Nat.min_id, <- Sum_scal. apply Sum_ext. intros j Hj.
  rewrite combine_nth by auto. cbn [fst snd]. unfold row_at. ring.
Qed.
Lemma expected_error_quad k r fp x w : length w = length fp ->
  expected_error k (r ^ 2) fp x w = k x x - (2 * dotv (length fp) (fun i => nth i w 0) (fun j => k x (row_at fp j)) -
    quad (length fp) (fun i j => k (row_at fp i) (row_at fp j) + (r * ident i j) ^ 2) (fun i => nth i w 0)).
Proof.
  intros HL. unfold expected_error. rewrite roughness_quad by auto.
  rewrite (quad_reg (length fp) (fun i j => k (row_at fp i) (row_at fp j)) r (fun i => nth i w 0)).
  rewrite (sumR_Sum _ _ (0, [])), combine_length, HL, Nat.min_id, (sumR_Sum _ w 0), HL.
  replace (Sum (length fp) (fun i => fst (nth i (combine w fp) (0, [])) * k x (snd (nth i (combine w fp) (0, []))))) with
    (dotv (length fp) (fun i => nth i w 0) (fun j => k x (row_at fp j))).
  - replace (Sum (length fp) (fun i => nth i w 0 ^ 2)) with (dotv (length fp) (fun i => nth i w 0) (fun i => nth i w 0)); [ring|].
    apply Sum_ext. intros; ring.
  - apply Sum_ext. intros i Hi. rewrite combine_nth by auto. reflexivity.
Qed.

(** Each prediction is a weighted sum of the targets, and the square of its uncertainty is the expected
    squared error of that sum; no other weights have a smaller expected error, and with
    noise no others have the same. *)
Theorem prediction_is_best_linear : forall inv cho cho_solve D fp tgt ks reg rb sopt s test,
  oracles_ok inv cho -> inputs_ok D fp ks -> Forall (sensible sopt) ks -> test_ok D test ->
  gp_init inv cho cho_solve fp tgt ks None reg rb sopt false = Ok s ->
  let k := cov (g_kernels s) sopt in
  let noise := (if sopt then exp reg else reg) ^ 2 in
  exists p u ur, predict s test = Ok p /\ predict_with_uncertainty s test = Ok (u, ur) /\
    length p = length test /\ length u = length test /\
    forall i, (i < length test)%nat -> let x := nth i test [] in
      exists w, length w = length fp /\ nth i p 0 = sumR (map (fun q => fst q * snd q) (combine w tgt)) /\
        0 <= nth i u 0 /\ nth i u 0 ^ 2 = expected_error k noise fp x w /\
        forall w', length w' = length fp ->
          expected_error k noise fp x w <= expected_error k noise fp x w' /\
          (noise <> 0 -> expected_error k noise fp x w' <= expected_error k noise fp x w -> w' = w).
Proof.
  intros inv cho cho_solve D fp tgt ks reg rb sopt s test HO HI HS [TN TR] E k noise.
  destruct (init_facts _ _ _ HO _ _ _ _ _ _ _ _ _ HI E) as [ks' [b [EP [T [El [Es [Er [_ [_ [HL [ET _]]]]]]]]]]].
  pose proof (prepare_sensible _ _ _ _ _ _ _ EP HS) as HS'.
  cbn in ET. injection ET as Esc Ef Et.
  assert (ST : scale_test s test = test) by (unfold scale_test; rewrite Es; auto).
  destruct (kappa_symm_psd D ks' sopt (t_eval _ _ _ T) HS' (t_ks _ _ _ T)) as [KS KP].
  assert (HKK : k = kappa ks' sopt).
  { unfold k, cov. rewrite (t_kernels _ _ _ T). apply FunctionalExtensionality.functional_extensionality. intros x.
    apply FunctionalExtensionality.functional_extensionality. intros y. rewrite get_covariance_boxed. reflexivity. }
  set (r := if sopt then exp reg else reg) in *.
  assert (Hr : logged sopt reg = r) by (unfold logged, r; destruct sopt; reflexivity).
  pose proof (i_rect _ _ _ HI) as HR. set (n := length fp) in *.
  assert (RL : forall i, (i < n)%nat -> length (row_at fp i) = D) by (intros; apply row_at_length; auto).
  set (K0 := fun i j => kappa ks' sopt (row_at fp i) (row_at fp j)).
  set (K := fun i j => K0 i j + (r * ident i j) ^ 2).
  assert (V : inverse n K (at_ (g_cinv s))).
  { pose proof (t_inv _ _ _ T) as V. rewrite Ef, El, Er, Hr in V. exact V. }
  assert (SK0 : symm n K0) by (intros i j Hi Hj; apply KS; auto).
  assert (SK : symm n K).
  { intros i j Hi Hj. unfold K. rewrite (SK0 i j) by auto. unfold ident. rewrite (Nat.eqb_sym j i). auto. }
  assert (PK0 : possemidef n K0) by (apply (KP n (fun i => row_at fp i)); auto).
  assert (PK : possemidef n K).
  { intros v. unfold K. rewrite (quad_reg n K0 r v). pose proof (PK0 v). assert (0 <= dotv n v v) by (apply Sum_nonneg; intros; nra). nra. }
  assert (SB : symm n (at_ (g_cinv s))) by (eapply inverse_symm; [exact SK|exact V]).
  destruct (test_covariance_trained s ks' D T test TN TR) as [C [EC [N1 [N2 HC]]]].
  pose proof (variance_trained s ks' D T test C TN TR EC) as EV.
  assert (LC : nc C = length (g_fp s)) by (rewrite N2; reflexivity).
  do 3 eexists. split.
  { rewrite (predict_trained s ks' D T) by (rewrite ST; auto). rewrite ST. unfold rescale. rewrite Es. reflexivity. }
  split.
  { unfold predict_with_uncertainty. cbv zeta. rewrite ST, EC. cbn [bind].
    rewrite (make_prediction_trained s ks' D T C (length test) LC N1). cbn [bind]. unfold get_uncertainty. rewrite EV. cbn [bind].
    unfold finish_uncertainty. rewrite Es. reflexivity. }
  split; [apply tabulate_length|]. split; [rewrite !map_length; apply tabulate_length|].
  intros i Hi x. assert (Hx : length x = D) by (apply (row_at_length test D i); auto).
  set (kx := fun j => kappa ks' sopt x (row_at fp j)).
  exists (tabulate n (mulv n (at_ (g_cinv s)) kx)).
  assert (HW : forall j, (j < n)%nat -> nth j (tabulate n (mulv n (at_ (g_cinv s)) kx)) 0 = mulv n (at_ (g_cinv s)) kx j) by (intros; apply nth_tabulate; auto).
  assert (RB : 0 <= reduction s ks' x <= kappa ks' sopt x x).
  { pose proof (reduction_bounds s ks' D T x) as B. rewrite El in B. apply B; auto. }
  assert (ER : reduction s ks' x = quad n (at_ (g_cinv s)) kx) by (unfold reduction; rewrite Ef, El; reflexivity).
  assert (EE : forall w, length w = n -> expected_error k noise fp x w = kappa ks' sopt x x - (2 * dotv n (fun i => nth i w 0) kx - quad n K (fun i => nth i w 0))).
  { intros w Hw. unfold noise. rewrite HKK. rewrite expected_error_quad by auto. reflexivity. }
  assert (EW : expected_error k noise fp x (tabulate n (mulv n (at_ (g_cinv s)) kx)) = kappa ks' sopt x x - quad n (at_ (g_cinv s)) kx).
  { rewrite EE by apply tabulate_length. f_equal. rewrite <- (quad_inverse_attained n K _ kx V). f_equal; [f_equal|].
    - apply dotv_ext; [exact HW|intros j Hj; reflexivity].
    - unfold quad. apply Sum_ext. intros a Ha. apply Sum_ext. intros c Hc. rewrite !HW by auto. reflexivity. }
  assert (EU : forall l, length l = length test -> nth i (map (fun v => v * 1) (map sqrt l)) 0 = sqrt (nth i l 0)).
  { intros l Hl. rewrite (nth_map_lt _ _ _ 0) by (rewrite map_length; lia). rewrite (nth_map_lt _ _ _ 0) by lia. ring. }
  split; [apply tabulate_length|]. split; [|split; [|split]].
  - rewrite nth_tabulate by auto. rewrite (sumR_Sum _ _ (0, 0)), combine_length, tabulate_length, <- HL, Nat.min_id. rewrite Ef, El. fold n.
    transitivity (dotv n kx (mulv n (at_ (g_cinv s)) (vnth tgt))).
    + apply Sum_ext. intros j Hj. unfold weights. rewrite Ef, Et. reflexivity.
    + rewrite dotv_symm by exact SB. apply Sum_ext. intros j Hj. rewrite combine_nth by (rewrite tabulate_length; lia). cbn [fst snd].
      rewrite HW by auto. reflexivity.
  - rewrite EU by apply tabulate_length. apply sqrt_pos.
  - rewrite EW, <- ER. rewrite EU by apply tabulate_length. rewrite nth_tabulate by auto. rewrite El. change (row_at test i) with x. rewrite pow2_sqrt by lra. reflexivity.
  - intros w' Hw'. rewrite EW, (EE w' Hw'). pose proof (quad_inverse_max n K _ kx (fun i => nth i w' 0) SK PK V) as M. split; [lra|].
    intros HN HLE. set (d := fun j => nth j w' 0 - mulv n (at_ (g_cinv s)) kx j).
    assert (QD : quad n K d = quad n (at_ (g_cinv s)) kx - (2 * dotv n (fun i => nth i w' 0) kx - quad n K (fun i => nth i w' 0))).
    { unfold d. rewrite quad_sub by exact SK. rewrite <- (quad_inverse_attained n K _ kx V).
      rewrite (quad_dot n K (mulv n (at_ (g_cinv s)) kx)).
      rewrite (dotv_ext n (mulv n (at_ (g_cinv s)) kx) (mulv n (at_ (g_cinv s)) kx) (mulv n K (mulv n (at_ (g_cinv s)) kx)) kx);
        [|intros j Hj; reflexivity|apply mulv_inverse; auto].
      rewrite (dotv_ext n (fun i => nth i w' 0) (fun i => nth i w' 0) (mulv n K (mulv n (at_ (g_cinv s)) kx)) kx);
        [|intros j Hj; reflexivity|apply mulv_inverse; auto]. lra. }
    assert (Q0 : quad n K d = quad n K0 d + r ^ 2 * dotv n d d) by (unfold K; apply quad_reg).
    pose proof (PK0 d) as P0. assert (D0 : 0 <= dotv n d d) by (apply Sum_nonneg; intros; nra).
    assert (Hr2 : 0 < r ^ 2) by (unfold noise in HN; pose proof (pow2_ge_0 r); lra).
    assert (DZ : Sum n (fun j => d j * d j) = 0) by (fold (dotv n d d); nra).
    apply nth_ext with 0 0; [rewrite tabulate_length; exact Hw'|]. intros j Hj. rewrite Hw' in Hj. rewrite HW by exact Hj.
    pose proof (Sum_pos_zero n (fun j => d j * d j) ltac:(intros; cbv beta; nra) DZ j Hj) as Q. cbv beta in Q. unfold d in Q. nra.
Qed.

(** ** Ridge regression is a Gaussian process with a linear kernel *)
Definition linear (a : option R) : kdict :=
  KD (Some KLinear) false None None a true None None None None None None None false.
Definition prefactor (a : option R) : R := match a with Some x => x | None => 1 end.

Lemma linear_cov a x y : length x = length y -> cov (map boxed [linear a]) false x y = prefactor a * inner x y.
Proof.
  intros H. unfold cov. rewrite get_covariance_boxed. unfold get_covariance. cbn [ncols]. rewrite H, Nat.eqb_refl.
  destruct a; cbn; unfold inner; ring.
Qed.

Theorem ridge_is_linear_gp : forall inv cho cho_solve svd D X Y a reg rb s test w fv r c neff,
  oracles_ok inv cho -> svd_contract svd -> (1 <= D)%nat -> X <> [] -> Forall (fun x => length x = D) X ->
  0 < prefactor a -> reg <> 0 -> test_ok D test ->
  gp_init inv cho cho_solve X Y [linear a] None reg rb false false = Ok s ->
  w = reg ^ 2 / prefactor a -> RR svd (Ridge None None) X Y w 0 fv = Ok (r, c, neff) ->
  exists p, predict s test = Ok p /\ predict_rows c test = Ok p.
Proof.
  intros inv cho cho_solve svd D X Y a reg rb s test w fv r c neff HO HC HD HX HR Ha Hreg [TN TR] E Hw ER.
  assert (HI : inputs_ok D X [linear a]).
  { constructor; auto; [|discriminate]. repeat constructor; cbn; auto; discriminate. }
  destruct (init_facts _ _ _ HO _ _ _ _ _ _ _ _ _ HI E) as [ks' [b [EP [T [El [Es [Er [_ [_ [HL [ET _]]]]]]]]]]].
  cbn in ET. injection ET as Esc Ef Et.
  assert (EK : ks' = [linear a]).
  { unfold prepare_kernels in EP. destruct a; cbn in EP; rewrite Nat.leb_refl in EP; cbn in EP; injection EP as <- _; reflexivity. }
  subst ks'.
  assert (ST : scale_test s test = test) by (unfold scale_test; rewrite Es; auto).
  assert (HNC : ncols X = D).
  { destruct X as [|x X']; [congruence|]. inversion HR; subst. reflexivity. }
  assert (HDK : data_ok X Y) by (split; [exact HX|]; split; [rewrite HNC; exact HR|exact HL]).
  assert (HCV : forall x y, length x = D -> length y = D -> kappa [linear a] false x y = prefactor a * inner x y).
  { intros x y H1 H2. rewrite <- linear_cov by congruence. unfold cov. rewrite get_covariance_boxed. reflexivity. }
  assert (HRL : forall i, (i < length X)%nat -> length (row_at X i) = D) by (intros i Hi; apply (rect_row X D i); auto).
  set (al := weights s).
  set (beta := tabulate D (fun j => prefactor a * Sum (length X) (fun i => entry X i j * al i))).
  assert (HB : forall x, length x = D -> Sum (length X) (fun j => kappa [linear a] false x (row_at X j) * al j) = inner beta x).
  { intros x Hx. rewrite (inner_Sum beta x D) by (auto; apply tabulate_length).
    transitivity (Sum (length X) (fun i => Sum D (fun d => prefactor a * (entry X i d * al i) * nth d x 0))).
    - apply Sum_ext. intros i Hi. rewrite HCV by auto. rewrite (inner_Sum x (row_at X i) D) by auto.
      rewrite <- Sum_scal, <- Sum_scal_r. apply Sum_ext. intros d _. unfold entry. ring.
    - rewrite Sum_swap. apply Sum_ext. intros d Hd. unfold beta. rewrite nth_tabulate by auto.
      rewrite <- Sum_scal, <- Sum_scal_r. reflexivity. }
  assert (Hw0 : 0 < w) by (rewrite Hw; apply Rdiv_lt_0_compat; [nra|exact Ha]).
  assert (HEQ : c = beta).
  { destruct (ridge_minimises svd X Y w 0 fv r c neff HC HDK Hw0 ER) as [[C1 C2] _].
    assert (HM : only_minimiser X Y w 0 beta).
    { apply solves_minimiser; auto; [rewrite HNC; apply tabulate_length|]. rewrite HNC. intros j Hj.
      pose proof (gram_mulv X (vecf beta) j) as G. rewrite HNC in G. rewrite G.
      unfold vecf at 2, beta at 2. rewrite nth_tabulate by auto. unfold xty.
      replace (w * (prefactor a * Sum (length X) (fun i => entry X i j * al i))) with (Sum (length X) (fun i => entry X i j * (reg ^ 2 * al i))).
      2:{ rewrite Hw, <- !Sum_scal. apply Sum_ext. intros. field. lra. }
      rewrite <- Sum_plus, Rmult_0_r, Rplus_0_r. apply Sum_ext. intros i Hi. rewrite <- Rmult_plus_distr_l. f_equal.
      pose proof (weights_spec s [linear a] D T i) as W. rewrite Ef, El, Er, Et in W. rewrite <- (W Hi).
      transitivity (Sum (length X) (fun l => kappa [linear a] false (row_at X i) (row_at X l) * al l) + reg ^ 2 * al i).
      - f_equal. rewrite HB by auto. rewrite inner_sym. symmetry. pose proof (inner_fit X beta i) as F. rewrite HNC in F.
        apply F; auto. apply tabulate_length.
      - fold al. rewrite <- (Sum_delta (length X) i (fun l => reg ^ 2 * al l) Hi), <- Sum_plus. apply Sum_ext. intros l _.
        unfold logged, ident. destruct (i =? l)%nat; ring. }
    destruct HM as [M1 M2]. destruct (list_eq_dec Req_EM_T c beta) as [Q|Q]; [exact Q|]. exfalso.
    pose proof (M2 c C1 Q). assert (Q' : beta <> c) by congruence. pose proof (C2 beta M1 Q'). lra. }
  eexists. split.
  { rewrite (predict_trained s [linear a] D T) by (rewrite ST; auto). rewrite ST. unfold rescale. rewrite Es. reflexivity. }
  subst c. rewrite Ef, El. apply ridge_predictions. split.
  - apply nth_ext with 0 0; [rewrite tabulate_length, map_length; reflexivity|]. rewrite tabulate_length. intros i Hi.
    rewrite nth_tabulate by auto. rewrite (nth_map_lt _ _ _ []) by auto. fold al. rewrite HB; [reflexivity|].
    apply (rect_row test D i); auto.
  - unfold beta. rewrite tabulate_length. exact TR.
Qed.

(** ** Cases *)
(** Two points on a line, with noise 2 and scaling 2: ridge regression with omega2 = 2 gives
    the slope 9/7. *)
Example slope_case : exists s r n, gp_init ref_inv ref_cho (fun _ v => v) [[1]; [2]] [1; 4] [linear (Some 2)] None 2 None false false = Ok s /\
  Forall (sensible false) [linear (Some 2)] /\ test_ok 1 [[3]] /\
  RR svd_one (Ridge None None) [[1]; [2]] [1; 4] (2 ^ 2 / prefactor (Some 2)) 0 false = Ok (r, [9 / 7], n) /\
  predict s [[3]] = Ok [27 / 7].
Proof.
  destruct oracles_exist as [HO HC]. pose proof HO as [SI SC]. pose proof HC as [CI CC].
  assert (HU : Forall (usable 1) [linear (Some 2)]) by (repeat constructor; cbn; auto; discriminate).
  assert (HSe : Forall (sensible false) [linear (Some 2)]).
  { repeat constructor; cbn; auto; try discriminate. all: intros; try discriminate; try lra. }
  assert (HT : test_ok 1 [[3]]) by (split; [discriminate|repeat constructor]).
  assert (G : exists s, gp_init ref_inv ref_cho (fun _ v => v) [[1]; [2]] [1; 4] [linear (Some 2)] None 2 None false false = Ok s).
  { eapply (gp_init_ok ref_inv ref_cho (fun _ v => v) SI _ _ _ _ _ _ _ 1%nat [linear (Some 2)]); eauto; try discriminate; try reflexivity;
      [repeat constructor|cbn; lra]. }
  destruct G as [s E].
  assert (ER : exists r n, RR svd_one (Ridge None None) [[1]; [2]] [1; 4] (2 ^ 2 / prefactor (Some 2)) 0 false = Ok (r, [9 / 7], n)).
  { unfold RR, use_svd, svd_one, gram. cbn -[Rle_dec].
    destruct (Rle_dec 0 _) as [H|H]; [|exfalso; apply H; unfold entry; cbn; lra]. cbn. unfold xty, entry. cbn.
    eexists. eexists. f_equal. f_equal. f_equal. f_equal. field. }
  destruct ER as (r & n & ER). exists s, r, n. split; [exact E|]. split; [exact HSe|]. split; [exact HT|]. split; [exact ER|].
  destruct (ridge_is_linear_gp ref_inv ref_cho (fun _ v => v) svd_one 1 [[1]; [2]] [1; 4] (Some 2) 2 None s [[3]] (2 ^ 2 / prefactor (Some 2)) false r [9 / 7] n HO svd_one_ok)
    as (p & P1 & P2); auto; try discriminate; try (cbn; lra); try (repeat constructor).
  rewrite P1. cbn in P2. injection P2 as <-. f_equal. f_equal. field.
Qed.

Print Assumptions prediction_is_best_tradeoff.
Print Assumptions prediction_is_best_linear.
Print Assumptions ridge_is_linear_gp.
