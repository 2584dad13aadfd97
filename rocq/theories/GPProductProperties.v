(** Products of kernels in a Gaussian process (catlearn/regression/gpfunctions/covariance.py 62-69). *)
From Coq Require Import Reals Lra Lia List Arith Bool.
From Verif Require Import Base BaseFacts RBase LinAlg KernModel KernProofs KernSetupProofs KernDefProofs
  KernScaleProofs KernEntryProofs KernProperties KernFormProofs GPModel GPProofs GPMoreProofs GPProperties GPSymProperties
  SensModel SensProperties ErrorProperties.
Import ListNotations.
Open Scope R_scope.
Set Bullet Behavior "Strict Subproofs".

(** A gaussian kernel of the listed features with one width for each, added or multiplied. *)
Definition gaussian_on (mult : bool) (f : list nat) (w : list R) : kdict :=
  KD (Some KGaussian) mult (Some f) None None true None None (Some (Arr w)) None None None None false.

Lemma gaussian_on_form D mult f w q b x y : length w = length f -> prepare_kernel (gaussian_on mult f w) D (default_bound false) = Ok (q, b) ->
  k_mult q = mult /\ scale_of false q = 1 /\
  form D false q x y = exp (- / 2 * Sum (length f) (fun d => ((nth (nth d f 0%nat) x 0 - nth (nth d f 0%nat) y 0) / wnth w d) ^ 2)).
Proof.
  intros L P. destruct (prepare_kernel_facts _ _ _ _ _ P) as (T & M & F & S1 & _ & _ & w1 & l1 & A & B & W). cbn in T, M, F, S1, A, B.
  injection A as <-. cbn in B. destruct (length w =? length f)%nat; [|discriminate]. injection B as <-.
  split; [exact M|]. split; [unfold scale_of; rewrite S1; reflexivity|]. unfold form. cbv zeta. rewrite T. unfold n_used, used, width_of. rewrite F, W. reflexivity.
Qed.
Lemma wnth_nth w d : (length w <> 1)%nat \/ (d < length w)%nat -> wnth w d = nth d w 0.
Proof. intros H. destruct w as [|a [|b w]]; auto. cbn in *. destruct H; [lia|]. destruct d; [auto|lia]. Qed.

(** The product of gaussian kernels of two lists of features is the gaussian kernel of both lists: the same predictions,
    uncertainties and likelihood. *)
Theorem gaussian_product : forall inv cho cho_solve D fp tgt f1 w1 f2 w2 reg rb s s' test,
  oracles_ok inv cho -> test_ok D test -> length w1 = length f1 -> length w2 = length f2 ->
  inputs_ok D fp [gaussian_on false f1 w1; gaussian_on true f2 w2] -> inputs_ok D fp [gaussian_on false (f1 ++ f2) (w1 ++ w2)] ->
  gp_init inv cho cho_solve fp tgt [gaussian_on false f1 w1; gaussian_on true f2 w2] None reg rb false false = Ok s ->
  gp_init inv cho cho_solve fp tgt [gaussian_on false (f1 ++ f2) (w1 ++ w2)] None reg rb false false = Ok s' ->
  predict s' test = predict s test /\ predict_with_uncertainty s' test = predict_with_uncertainty s test /\
  predict_uncertainty s' test = predict_uncertainty s test /\ g_lml s' = g_lml s.
Proof.
  intros inv cho cho_solve D fp tgt f1 w1 f2 w2 reg rb s s' test HO HT L1 L2 HI HI' E E'.
  destruct (gp_init_prepared _ _ _ _ _ _ _ _ _ _ _ HO HI E) as [p [b EP]].
  destruct (gp_init_prepared _ _ _ _ _ _ _ _ _ _ _ HO HI' E') as [p' [b' EP']].
  assert (Q : predict s' (map (fun x => x) test) = predict s test /\ predict_with_uncertainty s' (map (fun x => x) test) = predict_with_uncertainty s test /\
    predict_uncertainty s' (map (fun x => x) test) = predict_uncertainty s test /\ g_lml s' = g_lml s).
  2: { rewrite map_id in Q. exact Q. }
  rewrite <- (map_id fp) in E', HI'.
  refine (same_models inv cho cho_solve D D fp tgt _ _ p p' b b' reg rb false s s' test (fun x => x) HO HI HI' HT E E' EP EP' (fun x H => H) _).
  intros H1 H2 HN x y Hx Hy. pose proof (prepare_kernels_facts _ _ _ _ _ EP) as P1. pose proof (prepare_kernels_facts _ _ _ _ _ EP') as P2.
  inversion P1 as [|? q1 ? ? [b1 Q1] P1']. inversion P1' as [|? q2 ? ? [b2 Q2] P1'']. inversion P1''. inversion P2 as [|? q3 ? ? [b3 Q3] P2']. inversion P2'. revert Hx Hy. subst. intros Hx Hy.
  rewrite !(kappa_form D) by (auto; discriminate). cbn [fold_left]. unfold combine_forms. cbv zeta.
  destruct (gaussian_on_form D _ _ _ _ _ x y L1 Q1) as (M1 & S1 & F1). destruct (gaussian_on_form D _ _ _ _ _ x y L2 Q2) as (M2 & S2 & F2).
  assert (L3 : length (w1 ++ w2) = length (f1 ++ f2)) by (rewrite !app_length, L1, L2; reflexivity).
  destruct (gaussian_on_form D _ _ _ _ _ x y L3 Q3) as (M3 & S3 & F3).
  rewrite M1, M2, M3, S1, S2, S3, F1, F2, F3. rewrite !Rmult_1_l, !Rplus_0_l, <- exp_plus. f_equal.
  rewrite app_length, Sum_app, Rmult_plus_distr_l. f_equal; f_equal; apply Sum_ext; intros d Hd.
  - rewrite (app_nth1 f1) by exact Hd. do 2 f_equal. rewrite !wnth_nth by (rewrite ?app_length; right; lia). apply app_nth1. lia.
  - rewrite app_nth2_plus. do 2 f_equal. rewrite !wnth_nth by (rewrite ?app_length; right; lia). rewrite <- L1. apply app_nth2_plus.
Qed.

(** Two features, each with a kernel of its own. *)
Example product_case : exists s s',
  gp_init ref_inv ref_cho (fun _ v => v) [[0; 1]; [2; 5]] [3; 5] [gaussian_on false [0%nat] [1]; gaussian_on true [1%nat] [2]] None 1 None false false = Ok s /\
  gp_init ref_inv ref_cho (fun _ v => v) [[0; 1]; [2; 5]] [3; 5] [gaussian_on false [0; 1]%nat [1; 2]] None 1 None false false = Ok s' /\
  predict s' [[1; 1]] = predict s [[1; 1]].
Proof.
  destruct oracles_exist as [HO HC]. pose proof HO as [SI SC]. pose proof HC as [CI CC].
  assert (POS : forall x, 0 < x -> Rltb 0 x = true) by (intros x Hx; unfold Rltb; destruct (Rlt_dec 0 x); [reflexivity|contradiction]).
  set (k1 := [gaussian_on false [0%nat] [1]; gaussian_on true [1%nat] [2]]). set (k2 := [gaussian_on false [0; 1]%nat [1; 2]]).
  assert (U1 : Forall (usable 2) k1) by (repeat constructor; cbn; auto; try discriminate; intros; repeat constructor; try lia).
  assert (U2 : Forall (usable 2) k2) by (repeat constructor; cbn; auto; try discriminate; intros; repeat constructor; try lia).
  assert (P1 : exists b, prepare_kernels k1 (init_bounds None false) false 2 = Ok (k1, b)).
  { unfold prepare_kernels, k1. cbn -[default_bound Rltb]. rewrite !POS by lra. cbn -[default_bound]. eauto. }
  assert (P2 : exists b, prepare_kernels k2 (init_bounds None false) false 2 = Ok (k2, b)).
  { unfold prepare_kernels, k2. cbn -[default_bound Rltb]. rewrite !POS by lra. cbn -[default_bound]. eauto. }
  assert (S1 : Forall (sensible false) k1) by (repeat constructor; cbn; auto; intros; try discriminate; repeat constructor; try lra).
  assert (S2 : Forall (sensible false) k2) by (repeat constructor; cbn; auto; intros; try discriminate; repeat constructor; try lra).
  assert (G : forall k, Forall (usable 2) k -> k <> [] -> (exists b, prepare_kernels k (init_bounds None false) false 2 = Ok (k, b)) -> Forall (sensible false) k ->
    exists s, gp_init ref_inv ref_cho (fun _ v => v) [[0; 1]; [2; 5]] [3; 5] k None 1 None false false = Ok s).
  { intros k U N [b EP] HS.
    eapply (gp_init_ok ref_inv ref_cho (fun _ v => v) SI); [exact CI|exact CC|exact EP|exact U|exact N|lia|discriminate| |reflexivity|exact HS|cbn; lra].
    repeat constructor. }
  destruct (G k1 U1 ltac:(discriminate) P1 S1) as [s E]. destruct (G k2 U2 ltac:(discriminate) P2 S2) as [s' E'].
  exists s, s'. split; [exact E|]. split; [exact E'|].
  apply (gaussian_product ref_inv ref_cho (fun _ v => v) 2 [[0; 1]; [2; 5]] [3; 5] [0%nat] [1] [1%nat] [2] 1 None s s' [[1; 1]]); auto.
  - split; [discriminate|repeat constructor].
  - constructor; auto; try discriminate; repeat constructor.
  - constructor; auto; try discriminate; repeat constructor.
Qed.

Print Assumptions gaussian_product.
