(** The order of the kernels of a Gaussian process (catlearn/regression/gpfunctions/covariance.py 61-69). *)
From Coq Require Import Reals Lra Lia List Arith Bool Permutation.
From Verif Require Import Base BaseFacts RBase LinAlg KernModel KernProofs KernSetupProofs KernDefProofs
  KernScaleProofs KernEntryProofs KernProperties KernFormProofs GPModel GPProofs GPMoreProofs GPProperties GPSymProperties
  SensModel SensProperties ErrorProperties GPProductProperties.
Import ListNotations.
Open Scope R_scope.
Set Bullet Behavior "Strict Subproofs".

Definition term (D : nat) (x y : row) (k : kdict) : R :=
  match prepare_kernel k D (default_bound false) with Ok (q, _) => scale_of false q * form D false q x y | Err _ => 0 end.

Lemma added_terms D x y ks p : Forall (fun k => k_mult k = false) ks ->
  Forall2 (fun k q => exists b, prepare_kernel k D (default_bound false) = Ok (q, b)) ks p ->
  forall a, fold_left (combine_forms D false x y) p a = fold_left (fun a k => a + term D x y k) ks a.
Proof.
  intros HM F. induction F as [|k q ks p [b E] F IH]; intros a; [reflexivity|]. inversion HM as [|? ? M1 M2]. cbn [fold_left].
  rewrite (IH M2). f_equal. unfold combine_forms, term. rewrite E. destruct (prepare_kernel_facts _ _ _ _ _ E) as (_ & M & _). rewrite M, M1. reflexivity.
Qed.
Lemma fold_perm (f : kdict -> R) l l' : Permutation l l' -> forall a, fold_left (fun a k => a + f k) l a = fold_left (fun a k => a + f k) l' a.
Proof.
  induction 1 as [|k l l' H IH|k1 k2 l|l l' l'' H1 IH1 H2 IH2]; intros a; cbn [fold_left]; auto.
  - do 1 f_equal. ring.
  - rewrite IH1. apply IH2.
Qed.

Lemma multiplied_terms D x y ks p : Forall (fun k => k_mult k = true) ks ->
  Forall2 (fun k q => exists b, prepare_kernel k D (default_bound false) = Ok (q, b)) ks p ->
  forall a, fold_left (combine_forms D false x y) p a = fold_left (fun a k => a * term D x y k) ks a.
Proof.
  intros HM F. induction F as [|k q ks p [b E] F IH]; intros a; [reflexivity|]. inversion HM as [|? ? M1 M2]. cbn [fold_left].
  rewrite (IH M2). f_equal. unfold combine_forms, term. rewrite E. destruct (prepare_kernel_facts _ _ _ _ _ E) as (_ & M & _). rewrite M, M1. reflexivity.
Qed.
Lemma fold_perm_mult (f : kdict -> R) l l' : Permutation l l' -> forall a, fold_left (fun a k => a * f k) l a = fold_left (fun a k => a * f k) l' a.
Proof.
  induction 1 as [|k l l' H IH|k1 k2 l|l l' l'' H1 IH1 H2 IH2]; intros a; cbn [fold_left]; auto.
  - do 1 f_equal. ring.
  - rewrite IH1. apply IH2.
Qed.

(** Kernels that are added can be listed in any order: predictions, uncertainties and likelihood are the same. *)
Theorem kernel_order_irrelevant : forall inv cho cho_solve D fp tgt ks ks' reg rb s s' test,
  oracles_ok inv cho -> test_ok D test -> Permutation ks ks' -> Forall (fun k => k_mult k = false) ks ->
  inputs_ok D fp ks -> inputs_ok D fp ks' ->
  gp_init inv cho cho_solve fp tgt ks None reg rb false false = Ok s ->
  gp_init inv cho cho_solve fp tgt ks' None reg rb false false = Ok s' ->
  predict s' test = predict s test /\ predict_with_uncertainty s' test = predict_with_uncertainty s test /\
  predict_uncertainty s' test = predict_uncertainty s test /\ g_lml s' = g_lml s.
Proof.
  intros inv cho cho_solve D fp tgt ks ks' reg rb s s' test HO HT HP HM HI HI' E E'.
  destruct (gp_init_prepared _ _ _ _ _ _ _ _ _ _ _ HO HI E) as [p [b EP]].
  destruct (gp_init_prepared _ _ _ _ _ _ _ _ _ _ _ HO HI' E') as [p' [b' EP']].
  assert (Q : predict s' (map (fun x => x) test) = predict s test /\ predict_with_uncertainty s' (map (fun x => x) test) = predict_with_uncertainty s test /\
    predict_uncertainty s' (map (fun x => x) test) = predict_uncertainty s test /\ g_lml s' = g_lml s).
  2: { rewrite map_id in Q. exact Q. }
  rewrite <- (map_id fp) in E', HI'.
  refine (same_models inv cho cho_solve D D fp tgt _ _ p p' b b' reg rb false s s' test (fun x => x) HO HI HI' HT E E' EP EP' (fun x H => H) _).
  intros H1 H2 HN x y Hx Hy. pose proof (prepare_kernels_facts _ _ _ _ _ EP) as P1. pose proof (prepare_kernels_facts _ _ _ _ _ EP') as P2.
  assert (HN' : p' <> []).
  { intros ->. apply HN. inversion P2. subst. apply Permutation_sym, Permutation_nil in HP. subst. inversion P1. reflexivity. }
  rewrite !(kappa_form D) by assumption.
  rewrite (added_terms D x y ks' p'); [|eapply Permutation_Forall; eauto|exact P2]. rewrite (added_terms D x y ks p HM P1). apply fold_perm, Permutation_sym, HP.
Qed.

(** Kernels that a first kernel is multiplied by can be listed in any order. *)
Theorem factor_order_irrelevant : forall inv cho cho_solve D fp tgt k ms ms' reg rb s s' test,
  oracles_ok inv cho -> test_ok D test -> Permutation ms ms' -> Forall (fun k => k_mult k = true) ms ->
  inputs_ok D fp (k :: ms) -> inputs_ok D fp (k :: ms') ->
  gp_init inv cho cho_solve fp tgt (k :: ms) None reg rb false false = Ok s ->
  gp_init inv cho cho_solve fp tgt (k :: ms') None reg rb false false = Ok s' ->
  predict s' test = predict s test /\ predict_with_uncertainty s' test = predict_with_uncertainty s test /\
  predict_uncertainty s' test = predict_uncertainty s test /\ g_lml s' = g_lml s.
Proof.
  intros inv cho cho_solve D fp tgt k ms ms' reg rb s s' test HO HT HP HM HI HI' E E'.
  destruct (gp_init_prepared _ _ _ _ _ _ _ _ _ _ _ HO HI E) as [p [b EP]].
  destruct (gp_init_prepared _ _ _ _ _ _ _ _ _ _ _ HO HI' E') as [p' [b' EP']].
  assert (Q : predict s' (map (fun x => x) test) = predict s test /\ predict_with_uncertainty s' (map (fun x => x) test) = predict_with_uncertainty s test /\
    predict_uncertainty s' (map (fun x => x) test) = predict_uncertainty s test /\ g_lml s' = g_lml s).
  2: { rewrite map_id in Q. exact Q. }
  rewrite <- (map_id fp) in E', HI'.
  refine (same_models inv cho cho_solve D D fp tgt _ _ p p' b b' reg rb false s s' test (fun x => x) HO HI HI' HT E E' EP EP' (fun x H => H) _).
  intros H1 H2 HN x y Hx Hy. pose proof (prepare_kernels_facts _ _ _ _ _ EP) as P1. pose proof (prepare_kernels_facts _ _ _ _ _ EP') as P2.
  inversion P1 as [|? q1 ? p1 [b1 Q1] P1']. inversion P2 as [|? q2 ? p2 [b2 Q2] P2']. revert Hx Hy. subst. intros Hx Hy. assert (QQ : q2 = q1) by congruence. subst q2.
  rewrite !(kappa_form D) by (auto; discriminate). cbn [fold_left].
  rewrite (multiplied_terms D x y ms' p2); [|eapply Permutation_Forall; eauto|exact P2']. rewrite (multiplied_terms D x y ms p1 HM P1'). apply fold_perm_mult, Permutation_sym, HP.
Qed.

(** A kernel of each of two features, in both orders. *)
Example order_case : exists s s',
  gp_init ref_inv ref_cho (fun _ v => v) [[0; 1]; [2; 5]] [3; 5] [gaussian_on false [0%nat] [1]; gaussian_on false [1%nat] [2]] None 1 None false false = Ok s /\
  gp_init ref_inv ref_cho (fun _ v => v) [[0; 1]; [2; 5]] [3; 5] [gaussian_on false [1%nat] [2]; gaussian_on false [0%nat] [1]] None 1 None false false = Ok s' /\
  predict s' [[1; 1]] = predict s [[1; 1]].
Proof.
  destruct oracles_exist as [HO HC]. pose proof HO as [SI SC]. pose proof HC as [CI CC].
  assert (POS : forall x, 0 < x -> Rltb 0 x = true) by (intros x Hx; unfold Rltb; destruct (Rlt_dec 0 x); [reflexivity|contradiction]).
  set (k1 := [gaussian_on false [0%nat] [1]; gaussian_on false [1%nat] [2]]). set (k2 := [gaussian_on false [1%nat] [2]; gaussian_on false [0%nat] [1]]).
  assert (U1 : Forall (usable 2) k1) by (repeat constructor; cbn; auto; try discriminate; intros; repeat constructor; try lia).
  assert (U2 : Forall (usable 2) k2) by (repeat constructor; cbn; auto; try discriminate; intros; repeat constructor; try lia).
  assert (P1 : exists b, prepare_kernels k1 (init_bounds None false) false 2 = Ok (k1, b)).
  { unfold prepare_kernels, k1. cbn -[default_bound Rltb]. rewrite !POS by lra. cbn -[default_bound]. eauto. }
  assert (P2 : exists b, prepare_kernels k2 (init_bounds None false) false 2 = Ok (k2, b)).
  { unfold prepare_kernels, k2. cbn -[default_bound Rltb]. rewrite !POS by lra. cbn -[default_bound]. eauto. }
  assert (S1 : Forall (sensible false) k1) by (repeat constructor; cbn; auto; intros; try discriminate; repeat constructor; try lra).
  assert (S2 : Forall (sensible false) k2) by (repeat constructor; cbn; auto; intros; try discriminate; repeat constructor; try lra).
  assert (G : forall k, Forall (usable 2) k -> k <> [] -> (exists b, prepare_kernels k (init_bounds None false) false 2 = Ok (k, b)) -> Forall (sensible false) k ->
    exists s, gp_init ref_inv ref_cho (fun _ v => v) [[0; 1]; [2; 5]] [3; 5] k None 1 None false false = Ok s).
  { intros k U N [b EP] HS.
    eapply (gp_init_ok ref_inv ref_cho (fun _ v => v) SI); [exact CI|exact CC|exact EP|exact U|exact N|lia|discriminate| |reflexivity|exact HS|cbn; lra].
    repeat constructor. }
  destruct (G k1 U1 ltac:(discriminate) P1 S1) as [s E]. destruct (G k2 U2 ltac:(discriminate) P2 S2) as [s' E'].
  exists s, s'. split; [exact E|]. split; [exact E'|].
  apply (kernel_order_irrelevant ref_inv ref_cho (fun _ v => v) 2 [[0; 1]; [2; 5]] [3; 5] k1 k2 1 None s s' [[1; 1]]); auto.
  - split; [discriminate|repeat constructor].
  - apply perm_swap.
  - repeat constructor.
  - constructor; auto; try discriminate; repeat constructor.
  - constructor; auto; try discriminate; repeat constructor.
Qed.

(** A kernel multiplied by two others, in both orders. *)
Example factor_case : exists s s',
  gp_init ref_inv ref_cho (fun _ v => v) [[0; 1]; [2; 5]] [3; 5] [gaussian_on false [0%nat] [4]; gaussian_on true [0%nat] [1]; gaussian_on true [1%nat] [2]] None 1 None false false = Ok s /\
  gp_init ref_inv ref_cho (fun _ v => v) [[0; 1]; [2; 5]] [3; 5] [gaussian_on false [0%nat] [4]; gaussian_on true [1%nat] [2]; gaussian_on true [0%nat] [1]] None 1 None false false = Ok s' /\
  predict s' [[1; 1]] = predict s [[1; 1]].
Proof.
  destruct oracles_exist as [HO HC]. pose proof HO as [SI SC]. pose proof HC as [CI CC].
  assert (POS : forall x, 0 < x -> Rltb 0 x = true) by (intros x Hx; unfold Rltb; destruct (Rlt_dec 0 x); [reflexivity|contradiction]).
  set (k1 := [gaussian_on false [0%nat] [4]; gaussian_on true [0%nat] [1]; gaussian_on true [1%nat] [2]]). set (k2 := [gaussian_on false [0%nat] [4]; gaussian_on true [1%nat] [2]; gaussian_on true [0%nat] [1]]).
  assert (U1 : Forall (usable 2) k1) by (repeat constructor; cbn; auto; try discriminate; intros; repeat constructor; try lia).
  assert (U2 : Forall (usable 2) k2) by (repeat constructor; cbn; auto; try discriminate; intros; repeat constructor; try lia).
  assert (P1 : exists b, prepare_kernels k1 (init_bounds None false) false 2 = Ok (k1, b)).
  { unfold prepare_kernels, k1. cbn -[default_bound Rltb]. rewrite !POS by lra. cbn -[default_bound]. eauto. }
  assert (P2 : exists b, prepare_kernels k2 (init_bounds None false) false 2 = Ok (k2, b)).
  { unfold prepare_kernels, k2. cbn -[default_bound Rltb]. rewrite !POS by lra. cbn -[default_bound]. eauto. }
  assert (S1 : Forall (sensible false) k1) by (repeat constructor; cbn; auto; intros; try discriminate; repeat constructor; try lra).
  assert (S2 : Forall (sensible false) k2) by (repeat constructor; cbn; auto; intros; try discriminate; repeat constructor; try lra).
  assert (G : forall k, Forall (usable 2) k -> k <> [] -> (exists b, prepare_kernels k (init_bounds None false) false 2 = Ok (k, b)) -> Forall (sensible false) k ->
    exists s, gp_init ref_inv ref_cho (fun _ v => v) [[0; 1]; [2; 5]] [3; 5] k None 1 None false false = Ok s).
  { intros k U N [b EP] HS.
    eapply (gp_init_ok ref_inv ref_cho (fun _ v => v) SI); [exact CI|exact CC|exact EP|exact U|exact N|lia|discriminate| |reflexivity|exact HS|cbn; lra].
    repeat constructor. }
  destruct (G k1 U1 ltac:(discriminate) P1 S1) as [s E]. destruct (G k2 U2 ltac:(discriminate) P2 S2) as [s' E'].
  exists s, s'. split; [exact E|]. split; [exact E'|].
  apply (factor_order_irrelevant ref_inv ref_cho (fun _ v => v) 2 [[0; 1]; [2; 5]] [3; 5] (gaussian_on false [0%nat] [4]) [gaussian_on true [0%nat] [1]; gaussian_on true [1%nat] [2]] [gaussian_on true [1%nat] [2]; gaussian_on true [0%nat] [1]] 1 None s s' [[1; 1]]); auto.
  - split; [discriminate|repeat constructor].
  - apply perm_swap.
  - fold k1. constructor; auto; try discriminate; repeat constructor.
  - fold k2. constructor; auto; try discriminate; repeat constructor.
Qed.

Print Assumptions kernel_order_irrelevant.
Print Assumptions factor_order_irrelevant.
