(** Feature columns that no kernel uses (catlearn/regression/gaussian_process.py, gpfunctions/covariance.py 36-46). *)
From Coq Require Import Reals Lra Lia List Arith Bool.
From Verif Require Import Base BaseFacts RBase LinAlg KernModel KernProofs KernSetupProofs KernDefProofs
  KernScaleProofs KernEntryProofs KernProperties KernFormProofs GPModel GPProofs GPMoreProofs GPProperties GPSymProperties
  SensModel SensProperties ErrorProperties.
Import ListNotations.
Open Scope R_scope.
Set Bullet Behavior "Strict Subproofs".

(** A kernel that reads no columns but the given ones: a constant, or one with a list of features among them. *)
Definition reads_only (columns : list nat) (k : kdict) : Prop :=
  k_type k = Some KConstant \/ exists f, k_features k = Some f /\ incl f columns.

Lemma form_unused D D' lg columns phi k q q2 b b2 x y : reads_only columns k ->
  prepare_kernel k D (default_bound false) = Ok (q, b) -> prepare_kernel k D' (default_bound false) = Ok (q2, b2) ->
  (forall j, In j columns -> nth j (phi x) 0 = nth j x 0 /\ nth j (phi y) 0 = nth j y 0) ->
  k_mult q2 = k_mult q /\ scale_of lg q2 = scale_of lg q /\ form D' lg q2 (phi x) (phi y) = form D lg q x y.
Proof.
  intros HR P1 P2 HC. destruct (prepare_kernel_facts _ _ _ _ _ P1) as (T1 & M1 & F1 & S1 & C1 & G1 & W1).
  destruct (prepare_kernel_facts _ _ _ _ _ P2) as (T2 & M2 & F2 & S2 & C2 & G2 & W2).
  split; [congruence|]. split; [unfold scale_of; rewrite S1, S2; reflexivity|].
  destruct HR as [HT|(f & Hf & Hi)].
  { unfold form. rewrite T1, T2, HT, C1, C2. reflexivity. }
  assert (N1 : n_used D k = length f) by (unfold n_used; rewrite Hf; reflexivity).
  assert (N2 : n_used D' k = length f) by (unfold n_used; rewrite Hf; reflexivity).
  assert (U : forall d, (d < length f)%nat -> nth (nth d f 0%nat) (phi x) 0 = nth (nth d f 0%nat) x 0 /\ nth (nth d f 0%nat) (phi y) 0 = nth (nth d f 0%nat) y 0).
  { intros d Hd. apply HC, Hi, nth_In, Hd. }
  unfold form. cbv zeta. unfold n_used, used. rewrite F1, F2, Hf, T1, T2. rewrite N1 in W1. rewrite N2 in W2. cbv zeta in W1, W2.
  destruct (k_type k) as [[]|] eqn:ET; auto.
  all: try (destruct W1 as (w1 & l1 & A1 & B1 & D1); destruct W2 as (w2 & l2 & A2 & B2 & D2); rewrite A1 in A2; injection A2 as <-; rewrite B1 in B2; injection B2 as <-).
  all: try (rewrite C1, C2; reflexivity).
  all: try (apply Sum_ext; intros d Hd; destruct (U d Hd) as [-> ->]; reflexivity).
  all: try (unfold quad_of; rewrite D1, D2, G1, G2; do 3 f_equal; apply Sum_ext; intros d Hd; destruct (U d Hd) as [-> ->]; reflexivity).
  all: do 2 f_equal; apply Sum_ext; intros d Hd; destruct (U d Hd) as [-> ->]; unfold width_of; rewrite D1, D2; reflexivity.
Qed.

(** Overwriting, adding or removing feature columns that no kernel reads changes no prediction, uncertainty or likelihood. *)
Theorem unused_features_irrelevant : forall inv cho cho_solve D D' columns fp tgt ks reg rb sopt s s' test phi,
  oracles_ok inv cho -> inputs_ok D fp ks -> inputs_ok D' (map phi fp) ks -> test_ok D test ->
  Forall (reads_only columns) ks ->
  (forall x, length x = D -> length (phi x) = D' /\ forall j, In j columns -> nth j (phi x) 0 = nth j x 0) ->
  gp_init inv cho cho_solve fp tgt ks None reg rb sopt false = Ok s ->
  gp_init inv cho cho_solve (map phi fp) tgt ks None reg rb sopt false = Ok s' ->
  predict s' (map phi test) = predict s test /\
  predict_with_uncertainty s' (map phi test) = predict_with_uncertainty s test /\
  predict_uncertainty s' (map phi test) = predict_uncertainty s test /\
  g_lml s' = g_lml s.
Proof.
  intros inv cho cho_solve D D' columns fp tgt ks reg rb sopt s s' test phi HO HI HI' HT HR HP E E'.
  destruct (gp_init_prepared _ _ _ _ _ _ _ _ _ _ _ HO HI E) as [p [b EP]].
  destruct (gp_init_prepared _ _ _ _ _ _ _ _ _ _ _ HO HI' E') as [p' [b' EP']].
  eapply (same_models inv cho cho_solve D D' fp tgt ks ks p p' b b'); eauto.
  - intros x Hx. apply HP, Hx.
  - intros H1 H2 HN x y Hx Hy. destruct (HP x Hx) as [Lx Cx]. destruct (HP y Hy) as [Ly Cy]. eapply (kappa_agree D D'); eauto.
    eapply prepared_related; [exact (Forall2_diag _ _ HR)|exact EP|exact EP'|].
    intros k k2 q q2 b0 b3 [<- Hk] P1 P2. eapply form_unused; eauto.
Qed.

Definition second_feature (w : R) : kdict := KD (Some KGaussian) false (Some [1%nat]) None None true None None (Some (Arr [w])) None None None None false.

(** A kernel of the second of two features: the first is replaced and a third one appended. *)
Example unused_case : exists s s',
  let phi := fun x : row => [7; nth 1 x 0; nth 0 x 0 * 3] in
  gp_init ref_inv ref_cho (fun _ v => v) [[0; 1]; [2; 5]] [3; 5] [second_feature 1] None 1 None false false = Ok s /\
  gp_init ref_inv ref_cho (fun _ v => v) (map phi [[0; 1]; [2; 5]]) [3; 5] [second_feature 1] None 1 None false false = Ok s' /\
  predict s' (map phi [[4; 4]]) = predict s [[4; 4]].
Proof.
  destruct oracles_exist as [HO HC]. pose proof HO as [SI SC]. pose proof HC as [CI CC].
  set (phi := fun x : row => [7; nth 1 x 0; nth 0 x 0 * 3]).
  assert (HU : forall D, (2 <= D)%nat -> Forall (usable D) [second_feature 1]).
  { intros D HD. repeat constructor; cbn; auto; try discriminate; intros; repeat constructor; try lia. }
  assert (PK : forall D, (2 <= D)%nat -> exists b, prepare_kernels [second_feature 1] (init_bounds None false) false D = Ok ([second_feature 1], b)).
  { intros D HD. unfold prepare_kernels. cbn -[default_bound Nat.leb]. replace (1 <=? D)%nat with true by (symmetry; apply Nat.leb_le; lia).
    unfold require. cbn -[default_bound]. replace (Rltb 0 1) with true by (unfold Rltb; destruct (Rlt_dec 0 1); [reflexivity|lra]). cbn -[default_bound]. eauto. }
  assert (HS : Forall (sensible false) [second_feature 1]).
  { repeat constructor; cbn; auto; intros; try discriminate; repeat constructor; try lra. }
  assert (G : forall D fp, (2 <= D)%nat -> length fp = 2%nat -> rectangular fp D ->
    exists s, gp_init ref_inv ref_cho (fun _ v => v) fp [3; 5] [second_feature 1] None 1 None false false = Ok s).
  { intros D fp HD L2 HR. destruct (PK D HD) as [b EP].
    eapply (gp_init_ok ref_inv ref_cho (fun _ v => v) SI); [exact CI|exact CC|exact EP|apply HU, HD|discriminate|lia| |exact HR| |exact HS|cbn; lra].
    - destruct fp; discriminate.
    - exact L2. }
  destruct (G 2%nat [[0; 1]; [2; 5]]) as [s E]; [lia|reflexivity|repeat constructor|].
  destruct (G 3%nat (map phi [[0; 1]; [2; 5]])) as [s' E']; [lia|reflexivity|repeat constructor|].
  exists s, s'. cbv zeta. fold phi. split; [exact E|]. split; [exact E'|].
  apply (unused_features_irrelevant ref_inv ref_cho (fun _ v => v) 2 3 [1%nat] [[0; 1]; [2; 5]] [3; 5] [second_feature 1] 1 None false s s' [[4; 4]] phi); auto.
  - constructor; try discriminate; [lia|repeat constructor|apply HU; lia].
  - constructor; try discriminate; [lia|repeat constructor|apply HU; lia].
  - split; [discriminate|repeat constructor].
  - constructor; [|constructor]. right. exists [1%nat]. split; [reflexivity|apply incl_refl].
  - intros x Hx. split; [reflexivity|]. intros j [<-|[]]. reflexivity.
Qed.

Print Assumptions unused_features_irrelevant.
