(** Symmetries of Gaussian process predictions: moving the origin of the feature
    space, rotating it, and reordering its columns (C376 on). *)
From Coq Require Import Reals Lra Lia List Arith Bool Permutation.
From Verif Require Import Base BaseFacts RBase LinAlg LogDet KernModel KernProofs KernSetupProofs KernDefProofs
  KernScaleProofs KernEntryProofs KernFormProofs KernProperties GPModel GPProofs GPMoreProofs GPProperties.
Import ListNotations.
Open Scope R_scope.
Set Bullet Behavior "Strict Subproofs".

(** ** Models whose covariances agree *)
Section Same.
Variables (s s' : gp) (ks ks' : list kdict) (D D' : nat) (phi : row -> row).
Hypothesis T : trained s ks D.
Hypothesis T' : trained s' ks' D'.
Hypothesis Elog : g_log s' = g_log s.
Hypothesis Ereg : g_reg s' = g_reg s.
Hypothesis Escale : g_scale s' = false /\ g_scale s = false.
Hypothesis Efp : g_fp s' = map phi (g_fp s).
Hypothesis Etgt : g_target s' = g_target s.
Hypothesis Hphi : forall x, length x = D -> length (phi x) = D'.
Hypothesis HK : forall x y, length x = D -> length y = D -> kappa ks' (g_log s) (phi x) (phi y) = kappa ks (g_log s) x y.

Let n := length (g_fp s).

Lemma same_length : length (g_fp s') = n.
Proof. rewrite Efp, map_length. reflexivity. Qed.

Lemma same_row i : (i < n)%nat -> row_at (g_fp s') i = phi (row_at (g_fp s) i).
Proof. intros H. unfold row_at. rewrite Efp, (nth_map_lt _ _ _ []) by exact H. reflexivity. Qed.

Lemma train_row i : (i < n)%nat -> length (row_at (g_fp s) i) = D.
Proof. intros H. apply row_at_length; [apply (t_rect _ _ _ T)|exact H]. Qed.

Lemma same_cinv : eqm n (at_ (g_cinv s')) (at_ (g_cinv s)).
Proof.
  eapply inverse_unique; [|exact (t_inv _ _ _ T)].
  pose proof (t_inv _ _ _ T') as V. rewrite same_length, Elog, Ereg in V.
  eapply inverse_ext; [|apply eqm_refl|exact V]. intros i j Hi Hj. rewrite !same_row by auto.
  rewrite HK by (apply train_row; auto). reflexivity.
Qed.

Lemma same_weights i : (i < n)%nat -> weights s' i = weights s i.
Proof.
  intros Hi. unfold weights. rewrite same_length, Etgt. apply mulv_ext; [apply same_cinv|intros ? ?; auto|exact Hi].
Qed.

Lemma same_reduction x : length x = D -> reduction s' ks' (phi x) = reduction s ks x.
Proof.
  intros Hx. unfold reduction. rewrite same_length, Elog. apply quad_ext; [apply same_cinv|].
  intros i Hi. rewrite same_row by auto. apply HK; [auto|apply train_row; auto].
Qed.

Lemma same_scale_test t : scale_test s' t = t /\ scale_test s t = t.
Proof. destruct Escale as [A B]. unfold scale_test. rewrite A, B. auto. Qed.

Lemma phi_rect t : rectangular t D -> rectangular (map phi t) D'.
Proof. intros H. apply Forall_map. eapply Forall_impl; [|exact H]. intros a Ha. auto. Qed.

Lemma phi_row t i : (i < length t)%nat -> row_at (map phi t) i = phi (row_at t i).
Proof. intros H. unfold row_at. rewrite (nth_map_lt _ _ _ []) by exact H. reflexivity. Qed.

Lemma same_answers test : test_ok D test ->
  predict s' (map phi test) = predict s test /\
  predict_with_uncertainty s' (map phi test) = predict_with_uncertainty s test /\
  predict_uncertainty s' (map phi test) = predict_uncertainty s test.
Proof.
  intros [HN HR]. destruct (same_scale_test test) as [_ S2]. destruct (same_scale_test (map phi test)) as [S1 _].
  assert (HN' : map phi test <> []) by (destruct test; [congruence|discriminate]).
  pose proof (phi_rect _ HR) as HR'. destruct Escale as [G1 G2].
  assert (HL : forall i, (i < length test)%nat -> length (row_at test i) = D) by (intros; apply row_at_length; auto).
  assert (FU : forall u, finish_uncertainty s' u = finish_uncertainty s u)
    by (intros; unfold finish_uncertainty; rewrite G1, G2, Ereg; auto).
  split; [|split].
  - rewrite (predict_trained s' ks' D' T') by (rewrite S1; auto). rewrite (predict_trained s ks D T) by (rewrite S2; auto).
    rewrite S1, S2, map_length, same_length, Elog. f_equal. unfold rescale. rewrite G1, G2. apply tabulate_ext. intros i Hi.
    apply Sum_ext. intros j Hj. rewrite phi_row, same_row, same_weights by auto. rewrite HK by (auto using train_row). reflexivity.
  - rewrite (uncertainty_trained s' ks' D' _ T') by (rewrite S1; auto). rewrite (uncertainty_trained s ks D _ T) by (rewrite S2; auto).
    rewrite S1, S2, map_length, FU, Elog. f_equal. f_equal. apply tabulate_ext. intros i Hi.
    rewrite phi_row, same_reduction by auto. rewrite HK by auto. reflexivity.
  - rewrite (predict_uncertainty_trained s' ks' D' _ T') by auto. rewrite (predict_uncertainty_trained s ks D _ T) by auto.
    rewrite map_length, FU, Elog. f_equal. f_equal. apply tabulate_ext. intros i Hi.
    rewrite phi_row, same_reduction by auto. rewrite HK by auto. reflexivity.
Qed.
End Same.

(** The same for models built by gp_init, together with the log marginal likelihood. *)
Lemma same_models inv cho cho_solve D D' fp tgt ks ks2 p1 p2 b1 b2 reg rb sopt s s' test (phi : row -> row) :
  oracles_ok inv cho -> inputs_ok D fp ks -> inputs_ok D' (map phi fp) ks2 -> test_ok D test ->
  gp_init inv cho cho_solve fp tgt ks None reg rb sopt false = Ok s ->
  gp_init inv cho cho_solve (map phi fp) tgt ks2 None reg rb sopt false = Ok s' ->
  prepare_kernels ks (init_bounds rb false) false D = Ok (p1, b1) ->
  prepare_kernels ks2 (init_bounds rb false) false D' = Ok (p2, b2) ->
  (forall x, length x = D -> length (phi x) = D') ->
  (Forall (evaluable D) p1 -> Forall (evaluable D') p2 -> p1 <> [] ->
   forall x y, length x = D -> length y = D -> kappa p2 sopt (phi x) (phi y) = kappa p1 sopt x y) ->
  predict s' (map phi test) = predict s test /\
  predict_with_uncertainty s' (map phi test) = predict_with_uncertainty s test /\
  predict_uncertainty s' (map phi test) = predict_uncertainty s test /\
  g_lml s' = g_lml s.
Proof.
  intros HO HI HI' HT E E' P1 P2 Hphi HK.
  destruct (init_facts _ _ _ HO _ _ _ _ _ _ _ _ _ HI E) as (q & b & EP & T & El & Es & Er & _ & _ & HL & ET & K & L & EK & EL & Elml).
  rewrite P1 in EP. injection EP as <- <-.
  destruct (init_facts _ _ _ HO _ _ _ _ _ _ _ _ _ HI' E') as (q & b & EP2 & T2 & El2 & Es2 & Er2 & _ & _ & _ & ET2 & K2 & L2 & EK2 & EL2 & Elml2).
  rewrite P2 in EP2. injection EP2 as <- <-.
  cbn in ET, ET2. injection ET as _ Ef Et. injection ET2 as _ Ef2 Et2.
  specialize (HK (t_eval _ _ _ T) (t_eval _ _ _ T2) (t_ks _ _ _ T)).
  assert (A1 : g_log s' = g_log s) by congruence. assert (A2 : g_reg s' = g_reg s) by congruence.
  assert (A3 : g_fp s' = map phi (g_fp s)) by congruence. assert (A4 : g_target s' = g_target s) by congruence.
  assert (HK' : forall x y, length x = D -> length y = D -> kappa p2 (g_log s) (phi x) (phi y) = kappa p1 (g_log s) x y) by (rewrite El; exact HK).
  destruct (same_answers s s' p1 p2 D D' phi T T2 A1 A2 (conj Es2 Es) A3 A4 Hphi HK' test HT) as [R1 [R2 R3]].
  split; [exact R1|]. split; [exact R2|]. split; [exact R3|].
  rewrite Elml, Elml2, A4. f_equal.
  pose proof (same_cinv s s' p1 p2 D D' phi T T2 A1 A2 A3 HK') as CI.
  assert (Ln : length (g_fp s) = length tgt) by (rewrite Ef; exact HL). rewrite Ln in CI.
  assert (LogEq : Sum (nr L2) (fun i => ln (at_ L2 i i)) = Sum (nr L) (fun i => ln (at_ L i i))).
  { destruct (o_cho _ _ HO _ _ EL) as [_ [C1 [_ C2]]]. destruct (o_cho _ _ HO _ _ EL2) as [_ [C3 [_ C4]]].
    destruct (covariance_with_reg D p1 sopt (g_fp s) reg (t_eval _ _ _ T) (t_ks _ _ _ T) (t_ne _ _ _ T) (t_rect _ _ _ T)) as [K0 [F1 [F2 [_ F3]]]].
    rewrite EK in F1. injection F1 as <-.
    destruct (covariance_with_reg D' p2 sopt (g_fp s') reg (t_eval _ _ _ T2) (t_ks _ _ _ T2) (t_ne _ _ _ T2) (t_rect _ _ _ T2)) as [K0 [G1 [G2 [_ G3]]]].
    rewrite EK2 in G1. injection G1 as <-.
    assert (Lf : length (g_fp s') = length (g_fp s)) by (rewrite A3, map_length; auto). rewrite Lf in *.
    rewrite C1, C3, F2, G2. rewrite F2 in C2. rewrite G2 in C4.
    apply (cholesky_perm (length (g_fp s)) (seq 0 (length (g_fp s))) (at_ K) (at_ K2)); auto.
    - intros i j Hi Hj. destruct C2 as [_ [_ C2]]. rewrite <- !C2 by auto. apply Sum_ext. intros; ring.
    - intros i j Hi Hj. rewrite G3 by auto. unfold permm. rewrite !seq_nth by auto. cbn [Nat.add]. rewrite F3 by auto.
      rewrite !(same_row s s' phi A3) by auto. rewrite HK; auto; eapply train_row; eauto. }
  rewrite LogEq. f_equal. f_equal. f_equal. apply Sum_ext. intros i Hi. f_equal. apply Sum_ext. intros j Hj.
  rewrite CI by auto. reflexivity.
Qed.

(** What prepare_kernels changes. *)
Lemma prepare_kernel_facts k nd dflt k' b : prepare_kernel k nd dflt = Ok (k', b) ->
  k_type k' = k_type k /\ k_mult k' = k_mult k /\ k_features k' = k_features k /\ k_scaling k' = k_scaling k /\
  k_const k' = k_const k /\ k_degree k' = k_degree k /\
  (let c := match k_dimension k with Some Single => 1%nat | _ => n_used nd k end in
   match k_type k with
   | Some (KGaussian | KLaplacian) => exists w l, k_width k = Some w /\ format_vec w c = Ok l /\ k_width k' = Some (Arr l)
   | Some KQuadratic => exists w l, k_slope k = Some w /\ format_vec w c = Ok l /\ k_slope k' = Some (Arr l)
   | _ => True
   end).
Proof.
  unfold prepare_kernel. destruct (k_type k) as [t|] eqn:Et; [|discriminate]. fold (n_used nd k).
  destruct (require (n_used nd k <=? nd)%nat); [|discriminate]. cbn [bind].
  destruct (require match k_dimension k with Some OtherDim => false | _ => true end); [|discriminate]. cbn [bind].
  set (c := match k_dimension k with Some Single => 1%nat | _ => n_used nd k end).
  destruct (match k_scaling k with Some _ => scaling_setup k dflt | None => Ok [] end) as [sb|]; [|discriminate]. cbn [bind].
  destruct (type_setup t k c dflt) as [[k1 b1]|] eqn:ES; [|discriminate]. cbn [bind fst snd]. intros H. injection H as <- _.
  cbv zeta. destruct t; cbn [type_setup] in ES.
  - destruct (require _); [|discriminate]. cbn [bind] in ES. destruct (k_const k) eqn:Ec; [|discriminate]. injection ES as <- _. rewrite Ec. auto 10.
  - destruct (require _); [|discriminate]. cbn [bind] in ES. injection ES as <- _. auto 10.
  - destruct (require _); [|discriminate]. cbn [bind] in ES. injection ES as <- _. auto 10.
  - destruct (k_width k) as [w|] eqn:Ew; [|discriminate]. destruct (require _); [|discriminate]. cbn [bind] in ES.
    destruct (format_vec w c) as [l|] eqn:Ef; [|discriminate]. cbn [bind] in ES. destruct (require _); [|discriminate]. cbn [bind] in ES.
    injection ES as <- _. repeat (split; [assumption || reflexivity|]). exists w, l. auto.
  - destruct (k_slope k) as [w|] eqn:Ew; [|discriminate]. destruct (k_degree k) as [g|] eqn:Eg; [|discriminate].
    destruct (require _); [|discriminate]. cbn [bind] in ES.
    destruct (format_vec w c) as [l|] eqn:Ef; [|discriminate]. cbn [bind] in ES.
    injection ES as <- _. repeat (split; [assumption || reflexivity|]). exists w, l. auto.
  - destruct (k_width k) as [w|] eqn:Ew; [|discriminate]. destruct (require _); [|discriminate]. cbn [bind] in ES.
    destruct (format_vec w c) as [l|] eqn:Ef; [|discriminate]. cbn [bind] in ES.
    injection ES as <- _. repeat (split; [assumption || reflexivity|]). exists w, l. auto.
  - injection ES as <- _. auto 10.
  - injection ES as <- _. auto 10.
  - discriminate.
Qed.

Lemma prepare_dimension k nd dflt k' b : prepare_kernel k nd dflt = Ok (k', b) -> k_dimension k <> Some OtherDim.
Proof.
  unfold prepare_kernel. destruct (k_type k); [|discriminate]. intros H E. rewrite E in H.
  destruct (require _); discriminate.
Qed.

Lemma prepare_kernels_facts ks rbnd nd p b : prepare_kernels ks rbnd false nd = Ok (p, b) ->
  Forall2 (fun k k' => exists b0, prepare_kernel k nd (default_bound false) = Ok (k', b0)) ks p.
Proof.
  unfold prepare_kernels. destruct (prepare_loop ks nd (default_bound false)) as [[p0 b0]|] eqn:E; [|discriminate].
  cbn [bind fst snd]. intros H. injection H as <- _. revert p0 b0 E. induction ks as [|k ks IH]; intros p0 b0 E; cbn [prepare_loop] in E.
  - injection E as <- _. constructor.
  - destruct (prepare_kernel k nd (default_bound false)) as [[k1 b1]|] eqn:E1; [|discriminate]. cbn [bind] in E.
    destruct (prepare_loop ks nd (default_bound false)) as [[p1 b2]|] eqn:E2; [|discriminate]. cbn [bind fst snd] in E. injection E as <- _.
    constructor; [eauto|]. eapply IH; eauto.
Qed.

(** Related kernels of the user, prepared, are related. *)
Lemma prepared_related (U V : kdict -> kdict -> Prop) D D' rbnd ks ks2 p p2 b b2 :
  Forall2 U ks ks2 -> prepare_kernels ks rbnd false D = Ok (p, b) -> prepare_kernels ks2 rbnd false D' = Ok (p2, b2) ->
  (forall k k2 q q2 b0 b3, U k k2 -> prepare_kernel k D (default_bound false) = Ok (q, b0) ->
     prepare_kernel k2 D' (default_bound false) = Ok (q2, b3) -> V q q2) ->
  Forall2 V p p2.
Proof.
  intros HU E E2 H. apply prepare_kernels_facts in E, E2. revert p p2 E E2.
  induction HU as [|k k2 ks ks2 Hk HU IH]; intros p p2 E E2; inversion E; inversion E2; subst; constructor.
  - match goal with A : exists _, _, B : exists _, _ |- _ => destruct A as [? A]; destruct B as [? B] end. eauto.
  - auto.
Qed.

Lemma gp_init_prepared inv cho cho_solve D fp tgt ks reg rb sopt s :
  oracles_ok inv cho -> inputs_ok D fp ks -> gp_init inv cho cho_solve fp tgt ks None reg rb sopt false = Ok s ->
  exists p b, prepare_kernels ks (init_bounds rb false) false D = Ok (p, b).
Proof. intros HO HI E. destruct (init_facts _ _ _ HO _ _ _ _ _ _ _ _ _ HI E) as (q & b & EP & _). eauto. Qed.

(** ** C376: the origin of the feature space *)

(** Adding the same vector to a row. *)
Definition shifted (c x : row) : row := map (fun p => fst p + snd p) (combine x c).

(** Kernels that compare points by their differences. *)
Definition stationary (k : kdict) : Prop :=
  match k_type k with Some (KConstant | KGaussian | KLaplacian | KQuadratic) => True | _ => False end.

Lemma shifted_length c x : length c = length x -> length (shifted c x) = length x.
Proof. intros H. unfold shifted. rewrite map_length, combine_length. lia. Qed.

Lemma shifted_nth c x i : length c = length x -> nth i (shifted c x) 0 = nth i x 0 + nth i c 0.
Proof.
  intros H. destruct (Nat.lt_ge_cases i (length x)).
  - unfold shifted. rewrite (nth_map_lt _ _ _ (0, 0)) by (rewrite combine_length; lia). rewrite combine_nth by auto. reflexivity.
  - rewrite !nth_overflow; [ring|lia|lia|rewrite shifted_length; lia].
Qed.

Lemma form_shift D lg k c x y : stationary k -> length c = D -> length x = D -> length y = D ->
  form D lg k (shifted c x) (shifted c y) = form D lg k x y.
Proof.
  intros HS Hc Hx Hy.
  assert (E : forall d, nth d (shifted c x) 0 - nth d (shifted c y) 0 = nth d x 0 - nth d y 0).
  { intros d. rewrite !shifted_nth by lia. ring. }
  unfold form. cbv zeta. unfold stationary in HS. destruct (k_type k) as [[]|]; try contradiction; auto.
  - f_equal. f_equal. apply Sum_ext. intros d Hd. rewrite E. reflexivity.
  - f_equal. f_equal. f_equal. apply Sum_ext. intros d Hd. rewrite E. reflexivity.
  - f_equal. f_equal. apply Sum_ext. intros d Hd. rewrite E. reflexivity.
Qed.


Lemma Forall2_diag {A} (P : A -> Prop) l : Forall P l -> Forall2 (fun a b => a = b /\ P a) l l.
Proof. induction 1; constructor; auto. Qed.

Theorem feature_origin_irrelevant : forall inv cho cho_solve D fp tgt ks reg rb sopt s s' test c,
  oracles_ok inv cho -> inputs_ok D fp ks -> test_ok D test -> Forall stationary ks -> length c = D ->
  gp_init inv cho cho_solve fp tgt ks None reg rb sopt false = Ok s ->
  gp_init inv cho cho_solve (map (shifted c) fp) tgt ks None reg rb sopt false = Ok s' ->
  predict s' (map (shifted c) test) = predict s test /\
  predict_with_uncertainty s' (map (shifted c) test) = predict_with_uncertainty s test /\
  predict_uncertainty s' (map (shifted c) test) = predict_uncertainty s test /\
  g_lml s' = g_lml s.
Proof.
  intros inv cho cho_solve D fp tgt ks reg rb sopt s s' test c HO HI HT HS Hc E E'.
  assert (HL : forall x, length x = D -> length (shifted c x) = D) by (intros x Hx; rewrite shifted_length; lia).
  assert (HI' : inputs_ok D (map (shifted c) fp) ks).
  { destruct HI as [iD ifp irect iks ine]. constructor; auto.
    - destruct fp; [congruence|discriminate].
    - apply Forall_map. eapply Forall_impl; [|exact irect]. intros a Ha. apply HL. exact Ha. }
  destruct (gp_init_prepared _ _ _ _ _ _ _ _ _ _ _ HO HI E) as [p [b EP]].
  eapply (same_models inv cho cho_solve D D fp tgt ks ks p p b b); eauto.
  intros H1 H2 HN x y Hx Hy. eapply (kappa_agree D D); eauto.
  eapply prepared_related; [exact (Forall2_diag _ _ HS)|exact EP|exact EP|].
  intros k k2 q q2 b0 b3 [<- Hk] P1 P2. rewrite P1 in P2. injection P2 as <- _.
  destruct (prepare_kernel_facts _ _ _ _ _ P1) as [Ft _]. split; [auto|]. split; [auto|].
  apply form_shift; auto. unfold stationary in *. rewrite Ft. exact Hk.
Qed.

(** ** C377: rotations of the feature space *)

(** A map of the feature space (into one of possibly other dimension) that keeps the
    distances of points. *)
Definition isometry (D D' : nat) (phi : row -> row) : Prop :=
  forall x y, length x = D -> length y = D -> length (phi x) = D' /\
    Sum D' (fun d => (nth d (phi x) 0 - nth d (phi y) 0) ^ 2) = Sum D (fun d => (nth d x 0 - nth d y 0) ^ 2).

(** Kernels of all features with one width for all of them. *)
Definition isotropic (k : kdict) : Prop :=
  k_features k = None /\
  match k_type k with
  | Some KConstant => True
  | Some KGaussian => k_dimension k = Some Single \/ exists w, k_width k = Some (Num w)
  | Some KQuadratic => k_dimension k = Some Single
  | _ => False
  end.

Lemma wnth_repeat a n d : (d < n)%nat -> wnth (repeat a n) d = a.
Proof.
  intros H. destruct n as [|[|n]]; [lia|reflexivity|]. change (wnth (repeat a (S (S n))) d) with (nth d (repeat a (S (S n))) 0).
  apply nth_repeat_lt. auto.
Qed.

Lemma form_isometry D D' lg phi k q q2 b b2 x y : isometry D D' phi -> (1 <= D)%nat -> (1 <= D')%nat -> isotropic k ->
  prepare_kernel k D (default_bound false) = Ok (q, b) -> prepare_kernel k D' (default_bound false) = Ok (q2, b2) ->
  length x = D -> length y = D -> form D' lg q2 (phi x) (phi y) = form D lg q x y.
Proof.
  intros HP HD HD' [HF HK] P1 P2 Hx Hy. destruct (HP x y Hx Hy) as [_ ED].
  apply prepare_kernel_facts in P1, P2.
  destruct P1 as (T1 & _ & F1 & _ & C1 & G1 & W1). destruct P2 as (T2 & _ & F2 & _ & C2 & G2 & W2).
  unfold form, n_used, used in *. rewrite T1, T2, F1, F2, C1, C2, HF. cbv zeta in *. rewrite HF in *.
  destruct (k_type k) as [[]|]; try contradiction; auto.
  - destruct W1 as (w & l & Ew & E1 & Q1). destruct W2 as (w2 & l2 & Ew2 & E2 & Q2). rewrite Ew in Ew2. injection Ew2 as <-.
    assert (exists a, (forall d, (d < D)%nat -> width_of lg q d = a) /\ (forall d, (d < D')%nat -> width_of lg q2 d = a)) as [a [A1 A2]].
    { unfold width_of. rewrite Q1, Q2. destruct HK as [HK|[z HK]].
      - rewrite HK in *. rewrite E1 in E2. injection E2 as <-. exists (logged lg (wnth l 0)).
        assert (length l = 1%nat) by (destruct w; cbn in E1; [injection E1 as <-; auto|destruct (Nat.eqb_spec (length l0) 1); [congruence|discriminate]]).
        destruct l as [|e [|e2 l]]; cbn in *; try lia. auto.
      - rewrite HK in Ew. injection Ew as <-. cbn [format_vec] in E1, E2. injection E1 as <-. injection E2 as <-.
        exists (logged lg z). split; intros d Hd; f_equal; destruct (k_dimension k) as [[]|]; try reflexivity; apply wnth_repeat; auto. }
    f_equal. f_equal.
    transitivity (Sum D' (fun d => (/ a) ^ 2 * (nth d (phi x) 0 - nth d (phi y) 0) ^ 2)).
    { apply Sum_ext. intros d Hd. rewrite A2 by auto. unfold Rdiv. ring. }
    rewrite Sum_scal, ED, <- Sum_scal. apply Sum_ext. intros d Hd. rewrite A1 by auto. unfold Rdiv. ring.
  - destruct W1 as (w & l & Ew & E1 & Q1). destruct W2 as (w2 & l2 & Ew2 & E2 & Q2). rewrite Ew in Ew2. injection Ew2 as <-.
    rewrite HK in *. rewrite E1 in E2. injection E2 as <-.
    unfold quad_of. rewrite Q1, Q2, G1, G2. set (g := match k_degree k with Some (Num d) => nth 1 (l ++ [d]) 0 | _ => 0 end).
    set (a := match k_degree k with Some (Num d) => nth 0 (l ++ [d]) 0 | _ => 0 end).
    f_equal. f_equal. f_equal.
    transitivity (Sum D' (fun d => (/ logged lg a * logged lg g) ^ 2 * (nth d (phi x) 0 - nth d (phi y) 0) ^ 2)).
    { apply Sum_ext. intros d Hd. unfold Rdiv. ring. }
    rewrite Sum_scal, ED, <- Sum_scal. apply Sum_ext. intros d Hd. unfold Rdiv. ring.
Qed.

Theorem rotation_irrelevant : forall inv cho cho_solve D D' fp tgt ks reg rb sopt s s' test phi,
  oracles_ok inv cho -> inputs_ok D fp ks -> inputs_ok D' (map phi fp) ks -> test_ok D test ->
  Forall isotropic ks -> isometry D D' phi ->
  gp_init inv cho cho_solve fp tgt ks None reg rb sopt false = Ok s ->
  gp_init inv cho cho_solve (map phi fp) tgt ks None reg rb sopt false = Ok s' ->
  predict s' (map phi test) = predict s test /\
  predict_with_uncertainty s' (map phi test) = predict_with_uncertainty s test /\
  predict_uncertainty s' (map phi test) = predict_uncertainty s test /\
  g_lml s' = g_lml s.
Proof.
  intros inv cho cho_solve D D' fp tgt ks reg rb sopt s s' test phi HO HI HI' HT HS HP E E'.
  assert (HL : forall x, length x = D -> length (phi x) = D') by (intros x Hx; apply (HP x x Hx Hx)).
  destruct (gp_init_prepared _ _ _ _ _ _ _ _ _ _ _ HO HI E) as [p [b EP]].
  destruct (gp_init_prepared _ _ _ _ _ _ _ _ _ _ _ HO HI' E') as [p2 [b2 EP2]].
  eapply (same_models inv cho cho_solve D D' fp tgt ks ks p p2 b b2); eauto.
  intros H1 H2 HN x y Hx Hy. eapply (kappa_agree D D'); eauto.
  eapply prepared_related; [exact (Forall2_diag _ _ HS)|exact EP|exact EP2|].
  intros k k2 q q2 b0 b3 [<- Hk] P1 P2.
  split; [|split].
  - apply prepare_kernel_facts in P1, P2. destruct P1 as (_ & M1 & _). destruct P2 as (_ & M2 & _). congruence.
  - apply prepare_kernel_facts in P1, P2. destruct P1 as (_ & _ & _ & M1 & _). destruct P2 as (_ & _ & _ & M2 & _).
    unfold scale_of. rewrite M1, M2. reflexivity.
  - eapply form_isometry; eauto; [exact (i_D _ _ _ HI)|exact (i_D _ _ _ HI')].
Qed.

(** ** C378: the order of the features *)

Definition with_features (k : kdict) (f : list nat) : kdict :=
  KD (k_type k) (k_mult k) (Some f) (k_dimension k) (k_scaling k) (k_float k) (k_scaling_bounds k) (k_bounds k)
     (k_width k) (k_const k) (k_slope k) (k_degree k) (k_hyper k) (k_unknown k).

(** The kernel k' for data whose column i is column p[i] of the data k was written
    for: selected features are renamed, one width per feature is reordered. *)
Definition reordered (p : list nat) (k k' : kdict) : Prop :=
  match k_features k with
  | Some f => exists f', map (fun i => nth i p 0%nat) f' = f /\ k' = with_features k f'
  | None => k' = match k_type k, k_dimension k, k_width k with
                 | Some (KGaussian | KLaplacian), (None | Some Features), Some (Arr w) => set_width k (Arr (gather 0 w p))
                 | _, _, _ => k
                 end
  end /\
  match k_type k with
  | Some (KConstant | KGaussian | KLaplacian | KLinear) => True
  | Some KQuadratic => k_dimension k = Some Single
  | _ => False
  end.

Lemma gather_nth0 (x : row) p d : (d < length p)%nat -> nth d (gather 0 x p) 0 = nth (nth d p 0%nat) x 0.
Proof. intros H. unfold gather. rewrite (nth_map_lt _ _ _ 0%nat) by auto. reflexivity. Qed.

Lemma perm_seq_lt p D d : Permutation p (seq 0 D) -> (d < D)%nat -> (nth d p 0 < D)%nat.
Proof.
  intros P H. assert (Lp : length p = D) by (rewrite (Permutation_length P), seq_length; auto).
  assert (I : In (nth d p 0%nat) (seq 0 D)) by (eapply Permutation_in; [exact P|apply nth_In; lia]). apply in_seq in I. lia.
Qed.

Lemma form_reordered D lg p k k' q q2 b b2 x y : Permutation p (seq 0 D) -> reordered p k k' -> in_range D k' -> (1 <= D)%nat ->
  prepare_kernel k D (default_bound false) = Ok (q, b) -> prepare_kernel k' D (default_bound false) = Ok (q2, b2) ->
  length x = D -> length y = D ->
  k_mult q2 = k_mult q /\ scale_of lg q2 = scale_of lg q /\ form D lg q2 (gather 0 x p) (gather 0 y p) = form D lg q x y.
Proof.
  intros P [HR HT] HI HD P1 P2 Hx Hy.
  assert (Lp : length p = D) by (rewrite (Permutation_length P), seq_length; auto).
  pose proof (prepare_dimension _ _ _ _ _ P1) as ND.
  apply prepare_kernel_facts in P1, P2.
  destruct P1 as (T1 & M1 & F1 & S1 & C1 & G1 & W1). destruct P2 as (T2 & M2 & F2 & S2 & C2 & G2 & W2).
  assert (B : k_type k' = k_type k /\ k_mult k' = k_mult k /\ k_scaling k' = k_scaling k /\ k_const k' = k_const k /\
              k_degree k' = k_degree k /\ k_slope k' = k_slope k /\ k_dimension k' = k_dimension k).
  { destruct (k_features k) as [f|].
    - destruct HR as [f' [_ ->]]. cbn. auto 10.
    - rewrite HR. destruct (k_type k) as [[]|] eqn:Et; auto 10; destruct (k_dimension k) as [[]|] eqn:Ed; auto 10;
      destruct (k_width k) as [[]|]; cbn; auto 10. }
  destruct B as (B1 & B2 & B3 & B4 & B5 & B6 & B7).
  split; [congruence|]. split; [unfold scale_of; rewrite S1, S2, B3; reflexivity|].
  (* the columns and widths that are used, up to a permutation of the positions *)
  assert (A : exists sg, n_used D q2 = n_used D q /\ (forall g, Sum (n_used D q) (fun d => g (sg d)) = Sum (n_used D q) g) /\
     (forall z d, length z = D -> (d < n_used D q)%nat -> nth (used q2 d) (gather 0 z p) 0 = nth (used q (sg d)) z 0) /\
     (match k_type k with Some (KGaussian | KLaplacian) => True | _ => False end ->
      forall d, (d < n_used D q)%nat -> width_of lg q2 d = width_of lg q (sg d))).
  { unfold n_used, used. rewrite F1, F2. unfold in_range in HI. destruct (k_features k) as [f|] eqn:EF.
    - destruct HR as [f' [<- ->]]. cbn [with_features k_features] in *. exists (fun d => d).
      split; [rewrite map_length; auto|]. split; [auto|]. rewrite map_length. split.
      + intros z d Hz Hd. rewrite (nth_map_lt _ _ _ 0%nat) by auto. apply gather_nth0.
        rewrite Lp. rewrite Forall_forall in HI. apply HI, nth_In. auto.
      + intros Hk d Hd. unfold width_of. destruct (k_type k) as [[]|] eqn:Et; try contradiction.
        all: cbv zeta in W1, W2; cbn [with_features k_type k_width k_dimension k_features] in W2; unfold n_used in W1, W2; cbn [with_features k_features] in W2.
        all: rewrite Et in W2; rewrite EF in W1; rewrite map_length in W1; destruct W1 as (w & l & Ew & E1 & Q1); destruct W2 as (w2 & l2 & Ew2 & E2 & Q2).
        all: rewrite Q1, Q2; rewrite Ew in Ew2; injection Ew2 as <-; rewrite E1 in E2; injection E2 as <-; reflexivity.
    - assert (F' : k_features k' = None).
      { rewrite HR. destruct (k_type k) as [[]|] eqn:Et; auto; destruct (k_dimension k) as [[]|] eqn:Ed; auto;
        destruct (k_width k) as [[]|]; cbn; auto. }
      rewrite F'. exists (fun d => nth d p 0%nat). split; [auto|]. split; [intros g; apply Sum_perm; auto|]. split.
      + intros z d Hz Hd. apply gather_nth0. lia.
      + intros Hk d Hd. unfold width_of. unfold n_used in W1, W2. rewrite F' in W2. rewrite EF in W1. cbv zeta in W1, W2. rewrite B1 in W2. rewrite B7 in W2.
        pose proof (perm_seq_lt p D d P Hd) as Hp.
        assert (V : exists w l w2 l2, k_width k = Some w /\ k_width k' = Some w2 /\ k_width q = Some (Arr l) /\ k_width q2 = Some (Arr l2) /\
           format_vec w (match k_dimension k with Some Single => 1%nat | _ => D end) = Ok l /\
           format_vec w2 (match k_dimension k with Some Single => 1%nat | _ => D end) = Ok l2 /\
           (match k_dimension k with Some Single => w2 = w | Some OtherDim => w2 = w | _ => match w with Arr a => w2 = Arr (gather 0 a p) | _ => w2 = w end end)).
        { destruct (k_type k) as [[]|] eqn:Et; try contradiction.
          all: destruct W1 as (w & l & Ew & E1 & Q1); destruct W2 as (w2 & l2 & Ew2 & E2 & Q2).
          all: exists w, l, w2, l2; split; [auto|]; split; [auto|]; split; [auto|]; split; [auto|]; split; [auto|]; split; [auto|].
          all: rewrite Ew in HR; destruct (k_dimension k) as [[]|]; try (rewrite HR in Ew2; congruence).
          all: destruct w; rewrite HR in Ew2; cbn in Ew2; congruence. }
        destruct V as (w & l & w2 & l2 & _ & _ & Q1 & Q2 & E1 & E2 & EW). rewrite Q1, Q2. f_equal.
        assert (One : forall (a b0 : list R), length a = 1%nat -> b0 = a -> wnth b0 d = wnth a (nth d p 0%nat)).
        { intros a b0 L1 ->. destruct a as [|e [|]]; cbn in L1; try lia. reflexivity. }
        assert (Sm : forall a, wnth (repeat a D) d = wnth (repeat a D) (nth d p 0%nat)) by (intros a; rewrite !wnth_repeat; auto).
        assert (LV : forall v n0 r, format_vec v n0 = Ok r -> length r = n0).
        { intros [v|v] n0 r H; cbn in H; [injection H as <-; apply repeat_length|]. destruct (Nat.eqb_spec (length v) n0); [congruence|discriminate]. }
        assert (Ar : w2 = match w with Arr a => Arr (gather 0 a p) | _ => w end -> format_vec w D = Ok l -> format_vec w2 D = Ok l2 ->
                     wnth l2 d = wnth l (nth d p 0%nat)).
        { intros -> Y1 Y2. destruct w as [a|a]; cbn [format_vec] in Y1, Y2.
          - injection Y1 as <-. injection Y2 as <-. apply Sm.
          - destruct (Nat.eqb_spec (length a) D) as [La|]; [|discriminate]. injection Y1 as <-.
            destruct (Nat.eqb_spec (length (gather 0 a p)) D) as [Lg|]; [|discriminate]. injection Y2 as <-.
            assert (wn : forall r i, (i < length r)%nat -> wnth r i = nth i r 0)
              by (intros [|e [|e2 r]] i Hi; cbn in *; auto; destruct i; [auto|lia]).
            rewrite !wn by lia. apply gather_nth0. lia. }
        destruct (k_dimension k) as [[]|].
        * apply One; [exact (LV _ _ _ E1)|]. subst w2. congruence.
        * apply Ar; auto. destruct w; exact EW.
        * congruence.
        * apply Ar; auto. destruct w; exact EW. }
  destruct A as (sg & N & HSum & HN & HW).
  unfold form. cbv zeta. rewrite T1, T2, B1, N, C1, C2, B4.
  destruct (k_type k) as [[]|] eqn:Et; try contradiction; auto.
  - rewrite <- (HSum (fun d => ((nth (used q d) x 0 - nth (used q d) y 0) / width_of lg q d) ^ 2)).
    f_equal. f_equal. apply Sum_ext. intros d Hd. rewrite !HN, HW by auto. reflexivity.
  - assert (Q : forall i, quad_of q2 i = quad_of q i).
    { intros i. unfold quad_of. rewrite G1, G2, B5. cbv zeta in W1, W2. rewrite B1 in W2. rewrite B7, HT in W2. rewrite HT in W1.
      destruct W1 as (w & l & Ew & E1 & Q1). destruct W2 as (w2 & l2 & Ew2 & E2 & Q2). rewrite Q1, Q2.
      rewrite B6, Ew in Ew2. injection Ew2 as <-. rewrite E1 in E2. injection E2 as <-. reflexivity. }
    rewrite !Q. rewrite <- (HSum (fun d => ((nth (used q d) x 0 - nth (used q d) y 0) / logged lg (quad_of q 0) * logged lg (quad_of q 1)) ^ 2)).
    f_equal. f_equal. f_equal. apply Sum_ext. intros d Hd. rewrite !HN by auto. reflexivity.
  - rewrite <- (HSum (fun d => Rabs ((nth (used q d) x 0 - nth (used q d) y 0) / width_of lg q d))).
    f_equal. f_equal. apply Sum_ext. intros d Hd. rewrite !HN, HW by auto. reflexivity.
  - rewrite <- (HSum (fun d => nth (used q d) x 0 * nth (used q d) y 0)).
    apply Sum_ext. intros d Hd. rewrite !HN by auto. reflexivity.
Qed.

Theorem feature_order_irrelevant : forall inv cho cho_solve D fp tgt ks ks2 reg rb sopt s s' test p,
  oracles_ok inv cho -> inputs_ok D fp ks -> inputs_ok D (map (fun x => gather 0 x p) fp) ks2 -> test_ok D test ->
  Permutation p (seq 0 D) -> Forall2 (reordered p) ks ks2 ->
  gp_init inv cho cho_solve fp tgt ks None reg rb sopt false = Ok s ->
  gp_init inv cho cho_solve (map (fun x => gather 0 x p) fp) tgt ks2 None reg rb sopt false = Ok s' ->
  predict s' (map (fun x => gather 0 x p) test) = predict s test /\
  predict_with_uncertainty s' (map (fun x => gather 0 x p) test) = predict_with_uncertainty s test /\
  predict_uncertainty s' (map (fun x => gather 0 x p) test) = predict_uncertainty s test /\
  g_lml s' = g_lml s.
Proof.
  intros inv cho cho_solve D fp tgt ks ks2 reg rb sopt s s' test p HO HI HI' HT HP HR E E'.
  assert (Lp : length p = D) by (rewrite (Permutation_length HP), seq_length; auto).
  assert (HL : forall x : row, length x = D -> length (gather 0 x p) = D) by (intros x Hx; rewrite gather_length; auto).
  destruct (gp_init_prepared _ _ _ _ _ _ _ _ _ _ _ HO HI E) as [q [b EP]].
  destruct (gp_init_prepared _ _ _ _ _ _ _ _ _ _ _ HO HI' E') as [q2 [b2 EP2]].
  eapply (same_models inv cho cho_solve D D fp tgt ks ks2 q q2 b b2 reg rb sopt s s' test (fun x => gather 0 x p)); eauto.
  intros H1 H2 HN x y Hx Hy. eapply (kappa_agree D D); eauto.
  assert (HR' : Forall2 (fun k k2 => reordered p k k2 /\ in_range D k2) ks ks2).
  { pose proof (i_ks _ _ _ HI') as U. clear - HR U. induction HR as [|k k2 ks ks2 Hk HR IH]; constructor.
    - split; [exact Hk|]. inversion U; subst. apply (w_range _ _ (u_wf _ _ H1)).
    - apply IH. inversion U; auto. }
  eapply prepared_related; [exact HR'|exact EP|exact EP2|].
  intros k k2 r r2 b0 b3 [Hk Hr] P1 P2. eapply form_reordered; eauto. exact (i_D _ _ _ HI).
Qed.

(** ** C379: every covariance is the formula of its kernels *)

(** [form] (KernFormProofs) writes the five kernels as functions of two points; each is
    multiplied by its scaling and added to, or multiplied into, what the kernels before
    it gave. *)
Theorem covariance_formula : forall D ks lg m1 m2,
  Forall (evaluable D) ks -> ks <> [] -> m1 <> [] -> Forall (fun r => length r = D) m1 ->
  opt (fun m => Forall (fun r => length r = D) m /\ m <> []) m2 ->
  exists C, get_covariance ks lg m1 m2 None false = Ok C /\
    nr C = length m1 /\ nc C = length (match m2 with Some m => m | None => m1 end) /\
    forall i j, (i < nr C)%nat -> (j < nc C)%nat ->
      let x := nth i m1 [] in
      let y := nth j (match m2 with Some m => m | None => m1 end) [] in
      at_ C i j = fold_left (fun acc k =>
        let v := scale_of lg k * form D lg k x y in if k_mult k then acc * v else acc + v) ks 0.
Proof.
  intros D ks lg m1 m2 HE HK HN HR HR2. destruct (covariance_kappa D ks lg m1 m2 HE HK HN HR HR2) as [C [EC [N1 [N2 HC]]]].
  exists C. split; [exact EC|]. split; [exact N1|]. split; [destruct m2; exact N2|]. intros i j Hi Hj. cbv zeta.
  rewrite HC by lia. unfold row_at. replace (cols_of m1 m2) with (match m2 with Some m => m | None => m1 end) in * by (destruct m2; auto).
  rewrite (kappa_form D); auto.
  - apply (row_at_length m1 D i); auto. lia.
  - apply (row_at_length (match m2 with Some m => m | None => m1 end) D j); [destruct m2; [apply HR2|auto]|lia].
Qed.

(** exp(-1/2 (3/2)^2) * 3 for a gaussian times a constant. *)
Example covariance_formula_example :
  form 1 false (gaussian [2]) [0] [3] = exp (- / 2 * (3 / 2) ^ 2) /\ form 1 false (constant 3) [0] [3] = 3.
Proof.
  split; [|reflexivity]. unfold form, n_used, used, width_of. cbn. f_equal. lra.
Qed.

(** ** Concrete cases *)

(** Three points in the plane: moved, turned by a quarter and with the axes exchanged. *)
Definition iso_gaussian (w : R) : kdict :=
  KD (Some KGaussian) false None (Some Single) None true None None (Some (Num w)) None None None None false.

Example symmetry_example :
  let fp := [[0; 1]; [2; 3]; [5; 4]] in
  inputs_ok 2 fp [gaussian [1; 2]; constant 3] /\ Forall stationary [gaussian [1; 2]; constant 3] /\
  map (shifted [10; 20]) fp = [[10; 21]; [12; 23]; [15; 24]] /\
  inputs_ok 2 fp [iso_gaussian 2] /\ Forall isotropic [iso_gaussian 2] /\
  isometry 2 2 (fun x => [- nth 1 x 0; nth 0 x 0]) /\ isometry 2 3 (fun x => x ++ [7]) /\
  Permutation [1%nat; 0%nat] (seq 0 2) /\
  Forall2 (reordered [1%nat; 0%nat]) [gaussian [1; 2]; with_features (laplacian [3]) [0%nat]] [gaussian [2; 1]; with_features (laplacian [3]) [1%nat]] /\
  inputs_ok 2 (map (fun x => gather 0 x [1%nat; 0%nat]) fp) [gaussian [2; 1]; with_features (laplacian [3]) [1%nat]] /\
  map (fun x => gather 0 x [1%nat; 0%nat]) fp = [[1; 0]; [3; 2]; [4; 5]].
Proof.
  cbv zeta. split; [|split; [|split; [|split; [|split; [|split; [|split; [|split; [|split; [|split]]]]]]]]].
  - constructor; try discriminate; auto; repeat constructor; cbn; auto. all: try (intros; discriminate).
  - repeat constructor.
  - unfold shifted. cbn. repeat (f_equal; try lra).
  - constructor; try discriminate; auto; repeat constructor; cbn; auto. all: try (intros; discriminate).
  - repeat constructor.
  - intros [|a [|b [|]]] [|c [|d [|]]]; cbn [length]; try discriminate. intros _ _. split; [reflexivity|]. cbn. ring.
  - intros [|a [|b [|]]] [|c [|d [|]]]; cbn [length]; try discriminate. intros _ _. split; [reflexivity|]. cbn. ring.
  - apply perm_swap.
  - repeat constructor. exists [1%nat]. split; reflexivity.
  - constructor; try discriminate; auto; repeat constructor; cbn; auto. all: try (intros; discriminate).
  - reflexivity.
Qed.

Print Assumptions feature_origin_irrelevant.
Print Assumptions rotation_irrelevant.
Print Assumptions feature_order_irrelevant.
Print Assumptions covariance_formula.
