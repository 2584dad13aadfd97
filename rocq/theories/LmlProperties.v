(** Properties of the jacobian of the log marginal likelihood (C47, C119-C121). *)
From Coq Require Import Reals Lra Lia List Arith Bool.
From Coquelicot Require Import Coquelicot.
From Verif Require Import Base BaseFacts RBase LinAlg LogDet KernModel KernProofs KernSetupProofs KernDefProofs KernScaleProofs
  KernEntryProofs KernProperties GradSpec GradProofs GradKernProofs GPModel GPProofs GPMoreProofs MatDeriv LmlModel LmlProofs
  LmlGradProofs.
From Coq Require Import List.
Import ListNotations.
Open Scope R_scope.

(** ** Specification vocabulary *)

(** Factorization and solution by the Cholesky factor do what they promise. *)
Definition solvers_ok (cho : matrix -> result matrix) (cho_solve : matrix -> list R -> list R) : Prop :=
  sound_cho cho /\ complete_cho cho /\ sound_solve cho_solve.

(** The training matrix: at least one row, all of D columns. *)
Definition data_ok (D : nat) (m : list row) : Prop := m <> [] /\ rectangular m D.

(** The hyperparameters of a list of kernels: for each kernel its scaling if it has
    one, then its constant or its widths ([total] of them); the noise is the last one. *)
Definition theta_ok (ks : list kdict) (theta : list R) : Prop :=
  length theta = S (total ks) /\ Forall (fun x => 0 < x) theta.

(** The negative log marginal likelihood, as a number. *)
Definition likelihood cho cho_solve m y ks log_scale theta : R :=
  match neg_lml cho cho_solve theta m y ks log_scale false None with Ok r => fst r | Err _ => 0 end.

(** One entry of the training covariance, as a number. *)
Definition cov_entry (m : list row) (ks : list kdict) (i j : nat) (theta : list R) : R :=
  match bind (list2kdict theta ks) (fun ks' => get_covariance ks' false m None (Some (last theta 0)) false) with
  | Ok K => at_ K i j
  | Err _ => 0
  end.

(** ** What holds *)

(** For sums of gaussian and linear kernels, constants without scaling and laplacian
    kernels with scaling, on all columns and with positive hyperparameters, the
    jacobian exists and consists of the partial derivatives of the likelihood, except
    for the last entry, the noise: there the derivative is 2 * noise times the entry. *)
Theorem likelihood_gradient cho cho_solve D ks m y theta : solvers_ok cho cho_solve -> data_ok D m -> length y = length m ->
  Forall (jac_ok D) ks -> ks <> [] -> theta_ok ks theta ->
  exists v jac, neg_lml_jac cho cho_solve theta m y ks false false = Ok (v, jac) /\
    v = likelihood cho cho_solve m y ks false theta /\ length jac = length theta /\
    (forall l, (l < total ks)%nat -> partial (likelihood cho cho_solve m y ks false) l theta (nth l jac 0)) /\
    partial (likelihood cho cho_solve m y ks false) (total ks) theta (2 * last theta 0 * last jac 0).
Proof.
  intros [H1 [H2 H3]] [HN HR] HY HJ HK [HL HP].
  destruct (jacobian_ok cho cho_solve H1 H2 H3 D ks m y HJ HK HN HR HY theta HL HP) as (jac & E & L & V1 & V2).
  exists (nlml cho cho_solve ks m y theta), jac. split; [auto|]. split; [auto|]. split; [auto|]. split.
  - intros l Hl. apply is_derive_Reals. apply V1. auto.
  - rewrite (last_nth jac (total ks)) by lia. apply is_derive_Reals. apply V2.
Qed.
Print Assumptions likelihood_gradient.

(** The value is the textbook formula: y' K^-1 y / 2 + log det K / 2 + n log(2 pi) / 2. *)
Theorem likelihood_formula cho cho_solve D ks m y theta : solvers_ok cho cho_solve -> data_ok D m -> length y = length m ->
  Forall (jac_ok D) ks -> ks <> [] -> theta_ok ks theta ->
  exists B, inverse (length m) (fun i j => cov_entry m ks i j theta) B /\
    likelihood cho cho_solve m y ks false theta =
      / 2 * Sum (length m) (fun i => Sum (length m) (fun j => nth i y 0 * B i j * nth j y 0))
      + / 2 * glogdet (length m) (fun i j => cov_entry m ks i j theta) + INR (length m) * ln (2 * PI) / 2.
Proof.
  intros [H1 [H2 H3]] [HN HR] HY HJ HK [HL HP].
  destruct (covariance_value D ks m theta HJ HK HN HR HL HP) as (K & E1 & E2 & N1 & N2 & EQ & PD).
  set (A := fun i j => cov_entry m ks i j theta).
  assert (EA : forall i j, A i j = at_ K i j) by (intros; unfold A, cov_entry; rewrite E1; cbn [bind]; rewrite E2; auto).
  assert (SY := covf_symm D ks m theta (length m)).
  assert (SK : symm (length m) (at_ K)) by (intros i j Hi Hj; rewrite !EQ by auto; apply SY; auto).
  assert (PK : posdef (length m) (at_ K)). { intros x Hx. rewrite (quad_ext _ _ _ x x EQ); auto. intros ? ?; auto. }
  assert (INV := ginv_inverse _ _ SK PK).
  exists (ginv (length m) (at_ K)). split.
  - apply (inverse_ext _ (at_ K) A (ginv (length m) (at_ K)) (ginv (length m) (at_ K))); auto; intros i j ? ?; auto.
  - destruct (H2 K) as [L EL]; [lia|rewrite N1; auto|rewrite N1; auto|]. destruct (H1 K L EL) as [_ [L1 [L2 CH]]]. rewrite N1 in *.
    unfold likelihood, neg_lml. rewrite E1. cbn [bind]. rewrite E2. cbn [bind]. rewrite EL. cbn [bind]. rewrite L1, HY, Nat.eqb_refl. cbn [bind].
    destruct (H3 _ _ _ _ CH L1 L2 HY) as [Lx Ex]. rewrite Lx, Nat.eqb_refl. cbn [negb fst].
    assert (CA : cholesky (length m) A (at_ L)) by (apply (cholesky_ext _ (at_ K)); auto; intros i j ? ?; symmetry; apply EA).
    assert (SA : symm (length m) A) by (intros i j Hi Hj; rewrite !EA; auto).
    assert (PA : posdef (length m) A). { intros x Hx. rewrite (quad_ext _ A (at_ K) x x); auto; intros i ?; auto. }
    rewrite (cholesky_glogdet _ A (at_ L) SA PA CA).
    pose proof (solve_ginv _ _ _ _ SK PK Ex) as Q.
    replace (Sum (length m) (fun i => nth i y 0 * nth i (cho_solve L y) 0)) with
      (Sum (length m) (fun i => Sum (length m) (fun j => nth i y 0 * ginv (length m) (at_ K) i j * nth j y 0))); [field|].
    apply Sum_ext. intros i Hi. specialize (Q i Hi). cbv beta in Q. rewrite Q. unfold mulv. rewrite <- Sum_scal. apply Sum_ext. intros; ring.
Qed.
Print Assumptions likelihood_formula.

(** The same on the level of the covariance: one matrix per hyperparameter, the
    derivatives of all entries. *)
Theorem covariance_derivatives D ks m theta : data_ok D m -> Forall (jac_ok D) ks -> ks <> [] -> theta_ok ks theta ->
  exists ks' js, list2kdict theta ks = Ok ks' /\ dK_dtheta_j theta m ks' = Ok js /\ length js = length theta /\
    forall l i j, (l < total ks)%nat -> (i < length m)%nat -> (j < length m)%nat ->
      partial (cov_entry m ks i j) l theta (at_ (nth l js M0) i j).
Proof.
  intros [HN HR] HJ HK [HL HP].
  destruct (dK_spec D ks m (tabulate (length m) (fun _ => 0)) HJ HN HR (tabulate_length _ _) theta HL HP) as (js & E & L & _ & V & _).
  destruct (covariance_value D ks m theta HJ HK HN HR HL HP) as (_ & E1 & _).
  exists (puts theta 0 ks), js. split; [auto|]. split; [auto|]. split; [lia|]. intros l i j Hl Hi Hj.
  apply is_derive_Reals. apply (derive_near (fun u => covf D ks m (set_coord l u theta) i j)); [|apply (V l Hl i j Hi Hj)].
  apply (filter_imp (fun u => 0 < u)).
  - intros u Hu. unfold cov_entry.
    destruct (covariance_value D ks m (set_coord l u theta) HJ HK HN HR) as (K & F1 & F2 & _ & _ & EQ & _).
    + rewrite set_coord_length; lia.
    + rewrite Forall_forall. intros x Hx. apply In_nth with (d := 0) in Hx. destruct Hx as [e [He <-]].
      rewrite set_coord_length in He by lia. rewrite nth_set_coord by lia. destruct (Nat.eqb_spec e l); auto. apply Forall_nth_pos; auto.
    + rewrite F1. cbn [bind]. rewrite F2. symmetry. apply EQ; auto.
  - apply (near_pos (fun u => u) _ 1); [apply (is_derive_id (nth l theta 0))|]. apply Forall_nth_pos; auto. lia.
Qed.
Print Assumptions covariance_derivatives.

(** ** What does not hold *)

Lemma partial_at_most_one f d x u v : partial f d x u -> partial f d x v -> u = v.
Proof. apply uniqueness_limite. Qed.

(** Whenever the noise is not exactly 1/2, its entry is wrong unless it is zero. *)
Theorem noise_gradient_wrong cho cho_solve D ks m y theta v jac : solvers_ok cho cho_solve -> data_ok D m -> length y = length m ->
  Forall (jac_ok D) ks -> ks <> [] -> theta_ok ks theta ->
  neg_lml_jac cho cho_solve theta m y ks false false = Ok (v, jac) -> last theta 0 <> / 2 -> last jac 0 <> 0 ->
  ~ partial (likelihood cho cho_solve m y ks false) (total ks) theta (last jac 0).
Proof.
  intros HO HD HY HJ HK HT E H1 H2 HP.
  destruct (likelihood_gradient cho cho_solve D ks m y theta HO HD HY HJ HK HT) as (v' & jac' & E' & _ & _ & _ & V).
  rewrite E in E'. injection E' as <- <-. pose proof (partial_at_most_one _ _ _ _ _ HP V) as Q. apply H1. nra.
Qed.
Print Assumptions noise_gradient_wrong.

(** A reference implementation of the solution. *)
Definition ref_solve (L : matrix) (y : list R) : list R :=
  let n := nr L in
  tabulate n (mulv n (ginv n (fun i j => Sum n (fun k => at_ L i k * at_ L j k))) (fun i => nth i y 0)).

Lemma cholesky_posdef n M L : cholesky n M L -> symm n M /\ posdef n M.
Proof.
  intros [C1 [C2 C3]].
  assert (SY : symm n M) by (intros i j Hi Hj; rewrite <- !C3 by auto; apply Sum_ext; intros; ring).
  split; auto. intros x [i [Hi Hx]].
  set (z := fun k => Sum n (fun i => L i k * x i)).
  assert (Q : quad n M x = Sum n (fun k => z k * z k)).
  { unfold quad. rewrite (Sum_ext n _ (fun i => Sum n (fun k => x i * L i k * z k))).
    - rewrite Sum_swap. apply Sum_ext. intros k Hk. unfold z at 2. rewrite <- Sum_scal_r. apply Sum_ext. intros; ring.
    - intros a Ha. rewrite (Sum_ext n _ (fun j => Sum n (fun k => x a * L a k * (L j k * x j)))).
      + rewrite Sum_swap. apply Sum_ext. intros k Hk. rewrite Sum_scal. auto.
      + intros b Hb. rewrite <- (C3 a b) by auto. rewrite <- Sum_scal, <- Sum_scal_r. apply Sum_ext. intros; ring. }
  rewrite Q. destruct (Rle_lt_or_eq_dec 0 (Sum n (fun k => z k * z k))) as [P|P]; auto; [apply Sum_nonneg; intros; nra|].
  exfalso. symmetry in P. assert (Z : forall k, (k < n)%nat -> z k = 0).
  { intros k Hk. pose proof (Sum_pos_zero n (fun k => z k * z k) ltac:(intros; nra) P k Hk) as R0. cbv beta in R0. nra. }
  (* back substitution *)
  assert (W : forall d k, (k < n)%nat -> (n - k <= d)%nat -> x k = 0).
  { induction d as [|d IH]; intros k Hk Hd; [lia|]. specialize (Z k Hk). unfold z in Z.
    assert (E : Sum n (fun i => L i k * x i) = L k k * x k).
    { rewrite (Sum_ext n _ (fun i => (if (k =? i)%nat then 1 else 0) * (L i k * x i))).
      - rewrite Sum_delta by auto. auto.
      - intros a Ha. destruct (Nat.eqb_spec k a) as [->|N]; [ring|]. destruct (Nat.lt_ge_cases a k).
        + rewrite (C1 a k) by auto. ring.
        + rewrite (IH a) by lia. ring. }
    rewrite E in Z. specialize (C2 k Hk). apply Rmult_integral in Z. destruct Z; auto. lra. }
  apply Hx. apply (W n); auto. lia.
Qed.

Lemma ref_solvers : solvers_ok ref_cho ref_solve.
Proof.
  split; [apply ref_cho_sound|]. split; [apply ref_cho_complete|]. intros n0 M L y HC N1 N2 HY.
  unfold ref_solve. rewrite N1, tabulate_length. split; auto.
  destruct (cholesky_posdef _ _ _ HC) as [S1 P1].
  set (A := fun i j => Sum n0 (fun k => at_ L i k * at_ L j k)).
  assert (EQ : eqm n0 A M) by (destruct HC as [_ [_ C3]]; intros i j Hi Hj; apply C3; auto).
  assert (SA : symm n0 A) by (intros i j Hi Hj; rewrite !EQ by auto; auto).
  assert (PA : posdef n0 A). { intros x Hx. rewrite (quad_ext _ _ M x x EQ); auto. intros ? ?; auto. }
  intros i Hi. rewrite <- (mulv_inverse n0 A (ginv n0 A) (fun i => nth i y 0) (ginv_inverse _ _ SA PA) i Hi).
  apply mulv_ext; auto.
  - intros a b Ha Hb. symmetry. apply EQ; auto.
  - intros a Ha. rewrite nth_tabulate by auto. auto.
Qed.

Definition scaled (s : R) (k : kdict) : kdict := set_scaling k s.

(** One data point at 0 with target 0: all likelihoods are ln(K)/2 + ln(2 pi)/2. *)
Lemma one_point cho cho_solve ks log_scale theta ks' K : solvers_ok cho cho_solve ->
  list2kdict theta ks = Ok ks' -> get_covariance ks' log_scale [[0]] None (Some (last theta 0)) false = Ok K ->
  nr K = 1%nat -> nc K = 1%nat -> 0 < at_ K 0 0 ->
  neg_lml cho cho_solve theta [[0]] [0] ks log_scale false None = Ok (/ 2 * ln (at_ K 0 0) + 1 * ln (2 * PI) / 2, ks') /\
  forall js, dK_dtheta_j theta [[0]] ks' = Ok js -> Forall (square 1) js ->
    exists v, neg_lml_jac cho cho_solve theta [[0]] [0] ks log_scale false = Ok (v, map (fun M => / 2 * at_ M 0 0 / at_ K 0 0) js).
Proof.
  intros [H1 [H2 H3]] E1 E2 N1 N2 HP.
  destruct (H2 K) as [L EL]; [lia| | |].
  { rewrite N1. intros i j Hi Hj. replace i with 0%nat by lia. replace j with 0%nat by lia. auto. }
  { rewrite N1. intros x [i [Hi Hx]]. replace i with 0%nat in Hx by lia. unfold quad. cbn [Sum].
    assert (0 < x 0%nat * x 0%nat) by nra. nra. }
  destruct (H1 K L EL) as [_ [L1 [L2 CH]]]. rewrite N1 in *.
  pose proof CH as [C1 [C2 C3]]. specialize (C2 0%nat ltac:(lia)). pose proof (C3 0%nat 0%nat ltac:(lia) ltac:(lia)) as C4. cbn in C4.
  assert (LN : ln (at_ L 0 0) = / 2 * ln (at_ K 0 0)).
  { rewrite <- C4. rewrite Rplus_0_l. rewrite ln_mult by auto. field. }
  destruct (H3 1%nat (at_ K) L [0] CH L1 L2 eq_refl) as [Lx Ex].
  destruct (H3 1%nat (at_ K) L (unit_vec 1 0) CH L1 L2 eq_refl) as [Lu Eu].
  specialize (Ex 0%nat ltac:(lia)). specialize (Eu 0%nat ltac:(lia)). unfold mulv, unit_vec in *. cbn in Ex, Eu.
  assert (X0 : nth 0 (cho_solve L [0]) 0 = 0).
  { assert (H : at_ K 0 0 * nth 0 (cho_solve L [0]) 0 = 0) by (rewrite <- (Rplus_0_l (at_ K 0 0 * _)); exact Ex). apply Rmult_integral in H. destruct H; [lra|auto]. }
  assert (U0 : nth 0 (cho_solve L (unit_vec 1 0)) 0 = / at_ K 0 0).
  { apply (Rmult_eq_reg_l (at_ K 0 0)); [|lra]. rewrite Rinv_r by lra. rewrite <- (Rplus_0_l (at_ K 0 0 * _)). exact Eu. }
  split.
  - unfold neg_lml. rewrite E1. cbn [bind]. rewrite E2. cbn [bind]. rewrite EL. cbn [bind]. rewrite L1. cbn [length Nat.eqb bind].
    rewrite Lx. cbn [Nat.eqb negb Sum INR]. rewrite X0, LN. do 2 f_equal. cbn [nth]. field.
  - intros js EJ SJ. unfold neg_lml_jac. rewrite E1. cbn [bind]. rewrite E2. cbn [bind]. rewrite EL. cbn [bind]. rewrite L1. cbn [length Nat.eqb negb].
    rewrite EJ. cbn [bind].
    assert (FB : forallb (fun M => (nr M =? 1)%nat && (nc M =? 1)%nat) js = true).
    { apply forallb_forall. intros M HM. rewrite Forall_forall in SJ. destruct (SJ M HM) as [-> ->]. auto. }
    rewrite FB. cbn [negb Sum]. rewrite X0, U0. eexists. do 2 f_equal. apply map_ext. intros M. field. lra.
Qed.

(** Derivative of ln(K)/2 + constant. *)
Lemma half_log (K : R -> R) t c : 0 < K t -> (exists d, is_derive K t d) ->
  forall d, is_derive K t d -> derivable_pt_lim (fun u => / 2 * ln (K u) + c) t (/ 2 * d / K t).
Proof.
  intros HP _ d Hd. apply is_derive_Reals.
  assert (Q : is_derive (fun u => ln (K u)) t (d * / K t)).
  { evar_last; [apply (is_derive_comp ln K t (/ K t) d); [apply is_derive_Reals; apply derivable_pt_lim_ln; auto|exact Hd]|]. reflexivity. }
  pose proof (d_plus _ _ t _ _ (d_scal (/ 2) _ t _ Q) (d_const c t)) as Q2. cbv beta in Q2.
  eapply d_val; [exact Q2|]. unfold Rdiv. ring.
Qed.

(** The noise entry is the derivative with respect to the square of the noise. *)
Theorem noise_gradient_refuted cho cho_solve : solvers_ok cho cho_solve -> exists v jac,
  neg_lml_jac cho cho_solve [1; 1] [[0]] [0] [constant 1] false false = Ok (v, jac) /\
  ~ partial (likelihood cho cho_solve [[0]] [0] [constant 1] false) 1 [1; 1] (nth 1 jac 0).
Proof.
  intros HO.
  edestruct (one_point cho cho_solve [constant 1] false [1; 1]) as [_ Q]; [auto|reflexivity|reflexivity|reflexivity|reflexivity|cbn; unfold ident; cbn; lra|].
  destruct (Q _ eq_refl) as [v E]; [cbn; repeat constructor|]. exists v. eexists. split; [exact E|].
  intros P. apply (noise_gradient_wrong cho cho_solve 1 [constant 1] [[0]] [0] [1; 1] _ _ HO) in E; auto.
  - split; [discriminate|repeat constructor].
  - repeat constructor; cbn; auto; intros; lra.
  - discriminate.
  - split; [reflexivity|]. repeat constructor; lra.
  - cbn. lra.
  - cbn. unfold ident. cbn. match goal with |- ?e <> 0 => replace e with (/ 4) by field end. lra.
Qed.
Print Assumptions noise_gradient_refuted.

(** A constant kernel with scaling: the factor is forgotten in the derivative with
    respect to the constant. *)
Theorem scaled_constant_gradient_refuted cho cho_solve : solvers_ok cho cho_solve -> exists v jac,
  neg_lml_jac cho cho_solve [2; 1; 1] [[0]] [0] [scaled 2 (constant 1)] false false = Ok (v, jac) /\
  ~ partial (likelihood cho cho_solve [[0]] [0] [scaled 2 (constant 1)] false) 1 [2; 1; 1] (nth 1 jac 0).
Proof.
  intros HO.
  assert (G : forall c, exists K, get_covariance [scaled 2 (constant c)] false [[0]] None (Some 1) false = Ok K /\ nr K = 1%nat /\ nc K = 1%nat /\
    at_ K 0 0 = 2 * c + 1).
  { intros c. eexists. split; [reflexivity|]. cbn. split; auto. split; auto. unfold ident, logged. cbn. ring. }
  assert (Lk : forall c, 0 < c -> likelihood cho cho_solve [[0]] [0] [scaled 2 (constant 1)] false [2; c; 1] = / 2 * ln (2 * c + 1) + 1 * ln (2 * PI) / 2).
  { intros c Hc. destruct (G c) as (K & EK & N1 & N2 & AK).
    destruct (one_point cho cho_solve [scaled 2 (constant 1)] false [2; c; 1] [scaled 2 (constant c)] K HO eq_refl EK N1 N2) as [Q _]; [rewrite AK; lra|].
    unfold likelihood. rewrite Q. cbn [fst]. rewrite AK. auto. }
  destruct (G 1) as (K & EK & N1 & N2 & AK).
  destruct (one_point cho cho_solve [scaled 2 (constant 1)] false [2; 1; 1] [scaled 2 (constant 1)] K HO eq_refl EK N1 N2) as [_ Q]; [rewrite AK; lra|].
  destruct (Q _ eq_refl) as [v E]; [cbn; repeat constructor|]. exists v. eexists. split; [exact E|]. cbn [map nth at_]. rewrite AK. intros P.
  unfold partial in P. cbn [nth set_coord firstn skipn app] in P.
  assert (P2 : derivable_pt_lim (fun u => likelihood cho cho_solve [[0]] [0] [scaled 2 (constant 1)] false [2; u; 1]) 1 (/ 2 * 2 / (2 * 1 + 1))).
  { apply is_derive_Reals. apply (derive_near (fun u => / 2 * ln (2 * u + 1) + 1 * ln (2 * PI) / 2)).
    - apply (filter_imp (fun u => 0 < u)); [intros u Hu; symmetry; apply Lk; auto|]. apply (near_pos (fun u => u) 1 1); [apply (is_derive_id 1)|lra].
    - apply is_derive_Reals. apply (half_log (fun u => 2 * u + 1)); [lra| |]; [exists 2|]; auto_derive; auto; ring. }
  pose proof (uniqueness_limite _ _ _ _ P P2) as U. cbn [map nth app scaled_by at_] in U. lra.
Qed.
Print Assumptions scaled_constant_gradient_refuted.

(** With hyperparameters in log space (the scale_optimizer switch) the derivatives are
    those with respect to the exponentials. *)
Theorem log_space_gradient_refuted cho cho_solve : solvers_ok cho cho_solve -> exists v jac,
  neg_lml_jac cho cho_solve [1; 0] [[0]] [0] [constant 1] true false = Ok (v, jac) /\
  ~ partial (likelihood cho cho_solve [[0]] [0] [constant 1] true) 0 [1; 0] (nth 0 jac 0).
Proof.
  intros HO.
  assert (G : forall c, exists K, get_covariance [constant c] true [[0]] None (Some 0) false = Ok K /\ nr K = 1%nat /\ nc K = 1%nat /\
    at_ K 0 0 = exp 1 * exp c + 1).
  { intros c. eexists. split; [reflexivity|]. cbn. split; auto. split; auto. unfold ident, logged. cbn. rewrite exp_0. ring. }
  assert (PK : forall c, 0 < exp 1 * exp c + 1) by (intros c; pose proof (exp_pos 1); pose proof (exp_pos c); nra).
  assert (Lk : forall c, likelihood cho cho_solve [[0]] [0] [constant 1] true [c; 0] = / 2 * ln (exp 1 * exp c + 1) + 1 * ln (2 * PI) / 2).
  { intros c. destruct (G c) as (K & EK & N1 & N2 & AK).
    destruct (one_point cho cho_solve [constant 1] true [c; 0] [constant c] K HO eq_refl EK N1 N2) as [Q _]; [rewrite AK; auto|].
    unfold likelihood. rewrite Q. cbn [fst]. rewrite AK. auto. }
  destruct (G 1) as (K & EK & N1 & N2 & AK).
  destruct (one_point cho cho_solve [constant 1] true [1; 0] [constant 1] K HO eq_refl EK N1 N2) as [_ Q]; [rewrite AK; auto|].
  destruct (Q _ eq_refl) as [v E]; [cbn; repeat constructor|]. exists v. eexists. split; [exact E|]. cbn [map nth at_]. rewrite AK. intros P.
  unfold partial in P. cbn [nth set_coord firstn skipn app] in P.
  assert (P2 : derivable_pt_lim (fun u => likelihood cho cho_solve [[0]] [0] [constant 1] true [u; 0]) 1 (/ 2 * (exp 1 * exp 1) / (exp 1 * exp 1 + 1))).
  { apply is_derive_Reals. apply (derive_near (fun u => / 2 * ln (exp 1 * exp u + 1) + 1 * ln (2 * PI) / 2)).
    - apply filter_forall. intros u. symmetry. apply Lk.
    - apply is_derive_Reals. apply (half_log (fun u => exp 1 * exp u + 1)); [auto| |]; [exists (exp 1 * exp 1)|]; auto_derive; auto; ring. }
  pose proof (uniqueness_limite _ _ _ _ P P2) as U. cbn [map nth app at_] in U. specialize (PK 1).
  assert (X : exp 1 * exp 1 = 1).
  { assert (/ 2 * 1 / (exp 1 * exp 1 + 1) * (exp 1 * exp 1 + 1) = / 2 * (exp 1 * exp 1) / (exp 1 * exp 1 + 1) * (exp 1 * exp 1 + 1)) by (rewrite U; auto).
    unfold Rdiv in H. rewrite !Rmult_assoc in H. rewrite Rinv_l in H by lra. lra. }
  pose proof (exp_ineq1 1). nra.
Qed.
Print Assumptions log_space_gradient_refuted.

(** A laplacian kernel without scaling: the kernel matrix is never computed.  Alone it
    raises an error, whatever the data... *)
Theorem laplacian_gradient_unbound cho cho_solve theta m y w ks log_scale grad : solvers_ok cho cho_solve ->
  forall r, neg_lml_jac cho cho_solve theta m y (laplacian w :: ks) log_scale grad <> Ok r.
Proof.
  intros HO r H. unfold neg_lml_jac in H.
  destruct (list2kdict theta (laplacian w :: ks)) as [ks'|] eqn:E; [|discriminate]. cbn [bind] in H.
  destruct (get_covariance ks' log_scale m None (Some (last theta 0)) grad) as [K|]; [|discriminate]. cbn [bind] in H.
  destruct (cho K) as [L|]; [|discriminate]. cbn [bind] in H. destruct (negb (nr L =? length y)%nat); [discriminate|].
  unfold list2kdict in E. cbn [list2kdict_from] in E. cbn in E. destruct (list2kdict_from _ _ ks) as [t|]; [|discriminate]. injection E as <-.
  cbn in H. discriminate.
Qed.
Print Assumptions laplacian_gradient_unbound.

(** ... and after another kernel it multiplies with the matrix of that kernel. *)
Theorem laplacian_gradient_stale_refuted : exists ks' js,
  list2kdict [1; 1; 1] [gaussian [1]; laplacian [1]] = Ok ks' /\ dK_dtheta_j [1; 1; 1] [[0]; [1]] ks' = Ok js /\
  ~ partial (cov_entry [[0]; [1]] [gaussian [1]; laplacian [1]] 0 1) 1 [1; 1; 1] (at_ (nth 1 js M0) 0 1).
Proof.
  eexists. eexists. split; [reflexivity|]. split; [reflexivity|]. intros P.
  set (F := cov_entry _ _ _ _) in P.
  assert (HF : forall u, F [1; u; 1] = exp (- / 2) + exp (- Rabs (- / u))).
  { intros u. unfold F, cov_entry. cbn. unfold ident, gaussian_fn, laplacian_fn, logged, sqeuclidean, cityblock_dist. cbn.
    match goal with |- context [exp (- / 2 * ?e)] => replace (- / 2 * e) with (- / 2) by field end.
    match goal with |- context [Rabs ?e] => replace e with (- / u) by (unfold Rdiv; ring) end.
    rewrite Rplus_0_r. ring. }
  unfold partial in P. cbn [nth set_coord firstn skipn app] in P.
  assert (P2 : derivable_pt_lim (fun u => F [1; u; 1]) 1 (exp (- 1))).
  { apply is_derive_Reals. apply (derive_near (fun u => exp (- / 2) + exp (- / u))).
    - apply (filter_imp (fun u => 0 < u)).
      + intros u Hu. rewrite HF. rewrite Rabs_Ropp, Rabs_right; auto. apply Rle_ge. left. apply Rinv_0_lt_compat. auto.
      + apply (near_pos (fun u => u) 1 1); [apply (is_derive_id 1)|lra].
    - auto_derive; [lra|]. replace (- / 1) with (- 1) by field. field. }
  pose proof (uniqueness_limite _ _ _ _ P P2) as U. clear P P2 HF. cbn in U.
  unfold gaussian_fn, logged, sqeuclidean, cityblock_dist in U. cbn in U.
  match type of U with ?a * exp ?e = _ => replace a with 1 in U; [replace e with (- / 2) in U by field|] end.
  - rewrite Rmult_1_l in U. apply exp_inv in U. lra.
  - match goal with |- context [Rabs ?e] => replace e with (- (1)) by field end. rewrite Rabs_Ropp, Rabs_R1. ring.
Qed.
Print Assumptions laplacian_gradient_stale_refuted.

(** A kernel that is restricted to some columns: the derivative uses all columns. *)
Definition first_column : kdict :=
  KD (Some KGaussian) false (Some [0%nat]) None None true None None (Some (Arr [1])) None None None None false.

Theorem features_gradient_refuted : exists ks' js,
  list2kdict [1; 1] [first_column] = Ok ks' /\ dK_dtheta_j [1; 1] [[0; 0]; [0; 1]] ks' = Ok js /\
  ~ partial (cov_entry [[0; 0]; [0; 1]] [first_column] 0 1) 0 [1; 1] (at_ (nth 0 js M0) 0 1).
Proof.
  eexists. eexists. split; [reflexivity|]. split; [reflexivity|]. intros P.
  set (F := cov_entry _ _ _ _) in P.
  assert (HF : forall u, F [u; 1] = 1).
  { intros u. unfold F, cov_entry. cbn. unfold ident, gaussian_fn, logged, sqeuclidean. cbn.
    match goal with |- context [exp ?e] => replace e with 0 by (unfold Rdiv; ring) end. rewrite exp_0. ring. }
  unfold partial in P. cbn [nth set_coord firstn skipn app] in P.
  assert (P2 : derivable_pt_lim (fun u => F [u; 1]) 1 0).
  { apply is_derive_Reals. apply (is_derive_ext (fun _ => 1)); [intros; rewrite HF; auto|]. apply d_const. }
  pose proof (uniqueness_limite _ _ _ _ P P2) as U. clear P P2 HF. cbn in U.
  unfold gaussian_fn in U. match type of U with ?a * exp ?e = _ => pose proof (exp_pos e); replace a with 1 in U by field end. lra.
Qed.
Print Assumptions features_gradient_refuted.

(** Product kernels are refused; so are targets that include gradients. *)
Theorem product_jacobian_refused cho cho_solve theta m y ks log_scale grad : existsb k_mult ks = true ->
  forall r, neg_lml_jac cho cho_solve theta m y ks log_scale grad <> Ok r.
Proof.
  intros HM r H. unfold neg_lml_jac in H.
  destruct (list2kdict theta ks) as [ks'|] eqn:E; [|discriminate]. cbn [bind] in H.
  assert (HM' : existsb k_mult ks' = true).
  { clear H. unfold list2kdict in E. revert ks' E HM. generalize 0%nat. induction ks as [|k ks IH]; intros q ks' E HM; [discriminate|].
    cbn [list2kdict_from] in E. destruct (list2kdict_step theta q k) as [[k' q']|] eqn:E1; [|discriminate]. cbn [bind fst snd] in E.
    destruct (list2kdict_from theta q' ks) as [t|] eqn:E2; [|discriminate]. injection E as <-. cbn [existsb] in *.
    assert (k_mult k' = k_mult k).
    { clear - E1. unfold list2kdict_step in E1. destruct (k_type k) as [t|]; [|discriminate].
      destruct (k_scaling k); [destruct (item theta q); [|discriminate]|]; cbn [bind] in E1;
      destruct t; cbn in E1; repeat match type of E1 with
        | bind ?x _ = _ => destruct x; cbn [bind] in E1; [|discriminate]
        end; injection E1 as <- _; auto. }
    rewrite H. destruct (k_mult k); auto. cbn in *. eapply IH; eauto. }
  destruct (get_covariance ks' log_scale m None (Some (last theta 0)) grad) as [K|]; [|discriminate]. cbn [bind] in H.
  destruct (cho K) as [L|]; [|discriminate]. cbn [bind] in H. destruct (negb (nr L =? length y)%nat); [discriminate|].
  assert (N : forall l, dk_loop theta m ks' 0 None <> Ok l).
  { clear - HM'. revert HM'. generalize 0%nat, (@None matrix). induction ks' as [|k ks IH]; intros q o HM l H; [discriminate|].
    cbn [dk_loop existsb] in *. destruct (dk_step theta m k q o) as [[[o' q'] js]|] eqn:E; [|discriminate]. cbn [bind] in H.
    destruct (k_mult k) eqn:Ek.
    - unfold dk_step in E. destruct (k_type k); [|discriminate]. rewrite Ek in E. discriminate.
    - destruct (dk_loop theta m ks q' o') as [rest|] eqn:E2; [|discriminate]. eapply IH; eauto. }
  unfold dK_dtheta_j in H. destruct (dk_loop theta m ks' 0 None) as [l|] eqn:E2; [|discriminate]. apply (N l). auto.
Qed.
Print Assumptions product_jacobian_refused.

Theorem gradient_data_jacobian_refused cho cho_solve theta m y ks log_scale grad : length y <> length m ->
  forall r, neg_lml_jac cho cho_solve theta m y ks log_scale grad <> Ok r.
Proof.
  intros HL r H. unfold neg_lml_jac in H.
  destruct (list2kdict theta ks) as [ks'|]; [|discriminate]. cbn [bind] in H.
  destruct (get_covariance ks' log_scale m None (Some (last theta 0)) grad) as [K|]; [|discriminate]. cbn [bind] in H.
  destruct (cho K) as [L|]; [|discriminate]. cbn [bind] in H. destruct (negb (nr L =? length y)%nat); [discriminate|].
  unfold dK_dtheta_j in H. destruct (dk_loop theta m ks' 0 None) as [l|]; [|discriminate]. cbn [bind] in H.
  rewrite forallb_app in H. cbn [forallb nr nc] in H. replace (length m =? length y)%nat with false in H.
  - cbn in H. rewrite andb_false_r in H. discriminate.
  - symmetry. apply Nat.eqb_neq. auto.
Qed.
Print Assumptions gradient_data_jacobian_refused.

(** A concrete case of the hypotheses: two points in two dimensions, a gaussian kernel with
    scaling and two widths, a scaled laplacian kernel with one width, a linear kernel and a constant. *)
Example jacobian_example :
  let ks := [scaled 1 (gaussian [1; 2]); scaled 2 (laplacian [3]); bare KLinear; constant 1] in
  let theta := [1; 1; 2; 2; 3; 1; / 10] in
  solvers_ok ref_cho ref_solve /\ data_ok 2 [[0; 1]; [2; 3]] /\ Forall (jac_ok 2) ks /\ theta_ok ks theta.
Proof.
  cbv zeta. split; [apply ref_solvers|]. split; [split; [discriminate|repeat constructor]|]. split.
  - repeat apply Forall_cons; [| | | |constructor];
    (split; [split; [cbn; auto|cbn; auto; try (split; [auto|split; [auto|eexists; split; [reflexivity|cbn; auto]]])]|]);
    (split; [constructor; cbn; intros; auto; try lra; repeat constructor; lra|]); cbn; auto; repeat split; auto; discriminate.
  - split; [reflexivity|]. repeat constructor; lra.
Qed.
