(** The acquisition functions are what their names say: probability and expectation of an
    improvement under the normal distribution of the prediction. *)
From Coq Require Import Reals Lra Lia List Psatz.
From Coquelicot Require Import Coquelicot.
From Verif Require Import Base AcqModel AcqProofs.
Import ListNotations.
Open Scope R_scope.
Set Bullet Behavior "Strict Subproofs".

(** ** Specification *)
(** Density at [v] of the normal distribution with mean [p] and standard deviation [u]. *)
Definition normal_density (p u v : R) : R := exp (- (v - p) ^ 2 / (2 * u ^ 2)) / (u * sqrt (2 * PI)).
(** Integral of [f] over all values above (below) [y]. *)
Definition integral_above (f : R -> R) (y e : R) : Prop := is_lim (fun b => RInt f y b) p_infty e.
Definition integral_below (f : R -> R) (y e : R) : Prop := is_lim (fun b => RInt f b y) m_infty e.

(** ** The Gaussian integral *)
Definition gauss (t : R) : R := exp (- t ^ 2 / 2).
Definition gG (x : R) : R := (RInt gauss 0 x) ^ 2.
Definition gh (x t : R) : R := 2 * exp (- (x ^ 2 * (1 + t ^ 2)) / 2) / (1 + t ^ 2).
Definition gH (x : R) : R := RInt (gh x) 0 1.

Lemma gauss_continuous t : continuous gauss t.
Proof. apply (@ex_derive_continuous _ _ gauss). unfold gauss. auto_derive. auto. Qed.
Lemma gauss_ex a b : ex_RInt gauss a b.
Proof. apply (@ex_RInt_continuous R_CompleteNormedModule). intros; apply gauss_continuous. Qed.

Lemma one_sq t : 1 + t ^ 2 <> 0. Proof. nra. Qed.

Lemma gh_continuous x t : continuous (gh x) t.
Proof. apply (@ex_derive_continuous _ _ (gh x)). unfold gh. auto_derive. pose proof (one_sq t). cbn [pow] in H. auto. Qed.
Lemma gh_ex x a b : ex_RInt (gh x) a b.
Proof. apply (@ex_RInt_continuous R_CompleteNormedModule). intros; apply gh_continuous. Qed.

Lemma gh_derive (x t : R) : is_derive (fun x : R => gh x t) x (- 2 * x * exp (- (x ^ 2 * (1 + t ^ 2)) / 2)).
Proof.
  unfold gh. auto_derive; [auto|]. pose proof (one_sq t) as H.
  replace (- (x * (x * 1) * (1 + t * (t * 1))) * / 2) with (- (x ^ 2 * (1 + t ^ 2)) / 2) by (cbn [pow]; unfold Rdiv; ring).
  field. nra.
Qed.

Lemma gG_derive x : is_derive gG x (2 * gauss x * RInt gauss 0 x).
Proof.
  unfold gG. replace (2 * gauss x * RInt gauss 0 x) with (INR 2 * gauss x * (RInt gauss 0 x) ^ pred 2) by (cbn; ring).
  apply is_derive_pow. apply (is_derive_RInt gauss (fun x => RInt gauss 0 x) 0 x); [|apply gauss_continuous].
  apply filter_forall. intros b. apply (@RInt_correct R_CompleteNormedModule). apply gauss_ex.
Qed.

Lemma gH_derive x : is_derive gH x (- (2 * gauss x * RInt gauss 0 x)).
Proof.
  unfold gH.
  replace (- (2 * gauss x * RInt gauss 0 x)) with (RInt (fun t => Derive (fun u => gh u t) x) 0 1).
  - apply is_derive_RInt_param.
    + apply filter_forall. intros y t _. eexists. apply gh_derive.
    + intros t _. apply (continuity_2d_pt_ext (fun u v => - 2 * u * exp (- (u ^ 2 * (1 + v ^ 2)) / 2))).
      { intros u v. symmetry. apply is_derive_unique. apply gh_derive. }
      apply continuity_2d_pt_mult.
      { apply continuity_2d_pt_mult; [apply continuity_2d_pt_const|apply continuity_2d_pt_id1]. }
      apply (continuity_1d_2d_pt_comp exp (fun u v => - (u ^ 2 * (1 + v ^ 2)) / 2)).
      { apply derivable_continuous_pt. apply derivable_pt_exp. }
      apply (continuity_2d_pt_ext (fun u v => (- / 2) * ((u * u) * (1 + v * v)))); [intros; field|].
      apply continuity_2d_pt_mult; [apply continuity_2d_pt_const|]. apply continuity_2d_pt_mult.
      * apply continuity_2d_pt_mult; apply continuity_2d_pt_id1.
      * apply continuity_2d_pt_plus; [apply continuity_2d_pt_const|]. apply continuity_2d_pt_mult; apply continuity_2d_pt_id2.
    + apply filter_forall. intros y. apply gh_ex.
  - apply is_RInt_unique. apply (is_RInt_ext (fun t => scal (- (2 * gauss x)) (scal x (gauss (x * t + 0))))).
    + intros t _. replace (Derive (fun u : R => gh u t) x) with (- 2 * x * exp (- (x ^ 2 * (1 + t ^ 2)) / 2)) by (symmetry; apply is_derive_unique; apply gh_derive). unfold scal. cbn -[pow]. unfold mult. cbn -[pow]. unfold gauss.
      replace (- (x ^ 2 * (1 + t ^ 2)) / 2) with (- x ^ 2 / 2 + - (x * t + 0) ^ 2 / 2) by field. rewrite exp_plus. ring.
    + replace (- (2 * gauss x * RInt gauss 0 x)) with (scal (- (2 * gauss x)) (RInt gauss 0 x)) by (unfold scal; cbn; unfold mult; cbn; ring).
      apply (@is_RInt_scal R_NormedModule). apply (@is_RInt_comp_lin R_NormedModule gauss x 0 0 1).
      assert (B0 : x * 0 + 0 = 0) by ring. assert (B1 : x * 1 + 0 = x) by ring. rewrite B0, B1. apply (@RInt_correct R_CompleteNormedModule). apply gauss_ex.

Qed.

Lemma gauss_sum x : gG x + gH x = PI / 2.
Proof.
  assert (D : forall z, is_derive (fun z => gG z + gH z) z 0).
  { intros z. replace 0 with (plus (2 * gauss z * RInt gauss 0 z) (- (2 * gauss z * RInt gauss 0 z))) by (unfold plus; cbn; ring).
    apply (@is_derive_plus R_AbsRing R_NormedModule); [apply gG_derive|apply gH_derive]. }
  assert (E0 : gG 0 + gH 0 = PI / 2).
  { unfold gG, gH. rewrite RInt_point. unfold zero. cbn [AbelianGroup.zero]. 
    rewrite (is_RInt_unique (gh 0) 0 1 (minus (2 * atan 1) (2 * atan 0))).
    - rewrite atan_1, atan_0. unfold minus, plus, opp. cbn. field.
    - apply (@is_RInt_derive R_CompleteNormedModule (fun t => 2 * atan t) (gh 0)).
      + intros t _. unfold gh. auto_derive; [auto|]. replace (- (0 ^ 2 * (1 + t ^ 2)) / 2) with 0 by field. rewrite exp_0. unfold Rsqr. field. pose proof (one_sq t). cbn [pow] in *. nra.
      + intros t _. apply gh_continuous. }
  rewrite <- E0. destruct (Req_dec x 0) as [->|Hx]; [auto|].
  destruct (Rtotal_order 0 x) as [H|[H|H]]; [|congruence|].
  - apply eq_sym. apply (eq_is_derive (fun z => gG z + gH z)); [|exact H]. intros t _. apply D.
  - apply (eq_is_derive (fun z => gG z + gH z)); [|exact H]. intros t _. apply D.
Qed.

Lemma gH_bounds x : 0 <= gH x <= 2 * exp (- x ^ 2 / 2).
Proof.
  unfold gH. assert (B : forall t, 0 <= gh x t <= 2 * exp (- x ^ 2 / 2)).
  { intros t. unfold gh. assert (Hd : 1 <= 1 + t ^ 2) by nra. assert (Hi : 0 < / (1 + t ^ 2) <= 1).
    { split; [apply Rinv_0_lt_compat; lra|]. rewrite <- Rinv_1. apply Rinv_le_contravar; lra. }
    pose proof (exp_pos (- (x ^ 2 * (1 + t ^ 2)) / 2)) as P.
    assert (Q : exp (- (x ^ 2 * (1 + t ^ 2)) / 2) <= exp (- x ^ 2 / 2)).
    { destruct (Req_dec (x ^ 2 * t ^ 2) 0) as [E|E]; [right; f_equal; nra|]. left. apply exp_increasing. pose proof (pow2_ge_0 x). pose proof (pow2_ge_0 t). nra. }
    unfold Rdiv at 1 3. split; [apply Rmult_le_pos; lra|]. nra. }
  split; [apply RInt_ge_0; [lra|apply gh_ex|intros; apply B]|].
  apply Rle_trans with (RInt (fun _ => 2 * exp (- x ^ 2 / 2)) 0 1).
  - apply RInt_le; [lra|apply gh_ex|apply ex_RInt_const|intros; apply B].
  - rewrite RInt_const. unfold scal. cbn -[pow]. unfold mult. cbn -[pow]. lra.
Qed.

Lemma exp_sq_lim : is_lim (fun x => exp (- x ^ 2 / 2)) p_infty 0.
Proof.
  apply (is_lim_comp exp (fun x => - x ^ 2 / 2) p_infty 0 m_infty); [apply is_lim_exp_m| |].
  - apply (is_lim_le_m_loc (fun x => - x / 2) (fun x => - x ^ 2 / 2)).
    + exists 1. intros x Hx. assert (x <= x ^ 2) by nra. lra.
    + apply (is_lim_ext (fun x => (- / 2) * x)); [intros; field|].
      replace m_infty with (Rbar_mult (- / 2) p_infty).
      * apply is_lim_scal_l. apply is_lim_id.
      * unfold Rbar_mult, Rbar_mult'. destruct (Rle_dec 0 (- / 2)); [exfalso; lra|reflexivity].
  - exists 0. intros; discriminate.
Qed.

Lemma gauss_integral : is_lim (fun x => RInt gauss 0 x) p_infty (sqrt (PI / 2)).
Proof.
  assert (L : is_lim gG p_infty (PI / 2)).
  { apply (is_lim_ext (fun x => PI / 2 - gH x)); [intros x; rewrite <- (gauss_sum x); ring|].
    replace (Finite (PI / 2)) with (Finite (PI / 2 - 0)) by (f_equal; lra).
    apply is_lim_minus'; [apply is_lim_const|].
    apply (is_lim_le_le_loc (fun _ => 0) (fun x => 2 * exp (- x ^ 2 / 2))).
    - exists 0. intros x _. apply gH_bounds.
    - apply is_lim_const.
    - replace (Finite 0) with (Rbar_mult 2 0) by (cbn; f_equal; ring). apply is_lim_scal_l. apply exp_sq_lim. }
  apply (is_lim_ext_loc (fun x => sqrt (gG x))).
  - exists 0. intros x Hx. unfold gG. rewrite <- Rsqr_pow2. apply sqrt_Rsqr. apply RInt_ge_0; [lra|apply gauss_ex|].
    intros t _. left. apply exp_pos.
  - apply is_lim_comp_continuous; [exact L|]. apply continuous_sqrt.
Qed.

(** ** The normal distribution *)
Lemma pdf_gauss z : norm_pdf z = / sqrt (2 * PI) * gauss z.
Proof. unfold norm_pdf, gauss, Rdiv. ring. Qed.
Lemma pdf_even z : norm_pdf (- z) = norm_pdf z.
Proof. unfold norm_pdf. do 2 f_equal. field. Qed.

Lemma pdf_upper : is_lim (fun x => RInt norm_pdf 0 x) p_infty (/ 2).
Proof.
  apply (is_lim_ext (fun x => / sqrt (2 * PI) * RInt gauss 0 x)).
  - intros x. symmetry. apply is_RInt_unique. apply (is_RInt_ext (fun z => scal (/ sqrt (2 * PI)) (gauss z))).
    + intros z _. rewrite pdf_gauss. reflexivity.
    + apply (@is_RInt_scal R_NormedModule gauss 0 x (/ sqrt (2 * PI)) (RInt gauss 0 x)). apply (@RInt_correct R_CompleteNormedModule). apply gauss_ex.
  - replace (Finite (/ 2)) with (Rbar_mult (/ sqrt (2 * PI)) (sqrt (PI / 2))).
    + apply is_lim_scal_l. apply gauss_integral.
    + cbn. f_equal. pose proof PI_RGT_0. replace (2 * PI) with (4 * (PI / 2)) by field. rewrite sqrt_mult by lra.
      replace (sqrt 4) with 2 by (symmetry; replace 4 with (2 * 2) by ring; apply sqrt_square; lra).
      assert (0 < sqrt (PI / 2)) by (apply sqrt_lt_R0; lra). field. lra.
Qed.

Lemma pdf_mirror a : RInt norm_pdf (- a) 0 = RInt norm_pdf 0 a.
Proof.
  assert (E : is_RInt (fun y => scal (-1) (norm_pdf (-1 * y + 0))) a 0 (RInt norm_pdf (- a) 0)).
  { apply (@is_RInt_comp_lin R_NormedModule norm_pdf (-1) 0 a 0).
    assert (B1 : -1 * a + 0 = - a) by ring. assert (B0 : -1 * 0 + 0 = 0) by ring. rewrite B1, B0.
    apply (@RInt_correct R_CompleteNormedModule). apply norm_pdf_ex_RInt. }
  apply (is_RInt_ext _ (fun y => opp (norm_pdf y))) in E.
  2: { intros y _. replace (-1 * y + 0) with (- y) by ring. rewrite pdf_even. unfold scal, opp. cbn. unfold mult. cbn. ring. }
  assert (E2 : is_RInt (fun y => opp (norm_pdf y)) a 0 (opp (opp (RInt norm_pdf 0 a)))).
  { apply (@is_RInt_opp R_NormedModule). apply (@is_RInt_swap R_NormedModule). apply (@RInt_correct R_CompleteNormedModule). apply norm_pdf_ex_RInt. }
  rewrite <- (@is_RInt_unique R_CompleteNormedModule _ _ _ _ E). rewrite (@is_RInt_unique R_CompleteNormedModule _ _ _ _ E2). unfold opp. cbn. ring.
Qed.

Lemma norm_lower_half : norm_lower = / 2.
Proof.
  pose proof lower_lim as L.
  assert (L2 : is_lim_seq (fun n => RInt norm_pdf (- INR n) 0) (/ 2)).
  { apply (is_lim_seq_ext (fun n => RInt norm_pdf 0 (INR n))); [intros n; symmetry; apply pdf_mirror|].
    apply (is_lim_comp_seq (fun x => RInt norm_pdf 0 x) INR p_infty (/ 2)); [apply pdf_upper| |apply is_lim_seq_INR].
    exists 0%nat. intros n _. discriminate. }
  apply is_lim_seq_unique in L. apply is_lim_seq_unique in L2. rewrite L in L2. injection L2 as E. exact E.
Qed.

Lemma cdf_sym z : norm_cdf (- z) = 1 - norm_cdf z.
Proof.
  unfold norm_cdf. rewrite norm_lower_half. pose proof (pdf_mirror z) as M.
  rewrite <- (opp_RInt_swap norm_pdf (- z) 0) by apply norm_pdf_ex_RInt. rewrite M. unfold opp. cbn. lra.
Qed.
Lemma cdf_top : is_lim norm_cdf p_infty 1.
Proof.
  replace (Finite 1) with (Finite (norm_lower + / 2)) by (f_equal; rewrite norm_lower_half; lra).
  unfold norm_cdf. apply is_lim_plus'; [apply is_lim_const|apply pdf_upper].
Qed.
Lemma cdf_bottom : is_lim norm_cdf m_infty 0.
Proof.
  apply (is_lim_le_le_loc (fun _ => 0) (fun z => tailc * exp z)).
  - exists 0. intros z _. split; [apply norm_cdf_ge0|apply norm_cdf_tail].
  - apply is_lim_const.
  - replace (Finite 0) with (Rbar_mult tailc 0) by (cbn; f_equal; ring). apply is_lim_scal_l. apply is_lim_exp_m.
Qed.
Lemma pdf_top : is_lim norm_pdf p_infty 0.
Proof.
  replace (Finite 0) with (Rbar_mult (/ sqrt (2 * PI)) 0) by (cbn; f_equal; ring).
  apply (is_lim_ext (fun z => / sqrt (2 * PI) * exp (- z ^ 2 / 2))); [intros z; symmetry; apply pdf_gauss|].
  apply is_lim_scal_l. apply exp_sq_lim.
Qed.
Lemma pdf_bottom : is_lim norm_pdf m_infty 0.
Proof.
  apply (is_lim_ext (fun z => norm_pdf (- z))); [apply pdf_even|].
  apply (is_lim_comp norm_pdf Ropp m_infty 0 p_infty); [apply pdf_top| |].
  - replace p_infty with (Rbar_opp m_infty) by reflexivity. apply is_lim_opp. apply is_lim_id.
  - exists 0. intros; discriminate.
Qed.

Section Candidate.
Variables y p u : R.
Hypothesis Hu : 0 < u.

Lemma density_pdf v : normal_density p u v = norm_pdf ((v - p) / u) / u.
Proof.
  unfold normal_density, norm_pdf. pose proof sqrt_2pi_pos.
  replace (- (v - p) ^ 2 / (2 * u ^ 2)) with (- ((v - p) / u) ^ 2 / 2) by (field; lra). field. lra.
Qed.
Lemma density_continuous v : continuous (normal_density p u) v.
Proof. apply (@ex_derive_continuous _ _ (normal_density p u)). unfold normal_density. auto_derive. auto. Qed.

Definition F1 (v : R) : R := norm_cdf ((v - p) / u).
Definition F2 (v : R) : R := (p - y) * F1 v - u * norm_pdf ((v - p) / u).

Lemma standardised_derive v : is_derive (fun v => (v - p) / u) v (/ u).
Proof. auto_derive; [auto|]. field. lra. Qed.
Lemma F1_derive v : is_derive F1 v (normal_density p u v).
Proof.
  unfold F1. replace (normal_density p u v) with (scal (/ u) (norm_pdf ((v - p) / u))).
  - apply (is_derive_comp norm_cdf (fun v => (v - p) / u)); [apply norm_cdf_derive|apply standardised_derive].
  - rewrite density_pdf. unfold scal. cbn. unfold mult. cbn. unfold Rdiv. ring.
Qed.
Lemma F2_derive v : is_derive F2 v ((v - y) * normal_density p u v).
Proof.
  unfold F2. replace ((v - y) * normal_density p u v) with
    (minus ((p - y) * normal_density p u v) (u * scal (/ u) (- ((v - p) / u) * norm_pdf ((v - p) / u)))).
  - apply (@is_derive_minus R_AbsRing R_NormedModule (fun v => (p - y) * F1 v) (fun v => u * norm_pdf ((v - p) / u))).
    + apply is_derive_scal. apply F1_derive.
    + apply (is_derive_scal (fun v => norm_pdf ((v - p) / u)) v u).
      apply (is_derive_comp norm_pdf (fun v => (v - p) / u)); [apply norm_pdf_derive|apply standardised_derive].
  - rewrite density_pdf. unfold minus, plus, opp, scal. cbn. unfold mult. cbn. field. lra.
Qed.

Lemma lin_top : is_lim (fun v => (v - p) / u) p_infty p_infty.
Proof.
  apply (is_lim_ext (fun v => / u * (v - p))); [intros; unfold Rdiv; ring|].
  replace p_infty with (Rbar_mult (/ u) p_infty) at 2.
  - apply is_lim_scal_l. apply (is_lim_plus (fun v => v) (fun _ => - p) p_infty p_infty (- p) p_infty); [apply is_lim_id|apply is_lim_const|reflexivity].
  - assert (0 < / u) by (apply Rinv_0_lt_compat; auto). unfold Rbar_mult, Rbar_mult'. destruct (Rle_dec 0 (/ u)) as [h|h]; [|exfalso; lra].
    destruct (Rle_lt_or_eq_dec 0 (/ u) h); [reflexivity|exfalso; lra].
Qed.
Lemma lin_bottom : is_lim (fun v => (v - p) / u) m_infty m_infty.
Proof.
  apply (is_lim_ext (fun v => / u * (v - p))); [intros; unfold Rdiv; ring|].
  replace m_infty with (Rbar_mult (/ u) m_infty) at 2.
  - apply is_lim_scal_l. apply (is_lim_plus (fun v => v) (fun _ => - p) m_infty m_infty (- p) m_infty); [apply is_lim_id|apply is_lim_const|reflexivity].
  - assert (0 < / u) by (apply Rinv_0_lt_compat; auto). unfold Rbar_mult, Rbar_mult'. destruct (Rle_dec 0 (/ u)) as [h|h]; [|exfalso; lra].
    destruct (Rle_lt_or_eq_dec 0 (/ u) h); [reflexivity|exfalso; lra].
Qed.
Lemma F1_top : is_lim F1 p_infty 1.
Proof. unfold F1. apply (is_lim_comp norm_cdf _ p_infty 1 p_infty); [apply cdf_top|apply lin_top|exists 0; intros; discriminate]. Qed.
Lemma F1_bottom : is_lim F1 m_infty 0.
Proof. unfold F1. apply (is_lim_comp norm_cdf _ m_infty 0 m_infty); [apply cdf_bottom|apply lin_bottom|exists 0; intros; discriminate]. Qed.
Lemma phi_top : is_lim (fun v => norm_pdf ((v - p) / u)) p_infty 0.
Proof. apply (is_lim_comp norm_pdf _ p_infty 0 p_infty); [apply pdf_top|apply lin_top|exists 0; intros; discriminate]. Qed.
Lemma phi_bottom : is_lim (fun v => norm_pdf ((v - p) / u)) m_infty 0.
Proof. apply (is_lim_comp norm_pdf _ m_infty 0 m_infty); [apply pdf_bottom|apply lin_bottom|exists 0; intros; discriminate]. Qed.
Lemma F2_top : is_lim F2 p_infty (p - y).
Proof.
  replace (Finite (p - y)) with (Finite ((p - y) * 1 - u * 0)) by (f_equal; ring). unfold F2.
  apply is_lim_minus'; [apply (is_lim_scal_l F1 (p - y) p_infty 1), F1_top|apply (is_lim_scal_l _ u p_infty 0), phi_top].
Qed.
Lemma F2_bottom : is_lim F2 m_infty 0.
Proof.
  replace (Finite 0) with (Finite ((p - y) * 0 - u * 0)) by (f_equal; ring). unfold F2.
  apply is_lim_minus'; [apply (is_lim_scal_l F1 (p - y) m_infty 0), F1_bottom|apply (is_lim_scal_l _ u m_infty 0), phi_bottom].
Qed.

Lemma by_antiderivative (F f : R -> R) a b : (forall v, is_derive F v (f v)) -> (forall v, continuous f v) -> RInt f a b = F b - F a.
Proof.
  intros HD HC. apply is_RInt_unique. apply (@is_RInt_derive R_CompleteNormedModule F f); auto.
Qed.
Lemma weighted_continuous v : continuous (fun v => (v - y) * normal_density p u v) v.
Proof. apply (@ex_derive_continuous _ _ (fun v => (v - y) * normal_density p u v)). unfold normal_density. auto_derive. auto. Qed.
End Candidate.

(** ** C384 *)
(** The density that 'pdf' evaluates is that of the normal distribution of the prediction,
    whose total is one; PI is the probability of a value better than the reference and EI
    the expected improvement, for both objectives. *)
Theorem ei_pi_are_integrals : forall y p u, 0 < u ->
  probability_density y p u = normal_density p u y /\
  (exists a b, PI_ y p u Max = Some a /\ integral_above (normal_density p u) y a /\
               PI_ y p u Min = Some b /\ integral_below (normal_density p u) y b /\ 0 < a /\ 0 < b /\ a + b = 1) /\
  (exists c d, EI y p u Max = Some c /\ integral_above (fun v => (v - y) * normal_density p u v) y c /\
               EI y p u Min = Some d /\ integral_below (fun v => (y - v) * normal_density p u v) y d /\ c - d = p - y).
Proof.
  intros y p u Hu.
  assert (S1 : norm_cdf ((p - y) / u) = 1 - F1 p u y).
  { unfold F1. replace ((p - y) / u) with (- ((y - p) / u)) by (field; lra). apply cdf_sym. }
  assert (S2 : norm_pdf ((p - y) / u) = norm_pdf ((y - p) / u)).
  { replace ((p - y) / u) with (- ((y - p) / u)) by (field; lra). apply pdf_even. }
  assert (Z1 : - ((p - y) / u) = (y - p) / u) by (field; lra). assert (Z2 : (- p + y) / u = (y - p) / u) by (field; lra).
  split; [|split].
  - rewrite density_pdf by auto. reflexivity.
  - do 2 eexists. split; [reflexivity|]. split; [|split; [reflexivity|split; [|split; [apply norm_cdf_pos|split; [apply norm_cdf_pos|]]]]].
    + unfold integral_above. rewrite S1.
      apply (is_lim_ext (fun b => F1 p u b - F1 p u y)).
      { intros b. symmetry. apply by_antiderivative; intros; [apply F1_derive; auto|apply density_continuous; auto]. }
      apply is_lim_minus'; [apply F1_top; auto|apply is_lim_const].
    + unfold integral_below. rewrite Z1. fold (F1 p u y).
      apply (is_lim_ext (fun b => F1 p u y - F1 p u b)).
      { intros b. symmetry. apply by_antiderivative; intros; [apply F1_derive; auto|apply density_continuous; auto]. }
      replace (Finite (F1 p u y)) with (Finite (F1 p u y - 0)) by (f_equal; ring).
      apply is_lim_minus'; [apply is_lim_const|apply F1_bottom; auto].
    + rewrite S1, Z1. unfold F1. ring.
  - do 2 eexists. split; [reflexivity|]. split; [|split; [reflexivity|split]].
    + unfold integral_above.
      apply (is_lim_ext (fun b => F2 y p u b - F2 y p u y)).
      { intros b. symmetry. apply by_antiderivative; intros; [apply F2_derive; auto|apply weighted_continuous; auto]. }
      replace (Finite ((p - y) * norm_cdf ((p - y) / u) + u * norm_pdf ((p - y) / u))) with (Finite (p - y - F2 y p u y)).
      { apply is_lim_minus'; [apply F2_top; auto|apply is_lim_const]. }
      f_equal. unfold F2. rewrite S1, S2. ring.
    + unfold integral_below.
      apply (is_lim_ext (fun b => F2 y p u b - F2 y p u y)).
      { intros b. transitivity (- RInt (fun v => (v - y) * normal_density p u v) b y).
        - rewrite (by_antiderivative (F2 y p u)); [ring| |]; intros; [apply F2_derive; auto|apply weighted_continuous; auto].
        - symmetry. apply is_RInt_unique. apply (is_RInt_ext (fun v => opp ((v - y) * normal_density p u v))).
          + intros v _. unfold opp. cbn. ring.
          + apply (@is_RInt_opp R_NormedModule). apply (@RInt_correct R_CompleteNormedModule).
            apply (@ex_RInt_continuous R_CompleteNormedModule). intros; apply weighted_continuous; auto. }
      rewrite Z2.
      replace (Finite (- ((p - y) * norm_cdf ((y - p) / u) - u * norm_pdf ((y - p) / u)))) with (Finite (0 - F2 y p u y)).
      { apply is_lim_minus'; [apply F2_bottom; auto|apply is_lim_const]. }
      f_equal. unfold F2, F1. ring.
    + rewrite Z2, S1, S2. unfold F1. ring.
Qed.

(** A candidate predicted at the reference improves it with probability one half. *)
Example even_chance : PI_ 3 3 2 Max = Some (/ 2).
Proof.
  cbn. f_equal. replace ((3 - 3) / 2) with 0 by field. pose proof (cdf_sym 0) as E. replace (- 0) with 0 in E by ring. lra.
Qed.

Print Assumptions ei_pi_are_integrals.
