(** Facts about the normal distribution function used by the acquisition
    functions. *)
From Coq Require Import Reals Lra Psatz List.
From Coquelicot Require Import Coquelicot.
From Verif Require Import AcqModel.
Open Scope R_scope.

Lemma sqrt_2pi_pos : 0 < sqrt (2 * PI).
Proof. apply sqrt_lt_R0. pose proof PI_RGT_0. lra. Qed.

Lemma norm_pdf_pos z : 0 < norm_pdf z.
Proof. unfold norm_pdf. apply Rdiv_lt_0_compat; [apply exp_pos|apply sqrt_2pi_pos]. Qed.

Lemma norm_pdf_derive z : is_derive norm_pdf z (- z * norm_pdf z).
Proof.
  unfold norm_pdf. pose proof sqrt_2pi_pos. auto_derive; auto.
  replace (- (z * (z * 1)) * / 2) with (- z ^ 2 / 2) by (simpl; unfold Rdiv; ring). field. lra.
Qed.

Lemma norm_pdf_continuous z : continuous norm_pdf z.
Proof. apply (@ex_derive_continuous _ _ norm_pdf z). eexists. apply norm_pdf_derive. Qed.

Lemma norm_pdf_ex_RInt a b : ex_RInt norm_pdf a b.
Proof. apply (@ex_RInt_continuous R_CompleteNormedModule). intros; apply norm_pdf_continuous. Qed.

Lemma norm_cdf_derive z : is_derive norm_cdf z (norm_pdf z).
Proof.
  unfold norm_cdf. replace (norm_pdf z) with (0 + norm_pdf z) by lra.
  apply (@is_derive_plus R_AbsRing R_NormedModule (fun _ => norm_lower)).
  - apply (@is_derive_const R_AbsRing R_NormedModule).
  - apply (is_derive_RInt norm_pdf (fun z => RInt norm_pdf 0 z) 0).
    + apply filter_forall. intros y. apply (@RInt_correct R_CompleteNormedModule), norm_pdf_ex_RInt.
    + apply norm_pdf_continuous.
Qed.

(** the left tail *)
Definition tailc : R := exp (/ 2) / sqrt (2 * PI).
Lemma tailc_pos : 0 < tailc.
Proof. apply Rdiv_lt_0_compat; [apply exp_pos|apply sqrt_2pi_pos]. Qed.

Lemma norm_pdf_tail t : norm_pdf t <= tailc * exp t.
Proof.
  unfold norm_pdf, tailc. pose proof sqrt_2pi_pos.
  replace (exp (/ 2) / sqrt (2 * PI) * exp t) with (exp (/2 + t) / sqrt (2 * PI)).
  2:{ rewrite exp_plus. field. lra. }
  apply Rmult_le_compat_r; [left; apply Rinv_0_lt_compat; auto|].
  destruct (Req_dec (- t ^ 2 / 2) (/2 + t)) as [->|Hn]; [lra|].
  left. apply exp_increasing. assert (0 <= (t + 1) ^ 2) by apply pow2_ge_0. nra.
Qed.

Lemma RInt_exp_tail a b : RInt (fun t => tailc * exp t) a b = tailc * exp b - tailc * exp a.
Proof.
  apply is_RInt_unique.
  apply (@is_RInt_derive R_CompleteNormedModule (fun t => tailc * exp t) (fun t => tailc * exp t)).
  - intros x _. auto_derive; auto. ring.
  - intros x _. apply (@ex_derive_continuous _ _ (fun t => tailc * exp t)). auto_derive. auto.
Qed.

Lemma tail_ex_RInt a b : ex_RInt (fun t => tailc * exp t) a b.
Proof.
  apply (@ex_RInt_continuous R_CompleteNormedModule). intros x _.
  apply (@ex_derive_continuous _ _ (fun t => tailc * exp t)). auto_derive. auto.
Qed.

Lemma RInt_pdf_pos a b : a <= b -> 0 <= RInt norm_pdf a b.
Proof.
  intros H. apply RInt_ge_0; auto.
  - apply norm_pdf_ex_RInt.
  - intros; left; apply norm_pdf_pos.
Qed.

Lemma RInt_pdf_bound a b : a <= b -> RInt norm_pdf a b <= tailc * exp b.
Proof.
  intros H. apply Rle_trans with (RInt (fun t => tailc * exp t) a b).
  - apply RInt_le; auto.
    + apply norm_pdf_ex_RInt.
    + apply tail_ex_RInt.
    + intros; apply norm_pdf_tail.
  - rewrite RInt_exp_tail. pose proof tailc_pos. pose proof (exp_pos a). nra.
Qed.

Lemma RInt_pdf_chasles a b c : RInt norm_pdf a b + RInt norm_pdf b c = RInt norm_pdf a c.
Proof. apply (@RInt_Chasles R_CompleteNormedModule); apply norm_pdf_ex_RInt. Qed.

Lemma lower_lim : is_lim_seq (fun n => RInt norm_pdf (- INR n) 0) norm_lower.
Proof.
  unfold norm_lower. apply Lim_seq_correct'.
  apply ex_finite_lim_seq_incr with (M := tailc * exp 0).
  - intros n. rewrite <- (RInt_pdf_chasles (- INR (S n)) (- INR n) 0).
    assert (0 <= RInt norm_pdf (- INR (S n)) (- INR n)); [|lra].
    apply RInt_pdf_pos. rewrite S_INR. lra.
  - intros n. apply RInt_pdf_bound. pose proof (pos_INR n). lra.
Qed.

Lemma cdf_lim z : is_lim_seq (fun n => RInt norm_pdf (- INR n) z) (norm_cdf z).
Proof.
  apply is_lim_seq_ext with (fun n => RInt norm_pdf (- INR n) 0 + RInt norm_pdf 0 z).
  - intros n. apply RInt_pdf_chasles.
  - unfold norm_cdf. apply (is_lim_seq_plus' _ _ norm_lower (RInt norm_pdf 0 z)).
    + apply lower_lim.
    + apply is_lim_seq_const.
Qed.

Lemma archimed_nat (z : R) : exists N : nat, forall n, (N <= n)%nat -> - INR n <= z.
Proof.
  destruct (nfloor_ex (Rmax 0 (- z))) as [N [_ HN]]; [apply Rmax_l|].
  exists (S N). intros n Hn. apply le_INR in Hn. rewrite S_INR in Hn.
  pose proof (Rmax_r 0 (- z)). lra.
Qed.

Lemma norm_cdf_ge0 z : 0 <= norm_cdf z.
Proof.
  destruct (archimed_nat z) as [N HN].
  apply (is_lim_seq_le_loc (fun _ => 0) (fun n => RInt norm_pdf (- INR n) z) 0 (norm_cdf z)).
  - exists N. intros n Hn. apply RInt_pdf_pos. auto.
  - apply is_lim_seq_const.
  - apply cdf_lim.
Qed.

Lemma norm_cdf_tail z : norm_cdf z <= tailc * exp z.
Proof.
  destruct (archimed_nat z) as [N HN].
  apply (is_lim_seq_le_loc (fun n => RInt norm_pdf (- INR n) z) (fun _ => tailc * exp z) (norm_cdf z) (tailc * exp z)).
  - exists N. intros n Hn. apply RInt_pdf_bound. auto.
  - apply cdf_lim.
  - apply is_lim_seq_const.
Qed.

(** derivative comparison *)
Lemma increasing_from_derive (f f' : R -> R) a b :
  a <= b -> (forall x, a <= x <= b -> is_derive f x (f' x)) -> (forall x, a <= x <= b -> 0 <= f' x) ->
  f a <= f b.
Proof.
  intros Hab Hd Hp. destruct (Req_dec a b) as [->|Hne]; [lra|].
  destruct (MVT_gen f a b f') as (c & Hc & E).
  - intros x Hx. apply Hd. rewrite Rmin_left, Rmax_right in Hx by lra. lra.
  - intros x Hx. rewrite Rmin_left, Rmax_right in Hx by lra.
    apply continuity_pt_filterlim. apply (@ex_derive_continuous R_AbsRing R_NormedModule f x). eexists. apply Hd. lra.
  - rewrite Rmin_left, Rmax_right in Hc by lra.
    assert (0 <= f' c) by (apply Hp; lra). nra.
Qed.

Lemma strictly_increasing_from_derive (f f' : R -> R) a b :
  a < b -> (forall x, a <= x <= b -> is_derive f x (f' x)) -> (forall x, a <= x <= b -> 0 < f' x) ->
  f a < f b.
Proof.
  intros Hab Hd Hp.
  destruct (MVT_gen f a b f') as (c & Hc & E).
  - intros x Hx. apply Hd. rewrite Rmin_left, Rmax_right in Hx by lra. lra.
  - intros x Hx. rewrite Rmin_left, Rmax_right in Hx by lra.
    apply continuity_pt_filterlim. apply (@ex_derive_continuous R_AbsRing R_NormedModule f x). eexists. apply Hd. lra.
  - rewrite Rmin_left, Rmax_right in Hc by lra.
    assert (0 < f' c) by (apply Hp; lra). nra.
Qed.

Lemma norm_cdf_increasing a b : a < b -> norm_cdf a < norm_cdf b.
Proof.
  intros H. apply (strictly_increasing_from_derive norm_cdf norm_pdf); auto.
  - intros; apply norm_cdf_derive.
  - intros; apply norm_pdf_pos.
Qed.

Lemma norm_cdf_le a b : a <= b -> norm_cdf a <= norm_cdf b.
Proof. intros [H| ->]; [left; apply norm_cdf_increasing; auto|lra]. Qed.

Lemma norm_cdf_pos z : 0 < norm_cdf z.
Proof.
  pose proof (norm_cdf_ge0 (z - 1)). pose proof (norm_cdf_increasing (z - 1) z ltac:(lra)). lra.
Qed.

(** the improper integral *)
Lemma norm_cdf_is_integral z : is_RInt_gen norm_pdf (Rbar_locally m_infty) (at_point z) (norm_cdf z).
Proof.
  intros P HP. simpl in HP.
  destruct HP as [eps Heps].
  pose proof (cdf_lim z) as HL.
  (* left tail below eps *)
  assert (Htail : exists M, M <= z /\ forall a, a <= M -> tailc * exp a < eps).
  { exists (Rmin z (ln (eps / tailc) - 1)). split; [apply Rmin_l|]. intros a Ha.
    pose proof (Rmin_r z (ln (eps / tailc) - 1)).
    assert (exp a < exp (ln (eps / tailc))) by (apply exp_increasing; lra).
    rewrite exp_ln in H0 by (apply Rdiv_lt_0_compat; [apply cond_pos|apply tailc_pos]).
    pose proof tailc_pos. apply Rmult_lt_compat_l with (r := tailc) in H0; auto.
    replace (tailc * (eps / tailc)) with (eps : R) in H0 by (field; lra). lra. }
  destruct Htail as (M & HMz & HM).
  exists (fun a => a < M) (fun b => b = z).
  - exists M. auto.
  - reflexivity.
  - intros a b Ha ->. exists (RInt norm_pdf a z). split.
    + apply (@RInt_correct R_CompleteNormedModule), norm_pdf_ex_RInt.
    + apply Heps. simpl. 
      assert (E : norm_cdf z = norm_cdf a + RInt norm_pdf a z).
      { unfold norm_cdf. rewrite <- (RInt_pdf_chasles 0 a z). lra. }
      unfold ball; simpl. unfold AbsRing_ball, abs, minus, plus, opp; simpl.
      replace (RInt norm_pdf a z + - norm_cdf z) with (- norm_cdf a) by lra.
      rewrite Rabs_Ropp, Rabs_right by (apply Rle_ge, norm_cdf_ge0).
      eapply Rle_lt_trans; [apply norm_cdf_tail|]. apply HM. lra.
Qed.

(** ** Expected improvement: EI = sigma * h(z) *)
Definition eih (z : R) : R := z * norm_cdf z + norm_pdf z.
Lemma eih_derive z : is_derive eih z (norm_cdf z).
Proof.
  unfold eih.
  replace (norm_cdf z) with (plus (plus (mult 1 (norm_cdf z)) (mult z (norm_pdf z))) (- z * norm_pdf z)).
  2:{ unfold plus, mult; simpl. lra. }
  apply (@is_derive_plus R_AbsRing R_NormedModule (fun z => z * norm_cdf z) norm_pdf).
  - apply (@is_derive_mult R_AbsRing (fun z => z) norm_cdf).
    + apply (@is_derive_id R_AbsRing).
    + apply norm_cdf_derive.
    + intros; apply Rmult_comm.
  - apply norm_pdf_derive.
Qed.

Lemma eih_le a b : a <= b -> eih a <= eih b.
Proof.
  intros H. apply (increasing_from_derive eih norm_cdf); auto.
  - intros; apply eih_derive.
  - intros; apply norm_cdf_ge0.
Qed.

Lemma eih_lt a b : a < b -> eih a < eih b.
Proof.
  intros H. apply (strictly_increasing_from_derive eih norm_cdf); auto.
  - intros; apply eih_derive.
  - intros; apply norm_cdf_pos.
Qed.

Lemma exp_quad t : 0 < t -> t * t / 2 < exp t.
Proof.
  intros Ht.
  assert (H : forall x, 0 <= x -> 0 <= exp x - 1 - x).
  { intros x Hx. replace 0 with (exp 0 - 1 - 0) by (rewrite exp_0; lra).
    apply (increasing_from_derive (fun x => exp x - 1 - x) (fun x => exp x - 1)); auto.
    - intros y _. auto_derive; auto. ring.
    - intros y Hy. pose proof (exp_ineq1_le y). lra. }
  assert (H2 : 0 <= exp t - 1 - t - t * t / 2).
  { replace 0 with (exp 0 - 1 - 0 - 0 * 0 / 2) by (rewrite exp_0; lra).
    apply (increasing_from_derive (fun x => exp x - 1 - x - x * x / 2) (fun x => exp x - 1 - x)); try lra.
    - intros y _. auto_derive; auto. field.
    - intros y Hy. apply H. lra. }
  lra.
Qed.

Lemma eih_ge0 z : 0 <= eih z.
Proof.
  destruct (Rle_lt_dec 0 (eih z)) as [|Hneg]; auto. exfalso.
  set (e := - eih z). assert (He : 0 < e) by (unfold e; lra).
  set (t := Rmax (- z) (4 * tailc / e) + 1).
  pose proof tailc_pos as Hc.
  assert (Hce : 0 < 4 * tailc / e) by (apply Rdiv_lt_0_compat; lra).
  assert (Ht1 : - z <= t) by (unfold t; pose proof (Rmax_l (- z) (4 * tailc / e)); lra).
  assert (Ht2 : 4 * tailc / e < t) by (unfold t; pose proof (Rmax_r (- z) (4 * tailc / e)); lra).
  assert (Ht : 0 < t) by lra.
  assert (H1 : eih (- t) <= - e) by (unfold e; pose proof (eih_le (- t) z ltac:(lra)); lra).
  assert (H2 : - t * (tailc * exp (- t)) < eih (- t)).
  { unfold eih. pose proof (norm_cdf_tail (- t)). pose proof (norm_pdf_pos (- t)). nra. }
  assert (H3 : exp (- t) < 2 / (t * t)).
  { rewrite exp_Ropp. pose proof (exp_quad t Ht).
    replace (2 / (t * t)) with (/ (t * t / 2)) by (field; lra).
    apply Rinv_lt_contravar; auto. apply Rmult_lt_0_compat; [nra|apply exp_pos]. }
  assert (H4 : t * (tailc * exp (- t)) < 2 * tailc / t).
  { replace (2 * tailc / t) with (t * (tailc * (2 / (t * t)))) by (field; lra).
    apply Rmult_lt_compat_l; auto. apply Rmult_lt_compat_l; auto. }
  assert (H5 : 2 * tailc / t < e).
  { apply Rmult_lt_reg_r with t; auto. unfold Rdiv. rewrite Rmult_assoc, Rinv_l by lra.
    apply Rmult_lt_compat_r with (r := e) in Ht2; auto.
    unfold Rdiv in Ht2. rewrite Rmult_assoc, Rinv_l in Ht2 by lra. nra. }
  lra.
Qed.

(** in terms of the deviation [d] and the uncertainty [s] *)
Definition eif (d s : R) : R := d * norm_cdf (d / s) + s * norm_pdf (d / s).
Lemma eif_eih d s : s <> 0 -> eif d s = s * eih (d / s).
Proof. intros H. unfold eif, eih. field. auto. Qed.

Lemma eif_le_d d1 d2 s : 0 < s -> d1 <= d2 -> eif d1 s <= eif d2 s.
Proof.
  intros Hs Hd. rewrite !eif_eih by lra. apply Rmult_le_compat_l; [lra|]. apply eih_le.
  apply Rmult_le_compat_r; [left; apply Rinv_0_lt_compat; auto|auto].
Qed.
Lemma eif_lt_d d1 d2 s : 0 < s -> d1 < d2 -> eif d1 s < eif d2 s.
Proof.
  intros Hs Hd. rewrite !eif_eih by lra. apply Rmult_lt_compat_l; [lra|]. apply eih_lt.
  apply Rmult_lt_compat_r; [apply Rinv_0_lt_compat; auto|auto].
Qed.

Lemma eif_derive_s d s : 0 < s -> is_derive (eif d) s (norm_pdf (d / s)).
Proof.
  intros Hs.
  apply (is_derive_ext_loc (fun s => s * eih (d / s))).
  { exists (mkposreal s Hs). intros y Hy. symmetry. apply eif_eih.
    unfold ball in Hy; simpl in Hy. unfold AbsRing_ball, abs, minus, plus, opp in Hy; simpl in Hy.
    apply Rabs_def2 in Hy. lra. }
  replace (norm_pdf (d / s)) with
    (plus (mult 1 (eih (d / s))) (mult s (scal (- d / (s * s)) (norm_cdf (d / s))))).
  2:{ unfold plus, mult, scal; simpl. unfold mult; simpl. unfold eih. field. lra. }
  apply (@is_derive_mult R_AbsRing (fun s => s) (fun s => eih (d / s))).
  - apply (@is_derive_id R_AbsRing).
  - apply (@is_derive_comp R_AbsRing R_NormedModule eih (fun s => d / s)).
    + apply eih_derive.
    + auto_derive; [lra|]. field. lra.
  - intros; apply Rmult_comm.
Qed.

Lemma eif_lt_s d s1 s2 : 0 < s1 -> s1 < s2 -> eif d s1 < eif d s2.
Proof.
  intros Hs H. apply (strictly_increasing_from_derive (eif d) (fun s => norm_pdf (d / s))); auto.
  - intros; apply eif_derive_s. lra.
  - intros; apply norm_pdf_pos.
Qed.

Lemma eif_ge0 d s : 0 < s -> 0 <= eif d s.
Proof. intros Hs. rewrite eif_eih by lra. pose proof (eih_ge0 (d / s)). nra. Qed.
