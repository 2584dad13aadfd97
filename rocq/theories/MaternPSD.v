(** The kernel exp(-c |x - y|) of the euclidean distance is positive semidefinite.  Pure
    mathematics: nothing here models CatLearn code. *)
From Coq Require Import Reals Lra Lia.
From Coquelicot Require Import Coquelicot.
From Verif Require Import LinAlg PSD.
Open Scope R_scope.

(** r atan(t/r) tends to r pi/2. *)
Lemma atan_lim r : 0 <= r -> is_lim_seq (fun m => r * atan (INR m / r)) (r * (PI / 2)).
Proof.
  intros Hr. destruct (Req_dec r 0) as [->|E].
  { apply (is_lim_seq_ext (fun _ => 0)); [intros; ring|]. rewrite Rmult_0_l. apply is_lim_seq_const. }
  assert (P : 0 < r) by lra.
  apply (is_lim_seq_scal_l (fun m => atan (INR m / r)) r (PI / 2)).
  apply is_lim_seq_incr_1.
  apply (is_lim_seq_ext (fun m => PI / 2 - atan (r * / INR (S m)))).
  { intros m. assert (0 < INR (S m)) by (apply lt_0_INR; lia).
    assert (Q : 0 < INR (S m) / r) by (apply Rdiv_lt_0_compat; auto).
    replace (r * / INR (S m)) with (/ (INR (S m) / r)) by (field; lra). rewrite atan_inv by auto. ring. }
  replace (PI / 2) with (PI / 2 - atan 0) at 1 by (rewrite atan_0; ring).
  apply is_lim_seq_minus'; [apply is_lim_seq_const|].
  apply (is_lim_seq_continuous atan (fun m => r * / INR (S m)) 0).
  - apply derivable_continuous_pt. apply derivable_pt_atan.
  - replace (Finite 0) with (Finite (r * 0)) by (f_equal; ring). apply (is_lim_seq_scal_l (fun m => / INR (S m)) r 0).
    apply (is_lim_seq_incr_1 (fun m => / INR m)). replace (Finite 0) with (Rbar_inv p_infty) by reflexivity.
    apply is_lim_seq_inv; [apply is_lim_seq_INR|discriminate].
Qed.

Section Matern.
Context {X : Type}.
Variable P : X -> Prop.
Variable u : nat -> X -> R.

Lemma mult_matern D c : 0 <= c -> mult P (fun x y => exp (- c * sqrt (sqdist u D x y))).
Proof.
  intros Hc. set (b := c / (PI / 2)). pose proof PI_RGT_0 as HP.
  assert (Hb : 0 <= b) by (apply Rmult_le_pos; [auto|left; apply Rinv_0_lt_compat; lra]).
  set (r := fun x y => sqrt (sqdist u D x y)).
  apply mult_lim with (ks := fun m x y => exp (- b * INR m) * exp (b * (INR m - r x y * atan (INR m / r x y)))).
  - intros m. apply mult_scal; [left; apply exp_pos|]. apply mult_exp. apply mult_scal; [auto|].
    apply mult_RInt with (kt := fun t x y => / (1 + / t ^ 2 * sqdist u D x y)) (a := 0) (b := INR m).
    + apply pos_INR.
    + intros t Ht. apply mult_inv. left. apply Rinv_0_lt_compat. apply pow_lt. lra.
    + intros x y _ _. pose proof (sqdist_nonneg u D x y) as S0. unfold r. set (S := sqdist u D x y) in *.
      destruct (Req_dec S 0) as [E|E].
      * rewrite E, sqrt_0, Rmult_0_l, Rminus_0_r. apply (is_RInt_ext (fun _ => 1)).
        { intros t Ht. rewrite Rmin_left in Ht by apply pos_INR. rewrite Rmult_0_r, Rplus_0_r. symmetry. apply Rinv_1. }
        evar_last; [apply (@is_RInt_const R_NormedModule)|]. unfold scal; cbn; unfold Hierarchy.mult; cbn. ring.
      * assert (SP : 0 < S) by lra. assert (RP : 0 < sqrt S) by (apply sqrt_lt_R0; auto). assert (SS : sqrt S ^ 2 = S) by (rewrite pow2_sqrt; auto).
        set (q := sqrt S) in *. rewrite <- SS.
        apply (is_RInt_ext (fun t => 1 - q ^ 2 / (q ^ 2 + t ^ 2))).
        { intros t Ht. rewrite Rmin_left in Ht by apply pos_INR. assert (A1 : 0 < t ^ 2) by (apply pow_lt; lra). assert (A2 : 0 < q ^ 2) by (apply pow_lt; lra). unfold sqdist in *. clear - A1 A2. generalize dependent (q ^ 2). generalize dependent (t ^ 2). intros a Ha z Hz. match goal with |- @eq _ ?l ?r => change (@eq R l r) end. field. split; lra. }
        evar_last.
        -- apply (is_RInt_derive (fun t => t - q * atan (t / q))).
           ++ intros t _. auto_derive; [lra|]. assert (0 <= t ^ 2) by apply pow2_ge_0. assert (0 < q ^ 2) by (apply pow_lt; lra). field. repeat split; nra.
           ++ intros t _. apply (ex_derive_continuous (fun t => 1 - q ^ 2 / (q ^ 2 + t ^ 2))). auto_derive. assert (0 <= t ^ 2) by apply pow2_ge_0. assert (0 < q ^ 2) by (apply pow_lt; lra). nra.
        -- unfold minus, plus, opp; cbn. replace (0 / q) with 0 by (field; lra). rewrite atan_0. ring.
  - intros x y _ _. apply (is_lim_seq_ext (fun m => exp (- b * (r x y * atan (INR m / r x y))))).
    { intros m. rewrite <- exp_plus. f_equal. ring. }
    change (sqrt (sqdist u D x y)) with (r x y). replace (- c * r x y) with (- b * (r x y * (PI / 2))) by (unfold b; field; lra).
    apply (is_lim_seq_continuous exp). { apply derivable_continuous_pt, derivable_pt_exp. }
    apply (is_lim_seq_scal_l (fun m => r x y * atan (INR m / r x y)) (- b) (r x y * (PI / 2))). apply atan_lim. apply sqrt_pos.
Qed.
End Matern.
