(** Covariances with gradients are limits of covariances of difference quotients. *)
From Coq Require Import Reals Lra Lia List Arith Bool.
From Coquelicot Require Import Coquelicot.
From Verif Require Import Base BaseFacts RBase LinAlg PSD KernModel KernProofs KernSetupProofs KernDefProofs KernScaleProofs
  KernEntryProofs GradSpec GradProofs.
Import ListNotations.
Open Scope R_scope.

Lemma mvt_bound f f' u M : (forall c, is_derive f c (f' c)) -> f 0 = 0 ->
  (forall c, Rabs c <= Rabs u -> Rabs (f' c) <= M) -> Rabs (f u) <= M * Rabs u.
Proof.
  intros Hd H0 HM. destruct (MVT_gen f 0 u f') as [c [Hc E]].
  - intros; apply Hd.
  - intros x _. apply derivable_continuous_pt. exists (f' x). apply is_derive_Reals, Hd.
  - rewrite H0, !Rminus_0_r in E. rewrite E, Rabs_mult. apply Rmult_le_compat_r; [apply Rabs_pos|]. apply HM.
    unfold Rmin, Rmax in Hc. unfold Rabs. repeat destruct Rle_dec; repeat destruct Rcase_abs; lra.
Qed.

Lemma exp_le_3' c : Rabs c <= 1 -> Rabs (exp c) <= 3.
Proof.
  intros H. rewrite Rabs_right by (left; apply exp_pos). apply Rle_trans with (exp 1); [|apply exp_le_3].
  apply Rabs_le_between in H. destruct (Req_dec c 1) as [->|]; [lra|]. left; apply exp_increasing; lra.
Qed.

Lemma exp_second_order u : Rabs u <= 1 -> Rabs (exp u - 1 - u - u ^ 2 / 2) <= 3 * Rabs u ^ 3.
Proof.
  intros Hu. 
  assert (A : forall u, Rabs u <= 1 -> Rabs (exp u - 1) <= 3 * Rabs u).
  { intros v Hv. apply (mvt_bound (fun c => exp c - 1) exp v 3).
    - intros c. auto_derive; auto. ring.
    - cbv beta. rewrite exp_0. lra.
    - intros c Hc. apply exp_le_3'. lra. }
  assert (B : forall u, Rabs u <= 1 -> Rabs (exp u - 1 - u) <= 3 * Rabs u * Rabs u).
  { intros v Hv. apply (mvt_bound (fun c => exp c - 1 - c) (fun c => exp c - 1) v (3 * Rabs v)).
    - intros c. auto_derive; auto. ring.
    - cbv beta. rewrite exp_0. lra.
    - intros c Hc. eapply Rle_trans; [apply A; lra|]. lra. }
  replace (3 * Rabs u ^ 3) with (3 * Rabs u * Rabs u * Rabs u) by ring.
  apply (mvt_bound (fun c => exp c - 1 - c - c ^ 2 / 2) (fun c => exp c - 1 - c) u (3 * Rabs u * Rabs u)).
  - intros c. auto_derive; auto. field.
  - cbv beta. rewrite exp_0. lra.
  - intros c Hc. eapply Rle_trans; [apply B; lra|]. pose proof (Rabs_pos c). nra.
Qed.

(** The step sizes. *)
Definition step (m : nat) : R := / (INR m + 1).

Lemma step_pos m : 0 < step m.
Proof. unfold step. apply Rinv_0_lt_compat. pose proof (pos_INR m). lra. Qed.

Lemma step_lim : is_lim_seq step 0.
Proof.
  unfold step. apply (is_lim_seq_ext (fun m => / INR (S m))); [intros m; rewrite S_INR; auto|].
  apply (is_lim_seq_incr_1 (fun m => / INR m)). 
  replace (Finite 0) with (Rbar_inv p_infty) by reflexivity.
  apply is_lim_seq_inv; [apply is_lim_seq_INR|discriminate].
Qed.

Lemma step_small c : 0 < c -> eventually (fun m => step m < c).
Proof.
  intros Hc. pose proof step_lim as H. apply is_lim_seq_spec in H. destruct (H (mkposreal c Hc)) as [N HN].
  exists N. intros m Hm. specialize (HN m Hm). cbn in HN. rewrite Rminus_0_r in HN. rewrite Rabs_right in HN; auto.
  left; apply step_pos.
Qed.

(** (exp(-(hs + h^2 r/2)) - 1 + hs) / h^2 --> (s^2 - r) / 2 *)
Lemma second_difference s r :
  is_lim_seq (fun m => (exp (- (step m * s + step m ^ 2 * r / 2)) - 1 + step m * s) / step m ^ 2) ((s ^ 2 - r) / 2).
Proof.
  set (C := Rabs s + Rabs r). assert (HC : 0 <= C) by (pose proof (Rabs_pos s); pose proof (Rabs_pos r); unfold C; lra).
  assert (LM : is_lim_seq (fun m => (s + step m * r / 2) ^ 2 / 2 - r / 2) ((s ^ 2 - r) / 2)).
  { replace ((s ^ 2 - r) / 2) with ((s + 0 * (r / 2)) * (s + 0 * (r / 2)) * / 2 - r / 2) by field.
    apply (is_lim_seq_ext (fun m => (s + step m * (r / 2)) * (s + step m * (r / 2)) * / 2 - r / 2)); [intros m; field|].
    apply is_lim_seq_minus'; [|apply is_lim_seq_const].
    assert (L1 : is_lim_seq (fun m => s + step m * (r / 2)) (s + 0 * (r / 2))).
    { apply is_lim_seq_plus'; [apply is_lim_seq_const|]. apply (is_lim_seq_scal_r step (r / 2) 0). apply step_lim. }
    apply (is_lim_seq_scal_r (fun m => (s + step m * (r / 2)) * (s + step m * (r / 2))) (/ 2) ((s + 0 * (r / 2)) * (s + 0 * (r / 2)))).
    apply is_lim_seq_mult'; auto. }
  assert (LB : is_lim_seq (fun m => 3 * step m * C ^ 3) 0).
  { replace (Finite 0) with (Finite (0 * (3 * C ^ 3))) by (f_equal; ring).
    apply (is_lim_seq_ext (fun m => step m * (3 * C ^ 3))); [intros m; ring|].
    apply (is_lim_seq_scal_r step (3 * C ^ 3) 0). apply step_lim. }
  apply (is_lim_seq_le_le_loc (fun m => ((s + step m * r / 2) ^ 2 / 2 - r / 2) - 3 * step m * C ^ 3) _
           (fun m => ((s + step m * r / 2) ^ 2 / 2 - r / 2) + 3 * step m * C ^ 3)).
  - assert (HP : 0 < / (C + 1)) by (apply Rinv_0_lt_compat; lra).
    destruct (step_small _ HP) as [N HN]. exists N. intros m Hm. specialize (HN m Hm).
    pose proof (step_pos m) as Hp. set (h := step m) in *.
    assert (h1 : h < 1).
    { eapply Rlt_le_trans; [exact HN|]. rewrite <- Rinv_1. apply Rinv_le_contravar; lra. }
    assert (hC : h * (C + 1) < 1).
    { apply (Rmult_lt_compat_r (C + 1)) in HN; [|lra]. rewrite Rinv_l in HN by lra. auto. }
    set (v := s + h * r / 2). set (u := - (h * v)).
    assert (Ev : Rabs v <= C).
    { unfold v. eapply Rle_trans; [apply Rabs_triang|]. unfold C. apply Rplus_le_compat_l.
      unfold Rdiv. rewrite !Rabs_mult. rewrite (Rabs_right h) by lra. rewrite (Rabs_right (/ 2)) by lra.
      pose proof (Rabs_pos r). nra. }
    assert (Eu : Rabs u = h * Rabs v).
    { unfold u. rewrite Rabs_Ropp, Rabs_mult, (Rabs_right h) by lra. auto. }
    assert (Hu : Rabs u <= 1) by (rewrite Eu; pose proof (Rabs_pos v); nra).
    pose proof (exp_second_order u Hu) as B.
    replace (- (h * s + h ^ 2 * r / 2)) with u by (unfold u, v; field).
    assert (E : (exp u - 1 + h * s) / h ^ 2 = (v ^ 2 / 2 - r / 2) + (exp u - 1 - u - u ^ 2 / 2) / h ^ 2).
    { unfold u at 3 4. unfold v. field. lra. }
    rewrite E.
    assert (B2 : Rabs ((exp u - 1 - u - u ^ 2 / 2) / h ^ 2) <= 3 * h * C ^ 3).
    { unfold Rdiv. rewrite Rabs_mult. rewrite (Rabs_right (/ h ^ 2)) by (apply Rle_ge; left; apply Rinv_0_lt_compat; nra).
      apply Rmult_le_reg_r with (h ^ 2); [nra|]. rewrite Rmult_assoc, Rinv_l by nra. rewrite Rmult_1_r.
      eapply Rle_trans; [exact B|]. rewrite Eu.
      replace (3 * (h * Rabs v) ^ 3) with ((3 * h * h ^ 2) * Rabs v ^ 3) by ring.
      replace (3 * h * C ^ 3 * h ^ 2) with ((3 * h * h ^ 2) * C ^ 3) by ring.
      apply Rmult_le_compat_l; [nra|]. apply pow_incr. split; [apply Rabs_pos|auto]. }
    apply Rabs_le_between in B2. lra.
  - replace (Finite ((s ^ 2 - r) / 2)) with (Finite ((s ^ 2 - r) / 2 - 0)) by (f_equal; ring). apply is_lim_seq_minus'; auto.
  - replace (Finite ((s ^ 2 - r) / 2)) with (Finite ((s ^ 2 - r) / 2 + 0)) by (f_equal; ring). apply is_lim_seq_plus'; auto.
Qed.

(** A derivative is the limit of the difference quotients with these steps. *)
Lemma derivative_steps f x l : derivable_pt_lim f x l -> is_lim_seq (fun m => (f (x + step m) - f x) / step m) l.
Proof.
  intros H. apply is_lim_seq_spec. intros eps. destruct (H eps (cond_pos eps)) as [d Hd].
  destruct (step_small d (cond_pos d)) as [N HN]. exists N. intros m Hm. pose proof (step_pos m).
  apply Hd; [lra|]. rewrite Rabs_right by lra. auto.
Qed.

(** ** Two points per index *)
Section TwoPoints.
Variable P : nat -> Prop.
Variable beta : nat -> bool -> R.
Variable kk : nat * bool -> nat * bool -> R.

Definition two (p q : nat) : R :=
  beta p true * beta q true * kk (p, true) (q, true) + beta p true * beta q false * kk (p, true) (q, false) +
  (beta p false * beta q true * kk (p, false) (q, true) + beta p false * beta q false * kk (p, false) (q, false)).

Lemma mult_two : mult (fun x => P (fst x)) kk -> mult P two.
Proof.
  intros H k' Hk' n c x HP.
  assert (Hpull : psd (fun x : nat * bool => P (fst x)) (fun a b => k' (fst a) (fst b))).
  { intros n' c' x' HP'. apply (Hk' n' c' (fun i => fst (x' i)) HP'). }
  specialize (H _ Hpull (n + n)%nat
    (fun i => if (i <? n)%nat then c i * beta (x i) true else c (i - n)%nat * beta (x (i - n)%nat) false)
    (fun i => if (i <? n)%nat then (x i, true) else (x (i - n)%nat, false))).
  assert (HQ : forall i, (i < n + n)%nat -> P (fst (if (i <? n)%nat then (x i, true) else (x (i - n)%nat, false)))).
  { intros i Hi. destruct (Nat.ltb_spec i n); apply HP; lia. }
  specialize (H HQ). eapply Rle_trans; [exact H|]. right. unfold form.
  rewrite Sum_app, <- Sum_plus. apply Sum_ext. intros i Hi. rewrite !Sum_app.
  rewrite <- !Sum_plus. apply Sum_ext. intros j Hj.
  destruct (Nat.ltb_spec i n); [|lia]. destruct (Nat.ltb_spec j n); [|lia].
  destruct (Nat.ltb_spec (n + i) n); [lia|]. destruct (Nat.ltb_spec (n + j) n); [lia|].
  replace (n + i - n)%nat with i by lia. replace (n + j - n)%nat with j by lia.
  cbn [fst]. unfold two. ring.
Qed.
End TwoPoints.

(** ** Gaussian: base point and derivative direction of an index *)
Definition ibase (n D p : nat) : nat := if (p <? n)%nat then p else ((p - n) / D)%nat.
Definition idir (n D p : nat) : option nat := if (p <? n)%nat then None else Some ((p - n) mod D)%nat.

Lemma index_value n D i : (i < n)%nat -> ibase n D i = i /\ idir n D i = None.
Proof. intros H. unfold ibase, idir. destruct (Nat.ltb_spec i n); [auto|lia]. Qed.

Lemma index_grad n D i d : (d < D)%nat -> ibase n D (n + i * D + d) = i /\ idir n D (n + i * D + d) = Some d.
Proof.
  intros H. unfold ibase, idir. destruct (Nat.ltb_spec (n + i * D + d) n); [lia|].
  replace (n + i * D + d - n)%nat with (d + i * D)%nat by lia.
  rewrite Nat.div_add, Nat.mod_add, Nat.div_small, Nat.mod_small by lia. auto.
Qed.

Lemma index_bound n D p : (p < n + n * D)%nat -> (ibase n D p < n)%nat /\ opt (fun d => (d < D)%nat) (idir n D p).
Proof.
  intros H. unfold ibase, idir. destruct (Nat.ltb_spec p n); [cbn; auto|]. assert (D <> 0)%nat by nia.
  split; [apply Nat.div_lt_upper_bound; [auto|]; nia|]. cbn. apply Nat.mod_upper_bound; auto.
Qed.

Section GaussPSD.
Variables (w : nat -> R) (D : nat).
Hypothesis Hw : forall d, (d < D)%nat -> w d <> 0.
Variables (xs : nat -> row) (n : nat).
Hypothesis Hx : forall i, (i < n)%nat -> length (xs i) = D.

Notation base p := (xs (ibase n D p)).
Notation dir p := (idir n D p).
Definition entry (p q : nat) : R := gjet w D (base p) (dir p) (base q) (dir q).

(** The moved point and the base point of index p. *)
Definition shifted (h : R) (p : nat * bool) : row :=
  match dir (fst p), snd p with
  | Some d, true => set_coord d (nth d (base (fst p)) 0 + h) (base (fst p))
  | _, _ => base (fst p)
  end.
Definition coef (h : R) (p : nat) (s : bool) : R :=
  match dir p, s with
  | None, true => 1 | None, false => 0
  | Some _, true => / h | Some _, false => - / h
  end.
Definition quotient (h : R) : nat -> nat -> R := two (coef h) (fun p q => gauss w D (shifted h p) (shifted h q)).

Lemma quotient_mult h : mult (fun p => (p < n + n * D)%nat) (quotient h).
Proof.
  apply mult_two.
  apply mult_ext with (k := fun p q => exp (- / 2 * sqdist (fun d p => nth d (shifted h p) 0 / w d) D p q)).
  - intros p q _ _. unfold gauss. f_equal. f_equal. unfold sqdist, sqd. apply Sum_ext. intros d Hd. field. auto.
  - apply mult_gaussian. lra.
Qed.

Lemma quotient_lim p q : (p < n + n * D)%nat -> (q < n + n * D)%nat ->
  is_lim_seq (fun m => quotient (step m) p q) (entry p q).
Proof.
  intros Hp Hq. destruct (index_bound n D p Hp) as [Bp Dp]. destruct (index_bound n D q Hq) as [Bq Dq].
  pose proof (Hx _ Bp) as Lp. pose proof (Hx _ Bq) as Lq.
  unfold quotient, two, entry, coef, shifted. cbn [fst snd].
  set (x := base p) in *. set (y := base q) in *.
  destruct (dir p) as [a|], (dir q) as [b|]; cbn [opt] in Dp, Dq.
  - (* both derivatives *)
    pose proof (Hw a Dp) as Wa. pose proof (Hw b Dq) as Wb.
    set (z := fun d => nth d x 0 - nth d y 0).
    set (sa := z a * / w a ^ 2). set (sb := - (z b * / w b ^ 2)).
    set (ra := / w a ^ 2). set (rb := / w b ^ 2). set (rab := if (a =? b)%nat then 0 else ra + rb).
    assert (Ea : forall h, gauss w D (set_coord a (nth a x 0 + h) x) y = gauss w D x y * exp (- (h * sa + h ^ 2 * ra / 2))).
    { intros h. unfold gauss. rewrite <- exp_plus. f_equal. rewrite (sqd_sym w D Hw), (sqd_right w D) by auto.
      rewrite (sqd_sym w D Hw y x). unfold sa, ra, z. field. auto. }
    assert (Eb : forall h, gauss w D x (set_coord b (nth b y 0 + h) y) = gauss w D x y * exp (- (h * sb + h ^ 2 * rb / 2))).
    { intros h. unfold gauss. rewrite <- exp_plus. f_equal. rewrite (sqd_right w D) by auto. unfold sb, rb, z. field. auto. }
    assert (Eab : forall h, gauss w D (set_coord a (nth a x 0 + h) x) (set_coord b (nth b y 0 + h) y) =
              gauss w D x y * exp (- (h * (sa + sb) + h ^ 2 * rab / 2))).
    { intros h. unfold gauss. rewrite <- exp_plus. f_equal. rewrite (sqd_right w D) by auto.
      rewrite (sqd_sym w D Hw), (sqd_right w D) by auto. rewrite (sqd_sym w D Hw y x).
      rewrite nth_set_coord by lia. unfold rab. destruct (Nat.eqb_spec b a) as [->|N].
      - rewrite Nat.eqb_refl. unfold sa, sb, z. field. auto.
      - destruct (Nat.eqb_spec a b); [lia|]. unfold sa, sb, ra, rb, z. field. auto. }
    apply (is_lim_seq_ext (fun m =>
      gauss w D x y * ((exp (- (step m * (sa + sb) + step m ^ 2 * rab / 2)) - 1 + step m * (sa + sb)) / step m ^ 2) -
      gauss w D x y * ((exp (- (step m * sa + step m ^ 2 * ra / 2)) - 1 + step m * sa) / step m ^ 2) -
      gauss w D x y * ((exp (- (step m * sb + step m ^ 2 * rb / 2)) - 1 + step m * sb) / step m ^ 2))).
    { intros m. rewrite Ea, Eb, Eab. field. pose proof (step_pos m). lra. }
    replace (gjet w D x (Some a) y (Some b)) with
      (gauss w D x y * (((sa + sb) ^ 2 - rab) / 2) - gauss w D x y * ((sa ^ 2 - ra) / 2) - gauss w D x y * ((sb ^ 2 - rb) / 2)).
    2:{ unfold gjet, sa, sb, ra, rb, rab, delta, z. destruct (Nat.eqb_spec a b) as [<-|]; unfold ra, rb; field; auto. }
    apply is_lim_seq_minus'; [apply is_lim_seq_minus'|];
      match goal with |- is_lim_seq (fun m => ?g * @?f m) (Finite (?g * ?l)) => apply (is_lim_seq_scal_l f g l) end;
      apply second_difference.
  - (* derivative, value *)
    pose proof (gauss_left w D Hw x y a Lp Dp) as H. apply derivative_steps in H. cbv beta in H.
    rewrite set_coord_same in H by lia. eapply is_lim_seq_ext; [|exact H]. intros m. cbv beta. field.
    pose proof (step_pos m). lra.
  - pose proof (gauss_right w D Hw x y b Lq Dq) as H. apply derivative_steps in H. cbv beta in H.
    rewrite set_coord_same in H by lia. eapply is_lim_seq_ext; [|exact H]. intros m. cbv beta. field.
    pose proof (step_pos m). lra.
  - eapply is_lim_seq_ext; [|apply is_lim_seq_const]. intros m. cbv beta. unfold gjet. ring.
Qed.

Lemma entry_mult : mult (fun p => (p < n + n * D)%nat) entry.
Proof.
  apply mult_lim with (ks := fun m => quotient (step m)); [intros m; apply quotient_mult|]. intros; apply quotient_lim; auto.
Qed.

Lemma entry_symm : symm (n + n * D) entry.
Proof.
  intros p q Hp Hq. unfold entry, gjet. rewrite (gauss_sym w D Hw (base q) (base p)).
  destruct (dir p) as [a|], (dir q) as [b|]; try ring.
  unfold delta. rewrite (Nat.eqb_sym b a). destruct (Nat.eqb_spec a b) as [->|]; ring.
Qed.
End GaussPSD.
