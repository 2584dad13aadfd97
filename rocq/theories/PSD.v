(** Positive semidefinite kernels and their closure properties, up to the
    gaussian, laplacian and rational quadratic kernels.  Pure mathematics: nothing
    here models CatLearn code. *)
From Coq Require Import Reals Lra Lia.
From Coquelicot Require Import Coquelicot.
From Verif Require Import LinAlg.
Open Scope R_scope.

Section Kernels.
Context {X : Type}.
Variable P : X -> Prop.
Notation kern := (X -> X -> R).

Definition form (n : nat) (c : nat -> R) (x : nat -> X) (k : kern) : R :=
  Sum n (fun i => Sum n (fun j => c i * c j * k (x i) (x j))).

(** All finite quadratic forms over points satisfying P are not negative. *)
Definition psd (k : kern) : Prop :=
  forall n c x, (forall i, (i < n)%nat -> P (x i)) -> 0 <= form n c x k.

(** Kernels whose product with any positive semidefinite kernel is one again. *)
Definition mult (k : kern) : Prop := forall k', psd k' -> psd (fun x y => k x y * k' x y).

Lemma form_ext n c x k k' : (forall i, (i < n)%nat -> P (x i)) ->
  (forall a b, P a -> P b -> k a b = k' a b) -> form n c x k = form n c x k'.
Proof. intros HP H. apply Sum_ext. intros i Hi. apply Sum_ext. intros j Hj. rewrite H; auto. Qed.

Lemma psd_ext k k' : (forall a b, P a -> P b -> k a b = k' a b) -> psd k -> psd k'.
Proof. intros H HK n c x HP. rewrite <- (form_ext n c x k k'); auto. Qed.

Lemma mult_ext k k' : (forall a b, P a -> P b -> k a b = k' a b) -> mult k -> mult k'.
Proof.
  intros H HK q Hq. apply psd_ext with (k := fun x y => k x y * q x y); auto.
  intros a b Ha Hb. rewrite H; auto.
Qed.

Lemma psd_one : psd (fun _ _ => 1).
Proof.
  intros n c x _. unfold form.
  assert (E : Sum n (fun i => Sum n (fun j => c i * c j * 1)) = Sum n c * Sum n c).
  { rewrite <- Sum_scal_r. apply Sum_ext. intros i _. rewrite <- Sum_scal. apply Sum_ext. intros; ring. }
  rewrite E. nra.
Qed.

Lemma mult_psd k : mult k -> psd k.
Proof.
  intros H. apply psd_ext with (k := fun x y => k x y * 1); [intros; ring|]. apply H, psd_one.
Qed.

Lemma psd_plus k k' : psd k -> psd k' -> psd (fun x y => k x y + k' x y).
Proof.
  intros H H' n c x HP. specialize (H n c x HP). specialize (H' n c x HP).
  assert (E : form n c x (fun a b => k a b + k' a b) = form n c x k + form n c x k').
  { unfold form. rewrite <- Sum_plus. apply Sum_ext. intros i _. rewrite <- Sum_plus. apply Sum_ext. intros; ring. }
  rewrite E. lra.
Qed.

Lemma psd_scal a k : 0 <= a -> psd k -> psd (fun x y => a * k x y).
Proof.
  intros Ha H n c x HP. specialize (H n c x HP).
  assert (E : form n c x (fun u v => a * k u v) = a * form n c x k).
  { unfold form. rewrite <- Sum_scal. apply Sum_ext. intros i _. rewrite <- Sum_scal. apply Sum_ext. intros; ring. }
  rewrite E. apply Rmult_le_pos; auto.
Qed.

Lemma psd_zero : psd (fun _ _ => 0).
Proof. apply psd_ext with (k := fun x y => 0 * 1); [intros; ring|]. apply psd_scal; [lra|apply psd_one]. Qed.

Lemma psd_rank1 f k : psd k -> psd (fun x y => f x * f y * k x y).
Proof.
  intros H n c x HP. specialize (H n (fun i => c i * f (x i)) x HP).
  assert (E : form n c x (fun u v => f u * f v * k u v) = form n (fun i => c i * f (x i)) x k).
  { apply Sum_ext. intros i _. apply Sum_ext. intros; ring. }
  lra.
Qed.

Lemma psd_lim (ks : nat -> kern) (k : kern) :
  (forall m, psd (ks m)) -> (forall a b, P a -> P b -> is_lim_seq (fun m => ks m a b) (k a b)) -> psd k.
Proof.
  intros H L n c x HP.
  assert (LS : forall N (f : nat -> nat -> R) (g : nat -> R), (forall i, (i < N)%nat -> is_lim_seq (fun m => f m i) (g i)) ->
            is_lim_seq (fun m => Sum N (f m)) (Sum N g)).
  { induction N as [|N IH]; cbn; intros f g HL; [apply is_lim_seq_const|].
    apply (is_lim_seq_plus' (fun m => Sum N (f m)) (fun m => f m N)); [apply IH; intros; apply HL; lia|apply HL; lia]. }
  assert (LF : is_lim_seq (fun m => form n c x (ks m)) (form n c x k)).
  { apply (LS n (fun m i => Sum n (fun j => c i * c j * ks m (x i) (x j)))). intros i Hi.
    apply (LS n (fun m j => c i * c j * ks m (x i) (x j))). intros j Hj.
    apply (is_lim_seq_scal_l (fun m => ks m (x i) (x j)) (c i * c j) (k (x i) (x j))). apply L; auto. }
  assert (Q := is_lim_seq_le (fun _ => 0) (fun m => form n c x (ks m)) 0 (form n c x k)).
  cbn in Q. apply Q; auto.
  - intros m. apply H; auto.
  - apply is_lim_seq_const.
Qed.

Lemma psd_RInt (kt : R -> kern) (k : kern) a b : a <= b ->
  (forall t, a < t < b -> psd (kt t)) ->
  (forall u v, P u -> P v -> is_RInt (fun t => kt t u v) a b (k u v)) -> psd k.
Proof.
  intros Hab H I n c x HP.
  assert (LS : forall N (f : R -> nat -> R) (g : nat -> R), (forall i, (i < N)%nat -> is_RInt (fun t => f t i) a b (g i)) ->
            is_RInt (fun t => Sum N (f t)) a b (Sum N g)).
  { induction N as [|N IH]; cbn; intros f g HL.
    - evar_last. apply (is_RInt_const a b 0). unfold scal; cbn. unfold Hierarchy.mult; cbn. ring.
    - apply (is_RInt_plus (fun t => Sum N (f t)) (fun t => f t N)); [apply IH; intros; apply HL; lia|apply HL; lia]. }
  assert (LF : is_RInt (fun t => form n c x (kt t)) a b (form n c x k)).
  { apply (LS n (fun t i => Sum n (fun j => c i * c j * kt t (x i) (x j)))). intros i Hi.
    apply (LS n (fun t j => c i * c j * kt t (x i) (x j))). intros j Hj.
    apply (is_RInt_scal (fun t => kt t (x i) (x j)) a b (c i * c j)). apply I; auto. }
  eapply is_RInt_ge_0; [exact Hab|exact LF|]. intros t Ht. apply H; auto.
Qed.

(** ** Multipliers *)
Lemma mult_const a : 0 <= a -> mult (fun _ _ => a).
Proof. intros Ha k Hk. apply psd_scal; auto. Qed.

Lemma mult_rank1 f : mult (fun x y => f x * f y).
Proof. intros k Hk. apply psd_rank1; auto. Qed.

Lemma mult_plus k1 k2 : mult k1 -> mult k2 -> mult (fun x y => k1 x y + k2 x y).
Proof.
  intros H1 H2 k Hk. apply psd_ext with (k := fun x y => k1 x y * k x y + k2 x y * k x y); [intros; ring|].
  apply psd_plus; auto.
Qed.

Lemma mult_mult k1 k2 : mult k1 -> mult k2 -> mult (fun x y => k1 x y * k2 x y).
Proof.
  intros H1 H2 k Hk. apply psd_ext with (k := fun x y => k1 x y * (k2 x y * k x y)); [intros; ring|]. auto.
Qed.

Lemma mult_scal a k : 0 <= a -> mult k -> mult (fun x y => a * k x y).
Proof. intros Ha H. apply (mult_mult (fun _ _ => a) k); auto. apply mult_const; auto. Qed.

Lemma mult_Sum n (ks : nat -> kern) : (forall i, (i < n)%nat -> mult (ks i)) -> mult (fun x y => Sum n (fun i => ks i x y)).
Proof.
  induction n as [|n IH]; cbn; intros H; [apply mult_const; lra|].
  apply (mult_plus (fun x y => Sum n (fun i => ks i x y))); auto.
Qed.

Lemma mult_pow k n : mult k -> mult (fun x y => k x y ^ n).
Proof.
  intros H. induction n as [|n IH]; cbn; [apply mult_const; lra|]. apply (mult_mult k); auto.
Qed.

Lemma mult_lim (ks : nat -> kern) (k : kern) :
  (forall m, mult (ks m)) -> (forall a b, P a -> P b -> is_lim_seq (fun m => ks m a b) (k a b)) -> mult k.
Proof.
  intros H L q Hq. apply psd_lim with (ks := fun m x y => ks m x y * q x y).
  - intros m. apply H; auto.
  - intros a b Ha Hb. apply (is_lim_seq_scal_r (fun m => ks m a b) (q a b) (k a b)). auto.
Qed.

Lemma mult_RInt (kt : R -> kern) (k : kern) a b : a <= b ->
  (forall t, a < t < b -> mult (kt t)) ->
  (forall u v, P u -> P v -> is_RInt (fun t => kt t u v) a b (k u v)) -> mult k.
Proof.
  intros Hab H I q Hq. apply psd_RInt with (kt := fun t x y => kt t x y * q x y) (a := a) (b := b); auto.
  - intros t Ht. apply H; auto.
  - intros u v Hu Hv. evar_last.
    + apply (is_RInt_ext (fun t => scal (q u v) (kt t u v))); [intros; unfold scal; cbn; unfold Hierarchy.mult; cbn; ring|].
      apply (is_RInt_scal (fun t => kt t u v) a b (q u v)). apply I; auto.
    + unfold scal; cbn; unfold Hierarchy.mult; cbn; ring.
Qed.

Lemma mult_exp k : mult k -> mult (fun x y => exp (k x y)).
Proof.
  intros H. apply mult_lim with (ks := fun m x y => sum_f_R0 (fun i => / INR (fact i) * k x y ^ i) m).
  - induction m as [|m IH]; cbn [sum_f_R0].
    + apply mult_scal; [|apply mult_pow; auto]. left. apply Rinv_0_lt_compat. apply INR_fact_lt_0.
    + apply (mult_plus (fun x y => sum_f_R0 (fun i => / INR (fact i) * k x y ^ i) m)); auto.
      apply mult_scal; [|apply mult_pow; auto]. left. apply Rinv_0_lt_compat. apply INR_fact_lt_0.
  - intros a b _ _. apply is_lim_seq_Reals. apply (E1_cvg (k a b)).
Qed.

(** ** Products over features *)
Fixpoint Prod (n : nat) (f : nat -> R) : R := match n with 0%nat => 1 | S m => Prod m f * f m end.

Lemma exp_Sum n f : exp (Sum n f) = Prod n (fun i => exp (f i)).
Proof. induction n as [|n IH]; cbn; [apply exp_0|]. rewrite exp_plus, IH. auto. Qed.

Lemma mult_Prod n (ks : nat -> kern) : (forall i, (i < n)%nat -> mult (ks i)) -> mult (fun x y => Prod n (fun i => ks i x y)).
Proof.
  induction n as [|n IH]; cbn; intros H; [apply mult_const; lra|].
  apply (mult_mult (fun x y => Prod n (fun i => ks i x y))); auto.
Qed.

(** Squared distance of the features u 0, ..., u (D-1). *)
Variable u : nat -> X -> R.
Definition sqdist (D : nat) (x y : X) : R := Sum D (fun i => (u i x - u i y) ^ 2).
Definition cityblock (D : nat) (x y : X) : R := Sum D (fun i => Rabs (u i x - u i y)).

Lemma sqdist_nonneg D x y : 0 <= sqdist D x y.
Proof. apply Sum_nonneg. intros i _. apply pow2_ge_0. Qed.

(** gaussian kernel *)
Lemma mult_gaussian D s : 0 <= s -> mult (fun x y => exp (- s * sqdist D x y)).
Proof.
  intros Hs.
  apply mult_ext with (k := fun x y => Prod D (fun i => exp (- s * (u i x - u i y) ^ 2))).
  { intros a b _ _. unfold sqdist. rewrite <- Sum_scal, exp_Sum. auto. }
  apply mult_Prod. intros i _.
  apply mult_ext with (k := fun x y => (exp (- s * u i x ^ 2) * exp (- s * u i y ^ 2)) *
                                       exp (2 * s * (u i x * u i y))).
  { intros a b _ _. rewrite <- !exp_plus. f_equal. ring. }
  apply (mult_mult (fun x y => exp (- s * u i x ^ 2) * exp (- s * u i y ^ 2))).
  - apply (mult_rank1 (fun x => exp (- s * u i x ^ 2))).
  - apply mult_exp, mult_scal; [lra|]. apply (mult_rank1 (u i)).
Qed.

(** linear kernel *)
Lemma mult_linear D : mult (fun x y => Sum D (fun i => u i x * u i y)).
Proof. apply (mult_Sum D (fun i x y => u i x * u i y)). intros i _. apply (mult_rank1 (u i)). Qed.

(** laplacian kernel: minima of positive numbers are counted *)
Definition ind (a b : R) : R := if Rle_dec a b then 1 else 0.

Lemma ind_count M r : 0 <= r <= INR M -> r - 1 < Sum M (fun k => ind (INR (S k)) r) <= r.
Proof.
  induction M as [|M IH].
  - cbn. lra.
  - intros [H0 H1]. cbn [Sum]. destruct (Rle_dec r (INR M)) as [Hle|Hgt].
    + unfold ind at 2 4. destruct (Rle_dec (INR (S M)) r) as [C|C].
      * rewrite S_INR in C. lra.
      * specialize (IH (conj H0 Hle)). lra.
    + assert (E : Sum M (fun k => ind (INR (S k)) r) = INR M).
      { assert (G : forall m, (m <= M)%nat -> Sum m (fun k => ind (INR (S k)) r) = INR m).
        { induction m as [|m IHm]; intros Hm; [reflexivity|]. cbn [Sum]. rewrite IHm by lia.
          unfold ind. destruct (Rle_dec (INR (S m)) r) as [C|C]; [rewrite S_INR; lra|].
          exfalso. apply C. apply le_INR in Hm. lra. }
        apply G. lia. }
      rewrite E. unfold ind. rewrite S_INR in *. destruct (Rle_dec (INR M + 1) r); lra.
Qed.

Lemma ind_min a b r : 0 <= r -> ind a (Rmin b r) = ind a b * ind a r.
Proof.
  intros _. unfold ind, Rmin.
  destruct (Rle_dec b r), (Rle_dec a b), (Rle_dec a r); try lra.
Qed.

Lemma mult_min (v : X -> R) : (forall x, P x -> 0 <= v x) -> mult (fun x y => Rmin (v x) (v y)).
Proof.
  intros Hv.
  apply mult_lim with (ks := fun m x y =>
     / INR (S m) * Sum (S m * S m) (fun k => ind (INR (S k)) (INR (S m) * v x) * ind (INR (S k)) (INR (S m) * v y))).
  - intros m. apply mult_scal; [left; apply Rinv_0_lt_compat, lt_0_INR; lia|].
    apply (mult_Sum (S m * S m) (fun k x y => ind (INR (S k)) (INR (S m) * v x) * ind (INR (S k)) (INR (S m) * v y))).
    intros k _. apply (mult_rank1 (fun x => ind (INR (S k)) (INR (S m) * v x))).
  - intros a b Ha Hb. set (c := Rmin (v a) (v b)).
    assert (Hc : 0 <= c) by (apply Rmin_glb; auto).
    destruct (nfloor_ex c Hc) as [N0 [_ HN]].
    assert (E : forall m, (N0 <= m)%nat ->
      c - / INR (S m) <= / INR (S m) * Sum (S m * S m)
        (fun k => ind (INR (S k)) (INR (S m) * v a) * ind (INR (S k)) (INR (S m) * v b)) <= c).
    { intros m Hm. assert (Hp : 0 < INR (S m)) by (apply lt_0_INR; lia).
      rewrite (Sum_ext _ _ (fun k => ind (INR (S k)) (INR (S m) * c))).
      2:{ intros k _. unfold c. rewrite <- ind_min by (apply Rmult_le_pos; [lra|auto]).
          f_equal. unfold Rmin. destruct (Rle_dec (v a) (v b)), (Rle_dec (INR (S m) * v a) (INR (S m) * v b)); auto; exfalso; nra. }
      destruct (ind_count (S m * S m) (INR (S m) * c)) as [H1 H2].
      { split; [apply Rmult_le_pos; lra|]. rewrite mult_INR. apply Rmult_le_compat_l; [lra|].
        apply le_INR in Hm. rewrite S_INR. lra. }
      split.
      - apply Rmult_le_reg_l with (INR (S m)); auto. rewrite <- Rmult_assoc, Rinv_r, Rmult_1_l by lra.
        rewrite Rmult_minus_distr_l, Rinv_r by lra. lra.
      - apply Rmult_le_reg_l with (INR (S m)); auto. rewrite <- Rmult_assoc, Rinv_r, Rmult_1_l by lra. lra. }
    apply is_lim_seq_le_le_loc with (u := fun m => c - / INR (S m)) (w := fun _ => c).
    + exists N0. intros m Hm. apply E; auto.
    + replace (Finite c) with (Finite (c - 0)) by (f_equal; ring).
      apply is_lim_seq_minus'; [apply is_lim_seq_const|].
      apply (is_lim_seq_incr_1 (fun m => / INR m)). replace (Finite 0) with (Rbar_inv p_infty) by reflexivity.
      apply is_lim_seq_inv; [apply is_lim_seq_INR|discriminate].
    + apply is_lim_seq_const.
Qed.

Lemma mult_laplacian D : mult (fun x y => exp (- cityblock D x y)).
Proof.
  apply mult_ext with (k := fun x y => Prod D (fun i => exp (- Rabs (u i x - u i y)))).
  { intros a b _ _. unfold cityblock. rewrite <- exp_Sum. f_equal.
    transitivity (Sum D (fun i => -1 * Rabs (u i a - u i b))); [apply Sum_ext; intros; ring|].
    rewrite Sum_scal. ring. }
  apply mult_Prod. intros i _.
  apply mult_ext with (k := fun x y => (exp (- u i x) * exp (- u i y)) * Rmin (exp (2 * u i x)) (exp (2 * u i y))).
  { intros a b _ _. unfold Rmin. destruct (Rle_dec (exp (2 * u i a)) (exp (2 * u i b))) as [H|H].
    - assert (u i a <= u i b).
      { destruct (Rle_dec (u i a) (u i b)); auto. exfalso.
        assert (exp (2 * u i b) < exp (2 * u i a)) by (apply exp_increasing; lra). lra. }
      rewrite <- !exp_plus. f_equal. rewrite Rabs_left1 by lra. ring.
    - assert (u i b <= u i a).
      { destruct (Rle_dec (u i b) (u i a)); auto. exfalso.
        assert (exp (2 * u i a) < exp (2 * u i b)) by (apply exp_increasing; lra). lra. }
      rewrite <- !exp_plus. f_equal. rewrite Rabs_pos_eq by lra. ring. }
  apply (mult_mult (fun x y => exp (- u i x) * exp (- u i y))).
  - apply (mult_rank1 (fun x => exp (- u i x))).
  - apply (mult_min (fun x => exp (2 * u i x))). intros; left; apply exp_pos.
Qed.

(** rational quadratic kernel *)
Lemma exp_neg_lim A : 1 <= A -> is_lim_seq (fun n => exp (- (INR n * A))) 0.
Proof.
  intros HA. apply is_lim_seq_le_le with (u := fun _ => 0) (w := fun n => / (INR n + 1)).
  - intros n. split; [left; apply exp_pos|]. rewrite exp_Ropp. apply Rinv_le_contravar.
    + pose proof (pos_INR n). lra.
    + pose proof (pos_INR n). apply Rle_trans with (1 + INR n * A); [nra|].
      destruct (Req_dec (INR n * A) 0) as [->|E]; [rewrite exp_0; lra|]. left. apply exp_ineq1; auto.
  - apply is_lim_seq_const.
  - apply (is_lim_seq_ext (fun n => / INR (S n))); [intros; rewrite S_INR; auto|].
    apply (is_lim_seq_incr_1 (fun m => / INR m)). replace (Finite 0) with (Rbar_inv p_infty) by reflexivity.
    apply is_lim_seq_inv; [apply is_lim_seq_INR|discriminate].
Qed.

Lemma mult_inv D t : 0 <= t -> mult (fun x y => / (1 + t * sqdist D x y)).
Proof.
  intros Ht.
  assert (A1 : forall x y, 1 <= 1 + t * sqdist D x y).
  { intros x y. pose proof (sqdist_nonneg D x y). nra. }
  apply mult_lim with (ks := fun m x y => (1 - exp (- (INR m * (1 + t * sqdist D x y)))) / (1 + t * sqdist D x y)).
  - intros m. apply mult_RInt with (kt := fun s x y => exp (- s) * exp (- (s * t) * sqdist D x y)) (a := 0) (b := INR m).
    + apply pos_INR.
    + intros s Hs. apply mult_scal; [left; apply exp_pos|]. apply mult_gaussian. nra.
    + intros x y _ _. specialize (A1 x y). set (A := 1 + t * sqdist D x y) in *.
      apply (is_RInt_ext (fun s => exp (- (s * A)))).
      { intros s _. rewrite <- exp_plus. f_equal. unfold A. ring. }
      evar_last.
      * apply (is_RInt_derive (fun s => - exp (- (s * A)) / A)).
        -- intros s _. auto_derive; [lra|]. field. lra.
        -- intros s _. apply (ex_derive_continuous (fun s => exp (- (s * A)))). auto_derive. auto.
      * unfold minus, plus, opp; cbn. rewrite Rmult_0_l, Ropp_0, exp_0. field. lra.
  - intros x y _ _. specialize (A1 x y). set (A := 1 + t * sqdist D x y) in *.
    replace (/ A) with ((1 - 0) * / A) by ring.
    apply (is_lim_seq_scal_r (fun m => 1 - exp (- (INR m * A))) (/ A) (1 - 0)).
    apply is_lim_seq_minus'; [apply is_lim_seq_const|]. apply exp_neg_lim; auto.
Qed.

Lemma mult_quadratic D d s : 0 <= d -> 0 <= s -> mult (fun x y => Rpower (1 + s * sqdist D x y) (- d)).
Proof.
  intros Hd Hs.
  assert (Q0 : forall x y, 0 <= s * sqdist D x y).
  { intros x y. pose proof (sqdist_nonneg D x y). nra. }
  apply mult_lim with (ks := fun m x y =>
     exp (d * (ln (1 + / INR (S m) * (s * sqdist D x y)) - ln (1 + s * sqdist D x y)))).
  - intros m. set (e := / INR (S m)).
    assert (He : 0 < e <= 1).
    { unfold e. split; [apply Rinv_0_lt_compat, lt_0_INR; lia|]. rewrite <- Rinv_1. apply Rinv_le_contravar; [lra|].
      rewrite S_INR. pose proof (pos_INR m). lra. }
    apply mult_ext with (k := fun x y => exp (d * ln e) *
        exp (d * (ln (1 + e * (s * sqdist D x y)) - ln (1 + s * sqdist D x y) - ln e))).
    { intros x y _ _. rewrite <- exp_plus. f_equal. ring. }
    apply mult_scal; [left; apply exp_pos|]. apply mult_exp, mult_scal; auto.
    apply mult_RInt with (kt := fun t x y => / t * / (1 + (t * s) * sqdist D x y)) (a := e) (b := 1); [lra| |].
    + intros t Ht. apply mult_scal; [left; apply Rinv_0_lt_compat; lra|]. apply mult_inv. nra.
    + intros x y _ _. specialize (Q0 x y). set (q := s * sqdist D x y) in *.
      assert (Bt : forall t, Rmin e 1 <= t <= Rmax e 1 -> 0 < t /\ 0 < 1 + t * q).
      { intros t Ht. rewrite Rmin_left, Rmax_right in Ht by lra. split; [lra|]. nra. }
      evar_last.
      * apply (is_RInt_derive (fun t => ln t - ln (1 + t * q))).
        -- intros t Ht. destruct (Bt t Ht). auto_derive; [lra|]. unfold q. field.
           repeat split; try lra; rewrite ?Rmult_assoc; fold q; lra.
        -- intros t Ht. destruct (Bt t Ht). apply (ex_derive_continuous (fun t => / t * / (1 + t * s * sqdist D x y))).
           auto_derive. repeat split; try lra; rewrite ?Rmult_assoc; fold q; lra.
      * unfold minus, plus, opp; cbn. rewrite ln_1, Rmult_1_l. ring.
  - intros x y _ _. specialize (Q0 x y). set (q := s * sqdist D x y) in *. unfold Rpower.
    replace (- d * ln (1 + q)) with (d * (ln (1 + 0 * q) - ln (1 + q))).
    2:{ rewrite Rmult_0_l, Rplus_0_r, ln_1. ring. }
    apply (is_lim_seq_continuous (fun e => exp (d * (ln (1 + e * q) - ln (1 + q)))) (fun m => / INR (S m)) 0).
    + apply continuity_pt_filterlim. apply (ex_derive_continuous (fun e => exp (d * (ln (1 + e * q) - ln (1 + q))))).
      auto_derive. lra.
    + apply (is_lim_seq_incr_1 (fun m => / INR m)). replace (Finite 0) with (Rbar_inv p_infty) by reflexivity.
      apply is_lim_seq_inv; [apply is_lim_seq_INR|discriminate].
Qed.
End Kernels.
