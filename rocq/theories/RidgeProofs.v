(** Linear algebra behind ridge regression. *)
From Coq Require Import Reals Lra Lia List Arith Bool.
From Verif Require Import Base BaseFacts RBase LinAlg.
Import ListNotations.
Open Scope R_scope.

Definition tr (A : mat) : mat := fun i j => A j i.
Definition orthogonal (n : nat) (Q : mat) : Prop := eqm n (mulm n (tr Q) Q) ident /\ eqm n (mulm n Q (tr Q)) ident.

(** A = V diag(s) Vh *)
Definition decomposes (n : nat) (A V : mat) (s : vec) (Vh : mat) : Prop :=
  eqm n A (fun i j => Sum n (fun k => V i k * s k * Vh k j)).

Lemma mulv_plus n A x y i : mulv n A (fun j => x j + y j) i = mulv n A x i + mulv n A y i.
Proof. unfold mulv. rewrite <- Sum_plus. apply Sum_ext. intros; ring. Qed.
Lemma mulv_scal n A c x i : mulv n A (fun j => c * x j) i = c * mulv n A x i.
Proof. unfold mulv. rewrite <- Sum_scal. apply Sum_ext. intros; ring. Qed.
Lemma mulv_minus n A x y i : mulv n A (fun j => x j - y j) i = mulv n A x i - mulv n A y i.
Proof. unfold mulv. rewrite <- Sum_minus. apply Sum_ext. intros; ring. Qed.

Lemma dot_tr n A x y : dotv n x (mulv n A y) = dotv n (mulv n (tr A) x) y.
Proof.
  unfold dotv, mulv, tr. transitivity (Sum n (fun i => Sum n (fun j => x i * A i j * y j))).
  - apply Sum_ext. intros i _. rewrite <- Sum_scal. apply Sum_ext. intros; ring.
  - rewrite Sum_swap. apply Sum_ext. intros j _. rewrite <- Sum_scal_r. apply Sum_ext. intros; ring.
Qed.

Lemma decomposes_mulv n A V s Vh x : decomposes n A V s Vh -> eqv n (mulv n A x) (mulv n V (fun k => s k * mulv n Vh x k)).
Proof.
  intros H i Hi. unfold mulv at 1. transitivity (Sum n (fun j => Sum n (fun k => V i k * s k * Vh k j) * x j)).
  { apply Sum_ext. intros j Hj. rewrite H by auto. auto. }
  transitivity (Sum n (fun j => Sum n (fun k => V i k * s k * Vh k j * x j))).
  { apply Sum_ext. intros j _. rewrite <- Sum_scal_r. auto. }
  rewrite Sum_swap. unfold mulv. apply Sum_ext. intros k _. rewrite <- !Sum_scal. apply Sum_ext. intros; ring.
Qed.

Lemma orth_l n Q x : orthogonal n Q -> eqv n (mulv n (tr Q) (mulv n Q x)) x.
Proof. intros [H1 H2]. apply mulv_inverse. split; auto. Qed.
Lemma orth_r n Q x : orthogonal n Q -> eqv n (mulv n Q (mulv n (tr Q) x)) x.
Proof. intros [H1 H2]. apply mulv_inverse. split; auto. Qed.

(** The singular value decomposition of a symmetric positive semidefinite matrix is its
    spectral decomposition: the left factor is the transpose of the right one. *)
Lemma dotv_self_zero n x : dotv n x x = 0 -> eqv n x (fun _ => 0).
Proof.
  intros H i Hi. assert (x i * x i = 0).
  { apply (Sum_pos_zero n (fun i => x i * x i)); auto. intros j _. nra. }
  nra.
Qed.

Section Psd.
Variables (n : nat) (A V : mat) (s : vec) (Vh : mat).
Hypothesis HS : symm n A.
Hypothesis HP : possemidef n A.
Hypothesis HV : orthogonal n V.
Hypothesis HVh : orthogonal n Vh.
Hypothesis Hs : forall k, (k < n)%nat -> 0 <= s k.
Hypothesis HD : decomposes n A V s Vh.

(** B = Vh A Vh^T acts as Vh V diag(s). *)
Let B (x : vec) : vec := mulv n Vh (mulv n A (mulv n (tr Vh) x)).
Let S (x : vec) : vec := fun k => s k * x k.

Lemma B_ext x y : eqv n x y -> eqv n (B x) (B y).
Proof. intros H. unfold B. repeat (apply mulv_ext; [intros ? ? ? ?; auto|]). auto. Qed.

Lemma B_sym x y : dotv n x (B y) = dotv n (B x) y.
Proof.
  unfold B. rewrite dot_tr. rewrite (dotv_symm n A) by auto. rewrite dot_tr.
  apply dotv_ext; [|intros ? ?; auto]. intros i Hi. unfold mulv, tr. auto.
Qed.

Lemma B_pos x : 0 <= dotv n x (B x).
Proof. unfold B. rewrite dot_tr. rewrite <- quad_dot. apply HP. Qed.

Lemma B_QS x : eqv n (B x) (mulv n Vh (mulv n V (S x))).
Proof.
  unfold B. apply mulv_ext; [intros ? ? ? ?; auto|]. intros i Hi. rewrite (decomposes_mulv n A V s Vh _ HD) by auto.
  apply mulv_ext; [intros ? ? ? ?; auto| |auto]. intros k Hk. unfold S. rewrite (orth_r n Vh x HVh) by auto. auto.
Qed.

(** |B x| = |S x| *)
Lemma orth_dot Q x y : orthogonal n Q -> dotv n (mulv n Q x) (mulv n Q y) = dotv n x y.
Proof. intros H. rewrite dot_tr. apply dotv_ext; [|intros ? ?; auto]. apply orth_l; auto. Qed.

Lemma B_square x y : dotv n (B x) (B y) = dotv n (S x) (S y).
Proof.
  rewrite (dotv_ext n _ _ _ _ (B_QS x) (B_QS y)). rewrite !orth_dot; auto.
Qed.

Lemma BB x : eqv n (B (B x)) (S (S x)).
Proof.
  intros i Hi. set (e := fun k => if (k =? i)%nat then 1 else 0).
  assert (D1 : forall y, dotv n e y = y i).
  { intros y. unfold dotv, e. transitivity (Sum n (fun j => (if (i =? j)%nat then 1 else 0) * y j)); [|apply Sum_delta; auto].
    apply Sum_ext. intros j _. rewrite (Nat.eqb_sym j i). auto. }
  rewrite <- (D1 (B (B x))), <- (D1 (S (S x))). rewrite B_sym, B_square. unfold dotv, S. apply Sum_ext. intros; ring.
Qed.

Lemma S_ext x y : eqv n x y -> eqv n (S x) (S y).
Proof. intros H i Hi. unfold S. rewrite H; auto. Qed.

Lemma B_lin a b x y : eqv n (B (fun i => a * x i + b * y i)) (fun i => a * B x i + b * B y i).
Proof.
  intros i Hi. unfold B.
  assert (L : forall M x y, forall i, mulv n M (fun i => a * x i + b * y i) i = a * mulv n M x i + b * mulv n M y i).
  { intros M u v k. unfold mulv. rewrite <- !Sum_scal, <- Sum_plus. apply Sum_ext. intros; ring. }
  rewrite <- L. apply mulv_ext; [intros ? ? ? ?; auto| |auto]. intros j Hj. rewrite <- L.
  apply mulv_ext; [intros ? ? ? ?; auto| |auto]. intros k Hk. apply L.
Qed.

(** B commutes with S^2, hence with S. *)
Lemma B_unit_entry i j : (i < n)%nat -> (j < n)%nat ->
  let e := fun k => if (k =? j)%nat then 1 else 0 in (s i - s j) * B e i = 0.
Proof.
  intros Hi Hj e.
  assert (Se : eqv n (S (S e)) (fun k => (s j * s j) * e k)).
  { intros k Hk. unfold S, e. destruct (Nat.eqb_spec k j) as [->|]; ring. }
  assert (E1 : B (B (B e)) i = s i * (s i * B e i)) by (rewrite (BB (B e)) by auto; reflexivity).
  assert (E2 : B (B (B e)) i = s j * s j * B e i).
  { rewrite (B_ext (B (B e)) (fun k => (s j * s j) * e k + 0 * 0)); auto.
    - rewrite (B_lin (s j * s j) 0 e (fun _ => 0) i Hi). ring.
    - intros k Hk. rewrite (BB e) by auto. rewrite Se by auto. ring. }
  assert ((s i - s j) * (s i + s j) * B e i = 0) by nra.
  destruct (Req_dec (s i + s j) 0) as [Z|Z].
  - pose proof (Hs i Hi). pose proof (Hs j Hj). assert (s i = 0) by lra. assert (s j = 0) by lra. nra.
  - apply (Rmult_eq_reg_l (s i + s j)); [|auto]. rewrite Rmult_0_r. nra.
Qed.

Lemma B_matrix x i : (i < n)%nat -> B x i = Sum n (fun j => B (fun k => if (k =? j)%nat then 1 else 0) i * x j).
Proof.
  intros Hi. set (M := mulm n Vh (mulm n A (tr Vh))).
  assert (HM : forall y, eqv n (B y) (mulv n M y)).
  { intros y k Hk. unfold B, M. rewrite mulv_mulm by auto. rewrite mulv_mulm by auto.
    apply mulv_ext; [|intros ? ?; auto|auto]. intros a b Ha Hb.
    unfold mulm. transitivity (Sum n (fun u => Sum n (fun v => Vh a v * A v u * tr Vh u b))).
    - apply Sum_ext. intros u _. rewrite <- Sum_scal_r. auto.
    - rewrite Sum_swap. apply Sum_ext. intros v _. rewrite <- Sum_scal. apply Sum_ext. intros; ring. }
  rewrite HM by auto. unfold mulv at 1. apply Sum_ext. intros j Hj. rewrite HM by auto. f_equal. unfold mulv.
  symmetry. apply Sum_delta_r; auto.
Qed.

Lemma BS_comm x : eqv n (B (S x)) (S (B x)).
Proof.
  intros i Hi. unfold S at 2. rewrite !B_matrix by auto. rewrite <- Sum_scal. apply Sum_ext. intros j Hj.
  pose proof (B_unit_entry i j Hi Hj) as E. cbv zeta in E. unfold S.
  set (b := B _ i) in *. assert (E2 : s i * b = s j * b) by lra. rewrite <- (Rmult_assoc (s i)), E2. ring.
Qed.

Lemma B_is_S x : eqv n (B x) (S x).
Proof.
  set (y := fun i => 1 * B x i + (-1) * S x i).
  assert (Y1 : eqv n (fun i => B y i + S y i) (fun _ => 0)).
  { intros i Hi. unfold y at 1. rewrite (B_lin 1 (-1) (B x) (S x)) by auto. rewrite (BB x), (BS_comm x) by auto.
    unfold y, S. cbv beta. ring. }
  assert (Q : dotv n y (B y) + dotv n y (S y) = 0).
  { unfold dotv. rewrite <- Sum_plus. apply Sum_zero. intros i Hi. pose proof (Y1 i Hi) as E. cbv beta in E. nra. }
  pose proof (B_pos y) as P1.
  assert (P2 : forall i, (i < n)%nat -> 0 <= y i * S y i) by (intros i Hi; unfold S; pose proof (Hs i Hi); nra).
  pose proof (Sum_nonneg n (fun i => y i * S y i) P2) as P3. fold (dotv n y (S y)) in P3.
  assert (Z : dotv n y (S y) = 0) by lra.
  assert (SY : eqv n (S y) (fun _ => 0)).
  { intros i Hi. pose proof (Sum_pos_zero n (fun i => y i * S y i) P2 Z i Hi) as E. cbv beta in E. apply Rmult_integral in E as [E|E]; [unfold S; rewrite E; ring|exact E]. }
  assert (BY : eqv n (B y) (fun _ => 0)).
  { intros i Hi. pose proof (Y1 i Hi) as E. cbv beta in E. rewrite SY in E by auto. lra. }
  assert (N : dotv n y y = 0).
  { transitivity (dotv n y (B x) - dotv n y (S x)).
    - unfold dotv. rewrite <- Sum_minus. apply Sum_ext. intros i _. unfold y at 2. ring.
    - rewrite B_sym. replace (dotv n y (S x)) with (dotv n (S y) x) by (unfold dotv, S; apply Sum_ext; intros; ring).
      rewrite (dotv_ext n (B y) (fun _ => 0) x x) by (auto; intros ? ?; auto).
      rewrite (dotv_ext n (S y) (fun _ => 0) x x) by (auto; intros ? ?; auto). ring. }
  pose proof (dotv_self_zero n y N) as Z2. intros i Hi. pose proof (Z2 i Hi) as E. unfold y in E. lra.
Qed.

Lemma spectral : decomposes n A (tr Vh) s Vh.
Proof.
  assert (H : forall x, eqv n (mulv n A x) (mulv n (tr Vh) (fun k => s k * mulv n Vh x k))).
  { intros x i Hi.
    assert (E1 : eqv n (mulv n A (mulv n (tr Vh) (mulv n Vh x))) (mulv n A x)).
    { apply mulv_ext; [intros ? ? ? ?; auto|]. apply orth_l; auto. }
    assert (E2 : eqv n (mulv n (tr Vh) (B (mulv n Vh x))) (mulv n A x)).
    { intros k Hk. unfold B. rewrite orth_l by auto. apply E1; auto. }
    rewrite <- E2 by auto. apply mulv_ext; [intros ? ? ? ?; auto| |auto]. apply B_is_S. }
  intros i j Hi Hj. set (e := fun k => if (k =? j)%nat then 1 else 0).
  assert (col : forall M i, mulv n M e i = M i j) by (intros M k; unfold mulv, e; apply Sum_delta_r; auto).
  rewrite <- (col A i), H by auto. unfold mulv at 1. apply Sum_ext. intros k _. rewrite col. unfold tr. ring.
Qed.
End Psd.

(** ** The cost as a quadratic function *)
Section Cost.
Variables (n d : nat) (X : mat) (Y : vec) (w p : R).
Definition fit (a : vec) (i : nat) : R := Sum d (fun j => X i j * a j).
Definition costf (a : vec) : R := Sum n (fun i => (fit a i - Y i) ^ 2) + w * Sum d (fun j => (a j - p) ^ 2).
Definition grad (a : vec) (j : nat) : R := Sum n (fun i => X i j * (fit a i - Y i)) + w * (a j - p).

Lemma fit_plus a h i : fit (fun j => a j + h j) i = fit a i + fit h i.
Proof. unfold fit. rewrite <- Sum_plus. apply Sum_ext. intros; ring. Qed.
Lemma fit_scal c h i : fit (fun j => c * h j) i = c * fit h i.
Proof. unfold fit. rewrite <- Sum_scal. apply Sum_ext. intros; ring. Qed.
Lemma fit_ext a b i : eqv d a b -> fit a i = fit b i.
Proof. intros H. apply Sum_ext. intros j Hj. rewrite H; auto. Qed.
Lemma costf_ext a b : eqv d a b -> costf a = costf b.
Proof.
  intros H. unfold costf. f_equal; [|f_equal]; apply Sum_ext; intros j Hj.
  - rewrite (fit_ext a b); auto.
  - rewrite H; auto.
Qed.

Lemma cost_expand a h : costf (fun j => a j + h j) =
  costf a + 2 * Sum d (fun j => grad a j * h j) + (Sum n (fun i => fit h i ^ 2) + w * Sum d (fun j => h j ^ 2)).
Proof.
  assert (G : Sum d (fun j => grad a j * h j) =
     Sum n (fun i => (fit a i - Y i) * fit h i) + w * Sum d (fun j => (a j - p) * h j)).
  { transitivity (Sum d (fun j => Sum n (fun i => (fit a i - Y i) * (X i j * h j))) + Sum d (fun j => w * ((a j - p) * h j))).
    - rewrite <- Sum_plus. apply Sum_ext. intros j _. unfold grad. rewrite Rmult_plus_distr_r, <- Sum_scal_r. f_equal; [|ring].
      apply Sum_ext. intros; ring.
    - rewrite Sum_swap. f_equal; [|apply Sum_scal]. apply Sum_ext. intros i _. unfold fit at 3. rewrite <- Sum_scal. auto. }
  rewrite G. unfold costf.
  assert (E1 : Sum n (fun i => (fit (fun j => a j + h j) i - Y i) ^ 2) =
    Sum n (fun i => (fit a i - Y i) ^ 2) + (2 * Sum n (fun i => (fit a i - Y i) * fit h i) + Sum n (fun i => fit h i ^ 2))).
  { rewrite <- Sum_scal, <- !Sum_plus. apply Sum_ext. intros i _. rewrite fit_plus. ring. }
  assert (E2 : Sum d (fun j => (a j + h j - p) ^ 2) =
    Sum d (fun j => (a j - p) ^ 2) + (2 * Sum d (fun j => (a j - p) * h j) + Sum d (fun j => h j ^ 2))).
  { rewrite <- Sum_scal, <- !Sum_plus. apply Sum_ext. intros; ring. }
  rewrite E1, E2. ring.
Qed.

Lemma stationary_min a : 0 < w -> (forall j, (j < d)%nat -> grad a j = 0) ->
  forall b, costf a <= costf b /\ (costf b <= costf a -> eqv d b a).
Proof.
  intros Hw HG b. set (h := fun j => b j - a j).
  assert (E : costf b = costf (fun j => a j + h j)) by (apply costf_ext; intros j _; unfold h; ring).
  rewrite E, cost_expand. replace (Sum d (fun j => grad a j * h j)) with 0.
  2:{ symmetry. apply Sum_zero. intros j Hj. rewrite HG by auto. ring. }
  assert (A1 : 0 <= Sum n (fun i => fit h i ^ 2)) by (apply Sum_nonneg; intros; nra).
  assert (A2 : 0 <= Sum d (fun j => h j ^ 2)) by (apply Sum_nonneg; intros; nra).
  split; [nra|]. intros L. assert (Z : Sum d (fun j => h j ^ 2) = 0) by nra.
  intros j Hj. pose proof (Sum_pos_zero d (fun j => h j ^ 2) ltac:(intros; cbv beta; nra) Z j Hj) as Q. cbv beta in Q. unfold h in Q. nra.
Qed.

Lemma min_stationary a : (forall b, costf a <= costf b) -> forall j, (j < d)%nat -> grad a j = 0.
Proof.
  intros HM. set (g := grad a). set (q := Sum n (fun i => fit g i ^ 2) + w * Sum d (fun j => g j ^ 2)).
  set (G := Sum d (fun j => g j * g j)).
  assert (I : forall t, 0 <= - 2 * t * G + t ^ 2 * q).
  { intros t. pose proof (HM (fun j => a j + (- t) * g j)) as H. rewrite cost_expand in H.
    replace (Sum d (fun j => grad a j * (- t * g j))) with (- t * G) in H.
    2:{ unfold G. rewrite <- Sum_scal. apply Sum_ext. intros; fold g; ring. }
    replace (Sum n (fun i => fit (fun j => - t * g j) i ^ 2) + w * Sum d (fun j => (- t * g j) ^ 2)) with (t ^ 2 * q) in H; [lra|].
    unfold q. rewrite Rmult_plus_distr_l, <- Sum_scal. f_equal.
    - apply Sum_ext. intros i _. rewrite fit_scal. ring.
    - rewrite <- Rmult_assoc, (Rmult_comm (t ^ 2) w), Rmult_assoc, <- Sum_scal. f_equal. apply Sum_ext. intros; ring. }
  assert (G0 : 0 <= G) by (apply Sum_nonneg; intros; nra).
  assert (Z : G = 0).
  { destruct (Rle_or_lt q 0) as [Hq|Hq].
    - pose proof (I 1). nra.
    - pose proof (I (G / q)) as H. assert (E : - 2 * (G / q) * G + (G / q) ^ 2 * q = - (G * G) / q) by (field; lra).
      rewrite E in H. assert (0 < / q) by (apply Rinv_0_lt_compat; auto). unfold Rdiv in H.
      destruct (Req_dec G 0) as [|Hne]; [auto|exfalso]. assert (0 < G * G) by nra. nra. }
  intros j Hj. pose proof (Sum_pos_zero d (fun j => g j * g j) ltac:(intros; cbv beta; nra) Z j Hj) as Q. cbv beta in Q. fold g. nra.
Qed.
End Cost.

(** ** The hat matrix from the singular values of the features *)
Section Thin.
Variables (n d k : nat) (X U : mat) (W : vec) (Vh : mat) (w : R).
Hypothesis Hw : 0 < w.
(** X = U diag(W) Vh, orthonormal columns of U and rows of Vh. *)
Hypothesis HX : forall i j, (i < n)%nat -> (j < d)%nat -> X i j = Sum k (fun q => U i q * W q * Vh q j).
Hypothesis HU : forall q r, (q < k)%nat -> (r < k)%nat -> Sum n (fun i => U i q * U i r) = ident q r.
Hypothesis HV : forall q r, (q < k)%nat -> (r < k)%nat -> Sum d (fun j => Vh q j * Vh r j) = ident q r.

Definition hat (i j : nat) : R := Sum k (fun q => U i q * (/ (W q ^ 2 + w) * W q ^ 2) * U j q).

Lemma hat_fit a y : (forall j, (j < d)%nat -> grad n d X y w 0 a j = 0) -> forall i, (i < n)%nat -> fit d X a i = Sum n (fun j => hat i j * y j).
Proof.
  intros HG.
  set (v := fun q => Sum d (fun j => Vh q j * a j)). set (u := fun q => Sum n (fun i => U i q * y i)).
  assert (F : forall i, (i < n)%nat -> fit d X a i = Sum k (fun q => U i q * (W q * v q))).
  { intros i Hi. unfold fit. transitivity (Sum d (fun j => Sum k (fun q => U i q * W q * Vh q j * a j))).
    - apply Sum_ext. intros j Hj. rewrite HX by auto. rewrite Sum_scal_r. auto.
    - rewrite Sum_swap. apply Sum_ext. intros q _. unfold v. rewrite <- !Sum_scal. apply Sum_ext. intros; ring. }
  assert (UF : forall q, (q < k)%nat -> Sum n (fun i => U i q * fit d X a i) = W q * v q).
  { intros q Hq. transitivity (Sum n (fun i => Sum k (fun r => U i q * U i r * (W r * v r)))).
    - apply Sum_ext. intros i Hi. rewrite F by auto. rewrite <- Sum_scal. apply Sum_ext. intros; ring.
    - rewrite Sum_swap. transitivity (Sum k (fun r => (if (q =? r)%nat then 1 else 0) * (W r * v r))); [|apply Sum_delta; auto].
      apply Sum_ext. intros r Hr. rewrite Sum_scal_r, HU by auto. auto. }
  assert (VE : forall q, (q < k)%nat -> W q * (W q * v q - u q) + w * v q = 0).
  { intros q Hq.
    transitivity (Sum d (fun j => Vh q j * grad n d X y w 0 a j)).
    2:{ apply Sum_zero. intros j Hj. rewrite HG by auto. ring. }
    unfold grad. symmetry.
    transitivity (Sum d (fun j => Sum n (fun i => Vh q j * X i j * (fit d X a i - y i))) + Sum d (fun j => w * (Vh q j * a j))).
    { rewrite <- Sum_plus. apply Sum_ext. intros j _. rewrite Rmult_plus_distr_l, <- Sum_scal. f_equal; [|ring]. apply Sum_ext. intros; ring. }
    rewrite Sum_scal. fold (v q). f_equal. rewrite Sum_swap.
    transitivity (Sum n (fun i => W q * U i q * (fit d X a i - y i))).
    - apply Sum_ext. intros i Hi. rewrite Sum_scal_r. f_equal.
      transitivity (Sum d (fun j => Sum k (fun r => W r * U i r * (Vh q j * Vh r j)))).
      + apply Sum_ext. intros j Hj. rewrite HX by auto. rewrite <- Sum_scal. apply Sum_ext. intros; ring.
      + rewrite Sum_swap. transitivity (Sum k (fun r => (if (q =? r)%nat then 1 else 0) * (W r * U i r))); [|apply Sum_delta; auto].
        apply Sum_ext. intros r Hr. rewrite Sum_scal, HV by auto. unfold ident. ring.
    - transitivity (W q * (Sum n (fun i => U i q * fit d X a i) - Sum n (fun i => U i q * y i))).
      + rewrite <- Sum_minus, <- Sum_scal. apply Sum_ext. intros; ring.
      + rewrite UF by auto. auto. }
  intros i Hi. rewrite F by auto. unfold hat.
  transitivity (Sum n (fun j => Sum k (fun q => U i q * (/ (W q ^ 2 + w) * W q ^ 2) * (U j q * y j)))).
  2:{ apply Sum_ext. intros j _. rewrite <- Sum_scal_r. apply Sum_ext. intros; ring. }
  rewrite Sum_swap. apply Sum_ext. intros q Hq. rewrite Sum_scal. fold (u q).
  assert (P : 0 < W q ^ 2 + w) by nra.
  assert (Ev : v q = / (W q ^ 2 + w) * (W q * u q)).
  { apply (Rmult_eq_reg_l (W q ^ 2 + w)); [|lra]. rewrite <- Rmult_assoc, Rinv_r by lra. pose proof (VE q Hq). lra. }
  rewrite Ev. ring.
Qed.

Lemma hat_sym i j : hat i j = hat j i.
Proof. apply Sum_ext. intros; ring. Qed.

Lemma hat_diag i : (i < n)%nat -> 1 - hat i i <> 0.
Proof.
  intros Hi H. set (dg := fun q => / (W q ^ 2 + w) * W q ^ 2).
  assert (Dg : forall q, 0 <= dg q < 1).
  { intros q. unfold dg. assert (0 < / (W q ^ 2 + w)) by (apply Rinv_0_lt_compat; nra). split; [nra|].
    assert (/ (W q ^ 2 + w) * (W q ^ 2 + w) = 1) by (apply Rinv_l; nra). nra. }
  assert (H2 : Sum n (fun j => hat i j * hat i j) = Sum k (fun q => U i q ^ 2 * dg q ^ 2)).
  { transitivity (Sum n (fun j => Sum k (fun q => Sum k (fun r => U i q * dg q * (U i r * dg r) * (U j q * U j r))))).
    - apply Sum_ext. intros j _. unfold hat at 1. rewrite <- Sum_scal_r. apply Sum_ext. intros q _. unfold hat. rewrite <- Sum_scal.
      apply Sum_ext. intros r _. unfold dg. ring.
    - rewrite Sum_swap. apply Sum_ext. intros q Hq. rewrite Sum_swap.
      transitivity (Sum k (fun r => (if (q =? r)%nat then 1 else 0) * (U i q * dg q * (U i r * dg r)))); [|rewrite Sum_delta by auto; ring].
      apply Sum_ext. intros r Hr. rewrite Sum_scal, HU by auto. unfold ident. ring. }
  assert (H3 : hat i i * hat i i <= Sum n (fun j => hat i j * hat i j)).
  { apply Rle_trans with (Sum n (fun j => (if (i =? j)%nat then 1 else 0) * (hat i j * hat i j))); [rewrite Sum_delta by auto; lra|].
    apply Sum_le. intros j _. destruct (i =? j)%nat; nra. }
  assert (H4 : hat i i = Sum k (fun q => U i q ^ 2 * dg q)) by (apply Sum_ext; intros; unfold dg; ring).
  assert (Z : Sum k (fun q => U i q ^ 2 * dg q * (1 - dg q)) = 0).
  { apply Rle_antisym.
    - replace (Sum k (fun q => U i q ^ 2 * dg q * (1 - dg q))) with (hat i i - Sum k (fun q => U i q ^ 2 * dg q ^ 2)).
      + rewrite <- H2. replace (hat i i) with 1 in * by lra. lra.
      + rewrite H4, <- Sum_minus. apply Sum_ext. intros; ring.
    - apply Sum_nonneg. intros q _. pose proof (Dg q). pose proof (pow2_ge_0 (U i q)). apply Rmult_le_pos; [apply Rmult_le_pos|]; lra. }
  assert (Z2 : hat i i = 0).
  { rewrite H4. apply Sum_zero. intros q Hq.
    pose proof (Sum_pos_zero k (fun q => U i q ^ 2 * dg q * (1 - dg q))) as Q. cbv beta in Q.
    assert (QQ : U i q ^ 2 * dg q * (1 - dg q) = 0).
    { apply Q; auto. intros r _. pose proof (Dg r). pose proof (pow2_ge_0 (U i r)). apply Rmult_le_pos; [apply Rmult_le_pos|]; lra. }
    apply Rmult_integral in QQ as [QQ|QQ]; [auto|]. pose proof (Dg q). lra. }
  lra.
Qed.

(** Leaving out row i: if [a] minimises the cost for targets that agree with y except at
    i, where they are the prediction itself, the residual at i is the one of the full
    fit divided by 1 - hat i i. *)
Lemma leave_one_out y a i : (i < n)%nat ->
  (forall j, (j < d)%nat -> grad n d X (fun l => if (l =? i)%nat then fit d X a i else y l) w 0 a j = 0) ->
  y i - fit d X a i = (y i - Sum n (fun j => hat i j * y j)) / (1 - hat i i).
Proof.
  intros Hi HG. pose proof (hat_fit a _ HG i Hi) as E. cbv beta in E.
  assert (S1 : Sum n (fun j => hat i j * (if (j =? i)%nat then fit d X a i else y j)) =
    Sum n (fun j => hat i j * y j) + hat i i * (fit d X a i - y i)).
  { transitivity (Sum n (fun j => hat i j * y j + (if (i =? j)%nat then 1 else 0) * (hat i j * (fit d X a i - y i)))).
    - apply Sum_ext. intros j _. rewrite (Nat.eqb_sym i j). destruct (Nat.eqb_spec j i) as [->|]; ring.
    - rewrite Sum_plus, Sum_delta by auto. auto. }
  rewrite S1 in E. pose proof (hat_diag i Hi). apply (Rmult_eq_reg_r (1 - hat i i)); [|auto].
  unfold Rdiv. rewrite Rmult_assoc, Rinv_l by auto. lra.
Qed.
End Thin.
