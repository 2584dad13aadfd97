(** Cholesky factors and the logarithm of the determinant. *)
From Coq Require Import Reals Lra Lia List Arith Bool Permutation.
From Verif Require Import Base BaseFacts RBase LinAlg.
Import ListNotations.
Open Scope R_scope.

(** A Cholesky factor: lower triangular, positive diagonal, L L' = M. *)
Definition cholesky (n : nat) (M L : mat) : Prop :=
  (forall i j, (i < n)%nat -> (j < n)%nat -> (i < j)%nat -> L i j = 0) /\
  (forall i, (i < n)%nat -> 0 < L i i) /\
  (forall i j, (i < n)%nat -> (j < n)%nat -> Sum n (fun k => L i k * L j k) = M i j).

(** The covariance conditioned on point a, and the sum of the logarithms of the
    successive conditional variances. *)
Definition cond (K : mat) (a : nat) : mat := fun x y => K x y - K x a * K a y / K a a.

Fixpoint good (K : mat) (l : list nat) : Prop :=
  match l with [] => True | a :: t => 0 < K a a /\ good (cond K a) t end.
Fixpoint logdet (K : mat) (l : list nat) : R :=
  match l with [] => 0 | a :: t => ln (K a a) + logdet (cond K a) t end.

Definition agree (l : list nat) (K K' : mat) : Prop := forall x y, In x l -> In y l -> K x y = K' x y.
Definition symon (l : list nat) (K : mat) : Prop := forall x y, In x l -> In y l -> K x y = K y x.

Lemma cond_agree a l K K' : agree (a :: l) K K' -> agree l (cond K a) (cond K' a).
Proof. intros H x y Hx Hy. unfold cond. rewrite !H; cbn; auto. Qed.

Lemma cond_symon a l K : symon (a :: l) K -> symon l (cond K a).
Proof. intros H x y Hx Hy. unfold cond. rewrite (H x y), (H x a), (H a y) by (cbn; auto). unfold Rdiv. ring. Qed.

Lemma good_ext l : forall K K', agree l K K' -> good K l -> good K' l /\ logdet K' l = logdet K l.
Proof.
  induction l as [|a l IH]; intros K K' H; cbn; auto. intros [H1 H2].
  destruct (IH _ _ (cond_agree _ _ _ _ H) H2) as [G1 G2]. rewrite <- (H a a) by (cbn; auto). rewrite G2. auto.
Qed.

Lemma symon_perm l l' K : Permutation l l' -> symon l K -> symon l' K.
Proof. intros P H x y Hx Hy. apply Permutation_sym in P. apply H; apply (Permutation_in _ P); auto. Qed.

Lemma logdet_perm l l' : Permutation l l' -> forall K, symon l K -> good K l -> good K l' /\ logdet K l' = logdet K l.
Proof.
  induction 1 as [|a l l' P IH|b a l|l1 l2 l3 P1 IH1 P2 IH2]; intros K HS HG.
  - auto.
  - cbn in *. destruct HG as [H1 H2]. destruct (IH _ (cond_symon _ _ _ HS) H2) as [G1 G2]. rewrite G2. auto.
  - cbn in HG. destruct HG as [H1 [H2 H3]].
    assert (Sab : K a b = K b a) by (apply HS; cbn; auto).
    unfold cond in H2. rewrite <- Sab in H2.
    set (p := K a a) in *. set (q := K a b) in *. set (s := K b b) in *.
    assert (Hdet : 0 < p * s - q * q).
    { replace (p * s - q * q) with (p * (s - q * q / p)) by (field; lra). apply Rmult_lt_0_compat; auto. }
    assert (Hs : 0 < s) by nra.
    assert (E : agree l (cond (cond K a) b) (cond (cond K b) a)).
    { intros x y Hx Hy. unfold cond. rewrite <- Sab. fold p q s. field. repeat split; lra. }
    destruct (good_ext _ _ _ E H3) as [G1 G2]. cbn. rewrite G2.
    assert (V : cond K a b b = s - q * q / p) by (unfold cond; rewrite <- Sab; reflexivity).
    assert (V' : cond K b a a = p - q * q / s) by (unfold cond; rewrite <- Sab; reflexivity).
    rewrite V, V'. fold p s.
    assert (0 < p - q * q / s).
    { replace (p - q * q / s) with ((p * s - q * q) / s) by (field; lra). apply Rdiv_lt_0_compat; lra. }
    split; [auto|].
    rewrite <- !Rplus_assoc. f_equal. rewrite <- !ln_mult by auto. f_equal. field. lra.
  - destruct (IH1 K HS HG) as [G1 G2]. destruct (IH2 K (symon_perm _ _ _ P1 HS) G1) as [G3 G4]. split; auto. congruence.
Qed.

Lemma logdet_map f l : forall K, good K (map f l) = good (fun i j => K (f i) (f j)) l /\
  logdet K (map f l) = logdet (fun i j => K (f i) (f j)) l.
Proof.
  induction l as [|a l IH]; intros K; cbn; auto. destruct (IH (cond K (f a))) as [E1 E2].
  split; [apply (f_equal (fun P => 0 < K (f a) (f a) /\ P)); exact E1|f_equal; exact E2].
Qed.

(** ** Peeling off the first row and column *)
Definition tl (K : mat) : mat := fun i j => K (S i) (S j).

Lemma cholesky_first n M L : cholesky (S n) M L ->
  M 0%nat 0%nat = L 0%nat 0%nat * L 0%nat 0%nat /\
  (forall i, (i < S n)%nat -> M i 0%nat = L i 0%nat * L 0%nat 0%nat /\ M 0%nat i = L i 0%nat * L 0%nat 0%nat) /\
  cholesky n (tl (cond M 0)) (tl L).
Proof.
  intros [H1 [H2 H3]].
  assert (P0 : 0 < L 0%nat 0%nat) by (apply H2; lia).
  assert (F : forall i, (i < S n)%nat -> M i 0%nat = L i 0%nat * L 0%nat 0%nat).
  { intros i Hi. rewrite <- H3 by lia. rewrite Sum_S_first, Sum_zero; [ring|]. intros k Hk. rewrite (H1 0%nat) by lia. ring. }
  assert (G : forall i, (i < S n)%nat -> M 0%nat i = L i 0%nat * L 0%nat 0%nat).
  { intros i Hi. rewrite <- H3 by lia. rewrite Sum_S_first, Sum_zero; [ring|]. intros k Hk. rewrite (H1 0%nat) by lia. ring. }
  split; [apply F; lia|]. split; [auto|].
  split; [|split].
  - intros i j Hi Hj Hij. apply H1; lia.
  - intros i Hi. apply H2; lia.
  - intros i j Hi Hj. unfold tl, cond. rewrite !F, !G by lia. rewrite <- (H3 (S i) (S j)) by lia. rewrite Sum_S_first. field. lra.
Qed.

Lemma cholesky_logdet n : forall M L, cholesky n M L ->
  good M (seq 0 n) /\ Sum n (fun i => ln (L i i)) = / 2 * logdet M (seq 0 n).
Proof.
  induction n as [|n IH]; intros M L H.
  - cbn. split; [auto|lra].
  - pose proof H as [_ [H2 _]]. destruct (cholesky_first n M L H) as [E0 [_ HC]]. destruct (IH _ _ HC) as [G1 G2].
    assert (P0 : 0 < L 0%nat 0%nat) by (apply H2; lia).
    cbn [seq good logdet]. rewrite <- seq_shift.
    destruct (logdet_map S (seq 0 n) (cond M 0)) as [Eg El]. rewrite Eg, El.
    split.
    + split; [rewrite E0; apply Rmult_lt_0_compat; auto|exact G1].
    + rewrite Sum_S_first. change (fun i => ln (L (S i) (S i))) with (fun i => ln (tl L i i)). rewrite G2, E0, ln_mult by auto.
      change (fun i j => cond M 0 (S i) (S j)) with (tl (cond M 0)). lra.
Qed.

(** The sum of the logarithms of the diagonal does not depend on the order. *)
Lemma cholesky_perm n p M M' L L' : Permutation p (seq 0 n) -> symm n M -> eqm n M' (permm p M) ->
  cholesky n M L -> cholesky n M' L' -> Sum n (fun i => ln (L' i i)) = Sum n (fun i => ln (L i i)).
Proof.
  intros P HS HE HL HL'. destruct (cholesky_logdet _ _ _ HL) as [G1 E1]. destruct (cholesky_logdet _ _ _ HL') as [G2 E2].
  rewrite E1, E2. f_equal.
  assert (Sy : symon (seq 0 n) M) by (intros x y Hx Hy; apply in_seq in Hx, Hy; apply HS; lia).
  destruct (logdet_perm _ _ (Permutation_sym P) M Sy G1) as [G3 E3]. rewrite <- E3.
  assert (A : agree (seq 0 n) (permm p M) M') by (intros x y Hx Hy; apply in_seq in Hx, Hy; symmetry; apply HE; lia).
  destruct (logdet_map (fun i => nth i p 0%nat) (seq 0 n) M) as [Eg El].
  assert (Q : map (fun i => nth i p 0%nat) (seq 0 n) = p).
  { replace n with (length p) by (rewrite (Permutation_length P), seq_length; auto). exact (gather_seq 0%nat p). }
  rewrite Q in Eg, El. rewrite El. change (fun i j => M (nth i p 0%nat) (nth j p 0%nat)) with (permm p M) in *.
  assert (G4 : good (permm p M) (seq 0 n)) by (rewrite <- Eg; auto).
  destruct (good_ext _ _ _ A G4) as [_ G5]. exact G5.
Qed.

(** ** Every symmetric positive definite matrix has a Cholesky factor *)
Fixpoint gchol (n : nat) (A : mat) : mat :=
  match n with
  | O => fun _ _ => 0
  | S n => fun i j =>
      match i, j with
      | O, O => sqrt (A 0%nat 0%nat)
      | O, S _ => 0
      | S i, O => A (S i) 0%nat / sqrt (A 0%nat 0%nat)
      | S i, S j => gchol n (tl (cond A 0)) i j
      end
  end.

Lemma quad_cond n A x : symm (S n) A -> 0 < A 0%nat 0%nat ->
  quad n (tl (cond A 0)) x =
  quad (S n) A (fun i => match i with O => - Sum n (fun j => A 0%nat (S j) * x j) / A 0%nat 0%nat | S i => x i end).
Proof.
  intros HS HP. set (c := Sum n (fun j => A 0%nat (S j) * x j)). set (p := A 0%nat 0%nat) in *.
  unfold quad. rewrite Sum_S_first. rewrite (Sum_S_first n (fun j => - c / p * A 0%nat j * _)).
  fold p.
  rewrite (Sum_ext n (fun i => Sum (S n) (fun j => x i * A (S i) j * match j with O => - c / p | S j => x j end))
     (fun i => Sum n (fun j => x i * A (S i) (S j) * x j) + (- c / p) * (A 0%nat (S i) * x i))).
  2:{ intros i Hi. rewrite Sum_S_first. rewrite (HS (S i) 0%nat) by lia. ring. }
  rewrite Sum_plus, Sum_scal. fold c.
  rewrite (Sum_ext n (fun i => - c / p * A 0%nat (S i) * x i) (fun i => - c / p * (A 0%nat (S i) * x i))) by (intros; ring).
  rewrite Sum_scal. fold c.
  rewrite (Sum_ext n (fun i => Sum n (fun j => x i * tl (cond A 0) i j * x j))
    (fun i => Sum n (fun j => x i * A (S i) (S j) * x j) - (c / p) * (A 0%nat (S i) * x i))).
  - rewrite Sum_minus, Sum_scal. fold c. field. lra.
  - intros i Hi. rewrite (Sum_ext n _ (fun j => x i * A (S i) (S j) * x j - (A 0%nat (S i) * x i / p) * (A 0%nat (S j) * x j))).
    + rewrite Sum_minus, Sum_scal. fold c. field. lra.
    + intros j Hj. unfold tl, cond. fold p. rewrite (HS (S i) 0%nat) by lia. field. lra.
Qed.

Lemma gchol_cholesky n : forall A, symm n A -> posdef n A -> cholesky n A (gchol n A).
Proof.
  induction n as [|n IH]; intros A HS HP.
  - repeat split; intros; lia.
  - assert (P0 : 0 < A 0%nat 0%nat).
    { specialize (HP (fun i => if (i =? 0)%nat then 1 else 0)).
      assert (Q : quad (S n) A (fun i => if (i =? 0)%nat then 1 else 0) = A 0%nat 0%nat).
      { unfold quad. rewrite Sum_S_first, Sum_S_first. cbn [Nat.eqb]. rewrite !Sum_zero; [ring| |].
        - intros i Hi. apply Sum_zero. intros; ring.
        - intros i Hi. ring. }
      rewrite <- Q. apply HP. exists 0%nat. cbn. split; [lia|lra]. }
    assert (C : cholesky n (tl (cond A 0)) (gchol n (tl (cond A 0)))).
    { apply IH.
      - intros i j Hi Hj. unfold tl, cond. rewrite (HS (S i) (S j)), (HS (S i) 0%nat), (HS 0%nat (S j)) by lia. unfold Rdiv. ring.
      - intros x [i [Hi Hx]]. rewrite quad_cond by auto. apply HP. exists (S i). split; [lia|auto]. }
    assert (Q0 : sqrt (A 0%nat 0%nat) * sqrt (A 0%nat 0%nat) = A 0%nat 0%nat) by (apply sqrt_sqrt; lra).
    assert (Qp : 0 < sqrt (A 0%nat 0%nat)) by (apply sqrt_lt_R0; auto).
    destruct C as [C1 [C2 C3]]. cbn [gchol]. split; [|split].
    + intros [|i] [|j] Hi Hj Hij; try lia; auto. apply C1; lia.
    + intros [|i] Hi; auto. apply C2; lia.
    + intros [|i] [|j] Hi Hj; rewrite Sum_S_first.
      * rewrite Sum_zero by (intros; ring). rewrite Rplus_0_r. auto.
      * rewrite Sum_zero by (intros; ring). rewrite (HS 0%nat (S j)) by lia. field. lra.
      * rewrite Sum_zero by (intros; ring). field. lra.
      * rewrite C3 by lia. unfold tl, cond. rewrite (HS 0%nat (S j)) by lia.
        rewrite <- Q0 at 3. field. lra.
Qed.
