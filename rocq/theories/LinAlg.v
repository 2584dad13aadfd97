(** Finite sums and square matrices indexed by natural numbers, used to state
    what numpy's linear algebra returns. *)
From Coq Require Import Reals Lra Lia List Arith Permutation.
From Verif Require Import Base BaseFacts RBase.
Import ListNotations.
Open Scope R_scope.

(** f 0 + ... + f (n-1). *)
Fixpoint Sum (n : nat) (f : nat -> R) : R :=
  match n with 0%nat => 0 | S m => Sum m f + f m end.

Lemma Sum_ext n f g : (forall i, (i < n)%nat -> f i = g i) -> Sum n f = Sum n g.
Proof. induction n as [|n IH]; cbn; intros H; [auto|]. rewrite IH by auto. rewrite H by lia. auto. Qed.

Lemma Sum_0 n : Sum n (fun _ => 0) = 0.
Proof. induction n as [|n IH]; cbn; [auto|rewrite IH; lra]. Qed.

Lemma Sum_zero n f : (forall i, (i < n)%nat -> f i = 0) -> Sum n f = 0.
Proof. intros H. rewrite (Sum_ext n f (fun _ => 0)) by auto. apply Sum_0. Qed.

Lemma Sum_plus n f g : Sum n (fun i => f i + g i) = Sum n f + Sum n g.
Proof. induction n as [|n IH]; cbn; [lra|rewrite IH; lra]. Qed.

Lemma Sum_minus n f g : Sum n (fun i => f i - g i) = Sum n f - Sum n g.
Proof. induction n as [|n IH]; cbn; [lra|rewrite IH; lra]. Qed.

Lemma Sum_scal n c f : Sum n (fun i => c * f i) = c * Sum n f.
Proof. induction n as [|n IH]; cbn; [lra|rewrite IH; lra]. Qed.

Lemma Sum_scal_r n c f : Sum n (fun i => f i * c) = Sum n f * c.
Proof. induction n as [|n IH]; cbn; [lra|rewrite IH; lra]. Qed.

Lemma Sum_swap n m (f : nat -> nat -> R) :
  Sum n (fun i => Sum m (fun j => f i j)) = Sum m (fun j => Sum n (fun i => f i j)).
Proof.
  induction n as [|n IH]; cbn.
  - rewrite Sum_0. auto.
  - rewrite IH, <- Sum_plus. auto.
Qed.

Lemma Sum_nonneg n f : (forall i, (i < n)%nat -> 0 <= f i) -> 0 <= Sum n f.
Proof.
  induction n as [|n IH]; cbn; intros H; [lra|].
  assert (0 <= Sum n f) by auto. assert (0 <= f n) by auto. lra.
Qed.

Lemma Sum_le n f g : (forall i, (i < n)%nat -> f i <= g i) -> Sum n f <= Sum n g.
Proof.
  induction n as [|n IH]; cbn; intros H; [lra|].
  assert (Sum n f <= Sum n g) by auto. assert (f n <= g n) by auto. lra.
Qed.

Lemma Sum_pos_zero n f : (forall i, (i < n)%nat -> 0 <= f i) -> Sum n f = 0 -> forall i, (i < n)%nat -> f i = 0.
Proof.
  induction n as [|n IH]; cbn; intros H E i Hi; [lia|].
  assert (0 <= Sum n f) by (apply Sum_nonneg; auto). assert (0 <= f n) by auto.
  assert (i < n \/ i = n)%nat as [Hlt| ->] by lia; [|lra]. apply IH; auto. lra.
Qed.

Lemma Sum_app n m f : Sum (n + m) f = Sum n f + Sum m (fun i => f (n + i)%nat).
Proof.
  induction m as [|m IH]; cbn.
  - rewrite Nat.add_0_r. lra.
  - replace (n + S m)%nat with (S (n + m)) by lia. cbn. rewrite IH. lra.
Qed.

Lemma Sum_S_first n f : Sum (S n) f = f 0%nat + Sum n (fun i => f (S i)).
Proof. change (S n) with (1 + n)%nat. rewrite Sum_app. cbn. lra. Qed.

Lemma Sum_list n f : Sum n f = sumR (map f (seq 0 n)).
Proof.
  induction n as [|n IH]; [reflexivity|]. rewrite seq_S, map_app, sumR_app. cbn [Sum]. rewrite IH. cbn. lra.
Qed.

Lemma Sum_nth (l : list R) : Sum (length l) (fun i => nth i l 0) = sumR l.
Proof.
  rewrite Sum_list. f_equal. exact (gather_seq 0 l).
Qed.

(** Reindexing by a permutation of 0 .. n-1 given as a list. *)
Lemma Sum_perm n (p : list nat) f : Permutation p (seq 0 n) ->
  Sum n (fun i => f (nth i p 0%nat)) = Sum n f.
Proof.
  intros P. assert (L : length p = n) by (rewrite (Permutation_length P); apply seq_length).
  rewrite !Sum_list, <- (sumR_perm _ _ (Permutation_map f P)).
  f_equal. transitivity (map f (gather 0%nat p (seq 0 (length p)))); [|rewrite gather_seq; reflexivity].
  unfold gather. rewrite map_map, L. reflexivity.
Qed.

Lemma Sum_delta n i f : (i < n)%nat -> Sum n (fun j => (if (i =? j)%nat then 1 else 0) * f j) = f i.
Proof.
  induction n as [|n IH]; cbn; intros H; [lia|].
  destruct (Nat.eqb_spec i n) as [->|N].
  - rewrite Sum_zero; [lra|]. intros j Hj. destruct (Nat.eqb_spec n j); [lia|lra].
  - rewrite IH by lia. lra.
Qed.

Lemma Sum_delta_r n i f : (i < n)%nat -> Sum n (fun j => f j * (if (j =? i)%nat then 1 else 0)) = f i.
Proof.
  intros H. rewrite <- (Sum_delta n i f H). apply Sum_ext. intros j _. rewrite (Nat.eqb_sym j i). lra.
Qed.

(** ** Matrices *)
Notation mat := (nat -> nat -> R).
Notation vec := (nat -> R).

Definition mulv (n : nat) (A : mat) (x : vec) : vec := fun i => Sum n (fun j => A i j * x j).
Definition mulm (n : nat) (A B : mat) : mat := fun i j => Sum n (fun k => A i k * B k j).
Definition dotv (n : nat) (x y : vec) : R := Sum n (fun i => x i * y i).
Definition quad (n : nat) (A : mat) (x : vec) : R := Sum n (fun i => Sum n (fun j => x i * A i j * x j)).

Definition ident : mat := fun i j => if (i =? j)%nat then 1 else 0.
Definition eqm (n : nat) (A B : mat) : Prop := forall i j, (i < n)%nat -> (j < n)%nat -> A i j = B i j.
Definition eqv (n : nat) (x y : vec) : Prop := forall i, (i < n)%nat -> x i = y i.
Definition symm (n : nat) (A : mat) : Prop := forall i j, (i < n)%nat -> (j < n)%nat -> A i j = A j i.
(** B is the inverse of A. *)
Definition inverse (n : nat) (A B : mat) : Prop :=
  eqm n (mulm n A B) ident /\ eqm n (mulm n B A) ident.
Definition posdef (n : nat) (A : mat) : Prop :=
  forall x, (exists i, (i < n)%nat /\ x i <> 0) -> 0 < quad n A x.
Definition possemidef (n : nat) (A : mat) : Prop := forall x, 0 <= quad n A x.

Lemma quad_dot n A x : quad n A x = dotv n x (mulv n A x).
Proof.
  unfold quad, dotv, mulv. apply Sum_ext. intros i _. rewrite <- Sum_scal. apply Sum_ext. intros; ring.
Qed.

Lemma dotv_sym n x y : dotv n x y = dotv n y x.
Proof. apply Sum_ext. intros; ring. Qed.

Lemma dotv_ext n x x' y y' : eqv n x x' -> eqv n y y' -> dotv n x y = dotv n x' y'.
Proof. intros H1 H2. apply Sum_ext. intros i Hi. rewrite H1, H2; auto. Qed.

Lemma mulv_ext n A A' x x' : eqm n A A' -> eqv n x x' -> eqv n (mulv n A x) (mulv n A' x').
Proof. intros HA Hx i Hi. apply Sum_ext. intros j Hj. rewrite HA, Hx; auto. Qed.

Lemma quad_ext n A B x y : eqm n A B -> eqv n x y -> quad n A x = quad n B y.
Proof.
  intros HA Hx. apply Sum_ext. intros i Hi. apply Sum_ext. intros j Hj. rewrite HA, !Hx; auto.
Qed.

Lemma mulv_mulm n A B x : eqv n (mulv n A (mulv n B x)) (mulv n (mulm n A B) x).
Proof.
  intros i Hi. unfold mulv, mulm.
  transitivity (Sum n (fun j => Sum n (fun k => A i j * B j k * x k))).
  - apply Sum_ext. intros j _. rewrite <- Sum_scal. apply Sum_ext. intros; ring.
  - rewrite Sum_swap. apply Sum_ext. intros k _. rewrite <- Sum_scal_r. reflexivity.
Qed.

Lemma mulv_ident n x : eqv n (mulv n ident x) x.
Proof. intros i Hi. unfold mulv, ident. apply Sum_delta; auto. Qed.

Lemma mulv_inverse n A B x : inverse n A B -> eqv n (mulv n A (mulv n B x)) x.
Proof.
  intros [H _] i Hi. rewrite mulv_mulm by auto.
  rewrite (mulv_ext n _ ident x x H) by (auto; intros ? ?; auto). apply mulv_ident; auto.
Qed.

Lemma mulv_inverse' n A B x : inverse n A B -> eqv n (mulv n B (mulv n A x)) x.
Proof. intros [H1 H2]. apply mulv_inverse. split; auto. Qed.

Lemma inverse_sym_pair n A B : inverse n A B -> inverse n B A.
Proof. intros [H1 H2]. split; auto. Qed.

(** moving a symmetric matrix across a dot product *)
Lemma dotv_symm n A x y : symm n A -> dotv n x (mulv n A y) = dotv n (mulv n A x) y.
Proof.
  intros HS. unfold dotv, mulv.
  transitivity (Sum n (fun i => Sum n (fun j => x i * A i j * y j))).
  - apply Sum_ext. intros i _. rewrite <- Sum_scal. apply Sum_ext. intros; ring.
  - rewrite Sum_swap. apply Sum_ext. intros j Hj. rewrite <- Sum_scal_r. apply Sum_ext.
    intros i Hi. rewrite (HS i j) by auto. ring.
Qed.

Lemma inverse_unique n A B C : inverse n A B -> inverse n A C -> eqm n B C.
Proof.
  intros HB HC i j Hi Hj.
  set (e := fun k => if (k =? j)%nat then 1 else 0).
  assert (col : forall M, mulv n M e i = M i j) by (intros M; unfold mulv, e; apply Sum_delta_r; auto).
  rewrite <- (col B), <- (col C).
  assert (E : eqv n (mulv n B e) (mulv n B (mulv n A (mulv n C e)))).
  { apply mulv_ext; [intros ? ? ? ?; auto|]. intros k Hk. symmetry. apply mulv_inverse; auto. }
  rewrite E by auto. apply mulv_inverse'; auto.
Qed.

Lemma inverse_symm n A B : symm n A -> inverse n A B -> symm n B.
Proof.
  intros HS HI. assert (HT : inverse n A (fun i j => B j i)).
  { destruct HI as [H1 H2]. split; intros i j Hi Hj; unfold mulm.
    - transitivity (mulm n B A j i).
      + apply Sum_ext. intros k Hk. rewrite (HS i k) by auto. ring.
      + rewrite H2 by auto. unfold ident. rewrite Nat.eqb_sym. auto.
    - transitivity (mulm n A B j i).
      + apply Sum_ext. intros k Hk. rewrite (HS k j) by auto. ring.
      + rewrite H1 by auto. unfold ident. rewrite Nat.eqb_sym. auto. }
  intros i j Hi Hj. apply (inverse_unique n A B _ HI HT i j Hi Hj).
Qed.

Lemma inverse_ext n A A' B B' : eqm n A A' -> eqm n B B' -> inverse n A B -> inverse n A' B'.
Proof.
  intros HA HB [H1 H2]. split; intros i j Hi Hj; [rewrite <- H1 by auto|rewrite <- H2 by auto];
  apply Sum_ext; intros k Hk; rewrite <- HA, <- HB by auto; auto.
Qed.

(** A positive definite matrix has trivial kernel. *)
Lemma posdef_injective n A x : posdef n A -> eqv n (mulv n A x) (fun _ => 0) -> eqv n x (fun _ => 0).
Proof.
  intros HP H i Hi. destruct (Req_dec (x i) 0) as [E|E]; auto. exfalso.
  assert (0 < quad n A x) by (apply HP; eauto).
  assert (quad n A x = 0); [|lra].
  rewrite quad_dot. unfold dotv. apply Sum_zero. intros j Hj. rewrite H by auto. ring.
Qed.

(** Permuting rows and columns. *)
Definition permm (p : list nat) (A : mat) : mat := fun i j => A (nth i p 0%nat) (nth j p 0%nat).
Definition permv (p : list nat) (x : vec) : vec := fun i => x (nth i p 0%nat).

Lemma perm_lt n p i : Permutation p (seq 0 n) -> (i < n)%nat -> (nth i p 0 < n)%nat.
Proof.
  intros P Hi. assert (In (nth i p 0%nat) p).
  { apply nth_In. rewrite (Permutation_length P), seq_length. auto. }
  apply (Permutation_in _ P) in H. apply in_seq in H. lia.
Qed.

Lemma perm_inj n p i j : Permutation p (seq 0 n) -> (i < n)%nat -> (j < n)%nat ->
  nth i p 0%nat = nth j p 0%nat -> i = j.
Proof.
  intros P Hi Hj E. assert (L : length p = n) by (rewrite (Permutation_length P); apply seq_length).
  assert (ND : NoDup p) by (eapply Permutation_NoDup; [symmetry; eauto|apply seq_NoDup]).
  rewrite (NoDup_nth p 0%nat) in ND. apply ND; auto; lia.
Qed.

Lemma mulm_perm n p A B i j : Permutation p (seq 0 n) ->
  mulm n (permm p A) (permm p B) i j = mulm n A B (nth i p 0%nat) (nth j p 0%nat).
Proof.
  intros P. unfold mulm, permm. apply (Sum_perm n p (fun k => A (nth i p 0%nat) k * B k (nth j p 0%nat)) P).
Qed.

Lemma inverse_perm n p A B : Permutation p (seq 0 n) -> inverse n A B -> inverse n (permm p A) (permm p B).
Proof.
  intros P [H1 H2]. split; intros i j Hi Hj; rewrite mulm_perm by auto;
  [rewrite H1|rewrite H2]; try (eapply perm_lt; eauto);
  unfold ident; destruct (Nat.eqb_spec i j) as [->|N];
  try (rewrite Nat.eqb_refl; auto);
  destruct (Nat.eqb_spec (nth i p 0%nat) (nth j p 0%nat)) as [E|]; auto;
  exfalso; apply N; eapply perm_inj; eauto.
Qed.

Lemma mulv_perm n p A x i : Permutation p (seq 0 n) ->
  mulv n (permm p A) (permv p x) i = mulv n A x (nth i p 0%nat).
Proof. intros P. unfold mulv, permm, permv. apply (Sum_perm n p (fun k => A (nth i p 0%nat) k * x k) P). Qed.

Lemma dotv_perm n p x y : Permutation p (seq 0 n) -> dotv n (permv p x) (permv p y) = dotv n x y.
Proof. intros P. unfold dotv, permv. apply (Sum_perm n p (fun k => x k * y k) P). Qed.

(** ** A symmetric positive definite matrix is invertible *)
Lemma quad_S n A x :
  quad (S n) A x = quad n A x + x n * Sum n (fun i => (A i n + A n i) * x i) + A n n * x n ^ 2.
Proof.
  unfold quad. cbn [Sum]. rewrite (Sum_ext n (fun i => Sum n (fun j => x i * A i j * x j) + x i * A i n * x n)
     (fun i => Sum n (fun j => x i * A i j * x j) + x n * (A i n * x i))) by (intros; ring).
  rewrite Sum_plus, Sum_scal.
  rewrite (Sum_ext n (fun i => x n * A n i * x i) (fun i => x n * (A n i * x i))) by (intros; ring).
  rewrite Sum_scal.
  rewrite (Sum_ext n (fun i => (A i n + A n i) * x i) (fun i => A i n * x i + A n i * x i)) by (intros; ring).
  rewrite Sum_plus. ring.
Qed.

Lemma posdef_restrict n A : posdef (S n) A -> posdef n A.
Proof.
  intros H x [i [Hi Hx]]. specialize (H (fun k => if (k =? n)%nat then 0 else x k)).
  rewrite quad_S in H. rewrite Nat.eqb_refl in H.
  rewrite (quad_ext n A A _ x) in H.
  - assert (0 < quad n A x + 0 * Sum n (fun i0 => (A i0 n + A n i0) * (if (i0 =? n)%nat then 0 else x i0)) + A n n * 0 ^ 2).
    { apply H. exists i. split; [lia|]. destruct (Nat.eqb_spec i n); [lia|auto]. }
    lra.
  - intros ? ? ? ?; auto.
  - intros k Hk. destruct (Nat.eqb_spec k n); [lia|auto].
Qed.

Lemma symm_restrict n A : symm (S n) A -> symm n A.
Proof. intros H i j Hi Hj. apply H; lia. Qed.

(** The inverse, by bordering. *)
Fixpoint ginv (n : nat) (A : mat) : mat :=
  match n with
  | O => fun _ _ => 0
  | S n =>
      let B := ginv n A in
      let v := mulv n B (fun i => A i n) in
      let s := A n n - dotv n (fun i => A i n) v in
      fun i j => match (i <? n)%nat, (j <? n)%nat with
        | true, true => B i j + v i * v j / s | true, false => - v i / s
        | false, true => - v j / s | false, false => / s end
  end.

Theorem ginv_inverse n A : symm n A -> posdef n A -> inverse n A (ginv n A).
Proof.
  induction n as [|n IH]; intros HS HP.
  - split; intros i j Hi; lia.
  - pose proof (IH (symm_restrict n A HS) (posdef_restrict n A HP)) as HB. cbn [ginv]. set (B := ginv n A) in *.
    pose proof (inverse_symm n A B (symm_restrict n A HS) HB) as SB.
    cbv zeta. set (a := fun i => A i n). set (v := mulv n B a). set (s := A n n - dotv n a v).
    assert (Av : eqv n (mulv n A v) a) by (apply mulv_inverse; auto).
    assert (Sp : 0 < s).
    { assert (Q : quad (S n) A (fun i => if (i =? n)%nat then 1 else - v i) = s).
      { rewrite quad_S, Nat.eqb_refl.
        rewrite (quad_ext n A A _ (fun i => - v i)).
        2:{ intros ? ? ? ?; auto. }
        2:{ intros k Hk. destruct (Nat.eqb_spec k n); [lia|auto]. }
        rewrite (Sum_ext n _ (fun i => -2 * (a i * v i))).
        2:{ intros k Hk. destruct (Nat.eqb_spec k n); [lia|]. rewrite (HS n k) by lia. unfold a. ring. }
        rewrite Sum_scal.
        assert (E : quad n A (fun i => - v i) = dotv n a v).
        { transitivity (quad n A v).
          - apply Sum_ext. intros i _. apply Sum_ext. intros; ring.
          - rewrite quad_dot, dotv_sym. apply dotv_ext; [apply Av|intros ? ?; auto]. }
        rewrite E. unfold s, dotv. ring. }
      rewrite <- Q. apply HP. exists n. split; [lia|]. rewrite Nat.eqb_refl. lra. }
    set (M := fun i j => match (i <? n)%nat, (j <? n)%nat with
      | true, true => B i j + v i * v j / s | true, false => - v i / s
      | false, true => - v j / s | false, false => / s end).
    assert (R : eqm (S n) (mulm (S n) A M) ident).
    { intros i j Hi Hj. unfold mulm. cbn [Sum].
      assert (Hnn : (n <? n)%nat = false) by (apply Nat.ltb_irrefl).
      assert (Hlt : forall k, (k < n)%nat -> (k <? n)%nat = true) by (intros; apply Nat.ltb_lt; auto).
      assert (ij : (i < n \/ i = n)%nat) by lia. assert (jj : (j < n \/ j = n)%nat) by lia.
      destruct jj as [Hj'|Hj'].
      - rewrite (Sum_ext n (fun k => A i k * M k j) (fun k => A i k * B k j + (A i k * v k) * (v j / s))).
        2:{ intros k Hk. unfold M. rewrite !Hlt by auto. field. lra. }
        rewrite Sum_plus, Sum_scal_r. unfold M at 1. rewrite Hnn, Hlt by auto.
        destruct ij as [Hi'|Hi'].
        + fold (mulm n A B i j) (mulv n A v i). rewrite Av by auto. destruct HB as [HB _]. rewrite HB by auto.
          unfold a. field. lra.
        + subst i. rewrite (Sum_ext n (fun k => A n k * B k j) (fun k => B j k * a k)).
          2:{ intros k Hk. unfold a. rewrite (HS n k), (SB k j) by lia. ring. }
          fold (mulv n B a j). fold v.
          rewrite (Sum_ext n (fun k => A n k * v k) (fun k => a k * v k)) by (intros k Hk; unfold a; rewrite (HS n k) by lia; ring).
          fold (dotv n a v). unfold ident. destruct (Nat.eqb_spec n j); [lia|].
          replace (dotv n a v) with (A n n - s) by (unfold s; ring). field. lra.
      - subst j. rewrite (Sum_ext n (fun k => A i k * M k n) (fun k => (A i k * v k) * (- / s))).
        2:{ intros k Hk. unfold M. rewrite Hnn, !Hlt by auto. field. lra. }
        rewrite Sum_scal_r. unfold M. rewrite Hnn.
        destruct ij as [Hi'|Hi'].
        + fold (mulv n A v i). rewrite Av by auto. unfold ident. destruct (Nat.eqb_spec i n); [lia|]. unfold a. ring.
        + subst i. rewrite (Sum_ext n (fun k => A n k * v k) (fun k => a k * v k)) by (intros k Hk; unfold a; rewrite (HS n k) by lia; ring).
          fold (dotv n a v). unfold ident. rewrite Nat.eqb_refl.
          replace (dotv n a v) with (A n n - s) by (unfold s; ring). field. lra. }
    assert (SM : symm (S n) M).
    { intros i j Hi Hj. unfold M. destruct (Nat.ltb_spec i n), (Nat.ltb_spec j n); auto.
      rewrite (SB i j) by auto. unfold Rdiv. ring. }
    split; auto. intros i j Hi Hj.
    transitivity (mulm (S n) A M j i).
    + apply Sum_ext. intros k Hk. rewrite (SM i k), (HS k j) by auto. ring.
    + rewrite R by auto. unfold ident. rewrite Nat.eqb_sym. auto.
Qed.

Corollary posdef_invertible n A : symm n A -> posdef n A -> exists B, inverse n A B.
Proof. intros H1 H2. exists (ginv n A). apply ginv_inverse; auto. Qed.
