(** Derivatives of inverses and of logarithms of determinants of matrices that depend
    on a number. *)
From Coq Require Import Reals Lra Lia List Arith Bool.
From Coquelicot Require Import Coquelicot.
From Verif Require Import Base BaseFacts RBase LinAlg LogDet.
From Coq Require Import List.
Import ListNotations.
Open Scope R_scope.

Definition dmat (n : nat) (A : R -> mat) (t : R) (A' : mat) : Prop :=
  forall i j, (i < n)%nat -> (j < n)%nat -> is_derive (fun u => A u i j) t (A' i j).

Lemma d_mult f g t f' g' : is_derive f t f' -> is_derive g t g' -> is_derive (fun u => f u * g u) t (f' * g t + f t * g').
Proof. intros H1 H2. evar_last; [apply (is_derive_mult f g t f' g' H1 H2); intros; apply Rmult_comm|]. reflexivity. Qed.

Lemma d_plus f g t f' g' : is_derive f t f' -> is_derive g t g' -> is_derive (fun u => f u + g u) t (f' + g').
Proof. intros H1 H2. apply (is_derive_plus f g t f' g' H1 H2). Qed.

Lemma d_minus f g t f' g' : is_derive f t f' -> is_derive g t g' -> is_derive (fun u => f u - g u) t (f' - g').
Proof. intros H1 H2. apply (is_derive_minus f g t f' g' H1 H2). Qed.

Lemma d_const c t : is_derive (fun _ : R => c) t 0.
Proof. apply (is_derive_const c t). Qed.

Lemma d_Sum n (F : R -> nat -> R) t F' : (forall i, (i < n)%nat -> is_derive (fun u => F u i) t (F' i)) ->
  is_derive (fun u => Sum n (F u)) t (Sum n F').
Proof.
  induction n as [|n IH]; intros H; cbn [Sum]; [apply d_const|].
  apply (d_plus (fun u => Sum n (F u)) (fun u => F u n)); [apply IH; intros; apply H; lia|apply H; lia].
Qed.

Lemma d_div f g t f' g' : is_derive f t f' -> is_derive g t g' -> g t <> 0 ->
  is_derive (fun u => f u / g u) t ((f' * g t - f t * g') / g t ^ 2).
Proof. intros H1 H2 H. apply (is_derive_div f g t f' g' H1 H2 H). Qed.

Lemma near_pos f t f' : is_derive f t f' -> 0 < f t -> locally t (fun u => 0 < f u).
Proof.
  intros H P. assert (C : continuous f t) by (apply (ex_derive_continuous f); exists f'; auto).
  apply (C (fun y => 0 < y)). apply (open_gt 0 (f t)). auto.
Qed.

Lemma derive_near (f g : R -> R) t l : locally t (fun u => f u = g u) -> is_derive f t l -> is_derive g t l.
Proof. intros H. apply is_derive_ext_loc. auto. Qed.

(** ** The last Schur complement *)
Definition gv (n : nat) (A : mat) : vec := mulv n (ginv n A) (fun i => A i n).
Definition gs (n : nat) (A : mat) : R := A n n - dotv n (fun i => A i n) (gv n A).

Lemma quad_border n A x c : symm (S n) A -> posdef n A ->
  quad (S n) A (fun i => if (i =? n)%nat then c else x i) = quad n A (fun i => x i + c * gv n A i) + c ^ 2 * gs n A.
Proof.
  intros HS HP. pose proof (ginv_inverse n A (symm_restrict n A HS) HP) as HB.
  set (a := fun i => A i n). set (v := gv n A). assert (Av : eqv n (mulv n A v) a) by (apply mulv_inverse; auto).
  rewrite quad_S, Nat.eqb_refl. rewrite (quad_ext n A A _ x).
  2:{ intros ? ? ? ?; auto. }
  2:{ intros k Hk. destruct (Nat.eqb_spec k n); [lia|auto]. }
  rewrite (Sum_ext n _ (fun i => 2 * (x i * a i))).
  2:{ intros k Hk. destruct (Nat.eqb_spec k n); [lia|]. rewrite ?(HS n k) by lia. unfold a. ring. }
  rewrite Sum_scal.
  assert (E : quad n A (fun i => x i + c * v i) = quad n A x + 2 * c * Sum n (fun i => x i * a i) + c ^ 2 * dotv n a v).
  { transitivity (quad n A x + c * dotv n x (mulv n A v) + c * dotv n v (mulv n A x) + c ^ 2 * dotv n v (mulv n A v)).
    - unfold quad, dotv, mulv. rewrite <- !Sum_scal, <- !Sum_plus. apply Sum_ext. intros i Hi.
      rewrite <- !Sum_scal, <- !Sum_plus. apply Sum_ext. intros j Hj. ring.
    - rewrite (dotv_symm n A v x) by (apply symm_restrict; auto). rewrite (dotv_sym n (mulv n A v) x).
      rewrite (dotv_ext n x x (mulv n A v) a) by (auto; intros ? ?; auto).
      rewrite (dotv_ext n v v (mulv n A v) a) by (auto; intros ? ?; auto). rewrite (dotv_sym n v a). unfold dotv at 1 2. ring. }
  rewrite E. unfold gs. fold a. fold v. ring.
Qed.

Lemma gs_pos n A : symm (S n) A -> posdef (S n) A -> 0 < gs n A.
Proof.
  intros HS HP. pose proof (quad_border n A (fun i => - gv n A i) 1 HS (posdef_restrict n A HP)) as Q. cbv beta in Q.
  assert (Z : quad n A (fun i => - gv n A i + 1 * gv n A i) = 0).
  { unfold quad. apply Sum_zero. intros i Hi. apply Sum_zero. intros j Hj. ring. }
  rewrite Z in Q. replace (gs n A) with (0 + 1 ^ 2 * gs n A) by ring. rewrite <- Q. apply HP.
  exists n. split; [lia|]. rewrite Nat.eqb_refl. lra.
Qed.

Lemma nonzero_dec n (z : vec) : (exists k, (k < n)%nat /\ z k <> 0) \/ (forall k, (k < n)%nat -> z k = 0).
Proof.
  induction n as [|n [[k [Hk Hz]]|IH]]; [right; intros; lia|left; exists k; split; auto|].
  destruct (Req_dec (z n) 0); [right|left; exists n; split; auto].
  intros k Hk. destruct (Nat.eq_dec k n); [subst; auto|apply IH; lia].
Qed.

Lemma posdef_border n A : symm (S n) A -> posdef n A -> 0 < gs n A -> posdef (S n) A.
Proof.
  intros HS HP Hs x [i [Hi Hx]].
  rewrite (quad_ext (S n) A A x (fun i => if (i =? n)%nat then x n else x i)).
  2:{ intros ? ? ? ?; auto. }
  2:{ intros k Hk. destruct (Nat.eqb_spec k n); subst; auto. }
  rewrite quad_border by auto. destruct (Req_dec (x n) 0) as [E|E].
  - rewrite E. rewrite (quad_ext n A A _ x); [|intros ? ? ? ?; auto|intros k Hk; ring].
    assert (i < n)%nat by (destruct (Nat.eq_dec i n); [subst; congruence|lia]).
    assert (0 < quad n A x) by (apply HP; eauto). lra.
  - assert (0 <= quad n A (fun i => x i + x n * gv n A i)).
    { clear -HP. set (z := fun i => x i + x n * gv n A i). clearbody z.
      destruct (nonzero_dec n z) as [[k [Hk Hz]]|H]; [left; apply HP; eauto|].
      right. symmetry. unfold quad. apply Sum_zero. intros i Hi. apply Sum_zero. intros j Hj. rewrite (H i Hi). ring. }
    assert (0 < x n ^ 2) by (cbn; nra). nra.
Qed.

(** ** Differentiability *)
Definition differentiable (f : R -> R) (t : R) : Prop := exists l, is_derive f t l.

Lemma diff_Sum n (F : R -> nat -> R) t : (forall i, (i < n)%nat -> differentiable (fun u => F u i) t) -> differentiable (fun u => Sum n (F u)) t.
Proof.
  induction n as [|n IH]; intros H; cbn [Sum]; [exists 0; apply d_const|].
  destruct IH as [a Ha]; [intros; apply H; lia|]. destruct (H n) as [b Hb]; [lia|].
  exists (a + b). apply (d_plus (fun u => Sum n (F u)) (fun u => F u n)); auto.
Qed.

Lemma diff_mult f g t : differentiable f t -> differentiable g t -> differentiable (fun u => f u * g u) t.
Proof. intros [a Ha] [b Hb]. eexists. apply d_mult; eauto. Qed.
Lemma diff_plus f g t : differentiable f t -> differentiable g t -> differentiable (fun u => f u + g u) t.
Proof. intros [a Ha] [b Hb]. eexists. apply d_plus; eauto. Qed.
Lemma diff_minus f g t : differentiable f t -> differentiable g t -> differentiable (fun u => f u - g u) t.
Proof. intros [a Ha] [b Hb]. eexists. apply d_minus; eauto. Qed.
Lemma diff_div f g t : differentiable f t -> differentiable g t -> g t <> 0 -> differentiable (fun u => f u / g u) t.
Proof. intros [a Ha] [b Hb] H. eexists. apply d_div; eauto. Qed.
Lemma diff_opp f t : differentiable f t -> differentiable (fun u => - f u) t.
Proof. intros [a Ha]. eexists. apply (is_derive_opp f t a Ha). Qed.

Section Calculus.
Variable A : R -> mat.
Variable t : R.
Hypothesis HS : forall n u, symm n (A u).

Definition smooth_entries (n : nat) := forall i j, (i < n)%nat -> (j < n)%nat -> differentiable (fun u => A u i j) t.

Lemma ginv_diff n : smooth_entries n -> posdef n (A t) ->
  forall i j, (i < n)%nat -> (j < n)%nat -> differentiable (fun u => ginv n (A u) i j) t.
Proof.
  induction n as [|n IH]; intros HD HP i j Hi Hj; [lia|].
  assert (HB : forall i j, (i < n)%nat -> (j < n)%nat -> differentiable (fun u => ginv n (A u) i j) t).
  { apply IH; [intros a b ? ?; apply HD; lia|apply posdef_restrict; auto]. }
  assert (HV : forall i, (i < n)%nat -> differentiable (fun u => gv n (A u) i) t).
  { intros k Hk. unfold gv, mulv. apply (diff_Sum n (fun u j => ginv n (A u) k j * A u j n)). intros m Hm.
    apply (diff_mult (fun u => ginv n (A u) k m) (fun u => A u m n)); auto. }
  assert (HG : differentiable (fun u => gs n (A u)) t).
  { unfold gs. apply (diff_minus (fun u => A u n n)); [apply HD; lia|]. unfold dotv.
    apply (diff_Sum n (fun u i => A u i n * gv n (A u) i)). intros m Hm. apply (diff_mult (fun u => A u m n)); auto. }
  assert (P : gs n (A t) <> 0) by (pose proof (gs_pos n (A t) (HS _ _) HP); lra).
  cbn [ginv]. change (fun u => (let B := ginv n (A u) in _)) with
    (fun u => match (i <? n)%nat, (j <? n)%nat with
      | true, true => ginv n (A u) i j + gv n (A u) i * gv n (A u) j / gs n (A u)
      | true, false => - gv n (A u) i / gs n (A u)
      | false, true => - gv n (A u) j / gs n (A u) | false, false => / gs n (A u) end).
  destruct (Nat.ltb_spec i n), (Nat.ltb_spec j n).
  - apply (diff_plus (fun u => ginv n (A u) i j)); auto.
    apply (diff_div (fun u => gv n (A u) i * gv n (A u) j) (fun u => gs n (A u))); auto.
    apply (diff_mult (fun u => gv n (A u) i)); auto.
  - apply (diff_div (fun u => - gv n (A u) i) (fun u => gs n (A u))); auto. apply (diff_opp (fun u => gv n (A u) i)); auto.
  - apply (diff_div (fun u => - gv n (A u) j) (fun u => gs n (A u))); auto. apply (diff_opp (fun u => gv n (A u) j)); auto.
  - assert (Q : differentiable (fun u => 1 / gs n (A u)) t).
    { apply (diff_div (fun _ => 1) (fun u => gs n (A u))); auto. exists 0. apply d_const. }
    destruct Q as [q Hq]. exists q. apply (is_derive_ext (fun u => 1 / gs n (A u))); [intros u; unfold Rdiv; apply Rmult_1_l|auto].
Qed.

Lemma gv_diff n : smooth_entries (S n) -> posdef n (A t) -> forall i, (i < n)%nat -> differentiable (fun u => gv n (A u) i) t.
Proof.
  intros HD HP i Hi. unfold gv, mulv. apply (diff_Sum n (fun u j => ginv n (A u) i j * A u j n)). intros m Hm.
  apply (diff_mult (fun u => ginv n (A u) i m) (fun u => A u m n)); [|apply HD; lia].
  apply ginv_diff; auto. intros a b ? ?; apply HD; lia.
Qed.

Lemma gs_diff n : smooth_entries (S n) -> posdef n (A t) -> differentiable (fun u => gs n (A u)) t.
Proof.
  intros HD HP. unfold gs. apply (diff_minus (fun u => A u n n)); [apply HD; lia|]. unfold dotv.
  apply (diff_Sum n (fun u i => A u i n * gv n (A u) i)). intros m Hm.
  apply (diff_mult (fun u => A u m n)); [apply HD; lia|apply gv_diff; auto].
Qed.

Lemma posdef_near n : smooth_entries n -> posdef n (A t) -> locally t (fun u => posdef n (A u)).
Proof.
  induction n as [|n IH]; intros HD HP.
  - apply filter_forall. intros u x [i [Hi _]]. lia.
  - assert (HP' := posdef_restrict n _ HP).
    assert (L1 : locally t (fun u => posdef n (A u))) by (apply IH; auto; intros a b ? ?; apply HD; lia).
    destruct (gs_diff n HD HP') as [g Hg].
    pose proof (near_pos _ _ _ Hg (gs_pos n (A t) (HS _ _) HP)) as L2.
    generalize (filter_and _ _ L1 L2). apply filter_imp. intros u [H1 H2]. apply posdef_border; auto.
Qed.

(** A vector that solves a linear system near t. *)
Lemma solve_derive n A' (x b : R -> vec) x' b' : dmat n A t A' ->
  (forall i, (i < n)%nat -> is_derive (fun u => x u i) t (x' i)) ->
  (forall i, (i < n)%nat -> is_derive (fun u => b u i) t (b' i)) ->
  locally t (fun u => eqv n (mulv n (A u) (x u)) (b u)) ->
  eqv n (fun i => mulv n A' (x t) i + mulv n (A t) x' i) b'.
Proof.
  intros HA Hx Hb HL i Hi.
  assert (H1 : is_derive (fun u => mulv n (A u) (x u) i) t (mulv n A' (x t) i + mulv n (A t) x' i)).
  { unfold mulv. rewrite <- Sum_plus. apply (d_Sum n (fun u j => A u i j * x u j)). intros j Hj.
    apply (d_mult (fun u => A u i j) (fun u => x u j)); auto. }
  assert (H2 : is_derive (fun u => b u i) t (mulv n A' (x t) i + mulv n (A t) x' i)).
  { apply (derive_near (fun u => mulv n (A u) (x u) i)); auto. revert HL. apply filter_imp. intros u Hu. apply Hu; auto. }
  pose proof (is_derive_unique _ _ _ H2) as E1. pose proof (is_derive_unique _ _ _ (Hb i Hi)) as E2. cbv beta in *. congruence.
Qed.

Lemma choose_derivatives n (F : R -> vec) : (forall i, (i < n)%nat -> differentiable (fun u => F u i) t) ->
  exists F', forall i, (i < n)%nat -> is_derive (fun u => F u i) t (F' i).
Proof.
  intros H. exists (fun i => Derive (fun u => F u i) t). intros i Hi. destruct (H i Hi) as [l Hl]. apply Derive_correct. exists l. auto.
Qed.

(** ** y' A^-1 y *)
Lemma inverse_form_derive n A' y : dmat n A t A' -> posdef n (A t) ->
  is_derive (fun u => dotv n y (mulv n (ginv n (A u)) y)) t
    (let a := mulv n (ginv n (A t)) y in - Sum n (fun i => Sum n (fun j => a i * A' i j * a j))).
Proof.
  intros HA HP. assert (HD : smooth_entries n) by (intros i j Hi Hj; eexists; apply HA; auto).
  pose proof (posdef_near n HD HP) as HL.
  destruct (choose_derivatives n (fun u => mulv n (ginv n (A u)) y)) as [x' Hx].
  { intros i Hi. unfold mulv. apply (diff_Sum n (fun u j => ginv n (A u) i j * y j)). intros j Hj.
    apply (diff_mult (fun u => ginv n (A u) i j) (fun _ => y j)); [apply ginv_diff; auto|exists 0; apply d_const]. }
  assert (E : eqv n (fun i => mulv n A' (mulv n (ginv n (A t)) y) i + mulv n (A t) x' i) (fun _ => 0)).
  { apply (solve_derive n A' (fun u => mulv n (ginv n (A u)) y) (fun _ => y) x' (fun _ => 0)); auto.
    - intros i Hi. apply d_const.
    - revert HL. apply filter_imp. intros u Hu. apply mulv_inverse. apply ginv_inverse; auto. }
  cbv zeta. set (a := mulv n (ginv n (A t)) y) in *. evar_last.
  - unfold dotv. apply (d_Sum n (fun u i => y i * mulv n (ginv n (A u)) y i)). intros i Hi.
    apply (d_mult (fun _ => y i) (fun u => mulv n (ginv n (A u)) y i)); [apply d_const|apply Hx; auto].
  - rewrite (Sum_ext n _ (fun i => y i * x' i)) by (intros; ring). fold (dotv n y x').
    assert (Ay : eqv n (mulv n (A t) a) y) by (apply mulv_inverse; apply ginv_inverse; auto).
    rewrite (dotv_ext n y (mulv n (A t) a) x' x'); [|intros i Hi; symmetry; apply Ay; auto|intros ? ?; auto].
    rewrite <- dotv_symm by auto. unfold dotv.
    transitivity (Sum n (fun i => -1 * (Sum n (fun j => a i * A' i j * a j)))); [|rewrite Sum_scal; ring].
    apply Sum_ext. intros i Hi. specialize (E i Hi). cbv beta in E.
    transitivity (a i * - mulv n A' a i); [f_equal; lra|]. unfold mulv.
    rewrite (Sum_ext n (fun j => a i * A' i j * a j) (fun j => a i * (A' i j * a j))) by (intros; ring). rewrite Sum_scal. ring.
Qed.

(** ** log det A *)
Definition glogdet (n : nat) (M : mat) : R := Sum n (fun k => ln (gs k M)).

Lemma gs_derive n A' : dmat (S n) A t A' -> posdef (S n) (A t) -> let v := gv n (A t) in
  (forall i j, (i <= n)%nat -> (j <= n)%nat -> A' i j = A' j i) ->
  is_derive (fun u => gs n (A u)) t (A' n n - 2 * Sum n (fun i => A' i n * v i) + Sum n (fun i => Sum n (fun j => v i * A' i j * v j))).
Proof.
  intros HA HP v SA'. assert (HP' := posdef_restrict n _ HP).
  assert (HD : smooth_entries (S n)) by (intros i j Hi Hj; eexists; apply HA; auto).
  assert (HD' : smooth_entries n) by (intros i j Hi Hj; apply HD; lia).
  assert (HA' : dmat n A t A') by (intros i j Hi Hj; apply HA; lia).
  pose proof (posdef_near n HD' HP') as HL.
  destruct (choose_derivatives n (fun u => gv n (A u))) as [v' Hv].
  { intros i Hi. apply gv_diff; auto. }
  assert (E : eqv n (fun i => mulv n A' v i + mulv n (A t) v' i) (fun i => A' i n)).
  { apply (solve_derive n A' (fun u => gv n (A u)) (fun u i => A u i n) v' (fun i => A' i n)); auto.
    revert HL. apply filter_imp. intros u Hu. apply mulv_inverse. apply ginv_inverse; auto. }
  assert (Av : eqv n (mulv n (A t) v) (fun i => A t i n)) by (apply mulv_inverse; apply ginv_inverse; auto).
  evar_last.
  - unfold gs. apply (d_minus (fun u => A u n n) (fun u => dotv n (fun i => A u i n) (gv n (A u)))); [apply HA; lia|].
    unfold dotv. apply (d_Sum n (fun u i => A u i n * gv n (A u) i)). intros i Hi.
    apply (d_mult (fun u => A u i n) (fun u => gv n (A u) i)); [apply HA; lia|apply Hv; auto].
  - rewrite Sum_plus. change (gv n (A t)) with v.
    assert (Q : Sum n (fun i => A t i n * v' i) = Sum n (fun i => A' i n * v i) - Sum n (fun i => Sum n (fun j => v i * A' i j * v j))).
    { transitivity (dotv n (mulv n (A t) v) v').
      { apply Sum_ext. intros i Hi. rewrite Av by auto. auto. }
      rewrite <- dotv_symm by auto. rewrite <- Sum_minus. apply Sum_ext. intros i Hi. specialize (E i Hi). cbv beta in E.
      replace (mulv n (A t) v' i) with (A' i n - mulv n A' v i) by lra. unfold mulv.
      rewrite (Sum_ext n (fun j => v i * A' i j * v j) (fun j => v i * (A' i j * v j))) by (intros; ring). rewrite Sum_scal. ring. }
    rewrite Q. ring.
Qed.

Lemma glogdet_derive n A' : dmat n A t A' -> posdef n (A t) -> (forall i j, (i < n)%nat -> (j < n)%nat -> A' i j = A' j i) ->
  is_derive (fun u => glogdet n (A u)) t (Sum n (fun i => Sum n (fun j => ginv n (A t) i j * A' i j))).
Proof.
  induction n as [|n IH]; intros HA HP SA'; [exact (d_const 0 t)|].
  assert (HP' := posdef_restrict n _ HP). assert (HA' : dmat n A t A') by (intros i j Hi Hj; apply HA; lia).
  assert (Sp := gs_pos n (A t) (HS _ _) HP).
  set (v := gv n (A t)). set (s := gs n (A t)) in *. evar_last.
  - unfold glogdet. cbn [Sum]. apply (d_plus (fun u => glogdet n (A u)) (fun u => ln (gs n (A u)))).
    + apply IH; auto.
    + apply (is_derive_comp ln (fun u => gs n (A u))); [apply is_derive_ln; exact Sp|].
      apply (gs_derive n A' HA HP). intros i j Hi Hj. apply SA'; lia.
  - change (gv n (A t)) with v. fold s.
    rewrite (Sum_ext (S n) (fun i => Sum (S n) (fun j => ginv (S n) (A t) i j * A' i j))
      (fun i => if (i <? n)%nat then Sum n (fun j => ginv n (A t) i j * A' i j) + / s * Sum n (fun j => v i * A' i j * v j) - / s * (A' i n * v i)
                else / s * A' n n - / s * Sum n (fun j => A' j n * v j))).
    2:{ intros i Hi. cbn [Sum]. change (ginv (S n) (A t) i) with
          (fun j => match (i <? n)%nat, (j <? n)%nat with
            | true, true => ginv n (A t) i j + v i * v j / s | true, false => - v i / s
            | false, true => - v j / s | false, false => / s end). cbv beta. rewrite Nat.ltb_irrefl.
        destruct (Nat.ltb_spec i n) as [Hl|Hl].
        - rewrite (Sum_ext n _ (fun j => ginv n (A t) i j * A' i j + / s * (v i * A' i j * v j))).
          2:{ intros j Hj. destruct (Nat.ltb_spec j n); [|lia]. unfold Rdiv. ring. }
          rewrite Sum_plus, Sum_scal. unfold Rdiv. ring.
        - replace i with n by lia.
          rewrite (Sum_ext n _ (fun j => - / s * (A' j n * v j))).
          2:{ intros j Hj. destruct (Nat.ltb_spec j n); [|lia]. rewrite (SA' n j) by lia. unfold Rdiv. ring. }
          rewrite Sum_scal. ring. }
    cbn [Sum]. rewrite Nat.ltb_irrefl.
    rewrite (Sum_ext n (fun i => if (i <? n)%nat then _ else _)
      (fun i => Sum n (fun j => ginv n (A t) i j * A' i j) + / s * Sum n (fun j => v i * A' i j * v j) - / s * (A' i n * v i))).
    2:{ intros i Hi. destruct (Nat.ltb_spec i n); [auto|lia]. }
    rewrite Sum_minus, Sum_plus, !Sum_scal. unfold scal; cbn; unfold mult; cbn. field. lra.
Qed.
End Calculus.

(** The last pivot of a Cholesky factor. *)
Lemma cholesky_restrict n M L : cholesky (S n) M L -> cholesky n M L.
Proof.
  intros [H1 [H2 H3]]. split; [|split]; intros; try (apply H1 || apply H2); try lia.
  rewrite <- H3 by lia. cbn [Sum]. rewrite (H1 i n) by lia. ring.
Qed.

Lemma triangular_injective n L x : (forall i j, (i < n)%nat -> (j < n)%nat -> (i < j)%nat -> L i j = 0) ->
  (forall i, (i < n)%nat -> 0 < L i i) -> (forall i, (i < n)%nat -> Sum n (fun k => L i k * x k) = 0) ->
  forall i, (i < n)%nat -> x i = 0.
Proof.
  intros H1 H2 H3. intros i. induction i as [i IH] using lt_wf_ind. intros Hi. specialize (H3 i Hi).
  assert (E : Sum n (fun k => L i k * x k) = L i i * x i).
  { rewrite (Sum_ext n _ (fun k => (if (i =? k)%nat then 1 else 0) * (L i k * x k))).
    - rewrite (Sum_delta n i (fun k => L i k * x k)); auto.
    - intros k Hk. destruct (Nat.eqb_spec i k); [ring|]. destruct (Nat.lt_ge_cases k i) as [Hl|Hl].
      + rewrite (IH k) by lia. ring.
      + rewrite H1 by lia. ring. }
  rewrite E in H3. pose proof (H2 i Hi). apply Rmult_integral in H3. destruct H3; lra.
Qed.

Lemma cholesky_gs n M L : symm (S n) M -> posdef (S n) M -> cholesky (S n) M L -> gs n M = L n n * L n n.
Proof.
  intros HS HP HC. pose proof (cholesky_restrict n M L HC) as [C1 [C2 C3]]. destruct HC as [D1 [D2 D3]].
  assert (Av : eqv n (mulv n M (gv n M)) (fun i => M i n)).
  { apply mulv_inverse. apply ginv_inverse; [apply symm_restrict; auto|apply posdef_restrict; auto]. }
  set (v := gv n M) in *.
  set (w := fun k => Sum n (fun j => L j k * v j)).
  assert (Ea : forall i, (i < n)%nat -> M i n = Sum n (fun k => L i k * L n k)).
  { intros i Hi. rewrite <- D3 by lia. cbn [Sum]. rewrite (D1 i n) by lia. ring. }
  assert (W : forall k, (k < n)%nat -> w k - L n k = 0).
  { apply (triangular_injective n L (fun k => w k - L n k)); auto. intros i Hi.
    rewrite (Sum_ext n _ (fun k => L i k * w k - L i k * L n k)) by (intros; ring). rewrite Sum_minus, <- Ea by auto.
    rewrite <- (Av i Hi). unfold mulv, w. rewrite (Sum_ext n (fun k => L i k * Sum n (fun j => L j k * v j)) (fun k => Sum n (fun j => L i k * (L j k * v j)))).
    2:{ intros k Hk. rewrite Sum_scal. auto. }
    rewrite Sum_swap. rewrite (Sum_ext n _ (fun j => M i j * v j)); [ring|].
    intros j Hj. rewrite <- C3 by auto. rewrite <- Sum_scal_r. apply Sum_ext. intros; ring. }
  unfold gs. fold v. unfold dotv.
  rewrite (Sum_ext n (fun i => M i n * v i) (fun i => Sum n (fun k => (L i k * v i) * L n k))).
  2:{ intros i Hi. rewrite Ea by auto. rewrite <- Sum_scal_r. apply Sum_ext. intros; ring. }
  rewrite Sum_swap. rewrite (Sum_ext n _ (fun k => L n k * L n k)).
  2:{ intros k Hk. rewrite Sum_scal_r. fold (w k). specialize (W k Hk). replace (w k) with (L n k) by lra. auto. }
  rewrite <- (D3 n n) by lia. cbn [Sum]. ring.
Qed.

Lemma cholesky_glogdet n M L : symm n M -> posdef n M -> cholesky n M L -> Sum n (fun i => ln (L i i)) = / 2 * glogdet n M.
Proof.
  unfold glogdet. induction n as [|n IH]; intros HS HP HC; cbn [Sum]; [ring|].
  rewrite IH by (auto using symm_restrict, posdef_restrict, cholesky_restrict).
  rewrite (cholesky_gs n M L) by auto. destruct HC as [_ [H2 _]]. rewrite ln_mult by (apply H2; lia). lra.
Qed.
