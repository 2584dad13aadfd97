(** Ridge regression: what the regularization does, and the order of the data (C380 on). *)
From Coq Require Import Reals Lra Lia List Arith Bool Permutation.
From Verif Require Import Base BaseFacts RBase LinAlg KernModel KernProofs GPModel RidgeModel RidgeProofs RidgeFacts RidgeProperties.
Import ListNotations.
Open Scope R_scope.
Set Bullet Behavior "Strict Subproofs".

(** Sum of squared residuals of the training data, and squared distance of the
    coefficients to the prior. *)
Definition misfit (X : list row) (Y : list R) (a : list R) : R :=
  sumR (map (fun q => (inner (fst q) a - snd q) ^ 2) (combine X Y)).
Definition off_prior (p : R) (a : list R) : R := sumR (map (fun x => (x - p) ^ 2) a).

Lemma minimiser_le X Y w p c a : only_minimiser X Y w p c -> length a = ncols X -> cost X Y w p c <= cost X Y w p a.
Proof.
  intros [_ H] HL. destruct (list_eq_dec Req_EM_T a c) as [->|N]; [lra|]. left. apply H; auto.
Qed.

(** ** C380: the trade-off *)
Theorem ridge_tradeoff svd X Y w1 w2 p fv1 fv2 r1 r2 c1 c2 n1 n2 :
  svd_contract svd -> data_ok X Y -> 0 < w1 <= w2 ->
  RR svd (Ridge None None) X Y w1 p fv1 = Ok (r1, c1, n1) ->
  RR svd (Ridge None None) X Y w2 p fv2 = Ok (r2, c2, n2) ->
  misfit X Y c1 <= misfit X Y c2 /\ off_prior p c2 <= off_prior p c1 /\ n2 <= n1 /\
  w2 * off_prior p c2 <= misfit X Y (repeat p (ncols X)) - misfit X Y c2.
Proof.
  intros HC HD [Hw H12] E1 E2. assert (Hw2 : 0 < w2) by lra.
  destruct (ridge_minimises svd X Y w1 p fv1 r1 c1 n1 HC HD Hw E1) as [M1 _].
  destruct (ridge_minimises svd X Y w2 p fv2 r2 c2 n2 HC HD Hw2 E2) as [M2 _].
  pose proof (minimiser_le _ _ _ _ _ c2 M1 (proj1 M2)) as L1. pose proof (minimiser_le _ _ _ _ _ c1 M2 (proj1 M1)) as L2.
  pose proof (minimiser_le _ _ _ _ _ (repeat p (ncols X)) M2 (repeat_length _ _)) as L3.
  unfold cost in L1, L2, L3. fold (misfit X Y c1) in *. fold (misfit X Y c2) in *. fold (off_prior p c1) in *. fold (off_prior p c2) in *.
  fold (misfit X Y (repeat p (ncols X))) in *. fold (off_prior p (repeat p (ncols X))) in *.
  assert (Z : off_prior p (repeat p (ncols X)) = 0).
  { unfold off_prior. generalize (ncols X). intros n. induction n as [|n IH]; cbn; [auto|]. cbn in IH. rewrite IH. ring. }
  rewrite Z in L3.
  assert (G : off_prior p c2 <= off_prior p c1 \/ w1 = w2) by (destruct (Req_dec w1 w2); [auto|left; nra]).
  destruct G as [G| ->].
  - split; [nra|]. split; [auto|]. split; [|lra].
    unfold RR, use_svd in E1, E2. cbn [r_W2 r_Vh] in E1, E2.
    destruct (svd (gram X)) as [[[V W] Vh]|] eqn:ES; [|discriminate]. cbn [bind] in E1, E2.
    destruct (negb _); [discriminate|]. injection E1 as _ _ <-. injection E2 as _ _ <-.
    destruct (HC _ _ _ _ ES eq_refl) as (_ & _ & _ & P & _). apply Sum_le. intros i Hi.
    assert (0 <= nth i W 0) by (apply P, nth_In; auto).
    apply Rmult_le_compat_l; [auto|]. apply Rinv_le_contravar; lra.
  - assert (c1 = c2) as ->.
    { destruct (list_eq_dec Req_EM_T c1 c2) as [|N]; [auto|]. exfalso. destruct M1 as [A1 M1]. destruct M2 as [A2 M2].
      pose proof (M1 c2 A2 ltac:(congruence)) as Q1. pose proof (M2 c1 A1 N) as Q2. unfold cost in Q1, Q2. lra. }
    split; [lra|]. split; [lra|]. split; [|lra].
    unfold RR, use_svd in E1, E2. cbn [r_W2 r_Vh] in E1, E2.
    destruct (svd (gram X)) as [[[V W] Vh]|] eqn:ES; [|discriminate]. cbn [bind] in E1, E2.
    destruct (negb _); [discriminate|]. injection E1 as _ _ <-. injection E2 as _ _ <-. lra.
Qed.

(** ** C381: the order of the data *)

Lemma misfit_perm X Y X' Y' a : Permutation (combine X Y) (combine X' Y') -> misfit X' Y' a = misfit X Y a.
Proof. intros P. unfold misfit. symmetry. apply sumR_perm, Permutation_map, P. Qed.

Theorem ridge_row_order svd X Y X' Y' w p fv fv' r r' c c' n n' :
  svd_contract svd -> data_ok X Y -> data_ok X' Y' -> 0 < w ->
  Permutation (combine X Y) (combine X' Y') ->
  RR svd (Ridge None None) X Y w p fv = Ok (r, c, n) ->
  RR svd (Ridge None None) X' Y' w p fv' = Ok (r', c', n') ->
  c' = c.
Proof.
  intros HC HD HD' Hw HP E E'.
  destruct (ridge_minimises svd X Y w p fv r c n HC HD Hw E) as [[A1 M1] _].
  destruct (ridge_minimises svd X' Y' w p fv' r' c' n' HC HD' Hw E') as [[A2 M2] _].
  assert (EN : ncols X' = ncols X).
  { destruct HD as (HN & HR & HL). destruct HD' as (HN' & HR' & HL').
    destruct X as [|x X]; [congruence|]. destruct Y as [|y Y]; [discriminate|].
    assert (I : In (x, y) (combine X' Y')) by (eapply Permutation_in; [exact HP|left; auto]).
    apply in_combine_l in I. unfold rectangular in HR'. rewrite Forall_forall in HR'. cbn [ncols]. symmetry. apply HR'. exact I. }
  assert (EC : forall a, cost X' Y' w p a = cost X Y w p a).
  { intros a. unfold cost. f_equal. apply (misfit_perm X Y X' Y' a HP). }
  destruct (list_eq_dec Req_EM_T c' c) as [|N]; [auto|exfalso].
  pose proof (M1 c' ltac:(congruence) N) as Q1. pose proof (M2 c ltac:(congruence) ltac:(congruence)) as Q2.
  rewrite !EC in Q2. lra.
Qed.

(** ** Concrete case: one feature, y = x: the coefficient 5/(5+w) shrinks from 5/6 to 1/2. *)
Example ridge_tradeoff_case svd r1 r2 c1 c2 n1 n2 : svd_contract svd ->
  RR svd (Ridge None None) [[1]; [2]] [1; 2] 1 0 false = Ok (r1, c1, n1) ->
  RR svd (Ridge None None) [[1]; [2]] [1; 2] 5 0 false = Ok (r2, c2, n2) ->
  c1 = [5 / 6] /\ c2 = [1 / 2] /\ misfit [[1]; [2]] [1; 2] [5 / 6] < misfit [[1]; [2]] [1; 2] [1 / 2].
Proof.
  intros HC E1 E2.
  assert (D : data_ok [[1]; [2]] [1; 2]) by (split; [discriminate|]; split; [repeat constructor|reflexivity]).
  destruct (RR_solves svd (Ridge None None) [[1]; [2]] [[1]; [2]] [1; 2] 1 0 false r1 c1 n1 HC ltac:(left; reflexivity) ltac:(auto) ltac:(lra) D E1) as (A & _ & B & _).
  destruct (RR_solves svd (Ridge None None) [[1]; [2]] [[1]; [2]] [1; 2] 5 0 false r2 c2 n2 HC ltac:(left; reflexivity) ltac:(auto) ltac:(lra) D E2) as (A' & _ & B' & _).
  cbn in A, A'. destruct c1 as [|x [|? ?]]; try discriminate. destruct c2 as [|x' [|? ?]]; try discriminate.
  specialize (B 0%nat ltac:(cbn; lia)). specialize (B' 0%nat ltac:(cbn; lia)).
  unfold vecf, xty, mulv, entry in B, B'. cbn in B, B'. split; [f_equal; lra|]. split; [f_equal; lra|].
  unfold misfit, inner. cbn. lra.
Qed.

Print Assumptions ridge_tradeoff.
Print Assumptions ridge_row_order.
