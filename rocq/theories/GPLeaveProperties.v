(** What a Gaussian process says about a model trained without one of its observations
    (catlearn/regression/gaussian_process.py). *)
From Coq Require Import Reals Lra Lia List Arith Bool Permutation.
From Verif Require Import Base BaseFacts RBase LinAlg LogDet KernModel KernProofs KernSetupProofs KernDefProofs
  KernScaleProofs KernEntryProofs KernProperties GPModel GPProofs GPMoreProofs GPProperties
  RidgeModel RidgeProofs RidgeFacts RidgeProperties GPRidgeProperties GPDataProperties GPNextProperties.
Import ListNotations.
Open Scope R_scope.
Set Bullet Behavior "Strict Subproofs".

(** A model is trained on all observations, a second one on all but the observation y at z. The first one predicts p with
    uncertainty u at z, the second one q with uncertainty v. Then q and v follow from p, u, y and the noise: the error of the
    second model is that of the first one divided by 1 - u^2 / noise, and so is the squared uncertainty. The squared uncertainty
    at a training point is below the noise, and neither the error nor the uncertainty is larger than without the observation. *)
Theorem leave_one_out : forall inv cho cho_solve D fp1 z fp2 t1 y t2 ks reg rb sopt s s1,
  oracles_ok inv cho -> oracles_total inv cho -> inputs_ok D (fp1 ++ fp2) ks -> Forall (sensible sopt) ks -> length z = D ->
  length t1 = length fp1 -> 0 < noise_of sopt reg ->
  gp_init inv cho cho_solve (fp1 ++ z :: fp2) (t1 ++ y :: t2) ks None reg rb sopt false = Ok s ->
  gp_init inv cho cho_solve (fp1 ++ fp2) (t1 ++ t2) ks None reg rb sopt false = Ok s1 ->
  let noise := noise_of sopt reg in
  exists p u r q v rv,
    predict s [z] = Ok [p] /\ predict_with_uncertainty s [z] = Ok ([u], r) /\
    predict s1 [z] = Ok [q] /\ predict_with_uncertainty s1 [z] = Ok ([v], rv) /\
    u ^ 2 < noise /\ y - q = (y - p) / (1 - u ^ 2 / noise) /\ v ^ 2 = u ^ 2 / (1 - u ^ 2 / noise) /\
    Rabs (y - p) <= Rabs (y - q) /\ u <= v.
Proof.
  intros inv cho cho_solve D fp1 z fp2 t1 y t2 ks reg rb sopt s s1 HO HC HI HS HZ HL N0 E E1 noise.
  assert (HR : Forall (fun r => length r = D) (fp1 ++ fp2)) by apply (i_rect _ _ _ HI).
  apply Forall_app in HR. destruct HR as [R1 R2].
  destruct (init_facts _ _ _ HO _ _ _ _ _ _ _ _ _ HI E1) as (ks' & b & EP & T & _ & _ & _ & _ & _ & HL1 & _).
  pose proof (prepare_sensible _ _ _ _ _ _ _ EP HS) as HS'.
  assert (HI2 : inputs_ok D ((fp1 ++ fp2) ++ [z]) ks).
  { destruct HI. constructor; auto; try (apply Forall_app; auto). destruct (fp1 ++ fp2); discriminate. }
  assert (HIf : inputs_ok D (fp1 ++ z :: fp2) ks).
  { destruct HI. constructor; auto; [destruct fp1; discriminate|]. apply Forall_app. split; auto. }
  assert (G : exists s2, gp_init inv cho cho_solve ((fp1 ++ fp2) ++ [z]) ((t1 ++ t2) ++ [y]) ks None reg rb sopt false = Ok s2).
  { destruct HO as [SI SC], HC as [CI CC]. destruct HI2. eapply (gp_init_ok inv cho cho_solve SI); eauto.
    - rewrite !app_length in *. cbn [length]. lia.
    - unfold noise_of in N0. unfold logged. intros Q. destruct sopt; rewrite Q in N0; lra. }
  destruct G as [s2 E2].
  assert (PM : Permutation (combine ((fp1 ++ fp2) ++ [z]) ((t1 ++ t2) ++ [y])) (combine (fp1 ++ z :: fp2) (t1 ++ y :: t2))).
  { assert (CA : forall (a : list row) (b : list R) c d, length a = length b -> combine (a ++ c) (b ++ d) = combine a b ++ combine c d).
    { induction a as [|x a IH]; intros [|w b'] c d H; try discriminate; [reflexivity|]. cbn. f_equal. apply IH. cbn in H. lia. }
    rewrite CA by exact HL1. rewrite !CA by (symmetry; exact HL). cbn [combine]. rewrite <- app_assoc. apply Permutation_app_head.
    apply Permutation_sym, Permutation_cons_append. }
  assert (TO : test_ok D [z]) by (split; [discriminate|repeat constructor; auto]).
  destruct (training_order_irrelevant _ _ _ _ _ _ _ _ _ _ _ _ _ _ _ _ HO HI2 TO PM E2 E) as (P1 & P2 & _).
  destruct (one_more_observation _ _ _ D _ _ z y _ reg rb sopt s1 s2 [z] HO HI HS HZ TO E1 E2)
    as (q & v & rv & p0 & u0 & r0 & p & u & r & A1 & A2 & A3 & A4 & A5 & A6 & L1 & L2 & L3 & L4 & PP & H).
  destruct p as [|p [|? ?]]; try discriminate. destruct u as [|u [|? ?]]; try discriminate.
  rewrite A2 in A4. injection A4 as <- <-.
  destruct (H 0%nat ltac:(cbn; lia)) as (_ & HU & HZZ). destruct (HZZ eq_refl) as [H1 H2]. cbn [nth] in HU, H1, H2.
  fold noise in PP, H1, H2, N0.
  assert (V0 : 0 <= v ^ 2) by apply pow2_ge_0.
  assert (UN : u ^ 2 < noise).
  { apply Rmult_lt_reg_l with (v ^ 2 + noise); [exact PP|]. rewrite H2. nra. }
  assert (DN : 1 - u ^ 2 / noise = noise / (v ^ 2 + noise)).
  { assert (Q : u ^ 2 = noise * v ^ 2 / (v ^ 2 + noise)) by (rewrite <- H2; field; lra). rewrite Q. field. lra. }
  exists p, u, r, q, v, rv. split; [rewrite P1; exact A5|]. split; [rewrite P2; exact A6|]. split; [exact A1|]. split; [exact A2|].
  split; [exact UN|]. rewrite DN. split.
  - replace (y - p) with (noise * (y - q) / (v ^ 2 + noise)) by (rewrite <- H1; field; lra). field. lra.
  - split; [|split; [|exact HU]].
    + assert (Q : u ^ 2 = noise * v ^ 2 / (v ^ 2 + noise)) by (rewrite <- H2; field; lra). rewrite Q. field. lra.
    + replace (y - p) with (noise / (v ^ 2 + noise) * (y - q)) by (apply Rmult_eq_reg_l with (v ^ 2 + noise); [rewrite H1; field; lra|lra]).
      rewrite Rabs_mult. rewrite <- (Rmult_1_l (Rabs (y - q))) at 2. apply Rmult_le_compat_r; [apply Rabs_pos|].
      assert (K : 0 <= noise / (v ^ 2 + noise)) by (apply Rmult_le_pos; [lra|left; apply Rinv_0_lt_compat, PP]).
      rewrite Rabs_pos_eq by exact K. apply Rmult_le_reg_r with (v ^ 2 + noise); [exact PP|]. unfold Rdiv. rewrite Rmult_assoc, Rinv_l by lra. lra.
Qed.

(** Targets 3 and 7 at the point 1 on a line through the origin with noise 1; without the second one the prediction is 2. *)
Example leave_case : exists s s1 p u r,
  gp_init ref_inv ref_cho (fun _ v => v) ([[1]] ++ [1] :: []) ([3] ++ 7 :: []) [linear (Some 2)] None 1 None false false = Ok s /\
  gp_init ref_inv ref_cho (fun _ v => v) ([[1]] ++ []) ([3] ++ []) [linear (Some 2)] None 1 None false false = Ok s1 /\
  predict s1 [[1]] = Ok [2] /\ predict s [[1]] = Ok [p] /\ predict_with_uncertainty s [[1]] = Ok ([u], r) /\
  7 - 2 = (7 - p) / (1 - u ^ 2).
Proof.
  destruct (one_point 1 3) as (s1 & E1 & P); [lra|].
  assert (HU : Forall (usable 1) [linear (Some 2)]) by (repeat constructor; cbn; auto; discriminate).
  assert (HI : inputs_ok 1 ([[1]] ++ []) [linear (Some 2)]) by (constructor; auto; try discriminate; repeat constructor).
  assert (HSe : Forall (sensible false) [linear (Some 2)]).
  { repeat constructor; cbn; auto; try discriminate. all: intros; try discriminate; try lra. }
  assert (G : exists s, gp_init ref_inv ref_cho (fun _ v => v) ([[1]] ++ [1] :: []) ([3] ++ 7 :: []) [linear (Some 2)] None 1 None false false = Ok s).
  { destruct oracles_exist as [HO HC]. pose proof HO as [SI SC]. pose proof HC as [CI CC].
    eapply (gp_init_ok ref_inv ref_cho (fun _ v => v) SI _ _ _ _ _ _ _ 1%nat [linear (Some 2)]); eauto; try discriminate; try reflexivity;
      [repeat constructor|cbn; lra]. }
  destruct G as [s E]. destruct oracles_exist as [HO HC].
  assert (N : noise_of false 1 = 1) by (unfold noise_of; ring).
  destruct (leave_one_out _ _ _ 1 [[1]] [1] [] [3] 7 [] _ 1 None false s s1 HO HC HI HSe eq_refl eq_refl ltac:(rewrite N; lra) E E1)
    as (p & u & r & q & v & rv & A1 & A2 & A3 & A4 & A5 & A6 & _).
  rewrite P in A3. injection A3 as A3. assert (Q : q = 2) by (rewrite <- A3; field). rewrite Q in A6. rewrite N in A6.
  exists s, s1, p, u, r. split; [exact E|]. split; [exact E1|]. split; [rewrite P; f_equal; f_equal; field|]. split; [exact A1|]. split; [exact A2|].
  rewrite A6. f_equal. field.
Qed.

Print Assumptions leave_one_out.
