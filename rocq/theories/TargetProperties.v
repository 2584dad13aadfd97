(** Properties of the functions that scale targets. *)
From Coq Require Import Reals Lra Lia List Arith Bool.
From Verif Require Import Base BaseFacts RBase PrepModel PrepProofs.
Import ListNotations.
Open Scope R_scope.

Set Bullet Behavior "Strict Subproofs".

(** ** Specification *)
(** Scaled values that came from the targets by one shift and one positive scale. *)
Definition same_shape (t scaled : list R) (shift scale : R) : Prop :=
  length scaled = length t /\ 0 < scale /\ forall i, (i < length t)%nat -> nth i t 0 = shift + scale * nth i scaled 0.
Definition range_of (l : list R) (d : R) : Prop :=
  (forall x y, In x l -> In y l -> x - y <= d) /\ exists x y, In x l /\ In y l /\ x - y = d.

Lemma shape_of c s t : 0 < s -> same_shape t (map (fun x => (x - c) / s) t) c s.
Proof.
  intros H. split; [apply map_length|]. split; [exact H|]. intros i Hi. rewrite (nth_map_lt _ _ _ 0) by exact Hi. field. lra.
Qed.
Lemma ndiv_some c s t : s <> 0 -> map (fun x => ndiv (x - c) s) t = map Some (map (fun x => (x - c) / s) t).
Proof. intros H. rewrite map_map. apply map_ext. intros x. unfold ndiv. rewrite (proj2 (Reqb_false s 0) H). reflexivity. Qed.

(** ** Standardized, normalised and centred targets *)
(** Targets that are not all equal: the standardized ones have mean zero and variance one, the normalised ones mean zero
    and range one; the returned mean and width restore the targets. *)
Theorem scaled_targets : forall t x y, In x t -> In y t -> x <> y ->
  (exists z s, target_standardize t = (map Some z, mean t, s) /\ same_shape t z (mean t) s /\ mean z = 0 /\ mean (map (fun v => v ^ 2) z) = 1) /\
  (exists z d, target_normalize t = (map Some z, mean t, d) /\ same_shape t z (mean t) d /\ mean z = 0 /\ range_of z 1 /\ range_of t d).
Proof.
  intros t x y Hx Hy N. assert (NE : t <> []) by (destruct t; [destruct Hx|discriminate]).
  assert (NC : ~ constant t) by (intros C; apply N, C; auto). split.
  - assert (S0 : std t <> 0) by (rewrite <- constant_std by exact NE; exact NC).
    assert (SP : 0 < std t) by (pose proof (sqrt_pos (var t)); fold (std t) in H; lra).
    exists (map (fun x => (x - mean t) / std t) t), (std t). split; [unfold target_standardize; rewrite ndiv_some by exact S0; reflexivity|].
    split; [apply shape_of; exact SP|]. assert (M : mean (map (fun x => (x - mean t) / std t) t) = 0) by (rewrite mean_affine by exact NE; field; lra).
    split; [exact M|]. assert (V : var (map (fun x => (x - mean t) / std t) t) = 1).
    { rewrite var_affine by exact NE. rewrite <- std_sq. field. exact S0. }
    unfold var in V. rewrite M in V. rewrite <- V. f_equal. apply map_ext. intros v. rewrite Rminus_0_r. reflexivity.
  - pose proof (range_pos t NE NC) as RP. set (d := lmax t - lmin t) in *.
    assert (RT : range_of t d).
    { split; [|exists (lmax t), (lmin t); split; [apply lmax_in; exact NE|split; [apply lmin_in; exact NE|reflexivity]]].
      intros a b Ha Hb. pose proof (lmax_ge t a Ha). pose proof (lmin_le t b Hb). unfold d. lra. }
    exists (map (fun x => (x - mean t) / d) t), d. split; [unfold target_normalize; fold d; rewrite ndiv_some by lra; reflexivity|].
    split; [apply shape_of; exact RP|]. split; [rewrite mean_affine by exact NE; field; lra|]. split; [|exact RT].
    destruct RT as [R1 (a & b & Ha & Hb & E)]. split.
    + intros u v Hu Hv. apply in_map_iff in Hu as (u0 & <- & Hu). apply in_map_iff in Hv as (v0 & <- & Hv). specialize (R1 u0 v0 Hu Hv).
      apply (Rmult_le_reg_r d); [exact RP|]. replace (((u0 - mean t) / d - (v0 - mean t) / d) * d) with (u0 - v0) by (field; lra). lra.
    + exists ((a - mean t) / d), ((b - mean t) / d). split; [apply in_map_iff; eauto|]. split; [apply in_map_iff; eauto|].
      replace ((a - mean t) / d - (b - mean t) / d) with ((a - b) / d) by (field; lra). rewrite E. field. lra.
Qed.

(** Centred targets have mean zero, for equal targets too, and the returned mean restores them. *)
Theorem centred_targets : forall t, t <> [] -> exists z, target_center t = (z, mean t) /\ same_shape t z (mean t) 1 /\ mean z = 0.
Proof.
  intros t NE. exists (map (fun x => (x - mean t) / 1) t). split.
  - unfold target_center. f_equal. apply map_ext. intros x. field.
  - split; [apply shape_of; lra|]. rewrite mean_affine by exact NE. field.
Qed.

(** Equal targets cannot be standardized or normalised: every value is undefined. *)
Theorem equal_targets_undefined : forall t c, t <> [] -> (forall x, In x t -> x = c) ->
  target_standardize t = (map (fun _ => None) t, c, 0) /\ target_normalize t = (map (fun _ => None) t, c, 0).
Proof.
  intros t c NE H. assert (C : constant t) by (intros x y Hx Hy; rewrite (H x Hx), (H y Hy); reflexivity).
  assert (M : mean t = c) by (apply mean_const; auto). unfold target_standardize, target_normalize.
  rewrite (proj1 (constant_std t NE) C), (proj1 (constant_range t NE) C), M. unfold ndiv. rewrite Reqb_refl. auto.
Qed.

Example scaled_case : exists z s, target_normalize [1; 3] = (map Some z, mean [1; 3], s) /\ mean z = 0 /\ range_of z 1.
Proof. destruct (scaled_targets [1; 3] 1 3) as [_ (z & d & H1 & H2 & H3 & H4 & H5)]; [cbn; auto|cbn; auto|lra|]. exists z, d. auto. Qed.

Print Assumptions scaled_targets.
Print Assumptions centred_targets.
Print Assumptions equal_targets_undefined.
