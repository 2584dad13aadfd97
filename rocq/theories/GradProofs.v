(** Derivatives of the gaussian kernel and positivity of covariances with gradients. *)
From Coq Require Import Reals Lra Lia List Arith Bool.
From Coquelicot Require Import Coquelicot.
From Verif Require Import Base BaseFacts RBase LinAlg PSD KernModel KernProofs KernSetupProofs KernDefProofs KernScaleProofs
  KernEntryProofs GradSpec.
Import ListNotations.
Open Scope R_scope.

(** ** Coordinates *)
Lemma nth_set_coord d t x e : (d < length x)%nat -> nth e (set_coord d t x) 0 = if (e =? d)%nat then t else nth e x 0.
Proof.
  unfold set_coord. revert d e; induction x as [|a x IH]; intros d e H; [cbn in H; lia|].
  destruct d as [|d], e as [|e]; cbn [firstn skipn app nth Nat.eqb]; auto. apply IH. cbn in H. lia.
Qed.

Lemma set_coord_length d t x : (d < length x)%nat -> length (set_coord d t x) = length x.
Proof. intros H. unfold set_coord. rewrite app_length, firstn_length. cbn [length]. rewrite skipn_length. lia. Qed.

Lemma set_coord_same d x : (d < length x)%nat -> set_coord d (nth d x 0) x = x.
Proof.
  intros H. apply (list_ext_nth 0).
  - apply set_coord_length; auto.
  - intros i _. rewrite nth_set_coord by auto. destruct (Nat.eqb_spec i d) as [->|]; auto.
Qed.

Lemma Sum_change D d f g : (d < D)%nat -> (forall e, (e < D)%nat -> e <> d -> f e = g e) -> Sum D f = Sum D g - g d + f d.
Proof.
  intros Hd H.
  assert (E : Sum D (fun e => f e - g e) = Sum D (fun e => (if (d =? e)%nat then 1 else 0) * (f e - g e))).
  { apply Sum_ext. intros e He. destruct (Nat.eqb_spec d e) as [->|N]; [ring|]. rewrite H by auto. ring. }
  rewrite Sum_delta in E by auto. rewrite Sum_minus in E. lra.
Qed.

(** ** The gaussian kernel function and its derivatives *)
Definition sqd (w : nat -> R) (D : nat) (x y : row) : R := Sum D (fun d => ((nth d x 0 - nth d y 0) / w d) ^ 2).
Definition gauss (w : nat -> R) (D : nat) (x y : row) : R := exp (- / 2 * sqd w D x y).

(** Derivative index: None for the value. *)
Definition gjet (w : nat -> R) (D : nat) (x : row) (a : option nat) (y : row) (b : option nat) : R :=
  let z d := nth d x 0 - nth d y 0 in
  match a, b with
  | None, None => gauss w D x y
  | Some a, None => - (z a * / w a ^ 2 * gauss w D x y)
  | None, Some b => z b * / w b ^ 2 * gauss w D x y
  | Some a, Some b => (delta a b * / w b ^ 2 - z a * / w a ^ 2 * (z b * / w b ^ 2)) * gauss w D x y
  end.

Section Gauss.
Variables (w : nat -> R) (D : nat).
Hypothesis Hw : forall d, (d < D)%nat -> w d <> 0.

Lemma sqd_right x y d t : length y = D -> (d < D)%nat ->
  sqd w D x (set_coord d t y) = sqd w D x y - ((nth d x 0 - nth d y 0) / w d) ^ 2 + ((nth d x 0 - t) / w d) ^ 2.
Proof.
  intros Hy Hd. unfold sqd.
  rewrite (Sum_change D d _ (fun d => ((nth d x 0 - nth d y 0) / w d) ^ 2) Hd).
  - rewrite nth_set_coord by lia. rewrite Nat.eqb_refl. auto.
  - intros e He N. rewrite nth_set_coord by lia. destruct (Nat.eqb_spec e d); [contradiction|auto].
Qed.

Lemma sqd_sym x y : sqd w D x y = sqd w D y x.
Proof. unfold sqd. apply Sum_ext. intros d Hd. field. auto. Qed.

Lemma gauss_sym x y : gauss w D x y = gauss w D y x.
Proof. unfold gauss. rewrite sqd_sym. auto. Qed.

Lemma gauss_right x y d : length y = D -> (d < D)%nat ->
  partial (fun y => gauss w D x y) d y (gjet w D x None y (Some d)).
Proof.
  intros Hy Hd. unfold partial. apply is_derive_Reals.
  apply (is_derive_ext (fun t => exp (- / 2 * (sqd w D x y - ((nth d x 0 - nth d y 0) / w d) ^ 2 + ((nth d x 0 - t) / w d) ^ 2)))).
  { intros t. unfold gauss. rewrite sqd_right by auto. auto. }
  pose proof (Hw d Hd). auto_derive; auto.
  match goal with |- context [exp ?e] => replace e with (- / 2 * sqd w D x y) by (field; auto) end.
  unfold gjet, gauss. field. auto.
Qed.

Lemma gauss_left x y d : length x = D -> (d < D)%nat ->
  partial (fun x => gauss w D x y) d x (gjet w D x (Some d) y None).
Proof.
  intros Hx Hd. pose proof (gauss_right y x d Hx Hd) as H. unfold partial in *.
  apply is_derive_Reals. apply is_derive_Reals in H. evar_last.
  - apply (is_derive_ext (fun t => gauss w D y (set_coord d t x))); [intros t; apply gauss_sym|exact H].
  - unfold gjet. rewrite (gauss_sym y x). ring.
Qed.

Lemma gauss_mixed x y a b : length x = D -> length y = D -> (a < D)%nat -> (b < D)%nat ->
  mixed_partial (gauss w D) a b x y (gjet w D x (Some a) y (Some b)).
Proof.
  intros Hx Hy Ha Hb. exists (fun z => gjet w D z None y (Some b)). split.
  - intros z _. apply gauss_right; auto.
  - unfold partial. apply is_derive_Reals. pose proof (gauss_left x y a Hx Ha) as H. unfold partial in H. apply is_derive_Reals in H.
    pose proof (Hw a Ha) as Wa. pose proof (Hw b Hb) as Wb.
    unfold gjet.
    assert (HL : is_derive (fun t => nth b (set_coord a t x) 0) (nth a x 0) (delta a b)).
    { unfold delta. destruct (Nat.eqb_spec a b) as [->|N].
      - apply (is_derive_ext (fun t => t)); [|apply (is_derive_id (nth b x 0))].
        intros t. rewrite nth_set_coord by lia. rewrite Nat.eqb_refl. auto.
      - apply (is_derive_ext (fun t => nth b x 0)); [|apply (is_derive_const (nth b x 0) (nth a x 0))].
        intros t. rewrite nth_set_coord by lia. destruct (Nat.eqb_spec b a); [lia|auto]. }
    evar_last.
    + apply (is_derive_mult (fun t => (nth b (set_coord a t x) 0 - nth b y 0) * / w b ^ 2) (fun t => gauss w D (set_coord a t x) y)
        (nth a x 0) (delta a b * / w b ^ 2)); [| exact H|intros; apply Rmult_comm].
      evar_last.
      * apply (is_derive_scal_l (fun t => nth b (set_coord a t x) 0 - nth b y 0) (nth a x 0) (delta a b) (/ w b ^ 2)).
        evar_last; [apply (is_derive_minus _ (fun _ => nth b y 0) _ _ 0 HL); apply (is_derive_const (nth b y 0))|].
        unfold minus, plus, opp; cbn. ring.
      * unfold scal; cbn. unfold Hierarchy.mult; cbn. ring.
    + cbv beta. rewrite set_coord_same by lia. unfold plus; cbn. unfold Hierarchy.mult, gjet; cbn. ring.
Qed.
End Gauss.
