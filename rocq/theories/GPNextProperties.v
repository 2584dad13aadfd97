(** What one more observation changes in a Gaussian process
    (catlearn/regression/gaussian_process.py). *)
From Coq Require Import Reals Lra Lia List Arith Bool.
From Verif Require Import Base BaseFacts RBase LinAlg LogDet KernModel KernProofs KernSetupProofs KernDefProofs
  KernScaleProofs KernEntryProofs KernProperties GPModel GPProofs GPMoreProofs GPProperties
  RidgeModel RidgeProofs RidgeFacts RidgeProperties GPRidgeProperties GPDataProperties.
Import ListNotations.
Open Scope R_scope.
Set Bullet Behavior "Strict Subproofs".

(** ** A system with one more row and column *)
Section Bordered.
Variable n : nat.
Variables A B A2 B2 : nat -> nat -> R.
Variable kz : nat -> R.
Hypothesis IV : inverse n A B.
Hypothesis IV2 : inverse (S n) A2 B2.
Hypothesis EA : forall i j, (i < n)%nat -> (j < n)%nat -> A2 i j = A i j.
Hypothesis EZ : forall i, (i < n)%nat -> A2 i n = kz i /\ A2 n i = kz i.

Definition pivot : R := A2 n n - dotv n kz (mulv n B kz).
Definition extended (v : nat -> R) (a : R) : nat -> R := fun i => if (i =? n)%nat then a else v i.

Lemma Sum_extended f v a : Sum (S n) (fun j => f j * extended v a j) = Sum n (fun j => f j * v j) + f n * a.
Proof.
  cbn [Sum]. unfold extended at 2. rewrite Nat.eqb_refl. f_equal. apply Sum_ext. intros j Hj. unfold extended.
  destruct (Nat.eqb_spec j n); [lia|reflexivity].
Qed.
Lemma residue_product (w : nat -> R) c i : (i < n)%nat -> Sum n (fun j => A i j * (w j - c * mulv n B kz j)) = mulv n A w i - c * kz i.
Proof.
  intros Hi. rewrite <- (mulv_inverse n A B kz IV i Hi). unfold mulv at 2 3. rewrite <- Sum_scal, <- Sum_minus. apply Sum_ext. intros; ring.
Qed.
Lemma pivot_nonzero : pivot <> 0.
Proof.
  intros P. set (v := extended (fun j => 0 - 1 * mulv n B kz j) 1).
  assert (Z : forall i, (i < S n)%nat -> mulv (S n) A2 v i = 0).
  { intros i Hi. unfold mulv, v. rewrite Sum_extended. destruct (Nat.eq_dec i n) as [->|N].
    - rewrite (Sum_ext n _ (fun j => - (kz j * mulv n B kz j))) by (intros j Hj; rewrite (proj2 (EZ j Hj)); ring).
      unfold pivot, dotv in P. replace (Sum n (fun j => - (kz j * mulv n B kz j))) with (- Sum n (fun j => kz j * mulv n B kz j)); [lra|].
      rewrite (Sum_ext n (fun j => - (kz j * mulv n B kz j)) (fun j => -1 * (kz j * mulv n B kz j))) by (intros; ring). rewrite Sum_scal. ring.
    - assert (L : (i < n)%nat) by lia. rewrite (Sum_ext n _ (fun j => A i j * (0 - 1 * mulv n B kz j))) by (intros j Hj; rewrite EA by auto; ring).
      rewrite (residue_product (fun _ => 0) 1 i L), (proj1 (EZ i L)).
      replace (mulv n A (fun _ => 0) i) with 0; [ring|]. unfold mulv. symmetry. rewrite (Sum_ext n _ (fun _ => 0 * 0)) by (intros; ring). rewrite Sum_scal. ring. }
  pose proof (mulv_inverse' (S n) A2 B2 v IV2 n ltac:(lia)) as H. unfold mulv at 1 in H.
  rewrite (Sum_ext (S n) _ (fun _ => 0 * 0)) in H by (intros j Hj; rewrite Z by auto; ring). rewrite Sum_scal in H.
  unfold v, extended in H. rewrite Nat.eqb_refl in H. lra.
Qed.

(** The solution of the larger system for a right hand side with one more entry. *)
Lemma bordered_solution b b2 : (forall i, (i < n)%nat -> b2 i = b i) ->
  let d := (b2 n - dotv n kz (mulv n B b)) / pivot in
  forall i, (i < S n)%nat -> mulv (S n) B2 b2 i = extended (fun j => mulv n B b j - d * mulv n B kz j) d i.
Proof.
  intros HB d i Hi. set (v := extended _ d). rewrite <- (mulv_inverse' (S n) A2 B2 v IV2 i Hi). apply mulv_ext; [intros ? ? ? ?; reflexivity| |exact Hi].
  intros a Ha. unfold mulv, v. rewrite Sum_extended. destruct (Nat.eq_dec a n) as [->|N].
  - rewrite (Sum_ext n _ (fun j => kz j * mulv n B b j - d * (kz j * mulv n B kz j))) by (intros j Hj; rewrite (proj2 (EZ j Hj)); ring).
    rewrite Sum_minus, Sum_scal. fold (dotv n kz (mulv n B b)). fold (dotv n kz (mulv n B kz)).
    pose proof pivot_nonzero as P. unfold d. unfold pivot in *. field. exact P.
  - assert (L : (a < n)%nat) by lia. rewrite (Sum_ext n _ (fun j => A a j * (mulv n B b j - d * mulv n B kz j))) by (intros j Hj; rewrite EA by auto; ring).
    rewrite (residue_product (mulv n B b) d a L), (proj1 (EZ a L)), (mulv_inverse n A B b IV a L), (HB a L). ring.
Qed.

Lemma bordered_product b b2 k k2 : (forall i, (i < n)%nat -> b2 i = b i) -> (forall i, (i < n)%nat -> k2 i = k i) ->
  Sum (S n) (fun j => k2 j * mulv (S n) B2 b2 j) =
  Sum n (fun j => k j * mulv n B b j) + (k2 n - dotv n k (mulv n B kz)) * ((b2 n - dotv n kz (mulv n B b)) / pivot).
Proof.
  intros HB HK. rewrite (Sum_ext (S n) _ (fun j => k2 j * extended (fun j => mulv n B b j - (b2 n - dotv n kz (mulv n B b)) / pivot * mulv n B kz j) ((b2 n - dotv n kz (mulv n B b)) / pivot) j))
    by (intros j Hj; rewrite (bordered_solution b b2 HB j Hj); reflexivity).
  rewrite Sum_extended. set (d := _ / pivot).
  rewrite (Sum_ext n _ (fun j => k j * mulv n B b j - d * (k j * mulv n B kz j))) by (intros j Hj; rewrite HK by auto; ring).
  rewrite Sum_minus, Sum_scal. fold (dotv n k (mulv n B kz)). ring.
Qed.
End Bordered.

(** ** The uncertainty of a trained model *)
Lemma uncertainty_trained s ks D test : trained s ks D -> g_scale s = false -> test <> [] -> rectangular test D ->
  exists r, predict_with_uncertainty s test = Ok (tabulate (length test) (fun i => sqrt (kappa ks (g_log s) (row_at test i) (row_at test i) - reduction s ks (row_at test i))), r).
Proof.
  intros T Es TN TR. assert (ST : scale_test s test = test) by (unfold scale_test; rewrite Es; auto).
  destruct (test_covariance_trained s ks D T test TN TR) as [C [EC [N1 [N2 HC]]]].
  pose proof (variance_trained s ks D T test C TN TR EC) as EV.
  assert (LC : nc C = length (g_fp s)) by (rewrite N2; reflexivity).
  unfold predict_with_uncertainty. cbv zeta. rewrite ST, EC. cbn [bind].
  rewrite (make_prediction_trained s ks D T C (length test) LC N1). cbn [bind]. unfold get_uncertainty. rewrite EV. cbn [bind].
  unfold finish_uncertainty. rewrite Es. eexists. f_equal. f_equal.
  rewrite map_map. unfold tabulate. rewrite map_map. apply map_ext. intros. ring.
Qed.

(** ** One more observation *)
(** A model is trained on the data, a second one on the data and one more observation y at z, where the first model predicts
    q with uncertainty v. The squared change of every prediction, in units of v^2 + noise, is the squared surprise y - q times
    the loss of squared uncertainty. At z itself the remaining surprise is the share noise / (v^2 + noise) of the first one,
    and the squared uncertainty that share of v^2. *)
Theorem one_more_observation : forall inv cho cho_solve D fp tgt z y ks reg rb sopt s s2 test,
  oracles_ok inv cho -> inputs_ok D fp ks -> Forall (sensible sopt) ks -> length z = D -> test_ok D test ->
  gp_init inv cho cho_solve fp tgt ks None reg rb sopt false = Ok s ->
  gp_init inv cho cho_solve (fp ++ [z]) (tgt ++ [y]) ks None reg rb sopt false = Ok s2 ->
  let noise := noise_of sopt reg in
  exists q v rv p u r p2 u2 r2,
    predict s [z] = Ok [q] /\ predict_with_uncertainty s [z] = Ok ([v], rv) /\
    predict s test = Ok p /\ predict_with_uncertainty s test = Ok (u, r) /\
    predict s2 test = Ok p2 /\ predict_with_uncertainty s2 test = Ok (u2, r2) /\
    length p = length test /\ length u = length test /\ length p2 = length test /\ length u2 = length test /\
    0 < v ^ 2 + noise /\
    forall i, (i < length test)%nat ->
      (v ^ 2 + noise) * (nth i p2 0 - nth i p 0) ^ 2 = (nth i u 0 ^ 2 - nth i u2 0 ^ 2) * (y - q) ^ 2 /\
      nth i u2 0 <= nth i u 0 /\
      (nth i test [] = z -> (v ^ 2 + noise) * (y - nth i p2 0) = noise * (y - q) /\
                            (v ^ 2 + noise) * nth i u2 0 ^ 2 = noise * v ^ 2).
Proof.
  intros inv cho cho_solve D fp tgt z y ks reg rb sopt s s2 test HO HI HS HZ [TN TR] E E2 noise.
  assert (HI2 : inputs_ok D (fp ++ [z]) ks).
  { destruct HI. constructor; auto. - destruct fp; [congruence|discriminate]. - apply Forall_app; auto. }
  destruct (init_facts _ _ _ HO _ _ _ _ _ _ _ _ _ HI E) as [ks' [b [EP [T [El [Es [Er [_ [_ [HL [ET _]]]]]]]]]]].
  destruct (init_facts _ _ _ HO _ _ _ _ _ _ _ _ _ HI2 E2) as [ks2 [b2 [EP2 [T2 [El2 [Es2 [Er2 [_ [_ [HL2 [ET2 _]]]]]]]]]]].
  rewrite EP in EP2. injection EP2 as <- <-.
  pose proof (prepare_sensible _ _ _ _ _ _ _ EP HS) as HS'.
  cbn in ET, ET2. injection ET as Esc Ef Et. injection ET2 as Esc2 Ef2 Et2.
  assert (ST : forall t, scale_test s t = t) by (intros; unfold scale_test; rewrite Es; auto).
  assert (ST2 : forall t, scale_test s2 t = t) by (intros; unfold scale_test; rewrite Es2; auto).
  destruct (kappa_symm_psd D ks' sopt (t_eval _ _ _ T) HS' (t_ks _ _ _ T)) as [KS _].
  assert (ZN : [z] <> []) by discriminate. assert (ZR : rectangular [z] D) by (constructor; auto; constructor).
  destruct (uncertainty_trained s ks' D [z] T Es ZN ZR) as [rv EV].
  destruct (uncertainty_trained s ks' D test T Es TN TR) as [r EU].
  destruct (uncertainty_trained s2 ks' D test T2 Es2 TN TR) as [r2 EU2].
  set (n := length fp) in *. set (kap := kappa ks' sopt) in *.
  assert (RL : forall i, (i < n)%nat -> length (row_at fp i) = D) by (intros; apply row_at_length; auto; apply (i_rect _ _ _ HI)).
  assert (EN : length (fp ++ [z]) = S n) by (rewrite app_length; cbn; unfold n; lia).
  assert (RO : forall j, (j < n)%nat -> row_at (fp ++ [z]) j = row_at fp j) by (intros j Hj; unfold row_at; rewrite app_nth1 by auto; auto).
  assert (RZ : row_at (fp ++ [z]) n = z) by (unfold row_at; rewrite app_nth2 by (unfold n; lia); unfold n; rewrite Nat.sub_diag; reflexivity).
  set (A := fun i j => kap (row_at fp i) (row_at fp j) + (logged sopt reg * ident i j) ^ 2).
  set (A2 := fun i j => kap (row_at (fp ++ [z]) i) (row_at (fp ++ [z]) j) + (logged sopt reg * ident i j) ^ 2).
  set (kz := fun j => kap z (row_at fp j)).
  assert (IV : inverse n A (at_ (g_cinv s))) by (pose proof (t_inv _ _ _ T) as V; rewrite Ef, El, Er in V; exact V).
  assert (IV2 : inverse (S n) A2 (at_ (g_cinv s2))) by (pose proof (t_inv _ _ _ T2) as V; rewrite Ef2, El2, Er2, EN in V; exact V).
  assert (EA : forall i j, (i < n)%nat -> (j < n)%nat -> A2 i j = A i j) by (intros i j Hi Hj; unfold A2, A; rewrite !RO by auto; reflexivity).
  assert (EZ : forall i, (i < n)%nat -> A2 i n = kz i /\ A2 n i = kz i).
  { intros i Hi. unfold A2. rewrite RZ, RO by auto. unfold ident. destruct (Nat.eqb_spec i n); [lia|]. destruct (Nat.eqb_spec n i); [lia|].
    unfold kz. split; [|ring]. rewrite (KS (row_at fp i) z) by auto. ring. }
  assert (SB : symm n (at_ (g_cinv s))).
  { eapply inverse_symm; [|exact IV]. intros i j Hi Hj. unfold A. rewrite (KS (row_at fp i)) by auto. unfold ident. rewrite (Nat.eqb_sym j i). reflexivity. }
  set (B := at_ (g_cinv s)) in *.
  assert (NO : (logged sopt reg * ident n n) ^ 2 = noise) by (unfold noise, noise_of, logged, ident; rewrite Nat.eqb_refl; destruct sopt; ring).
  assert (RD : forall x, reduction s ks' x = dotv n (fun j => kap x (row_at fp j)) (mulv n B (fun j => kap x (row_at fp j)))).
  { intros x. unfold reduction. rewrite Ef, El. rewrite quad_dot. reflexivity. }
  assert (RD2 : forall x, reduction s2 ks' x = Sum (S n) (fun j => kap x (row_at (fp ++ [z]) j) * mulv (S n) (at_ (g_cinv s2)) (fun j => kap x (row_at (fp ++ [z]) j)) j)).
  { intros x. unfold reduction. rewrite Ef2, El2, EN. rewrite quad_dot. reflexivity. }
  assert (BND : forall x, length x = D -> 0 <= kap x x - reduction s ks' x).
  { intros x Hx. pose proof (reduction_bounds s ks' D T x) as H. rewrite El in H. specialize (H HS' Hx). fold kap in H. lra. }
  assert (BND2 : forall x, length x = D -> 0 <= kap x x - reduction s2 ks' x).
  { intros x Hx. pose proof (reduction_bounds s2 ks' D T2 x) as H. rewrite El2 in H. specialize (H HS' Hx). fold kap in H. lra. }
  pose proof (pivot_nonzero n A B A2 _ kz IV IV2 EA EZ) as PN.
  assert (PV : pivot n B A2 kz = kap z z - reduction s ks' z + noise).
  { unfold pivot. rewrite RD. unfold A2. rewrite RZ, NO. fold kz. ring. }
  assert (N0 : 0 <= noise) by (unfold noise, noise_of; apply pow2_ge_0).
  set (cc := fun x => kap x z - dotv n (fun j => kap x (row_at fp j)) (mulv n B kz)).
  assert (CS : forall x, kap x z - dotv n kz (mulv n B (fun j => kap x (row_at fp j))) = cc x).
  { intros x. unfold cc. f_equal. rewrite (dotv_symm n B kz _ SB). apply dotv_sym. }
  set (q := Sum n (fun j => kap z (row_at fp j) * weights s j)).
  set (v := sqrt (kap z z - reduction s ks' z)).
  assert (V2 : v ^ 2 = kap z z - reduction s ks' z) by (unfold v; rewrite <- Rsqr_pow2; apply Rsqr_sqrt, BND, HZ).
  rewrite <- V2 in PV. pose proof (pow2_ge_0 v) as VP.
  assert (PP : 0 < v ^ 2 + noise) by (rewrite PV in PN; lra).
  assert (Ep : predict s test = Ok (tabulate (length test) (fun i => Sum n (fun j => kap (row_at test i) (row_at fp j) * weights s j)))).
  { rewrite (predict_trained s ks' D T) by (rewrite ST; auto). rewrite ST. unfold rescale. rewrite Es, Ef, El. reflexivity. }
  assert (Ep2 : predict s2 test = Ok (tabulate (length test) (fun i => Sum (S n) (fun j => kap (row_at test i) (row_at (fp ++ [z]) j) * weights s2 j)))).
  { rewrite (predict_trained s2 ks' D T2) by (rewrite ST2; auto). rewrite ST2. unfold rescale. rewrite Es2, Ef2, El2, EN. reflexivity. }
  assert (P2 : forall x, Sum (S n) (fun j => kap x (row_at (fp ++ [z]) j) * weights s2 j) = Sum n (fun j => kap x (row_at fp j) * weights s j) + cc x * ((y - q) / (v ^ 2 + noise))).
  { intros x. unfold weights. rewrite Ef, Et, Ef2, Et2, EN. fold n.
    rewrite (bordered_product n A B A2 _ kz IV IV2 EA EZ (vnth tgt) (vnth (tgt ++ [y])) (fun j => kap x (row_at fp j))).
    - rewrite RZ, PV. unfold cc. f_equal. f_equal. f_equal. unfold vnth at 1. rewrite app_nth2 by (rewrite <- HL; fold n; lia). rewrite <- HL. fold n. rewrite Nat.sub_diag. cbn [nth].
      f_equal. unfold q, weights. rewrite Ef, Et. reflexivity.
    - intros i Hi. unfold vnth. rewrite app_nth1 by (rewrite <- HL; exact Hi). reflexivity.
    - intros i Hi. cbv beta. rewrite RO by auto. reflexivity. }
  assert (U2 : forall x, reduction s2 ks' x = reduction s ks' x + cc x * (cc x / (v ^ 2 + noise))).
  { intros x. rewrite RD2, RD. rewrite (bordered_product n A B A2 _ kz IV IV2 EA EZ (fun j => kap x (row_at fp j)) (fun j => kap x (row_at (fp ++ [z]) j)) (fun j => kap x (row_at fp j))).
    - rewrite RZ, PV, CS. unfold cc at 3. reflexivity.
    - intros i Hi. cbv beta. rewrite RO by auto. reflexivity.
    - intros i Hi. cbv beta. rewrite RO by auto. reflexivity. }
  exists q, v, rv. do 6 eexists. split.
  { rewrite (predict_trained s ks' D T) by (rewrite ST; auto). rewrite ST. unfold rescale. rewrite Es, Ef, El. reflexivity. }
  split; [rewrite EV, El; reflexivity|]. split; [exact Ep|]. split; [exact EU|]. split; [exact Ep2|]. split; [exact EU2|].
  rewrite !tabulate_length. do 4 (split; [reflexivity|]). split; [exact PP|]. intros i Hi.
  rewrite !nth_tabulate by exact Hi. rewrite P2, El, El2. fold kap. set (x := row_at test i).
  assert (HX : length x = D) by (apply row_at_length; auto).
  assert (SQ : forall a, 0 <= a -> sqrt a ^ 2 = a) by (intros a Ha; rewrite <- Rsqr_pow2; apply Rsqr_sqrt, Ha).
  rewrite !SQ by (first [apply BND, HX|apply BND2, HX]). rewrite U2. split; [field; lra|]. split.
  - apply sqrt_le_1_alt. assert (0 <= cc x * (cc x / (v ^ 2 + noise))); [|lra].
    unfold Rdiv. rewrite <- Rmult_assoc. apply Rmult_le_pos; [apply Rle_0_sqr|]. left. apply Rinv_0_lt_compat, PP.
  - intros EX. assert (XZ : x = z) by exact EX. rewrite XZ.
    assert (CZ : cc z = v ^ 2) by (unfold cc; rewrite V2, RD; reflexivity). rewrite CZ. fold q.
    split; [field; lra|]. match goal with |- _ * (?a - (?b + ?c)) = _ => replace (a - (b + c)) with (v ^ 2 - c) by (rewrite V2; ring) end. field. lra.
Qed.

(** One point at 1 with target 3 on a line through the origin with noise 1 predicts 2 there. A second target of 7 at the same
    point is a surprise of 5. *)
Example next_case : exists s s2 v p2 u2 r2,
  gp_init ref_inv ref_cho (fun _ v => v) [[1]] [3] [linear (Some 2)] None 1 None false false = Ok s /\
  gp_init ref_inv ref_cho (fun _ v => v) ([[1]] ++ [[1]]) ([3] ++ [7]) [linear (Some 2)] None 1 None false false = Ok s2 /\
  predict s [[1]] = Ok [2] /\ predict s2 [[1]] = Ok [p2] /\ predict_with_uncertainty s2 [[1]] = Ok ([u2], r2) /\
  (v ^ 2 + 1) * (7 - p2) = 5 /\ (v ^ 2 + 1) * u2 ^ 2 = v ^ 2.
Proof.
  destruct (one_point 1 3) as (s & E & P); [lra|].
  assert (HU : Forall (usable 1) [linear (Some 2)]) by (repeat constructor; cbn; auto; discriminate).
  assert (HI : inputs_ok 1 [[1]] [linear (Some 2)]) by (constructor; auto; try discriminate; repeat constructor).
  assert (HSe : Forall (sensible false) [linear (Some 2)]).
  { repeat constructor; cbn; auto; try discriminate. all: intros; try discriminate; try lra. }
  assert (G : exists s, gp_init ref_inv ref_cho (fun _ v => v) ([[1]] ++ [[1]]) ([3] ++ [7]) [linear (Some 2)] None 1 None false false = Ok s).
  { destruct oracles_exist as [HO HC]. pose proof HO as [SI SC]. pose proof HC as [CI CC].
    eapply (gp_init_ok ref_inv ref_cho (fun _ v => v) SI _ _ _ _ _ _ _ 1%nat [linear (Some 2)]); eauto; try discriminate; try reflexivity;
      [repeat constructor|cbn; lra]. }
  destruct G as [s2 E2]. destruct oracles_exist as [HO _].
  assert (TO : test_ok 1 [[1]]) by (split; [discriminate|repeat constructor]).
  destruct (one_more_observation _ _ _ 1 [[1]] [3] [1] 7 _ 1 None false s s2 [[1]] HO HI HSe eq_refl TO E E2)
    as (q & v & rv & p & u & r & p2 & u2 & r2 & A1 & A2 & A3 & A4 & A5 & A6 & L1 & L2 & L3 & L4 & PP & H).
  destruct (H 0%nat ltac:(cbn; lia)) as (_ & _ & HZ). destruct (HZ eq_refl) as [H1 H2].
  destruct p2 as [|p2 [|? ?]]; try discriminate. destruct u2 as [|u2 [|? ?]]; try discriminate. cbn [nth] in H1, H2.
  assert (Q : q = 2) by (rewrite P in A1; injection A1 as <-; field). subst q.
  assert (N : noise_of false 1 = 1) by (unfold noise_of; ring). rewrite N in H1, H2.
  exists s, s2, v, p2, u2, r2. repeat split; auto; lra.
Qed.

Print Assumptions one_more_observation.
