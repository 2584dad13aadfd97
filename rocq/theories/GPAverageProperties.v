(** Repeated measurements in a Gaussian process (catlearn/regression/gaussian_process.py). *)
From Coq Require Import Reals Lra Lia List Arith Bool.
From Verif Require Import Base BaseFacts RBase LinAlg KernModel KernProofs KernSetupProofs KernDefProofs
  KernScaleProofs KernEntryProofs KernProperties GPModel GPProofs GPMoreProofs GPProperties GPScaleProperties
  RidgeModel RidgeProofs RidgeFacts RidgeProperties GPRidgeProperties GPDataProperties GPErrorProperties.
Import ListNotations.
Open Scope R_scope.
Set Bullet Behavior "Strict Subproofs".

Lemma Sum_blocks n f : forall m, Sum (m * n) f = Sum n (fun i => Sum m (fun b => f (b * n + i)%nat)).
Proof.
  induction m as [|m IH].
  - cbn [Nat.mul Sum]. symmetry. rewrite (Sum_ext n _ (fun _ => 0 * 0)) by (intros; ring). rewrite Sum_scal. ring.
  - replace (Datatypes.S m * n)%nat with (m * n + n)%nat by lia. rewrite Sum_app, IH, <- Sum_plus. apply Sum_ext. intros i _. reflexivity.
Qed.
Lemma concat_nth n (runs : list (list R)) : Forall (fun t => length t = n) runs -> forall b i, (b < length runs)%nat -> (i < n)%nat ->
  nth (b * n + i) (concat runs) 0 = nth i (nth b runs []) 0.
Proof.
  induction 1 as [|t runs Ht _ IH]; intros b i Hb Hi; [cbn in Hb; lia|]. cbn [concat]. destruct b as [|b].
  - cbn [Nat.mul Nat.add nth]. apply app_nth1. lia.
  - rewrite app_nth2 by (cbn; lia). cbn [nth]. rewrite <- IH by (cbn in Hb; lia). f_equal. cbn. lia.
Qed.
Lemma concat_length_n n (runs : list (list R)) : Forall (fun t => length t = n) runs -> length (concat runs) = (length runs * n)%nat.
Proof. induction 1 as [|t runs Ht _ IH]; [reflexivity|]. cbn [concat length Nat.mul]. rewrite app_length. lia. Qed.

Lemma block_mod n b i : (i < n)%nat -> ((b * n + i) mod n = i)%nat.
Proof. intros H. rewrite Nat.add_comm, Nat.mod_add by lia. apply Nat.mod_small, H. Qed.
Lemma block_lt n m b i : (b < m)%nat -> (i < n)%nat -> (b * n + i < m * n)%nat.
Proof. intros Hb Hi. nia. Qed.

(** The weights of all copies of a point add up to its weight for the average. *)
Lemma averaged_solution n m K r2 A2 V V2 : n <> 0%nat -> m <> 0%nat ->
  inverse n (fun i j => K i j + (if (i =? j)%nat then r2 else 0)) V ->
  inverse (m * n) A2 V2 ->
  (forall a c, (a < m * n)%nat -> (c < m * n)%nat -> A2 a c = K (a mod n)%nat (c mod n)%nat + (if (a =? c)%nat then INR m * r2 else 0)) ->
  forall y y2, (forall i, (i < n)%nat -> INR m * y i = Sum m (fun b => y2 (b * n + i)%nat)) ->
  forall i, (i < n)%nat -> Sum m (fun b => mulv (m * n) V2 y2 (b * n + i)%nat) = mulv n V y i.
Proof.
  intros HN HM IV IV2 HA y y2 HY i Hi. assert (M0 : INR m <> 0) by (apply not_0_INR, HM).
  set (w := mulv (m * n) V2 y2). set (W := fun i => Sum m (fun b => w (b * n + i)%nat)). change (W i = mulv n V y i).
  rewrite <- (mulv_inverse' n _ _ W IV i Hi). apply mulv_ext; [intros ? ? ? ?; reflexivity| |exact Hi].
  clear i Hi. intros i Hi. apply Rmult_eq_reg_l with (INR m); [|exact M0]. rewrite HY by exact Hi.
  assert (R : forall b, (b < m)%nat -> y2 (b * n + i)%nat = Sum n (fun j => K i j * W j) + INR m * r2 * w (b * n + i)%nat).
  { intros b Hb. pose proof (block_lt n m b i Hb Hi) as Ha. rewrite <- (mulv_inverse _ _ _ y2 IV2 _ Ha). fold w. unfold mulv at 1.
    transitivity (Sum (m * n) (fun c => K i (c mod n)%nat * w c) + INR m * r2 * w (b * n + i)%nat).
    - rewrite <- (Sum_delta (m * n) (b * n + i)%nat (fun e => INR m * r2 * w e) Ha), <- Sum_plus. apply Sum_ext. intros c Hc.
      rewrite HA by auto. rewrite block_mod by exact Hi. destruct (b * n + i =? c)%nat; ring.
    - f_equal. rewrite Sum_blocks. apply Sum_ext. intros j Hj. unfold W. rewrite <- Sum_scal. apply Sum_ext. intros c Hc. rewrite block_mod by exact Hj. reflexivity. }
  rewrite (Sum_ext m _ (fun b => Sum n (fun j => K i j * W j) + INR m * r2 * w (b * n + i)%nat)) by exact R.
  rewrite Sum_plus, Sum_scal. fold (W i).
  assert (C : forall c, Sum m (fun _ => c) = INR m * c).
  { intros c. clear. induction m as [|m IH]; [cbn; ring|]. cbn [Sum]. rewrite IH, S_INR. ring. }
  rewrite C. unfold mulv.
  replace (Sum n (fun j => (K i j + (if (i =? j)%nat then r2 else 0)) * W j)) with (Sum n (fun j => K i j * W j) + r2 * W i); [ring|].
  rewrite <- (Sum_delta n i (fun l => r2 * W l) Hi), <- Sum_plus. apply Sum_ext. intros j _. destruct (i =? j)%nat; ring.
Qed.

(** A set of points measured several times, the results concatenated, gives the same predictions and uncertainties as the
    averages of the results, measured once with the noise divided by the number of measurements. *)
Theorem repeated_measurements_average : forall inv cho cho_solve D fp runs ks reg reg2 rb sopt s s2 test,
  oracles_ok inv cho -> inputs_ok D fp ks -> test_ok D test -> runs <> [] -> Forall (fun t => length t = length fp) runs ->
  gp_init inv cho cho_solve fp (map (fun i => mean (map (fun t => nth i t 0) runs)) (seq 0 (length fp))) ks None reg rb sopt false = Ok s ->
  gp_init inv cho cho_solve (repeated (length runs) fp) (concat runs) ks None reg2 rb sopt false = Ok s2 ->
  noise_of sopt reg2 = INR (length runs) * noise_of sopt reg ->
  predict s2 test = predict s test /\
  exists u r r2, predict_with_uncertainty s test = Ok (u, r) /\ predict_with_uncertainty s2 test = Ok (u, r2).
Proof.
  intros inv cho cho_solve D fp runs ks reg reg2 rb sopt s s2 test HO HI HT HR HF E E2 HNo.
  pose proof HT as [TN TR]. set (m := length runs) in *. set (avg := map _ (seq 0 (length fp))) in E.
  assert (HM : m <> 0%nat) by (unfold m; destruct runs; [congruence|discriminate]).
  pose proof (i_fp _ _ _ HI) as FN. assert (N0 : length fp <> 0%nat) by (destruct fp; [congruence|discriminate]).
  assert (HI2 : inputs_ok D (repeated m fp) ks).
  { destruct HI as [H1 H2 H3 H4 H5]. constructor; auto.
    - intros Q. apply (f_equal (@length _)) in Q. rewrite repeated_length in Q. cbn in Q. destruct m; [congruence|]. cbn in Q. lia.
    - apply Forall_forall. intros x Hx. unfold repeated in Hx. apply in_concat in Hx. destruct Hx as [l [Hl Hx]]. apply repeat_spec in Hl. subst l.
      rewrite Forall_forall in H3. auto. }
  assert (LA : length avg = length fp) by (unfold avg; rewrite map_length, seq_length; reflexivity).
  split.
  - destruct (init_facts _ _ _ HO _ _ _ _ _ _ _ _ _ HI E) as [ks' [b [EP [T [El [Es [Er [_ [_ [HL [ET _]]]]]]]]]]].
    destruct (init_facts _ _ _ HO _ _ _ _ _ _ _ _ _ HI2 E2) as [ks2 [b2 [EP2 [T2 [El2 [Es2 [Er2 [_ [_ [HL2 [ET2 _]]]]]]]]]]].
    rewrite EP in EP2. injection EP2 as <- <-.
    cbn in ET, ET2. injection ET as Esc Ef Et. injection ET2 as Esc2 Ef2 Et2.
    assert (ST : forall t, scale_test s t = t) by (intros; unfold scale_test; rewrite Es; auto).
    assert (ST2 : forall t, scale_test s2 t = t) by (intros; unfold scale_test; rewrite Es2; auto).
    set (n := length fp) in *.
    assert (EN : length (repeated m fp) = (m * n)%nat) by apply repeated_length.
    assert (RA : forall a, (a < m * n)%nat -> row_at (repeated m fp) a = row_at fp (a mod n)%nat) by (intros a Ha; apply repeated_nth; auto).
    set (K := fun i j => kappa ks' sopt (row_at fp i) (row_at fp j)).
    assert (IV : inverse n (fun i j => K i j + (if (i =? j)%nat then noise_of sopt reg else 0)) (at_ (g_cinv s))).
    { pose proof (t_inv _ _ _ T) as V. rewrite Ef, El, Er in V. eapply inverse_ext; [| |exact V].
      - intros i j Hi Hj. unfold K, noise_of, logged, ident. destruct (i =? j)%nat, sopt; ring.
      - intros i j Hi Hj. reflexivity. }
    pose proof (t_inv _ _ _ T2) as V2. rewrite Ef2, El2, Er2, EN in V2.
    rewrite (predict_trained s ks' D T), (predict_trained s2 ks' D T2) by (rewrite ?ST, ?ST2; auto). rewrite ST, ST2. unfold rescale. rewrite Es, Es2.
    f_equal. apply tabulate_ext. intros i Hi. rewrite Ef, Ef2, El, El2, EN. fold n. rewrite Sum_blocks. apply Sum_ext. intros j Hj.
    assert (SOL : Sum m (fun b => weights s2 (b * n + j)%nat) = weights s j).
    { unfold weights. rewrite Ef, Ef2, EN. fold n. eapply (averaged_solution n m K (noise_of sopt reg)); [exact N0|exact HM|exact IV|exact V2| | |exact Hj].
      - intros a c Ha Hc. cbv beta. rewrite !RA by auto. unfold K. f_equal. rewrite <- HNo. unfold noise_of, logged, ident. destruct (a =? c)%nat, sopt; ring.
      - intros l Hl. rewrite Et, Et2. unfold vnth. unfold avg. rewrite (nth_map_lt _ _ _ 0%nat) by (rewrite seq_length; exact Hl). rewrite seq_nth by exact Hl. cbn [Nat.add].
        unfold mean. rewrite map_length. fold m. rewrite (sumR_Sum _ runs []). fold m.
        rewrite (Sum_ext m (fun b => nth (b * n + l) (concat runs) 0) (fun b => nth l (nth b runs []) 0)) by (intros b0 Hb; apply concat_nth; auto).
        field. apply not_0_INR, HM. }
    rewrite <- SOL, <- Sum_scal. apply Sum_ext. intros b0 Hb. rewrite RA by (apply block_lt; auto). rewrite block_mod by exact Hj. reflexivity.
  - assert (LR : length (repeated m avg) = length (concat runs)).
    { rewrite repeated_length, LA. symmetry. apply concat_length_n, HF. }
    destruct (init_other_targets inv cho cho_solve (repeated m fp) (concat runs) (repeated m avg) ks reg2 rb sopt s2 D HO HI2 E2 LR) as [l E3].
    set (s3 := GP _ _ _ _ _ _ _ _ _ _ _ _) in E3.
    destruct (repeated_data_divide_noise _ _ _ _ _ _ _ _ _ _ _ _ _ _ _ HO HI HT HM E E3 HNo) as (_ & u & r & r2 & H1 & H2).
    destruct (prediction_linear_in_targets _ _ _ _ _ _ _ _ _ _ _ _ _ 1 HO HI2 E2 E3) as (s4 & _ & H4). destruct (H4 test HT) as (_ & _ & _ & _ & _ & _ & _ & H5).
    exists u, r, r2. split; [exact H1|]. rewrite H5. exact H2.
Qed.

(** The point 1 measured twice, with the results 2 and 4. *)
Example measured_twice : exists s s2,
  gp_init ref_inv ref_cho (fun _ v => v) [[1]] [3] [linear (Some 2)] None 1 None false false = Ok s /\
  gp_init ref_inv ref_cho (fun _ v => v) [[1]; [1]] [2; 4] [linear (Some 2)] None (sqrt 2) None false false = Ok s2 /\
  predict s2 [[1]] = Ok [2].
Proof.
  destruct (one_point 1 3) as (s & E & P); [lra|]. exists s.
  assert (HU : Forall (usable 1) [linear (Some 2)]) by (repeat constructor; cbn; auto; discriminate).
  assert (HSe : Forall (sensible false) [linear (Some 2)]).
  { repeat constructor; cbn; auto; try discriminate. all: intros; try discriminate; try lra. }
  assert (Q : 0 < sqrt 2) by (apply sqrt_lt_R0; lra). destruct oracles_exist as [HO HC].
  assert (G : exists s, gp_init ref_inv ref_cho (fun _ v => v) [[1]; [1]] [2; 4] [linear (Some 2)] None (sqrt 2) None false false = Ok s).
  { pose proof HO as [SI SC]. pose proof HC as [CI CC].
    eapply (gp_init_ok ref_inv ref_cho (fun _ v => v) SI _ _ _ _ _ _ _ 1%nat [linear (Some 2)]); eauto; try discriminate; try reflexivity;
      [repeat constructor|cbn; lra]. }
  destruct G as [s2 E2]. exists s2. split; [exact E|]. split; [exact E2|].
  assert (HI : inputs_ok 1 [[1]] [linear (Some 2)]) by (constructor; auto; try discriminate; repeat constructor; cbn; auto; discriminate).
  assert (A : mean [2; 4] = 3) by (unfold mean, sumR; cbn; lra).
  destruct (repeated_measurements_average ref_inv ref_cho (fun _ v => v) 1 [[1]] [[2]; [4]] [linear (Some 2)] 1 (sqrt 2) None false s s2 [[1]] HO HI) as [H _].
  - split; [discriminate|repeat constructor].
  - discriminate.
  - repeat constructor.
  - cbn [map seq length nth]. rewrite A. exact E.
  - exact E2.
  - unfold noise_of. rewrite pow2_sqrt by lra. cbn. ring.
  - rewrite H, P. f_equal. f_equal. field.
Qed.

Print Assumptions repeated_measurements_average.
