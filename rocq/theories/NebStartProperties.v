(** Inputs of MLNEB: the number of images from a distance, the sizes of structures and the energies of the end points
    (catlearn/optimize/mlneb.py). *)
From Coq Require Import Reals Lra Lia List Arith Bool ZArith.
From Verif Require Import Base BaseFacts RBase OptModel OptProofs MLMinProperties MLNebProperties.
Import ListNotations.
Open Scope R_scope.
Set Bullet Behavior "Strict Subproofs".

(** A number of images given as a distance [n] between images: as many as the distance [d] of the end points
    holds, rounded down, and never fewer than three. *)
Theorem images_of_distance : forall d n, 0 < n -> 0 <= d -> let k := images_from_distance d n in
  (d < 4 * n -> k = 3%nat) /\ (4 * n <= d -> INR k * n <= d < INR (k + 1) * n) /\ (3 <= k)%nat.
Proof.
  intros d n Hn Hd k. unfold images_from_distance in k. set (z := Int_part (d / n)) in *.
  destruct (base_Int_part (d / n)) as [B1 B2]. fold z in B1, B2.
  assert (Q : d / n * n = d) by (field; lra). assert (Q0 : 0 <= d / n) by (apply Rmult_le_pos; [lra|left; apply Rinv_0_lt_compat; lra]).
  assert (Z0 : (0 <= z)%Z) by (apply Z.lt_succ_r, lt_IZR; rewrite succ_IZR; cbn; lra).
  assert (IK : INR (Z.to_nat z) = IZR z) by (rewrite INR_IZR_INZ, Z2Nat.id by exact Z0; reflexivity).
  split; [|split].
  - intros H. assert (ZL : (z < 4)%Z) by (apply lt_IZR; nra). unfold k. replace (Z.to_nat z <=? 3)%nat with true; [reflexivity|]. symmetry. apply Nat.leb_le. lia.
  - intros H. assert (ZL : (3 < z)%Z) by (apply lt_IZR; assert (4 <= d / n) by nra; lra). unfold k.
    replace (Z.to_nat z <=? 3)%nat with false by (symmetry; apply Nat.leb_gt; lia). rewrite plus_INR, IK. cbn [INR]. nra.
  - unfold k. destruct (Nat.leb_spec (Z.to_nat z) 3); lia.
Qed.

(** Nine in steps of two: four images; seven in steps of two: three. *)
Example images_case : images_from_distance 9 2 = 4%nat /\ images_from_distance 7 2 = 3%nat.
Proof.
  split.
  - destruct (images_of_distance 9 2) as (_ & H & _); [lra|lra|]. specialize (H ltac:(lra)). destruct H as [H1 H2]. set (k := images_from_distance 9 2) in *.
    assert (k < 5)%nat by (apply INR_lt; cbn; lra). assert (3 < k)%nat by (apply INR_lt; rewrite plus_INR in H2; cbn in *; lra). lia.
  - destruct (images_of_distance 7 2) as (H & _); [lra|lra|]. apply H. lra.
Qed.

(** Structures with different numbers of coordinates are refused: in a constructed object all training structures have the
    number of coordinates of the first. *)
Theorem structures_of_one_size : forall is fs restart prev file interpolation n m,
  mlneb_init is fs restart prev file interpolation n = Ok m ->
  forall p q, In p (n_train m) -> In q (n_train m) -> length p = length q.
Proof.
  intros is fs restart prev file interpolation n m E. unfold mlneb_init in E.
  destruct (neb_data restart is fs prev file) as [l f]. destruct l as [|s0 [|s1 l]]; try discriminate.
  destruct (same_size (s0 :: s1 :: l)) eqn:ES; [|discriminate]. cbn [negb] in E.
  destruct (mapr get_fmax _) as [mx|]; [|discriminate]. cbn [bind] in E. injection E as <-. cbn [n_train].
  assert (H : forall p, In p (map s_pos (s0 :: s1 :: l)) -> length p = length (s_pos s0)).
  { intros p Hp. apply in_map_iff in Hp. destruct Hp as (s & <- & Hs). unfold same_size in ES. rewrite forallb_forall in ES. specialize (ES s Hs).
    apply Nat.eqb_eq in ES. exact ES. }
  intros p q Hp Hq. rewrite (H p Hp), (H q Hq). reflexivity.
Qed.

Example sizes_case : mlneb_init (Struct [1] 0 [0]) (Struct [1; 2] 0 [0; 0]) false None None (fun _ => [0]) 3 = Err ValueError /\
  mlneb_init (Struct [1; 2] 0 [0; 0]) (Struct [1] 0 [0]) false None None (fun _ => [0]) 3 = Err ValueError.
Proof. split; reflexivity. Qed.

Lemma append_ends calc m p mf m' : eval_and_append calc m p mf = Ok m' -> n_eis m' = n_eis m /\ n_efs m' = n_efs m.
Proof.
  unfold eval_and_append. destruct (_ =? _)%nat; [|discriminate]. destruct (get_fmax _); [|discriminate]. cbn [bind]. intros H. injection H as <-. auto.
Qed.
Lemma loop_ends calc surr a fmax uc steps org : forall fuel st m m', mlneb_loop fuel calc surr a fmax uc steps org st m = Some (Ok m') ->
  n_eis m' = n_eis m /\ n_efs m' = n_efs m.
Proof.
  induction fuel as [|fuel IH]; intros st m m' H; [discriminate|]. cbn [mlneb_loop] in H.
  destruct (mlneb_step calc surr a uc org st m) as [m1|] eqn:E1; [|discriminate].
  assert (S1 : n_eis m1 = n_eis m /\ n_efs m1 = n_efs m).
  { unfold mlneb_step in E1. destruct (acquire _ _ _ _ _); [|discriminate]. cbn [bind] in E1. apply append_ends in E1. cbn [with_path n_eis n_efs] in E1. exact E1. }
  destruct (neb_fmax m1); [|discriminate]. destruct (neb_converged fmax uc org m1) as [c|]; [|discriminate].
  destruct c; [injection H as <-; exact S1|]. destruct (steps <=? n_iter m1)%nat; [injection H as <-; exact S1|].
  destruct (IH _ _ _ H) as [-> ->]. exact S1.
Qed.

(** The energies of the two end points, which decide where the first image is evaluated, are those of the given structures
    and stay the same in every run. *)
Theorem end_energies_kept : forall is fs restart prev file interpolation n m calc surr a fmax unc_conv steps sequential m',
  mlneb_init is fs restart prev file interpolation n = Ok m ->
  mlneb_run calc surr a fmax unc_conv steps sequential m = Some (Ok m') ->
  n_eis m' = s_energy is /\ n_efs m' = s_energy fs.
Proof.
  intros is fs restart prev file interpolation n m calc surr a fmax uc steps sequential m' E R.
  assert (S0 : n_eis m = s_energy is /\ n_efs m = s_energy fs).
  { unfold mlneb_init in E. destruct (neb_data restart is fs prev file) as [l f]. destruct l as [|s0 [|s1 l]]; try discriminate.
    destruct (negb _); [discriminate|]. destruct (mapr get_fmax _) as [mx|]; [|discriminate]. cbn [bind] in E. injection E as <-. auto. }
  unfold mlneb_run in R. destruct (extra_point calc m) as [m1|] eqn:E1; [|discriminate].
  assert (S1 : n_eis m1 = n_eis m /\ n_efs m1 = n_efs m).
  { unfold extra_point in E1. cbv zeta in E1. repeat match type of E1 with context [if ?c then _ else _] => destruct c | context [match ?c with _ => _ end] => destruct c end;
      try discriminate; try (injection E1 as <-; auto); try (apply append_ends in E1; exact E1). }
  apply loop_ends in R. destruct R as [R1 R2], S1 as [S1 S2], S0 as [S3 S4]. destruct sequential; cbn [with_images n_eis n_efs] in R1, R2; split; congruence.
Qed.

Print Assumptions images_of_distance.
Print Assumptions structures_of_one_size.
Print Assumptions end_energies_kept.
