(** Properties of the surrogate nudged elastic band MLNEB. *)
From Coq Require Import Reals Lra Lia List Arith Bool.
From Verif Require Import Base BaseFacts RBase OptModel OptProofs MLMinProperties.
Import ListNotations.
Open Scope R_scope.

(** ** Specification *)
Definition neb_trained_on (m : mlneb) (ss : list struct) : Prop :=
  n_train m = map s_pos ss /\ n_targets m = map s_energy ss /\
  n_gradients m = map (fun s => map Ropp (s_forces s)) ss.

(** The state has grown by the structures [new], each evaluated once by the calculator. *)
Definition neb_extends (calc : position -> R * list R) (m : mlneb) (new : list struct) (m' : mlneb) : Prop :=
  n_train m' = n_train m ++ map s_pos new /\ n_targets m' = n_targets m ++ map s_energy new /\
  n_gradients m' = n_gradients m ++ map (fun s => map Ropp (s_forces s)) new /\
  n_file m' = n_file m ++ new /\ n_calls m' = n_calls m ++ map s_pos new /\
  n_iter m' = (n_iter m + length new)%nat /\ n_feval m' = (n_feval m + length new)%nat /\
  Forall (fun s => s_energy s = fst (calc (s_pos s)) /\ s_forces s = snd (calc (s_pos s))) new.

(** ** Start *)
(** Without previous calculations the training data and the file are the evaluated
    structures of the directory when restarting, and the two end points otherwise. *)
Theorem mlneb_start is fs restart file interpolation n m :
  mlneb_init is fs restart None file interpolation n = Ok m ->
  let ss := match restart, file with true, Some l => l | _, _ => [is; fs] end in
  neb_trained_on m ss /\ n_file m = ss /\ length (n_maxf m) = length ss /\ n_iter m = 0%nat /\ n_feval m = 0%nat.
Proof.
  intros E ss. unfold mlneb_init, neb_data in E.
  destruct restart; [destruct file as [[|s0 [|s1 l]]|]|]; try discriminate.
  all: destruct (negb (same_size _)); [discriminate|].
  all: destruct (mapr get_fmax _) as [mx|] eqn:EM; [|discriminate]; cbn [bind] in E; injection E as <-; apply mapr_length in EM; rewrite map_length in EM.
  all: repeat split; auto.
Qed.

(** With a file of previous calculations the end points are not training data (unless they
    are in that file too) and the previous calculations are not in the file of evaluated
    structures. *)
Theorem neb_previous_calculations_refuted is fs l file interpolation n m :
  mlneb_init is fs false (Some (Some l)) file interpolation n = Ok m ->
  (forall s, In s l -> s_pos s <> s_pos is /\ s_pos s <> s_pos fs) ->
  ~ In (s_pos is) (n_train m) /\ ~ In (s_pos fs) (n_train m) /\ (forall s, In s l -> ~ In s (n_file m)) /\ l <> [].
Proof.
  intros E H. unfold mlneb_init, neb_data in E. destruct l as [|s0 [|s1 l]]; try discriminate. destruct (negb (same_size _)); [discriminate|].
  destruct (mapr get_fmax _) as [mx|]; [|discriminate]. cbn [bind] in E. injection E as <-. unfold n_train, n_file.
  split; [|split; [|split; [|discriminate]]].
  - intros HI. change (s_pos s0 :: s_pos s1 :: map s_pos l) with (map s_pos (s0 :: s1 :: l)) in HI. apply in_map_iff in HI as (s & E & HI). apply H in HI as [HI _]. contradiction.
  - intros HI. change (s_pos s0 :: s_pos s1 :: map s_pos l) with (map s_pos (s0 :: s1 :: l)) in HI. apply in_map_iff in HI as (s & E & HI). apply H in HI as [_ HI]. contradiction.
  - intros s Hs [<-|[<-|[]]]; apply H in Hs; tauto.
Qed.

(** Without end points among the previous calculations, that is: with them the training
    data are exactly the previous calculations. *)
Theorem neb_previous_calculations_used_partial is fs restart l file interpolation n m :
  mlneb_init is fs restart (Some (Some l)) file interpolation n = Ok m -> neb_trained_on m l.
Proof.
  intros E. unfold mlneb_init, neb_data in E. destruct restart; cbn in E.
  all: destruct l as [|s0 [|s1 l]]; try discriminate; destruct (negb (same_size _)); try discriminate;
    destruct (mapr get_fmax _) as [mx|]; try discriminate; cbn [bind] in E; injection E as <-; repeat split.
Qed.

(** The path of the start: the requested number of images from one end point to the
    other. *)
Theorem neb_path_at_start is fs restart prev file interpolation n m :
  mlneb_init is fs restart prev file interpolation n = Ok m -> (2 <= n)%nat ->
  length (n_path m) = n /\ nth_error (n_path m) 0 = Some (s_pos is) /\ nth_error (n_path m) (n - 1) = Some (s_pos fs) /\
  (forall i, (0 < i < n - 1)%nat -> nth_error (n_path m) i = Some (interpolation i)) /\ n_images m = n.
Proof.
  intros E Hn. unfold mlneb_init in E. destruct (neb_data restart is fs prev file) as [l f].
  assert (HP : n_path m = create_ml_neb (s_pos is) (s_pos fs) interpolation n /\ n_images m = n).
  { destruct l as [|s0 [|s1 l]]; try discriminate. destruct (negb (same_size _)); [discriminate|].
    destruct (mapr get_fmax _) as [mx|]; [|discriminate]. cbn [bind] in E. injection E as <-. auto. }
  destruct HP as [HP HI]. rewrite HP. unfold create_ml_neb. split; [|split; [|split; [|split]]]; auto.
  - cbn. rewrite app_length, map_length, seq_length. cbn. lia.
  - destruct n as [|[|n]]; try lia. replace (S (S n) - 1)%nat with (S n) by lia. cbn [nth_error].
    rewrite nth_error_app2 by (rewrite map_length, seq_length; lia). rewrite map_length, seq_length. replace (n - (S (S n) - 2))%nat with 0%nat by lia. reflexivity.
  - intros i Hi. destruct i as [|i]; [lia|]. cbn [nth_error]. rewrite nth_error_app1 by (rewrite map_length, seq_length; lia).
    rewrite nth_error_map. replace (nth_error (seq 1 (n - 2)) i) with (Some (S i)); [reflexivity|].
    symmetry. rewrite (nth_error_nth' _ 0%nat) by (rewrite seq_length; lia). rewrite seq_nth by lia. reflexivity.
Qed.

(** ** The extra point *)
(** With four or more images, or with three and an initial state not lower than the final
    one, the extra structure is an image strictly between the end points. *)
Theorem extra_point_is_interior_partial calc m m' : extra_point calc m = Ok m' -> length (n_targets m) = 2%nat ->
  n_images m = length (n_path m) -> (4 <= n_images m)%nat \/ n_images m = 3%nat /\ n_efs m <= n_eis m ->
  exists i p, (0 < i < n_images m - 1)%nat /\ nth_error (n_path m) i = Some p /\ neb_extends calc m [evaluate calc p] m' /\
    ((i <= n_images m / 3)%nat <-> n_efs m <= n_eis m).
Proof.
  intros E HT HP Hn. unfold extra_point in E. rewrite HT in E. change (2 =? 2)%nat with true in E. cbn [negb] in E.
  destruct (nth_error (n_path m) (middle m)) as [p|] eqn:EP; [|discriminate].
  exists (middle m), p. unfold eval_and_append in E. destruct (_ =? _)%nat; [|discriminate]. cbv zeta in E.
  destruct (get_fmax _) as [f|]; [|discriminate]. cbn [bind] in E. injection E as <-.
  assert (HX : (n_images m = 3 * (n_images m / 3) + n_images m mod 3)%nat) by (apply Nat.div_mod_eq).
  assert (HY : (2 * n_images m = 3 * (2 * n_images m / 3) + (2 * n_images m) mod 3)%nat) by (apply Nat.div_mod_eq).
  pose proof (Nat.mod_upper_bound (n_images m) 3 ltac:(lia)). pose proof (Nat.mod_upper_bound (2 * n_images m) 3 ltac:(lia)).
  assert (HR : Rleb (n_efs m) (n_eis m) = true <-> n_efs m <= n_eis m) by apply Rleb_true.
  split; [|split; [auto|split]].
  - unfold middle. destruct (Rleb (n_efs m) (n_eis m)) eqn:EB.
    + destruct Hn as [Hn|[Hn _]]; lia.
    + destruct Hn as [Hn|[Hn HB]]; [lia|]. apply HR in HB. discriminate.
  - unfold neb_extends. cbn. repeat split; auto; try lia; apply Forall_cons; auto.
  - rewrite <- HR. unfold middle. destruct (Rleb (n_efs m) (n_eis m)) eqn:EB; [split; auto|]. split; [|discriminate].
    intros HL. destruct Hn as [Hn|[Hn HB]]; [lia|]. apply HR in HB. congruence.
Qed.

(** With three images and a higher final state it is the final end point, evaluated again. *)
Theorem extra_point_three_images_refuted is fs interpolation calc m m' :
  mlneb_init is fs false None None interpolation 3 = Ok m -> s_energy is < s_energy fs ->
  extra_point calc m = Ok m' -> n_calls m' = [s_pos fs] /\ n_train m' = [s_pos is; s_pos fs; s_pos fs].
Proof.
  intros E HE E2. unfold mlneb_init, neb_data in E. destruct (negb (same_size _)); [discriminate|].
  destruct (mapr get_fmax _) as [mx|]; [|discriminate]. cbn [bind] in E. injection E as <-.
  unfold extra_point in E2. cbn [n_targets map length] in E2. change (2 =? 2)%nat with true in E2. cbn iota in E2. unfold middle in E2. cbn [n_efs n_eis n_images n_path] in E2.
  replace (Rleb (s_energy fs) (s_energy is)) with false in E2 by (symmetry; apply Rleb_false; auto).
  change (2 * 3 / 3)%nat with 2%nat in E2. cbn [create_ml_neb map seq Nat.sub app nth_error] in E2.
  unfold eval_and_append in E2. destruct (_ =? _)%nat; [|discriminate]. cbv zeta in E2.
  destruct (get_fmax _) as [f|]; [|discriminate]. cbn [bind] in E2. injection E2 as <-. auto.
Qed.

(** ** Acquisition *)
(** What the comments of the code say about the acquisition functions.  [u] is the
    largest uncertainty of an interior image. *)
Inductive documented : neb_acq -> nat -> bool -> bool -> choice -> Prop :=
| acq1_even k st low : documented Acq1 (2 * k) st low MaxUncertainty
| acq1_odd k st low : documented Acq1 (2 * k + 1) st low MaxPrediction
| acq2_high iter st : documented Acq2 iter st false MaxUncertainty
| acq2_low iter st : documented Acq2 iter st true MaxPrediction
| acq3_high iter st : documented Acq3 iter st false MaxUncertainty
| acq3_low iter st c : documented Acq1 iter st true c -> documented Acq3 iter st true c
| acq4_before iter low c : documented Acq1 iter false low c -> documented Acq4 iter false low c
| acq4_after iter low c : documented Acq2 iter true low c -> documented Acq4 iter true low c
| acq5_high iter st : documented Acq5 iter st false MaxUncertainty
| acq5_before iter c : documented Acq1 iter false true c -> documented Acq5 iter false true c
| acq5_after iter c : documented Acq2 iter true true c -> documented Acq5 iter true true c.

Lemma alternate_documented iter st low : exists c, (if Nat.even iter then Some MaxUncertainty else if Nat.odd iter then Some MaxPrediction else None) = Some c /\ documented Acq1 iter st low c.
Proof.
  destruct (Nat.even iter) eqn:E.
  - apply Nat.even_spec in E as [k ->]. eexists. split; [reflexivity|constructor].
  - assert (HO : Nat.odd iter = true) by (unfold Nat.odd; rewrite E; auto). rewrite HO. apply Nat.odd_spec in HO as [k ->]. eexists. split; [reflexivity|constructor].
Qed.

(** An image of a path that is neither its first nor its last. *)
Definition strictly_inside {A} (path : list A) (i : A) : Prop :=
  exists before after, before <> [] /\ after <> [] /\ path = before ++ i :: after.

Lemma interior_iff {A} (path : list A) i : In i (interior path) <-> strictly_inside path i.
Proof.
  unfold interior. split.
  - destruct path as [|x t]; [intros []|]. cbn [tl]. intros H. destruct t as [|y t]; [destruct H|]. 
    assert (Hne : y :: t <> []) by discriminate. rewrite (app_removelast_last x Hne).
    apply in_split in H as (l1 & l2 & ->). exists (x :: l1), (l2 ++ [last (y :: t) x]). split; [discriminate|].
    split; [destruct l2; discriminate|]. cbn. rewrite <- app_assoc. reflexivity.
  - intros (before & after & Hb & Ha & ->). destruct before as [|x before]; [contradiction|]. cbn [app tl].
    rewrite removelast_app by discriminate. apply in_or_app. right. destruct after as [|y after]; [contradiction|]. left. reflexivity.
Qed.

Lemma acquisition_interior a iter stationary unc_conv path p :
  acquire a iter stationary unc_conv path = Ok p -> a <> AcqOther ->
  exists i c u, In i (interior path) /\ p = i_pos i /\
    (In u (map i_unc (interior path)) /\ forall j, In j (interior path) -> i_unc j <= u) /\
    match c with
    | MaxUncertainty => forall j, In j (interior path) -> i_unc j <= i_unc i
    | MaxPrediction => forall j, In j (interior path) -> i_energy j + i_unc j <= i_energy i + i_unc i
    end /\
    ((a = Acq5 -> stationary = true \/ unc_conv <= u \/ Nat.odd iter = true) -> documented a iter stationary (Rltb u unc_conv) c).
Proof.
  intros E Ha. unfold acquire in E. destruct (maxR _) as [u|] eqn:EU; [|discriminate]. cbn [bind] in E.
  assert (HU : In u (map i_unc (interior path)) /\ forall j, In j (interior path) -> i_unc j <= u).
  { unfold maxR in EU. destruct (interior path) as [|x l]; [discriminate|]. cbn in EU. injection EU as <-.
    assert (HF : forall l a, (fold_left Rmax l a = a \/ In (fold_left Rmax l a) l) /\ a <= fold_left Rmax l a /\ forall x, In x l -> x <= fold_left Rmax l a).
    { clear. induction l as [|b l IH]; intros a; cbn [fold_left]; [split; [auto|split; [lra|intros x []]]|].
      destruct (IH (Rmax a b)) as (H1 & H2 & H3). pose proof (Rmax_l a b). pose proof (Rmax_r a b).
      split; [|split; [lra|intros x [<-|Hx]; [lra|auto]]]. destruct H1 as [H1|H1]; [|cbn; auto]. rewrite H1. unfold Rmax. destruct (Rle_dec a b); cbn; auto. }
    destruct (HF (map i_unc l) (i_unc x)) as (H1 & H2 & H3). split; [cbn; destruct H1 as [->|H1]; auto|].
    intros j [<-|Hj]; [auto|]. apply H3, in_map. auto. }
  destruct (choose a iter stationary (Rltb u unc_conv)) as [c|] eqn:EC.
  2:{ exfalso. destruct (alternate_documented iter true true) as (c' & HA & _). destruct a; unfold choose in EC; rewrite ?HA in EC; try discriminate; try contradiction.
      all: destruct (Rltb u unc_conv), stationary, (Nat.even iter), (Nat.odd iter); discriminate. }
  assert (HC : exists i, In i (interior path) /\ p = i_pos i /\ match c with
    | MaxUncertainty => forall j, In j (interior path) -> i_unc j <= i_unc i
    | MaxPrediction => forall j, In j (interior path) -> i_energy j + i_unc j <= i_energy i + i_unc i end).
  { destruct c; destruct (best _ (interior path)) as [i|] eqn:EB; try discriminate; cbn [bind] in E; injection E as <-; apply best_spec in EB as [B1 B2]; exists i; auto. }
  destruct HC as (i & HI & HP & HM). exists i, c, u. split; [auto|]. split; [auto|]. split; [auto|]. split; [auto|].
  intros H5. assert (HL : Rltb u unc_conv = true -> ~ unc_conv <= u) by (intros HL; apply Rltb_true in HL; lra).
  set (low := Rltb u unc_conv) in *. clearbody low.
  pose proof (alternate_documented iter stationary low) as (c' & HA & HD).
  destruct a; unfold choose in EC; try contradiction.
  - rewrite HA in EC. injection EC as <-. auto.
  - destruct low; injection EC as <-; constructor.
  - destruct low; [|injection EC as <-; constructor]. apply acq3_low.
    replace c with c'; [auto|]. destruct (Nat.even iter), (Nat.odd iter); congruence.
  - destruct stationary; [apply acq4_after; destruct low; injection EC as <-; constructor|].
    apply acq4_before. rewrite HA in EC. injection EC as <-. auto.
  - destruct low; [|injection EC as <-; constructor].
    replace c with MaxPrediction by (destruct stationary; congruence). destruct stationary; [apply acq5_after; constructor|].
    apply acq5_before. destruct (H5 eq_refl) as [H|[H|H]]; [discriminate|exfalso; apply HL; auto|].
    apply Nat.odd_spec in H as [k ->]. constructor.
Qed.

(** The acquired structure is an image of the path optimised on the surrogate, not an end
    point: the most uncertain one, or the one with the highest predicted energy plus
    uncertainty, as documented for acq_1 to acq_4 and, with large uncertainties, found
    stationary point or odd iteration, for acq_5. *)
Theorem acquisition_as_documented_partial a iter stationary unc_conv path p :
  acquire a iter stationary unc_conv path = Ok p -> a <> AcqOther ->
  exists i c u, strictly_inside path i /\ p = i_pos i /\
    ((exists j, strictly_inside path j /\ i_unc j = u) /\ forall j, strictly_inside path j -> i_unc j <= u) /\
    match c with
    | MaxUncertainty => forall j, strictly_inside path j -> i_unc j <= i_unc i
    | MaxPrediction => forall j, strictly_inside path j -> i_energy j + i_unc j <= i_energy i + i_unc i
    end /\
    ((a = Acq5 -> stationary = true \/ unc_conv <= u \/ Nat.odd iter = true) -> documented a iter stationary (Rltb u unc_conv) c).
Proof.
  intros E Ha. destruct (acquisition_interior _ _ _ _ _ _ E Ha) as (i & c & u & HI & HP & (HU1 & HU2) & HC & HD).
  exists i, c, u. split; [apply interior_iff; auto|]. split; [auto|]. split; [|split; [|auto]].
  - split; [|intros j Hj; apply HU2, interior_iff; auto]. apply in_map_iff in HU1 as (j & <- & Hj). exists j. split; [apply interior_iff; auto|auto].
  - destruct c; intros j Hj; apply HC, interior_iff; auto.
Qed.

(** acq_5 never alternates: below the uncertainty limit, before a stationary point is
    found and in an even iteration it does not take the most uncertain image although the
    comments say that acq_1 is applied; it is acq_2. *)
Theorem acq5_alternation_refuted iter path unc_conv :
  (forall st, acquire Acq5 iter st unc_conv path = acquire Acq2 iter st unc_conv path) /\
  (forall k, iter = (2 * k)%nat -> documented Acq5 iter false true MaxUncertainty /\ choose Acq5 iter false true = Some MaxPrediction).
Proof.
  split.
  - intros st. unfold acquire. destruct (maxR _) as [u|]; [|reflexivity]. cbn [bind]. replace (choose Acq5 iter st (Rltb u unc_conv)) with (choose Acq2 iter st (Rltb u unc_conv)); [reflexivity|].
    unfold choose. destruct (Rltb u unc_conv), st; reflexivity.
  - intros k ->. split; [apply acq5_before; constructor|reflexivity].
Qed.

(** ** A run *)
Lemma eval_extends calc m p f m' : eval_and_append calc m p f = Ok m' ->
  neb_extends calc m [evaluate calc p] m' /\ n_images m' = n_images m /\ n_path m' = n_path m /\ n_unc m' = n_unc m /\
  exists g, get_fmax (map Ropp (s_forces (evaluate calc p))) = Ok g /\ n_maxf m' = f g.
Proof.
  intros E. unfold eval_and_append in E. destruct (_ =? _)%nat; [|discriminate]. cbv zeta in E.
  destruct (get_fmax _) as [g|] eqn:EG; [|discriminate]. cbn [bind] in E. injection E as <-. unfold neb_extends. cbn. repeat split; eauto; try lia;
  apply Forall_cons; auto.
Qed.

Lemma neb_extends_trans calc m1 n1 m2 n2 m3 : neb_extends calc m1 n1 m2 -> neb_extends calc m2 n2 m3 -> neb_extends calc m1 (n1 ++ n2) m3.
Proof.
  intros (A1 & A2 & A3 & A4 & A5 & A6 & A7 & A8) (B1 & B2 & B3 & B4 & B5 & B6 & B7 & B8).
  unfold neb_extends. rewrite !map_app, app_length.
  split; [rewrite B1, A1, app_assoc; auto|]. split; [rewrite B2, A2, app_assoc; auto|]. split; [rewrite B3, A3, app_assoc; auto|].
  split; [rewrite B4, A4, app_assoc; auto|]. split; [rewrite B5, A5, app_assoc; auto|]. split; [lia|]. split; [lia|].
  apply Forall_app. auto.
Qed.

Lemma neb_extends_nil calc m : neb_extends calc m [] m.
Proof. unfold neb_extends. cbn. rewrite !app_nil_r, !Nat.add_0_r. repeat split; auto. Qed.

Lemma step_spec calc surr a unc_conv org stationary m m' : mlneb_step calc surr a unc_conv org stationary m = Ok m' ->
  exists p, neb_extends calc m [evaluate calc p] m' /\ n_maxf m' = n_maxf m /\
    n_images m' = (if stationary then org else n_images m) /\
    acquire a (n_iter m) stationary unc_conv (surr m stationary (n_images m')) = Ok p /\
    n_path m' = map i_pos (surr m stationary (n_images m')) /\ n_unc m' = map i_unc (surr m stationary (n_images m')).
Proof.
  intros E. unfold mlneb_step in E. cbv zeta in E. destruct (acquire _ _ _ _ _) as [p|] eqn:EA; [|discriminate]. cbn [bind] in E.
  apply eval_extends in E as (H1 & H2 & H3 & H4 & g & _ & H5). exists p. cbn in H2, H3, H4. rewrite H2.
  split; [exact H1|]. split; [auto|]. split; [auto|]. split; [auto|]. auto.
Qed.

(** The number judged after a pass is the length of the longest force on an atom of the
    structure evaluated last. *)
Theorem neb_force_of_last_structure calc surr a unc_conv org st m m' : mlneb_step calc surr a unc_conv org st m = Ok m' ->
  exists x f, n_calls m' = n_calls m ++ [x] /\ neb_fmax m' = Ok f /\
  (exists q, In q (atoms_of (snd (calc x))) /\ f = force_norm q) /\ forall q, In q (atoms_of (snd (calc x))) -> force_norm q <= f.
Proof.
  intros E. unfold mlneb_step in E. cbv zeta in E. destruct (acquire _ _ _ _ _) as [p|] eqn:EA; [|discriminate]. cbn [bind] in E.
  apply eval_extends in E as (H1 & _ & _ & _ & f & EF & _). exists p, f. destruct H1 as (_ & _ & HG & _ & HC & _).
  cbn in HC, HG. split; [exact HC|]. unfold neb_fmax. rewrite HG, last_last. split; [exact EF|]. apply fmax_of_forces, EF.
Qed.

(** Converged: the largest force of the last evaluation is not above fmax, the path has
    all its images and the uncertainty of every interior image is below the limit. *)
Definition neb_done (fmax unc_conv : R) (org : nat) (m : mlneb) : Prop :=
  (exists f, get_fmax (last (n_gradients m) []) = Ok f /\ f <= fmax) /\ n_images m = org /\
  forall u, In u (interior (n_unc m)) -> u < unc_conv.

Lemma fold_Rmax_lt l : forall a b, fold_left Rmax l a < b <-> a < b /\ forall u, In u l -> u < b.
Proof.
  induction l as [|c l IH]; intros a b; cbn [fold_left].
  - split; [intros H; split; [auto|intros u []]|tauto].
  - rewrite IH. pose proof (Rmax_l a c). pose proof (Rmax_r a c). split.
    + intros [H1 H2]. split; [lra|]. intros u [<-|Hu]; [lra|auto].
    + intros [H1 H2]. split; [apply Rmax_lub_lt; [auto|apply H2; cbn; auto]|]. intros u Hu. apply H2. cbn. auto.
Qed.

Lemma neb_converged_spec fmax unc_conv org m c : neb_converged fmax unc_conv org m = Ok c -> c = true <-> neb_done fmax unc_conv org m.
Proof.
  unfold neb_converged, neb_fmax, neb_done. destruct (get_fmax _) as [f|]; [|discriminate]. cbn [bind].
  destruct (interior (n_unc m)) as [|u l] eqn:EI; [discriminate|]. cbn [maxR bind]. intros E. injection E as <-.
  rewrite !andb_true_iff, Rleb_true, Nat.eqb_eq, Rltb_true, fold_Rmax_lt. split.
  - intros [[H1 H2] [H3 H4]]. split; [eauto|]. split; [auto|]. intros x [<-|Hx]; auto.
  - intros ((g & E & H1) & H2 & H3). injection E as <-. repeat split; auto; try (apply H3; cbn; auto). intros x Hx. apply H3. cbn. auto.
Qed.

Inductive passes (calc : position -> R * list R) (surr : mlneb -> bool -> nat -> list image) (a : neb_acq) (fmax unc_conv : R) (org : nat) :
  bool -> mlneb -> list struct -> mlneb -> Prop :=
| last_pass st m m' s : mlneb_step calc surr a unc_conv org st m = Ok m' -> neb_extends calc m [s] m' -> passes calc surr a fmax unc_conv org st m [s] m'
| more_passes st m m1 s new m' : mlneb_step calc surr a unc_conv org st m = Ok m1 -> neb_extends calc m [s] m1 ->
    ~ neb_done fmax unc_conv org m1 ->
    forall st', (st' = true <-> st = true \/ exists f, get_fmax (last (n_gradients m1) []) = Ok f /\ f <= fmax) ->
    passes calc surr a fmax unc_conv org st' m1 new m' -> passes calc surr a fmax unc_conv org st m (s :: new) m'.

Lemma passes_extends calc surr a fmax unc_conv org st m new m' : passes calc surr a fmax unc_conv org st m new m' ->
  neb_extends calc m new m' /\ n_maxf m' = n_maxf m /\ (n_images m = org -> n_images m' = org).
Proof.
  induction 1 as [st m m' s E HX|st m m1 s new m' E HX HN st' HS HP (IH1 & IH2 & IH3)].
  - destruct (step_spec _ _ _ _ _ _ _ _ E) as (p & _ & H2 & H3 & _). split; [auto|]. split; [auto|]. intros <-. destruct st; auto.
  - destruct (step_spec _ _ _ _ _ _ _ _ E) as (p & _ & H2 & H3 & _). split; [apply (neb_extends_trans _ m [s] m1); auto|]. split; [congruence|].
    intros HE. apply IH3. destruct st; congruence.
Qed.

Lemma neb_loop_spec calc surr a fmax unc_conv steps org : forall fuel st m, (S (steps - n_iter m) <= fuel)%nat ->
  exists r, mlneb_loop fuel calc surr a fmax unc_conv steps org st m = Some r /\
  forall m', r = Ok m' -> exists new, passes calc surr a fmax unc_conv org st m new m' /\
    (neb_done fmax unc_conv org m' \/ length new = Nat.max 1 (steps - n_iter m)) /\ (length new <= Nat.max 1 (steps - n_iter m))%nat.
Proof.
  induction fuel as [|fuel IH]; intros st m HF; [lia|]. cbn [mlneb_loop].
  destruct (mlneb_step calc surr a unc_conv org st m) as [m1|e] eqn:ES; [|eexists; split; [reflexivity|discriminate]].
  destruct (step_spec _ _ _ _ _ _ _ _ ES) as (p & HX & _). pose proof HX as (_ & _ & _ & _ & _ & HI & _). cbn [length] in HI.
  destruct (neb_fmax m1) as [f|e] eqn:EF; [|eexists; split; [reflexivity|discriminate]].
  destruct (neb_converged fmax unc_conv org m1) as [c|e] eqn:EC; [|eexists; split; [reflexivity|discriminate]].
  apply neb_converged_spec in EC. destruct c.
  { eexists. split; [reflexivity|]. intros m' E. injection E as <-. exists [evaluate calc p]. split; [constructor; auto|]. split; [left; apply EC; auto|cbn [length]; lia]. }
  destruct (Nat.leb_spec steps (n_iter m1)) as [HL|HL].
  { eexists. split; [reflexivity|]. intros m' E. injection E as <-. exists [evaluate calc p]. split; [constructor; auto|]. split; [right; cbn [length]; lia|cbn [length]; lia]. }
  destruct (IH (st || Rleb f fmax)%bool m1 ltac:(lia)) as (r & -> & HR). exists r. split; [auto|]. intros m' ->. destruct (HR m' eq_refl) as (new & B1 & B2 & B3).
  exists (evaluate calc p :: new). split; [|split; [destruct B2; [auto|right; cbn [length]; lia]|cbn [length]; lia]].
  eapply more_passes; eauto.
  - intros HD. apply EC in HD. discriminate.
  - rewrite orb_true_iff, Rleb_true. unfold neb_fmax in EF. rewrite EF. split; intros [H|H]; eauto. destruct H as (g & E & H). injection E as <-. auto.
Qed.

(** Every run ends.  If it ends without an error: before the loop one structure was
    evaluated if only the end points were known; the lists of positions, energies and
    gradients, the file and the counters have grown by the structures evaluated, one per
    pass; the loop left at the first pass after which everything is converged, or after
    the given number of iterations (at least one pass; earlier iterations count). *)
Theorem mlneb_run_consistent calc surr a fmax unc_conv steps sequential m :
  exists r, mlneb_run calc surr a fmax unc_conv steps sequential m = Some r /\
  forall m', r = Ok m' -> exists first new m0, neb_extends calc m (first ++ new) m' /\
    length first = (if (length (n_targets m) =? 2)%nat then 1 else 0)%nat /\ extra_point calc m = Ok m0 /\
    passes calc surr a fmax unc_conv (n_images m) false (if sequential then with_images m0 3 else m0) new m' /\
    let allowed := Nat.max 1 (steps - (n_iter m + length first)) in
    (neb_done fmax unc_conv (n_images m) m' \/ length new = allowed) /\ (length new <= allowed)%nat.
Proof.
  unfold mlneb_run. destruct (extra_point calc m) as [m0|e] eqn:EX; [|eexists; split; [reflexivity|discriminate]].
  assert (HX : exists first, neb_extends calc m first m0 /\ length first = (if (length (n_targets m) =? 2)%nat then 1 else 0)%nat /\ n_images m0 = n_images m).
  { unfold extra_point in EX. destruct (length (n_targets m) =? 2)%nat.
    - destruct (nth_error _ _) as [p|]; [|discriminate]. apply eval_extends in EX as (H1 & H2 & _). eexists. split; [exact H1|]. auto.
    - injection EX as <-. exists []. split; [apply neb_extends_nil|]. auto. }
  destruct HX as (first & HX & HF & HI). rewrite HI.
  assert (HSI : n_iter (if sequential then with_images m0 3 else m0) = n_iter m0) by (destruct sequential; reflexivity).
  destruct (neb_loop_spec calc surr a fmax unc_conv steps (n_images m) (S (steps - n_iter m0)) false (if sequential then with_images m0 3 else m0) ltac:(lia)) as (r & HR & HS).
  exists r. split; [auto|]. intros m' ->. destruct (HS m' eq_refl) as (new & B1 & B2 & B3). rewrite HSI in B2, B3.
  exists first, new, m0. pose proof (passes_extends _ _ _ _ _ _ _ _ _ _ B1) as (C1 & _ & _).
  assert (C1' : neb_extends calc m0 new m') by (destruct sequential; exact C1).
  split; [eapply neb_extends_trans; eauto|]. split; [auto|]. split; [auto|]. split; [auto|]. cbv zeta.
  destruct HX as (_ & _ & _ & _ & _ & HIt & _). rewrite <- HIt. auto.
Qed.

(** Over any number of runs: entry i of the three lists is of the same structure, the i-th
    of the file, if no separate file of previous calculations was given. *)
Inductive neb_reached (calc : position -> R * list R) (is fs : struct) : mlneb -> Prop :=
| neb_at_start restart file interpolation n m : mlneb_init is fs restart None file interpolation n = Ok m -> neb_reached calc is fs m
| neb_after_run m surr a fmax unc_conv steps sequential m' : neb_reached calc is fs m ->
    mlneb_run calc surr a fmax unc_conv steps sequential m = Some (Ok m') -> neb_reached calc is fs m'.

Theorem mlneb_data_consistent calc is fs m : neb_reached calc is fs m ->
  exists ss, neb_trained_on m ss /\ n_file m = ss /\ n_feval m = n_iter m /\ (n_iter m <= length ss)%nat.
Proof.
  induction 1 as [restart file interpolation n m E|m surr a fmax unc_conv steps sequential m' HR IH E].
  - apply mlneb_start in E as (H1 & H2 & H3 & H4 & H5). eexists. split; [exact H1|]. split; [auto|]. split; [congruence|]. rewrite H4. lia.
  - destruct IH as (ss & (T1 & T2 & T3) & F & C & L). destruct (mlneb_run_consistent calc surr a fmax unc_conv steps sequential m) as (r & ER & HX).
    rewrite ER in E. injection E as ->. destruct (HX m' eq_refl) as (first & new & m0 & (A1 & A2 & A3 & A4 & A5 & A6 & A7 & A8) & _).
    exists (ss ++ (first ++ new)). split; [split; [|split]; rewrite map_app; congruence|]. split; [congruence|]. split; [lia|]. rewrite app_length. lia.
Qed.

(** Every structure evaluated in a pass is an image, not an end point, of a path optimised
    on the surrogate. *)
Theorem passes_acquire_interior calc surr a fmax unc_conv org st m new m' : passes calc surr a fmax unc_conv org st m new m' -> a <> AcqOther ->
  forall s, In s new -> exists m1 st1 n i, strictly_inside (surr m1 st1 n) i /\ s_pos s = i_pos i /\ (n = org \/ n = n_images m).
Proof.
  assert (HS : forall st m m1 s, a <> AcqOther -> mlneb_step calc surr a unc_conv org st m = Ok m1 -> neb_extends calc m [s] m1 ->
    exists i, strictly_inside (surr m st (if st then org else n_images m)) i /\ s_pos s = i_pos i).
  { clear. intros st m m1 s Ha E HX. destruct (step_spec _ _ _ _ _ _ _ _ E) as (p & HY & _ & HI & HA & _).
    apply acquisition_as_documented_partial in HA as (i & c & u & H1 & H2 & _); [|auto]. rewrite HI in H1. exists i. split; [auto|].
    destruct HX as (HX & _). destruct HY as (HY & _). rewrite HY in HX. apply app_inv_head in HX. injection HX as HX. congruence. }
  induction 1 as [st m m' s0 E HX|st m m1 s0 new m' E HX HN st' HST HP IH]; intros Ha s Hs.
  - destruct Hs as [<-|[]]. destruct (HS _ _ _ _ Ha E HX) as (i & H1 & H2). exists m, st, (if st then org else n_images m), i. split; [auto|]. split; [auto|]. destruct st; auto.
  - destruct Hs as [<-|Hs].
    + destruct (HS _ _ _ _ Ha E HX) as (i & H1 & H2). exists m, st, (if st then org else n_images m), i. split; [auto|]. split; [auto|]. destruct st; auto.
    + destruct (IH Ha s Hs) as (m2 & st2 & n & i & H1 & H2 & H3). exists m2, st2, n, i. split; [auto|]. split; [auto|].
      destruct (step_spec _ _ _ _ _ _ _ _ E) as (p & _ & _ & HI & _). destruct H3 as [H3|H3]; [auto|]. rewrite H3, HI. destruct st; auto.
Qed.

(** ** list_max_abs_forces *)
(** It has an entry for the end points and the extra point, but none for the structures
    evaluated in the loop. *)
Theorem neb_max_forces_not_recorded_refuted calc surr a fmax unc_conv steps sequential is fs interpolation n m m' :
  mlneb_init is fs false None None interpolation n = Ok m ->
  mlneb_run calc surr a fmax unc_conv steps sequential m = Some (Ok m') ->
  length (n_maxf m') = 3%nat /\ (4 <= length (n_targets m'))%nat.
Proof.
  intros E ER. apply mlneb_start in E as (T & _ & HM & _). cbv beta iota zeta in T, HM. destruct T as (_ & T & _).
  destruct (mlneb_run_consistent calc surr a fmax unc_conv steps sequential m) as (r & ER' & HX). rewrite ER in ER'. injection ER' as <-.
  destruct (HX m' eq_refl) as (first & new & m0 & (_ & A2 & _) & HF & EX & HP & _).
  rewrite T in HF. cbn in HF.
  assert (HM0 : length (n_maxf m0) = 3%nat).
  { unfold extra_point in EX. rewrite T in EX. cbn [map length] in EX. change (2 =? 2)%nat with true in EX. cbn iota in EX.
    destruct (nth_error _ _) as [p|]; [|discriminate]. apply eval_extends in EX as (_ & _ & _ & _ & g & _ & EG). rewrite EG, app_length, HM. reflexivity. }
  split.
  - destruct (passes_extends _ _ _ _ _ _ _ _ _ _ HP) as (_ & EM & _). rewrite EM. destruct sequential; exact HM0.
  - rewrite A2, T, map_app, !app_length, !map_length, HF. cbn [map length]. assert (1 <= length new)%nat by (destruct HP; cbn; lia). lia.
Qed.

(** ** The sequential option *)
(** A run with [sequential] that uses up its steps before a stationary point is found
    leaves the object with three images; the next run takes this as the full number. *)
Theorem sequential_number_of_images_refuted calc surr a fmax unc_conv steps m m0 m1 :
  extra_point calc m = Ok m0 -> (steps <= S (n_iter m0))%nat ->
  mlneb_run calc surr a fmax unc_conv steps true m = Some (Ok m1) -> n_images m1 = 3%nat.
Proof.
  intros EX HS ER. unfold mlneb_run in ER. rewrite EX in ER. cbn [mlneb_loop] in ER.
  destruct (mlneb_step calc surr a unc_conv (n_images m0) false (with_images m0 3)) as [m2|] eqn:ES; [|discriminate].
  destruct (step_spec _ _ _ _ _ _ _ _ ES) as (p & (_ & _ & _ & _ & _ & HI & _) & _ & HN & _). cbn in HI, HN.
  destruct (neb_fmax m2); [|discriminate]. destruct (neb_converged _ _ _ m2) as [c|]; [|discriminate].
  replace (steps <=? n_iter m2)%nat with true in ER by (symmetry; apply Nat.leb_le; lia).
  destruct c; injection ER as <-; auto.
Qed.

(** Without the option, and whenever a run has converged, the number of images is that of
    before. *)
Theorem number_of_images_kept_partial calc surr a fmax unc_conv steps sequential m m' :
  mlneb_run calc surr a fmax unc_conv steps sequential m = Some (Ok m') ->
  sequential = false \/ neb_done fmax unc_conv (n_images m) m' -> n_images m' = n_images m.
Proof.
  intros ER [->|HD]; [|apply HD].
  destruct (mlneb_run_consistent calc surr a fmax unc_conv steps false m) as (r & ER' & HX). rewrite ER in ER'. injection ER' as <-.
  destruct (HX m' eq_refl) as (first & new & m0 & HE & HF & EX & HP & _).
  destruct (passes_extends _ _ _ _ _ _ _ _ _ _ HP) as (_ & _ & HI). apply HI.
  unfold extra_point in EX. destruct (length (n_targets m) =? 2)%nat; [|congruence].
  destruct (nth_error _ _) as [p|]; [|discriminate]. apply eval_extends in EX as (_ & H & _). auto.
Qed.

(** ** The default spring constant *)
(** It is not the same for the same number of images and path length with an interpolated
    and with a given path. *)
Theorem default_spring_constant_refuted n d : (2 <= n)%nat -> 0 < d -> d <> 1 -> spring_interpolated n d <> spring_given n d.
Proof.
  intros Hn Hd H1 E. unfold spring_interpolated, spring_given in E. apply le_INR in Hn. cbn in Hn.
  assert (HA : 0 < INR n - 1) by lra. rewrite sqrt_div in E by lra.
  assert (HQ : 0 < sqrt (INR n - 1)) by (apply sqrt_lt_R0; auto). assert (HD : 0 < sqrt d) by (apply sqrt_lt_R0; auto).
  assert (ED : sqrt d = d).
  { unfold Rdiv in E. apply Rmult_eq_reg_l in E; [|lra]. rewrite <- (Rinv_inv (sqrt d)), E, Rinv_inv. reflexivity. }
  pose proof (sqrt_sqrt d ltac:(lra)) as HS. rewrite ED in HS. apply H1. apply (Rmult_eq_reg_l d); lra.
Qed.

(** ** A case *)
Definition images_case : list image :=
  [Image [0;0;0] 0 0; Image [1;0;0] 3 1; Image [2;0;0] 1 2; Image [3;0;0] 0 0].

Example acquire_case : acquire Acq2 1 false (1/20) images_case = Ok [2;0;0] /\ acquire Acq2 1 false 10 images_case = Ok [1;0;0] /\
  acquire Acq1 1 false (1/20) images_case = Ok [1;0;0].
Proof.
  assert (HM : maxR (map i_unc (interior images_case)) = Ok 2).
  { cbn. f_equal. unfold Rmax. destruct (Rle_dec 1 2); lra. }
  assert (HU : best i_unc (interior images_case) = Ok (Image [2;0;0] 1 2)).
  { cbn. replace (Rltb 1 2) with true by (symmetry; apply Rltb_true; lra). reflexivity. }
  assert (HB : best (fun i => i_energy i + i_unc i) (interior images_case) = Ok (Image [1;0;0] 3 1)).
  { cbn. replace (Rltb (3 + 1) (1 + 2)) with false by (symmetry; apply Rltb_false; lra). reflexivity. }
  unfold acquire. rewrite HM. cbn [bind]. rewrite HU, HB. cbn [bind i_pos].
  replace (Rltb 2 (1/20)) with false by (symmetry; apply Rltb_false; lra). replace (Rltb 2 10) with true by (symmetry; apply Rltb_true; lra).
  repeat split.
Qed.

(** A start and an extra point with four images. *)
Definition calc_line (p : position) : R * list R := (nth 0 p 0, [0; 0; 0]).

Example extra_case : exists m m', mlneb_init (Struct [0;0;0] 0 [0;0;0]) (Struct [3;0;0] 1 [0;0;0]) false None None (fun i => [INR i; 0; 0]) 4 = Ok m /\
  extra_point calc_line m = Ok m' /\ n_calls m' = [[INR 2; 0; 0]].
Proof.
  assert (F0 : get_fmax [- 0; - 0; - 0] = Ok (sqrt ((- - 0) ^ 2 + (- - 0) ^ 2 + (- - 0) ^ 2))) by reflexivity.
  unfold mlneb_init, neb_data. cbn [same_size forallb s_pos s_forces length hd negb Nat.eqb andb map mapr]. rewrite F0. cbn [bind].
  eexists _, _. split; [reflexivity|]. unfold extra_point. cbn [n_targets map length s_energy]. change (2 =? 2)%nat with true. cbn iota.
  unfold middle. cbn [n_efs n_eis n_images n_path]. replace (Rleb 1 0) with false by (symmetry; apply Rleb_false; lra). change (2 * 4 / 3)%nat with 2%nat.
  cbn [create_ml_neb nth_error map seq Nat.sub app]. unfold eval_and_append. cbn [n_train map nth s_pos length Nat.eqb evaluate calc_line s_forces snd]. rewrite F0. cbn [bind]. split; reflexivity.
Qed.

Print Assumptions mlneb_start.
Print Assumptions neb_previous_calculations_refuted.
Print Assumptions neb_previous_calculations_used_partial.
Print Assumptions neb_path_at_start.
Print Assumptions extra_point_is_interior_partial.
Print Assumptions extra_point_three_images_refuted.
Print Assumptions acquisition_as_documented_partial.
Print Assumptions acq5_alternation_refuted.
Print Assumptions neb_force_of_last_structure.
Print Assumptions mlneb_run_consistent.
Print Assumptions mlneb_data_consistent.
Print Assumptions passes_acquire_interior.
Print Assumptions neb_max_forces_not_recorded_refuted.
Print Assumptions sequential_number_of_images_refuted.
Print Assumptions number_of_images_kept_partial.
Print Assumptions default_spring_constant_refuted.
