(** Properties of the functions around the loop of ML-NEB. *)
From Coq Require Import Reals Lra Lia List Arith Bool.
From Verif Require Import Base BaseFacts RBase KernModel OptModel OptProofs MaskModel PathModel.
Import ListNotations.
Open Scope R_scope.

(** ** Arrays and structures *)
Lemma flat_length l : length (flat l) = (3 * length l)%nat.
Proof. unfold flat. induction l as [|[[x y] z] l IH]; [reflexivity|]. cbn [map concat app length] in *. lia. Qed.

Lemma first_part (a b : list R) c : length a = c -> firstn c (a ++ b) = a /\ skipn c (a ++ b) = b.
Proof. intros <-. split; [rewrite firstn_app, Nat.sub_diag, firstn_O, app_nil_r; apply firstn_all|rewrite skipn_app, Nat.sub_diag, skipn_all; reflexivity]. Qed.

Lemma chunks_concat (f : shot -> list R) c l : (forall s, In s l -> length (f s) = c) -> chunks (length l) c (concat (map f l)) = map f l.
Proof.
  induction l as [|s l IH]; intros H; [reflexivity|]. cbn [length chunks map concat].
  destruct (first_part (f s) (concat (map f l)) c) as [-> ->]; [apply H; left; auto|]. f_equal. apply IH. intros t Ht. apply H. right; auto.
Qed.

Lemma concat_length_same (f : shot -> list R) c l : (forall s, In s l -> length (f s) = c) -> length (concat (map f l)) = (length l * c)%nat.
Proof.
  induction l as [|s l IH]; intros H; [reflexivity|]. cbn [map concat length]. rewrite app_length, (H s) by (left; auto).
  rewrite IH by (intros t Ht; apply H; right; auto). lia.
Qed.

(** Structures with the same number of atoms, and a force on each. *)
Definition same_atoms (l : list shot) : Prop :=
  forall s, In s l -> length (h_pos s) = length (h_pos (hd (Shot [] 0 0 []) l)) /\ length (h_forces s) = length (h_pos s).

Theorem ase_to_catlearn_rows : forall l, (2 <= length l)%nat -> same_atoms l ->
  exists t, ase_to_catlearn l = Ok t /\ t_images t = l /\ nth_error l 0 = Some (t_first t) /\
    (forall k s, nth_error l k = Some s ->
      nth_error (t_train t) k = Some (flat (h_pos s)) /\ nth_error (t_targets t) k = Some (h_energy s) /\
      nth_error (t_gradients t) k = Some (map Ropp (flat (h_forces s))) /\ t_atoms t = length (h_pos s)) /\
    length (t_train t) = length l /\ length (t_targets t) = length l /\ length (t_gradients t) = length l.
Proof.
  intros [|a [|b r]] H2 HS; cbn in H2; try lia. set (l := a :: b :: r) in *. unfold ase_to_catlearn. unfold l at 1.
  set (c := (length (h_pos a) * 3)%nat).
  assert (C1 : forall s, In s l -> length (flat (h_pos s)) = c) by (intros s Hs; rewrite flat_length; destruct (HS s Hs) as [E _]; cbn in E; unfold c; lia).
  assert (C2 : forall s, In s l -> length (map Ropp (flat (h_forces s))) = c).
  { intros s Hs. rewrite map_length, flat_length. destruct (HS s Hs) as [E E2]. cbn in E. unfold c. lia. }
  unfold reshape. rewrite (concat_length_same _ c), Nat.eqb_refl by auto. cbn [bind].
  rewrite (concat_length_same (fun s => map Ropp (flat (h_forces s))) c), Nat.eqb_refl by auto. cbn [bind].
  rewrite !(chunks_concat _ c) by auto. eexists. split; [reflexivity|]. cbn [t_images t_first t_train t_targets t_gradients t_atoms].
  split; [auto|]. split; [reflexivity|]. split; [|rewrite !map_length; auto].
  intros k s Hk. rewrite !nth_error_map, Hk. cbn. repeat split; auto. apply nth_error_In in Hk. destruct (HS s Hk) as [E _]. cbn in E. auto.
Qed.

(** The last image of the result is the second one. *)
Theorem ase_to_catlearn_last_refuted : forall a b l t, ase_to_catlearn (a :: b :: l) = Ok t -> t_last t = b.
Proof.
  intros a b l t H. unfold ase_to_catlearn in H. destruct (reshape _ _ (concat (map (fun s => flat (h_pos s)) _))); [|discriminate]. cbn [bind] in H.
  destruct (reshape _ _ _); [|discriminate]. cbn [bind nth_error] in H. injection H as <-. reflexivity.
Qed.

(** One structure is an error. *)
Theorem ase_to_catlearn_single_refuted : forall a, exists e, ase_to_catlearn [a] = Err e.
Proof. intros a. unfold ase_to_catlearn. destruct (reshape _ _ _); cbn [bind]; [|eauto]. destruct (reshape _ _ _); cbn [bind nth_error]; eauto. Qed.

(** Structures with other numbers of atoms are accepted if the total is right, and the
    rows are then not structures. *)
Definition atom (x : R) : triple := (x, x, x).
Definition zeros (n : nat) : list triple := repeat (atom 0) n.
Theorem ase_to_catlearn_mixed_refuted : exists a b c t, ase_to_catlearn [a; b; c] = Ok t /\
  length (h_pos b) <> length (h_pos a) /\ length (h_pos c) <> length (h_pos a) /\ length (h_pos b) <> length (h_pos c) /\
  nth 1 (t_train t) [] = flat (h_pos b ++ firstn 1 (h_pos c)).
Proof.
  exists (Shot [atom 1; atom 2] 0 0 (zeros 2)), (Shot [atom 3] 0 0 (zeros 1)), (Shot [atom 4; atom 5; atom 6] 0 0 (zeros 3)).
  eexists. split; [reflexivity|]. cbn. repeat split; lia.
Qed.

Lemma chunks3 p : map (fun r => (nth 0 r 0, nth 1 r 0, nth 2 r 0)) (chunks (length p) 3 (flat p)) = p.
Proof. induction p as [|[[x y] z] p IH]; [reflexivity|]. cbn. f_equal. exact IH. Qed.

Lemma flat_chunks n : forall l, length l = (n * 3)%nat -> flat (map (fun r => (nth 0 r 0, nth 1 r 0, nth 2 r 0)) (chunks n 3 l)) = l.
Proof.
  induction n as [|n IH]; intros l H; [destruct l; [reflexivity|cbn in H; lia]|].
  destruct l as [|x [|y [|z l]]]; cbn in H; try lia. cbn. do 3 f_equal. apply IH. lia.
Qed.

Lemma chunks_length n c : forall l, length (chunks n c l) = n.
Proof. induction n; intros l; cbn; auto. Qed.

(** A flat array is turned into the positions that flatten to it, and only for the right
    number of coordinates. *)
Theorem array_to_ase_inverse : forall input n p, array_to_ase input n = Ok p <-> flat p = input /\ length p = n.
Proof.
  intros input n p. unfold array_to_ase, reshape. destruct (Nat.eqb_spec (length input) (n * 3)) as [E|E]; cbn [bind]; split.
  - intros H. injection H as <-. split; [apply flat_chunks; auto|]. rewrite map_length. apply chunks_length.
  - intros [<- <-]. rewrite chunks3. reflexivity.
  - discriminate.
  - intros [<- <-]. exfalso. apply E. rewrite flat_length. lia.
Qed.

Theorem array_to_atoms_inverse : forall input,
  match array_to_atoms input with
  | Ok rows => concat rows = input /\ Forall (fun r => length r = 3%nat) rows
  | Err _ => (length input mod 3 <> 0)%nat
  end.
Proof.
  intros input. unfold array_to_atoms, reshape. pose proof (Nat.div_mod (length input) 3 ltac:(lia)) as D.
  destruct (Nat.eqb_spec (length input) (length input / 3 * 3)) as [E|E]; [|lia].
  revert E. generalize (length input / 3)%nat as n. clear D. intros n. revert input.
  induction n as [|n IH]; intros l H; [destruct l; [split; [reflexivity|constructor]|cbn in H; lia]|].
  destruct l as [|x [|y [|z l]]]; cbn in H; try lia. cbn [chunks firstn skipn concat]. destruct (IH l ltac:(lia)) as [A B].
  rewrite A. split; [reflexivity|constructor; auto].
Qed.

(** ** Energies and forces of a point *)
(** The data appended are the point, its energy and the negative of its forces. *)
Theorem eval_point_data : forall calc fc m p m', eval_point calc fc m p = Ok m' ->
  exists pos, flat pos = p /\ length pos = v_atoms m /\ v_ini m' = pos /\
    v_train m' = v_train m ++ [p] /\ v_targets m' = v_targets m ++ [potential_energy fc (calc pos)] /\
    v_gradients m' = v_gradients m ++ [map Ropp (flat (h_forces (calc pos)))] /\ v_atoms m' = v_atoms m.
Proof.
  intros calc fc m p m' H. unfold eval_point in H. destruct (negb _); [discriminate|].
  unfold get_energy_catlearn, point in H. cbn [v_train v_atoms v_targets v_gradients v_ini] in H.
  destruct (v_train m ++ [p]) as [|r0 rs] eqn:EL; [destruct (v_train m); discriminate|]. rewrite <- EL in *. rewrite last_last in H. cbn [bind] in H.
  destruct (array_to_ase p (v_atoms m)) as [pos|] eqn:EA; [|discriminate]. cbn [bind] in H. unfold get_forces_catlearn, point in H.
  cbn [v_train v_atoms v_targets v_gradients v_ini] in H. rewrite EL in H at 1. cbn [bind] in H. injection H as <-.
  apply array_to_ase_inverse in EA. destruct EA as [A B]. exists pos. cbn. repeat split; auto.
Qed.

(** The forces for a point that is given are those of the structure evaluated before. *)
Theorem get_forces_point_refuted : forall calc m x y, get_forces_catlearn calc m (Some x) = get_forces_catlearn calc m (Some y).
Proof. reflexivity. Qed.

(** With force_consistent=True the training data have the extrapolated energy of the
    structures at the start and the force-consistent energy of the points evaluated. *)
Theorem training_energies_mixed_refuted : forall calc l m p m', (2 <= length l)%nat -> same_atoms l ->
  start_data l = Ok m -> eval_point calc (Some true) m p = Ok m' ->
  exists pos, flat pos = p /\ v_targets m' = map h_energy l ++ [h_free (calc pos)].
Proof.
  intros calc l m p m' H2 HS E H. destruct (eval_point_data _ _ _ _ _ H) as (pos & A & _ & _ & _ & T & _). exists pos. split; [auto|]. rewrite T. f_equal.
  unfold start_data in E. destruct (ase_to_catlearn l) as [t|] eqn:ET; [|discriminate]. cbn in E. injection E as <-. cbn.
  unfold ase_to_catlearn in ET. destruct l as [|a l]; [discriminate|]. destruct (reshape _ _ (concat (map (fun s => flat (h_pos s)) _))); [|discriminate]. cbn [bind] in ET.
  destruct (reshape _ _ _); [|discriminate]. cbn [bind] in ET. destruct (nth_error _ 1); [|discriminate]. injection ET as <-. reflexivity.
Qed.

(** Otherwise all energies are of the same kind. *)
Theorem training_energies_same : forall calc fc l m p m', fc <> Some true -> (2 <= length l)%nat -> same_atoms l ->
  start_data l = Ok m -> eval_point calc fc m p = Ok m' ->
  exists pos, flat pos = p /\ v_targets m' = map h_energy (l ++ [calc pos]).
Proof.
  intros calc fc l m p m' NF H2 HS E H. destruct (eval_point_data _ _ _ _ _ H) as (pos & A & _ & _ & _ & T & _). exists pos. split; [auto|]. rewrite T, map_app. f_equal.
  - unfold start_data in E. destruct (ase_to_catlearn l) as [t|] eqn:ET; [|discriminate]. cbn in E. injection E as <-. cbn.
    unfold ase_to_catlearn in ET. destruct l as [|a l]; [discriminate|]. destruct (reshape _ _ (concat (map (fun s => flat (h_pos s)) _))); [|discriminate]. cbn [bind] in ET.
    destruct (reshape _ _ _); [|discriminate]. cbn [bind] in ET. destruct (nth_error _ 1); [|discriminate]. injection ET as <-. reflexivity.
  - cbn. f_equal. destruct fc as [[|]|]; try reflexivity. congruence.
Qed.

(** By default the force-consistent energy is never used, against the documentation. *)
Theorem force_consistent_default_refuted : forall s, potential_energy None s = h_energy s.
Proof. reflexivity. Qed.

(** ** The Gaussian process *)
Lemma maxR_shift c l : maxR (map (fun t => t + c) l) = bind (maxR l) (fun m => Ok (m + c)).
Proof.
  destruct l as [|x l]; [reflexivity|]. cbn. f_equal. revert x. induction l as [|y l IH]; intros x; [reflexivity|]. cbn [map fold_left].
  replace (Rmax (x + c) (y + c)) with (Rmax x y + c); [apply IH|]. unfold Rmax. destruct (Rle_dec x y), (Rle_dec (x + c) (y + c)); lra.
Qed.

(** The model does not depend on the zero of energy; the number that is added to its
    predictions follows it. *)
Theorem train_gp_shift : forall train targets gradients mask d c,
  train_gp_model train (map (fun t => t + c) targets) gradients mask d =
  bind (train_gp_model train targets gradients mask d) (fun q => Ok (fst q, snd q + c)).
Proof.
  intros train targets gradients mask d c. unfold train_gp_model. rewrite maxR_shift. destruct (maxR targets) as [m|]; [|reflexivity]. cbn [bind].
  replace (map (fun t => t - (m + c)) (map (fun t => t + c) targets)) with (map (fun t => t - m) targets)
    by (rewrite map_map; apply map_ext; intros; lra).
  destruct (match mask with None => Ok train | Some idx => apply_mask train idx end); [|reflexivity]. cbn [bind].
  destruct (match mask with None => Ok gradients | Some idx => apply_mask gradients idx end); reflexivity.
Qed.

Lemma maxR_spec l m : maxR l = Ok m -> In m l /\ forall x, In x l -> x <= m.
Proof.
  destruct l as [|a l]; [discriminate|]. intros H. injection H as <-. revert a. induction l as [|y l IH]; intros a; cbn [fold_left].
  - split; [left; auto|]. intros x [<-|[]]. lra.
  - destruct (IH (Rmax a y)) as [A B]. split.
    + destruct A as [A|A]; [|right; right; auto]. rewrite <- A. unfold Rmax. destruct (Rle_dec a y); [right; left; auto|left; auto].
    + intros x [<-|[<-|Hx]].
      * eapply Rle_trans; [apply Rmax_l|]. apply B. left; auto.
      * eapply Rle_trans; [apply Rmax_r|]. apply B. left; auto.
      * apply B. right; auto.
Qed.

(** The energies that it is trained on are at most zero, and zero for the highest; adding
    the number returned gives the energies back.  The prefactor is fixed and positive. *)
Theorem train_gp_targets : forall train targets gradients mask d g m,
  train_gp_model train targets gradients mask d = Ok (g, m) ->
  map (fun t => t + m) (g_targets g) = targets /\ (forall x, In x (g_targets g) -> x <= 0) /\ In 0 (g_targets g) /\
  0 < g_scaling g /\ g_scaling_bounds g = (g_scaling g, g_scaling g) /\
  (mask = None -> g_train g = train /\ g_gradients g = gradients) /\
  (forall idx, mask = Some idx -> apply_mask train idx = Ok (g_train g) /\ apply_mask gradients idx = Ok (g_gradients g)).
Proof.
  intros train targets gradients mask d g m H. unfold train_gp_model in H. destruct (maxR targets) as [m0|] eqn:EM; [|discriminate]. cbn [bind] in H.
  destruct (match mask with None => Ok train | Some idx => apply_mask train idx end) as [tr|] eqn:ET; [|discriminate]. cbn [bind] in H.
  destruct (match mask with None => Ok gradients | Some idx => apply_mask gradients idx end) as [gr|] eqn:EG; [|discriminate]. cbn [bind] in H. injection H as <- <-. cbn.
  apply maxR_spec in EM. destruct EM as [M1 M2].
  split; [rewrite map_map; rewrite <- (map_id targets) at 2; apply map_ext; intros; lra|].
  split; [intros x Hx; apply in_map_iff in Hx; destruct Hx as [y [<- Hy]]; specialize (M2 y Hy); lra|].
  split; [apply in_map_iff; exists m0; split; [lra|auto]|].
  split; [set (s := std _); pose proof (pow2_ge_0 s); cbn in *; lra|]. split; [reflexivity|].
  split; [intros ->; split; congruence|intros idx ->; auto].
Qed.

(** The width at the start is within its bounds for a path of 0.2 or longer. *)
Theorem train_gp_width_partial : forall train targets gradients mask d g m,
  train_gp_model train targets gradients mask d = Ok (g, m) -> 2 / 10 <= d ->
  fst (g_bounds g) <= g_width g <= snd (g_bounds g) /\ g_width g = d / 2 /\
  g_bounds g = (1 / 10, d) /\
  fst (fst (g_noise_bounds g)) <= fst (g_noise g) <= snd (fst (g_noise_bounds g)) /\
  fst (snd (g_noise_bounds g)) <= snd (g_noise g) <= snd (snd (g_noise_bounds g)).
Proof.
  intros train targets gradients mask d g m H Hd. unfold train_gp_model in H. destruct (maxR targets); [|discriminate]. cbn [bind] in H.
  destruct (match mask with None => Ok train | Some idx => apply_mask train idx end); [|discriminate]. cbn [bind] in H.
  destruct (match mask with None => Ok gradients | Some idx => apply_mask gradients idx end); [|discriminate]. cbn [bind] in H. injection H as <- <-. cbn.
  repeat split; lra.
Qed.

(** For a shorter path it is outside, and for one shorter than 0.1 no width is within. *)
Theorem train_gp_width_refuted : forall train targets gradients mask d g m,
  train_gp_model train targets gradients mask d = Ok (g, m) -> d < 2 / 10 ->
  g_width g < fst (g_bounds g) /\ (d < 1 / 10 -> forall w, ~ (fst (g_bounds g) <= w <= snd (g_bounds g))).
Proof.
  intros train targets gradients mask d g m H Hd. unfold train_gp_model in H. destruct (maxR targets); [|discriminate]. cbn [bind] in H.
  destruct (match mask with None => Ok train | Some idx => apply_mask train idx end); [|discriminate]. cbn [bind] in H.
  destruct (match mask with None => Ok gradients | Some idx => apply_mask gradients idx end); [|discriminate]. cbn [bind] in H. injection H as <- <-. cbn.
  split; [lra|]. intros H1 w. lra.
Qed.

(** ** Results of a path *)
Lemma uncertainties_spec unc mask : forall l us, image_uncertainties unc mask l = Ok us ->
  length us = length l /\ forall k i, nth_error l k = Some i -> exists p, take (j_pos i) mask = Ok p /\ nth_error us k = Some (2 * unc p).
Proof.
  induction l as [|i l IH]; intros us H; cbn in H; [injection H as <-; split; [auto|intros [|k] ? ?; discriminate]|].
  destruct (take (j_pos i) mask) as [p|] eqn:E; [|discriminate]. cbn in H. destruct (image_uncertainties unc mask l) as [r|]; [|discriminate]. cbn in H. injection H as <-.
  destruct (IH r eq_refl) as [A B]. split; [cbn; auto|]. intros [|k] j Hj; cbn in *; [injection Hj as <-; eauto|eauto].
Qed.

Lemma set_last_map {A} (f : image_info -> A) u l : (forall i, f (set_unc u i) = f i) -> map f (set_last u l) = map f l.
Proof. intros H. induction l as [|x [|y l] IH]; [reflexivity|cbn; rewrite H; reflexivity|]. change (set_last u (x :: y :: l)) with (x :: set_last u (y :: l)). cbn [map]. rewrite IH. reflexivity. Qed.

Lemma set_last_nth u : forall l k, (S k < length l)%nat -> nth_error (set_last u l) k = nth_error l k.
Proof.
  induction l as [|x [|y l] IH]; intros k Hk; [reflexivity|cbn in Hk; lia|]. change (set_last u (x :: y :: l)) with (x :: set_last u (y :: l)).
  destruct k; [reflexivity|]. cbn [nth_error]. rewrite IH by (cbn in *; lia). reflexivity.
Qed.

Lemma last_any {A} (l : list A) d e : l <> [] -> last l d = last l e.
Proof. induction l as [|a [|b l] IH]; intros H; [congruence|reflexivity|]. apply IH. discriminate. Qed.

Lemma set_last_last u : forall l x, exists i, last (set_last u (x :: l)) x = set_unc u i.
Proof.
  induction l as [|y l IH]; intros x; [exists x; reflexivity|]. change (set_last u (x :: y :: l)) with (x :: set_last u (y :: l)).
  destruct (IH y) as [i Hi]. exists i. rewrite <- Hi. destruct (set_last u (y :: l)) eqn:E; [destruct l; discriminate|].
  change (last (x :: i0 :: l0) x) with (last (i0 :: l0) x). apply last_any. discriminate.
Qed.

(** Positions and energies are kept; the uncertainty of an image is twice the predicted
    one, and zero for the end points; the lists have one number per image. *)
Theorem path_results : forall unc mask images out us es, results_predicted_path unc mask images = Ok (out, us, es) ->
  map j_pos out = map j_pos images /\ map j_energy out = map j_energy images /\ es = map j_energy images /\ length us = length images /\
  (forall k i, nth_error images k = Some i -> exists p, take (j_pos i) mask = Ok p /\ nth_error us k = Some (2 * unc p)) /\
  (forall k, (0 < k)%nat -> (S k < length images)%nat -> option_map j_unc (nth_error out k) = nth_error us k) /\
  (forall d, j_unc (hd d out) = 0 /\ j_unc (last out d) = 0).
Proof.
  intros unc mask images out us es H. unfold results_predicted_path in H. destruct images as [|x l] eqn:EI; [discriminate|].
  destruct (image_uncertainties unc mask (x :: l)) as [u|] eqn:EU; [|discriminate]. cbn [bind] in H. apply uncertainties_spec in EU. destruct EU as [UL UN].
  destruct u as [|u0 u]; [discriminate|]. cbn [combine map fst snd] in H.
  remember (set_last 0 (set_unc 0 (set_unc u0 x) :: map (fun q : image_info * R => set_unc (snd q) (fst q)) (combine l u))) as o eqn:EO.
  injection H as <- <- <-. subst o.
  assert (L : length u = length l) by (cbn in UL; lia).
  assert (MP : forall (A : Type) (f : image_info -> A), (forall v i, f (set_unc v i) = f i) -> map f (map (fun q : image_info * R => set_unc (snd q) (fst q)) (combine l u)) = map f l).
  { intros A f Hf. rewrite map_map. rewrite (map_ext _ (fun q => f (fst q))) by (intros; apply Hf). rewrite <- map_map, map_combine_fst by lia. reflexivity. }
  split; [|split; [|split; [|split; [auto|split; [auto|split]]]]].
  - rewrite set_last_map by reflexivity. cbn [map]. rewrite MP by reflexivity. reflexivity.
  - rewrite set_last_map by reflexivity. cbn [map]. rewrite MP by reflexivity. reflexivity.
  - cbn [map]. rewrite MP by reflexivity. reflexivity.
  - intros k Hk Hl. cbn [length] in Hl. rewrite set_last_nth by (cbn [length]; rewrite map_length, combine_length; lia).
    destruct k as [|k]; [lia|]. cbn [nth_error]. rewrite nth_error_map.
    destruct (nth_error u k) as [v|] eqn:EV.
    + assert (EC : nth_error (combine l u) k = Some (nth k l x, v)).
      { clear - EV L Hl. revert u k EV L Hl. induction l as [|a l IH]; intros [|b u] [|k] EV L Hl; cbn in *; try lia; try discriminate; [congruence|]. apply IH; auto; lia. }
      rewrite EC. reflexivity.
    + apply nth_error_None in EV. lia.
  - intros d. split.
    + destruct (map _ (combine l u)); reflexivity.
    + destruct (set_last_last 0 (map (fun q : image_info * R => set_unc (snd q) (fst q)) (combine l u)) (set_unc 0 (set_unc u0 x))) as [i Hi].
      set (o := set_last 0 _) in *. assert (NE : o <> []) by (unfold o; destruct (map _ (combine l u)); discriminate).
      rewrite (last_any o d (set_unc 0 (set_unc u0 x)) NE), Hi. reflexivity.
Qed.

(** The file of results has another uncertainty for the end points than the images. *)
Theorem path_endpoints_refuted : forall unc mask images out us es s e rows d, results_predicted_path unc mask images = Ok (out, us, es) ->
  (forall p, 0 < unc p) -> results_csv s e us = Ok rows ->
  j_unc (hd d out) = 0 /\ 0 < snd (hd (0, 0, 0) rows) /\ j_unc (last out d) = 0 /\ 0 < snd (last rows (0, 0, 0)).
Proof.
  intros unc mask images out us es s e rows d H HU HR. pose proof (path_results _ _ _ _ _ _ H) as (_ & _ & _ & UL & UN & _ & E). destruct (E d) as [E1 E2].
  unfold results_csv in HR. destruct (_ && _)%bool eqn:EB; [|discriminate]. injection HR as <-. apply andb_prop in EB. destruct EB as [B1 B2].
  apply Nat.eqb_eq in B1, B2.
  assert (NE : images <> []) by (intros ->; discriminate).
  assert (PU : forall v, In v us -> 0 < v).
  { intros v Hv. apply In_nth_error in Hv. destruct Hv as [k Hk]. destruct (nth_error images k) as [i|] eqn:EI.
    - destruct (UN k i EI) as [p [_ Hp]]. rewrite Hk in Hp. injection Hp as ->. specialize (HU p). lra.
    - apply nth_error_None in EI. assert (nth_error us k <> None) by congruence. apply nth_error_Some in H0. lia. }
  assert (PR : forall q, In q (combine (combine s e) us) -> 0 < snd q) by (intros [q v] Hq; apply in_combine_r in Hq; auto).
  assert (NR : combine (combine s e) us <> []).
  { intros Q. apply (f_equal (@length _)) in Q. rewrite !combine_length in Q. cbn in Q. destruct images; [congruence|]. cbn in UL. lia. }
  repeat split; auto.
  - apply PR. destruct (combine _ us); [congruence|left; auto].
  - apply PR. destruct (exists_last NR) as [r [q Hq]]. rewrite Hq, last_last. apply in_app_iff. right. left. auto.
Qed.

(** ** The table *)
Lemma print_iter round r us f r' : print_info_neb round r us f = Ok r' -> e_iter r' = e_iter r /\
  exists row, hd 0 row = INR (e_iter r) /\ e_table r' = Some (match e_iter r, e_table r with O, _ => [row] | _, Some t => t ++ [row] | _, None => [row] end) /\
  (e_iter r = O \/ e_table r <> None) /\
  nth 1 row 0 = round 5%nat (e_forward r') /\ nth 2 row 0 = round 5%nat (e_backward r') /\
  e_forward r' = (if (e_iter r <? 2)%nat then 0 else e_forward r) /\ e_backward r' = (if (e_iter r <? 2)%nat then 0 else e_backward r).
Proof.
  intros H. unfold print_info_neb in H. destruct (maxR (interior us)); [|discriminate]. cbn [bind] in H.
  destruct (e_iter r) as [|k] eqn:EI; [injection H as <-|destruct (e_table r) as [t|] eqn:ET; [injection H as <-|discriminate]];
    (split; [reflexivity|]); (eexists; split; [|split; [cbn [e_table]; reflexivity|]]; [reflexivity|]); cbn [nth e_forward e_backward];
    (split; [first [left; reflexivity|right; discriminate]|auto]).
Qed.

(** A sequence of calls: the start, then the extra evaluation or passes of the loop, in
    one or several runs. *)
Inductive reported (round : nat -> R -> R) : report -> Prop :=
| reported_start : forall f b t us fm r, print_info_neb round (Report 0 f b t) us fm = Ok r -> reported round r
| reported_extra : forall r us fm r', reported round r -> report_extra round r us fm = Ok r' -> reported round r'
| reported_pass : forall r es us fm r', reported round r -> report_pass round r es us fm = Ok r' -> reported round r'.

(** The table has a row for each step, from zero to the current one. *)
Theorem report_rows : forall round r, reported round r -> exists t, e_table r = Some t /\ length t = S (e_iter r) /\
  forall k, (k <= e_iter r)%nat -> hd 0 (nth k t []) = INR k.
Proof.
  assert (G : forall round r us fm r' f b, (exists t, e_table r = Some t /\ length t = S (e_iter r) /\ forall k, (k <= e_iter r)%nat -> hd 0 (nth k t []) = INR k) ->
     print_info_neb round (Report (S (e_iter r)) f b (e_table r)) us fm = Ok r' ->
     exists t, e_table r' = Some t /\ length t = S (e_iter r') /\ forall k, (k <= e_iter r')%nat -> hd 0 (nth k t []) = INR k).
  { intros round r us fm r' f b (t & ET & EL & EK) H. apply print_iter in H. destruct H as (I & row & H1 & H2 & _). cbn [e_iter e_table] in *.
    rewrite ET in H2. exists (t ++ [row]). split; [auto|]. rewrite I. split; [rewrite app_length, EL; cbn; lia|].
    intros k Hk. destruct (Nat.eq_dec k (S (e_iter r))) as [->|N].
    - rewrite app_nth2 by lia. rewrite EL, Nat.sub_diag. exact H1.
    - rewrite app_nth1 by lia. apply EK. lia. }
  intros round r H. induction H as [f b t us fm r H|r us fm r' _ IH H|r es us fm r' _ IH H].
  - apply print_iter in H. destruct H as (I & row & H1 & H2 & _). cbn [e_iter] in *. exists [row]. split; [auto|]. rewrite I. split; [reflexivity|].
    intros k Hk. replace k with 0%nat by lia. exact H1.
  - eapply G; [exact IH|exact H].
  - unfold report_pass in H. destruct (maxR es); [|discriminate]. cbn [bind] in H. eapply G; [exact IH|exact H].
Qed.

(** From the second step on the barriers are the highest energy of the path relative to
    its end points: not negative, and their difference is the energy of the reaction. *)
Theorem report_barriers : forall round r es us fm r', (1 <= e_iter r)%nat -> report_pass round r es us fm = Ok r' ->
  (forall e, In e es -> e - nth 0 es 0 <= e_forward r' /\ e - last es 0 <= e_backward r') /\
  (exists e, In e es /\ e_forward r' = e - nth 0 es 0 /\ e_backward r' = e - last es 0) /\
  0 <= e_forward r' /\ 0 <= e_backward r' /\ e_forward r' - e_backward r' = last es 0 - nth 0 es 0.
Proof.
  intros round r es us fm r' Hi H. unfold report_pass in H. destruct (maxR es) as [m|] eqn:EM; [|discriminate]. cbn [bind] in H.
  apply print_iter in H. destruct H as (_ & row & _ & _ & _ & _ & _ & F & B). cbn [e_iter e_forward e_backward] in F, B.
  destruct (Nat.ltb_spec (S (e_iter r)) 2); [lia|]. rewrite F, B. apply maxR_spec in EM. destruct EM as [M1 M2].
  split; [intros e He; specialize (M2 e He); lra|]. split; [exists m; auto|].
  assert (N : es <> []) by (intros ->; destruct M1).
  assert (A : In (nth 0 es 0) es) by (destruct es; [congruence|left; auto]).
  assert (L : In (last es 0) es) by (destruct (exists_last N) as [q [z ->]]; rewrite last_last; apply in_app_iff; right; left; auto).
  apply M2 in A, L. lra.
Qed.

(** In the first step of a run that starts from previous calculations they are zero. *)
Theorem report_first_barriers_refuted : forall round r es us fm r', e_iter r = 0%nat -> report_pass round r es us fm = Ok r' ->
  e_forward r' = 0 /\ e_backward r' = 0.
Proof.
  intros round r es us fm r' Hi H. unfold report_pass in H. destruct (maxR es) as [m|] eqn:EM; [|discriminate]. cbn [bind] in H.
  apply print_iter in H. destruct H as (_ & row & _ & _ & _ & _ & _ & F & B). cbn [e_iter e_forward e_backward] in F, B. rewrite Hi in F, B. auto.
Qed.

(** ** Files of paths *)
Definition stored (f : path_files) (paths : list (list position)) : path_files := fold_left store_paths paths f.

Lemma stored_all paths : forall f l, f_all f = Some l -> f_all (stored f paths) = Some (l ++ concat paths).
Proof.
  induction paths as [|p paths IH]; intros f l E; [cbn; rewrite app_nil_r; auto|]. unfold stored in *. cbn [fold_left concat].
  rewrite (IH (store_paths f p) (l ++ p)); [rewrite app_assoc; reflexivity|]. cbn. rewrite E. reflexivity.
Qed.

Lemma last_images_app n a b : length b = n -> last_images n (a ++ b) = b.
Proof. intros H. unfold last_images. rewrite app_length, H. replace (length a + n - n)%nat with (length a) by lia. rewrite skipn_app, Nat.sub_diag, skipn_all. reflexivity. Qed.

(** While all paths have the same number of images the first attempt starts from the
    initial path and the second one from the last path predicted. *)
Theorem starting_paths : forall old init paths images n, length init = n -> Forall (fun p => length p = n) paths ->
  starting_path (stored (files_start old init) paths) images n 0 = Ok init /\
  starting_path (stored (files_start old init) paths) images n 1 = Ok (last paths init).
Proof.
  intros old init paths images n HI HF. unfold starting_path. rewrite (stored_all paths (files_start old init) init) by reflexivity. split.
  - f_equal. unfold first_images. rewrite <- HI, firstn_app, Nat.sub_diag, firstn_O, app_nil_r. apply firstn_all.
  - f_equal. destruct paths as [|p paths] using rev_ind; [cbn; rewrite app_nil_r; apply (last_images_app n []); auto|].
    rewrite last_last, concat_app. cbn [concat]. rewrite app_nil_r, app_assoc. apply last_images_app.
    apply Forall_app in HF. destruct HF as [_ HF]. inversion HF; auto.
Qed.

(** With sequential=True the second attempt, after the number of images has grown, starts
    from images of several paths. *)
Theorem starting_path_sequential_refuted : forall old init p images n, length init = n -> length p = 3%nat -> (4 <= n)%nat ->
  starting_path (stored (files_start old init) [p]) images n 1 = Ok (skipn 3 init ++ p) /\
  exists path, setup_path (nth 0 init []) (last init []) (skipn 3 init ++ p) n = Ok path /\
    nth (n - 2) path [] = nth 1 p [] /\ nth (n - 3) path [] = nth 0 p [].
Proof.
  intros old init p images n HI HP Hn. split.
  - unfold starting_path. rewrite (stored_all [p] (files_start old init) init) by reflexivity. cbn [concat]. rewrite app_nil_r. f_equal.
    unfold last_images. rewrite app_length, HI, HP. replace (n + 3 - n)%nat with 3%nat by lia. rewrite skipn_app. replace (3 - length init)%nat with 0%nat by lia. reflexivity.
  - unfold setup_path. rewrite app_length, skipn_length, HI, HP. replace (n - 1 <=? n - 3 + 3)%nat with true by (symmetry; apply Nat.leb_le; lia).
    eexists. split; [reflexivity|]. unfold create_ml_neb.
    assert (LS : length (skipn 3 init) = (n - 3)%nat) by (rewrite skipn_length; lia).
    split.
    + replace (n - 2)%nat with (S (n - 3)) at 1 by lia. cbn [nth]. rewrite app_nth1 by (rewrite map_length, seq_length; lia).
      rewrite (nth_map_lt _ _ _ 0%nat) by (rewrite seq_length; lia). rewrite seq_nth by lia. rewrite app_nth2 by lia. rewrite LS. replace (1 + (n - 3) - (n - 3))%nat with 1%nat by lia. reflexivity.
    + replace (n - 3)%nat with (S (n - 4)) at 1 by lia. cbn [nth]. rewrite app_nth1 by (rewrite map_length, seq_length; lia).
      rewrite (nth_map_lt _ _ _ 0%nat) by (rewrite seq_length; lia). rewrite seq_nth by lia. rewrite app_nth2 by lia. rewrite LS. replace (1 + (n - 4) - (n - 3))%nat with 0%nat by lia. reflexivity.
Qed.

(** The one moving image of a sequential run starts at the image next to the first end
    point of the initial path, not in its middle. *)
Theorem sequential_start_refuted : forall old init images, (3 <= length init)%nat ->
  exists start, starting_path (files_start old init) images 3 0 = Ok start /\
  setup_path (nth 0 init []) (last init []) start 3 = Ok [nth 0 init []; nth 1 init []; last init []].
Proof.
  intros old init images H. destruct init as [|a [|b [|c init]]]; cbn in H; try lia. eexists. split; [reflexivity|]. reflexivity.
Qed.

(** Convergence removes both files of paths, and a run after it fails. *)
Theorem run_after_convergence_refuted : forall f f' images n, clean_up f = Ok f' ->
  f_last f' = None /\ f_all f' = None /\
  starting_path f' images n 0 = Err RuntimeError /\ starting_path f' images n 1 = Err RuntimeError.
Proof. intros f f' images n H. unfold clean_up in H. destruct (f_last f), (f_all f); try discriminate. injection H as <-. auto. Qed.

(** ** Concrete cases *)
Example two_structures :
  let a := Shot [atom 0; atom 1] 5 6 [atom 2; atom 3] in let b := Shot [atom 4; atom 5] 7 8 [atom 6; atom 7] in
  same_atoms [a; b] /\ exists m m', start_data [a; b] = Ok m /\
    eval_point (fun p => Shot p 1 2 (zeros (length p))) (Some true) m [9; 9; 9; 8; 8; 8] = Ok m' /\
    v_targets m' = [5; 7; 2] /\ nth 2 (v_train m') [] = [9; 9; 9; 8; 8; 8].
Proof.
  cbv zeta. split; [intros s [<-|[<-|[]]]; cbn; auto|]. do 2 eexists. split; [reflexivity|]. split; [reflexivity|]. split; reflexivity.
Qed.

Example three_images : exists out us es, results_predicted_path (fun _ => 3) [0%nat] [Info [1] 0 0; Info [2] 5 0; Info [3] 1 0] = Ok (out, us, es) /\
  us = [2 * 3; 2 * 3; 2 * 3] /\ map j_unc out = [0; 2 * 3; 0] /\ es = [0; 5; 1].
Proof. do 3 eexists. split; [reflexivity|]. repeat split. Qed.

Example report_case : forall round, exists r r2 r3,
  print_info_neb round (Report 0 0 0 None) [0; 0; 0] 1 = Ok r /\ report_extra round r [0; 0; 0] 1 = Ok r2 /\
  report_pass round r2 [0; 5; 1] [1; 2; 1] 3 = Ok r3 /\ e_iter r3 = 2%nat /\ e_forward r3 = 5 /\ e_backward r3 = 4.
Proof.
  intros round. do 3 eexists. split; [reflexivity|]. split; [reflexivity|]. split; [reflexivity|]. cbn.
  unfold Rmax. repeat (destruct (Rle_dec _ _); try lra). repeat split; lra.
Qed.

Print Assumptions ase_to_catlearn_rows.
Print Assumptions ase_to_catlearn_last_refuted.
Print Assumptions ase_to_catlearn_single_refuted.
Print Assumptions ase_to_catlearn_mixed_refuted.
Print Assumptions array_to_ase_inverse.
Print Assumptions array_to_atoms_inverse.
Print Assumptions eval_point_data.
Print Assumptions get_forces_point_refuted.
Print Assumptions training_energies_mixed_refuted.
Print Assumptions training_energies_same.
Print Assumptions force_consistent_default_refuted.
Print Assumptions train_gp_shift.
Print Assumptions train_gp_targets.
Print Assumptions train_gp_width_partial.
Print Assumptions train_gp_width_refuted.
Print Assumptions path_results.
Print Assumptions path_endpoints_refuted.
Print Assumptions report_rows.
Print Assumptions report_barriers.
Print Assumptions report_first_barriers_refuted.
Print Assumptions starting_paths.
Print Assumptions starting_path_sequential_refuted.
Print Assumptions sequential_start_refuted.
Print Assumptions run_after_convergence_refuted.
