(** The surrogate of ML-NEB and the predictions of surrogates. *)
From Coq Require Import Reals Lra Lia List Arith Bool String.
From Coquelicot Require Import Coquelicot.
From Verif Require Import Base BaseFacts RBase LinAlg KernModel KernProofs KernSetupProofs KernDefProofs KernProperties GPModel GPProofs
  GPMoreProofs GPProperties GPUpdateProperties GradSpec GradProofs GradKernProofs GPGradProofs KernMultiProperties MaskModel OptModel MinSurrModel MinSurrProperties
  PathSurrModel.
From Verif Require PathModel PathProperties MaskProperties.
From Coq Require Import List.
Import ListNotations.
Open Scope R_scope.

(** ** Specification *)
(** The free coordinates of a structure, and the place of one of them among these. *)
Definition coordinates (idx : list nat) (pos : list R) : list R := map (fun i => nth i pos 0) idx.
Fixpoint position_of (q : nat) (l : list nat) : nat := match l with [] => 0%nat | x :: t => if (x =? q)%nat then 0%nat else S (position_of q t) end.

(** The energy is a differentiable function of all coordinates with derivatives [slope],
    and of the free ones only; the calculator returns it for any positive finite step, and
    forces that are zero on constrained coordinates and elsewhere minus a derivative taken
    within one step. *)
Definition smooth_surface (L : nat) (idx : list nat) (calc : R -> list R -> result (R * list R)) (energy : list R -> R) (slope : nat -> list R -> R) : Prop :=
  (forall q (pos : list R), length pos = L -> (q < L)%nat -> is_derive (fun t => energy (set_nth q t pos)) (nth q pos 0) (slope q pos)) /\
  (forall pos pos', (forall q, In q idx -> nth q pos 0 = nth q pos' 0) -> energy pos = energy pos') /\
  forall fs pos, length pos = L -> 0 < fs -> exists f, calc fs pos = Ok (energy pos, f) /\ length f = L /\
    forall q, (q < L)%nat -> (~ In q idx -> nth q f 0 = 0) /\
      (In q idx -> exists t, nth q pos 0 - fs <= t <= nth q pos 0 + fs /\ nth q f 0 = - slope q (set_nth q t pos)).

(** Far from all of [train] in free coordinates the energy is near [m] and forces vanish. *)
Definition flat_far_away (L : nat) (idx : list nat) (train : list row) (m : R) (calc : R -> list R -> result (R * list R)) : Prop :=
  forall eps fs, 0 < eps -> 0 < fs -> exists r, 0 < r /\ forall pos, length pos = L ->
    (forall y, In y train -> exists q, In q idx /\ r <= Rabs (nth q pos 0 - nth q y 0)) ->
    exists e f, calc fs pos = Ok (e, f) /\ Rabs (e - m) < eps /\ Forall (fun x => Rabs x < eps) f.

(** A minimizer that is started within the bounds returns a point within the bounds. *)
Definition keeps_bounds (minimizer : list R -> list bound -> list R * R) : Prop :=
  forall th b, Forall2 within th b -> Forall2 within (fst (minimizer th b)) b.

(** The free coordinates of structures with [L] coordinates. *)
Definition free (L : nat) (mask : option (list nat)) : list nat := match mask with Some idx => idx | None => seq 0 L end.

(** Training data of structures with [L] coordinates. *)
Record sampled (L : nat) (mask : option (list nat)) (train : list row) (targets : list R) (gradients : list row) : Prop := {
  p_free : free L mask <> [];
  p_range : Forall (fun i => (i < L)%nat) (free L mask);
  p_once : NoDup (free L mask);
  p_some : targets <> [];
  p_train : length train = length targets;
  p_gradients : length gradients = length targets;
  p_rows : Forall (fun r => length r = L) train;
  p_grows : Forall (fun r => length r = L) gradients }.

(** ** Covariance with new structures *)
Definition entry (D : nat) (ws : list R) (sf : R) (m : list row) (x : row) (q : nat) : R :=
  sf * (if (q <? length m)%nat then gauss (wnth ws) D x (nth q m [])
        else gjet (wnth ws) D x None (nth ((q - length m) / D) m []) (Some ((q - length m) mod D)%nat)).

Lemma width_pos D dim ws sf a b d : good D dim ws sf a b -> (d < D)%nat -> 0 < wnth ws d.
Proof.
  intros [Hd Hl Hp _ _ _] HD. unfold wnth. rewrite Forall_forall in Hp. destruct ws as [|x [|y ws]].
  - destruct dim; cbn in Hl; lia.
  - apply Hp. left. auto.
  - assert (length (x :: y :: ws) = D) by (destruct dim; cbn in *; lia). apply Hp. apply nth_In. lia.
Qed.

Lemma surr_test D dim ws wb sf sb a b nb m test : good D dim ws sf a b -> (1 <= D)%nat -> m <> [] -> rectangular m D -> test <> [] -> rectangular test D ->
  exists C, get_covariance (surr dim ws wb sf sb a b nb) false test (Some m) None true = Ok C /\
    nr C = length test /\ nc C = (length m + length m * D)%nat /\
    forall i q, (i < length test)%nat -> (q < length m + length m * D)%nat -> at_ C i q = entry D ws sf m (nth i test []) q.
Proof.
  intros HG HD HN HR HT HRT. pose proof (fun d => width_pos D dim ws sf a b d HG) as HW. destruct HG as [Hd Hl Hp Hs Ha Hb].
  assert (LW : length ws = D \/ length ws = 1%nat) by (rewrite Hl; destruct dim; cbn; auto).
  destruct (gaussian_gx ws test m D HT HN HRT HR LW) as (K & EK & [G1 G2 G3 G4]); [intros d Hdd; apply Rgt_not_eq; apply HW; auto|].
  assert (E1 : scaled_kernel (sq_kernel dim (Arr ws) wb sf sb) false true test (Some m) = Ok (Mx (nr K) (nc K) (fun i j => sf * at_ K i j))).
  { unfold scaled_kernel, select. cbn [sq_kernel k_type k_features bind]. unfold kdict2list. cbn. rewrite floats_nums. cbn.
    rewrite (map_ext (logged false) (fun x => x)) by auto. rewrite map_id. rewrite EK. reflexivity. }
  destruct (scaled_noise a b true test (Some m)) as (K1 & E2 & N1 & N2 & N3).
  assert (E2' : scaled_kernel (noise_kernel [a; b] nb) false true test (Some m) = Ok K1) by exact E2.
  unfold noise_multi_kernel in N1, N2. cbn [nr nc] in N1, N2. rewrite (rectangular_ncols test D HRT HT) in N2.
  unfold get_covariance, surr. cbn [cov_loop]. rewrite E1, E2'. cbn [bind]. unfold accumulate. cbn [nr nc k_mult sq_kernel noise_kernel bind].
  rewrite !Nat.eqb_refl. cbn [andb bind nr nc at_]. rewrite N1, N2, G1, G2, !Nat.eqb_refl. cbn [andb bind nr nc at_].
  rewrite (rectangular_ncols test D HRT HT), (rectangular_ncols m D HR HN), Nat.eqb_refl. cbn [require bind].
  eexists. split; [reflexivity|]. cbn [nr nc at_]. split; [auto|]. split; [auto|].
  intros i q Hi Hq. rewrite N3. unfold noise_multi_kernel. cbn [at_]. rewrite Rplus_0_r, Rplus_0_l. unfold entry. f_equal.
  destruct (index_cases D m q Hq) as [Hv|[j [d [Hj [Hdd ->]]]]].
  - destruct (Nat.ltb_spec q (length m)); [|lia]. apply G3; auto.
  - destruct (Nat.ltb_spec (length m + j * D + d) (length m)); [lia|].
    replace (length m + j * D + d - length m)%nat with (d + j * D)%nat by lia.
    rewrite Nat.div_add, Nat.mod_add, Nat.div_small, Nat.mod_small by lia. cbn [Nat.add].
    apply (partial_unique (fun y => gauss (wnth ws) D (nth i test []) y) d (nth j m [])); [apply G4; auto|].
    apply gauss_right; auto; [intros; apply Rgt_not_eq; apply HW; auto|]. apply (row_at_length m D j HR Hj).
Qed.

(** ** Predicted means *)
Definition gp_mean (g : gp) (x : row) : R := match predict g [x] with Ok (e :: _) => e | _ => 0 end.

Section Mean.
Variables (D : nat) (m : list row) (dim : dimension) (ws : list R) (wb : list bound) (sf : R) (sb : list bound) (a b : R) (nb : list bound) (g : gp).
Hypothesis HF : fitted D m dim ws wb sf sb a b nb g.
Hypothesis HG : good D dim ws sf a b.
Hypothesis HD : (1 <= D)%nat.
Hypothesis HN : m <> [].
Hypothesis HR : rectangular m D.
Local Notation N := (length m + length m * D)%nat.

Definition weight (q : nat) : R := Sum N (fun j => at_ (g_cinv g) q j * nth j (g_target g) 0).
Definition smean (x : row) : R := Sum N (fun q => entry D ws sf m x q * weight q).

Lemma predict_smean test : test <> [] -> rectangular test D -> predict g test = Ok (map smean test).
Proof.
  intros TN TR. destruct HF as [F1 F2 F3 F4 F5 F6 F7 F8 F9 F10]. unfold predict, scale_test, test_covariance. rewrite F7, F1, F5, F4, F6.
  destruct (surr_test D dim ws wb sf sb a b nb m test HG HD HN HR TN TR) as (C & EC & C1 & C2 & C3). rewrite EC. cbn [bind].
  unfold make_prediction, dot_vec. rewrite F10, F8, Nat.eqb_refl. cbn [bind]. rewrite tabulate_length, F9, C2, Nat.eqb_refl. cbn [bind].
  unfold rescale. rewrite F7. f_equal. apply (nth_ext _ _ 0 0); [rewrite tabulate_length, map_length; auto|].
  intros i Hi. rewrite tabulate_length in Hi. rewrite nth_tabulate by auto. rewrite (nth_map_lt _ _ _ []) by lia.
  unfold smean. apply Sum_ext. intros q Hq. rewrite C3 by lia. rewrite nth_tabulate by auto. auto.
Qed.

Lemma mean_smean x : length x = D -> gp_mean g x = smean x.
Proof. intros Hx. unfold gp_mean. rewrite predict_smean; [reflexivity|discriminate|repeat constructor; auto]. Qed.

Lemma predict_mean test : test <> [] -> rectangular test D -> predict g test = Ok (map (gp_mean g) test).
Proof.
  intros TN TR. rewrite predict_smean by auto. f_equal. apply map_ext_in. intros x Hx. rewrite mean_smean; auto.
  unfold rectangular in TR. rewrite Forall_forall in TR. auto.
Qed.

(** *** Far from the training data *)
Definition far (r : R) (x y : row) : Prop := exists d, (d < length x)%nat /\ r <= Rabs (nth d x 0 - nth d y 0).

Lemma term_le_Sum n (f : nat -> R) i : (forall k, (k < n)%nat -> 0 <= f k) -> (i < n)%nat -> f i <= Sum n f.
Proof.
  induction n as [|n IH]; intros H Hi; [lia|]. cbn [Sum]. destruct (Nat.eq_dec i n) as [->|].
  - pose proof (Sum_nonneg n f). assert (0 <= Sum n f) by (apply H0; intros; apply H; lia). lra.
  - assert (f i <= Sum n f) by (apply IH; [intros; apply H; lia|lia]). specialize (H n ltac:(lia)). lra.
Qed.

Lemma Sum_abs n (f : nat -> R) : Rabs (Sum n f) <= Sum n (fun i => Rabs (f i)).
Proof. induction n; cbn [Sum]; [rewrite Rabs_R0; lra|]. eapply Rle_trans; [apply Rabs_triang|]. lra. Qed.

Lemma exp_lower z : 1 + z <= exp z.
Proof. apply exp_ineq1_le. Qed.

Definition W : R := Sum D (wnth ws).
Definition V : R := Sum D (fun d => / wnth ws d).

Lemma sqd_lower x y r d : 0 <= r -> (d < D)%nat -> r <= Rabs (nth d x 0 - nth d y 0) -> (r / W) ^ 2 <= sqd (wnth ws) D x y.
Proof.
  intros Hr Hd H. pose proof (fun d => width_pos D dim ws sf a b d HG) as HW.
  assert (HWd : wnth ws d <= W) by (apply (term_le_Sum D (wnth ws)); [intros; apply Rlt_le; apply HW; auto|auto]).
  pose proof (HW d Hd) as Hp. eapply Rle_trans.
  2: { apply (term_le_Sum D (fun d => ((nth d x 0 - nth d y 0) / wnth ws d) ^ 2) d); [intros; apply pow2_ge_0|auto]. }
  cbv beta. rewrite <- (pow2_abs (_ / wnth ws d)). apply pow_incr. unfold Rdiv. rewrite Rabs_mult, (Rabs_pos_eq (/ wnth ws d)) by (apply Rlt_le, Rinv_0_lt_compat; auto).
  split; [apply Rmult_le_pos; [auto|apply Rlt_le, Rinv_0_lt_compat; lra]|].
  apply Rmult_le_compat; [auto|apply Rlt_le, Rinv_0_lt_compat; lra|auto|apply Rinv_le_contravar; auto].
Qed.

Lemma gauss_small x y z : z <= sqd (wnth ws) D x y -> 0 <= z -> gauss (wnth ws) D x y <= / (1 + z / 4) /\
  forall d, (d < D)%nat -> Rabs (gjet (wnth ws) D x None y (Some d)) <= V * / (1 + z / 4).
Proof.
  intros Hz Z0. set (s := sqd (wnth ws) D x y) in *. pose proof (fun d => width_pos D dim ws sf a b d HG) as HW.
  assert (E4 : exp (- / 4 * s) <= / (1 + z / 4)).
  { replace (- / 4 * s) with (- (/ 4 * s)) by ring. rewrite exp_Ropp. apply Rinv_le_contravar; [lra|]. pose proof (exp_lower (/ 4 * s)). lra. }
  assert (ES : exp (- / 2 * s) = exp (- / 4 * s) * exp (- / 4 * s)) by (rewrite <- exp_plus; f_equal; field).
  assert (E1 : exp (- / 4 * s) <= 1) by (rewrite <- exp_0; destruct (Req_dec s 0) as [->|]; [right; f_equal; ring|left; apply exp_increasing; nra]).
  pose proof (exp_pos (- / 4 * s)) as EP. split.
  - unfold gauss. fold s. rewrite ES. nra.
  - intros d Hd. pose proof (HW d Hd) as Hp. set (u := (nth d x 0 - nth d y 0) / wnth ws d).
    assert (Hu : u ^ 2 <= s) by (apply (term_le_Sum D (fun d => ((nth d x 0 - nth d y 0) / wnth ws d) ^ 2) d); [intros; apply pow2_ge_0|auto]).
    assert (Hv : / wnth ws d <= V) by (apply (term_le_Sum D (fun d => / wnth ws d)); [intros; apply Rlt_le, Rinv_0_lt_compat, HW; auto|auto]).
    assert (EJ : gjet (wnth ws) D x None y (Some d) = / wnth ws d * (u * gauss (wnth ws) D x y)) by (unfold gjet, u; field; lra).
    rewrite EJ. unfold gauss. fold s. rewrite Rabs_mult, (Rabs_pos_eq (/ wnth ws d)) by (apply Rlt_le, Rinv_0_lt_compat; auto).
    apply Rmult_le_compat; [apply Rlt_le, Rinv_0_lt_compat; auto|apply Rabs_pos|auto|].
    rewrite ES, Rabs_mult, (Rabs_pos_eq (_ * _)) by nra. rewrite <- (pow2_abs u) in Hu. set (v := Rabs u) in *. assert (0 <= v) by apply Rabs_pos.
    assert (Q : v * exp (- / 4 * s) <= 1).
    { replace (- / 4 * s) with (- (/ 4 * s)) by ring. rewrite exp_Ropp. pose proof (exp_lower (/ 4 * s)). pose proof (exp_pos (/ 4 * s)).
      apply (Rmult_le_reg_r (exp (/ 4 * s))); [auto|]. rewrite Rmult_assoc, Rinv_l by lra.
      pose proof (pow2_ge_0 (v / 2 - 1)). replace ((v / 2 - 1) ^ 2) with (v ^ 2 / 4 - v + 1) in * by field. lra. }
    nra.
Qed.

Lemma mean_far eps : 0 < eps -> exists r, 0 < r /\ forall x, length x = D -> (forall y, In y m -> far r x y) -> Rabs (smean x) < eps.
Proof.
  intros He. pose proof (fun d => width_pos D dim ws sf a b d HG) as HW. pose proof (o_sf _ _ _ _ _ _ HG) as Hs.
  set (A := Sum N (fun q => Rabs (weight q))). set (C := sf * (1 + V)).
  assert (HA : 0 <= A) by (apply Sum_nonneg; intros; apply Rabs_pos).
  assert (HV : 0 <= V) by (apply Sum_nonneg; intros; apply Rlt_le, Rinv_0_lt_compat, HW; auto).
  assert (HW0 : 0 < W) by (apply Rlt_le_trans with (wnth ws 0); [apply HW; lia|apply (term_le_Sum D (wnth ws)); [intros; apply Rlt_le, HW; auto|lia]]).
  assert (HC : 0 <= C) by (apply Rmult_le_pos; lra).
  set (t := C * A / eps). assert (Ht : 0 <= t) by (apply Rmult_le_pos; [apply Rmult_le_pos; auto|apply Rlt_le, Rinv_0_lt_compat; auto]).
  set (r := 2 * W * (1 + t)). assert (Hr : 0 < r) by (apply Rmult_lt_0_compat; lra).
  exists r. split; [auto|]. intros x Hx Hfar. set (z := (r / W) ^ 2).
  assert (Ez : z / 4 = (1 + t) ^ 2) by (unfold z, r; field; lra).
  assert (Hz : 0 <= z) by apply pow2_ge_0.
  assert (HB : forall j, (j < length m)%nat -> z <= sqd (wnth ws) D x (nth j m [])).
  { intros j Hj. destruct (Hfar (nth j m []) (nth_In m [] Hj)) as (d & Hd & Hq). apply (sqd_lower x _ r d); auto; [lra|lia]. }
  assert (HE : forall q, (q < N)%nat -> Rabs (entry D ws sf m x q) <= C * / (1 + z / 4)).
  { intros q Hq. unfold entry. rewrite Rabs_mult, (Rabs_pos_eq sf) by auto. unfold C. rewrite Rmult_assoc. apply Rmult_le_compat_l; [auto|].
    assert (P : 0 < / (1 + z / 4)) by (apply Rinv_0_lt_compat; lra). assert (PV : 0 <= V * / (1 + z / 4)) by (apply Rmult_le_pos; lra).
    rewrite Rmult_plus_distr_r.
    destruct (Nat.ltb_spec q (length m)) as [Q|Q].
    - destruct (gauss_small x (nth q m []) z (HB q Q) Hz) as [G _]. rewrite Rabs_pos_eq by apply Rlt_le, exp_pos. lra.
    - assert (Hj : ((q - length m) / D < length m)%nat) by (apply Nat.div_lt_upper_bound; nia).
      destruct (gauss_small x (nth ((q - length m) / D) m []) z (HB _ Hj) Hz) as [_ G]. specialize (G ((q - length m) mod D)%nat (Nat.mod_upper_bound (q - length m) D ltac:(lia))). lra. }
  eapply Rle_lt_trans; [apply Sum_abs|]. apply Rle_lt_trans with (C * / (1 + z / 4) * A).
  - unfold A. rewrite <- Sum_scal. apply Sum_le. intros q Hq. rewrite Rabs_mult. apply Rmult_le_compat_r; [apply Rabs_pos|auto].
  - rewrite Ez. replace (C * / (1 + (1 + t) ^ 2) * A) with (C * A / (1 + (1 + t) ^ 2)) by (unfold Rdiv; ring).
    assert (CA : C * A = t * eps) by (unfold t; field; lra). rewrite CA. apply Rlt_div_l; nra.
Qed.

(** *** The mean is smooth *)
Definition slope (k : nat) (x : row) : R :=
  Sum N (fun q => sf * gjet (wnth ws) D x (Some k) (nth (if (q <? length m)%nat then q else (q - length m) / D)%nat m [])
                         (if (q <? length m)%nat then None else Some ((q - length m) mod D)%nat) * weight q).

Lemma smean_partial x k : length x = D -> (k < D)%nat -> partial smean k x (slope k x).
Proof.
  intros Hx Hk. pose proof (fun d => width_pos D dim ws sf a b d HG) as HW. unfold smean, slope.
  apply (partial_Sum N (fun q x => entry D ws sf m x q * weight q)). intros q Hq.
  assert (NZ : forall d, (d < D)%nat -> wnth ws d <> 0) by (intros; apply Rgt_not_eq, HW; auto).
  unfold entry. destruct (Nat.ltb_spec q (length m)) as [Q|Q].
  - apply (partial_ext (fun z => (sf * weight q) * gauss (wnth ws) D z (nth q m []))); [lia|intros; ring|].
    replace (sf * gjet (wnth ws) D x (Some k) (nth q m []) None * weight q) with (sf * weight q * gjet (wnth ws) D x (Some k) (nth q m []) None) by ring.
    apply partial_scal. apply gauss_left; auto.
  - set (y := nth ((q - length m) / D) m []). set (d := ((q - length m) mod D)%nat).
    assert (Hj : ((q - length m) / D < length m)%nat) by (apply Nat.div_lt_upper_bound; nia).
    assert (Hd : (d < D)%nat) by (apply Nat.mod_upper_bound; lia).
    assert (Hy : length y = D) by (apply (row_at_length m D _ HR Hj)).
    apply (partial_ext (fun z => (sf * weight q) * gjet (wnth ws) D z None y (Some d))); [lia|intros; ring|].
    replace (sf * gjet (wnth ws) D x (Some k) y (Some d) * weight q) with (sf * weight q * gjet (wnth ws) D x (Some k) y (Some d)) by ring.
    apply partial_scal. destruct (gauss_mixed (wnth ws) D NZ x y k d Hx Hy Hk Hd) as (h & H1 & H2).
    apply (partial_ext h); [lia| |auto]. intros z Hz. apply (partial_unique (fun y => gauss (wnth ws) D z y) d y); [apply H1; auto|].
    apply gauss_right; auto.
Qed.

(** *** The calculator *)
Variables (L : nat) (idx : list nat) (c : R).
Hypothesis HI : length idx = D.
Hypothesis HU : NoDup idx.
Hypothesis HB : forall i, In i idx -> (i < L)%nat.

Definition energy_at (pos : list R) : R := smean (coordinates idx pos) + c.
Definition slope_at (q : nat) (pos : list R) : R :=
  if in_dec Nat.eq_dec q idx then slope (position_of q idx) (coordinates idx pos) else 0.

Lemma position_ok q l : In q l -> (position_of q l < length l)%nat /\ nth (position_of q l) l 0%nat = q.
Proof.
  induction l as [|x l IH]; intros H; [destruct H|]. cbn [position_of length nth]. destruct (Nat.eqb_spec x q) as [->|N]; [split; [lia|auto]|].
  destruct H as [H|H]; [congruence|]. destruct (IH H). split; [lia|auto].
Qed.

Lemma calculator_ok fs pos : length pos = L -> exists f, calculator g idx c fs pos = Ok (energy_at pos, f) /\ length f = L /\
  (forall q, ~ In q idx -> nth q f 0 = 0) /\
  (forall q, In q idx -> nth q f 0 = - ((energy_at (set_nth q (nth q pos 0 + fs) pos) - energy_at (set_nth q (nth q pos 0 - fs) pos)) / (2 * fs))).
Proof.
  intros HL. assert (HB' : forall i, In i idx -> (i < length pos)%nat) by (rewrite HL; auto).
  assert (E : calculator g idx c fs pos = ase_calculate smean idx c fs pos).
  { unfold calculator, ase_calculate. rewrite (MaskProperties.take_ok pos 0) by auto. cbn [bind]. set (test := map _ idx).
    assert (LT : length test = D) by (unfold test; rewrite map_length; auto).
    rewrite predict_smean by (try discriminate; repeat constructor; auto). cbn [bind map first_of].
    assert (EM : forall h, predict g (map (fun i => set_nth i (nth (nth i idx 0%nat) pos 0 + h) test) (seq 0 (length idx))) =
      Ok (map (fun i => smean (set_nth i (nth (nth i idx 0%nat) pos 0 + h) test)) (seq 0 (length idx)))).
    { intros h. rewrite predict_smean; [rewrite map_map; auto| |].
      - rewrite HI. destruct D; [lia|]. discriminate.
      - apply Forall_forall. intros x Hx. apply in_map_iff in Hx as (k & <- & _). rewrite set_nth_length. auto. }
    rewrite !EM. cbn [bind]. reflexivity. }
  assert (EA : exists e f, ase_calculate smean idx c fs pos = Ok (e, f)).
  { unfold ase_calculate. rewrite (MaskProperties.take_ok pos 0) by auto. cbn [bind].
    match goal with |- context [write_back ?p idx ?v] => destruct (MaskProperties.write_back_total idx v p) as [out EO] end.
    - rewrite map_length, combine_length, !map_length, seq_length. lia.
    - rewrite repeat_length. auto.
    - rewrite EO. cbn [bind]. eauto. }
  destruct EA as (e & f & EA). destruct (MaskProperties.surrogate_forces _ _ _ _ _ _ _ HU EA) as (S1 & S2 & S3 & S4).
  exists f. rewrite E, EA, S1. split; [reflexivity|]. split; [congruence|]. split; [auto|]. exact S4.
Qed.

Lemma coordinates_set pos k t : length pos = L -> (k < D)%nat -> coordinates idx (set_nth (nth k idx 0%nat) t pos) = set_nth k t (coordinates idx pos).
Proof. intros HL Hk. apply MaskProperties.set_nth_masked; auto; [lia|]. rewrite HL. apply HB, nth_In. lia. Qed.

Lemma coordinates_other pos q t : ~ In q idx -> coordinates idx (set_nth q t pos) = coordinates idx pos.
Proof. intros H. apply map_ext_in. intros i Hi. apply nth_set_nth_neq. congruence. Qed.

Lemma coord_nth x k t : (k < length x)%nat -> set_coord k t x = set_nth k t x.
Proof. revert x. induction k as [|k IH]; intros [|y x] H; cbn in *; try lia; auto. f_equal. apply IH. lia. Qed.

Lemma coordinates_length pos : length (coordinates idx pos) = D.
Proof. unfold coordinates. rewrite map_length. auto. Qed.

Lemma energy_slope q (pos : list R) : length pos = L -> is_derive (fun t => energy_at (set_nth q t pos)) (nth q pos 0) (slope_at q pos).
Proof.
  intros HL. unfold slope_at, energy_at. destruct (in_dec Nat.eq_dec q idx) as [Hq|Hq].
  - destruct (position_ok q idx Hq) as [P1 P2]. set (k := position_of q idx) in *.
    assert (ES : forall t, smean (coordinates idx (set_nth q t pos)) + c = smean (set_coord k t (coordinates idx pos)) + c).
    { intros t. rewrite coord_nth by (rewrite coordinates_length; lia). rewrite <- P2, coordinates_set by (auto; lia). auto. }
    apply (is_derive_ext (fun t => smean (set_coord k t (coordinates idx pos)) + c)); [intros; auto|].
    replace (slope k (coordinates idx pos)) with (slope k (coordinates idx pos) + 0) by ring.
    apply is_derive_Reals. apply (derivable_pt_lim_plus (fun t => smean (set_coord k t (coordinates idx pos))) (fun _ => c)); [|apply derivable_pt_lim_const].
    replace (nth q pos 0) with (nth k (coordinates idx pos) 0).
    + apply smean_partial; [apply coordinates_length|lia].
    + unfold coordinates. rewrite (nth_map_lt _ _ _ 0%nat) by auto. rewrite P2. auto.
  - apply (is_derive_ext (fun _ => smean (coordinates idx pos) + c)); [intros t; rewrite coordinates_other; auto|]. apply is_derive_Reals, derivable_pt_lim_const.
Qed.

Lemma set_set q s t (pos : list R) : set_nth q s (set_nth q t pos) = set_nth q s pos.
Proof. revert q. induction pos as [|x pos IH]; intros [|q]; cbn; auto. f_equal. auto. Qed.

Lemma smooth_ok : smooth_surface L idx (calculator g idx c) energy_at slope_at.
Proof.
  split; [intros q pos HL _; apply energy_slope; auto|]. split.
  { intros pos pos' H. unfold energy_at. f_equal. f_equal. apply map_ext_in. auto. }
  intros fs pos HL Hfs. destruct (calculator_ok fs pos HL) as (f & E & F1 & F2 & F3). exists f. split; [auto|]. split; [auto|].
  intros q Hq. split; [auto|]. intros Hin. rewrite (F3 q Hin).
  destruct (MVT_gen (fun t => energy_at (set_nth q t pos)) (nth q pos 0 - fs) (nth q pos 0 + fs) (fun t => slope_at q (set_nth q t pos))) as (t & Ht & EQ).
  - intros t _. pose proof (energy_slope q (set_nth q t pos)) as H. rewrite set_nth_length in H. specialize (H HL). rewrite nth_set_nth_eq in H by lia.
    apply (is_derive_ext (fun s => energy_at (set_nth q s (set_nth q t pos)))); [intros s; rewrite set_set; auto|auto].
  - intros t _. apply continuity_pt_filterlim. apply (ex_derive_continuous (K := R_AbsRing) (V := R_NormedModule)). exists (slope_at q (set_nth q t pos)).
    pose proof (energy_slope q (set_nth q t pos)) as H. rewrite set_nth_length in H. specialize (H HL). rewrite nth_set_nth_eq in H by lia.
    apply (is_derive_ext (fun s => energy_at (set_nth q s (set_nth q t pos)))); [intros s; rewrite set_set; auto|auto].
  - rewrite Rmin_left, Rmax_right in Ht by lra. exists t. split; [auto|]. rewrite EQ. field. lra.
Qed.

Variable train : list row.
Hypothesis HX : m = map (coordinates idx) train.

Lemma flat_ok : flat_far_away L idx train c (calculator g idx c).
Proof.
  intros eps fs He Hf. set (eps' := Rmin eps (eps * fs)). assert (P1 : 0 < eps') by (apply Rmin_pos; [auto|apply Rmult_lt_0_compat; auto]).
  assert (P2 : eps' <= eps) by apply Rmin_l. assert (P3 : eps' <= eps * fs) by apply Rmin_r.
  destruct (mean_far eps' P1) as (r & Hr & HM). exists (r + fs). split; [lra|]. intros pos HL Hfar.
  assert (HS : forall q h, - fs <= h <= fs -> Rabs (energy_at (set_nth q (nth q pos 0 + h) pos) - c) < eps').
  { intros q h Hh. unfold energy_at. replace (smean _ + c - c) with (smean (coordinates idx (set_nth q (nth q pos 0 + h) pos))) by ring.
    apply HM; [apply coordinates_length|]. rewrite HX. intros y Hy. apply in_map_iff in Hy as (z & <- & Hz).
    destruct (Hfar z Hz) as (p & Hp & Hd). apply (In_nth idx p 0%nat) in Hp as Hk. destruct Hk as (k & Hk & Ek).
    exists k. split; [rewrite coordinates_length; lia|]. unfold coordinates. rewrite !(nth_map_lt _ _ _ 0%nat) by auto. rewrite Ek.
    destruct (Nat.eq_dec p q) as [->|N].
    - rewrite nth_set_nth_eq by (rewrite HL; auto). unfold Rabs in *. destruct (Rcase_abs _), (Rcase_abs _); lra.
    - rewrite nth_set_nth_neq by auto. lra. }
  assert (SN : forall q, set_nth q (nth q pos 0) pos = pos).
  { clear. intros q. revert q. induction pos as [|x pos IH]; intros [|q]; cbn; auto. f_equal. auto. }
  destruct (calculator_ok fs pos HL) as (f & E & F1 & F2 & F3). exists (energy_at pos), f. split; [auto|]. split.
  - specialize (HS 0%nat 0 ltac:(lra)). rewrite Rplus_0_r, SN in HS. lra.
  - apply Forall_forall. intros x Hx. apply (In_nth f x 0) in Hx as (q & Hq & <-). destruct (in_dec Nat.eq_dec q idx) as [Hin|Hin].
    + rewrite (F3 q Hin). pose proof (HS q fs ltac:(lra)) as A1. pose proof (HS q (- fs) ltac:(lra)) as A2.
      change (nth q pos 0 + - fs) with (nth q pos 0 - fs) in A2. set (u := energy_at (set_nth q (nth q pos 0 + fs) pos)) in *. set (v := energy_at (set_nth q (nth q pos 0 - fs) pos)) in *.
      rewrite Rabs_Ropp. unfold Rdiv. rewrite Rabs_mult, (Rabs_pos_eq (/ _)) by (apply Rlt_le, Rinv_0_lt_compat; lra).
      apply (Rmult_lt_reg_r (2 * fs)); [lra|]. rewrite Rmult_assoc, Rinv_l by lra.
      assert (Rabs (u - v) < 2 * eps'). { replace (u - v) with ((u - c) + - (v - c)) by ring. eapply Rle_lt_trans; [apply Rabs_triang|]. rewrite Rabs_Ropp. lra. }
      lra.
    + rewrite (F2 q Hin), Rabs_R0. auto.
Qed.
End Mean.

(** ** Training *)
Lemma map_seq_id (l : list R) : map (fun i => nth i l 0) (seq 0 (length l)) = l.
Proof. apply (nth_ext _ _ 0 0); rewrite map_length, seq_length; [auto|]. intros i Hi. rewrite (nth_map_lt _ _ _ 0%nat) by (rewrite seq_length; auto). rewrite seq_nth by auto. auto. Qed.

Lemma masked_rows L mask (rows : list row) : Forall (fun i => (i < L)%nat) (free L mask) -> Forall (fun r => length r = L) rows ->
  match mask with None => Ok rows | Some idx => apply_mask rows idx end = Ok (map (coordinates (free L mask)) rows).
Proof.
  intros HM HR. destruct mask as [idx|]; cbn [free] in *.
  - destruct (mask_rows L idx rows HM HR) as (m & E & _). rewrite E. f_equal. apply (MaskProperties.apply_mask_rows 0) in E. auto.
  - f_equal. rewrite <- (map_id rows) at 1. apply map_ext_in. intros r Hr. rewrite Forall_forall in HR. rewrite <- (HR r Hr). symmetry. apply map_seq_id.
Qed.

Lemma coordinates_rows idx (rows : list row) : Forall (fun r => length r = length idx) (map (coordinates idx) rows).
Proof. apply Forall_forall. intros r Hr. apply in_map_iff in Hr as (x & <- & _). unfold coordinates. apply map_length. Qed.

Lemma path_ok inv cho cho_solve mini L mask train targets gradients d : oracles_ok inv cho -> oracles_total inv cho -> keeps_bounds mini ->
  sampled L mask train targets gradients -> 2 / 10 <= d ->
  exists g m w e f, path_surrogate inv cho cho_solve mini train targets gradients mask d = Ok (g, m) /\ maxR targets = Ok m /\ g_reg g = 0 /\
    Forall2 within [spread targets; w; e; f] [exactly (spread targets); between (1 / 10) d; between (1 / 1000) (5 / 1000); between (5 / 10000) (2 / 1000)] /\
    fitted (length (free L mask)) (map (coordinates (free L mask)) train) Single [w] [between (1 / 10) d] (spread targets) [exactly (spread targets)] e f
      [between (1 / 1000) (5 / 1000); between (5 / 10000) (2 / 1000)] g /\
    good (length (free L mask)) Single [w] (spread targets) e f.
Proof.
  intros HO HT HM [S1 S2 S3 S4 S5 S6 S7 S8] Hd. set (D := length (free L mask)). assert (HD : (1 <= D)%nat) by (unfold D; destruct (free L mask); [congruence|cbn; lia]).
  unfold path_surrogate, PathModel.train_gp_model. destruct (maxR targets) as [u|] eqn:EU; [|destruct targets; [congruence|discriminate]]. cbn [bind].
  rewrite (masked_rows L mask train S2 S7). cbn [bind]. rewrite (masked_rows L mask gradients S2 S8). cbn [bind fst snd].
  cbn [PathModel.g_train PathModel.g_targets PathModel.g_gradients]. unfold path_kernels.
  cbn [PathModel.g_width PathModel.g_bounds PathModel.g_scaling PathModel.g_scaling_bounds PathModel.g_noise PathModel.g_noise_bounds fst snd].
  unfold bound_of. cbn [fst snd]. rewrite (spread_scaled u _ S4). set (sf := spread targets) in *. pose proof (spread_pos targets) as HS. fold sf in HS.
  set (m := map (coordinates (free L mask)) train). set (G := map (coordinates (free L mask)) gradients).
  assert (Hm : m <> []) by (unfold m; intros Q; apply map_eq_nil in Q; subst train; cbn in S5; destruct targets; [congruence|discriminate]).
  set (nb := [between (1 / 1000) (5 / 1000); between (5 / 10000) (2 / 1000)]).
  assert (E3 : setting D Single [d / 2] [between (1 / 10) d] sf [between sf sf] (5 / 1000) (5 / 10000) nb).
  { constructor; try reflexivity.
    - constructor; try discriminate; cbn; auto; try lra; try (apply Rgt_not_eq; lra). constructor; [lra|auto].
    - repeat constructor; cbn; lra.
    - unfold nb; cbn [app]; repeat (apply Forall2_cons; [split; cbn; lra|]); apply Forall2_nil. }
  destruct (fit_ok inv cho cho_solve HO HT D Single (Num (d / 2)) [between (1 / 10) d] sf [between sf sf] (5 / 1000) (5 / 10000) nb [d / 2] m
              (map (fun t => t - u) targets) G eq_refl (e_good _ _ _ _ _ _ _ _ _ E3) HD Hm) as (g & EG & FG & RG).
  { apply coordinates_rows. } { unfold m. rewrite !map_length. auto. } { unfold m, G. rewrite !map_length. congruence. } { apply coordinates_rows. }
  rewrite EG. cbn [bind].
  pose proof (HM ((sf :: [d / 2] ++ [5 / 1000; 5 / 10000]) ++ [0]) (([between sf sf] ++ [between (1 / 10) d]) ++ nb ++ [between 0 0]) (e_within _ _ _ _ _ _ _ _ _ E3)) as HW.
  destruct (setting_next _ _ _ _ _ _ _ _ _ _ E3 HW) as (sf' & ws' & a' & b' & EX & LX & E3').
  destruct (opt_ok inv cho HO HT D m Single [d / 2] [between (1 / 10) d] sf [between sf sf] (5 / 1000) (5 / 10000) nb g mini sf' ws' a' b' 0
    (snd (mini ((sf :: [d / 2] ++ [5 / 1000; 5 / 10000]) ++ [0]) (([between sf sf] ++ [between (1 / 10) d]) ++ nb ++ [between 0 0]))) FG HD Hm) as (g' & EO & FG' & RG').
  { apply coordinates_rows. }
  { rewrite (f_bounds _ _ _ _ _ _ _ _ _ _ _ FG), RG, <- EX. apply surjective_pairing. }
  { auto. } { apply (e_good _ _ _ _ _ _ _ _ _ E3'). }
  rewrite EO. cbn [bind]. destruct ws' as [|w [|? ?]]; try discriminate.
  assert (sf' = sf).
  { pose proof (e_within _ _ _ _ _ _ _ _ _ E3') as Q. cbn in Q. inversion Q as [|? ? ? ? [Q1 Q2] _]; subst. cbn in Q1, Q2. lra. }
  subst sf'. exists g', u, w, a', b'. split; [reflexivity|]. split; [auto|]. split; [auto|]. split.
  - pose proof (e_within _ _ _ _ _ _ _ _ _ E3') as Q. cbn in Q. unfold exactly.
    inversion Q as [|? ? ? ? Q1 R1]; subst. inversion R1 as [|? ? ? ? Q2 R2]; subst. inversion R2 as [|? ? ? ? Q3 R3]; subst. inversion R3 as [|? ? ? ? Q4 R4]; subst.
    repeat (apply Forall2_cons; [assumption|]); apply Forall2_nil.
  - split; [exact FG'|apply (e_good _ _ _ _ _ _ _ _ _ E3')].
Qed.

(** ** Theorems *)
(** For a path of 0.2 or longer the training of the surrogate always succeeds.  The variance
    is the spread of the energies, the length scale and noises are within their bounds, the
    training structures are known by their free coordinates and the energies predicted
    are relative to the highest one. *)
Theorem path_surrogate_trained : forall inv cho cho_solve mini L mask train targets gradients d,
  oracles_ok inv cho -> oracles_total inv cho -> keeps_bounds mini -> sampled L mask train targets gradients -> 2 / 10 <= d ->
  exists g m w e f, path_surrogate inv cho cho_solve mini train targets gradients mask d = Ok (g, m) /\
    kdicts2list (g_kernels g) (g_nd g) = Ok [spread targets; w; e; f] /\ 1 / 10 <= w <= d /\ 1 / 1000 <= e <= 5 / 1000 /\ 5 / 10000 <= f <= 2 / 1000 /\
    g_reg g = 0 /\ g_fp g = map (coordinates (free L mask)) train /\ In m targets /\ Forall (fun t => t <= m) targets.
Proof.
  intros inv cho cho_solve mini L mask train targets gradients d HO HT HM HS Hd.
  destruct (path_ok inv cho cho_solve mini L mask train targets gradients d HO HT HM HS Hd) as (g & m & w & e & f & E & EU & ER & HW & FG & _).
  exists g, m, w, e, f. split; [auto|]. split; [rewrite (f_kernels _ _ _ _ _ _ _ _ _ _ _ FG); apply surr_flat|].
  inversion HW as [|? ? ? ? _ R1]; subst. inversion R1 as [|? ? ? ? [A1 A2] R2]; subst. inversion R2 as [|? ? ? ? [A3 A4] R3]; subst. inversion R3 as [|? ? ? ? [A5 A6] _]; subst.
  cbn in A1, A2, A3, A4, A5, A6. destruct (PathProperties.maxR_spec _ _ EU) as [U1 U2]. repeat (split; [lra|]).
  split; [apply (f_fp _ _ _ _ _ _ _ _ _ _ _ FG)|]. split; [auto|]. apply Forall_forall. auto.
Qed.

(** Endpoints that coincide: no length scale is positive and training stops. *)
Theorem coincident_path_stops : forall inv cho cho_solve mini L mask train targets gradients d,
  sampled L mask train targets gradients -> d <= 0 ->
  path_surrogate inv cho cho_solve mini train targets gradients mask d = Err AssertionError.
Proof.
  intros inv cho cho_solve mini L mask train targets gradients d [S1 S2 S3 S4 S5 S6 S7 S8] Hd. unfold path_surrogate, PathModel.train_gp_model.
  destruct (maxR targets) as [u|] eqn:EU; [|destruct targets; [congruence|discriminate]]. cbn [bind].
  rewrite (masked_rows L mask train S2 S7). cbn [bind]. rewrite (masked_rows L mask gradients S2 S8). cbn [bind fst snd].
  cbn [PathModel.g_train PathModel.g_targets PathModel.g_gradients]. unfold path_kernels.
  cbn [PathModel.g_width PathModel.g_bounds PathModel.g_scaling PathModel.g_scaling_bounds PathModel.g_noise PathModel.g_noise_bounds fst snd].
  unfold fit, gp_init. rewrite !map_length, S5, Nat.eqb_refl. cbn [negb]. unfold prepare_kernels. cbn.
  assert (F : Rltb 0 (d / 2) = false) by (apply Rltb_false; lra). rewrite F, !Nat.leb_refl. reflexivity.
Qed.

(** A shift of all energies shifts the prior and nothing else. *)
Theorem path_shift_invariant : forall inv cho cho_solve mini train targets gradients mask d c,
  path_surrogate inv cho cho_solve mini train (map (fun t => t + c) targets) gradients mask d =
  bind (path_surrogate inv cho cho_solve mini train targets gradients mask d) (fun q => Ok (fst q, snd q + c)).
Proof.
  intros. unfold path_surrogate. rewrite PathProperties.train_gp_shift. destruct (PathModel.train_gp_model _ _ _ _ _) as [[s m]|]; [|reflexivity]. cbn [bind fst snd].
  destruct (fit _ _ _ _ _ _ _) as [g|]; [|reflexivity]. cbn [bind]. destruct (optimize_hyperparameters _ _ _); reflexivity.
Qed.

Lemma sampled_idx L mask train targets gradients : sampled L mask train targets gradients ->
  (1 <= length (free L mask))%nat /\ (forall i, In i (free L mask) -> (i < L)%nat) /\ map (coordinates (free L mask)) train <> [].
Proof.
  intros [S1 S2 S3 S4 S5 S6 S7 S8]. split; [destruct (free L mask); [congruence|cbn; lia]|]. rewrite Forall_forall in S2. split; [auto|].
  intros Q. apply map_eq_nil in Q. subst train. destruct targets; [congruence|discriminate].
Qed.

(** The surface that ML-NEB relaxes on is smooth, the forces are its slopes, and it is flat far from all data. *)
Theorem path_surface : forall inv cho cho_solve mini L mask train targets gradients d,
  oracles_ok inv cho -> oracles_total inv cho -> keeps_bounds mini -> sampled L mask train targets gradients -> 2 / 10 <= d ->
  exists g m energy slope, path_surrogate inv cho cho_solve mini train targets gradients mask d = Ok (g, m) /\
    smooth_surface L (free L mask) (calculator g (free L mask) m) energy slope /\
    flat_far_away L (free L mask) train m (calculator g (free L mask) m).
Proof.
  intros inv cho cho_solve mini L mask train targets gradients d HO HT HM HS Hd.
  destruct (path_ok inv cho cho_solve mini L mask train targets gradients d HO HT HM HS Hd) as (g & m & w & e & f & E & _ & _ & _ & FG & HG).
  destruct (sampled_idx _ _ _ _ _ HS) as (H1 & H2 & H3). pose proof (p_once _ _ _ _ _ HS) as HU.
  exists g, m. eexists. eexists. split; [exact E|]. split.
  - eapply smooth_ok; eauto. apply coordinates_rows.
  - eapply flat_ok; eauto. apply coordinates_rows.
Qed.

(** The same for MLMin after any number of passes. *)
Theorem minimum_surface : forall inv cho cho_solve L mask kernel noise l d mini,
  oracles_ok inv cho -> oracles_total inv cho -> implemented kernel -> 0 < noise -> NoDup mask ->
  Forall (fun p => valid L mask (fst p) /\ respects (snd p)) (l ++ [(d, mini)]) ->
  exists st g energy slope, passes inv cho cho_solve kernel noise (l ++ [(d, mini)]) no_surrogate = Ok st /\ r_gp st = Some g /\
    smooth_surface L mask (calculator g mask (r_prior st)) energy slope /\
    flat_far_away L mask (d_train d) (r_prior st) (calculator g mask (r_prior st)).
Proof.
  intros inv cho cho_solve L mask kernel noise l d mini HO HT HK HN HU HF.
  destruct (passes_ok inv cho cho_solve HO HT L mask kernel noise HK HN l d mini no_surrogate None ([], []) HF I)
    as (st & g & E & _ & EG & _ & _ & (dim & ws & wb & sf & sb & a & b & nb & FG & HS) & EM & _ & _).
  apply Forall_app in HF as [_ HF]. apply Forall_cons_iff in HF as [[[V0 V1 V2 V3 V4 V5 V6 V7] _] _]. cbn [fst] in *.
  pose proof (MaskProperties.apply_mask_rows 0 _ _ _ EM) as EF. change (fun r => map (fun i => nth i r 0) mask) with (coordinates mask) in EF.
  assert (N : g_fp g <> []). { rewrite EF. intros Q. apply map_eq_nil in Q. rewrite Q in V4. destruct (d_targets d); [congruence|discriminate]. }
  assert (R : rectangular (g_fp g) (length mask)) by (rewrite EF; apply coordinates_rows).
  assert (HD : (1 <= length mask)%nat) by (destruct mask; [congruence|cbn; lia]). rewrite Forall_forall in V2.
  exists st, g. eexists. eexists. split; [auto|]. split; [auto|]. split.
  - eapply smooth_ok; eauto. apply (e_good _ _ _ _ _ _ _ _ _ HS).
  - eapply flat_ok; eauto. apply (e_good _ _ _ _ _ _ _ _ _ HS).
Qed.

(** Two structures with three coordinates, of which the first and last are free; a
    minimizer that keeps the start values. *)
Example two_structures : sampled 3 (Some [0%nat; 2%nat]) [[0; 0; 0]; [1; 0; 1]] [5; 7] [[1; 0; 0]; [0; 0; 1]] /\ keeps_bounds (fun th _ => (th, 0)).
Proof.
  split; [|intros th b H; exact H]. constructor; try reflexivity; try discriminate; repeat constructor; cbn; intuition discriminate.
Qed.
Example two_structures_trained : exists g m energy slope,
  path_surrogate ref_inv ref_cho (fun _ v => v) (fun th _ => (th, 0)) [[0; 0; 0]; [1; 0; 1]] [5; 7] [[1; 0; 0]; [0; 0; 1]] (Some [0%nat; 2%nat]) 2 = Ok (g, m) /\
  smooth_surface 3 [0%nat; 2%nat] (calculator g [0%nat; 2%nat] m) energy slope.
Proof.
  destruct two_structures as [H1 H2]. destruct oracles_exist as [O1 O2].
  destruct (path_surface ref_inv ref_cho (fun _ v => v) _ _ _ _ _ _ 2 O1 O2 H2 H1 ltac:(lra)) as (g & m & energy & slope & A & B & _).
  exists g, m, energy, slope. split; [exact A|exact B].
Qed.
(** The six structures of MinSurrProperties, all at least r = 1 away in the free coordinate. *)
Example six_far : forall y, In y (d_train six) -> exists q, In q [1%nat] /\ 1 <= Rabs (nth q [0; 9] 0 - nth q y 0).
Proof. intros y Hy. exists 1%nat. split; [left; auto|]. cbn in Hy. repeat destruct Hy as [<-|Hy]; [| | | | | |destruct Hy]; cbn; rewrite Rabs_pos_eq; lra. Qed.

Print Assumptions path_surrogate_trained.
Print Assumptions coincident_path_stops.
Print Assumptions path_shift_invariant.
Print Assumptions path_surface.
Print Assumptions minimum_surface.
