(** Properties of the general Gaussian process (estimator/general_gp.py). *)
From Coq Require Import Reals Lra Lia List Arith Bool.
From Verif Require Import Base BaseFacts RBase LinAlg LogDet PrepModel PrepProofs.
From Verif Require Import KernModel KernProofs KernSetupProofs KernDefProofs KernEntryProofs KernProperties GPModel GPProofs GPMoreProofs
  GPProperties GPUpdateProofs GPUpdateProperties GPOptProperties KernScaleProofs GradKernProofs SensModel SensProperties.
Import ListNotations.
Open Scope R_scope.
Local Open Scope nat_scope.

(** ** The shape of processed data *)

(** Column [c] of the training data decides how a value of that column is scaled. *)
Definition unit_std (s : fl) : fl := match s with Fin r => if Reqb r 0 then Fin 1 else s | _ => s end.
Definition norm (c : list fl) (x : fl) : fl := fl_scale x (lift_stat mean c) (unit_std (lift_stat std c)).
Definition kept (index : list bool) : list nat := filter (fun j => nth j index false) (seq 0 (length index)).

Lemma index_map (index : list bool) : map (fun j => nth j index false) (seq 0 (length index)) = index.
Proof.
  apply nth_ext with false false; [rewrite map_length, seq_length; auto|]. intros n Hn. rewrite map_length, seq_length in Hn.
  rewrite (nth_map_lt _ _ _ 0) by (rewrite seq_length; auto). rewrite seq_nth by auto. reflexivity.
Qed.

Lemma select_cols_kept {A} (d : A) index m : rect (length index) m ->
  select_cols index m = Ok (map (fun r => map (fun j => nth j r d) (kept index)) m).
Proof. intros H. rewrite <- (index_map index) at 1. rewrite (select_cols_ok _ _ _ d) by auto. reflexivity. Qed.

Lemma select_cols_rect {A} index (m : list (list A)) y : select_cols index m = Ok y -> rect (length index) m.
Proof.
  unfold select_cols. destruct (forallb _ m) eqn:E; [|discriminate]. intros _. rewrite forallb_forall in E.
  apply Forall_forall. intros r Hr. apply Nat.eqb_eq. apply E. auto.
Qed.

Lemma map3 {A B C D} (f : A -> B -> C -> D) (g1 : nat -> A) (g2 : nat -> B) (g3 : nat -> C) l :
  map (fun p => f (fst p) (fst (snd p)) (snd (snd p))) (combine (map g1 l) (combine (map g2 l) (map g3 l))) =
  map (fun i => f (g1 i) (g2 i) (g3 i)) l.
Proof. induction l as [|x l IH]; [reflexivity|]. cbn. rewrite IH. reflexivity. Qed.

Lemma process_explicit train targets p tr tg te : process train targets None = Ok (p, (tr, tg, te)) ->
  tg = targets /\ te = None /\ train <> [] /\ rect (length (p_index p)) train /\
  clean_index train targets None = Ok (p_index p) /\
  tr = map (fun r => map (fun j => norm (col NaN j train) (nth j r NaN)) (kept (p_index p))) train /\
  forall X, transform (Some p) X =
    if forallb (fun r => length r =? length (p_index p)) X
    then Ok (map (fun r => map (fun j => norm (col NaN j train) (nth j r NaN)) (kept (p_index p))) X) else Err IndexError.
Proof.
  unfold process. destruct (clean_index train targets None) as [index|] eqn:EC; [|discriminate]. cbn [bind opt_result].
  destruct (select_cols index train) as [t0|] eqn:ES; [|discriminate]. cbn [bind].
  pose proof (select_cols_rect _ _ _ ES) as HR. rewrite (select_cols_kept NaN index train HR) in ES. injection ES as <-.
  rewrite map_length. destruct (length train =? 0) eqn:EN; [discriminate|]. apply Nat.eqb_neq in EN.
  assert (NE : train <> []) by (intros ->; apply EN; reflexivity).
  set (G := fun r : list fl => map (fun j => nth j r NaN) (kept index)).
  intros [= <- <- <- <-]. cbn [p_index].
  assert (W : width (map G train) = length (kept index)).
  { destruct train; [congruence|]. cbn. unfold G. apply map_length. }
  assert (AX : forall f : list fl -> fl, axis0 NaN f (map G train) = map (fun j => f (col NaN j train)) (kept index)).
  { intros f. unfold axis0. rewrite W. apply nth_ext with NaN NaN; [rewrite !map_length, seq_length; auto|].
    intros n Hn. rewrite map_length, seq_length in Hn. rewrite (nth_map_lt _ _ _ 0) by (rewrite seq_length; auto).
    rewrite (nth_map_lt _ _ _ 0) by auto. rewrite seq_nth by auto. cbn [plus]. f_equal. unfold col. rewrite map_map.
    apply map_ext. intros r. unfold G. rewrite (nth_map_lt _ _ _ 0) by auto. reflexivity. }
  assert (RW : forall r, fl_scale_row (axis0 NaN (lift_stat mean) (map G train))
      (map (fun s => match s with Fin r => if Reqb r 0 then Fin 1 else s | _ => s end) (axis0 NaN (lift_stat std) (map G train))) (G r) =
      map (fun j => norm (col NaN j train) (nth j r NaN)) (kept index)).
  { intros r. unfold fl_scale_row. rewrite !AX, map_map. unfold G.
    rewrite (map3 fl_scale (fun j => nth j r NaN) (fun j => lift_stat mean (col NaN j train))
      (fun j => unit_std (lift_stat std (col NaN j train)))). reflexivity. }
  split; [auto|]. split; [auto|]. split; [auto|]. split; [auto|]. split; [auto|]. split.
  - rewrite map_map. apply map_ext. intros r. apply RW.
  - intros X. cbn [transform p_index p_mean p_std]. unfold select_cols. destruct (forallb _ X) eqn:EX; [|reflexivity]. cbn [bind].
    f_equal. rewrite map_map. apply map_ext_in. intros r Hr. rewrite forallb_forall in EX. specialize (EX r Hr). apply Nat.eqb_eq in EX.
    rewrite <- (index_map index) at 1. rewrite (mask_select_gather _ _ _ NaN) by auto. apply RW.
Qed.

(** The columns kept are not constant. *)
Lemma kept_varies train targets index j : clean_index train targets None = Ok index -> In j (kept index) ->
  isclose0 (nanstd (col NaN j train)) = false.
Proof.
  unfold clean_index. destruct (clean_infinite _ _ _ _ _) as [f|]; [|discriminate]. cbn [bind]. unfold clean_variance, clean_by.
  set (idx := map _ (axis0 NaN nanstd train)).
  destruct (select_cols idx train); [|discriminate]. cbn [bind opt_result c_index]. intros [= <-] H.
  unfold kept in H. apply filter_In in H. destruct H as [H1 H2]. apply in_seq in H1. destruct H1 as [_ H1]. cbn [plus] in H1.
  rewrite map_length, combine_length in H1.
  rewrite (nth_map_lt _ _ _ (false, false)) in H2 by (rewrite combine_length; lia).
  assert (Hj : j < length idx) by lia.
  assert (G : forall a b : list bool, fst (nth j (combine a b) (false, false)) && snd (nth j (combine a b) (false, false)) = true -> nth j b false = true).
  { clear. intros a. revert j. induction a as [|x a IH]; intros j [|y b]; destruct j; cbn; try discriminate; auto.
    intros H. apply andb_prop in H. tauto. }
  apply G in H2. unfold idx in H2, Hj. rewrite map_length in Hj. rewrite (nth_map_lt _ _ _ NaN) in H2 by auto.
  rewrite axis0_length in Hj. rewrite nth_axis0 in H2 by auto. apply negb_true_iff in H2. auto.
Qed.

(** ** Units *)

(** Feature j in other units: a j * x + b j. *)
Definition rescale_value (a b : R) (x : fl) : fl := match x with Fin r => Fin (a * r + b)%R | _ => x end.
Definition rescale_row (a b : nat -> R) (r : list fl) : list fl :=
  map (fun p => rescale_value (a (fst p)) (b (fst p)) (snd p)) (combine (seq 0 (length r)) r).

Lemma rescale_row_length a b r : length (rescale_row a b r) = length r.
Proof. unfold rescale_row. rewrite map_length, combine_length, seq_length. lia. Qed.

Lemma nth_rescale_row a b r j : nth j (rescale_row a b r) NaN = rescale_value (a j) (b j) (nth j r NaN).
Proof.
  destruct (lt_dec j (length r)) as [H|H].
  - unfold rescale_row. rewrite (nth_map_lt _ _ _ (0, NaN)) by (rewrite combine_length, seq_length; lia).
    rewrite combine_nth by apply seq_length. rewrite seq_nth by auto. reflexivity.
  - rewrite !nth_overflow; [reflexivity|lia|rewrite rescale_row_length; lia].
Qed.

Lemma all_finite_rescale a b c : all_finite (map (rescale_value a b) c) = all_finite c.
Proof. unfold all_finite. induction c as [|y c IH]; [reflexivity|]. cbn. rewrite IH. destruct y; reflexivity. Qed.

Lemma fin_rescale a b c : all_finite c = true ->
  map fin_value (map (rescale_value a b) c) = map (fun y => (a * y + b)%R) (map fin_value c).
Proof.
  unfold all_finite. induction c as [|y c IH]; [reflexivity|]. cbn. intros H. apply andb_prop in H. destruct H as [H1 H2].
  rewrite IH by auto. destruct y; try discriminate. reflexivity.
Qed.

Lemma nanstd_finite c : c <> [] -> all_finite c = true -> nanstd c = Fin (std (map fin_value c)).
Proof.
  intros HN H. unfold nanstd.
  assert (E : filter (fun x => negb (isnan x)) c = c).
  { clear HN. unfold all_finite in H. induction c as [|y c IH]; [reflexivity|]. cbn in *. apply andb_prop in H. destruct H as [H1 H2].
    destruct y; try discriminate. cbn. rewrite IH by auto. reflexivity. }
  rewrite E. unfold all_finite in H. rewrite H. destruct c; [congruence|]. reflexivity.
Qed.

Lemma norm_units a b c x : (0 < a)%R -> c <> [] -> isclose0 (nanstd c) = false ->
  norm (map (rescale_value a b) c) (rescale_value a b x) = norm c x.
Proof.
  intros Ha HN HC. unfold norm, lift_stat. rewrite all_finite_rescale. destruct (all_finite c) eqn:E.
  2:{ destruct x; reflexivity. }
  rewrite fin_rescale by auto. rewrite nanstd_finite in HC by auto.
  assert (NE : map fin_value c <> []) by (destruct c; [congruence|discriminate]).
  rewrite mean_aff, std_aff by (auto; lra).
  assert (S0 : std (map fin_value c) <> 0%R).
  { intros Z. rewrite Z in HC. cbn in HC. apply Rleb_false in HC. rewrite Rminus_0_r, Rabs_R0, Rmult_0_r in HC. lra. }
  destruct x as [r| |]; try reflexivity. cbn [rescale_value unit_std].
  destruct (Reqb (std (map fin_value c)) 0) eqn:E1; [apply Reqb_true in E1; contradiction|].
  assert (N1 : (a * std (map fin_value c) <> 0)%R) by (apply Rmult_integral_contrapositive_currified; lra).
  destruct (Reqb (a * std (map fin_value c)) 0) eqn:E2; [apply Reqb_true in E2; contradiction|].
  cbn [fl_scale]. rewrite E1, E2. f_equal. field. split; lra.
Qed.

(** C258: the model does not depend on the units of the features as long as the
    cleaner keeps the same columns: training on rescaled features gives the same
    Gaussian process, and it predicts the same for rescaled test features. *)
Theorem general_gp_units_partial : forall inv cho cho_solve minimizer smooth dim train targets a b p g,
  (forall j, (0 < a j)%R) ->
  train_general inv cho cho_solve minimizer smooth dim train targets = Ok (p, g) ->
  clean_index (map (rescale_row a b) train) targets None = clean_index train targets None ->
  exists p', train_general inv cho cho_solve minimizer smooth dim (map (rescale_row a b) train) targets = Ok (p', g) /\
    forall test, predict_general (p', g) (map (rescale_row a b) test) = predict_general (p, g) test.
Proof.
  intros inv cho cho_solve minimizer smooth dim train targets a b p g Ha H HC. unfold train_general in H.
  destruct (process train targets None) as [[p0 [[tr tg] te]]|] eqn:EP; [|discriminate]. cbn [bind] in H.
  destruct (process_explicit _ _ _ _ _ _ EP) as (-> & -> & NE & HR & EC & Etr & ET).
  assert (CO : forall j, col NaN j (map (rescale_row a b) train) = map (rescale_value (a j) (b j)) (col NaN j train)).
  { intros j. unfold col. rewrite !map_map. apply map_ext. intros r. apply nth_rescale_row. }
  assert (P' : exists p', process (map (rescale_row a b) train) targets None = Ok (p', (tr, targets, None)) /\ p_index p' = p_index p0).
  { assert (HR' : rect (length (p_index p0)) (map (rescale_row a b) train)).
    { apply Forall_map. eapply Forall_impl; [|exact HR]. cbn. intros r Hr. rewrite rescale_row_length. auto. }
    destruct (process (map (rescale_row a b) train) targets None) as [[p1 [[tr1 tg1] te1]]|] eqn:EP1.
    - destruct (process_explicit _ _ _ _ _ _ EP1) as (-> & -> & _ & _ & EC1 & Etr1 & _).
      rewrite HC, EC in EC1. injection EC1 as EI. exists p1. split; [|auto]. f_equal. f_equal. f_equal. f_equal.
      rewrite Etr1, Etr, map_map, <- EI. apply map_ext. intros r. apply map_ext_in. intros j Hj. rewrite CO, nth_rescale_row.
      apply norm_units; auto; [apply col_nonempty; auto|]. eapply kept_varies; eauto.
    - exfalso. unfold process in EP1. rewrite HC, EC in EP1. cbn [bind opt_result] in EP1.
      rewrite (select_cols_kept NaN _ _ HR') in EP1. cbn [bind] in EP1. rewrite map_length, map_length in EP1.
      destruct train; [congruence|]. discriminate. }
  destruct P' as (p' & EP1 & EI). unfold train_general. rewrite EP1. cbn [bind].
  destruct (finite_rows tr) as [fr|]; [|discriminate]. cbn [bind] in *.
  destruct (finite_row targets) as [ft|]; [|discriminate]. cbn [bind] in *.
  destruct (if smooth then smooth_kernel fr dim else general_kernel fr dim) as [ks|]; [|discriminate]. cbn [bind] in *.
  destruct (gp_optimized _ _ _ _ _ _ _ _ _) as [g0|]; [|discriminate]. cbn [bind] in *. injection H as -> ->.
  exists p'. split; [reflexivity|]. intros test. unfold predict_general. cbn [fst snd].
  destruct (process_explicit _ _ _ _ _ _ EP1) as (_ & _ & _ & _ & _ & _ & ET1). rewrite ET, ET1, EI.
  assert (EF : forallb (fun r => length r =? length (p_index p)) (map (rescale_row a b) test) = forallb (fun r => length r =? length (p_index p)) test).
  { clear. induction test as [|r t IH]; [reflexivity|]. cbn. rewrite rescale_row_length, IH. reflexivity. }
  rewrite EF. destruct (forallb _ test); [|reflexivity]. cbn [bind]. rewrite map_map.
  replace (map (fun x => map (fun j => norm (col NaN j (map (rescale_row a b) train)) (nth j (rescale_row a b x) NaN)) (kept (p_index p))) test)
    with (map (fun r => map (fun j => norm (col NaN j train) (nth j r NaN)) (kept (p_index p))) test); [reflexivity|].
  apply map_ext. intros r. apply map_ext_in. intros j Hj. rewrite CO, nth_rescale_row. symmetry.
  apply norm_units; auto; [apply col_nonempty; auto|]. eapply kept_varies; eauto.
Qed.

(** ** Rescaling may change which columns are kept *)

(** The cleaner drops columns whose standard deviation is below 1e-8 in absolute
    terms: data in other units lose a feature. *)
Theorem units_drop_feature_refuted : exists train targets a,
  (0 < a)%R /\ clean_index train targets None = Ok [true] /\
  clean_index (map (rescale_row (fun _ => a) (fun _ => 0%R)) train) targets None = Ok [false].
Proof.
  exists [[Fin 0]; [Fin 1]], [Fin 0; Fin 0], (/ 1000000000)%R. split; [lra|].
  assert (S1 : std [0; 1]%R = (1 / 2)%R).
  { unfold std, var, mean. cbn. replace (_ / _)%R with ((1 / 2) ^ 2)%R by field. rewrite sqrt_pow2; lra. }
  assert (S2 : std [/ 1000000000 * 0 + 0; / 1000000000 * 1 + 0]%R = (1 / 2000000000)%R).
  { change [/ 1000000000 * 0 + 0; / 1000000000 * 1 + 0]%R with (map (fun y => (/ 1000000000 * y + 0)%R) [0; 1]%R).
    rewrite std_aff by (try discriminate; lra). rewrite S1. field. }
  assert (V : forall x y, isclose0 (Fin (std [x; y]%R)) = false -> clean_index [[Fin x]; [Fin y]] [Fin 0; Fin 0] None = Ok [true]).
  { intros x y H. unfold clean_index. cbn -[std isclose0]. rewrite H. reflexivity. }
  assert (W : forall x y, isclose0 (Fin (std [x; y]%R)) = true -> clean_index [[Fin x]; [Fin y]] [Fin 0; Fin 0] None = Ok [false]).
  { intros x y H. unfold clean_index. cbn -[std isclose0]. rewrite H. reflexivity. }
  split.
  - apply V. rewrite S1. unfold isclose0. apply Rleb_false. rewrite (Rabs_left (0 - 1 / 2)) by lra. rewrite Rabs_right by lra. lra.
  - cbn [map rescale_row length seq combine fst snd rescale_value]. apply W. rewrite S2. unfold isclose0. apply Rleb_true.
    rewrite (Rabs_left (0 - 1 / 2000000000)) by lra. rewrite Rabs_right by lra. lra.
Qed.

(** ** The documented arguments *)

(** The class documents dimension 'single' or 'all'; with 'all' training never succeeds. *)
Theorem dimension_all_refuted : forall inv cho cho_solve minimizer smooth train targets,
  (exists e, train_general inv cho cho_solve minimizer smooth OtherDim train targets = Err e) /\
  forall p r tr tg, process train targets None = Ok (p, r) -> r = (tr, tg, None) ->
    Forall (fun x => all_finite x = true) tr -> all_finite tg = true ->
    train_general inv cho cho_solve minimizer smooth OtherDim train targets = Err AssertionError.
Proof.
  intros inv cho cho_solve minimizer smooth train targets. unfold train_general. split.
  - destruct (process train targets None) as [[p [[tr tg] te]]|]; cbn [bind]; [|eauto].
    destruct (finite_rows tr); cbn [bind]; [|eauto]. destruct (finite_row tg); cbn [bind]; [|eauto].
    unfold smooth_kernel, general_kernel. cbn. destruct smooth; cbn; eauto.
  - intros p r tr tg -> -> HF HT. cbn [bind]. unfold finite_row. rewrite HT.
    assert (E : exists m, finite_rows tr = Ok m).
    { induction HF as [|x t Hx _ [m IH]]; [cbn; eauto|]. cbn. unfold finite_row. rewrite Hx. cbn. rewrite IH. cbn. eauto. }
    destruct E as [m ->]. cbn [bind]. unfold smooth_kernel, general_kernel. cbn. destruct smooth; reflexivity.
Qed.

Lemma finite_rows_spec m f : finite_rows m = Ok f -> f = map (map fin_value) m /\ Forall (fun r => all_finite r = true) m.
Proof.
  revert f. induction m as [|r m IH]; intros f H; cbn in H; [injection H as <-; auto|].
  unfold finite_row in H. destruct (all_finite r) eqn:E; [|discriminate]. cbn [bind] in H.
  destruct (finite_rows m) as [y|]; [|discriminate]. cbn in H. injection H as <-. destruct (IH y eq_refl) as [-> HF]. cbn. auto.
Qed.

Lemma finite_rows_ok m : Forall (fun r => all_finite r = true) m -> finite_rows m = Ok (map (map fin_value) m).
Proof. induction 1 as [|r m H _ IH]; [reflexivity|]. cbn. unfold finite_row. rewrite H. cbn. rewrite IH. reflexivity. Qed.

Lemma boxed_quadratic_fails D ks : ~ Forall not_quadratic ks -> Forall (evaluable D) ks -> ks <> [] ->
  exists e, kdicts2list (map boxed ks) D = Err e.
Proof.
  intros HQ HE HN.
  assert (G : exists e, kdicts_loop (map boxed ks) D = Err e).
  { induction ks as [|k ks IH]; [congruence|].
    cbn [map]. rewrite kdicts_loop_cons. apply Forall_cons_iff in HE. destruct HE as [HE1 HE2].
    destruct (block (boxed k) D) as [blk|e] eqn:Eb; cbn [bind]; [|eauto].
    destruct (ktype_eqb (match k_type k with Some t => t | None => KOther end) KQuadratic) eqn:Eq.
    - exfalso. destruct HE1 as [_ HE1]. destruct (k_type k) as [t|] eqn:Et; [|discriminate Eq]. destruct t; try discriminate Eq.
      cbv zeta in HE1. destruct HE1 as [Hw [Hh [l [d [Hs [Hd _]]]]]].
      unfold block, kdict2list, get_theta, boxed in Eb. rewrite Et, Hd in Eb. cbn [set_degree k_type k_scaling k_features k_width k_const k_slope k_degree k_hyper] in Eb.
      rewrite Et, Hw, Hs, Hh in Eb. cbn [bind to_list fst snd] in Eb. rewrite floats_app, floats_nums in Eb. cbn in Eb. discriminate.
    - assert (Nk : not_quadratic k) by (intros Q; rewrite Q in Eq; discriminate).
      destruct ks as [|k2 t]; [exfalso; apply HQ; auto|].
      destruct IH as [e IHe]; auto; [discriminate|]. rewrite IHe. cbn. eauto. }
  destruct G as [e G]. exists e. unfold kdicts2list. destruct ks; [congruence|]. exact G.
Qed.

(** With the default kernel='general' training never succeeds: setting up the model
    turns the degree of the quadratic kernel into an array, and the optimizer cannot
    start from it. *)
Theorem default_kernel_refuted : forall inv cho cho_solve minimizer dim train targets,
  oracles_ok inv cho -> (forall p r, process train targets None = Ok (p, r) -> In true (p_index p)) ->
  exists e, train_general inv cho cho_solve minimizer false dim train targets = Err e.
Proof.
  intros inv cho cho_solve minimizer dim train targets HO HK. unfold train_general.
  destruct (process train targets None) as [[p [[tr tg] te]]|] eqn:EP; cbn [bind]; [|eauto].
  specialize (HK _ _ eq_refl). destruct (process_explicit _ _ _ _ _ _ EP) as (-> & -> & NE & HR & _ & Etr & _).
  destruct (finite_rows tr) as [f|] eqn:EF; cbn [bind]; [|eauto]. destruct (finite_row targets) as [t|]; cbn [bind]; [|eauto].
  destruct (general_kernel f dim) as [ks|] eqn:EG; cbn [bind]; [|eauto].
  destruct (gp_optimized _ _ _ _ _ _ _ _ _) as [g|e] eqn:EO; cbn [bind]; [|eauto]. exfalso.
  apply finite_rows_spec in EF. destruct EF as [-> _].
  set (D := length (kept (p_index p))).
  assert (HD : 1 <= D).
  { unfold D. destruct (In_nth _ _ false HK) as [n [Hn En]].
    assert (I0 : In n (kept (p_index p))) by (apply filter_In; split; [apply in_seq; lia|auto]).
    destruct (kept (p_index p)); [destruct I0|cbn; lia]. }
  set (f := map (map fin_value) tr) in *.
  assert (Hf : f <> []) by (unfold f; rewrite Etr; destruct train; [congruence|discriminate]).
  assert (Rf : Forall (fun r => length r = D) f).
  { unfold f. rewrite Etr, map_map. apply Forall_map, Forall_forall. intros r _. rewrite !map_length. reflexivity. }
  unfold general_kernel in EG. destruct (default_lengthscale f dim) as [l|]; [|discriminate]. cbn [bind] in EG. injection EG as <-.
  set (ks := _ :: _) in EO.
  assert (HI : inputs_ok D f ks).
  { constructor; auto; [|discriminate]. unfold ks, plain_kernel. repeat constructor; cbn; auto; try discriminate; eauto. }
  unfold gp_optimized in EO. destruct (gp_init inv cho cho_solve f t ks None (1 / 100) None false false) as [s|] eqn:E; [|discriminate].
  cbn [bind] in EO. destruct (init_facts _ _ _ HO _ _ _ _ _ _ _ _ _ HI E) as (ks' & b & EPK & T & El & Es & Er & En & Eb & _ & ET & _).
  assert (HQ' : ~ Forall not_quadratic ks').
  { destruct HI as [_ _ _ HU _]. pose proof (prepare_types _ _ _ _ _ _ EPK HU) as Ety. intros Q.
    assert (Q2 : Forall not_quadratic ks) by (eapply not_quadratic_types; [symmetry|]; eauto).
    unfold ks in Q2. do 3 (apply Forall_cons_iff in Q2; destruct Q2 as [_ Q2]). apply Forall_cons_iff in Q2. destruct Q2 as [Q2 _]. apply Q2. reflexivity. }
  destruct (boxed_quadratic_fails D ks' HQ' (t_eval _ _ _ T) (t_ks _ _ _ T)) as [e Ef].
  unfold optimize_hyperparameters in EO. rewrite (t_kernels _ _ _ T), En, Ef in EO. discriminate.
Qed.

(** ** The smooth kernel *)

Definition fitted (dim : dimension) (s : R) (w : list R) : kdict := plain_kernel KGaussian (Some dim) (Some s) (Some (Arr w)) None None None.

Lemma fitted_value dim s w D x y : length x = D -> length y = D -> (length w = D \/ length w = 1) -> Forall (fun v => (0 < v)%R) w ->
  match get_covariance [fitted dim s w] false [x] (Some [y]) None false with Ok m => at_ m 0 0 | Err _ => 0%R end =
  (s * exp (- / 2 * Sum D (fun d => ((nth d x 0 - nth d y 0) / wnth w d) ^ 2)))%R.
Proof.
  intros Hx Hy Hl Hw.
  assert (Mi : forall a, map (logged false) a = a) by (intros a; rewrite <- (map_id a) at 2; apply map_ext; reflexivity).
  unfold get_covariance. cbn [ncols]. rewrite Hx, Hy, Nat.eqb_refl. unfold require. cbn [bind].
  cbn [cov_loop]. unfold scaled_kernel, select, fitted, plain_kernel. cbn [k_type k_features k_mult]. cbn [bind].
  unfold kdict2list, get_theta. cbn [k_type k_scaling k_width k_const k_hyper to_list bind fst snd ktype_eqb].
  unfold kernel. rewrite floats_nums. cbn [bind]. rewrite Mi. unfold gaussian_kernel.
  destruct (divide_ok [x] w D) as [t1 [Et1 Lt1]]; [repeat constructor; auto|auto|].
  destruct (divide_ok [y] w D) as [t2 [Et2 Lt2]]; [repeat constructor; auto|auto|].
  rewrite Et1. cbn [bind divide_opt]. rewrite Et2. cbn [bind negb]. unfold accumulate. cbn [nr nc at_]. rewrite !Nat.eqb_refl. cbn [andb bind at_].
  rewrite Rplus_0_l. unfold logged. f_equal.
  rewrite dist_matrix_entry by apply gaussian_self. cbn [cols_of].
  assert (N0 : forall d, (d < D)%nat -> wnth w d <> 0%R).
  { intros d Hd. assert (I0 : In (wnth w d) w).
    { unfold wnth. destruct w as [|a [|b w]]; [cbn in Hl; lia|left; reflexivity|]. apply nth_In. destruct Hl as [Hl|Hl]; [lia|cbn in Hl; lia]. }
    rewrite Forall_forall in Hw. apply Hw in I0. lra. }
  pose proof (divide_rows_nth [x] w t1 Et1 0 ltac:(cbn; lia)) as B1. pose proof (divide_rows_nth [y] w t2 Et2 0 ltac:(cbn; lia)) as B2.
  destruct (wnth_broadcast _ _ _ _ Hx Hl B1) as [L1 N1]. destruct (wnth_broadcast _ _ _ _ Hy Hl B2) as [L2 N2].
  unfold gaussian_fn. rewrite (sqeuclidean_Sum _ _ D) by auto. f_equal. f_equal. apply Sum_ext. intros d Hd.
  rewrite N1, N2 by auto. unfold Rdiv. ring.
Qed.

(** A processed column has standard deviation 1. *)
Lemma processed_std c : c <> [] -> all_finite c = true -> isclose0 (nanstd c) = false ->
  std (map (fun x => fin_value (norm c x)) c) = 1%R.
Proof.
  intros HN HF HC. rewrite nanstd_finite in HC by auto.
  assert (S0 : std (map fin_value c) <> 0%R).
  { intros Z. rewrite Z in HC. cbn in HC. apply Rleb_false in HC. rewrite Rminus_0_r, Rabs_R0, Rmult_0_r in HC. lra. }
  assert (Sp : (0 < std (map fin_value c))%R).
  { assert (0 <= std (map fin_value c))%R by (unfold std; apply sqrt_pos). lra. }
  set (s := std (map fin_value c)) in *. set (m := mean (map fin_value c)).
  replace (map (fun x => fin_value (norm c x)) c) with (map (fun y => (/ s * y + - (m / s))%R) (map fin_value c)).
  - rewrite std_aff; [fold s; field; auto|destruct c; [congruence|discriminate]|]. left. apply Rinv_0_lt_compat. auto.
  - rewrite map_map. apply map_ext_in. intros x Hx. unfold all_finite in HF. rewrite forallb_forall in HF. apply HF in Hx as Hxf.
    destruct x as [r| |]; try discriminate. unfold norm, lift_stat. rewrite (proj2 (forallb_forall isfinite c) HF : all_finite c = true).
    fold s m. cbn [unit_std]. destruct (Reqb s 0) eqn:E; [apply Reqb_true in E; contradiction|].
    cbn [fl_scale fin_value]. rewrite E. cbn [fin_value]. field. auto.
Qed.

Lemma smooth_init inv cho cho_solve minimizer f t dim D l : oracles_ok inv cho -> oracles_total inv cho -> keeps_positive minimizer ->
  1 <= D -> f <> [] -> Forall (fun r => length r = D) f -> length t = length f ->
  dim <> OtherDim ->
  (exists w, format_vec l (match dim with Single => 1 | _ => D end) = Ok w /\ Forall (fun v => (0 < v)%R) w) ->
  exists g s w reg, gp_optimized inv cho cho_solve minimizer f t [plain_kernel KGaussian (Some dim) (Some 1%R) (Some l) None None None] (1 / 100) false = Ok g /\
    g_kernels g = [fitted dim s w] /\ g_reg g = reg /\ (0 < s)%R /\ (0 < reg)%R /\ Forall (fun v => (0 < v)%R) w /\
    length w = (match dim with Single => 1 | _ => D end) /\
    exists alpha, (forall i, i < length f -> Sum (length f) (fun j => ((s * exp (- / 2 * Sum D (fun d => ((nth d (nth i f []) 0 - nth d (nth j f []) 0) / wnth w d) ^ 2)) +
        (if i =? j then reg ^ 2 else 0)) * alpha j)%R) = nth i t 0%R) /\
      forall test, test_ok D test -> exists p, predict g test = Ok p /\ length p = length test /\ forall i, i < length test ->
        nth i p 0%R = Sum (length f) (fun j => (s * exp (- / 2 * Sum D (fun d => ((nth d (nth i test []) 0 - nth d (nth j f []) 0) / wnth w d) ^ 2)) * alpha j)%R).
Proof.
  intros HO HC HM HD HN HR HL HDim (w0 & Ew & Pw). pose proof HO as [SI SC]. pose proof HC as [CI CC].
  set (c := match dim with Single => 1 | _ => D end) in *.
  assert (Lw : length w0 = c).
  { destruct l as [v|a]; cbn in Ew; [injection Ew as <-; apply repeat_length|]. destruct (length a =? c) eqn:E; [|discriminate].
    injection Ew as <-. apply Nat.eqb_eq. auto. }
  set (k0 := plain_kernel KGaussian (Some dim) (Some 1%R) (Some l) None None None) in *.
  assert (EP : exists b, prepare_kernels [k0] (init_bounds None false) false D = Ok ([fitted dim 1%R w0], b)).
  { unfold prepare_kernels, prepare_loop, prepare_kernel, k0, plain_kernel. cbn [k_type k_features k_dimension k_scaling].
    rewrite Nat.leb_refl. assert (ED : (match dim with OtherDim => false | _ => true end) = true) by (destruct dim; congruence).
    unfold scaling_setup. cbn [k_float k_scaling_bounds].
    unfold type_setup. cbn [k_width k_const k_slope k_degree k_hyper k_unknown is_some orb negb k_bounds]. unfold require. cbn [bind].
    assert (EF : forallb (fun x : R => Rltb 0 x) w0 = true).
    { apply forallb_forall. intros x Hx. rewrite Forall_forall in Pw. specialize (Pw x Hx). apply Rltb_true. auto. }
    destruct dim; try congruence; cbn [bind]; unfold c in Ew; rewrite Ew; cbn [bind]; rewrite EF; cbn; eexists; reflexivity. }
  destruct EP as [b EP].
  assert (HU : Forall (usable D) [k0]) by (unfold k0, plain_kernel; repeat constructor; cbn; auto; try discriminate).
  destruct (gp_init_ok inv cho cho_solve SI f t [k0] (1 / 100)%R None false false D [fitted dim 1%R w0] b CI CC EP HU) as [s E]; auto; try discriminate.
  { repeat constructor; cbn; auto; intros; try lra. eapply Forall_impl; [|exact Pw]. cbn. intros; lra. }
  { cbn. lra. }
  assert (HI : inputs_ok D f [k0]) by (constructor; auto; discriminate).
  destruct (init_facts _ _ _ HO _ _ _ _ _ _ _ _ _ HI E) as (ks' & b' & EP' & T & El & Es & Er & En & _ & _ & ET & _).
  rewrite EP in EP'. injection EP' as <- <-. pose proof (t_kernels _ _ _ T) as EK.
  change (map boxed [fitted dim 1%R w0]) with [fitted dim 1%R w0] in EK.
  assert (KL : kdicts2list (g_kernels s) D = Ok (1%R :: w0)).
  { rewrite EK. unfold kdicts2list, kdicts_loop, kdict2list, get_theta, fitted, plain_kernel.
    cbn [k_type k_scaling k_features k_width k_const k_hyper to_list bind fst snd ktype_eqb]. rewrite floats_nums. cbn [bind app]. rewrite app_nil_r. reflexivity. }
  assert (Px : Forall (fun v => (0 < v)%R) ((1%R :: w0) ++ [(1 / 100)%R])) by (apply Forall_app; split; repeat constructor; auto; lra).
  destruct (HM _ (g_bounds s) Px) as [M1 M2].
  destruct (minimizer ((1%R :: w0) ++ [(1 / 100)%R]) (g_bounds s)) as [x v] eqn:EM. cbn [fst] in M1, M2.
  rewrite app_length in M1. cbn [length] in M1.
  assert (Xe : x <> []) by (intros ->; cbn in M1; lia).
  pose proof (app_removelast_last 0%R Xe) as Ex.
  assert (Lx : length (removelast x) = S c) by (rewrite removelast_firstn_len, firstn_length; lia).
  destruct (removelast x) as [|s1 w1] eqn:Er1; [discriminate|]. cbn in Lx. injection Lx as Lw1.
  rewrite Ex in M2. cbn in M2. apply Forall_cons_iff in M2. destruct M2 as [P1 M2]. apply Forall_app in M2. destruct M2 as [P2 M2].
  apply Forall_cons_iff in M2. destruct M2 as [P3 _].
  assert (HE : Forall (evaluable D) [fitted dim s1 w1]).
  { repeat constructor; cbn; auto. exists w1. split; auto. unfold c in Lw1. destruct dim; auto. }
  assert (L2 : list2kdict (s1 :: w1) [fitted dim 1%R w0] = Ok [fitted dim s1 w1]).
  { unfold list2kdict, fitted, plain_kernel. cbn. unfold slice. cbn [skipn]. rewrite firstn_all2 by lia. reflexivity. }
  destruct (covariance_posdef D [fitted dim s1 w1] false f (last x 0%R)) as [C [E1 [N1 [N2 [Sy [Pd _]]]]]]; auto.
  { repeat constructor; cbn; auto; intros; try lra. eapply Forall_impl; [|exact P2]. cbn. intros; lra. }
  { discriminate. } { cbn. lra. }
  destruct (CI C) as [B EB]; [congruence|rewrite N1; auto|rewrite N1; auto|].
  cbn in ET. injection ET as Esc Ef Et.
  assert (EO : exists g, optimize_hyperparameters inv s minimizer = Ok g /\ g_kernels g = [fitted dim s1 w1] /\ g_reg g = last x 0%R).
  { unfold optimize_hyperparameters. rewrite En, KL. cbn [bind]. rewrite Er, EM, Er1, EK, L2. cbn [bind]. rewrite El, (t_grad _ _ _ T), Ef, E1.
    cbn [bind]. rewrite EB. cbn [bind]. eexists. split; [reflexivity|]. auto. }
  destruct EO as (g & EO & Eg1 & Eg2).
  exists g, s1, w1, (last x 0%R). split; [unfold gp_optimized; rewrite E; exact EO|].
  split; [auto|]. split; [auto|]. split; [auto|]. split; [auto|]. split; [auto|]. split; [auto|].
  assert (Lw' : length w1 = D \/ length w1 = 1) by (unfold c in Lw1; destruct dim; auto).
  destruct (optimized_model_consistent_plain inv cho cho_solve D f t [k0] (1 / 100)%R None false s minimizer x v HO HI) with (s' := g)
    as (_ & _ & _ & _ & alpha & HS & _ & HP); auto.
  { repeat constructor. discriminate. }
  { intros th b0 Hth ->. rewrite KL in Hth. injection Hth as <-. split; [exact EM|]. cbn in M1 |- *. lia. }
  rewrite Eg1, Eg2 in *. exists alpha. split.
  - intros i Hi. rewrite <- (HS i Hi). apply Sum_ext. intros j Hj.
    rewrite (fitted_value dim s1 w1 D) by (auto; rewrite Forall_forall in HR; apply HR, nth_In; auto). reflexivity.
  - intros test HT. destruct (HP test HT) as (p & Q1 & Q2 & Q3). exists p. split; [auto|]. split; [auto|]. intros i Hi. rewrite (Q3 i Hi).
    destruct HT as [HT1 HT2]. apply Sum_ext. intros j Hj.
    rewrite (fitted_value dim s1 w1 D); auto; [rewrite Forall_forall in HT2; apply HT2, nth_In; auto|rewrite Forall_forall in HR; apply HR, nth_In; auto].
Qed.

Lemma processed_columns train targets p tr tg te j : process train targets None = Ok (p, (tr, tg, te)) ->
  Forall (fun r => all_finite r = true) tr -> j < length (kept (p_index p)) -> std (col 0%R j (map (map fin_value) tr)) = 1%R.
Proof.
  intros EP HF Hj. destruct (process_explicit _ _ _ _ _ _ EP) as (-> & -> & NE & HR & EC & Etr & _).
  set (k := nth j (kept (p_index p)) 0). set (c := col NaN k train).
  assert (Hk : In k (kept (p_index p))) by (apply nth_In; auto).
  assert (Cn : c <> []) by (apply col_nonempty; auto).
  assert (Ec : col 0%R j (map (map fin_value) tr) = map (fun x => fin_value (norm c x)) c).
  { rewrite Etr. unfold col. rewrite !map_map. unfold c at 2, col. rewrite map_map. apply map_ext. intros r.
    rewrite (nth_map_lt _ _ _ NaN) by (rewrite map_length; auto). rewrite (nth_map_lt _ _ _ 0) by auto. reflexivity. }
  rewrite Ec. apply processed_std; auto; [|eapply kept_varies; eauto].
  destruct train as [|r train]; [congruence|]. rewrite Etr in HF. cbn [map] in HF. apply Forall_cons_iff in HF. destruct HF as [HF _].
  unfold all_finite in HF. rewrite forallb_forall in HF.
  assert (Hn : isfinite (norm c (nth k r NaN)) = true) by (apply HF; apply in_map_iff; exists k; split; auto).
  unfold norm, lift_stat in Hn. destruct (all_finite c); [reflexivity|]. destruct (nth k r NaN); discriminate.
Qed.

(** C261: with kernel='smooth' training succeeds on finite data with at least one
    varying feature, the fitted kernel, widths and noise are positive, and predictions
    are the posterior means of that kernel on the processed data.  [X] and the rows of
    [tt] are the processed training and test features. *)
Theorem smooth_general_posterior : forall inv cho cho_solve minimizer dim train targets p tr tg te,
  oracles_ok inv cho -> oracles_total inv cho -> keeps_positive minimizer -> dim <> OtherDim ->
  process train targets None = Ok (p, (tr, tg, te)) -> In true (p_index p) -> length targets = length train ->
  Forall (fun r => all_finite r = true) tr -> all_finite targets = true ->
  let X := map (map fin_value) tr in let y := map fin_value targets in let n := length train in let D := length (nth 0 X []) in
  exists g s w reg alpha, train_general inv cho cho_solve minimizer true dim train targets = Ok (p, g) /\
    (0 < s)%R /\ (0 < reg)%R /\ Forall (fun v => (0 < v)%R) w /\ length w = (match dim with Single => 1 | _ => D end) /\
    let k a b := (s * exp (- / 2 * Sum D (fun d => ((nth d a 0 - nth d b 0) / (if length w =? 1 then nth 0 w 0 else nth d w 0)) ^ 2)))%R in
    (forall i, i < n -> Sum n (fun j => ((k (nth i X []) (nth j X []) + (if i =? j then reg ^ 2 else 0)) * alpha j)%R) = nth i y 0%R) /\
    forall test tt, transform (Some p) test = Ok tt -> tt <> [] -> Forall (fun r => all_finite r = true) tt ->
      exists pr, predict_general (p, g) test = Ok pr /\ length pr = length test /\
        forall i, i < length test -> nth i pr 0%R = Sum n (fun j => (k (nth i (map (map fin_value) tt) []) (nth j X []) * alpha j)%R).
Proof.
  intros inv cho cho_solve minimizer dim train targets p tr tg te HO HC HM HDim EP HK HLen HF HT X y n D.
  pose proof EP as EP0. destruct (process_explicit _ _ _ _ _ _ EP) as (-> & -> & NE & HR & EC & Etr & EX).
  assert (ED : D = length (kept (p_index p))).
  { unfold D, X. rewrite Etr. destruct train; [congruence|]. cbn. rewrite !map_length. reflexivity. }
  assert (HD : 1 <= D).
  { rewrite ED. destruct (In_nth _ _ false HK) as [m [Hm Em]].
    assert (I0 : In m (kept (p_index p))) by (apply filter_In; split; [apply in_seq; lia|auto]).
    destruct (kept (p_index p)); [destruct I0|cbn; lia]. }
  assert (Hf : X <> []) by (unfold X; rewrite Etr; destruct train; [congruence|discriminate]).
  assert (Rf : Forall (fun r => length r = D) X).
  { rewrite ED. unfold X. rewrite Etr, map_map. apply Forall_map, Forall_forall. intros r _. rewrite !map_length. reflexivity. }
  assert (Ln : length X = n) by (unfold X; rewrite map_length, Etr, map_length; reflexivity).
  assert (WX : width X = D) by (unfold D; destruct X; [congruence|reflexivity]).
  assert (SC : forall j, j < D -> std (col 0%R j X) = 1%R).
  { intros j Hj. rewrite ED in Hj. eapply processed_columns; eauto. }
  assert (EL : exists l, default_lengthscale X dim = Ok l /\
     exists w, format_vec l (match dim with Single => 1 | _ => D end) = Ok w /\ Forall (fun v => (0 < v)%R) w).
  { destruct dim; try congruence; cbn [default_lengthscale].
    - eexists. split; [reflexivity|]. cbn. eexists. split; [reflexivity|]. repeat constructor.
      assert (P0 : (0 <= std (concat X))%R) by (unfold std; apply sqrt_pos).
      destruct (Req_dec (std (concat X)) 0) as [Z|Z]; [|lra]. exfalso.
      assert (I1 : forall r, In r X -> In (nth 0 r 0%R) (concat X)).
      { intros r Hr. apply in_concat. exists r. split; auto. apply nth_In. rewrite Forall_forall in Rf. rewrite (Rf r Hr). lia. }
      assert (NC : concat X <> []).
      { destruct X as [|r X0]; [congruence|]. intros Q. specialize (I1 r (or_introl eq_refl)). rewrite Q in I1. destruct I1. }
      apply (PrepProofs.constant_std _ NC) in Z.
      assert (Z1 : std (col 0%R 0 X) = 0%R).
      { apply PrepProofs.constant_std; [apply col_nonempty; auto|]. intros a b Ha Hb. unfold col in Ha, Hb.
        apply in_map_iff in Ha. apply in_map_iff in Hb. destruct Ha as [ra [<- Ha]], Hb as [rb [<- Hb]]. apply Z; auto. }
      rewrite SC in Z1 by lia. lra.
    - eexists. split; [reflexivity|]. cbn [format_vec]. rewrite axis0_length, WX, Nat.eqb_refl. eexists. split; [reflexivity|].
      apply Forall_forall. intros v Hv. destruct (In_nth _ _ 0%R Hv) as [j [Hj Ej]]. rewrite axis0_length, WX in Hj.
      rewrite nth_axis0 in Ej by (rewrite WX; auto). rewrite <- Ej, SC by auto. lra. }
  destruct EL as (l & EL & EW).
  assert (Ly : length y = length X) by (unfold y; rewrite map_length; lia).
  destruct (smooth_init inv cho cho_solve minimizer X y dim D l HO HC HM HD Hf Rf Ly ltac:(intros ->; discriminate EL) EW) as (g & s & w & reg & EG & _ & _ & P1 & P2 & P3 & P4 & alpha & HS & HP).
  rewrite Ln in HS, HP.
  assert (WN : forall d, d < D -> wnth w d = if length w =? 1 then nth 0 w 0%R else nth d w 0%R) by (intros d _; destruct w as [|a [|b w0]]; reflexivity).
  exists g, s, w, reg, alpha. split.
  { unfold train_general. rewrite EP0. cbn [bind]. rewrite (finite_rows_ok _ HF). cbn [bind]. unfold finite_row. rewrite HT. cbn [bind].
    unfold smooth_kernel. fold X. rewrite EL. cbn [bind]. fold y. rewrite EG. reflexivity. }
  split; [auto|]. split; [auto|]. split; [auto|]. split; [auto|]. split.
  - intros i Hi. rewrite <- (HS i Hi). apply Sum_ext. intros j Hj. do 4 f_equal. f_equal. apply Sum_ext. intros d Hd. rewrite <- WN by auto. reflexivity.
  - intros test tt ET Nt Ft. rewrite EX in ET. destruct (forallb _ test) eqn:EB; [|discriminate]. injection ET as Ett.
    assert (TT : test_ok D (map (map fin_value) tt)).
    { split; [destruct tt; [congruence|discriminate]|]. rewrite <- Ett, map_map. apply Forall_map, Forall_forall. intros r _. rewrite !map_length. auto. }
    destruct (HP _ TT) as (pr & Q1 & Q2 & Q3). exists pr. split.
    { unfold predict_general. cbn [fst snd]. rewrite EX, EB, Ett. cbn [bind]. rewrite (finite_rows_ok _ Ft). cbn [bind]. exact Q1. }
    assert (Lt : length (map (map fin_value) tt) = length test) by (rewrite map_length, <- Ett, map_length; reflexivity).
    split; [congruence|]. intros i Hi. rewrite Q3 by lia. apply Sum_ext. intros j Hj. do 4 f_equal. apply Sum_ext. intros d Hd. rewrite <- WN by auto. reflexivity.
Qed.

(** ** Default length scales *)
(** A standard deviation: not negative, and its square times the number of values is the sum of the squared
    deviations from a number whose multiple is the sum of the values. *)
Definition deviation_of (l : list R) (d : R) : Prop :=
  (0 <= d)%R /\ exists m, (m * INR (length l) = sumR l)%R /\ (d * d * INR (length l) = sumR (map (fun x => (x - m) * (x - m)) l))%R.

Lemma std_deviation l : l <> [] -> deviation_of l (std l).
Proof.
  intros H. assert (L : (0 < INR (length l))%R) by (apply lt_0_INR; destruct l; [congruence|cbn; lia]).
  assert (P : (0 <= sumR (map (fun x => (x - mean l) ^ 2) l))%R) by (unfold sumR; generalize (mean l); intros m; clear; induction l as [|x l IH]; cbn [map fold_right]; [lra|]; apply Rplus_le_le_0_compat; [apply pow2_ge_0|exact IH]).
  split; [apply sqrt_pos|]. exists (mean l). split; [unfold mean; field; lra|]. unfold std. rewrite sqrt_sqrt.
  - unfold var, mean at 1. rewrite map_length. replace (map (fun x => (x - mean l) ^ 2)%R l) with (map (fun x => (x - mean l) * (x - mean l))%R l) by (apply map_ext; intros; ring). field. lra.
  - unfold var, mean at 1. rewrite map_length. apply Rmult_le_pos; [exact P|left; apply Rinv_0_lt_compat; auto].
Qed.

(** The default length scale is the deviation of all entries, or of each column; other dimensions are refused. *)
Theorem default_lengthscales : forall (X : list (list R)) w, X <> [] -> 0 < w -> Forall (fun r => length r = w) X ->
  (exists d, default_lengthscale X Single = Ok (Num d) /\ deviation_of (concat X) d) /\
  (exists ds, default_lengthscale X Features = Ok (Arr ds) /\ length ds = w /\
     forall j, j < w -> deviation_of (map (fun r => nth j r 0%R) X) (nth j ds 0%R)) /\
  default_lengthscale X OtherDim = Err AssertionError.
Proof.
  intros X w HX Hw HR. split; [|split; [|reflexivity]].
  - eexists. split; [reflexivity|]. apply std_deviation. destruct X as [|r X]; [congruence|]. apply Forall_cons_iff in HR. destruct HR as [H0 _]. cbn. destruct r; [cbn in H0; lia|discriminate].
  - eexists. split; [reflexivity|]. destruct X as [|r X]; [congruence|]. pose proof HR as HR'. apply Forall_cons_iff in HR'. destruct HR' as [H0 _].
    unfold axis0. split.
    + rewrite map_length, seq_length. exact H0.
    + intros j Hj. assert (W : width (r :: X) = w) by exact H0. rewrite (nth_map_lt _ _ _ 0) by (rewrite seq_length, W; lia). rewrite seq_nth by (rewrite W; lia). apply std_deviation. discriminate.
Qed.

(** Two rows with one varying and one constant column meet the hypotheses: the varying
    column is kept. *)
Example smooth_example : exists p tr, process [[Fin 0; Fin 5]; [Fin 2; Fin 5]] [Fin 1; Fin 3] None = Ok (p, (tr, [Fin 1; Fin 3], None)) /\
  p_index p = [true; false] /\ Forall (fun r => all_finite r = true) tr.
Proof.
  assert (S1 : std [0; 2]%R = 1%R).
  { unfold std, var, mean. cbn. replace (_ / _)%R with 1%R by field. apply sqrt_1. }
  assert (S2 : std [5; 5]%R = 0%R).
  { unfold std, var, mean. cbn. replace (_ / _)%R with 0%R by field. apply sqrt_0. }
  assert (C1 : isclose0 (Fin 1) = false).
  { unfold isclose0. apply Rleb_false. rewrite (Rabs_left (0 - 1)) by lra. rewrite Rabs_right by lra. lra. }
  assert (C2 : isclose0 (Fin 0) = true).
  { unfold isclose0. apply Rleb_true. rewrite Rminus_0_r, Rabs_R0. lra. }
  assert (EC : clean_index [[Fin 0; Fin 5]; [Fin 2; Fin 5]] [Fin 1; Fin 3] None = Ok [true; false]).
  { unfold clean_index. cbn -[std isclose0]. rewrite S1, S2, C1, C2. reflexivity. }
  unfold process. rewrite EC. cbn -[std mean Reqb]. rewrite S1.
  replace (Reqb 1 0) with false by (symmetry; apply Reqb_false; lra).
  eexists. eexists. split; [reflexivity|]. split; [reflexivity|]. cbn -[mean Reqb].
  replace (Reqb 1 0) with false by (symmetry; apply Reqb_false; lra). repeat constructor.
Qed.

Print Assumptions general_gp_units_partial.
Print Assumptions units_drop_feature_refuted.
Print Assumptions dimension_all_refuted.
Print Assumptions default_kernel_refuted.
Print Assumptions smooth_general_posterior.
Print Assumptions default_lengthscales.
