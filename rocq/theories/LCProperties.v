(** Properties of learning curves. *)
From Coq Require Import ZArith Reals Lra Lia List Arith Bool Permutation Sorting.Sorted.
From Verif Require Import Base BaseFacts RBase CVModel PrepModel PrepProofs LCModel.
Import ListNotations.

(** ** LearningCurve.run *)
(** The rows a run with number x trains on: all of them for x = 0, otherwise the last
    x * step. *)
Definition used {A} (step x : nat) (l : list A) : list A := if (x =? 0)%nat then l else skipn (length l - x * step) l.

Lemma slice_used {A} step x (l : list A) : slice_from (- (Z.of_nat x * Z.of_nat step)) l = if (step =? 0)%nat then l else used step x l.
Proof.
  unfold slice_from, used. destruct (Nat.eqb_spec step 0) as [->|Hs].
  - replace (- (Z.of_nat x * Z.of_nat 0))%Z with 0%Z by lia. reflexivity.
  - destruct (Nat.eqb_spec x 0) as [->|Hx].
    + reflexivity.
    + replace (- (Z.of_nat x * Z.of_nat step))%Z with (- Z.of_nat (x * step))%Z by lia.
      assert (0 < x * step)%nat by (apply Nat.mul_pos_pos; lia).
      destruct (Z.ltb_spec (- Z.of_nat (x * step)) 0); [|lia].
      rewrite Z.opp_involutive, Nat2Z.id. reflexivity.
Qed.

(** A serial run calls the model (n - min_data) / step times, in order, with rows and
    targets cut in the same way. *)
Theorem learning_curve_runs_partial {X Y T O} (model : list X -> list Y -> T -> O) step min_data train target test :
  (0 < step)%nat -> (min_data <= length train)%nat ->
  lc_run model (Z.of_nat step) (Z.of_nat min_data) train target test =
    Ok (map (fun x => model (used step x train) (used step x target) test) (seq 0 ((length train - min_data) / step))).
Proof.
  intros Hs Hm. unfold lc_run, tasks. destruct (Z.eqb_spec (Z.of_nat step) 0); [lia|]. cbn [bind].
  replace ((Z.of_nat (length train) - Z.of_nat min_data) / Z.of_nat step)%Z with (Z.of_nat ((length train - min_data) / step)) by (rewrite Nat2Z.inj_div, Nat2Z.inj_sub; auto).
  rewrite Nat2Z.id. f_equal. apply map_ext. intros x. unfold single_test. cbv zeta. rewrite !slice_used.
  destruct (Nat.eqb_spec step 0); [lia|]. reflexivity.
Qed.

Lemma skipn_twice {A} a : forall b (l : list A), skipn a (skipn b l) = skipn (b + a) l.
Proof. induction b as [|b IH]; intros [|x l]; cbn; auto. apply skipn_nil. Qed.

(** But for the first they are nested and increase by step. *)
Theorem learning_curve_nested_partial {A} step min_data x y (l : list A) :
  (0 < step)%nat -> (min_data <= length l)%nat -> (0 < x <= y)%nat -> (y < (length l - min_data) / step)%nat ->
  length (used step x l) = (x * step)%nat /\ (exists pre, used step y l = pre ++ used step x l) /\ exists pre, l = pre ++ used step y l.
Proof.
  intros Hs Hm Hxy Hy. unfold used. destruct (Nat.eqb_spec x 0); [lia|]. destruct (Nat.eqb_spec y 0); [lia|].
  assert (Hlt : (y * step <= length l)%nat).
  { assert (y * step <= (length l - min_data) / step * step)%nat by (apply Nat.mul_le_mono_r; lia).
    pose proof (Nat.mul_div_le (length l - min_data) step ltac:(lia)). lia. }
  assert (x * step <= y * step)%nat by (apply Nat.mul_le_mono_r; lia).
  split; [rewrite skipn_length; lia|]. split.
  - exists (firstn (y * step - x * step) (skipn (length l - y * step) l)).
    replace (skipn (length l - x * step) l) with (skipn (y * step - x * step) (skipn (length l - y * step) l)); [symmetry; apply firstn_skipn|].
    rewrite skipn_twice. f_equal. lia.
  - exists (firstn (length l - y * step) l). symmetry. apply firstn_skipn.
Qed.

(** The sizes do not start at min_data: the first run uses all rows, the second one only
    step rows, whatever min_data is. *)
Theorem learning_curve_sizes_refuted {X Y T} step min_data (train : list X) (target : list Y) (test : T) :
  (0 < step)%nat -> (min_data + 2 * step <= length train)%nat ->
  exists rest, lc_run (fun tr _ _ => length tr) (Z.of_nat step) (Z.of_nat min_data) train target test = Ok (length train :: step :: rest).
Proof.
  intros Hs Hm. rewrite (learning_curve_runs_partial _ step min_data) by lia.
  assert (HD : (2 <= (length train - min_data) / step)%nat) by (apply Nat.div_le_lower_bound; lia).
  destruct ((length train - min_data) / step)%nat as [|[|k]]; try lia.
  cbn [seq map]. eexists. f_equal. f_equal. f_equal. unfold used. cbn. rewrite skipn_length. lia.
Qed.

(** In parallel the same results come back, but in the order the tasks finish, and nothing
    tells which result belongs to which size. *)
Theorem learning_curve_parallel_partial {X Y T O} (model : list X -> list Y -> T -> O) finished step min_data train target test out :
  (forall l, Permutation (finished l) l) ->
  lc_run_parallel model finished step min_data train target test = Ok out ->
  exists out', lc_run model step min_data train target test = Ok out' /\ Permutation out out'.
Proof.
  intros HF E. unfold lc_run_parallel in E. unfold lc_run. destruct (tasks _ _ _) as [l|]; [|discriminate]. cbn [bind] in *. injection E as <-.
  eexists. split; [reflexivity|]. apply Permutation_map. auto.
Qed.

Theorem learning_curve_parallel_order_refuted {X Y T} step (train : list X) (target : list Y) (test : T) :
  (0 < step)%nat -> (3 * step <= length train)%nat ->
  exists finished, (forall l, Permutation (finished l) l) /\
    lc_run_parallel (fun tr _ _ => length tr) finished (Z.of_nat step) (Z.of_nat 0) train target test <>
    lc_run (fun tr _ _ => length tr) (Z.of_nat step) (Z.of_nat 0) train target test.
Proof.
  intros Hs Hn. exists (@rev nat). split; [intros; apply Permutation_sym, Permutation_rev|].
  unfold lc_run_parallel, lc_run. unfold tasks. destruct (Z.eqb_spec (Z.of_nat step) 0) as [?|Hz]; [lia|]. cbn [bind].
  replace ((Z.of_nat (length train) - Z.of_nat 0) / Z.of_nat step)%Z with (Z.of_nat (length train / step)) by (rewrite Nat2Z.inj_div; f_equal; lia).
  rewrite Nat2Z.id. assert (HD : (3 <= length train / step)%nat) by (apply Nat.div_le_lower_bound; lia).
  pose proof (Nat.mul_div_le (length train) step ltac:(lia)) as HM.
  set (n := (length train / step)%nat) in *. clearbody n. intros E. injection E as E.
  rewrite map_rev in E. apply (f_equal (@rev nat)) in E. rewrite rev_involutive in E. rewrite <- map_rev in E.
  destruct n as [|[|[|n]]]; try lia. rewrite seq_S in E at 2. rewrite rev_app_distr in E. cbn [rev app map seq] in E. injection E as E _.
  unfold single_test in E. rewrite !slice_used in E. destruct (Nat.eqb_spec step 0); [lia|]. unfold used in E.
  change (0 =? 0)%nat with true in E. change (S (S n) =? 0)%nat with false in E. cbv beta iota in E. rewrite skipn_length in E.
  assert (S (S n) * step + step <= length train)%nat by (cbn in HM |- *; lia). lia.
Qed.

(** A step of zero is refused before anything is fitted. *)
Theorem learning_curve_zero_step {X Y T O : Type} (model : list X -> list Y -> T -> O) finished min_data train target test :
  lc_run model 0 min_data train target test = Err ZeroDivisionError /\
  lc_run_parallel model finished 0 min_data train target test = Err ZeroDivisionError.
Proof. split; reflexivity. Qed.
Example learning_curve_case : lc_run (fun tr ta (_ : unit) => (tr, ta)) 2 1 [1;2;3;4;5;6;7]%nat [10;20;30;40;50;60;70]%nat tt =
  Ok [([1;2;3;4;5;6;7], [10;20;30;40;50;60;70]); ([6;7], [60;70]); ([4;5;6;7], [40;50;60;70])]%nat.
Proof. reflexivity. Qed.

(** ** hierarchy *)
Section Hier.
Context {D C : Type}.
Variable fit : D -> C.
Variable err : C -> D -> D -> R.
Variable size : D -> nat.

(** The subsets a subset is tested on: the others of its level. *)
Definition others (k : key) : list nat := filter (fun s => negb (s =? snd k)%nat) (seq 1 (2 ^ fst k)).

Lemma others_nonempty k : (1 <= fst k)%nat -> others k <> [].
Proof.
  intros Hk EO. unfold others in EO.
  assert (HI : In (if (snd k =? 1)%nat then 2 else 1)%nat (filter (fun s => negb (s =? snd k)%nat) (seq 1 (2 ^ fst k)))).
  { apply filter_In. assert (2 <= 2 ^ fst k)%nat by (change 2%nat with (2 ^ 1)%nat at 1; apply Nat.pow_le_mono_r; lia).
    split; [apply in_seq; destruct (snd k =? 1)%nat; lia|]. destruct (Nat.eqb_spec (snd k) 1) as [->|H1]; [reflexivity|].
    apply negb_true_iff, Nat.eqb_neq. lia. }
  rewrite EO in HI. destruct HI.
Qed.

(** A row is the size of the test subset and the error, on it, of coefficients [c] with
    the scaling of the training subset. *)
Definition row_of (d : odict D) (k : key) (train : D) (c : C) (s : nat) (o : outcome) : Prop :=
  exists test, dget d (fst k, s) = Some test /\ o = Outcome (size test) (err c train test) c.

Lemma splits_false d k train : forall splits res out r0, splits_loop fit err size d k train splits false res = Ok out -> hd_error res = Some r0 ->
  exists rows, out = res ++ rows /\ Forall2 (row_of d k train (o_coef r0)) (filter (fun s => negb (s =? snd k)%nat) splits) rows.
Proof.
  induction splits as [|s splits IH]; intros res out r0 E H0; cbn [splits_loop filter] in *.
  - injection E as <-. exists []. rewrite app_nil_r. auto.
  - destruct (s =? snd k)%nat; cbn [negb]; [eauto|].
    destruct (dget d (fst k, s)) as [test|] eqn:ET; [|discriminate]. destruct res as [|r res]; [discriminate|]. injection H0 as ->.
    cbn [reg_data_var bind] in E. destruct (IH _ _ r0 E eq_refl) as (rows & -> & HF).
    eexists. rewrite <- app_assoc. split; [reflexivity|]. cbn [app]. constructor; [|exact HF]. exists test. auto.
Qed.

Lemma splits_true d k train : forall splits res out, splits_loop fit err size d k train splits true res = Ok out ->
  match filter (fun s => negb (s =? snd k)%nat) splits with
  | [] => out = res
  | s :: t => exists r rows, out = res ++ r :: rows /\ row_of d k train (fit train) s r /\
      Forall2 (row_of d k train (match res with [] => fit train | r0 :: _ => o_coef r0 end)) t rows
  end.
Proof.
  induction splits as [|s splits IH]; intros res out E; cbn [splits_loop filter] in *.
  - injection E as <-. auto.
  - destruct (s =? snd k)%nat; cbn [negb]; [exact (IH _ _ E)|].
    destruct (dget d (fst k, s)) as [test|] eqn:ET; [|discriminate]. cbn [reg_data_var bind] in E.
    set (r := Outcome (size test) (err (fit train) train test) (fit train)) in *.
    destruct (splits_false _ _ _ _ _ _ (match res with [] => r | r0 :: _ => r0 end) E ltac:(destruct res; reflexivity)) as (rows & -> & HF).
    exists r, rows. rewrite <- app_assoc. split; [reflexivity|]. split; [exists test; auto|]. destruct res; exact HF.
Qed.

(** One block of rows per training subset, in the order of the keys [ks]; the first row of
    a block is of the model trained on the subset. *)
Definition block (d : odict D) (c0 : option C) (k : key) (rows : list outcome) : Prop :=
  exists train, dget d k = Some train /\
  match others k with
  | [] => rows = []
  | s :: t => exists r rows', rows = r :: rows' /\ row_of d k train (fit train) s r /\
      Forall2 (row_of d k train (match c0 with None => fit train | Some c => c end)) t rows'
  end.

Lemma hierarchy_loop_spec d : forall ks res out r0, hierarchy_loop fit err size d ks res = Ok out -> hd_error res = Some r0 ->
  exists blocks, out = res ++ concat blocks /\ Forall2 (block d (Some (o_coef r0))) ks blocks.
Proof.
  induction ks as [|k ks IH]; intros res out r0 E H0; cbn [hierarchy_loop] in E.
  - injection E as <-. exists []. rewrite app_nil_r. auto.
  - unfold predict_subsets in E. destruct (dget d k) as [train|] eqn:ET; [|discriminate].
    destruct (splits_loop _ _ _ _ _ _ _ _ _) as [res'|] eqn:ES; [|discriminate]. cbn [bind] in E. apply splits_true in ES.
    change (filter _ _) with (others k) in ES. destruct res as [|r res]; [discriminate|]. injection H0 as ->.
    destruct (others k) as [|s t] eqn:EO.
    + subst res'. destruct (IH _ _ r0 E eq_refl) as (blocks & -> & HF). exists ([] :: blocks). split; [reflexivity|]. constructor; [|auto].
      exists train. rewrite EO. auto.
    + destruct ES as (r & rows & -> & H1 & H2). destruct (IH _ _ r0 E eq_refl) as (blocks & -> & HF).
      exists ((r :: rows) :: blocks). split; [cbn [concat]; rewrite <- app_assoc; reflexivity|]. constructor; [|auto].
      exists train. split; [auto|]. rewrite EO. exists r, rows. auto.
Qed.

Lemma hierarchy_spec d k0 ks out : rev (map fst d) = k0 :: ks -> (1 <= fst k0)%nat -> hierarchy fit err size d = Ok out ->
  exists train0 block0 blocks, dget d k0 = Some train0 /\ out = block0 ++ concat blocks /\ block d None k0 block0 /\
    Forall2 (block d (Some (fit train0))) ks blocks.
Proof.
  intros EK Hk E. unfold hierarchy in E. rewrite EK in E. cbn [hierarchy_loop] in E. unfold predict_subsets in E.
  destruct (dget d k0) as [train|] eqn:ET; [|discriminate].
  destruct (splits_loop _ _ _ _ _ _ _ _ _) as [res'|] eqn:ES; [|discriminate]. cbn [bind] in E. apply splits_true in ES.
  change (filter _ _) with (others k0) in ES. destruct (others k0) as [|s t] eqn:EO.
  { exfalso. apply (others_nonempty k0); auto. }
  destruct ES as (r & rows & -> & H1 & H2). cbn [app] in *.
  pose proof H1 as (test & _ & Er). destruct (hierarchy_loop_spec _ _ _ _ r E eq_refl) as (blocks & -> & HF).
  exists train, (r :: rows), blocks. split; [auto|]. split; [auto|]. split.
  - exists train. split; [auto|]. rewrite EO. exists r, rows. auto.
  - rewrite Er in HF. exact HF.
Qed.

(** The rows of the first training subset (one of the smallest), and the first row of each
    other subset, are the errors of the model trained on that subset. *)
Theorem hierarchy_errors_partial d k0 ks out : rev (map fst d) = k0 :: ks -> Forall (fun k => 1 <= fst k)%nat (k0 :: ks) ->
  hierarchy fit err size d = Ok out ->
  exists block0 blocks, out = block0 ++ concat blocks /\
    (exists train, dget d k0 = Some train /\ Forall2 (row_of d k0 train (fit train)) (others k0) block0) /\
    Forall2 (fun k b => exists train s t r rows, dget d k = Some train /\ others k = s :: t /\ b = r :: rows /\ row_of d k train (fit train) s r /\
      length rows = length t) ks blocks.
Proof.
  intros EK HK E. inversion HK as [|? ? Hk0 Hks]; subst. destruct (hierarchy_spec _ _ _ _ EK Hk0 E) as (train0 & block0 & blocks & HT & HO & HB & HF).
  exists block0, blocks. split; [auto|]. split.
  - destruct HB as (train & HT' & HB). exists train. split; [auto|]. destruct (others k0) as [|s t]; [subst; constructor|].
    destruct HB as (r & rows & -> & H1 & H2). constructor; auto.
  - clear EK HK E HO. induction HF as [|k b ks bs HB' HF IH]; [constructor|]. inversion Hks as [|? ? Hk1 Hks']; subst. constructor; [|auto].
    destruct HB' as (train & HT' & HB'). destruct (others k) as [|s t] eqn:EO.
    + exfalso. apply (others_nonempty k); auto.
    + destruct HB' as (r & rows & -> & H1 & H2). exists train, s, t, r, rows. repeat split; auto. symmetry. eapply Forall2_length; eauto.
Qed.

(** All other rows are not: they are errors of the model trained on the first subset. *)
Theorem hierarchy_errors_refuted d k0 ks k out : rev (map fst d) = k0 :: ks -> Forall (fun k => 1 <= fst k)%nat (k0 :: ks) -> In k ks ->
  hierarchy fit err size d = Ok out ->
  exists train0 train pre post s t r rows, dget d k0 = Some train0 /\ dget d k = Some train /\ others k = s :: t /\
    out = pre ++ (r :: rows) ++ post /\ row_of d k train (fit train) s r /\ Forall2 (row_of d k train (fit train0)) t rows.
Proof.
  intros EK HK Hin E. inversion HK as [|? ? Hk Hks]; subst. pose proof (proj1 (Forall_forall _ _) Hks k Hin) as Hk1. destruct (hierarchy_spec _ _ _ _ EK Hk E) as (train0 & block0 & blocks & HT & HO & HB & HF).
  apply in_split in Hin as (k1 & k2 & ->). apply Forall2_app_inv_l in HF as (b1 & b2' & F1 & F2 & ->).
  inversion F2 as [|? b ? b2 HB2 F3]; subst. destruct HB2 as (train & HT2 & HB2).
  destruct (others k) as [|s t] eqn:EO.
  - exfalso. apply (others_nonempty k); auto.
  - destruct HB2 as (r & rows & -> & H1 & H2). rewrite concat_app. cbn [concat].
    exists train0, train, (block0 ++ concat b1), (concat b2), s, t, r, rows. rewrite <- !app_assoc. auto 10.
Qed.
End Hier.

(** Four subsets of two levels; the data of a subset are a number, the model is this
    number and the error the difference of the numbers of model and training subset: it is
    zero where the model of the subset itself was used. *)
Definition two_levels : odict nat := [((1,1),1); ((1,2),2); ((2,1),3); ((2,2),4); ((2,3),5); ((2,4),6)]%nat.
Example hierarchy_case : hierarchy (fun x => x) (fun c train _ => (INR c - INR train)%R) (fun x => x) two_levels =
  Ok [Outcome 3 (INR 6 - INR 6)%R 6%nat; Outcome 4 (INR 6 - INR 6)%R 6%nat; Outcome 5 (INR 6 - INR 6)%R 6%nat;
      Outcome 3 (INR 5 - INR 5)%R 5%nat; Outcome 4 (INR 6 - INR 5)%R 6%nat; Outcome 6 (INR 6 - INR 5)%R 6%nat;
      Outcome 3 (INR 4 - INR 4)%R 4%nat; Outcome 5 (INR 6 - INR 4)%R 6%nat; Outcome 6 (INR 6 - INR 4)%R 6%nat;
      Outcome 4 (INR 3 - INR 3)%R 3%nat; Outcome 5 (INR 6 - INR 3)%R 6%nat; Outcome 6 (INR 6 - INR 3)%R 6%nat;
      Outcome 1 (INR 2 - INR 2)%R 2%nat; Outcome 2 (INR 1 - INR 1)%R 1%nat].
Proof. reflexivity. Qed.

Open Scope R_scope.

(** ** prediction_error *)
(** The error is the root mean square difference of predictions, in the units of the
    targets, and targets. *)
Theorem prediction_error_is_rmse scale coef s m test targets :
  test <> [] -> length test = length targets -> (forall x, In x test -> length x = length coef) ->
  exists e norm, prediction_error scale coef s m test targets = Ok (length test, e, norm) /\ 0 <= e /\
    e ^ 2 * INR (length test) =
    sumR (map (fun i => ((if scale then rowdot coef (nth i test []) * s + m else rowdot coef (nth i test [])) - nth i targets 0) ^ 2) (seq 0 (length test))).
Proof.
  intros Hne HL HW. unfold prediction_error.
  replace (forallb _ _) with true.
  2:{ symmetry. apply forallb_forall. intros x Hx. apply in_map_iff in Hx as ([a b] & <- & Hx). apply in_combine_l in Hx. apply Nat.eqb_eq. symmetry. auto. }
  cbn [negb]. destruct (Nat.eqb_spec (length test) 0) as [H0|H0]; [destruct test; [contradiction|discriminate]|].
  assert (HP : 0 < INR (length test)) by (apply lt_0_INR; lia).
  set (S1 := sumR (map _ (combine test targets))).
  assert (HS : S1 = sumR (map (fun i => ((if scale then rowdot coef (nth i test []) * s + m else rowdot coef (nth i test [])) - nth i targets 0) ^ 2) (seq 0 (length test)))).
  { unfold S1. f_equal. apply (list_ext_nth 0); [rewrite !map_length, combine_length, seq_length; lia|]. intros i Hi. rewrite map_length, combine_length in Hi.
    rewrite (nth_map_lt _ _ _ ([], 0)) by (rewrite combine_length; lia). rewrite (nth_map_lt _ _ _ 0%nat) by (rewrite seq_length; lia).
    rewrite seq_nth by lia. rewrite combine_nth by auto. cbn [Nat.add]. destruct scale; ring. }
  eexists _, _. split; [reflexivity|]. split; [apply sqrt_pos|].
  assert (HN : 0 <= S1 / INR (length test)).
  { apply Rmult_le_pos; [|left; apply Rinv_0_lt_compat; auto]. rewrite HS. apply sumR_nonneg. intros x Hx. apply in_map_iff in Hx as (i & <- & _). apply pow2_ge_0. }
  replace (sqrt (S1 / INR (length test)) ^ 2) with (S1 / INR (length test)) by (rewrite <- (sqrt_sqrt _ HN) at 1; ring).
  rewrite HS. field. lra.
Qed.

Lemma mean_shift a b l : l <> [] -> mean (map (fun x => a * x + b) l) = a * mean l + b.
Proof.
  intros Hne. unfold mean. rewrite map_length. rewrite (sumR_map_plus (fun x => a * x) (fun _ => b)), sumR_map_scal, sumR_map_const, map_id.
  pose proof (length_pos l Hne). field. lra.
Qed.
Lemma lmax_shift a b l : l <> [] -> 0 < a -> lmax (map (fun x => a * x + b) l) = a * lmax l + b.
Proof.
  intros Hne Ha. apply lmax_unique.
  - apply in_map_iff. exists (lmax l). split; [auto|]. apply lmax_in. auto.
  - intros x Hx. apply in_map_iff in Hx as (y & <- & Hy). apply lmax_ge in Hy. nra.
Qed.
Lemma lmin_shift a b l : l <> [] -> 0 < a -> lmin (map (fun x => a * x + b) l) = a * lmin l + b.
Proof.
  intros Hne Ha. apply lmin_unique.
  - apply in_map_iff. exists (lmin l). split; [auto|]. apply lmin_in. auto.
  - intros x Hx. apply in_map_iff in Hx as (y & <- & Hy). apply lmin_le in Hy. nra.
Qed.

(** The units of the targets do not matter: with targets a * y + b the model sees the same
    scaled targets, and the prediction error is a times that for y. *)
Theorem prediction_error_units a b coef test y ytest scaled m s e norm n :
  0 < a -> y <> [] -> lmax y - lmin y <> 0 ->
  target_normalize y = (scaled, m, s) -> prediction_error true coef s m test ytest = Ok (n, e, norm) ->
  exists m' s', target_normalize (map (fun x => a * x + b) y) = (scaled, m', s') /\
    prediction_error true coef s' m' test (map (fun x => a * x + b) ytest) = Ok (n, a * e, norm).
Proof.
  intros Ha Hy Hr ET EP. unfold target_normalize in *. injection ET as <- <- <-.
  eexists _, _. split.
  - f_equal. f_equal. rewrite map_map. apply map_ext. intros x. rewrite (mean_shift a b), (lmax_shift a b), (lmin_shift a b) by auto.
    assert (HA : a * lmax y + b - (a * lmin y + b) <> 0).
    { intros H. assert (H1 : a * (lmax y - lmin y) = 0) by lra. apply Rmult_integral in H1 as [H1|H1]; [lra|auto]. }
    unfold ndiv. rewrite (proj2 (Reqb_false _ _) HA), (proj2 (Reqb_false _ _) Hr). f_equal. field. auto.
  - rewrite (mean_shift a b), (lmax_shift a b), (lmin_shift a b) by auto. unfold prediction_error in *.
    assert (HC : combine test (map (fun x => a * x + b) ytest) = map (fun q => (fst q, a * snd q + b)) (combine test ytest)).
    { clear. revert ytest. induction test as [|r test IH]; intros [|v ytest]; cbn; auto. f_equal. auto. }
    rewrite HC. rewrite map_map. rewrite (map_ext (fun x => fst (fst x, a * snd x + b)) fst) by reflexivity.
    destruct (negb _); [discriminate|]. destruct (_ =? _)%nat eqn:E0; [discriminate|]. cbv zeta in EP. injection EP as <- <- <-. f_equal. f_equal. f_equal.
    assert (HP : 0 < INR (length test)) by (apply Nat.eqb_neq in E0; apply lt_0_INR; lia).
    match goal with |- _ = a * sqrt ?x => replace (a * sqrt x) with (sqrt (Rsqr a * x)) by (rewrite sqrt_mult_alt by apply Rle_0_sqr; rewrite sqrt_Rsqr by lra; reflexivity) end. f_equal. rewrite map_map. unfold Rdiv. rewrite <- Rmult_assoc. f_equal.
    rewrite <- sumR_map_scal. apply sumR_map_ext. intros [x v] _. cbn [fst snd]. unfold Rsqr. ring.
Qed.

(** ** Scaling *)
Lemma place_one_idem l : place_one (place_one l) = place_one l.
Proof.
  unfold place_one. rewrite map_map. apply map_ext. intros x. destruct (Reqb x 0) eqn:E.
  - replace (Reqb 1 0) with false by (symmetry; apply Reqb_false; lra). auto.
  - rewrite E. auto.
Qed.

(** Tested on a second subset with the feature statistics of the first call, the scaled
    training data are the same. *)
Theorem scaling_data_reuse features normalization train targets test1 test2 st s m t tr te :
  scaling_data features true normalization train targets test1 None None None None = (st, (s, m), t, tr, te) ->
  exists te2, scaling_data features true normalization train targets test2 None None s m = (st, (s, m), t, tr, te2) /\
    te2 = scale_matrix (match m with Some m => m | None => [] end) (match s with Some s => s | None => [] end) (map (firstn features) test2).
Proof.
  unfold scaling_data. destruct normalization.
  - destruct (target_normalize targets) as [[t0 m0] s0]. intros E. injection E as <- <- <- <- <- <-.
    eexists. split; [|reflexivity]. unfold normalize at 1 2 3 4. cbn [apply_scale s_scale s_shift s_train s_test option_map]. unfold normalize. cbn [apply_scale s_scale s_shift s_train s_test option_map].
    rewrite place_one_idem. reflexivity.
  - destruct (target_standardize targets) as [[t0 m0] s0]. intros E. injection E as <- <- <- <- <- <-.
    eexists. split; [|reflexivity]. unfold standardize. cbn [apply_scale s_scale s_shift s_train s_test option_map].
    rewrite place_one_idem. reflexivity.
Qed.

(** With the statistics of a first call for the targets, they are neither changed nor
    scaled again. *)
Theorem given_target_scale_kept features normalization train targets test s m sf mf :
  exists q tr te, scaling_data features true normalization train targets test (Some s) (Some m) sf mf =
    ((Some s, Some m), q, map Some targets, tr, te).
Proof. unfold scaling_data. do 3 eexists. reflexivity. Qed.

(** Global scaling with normalization scales the largest subset with the statistics of all
    data, if no features are cut off. *)
Theorem global_scaling_partial features data train s m out :
  globalscaling features true data train = Ok (s, m, out) -> out = scale_matrix m s train.
Proof.
  unfold globalscaling. destruct (forallb _ _); [|discriminate]. intros E. injection E as <- <- <-.
  unfold normalize. cbn [apply_scale s_scale s_shift s_train]. rewrite place_one_idem. reflexivity.
Qed.

(** With standardization the subset is returned as it was; and with fewer features than
    columns normalization fails. *)
Theorem global_scaling_refuted features data train :
  (exists s m, globalscaling features false data train = Ok (s, m, train)) /\
  (data <> [] -> train <> [] -> (forall r, In r train -> (features < length r)%nat) -> (forall r, In r data -> (features <= length r)%nat) ->
   globalscaling features true data train = Err ValueError).
Proof.
  split; [unfold globalscaling; eauto|]. intros Hd Ht Hl Hw. unfold globalscaling.
  assert (HS : length (s_scale (normalize (map (firstn features) data) None None None true)) = features).
  { unfold normalize. cbn [apply_scale s_scale]. unfold place_one. rewrite map_length, axis0_length. unfold stat_data, width.
    destruct data as [|r data]; [contradiction|]. cbn. rewrite firstn_length. specialize (Hw r ltac:(cbn; auto)). lia. }
  rewrite HS. destruct train as [|r train]; [contradiction|]. cbn [forallb].
  destruct (Nat.eqb_spec (length r) features) as [E|]; [specialize (Hl r ltac:(cbn; auto)); lia|]. reflexivity.
Qed.

(** ** get_statistic *)
(** Results of one level: sizes b and b + 1. *)
Definition level (b : nat) (g : list (nat * R)) : Prop := g <> [] /\ forall q, In q g -> fst q = b \/ fst q = (b + 1)%nat.

Lemma stat_groups_same k b : forall g cur rest, (forall q, In q g -> fst q = b \/ fst q = (b + 1)%nat) -> (b <= k)%nat ->
  stat_groups k cur (g ++ rest) = stat_groups k (cur ++ g) rest.
Proof.
  induction g as [|[s e] g IH]; intros cur rest Hg Hk; cbn [app stat_groups]; [rewrite app_nil_r; auto|].
  pose proof (Hg (s, e) ltac:(cbn; auto)) as Hs. cbn in Hs. destruct (Nat.ltb_spec (k + 1) s); [lia|].
  rewrite IH; [|intros; apply Hg; cbn; auto|auto]. rewrite <- app_assoc. reflexivity.
Qed.

Lemma stat_groups_levels : forall gs bs k cur b0, Forall2 level bs gs -> StronglySorted (fun a b => a + 2 < b)%nat (b0 :: bs) -> (b0 <= k <= b0 + 1)%nat ->
  stat_groups k cur (concat gs) = cur :: gs.
Proof.
  induction gs as [|g gs IH]; intros bs k cur b0 HF HS Hk; [reflexivity|].
  inversion HF as [|b ? bs' ? [Hne HB] HF']; subst. inversion HS as [|? ? HS1 HS2]; subst. inversion HS2 as [|? ? Hb _]; subst.
  destruct g as [|[s e] g]; [contradiction|]. cbn [concat app stat_groups].
  pose proof (HB (s, e) ltac:(cbn; auto)) as Hs. cbn in Hs. destruct (Nat.ltb_spec (k + 1) s); [|lia]. f_equal.
  rewrite (stat_groups_same s b); [|intros; apply HB; cbn; auto|lia]. apply (IH bs' s _ b); auto. lia.
Qed.

(** The statistics of a list of results: mean error, mean size and the standard deviation of a sample, which needs
    two results. *)
Definition summary (g : list (nat * R)) (t : R * R * option R) : Prop :=
  let n := INR (length g) in
  n * fst (fst t) = sumR (map snd g) /\ n * snd (fst t) = sumR (map (fun q => INR (fst q)) g) /\
  match snd t with
  | None => length g = 1%nat
  | Some d => (1 < length g)%nat /\ 0 <= d /\ (n - 1) * d ^ 2 = sumR (map (fun q => (snd q - fst (fst t)) ^ 2) g)
  end.

Lemma average_summary g : g <> [] -> summary g (average_nested g).
Proof.
  intros H. assert (L : (0 < length g)%nat) by (destruct g; [congruence|simpl; lia]). pose proof (lt_0_INR _ L) as P.
  unfold summary, average_nested. cbn [fst snd]. rewrite map_length. split; [field; lra|]. split; [field; lra|].
  destruct (Nat.eqb_spec (length g) 1) as [E|E]; [auto|]. assert (L2 : (1 < length g)%nat) by lia. split; auto. split; [apply sqrt_pos|].
  apply lt_INR in L2. cbn in L2. set (m := sumR (map snd g) / INR (length g)). rewrite <- Rsqr_pow2, Rsqr_sqrt, map_map; [field; lra|].
  apply Rmult_le_pos; [|left; apply Rinv_0_lt_compat; lra]. rewrite map_map. clearbody m. clear. induction g as [|q g IH]; cbn [map sumR]; [lra|].
  pose proof (pow2_ge_0 (snd q - m)). lra.
Qed.

(** When the results come level by level, each level with two neighbouring sizes and the
    sizes of the next level larger by more than two, each level gives its mean error, mean
    size and standard deviation. *)
Theorem statistics_per_level_partial bs gs :
  Forall2 level bs gs -> StronglySorted (fun a b => a + 2 < b)%nat bs -> Forall (fun b => 2 < b)%nat bs ->
  Forall2 summary gs (get_statistic (map fst (concat gs)) (map snd (concat gs))).
Proof.
  intros HF HS HB. unfold get_statistic. rewrite combine_map_fst_snd.
  rewrite (stat_groups_levels gs bs 0 [] 0); [|auto| |lia].
  2:{ constructor; [auto|]. eapply Forall_impl; [|exact HB]. cbn. lia. }
  cbn [tl]. clear HS HB. induction HF as [|b g bs gs [H _] HF IH]; cbn [map]; constructor; auto. apply average_summary; auto.
Qed.

(** Otherwise not: smaller sizes that come later are averaged with the larger ones, and
    leading results of size one are dropped. *)
Theorem statistics_refuted e1 e2 e3 :
  get_statistic [10; 5]%nat [e1; e2] = [average_nested [(10%nat, e1); (5%nat, e2)]] /\
  get_statistic [1; 1; 3]%nat [e1; e2; e3] = [average_nested [(3%nat, e3)]].
Proof. split; reflexivity. Qed.

Example statistics_case : get_statistic [4; 5; 10]%nat [1; 3; 7] =
  [((1 + (3 + 0)) / 2, (INR 4 + (INR 5 + 0)) / 2, Some (sqrt (((1 - (1 + (3 + 0)) / 2) ^ 2 + ((3 - (1 + (3 + 0)) / 2) ^ 2 + 0)) / (2 - 1)))); ((7 + 0) / 1, (INR 10 + 0) / 1, None)].
Proof. reflexivity. Qed.

(** ** transform_output *)
Fixpoint lookup (d : list (nat * list R)) (c : nat) : list R :=
  match d with [] => [] | (c', l) :: t => if (c =? c')%nat then l else lookup t c end.

Lemma dappend_lookup d c e c' : lookup (dappend d c e) c' = if (c' =? c)%nat then lookup d c ++ [e] else lookup d c'.
Proof.
  induction d as [|[k l] d IH]; cbn.
  - destruct (Nat.eqb_spec c' c); auto.
  - destruct (Nat.eqb_spec c k) as [->|Hc]; cbn.
    + destruct (Nat.eqb_spec c' k); auto.
    + destruct (Nat.eqb_spec c' k) as [->|Hk]; [|auto]. destruct (Nat.eqb_spec k c); [congruence|auto].
Qed.
Lemma dappend_keys d c e : NoDup (map fst d) -> NoDup (map fst (dappend d c e)) /\ forall x, In x (map fst (dappend d c e)) <-> x = c \/ In x (map fst d).
Proof.
  induction d as [|[k l] d IH]; intros HN; cbn.
  - split; [repeat constructor; intros []|]. intuition.
  - inversion HN as [|? ? H1 H2]; subst. destruct (Nat.eqb_spec c k) as [->|Hc]; cbn.
    + split; [auto|]. intuition.
    + destruct (IH H2) as [I1 I2]. split; [constructor; [rewrite I2; intros [->|H]; auto|auto]|]. intros x. rewrite I2. intuition.
Qed.

Lemma lookup_in d c l : NoDup (map fst d) -> In (c, l) d -> lookup d c = l.
Proof.
  induction d as [|[k v] d IH]; intros HN HI; [destruct HI|]. cbn. inversion HN as [|? ? H1 H2]; subst. destruct HI as [E|HI].
  - injection E as -> ->. rewrite Nat.eqb_refl. auto.
  - destruct (Nat.eqb_spec c k) as [->|]; [|auto]. exfalso. apply H1. apply in_map_iff. exists (k, l). auto.
Qed.

Lemma transform_loop_spec sizes : forall js results d d', transform_loop sizes js results d = Ok d' -> NoDup (map fst d) ->
  NoDup (map fst d') /\ (forall c, In c (map fst d') <-> In c (map fst d) \/ In c (map (size_key sizes) js)) /\
  (forall c, lookup d' c = lookup d c ++ map snd (filter (fun q => size_key sizes (fst q) =? c)%nat (combine js results))) /\ (length js <= length results)%nat.
Proof.
  induction js as [|j js IH]; intros results d d' E HN; cbn [transform_loop] in E.
  - injection E as <-. split; [auto|]. split; [cbn; tauto|]. split; [intros; cbn; rewrite app_nil_r; auto|cbn; lia].
  - destruct results as [|e results]; [discriminate|]. destruct (dappend_keys d (size_key sizes j) e HN) as [K1 K2].
    destruct (IH _ _ _ E K1) as (I1 & I2 & I3 & I4). split; [auto|]. split; [|split; [|cbn; lia]].
    + intros c. rewrite I2, K2. cbn. intuition.
    + intros c. rewrite I3, dappend_lookup. cbn [combine filter fst]. rewrite (Nat.eqb_sym (size_key sizes j) c).
      destruct (Nat.eqb_spec c (size_key sizes j)) as [->|]; [|auto]. cbn. rewrite <- app_assoc. reflexivity.
Qed.

(** Every result is counted once, under its own size or under the size larger by one if
    that is a size too; the error of a group is the mean of its results. *)
Theorem transform_output_means results sizes ss es : transform_output results sizes = Ok (ss, es) ->
  NoDup ss /\ length es = length ss /\ (length sizes <= length results)%nat /\
  (forall j, In j sizes -> In (if existsb (Nat.eqb (j + 1)) sizes then j + 1 else j)%nat ss) /\
  forall i, (i < length ss)%nat ->
    let group := filter (fun q => Nat.eqb (if existsb (Nat.eqb (fst q + 1)) sizes then fst q + 1 else fst q) (nth i ss 0))%nat (combine sizes results) in
    group <> [] /\ nth i es 0 = sumR (map snd group) / INR (length group).
Proof.
  unfold transform_output. destruct (transform_loop _ _ _ _) as [d|] eqn:E; [|discriminate]. cbn [bind]. intros E2. injection E2 as <- <-.
  destruct (transform_loop_spec _ _ _ _ _ E ltac:(constructor)) as (I1 & I2 & I3 & I4).
  split; [auto|]. split; [rewrite !map_length; auto|]. split; [auto|]. split.
  - intros j Hj. apply I2. right. apply in_map_iff. exists j. auto.
  - intros i Hi. rewrite map_length in Hi. cbv zeta. rewrite (nth_map_lt fst _ _ (0%nat, [])) by auto.
    rewrite (nth_map_lt (fun q => mean (snd q)) _ _ (0%nat, [])) by auto.
    set (q := nth i d (0%nat, [])). assert (Hq : In q d) by (apply nth_In; auto).
    assert (HL : lookup d (fst q) = snd q) by (apply lookup_in; [auto|destruct q; auto]).
    specialize (I3 (fst q)). rewrite HL in I3. cbn [lookup app] in I3. unfold size_key in I3.
    split.
    + assert (HK : In (fst q) (map fst d)) by (apply in_map; auto). apply I2 in HK as [[]|HK]. apply in_map_iff in HK as (j & EJ & HJ).
      rewrite <- (map_combine_fst sizes results I4) in HJ. apply in_map_iff in HJ as ([j' e] & EJ2 & HX). cbn in EJ2. subst j'.
      intros EG. assert (HY : In (j, e) []); [|destruct HY]. rewrite <- EG. apply filter_In. split; [auto|]. cbn [fst]. unfold size_key in EJ. apply Nat.eqb_eq. exact EJ.
    + unfold mean. rewrite I3, map_length. reflexivity.
Qed.

Example transform_output_case : transform_output [1; 2; 6; 7] [4; 5; 5; 9]%nat = Ok ([5; 9]%nat, [(1 + (2 + (6 + 0))) / INR 3; (7 + 0) / INR 1]).
Proof. reflexivity. Qed.

(** ** feature_selection *)

(** A penalty for the wanted number of features is looked for from at most three entries
    before the first one with more features; near the start of the vector the number of
    splits is doubled, once. *)
Theorem interval_window (v : list (nat * R)) (feat splits expanded : nat) : (exists q, In q v /\ (feat < fst q)%nat) ->
  exists i, (i < length v)%nat /\ (feat < fst (nth i v (0%nat, 0%R)))%nat /\ Forall (fun q => (fst q <= feat)%nat) (firstn i v) /\
    interval_modifier v feat splits expanded =
    Ok (if (i <? 4)%nat then (skipn (i - 3) v, (2 * splits)%nat, S expanded) else (skipn (i - 3) v, splits, expanded)).
Proof.
  intros HQ. assert (A : forall (w : list (nat * R)) k, (exists q, In q w /\ (feat < fst q)%nat) -> exists i, (i < length w)%nat /\ (feat < fst (nth i w (0%nat, 0%R)))%nat /\
    Forall (fun q => (fst q <= feat)%nat) (firstn i w) /\ first_more w feat k = Ok (k + i)%nat).
  { clear. induction w as [|[ft a] w IH]; intros k (q & HI & Hq); [destruct HI|]. cbn [first_more].
    destruct (Nat.ltb_spec feat ft) as [L|L].
    - exists 0%nat. cbn. rewrite Nat.add_0_r. repeat split; auto; lia.
    - destruct HI as [<-|HI]; [cbn in Hq; lia|]. destruct (IH (S k) (ex_intro _ q (conj HI Hq))) as (i & I1 & I2 & I3 & I4).
      exists (S i). cbn [length nth firstn]. split; [lia|]. split; [auto|]. split; [constructor; auto|]. rewrite I4. f_equal. lia. }
  destruct (A v 0%nat HQ) as (i & I1 & I2 & I3 & I4). exists i. split; [auto|]. split; [auto|]. split; [auto|].
  unfold interval_modifier. rewrite I4. cbn [bind Nat.add].
  destruct (Nat.ltb_spec 2 i) as [L|L]; [reflexivity|]. replace (i - 3)%nat with 0%nat by lia. reflexivity.
Qed.
Example interval_window_case : interval_modifier [(1%nat, 3%R); (2%nat, 2%R); (4%nat, 1%R)] 3 10 0 = Ok ([(1%nat, 3%R); (2%nat, 2%R); (4%nat, 1%R)], 20%nat, 1%nat).
Proof. reflexivity. Qed.

Section LassoProps.
Variable lasso : R -> list nat.
(** The vectors of the search pair each penalty, between zero and one, with the number of features it selects. *)
Definition good_vec (v : list (nat * R)) : Prop := forall q, In q v -> fst q = length (lasso (snd q)) /\ 0 <= snd q <= 1.

Lemma grid_range upper n a : 0 <= upper -> In a (alphas upper 0 n) -> 0 <= a <= upper.
Proof.
  intros HU Ha. apply in_map_iff in Ha as (i & <- & Hi). apply in_seq in Hi.
  destruct (Nat.eq_dec n 1) as [->|N1]; [replace i with 0%nat by lia; cbn; lra|].
  assert (Q : 0 < INR (n - 1)) by (apply lt_0_INR; lia). assert (Qi : 0 <= INR i) by apply pos_INR. assert (L : INR i <= INR (n - 1)) by (apply le_INR; lia).
  replace (upper + INR i * ((0 - upper) / INR (n - 1))) with (upper * (1 - INR i / INR (n - 1))) by (field; lra).
  assert (B : 0 <= INR i / INR (n - 1) <= 1).
  { split; [apply Rmult_le_pos; [exact Qi|left; apply Rinv_0_lt_compat; exact Q]|]. apply (Rmult_le_reg_r (INR (n - 1))); [exact Q|].
    unfold Rdiv. rewrite Rmult_assoc, Rinv_l, Rmult_1_r, Rmult_1_l by lra. exact L. }
  split; [apply Rmult_le_pos; lra|]. rewrite <- (Rmult_1_r upper) at 2. apply Rmult_le_compat_l; lra.
Qed.
Lemma inspection_good upper n : 0 <= upper <= 1 -> good_vec (feature_inspection lasso upper n).
Proof. intros HU q Hq. apply in_map_iff in Hq as (a & <- & Ha). split; [reflexivity|]. cbn [snd]. apply grid_range in Ha; lra. Qed.

Lemma alpha_finder_good feat : forall v alpha, good_vec v -> alpha_finder v feat = Some alpha -> length (lasso alpha) = feat /\ 0 <= alpha <= 1.
Proof.
  induction v as [|[ft a] v IH]; intros alpha HG E; cbn in E; [discriminate|].
  destruct (Nat.eqb_spec ft feat) as [->|].
  - injection E as <-. destruct (HG (feat, a)) as [H1 H2]; [cbn; auto|]. split; [symmetry; exact H1|exact H2].
  - apply IH; auto. intros q Hq. apply HG. cbn. auto.
Qed.

Lemma find_alpha_good : forall fuel v feat splits ie f v', good_vec v -> find_alpha lasso fuel v feat splits ie = Some (Ok (f, v')) ->
  good_vec v' /\ match f with Some idx => length idx = feat /\ exists alpha, 0 <= alpha <= 1 /\ idx = lasso alpha | None => True end.
Proof.
  induction fuel as [|fuel IH]; intros v feat splits ie f v' HG E; cbn [find_alpha] in E; [discriminate|].
  destruct (alpha_finder v feat) as [alpha|] eqn:EA.
  - injection E as <- <-. split; [auto|]. destruct (alpha_finder_good _ _ _ HG EA). split; [auto|eauto].
  - destruct (ie <? 1)%nat; [|injection E as <- <-; auto].
    destruct (interval_modifier v feat splits ie) as [[[v1 sp] ie']|] eqn:EM; [|discriminate].
    destruct v1 as [|[c upper] v1]; [discriminate|]. eapply IH; [|exact E]. apply inspection_good.
    assert (I : In (c, upper) v).
    { unfold interval_modifier in EM. destruct (first_more v feat 0) as [index|]; [|discriminate]. cbn [bind] in EM.
      assert (HV : (c, upper) :: v1 = if (2 <? index)%nat then skipn (index - 3) v else v) by (destruct (index <? 4)%nat; injection EM; auto).
      destruct (2 <? index)%nat; [|rewrite <- HV; cbn; auto]. rewrite <- (firstn_skipn (index - 3) v), <- HV. apply in_or_app. right. cbn. auto. }
    apply (HG _ I).
Qed.

Lemma selection_loop_good fuel lo hi : forall n a v out, good_vec v -> selection_loop lasso fuel (seq a n) lo hi v = Some (Ok out) ->
  StronglySorted lt (map fst out) /\
  forall q, In q out -> (lo < fst q < hi)%nat /\ (a <= fst q < a + n)%nat /\ length (snd q) = fst q /\ exists alpha, 0 <= alpha <= 1 /\ snd q = lasso alpha.
Proof.
  induction n as [|n IH]; intros a v out HG E; cbn [seq selection_loop] in E.
  - injection E as <-. split; [constructor|]. intros q [].
  - destruct ((lo <? a)%nat && (a <? hi)%nat) eqn:EC.
    + apply andb_true_iff in EC as [C1 C2]. apply Nat.ltb_lt in C1, C2.
      destruct (find_alpha lasso fuel v a 10 0) as [[[f v1]|]|] eqn:EF; try discriminate.
      destruct (find_alpha_good _ _ _ _ _ _ _ HG EF) as [HG1 HF].
      destruct (selection_loop lasso fuel (seq (S a) n) lo hi v1) as [[r|]|] eqn:ES; try discriminate.
      destruct (IH _ _ _ HG1 ES) as [HS HQ]. injection E as <-. destruct f as [idx|].
      * destruct HF as [HL HA]. split.
        -- cbn [map fst]. constructor; [auto|]. apply Forall_forall. intros x Hx. apply in_map_iff in Hx as (q & <- & Hq). destruct (HQ q Hq) as (_ & H & _). lia.
        -- intros q [<-|Hq]; cbn [fst snd]; [repeat split; auto; lia|]. destruct (HQ q Hq) as (H1 & H2 & H3 & H4). repeat split; auto; lia.
      * split; [auto|]. intros q Hq. destruct (HQ q Hq) as (H1 & H2 & H3 & H4). repeat split; auto; lia.
    + destruct (IH _ _ _ HG E) as [HS HQ]. split; [auto|]. intros q Hq. destruct (HQ q Hq) as (H1 & H2 & H3 & H4). repeat split; auto; lia.
Qed.

(** When the selection ends, each set has as many features as its key says, is what the
    lasso selects for some penalty, and the keys increase strictly between the limits and
    do not exceed the number of features. *)
Theorem lasso_selection_sets fuel d lo hi out : selection lasso fuel d lo hi = Some (Ok out) ->
  StronglySorted lt (map fst out) /\
  forall k idx, In (k, idx) out -> length idx = k /\ (lo < k < hi)%nat /\ (1 <= k <= d)%nat /\ exists alpha, 0 <= alpha <= 1 /\ idx = lasso alpha.
Proof.
  intros E. assert (U : 0 <= 1 <= 1) by lra. destruct (selection_loop_good _ _ _ _ _ _ _ (inspection_good 1 100 U) E) as [HS HQ]. split; [auto|].
  intros k idx Hk. destruct (HQ _ Hk) as (H1 & H2 & H3 & H4). cbn [fst snd] in *. repeat split; auto; lia.
Qed.

(** The smallest number of features above the lower limit is found on the grid of penalties 1, 98/99, ..., 1/99, 0 if one
    of them selects so many, with the largest such penalty. *)
Lemma skip_loop fuel lo hi v : forall n a, (a <= S lo)%nat -> (S lo <= a + n)%nat ->
  selection_loop lasso fuel (seq a n) lo hi v = selection_loop lasso fuel (seq (S lo) (a + n - S lo)) lo hi v.
Proof.
  induction n as [|n IH]; intros a H1 H2.
  - replace (a + 0 - S lo)%nat with 0%nat by lia. reflexivity.
  - destruct (Nat.eq_dec a (S lo)) as [->|N]; [f_equal; f_equal; lia|].
    cbn [seq selection_loop]. destruct (Nat.ltb_spec lo a); [lia|]. cbn [andb]. rewrite IH by lia. f_equal. f_equal. lia.
Qed.
Lemma finder_first feat n f : (exists i, (i < n)%nat /\ length (lasso (f i)) = feat) -> forall a, (forall i, (i < a)%nat -> length (lasso (f i)) <> feat) ->
  (a <= n)%nat -> exists i, (i < n)%nat /\ length (lasso (f i)) = feat /\ (forall j, (j < i)%nat -> length (lasso (f j)) <> feat) /\
  alpha_finder (map (fun x => (length (lasso x), x)) (map f (seq a (n - a)))) feat = Some (f i).
Proof.
  intros [i0 [H0 HI]]. assert (G : forall m a, (n - a = m)%nat -> (forall i, (i < a)%nat -> length (lasso (f i)) <> feat) -> (a <= n)%nat ->
    exists i, (i < n)%nat /\ length (lasso (f i)) = feat /\ (forall j, (j < i)%nat -> length (lasso (f j)) <> feat) /\
    alpha_finder (map (fun x => (length (lasso x), x)) (map f (seq a (n - a)))) feat = Some (f i)).
  { induction m as [|m IH]; intros a Hm HA HN.
    - exfalso. apply (HA i0); [lia|exact HI].
    - rewrite Hm. cbn [seq map alpha_finder]. destruct (Nat.eqb_spec (length (lasso (f a))) feat) as [E|E].
      + exists a. split; [lia|]. auto.
      + destruct (IH (S a)) as (i & H1 & H2 & H3 & H4); [lia| |lia|].
        * intros j Hj. destruct (Nat.eq_dec j a) as [->|]; [exact E|apply HA; lia].
        * exists i. replace (n - S a)%nat with m in H4 by lia. auto. }
  intros a HA HN. eapply G; eauto.
Qed.
Theorem lasso_selection_first fuel d lo hi out : selection lasso fuel d lo hi = Some (Ok out) -> (S lo < hi)%nat -> (S lo <= d)%nat ->
  (exists i, (i <= 99)%nat /\ length (lasso (1 - INR i / 99)) = S lo) ->
  exists i rest, out = (S lo, lasso (1 - INR i / 99)) :: rest /\ (i <= 99)%nat /\ length (lasso (1 - INR i / 99)) = S lo /\
    forall j, (j < i)%nat -> length (lasso (1 - INR j / 99)) <> S lo.
Proof.
  intros E H1 H2 [i0 [HI0 HI]]. unfold selection in E. rewrite skip_loop in E by lia.
  replace (1 + d - S lo)%nat with (S (d - S lo)) in E by lia. cbn [seq selection_loop] in E.
  destruct (Nat.ltb_spec lo (S lo)); [|lia]. destruct (Nat.ltb_spec (S lo) hi); [|lia]. cbn [andb] in E.
  assert (G : forall i, 1 + INR i * ((0 - 1) / INR (100 - 1)) = 1 - INR i / 99).
  { intros i. replace (INR (100 - 1)) with 99 by (rewrite INR_IZR_INZ; reflexivity). field. }
  destruct (finder_first (S lo) 100 (fun i => 1 + INR i * ((0 - 1) / INR (100 - 1)))) with (a := 0%nat) as (i & A1 & A2 & A3 & A4);
    [exists i0; rewrite G; split; [lia|exact HI]|intros; lia|lia|].
  change (100 - 0)%nat with 100%nat in A4. fold (alphas 1 0 100) in A4. fold (feature_inspection lasso 1 100) in A4.
  destruct fuel as [|fuel]; [discriminate|]. cbn [find_alpha] in E. rewrite A4 in E.
  destruct (selection_loop lasso (S fuel) (seq (S (S lo)) (d - S lo)) lo hi (feature_inspection lasso 1 100)) as [[r|]|]; try discriminate. injection E as <-.
  exists i, r. rewrite G in A2. rewrite G. split; [reflexivity|]. split; [lia|]. split; [exact A2|]. intros j Hj. rewrite <- G. apply A3, Hj.
Qed.
End LassoProps.

(** A lasso that keeps one of two features for penalties of at least one, and both for
    smaller ones. *)
Example lasso_selection_case : selection (fun a => if Rle_dec 1 a then [1%nat] else [0;1]%nat) 3 2 0 2 = Some (Ok [(1%nat, [1%nat])]).
Proof.
  unfold selection. cbn [seq selection_loop]. unfold feature_inspection, alphas. cbn [seq map find_alpha alpha_finder Nat.ltb Nat.leb andb].
  destruct (Rle_dec 1 (1 + INR 0 * ((0 - 1) / INR (100 - 1)))) as [H|H]; [|exfalso; apply H; cbn [INR]; lra].
  cbn [length Nat.eqb]. destruct (Rle_dec 1 _) as [_|H2]; [reflexivity|contradiction].
Qed.

Example lasso_first_case : exists i : nat, (i <= 99)%nat /\ length ((fun a => if Rle_dec 1 a then [1%nat] else [0;1]%nat) (1 - INR i / 99)) = 1%nat.
Proof. exists 0%nat. split; [lia|]. cbn [INR]. destruct (Rle_dec 1 (1 - 0 / 99)) as [_|H]; [reflexivity|exfalso; apply H; lra]. Qed.

Print Assumptions learning_curve_runs_partial.
Print Assumptions learning_curve_nested_partial.
Print Assumptions learning_curve_sizes_refuted.
Print Assumptions learning_curve_parallel_partial.
Print Assumptions learning_curve_parallel_order_refuted.
Print Assumptions hierarchy_errors_partial.
Print Assumptions hierarchy_errors_refuted.
Print Assumptions prediction_error_is_rmse.
Print Assumptions prediction_error_units.
Print Assumptions scaling_data_reuse.
Print Assumptions global_scaling_partial.
Print Assumptions global_scaling_refuted.
Print Assumptions statistics_per_level_partial.
Print Assumptions statistics_refuted.
Print Assumptions transform_output_means.
Print Assumptions lasso_selection_sets.
Print Assumptions lasso_selection_first.
Print Assumptions given_target_scale_kept.
Print Assumptions interval_window.
Print Assumptions learning_curve_zero_step.
