(** The statistics of processed training data (estimator/general_preprocess.py). *)
From Coq Require Import Reals Lra Lia List Arith Bool.
From Verif Require Import Base BaseFacts RBase PrepModel PrepProofs PrepProperties GPUpdateProofs GenGPProperties.
Import ListNotations.
Open Scope R_scope.
Local Open Scope nat_scope.
Set Bullet Behavior "Strict Subproofs".

Lemma process_columns train targets test p tr tg te : process train targets test = Ok (p, (tr, tg, te)) ->
  clean_index train targets test = Ok (p_index p) /\ train <> [] /\
  tr = map (fun r => map (fun j => norm (col NaN j train) (nth j r NaN)) (kept (p_index p))) train /\
  te = option_map (map (fun r => map (fun j => norm (col NaN j train) (nth j r NaN)) (kept (p_index p)))) test.
Proof.
  unfold process. destruct (clean_index train targets test) as [index|] eqn:EC; [|discriminate]. cbn [bind].
  destruct (select_cols index train) as [t0|] eqn:ES; [|discriminate]. cbn [bind].
  destruct (opt_result (select_cols index) test) as [te0|] eqn:ET; [|discriminate]. cbn [bind].
  pose proof (select_cols_rect _ _ _ ES) as HR. rewrite (select_cols_kept NaN index train HR) in ES. injection ES as <-.
  rewrite map_length. destruct (length train =? 0) eqn:EN; [discriminate|]. apply Nat.eqb_neq in EN.
  assert (NE : train <> []) by (intros ->; apply EN; reflexivity).
  set (G := fun r : list fl => map (fun j => nth j r NaN) (kept index)) in *.
  intros [= <- <- <- <-]. cbn [p_index].
  assert (W : width (map G train) = length (kept index)).
  { destruct train; [congruence|]. cbn. unfold G. apply map_length. }
  assert (AX : forall f : list fl -> fl, axis0 NaN f (map G train) = map (fun j => f (col NaN j train)) (kept index)).
  { intros f. unfold axis0. rewrite W. apply nth_ext with NaN NaN; [rewrite !map_length, seq_length; auto|].
    intros n Hn. rewrite map_length, seq_length in Hn. rewrite (nth_map_lt _ _ _ 0) by (rewrite seq_length; auto).
    rewrite (nth_map_lt _ _ _ 0) by auto. rewrite seq_nth by auto. cbn [plus]. f_equal. unfold col. rewrite map_map.
    apply map_ext. intros r. unfold G. rewrite (nth_map_lt _ _ _ 0) by auto. reflexivity. }
  assert (RW : forall r, fl_scale_row (axis0 NaN (lift_stat mean) (map G train))
      (map (fun s => match s with Fin r => if Reqb r 0 then Fin 1 else s | _ => s end) (axis0 NaN (lift_stat std) (map G train))) (G r) =
      map (fun j => norm (col NaN j train) (nth j r NaN)) (kept index)).
  { intros r. unfold fl_scale_row. rewrite !AX, map_map. unfold G.
    rewrite (map3 fl_scale (fun j => nth j r NaN) (fun j => lift_stat mean (col NaN j train))
      (fun j => unit_std (lift_stat std (col NaN j train)))). reflexivity. }
  split; [auto|]. split; [auto|]. split.
  - rewrite map_map. apply map_ext. intros r. apply RW.
  - destruct test as [test|]; cbn [opt_result] in ET.
    + destruct (select_cols index test) as [t1|] eqn:E1; [|discriminate]. cbn [bind] in ET. injection ET as <-.
      pose proof (select_cols_rect _ _ _ E1) as HR1. rewrite (select_cols_kept NaN index test HR1) in E1. injection E1 as <-.
      cbn [option_map]. f_equal. rewrite map_map. apply map_ext. intros r. apply RW.
    + injection ET as <-. reflexivity.
Qed.

Lemma kept_spread train targets test index j : clean_index train targets test = Ok index -> In j (kept index) ->
  isclose0 (nanstd (col NaN j train)) = false.
Proof.
  unfold clean_index. destruct (clean_infinite _ _ _ _ _) as [f|]; [|discriminate]. cbn [bind]. unfold clean_variance, clean_by.
  set (idx := map _ (axis0 NaN nanstd train)).
  destruct (select_cols idx train); [|discriminate]. cbn [bind]. destruct (opt_result (select_cols idx) test); [|discriminate]. cbn [bind opt_result c_index]. intros [= <-] H.
  unfold kept in H. apply filter_In in H. destruct H as [H1 H2]. apply in_seq in H1. destruct H1 as [_ H1]. cbn [plus] in H1.
  rewrite map_length, combine_length in H1.
  rewrite (nth_map_lt _ _ _ (false, false)) in H2 by (rewrite combine_length; lia).
  assert (Hj : j < length idx) by lia.
  assert (G : forall a b : list bool, fst (nth j (combine a b) (false, false)) && snd (nth j (combine a b) (false, false)) = true -> nth j b false = true).
  { clear. intros a. revert j. induction a as [|x a IH]; intros j [|y b]; destruct j; cbn; try discriminate; auto.
    intros H. apply andb_prop in H. tauto. }
  apply G in H2. unfold idx in H2, Hj. rewrite map_length in Hj. rewrite (nth_map_lt _ _ _ NaN) in H2 by auto.
  rewrite axis0_length in Hj. rewrite nth_axis0 in H2 by auto. apply negb_true_iff in H2. auto.
Qed.

(** With finite targets every column of the processed training data comes from one column k of the data: its values less their
    mean m, divided by their standard deviation s. So its mean is 0 and its standard deviation 1. Finite test values of that
    column are shifted and divided by the same m and s. *)
Theorem processed_columns_standard : forall train targets test w p tr tg te,
  train <> [] -> rect w train -> (forall t, In t targets -> isfinite t = true) ->
  process train targets test = Ok (p, (tr, tg, te)) ->
  length tr = length train /\
  forall j, j < width tr -> exists k (x y : list R) m s, (0 < s)%R /\ m = mean x /\ s = std x /\
    map (fun r => nth k r NaN) train = map Fin x /\ map (fun r => nth j r NaN) tr = map Fin y /\
    y = map (fun a => ((a - m) / s)%R) x /\ mean y = 0%R /\ std y = 1%R /\
    forall t u i a, test = Some t -> te = Some u -> i < length t -> nth k (nth i t []) NaN = Fin a ->
      nth j (nth i u []) NaN = Fin ((a - m) / s).
Proof.
  intros train targets test w p tr tg te NE HR HT EP.
  pose proof (processed_data_finite_partial _ _ _ _ _ _ _ _ NE HR HT EP) as FIN.
  destruct (process_columns _ _ _ _ _ _ _ EP) as (EC & _ & Etr & Ete). split; [rewrite Etr; apply map_length|]. intros j Hj.
  assert (Wd : width tr = length (kept (p_index p))) by (rewrite Etr; destruct train; [congruence|]; cbn; apply map_length).
  rewrite Wd in Hj. set (k := nth j (kept (p_index p)) 0). set (c := col NaN k train).
  assert (Hk : In k (kept (p_index p))) by (apply nth_In; auto).
  assert (Cn : c <> []) by (unfold c, col; destruct train; [congruence|discriminate]).
  assert (AF : all_finite c = true).
  { destruct train as [|r train]; [congruence|].
    assert (Hn : isfinite (norm c (nth k r NaN)) = true).
    { apply (FIN (map (fun j => norm (col NaN j (r :: train)) (nth j r NaN)) (kept (p_index p)))); [rewrite Etr; left; reflexivity|].
      apply in_map_iff. exists k. split; auto. }
    unfold norm, lift_stat in Hn. destruct (all_finite c); [reflexivity|]. destruct (nth k r NaN); discriminate. }
  pose proof (kept_spread _ _ _ _ _ EC Hk) as HC. fold c in HC. rewrite nanstd_finite in HC by auto.
  set (x := map fin_value c) in *. set (m := mean x). set (s := std x) in *.
  assert (S0 : s <> 0%R).
  { intros Z. rewrite Z in HC. cbn in HC. apply Rleb_false in HC. rewrite Rminus_0_r, Rabs_R0, Rmult_0_r in HC. lra. }
  assert (Sp : (0 < s)%R) by (assert (0 <= s)%R by (unfold s, std; apply sqrt_pos); lra).
  assert (EX : c = map Fin x).
  { unfold x. rewrite map_map. rewrite <- (map_id c) at 1. apply map_ext_in. intros a Ha. unfold all_finite in AF. rewrite forallb_forall in AF.
    apply AF in Ha. destruct a; try discriminate. reflexivity. }
  assert (NV : forall a, norm c (Fin a) = Fin ((a - m) / s)).
  { intros a. unfold norm, lift_stat. rewrite AF. fold x. fold m s. cbn [unit_std]. destruct (Reqb s 0) eqn:E; [apply Reqb_true in E; contradiction|].
    cbn [fl_scale]. rewrite E. reflexivity. }
  assert (XN : x <> []) by (unfold x; destruct c; [congruence|discriminate]).
  set (y := map (fun a => ((a - m) / s)%R) x).
  assert (EY : y = map (fun a => (/ s * a + - (m / s))%R) x) by (apply map_ext; intros; field; auto).
  exists k, x, y, m, s. split; [exact Sp|]. split; [reflexivity|]. split; [reflexivity|]. split; [exact EX|]. split.
  - rewrite Etr, map_map. unfold y. rewrite map_map.
    transitivity (map (norm c) c).
    + unfold c at 2. unfold col. rewrite map_map. apply map_ext. intros r. rewrite (nth_map_lt _ _ _ 0) by auto. reflexivity.
    + rewrite EX at 2. rewrite map_map. apply map_ext. intros a. apply NV.
  - split; [reflexivity|]. split; [rewrite EY, mean_aff by auto; fold m; field; auto|]. split.
    + rewrite EY, std_aff; [fold s; field; auto|auto|left; apply Rinv_0_lt_compat; auto].
    + intros t u i a -> -> Hi Ha. cbn [option_map] in Ete. injection Ete as ->.
      rewrite (nth_map_lt _ _ _ []) by auto. rewrite (nth_map_lt _ _ _ 0) by auto. fold k. fold c. rewrite Ha. apply NV.
Qed.

Example standard_case : exists p tr tg te a b c, process [[Fin 0]; [Fin 2]] [Fin 0; Fin 1] (Some [[Fin 3]]) = Ok (p, (tr, tg, te)) /\
  tr = [[Fin a]; [Fin b]] /\ te = Some [[Fin c]] /\ a = (-1)%R /\ b = 1%R /\ c = 2%R.
Proof.
  assert (SD : std [0; 2]%R = 1%R).
  { unfold std, var, mean. cbn. match goal with |- sqrt ?e = _ => replace e with 1%R by field end. apply sqrt_1. }
  assert (E : clean_index [[Fin 0]; [Fin 2]] [Fin 0; Fin 1] (Some [[Fin 3]]) = Ok [true]).
  { unfold clean_index, clean_infinite, clean_variance. cbn. unfold clean_by, axis0, nanstd, isclose0. cbn.
    rewrite SD. rewrite (proj2 (Rleb_false _ _)); [reflexivity|].
    replace (0 - 1)%R with (- (1))%R by ring. rewrite Rabs_Ropp, Rabs_R1. lra. }
  unfold process. rewrite E. cbn. unfold lift_stat. cbn. rewrite SD. rewrite (proj2 (Reqb_false 1 0)) by lra. cbn.
  rewrite (proj2 (Reqb_false 1 0)) by lra. do 7 eexists. split; [reflexivity|]. split; [reflexivity|]. split; [reflexivity|].
  unfold mean. cbn. repeat split; field.
Qed.

Print Assumptions processed_columns_standard.
