(** Model of catlearn/learning_curve (learning_curve.py, data_process.py, placeholder.py,
    feature_selection.py) and of HierarchyValidation.transform_output.

    The user's model, the regression and the lasso are oracles.  Arrays are lists of rows.
    Selected features (featselect_featvar, featselect_featconst) are in LCVarModel. *)
From Coq Require Import ZArith Reals List Arith Bool.
From Verif Require Import Base RBase CVModel PrepModel.
Import ListNotations.

(** ** learning_curve.py: LearningCurve *)

(** l[z:] *)
Definition slice_from {A} (z : Z) (l : list A) : list A :=
  if (z <? 0)%Z then skipn (length l - Z.to_nat (- z)) l else skipn (Z.to_nat z) l.

Section Curve.
Context {X Y T O : Type}.
Variable model : list X -> list Y -> T -> O.

(** 242-284, without the test data the same for all *)
Definition single_test (x : nat) (step : Z) (train : list X) (target : list Y) (test : T) : O :=
  let n := (Z.of_nat x * step)%Z in
  model (slice_from (- n) train) (slice_from (- n) target) test.

(** 63-71 and 81-82: the tasks *)
Definition tasks (n : nat) (step min_data : Z) : result (list nat) :=
  if (step =? 0)%Z then Err ZeroDivisionError
  else Ok (seq 0 (Z.to_nat ((Z.of_nat n - min_data) / step))).

(** 27-89 serial *)
Definition lc_run (step min_data : Z) (train : list X) (target : list Y) (test : T) : result (list O) :=
  bind (tasks (length train) step min_data) (fun l =>
  Ok (map (fun x => single_test x step train target test) l)).

(** 68-79 parallel: results in the order [finished] in which the tasks finish *)
Definition lc_run_parallel (finished : list nat -> list nat) (step min_data : Z) (train : list X) (target : list Y) (test : T) : result (list O) :=
  bind (tasks (length train) step min_data) (fun l =>
  Ok (map (fun x => single_test x step train target test) (finished l))).
End Curve.

(** ** learning_curve.py hierarchy and placeholder.py, featselect_featvar=False *)
Section Hierarchy.
(** Subsets of the data and coefficients.  [fit] is ridge.regularization on the (scaled)
    training subset, [err coef train test] the prediction error of these coefficients for
    a test subset scaled with the statistics of the training subset, [size] the number of
    data points. *)
Context {D C : Type}.
Variable fit : D -> C.
Variable err : C -> D -> D -> R.
Variable size : D -> nat.

(** Element of the list of results: size, error, coefficients *)
Record outcome := Outcome { o_size : nat; o_error : R; o_coef : C }.

(** placeholder.py 231-272 reg_data_var: new_training and the list of results *)
Definition reg_data_var (new_training : bool) (res : list outcome) (train test : D) : result (list outcome) :=
  if new_training then Ok (res ++ [Outcome (size test) (err (fit train) train test) (fit train)])
  else match res with
       | [] => Err IndexError
       | r0 :: _ => Ok (res ++ [Outcome (size test) (err (o_coef r0) train test) (o_coef r0)])
       end.

(** 94-101 with get_subset_data (hierarchy_cv.py 126-148): the loop over the other
    subsets of the level *)
Fixpoint splits_loop (d : odict D) (k : key) (train : D) (splits : list nat) (new_training : bool) (res : list outcome) : result (list outcome) :=
  match splits with
  | [] => Ok res
  | s :: t =>
      if (s =? snd k)%nat then splits_loop d k train t new_training res
      else match dget d (fst k, s) with
           | None => Err KeyError
           | Some test => bind (reg_data_var new_training res train test) (splits_loop d k train t false)
           end
  end.

(** 76-111; each placeholder is new, so new_training is True at first *)
Definition predict_subsets (d : odict D) (k : key) (res : list outcome) : result (list outcome) :=
  match dget d k with
  | None => Err KeyError
  | Some train => splits_loop d k train (seq 1 (2 ^ fst k)) true res
  end.

(** learning_curve.py 149-173 *)
Fixpoint hierarchy_loop (d : odict D) (ks : list key) (res : list outcome) : result (list outcome) :=
  match ks with
  | [] => Ok res
  | k :: t => bind (predict_subsets d k res) (hierarchy_loop d t)
  end.
Definition hierarchy (d : odict D) : result (list outcome) := hierarchy_loop d (rev (map fst d)) [].
End Hierarchy.

Open Scope R_scope.

(** ** data_process.py *)

Definition rowdot (a b : list R) : R := sumR (map (fun q => fst q * snd q) (combine a b)).

(** 49-103 scaling_data.  [features] is the number of features kept; for the targets the
    scaled values, mean and scale; None is not a number (division by a zero scale). *)
Definition scaling_data (features : nat) (scale normalization : bool) (train : list (list R)) (targets : list R)
  (test : list (list R)) (s_tar m_tar : option R) (s_feat m_feat : option (list R)) :
  (option R * option R) * (option (list R) * option (list R)) * list (option R) * list (list R) * list (list R) :=
  let train := map (firstn features) train in
  let test := map (firstn features) test in
  if scale then
    let '(s_tar, m_tar, targets) :=
      match s_tar, m_tar with
      | Some _, Some _ => (s_tar, m_tar, map Some targets)
      | _, _ => let '(t, m, s) := (if normalization then target_normalize targets else target_standardize targets) in (Some s, Some m, t)
      end in
    let sc := if normalization then normalize train (Some test) m_feat s_feat true else standardize train (Some test) m_feat s_feat true in
    ((s_tar, m_tar), (Some (s_scale sc), Some (s_shift sc)), targets, s_train sc, match s_test sc with Some t => t | None => [] end)
  else ((s_tar, m_tar), (s_feat, m_feat), map Some targets, train, test).

(** 105-128 globalscaling: scale, mean, scaled features.  Rows of [train] longer than the
    number of features cannot be scaled with statistics for fewer. *)
Definition globalscaling (features : nat) (normalization : bool) (data train : list (list R)) : result (list R * list R * list (list R)) :=
  let g := map (firstn features) data in
  if normalization then
    let sc := normalize g None None None true in
    if forallb (fun r => (length r =? length (s_scale sc))%nat) train
    then let tr := normalize train None (Some (s_shift sc)) (Some (s_scale sc)) true in
         Ok (s_scale sc, s_shift sc, s_train tr)
    else Err ValueError
  else let sc := standardize g None None None true in Ok (s_scale sc, s_shift sc, train).

(** 130-167 prediction_error without the correlation: number of test points, error, norm
    of the coefficients *)
Definition prediction_error (scale : bool) (coef : list R) (s_tar m_tar : R) (test : list (list R)) (targets : list R) : result (nat * R * R) :=
  if negb (forallb (fun tf => (length coef =? length tf)%nat) (map fst (combine test targets))) then Err ValueError else
  if (length test =? 0)%nat then Err ZeroDivisionError else
  let sumd := sumR (map (fun q => let '(tf, tg) := q in
    if scale then (rowdot coef tf * s_tar + m_tar - tg) ^ 2 else (rowdot coef tf - tg) ^ 2) (combine test targets)) in
  Ok (length test, sqrt (sumd / INR (length test)), sqrt (rowdot coef coef)).

(** 179-192: the groups, before the first is deleted *)
Fixpoint stat_groups (k : nat) (cur : list (nat * R)) (l : list (nat * R)) : list (list (nat * R)) :=
  match l with
  | [] => [cur]
  | (size, error) :: t =>
      if (k + 1 <? size)%nat then cur :: stat_groups size [(size, error)] t
      else stat_groups k (cur ++ [(size, error)]) t
  end.

(** 198-218 average_nested for one group: mean error, mean size, corrected standard
    deviation; None is not a number (a group of one). *)
Definition average_nested (g : list (nat * R)) : R * R * option R :=
  let ys := map snd g in
  let m := sumR ys / INR (length ys) in
  (m, sumR (map (fun q => INR (fst q)) g) / INR (length g),
   if (length ys =? 1)%nat then None
   else Some (sqrt (sumR (map (fun y => (y - m) ^ 2) ys) / (INR (length ys) - 1)))).

(** 169-196 *)
Definition get_statistic (sizes : list nat) (errors : list R) : list (R * R * option R) :=
  map average_nested (tl (stat_groups 0 [] (combine sizes errors))).

(** ** hierarchy_cv.py 203-233 transform_output *)
(** A dictionary from sizes to lists of errors, in the order of insertion. *)
Fixpoint dappend (d : list (nat * list R)) (c : nat) (e : R) : list (nat * list R) :=
  match d with
  | [] => [(c, [e])]
  | (c', l) :: t => if (c =? c')%nat then (c', l ++ [e]) :: t else (c', l) :: dappend t c e
  end.

Definition size_key (sizes : list nat) (j : nat) : nat := if existsb (Nat.eqb (j + 1)) sizes then j + 1 else j.

Fixpoint transform_loop (sizes : list nat) (js : list nat) (results : list R) (d : list (nat * list R)) : result (list (nat * list R)) :=
  match js, results with
  | [], _ => Ok d
  | j :: t, e :: r => transform_loop sizes t r (dappend d (size_key sizes j) e)
  | _ :: _, [] => Err IndexError
  end.

Definition transform_output (results : list R) (sizes : list nat) : result (list nat * list R) :=
  bind (transform_loop sizes sizes results []) (fun d =>
  Ok (map fst d, map (fun q => mean (snd q)) d)).

(** ** feature_selection.py *)
Section Lasso.
(** The indices of the features with a coefficient other than zero in the lasso with
    penalty alpha. *)
Variable lasso : R -> list nat.

(** np.linspace(upper, lower, n) *)
Definition alphas (upper lower : R) (n : nat) : list R := map (fun i => upper + INR i * ((lower - upper) / INR (n - 1))) (seq 0 n).

(** 59-80: feat_vec and alpha_vec as one list *)
Definition feature_inspection (upper : R) (interval : nat) : list (nat * R) :=
  map (fun a => (length (lasso a), a)) (alphas upper 0 interval).

(** 82-101 *)
Fixpoint alpha_finder (v : list (nat * R)) (feat : nat) : option R :=
  match v with
  | [] => None
  | (ft, alpha) :: t => if (ft =? feat)%nat then Some alpha else alpha_finder t feat
  end.

(** 123: index of the first element with more features *)
Fixpoint first_more (v : list (nat * R)) (feat i : nat) : result nat :=
  match v with
  | [] => Err IndexError
  | (ft, _) :: t => if (feat <? ft)%nat then Ok i else first_more t feat (S i)
  end.

(** 103-130: the vectors, splits and int_expand *)
Definition interval_modifier (v : list (nat * R)) (feat splits int_expand : nat) : result (list (nat * R) * nat * nat) :=
  bind (first_more v feat 0) (fun index =>
  let v := if (2 <? index)%nat then skipn (index - 3) v else v in
  Ok (if (index <? 4)%nat then (v, (2 * splits)%nat, S int_expand) else (v, splits, int_expand))).

(** 38-56 the search for one number of features; the number of passes is not bounded by
    the code *)
Fixpoint find_alpha (fuel : nat) (v : list (nat * R)) (feat splits int_expand : nat) : option (result (option (list nat) * list (nat * R))) :=
  match fuel with
  | O => None
  | S fuel =>
      match alpha_finder v feat with
      | Some alpha => Some (Ok (Some (lasso alpha), v))
      | None =>
          if (int_expand <? 1)%nat then
            match interval_modifier v feat splits int_expand with
            | Err e => Some (Err e)
            | Ok (v, splits, int_expand) =>
                match v with
                | [] => Some (Err IndexError)
                | (_, upper) :: _ => find_alpha fuel (feature_inspection upper splits) feat splits int_expand
                end
            end
          else Some (Ok (None, v))
      end
  end.

(** 33-57 *)
Fixpoint selection_loop (fuel : nat) (feats : list nat) (lo hi : nat) (v : list (nat * R)) : option (result (list (nat * list nat))) :=
  match feats with
  | [] => Some (Ok [])
  | feat :: t =>
      if ((lo <? feat) && (feat <? hi))%nat then
        match find_alpha fuel v feat 10 0 with
        | None => None
        | Some (Err e) => Some (Err e)
        | Some (Ok (f, v)) =>
            match selection_loop fuel t lo hi v with
            | Some (Ok r) => Some (Ok (match f with Some idx => (feat, idx) :: r | None => r end))
            | o => o
            end
        end
      else selection_loop fuel t lo hi v
  end.

(** 29-57 for [d] features *)
Definition selection (fuel d lo hi : nat) : option (result (list (nat * list nat))) :=
  selection_loop fuel (seq 1 d) lo hi (feature_inspection 1 100).
End Lasso.
