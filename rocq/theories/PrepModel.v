(** Model of catlearn/preprocess/scaling.py, catlearn/preprocess/clean_data.py,
    catlearn/regression/gpfunctions/default_scale.py,
    catlearn/estimator/general_preprocess.py and holdout_set of
    catlearn/utilities/utilities.py.

    A matrix is the list of its rows; real numbers stand for finite floats.
    Matrices are rectangular (numpy arrays are); theorems say so where needed. *)
From Coq Require Import Reals List Bool Arith.
From Verif Require Import Base RBase.
Import ListNotations.
Open Scope R_scope.

Notation matrix := (list (list R)).

Definition width {A} (m : list (list A)) : nat := length (hd [] m).
(** m[:, j]. *)
Definition col {A} (d : A) (j : nat) (m : list (list A)) : list A := map (fun r => nth j r d) m.
(** A reduction with axis=0. *)
Definition axis0 {A B} (d : A) (f : list A -> B) (m : list (list A)) : list B :=
  map (fun j => f (col d j m)) (seq 0 (width m)).

(** ** scaling.py *)
(** np.place(s, s == 0., [1.]). *)
Definition place_one (l : list R) : list R := map (fun s => if Reqb s 0 then 1 else s) l.

(** (row - shift) / scale, entrywise with broadcasting over rows. *)
Definition scale_row (shift scale row : list R) : list R :=
  map (fun p => (fst p - fst (snd p)) / snd (snd p)) (combine row (combine shift scale)).
Definition scale_matrix (shift scale : list R) (m : matrix) : matrix := map (scale_row shift scale) m.

(** The data that the statistics are taken of, 24-27 and likewise 63-66, 98-101. *)
Definition stat_data (local : bool) (train : matrix) (test : option matrix) : matrix :=
  match test with
  | Some t => if local then train else train ++ t
  | None => train
  end.

(** Dictionary returned by standardize / normalize / min_max: the two statistics,
    and the transformed matrices. *)
Record scaled := mkScaled { s_shift : list R; s_scale : list R; s_train : matrix; s_test : option matrix }.

Definition apply_scale (shift scale : list R) (train : matrix) (test : option matrix) : scaled :=
  mkScaled shift scale (scale_matrix shift scale train) (option_map (scale_matrix shift scale) test).

(** standardize, 6-43. *)
Definition standardize (train : matrix) (test : option matrix) (mean_ std_ : option (list R))
  (local : bool) : scaled :=
  let data := stat_data local train test in
  let mu := match mean_ with Some m => m | None => axis0 0 mean data end in
  let sd := match std_ with Some s => s | None => axis0 0 std data end in
  apply_scale mu (place_one sd) train test.

(** What line 35 leaves in the caller's [std] array (scale['std'] is the same
    object); line 74 does the same to [dif]. *)
Definition standardize_arg_after (std_ : list R) : list R := place_one std_.
Definition normalize_arg_after (dif_ : list R) : list R := place_one dif_.

(** normalize, 46-82. *)
Definition normalize (train : matrix) (test : option matrix) (mean_ dif_ : option (list R))
  (local : bool) : scaled :=
  let data := stat_data local train test in
  let mu := match mean_ with Some m => m | None => axis0 0 mean data end in
  let df := match dif_ with Some s => s | None => axis0 0 (fun c => lmax c - lmin c) data end in
  apply_scale mu (place_one df) train test.

(** min_max, 85-112. *)
Definition min_max (train : matrix) (test : option matrix) (local : bool) : scaled :=
  let data := stat_data local train test in
  apply_scale (axis0 0 lmin data) (place_one (axis0 0 (fun c => lmax c - lmin c) data)) train test.

(** Euclidean norm of a row (np.linalg.norm of a column of the transposed
    matrix, 127-133). *)
Definition norm2 (r : list R) : R := sqrt (sumR (map (fun x => x ^ 2) r)).

(** unit_length, 115-143: every row is divided by its own length (1 when zero). *)
Definition unit_rows (m : matrix) : matrix :=
  map (fun r => map (fun x => x / (if Reqb (norm2 r) 0 then 1 else norm2 r)) r) m.
Definition unit_length (train : matrix) (test : option matrix) : matrix * option matrix :=
  (unit_rows train, option_map unit_rows test).

(** numpy division of floats: division by zero gives nan or inf, here [None]. *)
Definition ndiv (x y : R) : option R := if Reqb y 0 then None else Some (x / y).

(** target_standardize 146-160, target_normalize 163-178, target_center 181-195. *)
Definition target_standardize (t : list R) : list (option R) * R * R :=
  (map (fun x => ndiv (x - mean t) (std t)) t, mean t, std t).
Definition target_normalize (t : list R) : list (option R) * R * R :=
  (map (fun x => ndiv (x - mean t) (lmax t - lmin t)) t, mean t, lmax t - lmin t).
Definition target_center (t : list R) : list R * R := (map (fun x => x - mean t) t, mean t).

(** ** default_scale.py: ScaleData *)
(** State after train(), 38-52: feature statistics and target statistics. *)
Record scale_data := mkSD { f_mean : list R; f_std : list R; t_mean : R; t_std : R }.

Definition sd_train (features : matrix) (targets : list R) : scale_data * matrix * list (option R) :=
  let f := standardize features None None None true in
  let '(t, m, s) := target_standardize targets in
  (mkSD (s_shift f) (s_scale f) m s, s_train f, t).

(** test, 54-71. *)
Definition sd_test (sd : scale_data) (features : matrix) : matrix :=
  scale_matrix (f_mean sd) (f_std sd) features.

(** rescale_targets, 73-89. *)
Definition sd_rescale (sd : scale_data) (p : list (option R)) : list (option R) :=
  map (fun x => option_map (fun v => v * t_std sd + t_mean sd) x) p.

(** ** clean_data.py *)
(** remove_outliers, 8-51.  [constraint]: 'high', 'low' or None.  The argument
    dev is not used by the code.  When nothing satisfies the comparison the mask
    is the scalar False and numpy returns an empty selection, as the filter does. *)
Inductive constraint := High | Low | Both.

Definition mad (con : R) (targets : list R) : R :=
  con * median (map (fun t => Rabs (t - median targets)) targets).

Definition remove_outliers {X} (features : list X) (targets : list R) (con dev : R) (c : constraint)
  : list X * list R :=
  let med := median targets in
  let d := mad con targets in
  let step1 :=
    match c with
    | High | Both => let m := map (fun t => Rltb t (med + d)) targets in
                     (mask_select m features, mask_select m targets)
    | Low => (features, targets)
    end in
  match c with
  | Low | Both => let m := map (fun t => Rltb (med - d) t) (snd step1) in
                  (mask_select m (fst step1), mask_select m (snd step1))
  | High => step1
  end.

(** Float entries of a raw feature matrix. *)
Inductive fl := Fin (r : R) | Inf | NaN.
Definition isfinite (x : fl) : bool := match x with Fin _ => true | _ => false end.
Definition isnan (x : fl) : bool := match x with NaN => true | _ => false end.
Definition fin_value (x : fl) : R := match x with Fin r => r | _ => 0 end.

(** np.nanstd of a column: NaN entries are ignored, an infinite entry or an empty
    rest gives NaN. *)
Definition nanstd (c : list fl) : fl :=
  let rest := filter (fun x => negb (isnan x)) c in
  if (length rest =? 0)%nat || negb (forallb isfinite rest) then NaN
  else Fin (std (map fin_value rest)).

(** np.isclose(0, s): |0 - s| <= 1e-8 + 1e-5 |s|, False for NaN. *)
Definition isclose0 (s : fl) : bool :=
  match s with Fin r => Rleb (Rabs (0 - r)) (1 / 10 ^ 8 + 1 / 10 ^ 5 * Rabs r) | _ => false end.

(** Boolean column selection m[:, index]; a wrong length raises IndexError. *)
Definition select_cols {A} (index : list bool) (m : list (list A)) : result (list (list A)) :=
  if forallb (fun r => (length r =? length index)%nat) m then Ok (map (mask_select index) m)
  else Err IndexError.
Definition select_labels {L} (index : list bool) (l : list L) : result (list L) :=
  if (length l =? length index)%nat then Ok (mask_select index l) else Err IndexError.

Definition opt_result {A B} (f : A -> result B) (o : option A) : result (option B) :=
  match o with None => Ok None | Some x => bind (f x) (fun y => Ok (Some y)) end.

Record cleaned (L : Type) := mkClean
  { c_index : list bool; c_train : list (list fl); c_test : option (list (list fl)); c_labels : option (list L) }.
Arguments mkClean {L}. Arguments c_index {L}. Arguments c_train {L}. Arguments c_test {L}. Arguments c_labels {L}.

(** Common shape of clean_variance (82-91) and clean_skewness (207-216). *)
Definition clean_by {L} (index : list bool) (train : list (list fl)) (test : option (list (list fl)))
  (labels : option (list L)) : result (cleaned L) :=
  bind (select_cols index train) (fun tr =>
  bind (opt_result (select_cols index) test) (fun te =>
  bind (opt_result (select_labels index) labels) (fun la =>
  Ok (mkClean index tr te la)))).

(** clean_variance, 54-91; the argument [mask] is not used by the code. *)
Definition clean_variance {L} train test (labels : option (list L)) (mask : list nat) :=
  clean_by (map (fun s => negb (isclose0 s)) (axis0 NaN nanstd train)) train test labels.

(** clean_skewness, 181-216; [skew] is scipy.stats.skew of a column (any function
    here), [mask] is not used by the code. *)
Definition clean_skewness {L} (skew : list fl -> fl) train test (labels : option (list L))
  (mask : list nat) (skewness : R) :=
  clean_by (map (fun s => match s with Fin r => Rltb (Rabs r) skewness | _ => false end)
                (axis0 NaN skew train)) train test labels.

(** Lines 139-143: rows whose target is not finite are dropped. *)
Definition drop_rows (train : list (list fl)) (targets : option (list fl)) : list (list fl) :=
  match targets with None => train | Some t => mask_select (map isfinite t) train end.

(** clean_infinite, 94-178, with the default max_impute_fraction = 0 (no
    imputation).  bool_test and clean['index'] are the same array, so line 164
    changes both; an index of [mask] out of range raises IndexError. *)
Definition finite_columns (w : nat) (train : list (list fl)) : list bool :=
  map (fun j => forallb isfinite (col NaN j train)) (seq 0 w).

Definition clean_infinite {L} (train : list (list fl)) (test : option (list (list fl)))
  (targets : option (list fl)) (labels : option (list L)) (mask : option (list nat))
  : result (cleaned L) :=
  let w := width train in
  if match targets with Some t => negb (length t =? length train)%nat | None => false end
  then Err IndexError else
  let train := drop_rows train targets in
  let bt := finite_columns w train in
  bind (match mask with
        | None => Ok bt
        | Some m => if forallb (fun i => (i <? w)%nat) m
                    then Ok (fold_left (fun b i => set_nth i true b) m bt) else Err IndexError
        end) (fun index =>
  bind (select_cols index train) (fun tr =>
  bind (match test with
        | None => Ok None
        | Some t => if (width t =? w)%nat then bind (select_cols index t) (fun x => Ok (Some x))
                    else Err AssertionError
        end) (fun te =>
  bind (match labels with
        | None => Ok None
        | Some l => if (length l =? w)%nat then Ok (Some (mask_select index l)) else Err AssertionError
        end) (fun la =>
  Ok (mkClean index tr te la))))).

(** ** general_preprocess.py *)
(** Float arithmetic; results that are not finite are not distinguished. *)
Definition all_finite (l : list fl) : bool := forallb isfinite l.
Definition lift_stat (f : list R -> R) (c : list fl) : fl :=
  if all_finite c then Fin (f (map fin_value c)) else NaN.
Definition fl_scale (x m s : fl) : fl :=
  match x, m, s with Fin a, Fin b, Fin c => if Reqb c 0 then NaN else Fin ((a - b) / c) | _, _, _ => NaN end.
Definition fl_scale_row (mu sd row : list fl) : list fl :=
  map (fun p => fl_scale (fst p) (fst (snd p)) (snd (snd p))) (combine row (combine mu sd)).

(** The object: which columns to keep and the scaling, set by process. *)
Record prep := mkPrep { p_index : list bool; p_mean : list fl; p_std : list fl }.

(** clean_index of _eliminate_cleaner, 94-102. *)
Definition clean_index (train : list (list fl)) (targets : list fl) (test : option (list (list fl)))
  : result (list bool) :=
  bind (clean_infinite (L := unit) train test (Some targets) None None) (fun fin =>
  bind (clean_variance (L := unit) train test None []) (fun inf =>
  Ok (map (fun p => fst p && snd p) (combine (c_index fin) (c_index inf))))).

(** process, 22-46 with _eliminate_cleaner 78-109 and _standardize_scalar
    111-126.  [w] columns survive; the statistics are those of the kept training
    columns, standard deviations equal to zero replaced by one. *)
Definition process (train : list (list fl)) (targets : list fl) (test : option (list (list fl)))
  : result (prep * (list (list fl) * list fl * option (list (list fl)))) :=
  bind (clean_index train targets test) (fun index =>
  bind (select_cols index train) (fun tr =>
  bind (opt_result (select_cols index) test) (fun te =>
  if (length tr =? 0)%nat then Err AssertionError else
  let mu := axis0 NaN (lift_stat mean) tr in
  let sd := map (fun s => match s with Fin r => if Reqb r 0 then Fin 1 else s | _ => s end)
                (axis0 NaN (lift_stat std) tr) in
  Ok (mkPrep index mu sd,
      (map (fl_scale_row mu sd) tr, targets, option_map (map (fl_scale_row mu sd)) te))))).

(** transform, 48-76. *)
Definition transform (p : option prep) (features : list (list fl)) : result (list (list fl)) :=
  match p with
  | None => Err AttributeError
  | Some p => bind (select_cols (p_index p) features) (fun f =>
              Ok (map (fl_scale_row (p_mean p) (p_std p)) f))
  end.

(** ** holdout_set, utilities.py:42-74.  [shuffled] is the matrix after
    np.random.shuffle, [index] = int(len(matrix) * fraction). *)
Definition holdout_set {X Y} (shuffled : list X) (index : nat) (target : option (list Y))
  : list X * option (list Y) * list X * option (list Y) :=
  (skipn index shuffled, option_map (firstn index) target,
   firstn index shuffled, option_map (skipn index) target).
