(** catlearn/learning_curve: learning curves with selected features (featselect_featvar
    and featselect_featconst of placeholder.py and learning_curve.py) and the refinement of
    the penalty in feature_selection.py.  LCModel has the learning curve without selected
    features.

    Subsets of the data are abstract.  The regression, the prediction error, the scaling
    with the global statistics, taking columns and the lasso selection are parameters. *)
From Coq Require Import Reals List Arith Bool.
From Verif Require Import Base RBase CVModel LCModel.
Import ListNotations.

(** The number of features (the key) and the indices of these features *)
Notation selected := (list (nat * list nat)).

Section Var.
Context {D C : Type}.
Variable fit : D -> C.                                  (* ridge.regularization *)
Variable err : C -> D -> D -> R.                        (* PC.prediction_error *)
Variable size : D -> nat.
Variable sctrain sctest : D -> D.                       (* PC.scaling_data with the global statistics *)
Variable glob : D -> D.                                 (* PC.globalscaling of one subset *)
Variable cols : D -> list nat -> result D.              (* np.take(.., axis=1) of the features *)
Variable select : nat * nat -> D -> result selected.    (* feature_selection.selection *)

(** feature_selection.py 29-34: a limit of None cannot be indexed *)
Definition choose (limit : option (nat * nat)) (d : D) : result selected :=
  match limit with None => Err TypeError | Some l => select l d end.

(** set_size, p_error, result when the number of features varies *)
Record progress := Progress { z_sizes : list nat; z_errors : list R; z_results : list (list (@outcome C)) }.

(** placeholder.py 208-228 the loop of reg_feat_var.  The model is always trained anew:
    new_training is True at first and set again in line 225.  [n] is the number of sets. *)
Fixpoint feat_loop (train test : D) (n : nat) (sel : selected) (i : nat) (p : progress) : result progress :=
  match sel with
  | [] => Ok p
  | (_, idx) :: t =>
      let '(rx, i) := if (n <? length (z_results p) + 1)%nat then (nth i (z_results p) [], S i) else ([], i) in
      bind (cols train idx) (fun tr =>
      bind (cols test idx) (fun te =>
      bind (reg_data_var fit err size true rx tr te) (fun rx' =>
      feat_loop train test n t i
        (Progress (z_sizes p ++ [length idx]) (z_errors p ++ [err (fit tr) tr te]) (z_results p ++ [rx'])))))
  end.
(** 180-229 *)
Definition reg_feat_var (train test : D) (sel : selected) (p : progress) : result progress :=
  feat_loop train test (length sel) sel 0 (Progress (z_sizes p) (z_errors p) []).

(** 113-163 get_data_scale with featselect_featvar.  [found] is what the search for
    features gives; the search is made once. *)
Definition get_data_var (found : result selected) (train test : D) (sel : option selected) (p : progress) : result (progress * option selected) :=
  match sel with
  | None => bind found (fun s =>
            match s with
            | [] => Ok (p, Some [])
            | _ => bind (reg_feat_var (sctrain train) (sctest test) s p) (fun q => Ok (q, Some s))
            end)
  | Some s => bind (reg_feat_var (sctrain train) (sctest test) s p) (fun q => Ok (q, Some s))
  end.

(** (set_size and p_error and result) == [] *)
Definition nothing (p : progress) : bool :=
  match z_sizes p, z_errors p, z_results p with _ :: _, _ :: _, _ :: _ => false | _, _, _ => true end.

(** 94-111 the loop over the other subsets of the level; the last component is index2 *)
Fixpoint splits_var (found : result selected) (d : odict D) (k : key) (train : D) (splits : list nat) (sel : option selected) (p : progress) :
  result (progress * option selected * nat) :=
  match splits with
  | [] => Ok (p, sel, snd k)
  | s :: t =>
      if (s =? snd k)%nat then splits_var found d k train t sel p
      else match dget d (fst k, s) with
           | None => Err KeyError
           | Some test => bind (get_data_var found train test sel p) (fun q =>
               if nothing (fst q) then Ok (fst q, snd q, 0%nat) else splits_var found d k train t (snd q) (fst q))
           end
  end.

(** 76-111 predict_subsets; [level] is hier_level, the same for each new placeholder *)
Definition predict_var (found : result selected) (level : nat) (d : odict D) (k : key) (sel : option selected) (p : progress) :
  result (progress * option selected * nat) :=
  match dget d k with
  | None => Err KeyError
  | Some train =>
      let p := if (fst k <? level)%nat then Progress [] [] (z_results p) else p in
      splits_var found d k train (seq 1 (2 ^ fst k)) sel p
  end.

(** learning_curve.py 149-173 with featselect_featvar; line 166 calls np.vstack without
    its argument *)
Fixpoint var_loop (found : result selected) (level : nat) (d : odict D) (ks : list key) (sel : option selected) (p : progress) : result progress :=
  match ks with
  | [] => Ok p
  | k :: t => bind (predict_var found level d k sel p) (fun q => let '(p, sel, index2) := q in
      if (index2 =? 1)%nat then Err TypeError else
      if nothing p then Ok p else var_loop found level d t sel p)
  end.

(** 136-144 with hierarchy_cv.py 315-334 globalscaledata: the subset 1_1, in which the
    features are searched for.  Without global scaling glob_feat1 is not bound (line 155). *)
Definition largest (globalscale : bool) (d : odict D) : result D :=
  if globalscale then
    match dget d (1, 1)%nat, dget d (1, 2)%nat with
    | Some a, Some _ => Ok (glob a)
    | _, _ => Err KeyError
    end
  else Err NameError.

(** 92-173 with featselect_featvar *)
Definition hierarchy_var (globalscale : bool) (limit : option (nat * nat)) (level : nat) (d : odict D) : result progress :=
  bind (largest globalscale d) (fun g =>
  var_loop (choose limit g) level d (rev (map fst d)) None (Progress [] [] [])).

(** ** featselect_featconst, featselect_featvar=False *)

(** selected_features[str(feat_sub)] *)
Fixpoint find_set (sel : selected) (feat_sub : nat) : result (list nat) :=
  match sel with [] => Err KeyError | (f, idx) :: t => if (f =? feat_sub)%nat then Ok idx else find_set t feat_sub end.

(** 164-178 *)
Definition const_data (s : selected) (feat_sub : nat) (new_training : bool) (res : list (@outcome C)) (train test : D) : result (list (@outcome C)) :=
  bind (find_set s feat_sub) (fun idx =>
  bind (cols (sctrain train) idx) (fun tr =>
  bind (cols (sctest test) idx) (fun te =>
  reg_data_var fit err size new_training res tr te))).

(** 94-111: the flag says that nothing was found; set_size and p_error are parts of the
    results, so the test of line 102 is about [res] *)
Fixpoint splits_const (found : result selected) (feat_sub : nat) (d : odict D) (k : key) (train : D) (splits : list nat)
  (new_training : bool) (sel : option selected) (res : list (@outcome C)) : result (list (@outcome C) * option selected) :=
  match splits with
  | [] => Ok (res, sel)
  | s :: t =>
      if (s =? snd k)%nat then splits_const found feat_sub d k train t new_training sel res
      else match dget d (fst k, s) with
           | None => Err KeyError
           | Some test =>
               bind (match sel with
                     | None => bind found (fun s =>
                         match s with [] => Ok (res, Some []) | _ => bind (const_data s feat_sub new_training res train test) (fun r => Ok (r, Some s)) end)
                     | Some s => bind (const_data s feat_sub new_training res train test) (fun r => Ok (r, Some s))
                     end) (fun q =>
               match fst q with [] => Ok q | _ => splits_const found feat_sub d k train t false (snd q) (fst q) end)
           end
  end.

Definition predict_const (found : result selected) (feat_sub : nat) (d : odict D) (k : key) (sel : option selected) (res : list (@outcome C)) :
  result (list (@outcome C) * option selected) :=
  match dget d k with
  | None => Err KeyError
  | Some train => splits_const found feat_sub d k train (seq 1 (2 ^ fst k)) true sel res
  end.

(** learning_curve.py 149-173; index2 is 0 *)
Fixpoint const_loop (found : result selected) (feat_sub : nat) (d : odict D) (ks : list key) (sel : option selected) (res : list (@outcome C)) : result (list (@outcome C)) :=
  match ks with
  | [] => Ok res
  | k :: t => bind (predict_const found feat_sub d k sel res) (fun q =>
      match fst q with [] => Ok [] | _ => const_loop found feat_sub d t (snd q) (fst q) end)
  end.

(** 92-173 with featselect_featconst *)
Definition hierarchy_const (globalscale : bool) (limit : option (nat * nat)) (feat_sub : nat) (d : odict D) : result (list (@outcome C)) :=
  bind (largest globalscale d) (fun g =>
  const_loop (choose limit g) feat_sub d (rev (map fst d)) None []).

(** 176-239 feature_frequency with placeholder.py 274-307 getstats; [use] is
    featselect_featconst or featselect_featvar.  Without global scaling s_feat is not
    bound (line 234). *)
Definition feature_frequency (globalscale smallest use : bool) (limit : option (nat * nat)) (d : odict D) : result (option selected) :=
  match rev (map fst d) with
  | [] => Err IndexError
  | k :: _ =>
      bind (largest globalscale d) (fun g =>
      match dget d k, dget d (fst k, 1%nat) with
      | Some train, Some _ =>
          if use then bind (choose limit (if smallest then sctrain train else g)) (fun s => Ok (Some s)) else Ok None
      | _, _ => Err KeyError
      end)
  end.
End Var.
Arguments progress : clear implicits.

(** ** feature_selection.py 132-161 alpha_refinment *)
Section Refine.
Variable lasso : R -> list nat.
Open Scope R_scope.

(** 59-80 feature_inspection with a lower bound *)
Definition inspect (upper lower : R) (interval : nat) : list (nat * R) := map (fun a => (length (lasso a), a)) (alphas upper lower interval).

Fixpoint alpha_refinment (alpha : R) (feat splits refsteps : nat) (upper : R) : R :=
  match refsteps with
  | O => alpha
  | S r =>
      let alpha' := match alpha_finder (inspect (upper * alpha) alpha splits) feat with Some a => a | None => alpha end in
      alpha_refinment alpha' feat splits r upper
  end.
End Refine.
