(** Model of catlearn/active_learning/acquisition_functions.py.  The functions
    work entrywise on arrays; one entry is modelled, with real numbers. *)
From Coq Require Import Reals List Bool.
From Coquelicot Require Import Coquelicot.
From Verif Require Import Base.
Import ListNotations.
Open Scope R_scope.

(** scipy.stats.norm.pdf and norm.cdf.  The cdf is the integral of the density
    from -infinity, written as the limit of the integrals over [-n, 0] plus the
    integral from 0 ([norm_cdf_is_integral] in AcqProofs.v proves it is the
    improper integral). *)
Definition norm_pdf (z : R) : R := exp (- z ^ 2 / 2) / sqrt (2 * PI).
Definition norm_lower : R := real (Lim_seq (fun n => RInt norm_pdf (- INR n) 0)).
Definition norm_cdf (z : R) : R := norm_lower + RInt norm_pdf 0 z.

(** The [objective] argument: the strings 'max' and 'min', or a float. *)
Inductive objective := Max | Min | Value (y : R).

(** optimistic, 26-39. *)
Definition optimistic (y_best prediction uncertainty : R) : R := prediction + uncertainty - y_best.

(** UCB, 42-58; other objectives fall through and return None. *)
Definition UCB (prediction uncertainty : R) (obj : objective) (kappa : R) : option R :=
  match obj with
  | Max => Some (- (prediction - kappa * uncertainty))
  | Min => Some (- prediction + kappa * uncertainty)
  | Value _ => None
  end.

(** EI, 61-82. *)
Definition EI (y_best prediction uncertainty : R) (obj : objective) : option R :=
  match obj with
  | Max => let z := (prediction - y_best) / uncertainty in
           Some ((prediction - y_best) * norm_cdf z + uncertainty * norm_pdf z)
  | Min => let z := (- prediction + y_best) / uncertainty in
           Some (- ((prediction - y_best) * norm_cdf z - uncertainty * norm_pdf z))
  | Value _ => None
  end.

(** PI, 85-103. *)
Definition PI_ (y_best prediction uncertainty : R) (obj : objective) : option R :=
  match obj with
  | Max => Some (norm_cdf ((prediction - y_best) / uncertainty))
  | Min => Some (norm_cdf (- ((prediction - y_best) / uncertainty)))
  | Value _ => None
  end.

(** proximity 106-119, optimistic_proximity 122-135. *)
Definition proximity (y_best prediction : R) : R := - Rabs (prediction - y_best).
Definition optimistic_proximity (y_best prediction uncertainty : R) : R :=
  uncertainty - Rabs (prediction - y_best).

(** probability_density, 138-150: norm.pdf(y, loc, scale). *)
Definition probability_density (y_best prediction uncertainty : R) : R :=
  norm_pdf ((y_best - prediction) / uncertainty) / uncertainty.

(** The reference value selected by rank (222-227) and classify (297-305);
    max/min of an empty list raise ValueError. *)
Definition y_best_of (targets : list R) (obj : objective) : result R :=
  match obj, targets with
  | Value y, _ => Ok y
  | _, [] => Err ValueError
  | Max, t :: ts => Ok (fold_left Rmax ts t)
  | Min, t :: ts => Ok (fold_left Rmin ts t)
  end.

(** The metrics of rank (230-239) and classify (331-342) other than 'cluster'. *)
Inductive metric := Moptimistic | MUCB | MEI | MPI | Mpdf.
Definition metric_value (m : metric) (obj : objective) (kappa y_best : R) (pu : R * R) : option R :=
  match m with
  | Moptimistic => Some (optimistic y_best (fst pu) (snd pu))
  | MUCB => UCB (fst pu) (snd pu) obj kappa
  | MEI => EI y_best (fst pu) (snd pu) obj
  | MPI => PI_ y_best (fst pu) (snd pu) obj
  | Mpdf => Some (probability_density y_best (fst pu) (snd pu))
  end.

(** rank, 185-244, one metric; [pus]: predictions and uncertainties. *)
Definition rank (m : metric) (targets : list R) (obj : objective) (kappa : R) (pus : list (R * R))
  : result (list (option R)) :=
  bind (y_best_of targets obj) (fun y => Ok (map (metric_value m obj kappa y) pus)).

(** classify, 247-371, one metric.  Classes in order of first appearance among
    the test atoms, each with the list of its indices (311-316); the metric is
    computed per class (325-342) with the overall [y_best] (299, 302, 305) and
    scattered back by index (358-369).  The per-class references [best] (290-304)
    are computed but never used.  [cls i]: class of test atom i.  With no
    training atoms [y_best] is unbound (UnboundLocalError, a kind of
    NameError; modelled as RuntimeError). *)
Section Classify.
Context {K : Type}.
Variable keqb : K -> K -> bool.
Fixpoint add_to_group (g : list (K * list nat)) (c : K) (i : nat) : list (K * list nat) :=
  match g with
  | [] => [(c, [i])]
  | (c', l) :: t => if keqb c' c then (c', l ++ [i]) :: t else (c', l) :: add_to_group t c i
  end.
Definition groups (cls : list K) : list (K * list nat) :=
  fold_left (fun g p => add_to_group g (snd p) (fst p)) (combine (seq 0 (length cls)) cls) [].

Definition scatter {V} (idx : list nat) (vals : list V) (res : list V) : list V :=
  fold_left (fun r p => set_nth (fst p) (snd p) r) (combine idx vals) res.

Definition classify (m : metric) (train_cls test_cls : list K) (targets : list R) (obj : objective)
  (kappa : R) (pus : list (R * R)) : result (list (option R)) :=
  match train_cls with
  | [] => Err RuntimeError
  | _ =>
    bind (y_best_of targets obj) (fun y =>
    let res0 := repeat (Some 0) (length test_cls) in
    Ok (fold_left (fun res g =>
          scatter (snd g) (map (metric_value m obj kappa y) (gather (0, 0) pus (snd g))) res)
        (groups test_cls) res0))
  end.
End Classify.
