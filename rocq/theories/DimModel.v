(** Model of the defaults of iterative screening (catlearn/preprocess/feature_elimination.py
    276-309 _dimension_check), of the projections of catlearn/preprocess/feature_extraction.py
    (11-97 pls, pca, spca) and of composition names (catlearn/featurize/site_stability.py 50-58,
    slab_utilities.py 18-38).

    Numbers of data and features are naturals, other numbers reals. *)
From Coq Require Import String List Arith Bool Reals ZArith.
From Verif Require Import Base RBase SiteModel.
Import ListNotations.
Local Open Scope string_scope.
Local Open Scope nat_scope.

(** ** _dimension_check *)
(** round of Python 3: to the nearest integer, a half to the even one *)
Definition py_round (x : R) : Z :=
  let k := (up x - 1)%Z in
  let r := (x - IZR k)%R in
  if Rltb r (1 / 2) then k else if Rltb (1 / 2) r then (k + 1)%Z else if Z.even k then k else (k + 1)%Z.

(** 302: n / log(n); math.log(0) is a ValueError, log(1) is zero *)
Definition default_step (n : nat) : result Z :=
  match n with
  | 0 => Err ValueError
  | 1 => Err ZeroDivisionError
  | _ => Ok (py_round (INR n / ln (INR n)))
  end.

(** 290-309 *)
Definition dimension_check (iterative : bool) (n f : nat) (size : option nat) (step : option Z) : result (nat * option Z) :=
  let size := match size with None => n | Some s => s end in
  if iterative then
    if 2 * size <? f then
      bind (match step with None => default_step n | Some s => Ok s end) (fun s =>
      if (s <? Z.of_nat size)%Z then Ok (size, Some s) else Err AssertionError)
    else Err AssertionError
  else if size <? f then Ok (size, step) else Err AssertionError.

(** ** pls, pca, spca *)
Section Projection.
Context {Row Target Model : Type}.
(** fit of the estimator, and transform of one row by a fitted one *)
Variable fit : nat -> list Row -> Target -> result Model.
Variable transform : Model -> Row -> Row.

(** 30-38, 61-69, 92-100: pca and spca have no target *)
Definition project (components : Z) (train : list Row) (target : Target) (test : list Row) : result (list Row * list Row) :=
  if (0 <? components)%Z then
    bind (fit (Z.to_nat components) train target) (fun m => Ok (map (transform m) train, map (transform m) test))
  else Err AssertionError.
End Projection.

(** ** stoichiometry and composition_name *)
(** list(set(symbols)): some order of the elements without repetition, which for texts differs between
    processes: [order] *)
Definition count (x : string) (l : list string) : nat := length (filter (String.eqb x) l).
Definition stoichiometry (order : list string -> list string) (symbols : list string) : list (string * nat) :=
  map (fun e => (e, count e symbols)) (order symbols).
Definition composition_name (order : list string -> list string) (symbols : list string) : string :=
  fold_right (fun p t => fst p ++ str (snd p) ++ t) "" (stoichiometry order symbols).
