(** Model of the 'log' metric of get_error, catlearn/regression/cost_function.py 66-72. Numbers are real, or one of the
    values numpy gives for the logarithm of zero (squared: infinity) and of a negative number (nan). *)
From Coq Require Import Reals List Arith Bool.
From Verif Require Import Base RBase.
Import ListNotations.
Open Scope R_scope.

Inductive number := Fin (x : R) | Inf | NaN.

(** 68-70: one entry of error['log_all'] *)
Definition log_entry (p t : R) : number :=
  if Rltb 0 (t + 1) then Fin ((ln (Rmax p 0 + 1) - ln (t + 1)) ^ 2)
  else if Reqb (t + 1) 0 then Inf else NaN.

Definition root (x : number) : number := match x with Fin y => Fin (sqrt y) | Inf => Inf | NaN => NaN end.

(** np.nanmean *)
Definition is_nan (x : number) : bool := match x with NaN => true | _ => false end.
Definition is_inf (x : number) : bool := match x with Inf => true | _ => false end.
Definition value (x : number) : R := match x with Fin y => y | _ => 0 end.
Definition nanmean (l : list number) : number :=
  let kept := filter (fun x => negb (is_nan x)) l in
  match kept with
  | [] => NaN
  | _ => if existsb is_inf kept then Inf else Fin (mean (map value kept))
  end.

Record log_stats := LS { log_all : list number; rmsle_all : list number; rmsle_average : number }.

(** 31-36 and 66-72 *)
Definition log_error (prediction target : list R) : result log_stats :=
  if negb (length prediction =? length target)%nat then Err AssertionError else
  let all := map (fun q => log_entry (fst q) (snd q)) (combine prediction target) in
  Ok (LS all (map root all) (root (nanmean all))).
