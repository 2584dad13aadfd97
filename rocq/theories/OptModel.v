(** Model of the surrogate optimisers catlearn/optimize/mlmin.py and
    catlearn/optimize/mlneb.py, and of ase_to_catlearn in catlearn/optimize/io.py.

    The real calculator is a function [calc] from positions to energy and forces.  The
    Gaussian process together with the optimisation on the surrogate is an oracle that
    may depend on everything the optimiser has seen.  Positions and forces are flat lists.
    Files are lists of structures.  Printing and csv files are not modelled. *)
From Coq Require Import Reals List Arith Bool.
From Verif Require Import Base RBase AcqModel.
Import ListNotations.
Open Scope R_scope.

Notation position := (list R).

(** An evaluated structure: positions, energy, forces. *)
Record struct := Struct { s_pos : position; s_energy : R; s_forces : list R }.

Definition evaluate (calc : position -> R * list R) (p : position) : struct :=
  Struct p (fst (calc p)) (snd (calc p)).

(** np.reshape(i, (-1, 3)) *)
Fixpoint triples (l : list R) : result (list (R * R * R)) :=
  match l with
  | [] => Ok []
  | x :: y :: z :: t => bind (triples t) (fun r => Ok ((x, y, z) :: r))
  | _ => Err ValueError
  end.

(** np.max *)
Definition maxR (l : list R) : result R :=
  match l with [] => Err ValueError | x :: t => Ok (fold_left Rmax t x) end.

(** mlmin.py 397-406, mlneb.py 822-835 for one structure, and the maximum of the
    absolute values of its result (113-114, 347-348, 385-386) *)
Definition get_fmax (gradient : list R) : result R :=
  bind (triples (map Ropp gradient)) (fun at_forces =>
  maxR (map (fun q => let '(x, y, z) := q in sqrt (x ^ 2 + y ^ 2 + z ^ 2)) at_forces)).

(** np.argmax of a score, as the element it selects *)
Fixpoint best_from {A} (score : A -> R) (best : A) (l : list A) : A :=
  match l with [] => best | x :: t => best_from score (if Rltb (score best) (score x) then x else best) t end.
Definition best {A} (score : A -> R) (l : list A) : result A :=
  match l with [] => Err ValueError | x :: t => Ok (best_from score x t) end.

Fixpoint mapr {A B} (f : A -> result B) (l : list A) : result (list B) :=
  match l with [] => Ok [] | x :: t => bind (f x) (fun y => bind (mapr f t) (fun r => Ok (y :: r))) end.

(** ** mlmin.py *)

(** Elements of list_atoms: a structure given by the user, or the one Atoms object the
    optimiser moves (its positions are those of the object at the time of looking). *)
Inductive atoms_ref := Previous (s : struct) | Shared.

Record mlmin := MLMin {
  m_train : list position; m_targets : list R; m_gradients : list (list R); m_maxf : list R;
  m_iter : nat;
  m_file : list struct;          (* the trajectory file *)
  m_atoms : list atoms_ref; m_shared : position;
  m_calls : list position        (* positions at which the calculator was called *)
}.

Definition Rlist_eqb (x y : list R) : bool := if list_eq_dec Req_EM_T x y then true else false.

(** 87-97.  euclidean fails for different lengths. *)
Fixpoint is_duplicate (p : position) (l : list position) : result bool :=
  match l with
  | [] => Ok false
  | q :: t => if (length q =? length p)%nat
              then bind (is_duplicate p t) (fun r => Ok (Rlist_eqb q p || r))
              else Err ValueError
  end.
Fixpoint add_previous (l : list struct) (prev : list struct) : result (list struct) :=
  match prev with
  | [] => Ok l
  | p :: t => bind (is_duplicate (s_pos p) (map s_pos l)) (fun d =>
              add_previous (if d then l else l ++ [p]) t)
  end.

(** 59-61 and 82-85: the previous calculations used, given the argument and the content
    of the trajectory file, if there is one. *)
Definition previous (restart : bool) (prev : option (list struct)) (file : option (list struct)) : list struct :=
  match prev with
  | Some l => l
  | None => if restart then match file with Some l => l | None => [] end else []
  end.

(** 20-122 *)
Definition mlmin_init (calc : position -> R * list R) (x0 : position) (restart : bool) (prev file : option (list struct)) : result mlmin :=
  let first := evaluate calc x0 in
  bind (add_previous [first] (previous restart prev file)) (fun l =>
  let gradients := map (fun s => map Ropp (s_forces s)) l in
  bind (mapr get_fmax gradients) (fun maxf =>
  Ok (MLMin (map s_pos l) (map s_energy l) gradients maxf 0 l
            (Shared :: map Previous (tl l)) x0 [x0]))).

Inductive acq := AUcb | ALcb | AMinEnergy | AOther.

(** A step of the optimisation on the surrogate: position, predicted energy, uncertainty
    and whether the optimiser says it has converged. *)
Record ml_point := MLPoint { p_pos : position; p_energy : R; p_unc : R; p_conv : bool }.

(** 284-310: the points visited.  [more] is 1000 at the start. *)
Fixpoint visited (surr : nat -> ml_point) (max_step : R) (k more : nat) : list ml_point :=
  let p := surr k in
  p :: if (negb (Rltb (p_unc p) max_step) || p_conv p)%bool then []
       else match more with O => [] | S more => visited surr max_step (S k) more end.

(** 316-324: the scores.  No branch for another name: the variable is not bound. *)
Definition score (a : acq) : result (ml_point -> R) :=
  match a with
  | AUcb => Ok (fun p => - p_energy p + (-1) * p_unc p)
  | ALcb => Ok (fun p => - (p_energy p - p_unc p))
  | AMinEnergy => Ok (fun p => - p_energy p)
  | AOther => Err NameError
  end.

Definition last_gradient (m : mlmin) : list R := last (m_gradients m) [].

(** 382-394 *)
Definition converged (fmax : R) (m : mlmin) : result bool :=
  bind (get_fmax (last_gradient m)) (fun f => Ok (Rltb f fmax)).

(** 160-359 one pass of the loop *)
Definition mlmin_step (calc : position -> R * list R) (surr : mlmin -> nat -> ml_point) (a : acq) (max_step : R) (m : mlmin) : result mlmin :=
  let points := visited (surr m) max_step 0 1000 in
  bind (score a) (fun sc =>
  bind (best sc points) (fun p =>
  let s := evaluate calc (p_pos p) in
  let g := map Ropp (s_forces s) in
  bind (get_fmax g) (fun f =>
  Ok (MLMin (m_train m ++ [s_pos s]) (m_targets m ++ [s_energy s]) (m_gradients m ++ [g]) (m_maxf m ++ [f])
            (S (m_iter m)) (m_file m ++ [s]) (m_atoms m ++ [Shared]) (p_pos p) (m_calls m ++ [p_pos p]))))).

(** 158-364.  [fuel] is an upper bound for the number of passes; see mlmin_run. *)
Fixpoint mlmin_loop (fuel : nat) (calc : position -> R * list R) (surr : mlmin -> nat -> ml_point) (a : acq)
  (fmax max_step : R) (steps : nat) (m : mlmin) : option (result mlmin) :=
  match converged fmax m with
  | Err e => Some (Err e)
  | Ok true => Some (Ok m)
  | Ok false =>
      match fuel with
      | O => None
      | S fuel =>
          match mlmin_step calc surr a max_step m with
          | Err e => Some (Err e)
          | Ok m => if (steps <=? m_iter m)%nat then Some (Ok m)
                    else mlmin_loop fuel calc surr a fmax max_step steps m
          end
      end
  end.

(** Enough fuel, as the theorems show. *)
Definition mlmin_run calc surr a fmax max_step steps m : option (result mlmin) :=
  mlmin_loop (S (steps - m_iter m)) calc surr a fmax max_step steps m.

(** ** mlneb.py *)

Record mlneb := MLNEB {
  n_train : list position; n_targets : list R; n_gradients : list (list R); n_maxf : list R;
  n_iter : nat; n_feval : nat;
  n_images : nat; n_path : list position;   (* number of images, positions of the images *)
  n_unc : list R;                           (* uncertainty_path *)
  n_eis : R; n_efs : R;
  n_file : list struct;                     (* evaluated_structures.traj *)
  n_calls : list position
}.

(** 129-145: the structures that become training data, and the file afterwards.  [prev] is
    the content of the file of previous calculations if one is given ([None] inside: the
    file does not exist), [file] that of evaluated_structures.traj. *)
Definition neb_data (restart : bool) (is fs : struct) (prev : option (option (list struct))) (file : option (list struct)) :
  list struct * option (list struct) :=
  let ends := [is; fs] in
  let '(trj, file) := if restart then ([], file) else (ends, Some ends) in
  match restart, prev with
  | false, None => (trj, file)
  | _, _ =>
      let eval_file := match prev with Some c => c | None => file end in
      match eval_file with
      | Some l => (l, file)
      | None => (ends, Some ends)
      end
  end.

(** 629-665: the positions of the images of the path *)
Definition create_ml_neb (is fs : position) (interpolation : nat -> position) (n : nat) : list position :=
  is :: map interpolation (seq 1 (n - 2)) ++ [fs].

(** The same number of coordinates in all structures; otherwise np.reshape fails in
    ase_to_catlearn, 44-46 (unless the total number is right by chance, see PathModel). *)
Definition same_size (l : list struct) : bool :=
  forallb (fun s => (length (s_pos s) =? length (s_pos (hd (Struct [] 0 []) l)))%nat) l.

(** 21-242 for the interpolated path (176-197): the positions of the interior images come
    from ASE.  [n] is the number of images; a float is turned into an integer by
    [images_from_distance]. *)
Definition images_from_distance (d n : R) : nat :=
  let k := Z.to_nat (Int_part (d / n)) in if (k <=? 3)%nat then 3%nat else k.

Definition mlneb_init (is fs : struct) (restart : bool) (prev : option (option (list struct))) (file : option (list struct))
  (interpolation : nat -> position) (n : nat) : result mlneb :=
  let '(l, file) := neb_data restart is fs prev file in
  let gradients := map (fun s => map Ropp (s_forces s)) l in
  match l with
  | [] | [_] => Err IndexError
  | _ =>
  if negb (same_size l) then Err ValueError else
  bind (mapr get_fmax gradients) (fun maxf =>
  Ok (MLNEB (map s_pos l) (map s_energy l) gradients maxf 0 0 n
            (create_ml_neb (s_pos is) (s_pos fs) interpolation n)
            (repeat 0 (length (create_ml_neb (s_pos is) (s_pos fs) interpolation n))) (s_energy is) (s_energy fs)
            (match file with Some f => f | None => [] end) []))
  end.

(** 897-933 eval_and_append, and the file written by store_trajectory_neb.  np.append
    along the first axis fails for a row of another length.  [maxf] is list_max_abs_forces
    afterwards. *)
Definition eval_and_append (calc : position -> R * list R) (m : mlneb) (p : position) (maxf : R -> list R) : result mlneb :=
  if (length p =? length (nth 0 (n_train m) []))%nat then
    let s := evaluate calc p in
    let g := map Ropp (s_forces s) in
    bind (get_fmax g) (fun f =>
    Ok (MLNEB (n_train m ++ [p]) (n_targets m ++ [s_energy s]) (n_gradients m ++ [g]) (maxf f)
              (S (n_iter m)) (S (n_feval m)) (n_images m) (n_path m) (n_unc m) (n_eis m) (n_efs m)
              (n_file m ++ [s]) (n_calls m ++ [p])))
  else Err ValueError.

(** 288-303 the extra point.  In floating point int(n*(2./3.)) and int(n*(1./3.)) are
    2n div 3 and n div 3. *)
Definition middle (m : mlneb) : nat :=
  if Rleb (n_efs m) (n_eis m) then (n_images m / 3)%nat else (2 * n_images m / 3)%nat.
Definition extra_point (calc : position -> R * list R) (m : mlneb) : result mlneb :=
  if (length (n_targets m) =? 2)%nat then
    match nth_error (n_path m) (middle m) with
    | None => Err IndexError
    | Some p => eval_and_append calc m p (fun f => n_maxf m ++ [f])
    end
  else Ok m.

(** An image of the optimised path: position, predicted energy, uncertainty. *)
Record image := Image { i_pos : position; i_energy : R; i_unc : R }.

Inductive neb_acq := Acq1 | Acq2 | Acq3 | Acq4 | Acq5 | AcqOther.
Inductive choice := MaxUncertainty | MaxPrediction.

(** 449-564: which of the two criteria decides.  The assignments of the branches in
    order, the last one counts.  [conv]: the largest uncertainty is below the limit. *)
Definition choose (a : neb_acq) (iter : nat) (stationary conv : bool) : option choice :=
  let alternate c := if Nat.even iter then Some MaxUncertainty else if Nat.odd iter then Some MaxPrediction else c in
  match a with
  | Acq1 => alternate None
  | Acq2 => if conv then Some MaxPrediction else Some MaxUncertainty
  | Acq3 => if conv then alternate (Some MaxUncertainty) else Some MaxUncertainty
  | Acq4 => if stationary then (if conv then Some MaxPrediction else Some MaxUncertainty) else alternate None
  | Acq5 =>
      let c := Some MaxUncertainty in
      if conv then
        let c := alternate c in
        let c := if stationary then Some MaxUncertainty else c in
        let c := if conv then Some MaxPrediction else c in
        c
      else c
  | AcqOther => None
  end.

(** images[1:-1] *)
Definition interior {A} (l : list A) : list A := removelast (tl l).

Definition acquire (a : neb_acq) (iter : nat) (stationary : bool) (unc_conv : R) (path : list image) : result position :=
  bind (maxR (map i_unc (interior path))) (fun u =>
  match choose a iter stationary (Rltb u unc_conv) with
  | None => Ok []
  | Some MaxUncertainty => bind (best i_unc (interior path)) (fun i => Ok (i_pos i))
  | Some MaxPrediction => bind (best (fun i => i_energy i + i_unc i) (interior path)) (fun i => Ok (i_pos i))
  end).

(** The state with the path optimised on the surrogate (325-444) *)
Definition with_path (m : mlneb) (n : nat) (path : list image) : mlneb :=
  MLNEB (n_train m) (n_targets m) (n_gradients m) (n_maxf m) (n_iter m) (n_feval m) n
        (map i_pos path) (map i_unc path) (n_eis m) (n_efs m) (n_file m) (n_calls m).

(** 314-583 one pass of the loop without the test for convergence.  [surr] gives the path
    optimised on the surrogate; [org] is org_n_images. *)
Definition mlneb_step (calc : position -> R * list R) (surr : mlneb -> bool -> nat -> list image) (a : neb_acq)
  (unc_conv : R) (org : nat) (stationary : bool) (m : mlneb) : result mlneb :=
  let n := if stationary then org else n_images m in
  let path := surr m stationary n in
  bind (acquire a (n_iter m) stationary unc_conv path) (fun p =>
  eval_and_append calc (with_path m n path) p (fun _ => n_maxf m)).

(** 578-579 *)
Definition neb_fmax (m : mlneb) : result R := get_fmax (last (n_gradients m) []).

(** 591-617 *)
Definition neb_converged (fmax unc_conv : R) (org : nat) (m : mlneb) : result bool :=
  bind (neb_fmax m) (fun f => bind (maxR (interior (n_unc m))) (fun u =>
  Ok (Rleb f fmax && (n_images m =? org)%nat && Rltb u unc_conv)%bool)).

(** 312-622 the loop *)
Fixpoint mlneb_loop (fuel : nat) (calc : position -> R * list R) (surr : mlneb -> bool -> nat -> list image) (a : neb_acq)
  (fmax unc_conv : R) (steps : nat) (org : nat) (stationary : bool) (m : mlneb) : option (result mlneb) :=
  match fuel with
  | O => None
  | S fuel =>
      match mlneb_step calc surr a unc_conv org stationary m with
      | Err e => Some (Err e)
      | Ok m =>
          match neb_fmax m, neb_converged fmax unc_conv org m with
          | Ok f, Ok c =>
              if c then Some (Ok m)
              else if (steps <=? n_iter m)%nat then Some (Ok m)
              else mlneb_loop fuel calc surr a fmax unc_conv steps org (stationary || Rleb f fmax)%bool m
          | Err e, _ => Some (Err e)
          | _, Err e => Some (Err e)
          end
      end
  end.

Definition with_images (m : mlneb) (n : nat) : mlneb :=
  MLNEB (n_train m) (n_targets m) (n_gradients m) (n_maxf m) (n_iter m) (n_feval m) n
        (n_path m) (n_unc m) (n_eis m) (n_efs m) (n_file m) (n_calls m).

(** 244-626 run *)
Definition mlneb_run calc surr a fmax unc_conv steps (sequential : bool) (m : mlneb) : option (result mlneb) :=
  match extra_point calc m with
  | Err e => Some (Err e)
  | Ok m => mlneb_loop (S (steps - n_iter m)) calc surr a fmax unc_conv steps (n_images m) false
              (if sequential then with_images m 3 else m)
  end.

(** 183-184 and 229-230: the default spring constant with an interpolated and with a given
    path. *)
Definition spring_interpolated (n : nat) (d : R) : R := sqrt ((INR n - 1) / d).
Definition spring_given (n : nat) (d : R) : R := sqrt (INR n - 1) / d.
