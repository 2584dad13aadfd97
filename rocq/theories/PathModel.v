(** catlearn/optimize/io.py, and the functions of catlearn/optimize/mlneb.py around the
    loop of OptModel: conversion of ASE structures, energies and forces of a point, the
    settings of the Gaussian process, results of a predicted path, the table of the
    report and the files of paths.

    Floats are real numbers.  A structure with results of a calculation has positions and
    forces per atom, the energy, and the force-consistent energy.  Files of structures are
    lists; None is a missing file. *)
From Coq Require Import Reals List Arith Bool.
From Verif Require Import Base RBase KernModel OptModel MaskModel.
Import ListNotations.
Open Scope R_scope.

Notation triple := (R * R * R)%type.

Record shot := Shot { h_pos : list triple; h_energy : R; h_free : R; h_forces : list triple }.

(** get_positions().flatten() *)
Definition flat (l : list triple) : list R := concat (map (fun q => let '(x, y, z) := q in [x; y; z]) l).

(** np.reshape of a flat array *)
Fixpoint chunks (rows cols : nat) (l : list R) : list (list R) :=
  match rows with O => [] | S r => firstn cols l :: chunks r cols (skipn cols l) end.
Definition reshape (rows cols : nat) (l : list R) : result (list (list R)) :=
  if (length l =? rows * cols)%nat then Ok (chunks rows cols l) else Err ValueError.

(** io.py 8-56 ase_to_catlearn *)
Record trj := Trj { t_first : shot; t_last : shot; t_images : list shot;
  t_train : list (list R); t_targets : list R; t_gradients : list (list R); t_atoms : nat }.

Definition ase_to_catlearn (l : list shot) : result trj :=
  match l with
  | [] => Err IndexError
  | first :: _ =>
      let number_images := length l in
      let num_atoms := length (h_pos first) in
      bind (reshape number_images (num_atoms * 3) (concat (map (fun s => flat (h_pos s)) l))) (fun train =>
      bind (reshape number_images (num_atoms * 3) (concat (map (fun s => map Ropp (flat (h_forces s))) l))) (fun gradients =>
      match nth_error l 1 with
      | None => Err IndexError
      | Some second => Ok (Trj first second l train (map h_energy l) gradients num_atoms)
      end))
  end.

(** 59-81 array_to_ase *)
Definition array_to_ase (input : list R) (num_atoms : nat) : result (list triple) :=
  bind (reshape num_atoms 3 input) (fun rows => Ok (map (fun r => (nth 0 r 0, nth 1 r 0, nth 2 r 0)) rows)).

(** 84-99 array_to_atoms *)
Definition array_to_atoms (input : list R) : result (list (list R)) := reshape (length input / 3) 3 input.

(** ** Energies and forces of a point (mlneb.py 838-933) *)
Record evaluator := Evaluator { v_train : list (list R); v_targets : list R; v_gradients : list (list R); v_atoms : nat; v_ini : list triple }.

(** Atoms.get_potential_energy(force_consistent): the force-consistent energy is used for
    True only (neither None nor False). *)
Definition potential_energy (fc : option bool) (s : shot) : R :=
  match fc with Some true => h_free s | _ => h_energy s end.

Section Calc.
Variable calc : list triple -> shot.

Definition point (m : evaluator) (x : option (list R)) : result (list R) :=
  match x with
  | Some p => Ok p
  | None => match v_train m with [] => Err IndexError | _ => Ok (last (v_train m) []) end
  end.

(** 838-867 *)
Definition get_energy_catlearn (fc : option bool) (m : evaluator) (x : option (list R)) : result (evaluator * R) :=
  bind (point m x) (fun p =>
  bind (array_to_ase p (v_atoms m)) (fun pos =>
  Ok (Evaluator (v_train m) (v_targets m) (v_gradients m) (v_atoms m) pos, potential_energy fc (calc pos)))).

(** 870-894 *)
Definition get_forces_catlearn (m : evaluator) (x : option (list R)) : result (list R) :=
  bind (point m x) (fun _ => Ok (flat (h_forces (calc (v_ini m))))).

(** 897-933 *)
Definition eval_point (fc : option bool) (m : evaluator) (p : list R) : result evaluator :=
  if negb (length p =? length (nth 0 (v_train m) []))%nat then Err ValueError else
  let m := Evaluator (v_train m ++ [p]) (v_targets m) (v_gradients m) (v_atoms m) (v_ini m) in
  bind (get_energy_catlearn fc m None) (fun q => let '(m, energy) := q in
  bind (get_forces_catlearn m None) (fun f =>
  Ok (Evaluator (v_train m) (v_targets m ++ [energy]) (v_gradients m ++ [map Ropp f]) (v_atoms m) (v_ini m)))).
End Calc.

(** 131-161: the training data at the start, from the structures read *)
Definition start_data (l : list shot) : result evaluator :=
  bind (ase_to_catlearn l) (fun t =>
  Ok (Evaluator (t_train t) (t_targets t) (t_gradients t) (t_atoms t) (h_pos (t_first t)))).

(** ** 669-724 train_gp_model: what the Gaussian process is given *)
Record gp_settings := Settings {
  g_width : R; g_bounds : R * R; g_scaling : R; g_scaling_bounds : R * R;
  g_noise : R * R; g_noise_bounds : (R * R) * (R * R);
  g_train : list (list R); g_targets : list R; g_gradients : list (list R) }.

(** np.std *)
Definition mean (l : list R) : R := sumR l / INR (length l).
Definition std (l : list R) : R := sqrt (mean (map (fun x => (x - mean l) ^ 2) l)).

Definition train_gp_model (train : list (list R)) (targets : list R) (gradients : list (list R)) (mask : option (list nat)) (path_distance : R)
  : result (gp_settings * R) :=
  bind (maxR targets) (fun max_target =>
  let scaled := map (fun t => t - max_target) targets in
  let sigma_f := 1 / 1000 + std scaled ^ 2 in
  let width := path_distance / 2 in
  let masked l := match mask with None => Ok l | Some idx => apply_mask l idx end in
  bind (masked train) (fun train =>
  bind (masked gradients) (fun gradients =>
  Ok (Settings width (1 / 10, path_distance) sigma_f (sigma_f, sigma_f) (5 / 1000, 5 / 10000)
        ((1 / 1000, 5 / 1000), (5 / 10000, 2 / 1000)) train scaled gradients, max_target)))).

(** ** 726-747 get_results_predicted_path.  [unc] is the uncertainty that the Gaussian
    process predicts for a row of features. *)
Record image_info := Info { j_pos : list R; j_energy : R; j_unc : R }.

Definition set_unc (u : R) (i : image_info) : image_info := Info (j_pos i) (j_energy i) u.
Fixpoint set_last (u : R) (l : list image_info) : list image_info :=
  match l with [] => [] | [x] => [set_unc u x] | x :: t => x :: set_last u t end.

Fixpoint image_uncertainties (unc : list R -> R) (mask : list nat) (l : list image_info) : result (list R) :=
  match l with
  | [] => Ok []
  | i :: t => bind (take (j_pos i) mask) (fun p => bind (image_uncertainties unc mask t) (fun us => Ok (2 * unc p :: us)))
  end.

(** images, uncertainty_path, e_path *)
Definition results_predicted_path (unc : list R -> R) (mask : list nat) (images : list image_info) : result (list image_info * list R * list R) :=
  match images with
  | [] => Err IndexError
  | _ =>
    bind (image_uncertainties unc mask images) (fun us =>
    let images := map (fun q => set_unc (snd q) (fst q)) (combine images us) in
    let images := match images with [] => [] | x :: t => set_unc 0 x :: t end in
    Ok (set_last 0 images, us, map j_energy images))
  end.

(** io.py 167-178: the rows of results_neb.csv *)
Definition results_csv (s e uncertainty_path : list R) : result (list (R * R * R)) :=
  if ((length e =? length s) && (length uncertainty_path =? length s))%nat
  then Ok (combine (combine s e) uncertainty_path) else Err ValueError.

(** ** io.py 102-141 print_info_neb: the table.  [round] is np.round. *)
Record report := Report { e_iter : nat; e_forward : R; e_backward : R; e_table : option (list (list R)) }.

Definition print_info_neb (round : nat -> R -> R) (r : report) (uncertainty_path : list R) (fmax : R) : result report :=
  let fwd := if (e_iter r <? 2)%nat then 0 else e_forward r in
  let bwd := if (e_iter r <? 2)%nat then 0 else e_backward r in
  bind (maxR (interior uncertainty_path)) (fun umax =>
  let row := [INR (e_iter r); round 5%nat fwd; round 5%nat bwd; round 5%nat umax; round 5%nat (mean (interior uncertainty_path)); round 6%nat fmax] in
  match e_iter r, e_table r with
  | O, _ => Ok (Report 0 fwd bwd (Some [row]))
  | k, Some t => Ok (Report k fwd bwd (Some (t ++ [row])))
  | _, None => Err AttributeError
  end).

(** mlneb.py 568-581: the numbers before the table is printed in a pass of the loop *)
Definition report_pass (round : nat -> R -> R) (r : report) (e_path uncertainty_path : list R) (fmax : R) : result report :=
  bind (maxR e_path) (fun m =>
  print_info_neb round (Report (S (e_iter r)) (m - nth 0 e_path 0) (m - last e_path 0) (e_table r)) uncertainty_path fmax).

(** 296-300: with two training points only, one evaluation comes before the loop *)
Definition report_extra (round : nat -> R -> R) (r : report) (uncertainty_path : list R) (fmax : R) : result report :=
  print_info_neb round (Report (S (e_iter r)) (e_forward r) (e_backward r) (e_table r)) uncertainty_path fmax.

(** ** The files of paths *)
Record path_files := Files { f_all : option (list position); f_last : option (list position) }.

(** mlneb.py 222 *)
Definition files_start (last : option (list position)) (images : list position) : path_files := Files (Some images) last.

(** io.py 181-193 store_trajectory_neb, without evaluated_structures.traj (OptModel) *)
Definition store_paths (f : path_files) (images : list position) : path_files :=
  Files (Some (match f_all f with Some l => l | None => [] end ++ images)) (Some images).

(** mlneb.py 614-616; a missing file is an error *)
Definition clean_up (f : path_files) : result path_files :=
  match f_last f, f_all f with Some _, Some _ => Ok (Files None None) | _, _ => Err RuntimeError end.

(** read(.., ':n') and read(.., '-n:') *)
Definition first_images (n : nat) (l : list position) : list position := firstn n l.
Definition last_images (n : nat) (l : list position) : list position := skipn (length l - n) l.

(** 325-344: the path that the optimization on the surrogate starts from *)
Definition starting_path (f : path_files) (images : list position) (n cycle : nat) : result (list position) :=
  match cycle with
  | O => match f_all f with None => Err RuntimeError | Some l => Ok (first_images n l) end
  | 1%nat => match f_all f with None => Err RuntimeError | Some l => Ok (last_images n l) end
  | _ => Ok images
  end.

(** 345-353 with 629-665: the path after it is set up; an image that the starting path does
    not have is an error *)
Definition setup_path (is fs : position) (start : list position) (n : nat) : result (list position) :=
  if (n - 1 <=? length start)%nat then Ok (create_ml_neb is fs (fun i => nth i start []) n) else Err IndexError.
