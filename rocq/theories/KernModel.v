(** Model of catlearn/regression/gpfunctions/{kernel_setup,kernels,covariance,
    kernel_scaling}.py.

    Simplifications, stated once: floats are real numbers; a division by a zero
    width is not modelled (theorems exclude it); data matrices are rectangular
    lists of rows with at least one row; matrices returned by the kernels are a
    number of rows, a number of columns and an entry function. *)
From Coq Require Import Reals List Arith Bool Lia.
From Verif Require Import Base RBase LinAlg.
Import ListNotations.
Open Scope R_scope.

Notation row := (list R).

(** The 'type' strings.  [KOther] stands for sqe, scaled_sqe, AA and every unknown
    name. *)
Inductive ktype :=
| KConstant | KConstantMulti | KNoiseMulti | KGaussian | KQuadratic | KLaplacian
| KLinear | KUser | KOther.

Definition ktype_eqb (a b : ktype) : bool :=
  match a, b with
  | KConstant, KConstant | KConstantMulti, KConstantMulti | KNoiseMulti, KNoiseMulti
  | KGaussian, KGaussian | KQuadratic, KQuadratic | KLaplacian, KLaplacian
  | KLinear, KLinear | KUser, KUser | KOther, KOther => true
  | _, _ => false
  end.

(** A value that is a number or a sequence of numbers. *)
Inductive val := Num (x : R) | Arr (l : list R).

(** The values of the 'dimension' key. *)
Inductive dimension := Single | Features | OtherDim.

(** Lower and optional upper bound. *)
Notation bound := (R * option R)%type.

(** One kernel dictionary: an option for every key that may be absent. [k_float]
    says whether 'scaling' (when present) is a float; [k_unknown] whether the
    dictionary has some key none of the setup functions knows. *)
Record kdict := KD {
  k_type : option ktype;
  k_mult : bool;                       (* 'operation' is 'multiplication' *)
  k_features : option (list nat);
  k_dimension : option dimension;
  k_scaling : option R;
  k_float : bool;
  k_scaling_bounds : option (list bound);
  k_bounds : option (list bound);
  k_width : option val;
  k_const : option R;
  k_slope : option val;
  k_degree : option val;
  k_hyper : option val;
  k_unknown : bool }.

Definition set_width k w := KD (k_type k) (k_mult k) (k_features k) (k_dimension k) (k_scaling k) (k_float k)
  (k_scaling_bounds k) (k_bounds k) (Some w) (k_const k) (k_slope k) (k_degree k) (k_hyper k) (k_unknown k).
Definition set_slope k s := KD (k_type k) (k_mult k) (k_features k) (k_dimension k) (k_scaling k) (k_float k)
  (k_scaling_bounds k) (k_bounds k) (k_width k) (k_const k) (Some s) (k_degree k) (k_hyper k) (k_unknown k).
Definition set_degree k d := KD (k_type k) (k_mult k) (k_features k) (k_dimension k) (k_scaling k) (k_float k)
  (k_scaling_bounds k) (k_bounds k) (k_width k) (k_const k) (k_slope k) (Some d) (k_hyper k) (k_unknown k).
Definition set_hyper k h := KD (k_type k) (k_mult k) (k_features k) (k_dimension k) (k_scaling k) (k_float k)
  (k_scaling_bounds k) (k_bounds k) (k_width k) (k_const k) (k_slope k) (k_degree k) (Some h) (k_unknown k).
Definition set_const k c := KD (k_type k) (k_mult k) (k_features k) (k_dimension k) (k_scaling k) (k_float k)
  (k_scaling_bounds k) (k_bounds k) (k_width k) (Some c) (k_slope k) (k_degree k) (k_hyper k) (k_unknown k).
Definition set_scaling k s := KD (k_type k) (k_mult k) (k_features k) (k_dimension k) (Some s) true
  (k_scaling_bounds k) (k_bounds k) (k_width k) (k_const k) (k_slope k) (k_degree k) (k_hyper k) (k_unknown k).

Definition is_some {A} (o : option A) : bool := match o with Some _ => true | None => false end.

Definition require (b : bool) : result unit := if b then Ok tt else Err AssertionError.
Notation "'assert!' b ; k" := (bind (require b) (fun _ => k)) (at level 60, right associativity).

(** ** kernel_setup.py *)

(** kernel_setup.py 128-162 and 199-230: 'width' (and 178-188: 'slope') becomes a
    list of N_D numbers. *)
Definition format_vec (v : val) (nd : nat) : result (list R) :=
  match v with
  | Num x => Ok (repeat x nd)
  | Arr l => if (length l =? nd)%nat then Ok l else Err AssertionError
  end.

(** kernel_setup.py 63-71 *)
Definition scaling_setup (k : kdict) (dflt : bound) : result (list bound) :=
  assert! (k_float k);
  Ok (match k_scaling_bounds k with Some b => b | None => [dflt] end).

(** kernel_setup.py 74-230, the _X_setup functions: the updated dictionary and the
    bounds that are appended. *)
Definition type_setup (t : ktype) (k : kdict) (nd : nat) (dflt : bound) : result (kdict * list bound) :=
  let bnds n := match k_bounds k with Some b => b | None => repeat dflt n end in
  match t with
  | KUser | KLinear => Ok (k, [])                       (* 47 *)
  | KConstant =>                                        (* 74-91 *)
      assert! negb (is_some (k_scaling k) || is_some (k_scaling_bounds k) || is_some (k_width k) ||
                    is_some (k_slope k) || is_some (k_degree k) || is_some (k_hyper k) || k_unknown k);
      match k_const k with
      | None => Err KeyError
      | Some _ => Ok (k, bnds 1%nat)
      end
  | KConstantMulti | KNoiseMulti =>                     (* 94-125 *)
      assert! negb (is_some (k_features k) || is_some (k_dimension k) || is_some (k_scaling k) ||
                    is_some (k_scaling_bounds k) || is_some (k_width k) || is_some (k_const k) ||
                    is_some (k_slope k) || is_some (k_degree k) || k_unknown k);
      Ok (k, bnds (match t with KConstantMulti => 3 | _ => 2 end)%nat)
  | KGaussian =>                                        (* 128-162 *)
      match k_width k with
      | None => Err AssertionError
      | Some w =>
          assert! negb (is_some (k_const k) || is_some (k_slope k) || is_some (k_degree k) ||
                        is_some (k_hyper k) || k_unknown k);
          bind (format_vec w nd) (fun l =>
          assert! forallb (fun x => Rltb 0 x) l;
          Ok (set_width k (Arr l), bnds nd))
      end
  | KLaplacian =>                                       (* 199-230 *)
      match k_width k with
      | None => Err AssertionError
      | Some w =>
          assert! negb (is_some (k_const k) || is_some (k_slope k) || is_some (k_degree k) ||
                        is_some (k_hyper k) || k_unknown k);
          bind (format_vec w nd) (fun l => Ok (set_width k (Arr l), bnds nd))
      end
  | KQuadratic =>                                       (* 165-196 *)
      match k_slope k, k_degree k with
      | Some s, Some _ =>
          assert! negb (is_some (k_const k) || is_some (k_width k) || is_some (k_hyper k) || k_unknown k);
          bind (format_vec s nd) (fun l => Ok (set_slope k (Arr l), bnds (nd + 1)%nat))
      | _, _ => Err AssertionError
      end
  | KOther => Err NotImplementedError                   (* 50-54 *)
  end.

(** kernel_setup.py 25-54, the loop body. *)
Definition prepare_kernel (k : kdict) (nd : nat) (dflt : bound) : result (kdict * list bound) :=
  match k_type k with
  | None => Err AssertionError
  | Some t =>
      let c := match k_features k with Some f => length f | None => nd end in
      assert! (c <=? nd)%nat;
      assert! match k_dimension k with Some OtherDim => false | _ => true end;
      let c := match k_dimension k with Some Single => 1%nat | _ => c end in
      bind (match k_scaling k with Some _ => scaling_setup k dflt | None => Ok [] end) (fun sb =>
      bind (type_setup t k c dflt) (fun r => Ok (fst r, sb ++ snd r)))
  end.

(** kernel_setup.py 5-60 *)
Fixpoint prepare_loop (ks : list kdict) (nd : nat) (dflt : bound) : result (list kdict * list bound) :=
  match ks with
  | [] => Ok ([], [])
  | k :: t =>
      bind (prepare_kernel k nd dflt) (fun r =>
      bind (prepare_loop t nd dflt) (fun rs => Ok (fst r :: fst rs, snd r ++ snd rs)))
  end.

Definition default_bound (eval_gradients : bool) : bound :=
  if eval_gradients then (/ 1000000, Some 1000000) else (/ 10000000000, None).

Definition prepare_kernels (ks : list kdict) (reg_bound : bound) (eval_gradients : bool) (nd : nat) :
  result (list kdict * list bound) :=
  bind (prepare_loop ks nd (default_bound eval_gradients)) (fun r => Ok (fst r, snd r ++ [reg_bound])).

(** kernel_setup.py 267-305, list(kdict['width']) and so on; list of a float is a
    TypeError, a missing key a KeyError. The key 'theta' is not modelled. *)
Definition to_list (v : val) : result (list val) :=
  match v with Num _ => Err TypeError | Arr l => Ok (map Num l) end.

Definition get_theta (k : kdict) (nd : nat) : result (list val) :=
  bind (match k_width k with Some w => to_list w | None => Ok [] end) (fun th =>
  let th := match k_const k with Some c => [Num c] | None => th end in
  bind (match k_type k with
        | Some KQuadratic =>
            match k_slope k, k_degree k with
            | Some s, Some d => bind (to_list s) (fun l => Ok (l ++ [d]))
            | _, _ => Err KeyError
            end
        | _ => Ok th
        end) (fun th =>
  match k_hyper k with
  | Some (Num x) => Ok (repeat (Num x) nd)
  | Some (Arr l) => Ok (map Num l)
  | None => Ok th
  end)).

(** kernel_setup.py 233-264 *)
Definition kdict2list (k : kdict) (nd : nat) : result (list R * list val) :=
  match k_type k with
  | None => Err KeyError
  | Some _ =>
      let scaling := match k_scaling k with Some s => [s] | None => [] end in
      let nd := match k_features k with Some f => length f | None => nd end in
      bind (get_theta k nd) (fun th => Ok (scaling, th))
  end.

(** A list that should become a one-dimensional float array: numpy (since 1.24; an
    array of objects and a warning before) refuses a list that mixes numbers and
    arrays. *)
Fixpoint floats (l : list val) : result (list R) :=
  match l with
  | [] => Ok []
  | Num x :: t => bind (floats t) (fun r => Ok (x :: r))
  | Arr _ :: _ => Err ValueError
  end.

(** kernel_setup.py 308-327; np.concatenate of nothing is a ValueError. *)
Fixpoint kdicts_loop (ks : list kdict) (nd : nat) : result (list R) :=
  match ks with
  | [] => Ok []
  | k :: t =>
      bind (kdict2list k nd) (fun r =>
      bind (floats (snd r)) (fun th =>
      bind (kdicts_loop t nd) (fun rest => Ok (fst r ++ th ++ rest))))
  end.

Definition kdicts2list (ks : list kdict) (nd : nat) : result (list R) :=
  match ks with [] => Err ValueError | _ => kdicts_loop ks nd end.

(** len(kdict['width']) *)
Definition len (o : option val) : result nat :=
  match o with None => Err KeyError | Some (Num _) => Err TypeError | Some (Arr l) => Ok (length l) end.

Definition item (h : list R) (i : nat) : result R :=
  match nth_error h i with Some x => Ok x | None => Err IndexError end.

Definition slice (h : list R) (i n : nat) : list R := firstn n (skipn i h).

(** kernel_setup.py 347-394, one turn of the loop: the updated dictionary and the
    updated position [ki].  Branches for sqe and scaled_sqe are not modelled
    ([KOther] is treated as any other type). *)
Definition list2kdict_step (h : list R) (ki : nat) (k : kdict) : result (kdict * nat) :=
  match k_type k with
  | None => Err KeyError
  | Some t =>
      bind (match k_scaling k with
            | Some _ => bind (item h ki) (fun x => Ok (set_scaling k x, S ki))
            | None => Ok (k, ki)
            end) (fun r =>
      let '(k, ki) := r in
      match t with
      | KGaussian | KLaplacian =>
          bind (len (k_width k)) (fun n => Ok (set_width k (Arr (slice h ki n)), (ki + n)%nat))
      | KQuadratic =>
          bind (len (k_slope k)) (fun n =>
          let theta := slice h ki (n + 1) in
          Ok (set_degree (set_slope k (Arr (firstn n theta))) (Arr (skipn n theta)), (ki + n + 1)%nat))
      | KLinear => Ok (k, ki)
      | KConstant => bind (item h ki) (fun x => Ok (set_const k x, S ki))
      | _ => bind (len (k_hyper k)) (fun n => Ok (set_hyper k (Arr (slice h ki n)), ki))
      end)
  end.

(** kernel_setup.py 330-396 *)
Fixpoint list2kdict_from (h : list R) (ki : nat) (ks : list kdict) : result (list kdict) :=
  match ks with
  | [] => Ok []
  | k :: t =>
      bind (list2kdict_step h ki k) (fun r =>
      bind (list2kdict_from h (snd r) t) (fun t' => Ok (fst r :: t')))
  end.

Definition list2kdict (h : list R) (ks : list kdict) : result (list kdict) := list2kdict_from h 0 ks.

(** ** kernel_scaling.py *)

(** kernel_scaling.py 61-79: width /= std or width *= std, elementwise with numpy
    broadcasting. *)
Definition broadcast (f : R -> R -> R) (x w : row) : result row :=
  if (length x =? length w)%nat then Ok (map (fun p => f (fst p) (snd p)) (combine x w))
  else match x, w with
       | [a], _ => Ok (map (fun b => f a b) w)
       | _, [b] => Ok (map (fun a => f a b) x)
       | _, _ => Err ValueError
       end.

Fixpoint take (l : row) (idx : list nat) : result row :=
  match idx with
  | [] => Ok []
  | i :: t => bind (item l i) (fun x => bind (take l t) (fun r => Ok (x :: r)))
  end.

Definition scale_kernel (std : row) (rescale : bool) (k : kdict) : result kdict :=
  match k_dimension k with
  | Some Single => Ok k
  | _ =>
      bind (match k_features k with Some f => take std f | None => Ok std end) (fun std =>
      match k_type k with
      | None => Err KeyError
      | Some KGaussian =>
          match k_width k with
          | None => Err KeyError
          | Some v =>
              let w := match v with Num x => [x] | Arr l => l end in
              bind (broadcast (if rescale then Rmult else Rdiv) w std) (fun w' => Ok (set_width k (Arr w')))
          end
      | Some (KConstant | KLinear | KQuadratic | KLaplacian) => Ok k
      | Some _ => Err NameError
      end)
  end.

(** kernel_scaling.py 6-40 *)
Fixpoint kernel_scaling (std : row) (ks : list kdict) (rescale : bool) : result (list kdict) :=
  match ks with
  | [] => Ok []
  | k :: t => bind (scale_kernel std rescale k) (fun k' =>
              bind (kernel_scaling std t rescale) (fun t' => Ok (k' :: t')))
  end.

(** ** kernels.py *)
Record matrix := Mx { nr : nat; nc : nat; at_ : nat -> nat -> R }.

Definition logged (log_scale : bool) (x : R) : R := if log_scale then exp x else x.

(** scipy's sqeuclidean and cityblock distances of two rows. *)
Definition sqeuclidean (x y : row) : R := sumR (map (fun p => (fst p - snd p) ^ 2) (combine x y)).
Definition cityblock_dist (x y : row) : R := sumR (map (fun p => Rabs (fst p - snd p)) (combine x y)).
Definition inner (x y : row) : R := sumR (map (fun p => fst p * snd p) (combine x y)).

Definition row_at (m : list row) (i : nat) : row := nth i m [].
Definition ncols (m : list row) : nat := match m with [] => 0%nat | r :: _ => length r end.

(** m / w with broadcasting over the rows; all rows have the same length. *)
Fixpoint divide_rows (m : list row) (w : row) : result (list row) :=
  match m with
  | [] => Ok []
  | r :: t => bind (broadcast Rdiv r w) (fun r' => bind (divide_rows t w) (fun t' => Ok (r' :: t')))
  end.

(** squareform(f(pdist(m))) with the diagonal filled with 1, or f(cdist(m1, m2)). *)
Definition dist_matrix (f : row -> row -> R) (m1 : list row) (m2 : option (list row)) : matrix :=
  match m2 with
  | None => Mx (length m1) (length m1)
      (fun i j => if (i =? j)%nat then 1 else f (row_at m1 i) (row_at m1 j))
  | Some m2 => Mx (length m1) (length m2) (fun i j => f (row_at m1 i) (row_at m2 j))
  end.

Definition divide_opt (m2 : option (list row)) (w : row) : result (option (list row)) :=
  match m2 with None => Ok None | Some m => bind (divide_rows m w) (fun r => Ok (Some r)) end.

Definition cols_of (m1 : list row) (m2 : option (list row)) : list row :=
  match m2 with None => m1 | Some m => m end.

(** Column index of a covariance with gradients: n function values followed by the
    D derivatives of each point. *)
Definition grad_size (m : list row) : nat := (length m + length m * ncols m)%nat.

(** kernels.py 6-48 *)
Definition constant_kernel (c : R) (grad : bool) (m1 : list row) (m2 : option (list row)) : matrix :=
  if negb grad then Mx (length m1) (length (cols_of m1 m2)) (fun _ _ => c)
  else match m2 with
       | None => Mx (grad_size m1) (grad_size m1)
           (fun i j => if ((i <? length m1) && (j <? length m1))%nat then c else 0)
       | Some m2 => Mx (length m1) (grad_size m2) (fun i j => if (j <? length m2)%nat then c else 0)
       end.

(** kernels.py 51-109 *)
Definition constant_multi_kernel (c1 c2 c3 : R) (m1 : list row) (m2 : option (list row)) : matrix :=
  match m2 with
  | None => Mx (grad_size m1) (grad_size m1) (fun i j =>
      match (i <? length m1)%nat, (j <? length m1)%nat with
      | true, true => c1 | true, false => c2 | false, true => c2 | false, false => c3 end)
  | Some m2 => Mx (length m1) (length m2 + length m2 * ncols m1) (fun i j =>
      if (j <? length m2)%nat then c1 else c2)
  end.

(** kernels.py 112-157 *)
Definition noise_multi_kernel (c1 c2 : R) (grad : bool) (m1 : list row) (m2 : option (list row)) : matrix :=
  match m2 with
  | None =>
      if grad then Mx (grad_size m1) (grad_size m1)
        (fun i j => if (i =? j)%nat then (if (i <? length m1)%nat then c1 ^ 2 else c2 ^ 2) else 0)
      else Mx (length m1) (length m1) (fun i j => if (i =? j)%nat then c1 ^ 2 else 0)
  | Some m2 => Mx (length m1) (if grad then length m2 + length m2 * ncols m1 else length m2)%nat (fun _ _ => 0)
  end.

(** kernels.py 160-201, without gradients *)
Definition gaussian_fn (x y : row) : R := exp (- / 2 * sqeuclidean x y).

(** Coordinate d of a width that holds one number per feature or a single one. *)
Definition wnth (w : row) (d : nat) : R := match w with [a] => a | _ => nth d w 0 end.

Definition delta (a b : nat) : R := if (a =? b)%nat then 1 else 0.

(** kernels.py 204-238: for D <= 30 and D > 30 features the two branches fill the
    same entries; [gaussian_xx_branches_agree] (KernProofs) is about both. *)
Definition gaussian_xx_entry (m1 : list row) (w : row) (k : nat -> nat -> R) (p q : nat) : R :=
  let n := length m1 in
  let D := ncols m1 in
  let x i d := nth d (row_at m1 i) 0 in
  (* ldist[j, d] computed in iteration i *)
  let ldist i j d := / (wnth w d) ^ 2 * (x j d - x i d) in
  let kgd j i d := ldist i j d * k i j in                    (* big_kgd[j, i*D+d] *)
  let kdd j a i b :=                                          (* big_kdd[j*D+a, i*D+b] *)
    if (D <=? 30)%nat then (delta a b * / (wnth w b) ^ 2 - ldist i j b * ldist i j a) * k i j
    else if (j <=? i)%nat
         then (delta a b * / (wnth w b) ^ 2 - ldist j i a * ldist j i b) * k j i
         else (delta b a * / (wnth w a) ^ 2 - ldist i j b * ldist i j a) * k i j in
  if (p <? n)%nat then
    if (q <? n)%nat then k p q else kgd p ((q - n) / D)%nat ((q - n) mod D)%nat
  else
    if (q <? n)%nat then kgd q ((p - n) / D)%nat ((p - n) mod D)%nat
    else kdd ((p - n) / D)%nat ((p - n) mod D)%nat ((q - n) / D)%nat ((q - n) mod D)%nat.

Definition gaussian_xx_gradients (m1 : list row) (w : row) (k : matrix) : matrix :=
  Mx (grad_size m1) (grad_size m1) (gaussian_xx_entry m1 w (at_ k)).

(** kernels.py 241-266 *)
Definition gaussian_xxp_gradients (m1 m2 : list row) (w : row) (k : matrix) : matrix :=
  let n := length m2 in
  let D := ncols m2 in
  Mx (length m1) (grad_size m2) (fun i q =>
    if (q <? n)%nat then at_ k i q
    else let j := ((q - n) / D)%nat in let d := ((q - n) mod D)%nat in
         - (/ (wnth w d) ^ 2 * (nth d (row_at m2 j) 0 - nth d (row_at m1 i) 0) * at_ k i j)).

(** kernels.py 160-201 *)
Definition gaussian_kernel (w : row) (grad : bool) (m1 : list row) (m2 : option (list row)) : result matrix :=
  bind (divide_rows m1 w) (fun s1 =>
  bind (divide_opt m2 w) (fun s2 =>
  let k := dist_matrix gaussian_fn s1 s2 in
  if negb grad then Ok k
  else if (length w =? 1)%nat || (length w =? ncols m1)%nat then
    Ok (match m2 with
        | None => gaussian_xx_gradients m1 w k
        | Some m2 => gaussian_xxp_gradients m1 m2 w k
        end)
  else Err ValueError)).

(** kernels.py 415-448.  np.tile(m1, n)[i, q] = m1[i, q mod D]. *)
Definition linear_kernel (grad : bool) (m1 : list row) (m2 : option (list row)) : matrix :=
  if negb grad then
    let m2 := cols_of m1 m2 in
    Mx (length m1) (length m2) (fun i j => inner (row_at m1 i) (row_at m2 j))
  else
    let D := ncols m1 in
    match m2 with
    | None =>
        let n := length m1 in
        Mx (grad_size m1) (grad_size m1) (fun p q =>
          match (p <? n)%nat, (q <? n)%nat with
          | true, true => inner (row_at m1 p) (row_at m1 q)
          | true, false => nth ((q - n) mod D) (row_at m1 p) 0
          | false, true => nth ((p - n) mod D) (row_at m1 q) 0
          | false, false => 1
          end)
    | Some m2 =>
        let n := length m2 in
        Mx (length m1) (n + n * D) (fun p q =>
          if (q <? n)%nat then inner (row_at m1 p) (row_at m2 q) else nth ((q - n) mod D) (row_at m1 p) 0)
    end.

(** kernels.py 475-490: every column is divided by the one number [slope] and
    multiplied by the one number [degree]. *)
Definition quadratic_fn (degree : R) (x y : row) : R := Rpower (1 + / 2 * sqeuclidean x y) (- degree).
Definition quadratic_kernel (slope degree : R) (m1 : list row) (m2 : option (list row)) : matrix :=
  let scaled m := map (map (fun x => x / slope * degree)) m in
  dist_matrix (quadratic_fn degree) (scaled m1) (option_map scaled m2).

(** kernels.py 525-537 *)
Definition laplacian_fn (x y : row) : R := exp (- cityblock_dist x y).
Definition laplacian_kernel (w : row) (m1 : list row) (m2 : option (list row)) : result matrix :=
  bind (divide_rows m1 w) (fun s1 =>
  bind (divide_opt m2 w) (fun s2 => Ok (dist_matrix laplacian_fn s1 s2))).

(** A hyperparameter that is used as a single number: a float or an array of length
    one (other arrays do not broadcast against the distances). *)
Definition as_number (l : list val) (i : nat) : result R :=
  match nth_error l i with
  | None => Err IndexError
  | Some (Num x) => Ok x
  | Some (Arr [x]) => Ok x
  | Some (Arr _) => Err ValueError
  end.

(** covariance.py 57-59: dispatch on the type.  There is no user_kernel. *)
Definition kernel (t : ktype) (theta : list val) (log_scale grad : bool) (m1 : list row) (m2 : option (list row)) :
  result matrix :=
  match t with
  | KConstant =>
      bind (as_number theta 0) (fun c => Ok (constant_kernel (logged log_scale c) grad m1 m2))
  | KConstantMulti =>
      if negb grad then Err AssertionError else
      bind (as_number theta 0) (fun c1 => bind (as_number theta 1) (fun c2 => bind (as_number theta 2) (fun c3 =>
      Ok (constant_multi_kernel (logged log_scale c1) (logged log_scale c2) (logged log_scale c3) m1 m2))))
  | KNoiseMulti =>
      bind (as_number theta 0) (fun c1 => bind (as_number theta 1) (fun c2 =>
      Ok (noise_multi_kernel (logged log_scale c1) (logged log_scale c2) grad m1 m2)))
  | KGaussian => bind (floats theta) (fun w => gaussian_kernel (map (logged log_scale) w) grad m1 m2)
  | KLinear => Ok (linear_kernel grad m1 m2)
  | KQuadratic =>
      if grad then Err NotImplementedError else
      bind (as_number theta 0) (fun s => bind (as_number theta 1) (fun d =>
      Ok (quadratic_kernel (logged log_scale s) (logged log_scale d) m1 m2)))
  | KLaplacian =>
      if grad then Err NotImplementedError else
      bind (floats theta) (fun w => laplacian_kernel (map (logged log_scale) w) m1 m2)
  | KUser | KOther => Err AttributeError
  end.

(** ** covariance.py *)

(** matrix1[:, features] *)
Fixpoint select_columns (m : list row) (f : list nat) : result (list row) :=
  match m with
  | [] => Ok []
  | r :: t => bind (take r f) (fun r' => bind (select_columns t f) (fun t' => Ok (r' :: t')))
  end.

Definition select (k : kdict) (m : list row) : result (list row) :=
  match k_features k with None => Ok m | Some f => select_columns m f end.

(** covariance.py 36-59: scaling * k for one kernel. *)
Definition scaled_kernel (k : kdict) (log_scale grad : bool) (m1 : list row) (m2 : option (list row)) : result matrix :=
  match k_type k with
  | None => Err KeyError
  | Some t =>
      bind (select k m1) (fun s1 =>
      bind (match m2 with None => Ok None | Some m => bind (select k m) (fun s => Ok (Some s)) end) (fun s2 =>
      bind (kdict2list k (ncols m1)) (fun th =>
      let scaling := logged log_scale (match fst th with s :: _ => s | [] => 1 end) in
      bind (kernel t (snd th) log_scale grad s1 s2) (fun K =>
      Ok (Mx (nr K) (nc K) (fun i j => scaling * at_ K i j))))))
  end.

(** covariance.py 61-69.  In-place operations need equal shapes (the broadcasting of
    a 1 by 1 kernel into a larger matrix is not modelled). *)
Definition accumulate (mult : bool) (cov k : matrix) : result matrix :=
  if ((nr cov =? nr k) && (nc cov =? nc k))%nat
  then Ok (Mx (nr cov) (nc cov) (fun i j => if mult then at_ cov i j * at_ k i j else at_ cov i j + at_ k i j))
  else Err ValueError.

Fixpoint cov_loop (ks : list kdict) (log_scale grad : bool) (m1 : list row) (m2 : option (list row))
  (cov : option matrix) : result (option matrix) :=
  match ks with
  | [] => Ok cov
  | k :: t =>
      bind (scaled_kernel k log_scale grad m1 m2) (fun K =>
      let c := match cov with None => Mx (nr K) (nc K) (fun _ _ => 0) | Some c => c end in
      bind (accumulate (k_mult k) c K) (fun c' => cov_loop t log_scale grad m1 m2 (Some c')))
  end.

(** covariance.py 10-76.  For an empty kernel list the code returns None, which no
    caller can use: modelled as a TypeError. *)
Definition get_covariance (ks : list kdict) (log_scale : bool) (m1 : list row) (m2 : option (list row))
  (regularization : option R) (grad : bool) : result matrix :=
  assert! match m2 with None => true | Some m => (ncols m1 =? ncols m)%nat end;
  bind (cov_loop ks log_scale grad m1 m2 None) (fun c =>
  match c with
  | None => Err TypeError
  | Some c =>
      match regularization with
      | None => Ok c
      | Some r =>
          if (nr c =? nc c)%nat
          then Ok (Mx (nr c) (nc c) (fun i j => at_ c i j + (logged log_scale r * ident i j) ^ 2))
          else Err ValueError
      end
  end).
