(** What a covariance matrix with derivatives has to contain: small specification,
    independent of the code. *)
From Coq Require Import Reals List Arith.
From Verif Require Import RBase KernModel.
Import ListNotations.
Open Scope R_scope.

(** The point x with coordinate d replaced by t. *)
Definition set_coord (d : nat) (t : R) (x : row) : row := firstn d x ++ t :: skipn (S d) x.

(** v is the partial derivative of f at x in coordinate d. *)
Definition partial (f : row -> R) (d : nat) (x : row) (v : R) : Prop :=
  derivable_pt_lim (fun t => f (set_coord d t x)) (nth d x 0) v.

(** v is the derivative of k in coordinate a of its first and coordinate b of its
    second argument. *)
Definition mixed_partial (k : row -> row -> R) (a b : nat) (x y : row) (v : R) : Prop :=
  exists g, (forall z, length z = length x -> partial (fun y => k z y) b y (g z)) /\ partial g a x v.

(** K is the covariance of the values and of the D derivatives at the points xs:
    the values come first, then the derivatives point by point. *)
Record gradient_covariance (k : row -> row -> R) (D : nat) (xs : list row) (K : matrix) : Prop := {
  gc_rows : nr K = (length xs + length xs * D)%nat;
  gc_cols : nc K = (length xs + length xs * D)%nat;
  gc_value : forall i j, (i < length xs)%nat -> (j < length xs)%nat ->
    at_ K i j = k (nth i xs []) (nth j xs []);
  gc_right : forall i j d, (i < length xs)%nat -> (j < length xs)%nat -> (d < D)%nat ->
    partial (fun y => k (nth i xs []) y) d (nth j xs []) (at_ K i (length xs + j * D + d));
  gc_left : forall i j d, (i < length xs)%nat -> (j < length xs)%nat -> (d < D)%nat ->
    partial (fun x => k x (nth j xs [])) d (nth i xs []) (at_ K (length xs + i * D + d) j);
  gc_mixed : forall i j a b, (i < length xs)%nat -> (j < length xs)%nat -> (a < D)%nat -> (b < D)%nat ->
    mixed_partial k a b (nth i xs []) (nth j xs []) (at_ K (length xs + i * D + a) (length xs + j * D + b)) }.

(** The same for values at the points xs against values and derivatives at ys. *)
Record gradient_cross_covariance (k : row -> row -> R) (D : nat) (xs ys : list row) (K : matrix) : Prop := {
  gx_rows : nr K = length xs;
  gx_cols : nc K = (length ys + length ys * D)%nat;
  gx_value : forall i j, (i < length xs)%nat -> (j < length ys)%nat ->
    at_ K i j = k (nth i xs []) (nth j ys []);
  gx_right : forall i j d, (i < length xs)%nat -> (j < length ys)%nat -> (d < D)%nat ->
    partial (fun y => k (nth i xs []) y) d (nth j ys []) (at_ K i (length ys + j * D + d)) }.
