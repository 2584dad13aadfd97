(** The forces of the test potentials are minus the gradient of their energies. *)
From Coq Require Import Reals Lra Lia List Arith.
From Verif Require Import Base BaseFacts RBase PotModel.
From Coquelicot Require Import Coquelicot.
From Coq Require Import List.
Import ListNotations.
Open Scope R_scope.

(** ** Specification *)
(** Coordinate c (0, 1 or 2) of an atom, and the structure with this coordinate of atom i
    replaced. *)
Definition coord (c : nat) (q : point) : R :=
  let '(x, y, z) := q in match c with O => x | 1%nat => y | _ => z end.
Definition set_coord (c : nat) (q : point) (t : R) : point :=
  let '(x, y, z) := q in match c with O => (t, y, z) | 1%nat => (x, t, z) | _ => (x, y, t) end.
Fixpoint move (i c : nat) (t : R) (atoms : list point) : list point :=
  match atoms, i with
  | [], _ => []
  | q :: l, O => set_coord c q t :: l
  | q :: l, S i => q :: move i c t l
  end.

(** The energy reported for a structure. *)
Definition energy_of (v : potential) (atoms : list point) : R :=
  match calculate v atoms with Ok (e, _) => e | Err _ => 0 end.

(** ** The derivatives of the energy of one atom *)
Lemma sumR_derive {A} (f df : A -> R -> R) (l : list A) (t : R) :
  (forall a, is_derive (f a) t (df a t)) -> is_derive (fun t => sumR (map (fun a => f a t) l)) t (sumR (map (fun a => df a t) l)).
Proof.
  intros H. induction l as [|a l IH]; cbn.
  - apply (is_derive_const (K := R_AbsRing) (V := R_NormedModule) 0 t).
  - apply (is_derive_plus (K := R_AbsRing) (V := R_NormedModule) (f a) (fun t => sumR (map (fun a => f a t) l))); auto.
Qed.

Definition v_e (q : R * R * R) := fst (fst q).
Definition v_x (q : R * R * R) := snd (fst q).
Definition v_y (q : R * R * R) := snd q.

Lemma d_val (f : R -> R) (x a b : R) : is_derive f x a -> a = b -> is_derive f x b.
Proof. intros H <-. exact H. Qed.

Lemma multimodal_dx ms (x y : R) : is_derive (fun t => v_e (multimodal ms t y)) x (v_x (multimodal ms x y)).
Proof.
  unfold multimodal, v_e, v_x. cbn [fst snd].
  apply (sumR_derive (fun q t => fst (fst (let '(A, B, xmin, ymin) := q in multim t y A B xmin ymin)))
                     (fun q t => snd (fst (let '(A, B, xmin, ymin) := q in multim t y A B xmin ymin))) ms x).
  intros [[[A B] xm] ym]. unfold multim, Rdiv. cbn [fst snd]. generalize (/ B ^ 2). intros b.
  eapply d_val; [auto_derive; [auto|reflexivity]|]. unfold Rminus. cbn [pow INR Init.Nat.pred]. ring.
Qed.

Lemma multimodal_dy ms (x y : R) : is_derive (fun t => v_e (multimodal ms x t)) y (v_y (multimodal ms x y)).
Proof.
  unfold multimodal, v_e, v_y. cbn [fst snd].
  apply (sumR_derive (fun q t => fst (fst (let '(A, B, xmin, ymin) := q in multim x t A B xmin ymin)))
                     (fun q t => snd (let '(A, B, xmin, ymin) := q in multim x t A B xmin ymin)) ms y).
  intros [[[A B] xm] ym]. unfold multim, Rdiv. cbn [fst snd]. generalize (/ B ^ 2). intros b.
  eapply d_val; [auto_derive; [auto|reflexivity]|]. unfold Rminus. cbn [pow INR Init.Nat.pred]. ring.
Qed.

Lemma value_dx v (x y : R) : is_derive (fun t => v_e (value v t y)) x (v_x (value v x y)).
Proof.
  destruct v as [|p1 p2 p3 p4| | | |].
  - apply multimodal_dx.
  - destruct p1 as [a0 a1 a2 a3 a4 a5], p2 as [b0 b1 b2 b3 b4 b5], p3 as [c0 c1 c2 c3 c4 c5], p4 as [d0 d1 d2 d3 d4 d5]. unfold value, v_e, v_x, mb_dx, mb_term. cbn [fst snd mb0 mb1 mb2 mb3 mb4 mb5].
    eapply d_val; [auto_derive; [auto|reflexivity]|]. unfold Rminus. cbn [pow INR Init.Nat.pred]. ring.
  - unfold value, v_e, v_x. cbn [fst snd]. eapply d_val; [auto_derive; [auto|reflexivity]|]. cbn [INR Init.Nat.pred pow]. ring.
  - unfold value, v_e, v_x. cbn [fst snd]. eapply d_val; [auto_derive; [auto|reflexivity]|]. cbn [INR Init.Nat.pred pow]. ring.
  - unfold value, v_e, v_x. cbn [fst snd]. eapply d_val; [auto_derive; [auto|reflexivity]|]. cbn [INR Init.Nat.pred pow]. field.
  - unfold value, v_e, v_x. cbn [fst snd]. eapply d_val; [auto_derive; [auto|reflexivity]|]. cbn [INR Init.Nat.pred pow]. field.
Qed.

Lemma value_dy v (x y : R) : is_derive (fun t => v_e (value v x t)) y (v_y (value v x y)).
Proof.
  destruct v as [|p1 p2 p3 p4| | | |].
  - apply multimodal_dy.
  - destruct p1 as [a0 a1 a2 a3 a4 a5], p2 as [b0 b1 b2 b3 b4 b5], p3 as [c0 c1 c2 c3 c4 c5], p4 as [d0 d1 d2 d3 d4 d5]. unfold value, v_e, v_y, mb_dy, mb_term. cbn [fst snd mb0 mb1 mb2 mb3 mb4 mb5].
    eapply d_val; [auto_derive; [auto|reflexivity]|]. unfold Rminus. cbn [pow INR Init.Nat.pred]. ring.
  - unfold value, v_e, v_y. cbn [fst snd]. eapply d_val; [auto_derive; [auto|reflexivity]|]. cbn [INR Init.Nat.pred pow]. ring.
  - unfold value, v_e, v_y. cbn [fst snd]. eapply d_val; [auto_derive; [auto|reflexivity]|]. cbn [INR Init.Nat.pred pow]. ring.
  - unfold value, v_e, v_y. cbn [fst snd]. eapply d_val; [auto_derive; [auto|reflexivity]|]. cbn [INR Init.Nat.pred pow]. field.
  - unfold value, v_e, v_y. cbn [fst snd]. eapply d_val; [auto_derive; [auto|reflexivity]|]. cbn [INR Init.Nat.pred pow]. field.
Qed.

Lemma energy_of_cons v x y z t : energy_of v ((x, y, z) :: t) = factor v * v_e (value v x y).
Proof. unfold energy_of, calculate, v_e. destruct (value v x y) as [[e fx] fy]. reflexivity. Qed.

(** ** The theorem *)
(** Every calculator, every structure with at least one atom, every coordinate of every
    atom: the energy as a function of this coordinate is differentiable, and the reported
    force is minus its derivative. *)
Theorem forces_are_minus_gradient v atoms e forces :
  calculate v atoms = Ok (e, forces) ->
  e = energy_of v atoms /\ length forces = length atoms /\
  forall i c, (i < length atoms)%nat -> (c < 3)%nat ->
    is_derive (fun t => energy_of v (move i c t atoms)) (coord c (nth i atoms (0, 0, 0))) (- coord c (nth i forces (0, 0, 0))).
Proof.
  intros E. split; [unfold energy_of; rewrite E; auto|]. destruct atoms as [|[[x y] z] l]; [discriminate|].
  unfold calculate in E. destruct (value v x y) as [[e0 fx] fy] eqn:EV. cbv zeta in E. injection E as _ <-.
  split; [cbn; rewrite map_length; auto|].
  intros i c Hi Hc. destruct i as [|i].
  - cbn [nth].
    destruct c as [|[|[|c]]]; [| | |lia]; cbn [coord move set_coord].
    + apply is_derive_ext with (fun t => factor v * v_e (value v t y)); [intros t; rewrite energy_of_cons; auto|].
      eapply d_val; [apply (is_derive_scal (fun t => v_e (value v t y)) x (factor v)); apply value_dx|].
      rewrite EV. unfold v_x. cbn. ring.
    + apply is_derive_ext with (fun t => factor v * v_e (value v x t)); [intros t; rewrite energy_of_cons; auto|].
      eapply d_val; [apply (is_derive_scal (fun t => v_e (value v x t)) y (factor v)); apply value_dy|].
      rewrite EV. unfold v_y. cbn. ring.
    + apply is_derive_ext with (fun t => factor v * v_e (value v x y)); [intros t; rewrite energy_of_cons; auto|].
      eapply d_val; [apply (is_derive_const (K := R_AbsRing) (V := R_NormedModule))|]. cbn. ring.
  - cbn [nth move].
    apply is_derive_ext with (fun t => factor v * v_e (value v x y)); [intros t; rewrite energy_of_cons; auto|].
    eapply d_val; [apply (is_derive_const (K := R_AbsRing) (V := R_NormedModule))|].
    rewrite (nth_map_lt _ _ _ (0, 0, 0)) by (cbn in Hi; lia). cbn. destruct c as [|[|c]]; cbn; ring.
Qed.

(** Only a structure without atoms is an error. *)
Theorem potentials_total v atoms : atoms <> [] -> exists e forces, calculate v atoms = Ok (e, forces).
Proof.
  destruct atoms as [|[[x y] z] l]; [contradiction|]. intros _. unfold calculate. destruct (value v x y) as [[e fx] fy]. eauto.
Qed.

(** The potential with noise: with the numbers drawn equal to zero it is the potential of
    ModifiedHimmelblau without its factor 0.05; in general energy and forces are those
    times two unrelated factors. *)
Theorem noise_scales n_energy n_force atoms e f :
  calculate ModifiedHimmelblau atoms = Ok (e, f) ->
  exists e' f', noise_himmelblau n_energy n_force atoms = Ok (e', f') /\
    e' = 20 * (1 + n_energy) * e /\
    length f' = length f /\
    forall i c, (i < length f)%nat -> (c < 3)%nat -> coord c (nth i f' (0, 0, 0)) = 20 * (1 + n_force) * coord c (nth i f (0, 0, 0)).
Proof.
  destruct atoms as [|[[x y] z] l]; [discriminate|]. unfold calculate, noise_himmelblau.
  destruct (value ModifiedHimmelblau x y) as [[e0 fx] fy]. cbv zeta. intros E. injection E as <- <-.
  eexists _, _. split; [reflexivity|]. split; [cbn [factor]; field|]. split; [cbn; rewrite !map_length; auto|].
  intros i c Hi Hc. cbn in Hi. rewrite map_length in Hi. destruct i as [|i]; cbn [nth].
  - destruct c as [|[|c]]; cbn; field.
  - rewrite !(nth_map_lt _ _ _ (0, 0, 0)) by lia. destruct c as [|[|c]]; cbn; field.
Qed.

(** Two atoms, the first at (3, 2): a minimum of Himmelblau. *)
Example himmelblau_minimum : exists f, calculate Himmelblau [(3, 2, 7); (1, 1, 1)] = Ok (0, f) /\ f = [(0, 0, 0); (0, 0, 0)].
Proof. eexists. split; [cbn; f_equal; f_equal; ring|]. f_equal; [|f_equal]; f_equal; try f_equal; field. Qed.

Example rosenbrock_case : exists f, calculate Rosenbrock [(0, 1, 0)] = Ok (101 / 10000, f) /\ f = [(2 / 10000, -2 / 100, 0)].
Proof. eexists. split; [cbn; f_equal; f_equal; field|]. f_equal; f_equal; try f_equal; field. Qed.

Print Assumptions forces_are_minus_gradient.
Print Assumptions potentials_total.
Print Assumptions noise_scales.
