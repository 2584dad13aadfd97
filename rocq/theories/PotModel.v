(** Model of the test potentials of catlearn/optimize/functions_calc.py.

    A structure is the list of the positions of its atoms.  Floats are real numbers.
    Calculator.calculate of ASE (storing a copy of the structure) has no effect here. *)
From Coq Require Import Reals List Arith.
From Verif Require Import Base RBase.
Import ListNotations.
Open Scope R_scope.

Notation point := (R * R * R)%type.

(** The four parameter lists of MullerBrown have six numbers each. *)
Record mb_par := MB { mb0 : R; mb1 : R; mb2 : R; mb3 : R; mb4 : R; mb5 : R }.

Inductive potential :=
| MultiModal
| MullerBrown (p1 p2 p3 p4 : mb_par)
| GoldsteinPrice
| Himmelblau
| ModifiedHimmelblau
| Rosenbrock.

(** 84-87 *)
Definition mb_default : potential :=
  MullerBrown (MB (-200) (-1) 0 (-10) 1 0) (MB (-100) (-1) 0 (-10) 0 (5/10))
              (MB (-170) (-65/10) 11 (-65/10) (-5/10) (15/10)) (MB 15 (7/10) (6/10) (7/10) (-1) 1).

(** 25-44: value and the two derivatives *)
Definition multim (x y A B xmin ymin : R) : R * R * R :=
  let e_1 := exp (- (x - xmin) ^ 2 / B ^ 2) in
  let e_2 := exp (- (y - ymin) ^ 2 / B ^ 2) in
  let f := - A * e_1 * e_2 in
  let e_1_dx := -2 * (x - xmin) / B ^ 2 * e_1 in
  let e_2_dx := 0 in
  let dx := - A * (e_1_dx * e_2 + e_1 * e_2_dx) in
  let e_1_dy := 0 in
  let e_2_dy := -2 * (y - ymin) / B ^ 2 * e_2 in
  let dy := - A * (e_1_dy * e_2 + e_1 * e_2_dy) in
  (f, dx, dy).

(** 46-50, one entry per minimum: A, B, xmin, ymin *)
Definition minima : list (R * R * R * R) :=
  [ (143/10, 9/10, 0, 0); (13, 78/100, 0, 2); (145/10, 81/100, 0, -2);
    (135/10, 76/100, 2, 0); (125/10, 8/10, 2, 2); (14, 79/100, 2, -2);
    (135/10, 76/100, -2, 0); (142/10, 74/100, -2, 2); (13, 79/100, -2, -2) ].

(** 52-68 *)
Definition multimodal (ms : list (R * R * R * R)) (x y : R) : R * R * R :=
  let v q := let '(A, B, xmin, ymin) := q in multim x y A B xmin ymin in
  (sumR (map (fun q => fst (fst (v q))) ms), sumR (map (fun q => snd (fst (v q))) ms), sumR (map (fun q => snd (v q)) ms)).

(** 106-128 one of the four exponentials *)
Definition mb_term (p : mb_par) (x y : R) : R :=
  mb0 p * exp (mb1 p * (x - mb4 p) ^ 2 + mb2 p * (x - mb4 p) * (y - mb5 p) + mb3 p * (y - mb5 p) ^ 2).
(** 133-147, 149-163 *)
Definition mb_dx (p : mb_par) (x y : R) : R := mb_term p x y * (2 * mb1 p * (x - mb4 p) + mb2 p * (y - mb5 p)).
Definition mb_dy (p : mb_par) (x y : R) : R := mb_term p x y * (mb2 p * (x - mb4 p) + 2 * mb3 p * (y - mb5 p)).

(** The numbers energy, fx and fy of each class before the common factor:
    52-68, 105-166, 198-221, 252-256, 288-293, 366-370 *)
Definition value (v : potential) (x y : R) : R * R * R :=
  match v with
  | MultiModal => multimodal minima x y
  | MullerBrown p1 p2 p3 p4 =>
      (mb_term p1 x y + mb_term p2 x y + mb_term p3 x y + mb_term p4 x y,
       mb_dx p1 x y + mb_dx p2 x y + mb_dx p3 x y + mb_dx p4 x y,
       mb_dy p1 x y + mb_dy p2 x y + mb_dy p3 x y + mb_dy p4 x y)
  | GoldsteinPrice =>
      ((1 + (1 + x + y) ^ 2 * (19 - 14 * x + 3 * x ^ 2 - 14 * y + 6 * x * y + 3 * y ^ 2)) *
       (30 + (2 * x - 3 * y) ^ 2 * (18 - 32 * x + 12 * x ^ 2 + 48 * y - 36 * x * y + 27 * y ^ 2)),
       (1 + (1 + x + y) ^ 2 * (19 - 14 * x + 3 * x ^ 2 - 14 * y + 6 * x * y + 3 * y ^ 2)) *
       ((-32 + 24 * x - 36 * y) * (2 * x - 3 * y) ^ 2 +
        4 * (2 * x - 3 * y) * (18 - 32 * x + 12 * x ^ 2 + 48 * y - 36 * x * y + 27 * y ^ 2)) +
       ((1 + x + y) ^ 2 * (-14 + 6 * x + 6 * y) +
        2 * (1 + x + y) * (19 - 14 * x + 3 * x ^ 2 - 14 * y + 6 * x * y + 3 * y ^ 2)) *
       (30 + (2 * x - 3 * y) ^ 2 * (18 - 32 * x + 12 * x ^ 2 + 48 * y - 36 * x * y + 27 * y ^ 2)),
       (1 + (1 + x + y) ^ 2 * (19 - 14 * x + 3 * x ^ 2 - 14 * y + 6 * x * y + 3 * y ^ 2)) *
       ((2 * x - 3 * y) ^ 2 * (48 - 36 * x + 54 * y) -
        6 * (2 * x - 3 * y) * (18 - 32 * x + 12 * x ^ 2 + 48 * y - 36 * x * y + 27 * y ^ 2)) +
       ((1 + x + y) ^ 2 * (-14 + 6 * x + 6 * y) +
        2 * (1 + x + y) * (19 - 14 * x + 3 * x ^ 2 - 14 * y + 6 * x * y + 3 * y ^ 2)) *
       (30 + (2 * x - 3 * y) ^ 2 * (18 - 32 * x + 12 * x ^ 2 + 48 * y - 36 * x * y + 27 * y ^ 2)))
  | Himmelblau =>
      ((x ^ 2 + y - 11) ^ 2 + (x + y ^ 2 - 7) ^ 2,
       4 * x * (x ^ 2 + y - 11) + 2 * x + 2 * y ^ 2 - 14,
       2 * x ^ 2 + 4 * y * (x + y ^ 2 - 7) + 2 * y - 22)
  | ModifiedHimmelblau =>
      ((x ^ 2 + y - 11) ^ 2 + (x + y ^ 2 - 7) ^ 2 + 5/10 * x + y,
       4 * x * (x ^ 2 + y - 11) + 2 * x + 2 * y ^ 2 - 14 + 5/10,
       2 * x ^ 2 + 4 * y * (x + y ^ 2 - 7) + 2 * y - 22 + 1)
  | Rosenbrock =>
      (1/100 * ((1 - x) ^ 2 + 100 * (y - x ^ 2) ^ 2),
       1/100 * (-2 * (1 - x) - 400 * x * (y - x ^ 2)),
       1/100 * (200 * (y - x ^ 2)))
  end.

(** The common factor: 75-76, 173-174, 228-229, 263-264, 301-302, 378-379 *)
Definition factor (v : potential) : R :=
  match v with
  | MultiModal => 1
  | MullerBrown _ _ _ _ => / 100
  | GoldsteinPrice => 1/100
  | Himmelblau | ModifiedHimmelblau => 5/100
  | Rosenbrock => 1/100
  end.

(** calculate: energy and one force per atom; no atoms is an index error. *)
Definition calculate (v : potential) (atoms : list point) : result (R * list point) :=
  match atoms with
  | [] => Err IndexError
  | (x, y, z) :: t =>
      let '(e, fx, fy) := value v x y in
      let k := factor v in
      Ok (k * e, (k * - fx, k * - fy, k * - 0) :: map (fun _ => (k * 0, k * 0, k * 0)) t)
  end.

(** 304-342 NoiseHimmelblau with the two numbers drawn from the normal distributions. *)
Definition noise_himmelblau (n_energy n_force : R) (atoms : list point) : result (R * list point) :=
  match atoms with
  | [] => Err IndexError
  | (x, y, z) :: t =>
      let '(e, fx, fy) := value ModifiedHimmelblau x y in
      let g f := f + f * n_force in
      Ok (e + e * n_energy, (g (- fx), g (- fy), g (- 0)) :: map (fun _ => (g 0, g 0, g 0)) t)
  end.
