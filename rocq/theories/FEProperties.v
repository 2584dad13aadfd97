(** Properties C36-C38, C82-C86: feature engineering and PCA. *)
From Coq Require Import String Reals List Bool Arith Lia Lra Permutation.
From Verif Require Import Base BaseFacts RBase PrepModel PrepProofs DBModel DBProofs FEModel FEProofs.
Import ListNotations.
Open Scope R_scope.

(** ** C36.  Products and their labels.  Columns and labels run through the same
    list of pairs i <= j, each pair once. *)
Definition upper_pairs (m : nat) (pairs : list (nat * nat)) : Prop :=
  NoDup pairs /\ forall i j, In (i, j) pairs <-> (i <= j /\ j < m)%nat.

(** Entrywise f of columns i and j. *)
Definition combined {A} (f : R -> R -> A) (cols : list (list R)) (i j : nat) (c : list A) : Prop :=
  length c = Nat.min (length (nth i cols [])) (length (nth j cols [])) /\
  forall r, (r < length c)%nat -> forall d, nth r c d = f (nth r (nth i cols []) 0) (nth r (nth j cols []) 0).

Lemma zip_combined {A} (f : R -> R -> A) cols i j :
  combined f cols i j (zip f (column_of cols i) (column_of cols j)).
Proof.
  unfold combined, zip, column_of. rewrite map_length, combine_length. split; auto.
  intros r Hr d. rewrite (nth_map_lt _ _ _ (0, 0)) by (rewrite combine_length; auto).
  set (a := nth i cols []) in *. set (b := nth j cols []) in *. clearbody a b.
  revert r b Hr. induction a as [|x a IH]; intros r [|y b] Hr; simpl in *; try lia.
  destruct r; auto. apply IH. lia.
Qed.

Lemma tri_upper m : upper_pairs m (tri_pairs m).
Proof. split; [apply tri_pairs_nodup|]. intros i j. rewrite in_tri_pairs. lia. Qed.

Lemma write_tri {A} (z : list A) m (f : nat * nat -> list A) :
  write_columns (repeat z (triangular m)) (map f (tri_pairs m)) = map f (tri_pairs m).
Proof.
  rewrite write_columns_spec by (rewrite map_length, tri_pairs_length; auto).
  rewrite map_length, tri_pairs_length, Nat.sub_diag. simpl. apply app_nil_r.
Qed.

(** What "column c is named by label c" means for a list of pairs. *)
Definition named_columns {A} (f : R -> R -> A) (name : string -> string -> string) (cols : list (list R))
  (labels : list string) (out : list (list A)) (names : list string) : Prop :=
  exists pairs, upper_pairs (length cols) pairs /\
    length out = length pairs /\ length names = length pairs /\
    forall c, (c < length pairs)%nat ->
      let '(i, j) := nth c pairs (0, 0)%nat in
      combined f cols i j (nth c out []) /\
      nth c names ""%string = name (nth i labels ""%string) (nth j labels ""%string).

Lemma tri_named {A} (f : R -> R -> A) name cols labels :
  length labels = length cols ->
  named_columns f name cols labels
    (map (fun p => zip f (column_of cols (fst p)) (column_of cols (snd p))) (tri_pairs (length cols)))
    (map (fun p => name (nth (fst p) labels ""%string) (nth (snd p) labels ""%string)) (tri_pairs (length labels))).
Proof.
  intros L. exists (tri_pairs (length cols)). split; [apply tri_upper|].
  rewrite !map_length, L. split; auto. split; auto. intros c Hc.
  destruct (nth c (tri_pairs (length cols)) (0, 0)%nat) as [i j] eqn:E. split.
  - rewrite (nth_map_lt _ _ _ (0, 0)%nat) by auto. rewrite E. apply zip_combined.
  - rewrite (nth_map_lt _ _ _ (0, 0)%nat) by auto. rewrite E. reflexivity.
Qed.

Theorem products_match_labels n cols labels :
  length labels = length cols ->
  named_columns Rmult (fun a b => (a ++ "_x_" ++ b)%string) cols labels
    (get_order_2 n cols) (get_labels_order_2 labels false) /\
  (2 * length (get_order_2 n cols) = length cols * (length cols + 1))%nat.
Proof.
  intros L. unfold get_order_2. rewrite write_tri. split.
  - apply (tri_named Rmult (fun a b => (a ++ "_x_" ++ b)%string)); auto.
  - rewrite map_length, tri_pairs_length. apply triangular_formula.
Qed.

(** C86: the same for powers and logarithms. *)
Theorem powers_match_labels n cols labels pa pb sa sb :
  length labels = length cols ->
  named_columns (fun x y => pa x * pb y)
    (fun a b => (a ++ "_" ++ sa ++ "_x_" ++ b ++ "_" ++ sb)%string) cols labels
    (get_order_2ab n cols pa pb) (get_labels_order_2ab labels sa sb).
Proof.
  intros L. unfold get_order_2ab. rewrite write_tri.
  apply (tri_named (fun x y => pa x * pb y) (fun a b => (a ++ "_" ++ sa ++ "_x_" ++ b ++ "_" ++ sb)%string)); auto.
Qed.

Theorem logs_match_labels n cols labels a b sa sb :
  length labels = length cols ->
  named_columns (fun x y => a * ln x + b * ln y)
    (fun u v => ("log" ++ sa ++ "_" ++ u ++ "log" ++ sb ++ "_" ++ v)%string) (map shifted cols) labels
    (fst (get_ablog n cols a b)) (get_labels_ablog labels sa sb).
Proof.
  intros L. unfold get_ablog. cbn [fst]. rewrite write_tri.
  replace (length cols) with (length (map shifted cols)) by apply map_length.
  apply (tri_named (fun x y => a * ln x + b * ln y)
           (fun u v => ("log" ++ sa ++ "_" ++ u ++ "log" ++ sb ++ "_" ++ v)%string)).
  rewrite map_length. auto.
Qed.

Example products_example :
  get_order_2 2 [[1; 2]; [3; 4]] = [[1 * 1; 2 * 2]; [1 * 3; 2 * 4]; [3 * 3; 4 * 4]] /\
  get_labels_order_2 ["a"; "b"]%string false = ["a_x_a"; "a_x_b"; "b_x_b"]%string.
Proof. split; reflexivity. Qed.

(** Quotients: the columns hold the off-diagonal quotients in order and then m
    columns of zeros. *)
Theorem quotient_columns_partial n cols :
  let m := length cols in
  exists pairs, NoDup pairs /\ (forall i j, In (i, j) pairs <-> (i < m /\ j < m /\ i <> j)%nat) /\
    length (get_div_order_2 n cols) = (m * m)%nat /\
    (forall c, (c < length pairs)%nat ->
       combined true_divide cols (fst (nth c pairs (0, 0)%nat)) (snd (nth c pairs (0, 0)%nat))
                (nth c (get_div_order_2 n cols) [])) /\
    length pairs = (m * m - m)%nat /\
    (forall c, (length pairs <= c < m * m)%nat -> nth c (get_div_order_2 n cols) [] = repeat (Fin 0) n).
Proof.
  cbv zeta. set (m := length cols). set (P := fun p : nat * nat => negb (fst p =? snd p)%nat).
  pose proof (off_diagonal_length m) as OD. fold P in OD.
  assert (E : get_div_order_2 n cols =
     map (fun p => zip true_divide (column_of cols (fst p)) (column_of cols (snd p))) (filter P (all_pairs m)) ++
     repeat (repeat (Fin 0) n) (m * m - (m * m - m))).
  { unfold get_div_order_2. fold m P. rewrite write_columns_spec.
    - rewrite map_length, OD. simpl. rewrite Nat.mul_1_r. reflexivity.
    - rewrite map_length, OD. simpl. lia. }
  exists (filter P (all_pairs m)). rewrite E, OD.
  assert (MM : (m <= m * m)%nat) by nia.
  split; [apply NoDup_filter, all_pairs_nodup|]. split; [|split; [|split; [|split]]]; auto.
  - intros i j. rewrite filter_In, in_all_pairs. unfold P. cbn [fst snd].
    rewrite negb_true_iff, Nat.eqb_neq. tauto.
  - rewrite app_length, map_length, OD, repeat_length. lia.
  - intros c Hc. rewrite app_nth1 by (rewrite map_length, OD; auto).
    rewrite (nth_map_lt _ _ _ (0, 0)%nat) by (rewrite OD; auto). apply zip_combined.
  - intros c Hc. rewrite app_nth2 by (rewrite map_length, OD; lia).
    rewrite map_length, OD. apply nth_repeat_lt. lia.
Qed.

(** So no quotient column ever carries its own label: with two or more features,
    the pair computed in column c differs from the pair named by label c, for
    every c. *)
Theorem quotient_labels_refuted cols labels n :
  (2 <= length cols)%nat -> length labels = length cols ->
  let m := length cols in
  exists computed named : list (nat * nat),
    (forall c, (c < m * m - m)%nat ->
       combined true_divide cols (fst (nth c computed (0, 0)%nat)) (snd (nth c computed (0, 0)%nat))
         (nth c (get_div_order_2 n cols) [])) /\
    get_labels_order_2 labels true =
      map (fun p => (nth (fst p) labels "" ++ "_div_" ++ nth (snd p) labels "")%string) named /\
    (forall c, (c < m * m - m)%nat -> nth c computed (0, 0)%nat <> nth c named (0, 0)%nat) /\
    (forall c, (m * m - m <= c < m * m)%nat -> nth c (get_div_order_2 n cols) [] = repeat (Fin 0) n).
Proof.
  intros M L. cbv zeta. set (m := length cols) in *.
  set (P := fun p : nat * nat => negb (fst p =? snd p)%nat).
  pose proof (off_diagonal_length m) as OD. fold P in OD.
  assert (E : get_div_order_2 n cols =
     map (fun p => zip true_divide (column_of cols (fst p)) (column_of cols (snd p))) (filter P (all_pairs m)) ++
     repeat (repeat (Fin 0) n) (m * m - (m * m - m))).
  { unfold get_div_order_2. fold m P. rewrite write_columns_spec.
    - rewrite map_length, OD. simpl. rewrite Nat.mul_1_r. reflexivity.
    - rewrite map_length, OD. simpl. lia. }
  exists (filter P (all_pairs m)), (all_pairs m).
  split; [|split; [|split]].
  - intros c Hc. rewrite E. rewrite app_nth1 by (rewrite map_length, OD; auto).
    rewrite (nth_map_lt _ _ _ (0, 0)%nat) by (rewrite OD; auto). apply zip_combined.
  - unfold get_labels_order_2. rewrite L. reflexivity.
  - intros c Hc. pose proof (all_pairs_nodup m) as ND.
    assert (H0 : exists t, all_pairs m = (0, 0)%nat :: t).
    { unfold all_pairs. destruct m as [|m']; [lia|]. cbn. eexists. reflexivity. }
    destruct H0 as [t H0]. rewrite H0 in *. apply filter_head_never_aligned; auto. rewrite OD. auto.
  - intros c Hc. rewrite E, app_nth2 by (rewrite map_length, OD; lia).
    rewrite map_length, OD. apply nth_repeat_lt. nia.
Qed.

Example quotient_example :
  get_labels_order_2 ["a"; "b"]%string true = ["a_div_a"; "a_div_b"; "b_div_a"; "b_div_b"]%string /\
  get_div_order_2 1 [[6]; [3]] =
    [[true_divide 6 3]; [true_divide 3 6]; [Fin 0]; [Fin 0]].
Proof. split; reflexivity. Qed.

(** ** C85.  "If a denominator is 0, Inf is returned". *)
Theorem zero_denominator_partial x y :
  (y <> 0 -> true_divide x y = Fin (x / y)) /\ (x <> 0 -> true_divide x 0 = Inf).
Proof.
  split; intros H; unfold true_divide.
  - rewrite (proj2 (Reqb_false y 0)) by auto. reflexivity.
  - rewrite Reqb_refl, (proj2 (Reqb_false x 0)) by auto. reflexivity.
Qed.

Theorem zero_denominator_refuted :
  true_divide 0 0 = NaN /\ get_div_order_2 1 [[0]; [0]] = [[NaN]; [NaN]; [Fin 0]; [Fin 0]].
Proof.
  assert (E : true_divide 0 0 = NaN) by (unfold true_divide; rewrite Reqb_refl; reflexivity).
  split; auto.
  change (get_div_order_2 1 [[0]; [0]]) with [[true_divide 0 0]; [true_divide 0 0]; [Fin 0]; [Fin 0]].
  rewrite E. reflexivity.
Qed.

(** ** C82.  Square roots and logarithms are taken of numbers that are at least
    one, so they exist and are not negative, and the 3m columns are the three
    transforms of the m features in order. *)
Lemma shifted_ge_one c x : In x (shifted c) -> 1 <= x.
Proof.
  intros H. apply in_map_iff in H. destruct H as [y [<- Hy]].
  pose proof (lmin_le c y Hy). pose proof (Rle_abs (- lmin c)) as RA. rewrite Rabs_Ropp in RA. lra.
Qed.

Theorem transforms_are_defined cols j :
  (j < length cols)%nat ->
  let c := nth j cols [] in
  let out := single_transform cols in
  let m := length cols in
  length out = (3 * m)%nat /\
  nth j out [] = map (fun x => x * x) c /\
  exists arg, length arg = length c /\ (forall x, In x arg -> 1 <= x) /\
    (exists shift, arg = map (fun x => x + shift) c) /\
    nth (m + j) out [] = map sqrt arg /\ nth (2 * m + j) out [] = map ln arg /\
    (forall y, In y (nth (m + j) out []) -> 1 <= y) /\
    (forall y, In y (nth (2 * m + j) out []) -> 0 <= y).
Proof.
  intros Hj c out m. unfold out, single_transform.
  split; [rewrite !app_length, !map_length; unfold m; lia|]. split.
  - rewrite app_nth1 by (rewrite map_length; auto). rewrite (nth_map_lt _ _ _ []) by auto.
    apply map_ext. intros x. ring.
  - assert (E1 : nth (m + j) (map (map (fun x : R => x ^ 2)) cols ++
          map (fun c => map sqrt (shifted c)) cols ++ map (fun c => map ln (shifted c)) cols) [] =
          map sqrt (shifted c)).
    { rewrite app_nth2 by (rewrite map_length; unfold m; lia). rewrite map_length.
      replace (m + j - length cols)%nat with j by (unfold m; lia).
      rewrite app_nth1 by (rewrite map_length; auto). rewrite (nth_map_lt _ _ _ []) by auto. reflexivity. }
    assert (E2 : nth (2 * m + j) (map (map (fun x : R => x ^ 2)) cols ++
          map (fun c => map sqrt (shifted c)) cols ++ map (fun c => map ln (shifted c)) cols) [] =
          map ln (shifted c)).
    { rewrite app_nth2 by (rewrite map_length; unfold m; lia). rewrite map_length.
      rewrite app_nth2 by (rewrite map_length; unfold m; lia). rewrite map_length.
      replace (2 * m + j - length cols - length cols)%nat with j by (unfold m; lia).
      rewrite (nth_map_lt _ _ _ []) by auto. reflexivity. }
    exists (shifted c). rewrite E1, E2. split; [unfold shifted; apply map_length|].
    split; [apply shifted_ge_one|]. split; [exists (Rabs (lmin c) + 1); apply map_ext; intros; ring|].
    split; auto. split; auto. split.
    + intros y Hy. apply in_map_iff in Hy. destruct Hy as [x [<- Hx]]. apply shifted_ge_one in Hx.
      rewrite <- sqrt_1 at 1. apply sqrt_le_1_alt. auto.
    + intros y Hy. apply in_map_iff in Hy. destruct Hy as [x [<- Hx]]. apply shifted_ge_one in Hx.
      rewrite <- ln_1. destruct Hx as [Hx| <-]; [left; apply ln_increasing; lra|right; auto].
Qed.

Example transforms_example : In 1 (shifted [-3; 2]).
Proof.
  unfold shifted. cbn [map].
  assert (lmin [-3; 2] = -3) as ->.
  { apply lmin_unique; [left; auto|]. intros x [<-|[<-|[]]]; lra. }
  left. rewrite Rabs_left by lra. lra.
Qed.

(** ** C83.  get_ablog shifts the caller's matrix in place, by at least one; the
    other functions have no output besides their result. *)
Theorem ablog_changes_input_refuted n cols a b c x :
  In c cols -> In x c -> snd (get_ablog n cols a b) <> cols.
Proof.
  intros Hc Hx E. cbn [get_ablog snd] in E.
  assert (F : forall l, map shifted l = l -> forall c, In c l -> shifted c = c).
  { induction l as [|y l IH]; simpl; intros H d; [tauto|]. injection H as H1 H2.
    intros [<-|Hd]; auto. }
  specialize (F _ E c Hc). unfold shifted in F.
  assert (G : forall s l, map (fun x => x + s + 1) l = l -> forall x, In x l -> x + s + 1 = x).
  { induction l as [|y l IH]; simpl; intros H z; [tauto|]. injection H as H1 H2. intros [<-|Hz]; auto. }
  specialize (G _ _ F x Hx). pose proof (Rabs_pos (lmin c)). lra.
Qed.

(** A second call on the same array therefore computes something else. *)
Theorem ablog_second_call_differs_refuted :
  let A := [[0]] in
  let '(first, A') := get_ablog 1 A 1 0 in
  let '(second, _) := get_ablog 1 A' 1 0 in
  first <> second.
Proof.
  cbn. intros H. injection H as H.
  replace (lmin [0]) with 0 in H by reflexivity.
  assert (E : 0 + Rabs 0 + 1 = 1) by (rewrite Rabs_R0; ring).
  unfold lmin in H. cbn in H. rewrite ?E in H.
  rewrite ?Rabs_R1, ?ln_1 in H.
  assert (0 < ln (1 + 1 + 1)) by (rewrite <- ln_1; apply ln_increasing; lra). lra.
Qed.

(** ** C37.  Monomials. *)
(** The values are those of all monomials of the allowed degrees, each once: [es]
    enumerates the exponent vectors. *)
Definition enumerates (n lo hi : nat) (es : list (list nat)) : Prop :=
  NoDup es /\ forall e, In e es <-> length e = n /\ (lo <= list_sum e <= hi)%nat.

Lemma degrees_enumerate n N : enumerates n 1 N (degrees n N).
Proof. split; [apply degrees_nodup|]. intros e. rewrite in_degrees. reflexivity. Qed.

Lemma degrees_enumerate0 n N : enumerates n 0 N (degrees n N ++ [repeat 0%nat n]).
Proof.
  assert (Z : list_sum (repeat 0%nat n) = 0%nat) by (induction n; simpl; auto).
  split.
  - apply NoDup_app_intro; [apply degrees_nodup|repeat constructor; simpl; tauto|].
    intros e He [<-|[]]. apply in_degrees in He. unfold total in He. lia.
  - intros e. rewrite in_app_iff, in_degrees. unfold total. split.
    + intros [H|[<-|[]]]; [lia|]. rewrite repeat_length, Z. lia.
    + intros [H1 H2]. destruct (Nat.eq_dec (list_sum e) 0) as [H0|H0]; [right; left|left; lia].
      clear H2. revert n H1 Z. induction e as [|c e IH]; intros [|n] H1 Z; simpl in *; try discriminate; auto.
      assert (c = 0%nat) by lia. subst. f_equal. apply IH; lia.
Qed.

Lemma powers_one {A} (p : list A) : powers p 1 = map (fun x => [x]) p.
Proof.
  unfold powers. simpl. rewrite app_nil_r. induction p as [|x t IH]; [reflexivity|].
  rewrite cwr_cons_S, IH. reflexivity.
Qed.

Lemma positive_features_eq p N exclude :
  (1 <= N)%nat -> positive_features p N exclude = map product (powers p N) ++ (if exclude then [] else [1]).
Proof.
  intros H. unfold positive_features. destruct (Nat.eqb_spec N 0); [lia|].
  destruct (Nat.eqb_spec N 1) as [->|]; auto. rewrite powers_one, map_map. simpl. rewrite map_id. reflexivity.
Qed.

Theorem positive_features_complete p N exclude :
  (1 <= N)%nat \/ exclude = false ->
  exists es, enumerates (length p) (if exclude then 1 else 0) N es /\
    positive_features p N exclude = map (monomial p) es /\
    (length (positive_features p N exclude) + (if exclude then 1 else 0) = binom (length p + N) N)%nat.
Proof.
  intros H. set (n := length p).
  assert (V : forall es, map product (map (expand p) es) = map (monomial p) es).
  { intros es. rewrite map_map. apply map_ext. intros e. rewrite product_prodR. apply prodR_expand. }
  destruct (Nat.eq_dec N 0) as [->|NZ].
  - destruct H as [H|H]; [lia|]. subst exclude. exists [repeat 0%nat n].
    pose proof (degrees_enumerate0 n 0) as D. split; [exact D|].
    simpl. rewrite monomial_zero, Nat.add_0_r. split; [reflexivity|]. destruct n; reflexivity.
  - rewrite positive_features_eq by lia. rewrite powers_degrees. fold n.
    pose proof (degrees_count n N) as C. destruct exclude.
    + exists (degrees n N). split; [apply degrees_enumerate|]. rewrite V, app_nil_r, map_length.
      split; auto. lia.
    + exists (degrees n N ++ [repeat 0%nat n]). split; [apply degrees_enumerate0|].
      rewrite V, map_app, app_length, map_length. simpl. rewrite monomial_zero. split; auto. lia.
Qed.

(** The exception: degree zero ignores exclude. *)
Theorem positive_features_degree_zero_refuted p : positive_features p 0 true = [1].
Proof. reflexivity. Qed.

(** The text form (s=True) lists the same monomials in the same order. *)
Theorem positive_strings_same_monomials (p : list R) (names : list string) N exclude :
  length names = length p ->
  exists es, positive_features p N exclude = map (monomial p) es /\
    positive_strings names N exclude =
      map (fun e => if (list_sum e =? 0)%nat then "1"%string else join (expand names e)) es.
Proof.
  intros L. set (n := length p).
  assert (Z : list_sum (repeat 0%nat n) = 0%nat) by (clear; induction n; simpl; auto).
  assert (S : forall es, (forall e, In e es -> list_sum e <> 0%nat) ->
     map join (map (expand names) es) =
     map (fun e => if (list_sum e =? 0)%nat then "1"%string else join (expand names e)) es).
  { intros es He. rewrite map_map. apply map_ext_in. intros e Hin.
    destruct (Nat.eqb_spec (list_sum e) 0); auto. exfalso. apply (He e); auto. }
  assert (V : forall es, map product (map (expand p) es) = map (monomial p) es).
  { intros es. rewrite map_map. apply map_ext. intros e. rewrite product_prodR. apply prodR_expand. }
  destruct (Nat.eq_dec N 0) as [->|NZ].
  - exists [repeat 0%nat n]. simpl. rewrite Z, monomial_zero. split; reflexivity.
  - rewrite positive_features_eq by lia.
    assert (PS : positive_strings names N exclude =
       (map join (powers names N) ++ (if exclude then [] else ["1"%string]))%list).
    { unfold positive_strings. destruct (Nat.eqb_spec N 0); [lia|].
      destruct (Nat.eqb_spec N 1) as [->|]; auto. rewrite powers_one, map_map. simpl. rewrite map_id. reflexivity. }
    rewrite PS, !powers_degrees, L. fold n.
    assert (D : forall e, In e (degrees n N) -> list_sum e <> 0%nat).
    { intros e He. apply in_degrees in He. unfold total in He. lia. }
    destruct exclude.
    + exists (degrees n N). rewrite V, S, !app_nil_r by auto. split; reflexivity.
    + exists (degrees n N ++ [repeat 0%nat n]). rewrite V, S, !map_app by auto. simpl.
      rewrite Z, monomial_zero. split; reflexivity.
Qed.

Example positive_features_example :
  positive_features [2; 3] 2 false = [2 * 2; 2 * 3; 3 * 3; 2; 3; 1] /\
  positive_strings ["a"; "b"]%string 2 false = ["a*a"; "a*b"; "b*b"; "a"; "b"; "1"]%string.
Proof. split; reflexivity. Qed.

(** ** C84.  generate_features: ratios of monomials without common factors. *)
Definition coprime_exponents (n : nat) (q : list nat * list nat) : Prop :=
  forall i, (i < n)%nat -> nth i (fst q) 0%nat = 0%nat \/ nth i (snd q) 0%nat = 0%nat.

Definition enumerates_ratios (n num den : nat) (exclude : bool) (qs : list (list nat * list nat)) : Prop :=
  NoDup qs /\
  forall q, In q qs <->
    length (fst q) = n /\ length (snd q) = n /\ (list_sum (fst q) <= num)%nat /\
    (list_sum (snd q) <= den)%nat /\ coprime_exponents n q /\
    (exclude = true -> list_sum (fst q) <> 0%nat \/ list_sum (snd q) <> 0%nat).

Lemma zeros_sum n : list_sum (repeat 0%nat n) = 0%nat.
Proof. induction n; simpl; auto. Qed.
Lemma sum_zero e : list_sum e = 0%nat -> e = repeat 0%nat (length e).
Proof.
  induction e as [|c e IH]; simpl; intros H; auto. assert (c = 0%nat) by lia. subst. f_equal. apply IH. lia.
Qed.

Lemma NoDup_pairs {A B} (l : list A) (f : A -> list B) :
  NoDup l -> (forall x, NoDup (f x)) -> NoDup (flat_map (fun x => map (pair x) (f x)) l).
Proof.
  intros ND Hf. induction ND as [|x t Hx ND IH]; simpl; [constructor|].
  apply NoDup_app_intro; auto.
  - apply FinFun.Injective_map_NoDup; auto. intros a b [= ->]. auto.
  - intros [a b] H1 H2. apply in_map_iff in H1. destruct H1 as [c [[= <- <-] _]].
    apply in_flat_map in H2. destruct H2 as [d [Hd H2]].
    apply in_map_iff in H2. destruct H2 as [e [[= -> ->] _]]. auto.
Qed.

(** For features that are not negative, with no zero denominator: exactly the
    ratios of coprime monomials within the degrees, each once, with the right
    value. *)
Theorem generate_features_complete_partial p max_num max_den exclude :
  (1 <= max_num)%nat -> (1 <= max_den)%nat -> (forall x, In x p -> 0 < x) ->
  exists qs, enumerates_ratios (length p) max_num max_den exclude qs /\
    generate_features p max_num max_den exclude =
    Ok (map (fun q => monomial p (fst q) / monomial p (snd q)) qs).
Proof.
  intros H1 H2 POS. set (n := length p). set (z := repeat 0%nat n).
  set (D1 := degrees n max_num). set (D2 := degrees n max_den).
  set (cop := fun e1 e2 => disjointb (expand (seq 0 n) e1) (expand (seq 0 n) e2)).
  set (qs := flat_map (fun e1 => map (pair e1) (filter (cop e1) D2)) D1 ++
             map (fun e1 => (e1, z)) D1 ++ map (fun e2 => (z, e2)) D2 ++
             (if exclude then [] else [(z, z)])).
  assert (Lz : length z = n) by apply repeat_length.
  assert (Sz : list_sum z = 0%nat) by apply zeros_sum.
  assert (nz : forall i, nth i z 0%nat = 0%nat).
  { intros i. unfold z. clear. revert i. induction n; intros [|i]; simpl; auto. }
  exists qs. split; [split|].
  - (* NoDup *)
    assert (N1 : NoDup D1) by apply degrees_nodup. assert (N2 : NoDup D2) by apply degrees_nodup.
    assert (P1 : forall e, In e D1 -> list_sum e <> 0%nat) by (intros e He; apply in_degrees in He; unfold total in He; lia).
    assert (P2 : forall e, In e D2 -> list_sum e <> 0%nat) by (intros e He; apply in_degrees in He; unfold total in He; lia).
    unfold qs. apply NoDup_app_intro; [|apply NoDup_app_intro; [|apply NoDup_app_intro|]|].
    + apply NoDup_pairs; auto. intros. apply NoDup_filter; auto.
    + apply FinFun.Injective_map_NoDup; auto. intros a b [= ->]; auto.
    + apply FinFun.Injective_map_NoDup; auto. intros a b [= ->]; auto.
    + destruct exclude; repeat constructor; simpl; tauto.
    + intros [a b] Ha Hb. apply in_map_iff in Ha. destruct Ha as [e [Ea Ha]]. injection Ea as Ea1 Ea2.
      destruct exclude; [destruct Hb|]. destruct Hb as [Eb|[]]. injection Eb as Eb1 Eb2.
      apply (P2 e Ha). congruence.
    + intros [a b] Ha Hb. apply in_map_iff in Ha. destruct Ha as [e [Ea Ha]]. injection Ea as Ea1 Ea2.
      apply (P1 e Ha). apply in_app_iff in Hb. destruct Hb as [Hb|Hb].
      * apply in_map_iff in Hb. destruct Hb as [e' [Eb Hb]]. injection Eb as Eb1 Eb2. congruence.
      * destruct exclude; [destruct Hb|]. destruct Hb as [Eb|[]]. injection Eb as Eb1 Eb2. congruence.
    + intros [a b] Ha Hb. apply in_flat_map in Ha. destruct Ha as [e1 [He1 Ha]].
      apply in_map_iff in Ha. destruct Ha as [e2 [Ea He2]]. injection Ea as Ea1 Ea2.
      apply filter_In in He2. destruct He2 as [He2 _].
      rewrite !in_app_iff in Hb. destruct Hb as [Hb|[Hb|Hb]].
      * apply in_map_iff in Hb. destruct Hb as [e' [Eb Hb]]. injection Eb as Eb1 Eb2.
        apply (P2 e2 He2). congruence.
      * apply in_map_iff in Hb. destruct Hb as [e' [Eb Hb]]. injection Eb as Eb1 Eb2.
        apply (P1 e1 He1). congruence.
      * destruct exclude; [destruct Hb|]. destruct Hb as [Eb|[]]. injection Eb as Eb1 Eb2.
        apply (P1 e1 He1). congruence.
  - (* membership *)
    intros [e1 e2]. cbn [fst snd]. unfold qs. rewrite !in_app_iff. split.
    + intros [H|[H|[H|H]]].
      * apply in_flat_map in H. destruct H as [a [Ha H]]. apply in_map_iff in H.
        destruct H as [b [[= -> ->] Hb]]. apply filter_In in Hb. destruct Hb as [Hb Hc].
        apply in_degrees in Ha, Hb. unfold total in *.
        assert (CO : coprime_exponents n (e1, e2)) by exact (proj1 (disjointb_expand n e1 e2 (proj1 Ha) (proj1 Hb)) Hc).
        repeat split; try tauto; try lia.
      * apply in_map_iff in H. destruct H as [a [[= <- <-] Ha]]. apply in_degrees in Ha. unfold total in *.
        repeat split; try tauto; try lia. intros i _. right. apply nz.
      * apply in_map_iff in H. destruct H as [a [[= <- <-] Ha]]. apply in_degrees in Ha. unfold total in *.
        repeat split; try tauto; try lia. intros i _. left. apply nz.
      * destruct exclude; [destruct H|]. destruct H as [[= <- <-]|[]].
        rewrite Lz, Sz. split; [auto|]. split; [auto|]. split; [lia|]. split; [lia|].
        split; [|discriminate]. intros i _. left. apply nz.
    + intros (L1 & L2 & S1 & S2 & CO & EX).
      destruct (Nat.eq_dec (list_sum e1) 0) as [Z1|Z1]; destruct (Nat.eq_dec (list_sum e2) 0) as [Z2|Z2].
      * right. right. right. apply sum_zero in Z1 as Y1. apply sum_zero in Z2 as Y2.
        rewrite L1 in Y1. rewrite L2 in Y2.
        destruct exclude; [destruct EX; congruence|left]. rewrite Y1, Y2. reflexivity.
      * right. right. left. apply in_map_iff. exists e2. apply sum_zero in Z1 as Y1. rewrite L1 in Y1.
        split; [rewrite Y1; reflexivity|]. apply in_degrees. unfold total. lia.
      * right. left. apply in_map_iff. exists e1. apply sum_zero in Z2 as Y2. rewrite L2 in Y2.
        split; [rewrite Y2; reflexivity|]. apply in_degrees. unfold total. lia.
      * left. apply in_flat_map. exists e1. split; [apply in_degrees; unfold total; lia|].
        apply in_map_iff. exists e2. split; auto. apply filter_In. split; [apply in_degrees; unfold total; lia|].
        apply (proj2 (disjointb_expand n e1 e2 L1 L2)). exact CO.
  - (* values *)
    unfold generate_features. fold n.
    destruct (Nat.eqb_spec max_den 0); [lia|]. destruct (Nat.eqb_spec max_num 0); [lia|].
    rewrite !powers_degrees, seq_length. fold D1 D2.
    assert (IDX : flat_map (fun k1 => map (pair k1) (filter (disjointb k1) (map (expand (seq 0 n)) D2)))
                    (map (expand (seq 0 n)) D1) ++
                  map (fun k1 => (k1, [])) (map (expand (seq 0 n)) D1) ++
                  map (fun k2 => ([], k2)) (map (expand (seq 0 n)) D2) ++
                  (if exclude then [] else [([], [])]) =
                  map (fun q => (expand (seq 0 n) (fst q), expand (seq 0 n) (snd q))) qs).
    { unfold qs. rewrite !map_app, !map_map. cbn [fst snd].
      assert (EZ : expand (seq 0 n) z = []) by apply expand_zero.
      f_equal; [|f_equal; [|f_equal]].
      - clear -n. induction D1 as [|e1 t IH]; simpl; auto. rewrite map_app, IH. f_equal.
        rewrite map_map. cbn [fst snd]. unfold cop. clear.
        induction D2 as [|e2 t IH]; simpl; auto. destruct (disjointb _ _); simpl; rewrite IH; auto.
      - apply map_ext. intros e. rewrite EZ. reflexivity.
      - apply map_ext. intros e. rewrite EZ. reflexivity.
      - destruct exclude; auto. simpl. rewrite EZ. reflexivity. }
    rewrite IDX.
    assert (NN : forall x, In x p -> 0 <= x) by (intros x Hx; left; auto).
    assert (MP : forall e, 0 < monomial p e).
    { clear -POS. induction p as [|x t IH]; intros [|c e]; simpl; try lra.
      apply Rmult_lt_0_compat; [apply pow_lt, POS; left; auto|apply IH; intros; apply POS; right; auto]. }
    assert (LQ : forall q, In q qs -> length (fst q) = n /\ length (snd q) = n).
    { intros q Hq. unfold qs in Hq. rewrite !in_app_iff in Hq. destruct Hq as [H|[H|[H|H]]].
      - apply in_flat_map in H. destruct H as [a [Ha H]]. apply in_map_iff in H.
        destruct H as [b [<- Hb]]. apply filter_In in Hb. destruct Hb as [Hb _].
        apply in_degrees in Ha, Hb. cbn. tauto.
      - apply in_map_iff in H. destruct H as [a [<- Ha]]. apply in_degrees in Ha. cbn. tauto.
      - apply in_map_iff in H. destruct H as [a [<- Ha]]. apply in_degrees in Ha. cbn. tauto.
      - destruct exclude; [destruct H|]. destruct H as [<-|[]]. cbn. tauto. }
    clearbody qs. clear IDX. induction qs as [|q qs IH]; [reflexivity|]. cbn [map map_result fst snd].
    destruct (LQ q (or_introl eq_refl)) as [L1 L2].
    unfold n. rewrite (decode_key_nonneg p (fst q) NN L1), (decode_key_nonneg p (snd q) NN L2). fold n.
    unfold pydiv at 1. rewrite (proj2 (Reqb_false (monomial p (snd q)) 0)) by (pose proof (MP (snd q)); lra).
    cbn [bind]. rewrite IH by (intros q' H'; apply LQ; right; auto). reflexivity.
Qed.

(** Negative features: squares come out negative. *)
Theorem generate_features_negative_refuted :
  exists vals, generate_features [-2] 2 1 true = Ok vals /\
    nth 0 vals 0 = -4 /\ monomial [-2] [2%nat] = 4.
Proof.
  assert (F2 : factor (-2) 2 = -4).
  { unfold factor. simpl. rewrite (proj2 (Rltb_true (-2) 0)) by lra. lra. }
  assert (D2 : decode_key [-2] [0; 0]%nat = -4).
  { unfold decode_key. cbn. unfold count. cbn. rewrite !Reqb_refl. exact F2. }
  assert (D1 : decode_key [-2] [0]%nat = -2).
  { unfold decode_key. cbn. unfold count. cbn. rewrite Reqb_refl. reflexivity. }
  assert (D0 : decode_key [-2] [] = 1) by reflexivity.
  eexists. split; [|split].
  - unfold generate_features.
    cbn -[decode_key pydiv]. rewrite D2, D1, D0. unfold pydiv.
    rewrite (proj2 (Reqb_false 1 0)) by lra. rewrite (proj2 (Reqb_false (-2) 0)) by lra. cbn [bind]. reflexivity.
  - simpl. lra.
  - simpl. lra.
Qed.

(** One zero feature makes the whole call fail. *)
Theorem generate_features_zero_refuted :
  generate_features [0; 1] 1 1 true = Err ZeroDivisionError.
Proof.
  assert (D0 : decode_key [0; 1] [0]%nat = 0).
  { unfold decode_key. cbn. unfold count. cbn. rewrite Reqb_refl. reflexivity. }
  assert (D1 : decode_key [0; 1] [1]%nat = 1).
  { unfold decode_key. cbn. unfold count. cbn. rewrite Reqb_refl. reflexivity. }
  unfold generate_features. cbn -[decode_key pydiv]. rewrite D0, D1. unfold pydiv.
  rewrite (proj2 (Reqb_false 1 0)) by lra. rewrite Reqb_refl. reflexivity.
Qed.

(** Inverse features of numbers (max_num = 0, max_den = 1) always raise. *)
Theorem generate_inverse_refuted p exclude :
  p <> [] -> generate_features p 0 1 exclude = Err TypeError.
Proof. intros H. destruct p; [congruence|]. reflexivity. Qed.

Example generate_features_example :
  exists vals, generate_features [2; 3] 1 1 false = Ok vals /\ length vals = 7%nat.
Proof.
  assert (D0 : decode_key [2; 3] [0]%nat = 2).
  { unfold decode_key. cbn. unfold count. cbn. rewrite Reqb_refl. reflexivity. }
  assert (D1 : decode_key [2; 3] [1]%nat = 3).
  { unfold decode_key. cbn. unfold count. cbn. rewrite Reqb_refl. reflexivity. }
  assert (Dn : decode_key [2; 3] [] = 1) by reflexivity.
  eexists. split.
  - unfold generate_features. cbn -[decode_key pydiv]. rewrite D0, D1, Dn. unfold pydiv.
    rewrite (proj2 (Reqb_false 1 0)) by lra. rewrite (proj2 (Reqb_false 2 0)) by lra.
    rewrite (proj2 (Reqb_false 3 0)) by lra. reflexivity.
  - reflexivity.
Qed.

(** ** C38.  PCA. *)
Theorem pca_first_component_partial u s :
  s <> [] -> projection u s 1 = Ok [nth 0 u []].
Proof. intros H. destruct s; [congruence|]. reflexivity. Qed.

(** With two or more components the first one is used twice and the last one is
    missing, whatever the data. *)
Theorem pca_duplicates_first_refuted u s k pm :
  (2 <= k)%nat -> projection u s k = Ok pm ->
  length pm = k /\ nth 0 pm [] = nth 0 u [] /\ nth 1 pm [] = nth 0 u [] /\
  forall i, (1 <= i < k)%nat -> nth i pm [] = nth (i - 1) u [].
Proof.
  intros Hk H. unfold projection in H. destruct (Nat.eqb_spec k 0); [lia|].
  destruct s as [|x s]; [discriminate|].
  destruct (k - 1 <=? length (x :: s))%nat; [|discriminate]. injection H as <-.
  assert (G : forall i, (1 <= i < k)%nat ->
     nth i (column_of u 0 :: map (column_of u) (seq 0 (k - 1))) [] = nth (i - 1) u []).
  { intros i Hi. destruct i as [|i]; [lia|]. cbn [nth].
    rewrite (nth_map_lt _ _ _ 0%nat) by (rewrite seq_length; lia). rewrite seq_nth by lia.
    unfold column_of. f_equal. lia. }
  split; [simpl; rewrite map_length, seq_length; lia|]. split; [reflexivity|].
  split; [apply (G 1%nat); lia|exact G].
Qed.

Example pca_example :
  projection [[1; 0]; [0; 1]] [5; 2] 2 = Ok [[1; 0]; [1; 0]].
Proof. reflexivity. Qed.

(** ** C87.  The reported percentages are not negative, never increase and add up
    to 100 ([s]: the eigenvalues of a covariance matrix, not all zero). *)
Theorem pca_variance_sums_to_100 s :
  (forall x, In x s -> 0 <= x) -> sumR s <> 0 ->
  sumR (variance_percent s) = 100 /\ length (variance_percent s) = length s /\
  (forall y, In y (variance_percent s) -> 0 <= y <= 100) /\
  (forall i j, (i < j < length s)%nat -> nth j (variance_percent s) 0 <= nth i (variance_percent s) 0).
Proof.
  intros Hpos H. unfold variance_percent. rewrite map_length, rev_length.
  assert (P : Permutation (rev (isort Rleb s)) s).
  { etransitivity; [symmetry; apply Permutation_rev|apply isort_perm]. }
  assert (S0 : 0 < sumR s).
  { assert (0 <= sumR s) by (apply sumR_nonneg; auto). lra. }
  assert (L : length (isort Rleb s) = length s) by (apply Permutation_length, isort_perm).
  assert (Q : 0 < 100 / sumR s) by (apply Rdiv_lt_0_compat; lra).
  split; [|split; [auto|split]].
  - rewrite (sumR_map_ext _ (fun x => (100 / sumR s) * x)) by (intros; field; auto).
    rewrite sumR_map_scal, map_id, (sumR_perm _ _ P). field. auto.
  - intros y Hy. apply in_map_iff in Hy. destruct Hy as [x [<- Hx]].
    assert (Hx' : In x s) by (eapply Permutation_in; eauto).
    pose proof (Hpos x Hx').
    assert (x <= sumR s).
    { apply in_split in Hx'. destruct Hx' as [a [b E]]. rewrite E, sumR_app.
      cbn [sumR fold_right]. change (fold_right Rplus 0 b) with (sumR b).
      assert (0 <= sumR a) by (apply sumR_nonneg; intros; apply Hpos; rewrite E; apply in_or_app; auto).
      assert (0 <= sumR b) by (apply sumR_nonneg; intros; apply Hpos; rewrite E; apply in_or_app; right; right; auto).
      unfold sumR in *. simpl. lra. }
    split.
    + apply Rmult_le_pos; [|lra]. apply Rmult_le_pos; [lra|]. left. apply Rinv_0_lt_compat; auto.
    + replace 100 with (sumR s / sumR s * 100) at 2 by (field; auto).
      apply Rmult_le_compat_r; [lra|]. apply Rmult_le_compat_r; [left; apply Rinv_0_lt_compat; auto|auto].
  - intros i j Hij.
    rewrite !(nth_map_lt _ _ _ 0) by (rewrite rev_length; lia).
    rewrite !rev_nth by lia. rewrite L.
    apply Rmult_le_compat_r; [lra|]. apply Rmult_le_compat_r; [left; apply Rinv_0_lt_compat; auto|].
    assert (SS := isort_sorted (proj1 Rleb_total_order) s).
    apply Rleb_true. apply (StronglySorted_nth 0 SS); lia.
Qed.

Example pca_variance_example : sumR (variance_percent [1; 3]) = 100.
Proof. apply pca_variance_sums_to_100; [intros x [<-|[<-|[]]]; lra|simpl; lra]. Qed.

Print Assumptions products_match_labels.
Print Assumptions generate_features_complete_partial.
Print Assumptions positive_features_complete.
