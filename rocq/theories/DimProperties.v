(** Properties of the defaults of iterative screening, of projections and of composition names. *)
From Coq Require Import Ascii String List Arith Bool Reals Lra Lia ZArith Permutation.
From Verif Require Import Base BaseFacts RBase SiteModel SiteFilesProperties ScreenModel DimModel.
Import ListNotations.
Local Open Scope string_scope.
Local Open Scope nat_scope.

(** ** Rounding *)
Lemma py_round_near x : (IZR (py_round x) - 1 / 2 <= x <= IZR (py_round x) + 1 / 2)%R.
Proof.
  unfold py_round. destruct (archimed x) as [A B]. rewrite minus_IZR. unfold Rltb.
  destruct (Rlt_dec _ _); [rewrite minus_IZR; lra|]. destruct (Rlt_dec _ _); [rewrite plus_IZR, minus_IZR; lra|]. destruct (Z.even _); rewrite ?plus_IZR, minus_IZR; lra.
Qed.

Lemma exp_pow x n : exp (INR n * x) = (exp x ^ n)%R.
Proof. induction n; [cbn; rewrite Rmult_0_l; apply exp_0|]. rewrite S_INR, Rmult_plus_distr_r, exp_plus, IHn, Rmult_1_l. cbn. lra. Qed.

Lemma ln3_small : (ln 3 < 12 / 10)%R.
Proof.
  rewrite <- (ln_exp (12 / 10)). apply ln_increasing; [lra|]. replace (12 / 10)%R with (INR 12 * (1 / 10))%R by (cbn; lra). rewrite exp_pow.
  assert (H : (11 / 10 <= exp (1 / 10))%R) by (pose proof (exp_ineq1 (1 / 10)); lra).
  eapply Rlt_le_trans; [|apply pow_incr; split; [|exact H]; lra]. cbn. lra.
Qed.

Lemma ln4_large : (12 / 10 < ln 4)%R.
Proof.
  rewrite <- (ln_exp (12 / 10)). apply ln_increasing; [apply exp_pos|]. replace (12 / 10)%R with (INR 12 * (1 / 10))%R by (cbn; lra). rewrite exp_pow.
  assert (H : (exp (1 / 10) <= 10 / 9)%R).
  { pose proof (exp_ineq1 (- (1 / 10))) as E. assert (P : (exp (1 / 10) * exp (- (1 / 10)) = 1)%R) by (rewrite <- exp_plus, Rplus_opp_r; apply exp_0).
    pose proof (exp_pos (1 / 10)). assert (Q : (9 / 10 < exp (- (1 / 10)))%R) by lra. nra. }
  eapply Rle_lt_trans; [apply pow_incr; split; [left; apply exp_pos|exact H]|]. cbn. lra.
Qed.

Lemma ln2_pos_small : (0 < ln 2 <= 1)%R.
Proof.
  split; [rewrite <- ln_1; apply ln_increasing; lra|]. left. rewrite <- (ln_exp 1). apply ln_increasing; [lra|]. pose proof (exp_ineq1 1). lra.
Qed.

(** Without size and step, iterative screening accepts exactly the data with at least four rows and more than
    twice as many features; the size is the number of data and the step positive and smaller. *)
Theorem default_dimensions : forall n f,
  (4 <= n /\ 2 * n < f -> exists s, dimension_check true n f None None = Ok (n, Some s) /\ (0 < s < Z.of_nat n)%Z /\
    (IZR s - 1 / 2 <= INR n / ln (INR n) <= IZR s + 1 / 2)%R) /\
  (f <= 2 * n -> dimension_check true n f None None = Err AssertionError) /\
  (2 * n < f -> n < 4 -> exists e, dimension_check true n f None None = Err e /\
    e = match n with 0 => ValueError | 1 => ZeroDivisionError | _ => AssertionError end).
Proof.
  intros n f. unfold dimension_check. split; [|split].
  - intros [H4 Hf]. destruct (Nat.ltb_spec (2 * n) f); [|lia]. destruct n as [|[|n]]; try lia. cbn [default_step bind].
    set (m := S (S n)) in *. clearbody m. exists (py_round (INR m / ln (INR m))). pose proof (py_round_near (INR m / ln (INR m))) as N.
    assert (M : (4 <= INR m)%R) by (replace 4%R with (INR 4) by (cbn; lra); apply le_INR; auto).
    assert (L : (12 / 10 < ln (INR m))%R).
    { destruct (Rle_lt_or_eq_dec _ _ M) as [M'|<-]; [|apply ln4_large]. pose proof ln4_large. pose proof (ln_increasing 4 (INR m)). lra. }
    assert (U : (ln (INR m) < INR m)%R).
    { rewrite <- (ln_exp (INR m)) at 2. apply ln_increasing; [lra|]. pose proof (exp_ineq1 (INR m)). lra. }
    assert (B : (1 < INR m / ln (INR m) < INR m - 1 / 2)%R).
    { split; [apply Rmult_lt_reg_r with (ln (INR m)); [lra|]; unfold Rdiv; rewrite Rmult_assoc, Rinv_l by lra; lra|].
      apply Rmult_lt_reg_r with (ln (INR m)); [lra|]. unfold Rdiv. rewrite Rmult_assoc, Rinv_l by lra. nra. }
    assert (Z1 : (0 < py_round (INR m / ln (INR m)))%Z) by (apply lt_IZR; lra).
    assert (Z2 : (py_round (INR m / ln (INR m)) < Z.of_nat m)%Z) by (apply lt_IZR; rewrite <- INR_IZR_INZ; lra).
    destruct (Z.ltb_spec (py_round (INR m / ln (INR m))) (Z.of_nat m)); [|lia]. auto.
  - intros H. destruct (Nat.ltb_spec (2 * n) f); [lia|auto].
  - intros Hf H4. destruct (Nat.ltb_spec (2 * n) f); [|lia]. destruct n as [|[|n]]; cbn [default_step bind]; try (eexists; split; reflexivity).
    exists AssertionError. split; [|auto]. set (m := S (S n)) in *. pose proof (py_round_near (INR m / ln (INR m))) as N.
    destruct (Z.ltb_spec (py_round (INR m / ln (INR m))) (Z.of_nat m)) as [Q|]; [exfalso|auto].
    assert (Q' : (IZR (py_round (INR m / ln (INR m))) <= INR m - 1)%R).
    { assert (W : (IZR (py_round (INR m / ln (INR m))) <= IZR (Z.of_nat m - 1))%R) by (apply IZR_le; lia). rewrite minus_IZR, <- INR_IZR_INZ in W. exact W. }
    assert (M : n = 0 \/ n = 1) by lia. destruct M as [M|M]; subst n.
    + change (INR m) with (INR 2) in *. replace (INR 2) with 2%R in * by (cbn; lra). pose proof ln2_pos_small as L.
      assert (B : (2 <= 2 / ln 2)%R) by (apply Rmult_le_reg_r with (ln 2); [lra|]; unfold Rdiv; rewrite Rmult_assoc, Rinv_l by lra; lra). lra.
    + change (INR m) with (INR 3) in *. replace (INR 3) with 3%R in * by (cbn; lra). pose proof ln3_small as L.
      assert (L0 : (0 < ln 3)%R) by (rewrite <- ln_1; apply ln_increasing; lra).
      assert (B : (25 / 10 < 3 / ln 3)%R) by (apply Rmult_lt_reg_r with (ln 3); [lra|]; replace (3 / ln 3 * ln 3)%R with 3%R by (field; lra); lra). lra.
Qed.

(** "Screening works with its defaults whenever there are more than twice as many features as data." *)
Theorem default_dimensions_refuted : forall f, 6 < f -> dimension_check true 3 f None None = Err AssertionError /\ dimension_check true 3 f None (Some 2%Z) = Ok (3, Some 2%Z).
Proof.
  intros f Hf. split; [|unfold dimension_check; destruct (Nat.ltb_spec (2 * 3) f); [reflexivity|lia]].
  destruct (default_dimensions 3 f) as (_ & _ & H). destruct H as (e & -> & ->); auto; lia.
Qed.

(** A size and step given by the user pass the checks exactly if they pass those of iterative_screen. *)
Theorem given_dimensions : forall n f size step r,
  (dimension_check true n f (Some size) (Some (Z.of_nat step)) = Ok r <-> r = (size, Some (Z.of_nat step)) /\ 2 * size < f /\ step < size) /\
  (dimension_check false n f (Some size) None = Ok r <-> r = (size, None) /\ size < f).
Proof.
  intros n f size step r. unfold dimension_check. cbn [bind]. destruct (Nat.ltb_spec (2 * size) f), (Z.ltb_spec (Z.of_nat step) (Z.of_nat size)), (Nat.ltb_spec size f);
    (split; (split; [intros E; try discriminate; injection E as <-; repeat split; auto; lia|intros (-> & H'); try reflexivity; lia])).
Qed.

(** ** Projections *)
Section Projection.
Context {Row Target Model : Type}.
Variable fit : nat -> list Row -> Target -> result Model.
Variable transform : Model -> Row -> Row.
Notation project := (project fit transform).

(** The projection of the training data does not depend on the test data, every row is projected on its own and in its
    place, and a test row that is also a training row is projected to the same. *)
Theorem projection : forall c train target test tr te, project c train target test = Ok (tr, te) ->
  (forall test', exists te', project c train target test' = Ok (tr, te')) /\
  length tr = length train /\ length te = length test /\
  (forall i j x, nth_error train i = Some x -> nth_error test j = Some x -> nth_error tr i = nth_error te j /\ nth_error te j <> None) /\
  (forall test2 te2, project c train target test2 = Ok (tr, te2) -> project c train target (test ++ test2)%list = Ok (tr, (te ++ te2)%list)).
Proof.
  unfold DimModel.project. intros c train target test tr te H. destruct (0 <? c)%Z; [|discriminate]. destruct (fit _ train target) as [m|e]; [|discriminate]. cbn [bind] in *.
  injection H as <- <-. split; [eauto|]. rewrite !map_length. split; [auto|]. split; [auto|]. split.
  - intros i j x Hi Hj. rewrite !nth_error_map, Hi, Hj. split; [auto|discriminate].
  - intros test2 te2 H. injection H as <-. rewrite map_app. auto.
Qed.

(** A number of components that is not positive is refused before anything is fitted. *)
Theorem projection_components : forall c train target test, (c <= 0)%Z -> project c train target test = Err AssertionError.
Proof. intros c train target test H. unfold DimModel.project. destruct (Z.ltb_spec 0 c); [lia|auto]. Qed.
End Projection.

(** ** Names of compositions *)
Definition set_order (order : list string -> list string) : Prop := forall l, NoDup (order l) /\ forall x, In x (order l) <-> In x l.

Fixpoint no_digit (s : string) : Prop :=
  match s with EmptyString => True | String c t => ~ In c ["0"; "1"; "2"; "3"; "4"; "5"; "6"; "7"; "8"; "9"]%char /\ no_digit t end.

Fixpoint all_digit (s : string) : Prop :=
  match s with EmptyString => True | String c t => In c ["0"; "1"; "2"; "3"; "4"; "5"; "6"; "7"; "8"; "9"]%char /\ all_digit t end.

Lemma str_all_digit i : all_digit (str i) /\ str i <> "".
Proof.
  unfold str. assert (H : forall d, all_digit (DecimalString.NilEmpty.string_of_uint d)) by (induction d; cbn; split; auto 12).
  unfold DecimalString.NilZero.string_of_uint. destruct (Nat.to_uint i); (split; [try apply H; cbn; tauto|discriminate]).
Qed.

(** Where a text starts with letters, followed by digits, both are determined. *)
Lemma split_letters a : forall b x y, no_digit a -> no_digit b -> (forall c t, x = String c t -> ~ no_digit (String c "")) -> (forall c t, y = String c t -> ~ no_digit (String c "")) ->
  a ++ x = b ++ y -> (x <> "" /\ y <> "") -> a = b /\ x = y.
Proof.
  induction a as [|c a IH]; intros [|d b] x y Ha Hb Hx Hy E [Nx Ny]; cbn in *.
  - auto.
  - subst x. exfalso. apply (Hx d (b ++ y) eq_refl). tauto.
  - subst y. exfalso. apply (Hy c (a ++ x) eq_refl). tauto.
  - injection E as -> E. destruct (IH b x y) as [-> ->]; tauto.
Qed.

Lemma split_digits a : forall b x y, all_digit a -> all_digit b -> (forall c t, x = String c t -> no_digit (String c "")) -> (forall c t, y = String c t -> no_digit (String c "")) ->
  a ++ x = b ++ y -> a = b /\ x = y.
Proof.
  induction a as [|c a IH]; intros [|d b] x y Ha Hb Hx Hy E; cbn [append all_digit] in *.
  - auto.
  - subst x. exfalso. destruct (Hx d (b ++ y) eq_refl) as [N _]. tauto.
  - subst y. exfalso. destruct (Hy c (a ++ x) eq_refl) as [N _]. tauto.
  - injection E as -> E. destruct (IH b x y) as [-> ->]; tauto.
Qed.

Definition symbol (s : string) : Prop := s <> "" /\ no_digit s.

Definition text (l : list (string * nat)) : string := fold_right (fun p t => fst p ++ str (snd p) ++ t) "" l.

Lemma text_head l c t : Forall (fun p => symbol (fst p)) l -> text l = String c t -> no_digit (String c "").
Proof.
  intros H E. destruct l as [|[s k] l]; [discriminate|]. apply Forall_cons_iff in H. destruct H as [[N D] _]. cbn in *. destruct s as [|c' s]; [congruence|]. cbn in *. injection E as <- _. tauto.
Qed.

Lemma text_inj l : forall m, Forall (fun p => symbol (fst p)) l -> Forall (fun p => symbol (fst p)) m -> text l = text m -> l = m.
Proof.
  assert (HD : forall k t c u, (str k ++ t)%string = String c u -> ~ no_digit (String c "")).
  { intros k t c u E. destruct (str_all_digit k) as [D N]. destruct (str k) as [|d s]; [congruence|]. cbn in E. injection E as <- _. cbn in *. tauto. }
  assert (NE : forall k t, (str k ++ t)%string <> "").
  { intros k t E. destruct (str_all_digit k) as [_ N]. destruct (str k); [congruence|discriminate]. }
  induction l as [|[s k] l IH]; intros [|[s' k'] m] Hl Hm E; [auto| | |].
  - exfalso. apply Forall_cons_iff in Hm. destruct Hm as [[N _] _]. cbn in *. destruct s'; [congruence|discriminate].
  - exfalso. apply Forall_cons_iff in Hl. destruct Hl as [[N _] _]. cbn in *. destruct s; [congruence|discriminate].
  - apply Forall_cons_iff in Hl, Hm. destruct Hl as [[N D] Hl], Hm as [[N' D'] Hm]. cbn [text fold_right fst snd] in E, N, N', D, D'. fold (text l) in E. fold (text m) in E.
    apply split_letters in E; auto; [|intros c t Q; eapply HD; eauto|intros c t Q; eapply HD; eauto]. destruct E as [-> E].
    apply split_digits in E; [|apply str_all_digit|apply str_all_digit|intros c t Q; exact (text_head l c t Hl Q)|intros c t Q; exact (text_head m c t Hm Q)].
    destruct E as [E1 E2]. apply str_inj in E1. subst k'. f_equal. apply IH; auto.
Qed.

(** Structures with the same name have the same number of atoms of each element. *)
Theorem composition_names : forall order order' a b, set_order order -> set_order order' -> Forall symbol a -> Forall symbol b ->
  composition_name order a = composition_name order' b -> Permutation a b.
Proof.
  intros order order' a b HO HO' Ha Hb E. assert (Q : stoichiometry order a = stoichiometry order' b).
  { apply text_inj; [| |exact E]; unfold stoichiometry; apply Forall_forall; intros p Hp; apply in_map_iff in Hp; destruct Hp as (e & <- & He); cbn;
      [destruct (HO a) as [_ I]|destruct (HO' b) as [_ I]]; apply I in He; rewrite Forall_forall in *; auto. }
  assert (C : forall order l e n, set_order order -> In (e, n) (stoichiometry order l) <-> In e l /\ n = count_occ string_dec l e).
  { clear. intros order l e n HO. destruct (HO l) as [_ I]. unfold stoichiometry. rewrite in_map_iff.
    assert (CO : count e l = count_occ string_dec l e).
    { unfold count. clear. induction l as [|x l IH]; [auto|]. cbn. destruct (String.eqb_spec e x) as [->|D]; destruct (string_dec _ _); cbn; congruence. }
    split; [intros (x & E & Hx); injection E as -> <-; split; [apply I; auto|auto]|intros [H ->]; exists e; split; [congruence|apply I; auto]]. }
  apply (Permutation_count_occ string_dec). intros e. destruct (in_dec string_dec e a) as [Hin|Hout].
  - assert (H : In (e, count_occ string_dec a e) (stoichiometry order a)) by (apply C; auto). rewrite Q in H. apply C in H; tauto.
  - destruct (in_dec string_dec e b) as [Hin|Hout'].
    + exfalso. assert (H : In (e, count_occ string_dec b e) (stoichiometry order' b)) by (apply C; auto). rewrite <- Q in H. apply C in H; tauto.
    + apply (count_occ_not_In string_dec) in Hout, Hout'. congruence.
Qed.

(** The name of one structure may differ from one process to the next, and so do the folders of its sites. *)
Theorem composition_names_refuted : exists order order' a, (NoDup (order a) /\ forall x, In x (order a) <-> In x a) /\ (NoDup (order' a) /\ forall x, In x (order' a) <-> In x a) /\
  composition_name order a = "Cu1Pt1" /\ composition_name order' a = "Pt1Cu1".
Proof.
  exists (fun l => l), (@rev string), ["Cu"; "Pt"]. split; [split; [repeat constructor; cbn; intuition discriminate|tauto]|].
  split; [split; [repeat constructor; cbn; intuition discriminate|cbn; tauto]|]. split; reflexivity.
Qed.

Example composition_example : set_order (nodup string_dec) /\ composition_name (nodup string_dec) ["Cu"; "Cu"; "Pt"; "Cu"] = "Pt1Cu3".
Proof. split; [intros l; split; [apply NoDup_nodup|intros x; apply nodup_In]|reflexivity]. Qed.

Example projection_example : project (fun c (l : list nat) (_ : unit) => Ok (c + length l)) Nat.add 2 [1; 5] tt [5; 7] = Ok ([5; 9], [9; 11]).
Proof. reflexivity. Qed.

Print Assumptions default_dimensions.
Print Assumptions default_dimensions_refuted.
Print Assumptions given_dimensions.
Print Assumptions projection.
Print Assumptions projection_components.
Print Assumptions composition_names.
Print Assumptions composition_names_refuted.
