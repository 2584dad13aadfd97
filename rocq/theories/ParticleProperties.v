(** Properties of nearestneighbour_vec and bond_count_vec. *)
From Coq Require Import ZArith Reals String List Arith Bool Permutation Sorted Lia Lra.
From Verif Require Import Base BaseFacts RBase FeatModel PeriodicModel FingerModel FeatProperties NeighborProperties.
Import ListNotations.
Local Open Scope nat_scope.

(** * Specification *)
(** Ordered pairs of different atoms of elements y and z that are closer than the cut-off. *)
Definition near_pairs (zs : list nat) (dm : nat -> nat -> R) (nndist : R) (y z : nat) : list (nat * nat) :=
  filter (fun q => negb (Nat.eqb (fst q) (snd q)) && Nat.eqb (nth (fst q) zs 0) y && Nat.eqb (nth (snd q) zs 0) z && Rltb (dm (fst q) (snd q)) nndist)
         (list_prod (seq 0 (length zs)) (seq 0 (length zs))).
(** The average number of neighbours of element z that an atom of element y has. *)
Definition average_neighbors zs dm nndist y z : R := (INR (length (near_pairs zs dm nndist y z)) / INR (count_occ Nat.eq_dec zs y))%R.

(** * Proofs *)
Lemma filter_filter_len {A} (f g : A -> bool) l : length (filter g (filter f l)) = length (filter (fun x => f x && g x) l).
Proof. induction l as [|x t IH]; cbn; [auto|]. destruct (f x); cbn; [destruct (g x); cbn; auto|auto]. Qed.
Lemma first_index_ok z ts i : NoDup ts -> i < length ts -> nth i ts 0 = z -> first_index z ts = Ok i.
Proof.
  intros HN Hi E. unfold first_index.
  assert (H : In i (filter (fun j => Nat.eqb z (nth j ts 0)) (seq 0 (length ts)))) by (apply filter_In; split; [apply in_seq; lia|apply Nat.eqb_eq; auto]).
  destruct (filter _ _) as [|j l] eqn:EF; [destruct H|].
  assert (HJ : In j (filter (fun j => Nat.eqb z (nth j ts 0)) (seq 0 (length ts)))) by (rewrite EF; left; auto).
  apply filter_In in HJ as [H1 H2]. apply in_seq in H1. apply Nat.eqb_eq in H2. f_equal. apply (proj1 (NoDup_nth ts 0) HN); try lia; congruence.
Qed.
Lemma first_index_in z ts : NoDup ts -> In z ts -> exists i, i < length ts /\ nth i ts 0 = z /\ first_index z ts = Ok i.
Proof. intros HN H. apply (In_nth _ _ 0) in H as (i & Hi & E). exists i. repeat split; auto. apply first_index_ok; auto. Qed.

Section NN.
Variables (zs : list nat) (dm : nat -> nat -> R) (nndist : R) (ts : list nat).
Hypothesis HN : NoDup ts.
Hypothesis HI : forall z, In z zs -> In z ts.

Lemma el_in i : i < length zs -> In (nth i zs 0) ts.
Proof. intros H. apply HI, nth_In. auto. Qed.

Lemma neighbor_loop_spec row : forall ns m, (forall n, In n ns -> n < length zs) ->
  exists m', neighbor_loop zs ts row ns m = Ok m' /\
    forall a b, b < length ts -> m' a b = m a b + (if Nat.eqb a row then length (filter (fun n => Nat.eqb (nth n zs 0) (nth b ts 0)) ns) else 0).
Proof.
  induction ns as [|n t IH]; intros m HNs; cbn [neighbor_loop].
  - exists m. split; [auto|]. intros a b _. cbn. destruct (Nat.eqb a row); lia.
  - destruct (first_index_in (nth n zs 0) ts HN) as (c & Hc & Ec & ->); [apply el_in, HNs; left; auto|]. cbn [bind].
    destruct (IH (bump m row c)) as (m' & E & HM); [intros; apply HNs; right; auto|]. exists m'. split; [auto|]. intros a b Hb. rewrite HM by auto. unfold bump. cbn [filter].
    assert (EB : Nat.eqb (nth n zs 0) (nth b ts 0) = Nat.eqb b c).
    { rewrite <- Ec. destruct (Nat.eqb_spec b c) as [->|Hbc]; [apply Nat.eqb_refl|]. apply Nat.eqb_neq. intros E'. apply Hbc. symmetry. apply (proj1 (NoDup_nth ts 0) HN); auto. }
    rewrite EB. destruct (Nat.eqb a row); destruct (Nat.eqb b c); cbn [andb length]; lia.
Qed.

Definition close (q : nat * nat) : bool := Rltb (dm (fst q) (snd q)) nndist.
Lemma atom_loop_spec : forall is m, (forall i, In i is -> i < length zs) ->
  exists m', atom_loop zs dm nndist ts is m = Ok m' /\
    forall a b, a < length ts -> b < length ts -> m' a b = m a b +
      length (filter (fun q => Nat.eqb (nth (fst q) zs 0) (nth a ts 0) && Nat.eqb (nth (snd q) zs 0) (nth b ts 0) && close q) (list_prod is (seq 0 (length zs)))).
Proof.
  induction is as [|i t IH]; intros m HIs; cbn [atom_loop].
  - exists m. split; [auto|]. intros. cbn. lia.
  - destruct (first_index_in (nth i zs 0) ts HN) as (row & Hr & Er & ->); [apply el_in, HIs; left; auto|]. cbn [bind].
    destruct (neighbor_loop_spec row (neighbors zs dm nndist i) m) as (m1 & -> & HM1).
    { intros n Hn. unfold neighbors in Hn. apply filter_In in Hn as [Hn _]. apply in_seq in Hn. lia. }
    cbn [bind]. destruct (IH m1) as (m' & E & HM); [intros; apply HIs; right; auto|]. exists m'. split; [auto|]. intros a b Ha Hb. rewrite HM, HM1 by auto.
    cbn [list_prod]. rewrite filter_app, app_length, filter_len_map. cbn [fst snd]. rewrite Nat.add_assoc. f_equal. f_equal.
    assert (EB : Nat.eqb (nth i zs 0) (nth a ts 0) = Nat.eqb a row).
    { rewrite <- Er. destruct (Nat.eqb_spec a row) as [->|Hbc]; [apply Nat.eqb_refl|]. apply Nat.eqb_neq. intros E'. apply Hbc. symmetry. apply (proj1 (NoDup_nth ts 0) HN); auto. }
    rewrite EB. unfold neighbors. destruct (Nat.eqb a row); cbn [andb].
    + rewrite (filter_filter_len (fun j => Rltb (dm i j) nndist) (fun n => Nat.eqb (nth n zs 0) (nth b ts 0))). apply filter_len_ext. intros j _. unfold close. cbn [fst snd]. apply andb_comm.
    + clear. generalize (seq 0 (length zs)). intros l. induction l; [reflexivity|]. exact IHl.
Qed.
End NN.

(** The pairs counted for a and b: those of the specification and, for a = b, every atom with
    itself. *)
Lemma counted_pairs zs dm nndist y z : (forall i, dm i i = 0%R) -> (0 < nndist)%R ->
  length (filter (fun q => Nat.eqb (nth (fst q) zs 0) y && Nat.eqb (nth (snd q) zs 0) z && close dm nndist q) (list_prod (seq 0 (length zs)) (seq 0 (length zs)))) =
  length (near_pairs zs dm nndist y z) + (if Nat.eqb y z then count_occ Nat.eq_dec zs y else 0).
Proof.
  intros HD HP. unfold near_pairs.
  set (P := fun q : nat * nat => Nat.eqb (nth (fst q) zs 0) y && Nat.eqb (nth (snd q) zs 0) z && close dm nndist q).
  set (l := list_prod (seq 0 (length zs)) (seq 0 (length zs))).
  transitivity (length (filter (fun q => negb (Nat.eqb (fst q) (snd q)) && P q) l) + length (filter (fun q => Nat.eqb (fst q) (snd q) && P q) l)).
  { clear. induction l as [|q t IH]; cbn [filter]; [auto|]. destruct (Nat.eqb (fst q) (snd q)), (P q); cbn [negb andb length]; lia. }
  f_equal.
  { apply filter_len_ext. intros q _. unfold P, close. rewrite !andb_assoc. reflexivity. }
  transitivity (length (filter (fun i => Nat.eqb (nth i zs 0) y && Nat.eqb (nth i zs 0) z) (seq 0 (length zs)))).
  - unfold l. assert (G : forall u, incl u (seq 0 (length zs)) -> length (filter (fun q => Nat.eqb (fst q) (snd q) && P q) (list_prod u (seq 0 (length zs)))) =
      length (filter (fun i => Nat.eqb (nth i zs 0) y && Nat.eqb (nth i zs 0) z) u)); [|apply G, incl_refl].
    induction u as [|i u IH]; intros HU; cbn [list_prod filter]; [auto|]. rewrite filter_app, app_length, filter_len_map. cbn [fst snd]. rewrite IH by (intros x Hx; apply HU; right; auto).
    assert (Hi : In i (seq 0 (length zs))) by (apply HU; left; auto).
    assert (E : length (filter (fun j => Nat.eqb i j && P (i, j)) (seq 0 (length zs))) = if Nat.eqb (nth i zs 0) y && Nat.eqb (nth i zs 0) z then 1 else 0).
    { assert (HND : NoDup (seq 0 (length zs))) by apply seq_NoDup. revert Hi HND. generalize (seq 0 (length zs)). intros s Hi HND. induction s as [|j s IHs]; [destruct Hi|].
      inversion HND as [|a b Ha Hb]; subst. cbn [filter]. destruct Hi as [->|Hi].
      - rewrite Nat.eqb_refl. cbn [andb]. assert (E0 : filter (fun j => Nat.eqb i j && P (i, j)) s = []).
        { clear - Ha. induction s as [|j s IHs]; [auto|]. cbn [filter]. destruct (Nat.eqb_spec i j); [subst; exfalso; apply Ha; left; auto|]. apply IHs. intros H. apply Ha. right; auto. }
        unfold P at 1, close. cbn [fst snd]. rewrite HD. replace (Rltb 0 nndist) with true by (symmetry; apply Rltb_true; auto). rewrite andb_true_r.
        destruct (Nat.eqb (nth i zs 0) y && Nat.eqb (nth i zs 0) z); cbn [length]; rewrite E0; reflexivity.
      - destruct (Nat.eqb_spec i j); [subst; contradiction|]. cbn [andb]. auto. }
    rewrite E. destruct (Nat.eqb (nth i zs 0) y && Nat.eqb (nth i zs 0) z); cbn [length]; lia.
  - destruct (Nat.eqb_spec y z) as [<-|Hyz].
    + rewrite <- count_spec. unfold count. transitivity (length (filter (Nat.eqb y) (map (fun i => nth i zs 0) (seq 0 (length zs))))); [|rewrite <- (list_as_map zs 0); reflexivity].
      rewrite filter_len_map. apply filter_len_ext. intros i _. rewrite andb_diag. apply Nat.eqb_sym.
    + induction (seq 0 (length zs)) as [|i t IH]; cbn [filter]; [auto|]. destruct (Nat.eqb_spec (nth i zs 0) y); cbn [andb]; [|auto]. destruct (Nat.eqb_spec (nth i zs 0) z); [congruence|auto].
Qed.

Lemma nn_values zs dm nndist ts : NoDup ts -> (forall z, In z zs -> In z ts) -> (forall i, dm i i = 0%R) -> (0 < nndist)%R ->
  exists v, nearestneighbour_vec zs dm nndist ts = Ok v /\ length v = length ts * length ts /\
    forall a b, a < length ts -> b < length ts -> nth (a * length ts + b) v 0%R =
      if Nat.eqb (count_occ Nat.eq_dec zs (nth a ts 0)) 0 then 0%R
      else (average_neighbors zs dm nndist (nth a ts 0%nat) (nth b ts 0%nat) + (if Nat.eqb a b then 1 else 0))%R.
Proof.
  intros HN HI HD HP. unfold nearestneighbour_vec.
  destruct (atom_loop_spec zs dm nndist ts HN HI (seq 0 (length zs)) (fun _ _ => 0)) as (m & -> & HM); [intros i Hi; apply in_seq in Hi; lia|]. cbn [bind].
  eexists. split; [reflexivity|]. split; [rewrite (flat_map_len _ (length ts)) by (intros; rewrite map_length, seq_length; auto); rewrite seq_length; auto|].
  intros a b Ha Hb. rewrite (flat_map_nth _ (length ts)) by (auto; intros; rewrite map_length, seq_length; auto).
  rewrite (nth_map_lt _ _ _ 0) by (rewrite seq_length; auto). rewrite seq_nth by auto. cbn [Nat.add]. rewrite count_spec. rewrite HM by auto. rewrite counted_pairs by auto. cbn [Nat.add].
  destruct (Nat.eqb_spec (count_occ Nat.eq_dec zs (nth a ts 0)) 0) as [|HC]; [reflexivity|].
  assert (EAB : Nat.eqb (nth a ts 0) (nth b ts 0) = Nat.eqb a b).
  { destruct (Nat.eqb_spec a b) as [->|Hab]; [apply Nat.eqb_refl|]. apply Nat.eqb_neq. intros E. apply Hab, (proj1 (NoDup_nth ts 0) HN); auto. }
  rewrite EAB. unfold average_neighbors. assert (HC' : INR (count_occ Nat.eq_dec zs (nth a ts 0)) <> 0%R) by (apply not_0_INR; auto).
  rewrite plus_INR. destruct (Nat.eqb a b); [field; auto|]. change (INR 0) with 0%R. field; auto.
Qed.

Lemma prod_nth_error (us : list nat) b : b < length us -> forall ts a, a < length ts -> nth_error (list_prod ts us) (a * length us + b) = Some (nth a ts 0, nth b us 0).
Proof.
  intros Hb ts. induction ts as [|t tl IH]; intros a Ha; [cbn in Ha; lia|]. cbn [list_prod]. destruct a as [|a].
  - cbn [Nat.mul Nat.add]. rewrite nth_error_app1 by (rewrite map_length; auto). rewrite (map_nth_error (fun y => (t, y)) b us (d := nth b us 0)); [reflexivity|]. apply nth_error_nth'. auto.
  - rewrite nth_error_app2 by (rewrite map_length; cbn; lia). rewrite map_length. replace (S a * length us + b - length us) with (a * length us + b) by (cbn; lia). apply IH. cbn in Ha. lia.
Qed.

(** Between different elements the feature is the average number of neighbours (zero for
    elements that do not occur); one value per name, in the order of names. *)
Theorem nearestneighbour_partial : forall zs dm nndist ts, NoDup ts -> (forall z, In z zs -> In z ts) -> (forall i, dm i i = 0%R) -> (0 < nndist)%R ->
  exists v, nearestneighbour_vec zs dm nndist ts = Ok v /\ length v = length (nearestneighbour_names ts) /\
    forall k y z, nth_error (nearestneighbour_names ts) k = Some (y, z) -> y <> z ->
      nth_error v k = Some (if in_dec Nat.eq_dec y zs then average_neighbors zs dm nndist y z else 0%R).
Proof.
  intros zs dm nndist ts HN HI HD HP. destruct (nn_values zs dm nndist ts HN HI HD HP) as (v & EV & HL & HV). exists v. split; [auto|].
  unfold nearestneighbour_names. split; [rewrite prod_length; auto|]. intros k y z EK Hyz.
  assert (Hk : k < length ts * length ts) by (rewrite <- prod_length; apply nth_error_Some; congruence).
  assert (Hpos : length ts <> 0) by (intros E; rewrite E in Hk; lia).
  set (a := k / length ts). set (b := k mod length ts). assert (Hb : b < length ts) by (apply Nat.mod_upper_bound; auto).
  assert (Ekab : k = a * length ts + b) by (rewrite Nat.mul_comm; apply Nat.div_mod; auto).
  assert (Ha : a < length ts) by (apply Nat.div_lt_upper_bound; lia).
  assert (EP : nth_error (list_prod ts ts) (a * length ts + b) = Some (nth a ts 0, nth b ts 0)).
  { apply prod_nth_error; auto. }
  rewrite <- Ekab, EK in EP. injection EP as EY EZ.
  rewrite (nth_error_nth' v 0%R) by lia. rewrite Ekab, HV by auto. f_equal. rewrite EY, EZ.
  destruct (Nat.eqb_spec a b) as [E|]; [exfalso; apply Hyz; rewrite EY, EZ, E; reflexivity|].
  destruct (in_dec Nat.eq_dec (nth a ts 0) zs) as [H|H].
  - apply (count_occ_In Nat.eq_dec) in H. destruct (Nat.eqb_spec (count_occ Nat.eq_dec zs (nth a ts 0)) 0); [lia|]. lra.
  - apply (count_occ_not_In Nat.eq_dec) in H. rewrite H. reflexivity.
Qed.
(** Between atoms of the same element it is one too large: every atom is its own neighbour. *)
Theorem nearestneighbour_diagonal_refuted : forall zs dm nndist ts, NoDup ts -> (forall z, In z zs -> In z ts) -> (forall i, dm i i = 0%R) -> (0 < nndist)%R ->
  exists v, nearestneighbour_vec zs dm nndist ts = Ok v /\
    forall a, a < length ts -> In (nth a ts 0) zs -> nth (a * length ts + a) v 0%R = (average_neighbors zs dm nndist (nth a ts 0%nat) (nth a ts 0%nat) + 1)%R.
Proof.
  intros zs dm nndist ts HN HI HD HP. destruct (nn_values zs dm nndist ts HN HI HD HP) as (v & EV & HL & HV). exists v. split; [auto|]. intros a Ha H.
  rewrite HV, Nat.eqb_refl by auto. apply (count_occ_In Nat.eq_dec) in H. destruct (Nat.eqb_spec (count_occ Nat.eq_dec zs (nth a ts 0)) 0); [lia|reflexivity].
Qed.
(** Two atoms far apart have one neighbour each. *)
Example nearestneighbour_far : exists v, nearestneighbour_vec [29; 29] (fun i j => if Nat.eqb i j then 0%R else 100%R) 3 [29] = Ok v /\ nth 0 v 0%R = 1%R /\
  average_neighbors [29; 29] (fun i j => if Nat.eqb i j then 0%R else 100%R) 3 29 29 = 0%R.
Proof.
  destruct (nearestneighbour_diagonal_refuted [29; 29] (fun i j => if Nat.eqb i j then 0%R else 100%R) 3 [29]) as (v & EV & HV).
  - constructor; [intros []|constructor].
  - intros z [<-|[<-|[]]]; left; auto.
  - intros i. rewrite Nat.eqb_refl. auto.
  - lra.
  - exists v. split; [auto|]. assert (E : average_neighbors [29; 29] (fun i j => if Nat.eqb i j then 0%R else 100%R) 3 29 29 = 0%R).
    { unfold average_neighbors. replace (near_pairs _ _ _ _ _) with (@nil (nat * nat)); [cbn; field|]. unfold near_pairs. cbn.
      replace (Rltb 100 3) with false by (symmetry; apply Rltb_false; lra). reflexivity. }
    split; [|exact E]. specialize (HV 0). cbn [length Nat.mul Nat.add nth] in HV. rewrite HV; [rewrite E; lra|lia|left; auto].
Qed.

(** * bond_count_vec *)
(** Atoms at a distance above 0.1 and below the cutoff. *)
Definition partners (zs : list nat) (dm : nat -> nat -> R) (nndist : R) (i : nat) : list nat :=
  filter (fun j => if Rlt_dec 0.1 (dm i j) then if Rlt_dec (dm i j) nndist then true else false else false) (seq 0 (length zs)).
(** Bonded pairs of atoms, each in both directions, of atoms with at most twelve bonds. *)
Definition bonded_pairs (zs : list nat) (dm : nat -> nat -> R) (nndist : R) : list (nat * nat) :=
  flat_map (fun i => map (pair i) (partners zs dm nndist i)) (filter (fun i => length (partners zs dm nndist i) <=? 12) (seq 0 (length zs))).
Lemma partners_bonded zs dm nndist i : partners zs dm nndist i = bonded zs dm nndist i.
Proof. unfold partners, bonded. apply filter_ext. intros j. unfold Rltb. destruct (Rlt_dec 0.1 (dm i j)), (Rlt_dec (dm i j) nndist); auto. Qed.

Lemma negb_ltb a b : negb (a <? b) = (b <=? a).
Proof. rewrite Nat.ltb_antisym. apply negb_involutive. Qed.

Lemma sum_map_flat {A} (f : A -> list nat) l : sum (flat_map f l) = sum (map (fun x => sum (f x)) l).
Proof. induction l; cbn; [auto|]. rewrite sum_app, IHl. auto. Qed.

(** With at least thirteen classes, as by default, it never fails and counts every such bond
    once; the number of features depends on the number of elements of the structure. *)
Theorem bond_count_features : forall zs dm nndist mb, 13 <= mb ->
  exists v, bond_count_vec zs dm nndist mb = Ok v /\ sum v = length (bonded_pairs zs dm nndist) /\
    length v = mb * (length (nodup Nat.eq_dec zs) * length (nodup Nat.eq_dec zs)).
Proof.
  intros zs dm nndist mb Hmb. unfold bond_count_vec.
  set (atoms := filter (fun i => negb (12 <? length (bonded zs dm nndist i))) (seq 0 (length zs))).
  assert (HA : forall i, In i atoms -> i < length zs /\ length (bonded zs dm nndist i) <= 12).
  { intros i Hi. unfold atoms in Hi. apply filter_In in Hi as [H1 H2]. apply in_seq in H1. rewrite negb_ltb in H2. apply Nat.leb_le in H2. lia. }
  replace (forallb _ atoms) with true.
  2: { symmetry. apply forallb_forall. intros i Hi. apply HA in Hi as [_ Hi]. apply orb_true_iff. left. apply Nat.ltb_lt. lia. }
  eexists. split; [reflexivity|].
  set (prs := flat_map (fun i => map (pair i) (bonded zs dm nndist i)) atoms).
  assert (EB : bonded_pairs zs dm nndist = prs).
  { unfold bonded_pairs, prs, atoms. rewrite (flat_map_ext _ _ (fun i => f_equal (map (pair i)) (partners_bonded zs dm nndist i))).
    f_equal. apply filter_ext. intros i. rewrite partners_bonded, negb_ltb. reflexivity. }
  set (es := sorted_set zs). destruct (sorted_set_spec zs) as [HI HE]. fold es in HI, HE.
  assert (HP : forall q, In q prs -> In (nth (fst q) zs 0) es /\ In (nth (snd q) zs 0) es /\ length (bonded zs dm nndist (fst q)) < mb).
  { intros q Hq. unfold prs in Hq. apply in_flat_map in Hq as (i & Hi & Hq). apply in_map_iff in Hq as (j & <- & Hj). cbn [fst snd]. apply HA in Hi as [Hi1 Hi2].
    unfold bonded in Hj. apply filter_In in Hj as [Hj _]. apply in_seq in Hj. repeat split; [apply HE, nth_In; auto|apply HE, nth_In; lia|lia]. }
  split.
  - rewrite EB. rewrite sum_map_flat.
    assert (G1 : forall ln, sum (flat_map (fun r => map (fun c => length (filter (fun q => Nat.eqb (length (bonded zs dm nndist (fst q))) ln && Nat.eqb (nth (fst q) zs 0) r && Nat.eqb (nth (snd q) zs 0) c) prs)) es) es) =
      length (filter (fun q => Nat.eqb ln (length (bonded zs dm nndist (fst q)))) prs)).
    { intros ln. rewrite sum_map_flat.
      rewrite (map_ext _ (fun r => length (filter (fun q => Nat.eqb r (nth (fst q) zs 0)) (filter (fun q => Nat.eqb ln (length (bonded zs dm nndist (fst q)))) prs)))).
      - apply (sum_classes Nat.eqb es (fun q : nat * nat => nth (fst q) zs 0)); [apply Nat.eqb_eq|apply increasing_NoDup; auto|]. intros q Hq. apply filter_In in Hq as [Hq _]. apply HP; auto.
      - intros r. rewrite <- (sum_classes Nat.eqb es (fun q : nat * nat => nth (snd q) zs 0)); [|apply Nat.eqb_eq|apply increasing_NoDup; auto|].
        + f_equal. apply map_ext. intros c. rewrite !filter_filter_len. apply filter_len_ext. intros q _.
          rewrite (Nat.eqb_sym ln), (Nat.eqb_sym r), (Nat.eqb_sym c). rewrite <- !andb_assoc. reflexivity.
        + intros q Hq. apply filter_In in Hq as [Hq _]. apply filter_In in Hq as [Hq _]. apply HP; auto. }
    rewrite (map_ext _ _ G1). apply (sum_classes Nat.eqb (seq 0 mb) (fun q : nat * nat => length (bonded zs dm nndist (fst q)))); [apply Nat.eqb_eq|apply seq_NoDup|].
    intros q Hq. apply in_seq. destruct (HP q Hq) as (_ & _ & H). lia.
  - rewrite (flat_map_len _ (length es * length es)).
    + rewrite seq_length. f_equal. f_equal; apply Permutation_length, NoDup_Permutation; try apply NoDup_nodup; try (apply increasing_NoDup; auto); intros z; rewrite nodup_In; apply HE.
    + intros ln. rewrite (flat_map_len _ (length es)); [auto|]. intros; apply map_length.
Qed.
Lemma nth_all {A} (l : list A) d : map (fun i => nth i l d) (seq 0 (length l)) = l.
Proof. induction l as [|x t IH]; [auto|]. cbn [length seq map nth]. rewrite <- seq_shift, map_map. f_equal. exact IH. Qed.
Lemma NoDup_map_in {A B} (f : A -> B) l : (forall x y, In x l -> In y l -> f x = f y -> x = y) -> NoDup l -> NoDup (map f l).
Proof.
  intros Hf H. induction H as [|x t Hx Ht IH]; cbn; constructor.
  - intros HI. apply in_map_iff in HI as (y & E & Hy). apply Hf in E; [subst; auto|right; auto|left; auto].
  - apply IH. intros a b Ha Hb. apply Hf; right; auto.
Qed.
Lemma filter_perm_len {A} (f : A -> bool) l l' : Permutation l l' -> length (filter f l) = length (filter f l').
Proof. induction 1; cbn; auto; try (destruct (f x); cbn; auto); try (destruct (f y); cbn; auto); congruence. Qed.

(** The vector has one number for each number of bonds n and each ordered pair of elements
    of the structure: the bonds, of atoms of the first element with n bonds each, with atoms
    of the second element. *)
Definition bonds_of (zs : list nat) (dm : nat -> nat -> R) (nndist : R) (n y z : nat) : list (nat * nat) :=
  filter (fun q => Nat.eqb (length (partners zs dm nndist (fst q))) n && Nat.eqb (nth (fst q) zs 0) y && Nat.eqb (nth (snd q) zs 0) z) (bonded_pairs zs dm nndist).

Lemma flat_map_index {A} (f : nat -> list A) es : flat_map f es = flat_map (fun i => f (nth i es 0)) (seq 0 (length es)).
Proof.
  rewrite <- (map_id es) at 1. rewrite <- (nth_all es 0) at 1. rewrite map_id, !flat_map_concat_map, map_map. reflexivity.
Qed.

Lemma bonded_pairs_model zs dm nndist : bonded_pairs zs dm nndist =
  flat_map (fun i => map (pair i) (bonded zs dm nndist i)) (filter (fun i => negb (12 <? length (bonded zs dm nndist i))) (seq 0 (length zs))).
Proof.
  unfold bonded_pairs. rewrite (flat_map_ext _ _ (fun i => f_equal (map (pair i)) (partners_bonded zs dm nndist i))).
  f_equal. apply filter_ext. intros i. rewrite partners_bonded, negb_ltb. reflexivity.
Qed.

Theorem bond_count_entries : forall zs dm nndist mb v, bond_count_vec zs dm nndist mb = Ok v ->
  exists es, increasing es /\ (forall z, In z es <-> In z zs) /\
  forall n a b, n < mb -> a < length es -> b < length es ->
    nth (n * (length es * length es) + (a * length es + b)) v 0 = length (bonds_of zs dm nndist n (nth a es 0) (nth b es 0)).
Proof.
  intros zs dm nndist mb v E. unfold bond_count_vec in E. cbv zeta in E. rewrite <- bonded_pairs_model in E.
  destruct (sorted_set_spec zs) as [HI HE]. exists (sorted_set zs). split; [auto|]. split; [auto|].
  set (es := sorted_set zs) in *. destruct (forallb _ _); [|discriminate]. injection E as <-. intros n a b Hn Ha Hb.
  rewrite (flat_map_nth _ (length es * length es)); auto.
  - rewrite flat_map_index, (flat_map_nth _ (length es)) by (auto; intros; apply map_length).
    rewrite (nth_map_lt _ _ _ 0) by auto. unfold bonds_of. f_equal. apply filter_ext. intros q. rewrite partners_bonded. reflexivity.
  - intros k. rewrite (flat_map_len _ (length es)); [auto|]. intros; apply map_length.
  - nia.
Qed.

(** The order of atoms does not matter. *)
Lemma partners_order zs dm nndist p i : Permutation p (seq 0 (length zs)) ->
  Permutation (map (fun j => nth j p 0) (partners (map (fun i => nth i zs 0) p) (fun i j => dm (nth i p 0) (nth j p 0)) nndist i)) (partners zs dm nndist (nth i p 0)).
Proof.
  intros HP. pose proof (Permutation_length HP) as HL. rewrite seq_length in HL.
  assert (ND : NoDup p) by (eapply Permutation_NoDup; [apply Permutation_sym, HP|apply seq_NoDup]).
  unfold partners. rewrite map_length.
  set (f := fun j => if Rlt_dec 0.1 (dm (nth i p 0) j) then if Rlt_dec (dm (nth i p 0) j) nndist then true else false else false).
  rewrite (filter_ext _ (fun j => f (nth j p 0))) by reflexivity.
  assert (G : forall l, map (fun j => nth j p 0) (filter (fun j => f (nth j p 0)) l) = filter f (map (fun j => nth j p 0) l)).
  { induction l as [|x l IH]; cbn; [auto|]. destruct (f (nth x p 0)); cbn; rewrite IH; auto. }
  rewrite G, nth_all.
  clearbody f. clear G ND HL. induction HP; cbn; auto.
  - destruct (f x); auto.
  - destruct (f x), (f y); auto. apply perm_swap.
  - eapply Permutation_trans; eauto.
Qed.

Lemma bonded_pairs_in zs dm nndist i j : In (i, j) (bonded_pairs zs dm nndist) <-> i < length zs /\ length (partners zs dm nndist i) <= 12 /\ In j (partners zs dm nndist i).
Proof.
  unfold bonded_pairs. rewrite in_flat_map. split.
  - intros (k & Hk & H). apply in_map_iff in H as (l & E & Hl). injection E as <- <-. apply filter_In in Hk as [H1 H2]. apply in_seq in H1. apply Nat.leb_le in H2. split; [lia|auto].
  - intros (H1 & H2 & H3). exists i. split; [apply filter_In; split; [apply in_seq; lia|apply Nat.leb_le; auto]|apply in_map; auto].
Qed.

Lemma bonded_pairs_NoDup zs dm nndist : NoDup (bonded_pairs zs dm nndist).
Proof.
  unfold bonded_pairs. assert (H : NoDup (filter (fun i => length (partners zs dm nndist i) <=? 12) (seq 0 (length zs)))) by apply NoDup_filter, seq_NoDup.
  induction H as [|x l Hx Hl IH]; cbn; [constructor|]. apply NoDup_app_intro.
  - apply FinFun.Injective_map_NoDup; [intros a b E; injection E; auto|]. apply NoDup_filter, seq_NoDup.
  - exact IH.
  - intros [a b] H1 H2. apply in_map_iff in H1 as (c & E & _). injection E as <- <-. apply in_flat_map in H2 as (k & Hk & H2). apply in_map_iff in H2 as (c' & E & _). injection E as -> _. auto.
Qed.

Theorem bond_count_order : forall zs dm nndist mb p, Permutation p (seq 0 (length zs)) ->
  bond_count_vec (map (fun i => nth i zs 0) p) (fun i j => dm (nth i p 0) (nth j p 0)) nndist mb = bond_count_vec zs dm nndist mb.
Proof.
  intros zs dm nndist mb p HP. set (zs' := map (fun i => nth i zs 0) p). set (dm' := fun i j => dm (nth i p 0) (nth j p 0)).
  pose proof (Permutation_length HP) as HL. rewrite seq_length in HL.
  assert (ND : NoDup p) by (eapply Permutation_NoDup; [apply Permutation_sym, HP|apply seq_NoDup]).
  assert (HZ : Permutation zs' zs) by (unfold zs'; rewrite (Permutation_map (fun i => nth i zs 0) HP), nth_all; reflexivity).
  assert (HL' : length zs' = length zs) by apply Permutation_length, HZ.
  assert (EZ : forall i, i < length zs -> nth i zs' 0 = nth (nth i p 0) zs 0) by (intros i Hi; unfold zs'; rewrite (nth_map_lt _ _ _ 0) by lia; reflexivity).
  assert (HR : forall i, i < length zs -> nth i p 0 < length zs).
  { intros i Hi. assert (H : In (nth i p 0) (seq 0 (length zs))) by (rewrite <- HP; apply nth_In; lia). apply in_seq in H. lia. }
  assert (HS : forall i, i < length zs -> exists k, k < length zs /\ nth k p 0 = i).
  { intros i Hi. assert (H : In i p) by (rewrite HP; apply in_seq; lia). apply (In_nth _ _ 0) in H as (k & Hk & E). exists k. split; [lia|auto]. }
  assert (HPa : forall i, Permutation (map (fun j => nth j p 0) (partners zs' dm' nndist i)) (partners zs dm nndist (nth i p 0))) by (intros i; apply partners_order, HP).
  assert (HD : forall i, length (partners zs' dm' nndist i) = length (partners zs dm nndist (nth i p 0))) by (intros i; rewrite <- (HPa i), map_length; reflexivity).
  assert (HIn : forall i j, In j (partners zs' dm' nndist i) -> j < length zs).
  { intros i j H. unfold partners in H. apply filter_In in H as [H _]. apply in_seq in H. lia. }
  assert (HIn0 : forall i j, In j (partners zs dm nndist i) -> j < length zs).
  { intros i j H. unfold partners in H. apply filter_In in H as [H _]. apply in_seq in H. lia. }
  set (g := fun q : nat * nat => (nth (fst q) p 0, nth (snd q) p 0)).
  assert (HB : Permutation (map g (bonded_pairs zs' dm' nndist)) (bonded_pairs zs dm nndist)).
  { apply NoDup_Permutation.
    - apply NoDup_map_in; [|apply bonded_pairs_NoDup]. intros [i j] [k l] H1 H2 E. unfold g in E. cbn in E. injection E as E1 E2.
      apply bonded_pairs_in in H1 as (A1 & _ & A2). apply bonded_pairs_in in H2 as (B1 & _ & B2). apply HIn in A2. apply HIn in B2. rewrite HL' in *.
      f_equal; apply (proj1 (NoDup_nth p 0) ND); lia || auto.
    - apply bonded_pairs_NoDup.
    - intros [i j]. rewrite in_map_iff, bonded_pairs_in. split.
      + intros ([k l] & E & H). unfold g in E. cbn in E. injection E as <- <-. apply bonded_pairs_in in H as (H1 & H2 & H3). rewrite HL' in H1.
        split; [apply HR; auto|]. split; [rewrite <- HD; auto|]. rewrite <- HPa. apply in_map_iff. eauto.
      + intros (H1 & H2 & H3). destruct (HS i H1) as (k & Hk & <-). rewrite <- HPa in H3. apply in_map_iff in H3 as (l & <- & Hl).
        exists (k, l). split; [reflexivity|]. apply bonded_pairs_in. rewrite HL', HD. auto. }
  assert (ES : sorted_set zs' = sorted_set zs).
  { destruct (sorted_set_spec zs) as [I1 E1]. destruct (sorted_set_spec zs') as [I2 E2]. apply increasing_unique; auto. intros z. rewrite E1, E2, HZ. tauto. }
  unfold bond_count_vec. cbv zeta. rewrite <- !bonded_pairs_model, ES.
  set (c' := forallb _ _). set (c := forallb _ _).
  assert (EC : c' = c).
  { apply eq_true_iff_eq. unfold c, c'. rewrite !forallb_forall. split; intros H i Hi; apply filter_In in Hi as [H1 H2]; apply in_seq in H1.
    - destruct (HS i ltac:(lia)) as (k & Hk & <-). specialize (H k). rewrite <- !partners_bonded in *. rewrite HD in H. apply H. apply filter_In.
      split; [apply in_seq; lia|]. rewrite <- partners_bonded, HD. auto.
    - rewrite HL' in H1. specialize (H (nth i p 0)). rewrite <- !partners_bonded in *. rewrite HD in *. apply H. apply filter_In.
      split; [apply in_seq; split; [lia|cbn; apply HR; lia]|]. rewrite <- partners_bonded. auto. }
  rewrite EC. destruct c; [|reflexivity]. f_equal.
  apply flat_map_ext. intros n. apply flat_map_ext. intros y. apply map_ext. intros z.
  rewrite <- (filter_perm_len _ _ _ HB).
  assert (G : forall l, (forall q, In q l -> fst q < length zs /\ snd q < length zs) ->
    length (filter (fun q => (length (bonded zs' dm' nndist (fst q)) =? n) && (nth (fst q) zs' 0 =? y) && (nth (snd q) zs' 0 =? z)) l) =
    length (filter (fun q => (length (bonded zs dm nndist (fst q)) =? n) && (nth (fst q) zs 0 =? y) && (nth (snd q) zs 0 =? z)) (map g l))).
  { induction l as [|q l IH]; intros Hq; cbn [map filter]; [auto|]. destruct (Hq q (or_introl eq_refl)) as [Q1 Q2]. unfold g at 1 2 3. cbn [fst snd].
    rewrite <- !partners_bonded, HD, !EZ by auto. destruct (_ && _); cbn [length]; rewrite IH; auto; intros r Hr; apply Hq; right; auto. }
  apply G. intros [i j] Hq. apply bonded_pairs_in in Hq as (H1 & _ & H2). apply HIn in H2. cbn. lia.
Qed.

Example bond_count_entries_case : exists v, bond_count_vec [29; 79] (fun i j => if Nat.eqb i j then 0%R else 2%R) 3 13 = Ok v /\
  length (bonds_of [29; 79] (fun i j => if Nat.eqb i j then 0%R else 2%R) 3 1 29 79) = 1.
Proof.
  assert (E : Rltb 0.1 2 = true /\ Rltb 2 3 = true /\ Rltb 0.1 0 = false) by (repeat split; [apply Rltb_true|apply Rltb_true|apply Rltb_false]; lra).
  destruct (bond_count_features [29; 79] (fun i j => if Nat.eqb i j then 0%R else 2%R) 3 13 (le_n _)) as (v & E1 & _). exists v. split; [auto|].
  assert (P : forall i, i < 2 -> partners [29; 79] (fun i j => if Nat.eqb i j then 0%R else 2%R) 3 i = [1 - i]).
  { intros i Hi. rewrite partners_bonded. unfold bonded. destruct E as (E2 & E3 & E4). destruct i as [|[|i]]; [| |lia]; cbn [seq length filter Nat.eqb]; rewrite E2, E3, E4; reflexivity. }
  unfold bonds_of, bonded_pairs. cbn [length seq filter]. rewrite !P by lia. cbn -[partners]. rewrite !P by lia. cbn -[partners]. rewrite !P by lia. reflexivity.
Qed.

(** So two structures with different numbers of elements have feature vectors of different
    lengths, which cannot be rows of one matrix. *)
Theorem bond_count_length_refuted : forall zs zs' dm dm' r r' mb v v', 13 <= mb ->
  length (nodup Nat.eq_dec zs) < length (nodup Nat.eq_dec zs') ->
  bond_count_vec zs dm r mb = Ok v -> bond_count_vec zs' dm' r' mb = Ok v' -> length v < length v'.
Proof.
  intros zs zs' dm dm' r r' mb v v' Hmb HL E E'. destruct (bond_count_features zs dm r mb Hmb) as (w & EW & _ & LW). destruct (bond_count_features zs' dm' r' mb Hmb) as (w' & EW' & _ & LW').
  assert (w = v) as -> by congruence. assert (w' = v') as -> by congruence. rewrite LW, LW'. apply Nat.mul_lt_mono_pos_l; [lia|]. apply Nat.mul_lt_mono; auto.
Qed.
Example bond_count_case : length (nodup Nat.eq_dec [29; 29]) < length (nodup Nat.eq_dec [29; 79]).
Proof. cbn. lia. Qed.

Print Assumptions nearestneighbour_partial.
Print Assumptions nearestneighbour_diagonal_refuted.
Print Assumptions bond_count_features.
Print Assumptions bond_count_entries.
Print Assumptions bond_count_order.
Print Assumptions bond_count_length_refuted.
