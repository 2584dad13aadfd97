(** Properties of formal charges. *)
From Coq Require Import ZArith Reals List Arith Bool Permutation Sorted Lia Lra.
From Verif Require Import Base BaseFacts RBase FeatModel PeriodicModel FingerModel FeatProperties PeriodicProperties FingerProperties NeighborProperties ParticleProperties AdsorbModel AdsorbProperties AdsorbBondProperties.
Import ListNotations.
Local Open Scope nat_scope.

(** * Specification *)
(** The anions of the slab, and the number of bonds of an atom. *)
Definition anions (ion : nat) (a : struct) (slab : list nat) : list nat :=
  filter (fun i => mem i slab && Nat.eqb (zat a i) ion) (seq 0 (natoms a)).
Definition degree_of (a : struct) (i : nat) : Z := sumZ (map (cm a i) (seq 0 (natoms a))).
(** The charge q of every anion is taken from its neighbours, in equal parts for its bonds. *)
Definition charge_of (ion : nat) (q : R) (a : struct) (slab : list nat) (j : nat) : R :=
  ((if mem j slab && Nat.eqb (zat a j) ion then q else 0) -
   sumR (map (fun i => q * IZR (cm a i j) / IZR (degree_of a i)) (filter (fun i => negb (degree_of a i =? 0)%Z) (anions ion a slab))))%R.

Section Charges.
Variables (ion : nat) (q : R) (a : struct) (slab : list nat).
Hypothesis HN : non_negative a.

Lemma transfer_sum_eq i : transfer_sum ion q a slab i = (IZR (degree_of a i) * anion_charge ion q a slab i)%R.
Proof.
  unfold transfer_sum, transfer, degree_of. rewrite <- sumR_IZR. rewrite Rmult_comm, <- sumR_map_scal. apply sumR_map_ext. intros j _. lra.
Qed.

Lemma degree_zero i : degree_of a i = 0%Z -> forall j, j < natoms a -> cm a i j = 0%Z.
Proof.
  unfold degree_of. intros H j Hj. assert (G : forall l, sumZ (map (cm a i) l) = 0%Z -> (0 <= sumZ (map (cm a i) l))%Z /\ forall x, In x l -> cm a i x = 0%Z).
  { assert (P : forall l, (0 <= sumZ (map (cm a i) l))%Z) by (induction l as [|x t IH]; cbn; [lia|]; specialize (HN i x); lia).
    intros l E. split; [auto|]. induction l as [|x t IH]; [intros y []|]. cbn in E. specialize (P t). pose proof (HN i x). intros y [<-|Hy]; [lia|apply IH; [lia|auto]]. }
  apply (G _ H). apply in_seq. lia.
Qed.

(** The code divides by the row sums of the scaled matrix, and skips nan. *)
Lemma all_charges_eq j : q <> 0%R -> all_charges ion q a slab j = charge_of ion q a slab j.
Proof.
  intros Hq. unfold all_charges, charge_of, cation_charge. unfold anion_charge at 1, is_anion. unfold Rminus. f_equal. f_equal. rewrite !sum_filter_if.
  unfold anions. rewrite sum_filter_if. apply sumR_map_ext. intros i _. rewrite transfer_sum_eq. unfold transfer, anion_charge, is_anion.
  destruct (mem i slab && (zat a i =? ion)).
  - destruct (Z.eqb_spec (degree_of a i) 0) as [->|Hd]; cbn [negb].
    + rewrite Rmult_0_l, Reqb_refl. auto.
    + apply IZR_neq in Hd. destruct (Reqb _ 0) eqn:E; [apply Reqb_true, Rmult_integral in E; tauto|]. field. auto.
  - rewrite Rmult_0_r, Reqb_refl. auto.
Qed.

Lemma sum_swap {A B} (f : A -> B -> R) l m : sumR (map (fun x => sumR (map (f x) m)) l) = sumR (map (fun y => sumR (map (fun x => f x y) l)) m).
Proof. induction l as [|x t IH]; cbn [map sumR]; [rewrite (sum_zero (fun _ => 0%R)); auto|]. rewrite IH, <- sumR_map_plus. auto. Qed.

Lemma charge_total : sumR (map (charge_of ion q a slab) (seq 0 (natoms a))) =
  (q * INR (length (filter (fun i => (degree_of a i =? 0)%Z) (anions ion a slab))))%R.
Proof.
  unfold charge_of. rewrite sumR_map_minus. rewrite (sum_swap (fun j i => (q * IZR (cm a i j) / IZR (degree_of a i))%R)).
  rewrite <- (sum_filter_if (fun i => mem i slab && (zat a i =? ion)) (fun _ => q)). fold (anions ion a slab). rewrite sumR_map_const.
  rewrite (sumR_map_ext _ (fun _ => q)).
  - rewrite sumR_map_const. replace (length (anions ion a slab)) with
      (length (filter (fun i => negb (degree_of a i =? 0)%Z) (anions ion a slab)) + length (filter (fun i => (degree_of a i =? 0)%Z) (anions ion a slab))).
    + rewrite plus_INR. lra.
    + induction (anions ion a slab) as [|x t IH]; cbn [filter length]; [auto|]. destruct (degree_of a x =? 0)%Z; cbn [negb length]; lia.
  - intros i Hi. apply filter_In in Hi as [_ Hi]. apply negb_true_iff, Z.eqb_neq, IZR_neq in Hi.
    rewrite (sumR_map_ext _ (fun j => (q / IZR (degree_of a i) * IZR (cm a i j))%R)) by (intros; field; auto). rewrite sumR_map_scal, sumR_IZR. fold (degree_of a i). field. auto.
Qed.
End Charges.

(** * Conservation of charge *)
Theorem formal_charges_conserved : forall ion q a slab, q <> 0%R -> non_negative a ->
  (forall j, all_charges ion q a slab j = charge_of ion q a slab j) /\
  sumR (map (all_charges ion q a slab) (seq 0 (natoms a))) =
    (q * INR (length (filter (fun i => (degree_of a i =? 0)%Z) (anions ion a slab))))%R /\
  ((forall i, In i (anions ion a slab) -> (0 < degree_of a i)%Z) -> sumR (map (all_charges ion q a slab) (seq 0 (natoms a))) = 0%R).
Proof.
  intros ion q a slab Hq HN. assert (E : forall j, all_charges ion q a slab j = charge_of ion q a slab j) by (intros; apply all_charges_eq; auto).
  split; [auto|]. rewrite (sumR_map_ext _ (charge_of ion q a slab)) by auto. rewrite charge_total by auto. split; [auto|].
  intros H. replace (filter _ _) with (@nil nat); [cbn; lra|]. symmetry. assert (G : forall l, (forall i, In i l -> (0 < degree_of a i)%Z) -> filter (fun i => (degree_of a i =? 0)%Z) l = []).
  { induction l as [|x t IH]; intros HX; cbn; [auto|]. pose proof (HX x (or_introl eq_refl)). destruct (Z.eqb_spec (degree_of a x) 0); [lia|]. apply IH. intros; apply HX; right; auto. }
  apply G. auto.
Qed.

(** The order of the atoms does not matter. *)
Lemma degree_relabel p a i : reordering p a -> i < natoms a -> degree_of (relabel p a) i = degree_of a (nth i p 0).
Proof. apply row_cn_relabel. Qed.
Theorem formal_charges_order : forall ion q a slab p slab' j, q <> 0%R -> non_negative a -> reordering p a -> same_atoms p slab' slab -> j < natoms a ->
  all_charges ion q (relabel p a) slab' j = all_charges ion q a slab (nth j p 0).
Proof.
  intros ion q a slab p slab' j Hq HN HP HS Hj.
  assert (HL : length p = natoms a) by (apply (relabel_len p a HP)).
  assert (HA : forall i, i < natoms a -> anion_charge ion q (relabel p a) slab' i = anion_charge ion q a slab (nth i p 0)).
  { intros i Hi. unfold anion_charge, is_anion. rewrite (mem_relabel p a slab' slab i), relabel_zat by (auto; lia). auto. }
  assert (HT : forall i, i < natoms a -> transfer_sum ion q (relabel p a) slab' i = transfer_sum ion q a slab (nth i p 0)).
  { intros i Hi. rewrite !transfer_sum_eq. rewrite HA, (degree_relabel p a) by auto. auto. }
  unfold all_charges. rewrite HA by auto. f_equal. unfold cation_charge. f_equal. rewrite relabel_natoms by auto.
  assert (G : forall g : nat -> R, sumR (map g (seq 0 (natoms a))) = sumR (map (fun i => g (nth i p 0)) (seq 0 (natoms a)))).
  { intros g. rewrite <- (sumR_perm _ _ (Permutation_map g HP)), <- HL. rewrite (list_as_map p 0) at 1. rewrite map_map. auto. }
  rewrite (G (fun i => if Reqb (transfer_sum ion q a slab i) 0 then 0%R else (q * transfer ion q a slab i (nth j p O) / transfer_sum ion q a slab i)%R)).
  apply sumR_map_ext. intros i Hi. apply in_seq in Hi. rewrite HT by lia. unfold transfer. rewrite relabel_cm, HA by lia. auto.
Qed.

(** * Excess charges *)
(** [x] is an allowed oxidation state nearest to the charge. *)
Definition closest (os : list R) (c x : R) : Prop := In x os /\ forall o, In o os -> (Rabs (c - x) <= Rabs (c - o))%R.

Lemma nearest_closest c os : forall o, closest (o :: os) c (nearest c o os).
Proof.
  induction os as [|y t IH]; intros o; cbn [nearest].
  - split; [left; auto|]. intros x [<-|[]]. lra.
  - destruct (Rltb (Rabs (c - y)) (Rabs (c - o))) eqn:E.
    + apply Rltb_true in E. destruct (IH y) as [H1 H2]. split; [right; auto|]. intros x [<-|Hx]; [|auto]. specialize (H2 y (or_introl eq_refl)). lra.
    + apply Rltb_false in E. destruct (IH o) as [H1 H2]. split; [destruct H1; [left; auto|right; right; auto]|]. intros x [<-|[<-|Hx]]; [apply H2; left; auto| |apply H2; right; auto].
      specialize (H2 o (or_introl eq_refl)). lra.
Qed.
Lemma closest_self os c x : In c os -> closest os c x -> x = c.
Proof. intros H [_ H2]. specialize (H2 c H). replace (c - c)%R with 0%R in H2 by lra. rewrite Rabs_R0 in H2. pose proof (Rabs_pos (c - x)). assert (E : Rabs (c - x) = 0%R) by lra. destruct (Req_dec (c - x) 0) as [H3|H3]; [lra|]. apply Rabs_no_R0 in H3. contradiction. Qed.

Lemma excess_loop_spec a oxi charge site : forall is x,
  (forall i, In i is -> oxi (zat a i) <> []) ->
  exists near, (forall i, In i is -> closest (oxi (zat a i)) (charge i) (near i)) /\
  excess_loop a oxi charge site is x = Ok ((fst (fst x) + sumR (map (fun i => charge i - near i) (filter (fun i => mem i site) is)))%R,
    (snd (fst x) + sumR (map (fun i => charge i - near i) is))%R, (snd x + sumR (map (fun i => Rabs (charge i - near i)) is))%R).
Proof.
  pose (near := fun i => if existsb (Reqb (charge i)) (oxi (zat a i)) then charge i else match oxi (zat a i) with [] => 0%R | o :: os => nearest (charge i) o os end).
  intros is x HO. exists near. split.
  - intros i Hi. unfold near. destruct (existsb (Reqb (charge i)) (oxi (zat a i))) eqn:E.
    + apply existsb_exists in E as (y & Hy & E). apply Reqb_true in E. split; [congruence|]. intros o _. replace (charge i - charge i)%R with 0%R by lra. rewrite Rabs_R0. apply Rabs_pos.
    + specialize (HO i Hi). destruct (oxi (zat a i)) as [|o os]; [congruence|]. apply nearest_closest.
  - revert x HO. induction is as [|i t IH]; intros [[sx bx] tr] HO; cbn [excess_loop filter map sumR fst snd].
    + f_equal. f_equal; [f_equal|]; lra.
    + assert (Ht : forall j, In j t -> oxi (zat a j) <> []) by (intros; apply HO; right; auto).
      destruct (existsb (Reqb (charge i)) (oxi (zat a i))) eqn:E.
      * rewrite (IH (sx, bx, tr)) by auto. cbn [fst snd]. assert (EN : near i = charge i) by (unfold near; rewrite E; auto). rewrite EN.
        replace (sumR (map (fun j => charge j - near j) (if mem i site then i :: filter (fun j => mem j site) t else filter (fun j => mem j site) t)))%R with (sumR (map (fun j => charge j - near j) (filter (fun j => mem j site) t)))%R.
        -- f_equal. f_equal; [f_equal; lra|]. replace (charge i - charge i)%R with 0%R by lra. rewrite Rabs_R0. lra.
        -- destruct (mem i site); [|auto]. cbn [map sumR]. rewrite EN. lra.
      * pose proof (HO i (or_introl eq_refl)) as Hi. assert (EN : near i = match oxi (zat a i) with [] => 0%R | o :: os => nearest (charge i) o os end) by (unfold near; rewrite E; auto).
        destruct (oxi (zat a i)) as [|o os]; [congruence|]. rewrite <- EN. rewrite IH by auto. cbn [fst snd]. destruct (mem i site); cbn [map sumR]; (f_equal; f_equal; [f_equal|]; lra).
Qed.

Lemma sum_abs_bound {A} (f : A -> R) l : (Rabs (sumR (map f l)) <= sumR (map (fun x => Rabs (f x)) l))%R.
Proof. induction l as [|x t IH]; cbn [map sumR]; [rewrite Rabs_R0; lra|]. pose proof (Rabs_triang (f x) (sumR (map f t))). lra. Qed.

(** The features of a slab with anions: mean and sum of the charges of the site, and the
    deviations from the nearest oxidation states over the site, over the slab, and in
    absolute value; the last one vanishes exactly if all charges are oxidation states. *)
Theorem formal_charge_features : forall ion q a oxi s, q <> 0%R -> non_negative a ->
  (forall i, In i (slab_atoms s) -> oxi (zat a i) <> []) ->
  (~ (exists i, In i (slab_atoms s) /\ zat a i = ion) -> formal_charges ion q a oxi s = Ok (Some 0, 0, (0, 0, 0))%R) /\
  ((exists i, In i (slab_atoms s) /\ zat a i = ion) ->
   let charge := charge_of ion q a (slab_atoms s) in
   exists near av x y t, (forall i, In i (slab_atoms s) -> closest (oxi (zat a i)) (charge i) (near i)) /\
     formal_charges ion q a oxi s = Ok (av, sumR (map charge (site_atoms s)), (x, y, t)) /\
     (site_atoms s <> [] -> av = Some (mean (map charge (site_atoms s)))) /\ (site_atoms s = [] -> av = None) /\
     x = sumR (map (fun i => charge i - near i)%R (filter (fun i => mem i (site_atoms s)) (slab_atoms s))) /\
     y = sumR (map (fun i => charge i - near i)%R (slab_atoms s)) /\
     t = sumR (map (fun i => Rabs (charge i - near i)) (slab_atoms s)) /\
     (Rabs x <= t)%R /\ (Rabs y <= t)%R /\ (t = 0%R <-> forall i, In i (slab_atoms s) -> In (charge i) (oxi (zat a i)))).
Proof.
  intros ion q a oxi s Hq HN HO. split.
  - intros H. unfold formal_charges. destruct (existsb _ _) eqn:E; [|reflexivity]. exfalso. apply H. apply existsb_exists in E as (i & Hi & E). apply Nat.eqb_eq in E. eauto.
  - intros (i0 & Hi0 & E0) charge. unfold formal_charges. replace (existsb _ _) with true by (symmetry; apply existsb_exists; exists i0; rewrite E0, Nat.eqb_refl; auto). cbn [negb].
    destruct (excess_loop_spec a oxi (all_charges ion q a (slab_atoms s)) (site_atoms s) (slab_atoms s) (0, 0, 0)%R HO) as (near & HC & EL).
    assert (EA : forall j, all_charges ion q a (slab_atoms s) j = charge j) by (intros; apply all_charges_eq; auto).
    rewrite EL. cbn [bind fst snd]. exists near. do 4 eexists. split; [intros i Hi; rewrite <- EA; auto|]. split.
    { rewrite (sumR_map_ext _ charge (site_atoms s)) by auto. reflexivity. }
    assert (E1 : forall l, sumR (map (fun i => all_charges ion q a (slab_atoms s) i - near i)%R l) = sumR (map (fun i => charge i - near i)%R l)) by (intros; apply sumR_map_ext; intros; rewrite EA; auto).
    assert (E2 : forall l, sumR (map (fun i => Rabs (all_charges ion q a (slab_atoms s) i - near i)) l) = sumR (map (fun i => Rabs (charge i - near i)) l)) by (intros; apply sumR_map_ext; intros; rewrite EA; auto).
    rewrite !E1, !E2, !Rplus_0_l. split; [|split; [|split; [|split; [|split; [|split; [|split]]]]]]; auto.
    + intros Hs. destruct (Nat.eqb_spec (length (site_atoms s)) 0); [destruct (site_atoms s); [congruence|discriminate]|]. unfold mean. rewrite map_length. auto.
    + intros ->. reflexivity.
    + eapply Rle_trans; [apply sum_abs_bound|]. rewrite sum_filter_if. apply sumR_le. intros i _. pose proof (Rabs_pos (charge i - near i)). destruct (mem i (site_atoms s)); lra.
    + apply sum_abs_bound.
    + split.
      * intros Ht i Hi. assert (Z0 : Rabs (charge i - near i) = 0%R).
        { apply (sumR_zero_all (map (fun i => Rabs (charge i - near i)) (slab_atoms s))); [|auto|apply (in_map (fun i => Rabs (charge i - near i))); auto].
          intros y Hy. apply in_map_iff in Hy as (j & <- & _). apply Rabs_pos. }
        replace (charge i) with (near i); [apply (HC i Hi)|]. destruct (Req_dec (charge i - near i) 0) as [H|H]; [lra|]. apply Rabs_no_R0 in H. contradiction.
      * intros H. apply sum_zero. intros i Hi. rewrite (closest_self (oxi (zat a i)) (charge i) (near i)); [replace (charge i - charge i)%R with 0%R by lra; apply Rabs_R0|auto|]. rewrite <- EA. auto.
Qed.

(** Magnesium oxide, a pair: charges 2 and -2. *)
Example oxide_case : all_charges 8 (-2) (Struct [12; 8] [[0; 1]; [1; 0]]%Z) [0; 1] 0 = 2%R /\ all_charges 8 (-2) (Struct [12; 8] [[0; 1]; [1; 0]]%Z) [0; 1] 1 = (-2)%R.
Proof.
  assert (HN : non_negative (Struct [12; 8] [[0; 1]; [1; 0]]%Z)).
  { intros i j. unfold cm. destruct i as [|[|i]], j as [|[|j]]; cbn; try lia; repeat (destruct i; cbn; try lia); repeat (destruct j; cbn; try lia). }
  rewrite !all_charges_eq by (auto; lra). unfold charge_of. cbn. split; lra.
Qed.

(** * formal_charges of the utilities *)
(** With at least two bonds for every anion the charges are the same and add up to zero ... *)
Theorem util_charges_partial : forall ion q a, q <> 0%R -> non_negative a -> (exists i, i < natoms a /\ zat a i = ion) ->
  (forall i, i < natoms a -> zat a i = ion -> (2 <= degree_of a i)%Z) ->
  exists v, util_charges ion q a = Ok v /\ length v = natoms a /\ (forall j, j < natoms a -> nth j v 0%R = charge_of ion q a (seq 0 (natoms a)) j) /\ sumR v = 0%R.
Proof.
  intros ion q a Hq HN (i0 & Hi0 & E0) HD. unfold util_charges.
  replace (existsb _ _) with true by (symmetry; apply existsb_exists; exists i0; rewrite E0, Nat.eqb_refl; split; [apply in_seq; lia|auto]).
  eexists. split; [reflexivity|]. split; [rewrite map_length, seq_length; auto|].
  assert (EU : forall i, i < natoms a -> util_sum ion q a i = transfer_sum ion q a (seq 0 (natoms a)) i).
  { intros i Hi. unfold util_sum. rewrite transfer_sum_eq. unfold anion_charge. destruct (is_anion ion a (seq 0 (natoms a)) i) eqn:EA.
    - apply andb_true_iff in EA as [_ EA]. apply Nat.eqb_eq in EA. specialize (HD i Hi EA). apply IZR_le in HD.
      destruct (Reqb _ q) eqn:E; [|auto]. apply Reqb_true in E. exfalso. assert (IZR (degree_of a i) = 1%R) by (apply (Rmult_eq_reg_r q); lra). lra.
    - rewrite Rmult_0_r. replace (Reqb 0 q) with false by (symmetry; apply Reqb_false; auto). auto. }
  assert (EC : forall j, (anion_charge ion q a (seq 0 (natoms a)) j + cation_charge ion q a (seq 0 (natoms a)) (util_sum ion q a) j)%R = charge_of ion q a (seq 0 (natoms a)) j).
  { intros j. rewrite <- all_charges_eq by auto. unfold all_charges. f_equal. unfold cation_charge. f_equal. apply sumR_map_ext. intros i Hi. apply in_seq in Hi. rewrite EU by lia. auto. }
  split.
  - intros j Hj. rewrite (nth_map_lt _ _ _ 0) by (rewrite seq_length; auto). rewrite seq_nth by auto. apply EC.
  - rewrite (sumR_map_ext _ (all_charges ion q a (seq 0 (natoms a)))) by (intros j _; rewrite EC, all_charges_eq; auto). apply formal_charges_conserved; auto.
    intros i Hi. apply filter_In in Hi as [H1 H2]. apply in_seq in H1. apply andb_true_iff in H2 as [_ H2]. apply Nat.eqb_eq in H2. specialize (HD i ltac:(lia) H2). lia.
Qed.

(** ... but an anion with a single bond takes less charge from its neighbour than it
    has, and without an anion there is no result. *)
Theorem util_charges_refuted :
  (exists a v, well_formed a /\ undirected a /\ non_negative a /\ (exists i, i < natoms a /\ zat a i = 8) /\
     util_charges 8 (-2) a = Ok v /\ sumR v = (-1)%R) /\
  (forall ion q a, ~ In ion (numbers a) -> util_charges ion q a = Err NameError).
Proof.
  split.
  - exists (Struct [12; 8] [[0; 1]; [1; 0]]%Z). unfold util_charges. cbn [existsb natoms numbers length seq]. eexists. split; [split; [reflexivity|intros row [<-|[<-|[]]]; reflexivity]|].
    split; [|split; [|split; [exists 1; split; [cbn; lia|reflexivity]|split; [reflexivity|]]]].
    + intros i j Hi Hj. change (natoms _) with 2 in *. destruct i as [|[|i]], j as [|[|j]]; try lia; reflexivity.
    + intros i j. unfold cm. destruct i as [|[|i]], j as [|[|j]]; cbn; try lia; repeat (destruct i; cbn; try lia); repeat (destruct j; cbn; try lia).
    + cbn [map sumR]. unfold cation_charge, util_sum, transfer_sum. change (natoms _) with 2. cbn [seq map sumR]. unfold transfer, anion_charge, is_anion. cbn -[Rabs Reqb].
      rewrite (Rabs_left (-2)) by lra.
      repeat match goal with |- context [Reqb ?x ?y] => first [replace (Reqb x y) with true by (symmetry; apply Reqb_true; lra) | replace (Reqb x y) with false by (symmetry; apply Reqb_false; lra)]; cbv iota end.
      field.
  - intros ion q a H. unfold util_charges. replace (existsb _ _) with false; [auto|]. symmetry. apply not_true_iff_false. intros E. apply existsb_exists in E as (i & Hi & E). apply Nat.eqb_eq in E. apply H. rewrite <- E. unfold zat. apply nth_In. apply in_seq in Hi. unfold natoms in Hi. lia.
Qed.

Print Assumptions formal_charges_conserved.
Print Assumptions formal_charges_order.
Print Assumptions formal_charge_features.
Print Assumptions util_charges_partial.
Print Assumptions util_charges_refuted.
