(** Properties of the adsorbate fingerprints that count atoms and bonds. *)
From Coq Require Import ZArith Reals List Arith Bool Permutation Sorted Lia Lra.
From Verif Require Import Base BaseFacts RBase FeatModel PeriodicModel FingerModel FeatProperties PeriodicProperties FingerProperties NeighborProperties ParticleProperties AdsorbModel.
Import ListNotations.
Local Open Scope nat_scope.

(** * Specification *)
(** Coordination number of an atom with respect to a set of atoms: its bonds with other
    atoms of the set. *)
Definition coordination (a : struct) (l : list nat) (i : nat) : Z :=
  sumZ (map (cm a i) (filter (fun j => negb (Nat.eqb j i)) l)).
(** Connectivity matrices hold zeros and ones. *)
Definition binary (a : struct) : Prop := forall i j, cm a i j = 0%Z \/ cm a i j = 1%Z.
(** Neighbours of an atom. *)
Definition neighbours_of (a : struct) (i : nat) (l : list nat) : Prop :=
  NoDup l /\ forall j, In j l <-> j < natoms a /\ j <> i /\ (0 < cm a i j)%Z.
(** The distinct atoms of a list. *)
Definition distinct (l d : list nat) : Prop := NoDup d /\ forall i, In i d <-> In i l.
(** After reordering the atoms by p, the list l' names the atoms that l named before. *)
Definition same_atoms (p l' l : list nat) : Prop :=
  (forall i, In i l' -> i < length p) /\ Permutation (map (fun i => nth i p 0) l') l.
Definition same_subsets (p : list nat) (s' s : subsets) : Prop :=
  same_atoms p (slab_atoms s') (slab_atoms s) /\ same_atoms p (site_atoms s') (site_atoms s) /\
  same_atoms p (ligand_atoms s') (ligand_atoms s) /\ same_atoms p (chemisorbed_atoms s') (chemisorbed_atoms s) /\
  same_atoms p (ads_atoms s') (ads_atoms s).
(** Maximal coordination numbers of sites of one to five atoms. *)
Definition site_maximum (n m : nat) : Prop := In (n, m) [(1, 12); (2, 18); (3, 22); (4, 26); (5, 30)].

(** * Facts *)
Lemma slab_cn_coordination a l i : slab_cn a l i = coordination a l i.
Proof.
  unfold slab_cn, coordination. induction l as [|j t IH]; cbn; [auto|]. rewrite IH. unfold off. rewrite (Nat.eqb_sym j i).
  destruct (Nat.eqb_spec i j); cbn; lia.
Qed.
Lemma mem_in i l : mem i l = true <-> In i l.
Proof. unfold mem. rewrite existsb_exists. split; [intros (x & H & E); apply Nat.eqb_eq in E; subst; auto|]. intros H. exists i. rewrite Nat.eqb_refl. auto. Qed.
Lemma distinct_sorted_set l : distinct l (sorted_set l).
Proof. destruct (sorted_set_spec l) as [H1 H2]. split; [apply increasing_NoDup; auto|auto]. Qed.
Lemma distinct_perm l d d' : distinct l d -> distinct l d' -> Permutation d d'.
Proof. intros [H1 H2] [H3 H4]. apply NoDup_Permutation; auto. intros i. rewrite H2, H4. tauto. Qed.
Lemma row_count_neighbours a i ns : neighbours_of a i ns -> row_count a i = length ns.
Proof.
  intros [H1 H2]. unfold row_count. apply Permutation_length, NoDup_Permutation; [apply NoDup_filter, seq_NoDup|auto|].
  intros j. rewrite filter_In, in_seq, H2, Z.ltb_lt. unfold off. destruct (Nat.eqb_spec i j); split; intros; try lia.
Qed.
Lemma cn_limit_ok n m : cn_limit n = Ok m <-> site_maximum n m.
Proof.
  unfold site_maximum. split.
  - destruct n as [|[|[|[|[|[|n]]]]]]; cbn; intros [= <-]; auto 10.
  - cbn. intros H. repeat destruct H as [H|H]; try (injection H as <- <-; reflexivity). destruct H.
Qed.
Lemma mapM_ok_len {A B} (f : A -> result B) l r : mapM f l = Ok r -> length r = length l.
Proof.
  revert r. induction l as [|x t IH]; cbn; intros r E; [injection E as <-; auto|]. destruct (f x); cbn in E; [|discriminate].
  destruct (mapM f t) as [r0|]; cbn in E; [|discriminate]. injection E as <-. cbn. rewrite (IH r0); auto.
Qed.
Lemma sumR_IZR {A} (f : A -> Z) l : sumR (map (fun x => IZR (f x)) l) = IZR (sumZ (map f l)).
Proof. induction l as [|x t IH]; cbn; [auto|]. rewrite IH, plus_IZR. auto. Qed.

(** * Coordination numbers of sites *)
(** Average coordination number and number of neighbours of the site, and average number of
    neighbours of the chemisorbed atoms. *)
Theorem generalized_cn_counts : forall a s, binary a -> 2 <= natoms a ->
  (forall m nb ns, site_maximum (length (site_atoms s)) m -> distinct (ligand_atoms s) nb -> nb <> [] -> chemisorbed_atoms s <> [] ->
     (forall i, In i (chemisorbed_atoms s) -> neighbours_of a i (ns i)) ->
     exists gcn_site gcn_ads, generalized_cn a s =
       Ok [mean (map (fun i => IZR (coordination a (slab_atoms s) i)) (site_atoms s)); INR (length nb); gcn_site;
           mean (map (fun i => INR (length (ns i))) (chemisorbed_atoms s)); gcn_ads]) /\
  (6 <= length (site_atoms s) -> generalized_cn a s = Err AssertionError) /\
  (site_atoms s = [] -> generalized_cn a s = Err ZeroDivisionError).
Proof.
  intros a s HB HA. split; [|split].
  - intros m nb ns HM HD HN HC HS. apply cn_limit_ok in HM. unfold generalized_cn. rewrite HM. cbn [bind].
    pose proof (Permutation_length (distinct_perm _ _ _ (distinct_sorted_set _) HD)) as EL. rewrite EL.
    destruct (Nat.eqb_spec (length nb) 0) as [E|_]; [destruct nb; [congruence|discriminate]|].
    destruct (proj2 (mapM_succeeds (gcn_row a) (chemisorbed_atoms s))) as [gs EG].
    { intros i _. unfold gcn_row. replace (forallb _ _) with true; [eauto|]. symmetry. apply forallb_forall. intros j _. apply Z.ltb_lt. unfold off.
      destruct (i =? j); [lia|]. destruct (HB i j); lia. }
    rewrite EG. cbn [bind]. destruct (Nat.eqb_spec (length (chemisorbed_atoms s)) 0) as [E|_]; [destruct (chemisorbed_atoms s); [congruence|discriminate]|].
    eexists; eexists. f_equal. f_equal; [|f_equal; f_equal; f_equal].
    + unfold mean. rewrite map_length, sumR_IZR. f_equal. f_equal. f_equal. apply map_ext. intros. apply slab_cn_coordination.
    + unfold mean. rewrite map_length. f_equal. apply sumR_map_ext. intros i Hi. rewrite (row_count_neighbours a i (ns i)); auto.
  - intros H. unfold generalized_cn. destruct (length (site_atoms s)) as [|[|[|[|[|[|n]]]]]]; try lia. reflexivity.
  - intros H. unfold generalized_cn. rewrite H. reflexivity.
Qed.

(** The generalized coordination number of the site is divided by the number of neighbours
    once too often. *)
Theorem gcn_site_refuted : forall a s v m nb, generalized_cn a s = Ok v ->
  site_maximum (length (site_atoms s)) m -> distinct (ligand_atoms s) nb ->
  let gcn := (sumR (map (fun i => IZR (coordination a (slab_atoms s) i)) nb) / INR m)%R in
  nth 2 v 0%R = (gcn / INR (length nb))%R /\ (2 <= length nb -> (0 < gcn)%R -> (nth 2 v 0 < gcn)%R).
Proof.
  intros a s v m nb E HM HD gcn. pose proof (distinct_perm _ _ _ (distinct_sorted_set _) HD) as HP. apply cn_limit_ok in HM as HL.
  assert (Hm : (0 < INR m)%R) by (unfold site_maximum in HM; cbn in HM; repeat destruct HM as [HM|HM]; try (injection HM as _ <-; cbn; lra); destruct HM).
  assert (EV : nth 2 v 0%R = (gcn / INR (length nb))%R /\ 0 < length nb).
  { unfold generalized_cn in E. rewrite HL in E. cbn [bind] in E. rewrite (Permutation_length HP) in E.
    destruct (Nat.eqb_spec (length nb) 0) as [E0|E0]; [discriminate|]. destruct (mapM _ _); cbn [bind] in E; [|discriminate].
    destruct (_ =? 0); [discriminate|]. injection E as <-. cbn [nth]. split; [|lia]. unfold gcn. rewrite sumR_IZR, mult_INR.
    replace (sumZ (map (slab_cn a (slab_atoms s)) (sorted_set (ligand_atoms s)))) with (sumZ (map (coordination a (slab_atoms s)) nb)).
    - assert (0 < INR (length nb))%R by (apply (lt_INR 0); lia). field. split; lra.
    - symmetry. rewrite (sumZ_perm _ _ (Permutation_map _ HP)). f_equal. apply map_ext. intros. apply slab_cn_coordination. }
  destruct EV as [EV HNb]. split; [auto|]. intros H2 HG. rewrite EV. apply le_INR in H2. cbn in H2.
  apply (Rmult_lt_reg_r (INR (length nb))); [lra|]. unfold Rdiv. rewrite Rmult_assoc, Rinv_l by lra. nra.
Qed.

(** Reordering the atoms changes neither of these values ... *)
Lemma perm_mean {A} (f : A -> R) l l' : Permutation l l' -> mean (map f l) = mean (map f l').
Proof. intros H. unfold mean. rewrite !map_length, (Permutation_length H). f_equal. apply sumR_perm, Permutation_map. auto. Qed.

Section Reorder.
Variables (p : list nat) (a : struct).
Hypothesis HP : reordering p a.
Let pos i := nth i p 0.

Lemma off_relabel i j : i < length p -> j < length p -> off (relabel p a) i j = off a (pos i) (pos j).
Proof.
  intros Hi Hj. unfold off. rewrite relabel_cm by auto. rewrite (relabel_len p a HP) in *. unfold pos.
  destruct (Nat.eqb_spec i j) as [->|Hn]; [rewrite Nat.eqb_refl; auto|].
  destruct (Nat.eqb_spec (nth i p 0) (nth j p 0)) as [E|E]; [apply (reordering_inj p a) in E; auto; lia|auto].
Qed.
Lemma slab_cn_relabel slab' slab i : same_atoms p slab' slab -> i < length p -> slab_cn (relabel p a) slab' i = slab_cn a slab (pos i).
Proof.
  intros [H1 H2] Hi. unfold slab_cn. rewrite <- (sumZ_perm _ _ (Permutation_map _ H2)), map_map. f_equal. apply map_ext_in. intros j Hj. apply off_relabel; auto.
Qed.
Lemma row_count_relabel i : i < length p -> row_count (relabel p a) i = row_count a (pos i).
Proof.
  intros Hi. unfold row_count. rewrite relabel_natoms by auto. rewrite <- (filter_len_perm (fun j => (0 <? off a (pos i) j)%Z) _ _ HP).
  assert (E : forall f : nat -> bool, length (filter f p) = length (filter (fun j => f (nth j p 0)) (seq 0 (length p)))) by (intros f; rewrite (list_as_map p 0) at 1; apply filter_len_map).
  rewrite E, (relabel_len p a HP). apply filter_len_ext. intros j Hj. apply in_seq in Hj.
  rewrite off_relabel; [auto|auto|]. rewrite (relabel_len p a HP). lia.
Qed.
Lemma sorted_set_relabel l' l : same_atoms p l' l -> Permutation (map pos (sorted_set l')) (sorted_set l).
Proof.
  intros [H1 H2]. destruct (distinct_sorted_set l') as [N1 I1]. destruct (distinct_sorted_set l) as [N2 I2].
  apply NoDup_Permutation; [|auto|].
  - assert (HB : forall i, In i (sorted_set l') -> i < natoms a) by (intros i Hi; rewrite <- (relabel_len p a HP); apply H1, I1; auto).
    clear I1. induction N1 as [|x t Hx Ht IH]; cbn; [constructor|]. constructor; [|apply IH; intros; apply HB; right; auto].
    intros H. apply in_map_iff in H as (y & E & Hy). apply (reordering_inj p a) in E; [subst; auto|auto|apply HB; right; auto|apply HB; left; auto].
  - intros i. rewrite in_map_iff, I2. split.
    + intros (x & <- & Hx). apply (Permutation_in _ H2). apply in_map_iff. exists x. split; [auto|]. apply I1. auto.
    + intros Hi. apply (Permutation_in _ (Permutation_sym H2)), in_map_iff in Hi as (x & E & Hx). exists x. split; [auto|]. apply I1. auto.
Qed.
Lemma same_atoms_len l' l : same_atoms p l' l -> length l' = length l.
Proof. intros [_ H]. rewrite <- (Permutation_length H), map_length. auto. Qed.
End Reorder.

Theorem generalized_cn_order : forall a s p s' v v', reordering p a -> same_subsets p s' s ->
  generalized_cn a s = Ok v -> generalized_cn (relabel p a) s' = Ok v' -> firstn 4 v' = firstn 4 v.
Proof.
  intros a s p s' v v' HP (S1 & S2 & S3 & S4 & _) E E'. unfold generalized_cn in *.
  rewrite (same_atoms_len p (site_atoms s') (site_atoms s)) in E' by auto.
  rewrite (same_atoms_len p (chemisorbed_atoms s') (chemisorbed_atoms s)) in E' by auto.
  pose proof (sorted_set_relabel p a HP _ _ S3) as HS. pose proof (Permutation_length HS) as EL. rewrite map_length in EL. rewrite EL in E'.
  destruct (cn_limit _) as [m|]; cbn [bind] in *; [|discriminate]. destruct (_ =? 0); [discriminate|].
  destruct (mapM _ _) as [g|]; cbn [bind] in E; [|discriminate]. destruct (mapM _ _) as [g'|]; cbn [bind] in E'; [|discriminate].
  destruct (_ =? 0); [discriminate|]. injection E as <-. injection E' as <-. cbn [firstn].
  assert (HC : forall l' l, same_atoms p l' l -> sumZ (map (slab_cn (relabel p a) (slab_atoms s')) l') = sumZ (map (slab_cn a (slab_atoms s)) l)).
  { intros l' l [H1 H2]. rewrite <- (sumZ_perm _ _ (Permutation_map _ H2)), map_map. f_equal. apply map_ext_in. intros i Hi. apply slab_cn_relabel; auto. }
  rewrite (HC _ _ S2). rewrite (HC (sorted_set (ligand_atoms s')) (sorted_set (ligand_atoms s))).
  - replace (sumR (map (fun i => INR (row_count (relabel p a) i)) (chemisorbed_atoms s'))) with (sumR (map (fun i => INR (row_count a i)) (chemisorbed_atoms s))); [auto|].
    destruct S4 as [H1 H2]. rewrite <- (sumR_perm _ _ (Permutation_map _ H2)), map_map. apply sumR_map_ext. intros i Hi. f_equal. symmetry. apply row_count_relabel; auto.
  - split; [|auto]. intros i Hi. apply (proj1 S3). apply distinct_sorted_set. auto.
Qed.

(** ... but the generalized coordination number of the chemisorbed atoms is computed from the
    last of them only, and from the neighbours of the atom with index 1 instead of the
    neighbours of its neighbours. *)
Theorem gcn_ads_refuted :
  (forall a s v ns n1, binary a -> generalized_cn a s = Ok v -> neighbours_of a (last (chemisorbed_atoms s) 0) ns -> neighbours_of a 1 n1 ->
     nth 4 v 0%R = (INR (length ns) * INR (length n1) / 12 / INR (length (chemisorbed_atoms s)))%R) /\
  (exists a p s s' v v', well_formed a /\ undirected a /\ binary a /\ reordering p a /\ same_subsets p s' s /\
     generalized_cn a s = Ok v /\ generalized_cn (relabel p a) s' = Ok v' /\ nth 4 v 0%R <> nth 4 v' 0%R).
Proof.
  split.
  - intros a s v ns n1 HB E HS H1. unfold generalized_cn in E. destruct (cn_limit _); cbn [bind] in E; [|discriminate]. destruct (_ =? 0); [discriminate|].
    destruct (mapM _ _) as [gs|] eqn:EG; cbn [bind] in E; [|discriminate]. destruct (Nat.eqb_spec (length (chemisorbed_atoms s)) 0) as [|HN]; [discriminate|].
    injection E as <-. cbn [nth]. f_equal.
    assert (EL : Ok (last gs 0%R) = gcn_row a (last (chemisorbed_atoms s) 0)).
    { revert gs EG HN. clear. induction (chemisorbed_atoms s) as [|x t IH]; intros gs EG HN; [cbn in HN; lia|]. cbn in EG. destruct (gcn_row a x) as [g|] eqn:Ex; cbn in EG; [|discriminate].
      destruct (mapM (gcn_row a) t) as [gt|] eqn:ET; cbn in EG; [|discriminate]. injection EG as <-. destruct t as [|y t]; [cbn in ET; injection ET as <-; cbn; auto|].
      assert (HL : length gt = S (length t)) by (apply (mapM_ok_len _ _ _ ET)). destruct gt as [|g2 gt]; [discriminate|].
      change (last (g :: g2 :: gt) 0%R) with (last (g2 :: gt) 0%R). change (last (x :: y :: t) 0) with (last (y :: t) 0). apply IH; cbn; auto. }
    unfold gcn_row in EL. destruct (forallb _ _); [|discriminate]. injection EL as ->. rewrite <- (row_count_neighbours a _ _ HS), <- (row_count_neighbours a _ _ H1).
    set (c := last (chemisorbed_atoms s) 0). unfold row_count at 2.
    assert (G : forall l, sumR (map (fun j => if (0 <? off a c j)%Z then (IZR (off a c j) * INR (row_count a (Z.to_nat (off a c j))) / 12)%R else 0%R) l)
                          = (INR (length (filter (fun j => (0 <? off a c j)%Z) l)) * INR (row_count a 1) / 12)%R).
    { induction l as [|j t IH]; [cbn; lra|]. cbn [map sumR filter]. rewrite IH. destruct (Z.ltb_spec 0 (off a c j)) as [Hj|Hj].
      - assert (EO : off a c j = 1%Z) by (unfold off in *; destruct (c =? j); [lia|]; destruct (HB c j); lia). rewrite EO. cbn [length]. rewrite S_INR. change (Z.to_nat 1) with 1. lra.
      - lra. }
    apply G.
  - exists (Struct [29; 6; 8] [[0; 1; 0]; [1; 0; 1]; [0; 1; 0]]%Z), [1; 0; 2], (Subsets [0] [0] [0] [1] [1; 2]), (Subsets [1] [1] [1] [0] [0; 2]).
    eexists; eexists. split; [|split; [|split; [|split; [|split; [|split; [reflexivity|split; [reflexivity|]]]]]]].
    + split; [reflexivity|]. intros row [<-|[<-|[<-|[]]]]; reflexivity.
    + intros i j Hi Hj. change (natoms _) with 3 in *. destruct i as [|[|[|i]]], j as [|[|[|j]]]; try lia; reflexivity.
    + intros i j. unfold cm. destruct i as [|[|[|i]]], j as [|[|[|j]]]; cbn; auto; repeat (destruct i; cbn; auto); repeat (destruct j; cbn; auto).
    + apply perm_swap.
    + repeat split; cbn; try (intros i Hi; intuition lia); auto.
    + cbn -[Pos.to_nat]. change (Pos.to_nat 1) with 1. cbn. intros H. lra.
Qed.

Example generalized_cn_case : exists g, 
  generalized_cn (Struct [29; 29; 6; 8] [[0; 1; 1; 0]; [1; 0; 0; 0]; [1; 0; 0; 1]; [0; 0; 1; 0]]%Z) (Subsets [0; 1] [0] [1] [2] [2; 3]) = Ok g /\
  nth 0 g 0%R = 1%R /\ nth 3 g 0%R = 2%R.
Proof. eexists. split; [reflexivity|]. cbn. split; field. Qed.

(** * Bags of coordination numbers *)
Definition count_z (c : Z) (l : list Z) : nat := length (filter (Z.eqb c) l).
Lemma tally_loop_spec cs : forall m, (forall c, In c cs -> (0 <= c)%Z) ->
  ((forall c, In c cs -> (c < 28)%Z) -> exists m', tally_loop cs m = Ok m' /\ forall k, m' k = m k + count_z (Z.of_nat k) cs) /\
  ((exists c, In c cs /\ (28 <= c)%Z) -> tally_loop cs m = Err IndexError).
Proof.
  induction cs as [|c t IH]; intros m H0; cbn [tally_loop].
  - split; [|intros (c & [] & _)]. intros _. exists m. split; [auto|]. intros k. unfold count_z. cbn. lia.
  - pose proof (H0 c (or_introl eq_refl)) as Hc. assert (Ht : forall x, In x t -> (0 <= x)%Z) by (intros; apply H0; right; auto).
    unfold tally. destruct (Z.ltb_spec c (-28)); [lia|]. destruct (Z.leb_spec 28 c); cbn [orb bind].
    + split; [|auto]. intros HX. specialize (HX c (or_introl eq_refl)). lia.
    + destruct (Z.ltb_spec c 0); [lia|]. destruct (IH (fun i => if i =? Z.to_nat c then S (m i) else m i) Ht) as [IH1 IH2]. split.
      * intros HX. destruct IH1 as (m' & E & Hm); [intros; apply HX; right; auto|]. exists m'. split; [auto|]. intros k. rewrite Hm. unfold count_z. cbn [filter].
        destruct (Nat.eqb_spec k (Z.to_nat c)) as [->|Hk]; [rewrite Z2Nat.id by auto; rewrite Z.eqb_refl; cbn; lia|].
        destruct (Z.eqb_spec (Z.of_nat k) c); [lia|]. reflexivity.
      * intros (x & [<-|Hx] & Hx2); [lia|]. apply IH2. eauto.
Qed.

Definition non_negative (a : struct) : Prop := forall i j, (0 <= cm a i j)%Z.
Lemma coordination_nonneg a l i : non_negative a -> (0 <= coordination a l i)%Z.
Proof. intros H. unfold coordination. induction (filter _ l) as [|x t IH]; cbn; [lia|]. specialize (H i x). lia. Qed.

(** bag_cn counts the neighbours of the site by their coordination numbers, but a value is
    stored under the name of the coordination number that is larger by three. *)
Theorem bag_cn_refuted : forall a s nb, non_negative a -> distinct (ligand_atoms s) nb ->
  ((forall i, In i nb -> (coordination a (slab_atoms s) i < 28)%Z) ->
     exists v, bag_cn a s = Ok v /\ length v = length bag_cn_names /\
       (forall k c, nth_error bag_cn_names k = Some c ->
          nth_error v k = Some (count_z (Z.of_nat c - 3) (map (coordination a (slab_atoms s)) nb))) /\
       sum v = length nb) /\
  ((exists i, In i nb /\ (28 <= coordination a (slab_atoms s) i)%Z) -> bag_cn a s = Err IndexError).
Proof.
  intros a s nb HN HD. pose proof (distinct_perm _ _ _ HD (distinct_sorted_set _)) as HP. unfold bag_cn.
  rewrite (map_ext _ (coordination a (slab_atoms s))) by (intros; apply slab_cn_coordination).
  destruct (tally_loop_spec (map (coordination a (slab_atoms s)) (sorted_set (ligand_atoms s))) (fun _ => 0)) as [T1 T2].
  { intros c H. apply in_map_iff in H as (i & <- & _). apply coordination_nonneg. auto. }
  split.
  - intros H. destruct T1 as (m & E & Hm). { intros c Hc. apply in_map_iff in Hc as (i & <- & Hi). apply H. apply (Permutation_in _ (Permutation_sym HP)). auto. }
    rewrite E. cbn [bind]. eexists. split; [reflexivity|].
    assert (HC : forall c, count_z c (map (coordination a (slab_atoms s)) (sorted_set (ligand_atoms s))) = count_z c (map (coordination a (slab_atoms s)) nb))
      by (intros c; apply filter_len_perm, Permutation_map, Permutation_sym; auto).
    split; [reflexivity|]. split.
    + intros k c Ek. unfold bag_cn_names in Ek. rewrite nth_error_map in *. destruct (nth_error (seq 0 28) k) as [j|] eqn:Ej; [|discriminate]. cbn in Ek. injection Ek as <-.
      cbn. rewrite Hm. cbn. rewrite HC. do 2 f_equal. lia.
    + rewrite (map_ext _ (fun k => count_z (Z.of_nat k) (map (coordination a (slab_atoms s)) nb))) by (intros k; rewrite Hm; cbn; apply HC).
      rewrite <- (sum_classes Nat.eqb (seq 0 28) (fun i => Z.to_nat (coordination a (slab_atoms s) i)) nb Nat.eqb_eq (seq_NoDup _ _)).
      * f_equal. apply map_ext. intros k. unfold count_z. rewrite filter_len_map. apply filter_len_ext. intros i _. pose proof (coordination_nonneg a (slab_atoms s) i HN).
        destruct (Z.eqb_spec (Z.of_nat k) (coordination a (slab_atoms s) i)); destruct (Nat.eqb_spec k (Z.to_nat (coordination a (slab_atoms s) i))); auto; lia.
      * intros i Hi. apply in_seq. specialize (H i Hi). pose proof (coordination_nonneg a (slab_atoms s) i HN). lia.
  - intros (i & Hi & Hc). rewrite T2; [reflexivity|]. exists (coordination a (slab_atoms s) i). split; [|auto]. apply in_map. apply (Permutation_in _ HP). auto.
Qed.

Example bag_cn_case : bag_cn (Struct [29; 29; 29] [[0; 1; 1]; [1; 0; 0]; [1; 0; 0]]%Z) (Subsets [0; 1; 2] [0] [1; 2; 1] [] []) = Ok (0 :: 2 :: repeat 0 26).
Proof. reflexivity. Qed.

(** * Bags of atoms of the adsorbate *)
Lemma ads_loop_spec ts a : forall is m,
  match ads_loop ts a is m with
  | Ok m' => (forall i, In i is -> In (zat a i) ts) /\ (NoDup ts -> forall k z, nth_error ts k = Some z -> m' k = m k + count z (map (zat a) is))
  | Err e => e = ValueError /\ exists i, In i is /\ ~ In (zat a i) ts
  end.
Proof.
  induction is as [|i t IH]; intros m; cbn [ads_loop].
  - split; [intros i []|]. intros _ k z _. cbn. lia.
  - destruct (index_of Nat.eqb (zat a i) ts) as [x|e] eqn:E; cbn [bind].
    + specialize (IH (fun j => if j =? x then S (m j) else m j)). apply (index_of_ok Nat.eqb ts Nat.eqb_eq) in E. destruct (ads_loop _ _ _ _) as [m'|e].
      * destruct IH as [I1 I2]. split; [intros j [<-|Hj]; [apply (nth_error_In _ _ E)|auto]|]. intros HN k z Ek. rewrite (I2 HN k z Ek). unfold count. cbn [map filter].
        destruct (Nat.eqb_spec k x) as [->|Hk].
        -- assert (EZ : z = zat a i) by congruence. subst. rewrite Nat.eqb_refl. cbn. lia.
        -- destruct (Nat.eqb_spec z (zat a i)) as [->|]; [|reflexivity]. exfalso. apply Hk. apply (proj1 (NoDup_nth_error ts) HN); [apply nth_error_Some; congruence|congruence].
      * destruct IH as (-> & j & Hj & Hn). split; [auto|]. exists j. split; [right; auto|auto].
    + split; [apply (index_of_err Nat.eqb ts _ _ E)|]. exists i. split; [left; auto|]. intros H. apply (index_of_in Nat.eqb ts Nat.eqb_eq) in H as (k & Ek). congruence.
Qed.

Theorem bag_atoms_ads_counts : forall ts a s, NoDup ts ->
  ((forall i, In i (ads_atoms s) -> In (zat a i) ts) ->
     exists v, bag_atoms_ads ts a s = Ok v /\ length v = length ts /\
       (forall k z, nth_error ts k = Some z -> nth_error v k = Some (count_occ Nat.eq_dec (map (zat a) (ads_atoms s)) z)) /\
       sum v = length (ads_atoms s)) /\
  ((exists i, In i (ads_atoms s) /\ ~ In (zat a i) ts) -> bag_atoms_ads ts a s = Err ValueError) /\
  (forall p s', reordering p a -> same_subsets p s' s -> bag_atoms_ads ts (relabel p a) s' = bag_atoms_ads ts a s).
Proof.
  intros ts a s HN.
  assert (M : forall a s, (forall i, In i (ads_atoms s) -> In (zat a i) ts) ->
     exists v, bag_atoms_ads ts a s = Ok v /\ v = map (fun z => count z (map (zat a) (ads_atoms s))) ts).
  { clear a s. intros a s H. unfold bag_atoms_ads. pose proof (ads_loop_spec ts a (ads_atoms s) (fun _ => 0)) as HS. destruct (ads_loop _ _ _ _) as [m|e].
    - cbn [bind]. eexists. split; [reflexivity|]. destruct HS as [_ HS]. apply (list_ext_nth 0); [rewrite !map_length, seq_length; auto|]. intros k Hk. rewrite map_length, seq_length in Hk.
      rewrite (nth_map_lt _ _ _ 0) by (rewrite seq_length; auto). rewrite (nth_map_lt _ _ _ 0) by auto. rewrite seq_nth by auto. cbn [Nat.add].
      rewrite (HS HN k (nth k ts 0)) by (apply nth_error_nth'; auto). reflexivity.
    - destruct HS as (_ & i & Hi & Hn). exfalso. auto. }
  assert (X : forall a s, (exists i, In i (ads_atoms s) /\ ~ In (zat a i) ts) -> bag_atoms_ads ts a s = Err ValueError).
  { intros a0 s0 (i & Hi & Hn). unfold bag_atoms_ads. pose proof (ads_loop_spec ts a0 (ads_atoms s0) (fun _ => 0)) as HS. destruct (ads_loop _ _ _ _) as [m|e].
    - exfalso. apply Hn, (proj1 HS). auto.
    - destruct HS as [-> _]. reflexivity. }
  split; [|split; [apply X|]].
  - intros H. destruct (M a s H) as (v & E & ->). eexists. split; [exact E|]. split; [apply map_length|]. split.
    + intros k z Ek. rewrite (map_nth_error _ _ _ Ek). f_equal. apply count_spec.
    + rewrite (counts_sum ts); [apply map_length|auto|]. intros z Hz. apply in_map_iff in Hz as (i & <- & Hi). auto.
  - intros p s' HP (_ & _ & _ & _ & H1 & H2).
    assert (EP : Permutation (map (zat (relabel p a)) (ads_atoms s')) (map (zat a) (ads_atoms s))).
    { rewrite <- (Permutation_map (zat a) H2), map_map. apply Permutation_refl'. apply map_ext_in. intros i Hi. apply relabel_zat. auto. }
    assert (D : (forall i, In i (ads_atoms s) -> In (zat a i) ts) \/ exists i, In i (ads_atoms s) /\ ~ In (zat a i) ts).
    { clear -ts. induction (ads_atoms s) as [|x t IH]; [left; intros i []|]. destruct (in_dec Nat.eq_dec (zat a x) ts) as [Hx|Hx]; [|right; exists x; split; [left; auto|auto]].
      destruct IH as [IH|(i & Hi & Hn)]; [left; intros i [<-|Hi]; auto|right; exists i; split; [right; auto|auto]]. }
    destruct D as [D|(i & Hi & Hn)].
    + destruct (M a s D) as (v & E & ->). rewrite E. destruct (M (relabel p a) s') as (v' & E' & ->).
      * intros i Hi. assert (Hz : In (zat (relabel p a) i) (map (zat a) (ads_atoms s))) by (apply (Permutation_in _ EP), in_map; auto).
        apply in_map_iff in Hz as (j & <- & Hj). auto.
      * rewrite E'. f_equal. apply map_ext. intros z. apply filter_len_perm. auto.
    + rewrite (X a s) by eauto. apply X. assert (Hz : In (zat a i) (map (zat (relabel p a)) (ads_atoms s'))) by (apply (Permutation_in _ (Permutation_sym EP)), in_map; auto).
      apply in_map_iff in Hz as (j & Ej & Hj). exists j. split; [auto|]. rewrite Ej. auto.
Qed.

Example bag_atoms_ads_case : bag_atoms_ads [1; 6; 29] (Struct [29; 6; 1; 1] []) (Subsets [0] [0] [] [1] [1; 2; 3]) = Ok [2; 1; 0].
Proof. reflexivity. Qed.

(** * Neighbours of the chemisorbed atoms *)
Lemma sumZ_if (P : nat -> bool) (f : nat -> Z) l : sumZ (map (fun i => if P i then f i else 0%Z) l) = sumZ (map f (filter P l)).
Proof. induction l as [|x t IH]; cbn; [auto|]. destruct (P x); cbn; lia. Qed.
Lemma sumZ_ext {A} (f g : A -> Z) l : (forall x, In x l -> f x = g x) -> sumZ (map f l) = sumZ (map g l).
Proof. intros H. f_equal. apply map_ext_in. auto. Qed.
Lemma sumZ_plus {A} (f g : A -> Z) l : sumZ (map (fun x => f x + g x)%Z l) = (sumZ (map f l) + sumZ (map g l))%Z.
Proof. induction l; cbn; lia. Qed.
Lemma sumZ_0 {A} (l : list A) : sumZ (map (fun _ => 0%Z) l) = 0%Z.
Proof. induction l; cbn; lia. Qed.
Lemma sumZ_swap {A B} (f : A -> B -> Z) l m : sumZ (map (fun x => sumZ (map (f x) m)) l) = sumZ (map (fun y => sumZ (map (fun x => f x y) l)) m).
Proof. induction l as [|x t IH]; cbn; [rewrite sumZ_0; auto|]. rewrite IH, <- sumZ_plus. auto. Qed.

(** Bonds of the chemisorbed atoms with the atoms of an element. *)
Definition bonds_with (a : struct) (z : nat) (c : nat) : Z :=
  sumZ (map (fun i => cm a i c) (filter (fun i => Nat.eqb (zat a i) z) (seq 0 (natoms a)))).

Lemma fragment_bag a s ts : fst (fst (count_chemisorbed_fragment ts a s)) = map (fun z => sumZ (map (bonds_with a z) (chemisorbed_atoms s))) ts.
Proof.
  cbn. apply map_ext. intros z. rewrite (sumZ_swap (fun i c => cm a i c * (if Nat.eqb (zat a i) z then 1 else 0))%Z). apply sumZ_ext. intros c _.
  unfold bonds_with. rewrite <- sumZ_if. apply sumZ_ext. intros i _. destruct (zat a i =? z); lia.
Qed.
Lemma sumZ_relabel p a (f g : nat -> Z) : reordering p a -> (forall i, i < natoms a -> f i = g (nth i p 0)) ->
  sumZ (map f (seq 0 (natoms a))) = sumZ (map g (seq 0 (natoms a))).
Proof.
  intros HP H. rewrite <- (sumZ_perm _ _ (Permutation_map g HP)). rewrite (list_as_map p 0), map_map, (relabel_len p a HP). apply sumZ_ext. intros i Hi. apply in_seq in Hi. apply H. lia.
Qed.

Theorem fragment_counts : forall ts a s, undirected a -> (forall i, In i (chemisorbed_atoms s) -> i < natoms a) -> (forall i, In i (site_atoms s) -> i < natoms a) ->
  exists bag boc n, count_chemisorbed_fragment ts a s = (bag, boc, n) /\ length bag = length ts /\
  (forall k z, nth_error ts k = Some z -> nth_error bag k = Some (sumZ (map (bonds_with a z) (chemisorbed_atoms s)))) /\
  boc = sumZ (map (fun c => sumZ (map (cm a c) (site_atoms s))) (chemisorbed_atoms s)) /\ n = length (site_atoms s) /\
  (NoDup ts -> (forall z, In z (numbers a) -> In z ts) -> sumZ bag = sumZ (map (row_cn a) (chemisorbed_atoms s))) /\
  (forall p s', reordering p a -> same_subsets p s' s -> count_chemisorbed_fragment ts (relabel p a) s' = (bag, boc, n)).
Proof.
  intros ts a s HU HC HSi. destruct (count_chemisorbed_fragment ts a s) as [[bag boc] n] eqn:E. exists bag, boc, n. split; [auto|].
  assert (EB : bag = map (fun z => sumZ (map (bonds_with a z) (chemisorbed_atoms s))) ts) by (rewrite <- fragment_bag, E; auto).
  assert (EC : boc = sumZ (map (fun i => sumZ (map (cm a i) (chemisorbed_atoms s))) (site_atoms s))) by (unfold count_chemisorbed_fragment in E; congruence).
  assert (EN : n = length (site_atoms s)) by (unfold count_chemisorbed_fragment in E; congruence).
  split; [rewrite EB; apply map_length|]. split; [|split; [|split; [auto|split]]].
  - intros k z Ek. rewrite EB, (map_nth_error _ _ _ Ek). auto.
  - rewrite EC, (sumZ_swap (cm a)). apply sumZ_ext. intros c Hc. apply sumZ_ext. intros i Hi. apply HU; auto.
  - intros HN HT. rewrite EB. rewrite (sumZ_swap (fun z c => bonds_with a z c)). apply sumZ_ext. intros c Hc. unfold row_cn.
    transitivity (sumZ (map (fun i => cm a i c) (seq 0 (natoms a)))); [|apply sumZ_ext; intros i Hi; apply in_seq in Hi; apply HU; auto; lia].
    assert (G : forall l, (forall i, In i l -> In (zat a i) ts) -> sumZ (map (fun z => sumZ (map (fun i => cm a i c) (filter (fun i => zat a i =? z) l))) ts) = sumZ (map (fun i => cm a i c) l)).
    { induction l as [|x t IH]; intros H; [cbn; apply sumZ_0|]. cbn [map sumZ]. rewrite <- IH by (intros; apply H; right; auto).
      assert (I : sumZ (map (fun z => if zat a x =? z then cm a x c else 0%Z) ts) = cm a x c).
      { specialize (H x (or_introl eq_refl)). clear -HN H. induction HN as [|y u Hy Hu IH]; [destruct H|]. cbn. destruct (Nat.eqb_spec (zat a x) y) as [->|Hn].
        - rewrite (sumZ_ext _ (fun _ => 0%Z)); [rewrite sumZ_0; lia|]. intros z Hz. destruct (Nat.eqb_spec y z); [subst; contradiction|auto].
        - destruct H as [->|H]; [congruence|]. rewrite IH; auto. }
      rewrite <- I, <- sumZ_plus. apply sumZ_ext. intros z _. cbn [filter]. destruct (zat a x =? z); cbn [map sumZ]; lia. }
    unfold bonds_with. apply G. intros i Hi. apply in_seq in Hi. apply HT. unfold zat. apply nth_In. unfold natoms in Hi. lia.
  - intros p s' HP (_ & HSite & _ & HCh & _). destruct HSite as [S1 S2]. destruct HCh as [C1 C2].
    destruct (count_chemisorbed_fragment ts (relabel p a) s') as [[bag' boc'] n'] eqn:E'.
    assert (EB' : bag' = map (fun z => sumZ (map (bonds_with (relabel p a) z) (chemisorbed_atoms s'))) ts) by (rewrite <- fragment_bag, E'; auto).
    assert (EC' : boc' = sumZ (map (fun i => sumZ (map (cm (relabel p a) i) (chemisorbed_atoms s'))) (site_atoms s'))) by (unfold count_chemisorbed_fragment in E'; congruence).
    assert (EN' : n' = length (site_atoms s')) by (unfold count_chemisorbed_fragment in E'; congruence).
    f_equal; [f_equal|].
    + rewrite EB, EB'. apply map_ext. intros z. rewrite <- (sumZ_perm _ _ (Permutation_map _ C2)), map_map. apply sumZ_ext. intros c Hc. unfold bonds_with.
      rewrite <- !sumZ_if. rewrite relabel_natoms by auto. apply (sumZ_relabel p a (fun i => if zat (relabel p a) i =? z then cm (relabel p a) i c else 0%Z) (fun i => if zat a i =? z then cm a i (nth c p 0) else 0%Z)); [auto|].
      intros i Hi. rewrite relabel_zat, relabel_cm by (auto; rewrite (relabel_len p a HP); auto). auto.
    + rewrite EC, EC'. rewrite <- (sumZ_perm _ _ (Permutation_map _ S2)), map_map. apply sumZ_ext. intros i Hi.
      rewrite <- (sumZ_perm _ _ (Permutation_map _ C2)), map_map. apply sumZ_ext. intros c Hc. apply relabel_cm; auto.
    + rewrite EN, EN'. rewrite <- (Permutation_length S2), map_length. auto.
Qed.

Example fragment_case : count_chemisorbed_fragment [1; 6; 29] (Struct [29; 6; 1; 1] [[0; 1; 0; 0]; [1; 0; 1; 1]; [0; 1; 0; 0]; [0; 1; 0; 0]]%Z) (Subsets [0] [0] [] [1] [1; 2; 3]) = ([2; 0; 1]%Z, 1%Z, 1).
Proof. reflexivity. Qed.

(** * Strain *)
Theorem strain_values : forall radius kt kb st sb site term bulk,
  (kt = Some term \/ kt = None /\ st = Some term) -> (kb = Some bulk \/ kb = None /\ sb = Some bulk) -> bulk <> [] -> (forall z, (0 < radius z)%R) ->
  let av l := mean (map radius l) in
  exists x y, strain radius kt kb st sb site = Ok (x, y) /\
  (site <> [] -> exists e, x = Some e /\ av site = ((1 + e) * av bulk)%R /\ ((0 < e)%R <-> (av bulk < av site)%R)) /\
  (term <> [] -> exists e, y = Some e /\ av term = ((1 + e) * av bulk)%R /\ (Permutation term bulk -> e = 0%R)) /\
  (site = [] -> x = None) /\ (term = [] -> y = None).
Proof.
  intros radius kt kb st sb site term bulk HT HB HN HR av.
  assert (ES : strain radius kt kb st sb site = Ok (strain_of radius site bulk, strain_of radius term bulk)).
  { unfold strain. destruct HT as [->|[-> ->]], HB as [->|[-> ->]]; reflexivity. }
  assert (HA : (0 < av bulk)%R).
  { unfold av, mean. rewrite map_length. apply Rdiv_lt_0_compat; [|apply length_pos; auto]. destruct bulk as [|b t]; [congruence|]. cbn. pose proof (HR b).
    assert (0 <= sumR (map radius t))%R by (apply sumR_nonneg; intros x Hx; apply in_map_iff in Hx as (z & <- & _); apply Rlt_le, HR). lra. }
  assert (G : forall l, l <> [] -> strain_of radius l bulk = Some ((av l - av bulk) / av bulk)%R).
  { intros l Hl. unfold strain_of. destruct (Nat.eqb_spec (length l) 0); [destruct l; [congruence|discriminate]|]. destruct (Nat.eqb_spec (length bulk) 0); [destruct bulk; [congruence|discriminate]|]. reflexivity. }
  eexists; eexists. split; [exact ES|]. split; [|split; [|split]].
  - intros Hs. rewrite G by auto. eexists. split; [reflexivity|]. split; [field; lra|]. split; intros H.
    + apply (Rmult_lt_compat_r (av bulk)) in H; [|auto]. unfold Rdiv in H. rewrite Rmult_assoc, Rinv_l in H by lra. lra.
    + apply Rdiv_lt_0_compat; lra.
  - intros Ht. rewrite G by auto. eexists. split; [reflexivity|]. split; [field; lra|]. intros HP. replace (av term) with (av bulk); [unfold Rdiv; lra|]. apply perm_mean, Permutation_sym. auto.
  - intros ->. reflexivity.
  - intros ->. reflexivity.
Qed.

Print Assumptions generalized_cn_counts.
Print Assumptions gcn_site_refuted.
Print Assumptions generalized_cn_order.
Print Assumptions gcn_ads_refuted.
Print Assumptions bag_cn_refuted.
Print Assumptions bag_atoms_ads_counts.
Print Assumptions fragment_counts.
Print Assumptions strain_values.
