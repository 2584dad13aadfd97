(** Neighbour lists, connection matrices and features of catlearn/featurize/neighbor_matrix.py. *)
From Coq Require Import ZArith Reals List Arith Bool Lia Lra Permutation.
From Verif Require Import Base BaseFacts RBase NMatModel.
Import ListNotations.
Local Open Scope nat_scope.

(** ** Specification *)
Section Radii.
Variable radius : nat -> R.
(** Two atoms are in shell k if their distance is between k - 1 and k times the sum of
    their radii, plus the buffer; the first shell begins at zero. *)
Definition in_shell (dx : R) (k : nat) (a : cluster) (i j : nat) : Prop :=
  let r := (radius (at_z a i) + radius (at_z a j))%R in
  i <> j /\ (if k =? 1 then 0 < distance a i j else (INR k - 1) * r + dx < distance a i j)%R /\
  (distance a i j < INR k * r + dx)%R.
Definition symmetric_distance (a : cluster) : Prop := forall i j, distance a i j = distance a j i.
(** Coordination number: how many atoms are in the shell. *)
Definition coordination_number (dx : R) (k : nat) (a : cluster) (i : nat) (n : nat) : Prop :=
  exists l, NoDup l /\ length l = n /\ forall j, In j l <-> j < size a /\ in_shell dx k a i j.

Lemma is_neighbor_spec dx k a i j : is_neighbor radius dx k a i j = true <-> in_shell dx k a i j.
Proof.
  unfold is_neighbor, in_shell, d_max1, d_max2, reach. rewrite !andb_true_iff, negb_true_iff, Nat.eqb_neq, !Rltb_true.
  rewrite (Rplus_comm (radius (at_z a j))). destruct (k =? 1); tauto.
Qed.
Lemma find_key (f : nat -> list nat) i : forall l, NoDup l ->
  match find (fun e => fst e =? i) (filter (fun e => negb (length (snd e) =? 0)) (map (fun i => (i, f i)) l)) with
  | Some e => snd e | None => [] end = (if existsb (Nat.eqb i) l then f i else []).
Proof.
  intros l HN. assert (HNone : forall l, ~ In i l -> find (fun e => fst e =? i) (filter (fun e : nat * list nat => negb (length (snd e) =? 0)) (map (fun i => (i, f i)) l)) = None).
  { clear. intros l H. induction l as [|x t IH]; [reflexivity|]. cbn [map filter snd]. destruct (negb (length (f x) =? 0)).
    - cbn [find fst]. destruct (Nat.eqb_spec x i) as [->|HX]; [exfalso; apply H; left; reflexivity|]. apply IH. intros HI. apply H. right. exact HI.
    - apply IH. intros HI. apply H. right. exact HI. }
  induction l as [|x t IH]; [reflexivity|]. inversion HN as [|? ? HX HT]; subst. cbn [map filter snd existsb].
  destruct (Nat.eqb_spec i x) as [->|HE].
  - cbn [orb]. destruct (f x) as [|y l] eqn:EF; cbn [length Nat.eqb negb].
    + rewrite HNone by exact HX. reflexivity.
    + cbn [find fst]. rewrite Nat.eqb_refl. reflexivity.
  - cbn [orb]. destruct (negb (length (f x) =? 0)); [|apply IH; exact HT]. cbn [find fst].
    destruct (Nat.eqb_spec x i) as [->|_]; [congruence|]. apply IH. exact HT.
Qed.
Lemma entry_spec dx k a i : i < size a -> entry (neighborlist radius dx k a) i = filter (is_neighbor radius dx k a i) (idx a).
Proof.
  intros HI. unfold entry, neighborlist. rewrite find_key by apply seq_NoDup.
  replace (existsb (Nat.eqb i) (idx a)) with true; [reflexivity|]. symmetry. apply existsb_exists. exists i.
  rewrite Nat.eqb_refl. split; [apply in_seq; lia|reflexivity].
Qed.
Lemma connection_neighbor dx k a i j : i < size a -> j < size a ->
  connection_matrix radius dx k a i j = (if is_neighbor radius dx k a i j then 1 else 0)%R.
Proof.
  intros HI HJ. unfold connection_matrix. rewrite entry_spec by exact HI.
  destruct (existsb (Nat.eqb j) (filter (is_neighbor radius dx k a i) (idx a))) eqn:E.
  - apply existsb_exists in E. destruct E as (x & HX & EX). apply Nat.eqb_eq in EX. subst x. apply filter_In in HX.
    destruct HX as (_ & HX). rewrite HX. reflexivity.
  - destruct (is_neighbor radius dx k a i j) eqn:EN; [|reflexivity]. exfalso.
    assert (existsb (Nat.eqb j) (filter (is_neighbor radius dx k a i) (idx a)) = true); [|congruence].
    apply existsb_exists. exists j. rewrite Nat.eqb_refl. split; [|reflexivity]. apply filter_In. split; [apply in_seq; lia|exact EN].
Qed.

(** ** Theorems *)
(** An entry of the connection matrix is one for atoms in the shell and zero for others;
    the matrix is symmetric with a zero diagonal. *)
Theorem connection_matrix_entries : forall dx k a i j, i < size a -> j < size a ->
  (in_shell dx k a i j -> connection_matrix radius dx k a i j = 1%R) /\
  (~ in_shell dx k a i j -> connection_matrix radius dx k a i j = 0%R) /\
  connection_matrix radius dx k a i i = 0%R /\
  (symmetric_distance a -> connection_matrix radius dx k a j i = connection_matrix radius dx k a i j).
Proof.
  intros dx k a i j HI HJ. rewrite !connection_neighbor by assumption. split; [|split; [|split]].
  - intros H. apply is_neighbor_spec in H. rewrite H. reflexivity.
  - intros H. destruct (is_neighbor radius dx k a i j) eqn:E; [apply is_neighbor_spec in E; contradiction|reflexivity].
  - unfold is_neighbor. rewrite Nat.eqb_refl. reflexivity.
  - intros HS. assert (HE : is_neighbor radius dx k a j i = is_neighbor radius dx k a i j).
    { apply eq_true_iff_eq. rewrite !is_neighbor_spec. unfold in_shell. rewrite (HS j i), (Rplus_comm (radius (at_z a j))).
      split; intros (H1 & H2); (split; [auto|exact H2]). }
    rewrite HE. reflexivity.
Qed.

(** Every pair of distinct atoms is in exactly one shell, unless its distance is on the
    boundary between two of them. *)
Theorem shells_cover : forall dx a i j, i <> j -> (0 < distance a i j)%R -> (0 <= dx)%R ->
  (0 < radius (at_z a i) + radius (at_z a j))%R ->
  (forall k, distance a i j <> INR k * (radius (at_z a i) + radius (at_z a j)) + dx)%R ->
  exists k, 1 <= k /\ in_shell dx k a i j /\ forall k', 1 <= k' -> in_shell dx k' a i j -> k' = k.
Proof.
  intros dx a i j HN HD HX HR HB. set (r := (radius (at_z a i) + radius (at_z a j))%R) in *. set (d := distance a i j) in *.
  assert (HU : forall k k', 1 <= k -> k < k' -> in_shell dx k a i j -> in_shell dx k' a i j -> False).
  { intros k k' H1 HK (_ & _ & HU) (_ & HL & _). fold d r in HU, HL.
    destruct (Nat.eqb_spec k' 1) as [E|E]; [lia|]. assert (HI : (INR k + 1 <= INR k')%R) by (rewrite <- S_INR; apply le_INR; lia). nra. }
  assert (HE : exists k, 1 <= k /\ in_shell dx k a i j).
  { assert (HM : exists k, (d < INR k * r + dx)%R).
    { destruct (archimed (d / r)) as (HA & _). exists (Z.to_nat (up (d / r))).
      assert (HP : (0 < d / r)%R) by (apply Rdiv_lt_0_compat; assumption).
      assert (HZ : (0 <= up (d / r))%Z) by (apply le_IZR; lra). rewrite INR_IZR_INZ, Z2Nat.id by exact HZ.
      assert (HQ : (d = d / r * r)%R) by (field; lra). nra. }
    destruct HM as (m & HM).
    assert (G : forall m, (d < INR m * r + dx)%R -> 1 <= m -> exists k, 1 <= k /\ in_shell dx k a i j).
    { clear m HM. induction m as [|m IH]; intros HM H1; [lia|]. destruct (Nat.eq_dec m 0) as [->|HZ].
      - exists 1. split; [lia|]. unfold in_shell. fold d r. rewrite Nat.eqb_refl. auto.
      - destruct (Rlt_dec d (INR m * r + dx)) as [HL|HL]; [apply IH; [exact HL|lia]|].
        exists (S m). split; [lia|]. unfold in_shell. fold d r. split; [exact HN|]. split; [|exact HM].
        destruct (Nat.eqb_spec (S m) 1) as [E|_]; [lia|]. rewrite S_INR. specialize (HB m).
        replace (INR m + 1 - 1)%R with (INR m) by ring. destruct (Rtotal_order d (INR m * r + dx)) as [H|[H|H]]; [lra|congruence|lra]. }
    destruct m as [|m].
    - apply (G 1); [|lia]. cbn in HM |- *. nra.
    - apply (G (S m)); [exact HM|lia]. }
  destruct HE as (k & H1 & HK). exists k. split; [exact H1|]. split; [exact HK|]. intros k' H1' HK'.
  destruct (Nat.lt_trichotomy k' k) as [H|[H|H]]; [exfalso; apply (HU k' k); auto|exact H|exfalso; apply (HU k k'); auto].
Qed.
(** At a boundary the pair is in no shell. *)
Theorem shell_boundary_refuted : forall dx a i j m, (0 <= dx)%R -> (0 < radius (at_z a i) + radius (at_z a j))%R ->
  distance a i j = (INR (S m) * (radius (at_z a i) + radius (at_z a j)) + dx)%R -> forall k, 1 <= k -> ~ in_shell dx k a i j.
Proof.
  intros dx a i j m HX HR HD k H1 (_ & HL & HU). rewrite HD in HL, HU.
  assert (HK : (INR (S m) < INR k)%R) by nra. apply INR_lt in HK.
  destruct (Nat.eqb_spec k 1) as [E|E]; [lia|]. assert (HI : (INR (S m) + 1 <= INR k)%R) by (rewrite <- S_INR; apply le_INR; lia). nra.
Qed.

(** connection_dict: an entry for each atom with a neighbour in the first shell, its
    neighbours followed by -1 up to a common length. *)
Theorem connection_dict_entries : forall dx k a nl, connection_dict radius dx k a = Ok nl ->
  (forall i, In i (map fst nl) <-> i < size a /\ exists j, j < size a /\ in_shell dx 1 a i j) /\
  exists len, forall i v, In (i, v) nl -> length v = len /\ exists l c, v = map Z.of_nat l ++ repeat (-1)%Z c /\
    NoDup l /\ forall j, In j l <-> j < size a /\ in_shell dx 1 a i j.
Proof.
  intros dx k a nl H. unfold connection_dict in H. destruct (length (neighborlist radius dx 1 a) =? 0); [discriminate|]. inversion H; subst nl. clear H.
  set (nl := neighborlist radius dx 1 a). set (mlen := fold_right max 0 (map (fun e => length (snd e)) nl)).
  assert (HI : forall i l, In (i, l) nl <-> i < size a /\ l = filter (is_neighbor radius dx 1 a i) (idx a) /\ l <> []).
  { intros i l. unfold nl, neighborlist. rewrite filter_In, in_map_iff. cbn [snd]. unfold idx at 2. split.
    - intros ((x & HX & HS) & HL). inversion HX; subst. apply in_seq in HS. split; [lia|]. split; [reflexivity|].
      intros E. rewrite E in HL. discriminate.
    - intros (H1 & H2 & H3). split; [exists i; subst l; split; [reflexivity|apply in_seq; lia]|]. destruct l; [congruence|reflexivity]. }
  assert (HF : forall i j, In j (filter (is_neighbor radius dx 1 a i) (idx a)) <-> j < size a /\ in_shell dx 1 a i j).
  { intros i j. rewrite filter_In, is_neighbor_spec. unfold idx. rewrite in_seq. intuition lia. }
  split.
  - intros i. rewrite map_map. cbn [fst]. rewrite in_map_iff. split.
    + intros ((x & l) & <- & HL). cbn [fst]. apply HI in HL. destruct HL as (H1 & H2 & H3). split; [exact H1|].
      destruct l as [|j t]; [congruence|]. exists j. apply HF. rewrite <- H2. left. reflexivity.
    + intros (H1 & j & HJ). exists (i, filter (is_neighbor radius dx 1 a i) (idx a)). split; [reflexivity|]. apply HI.
      split; [exact H1|]. split; [reflexivity|]. intros E. apply HF in HJ. rewrite E in HJ. destruct HJ.
  - exists mlen. intros i v HV. apply in_map_iff in HV. destruct HV as ((x & l) & HE & HL). cbn [fst snd] in HE. inversion HE; subst.
    assert (HM : length l <= mlen).
    { unfold mlen. clear - HL. induction nl as [|e t IH]; [destruct HL|]. cbn [map fold_right]. destruct HL as [->|HL]; [cbn; lia|].
      specialize (IH HL). lia. }
    split; [rewrite app_length, map_length, repeat_length; lia|]. exists l, (mlen - length l). split; [reflexivity|].
    apply HI in HL. destruct HL as (_ & -> & _). split; [apply NoDup_filter, seq_NoDup|]. apply HF.
Qed.
(** The requested shell is ignored. *)
Theorem connection_dict_first_shell : forall dx k a, connection_dict radius dx k a = connection_dict radius dx 1 a.
Proof. reflexivity. Qed.

(** ** Features *)
(** The atoms of an element. *)
Definition of_element (a : cluster) (e : nat) : list nat := filter (fun i => at_z a i =? e) (idx a).
Definition not_element (a : cluster) (e : nat) : list nat := filter (fun i => negb (at_z a i =? e)) (idx a).

Lemma sum_filter {A} (f : A -> bool) (g : A -> R) l : sumR (map g (filter f l)) = sumR (map (fun x => if f x then g x else 0)%R l).
Proof. induction l as [|x t IH]; [reflexivity|]. cbn [filter map sumR]. destruct (f x); cbn [map sumR]; rewrite IH; ring. Qed.

(** The features of one element [e] in front of those of the others [rest]: sums of the row
    totals, their squares and roots over the atoms of [e]; the total of the columns of
    these atoms; for each other element the total between [e] and all other elements; the
    same sums of generalized coordination numbers. *)
Theorem feature_blocks : forall a e rest m gen,
  features_loop a (e :: rest) m gen =
  [sumR (map (row_total a m) (of_element a e)); sumR (map (fun i => row_total a m i ^ 2)%R (of_element a e));
   sumR (map (fun i => sqrt (row_total a m i)) (of_element a e));
   sumR (map (fun i => sumR (map (m i) (of_element a e))) (seq 0 (size a)))]
  ++ map (fun _ => sumR (map (fun i => sumR (map (m i) (not_element a e))) (of_element a e))) rest
  ++ [sumR (map gen (of_element a e)); sumR (map (fun i => gen i ^ 2)%R (of_element a e)); sumR (map (fun i => sqrt (gen i)) (of_element a e))]
  ++ features_loop a rest m gen.
Proof.
  intros a e rest m gen. cbn [features_loop]. unfold of_element, not_element. fold (idx a).
  assert (H1 : forall h, sumR (map (fun i => h i * element_list a e i)%R (idx a)) = sumR (map h (filter (fun i => at_z a i =? e) (idx a)))).
  { intros h. rewrite sum_filter. apply sumR_map_ext. intros i _. unfold element_list. destruct (at_z a i =? e); ring. }
  assert (H2 : forall h, sumR (map (fun i => (h i * element_list a e i) ^ 2)%R (idx a)) = sumR (map (fun i => h i ^ 2)%R (filter (fun i => at_z a i =? e) (idx a)))).
  { intros h. rewrite sum_filter. apply sumR_map_ext. intros i _. unfold element_list. destruct (at_z a i =? e); ring. }
  assert (H3 : forall h, sumR (map (fun i => sqrt (h i * element_list a e i)) (idx a)) = sumR (map (fun i => sqrt (h i)) (filter (fun i => at_z a i =? e) (idx a)))).
  { intros h. rewrite sum_filter. apply sumR_map_ext. intros i _. unfold element_list. destruct (at_z a i =? e); [rewrite Rmult_1_r; reflexivity|rewrite Rmult_0_r; apply sqrt_0]. }
  rewrite !H1, !H2, !H3.
  assert (H4 : sumR (map (fun i => sumR (map (fun j => element_list a e j * m i j)%R (idx a))) (idx a)) =
               sumR (map (fun i => sumR (map (m i) (filter (fun i => at_z a i =? e) (idx a)))) (idx a))).
  { apply sumR_map_ext. intros i _. rewrite sum_filter. apply sumR_map_ext. intros j _. unfold element_list. destruct (at_z a j =? e); ring. }
  rewrite H4.
  assert (H5 : forall eo, sumR (map (fun i => sumR (map (fun j => heteroatomic a e eo i j * m i j)%R (idx a))) (idx a)) =
     sumR (map (fun i => sumR (map (m i) (filter (fun i0 => negb (at_z a i0 =? e)) (idx a)))) (filter (fun i => at_z a i =? e) (idx a)))).
  { intros eo. rewrite sum_filter. apply sumR_map_ext. intros i _. unfold heteroatomic. destruct (at_z a i =? e).
    - rewrite sum_filter. apply sumR_map_ext. intros j _. destruct (negb (at_z a j =? e)); ring.
    - rewrite (sumR_map_ext _ (fun _ => 0%R)) by (intros; ring). rewrite sumR_map_const. ring. }
  rewrite (map_ext _ _ H5). reflexivity.
Qed.

(** Row totals of the connection matrix are coordination numbers, and with a property they
    are sums of its values over the neighbours. *)
Theorem row_totals : forall dx k a i, i < size a -> exists l, NoDup l /\ (forall j, In j l <-> j < size a /\ in_shell dx k a i j) /\
  row_total a (connection_matrix radius dx k a) i = INR (length l) /\
  forall value, row_total a (with_property a value (connection_matrix radius dx k a)) i = sumR (map (fun j => value (at_z a j)) l).
Proof.
  intros dx k a i HI. exists (filter (is_neighbor radius dx k a i) (idx a)).
  split; [apply NoDup_filter, seq_NoDup|]. split.
  { intros j. rewrite filter_In, is_neighbor_spec. unfold idx. rewrite in_seq. intuition lia. }
  assert (HC : forall j, In j (idx a) -> connection_matrix radius dx k a i j = (if is_neighbor radius dx k a i j then 1 else 0)%R).
  { intros j HJ. apply in_seq in HJ. apply connection_neighbor; lia. }
  split.
  - unfold row_total. rewrite <- (Rmult_1_r (INR _)), <- sumR_map_const, sum_filter. apply sumR_map_ext. intros j HJ. rewrite (HC j HJ). reflexivity.
  - intros value. unfold row_total. rewrite sum_filter. apply sumR_map_ext. intros j HJ. unfold with_property. rewrite (HC j HJ).
    destruct (is_neighbor radius dx k a i j); ring.
Qed.

(** The number of features depends on the numbers of elements and properties only. *)
Lemma block_length a els m gen : 2 * length (features_loop a els m gen) = 14 * length els + length els * (length els - 1).
Proof.
  induction els as [|e rest IH]; [reflexivity|]. rewrite feature_blocks. rewrite !app_length, map_length. cbn [length].
  rewrite !Nat.mul_add_distr_l, IH. destruct rest as [|r t]; [reflexivity|]. cbn [length]. replace (S (length t) - 1) with (length t) by lia.
  replace (S (S (length t)) - 1) with (S (length t)) by lia. ring.
Qed.
Theorem feature_count : forall dx k els values a, let n := length els in
  2 * length (neighbor_features radius dx k els values a) = (length values + 1) * (14 * n + n * (n - 1)).
Proof.
  intros dx k els values a n. unfold neighbor_features. rewrite app_length, Nat.mul_add_distr_l. unfold get_features at 1. rewrite block_length. fold n.
  assert (H : 2 * length (concat (map (fun v => get_features a els (with_property a v (connection_matrix radius dx k a))) values)) =
              length values * (14 * n + n * (n - 1))).
  { induction values as [|v t IH]; [reflexivity|]. cbn [map concat]. rewrite app_length, Nat.mul_add_distr_l, IH. unfold get_features. rewrite block_length.
    fold n. cbn [length]. lia. }
  rewrite H. lia.
Qed.

(** The features do not depend on the order of the atoms, apart from the order in which
    the elements are visited. *)
Definition permuted (p : list nat) (a : cluster) : cluster :=
  Cluster (map (fun i => at_z a i) p) (fun i j => distance a (nth i p 0) (nth j p 0)).
Lemma sum_reorder p n (f : nat -> R) : Permutation p (seq 0 n) -> sumR (map (fun i => f (nth i p 0)) (seq 0 n)) = sumR (map f (seq 0 n)).
Proof.
  intros HP. assert (HL : length p = n) by (rewrite (Permutation_length HP), seq_length; reflexivity).
  rewrite <- (sumR_perm _ _ (Permutation_map f HP)). f_equal.
  replace (map (fun i => f (nth i p 0)) (seq 0 n)) with (map f (map (fun i => nth i p 0) (seq 0 n))) by apply map_map. f_equal.
  apply (list_ext_nth 0); [rewrite map_length, seq_length; auto|]. intros i HI. rewrite map_length, seq_length in HI.
  rewrite (nth_map_lt _ _ _ 0) by (rewrite seq_length; exact HI). rewrite seq_nth by exact HI. reflexivity.
Qed.

Section Order.
Variables (p : list nat) (a : cluster).
Hypothesis HP : Permutation p (seq 0 (size a)).
Let n := size a.
Lemma permuted_length : length p = n.
Proof. rewrite (Permutation_length HP), seq_length. reflexivity. Qed.
Lemma permuted_size : size (permuted p a) = n.
Proof. unfold size, permuted. cbn. rewrite map_length. apply permuted_length. Qed.
Lemma permuted_z i : i < n -> at_z (permuted p a) i = at_z a (nth i p 0).
Proof. intros HI. unfold at_z at 1, permuted. cbn. rewrite (nth_map_lt _ _ _ 0) by (rewrite permuted_length; exact HI). reflexivity. Qed.
Lemma permuted_lt i : i < n -> nth i p 0 < n.
Proof.
  intros HI. assert (H : In (nth i p 0) (seq 0 n)) by (apply (Permutation_in _ HP), nth_In; rewrite permuted_length; exact HI).
  apply in_seq in H. lia.
Qed.
Lemma permuted_inj i j : i < n -> j < n -> nth i p 0 = nth j p 0 -> i = j.
Proof.
  intros HI HJ. assert (HN : NoDup p) by (apply (Permutation_NoDup (Permutation_sym HP)), seq_NoDup).
  apply (proj1 (NoDup_nth p 0) HN); rewrite permuted_length; assumption.
Qed.
Definition agree (m' m : nat -> nat -> R) : Prop := forall i j, i < n -> j < n -> m' i j = m (nth i p 0) (nth j p 0).
Lemma agree_connection dx k : agree (connection_matrix radius dx k (permuted p a)) (connection_matrix radius dx k a).
Proof.
  intros i j HI HJ. rewrite connection_neighbor by (rewrite permuted_size; assumption).
  rewrite connection_neighbor by (apply permuted_lt; assumption).
  assert (HE : is_neighbor radius dx k (permuted p a) i j = is_neighbor radius dx k a (nth i p 0) (nth j p 0)).
  { apply eq_true_iff_eq. rewrite !is_neighbor_spec. unfold in_shell. rewrite !permuted_z by assumption. cbn [distance permuted].
    split; intros (H1 & H2); (split; [|exact H2]); intros E; apply H1; [apply permuted_inj; assumption|congruence]. }
  rewrite HE. reflexivity.
Qed.
Lemma agree_property value m' m : agree m' m -> agree (with_property (permuted p a) value m') (with_property a value m).
Proof. intros H i j HI HJ. unfold with_property. rewrite (H i j HI HJ), permuted_z by exact HJ. reflexivity. Qed.
Lemma sum_permuted f' f : (forall i, i < n -> f' i = f (nth i p 0)) -> sumR (map f' (idx (permuted p a))) = sumR (map f (idx a)).
Proof.
  intros H. unfold idx. rewrite permuted_size. change (size a) with n. rewrite <- (sum_reorder p n f HP). apply sumR_map_ext. intros i HI. apply in_seq in HI. apply H. lia.
Qed.
Lemma agree_total m' m i : agree m' m -> i < n -> row_total (permuted p a) m' i = row_total a m (nth i p 0).
Proof. intros H HI. apply sum_permuted. intros j HJ. apply H; assumption. Qed.
Lemma agree_generalized m' m i : agree m' m -> i < n -> generalized (permuted p a) m' i = generalized a m (nth i p 0).
Proof.
  intros H HI. unfold generalized. f_equal. apply sum_permuted. intros j HJ. rewrite (H i j HI HJ), (agree_total m' m i H HI). reflexivity.
Qed.
Lemma agree_element e i : i < n -> element_list (permuted p a) e i = element_list a e (nth i p 0).
Proof. intros HI. unfold element_list. rewrite permuted_z by exact HI. reflexivity. Qed.
Lemma agree_features m' m : agree m' m -> forall els, get_features (permuted p a) els m' = get_features a els m.
Proof.
  intros H. unfold get_features.
  assert (G : forall g' g, (forall i, i < n -> g' i = g (nth i p 0)) -> forall els, features_loop (permuted p a) els m' g' = features_loop a els m g).
  { intros g' g HG. induction els as [|e rest IH]; [reflexivity|]. cbn [features_loop]. rewrite IH. f_equal; [|f_equal].
    - f_equal; [|f_equal; [|f_equal; [|f_equal]]].
      + apply sum_permuted. intros i HI. rewrite (agree_total m' m), agree_element by assumption. reflexivity.
      + apply (sum_permuted _ (fun i => (row_total a m i * element_list a e i) ^ 2)%R). intros i HI. rewrite (agree_total m' m), agree_element by assumption. reflexivity.
      + apply (sum_permuted _ (fun i => sqrt (row_total a m i * element_list a e i))). intros i HI. rewrite (agree_total m' m), agree_element by assumption. reflexivity.
      + apply (sum_permuted _ (fun i => sumR (map (fun j => element_list a e j * m i j)%R (idx a)))). intros i HI.
        apply (sum_permuted _ (fun j => element_list a e j * m (nth i p 0%nat) j)%R). intros j HJ. rewrite agree_element, H by assumption. reflexivity.
    - apply map_ext. intros eo. apply (sum_permuted _ (fun i => sumR (map (fun j => heteroatomic a e eo i j * m i j)%R (idx a)))). intros i HI.
      apply (sum_permuted _ (fun j => heteroatomic a e eo (nth i p 0%nat) j * m (nth i p 0%nat) j)%R). intros j HJ. rewrite H by assumption. unfold heteroatomic.
      rewrite !permuted_z by assumption. reflexivity.
    - f_equal. f_equal; [|f_equal; [|f_equal]].
      + apply sum_permuted. intros i HI. rewrite HG, agree_element by assumption. reflexivity.
      + apply (sum_permuted _ (fun i => (g i * element_list a e i) ^ 2)%R). intros i HI. rewrite HG, agree_element by assumption. reflexivity.
      + apply (sum_permuted _ (fun i => sqrt (g i * element_list a e i))). intros i HI. rewrite HG, agree_element by assumption. reflexivity. }
  apply G. intros i HI. apply agree_generalized; assumption.
Qed.
End Order.

Theorem features_order : forall dx k els values p a, Permutation p (seq 0 (size a)) ->
  neighbor_features radius dx k els values (permuted p a) = neighbor_features radius dx k els values a.
Proof.
  intros dx k els values p a HP. unfold neighbor_features. f_equal.
  - apply agree_features; [exact HP|]. apply agree_connection. exact HP.
  - f_equal. apply map_ext. intros v. apply agree_features; [exact HP|]. apply agree_property; [exact HP|]. apply agree_connection. exact HP.
Qed.

(** The features meant to count bonds between atoms of one element count all bonds of
    these atoms, those between two elements all bonds to other elements, and the
    generalized coordination number is the square of the coordination number over twelve. *)
Lemma sum_exchange {A B} (f : A -> B -> R) l l' :
  sumR (map (fun x => sumR (map (f x) l')) l) = sumR (map (fun y => sumR (map (fun x => f x y) l)) l').
Proof.
  induction l as [|x t IH]; cbn [map sumR].
  - rewrite sumR_map_const. ring.
  - rewrite IH, <- sumR_map_plus. apply sumR_map_ext. intros y _. reflexivity.
Qed.
Theorem bond_features_refuted : forall dx k a e rest, symmetric_distance a ->
  let m := connection_matrix radius dx k a in
  let f := get_features a (e :: rest) m in
  nth 3 f 0%R = nth 0 f 0%R /\
  nth 3 f 0%R = sumR (map (row_total a m) (of_element a e)) /\
  (forall q, q < length rest -> nth (4 + q) f 0%R = sumR (map (fun i => sumR (map (m i) (not_element a e))) (of_element a e))) /\
  (forall i, i < size a -> generalized a m i = (row_total a m i ^ 2 / 12)%R).
Proof.
  intros dx k a e rest HS m f.
  assert (H3 : nth 3 f 0%R = sumR (map (row_total a m) (of_element a e))).
  { unfold f, get_features. rewrite feature_blocks. cbn [app nth]. rewrite sum_exchange. apply sumR_map_ext. intros j HJ. unfold of_element in HJ.
    apply filter_In in HJ. destruct HJ as (HJ & _). apply in_seq in HJ. unfold row_total, idx. apply sumR_map_ext. intros i HI. apply in_seq in HI.
    unfold m. destruct (connection_matrix_entries dx k a i j) as (_ & _ & _ & H); [lia|lia|]. symmetry. apply H. exact HS. }
  split; [rewrite H3; unfold f, get_features; rewrite feature_blocks; reflexivity|]. split; [exact H3|]. split.
  - intros q HQ. unfold f, get_features. rewrite feature_blocks. rewrite app_nth2 by (cbn; lia). cbn [length]. replace (4 + q - 4) with q by lia.
    rewrite app_nth1 by (rewrite map_length; exact HQ). rewrite (nth_map_lt _ _ _ 0) by exact HQ. reflexivity.
  - intros i HI. unfold generalized. f_equal. unfold row_total at 2. unfold pow. rewrite Rmult_1_r.
    transitivity (sumR (map (fun j => row_total a m i * m i j)%R (idx a))).
    + apply sumR_map_ext. intros j HJ. apply in_seq in HJ. unfold m. rewrite connection_neighbor by lia.
      destruct (is_neighbor radius dx k a i j); [|rewrite Reqb_refl; ring].
      destruct (Reqb 1 0) eqn:E; [apply Reqb_true in E; lra|ring].
    + rewrite sumR_map_scal. unfold row_total. ring.
Qed.
End Radii.

(** ** Cases *)
(** A chain of three different atoms, 2 - 1 - 3, at distance one from each other; all radii
    are 1/2 and the buffer is 1/5. *)
Definition chain : cluster := Cluster [2; 1; 3] (fun i j => Rabs (INR i - INR j)).
Lemma chain_neighbor i j : i < 3 -> j < 3 -> is_neighbor (fun _ => / 2)%R (/ 5)%R 1 chain i j = (if (i =? S j) || (j =? S i) then true else false).
Proof.
  intros HI HJ.
  assert (HB : forall i j, is_neighbor (fun _ => / 2)%R (/ 5)%R 1 chain i j = true <-> i <> j /\ (0 < Rabs (INR i - INR j) < 1 + / 5)%R).
  { intros x y. rewrite is_neighbor_spec. unfold in_shell, chain. cbn [distance Nat.eqb INR]. replace (/ 2 + / 2)%R with 1%R by field. rewrite Rmult_1_l. tauto. }
  destruct ((i =? S j) || (j =? S i)) eqn:E.
  - apply HB. apply orb_true_iff in E. rewrite !Nat.eqb_eq in E. split; [lia|].
    destruct E as [->| ->]; rewrite S_INR; [replace (INR j + 1 - INR j)%R with 1%R by ring|replace (INR i - (INR i + 1))%R with (- (1))%R by ring; rewrite Rabs_Ropp];
      rewrite Rabs_R1; lra.
  - destruct (is_neighbor _ _ 1 chain i j) eqn:EN; [|reflexivity]. exfalso. apply HB in EN. destruct EN as (HN & _ & HU).
    apply orb_false_iff in E. rewrite !Nat.eqb_neq in E.
    assert (HC : (2 <= Rabs (INR i - INR j))%R); [|lra].
    assert (HD : i = j + 2 \/ j = i + 2) by lia. destruct HD as [->| ->]; rewrite plus_INR; cbn [INR].
    + replace (INR j + (1 + 1) - INR j)%R with 2%R by ring. rewrite Rabs_right by lra. lra.
    + replace (INR i - (INR i + (1 + 1)))%R with (- (2))%R by ring. rewrite Rabs_Ropp, Rabs_right by lra. lra.
Qed.
(** Asked for the second shell, connection_dict lists an atom of the first one; without any
    neighbours it fails. *)
Theorem connection_dict_shell_refuted :
  connection_dict (fun _ => / 2)%R (/ 5)%R 2 chain = Ok [(0, [1; -1]%Z); (1, [0; 2]%Z); (2, [1; -1]%Z)] /\
  ~ in_shell (fun _ => / 2)%R (/ 5)%R 2 chain 0 1 /\
  connection_dict (fun _ => / 2)%R (/ 5)%R 1 (Cluster [1; 1] (fun _ _ => 9%R)) = Err ValueError.
Proof.
  split; [|split].
  - unfold connection_dict. assert (HE : neighborlist (fun _ => / 2)%R (/ 5)%R 1 chain = [(0, [1]); (1, [0; 2]); (2, [1])]).
    { unfold neighborlist. change (idx chain) with [0; 1; 2]. cbn [map].
      assert (HF : forall i, i < 3 -> filter (is_neighbor (fun _ => / 2)%R (/ 5)%R 1 chain i) [0; 1; 2] =
                                      filter (fun j => if (i =? S j) || (j =? S i) then true else false) [0; 1; 2]).
      { intros i HI. apply filter_ext_in. intros j HJ. apply chain_neighbor; [exact HI|]. cbn in HJ. lia. }
      rewrite !HF by lia. reflexivity. }
    rewrite HE. reflexivity.
  - intros (_ & HL & _). cbn [distance chain Nat.eqb INR] in HL. replace (Rabs (0 - 1))%R with 1%R in HL; [lra|].
    replace (0 - 1)%R with (- (1))%R by ring. rewrite Rabs_Ropp, Rabs_R1. reflexivity.
  - unfold connection_dict, neighborlist. change (idx (Cluster [1; 1] (fun _ _ => 9%R))) with [0; 1].
    assert (HN : forall i j, is_neighbor (fun _ => / 2)%R (/ 5)%R 1 (Cluster [1; 1] (fun _ _ => 9%R)) i j = false).
    { intros i j. destruct (is_neighbor _ _ 1 _ i j) eqn:E; [|reflexivity]. apply is_neighbor_spec in E. destruct E as (_ & _ & HU).
      cbn [distance INR] in HU. lra. }
    cbn [map filter]. rewrite !HN. reflexivity.
Qed.
(** The features of element 1 are those of an atom with two neighbours, among them two
    bonds between atoms of element 1 and two bonds to each of the other elements. *)
Example chain_case :
  firstn 6 (get_features chain [1; 2; 3] (connection_matrix (fun _ => / 2)%R (/ 5)%R 1 chain)) = [2; 4; sqrt 2; 2; 2; 2]%R.
Proof.
  unfold get_features. rewrite feature_blocks. cbn [map app firstn].
  assert (HC : forall i j, i < 3 -> j < 3 -> connection_matrix (fun _ => / 2)%R (/ 5)%R 1 chain i j = (if (i =? S j) || (j =? S i) then 1 else 0)%R).
  { intros i j HI HJ. rewrite connection_neighbor by assumption. rewrite chain_neighbor by assumption. destruct ((i =? S j) || (j =? S i)); reflexivity. }
  change (of_element chain 1) with [1]. change (not_element chain 1) with [0; 2]. change (seq 0 (size chain)) with [0; 1; 2].
  unfold row_total. change (idx chain) with [0; 1; 2]. cbn [map sumR]. rewrite !HC by lia. cbn [Nat.eqb orb].
  replace (1 + (0 + (1 + 0)))%R with 2%R by ring. repeat f_equal; ring.
Qed.

Print Assumptions connection_matrix_entries.
Print Assumptions shells_cover.
Print Assumptions shell_boundary_refuted.
Print Assumptions connection_dict_entries.
Print Assumptions connection_dict_first_shell.
Print Assumptions connection_dict_shell_refuted.
Print Assumptions feature_blocks.
Print Assumptions row_totals.
Print Assumptions feature_count.
Print Assumptions features_order.
Print Assumptions bond_features_refuted.
