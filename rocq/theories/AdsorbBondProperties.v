(** Properties of the adsorbate fingerprints that count bonds by elements or sum over
    bonds. *)
From Coq Require Import ZArith Reals List Arith Bool Permutation Sorted Lia Lra.
From Verif Require Import Base BaseFacts RBase FeatModel PeriodicModel FingerModel FeatProperties PeriodicProperties FingerProperties NeighborProperties ParticleProperties AdsorbModel AdsorbProperties.
Import ListNotations.
Local Open Scope nat_scope.

(** * Bonds within the adsorbate *)
(** The bonds between atoms that are not in a set, each listed once. *)
Definition bonds_outside (a : struct) (slab : list nat) (es : list (nat * nat)) : Prop :=
  NoDup es /\ forall r c, In (r, c) es <-> (r < c < natoms a /\ (0 < cm a r c)%Z /\ ~ In r slab /\ ~ In c slab).

Lemma outside_spec slab e : outside slab e = true <-> ~ In (fst e) slab /\ ~ In (snd e) slab.
Proof. unfold outside. rewrite andb_true_iff, !negb_true_iff, <- !not_true_iff_false, !mem_in. reflexivity. Qed.
Lemma bonds_outside_filter a slab : bonds_outside a slab (filter (outside slab) (bonds a)).
Proof. split; [apply NoDup_filter, bonds_bond_list|]. intros r c. rewrite filter_In, bonds_in, outside_spec. cbn. tauto. Qed.
Lemma bonds_outside_perm a slab es : bonds_outside a slab es -> Permutation es (filter (outside slab) (bonds a)).
Proof.
  intros [H1 H2]. apply NoDup_Permutation; [auto|apply (bonds_outside_filter a slab)|]. intros [r c]. rewrite H2. symmetry. apply (proj2 (bonds_outside_filter a slab)).
Qed.

Theorem bag_edges_ads_counts : forall n ts a s es, increasing ts -> (forall z, In z ts -> z < n) -> bonds_outside a (slab_atoms s) es ->
  (forall r c, In (r, c) es -> In (zat a r) ts /\ In (zat a c) ts) ->
  exists v ns, bag_edges_ads ts a s = Ok v /\ bag_edges_names n ts = Ok ns /\ length v = length ns /\
    (forall k z1 z2, nth_error ns k = Some (LPair z1 z2) ->
       nth_error v k = Some (length (filter (fun e => let x := zat a (fst e) in let y := zat a (snd e) in
                                                      ((x =? z1) && (y =? z2)) || ((x =? z2) && (y =? z1))) es))) /\
    sum v = length es.
Proof.
  intros n ts a s es HT HN HB HI. pose proof (bonds_outside_perm a _ es HB) as HP.
  assert (HS : forall i j x y, nth_error ts i = Some x -> nth_error ts j = Some y -> i < j -> (y <=? x) = false).
  { intros i j x y E1 E2 L. apply Nat.leb_gt. eapply increasing_nth; eauto. }
  destruct (pair_loop_counts Nat.eqb Nat.leb ts Nat.eqb_eq leb_nat_total leb_nat_antisym HS (zat a) (filter (outside (slab_atoms s)) (bonds a))) as (boc & EL & HC & HSum).
  { intros [r c] H. apply HI. apply (Permutation_in _ (Permutation_sym HP)). auto. }
  unfold bag_edges_ads, bag_edges_names. rewrite EL, symbols_ok by auto. cbn [bind]. eexists; eexists. split; [reflexivity|]. split; [reflexivity|].
  split; [unfold triu_values; rewrite !map_length; auto|]. split.
  - intros k z1 z2 E. rewrite nth_error_map in E. destruct (nth_error (triu (length ts)) k) as [[i j]|] eqn:EK; [|discriminate]. cbn in E. injection E as <- <-.
    destruct (nth_error_triu _ _ _ _ EK) as [Hij Hj]. unfold triu_values. rewrite nth_error_map, EK. cbn. f_equal.
    rewrite (HC i j (nth i ts 0) (nth j ts 0)) by (auto using nth_error_nth' || (apply nth_error_nth'; lia)).
    rewrite (filter_len_perm _ _ _ HP). apply filter_len_ext. intros [r c] _. cbn. apply orb_comm.
  - rewrite HSum. symmetry. apply Permutation_length. auto.
Qed.

Lemma mem_relabel p a l' l i : reordering p a -> same_atoms p l' l -> i < natoms a -> mem i l' = mem (nth i p 0) l.
Proof.
  intros HP [H1 H2] Hi. apply eq_true_iff_eq. rewrite !mem_in. split.
  - intros H. apply (Permutation_in _ H2). apply (in_map (fun i => nth i p 0)). auto.
  - intros H. apply (Permutation_in _ (Permutation_sym H2)), in_map_iff in H as (j & E & Hj). apply (reordering_inj p a) in E; auto; [subst; auto|].
    rewrite <- (relabel_len p a HP). apply H1. auto.
Qed.
Lemma perm_filter {A} (f : A -> bool) l l' : Permutation l l' -> Permutation (filter f l) (filter f l').
Proof. induction 1; cbn; [constructor|destruct (f x); auto|destruct (f x), (f y); auto; constructor|eapply perm_trans; eauto]. Qed.
Lemma filter_map_swap {A B} (g : A -> B) f l : filter f (map g l) = map g (filter (fun x => f (g x)) l).
Proof. induction l as [|x t IH]; cbn; [auto|]. destruct (f (g x)); cbn; rewrite IH; auto. Qed.

Theorem bag_edges_ads_order : forall ts a s p s', undirected a -> reordering p a -> same_subsets p s' s ->
  bag_edges_ads ts (relabel p a) s' = bag_edges_ads ts a s.
Proof.
  intros ts a s p s' HU HP (HS & _). unfold bag_edges_ads. apply pair_loop_relabel.
  rewrite <- (Permutation_map (fun e => place Nat.eqb Nat.leb ts (zat a) e) (perm_filter (outside (slab_atoms s)) _ _ (bonds_relabel p a HP HU))).
  rewrite filter_map_swap, map_map.
  assert (EF : filter (outside (slab_atoms s')) (bonds (relabel p a)) = filter (fun e => outside (slab_atoms s) (old_bond p e)) (bonds (relabel p a))).
  { apply filter_ext_in. intros [r c] H. apply bonds_in in H as [H _]. rewrite relabel_natoms in H by auto. unfold outside, old_bond. cbn [fst snd].
    rewrite (mem_relabel p a (slab_atoms s') (slab_atoms s) r), (mem_relabel p a (slab_atoms s') (slab_atoms s) c) by (auto; lia).
    destruct (nth r p 0 <? nth c p 0); cbn [fst snd]; [auto|apply andb_comm]. }
  rewrite EF. rewrite (map_ext_in _ (fun e => place Nat.eqb Nat.leb ts (zat a) (old_bond p e))); [reflexivity|].
  intros [r c] H. cbv beta. rewrite (place_norm Nat.eqb Nat.leb) by (auto using leb_nat_total, leb_nat_antisym).
  apply filter_In in H as [H _]. apply bonds_in in H as [H _]. rewrite relabel_natoms in H by auto. apply place_ext; cbn; apply relabel_zat; rewrite (relabel_len p a); auto; lia.
Qed.

Example bag_edges_ads_case : bag_edges_ads [1; 6; 29] (Struct [29; 29; 6; 1] [[0; 1; 1; 0]; [1; 0; 0; 0]; [1; 0; 0; 1]; [0; 0; 1; 0]]%Z) (Subsets [0; 1] [0] [] [2] [2; 3]) = Ok [0; 1; 0; 0; 0; 0].
Proof. reflexivity. Qed.

(** bag_edges_chemi should leave out the bonds within the slab; it counts all bonds. *)
Theorem bag_edges_chemi_refuted :
  (forall n ts a s es, increasing ts -> (forall z, In z ts -> z < n) -> bond_list a es -> (forall r c, In (r, c) es -> In (zat a r) ts /\ In (zat a c) ts) ->
     exists v, bag_edges_chemi ts a s = Ok v /\ sum v = length es) /\
  (exists ts a s, increasing ts /\ well_formed a /\ undirected a /\ (forall i, i < natoms a -> In i (slab_atoms s)) /\ bag_edges_chemi ts a s = Ok [1]).
Proof.
  split.
  - intros n ts a s es H1 H2 H3 H4. destruct (bag_edges_counts n ts a es H1 H2 H3 H4) as (v & ns & E & _ & _ & _ & ES). exists v. auto.
  - exists [29], (Struct [29; 29] [[0; 1]; [1; 0]]%Z), (Subsets [0; 1] [] [] [] []). split; [repeat constructor|]. split; [split; [reflexivity|intros row [<-|[<-|[]]]; reflexivity]|].
    split; [|split; [|reflexivity]].
    + intros i j Hi Hj. change (natoms _) with 2 in *. destruct i as [|[|i]], j as [|[|j]]; try lia; reflexivity.
    + intros i Hi. change (natoms _) with 2 in Hi. cbn. lia.
Qed.

(** * Bonds of the adsorbate atoms *)
Lemma triu_rect_length_lt r c : 2 <= r -> 1 <= c -> length (triu_rect r c) < r * c.
Proof.
  intros Hr Hc. unfold triu_rect.
  assert (EP : length (list_prod (seq 0 r) (seq 0 c)) = r * c) by (rewrite prod_length, !seq_length; auto). rewrite <- EP.
  assert (HIn : In (1, 0) (list_prod (seq 0 r) (seq 0 c))) by (apply in_prod_iff; rewrite !in_seq; lia).
  assert (G : forall l, In (1, 0) l -> length (filter (fun p : nat * nat => fst p <=? snd p) l) < length l).
  { induction l as [|x t IH]; intros H; [destruct H|]. cbn [filter length]. assert (HL : forall u : list (nat * nat), length (filter (fun p => fst p <=? snd p) u) <= length u).
    { induction u as [|y u IHu]; cbn; [auto|]. destruct (fst y <=? snd y); cbn; lia. }
    destruct H as [->|H]; [cbn; specialize (HL t); lia|]. specialize (IH H). destruct (fst x <=? snd x); cbn; lia. }
  apply G. auto.
Qed.

(** Values and names agree in number, but there are fewer than one for each pair of an
    adsorbate element and an element, and bonds are lost: the bond between metal and carbon
    of adsorbed carbon monoxide is not counted at all. *)
Theorem bag_edges_all_refuted :
  (forall ads_ts ts a s v, bag_edges_all ads_ts ts a s = Ok v ->
     length v = length (bag_edges_all_names ads_ts ts) /\
     (2 <= length ads_ts -> 1 <= length ts -> length v < length ads_ts * length ts)) /\
  (exists ads_ts ts a s es, increasing ads_ts /\ increasing ts /\ well_formed a /\ undirected a /\ bond_list a es /\
     In (0, 1) es /\ zat a 0 = 29 /\ zat a 1 = 6 /\ slab_atoms s = [0] /\ ads_atoms s = [1; 2] /\
     bag_edges_all_names ads_ts ts = [LPair 6 6; LPair 8 6; LPair 29 6; LPair 8 8; LPair 29 8] /\
     bag_edges_all ads_ts ts a s = Ok [0; 1; 0; 0; 0]).
Proof.
  split.
  - intros ads_ts ts a s v E. unfold bag_edges_all in E. destruct (rect_loop _ _ _ _ _ _); cbn [bind] in E; [|discriminate]. injection E as <-.
    unfold bag_edges_all_names. rewrite !map_length. split; [auto|]. intros. apply triu_rect_length_lt; auto.
  - exists [6; 8], [6; 8; 29], (Struct [29; 6; 8] [[0; 1; 0]; [1; 0; 1]; [0; 1; 0]]%Z), (Subsets [0] [0] [] [1] [1; 2]), [(0, 1); (1, 2)].
    split; [repeat constructor|]. split; [repeat constructor|]. split; [split; [reflexivity|intros row [<-|[<-|[<-|[]]]]; reflexivity]|]. split.
    { intros i j Hi Hj. change (natoms _) with 3 in *. destruct i as [|[|[|i]]], j as [|[|[|j]]]; try lia; reflexivity. }
    split; [|repeat split; left; reflexivity].
    split; [repeat constructor; cbn; intuition congruence|]. intros r c. change (natoms _) with 3. split.
    + intros [[= <- <-]|[[= <- <-]|[]]]; (split; [lia|reflexivity]).
    + intros [H1 H2]. destruct r as [|[|[|r]]], c as [|[|[|c]]]; try lia; cbn in *; auto; discriminate.
Qed.

(** * Sums over bonds *)
(** Sum of a weight over the bonds (r, c) that satisfy a condition on the two atoms. *)
Definition bond_sum (a : struct) (es : list (nat * nat)) (P : nat -> nat -> bool) (w : nat -> nat -> R) : R :=
  sumR (map (fun e => IZR (cm a (fst e) (snd e)) * w (fst e) (snd e))%R (filter (fun e => P (fst e) (snd e)) es)).
Definition both (A : list nat) (r c : nat) : bool := mem r A && mem c A.
Definition across (A B : list nat) (r c : nat) : bool := (mem r A && mem c B) || (mem c A && mem r B).

Lemma sum_filter_if {A} (P : A -> bool) (f : A -> R) l : sumR (map f (filter P l)) = sumR (map (fun x => if P x then f x else 0%R) l).
Proof. induction l as [|x t IH]; cbn [filter map sumR]; [auto|]. destruct (P x); cbn [map sumR]; rewrite IH; lra. Qed.
Lemma sum_prod {A B} (f : A -> B -> R) l m : sumR (map (fun x => sumR (map (f x) m)) l) = sumR (map (fun q => f (fst q) (snd q)) (list_prod l m)).
Proof. induction l as [|x t IH]; cbn [map sumR list_prod]; [auto|]. rewrite map_app, sumR_app, <- IH, map_map. reflexivity. Qed.
Lemma subset_perm n A : NoDup A -> (forall i, In i A -> i < n) -> Permutation A (filter (fun i => mem i A) (seq 0 n)).
Proof.
  intros HN HA. apply NoDup_Permutation; [auto|apply NoDup_filter, seq_NoDup|]. intros i. rewrite filter_In, in_seq, mem_in. split; [intros H; specialize (HA i H); split; [lia|auto]|tauto].
Qed.
Lemma sum_sub n A (f : nat -> R) : NoDup A -> (forall i, In i A -> i < n) -> sumR (map f A) = sumR (map (fun i => if mem i A then f i else 0%R) (seq 0 n)).
Proof. intros H1 H2. rewrite (sumR_perm _ _ (Permutation_map f (subset_perm n A H1 H2))). apply sum_filter_if. Qed.

(** A double sum of a symmetric function without diagonal, over pairs r < c. *)
Lemma sum_square n (g : nat -> nat -> R) : (forall i, g i i = 0%R) ->
  sumR (map (fun q => g (fst q) (snd q)) (list_prod (seq 0 n) (seq 0 n))) =
  sumR (map (fun q => (g (fst q) (snd q) + g (snd q) (fst q))%R) (filter (fun q => fst q <? snd q) (list_prod (seq 0 n) (seq 0 n)))).
Proof.
  intros Hd. set (l := list_prod (seq 0 n) (seq 0 n)).
  rewrite (sumR_map_plus (fun q => g (fst q) (snd q)) (fun q => g (snd q) (fst q))).
  assert (EP : Permutation (map (fun q : nat * nat => (snd q, fst q)) (filter (fun q => fst q <? snd q) l)) (filter (fun q => snd q <? fst q) l)).
  { apply NoDup_Permutation.
    - assert (HN : NoDup (filter (fun q => fst q <? snd q) l)) by (apply NoDup_filter, NoDup_prod; apply seq_NoDup).
      revert HN. generalize (filter (fun q : nat * nat => fst q <? snd q) l). intros u HN. induction HN as [|[x y] t Hx Ht IH]; cbn; [constructor|]. constructor; [|auto].
      intros H. apply in_map_iff in H as ([x' y'] & [= -> ->] & H). auto.
    - apply NoDup_filter, NoDup_prod; apply seq_NoDup.
    - intros [x y]. rewrite in_map_iff, filter_In. unfold l. rewrite in_prod_iff. cbn [fst snd]. split.
      + intros ([x' y'] & [= -> ->] & H). apply filter_In in H as [H1 H2]. apply in_prod_iff in H1. cbn in H2. tauto.
      + intros [[H1 H2] H3]. exists (y, x). split; [auto|]. apply filter_In. split; [apply in_prod_iff; auto|auto]. }
  replace (sumR (map (fun q => g (snd q) (fst q)) (filter (fun q => fst q <? snd q) l))) with (sumR (map (fun q => g (fst q) (snd q)) (filter (fun q => snd q <? fst q) l))).
  - rewrite !sum_filter_if, <- sumR_map_plus. apply sumR_map_ext. intros [x y] _. cbn [fst snd].
    destruct (Nat.ltb_spec x y), (Nat.ltb_spec y x); try lia; try lra. replace y with x by lia. rewrite Hd. lra.
  - rewrite <- (sumR_perm _ _ (Permutation_map _ EP)), map_map. reflexivity.
Qed.

Lemma double_sum_bonds a es A B (w : nat -> nat -> R) : non_negative a -> undirected a -> bond_list a es ->
  NoDup A -> NoDup B -> (forall i, In i A -> i < natoms a) -> (forall i, In i B -> i < natoms a) ->
  (forall i j, w i j = w j i) -> (forall i, w i i = 0%R) ->
  sumR (map (fun i => sumR (map (fun j => IZR (cm a i j) * w i j)%R B)) A) =
  (bond_sum a es (fun r c => mem r A && mem c B) w + bond_sum a es (fun r c => mem c A && mem r B) w)%R.
Proof.
  intros HN HU HE NA NB HA HB HW HD. set (n := natoms a) in *.
  rewrite (sum_sub n A) by auto.
  rewrite (sumR_map_ext _ (fun i => sumR (map (fun j => if mem i A && mem j B then (IZR (cm a i j) * w i j)%R else 0%R) (seq 0 n)))).
  2:{ intros i _. destruct (mem i A); cbn [andb]; [apply (sum_sub n B); auto|]. symmetry. apply sum_zero. auto. }
  rewrite (sum_prod (fun i j => if mem i A && mem j B then (IZR (cm a i j) * w i j)%R else 0%R)), (sum_square n (fun i j => if mem i A && mem j B then (IZR (cm a i j) * w i j)%R else 0%R)).
  2:{ intros i. destruct (_ && _); [rewrite HD; lra|auto]. }
  unfold bond_sum. rewrite !sum_filter_if, <- sumR_map_plus.
  rewrite (sumR_perm _ _ (Permutation_map _ (bond_list_perm a es HE))). unfold bonds. fold n. rewrite !sum_filter_if. apply sumR_map_ext. intros [r c] H. apply in_prod_iff in H as [H1 H2].
  apply in_seq in H1, H2. cbn [fst snd]. destruct (Nat.ltb_spec r c); cbn [andb]; [|auto].
  rewrite (HW c r), (HU c r) by (unfold n in *; lia). destruct (Z.ltb_spec 0 (cm a r c)) as [Hp|Hp]; [destruct (mem r A && mem c B), (mem c A && mem r B); lra|].
  replace (cm a r c) with 0%Z by (specialize (HN r c); lia). destruct (mem r A && mem c B), (mem c A && mem r B); lra.
Qed.

Section En.
Variable en : nat -> option R.
(** Squared difference of electronegativities of two atoms. *)
Definition en_gap (a : struct) (i j : nat) : R :=
  match en (zat a i), en (zat a j) with Some x, Some y => ((x - y) ^ 2)%R | _, _ => 0%R end.
Definition all_known (a : struct) (l : list nat) : Prop := forall i, In i l -> en (zat a i) <> None.

Lemma en_known_all a l : en_known en a l = true <-> all_known a l.
Proof.
  unfold en_known, all_known. rewrite forallb_forall. split; intros H i Hi; specialize (H i Hi); destruct (en (zat a i)); congruence || auto.
Qed.
Lemma en_gap_sym a i j : en_gap a i j = en_gap a j i.
Proof. unfold en_gap. destruct (en (zat a i)), (en (zat a j)); auto. cbn. ring. Qed.
Lemma en_gap_diag a i : en_gap a i i = 0%R.
Proof. unfold en_gap. destruct (en (zat a i)); auto. cbn. ring. Qed.
Lemma en_sum_gap a A B : all_known a A -> all_known a B ->
  en_sum en a A B = Some (sumR (map (fun i => sumR (map (fun j => IZR (cm a i j) * en_gap a i j)%R B)) A)).
Proof.
  intros HA HB. unfold en_sum. destruct (Nat.eqb_spec (length A) 0) as [E|E]; [destruct A; [reflexivity|discriminate]|]. cbn [orb].
  destruct (Nat.eqb_spec (length B) 0) as [E'|E']; [destruct B; [|discriminate]; cbn [map sumR]; rewrite (sum_zero (fun _ : nat => 0%R)); auto|].
  rewrite (proj2 (en_known_all a A) HA), (proj2 (en_known_all a B) HB). cbn [andb]. f_equal. apply sumR_map_ext. intros i Hi. apply sumR_map_ext. intros j Hj. f_equal.
  unfold en_of, en_gap. specialize (HA i Hi). specialize (HB j Hj). destruct (en (zat a i)); [|congruence]. destruct (en (zat a j)); [auto|congruence].
Qed.
End En.

Lemma bond_sum_ext a es P Q w : (forall r c, In (r, c) es -> P r c = Q r c) -> bond_sum a es P w = bond_sum a es Q w.
Proof. intros H. unfold bond_sum. f_equal. f_equal. apply filter_ext_in. intros [r c] Hq. cbn. auto. Qed.

(** The bonds between the site and the chemisorbed atoms are counted once ... *)
Theorem en_difference_chemi_sum : forall en a s es, non_negative a -> undirected a -> bond_list a es ->
  NoDup (chemisorbed_atoms s) -> NoDup (site_atoms s) -> (forall i, In i (chemisorbed_atoms s) -> i < natoms a) -> (forall i, In i (site_atoms s) -> i < natoms a) ->
  (forall i, In i (chemisorbed_atoms s) -> ~ In i (site_atoms s)) ->
  (all_known en a (chemisorbed_atoms s) -> all_known en a (site_atoms s) ->
     en_difference_chemi en a s = Some (bond_sum a es (across (chemisorbed_atoms s) (site_atoms s)) (en_gap en a))) /\
  (chemisorbed_atoms s <> [] -> site_atoms s <> [] -> ~ (all_known en a (chemisorbed_atoms s) /\ all_known en a (site_atoms s)) -> en_difference_chemi en a s = None).
Proof.
  intros en a s es HN HU HE N1 N2 B1 B2 HD. split.
  - intros K1 K2. unfold en_difference_chemi. rewrite en_sum_gap by auto. f_equal. rewrite (double_sum_bonds a es) by (auto using en_gap_sym, en_gap_diag).
    unfold bond_sum. rewrite !sum_filter_if, <- sumR_map_plus. apply sumR_map_ext. intros [r c] _. cbn [fst snd]. unfold across.
    assert (X : forall i, mem i (chemisorbed_atoms s) && mem i (site_atoms s) = false).
    { intros i. apply not_true_iff_false. rewrite andb_true_iff, !mem_in. intros [H1 H2]. apply (HD i); auto. }
    pose proof (X r) as Xr. pose proof (X c) as Xc. destruct (mem r (chemisorbed_atoms s)), (mem c (site_atoms s)), (mem c (chemisorbed_atoms s)), (mem r (site_atoms s)); cbn in *; try discriminate; lra.
  - intros H1 H2 H3. unfold en_difference_chemi, en_sum. destruct (Nat.eqb_spec (length (chemisorbed_atoms s)) 0); [destruct (chemisorbed_atoms s); [congruence|discriminate]|].
    destruct (Nat.eqb_spec (length (site_atoms s)) 0); [destruct (site_atoms s); [congruence|discriminate]|]. cbn [orb].
    rewrite <- !en_known_all, <- andb_true_iff in H3. apply not_true_iff_false in H3. rewrite H3. auto.
Qed.

(** ... but the bonds within the adsorbate are counted twice. *)
Theorem en_difference_ads_refuted : forall en a s es, non_negative a -> undirected a -> bond_list a es ->
  NoDup (ads_atoms s) -> (forall i, In i (ads_atoms s) -> i < natoms a) -> all_known en a (ads_atoms s) ->
  exists x, en_difference_ads en a s = Some x /\ x = (2 * bond_sum a es (both (ads_atoms s)) (en_gap en a))%R.
Proof.
  intros en a s es HN HU HE N1 B1 K1. eexists. unfold en_difference_ads. rewrite en_sum_gap by auto. split; [reflexivity|].
  rewrite (double_sum_bonds a es) by (auto using en_gap_sym, en_gap_diag).
  rewrite (bond_sum_ext a es (fun r c => mem c (ads_atoms s) && mem r (ads_atoms s)) (both (ads_atoms s))) by (intros; apply andb_comm). unfold both. lra.
Qed.
(** In the sum over the bonds of the adsorbate and the site, bonds within the adsorbate
    have twice the weight of bonds with the site. *)
Theorem en_difference_active_refuted : forall en a s es, non_negative a -> undirected a -> bond_list a es ->
  NoDup (ads_atoms s) -> NoDup (site_atoms s) -> (forall i, In i (ads_atoms s) -> i < natoms a) -> (forall i, In i (site_atoms s) -> i < natoms a) ->
  (forall i, In i (ads_atoms s) -> ~ In i (site_atoms s)) -> all_known en a (ads_atoms s) -> all_known en a (site_atoms s) ->
  exists x, en_difference_active en a s = Some x /\
    x = (2 * bond_sum a es (both (ads_atoms s)) (en_gap en a) + bond_sum a es (across (ads_atoms s) (site_atoms s)) (en_gap en a))%R.
Proof.
  intros en a s es HN HU HE N1 N2 B1 B2 HD K1 K2. eexists. unfold en_difference_active. rewrite en_sum_gap.
  2: auto. 2:{ intros i Hi. apply in_app_iff in Hi as [Hi|Hi]; auto. }
  split; [reflexivity|]. rewrite (sumR_map_ext _ (fun i => (sumR (map (fun j => IZR (cm a i j) * en_gap en a i j) (ads_atoms s)) + sumR (map (fun j => IZR (cm a i j) * en_gap en a i j) (site_atoms s)))%R)) by (intros i _; rewrite map_app, sumR_app; auto).
  rewrite sumR_map_plus. rewrite (double_sum_bonds a es (ads_atoms s) (ads_atoms s)), (double_sum_bonds a es (ads_atoms s) (site_atoms s)) by (auto using en_gap_sym, en_gap_diag).
  rewrite (bond_sum_ext a es (fun r c => mem c (ads_atoms s) && mem r (ads_atoms s)) (both (ads_atoms s))) by (intros; apply andb_comm).
  assert (EA : bond_sum a es (across (ads_atoms s) (site_atoms s)) (en_gap en a) =
    (bond_sum a es (fun r c => mem r (ads_atoms s) && mem c (site_atoms s)) (en_gap en a) + bond_sum a es (fun r c => mem c (ads_atoms s) && mem r (site_atoms s)) (en_gap en a))%R).
  { unfold bond_sum. rewrite !sum_filter_if, <- sumR_map_plus. apply sumR_map_ext. intros [r c] _. cbn [fst snd]. unfold across.
    assert (X : forall i, mem i (ads_atoms s) && mem i (site_atoms s) = false).
    { intros i. apply not_true_iff_false. rewrite andb_true_iff, !mem_in. intros [H1 H2]. apply (HD i); auto. }
    pose proof (X r) as Xr. pose proof (X c) as Xc. destruct (mem r (ads_atoms s)), (mem c (site_atoms s)), (mem c (ads_atoms s)), (mem r (site_atoms s)); cbn in *; try discriminate; lra. }
  rewrite EA. unfold both. lra.
Qed.

(** Water: two bonds, the sum over bonds is 2 * (3.5 - 2.1)^2, the feature twice that. *)
Example water_case : let en z := if Nat.eqb z 8 then Some 3.5%R else Some 2.1%R in
  en_difference_ads en (Struct [8; 1; 1] [[0; 1; 1]; [1; 0; 0]; [1; 0; 0]]%Z) (Subsets [] [] [] [] [0; 1; 2]) = Some (4 * (3.5 - 2.1) ^ 2)%R.
Proof. cbn. f_equal. field. Qed.

Print Assumptions bag_edges_ads_counts.
Print Assumptions bag_edges_ads_order.
Print Assumptions bag_edges_chemi_refuted.
Print Assumptions bag_edges_all_refuted.
Print Assumptions en_difference_chemi_sum.
Print Assumptions en_difference_ads_refuted.
Print Assumptions en_difference_active_refuted.
