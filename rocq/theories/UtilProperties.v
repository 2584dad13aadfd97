(** Properties of the clustering, Sammon error, pair distribution and correlation utilities. *)
From Coq Require Import String List Arith Bool Reals Lra Lia Permutation.
From Verif Require Import Base BaseFacts RBase PrepModel PrepProofs UtilModel.
Import ListNotations.
Local Open Scope string_scope.
Local Open Scope list_scope.
Local Open Scope nat_scope.

(** ** Clusters *)
(** Reading a dictionary of lists: a missing key is an empty list. *)
Definition entry {A} (l : nat) (d : list (nat * list A)) : list A :=
  match find (fun e => fst e =? l) d with Some e => snd e | None => [] end.
(** The values whose label is [l], in their order. *)
Definition members {A} (l : nat) (xs : list A) (labels : list nat) : list A :=
  map fst (filter (fun p => snd p =? l) (combine xs labels)).
(** [d] holds exactly the groups of [xs] by label. *)
Definition grouped {A} (xs : list A) (labels : list nat) (d : list (nat * list A)) : Prop :=
  (forall l, entry l d = members l xs labels) /\ NoDup (map fst d) /\
  (forall l, In l (map fst d) <-> In l labels) /\ Permutation (concat (map snd d)) xs.
(** [i] is the first of the centroids that are nearest to [t]. *)
Definition closest (centroids : list row) (t : row) (i : nat) : Prop :=
  i < length centroids /\
  (forall j, j < length centroids -> (distance t (nth i centroids []) <= distance t (nth j centroids []))%R) /\
  (forall j, j < i -> (distance t (nth i centroids []) < distance t (nth j centroids []))%R).

Lemma dappend_entry {A} l (v : A) d k : entry k (dappend l v d) = entry k d ++ (if l =? k then [v] else []).
Proof.
  induction d as [|[k' vs] t IH].
  - unfold entry. cbn. destruct (l =? k); auto.
  - cbn [dappend]. destruct (l =? k') eqn:E.
    + apply Nat.eqb_eq in E. subst k'. unfold entry. cbn. destruct (l =? k) eqn:E2; cbn; [auto|rewrite app_nil_r; auto].
    + unfold entry in *. cbn. destruct (k' =? k) eqn:E2; [|exact IH]. cbn. apply Nat.eqb_eq in E2. subst k'. rewrite E, app_nil_r. auto.
Qed.

Lemma dappend_keys {A} l (v : A) d k : In k (map fst (dappend l v d)) <-> In k (map fst d) \/ k = l.
Proof.
  induction d as [|[k' vs] t IH]; cbn; [intuition|]. destruct (l =? k') eqn:E; cbn.
  - apply Nat.eqb_eq in E. subst. intuition.
  - rewrite IH. intuition.
Qed.

Lemma dappend_nodup {A} l (v : A) d : NoDup (map fst d) -> NoDup (map fst (dappend l v d)).
Proof.
  induction d as [|[k' vs] t IH]; cbn; intros H; [constructor; auto|]. inversion H; subst.
  destruct (l =? k') eqn:E; cbn; [auto|]. constructor; [|auto]. rewrite dappend_keys. apply Nat.eqb_neq in E. intuition.
Qed.

Lemma dappend_perm {A} l (v : A) d : Permutation (concat (map snd (dappend l v d))) (v :: concat (map snd d)).
Proof.
  induction d as [|[k' vs] t IH]; cbn; [auto|]. destruct (l =? k'); cbn.
  - rewrite <- app_assoc. cbn. symmetry. apply Permutation_middle.
  - rewrite IH. symmetry. apply Permutation_middle.
Qed.

Lemma fold_grouped {A E} (f : E -> A) (g : E -> nat) z : forall d,
  let d' := fold_left (fun d e => dappend (g e) (f e) d) z d in
  (forall l, entry l d' = entry l d ++ map f (filter (fun e => g e =? l) z)) /\
  (NoDup (map fst d) -> NoDup (map fst d')) /\
  (forall l, In l (map fst d') <-> In l (map fst d) \/ In l (map g z)) /\
  Permutation (concat (map snd d')) (concat (map snd d) ++ map f z).
Proof.
  induction z as [|e z IH]; intros d; cbn zeta; cbn [fold_left map filter].
  - repeat split; intros; rewrite ?app_nil_r in *; auto. cbn in *. intuition.
  - destruct (IH (dappend (g e) (f e) d)) as [I1 [I2 [I3 I4]]]. split; [|split; [|split]].
    + intros l. rewrite I1, dappend_entry, <- app_assoc. destruct (g e =? l); auto.
    + intros. apply I2, dappend_nodup; auto.
    + intros l. rewrite I3, dappend_keys. cbn. intuition.
    + rewrite I4, dappend_perm. cbn. apply Permutation_middle.
Qed.

Lemma combine3 {A B} (xs : list A) (ys : list B) (ls : list nat) l : length xs = length ys -> length xs = length ls ->
  let z := combine (combine xs ys) ls in
  map (fun e => fst (fst e)) (filter (fun e => snd e =? l) z) = members l xs ls /\
  map (fun e => snd (fst e)) (filter (fun e => snd e =? l) z) = members l ys ls /\
  map (fun e => fst (fst e)) z = xs /\ map (fun e => snd (fst e)) z = ys /\ map snd z = ls.
Proof.
  revert ys ls. induction xs as [|x xs IH]; intros [|y ys] [|k ls] H1 H2; cbn in *; try discriminate; [auto|].
  injection H1 as H1. injection H2 as H2. destruct (IH ys ls H1 H2) as [I1 [I2 [I3 [I4 I5]]]].
  unfold members in *. cbn. rewrite I3, I4, I5. destruct (k =? l); cbn; rewrite I1, I2; auto.
Qed.

Lemma split_grouped xs ts ls fs tg : length xs = length ts -> length xs = length ls ->
  cluster_split xs (Some ts) ls = Ok (fs, tg) -> exists d, tg = Some d /\ grouped xs ls fs /\ grouped ts ls d.
Proof.
  intros H1 H2 E. unfold cluster_split in E. injection E as <- <-. eexists. split; [reflexivity|].
  set (z := combine (combine xs ts) ls).
  destruct (fold_grouped (fun e : row * R * nat => fst (fst e)) snd z []) as [A1 [A2 [A3 A4]]].
  destruct (fold_grouped (fun e : row * R * nat => snd (fst e)) snd z []) as [B1 [B2 [B3 B4]]].
  assert (C : map snd z = ls) by apply (combine3 xs ts ls 0 H1 H2).
  assert (C1 : map (fun e => fst (fst e)) z = xs) by apply (combine3 xs ts ls 0 H1 H2).
  assert (C2 : map (fun e => snd (fst e)) z = ts) by apply (combine3 xs ts ls 0 H1 H2).
  cbn zeta in *. rewrite C in A3, B3. rewrite C1 in A4. rewrite C2 in B4.
  split; (split; [|split; [|split]]).
  - intros l. rewrite A1. cbn. apply (combine3 xs ts ls l H1 H2).
  - apply A2. constructor.
  - intros l. rewrite A3. cbn. intuition.
  - exact A4.
  - intros l. rewrite B1. cbn. apply (combine3 xs ts ls l H1 H2).
  - apply B2. constructor.
  - intros l. rewrite B3. cbn. intuition.
  - exact B4.
Qed.

Lemma nearest_spec t all : forall cs i best,
  (forall j, j < length cs -> nth (i + j) all [] = nth j cs []) -> i + length cs = length all ->
  match best with None => i = 0 | Some b => fst b < i /\ snd b = distance t (nth (fst b) all []) /\
     (forall j, j < i -> (snd b <= distance t (nth j all []))%R) /\ (forall j, j < fst b -> (snd b < distance t (nth j all []))%R) end ->
  forall r, nearest t cs i best = Some r -> closest all t r.
Proof.
  induction cs as [|c cs IH]; intros i best HN HL HB r E; cbn [nearest] in E.
  - destruct best as [[b d]|]; [|discriminate]. cbn in *. injection E as <-. destruct HB as [B1 [B2 [B3 B4]]].
    rewrite Nat.add_0_r in HL. subst i. split; [lia|]. split; intros j Hj; rewrite <- B2; auto.
  - cbn [length] in HL. assert (Hc : nth i all [] = c) by (specialize (HN 0); cbn in HN; rewrite Nat.add_0_r in HN; apply HN; lia).
    apply IH in E; [exact E| |lia|].
    + intros j Hj. specialize (HN (S j)). rewrite Nat.add_succ_r in HN. apply HN. cbn. lia.
    + destruct best as [[b d]|].
      * destruct HB as [B1 [B2 [B3 B4]]]. cbn [fst snd] in *. destruct (Rltb (distance t c) d) eqn:L; cbn [fst snd].
        -- apply Rltb_true in L. split; [lia|]. rewrite Hc. split; [auto|]. split; intros j Hj.
           ++ destruct (Nat.eq_dec j i); [subst j; rewrite Hc; apply Rle_refl|]. assert (Hj' : j < i) by lia. specialize (B3 j Hj'). lra.
           ++ specialize (B3 j Hj). lra.
        -- apply Rltb_false in L. split; [lia|]. split; [auto|]. split; intros j Hj; [|auto].
           destruct (Nat.eq_dec j i); [subst j; rewrite Hc; auto|]. apply B3. lia.
      * subst i. cbn [fst snd]. split; [lia|]. rewrite Hc. split; [auto|]. split; intros j Hj; [|lia].
        assert (j = 0) by lia. subst j. rewrite Hc. apply Rle_refl.
Qed.

Lemma nearest_some t cs : forall i best, (cs <> [] \/ best <> None) -> exists r, nearest t cs i best = Some r.
Proof.
  induction cs as [|c cs IH]; intros i best H; cbn.
  - destruct best; [eexists; reflexivity|]. destruct H; congruence.
  - apply IH. right. destruct best as [[? ?]|]; cbn; [destruct (Rltb _ _)|]; discriminate.
Qed.

Lemma test_order_spec cs : forall ts o, test_order cs ts = Ok o -> Forall2 (closest cs) ts o.
Proof.
  induction ts as [|t ts IH]; intros o E; cbn [test_order] in E.
  - injection E as <-. constructor.
  - destruct (nearest t cs 0 None) as [i|] eqn:N; [|discriminate]. destruct (test_order cs ts) as [l|]; [|discriminate].
    cbn in E. injection E as <-. constructor; [|auto]. apply (nearest_spec t cs cs 0 None); auto.
Qed.

Lemma test_order_ok cs ts : cs <> [] -> exists o, test_order cs ts = Ok o.
Proof.
  intros H. induction ts as [|t ts [o IH]]; cbn [test_order]; [eexists; reflexivity|].
  destruct (nearest_some t cs 0 None) as [i ->]; [auto|]. rewrite IH. eexists. reflexivity.
Qed.

(** The training data are split by the labels of k-means and the test data by the nearest centroid, features and
    targets alike, with nothing lost. *)
Theorem clusters_partition : forall kmeans train target k test ttarget,
  let centroids := fst (kmeans train k) in
  let labels := snd (kmeans train k) in
  length target = length train -> length labels = length train -> length ttarget = length test -> centroids <> [] ->
  exists m trt tet, cluster_features kmeans train (Some target) k (Some test) (Some ttarget) = Ok m /\
    train_order m = labels /\ Forall2 (closest centroids) test (order_of_test m) /\
    train_target m = Some trt /\ test_target m = Some tet /\
    grouped train labels (train_features m) /\ grouped target labels trt /\
    grouped test (order_of_test m) (test_features m) /\ grouped ttarget (order_of_test m) tet.
Proof.
  intros kmeans train target k test ttarget centroids labels H1 H2 H3 H4. unfold cluster_features. fold centroids labels.
  destruct (cluster_split train (Some target) labels) as [[f t]|] eqn:E1; [|discriminate].
  destruct (split_grouped train target labels f t) as [d [-> [G1 G2]]]; [auto|auto|exact E1|]. cbn [bind].
  rewrite map_combine_fst by lia.
  destruct (test_order_ok centroids test H4) as [o Ho]. rewrite Ho. cbn [bind].
  pose proof (test_order_spec _ _ _ Ho) as F. pose proof (Forall2_length_eq F) as FL.
  destruct (cluster_split test (Some ttarget) o) as [[f' t']|] eqn:E2; [|discriminate].
  destruct (split_grouped test ttarget o f' t') as [d' [-> [G3 G4]]]; [auto|auto|exact E2|]. cbn [bind].
  exists (Clusters labels f (Some d) o f' (Some d')), d, d'. cbn. repeat split; try reflexivity; try apply G1; try apply G2; try apply G3; try apply G4; auto.
Qed.

Example clusters_case : exists m,
  cluster_features (fun _ _ => ([[0%R]; [10%R]], [0; 1; 0])) [[0%R]; [9%R]; [1%R]] (Some [1%R; 2%R; 3%R]) 2 (Some [[8%R]]) (Some [7%R]) = Ok m /\
  train_features m = [(0, [[0%R]; [1%R]]); (1, [[9%R]])].
Proof.
  destruct (test_order_ok [[0%R]; [10%R]] [[8%R]]) as [o H]; [discriminate|].
  unfold cluster_features. cbn [fst snd bind cluster_split combine map]. rewrite H. cbn. eexists. split; reflexivity.
Qed.

(** Without test data, or without test targets, the call always fails, although both are optional; without training
    targets it fails for any data. *)
Theorem cluster_optional_refuted : forall kmeans train target k,
  (forall test ttarget, test = None \/ ttarget = None -> exists e, cluster_features kmeans train target k test ttarget = Err e) /\
  (forall test ttarget, train <> [] -> snd (kmeans train k) <> [] -> cluster_features kmeans train None k test ttarget = Err ValueError).
Proof.
  intros. split.
  - intros test ttarget H. unfold cluster_features. destruct (cluster_split _ _ _) as [tr|e]; cbn [bind]; [|eauto].
    destruct test; [|eauto]. destruct ttarget; [|eauto]. destruct H; discriminate.
  - intros test ttarget H1 H2. unfold cluster_features, cluster_split. destruct train as [|x t]; [congruence|].
    destruct (snd (kmeans (x :: t) k)); [congruence|]. reflexivity.
Qed.

(** The 'cluster' acquisition never returns. *)
Theorem acquisition_cluster_refuted : forall kmeans train targets test predictions k,
  acquisition_cluster kmeans train targets test predictions k = Err TypeError.
Proof. reflexivity. Qed.

(** ** Sammon error *)
Definition some_apart (m : list row) : Prop := exists i j, j < i < length m /\ distance (nth i m []) (nth j m []) <> 0%R.
Definition preserved (a b : list row) : Prop :=
  forall i j, j < i < length a -> distance (nth i a []) (nth j a []) = distance (nth i b []) (nth j b []).
Definition scaled_by (c : R) (m : list row) : list row := map (map (Rmult c)) m.

Lemma distance_nonneg x y : (0 <= distance x y)%R.
Proof. apply sqrt_pos. Qed.

Lemma in_lower_pairs n i j : In (i, j) (lower_pairs n) <-> j < i < n.
Proof.
  unfold lower_pairs. rewrite in_concat. split.
  - intros [l [H1 H2]]. apply in_map_iff in H1. destruct H1 as [k [<- Hk]]. apply in_map_iff in H2. destruct H2 as [q [E Hq]].
    injection E as -> ->. apply in_seq in Hk, Hq. lia.
  - intros H. exists (map (pair i) (seq 0 i)). split; apply in_map_iff; eexists; (split; [reflexivity|]); apply in_seq; lia.
Qed.

Lemma combine_maps {A B C} (f : A -> B) (g : A -> C) l : combine (map f l) (map g l) = map (fun x => (f x, g x)) l.
Proof. induction l; cbn; [auto|]. f_equal. auto. Qed.

(** The distances of all pairs, in both sets. *)
Definition pair_list (a b : list row) : list (R * R) :=
  map (fun p => (distance (nth (fst p) a []) (nth (snd p) a []), distance (nth (fst p) b []) (nth (snd p) b []))) (lower_pairs (length a)).

Lemma pair_list_combine a b : length a = length b -> combine (lower_distances a) (lower_distances b) = pair_list a b.
Proof. intros H. unfold lower_distances. rewrite <- H. apply combine_maps. Qed.

Lemma pair_list_in a b q : In q (pair_list a b) <-> exists i j, j < i < length a /\
  q = (distance (nth i a []) (nth j a []), distance (nth i b []) (nth j b [])).
Proof.
  unfold pair_list. rewrite in_map_iff. split.
  - intros [[i j] [<- H]]. apply in_lower_pairs in H. exists i, j. auto.
  - intros [i [j [H ->]]]. exists (i, j). split; [auto|]. apply in_lower_pairs. auto.
Qed.

(** Total of the entries, when no infinite one is among them. *)
Lemma total_fin (l : list (R * R)) : (forall q, In q l -> fst q = 0%R -> snd q = 0%R) ->
  total (map (fun p => entry_error (fst p) (snd p)) l) = Fin (sumR (map (fun p => (fst p - snd p) ^ 2 / fst p)%R l)).
Proof.
  induction l as [|[o r] l IH]; intros H; [reflexivity|]. cbn [map total sumR fst snd]. rewrite IH by (intros; apply H; cbn; auto).
  unfold entry_error. destruct (Reqb o 0) eqn:E.
  - apply Reqb_true in E. subst o. pose proof (H (0%R, r) (or_introl eq_refl) eq_refl) as H0. cbn in H0. subst r. rewrite Reqb_refl.
    f_equal. f_equal. unfold Rdiv. ring.
  - reflexivity.
Qed.

Lemma total_inf (l : list (R * R)) q : In q l -> fst q = 0%R -> snd q <> 0%R ->
  total (map (fun p => entry_error (fst p) (snd p)) l) = Inf.
Proof.
  assert (NN : forall l, total (map (fun p : R * R => entry_error (fst p) (snd p)) l) <> NaN).
  { clear. induction l as [|[o r] l IH]; [discriminate|]. cbn. unfold entry_error. destruct (Reqb o 0); [destruct (Reqb r 0)|];
      destruct (total _); try congruence; discriminate. }
  induction l as [|[o r] l IH]; intros HI H1 H2; [destruct HI|]. cbn [map total fst snd]. destruct HI as [<-|HI].
  - cbn in H1, H2. subst o. unfold entry_error. rewrite Reqb_refl. apply Reqb_false in H2. rewrite H2.
    pose proof (NN l) as N. destruct (total _); congruence.
  - rewrite (IH HI H1 H2). unfold entry_error. destruct (Reqb o 0); [destruct (Reqb r 0)|]; reflexivity.
Qed.

Lemma sum_lower_zero a : sumR (lower_distances a) = 0%R <-> ~ some_apart a.
Proof.
  assert (P : forall x, In x (lower_distances a) -> (0 <= x)%R).
  { intros x H. unfold lower_distances in H. apply in_map_iff in H. destruct H as [p [<- _]]. apply distance_nonneg. }
  split.
  - intros H [i [j [Hij N]]]. apply N. apply (sumR_zero_all _ P H). unfold lower_distances. apply in_map_iff.
    exists (i, j). split; [auto|]. apply in_lower_pairs; auto.
  - intros H. assert (Z : forall x, In x (lower_distances a) -> x = 0%R).
    { intros x Hx. unfold lower_distances in Hx. apply in_map_iff in Hx. destruct Hx as [[i j] [<- Hp]]. apply in_lower_pairs in Hp.
      cbn [fst snd]. destruct (Req_dec (distance (nth i a []) (nth j a [])) 0) as [E|E]; [auto|]. exfalso. apply H. exists i, j. auto. }
    clear P. induction (lower_distances a) as [|x l IH]; [auto|]. cbn. rewrite (Z x), IH by (cbn; auto; intros; apply Z; cbn; auto). lra.
Qed.

Lemma sum_lower_pos a : some_apart a -> (0 < sumR (lower_distances a))%R.
Proof.
  intros H. assert (N : sumR (lower_distances a) <> 0%R) by (rewrite sum_lower_zero; auto).
  assert (P : (0 <= sumR (lower_distances a))%R).
  { apply sumR_nonneg. intros x Hx. unfold lower_distances in Hx. apply in_map_iff in Hx. destruct Hx as [p [<- _]]. apply distance_nonneg. }
  lra.
Qed.

Lemma quotient_nonneg o r : (0 <= o -> 0 <= (o - r) ^ 2 / o)%R.
Proof.
  intros H. destruct (Req_dec o 0) as [->|N]; [unfold Rdiv; rewrite Rinv_0; lra|].
  apply Rmult_le_pos; [apply pow2_ge_0|]. left. apply Rinv_0_lt_compat. lra.
Qed.

Lemma pair_list_nonneg a b q : In q (pair_list a b) -> (0 <= fst q /\ 0 <= snd q)%R.
Proof. rewrite pair_list_in. intros [i [j [_ ->]]]. split; apply distance_nonneg. Qed.

(** No two coincident points are apart in the other set. *)
Definition no_split (a b : list row) : Prop := forall i j, j < i < length a ->
  distance (nth i a []) (nth j a []) = 0%R -> distance (nth i b []) (nth j b []) = 0%R.

(** The error of sets of as many points: a weighted mean of the squared relative changes of distance. *)
Theorem sammons_error_value : forall a b, length a = length b -> some_apart a -> no_split a b ->
  sammons_error a b = Ok (Fin (sumR (map (fun p => (fst p - snd p) ^ 2 / fst p)%R (pair_list a b)) / sumR (map fst (pair_list a b)))%R).
Proof.
  intros a b HL HA HS. unfold sammons_error. rewrite HL, Nat.eqb_refl. cbn [negb]. rewrite pair_list_combine by auto.
  pose proof (sum_lower_pos a HA) as P. assert (E : Reqb (sumR (lower_distances a)) 0 = false) by (apply Reqb_false; lra). rewrite E.
  rewrite total_fin.
  - do 2 f_equal. replace (map fst (pair_list a b)) with (lower_distances a); [unfold Rdiv; ring|].
    unfold lower_distances, pair_list. rewrite map_map. reflexivity.
  - intros q Hq. apply pair_list_in in Hq. destruct Hq as [i [j [Hij ->]]]. apply HS. auto.
Qed.

(** It is never negative, and it is zero exactly if all distances are preserved. *)
Theorem sammons_error_zero_iff : forall a b, length a = length b -> some_apart a ->
  (forall x, sammons_error a b = Ok (Fin x) -> (0 <= x)%R) /\
  (sammons_error a b = Ok (Fin 0%R) <-> preserved a b).
Proof.
  intros a b HL HA. pose proof (sum_lower_pos a HA) as P.
  assert (EF : map fst (pair_list a b) = lower_distances a).
  { unfold lower_distances, pair_list. rewrite map_map. reflexivity. }
  assert (NS : forall x, sammons_error a b = Ok (Fin x) -> no_split a b).
  { intros x H i j Hij Z. destruct (Req_dec (distance (nth i b []) (nth j b [])) 0) as [E|E]; [auto|]. exfalso.
    unfold sammons_error in H. rewrite HL, Nat.eqb_refl in H. cbn [negb] in H. rewrite pair_list_combine in H by auto.
    rewrite (total_inf (pair_list a b) (distance (nth i a []) (nth j a []), distance (nth i b []) (nth j b []))) in H.
    - destruct (Reqb _ 0); discriminate.
    - apply pair_list_in. eauto.
    - exact Z.
    - exact E. }
  set (terms := map (fun p => (fst p - snd p) ^ 2 / fst p)%R (pair_list a b)).
  assert (TN : forall x, In x terms -> (0 <= x)%R).
  { intros x Hx. apply in_map_iff in Hx. destruct Hx as [q [<- Hq]]. apply quotient_nonneg. apply (pair_list_nonneg a b q Hq). }
  split.
  - intros x H. rewrite (sammons_error_value a b HL HA (NS x H)) in H. injection H as <-. rewrite EF. fold terms.
    apply Rmult_le_pos; [apply sumR_nonneg; auto|]. left. apply Rinv_0_lt_compat. auto.
  - split.
    + intros H. pose proof (NS _ H) as S0. rewrite (sammons_error_value a b HL HA S0) in H. rewrite EF in H. fold terms in H. injection H as H.
      assert (Z : sumR terms = 0%R).
      { apply (Rmult_eq_reg_r (/ sumR (lower_distances a))); [|apply Rinv_neq_0_compat; lra]. unfold Rdiv in H. rewrite H. ring. }
      intros i j Hij. destruct (Req_dec (distance (nth i a []) (nth j a [])) 0) as [E|E]; [rewrite (S0 i j Hij E); auto|].
      pose proof (sumR_zero_all _ TN Z ((distance (nth i a []) (nth j a []) - distance (nth i b []) (nth j b [])) ^ 2 / distance (nth i a []) (nth j a []))%R) as W.
      assert (I : In ((distance (nth i a []) (nth j a []) - distance (nth i b []) (nth j b [])) ^ 2 / distance (nth i a []) (nth j a []))%R terms).
      { apply in_map_iff. exists (distance (nth i a []) (nth j a []), distance (nth i b []) (nth j b [])). split; [reflexivity|]. apply pair_list_in. eauto. }
      specialize (W I). unfold Rdiv in W. apply Rmult_integral in W. destruct W as [W|W].
      * assert (V : forall u, (u ^ 2 = 0 -> u = 0)%R) by (intros u Hu; nra). apply V in W. lra.
      * exfalso. apply (Rinv_neq_0_compat _ E). auto.
    + intros H. assert (S0 : no_split a b) by (intros i j Hij Z; rewrite <- (H i j Hij); auto).
      rewrite (sammons_error_value a b HL HA S0). rewrite EF. fold terms. replace (sumR terms) with 0%R; [do 2 f_equal; unfold Rdiv; ring|].
      symmetry. unfold terms. rewrite (sumR_map_ext _ (fun _ => 0%R)); [rewrite sumR_map_const; ring|].
      intros q Hq. apply pair_list_in in Hq. destruct Hq as [i [j [Hij ->]]]. cbn [fst snd]. rewrite (H i j Hij). unfold Rdiv. ring.
Qed.

Lemma distance_scaled c x y : (0 <= c)%R -> distance (map (Rmult c) x) (map (Rmult c) y) = (c * distance x y)%R.
Proof.
  intros H. unfold distance. assert (S0 : sqrt (c ^ 2) = c) by (apply sqrt_pow2; auto).
  rewrite <- S0 at 3. rewrite <- sqrt_mult_alt by apply pow2_ge_0. f_equal.
  revert y. induction x as [|a x IH]; intros [|b y]; cbn [map combine sumR fst snd]; try ring. rewrite IH. ring.
Qed.

Lemma pair_list_scaled c a b : (0 <= c)%R -> length a = length b ->
  pair_list (scaled_by c a) (scaled_by c b) = map (fun q => (c * fst q, c * snd q)%R) (pair_list a b).
Proof.
  intros H HL. unfold pair_list, scaled_by. rewrite map_length, map_map. apply map_ext_in. intros [i j] Hp. apply in_lower_pairs in Hp.
  cbn [fst snd]. rewrite !(nth_map_lt _ _ _ []) by lia. rewrite !distance_scaled by auto. auto.
Qed.

(** A common change of units does not matter. *)
Theorem sammons_error_units : forall c a b, (0 < c)%R -> length a = length b -> some_apart a -> no_split a b ->
  sammons_error (scaled_by c a) (scaled_by c b) = sammons_error a b.
Proof.
  intros c a b Hc HL HA HS. pose proof (sum_lower_pos a HA) as P.
  assert (SD : forall m i j, j < i < length m -> distance (nth i (scaled_by c m) []) (nth j (scaled_by c m) []) = (c * distance (nth i m []) (nth j m []))%R).
  { intros m i j H. unfold scaled_by. rewrite !(nth_map_lt _ _ _ []) by lia. apply distance_scaled. lra. }
  assert (LS : forall m, length (scaled_by c m) = length m) by (intros; apply map_length).
  rewrite (sammons_error_value a b HL HA HS). rewrite sammons_error_value.
  - rewrite pair_list_scaled by (auto; lra). rewrite !map_map. cbn [fst snd].
    rewrite (sumR_map_ext _ (fun q => c * ((fst q - snd q) ^ 2 / fst q))%R).
    + rewrite !sumR_map_scal. assert (E : map (fun x : R * R => fst x) (pair_list a b) = lower_distances a) by (unfold lower_distances, pair_list; rewrite map_map; reflexivity).
      assert (E' : map fst (pair_list a b) = lower_distances a) by (unfold lower_distances, pair_list; rewrite map_map; reflexivity).
      rewrite ?E, ?E'. do 2 f_equal. field. split; apply Rgt_not_eq; lra.
    + intros q Hq. destruct (Req_dec (fst q) 0) as [E|E]; [|field; lra].
      apply pair_list_in in Hq. destruct Hq as [i [j [Hij ->]]]. cbn [fst snd] in *. rewrite E, (HS i j Hij E). unfold Rdiv. ring.
  - rewrite !LS. auto.
  - destruct HA as [i [j [H N]]]. exists i, j. rewrite LS. split; [auto|]. rewrite SD by auto. intros Z. apply Rmult_integral in Z. destruct Z; [lra|auto].
  - intros i j Hij Z. rewrite LS in Hij. rewrite SD in Z by auto. rewrite SD by lia. apply Rmult_integral in Z. destruct Z as [Z|Z]; [lra|].
    rewrite (HS i j Hij Z). ring.
Qed.

(** Coincident original points that are apart in the reduced set make the error infinite, and if all original points
    coincide it is not a number even if the reduced points coincide as well. *)
Theorem sammons_error_coincident_refuted : forall a b, length a = length b ->
  (~ no_split a b -> sammons_error a b = Ok Inf) /\
  (~ some_apart a -> preserved a b -> sammons_error a b = Ok NaN).
Proof.
  intros a b HL. unfold sammons_error. rewrite HL, Nat.eqb_refl. cbn [negb]. rewrite pair_list_combine by auto. split.
  - intros H.
    assert (X : exists q, In q (pair_list a b) /\ fst q = 0%R /\ snd q <> 0%R).
    { assert (D : forall l, (exists q : R * R, In q l /\ fst q = 0%R /\ snd q <> 0%R) \/ (forall q, In q l -> fst q = 0%R -> snd q = 0%R)).
      { clear. induction l as [|q l IH]; [right; intros q []|]. destruct IH as [[q' [I E]]|IH]; [left; exists q'; cbn; intuition|].
        destruct (Req_dec (fst q) 0) as [E|E]; [destruct (Req_dec (snd q) 0) as [F|F]|].
        - right. intros p [<-|Hp]; auto.
        - left. exists q. cbn. auto.
        - right. intros p [<-|Hp]; [congruence|auto]. }
      destruct (D (pair_list a b)) as [X|X]; [exact X|]. exfalso. apply H. intros i j Hij Z.
      apply (X (distance (nth i a []) (nth j a []), distance (nth i b []) (nth j b []))); [apply pair_list_in; eauto|exact Z]. }
    destruct X as [q [I [F S0]]]. rewrite (total_inf _ q I F S0). destruct (Reqb _ 0); reflexivity.
  - intros H1 H2. apply sum_lower_zero in H1. apply Reqb_true in H1. rewrite H1. apply Reqb_true in H1. apply sum_lower_zero in H1.
    assert (Z : forall q, In q (pair_list a b) -> fst q = 0%R /\ snd q = 0%R).
    { intros q Hq. apply pair_list_in in Hq. destruct Hq as [i [j [Hij ->]]]. cbn [fst snd].
      destruct (Req_dec (distance (nth i a []) (nth j a [])) 0) as [E|E]; [rewrite <- (H2 i j Hij); auto|]. exfalso. apply H1. exists i, j. auto. }
    rewrite total_fin by (intros q Hq _; apply (Z q Hq)).
    replace (sumR _) with 0%R; [rewrite Reqb_refl; reflexivity|]. symmetry.
    rewrite (sumR_map_ext _ (fun _ => 0%R)); [rewrite sumR_map_const; ring|]. intros q Hq. destruct (Z q Hq) as [-> ->]. unfold Rdiv. ring.
Qed.

Lemma distance1 x y : distance [x] [y] = Rabs (x - y).
Proof. unfold distance. cbn [combine map sumR fst snd]. rewrite Rplus_0_r. replace ((x - y) ^ 2)%R with (Rsqr (x - y)) by (unfold Rsqr; ring). apply sqrt_Rsqr_abs. Qed.

Example sammon_case : some_apart [[0%R]; [3%R]] /\ no_split [[0%R]; [3%R]] [[0%R]; [1%R]] /\ ~ preserved [[0%R]; [3%R]] [[0%R]; [1%R]] /\
  ~ no_split [[0%R]; [0%R]] [[0%R]; [1%R]].
Proof.
  assert (A3 : distance [3%R] [0%R] = 3%R) by (rewrite distance1, Rabs_right; lra).
  assert (A1 : distance [1%R] [0%R] = 1%R) by (rewrite distance1, Rabs_right; lra).
  assert (A0 : distance [0%R] [0%R] = 0%R) by (rewrite distance1, Rabs_right; lra).
  split; [|split; [|split]].
  - exists 1, 0. split; [cbn; lia|]. cbn [nth]. lra.
  - intros i j H. cbn [length] in H. assert (i = 1 /\ j = 0) as [-> ->] by lia. cbn [nth]. intros Z. lra.
  - intros H. specialize (H 1 0). cbn [nth length] in H. assert (L : 0 < 1 < 2) by lia. specialize (H L). lra.
  - intros H. specialize (H 1 0). cbn [nth length] in H. assert (L : 0 < 1 < 2) by lia. specialize (H L A0). lra.
Qed.

(** ** Pair distributions *)
(** The atoms that the average is over, and the atoms counted around them. *)
Definition centres (el : selection) (g : geometry) : list nat :=
  match el with Every => seq 0 (length (numbers g)) | One z => with_number z g | Two a _ => with_number a g end.
Definition others (el : selection) (g : geometry) : list nat :=
  match el with Two _ b => with_number b g | _ => seq 0 (length (numbers g)) end.
(** Sum of the cutoff radii of two atoms *)
Definition radius (cutoffs : option (nat -> option R)) (z : nat) : R :=
  match cutoffs with None => 0%R | Some f => match f z with Some r => r | None => 0%R end end.
Definition separation (cutoffs : option (nat -> option R)) (g : geometry) (i j : nat) : R :=
  (all_distances g true i j - radius cutoffs (nth j (numbers g) 0%nat) - radius cutoffs (nth i (numbers g) 0%nat))%R.
(** How many of the others, on average per centre, are at a separation with property [P]. *)
Definition neighbours (P : R -> bool) (cutoffs : option (nat -> option R)) (el : selection) (g : geometry) : R :=
  (INR (length (filter (fun p => P (separation cutoffs g (fst p) (snd p))) (list_prod (centres el g) (others el g)))) / INR (length (centres el g)))%R.
Definition average {A} (f : A -> R) (l : list A) : R := (sumR (map f l) / INR (length l))%R.
Definition inside (lo hi x : R) : bool := Rleb lo x && Rleb x hi.
Definition shell (lo hi : R) (bins i : nat) : R := (4 / 3 * PI * (edge lo hi bins (S i) ^ 3 - edge lo hi bins i ^ 3))%R.

Lemma map_seq_nth {A} (h : nat -> A) l : map (fun i => h (nth i l 0)) (seq 0 (length l)) = map h l.
Proof.
  rewrite <- (map_map (fun i => nth i l 0) h). f_equal. apply (list_ext_nth 0); rewrite map_length, seq_length; [auto|].
  intros i Hi. rewrite (nth_map_lt _ _ _ 0) by (rewrite seq_length; auto). rewrite seq_nth by auto. auto.
Qed.

Lemma radii_nth f zs l i : radii f zs = Ok l -> i < length zs -> nth i l 0%R = radius (Some f) (nth i zs 0).
Proof.
  revert l i. induction zs as [|z zs IH]; intros l i H Hi; cbn in H; [cbn in Hi; lia|].
  destruct (f z) as [r|] eqn:E; [|discriminate]. destruct (radii f zs) as [l'|]; [|discriminate]. cbn in H. injection H as <-.
  destruct i as [|i]; cbn [nth]; [unfold radius; rewrite E; auto|]. apply IH; [auto|]. cbn in Hi. lia.
Qed.

Lemma with_number_lt z g i : In i (with_number z g) -> i < length (numbers g).
Proof. unfold with_number. rewrite filter_In, in_seq. lia. Qed.

Lemma nth_in_or {l : list nat} i : i < length l -> In (nth i l 0) l.
Proof. apply nth_In. Qed.

(** The rows are the separations from each centre to the others. *)
Lemma distance_rows_spec mic el cut g rows : distance_rows mic el cut g = Ok rows ->
  rows = map (fun i => map (separation cut g i) (others el g)) (centres el g).
Proof.
  unfold distance_rows. intros H.
  set (a := match el with Two x y => if x =? y then subset (with_number x g) g else g | _ => g end) in *.
  match type of H with bind ?x _ = _ => destruct x as [c|] eqn:C; [|discriminate] end. cbn [bind] in H. injection H as <-.
  assert (N : forall i, i < length (numbers a) -> nth i c 0%R = radius cut (nth i (numbers a) 0)).
  { intros i Hi. destruct cut as [f|].
    - apply (radii_nth f (numbers a)); auto.
    - injection C as <-. rewrite (nth_map_lt _ _ _ 0) by auto. auto. }
  assert (G : forall rs cs, a = g -> (forall i, In i rs -> i < length (numbers g)) -> (forall i, In i cs -> i < length (numbers g)) ->
    map (fun i => map (fun j => (all_distances a true i j - nth j c 0 - nth i c 0)%R) cs) rs = map (fun i => map (separation cut g i) cs) rs).
  { intros rs cs E R1 C1. rewrite E in *. apply map_ext_in. intros i Hi. apply map_ext_in. intros j Hj. unfold separation. rewrite !N by auto. auto. }
  assert (SQ : forall i, In i (seq 0 (length (numbers g))) -> i < length (numbers g)) by (intros i Hi; apply in_seq in Hi; lia).
  destruct el as [|z|x y]; cbn [centres others]; cbn [fst snd].
  - apply G; auto.
  - apply G; auto. intros i. apply with_number_lt.
  - destruct (x =? y) eqn:E; cbn [fst snd].
    + apply Nat.eqb_eq in E. subst y. set (l := with_number x g) in *.
      assert (LN : length (numbers a) = length l) by (unfold a, subset; cbn; apply map_length). rewrite LN.
      rewrite <- (map_seq_nth (fun i => map (separation cut g i) l) l). apply map_ext_in. intros i Hi. apply in_seq in Hi.
      rewrite <- (map_seq_nth (separation cut g (nth i l 0)) l). apply map_ext_in. intros j Hj. apply in_seq in Hj.
      unfold separation. rewrite !N by lia. unfold a, subset. cbn [numbers all_distances]. rewrite !(nth_map_lt _ _ _ 0) by lia. auto.
    + apply G; auto; intros i; apply with_number_lt.
Qed.

Lemma histogram_length lo hi bins xs : length (histogram lo hi bins xs) = bins.
Proof. unfold histogram. rewrite map_length, seq_length. auto. Qed.

Lemma add_lists_length a b : length a = length b -> length (add_lists a b) = length a.
Proof. intros. unfold add_lists. rewrite map_length, combine_length. lia. Qed.

Lemma add_lists_nth a b i : length a = length b -> i < length a -> nth i (add_lists a b) 0%R = (nth i a 0 + nth i b 0)%R.
Proof. intros. unfold add_lists. rewrite (nth_map_lt _ _ _ (0, 0)%R) by (rewrite combine_length; lia). rewrite combine_nth by auto. auto. Qed.

Lemma histogram_nth lo hi bins xs i : i < bins -> nth i (histogram lo hi bins xs) 0%R = INR (length (filter (in_bin lo hi bins i) xs)).
Proof. intros. unfold histogram. rewrite (nth_map_lt _ _ _ 0) by (rewrite seq_length; auto). rewrite seq_nth by auto. auto. Qed.

Lemma fold_hist lo hi bins rows : forall acc, length acc = bins ->
  let r := fold_left (fun acc r => add_lists acc (histogram lo hi bins r)) rows acc in
  length r = bins /\ forall i, i < bins -> nth i r 0%R = (nth i acc 0 + INR (length (filter (in_bin lo hi bins i) (concat rows))))%R.
Proof.
  induction rows as [|x rows IH]; intros acc HL; cbn zeta; cbn [fold_left concat].
  - split; [auto|]. intros. cbn. ring.
  - destruct (IH (add_lists acc (histogram lo hi bins x))) as [I1 I2]; [rewrite add_lists_length; rewrite ?histogram_length; auto|].
    split; [exact I1|]. intros i Hi. rewrite I2 by auto. rewrite add_lists_nth by (rewrite ?histogram_length; lia).
    rewrite histogram_nth by auto. rewrite filter_app, app_length, plus_INR. ring.
Qed.

Lemma filter_rows {A} (P : R -> bool) (s : A -> A -> R) rs cs :
  length (filter P (concat (map (fun i => map (s i) cs) rs))) = length (filter (fun p => P (s (fst p) (snd p))) (list_prod rs cs)).
Proof.
  induction rs as [|r rs IH]; [auto|]. cbn [map concat list_prod]. rewrite !filter_app, !app_length, IH. f_equal. clear.
  induction cs as [|c cs IH]; [auto|]. cbn. destruct (P (s r c)); cbn; auto.
Qed.

Lemma neighbours_none P cut el g : centres el g = [] -> neighbours P cut el g = 0%R.
Proof. intros H. unfold neighbours. rewrite H. cbn. unfold Rdiv. ring. Qed.

Lemma accumulate_nth lo hi bins mic el cut images : forall pdf out, length pdf = bins ->
  accumulate lo hi bins mic el cut images pdf = Ok out ->
  length out = bins /\ forall i, i < bins -> nth i out 0%R = (nth i pdf 0 + sumR (map (neighbours (in_bin lo hi bins i) cut el) images))%R.
Proof.
  induction images as [|g images IH]; intros pdf out HL H; cbn [accumulate] in H.
  - injection H as <-. split; [auto|]. intros. cbn. ring.
  - destruct (distance_rows mic el cut g) as [rows|] eqn:E; [|discriminate]. cbn [bind] in H. apply distance_rows_spec in E.
    unfold distance_hist in H. destruct (length rows =? 0) eqn:Z.
    + apply Nat.eqb_eq in Z. rewrite E, map_length in Z. apply length_zero_iff_nil in Z. destruct (IH _ _ HL H) as [I1 I2].
      split; [auto|]. intros i Hi. rewrite I2 by auto. cbn [map sumR]. rewrite neighbours_none by auto. ring.
    + apply Nat.eqb_neq in Z. destruct (fold_hist lo hi bins rows (repeat 0%R bins)) as [F1 F2]; [apply repeat_length|]. cbn zeta in F1, F2.
      apply IH in H; [|rewrite add_lists_length; rewrite ?map_length; lia]. destruct H as [I1 I2]. split; [auto|]. intros i Hi.
      rewrite I2 by auto. rewrite add_lists_nth by (rewrite ?map_length; lia). rewrite (nth_map_lt _ _ _ 0%R) by lia. rewrite F2 by auto.
      rewrite nth_repeat_lt by auto. cbn [map sumR]. replace (neighbours (in_bin lo hi bins i) cut el g) with
        ((0 + INR (length (filter (in_bin lo hi bins i) (concat rows)))) / INR (length rows))%R; [ring|].
      rewrite Rplus_0_l. unfold neighbours. rewrite <- filter_rows. rewrite E at 2. rewrite map_length. rewrite E. reflexivity.
Qed.

Lemma edge_le lo hi bins i j : (lo < hi)%R -> 0 < bins -> i <= j -> (edge lo hi bins i <= edge lo hi bins j)%R.
Proof.
  intros H B L. unfold edge. apply Rplus_le_compat_l. apply Rmult_le_compat_r; [|apply le_INR; auto].
  apply Rmult_le_pos; [lra|]. left. apply Rinv_0_lt_compat, lt_0_INR; auto.
Qed.

Lemma edge_lt lo hi bins i : (lo < hi)%R -> 0 < bins -> (edge lo hi bins i < edge lo hi bins (S i))%R.
Proof.
  intros H B. unfold edge. rewrite S_INR. assert (0 < (hi - lo) / INR bins)%R; [|lra].
  apply Rmult_lt_0_compat; [lra|]. apply Rinv_0_lt_compat, lt_0_INR; auto.
Qed.

Lemma edge_0 lo hi bins : edge lo hi bins 0 = lo.
Proof. unfold edge. cbn. ring. Qed.

Lemma edge_last lo hi bins : 0 < bins -> edge lo hi bins bins = hi.
Proof. intros B. unfold edge. field. apply Rgt_not_eq, lt_0_INR. auto. Qed.

(** The bins partition the range. *)
Definition one (b : bool) : R := if b then 1%R else 0%R.
Lemma bins_partition lo hi bins x : (lo < hi)%R -> 0 < bins ->
  sumR (map (fun i => one (in_bin lo hi bins i x)) (seq 0 bins)) = one (inside lo hi x).
Proof.
  intros H B. destruct bins as [|n]; [lia|].
  assert (S0 : forall k, k <= n -> sumR (map (fun i => one (in_bin lo hi (S n) i x)) (seq 0 k)) = one (Rleb lo x && Rltb x (edge lo hi (S n) k))).
  { induction k as [|k IH]; intros Hk.
    - cbn [seq map sumR]. rewrite edge_0. destruct (Rleb lo x) eqn:E1; [|auto]. destruct (Rltb x lo) eqn:E2; [|auto].
      apply Rleb_true in E1. apply Rltb_true in E2. lra.
    - rewrite seq_S, map_app, sumR_app, IH by lia. cbn [map sumR plus]. unfold in_bin.
      assert (N : (S k =? S n) = false) by (apply Nat.eqb_neq; lia). rewrite N. cbn [andb]. rewrite orb_false_r.
      pose proof (edge_lt lo hi (S n) k H B) as L1. pose proof (edge_le lo hi (S n) 0 k H B ltac:(lia)) as L0. rewrite edge_0 in L0.
      destruct (Rleb lo x) eqn:E1; destruct (Rltb x (edge lo hi (S n) k)) eqn:E2; destruct (Rleb (edge lo hi (S n) k) x) eqn:E3;
      destruct (Rltb x (edge lo hi (S n) (S k))) eqn:E4; cbn [andb one]; try ring; exfalso;
      rewrite ?Rleb_true, ?Rleb_false, ?Rltb_true, ?Rltb_false in *; lra. }
  rewrite seq_S, map_app, sumR_app, S0 by lia. cbn [map sumR plus]. unfold in_bin. rewrite Nat.eqb_refl. cbn [andb].
  rewrite (edge_last lo hi (S n)) by lia. unfold inside.
  pose proof (edge_le lo hi (S n) 0 n H B ltac:(lia)) as L0. rewrite edge_0 in L0.
  pose proof (edge_lt lo hi (S n) n H B) as L1. rewrite edge_last in L1 by lia.
  destruct (Rleb lo x) eqn:E1; destruct (Rltb x (edge lo hi (S n) n)) eqn:E2; destruct (Rleb (edge lo hi (S n) n) x) eqn:E3;
  destruct (Rltb x hi) eqn:E4; destruct (Rleb x hi) eqn:E5; cbn [andb orb one]; try ring; exfalso;
  rewrite ?Rleb_true, ?Rleb_false, ?Rltb_true, ?Rltb_false in *; lra.
Qed.

Lemma count_sum {A} (P : A -> bool) l : INR (length (filter P l)) = sumR (map (fun x => one (P x)) l).
Proof. induction l as [|x l IH]; [auto|]. cbn [filter map sumR]. rewrite <- IH. destruct (P x); cbn [length one]; rewrite ?S_INR; ring. Qed.

Lemma sumR_swap {A B} (f : A -> B -> R) l m :
  sumR (map (fun a => sumR (map (f a) m)) l) = sumR (map (fun b => sumR (map (fun a => f a b) l)) m).
Proof.
  induction l as [|a l IH]; cbn [map sumR].
  - rewrite sumR_map_const. ring.
  - rewrite IH, <- sumR_map_plus. auto.
Qed.

Lemma neighbours_total lo hi bins cut el g : (lo < hi)%R -> 0 < bins ->
  sumR (map (fun i => neighbours (in_bin lo hi bins i) cut el g) (seq 0 bins)) = neighbours (inside lo hi) cut el g.
Proof.
  intros H B. unfold neighbours. rewrite (sumR_map_ext _ (fun i => / INR (length (centres el g)) *
    sumR (map (fun p => one (in_bin lo hi bins i (separation cut g (fst p) (snd p)))) (list_prod (centres el g) (others el g))))%R).
  - rewrite sumR_map_scal, sumR_swap. rewrite count_sum. unfold Rdiv. rewrite Rmult_comm. f_equal. apply sumR_map_ext. intros p _. apply bins_partition; auto.
  - intros i _. rewrite count_sum. unfold Rdiv. ring.
Qed.

(** [in_bin] in words: half-open bins of equal width, the last one closed. *)
Lemma in_bin_spec lo hi bins i x : in_bin lo hi bins i x = true <->
  (edge lo hi bins i <= x)%R /\ ((x < edge lo hi bins (S i))%R \/ (S i = bins /\ (x <= hi)%R)).
Proof. unfold in_bin. rewrite andb_true_iff, orb_true_iff, andb_true_iff, !Rleb_true, Rltb_true, Nat.eqb_eq. tauto. Qed.

(** Times the volume of its shell, each value of the pair distribution is the number of neighbours of a centre at
    that distance, averaged over the centres and the images; all together they count the neighbours in range. *)
Theorem pair_distribution_counts : forall images bins lo hi mic el pdf xs,
  (0 <= lo < hi)%R -> 0 < bins -> images <> [] -> pair_distribution images bins lo hi mic el = Ok (Some pdf, xs) ->
  length pdf = bins /\
  (forall i, i < bins -> (nth i pdf 0 * shell lo hi bins i)%R = average (neighbours (in_bin lo hi bins i) None el) images) /\
  sumR (map (fun i => nth i pdf 0 * shell lo hi bins i)%R (seq 0 bins)) = average (neighbours (inside lo hi) None el) images.
Proof.
  intros images bins lo hi mic el pdf xs [H0 H1] B NE E. unfold pair_distribution in E.
  destruct (accumulate lo hi bins mic el None images (repeat 0%R bins)) as [p|] eqn:A; [|discriminate]. cbn [bind] in E.
  apply accumulate_nth in A; [|apply repeat_length]. destruct A as [AL AN].
  assert (Z : (length images =? 0) = false) by (apply Nat.eqb_neq; destruct images; [congruence|discriminate]). rewrite Z in E.
  injection E as <- <-. rewrite map_length, combine_length, seq_length, AL, Nat.min_id. split; [auto|].
  assert (NP : (0 < INR (length images))%R) by (apply length_pos; auto).
  assert (EB : forall i, i < bins -> (nth i (map (fun q => snd q / (INR (length images) * 4 * PI * (edge lo hi bins (S (fst q)) ^ 3 - edge lo hi bins (fst q) ^ 3) / 3))%R (combine (seq 0 bins) p)) 0 * shell lo hi bins i)%R = average (neighbours (in_bin lo hi bins i) None el) images).
  { intros i Hi. rewrite (nth_map_lt _ _ _ (0%nat, 0%R)) by (rewrite combine_length, seq_length; lia).
    rewrite combine_nth by (rewrite seq_length; auto). rewrite seq_nth by auto. cbn [fst snd plus]. rewrite AN by auto. rewrite nth_repeat_lt by auto.
    rewrite Rplus_0_l. unfold average, shell. field.
    assert (P3 : (0 < edge lo hi bins (S i) ^ 3 - edge lo hi bins i ^ 3)%R).
    { pose proof (edge_lt lo hi bins i H1 B) as L. pose proof (edge_le lo hi bins 0 i H1 B ltac:(lia)) as L0. rewrite edge_0 in L0.
      set (u := edge lo hi bins i) in *. set (v := edge lo hi bins (S i)) in *. clearbody u v.
      replace (v ^ 3 - u ^ 3)%R with ((v - u) * (v * v + v * u + u * u))%R by ring. apply Rmult_lt_0_compat; nra. }
    pose proof PI_RGT_0. repeat split; apply Rgt_not_eq; auto. }
  split; [exact EB|]. rewrite (sumR_map_ext _ (fun i => / INR (length images) * sumR (map (neighbours (in_bin lo hi bins i) None el) images))%R).
  - rewrite sumR_map_scal, (sumR_swap (fun i g => neighbours (in_bin lo hi bins i) None el g)). unfold average, Rdiv. rewrite Rmult_comm. f_equal.
    apply sumR_map_ext. intros g _. apply neighbours_total; auto.
  - intros i Hi. apply in_seq in Hi. rewrite EB by lia. unfold average, Rdiv. ring.
Qed.

(** The same for the deviations from the sum of the cutoff radii, without volumes. *)
Theorem pair_deviation_counts : forall images cutoffs bins lo hi mic el pdf xs,
  (lo < hi)%R -> 0 < bins -> images <> [] -> pair_deviation images cutoffs bins lo hi mic el = Ok (Some pdf, xs) ->
  length pdf = bins /\
  (forall i, i < bins -> nth i pdf 0%R = average (neighbours (in_bin lo hi bins i) (Some cutoffs) el) images) /\
  sumR pdf = average (neighbours (inside lo hi) (Some cutoffs) el) images.
Proof.
  intros images cutoffs bins lo hi mic el pdf xs H1 B NE E. unfold pair_deviation in E.
  destruct (accumulate lo hi bins mic el (Some cutoffs) images (repeat 0%R bins)) as [p|] eqn:A; [|discriminate]. cbn [bind] in E.
  apply accumulate_nth in A; [|apply repeat_length]. destruct A as [AL AN].
  assert (Z : (length images =? 0) = false) by (apply Nat.eqb_neq; destruct images; [congruence|discriminate]). rewrite Z in E.
  injection E as <- <-. rewrite map_length. split; [auto|].
  assert (EB : forall i, i < bins -> nth i (map (fun x => x / INR (length images))%R p) 0%R = average (neighbours (in_bin lo hi bins i) (Some cutoffs) el) images).
  { intros i Hi. rewrite (nth_map_lt _ _ _ 0%R) by lia. rewrite AN by auto. rewrite nth_repeat_lt by auto. unfold average, Rdiv. ring. }
  split; [exact EB|]. set (q := map (fun x => x / INR (length images))%R p) in *.
  replace (sumR q) with (sumR (map (fun i => nth i q 0%R) (seq 0 bins))).
  - rewrite (sumR_map_ext _ (fun i => / INR (length images) * sumR (map (neighbours (in_bin lo hi bins i) (Some cutoffs) el) images))%R).
    + rewrite sumR_map_scal, (sumR_swap (fun i g => neighbours (in_bin lo hi bins i) (Some cutoffs) el g)). unfold average, Rdiv. rewrite Rmult_comm. f_equal.
      apply sumR_map_ext. intros g _. apply neighbours_total; auto.
    + intros i Hi. apply in_seq in Hi. rewrite EB by lia. unfold average, Rdiv. ring.
  - f_equal. apply (list_ext_nth 0%R).
    + rewrite map_length, seq_length. unfold q. rewrite map_length. auto.
    + intros i Hi. rewrite map_length, seq_length in Hi. rewrite (nth_map_lt _ _ _ 0) by (rewrite seq_length; auto). rewrite seq_nth by auto. auto.
Qed.

(** The positions returned are not the centres of the bins, but below them. *)
Theorem positions_refuted : forall lo hi bins i, (lo < hi)%R -> i < bins ->
  (nth i (positions lo hi bins) 0 < (edge lo hi bins i + edge lo hi bins (S i)) / 2)%R.
Proof.
  intros lo hi bins i H Hi. unfold positions. rewrite (nth_map_lt _ _ _ 0) by (rewrite seq_length; auto). rewrite seq_nth by auto. cbn [plus].
  rewrite edge_last by lia. rewrite edge_0. unfold edge. rewrite S_INR, plus_INR. cbn [INR].
  assert (B : (0 < INR bins)%R) by (apply lt_0_INR; lia). set (b := INR bins) in *. clearbody b.
  assert (L : ((hi - lo) / (b + 1) < (hi - lo) / b)%R).
  { unfold Rdiv. apply Rmult_lt_compat_l; [lra|]. apply Rinv_lt_contravar; nra. }
  lra.
Qed.

(** Turning the minimum image convention off has no effect, even where the direct distances differ. *)
Theorem mic_ignored_refuted : forall images cutoffs bins lo hi el,
  pair_distribution images bins lo hi false el = pair_distribution images bins lo hi true el /\
  pair_deviation images cutoffs bins lo hi false el = pair_deviation images cutoffs bins lo hi true el.
Proof.
  assert (A : forall lo hi bins el cut images pdf, accumulate lo hi bins false el cut images pdf = accumulate lo hi bins true el cut images pdf).
  { intros lo hi bins el cut images. induction images as [|g t IH]; intros pdf; [auto|]. cbn [accumulate].
    change (distance_rows false el cut g) with (distance_rows true el cut g). destruct (distance_rows true el cut g); cbn [bind]; [apply IH|auto]. }
  intros. unfold pair_distribution, pair_deviation. rewrite !A. auto.
Qed.

(** Images without the element still count in the average over images. *)
Theorem absent_element_refuted : forall images g bins lo hi mic z pdf xs,
  (0 <= lo < hi)%R -> 0 < bins -> images <> [] -> ~ In z (numbers g) ->
  pair_distribution images bins lo hi mic (One z) = Ok (Some pdf, xs) ->
  exists pdf', pair_distribution (images ++ [g]) bins lo hi mic (One z) = Ok (Some pdf', xs) /\
    forall i, i < bins -> nth i pdf' 0%R = (INR (length images) / (INR (length images) + 1) * nth i pdf 0)%R.
Proof.
  intros images g bins lo hi mic z pdf xs H0 B NE NZ E.
  assert (OK : forall im p, exists o, accumulate lo hi bins mic (One z) None im p = Ok o).
  { induction im as [|a im IH]; intros p; cbn; [eauto|]. apply IH. }
  assert (EX : exists pdf', pair_distribution (images ++ [g]) bins lo hi mic (One z) = Ok (Some pdf', xs)).
  { unfold pair_distribution in *. destruct (OK (images ++ [g]) (repeat 0%R bins)) as [o ->]. destruct (OK images (repeat 0%R bins)) as [o' O']. rewrite O' in E.
    cbn [bind] in *. assert (Z : (length (images ++ [g]) =? 0) = false) by (apply Nat.eqb_neq; rewrite app_length; cbn; lia). rewrite Z.
    destruct (length images =? 0); [discriminate|]. injection E as _ <-. eauto. }
  destruct EX as [pdf' E']. exists pdf'. split; [auto|]. intros i Hi.
  destruct (pair_distribution_counts _ _ _ _ _ _ _ _ H0 B NE E) as [_ [C _]].
  assert (NE' : images ++ [g] <> []) by (destruct images; discriminate).
  destruct (pair_distribution_counts _ _ _ _ _ _ _ _ H0 B NE' E') as [_ [C' _]]. specialize (C i Hi). specialize (C' i Hi).
  assert (SP : (0 < shell lo hi bins i)%R).
  { unfold shell. pose proof PI_RGT_0. pose proof (edge_lt lo hi bins i (proj2 H0) B) as L.
    pose proof (edge_le lo hi bins 0 i (proj2 H0) B ltac:(lia)) as L0. rewrite edge_0 in L0.
    set (u := edge lo hi bins i) in *. set (v := edge lo hi bins (S i)) in *. clearbody u v.
    assert (0 < v ^ 3 - u ^ 3)%R by (replace (v ^ 3 - u ^ 3)%R with ((v - u) * (v * v + v * u + u * u))%R by ring; apply Rmult_lt_0_compat; nra).
    apply Rmult_lt_0_compat; [nra|auto]. }
  assert (NP : (0 < INR (length images))%R) by (apply length_pos; auto).
  apply (Rmult_eq_reg_r (shell lo hi bins i)); [|lra]. rewrite C'.
  rewrite Rmult_assoc, C. unfold average. rewrite map_app, sumR_app, app_length, plus_INR. cbn [map sumR length INR].
  rewrite (neighbours_none _ _ (One z) g).
  - field. split; lra.
  - cbn [centres]. unfold with_number.
    match goal with |- ?l = [] => destruct l as [|x l'] eqn:F; [auto|] end. exfalso.
    assert (I : In x (x :: l')) by (cbn; auto). rewrite <- F in I. apply filter_In in I. destruct I as [I1 I2]. apply in_seq in I1. apply Nat.eqb_eq in I2.
    apply NZ. rewrite <- I2. apply nth_In. lia.
Qed.

(** An atom counts as its own neighbour whenever zero, less twice its radius, is in range: here for a lone atom in
    the default range of the deviations. *)
Theorem self_pair_refuted : forall g c z r bins, numbers g = [z] -> all_distances g true 0 0 = 0%R -> c z = Some r -> (0 <= 2 * r <= 1)%R -> 0 < bins ->
  exists pdf xs, pair_deviation [g] c bins (-1) 1 true Every = Ok (Some pdf, xs) /\ sumR pdf = 1%R.
Proof.
  intros g c z r bins N D C H B.
  assert (E : exists pdf xs, pair_deviation [g] c bins (-1) 1 true Every = Ok (Some pdf, xs)).
  { unfold pair_deviation, accumulate, distance_rows. rewrite N. cbn [radii]. rewrite C. cbn. eauto. }
  destruct E as [pdf [xs E]]. exists pdf, xs. split; [auto|].
  destruct (pair_deviation_counts [g] c bins (-1) 1 true Every pdf xs) as [_ [_ T]]; [lra|auto|discriminate|auto|].
  rewrite T. unfold average. cbn [map]. unfold neighbours, centres, others. rewrite N. cbn [length seq list_prod map app filter fst snd sumR INR].
  replace (inside (-1) 1 (separation (Some c) g 0 0)) with true; [cbn; field|].
  symmetry. unfold inside, separation, radius. rewrite N. cbn [nth]. rewrite C, D. apply andb_true_iff. rewrite !Rleb_true. lra.
Qed.

(** Two oxygen atoms at 1.2 *)
Definition o2 : geometry := Geom [8; 8] (fun _ i j => if i =? j then 0%R else (12 / 10)%R).
Example pair_distribution_case : exists pdf xs, pair_distribution [o2] 27 (3 / 10) 3 true (One 8) = Ok (Some pdf, xs) /\
  sumR (map (fun i => nth i pdf 0 * shell (3 / 10) 3 27 i)%R (seq 0 27)) = 1%R.
Proof.
  assert (E : exists pdf xs, pair_distribution [o2] 27 (3 / 10) 3 true (One 8) = Ok (Some pdf, xs)).
  { unfold pair_distribution, accumulate, distance_rows. cbn [bind]. eexists _, _. reflexivity. }
  destruct E as [pdf [xs E]]. exists pdf, xs. split; [auto|].
  destruct (pair_distribution_counts [o2] 27 (3 / 10) 3 true (One 8) pdf xs) as [_ [_ T]]; [lra|lia|discriminate|auto|].
  rewrite T. unfold average. cbn [map]. unfold neighbours. cbn [centres others o2 numbers with_number]. unfold with_number. cbn [numbers o2 length seq filter nth Nat.eqb list_prod map app fst snd].
  assert (I0 : inside (3 / 10) 3 (separation None o2 0 0) = false).
  { unfold inside, separation, o2, radius. cbn. apply andb_false_iff. left. apply Rleb_false. lra. }
  assert (I1 : inside (3 / 10) 3 (separation None o2 1 1) = false).
  { unfold inside, separation, o2, radius. cbn. apply andb_false_iff. left. apply Rleb_false. lra. }
  assert (I2 : inside (3 / 10) 3 (separation None o2 0 1) = true).
  { unfold inside, separation, o2, radius. cbn. apply andb_true_iff. rewrite !Rleb_true. lra. }
  assert (I3 : inside (3 / 10) 3 (separation None o2 1 0) = true).
  { unfold inside, separation, o2, radius. cbn. apply andb_true_iff. rewrite !Rleb_true. lra. }
  rewrite I0, I1, I2, I3. cbn. field.
Qed.

(** Two oxygen atoms at 9 whose images are at 1.2: with mic turned off the distribution is that of a molecule. *)
Definition o2_images : geometry := Geom [8; 8] (fun mic i j => if i =? j then 0%R else if mic then (12 / 10)%R else 9%R).
Example mic_case : pair_distribution [o2_images] 27 (3 / 10) 3 false (One 8) = pair_distribution [o2] 27 (3 / 10) 3 true (One 8).
Proof. reflexivity. Qed.

(** ** Correlation with the target *)
Lemma cauchy {A} (f g : A -> R) l : (sumR (map (fun x => f x * g x) l) ^ 2 <= sumR (map (fun x => f x ^ 2) l) * sumR (map (fun x => g x ^ 2) l))%R.
Proof.
  set (C := sumR (map (fun x => f x * g x)%R l)). set (B := sumR (map (fun x => g x ^ 2)%R l)). set (D := sumR (map (fun x => f x ^ 2)%R l)).
  assert (NB : (0 <= B)%R) by (apply sumR_nonneg; intros y Hy; apply in_map_iff in Hy; destruct Hy as [x [<- _]]; apply pow2_ge_0).
  assert (H : (0 <= sumR (map (fun x => (B * f x - C * g x) ^ 2) l))%R).
  { apply sumR_nonneg. intros y Hy. apply in_map_iff in Hy. destruct Hy as [x [<- _]]. apply pow2_ge_0. }
  rewrite (sumR_map_ext _ (fun x => B ^ 2 * f x ^ 2 + ((- 2 * B * C) * (f x * g x) + C ^ 2 * g x ^ 2))%R) in H by (intros; ring).
  rewrite !sumR_map_plus, !sumR_map_scal in H. fold B C D in H. destruct (Req_dec B 0) as [Z|Z].
  - assert (CZ : C = 0%R).
    { unfold C. rewrite (sumR_map_ext _ (fun _ => 0%R)); [rewrite sumR_map_const; ring|]. intros x Hx.
      assert (g x ^ 2 = 0)%R.
      { apply (sumR_zero_all (map (fun x => g x ^ 2)%R l)); [|exact Z|apply in_map_iff; eauto].
        intros y Hy. apply in_map_iff in Hy. destruct Hy as [w [<- _]]. apply pow2_ge_0. }
      assert (g x = 0)%R by nra. nra. }
    rewrite CZ, Z. lra.
  - assert (0 < B)%R by lra. assert (0 <= B * (D * B - C ^ 2))%R by nra. nra.
Qed.

Lemma ratio_bound a b c : (0 <= a -> 0 <= b -> a <> 0 -> b <> 0 -> c ^ 2 <= a * b -> -1 <= c / (sqrt a * sqrt b) <= 1)%R.
Proof.
  intros Ha Hb Na Nb H. assert (PA : (0 < sqrt a)%R) by (apply sqrt_lt_R0; lra). assert (PB : (0 < sqrt b)%R) by (apply sqrt_lt_R0; lra).
  assert (SA : (sqrt a * sqrt a = a)%R) by (apply sqrt_sqrt; auto). assert (SB : (sqrt b * sqrt b = b)%R) by (apply sqrt_sqrt; auto).
  set (s := (sqrt a * sqrt b)%R). assert (PS : (0 < s)%R) by (apply Rmult_lt_0_compat; auto).
  assert (SS : (s * s = a * b)%R) by (transitivity ((sqrt a * sqrt a) * (sqrt b * sqrt b))%R; [unfold s; ring|rewrite SA, SB; auto]).
  assert (C1 : (- s <= c <= s)%R) by (split; nra). unfold Rdiv. pose proof (Rinv_0_lt_compat s PS) as PI'.
  assert (SI : (s * / s = 1)%R) by (apply Rinv_r; lra). split; nra.
Qed.

Lemma sum_sq_nonneg {A} (f : A -> R) l : (0 <= sumR (map (fun x => f x ^ 2) l))%R.
Proof. apply sumR_nonneg. intros y Hy. apply in_map_iff in Hy. destruct Hy as [x [<- _]]. apply pow2_ge_0. Qed.

Lemma map_fst_combine {A B C} (f : A -> C) (x : list A) (y : list B) : length x = length y ->
  map f x = map (fun p => f (fst p)) (combine x y) .
Proof. intros H. rewrite <- (map_combine_fst x y) at 1 by lia. rewrite map_map. auto. Qed.
Lemma map_snd_combine {A B C} (f : B -> C) (x : list A) (y : list B) : length x = length y ->
  map f y = map (fun p => f (snd p)) (combine x y) .
Proof. intros H. rewrite <- (map_combine_snd x y) at 1 by lia. rewrite map_map. auto. Qed.

Lemma pearson_bound x y c : length x = length y -> pearson x y = Some c -> (-1 <= c <= 1)%R.
Proof.
  intros HL. unfold pearson. set (mx := mean x). set (my := mean y).
  rewrite (map_fst_combine (fun a => (a - mx) ^ 2)%R x y HL), (map_snd_combine (fun b => (b - my) ^ 2)%R x y HL).
  match goal with |- (if Reqb ?a 0 || Reqb ?b 0 then _ else _) = _ -> _ => destruct (Reqb a 0) eqn:E1; destruct (Reqb b 0) eqn:E2; cbn [orb]; try discriminate end.
  apply Reqb_false in E1, E2. intros H. injection H as <-. apply ratio_bound; auto.
  - apply (sum_sq_nonneg (fun p : R * R => fst p - mx)%R).
  - apply (sum_sq_nonneg (fun p : R * R => snd p - my)%R).
  - apply (cauchy (fun p : R * R => fst p - mx)%R (fun p => snd p - my)%R).
Qed.

Lemma ranks_length x : length (ranks x) = length x.
Proof. apply map_length. Qed.

Lemma kendall_bound x y c : kendall x y = Some c -> (-1 <= c <= 1)%R.
Proof.
  unfold kendall. match goal with |- (if Reqb ?a 0 || Reqb ?b 0 then _ else _) = _ -> _ => destruct (Reqb a 0) eqn:E1; destruct (Reqb b 0) eqn:E2; cbn [orb]; try discriminate end.
  apply Reqb_false in E1, E2. intros H. injection H as <-. apply ratio_bound; auto; try apply sum_sq_nonneg. apply cauchy.
Qed.

(** Affine changes of scale with positive slope. *)
Definition affine (m s : R) (x : list R) : list R := map (fun a => (a - m) / s)%R x.

Lemma pearson_affine m s x y : (0 < s)%R -> x <> [] -> length x = length y -> pearson (affine m s x) y = pearson x y.
Proof.
  intros Hs Nx HL. unfold pearson, affine. rewrite mean_affine by auto. set (mx := mean x). set (my := mean y).
  rewrite map_map. assert (E1 : sumR (map (fun a => ((a - m) / s - (mx - m) / s) ^ 2)%R x) = (/ s ^ 2 * sumR (map (fun a => (a - mx) ^ 2)%R x))%R).
  { rewrite <- sumR_map_scal. apply sumR_map_ext. intros. field. lra. }
  rewrite E1. assert (E2 : sumR (map (fun p => (fst p - (mx - m) / s) * (snd p - my))%R (combine (map (fun a => (a - m) / s)%R x) y)) =
    (/ s * sumR (map (fun p => (fst p - mx) * (snd p - my))%R (combine x y)))%R).
  { clearbody mx my. clear E1 Nx. rewrite <- sumR_map_scal. revert y HL. induction x as [|a x IH]; intros [|b y] HL; cbn in HL; try discriminate; [auto|].
    cbn [map combine sumR fst snd]. rewrite IH by lia. field. lra. }
  rewrite E2. set (X := sumR (map (fun a => (a - mx) ^ 2)%R x)) in *. set (Y := sumR (map (fun b => (b - my) ^ 2)%R y)).
  set (XY := sumR (map _ (combine x y))). assert (PX : (0 <= X)%R) by apply (sum_sq_nonneg (fun a => a - mx)%R).
  assert (PS : (0 < / s ^ 2)%R) by (apply Rinv_0_lt_compat, pow_lt; auto).
  assert (RZ : Reqb (/ s ^ 2 * X) 0 = Reqb X 0).
  { destruct (Reqb X 0) eqn:E; [apply Reqb_true in E; rewrite E, Rmult_0_r; apply Reqb_refl|]. apply Reqb_false in E. apply Reqb_false.
    intros Z. apply Rmult_integral in Z. destruct Z; [lra|auto]. }
  rewrite RZ. destruct (Reqb X 0) eqn:EX; [auto|]. destruct (Reqb Y 0) eqn:EY; [auto|]. cbn [orb]. f_equal.
  apply Reqb_false in EX, EY. assert (PY : (0 <= Y)%R) by apply (sum_sq_nonneg (fun a => a - my)%R).
  rewrite sqrt_mult by lra. replace (sqrt (/ s ^ 2)) with (/ s)%R.
  - assert (0 < sqrt X)%R by (apply sqrt_lt_R0; lra). assert (0 < sqrt Y)%R by (apply sqrt_lt_R0; lra). field. repeat split; lra.
  - replace (/ s ^ 2)%R with ((/ s) ^ 2)%R by (field; lra). rewrite sqrt_pow2; [auto|]. left. apply Rinv_0_lt_compat. auto.
Qed.

Lemma affine_lt m s a b : (0 < s)%R -> ((a - m) / s < (b - m) / s)%R <-> (a < b)%R.
Proof.
  intros Hs. pose proof (Rinv_0_lt_compat s Hs) as P. unfold Rdiv. split; intros H.
  - apply (Rmult_lt_reg_r (/ s)) in H; [lra|auto].
  - apply Rmult_lt_compat_r; [auto|lra].
Qed.

Lemma affine_ltb m s a b : (0 < s)%R -> Rltb ((a - m) / s) ((b - m) / s) = Rltb a b.
Proof.
  intros Hs. destruct (Rltb a b) eqn:E.
  - apply Rltb_true. apply affine_lt; auto. apply Rltb_true. auto.
  - apply Rltb_false. apply Rltb_false in E. apply Rnot_lt_le. intros C. apply affine_lt in C; lra.
Qed.

Lemma affine_eqb m s a b : (0 < s)%R -> Reqb ((a - m) / s) ((b - m) / s) = Reqb a b.
Proof.
  intros Hs. destruct (Reqb a b) eqn:E.
  - apply Reqb_true in E. subst. apply Reqb_refl.
  - apply Reqb_false in E. apply Reqb_false. intros C. apply E. apply (Rmult_eq_reg_r (/ s)) in C; [lra|]. apply Rinv_neq_0_compat. lra.
Qed.

Lemma filter_map_length {A B} (f : A -> B) (P : B -> bool) l : length (filter P (map f l)) = length (filter (fun x => P (f x)) l).
Proof. induction l as [|x l IH]; [auto|]. cbn. destruct (P (f x)); cbn; auto. Qed.

Lemma ranks_affine m s x : (0 < s)%R -> ranks (affine m s x) = ranks x.
Proof.
  intros Hs. unfold ranks, affine. rewrite map_map. apply map_ext. intros a. rewrite !filter_map_length.
  rewrite (filter_ext _ (fun b => Rltb b a)) by (intros; apply affine_ltb; auto).
  rewrite (filter_ext (fun b => Reqb ((b - m) / s) ((a - m) / s)) (fun b => Reqb b a)) by (intros; apply affine_eqb; auto). auto.
Qed.

Lemma sign_scaled s d : (0 < s)%R -> sign (d / s) = sign d.
Proof.
  intros Hs. pose proof (Rinv_0_lt_compat s Hs) as P. unfold sign, Rdiv.
  assert (A : Rltb 0 (d * / s) = Rltb 0 d).
  { destruct (Rltb 0 d) eqn:E; [apply Rltb_true in E; apply Rltb_true; nra|apply Rltb_false in E; apply Rltb_false; nra]. }
  assert (B : Rltb (d * / s) 0 = Rltb d 0).
  { destruct (Rltb d 0) eqn:E; [apply Rltb_true in E; apply Rltb_true; nra|apply Rltb_false in E; apply Rltb_false; nra]. }
  rewrite A, B. auto.
Qed.

Lemma kendall_affine m s x y : (0 < s)%R -> kendall (affine m s x) y = kendall x y.
Proof.
  intros Hs. unfold kendall. assert (L : length (affine m s x) = length x) by apply map_length. rewrite L.
  assert (E : forall p, In p (list_prod (seq 0 (length x)) (seq 0 (length x))) ->
    sign (nth (fst p) (affine m s x) 0 - nth (snd p) (affine m s x) 0)%R = sign (nth (fst p) x 0 - nth (snd p) x 0)%R).
  { intros [i j] Hp. apply in_prod_iff in Hp. destruct Hp as [Hi Hj]. apply in_seq in Hi, Hj. cbn [fst snd]. unfold affine.
    rewrite !(nth_map_lt _ _ _ 0%R) by lia. rewrite <- (sign_scaled s (nth i x 0 - nth j x 0)%R Hs). f_equal. field. lra. }
  set (ps := list_prod _ _) in *. clearbody ps.
  rewrite (sumR_map_ext (fun p => sign (nth (fst p) (affine m s x) 0 - nth (snd p) (affine m s x) 0) ^ 2)%R (fun p => sign (nth (fst p) x 0 - nth (snd p) x 0) ^ 2)%R) by (intros p Hp; rewrite (E p Hp); auto).
  rewrite (sumR_map_ext (fun p => sign (nth (fst p) (affine m s x) 0 - nth (snd p) (affine m s x) 0) * sign (nth (fst p) y 0 - nth (snd p) y 0))%R
    (fun p => sign (nth (fst p) x 0 - nth (snd p) x 0) * sign (nth (fst p) y 0 - nth (snd p) y 0))%R) by (intros p Hp; rewrite (E p Hp); auto).
  auto.
Qed.

Lemma coefficient_affine name f m s x y : coefficient name = Some f -> (0 < s)%R -> x <> [] -> length x = length y ->
  f (affine m s x) y = f x y /\ forall c, f x y = Some c -> (-1 <= c <= 1)%R.
Proof.
  intros H Hs Nx HL. unfold coefficient in H. destruct (String.eqb name "pearson"); [|destruct (String.eqb name "spearman"); [|destruct (String.eqb name "kendall"); [|discriminate]]];
  injection H as <-.
  - split; [apply pearson_affine; auto|]. intros c. apply pearson_bound. auto.
  - unfold spearman. rewrite ranks_affine by auto. split; [auto|]. intros c. apply pearson_bound. rewrite !ranks_length. auto.
  - split; [apply kendall_affine; auto|]. intros c. apply kendall_bound.
Qed.

(** One row per requested coefficient and one value per feature: the coefficient of the feature as given with the
    target, which the standardisation does not change, and which is between -1 and 1. *)
Theorem target_correlation_raw : forall train target names w, train <> [] -> rect w train -> length target = length train ->
  (forall n, In n names -> coefficient n <> None) ->
  exists out, target_correlation train target names = Ok out /\
    Forall2 (fun n r => exists f, coefficient n = Some f /\ r = map (fun j => f (col 0%R j train) target) (seq 0 w)) names out /\
    forall r c, In r out -> In (Some c) r -> (-1 <= c <= 1)%R.
Proof.
  intros train target names w NE RW HL HN. unfold target_correlation. rewrite HL, Nat.eqb_refl. cbn [negb]. eexists. split; [reflexivity|].
  set (data := s_train (standardize train None None None true)).
  assert (W : width train = w) by (destruct train as [|r t]; [congruence|]; inversion RW; auto).
  assert (CD : forall j, j < w -> exists m s, (0 < s)%R /\ col 0%R j data = affine m s (col 0%R j train)).
  { intros j Hj. unfold data, standardize, apply_scale. cbn [s_train stat_data].
    assert (L1 : length (axis0 0%R mean train) = w) by (unfold axis0; rewrite map_length, seq_length; auto).
    assert (L2 : length (axis0 0%R std train) = w) by (unfold axis0; rewrite map_length, seq_length; auto).
    rewrite (col_scale _ _ train w) by (auto; unfold place_one; rewrite map_length; auto).
    eexists _, _. split; [|reflexivity]. unfold place_one. rewrite (nth_map_lt _ _ _ 0%R) by lia.
    unfold axis0. rewrite (nth_map_lt _ _ _ 0) by (rewrite seq_length; lia). rewrite seq_nth by lia. cbn [plus].
    destruct (Reqb (std (col 0%R j train)) 0) eqn:E; [lra|]. apply Reqb_false in E.
    assert (0 <= std (col 0%R j train))%R by apply sqrt_pos. lra. }
  assert (WD : width data = w).
  { destruct train as [|r t]; [congruence|]. unfold data, standardize, apply_scale, width. cbn [s_train scale_matrix map hd stat_data].
    unfold width in W. cbn in W. rewrite scale_row_length; [auto| |]; unfold place_one, axis0, width; rewrite ?map_length, seq_length; cbn; auto. }
  rewrite WD.
  assert (CF : forall n f j, coefficient n = Some f -> j < w -> f (col 0%R j data) target = f (col 0%R j train) target /\
    forall c, f (col 0%R j train) target = Some c -> (-1 <= c <= 1)%R).
  { intros n f j Hf Hj. destruct (CD j Hj) as [m [s [Hs ->]]]. apply (coefficient_affine n); auto.
    - apply col_nonempty. auto.
    - unfold col. rewrite map_length. auto. }
  split.
  - clear HL. induction names as [|n names IH]; cbn [map]; [constructor|]. constructor; [|apply IH; intros; apply HN; cbn; auto].
    specialize (HN n (or_introl eq_refl)). destruct (coefficient n) as [f|] eqn:E; [|congruence]. exists f. split; [auto|].
    apply map_ext_in. intros j Hj. apply in_seq in Hj. apply (CF n f j E). lia.
  - intros r c Hr Hc. apply in_map_iff in Hr. destruct Hr as [n [<- Hn]]. destruct (coefficient n) as [f|] eqn:E; [|destruct Hc].
    apply in_map_iff in Hc. destruct Hc as [j [Hc Hj]]. apply in_seq in Hj. destruct (CF n f j E) as [F1 F2]; [lia|]. apply F2. rewrite <- F1. auto.
Qed.

Example target_correlation_case : exists out, target_correlation [[1%R; 5%R]; [2%R; 5%R]; [4%R; 0%R]] [1%R; 2%R; 3%R] ["pearson"; "spearman"; "kendall"] = Ok out /\ length out = 3.
Proof. eexists. split; reflexivity. Qed.

Print Assumptions clusters_partition.
Print Assumptions cluster_optional_refuted.
Print Assumptions acquisition_cluster_refuted.
Print Assumptions sammons_error_value.
Print Assumptions sammons_error_zero_iff.
Print Assumptions sammons_error_units.
Print Assumptions sammons_error_coincident_refuted.
Print Assumptions pair_distribution_counts.
Print Assumptions pair_deviation_counts.
Print Assumptions positions_refuted.
Print Assumptions mic_ignored_refuted.
Print Assumptions absent_element_refuted.
Print Assumptions self_pair_refuted.
Print Assumptions target_correlation_raw.
