(** Properties of distance_vec, the neighbour fingerprints of graph.py, the autocorrelation
    functions of molecule.py, the particle fingerprints and the convoluted fingerprints. *)
From Coq Require Import ZArith Reals String List Arith Bool Permutation Sorted Lia Lra.
From Verif Require Import Base BaseFacts RBase FeatModel PeriodicModel FingerModel FeatProperties PeriodicProperties FingerProperties.
Import ListNotations.
Local Open Scope nat_scope.

(** * Average distances *)
(** Positions of the atoms of an element, and their distances over ordered pairs of distinct
    atoms. *)
Definition positions_of (z : nat) (atoms : list (nat * point)) : list point :=
  map snd (filter (fun q => Nat.eqb (fst q) z) atoms).
Definition origin := Point 0 0 0.
Definition distinct_pairs (ps : list point) : list (point * point) :=
  flat_map (fun i => flat_map (fun j => if Nat.eqb i j then [] else [(nth i ps origin, nth j ps origin)]) (seq 0 (length ps))) (seq 0 (length ps)).
Definition pair_distances (ps : list point) : list R := map (fun q => norm_diff (fst q) (snd q)) (distinct_pairs ps).

Lemma flat_map_if {A B} (f : A -> bool) (g : A -> list B) l : flat_map (fun x => if f x then g x else []) l = flat_map g (filter f l).
Proof. induction l as [|x t IH]; cbn; [auto|]. destruct (f x); cbn; rewrite IH; auto. Qed.
Lemma flat_map_map {A B C} (f : A -> B) (g : B -> list C) l : flat_map g (map f l) = flat_map (fun x => g (f x)) l.
Proof. induction l; cbn; [auto|]. rewrite IHl. auto. Qed.
Lemma flat_map_ext_in {A B} (f g : A -> list B) l : (forall x, In x l -> f x = g x) -> flat_map f l = flat_map g l.
Proof. induction l as [|x t IH]; intros H; cbn; [auto|]. rewrite (H x), IH; auto; [intros; apply H; right; auto|left; auto]. Qed.
Lemma list_as_map {A} (l : list A) d : l = map (fun i => nth i l d) (seq 0 (length l)).
Proof. apply (list_ext_nth d); [rewrite map_length, seq_length; auto|]. intros i Hi. rewrite (nth_map_lt _ _ _ 0) by (rewrite seq_length; auto). rewrite seq_nth by auto. reflexivity. Qed.

Lemma element_pairs_positions z atoms :
  element_pairs z atoms = flat_map (fun a => flat_map (fun b => if all_differ a b then [(a, b)] else []) (positions_of z atoms)) (positions_of z atoms).
Proof.
  unfold element_pairs, positions_of. rewrite (flat_map_if (fun i => Nat.eqb (fst i) z)). rewrite flat_map_map. apply flat_map_ext_in. intros i _.
  rewrite flat_map_map. transitivity (flat_map (fun k => if Nat.eqb (fst k) z then (if all_differ (snd i) (snd k) then [(snd i, snd k)] else []) else []) atoms).
  - apply flat_map_ext_in. intros k _. destruct (Nat.eqb (fst k) z), (all_differ (snd i) (snd k)); reflexivity.
  - rewrite (flat_map_if (fun i => Nat.eqb (fst i) z)). reflexivity.
Qed.
Lemma all_differ_refl a : all_differ a a = false.
Proof. unfold all_differ. rewrite !Reqb_refl. reflexivity. Qed.
Lemma all_differ_true a b : all_differ a b = true <-> px a <> px b /\ py a <> py b /\ pz a <> pz b.
Proof. unfold all_differ. rewrite !andb_true_iff, !negb_true_iff, !Reqb_false. tauto. Qed.

(** With all coordinates of the atoms of an element different, the feature called distance is
    the reciprocal of the mean distance. *)
Theorem distance_reciprocal_refuted : forall z atoms, let ps := positions_of z atoms in
  2 <= length ps ->
  (forall i j, i < length ps -> j < length ps -> i <> j ->
     px (nth i ps origin) <> px (nth j ps origin) /\ py (nth i ps origin) <> py (nth j ps origin) /\ pz (nth i ps origin) <> pz (nth j ps origin)) ->
  (0 < mean (pair_distances ps))%R /\ one_distance z atoms = (/ mean (pair_distances ps))%R.
Proof.
  intros z atoms ps HL HD.
  assert (EP : element_pairs z atoms = distinct_pairs ps).
  { rewrite element_pairs_positions. fold ps. unfold distinct_pairs. rewrite (list_as_map ps origin) at 1. rewrite flat_map_map. apply flat_map_ext_in. intros i Hi. apply in_seq in Hi.
    rewrite (list_as_map ps origin) at 1. rewrite flat_map_map. apply flat_map_ext_in. intros j Hj. apply in_seq in Hj.
    destruct (Nat.eqb_spec i j) as [->|Hn]; [rewrite all_differ_refl; reflexivity|].
    replace (all_differ _ _) with true; [reflexivity|]. symmetry. apply all_differ_true, HD; lia. }
  unfold one_distance. rewrite EP. fold (pair_distances ps). unfold mean.
  assert (HPos : forall x, In x (pair_distances ps) -> (0 < x)%R).
  { intros x Hx. unfold pair_distances in Hx. apply in_map_iff in Hx as ([a b] & <- & Hq). unfold distinct_pairs in Hq. apply in_flat_map in Hq as (i & Hi & Hq).
    apply in_flat_map in Hq as (j & Hj & Hq). apply in_seq in Hi, Hj. destruct (Nat.eqb_spec i j); [destruct Hq|]. destruct Hq as [[= <- <-]|[]].
    destruct (HD i j) as (H1 & _ & _); [lia|lia|auto|]. cbn [fst snd]. unfold norm_diff. apply sqrt_lt_R0.
    assert (0 < (px (nth i ps origin) - px (nth j ps origin)) ^ 2)%R by (rewrite <- Rsqr_pow2; apply Rsqr_pos_lt; lra).
    pose proof (pow2_ge_0 (py (nth i ps origin) - py (nth j ps origin))). pose proof (pow2_ge_0 (pz (nth i ps origin) - pz (nth j ps origin))). lra. }
  assert (HNE : exists x l, pair_distances ps = x :: l).
  { unfold pair_distances, distinct_pairs. destruct ps as [|a [|b t]]; cbn in HL; try lia. cbn. eauto. }
  destruct HNE as (x & l & EX).
  assert (HS : (0 < sumR (pair_distances ps))%R).
  { rewrite EX. cbn [sumR]. assert (0 < x)%R by (apply HPos; rewrite EX; left; auto).
    assert (0 <= sumR l)%R by (apply sumR_nonneg; intros y Hy; apply Rlt_le, HPos; rewrite EX; right; auto). lra. }
  assert (HN : (0 < INR (length (distinct_pairs ps)))%R).
  { unfold pair_distances in EX. assert (length (distinct_pairs ps) = S (length l)) by (rewrite <- (map_length (fun q => norm_diff (fst q) (snd q))), EX; reflexivity). rewrite H, S_INR. pose proof (pos_INR (length l)). lra. }
  replace (length (pair_distances ps)) with (length (distinct_pairs ps)) by (unfold pair_distances; rewrite map_length; auto).
  split; [apply Rdiv_lt_0_compat; auto|]. destruct (Reqb (INR (length (distinct_pairs ps))) 0) eqn:E; [apply Reqb_true in E; lra|].
  field. lra.
Qed.
(** Atoms that agree in one coordinate are left out: zero for every element in a plane. *)
Theorem distance_planar_refuted : forall z atoms c,
  ((forall p, In (z, p) atoms -> px p = c) \/ (forall p, In (z, p) atoms -> py p = c) \/ (forall p, In (z, p) atoms -> pz p = c)) ->
  one_distance z atoms = 0%R.
Proof.
  intros z atoms c H. unfold one_distance. assert (E : element_pairs z atoms = []); [|rewrite E; cbn [length INR]; rewrite Reqb_refl; reflexivity].
  rewrite element_pairs_positions.
  assert (HP : forall p, In p (positions_of z atoms) -> In (z, p) atoms).
  { intros p Hp. unfold positions_of in Hp. apply in_map_iff in Hp as ([z' p'] & E & Hq). apply filter_In in Hq as [H1 H2]. cbn in E, H2. apply Nat.eqb_eq in H2. subst. auto. }
  assert (HF : forall a b, In a (positions_of z atoms) -> In b (positions_of z atoms) -> all_differ a b = false).
  { intros a b Ha Hb. destruct (all_differ a b) eqn:E; [|auto]. apply all_differ_true in E as (E1 & E2 & E3). apply HP in Ha, Hb.
    destruct H as [H|[H|H]]; [elim E1|elim E2|elim E3]; rewrite (H a), (H b); auto. }
  assert (G : forall l1 l2, (forall a b, In a l1 -> In b l2 -> all_differ a b = false) ->
    flat_map (fun a => flat_map (fun b => if all_differ a b then [(a, b)] else []) l2) l1 = []); [|apply G, HF].
  clear. intros l1 l2 HF. induction l1 as [|a t IH]; [reflexivity|]. cbn [flat_map].
  rewrite IH by (intros; apply HF; [right|]; auto). rewrite app_nil_r. assert (HA : forall b, In b l2 -> all_differ a b = false) by (intros; apply HF; [left|]; auto).
  clear - HA. induction l2 as [|b u IH]; [reflexivity|]. cbn. rewrite HA by (left; auto). apply IH. intros; apply HA; right; auto.
Qed.
(** Two atoms at distance 3: the feature is 1/3; on a common axis it is 0. *)
Example distance_case : one_distance 1 [(1, Point 0 0 0); (1, Point 2 1 2)] = (/ 3)%R /\ one_distance 1 [(1, Point 0 0 0); (1, Point 3 0 0)] = 0%R.
Proof.
  split.
  - rewrite (proj2 (distance_reciprocal_refuted 1 [(1, Point 0 0 0); (1, Point 2 1 2)] ltac:(cbn; lia) ltac:(intros [|[|]] [|[|]]; cbn; intros; try lia; repeat split; lra))).
    f_equal. unfold mean, pair_distances, distinct_pairs, norm_diff. cbn -[sqrt pow]. unfold px, py, pz.
    replace ((0 - 2) ^ 2 + (0 - 1) ^ 2 + (0 - 2) ^ 2)%R with (3 * 3)%R by ring. replace ((2 - 0) ^ 2 + (1 - 0) ^ 2 + (2 - 0) ^ 2)%R with (3 * 3)%R by ring. rewrite sqrt_square by lra. field.
  - apply (distance_planar_refuted _ _ 0). right; left. intros p [[= <-]|[[= <-]|[]]]; reflexivity.
Qed.

(** * Neighbour sums *)
Lemma somes_full l : length (somes l) <= length l.
Proof. induction l as [|[x|] l IH]; cbn; lia. Qed.
Lemma somes_all l : length (somes l) = length l <-> exists xs, l = map Some xs.
Proof.
  split.
  - induction l as [|[x|] l IH]; cbn; intros H; [exists []; auto| |].
    + destruct IH as [xs ->]; [lia|]. exists (x :: xs). reflexivity.
    + pose proof (somes_full l). lia.
  - intros (xs & ->). induction xs; cbn; auto.
Qed.
Lemma somes_map l : somes (map Some l) = l.
Proof. induction l; cbn; [auto|]. f_equal. auto. Qed.
Lemma somes_repeat k : somes (repeat None k) = [].
Proof. induction k; cbn; auto. Qed.
Lemma sort_down_perm a b : Permutation a b -> sort_down a = sort_down b.
Proof.
  intros H. unfold sort_down. rewrite (Permutation_length H), (Permutation_length (somes_perm _ _ H)). f_equal. do 2 f_equal.
  apply (@sorted_perm_unique R Rle); try apply sortedR; [intros; lra|intros; lra|].
  apply Permutation_trans with (somes a); [apply isort_perm|]. apply Permutation_trans with (somes b); [apply somes_perm; auto|apply Permutation_sym, isort_perm].
Qed.
Lemma rev_sorted l : StronglySorted Rle l -> StronglySorted Rge (rev l).
Proof.
  induction l as [|x t IH]; intros HS; cbn; [constructor|]. inversion HS as [|u w Hu Hw]; subst. specialize (IH Hu). rewrite Forall_forall in Hw.
  assert (G : forall l, (forall y, In y l -> (x <= y)%R) -> StronglySorted Rge l -> StronglySorted Rge (l ++ [x])).
  { induction l as [|y l IHl]; intros HL HS'; cbn; [constructor; constructor|]. inversion HS' as [|a b Ha Hb]; subst. constructor; [apply IHl; [intros; apply HL; right; auto|auto]|].
    apply Forall_app. split; [auto|]. constructor; [|constructor]. apply Rle_ge, HL. left; auto. }
  apply G; [intros y Hy; apply Hw, in_rev; auto|auto].
Qed.
Lemma sort_down_some l : exists b, sort_down (map Some l) = map Some b /\ StronglySorted Rge b /\ Permutation b l.
Proof.
  exists (rev (isort Rleb l)). unfold sort_down. rewrite somes_map, map_length, Nat.sub_diag. split; [reflexivity|]. split; [apply rev_sorted, sortedR|].
  apply Permutation_trans with (isort Rleb l); [apply Permutation_sym, Permutation_rev|apply isort_perm].
Qed.
Lemma isort_map_scale c l : (0 < c)%R -> isort Rleb (map (Rmult c) l) = map (Rmult c) (isort Rleb l).
Proof.
  intros Hc. apply (@sorted_perm_unique R Rle); try apply sortedR; [intros; lra|intros; lra| |].
  - pose proof (sortedR l) as HS. induction HS as [|x t HS IH HF]; cbn; constructor; auto. rewrite Forall_forall in *. intros y Hy. apply in_map_iff in Hy as (u & <- & Hu).
    apply Rmult_le_compat_l; [lra|auto].
  - apply Permutation_trans with (map (Rmult c) l); [apply isort_perm|apply Permutation_map, Permutation_sym, isort_perm].
Qed.
Lemma sort_down_scale c l : (0 < c)%R -> sort_down (map (omul c) l) = map (omul c) (sort_down l).
Proof.
  intros Hc. unfold sort_down. assert (ES : somes (map (omul c) l) = map (Rmult c) (somes l)) by (induction l as [|[x|] t IH]; cbn; [auto| |auto]; f_equal; auto).
  rewrite ES, !map_length, isort_map_scale by auto. rewrite map_app. f_equal.
  - generalize (length l - length (somes l)). intros k. induction k; cbn; [auto|]. f_equal. auto.
  - rewrite <- map_rev, !map_map. reflexivity.
Qed.

(** The largest neighbour shell. *)
Definition largest (n : nat) (shell : nat -> nat -> nat) (m : nat) : Prop :=
  (forall i j, i < n -> j < n -> shell i j <= m) /\ (m = 0 \/ exists i j, i < n /\ j < n /\ shell i j = m).
Lemma fold_max_spec l : forall a, a <= fold_left Nat.max l a /\ (forall x, In x l -> x <= fold_left Nat.max l a) /\ (fold_left Nat.max l a = a \/ In (fold_left Nat.max l a) l).
Proof.
  induction l as [|y t IH]; intros a; cbn [fold_left]; [split; [auto|split; [intros x []|auto]]|].
  destruct (IH (Nat.max a y)) as (H1 & H2 & H3). split; [lia|]. split.
  - intros x [<-|Hx]; [lia|auto].
  - destruct H3 as [H3|H3]; [|right; right; auto]. destruct (Nat.max_spec a y) as [[_ E]|[_ E]]; rewrite E in *; [right; left; auto|left; auto].
Qed.
Lemma max_shell_largest n shell : largest n shell (max_shell n shell).
Proof.
  unfold max_shell. set (l := flat_map (fun i => map (shell i) (seq 0 n)) (seq 0 n)).
  assert (HI : forall x, In x l <-> exists i j, i < n /\ j < n /\ shell i j = x).
  { intros x. unfold l. rewrite in_flat_map. split.
    - intros (i & Hi & Hx). apply in_map_iff in Hx as (j & <- & Hj). apply in_seq in Hi, Hj. exists i, j. repeat split; lia.
    - intros (i & j & Hi & Hj & <-). exists i. split; [apply in_seq; lia|]. apply in_map, in_seq. lia. }
  destruct (fold_max_spec l 0) as (_ & H2 & H3). split; [intros i j Hi Hj; apply H2, HI; eauto|].
  destruct H3 as [H3|H3]; [left; auto|right; apply HI; auto].
Qed.
Lemma largest_unique n shell m m' : largest n shell m -> largest n shell m' -> m = m'.
Proof.
  intros [H1 H2] [H3 H4]. assert (m <= m') by (destruct H2 as [->|(i & j & Hi & Hj & <-)]; [lia|auto]).
  assert (m' <= m) by (destruct H4 as [->|(i & j & Hi & Hj & <-)]; [lia|auto]). lia.
Qed.

(** What an atom receives from its neighbours: the values of the atoms in shell s weighted
    with m / s, where m is the outermost shell. *)
Definition received (shell : nat -> nat -> nat) (m : nat) (xs : list R) (i : nat) : R :=
  sumR (map (fun j => if Nat.eqb (shell i j) 0 then 0%R else (INR m / INR (shell i j) * nth j xs 0)%R) (seq 0 (length xs))).

Lemma con_entry_in n shell m i j : largest n shell m -> 0 < m -> i < n -> j < n ->
  con_entry n shell i j = Some (if Nat.eqb (shell i j) 0 then 0%R else (INR m / INR (shell i j))%R).
Proof.
  intros HM Hm Hi Hj. unfold con_entry. apply Nat.ltb_lt in Hi, Hj. rewrite Hi, Hj. cbn [andb].
  rewrite <- (largest_unique _ _ _ _ HM (max_shell_largest n shell)). destruct m; [lia|]. destruct (shell i j); reflexivity.
Qed.
Lemma con_entry_out n shell i j : n <= i \/ n <= j -> con_entry n shell i j = Some 0%R.
Proof. intros H. unfold con_entry. destruct (Nat.ltb_spec i n), (Nat.ltb_spec j n); cbn [andb]; auto; lia. Qed.
Lemma sum_zero {A} (f : A -> R) l : (forall x, In x l -> f x = 0%R) -> sumR (map f l) = 0%R.
Proof. intros H. rewrite (sumR_map_ext f (fun _ => 0%R)) by auto. rewrite sumR_map_const. ring. Qed.
Lemma sum_extend n L f : n <= L -> (forall j, n <= j -> f j = 0%R) -> sum_n L f = sum_n n f.
Proof.
  intros HL HF. unfold sum_n. replace L with (n + (L - n)) by lia. rewrite seq_app, map_app, sumR_app.
  rewrite (sum_zero f (seq (0 + n) (L - n))); [ring|]. intros x Hx. apply in_seq in Hx. apply HF. lia.
Qed.

Lemma graph_row_inside L shell m xs i : largest (length xs) shell m -> 0 < m -> length xs <= L -> i < length xs ->
  graph_row L (length xs) shell (map Some xs) i = Some (received shell m xs i).
Proof.
  intros HM Hm HL Hi. unfold graph_row. rewrite somes_map, map_length, Nat.eqb_refl, andb_true_r.
  replace (forallb _ _) with true.
  2: { symmetry. apply forallb_forall. intros c Hc. apply in_map_iff in Hc as (j & <- & _).
       destruct (Nat.lt_ge_cases j (length xs)); [rewrite (con_entry_in _ _ m); auto|rewrite con_entry_out; auto]. }
  f_equal. rewrite (sum_extend (length xs)); [|auto|].
  - unfold sum_n, received. apply sumR_map_ext. intros j Hj. apply in_seq in Hj. rewrite (con_entry_in _ _ m) by (auto; lia). unfold prop_entry.
    destruct (Nat.eqb (shell i j) 0); [ring|reflexivity].
  - intros j Hj. rewrite con_entry_out by auto. unfold prop_entry. ring.
Qed.
Lemma graph_row_outside L n shell xs i : n <= i -> graph_row L n shell (map Some xs) i = Some 0%R.
Proof.
  intros Hi. unfold graph_row. rewrite somes_map, map_length, Nat.eqb_refl, andb_true_r.
  replace (forallb _ _) with true by (symmetry; apply forallb_forall; intros c Hc; apply in_map_iff in Hc as (j & <- & _); rewrite con_entry_out; auto).
  f_equal. unfold sum_n. apply sum_zero. intros j _. rewrite con_entry_out by auto. ring.
Qed.
Lemma graph_row_isolated L n shell props i : largest n shell 0 -> n <= L -> i < n -> graph_row L n shell props i = None.
Proof.
  intros HM HL Hi. unfold graph_row. replace (forallb _ _) with false; [reflexivity|]. symmetry. apply not_true_is_false. intros H. rewrite forallb_forall in H.
  assert (E : con_entry n shell i i = None).
  { unfold con_entry. apply Nat.ltb_lt in Hi. rewrite Hi. cbn [andb]. rewrite (largest_unique _ _ _ _ (max_shell_largest n shell) HM). reflexivity. }
  specialize (H (con_entry n shell i i)). rewrite E in H. discriminate H. rewrite <- E. apply in_map, in_seq. lia.
Qed.
Lemma graph_row_unknown L n shell props i : length (somes props) <> length props -> graph_row L n shell props i = None.
Proof. intros H. unfold graph_row. apply Nat.eqb_neq in H. rewrite H, andb_false_r. reflexivity. Qed.

(** The features of one parameter. *)
Inductive neighbor_block (L : nat) (shell : nat -> nat -> nat) (cells : list (option R)) : list (option R) -> Prop :=
| BlockKnown xs m b : cells = map Some xs -> largest (length xs) shell m -> 0 < m -> StronglySorted Rge b ->
    Permutation b (map (received shell m xs) (seq 0 (length xs)) ++ repeat 0%R (L - length xs)) -> neighbor_block L shell cells (map Some b)
| BlockIsolated xs : cells = map Some xs -> largest (length xs) shell 0 ->
    neighbor_block L shell cells (repeat None (length xs) ++ repeat (Some 0%R) (L - length xs))
| BlockUnknown : In None cells -> neighbor_block L shell cells (repeat None L).

Lemma map_const_seq {A} (f : nat -> A) c a k : (forall i, a <= i -> f i = c) -> map f (seq a k) = repeat c k.
Proof. revert a. induction k as [|k IH]; intros a H; cbn; [auto|]. rewrite H, IH; auto. intros; apply H; lia. Qed.
Lemma map_seq_split {A} (f : nat -> A) n L : n <= L -> map f (seq 0 L) = (map f (seq 0 n) ++ map f (seq n (L - n)))%list.
Proof. intros H. replace L with (n + (L - n)) at 1 by lia. rewrite seq_app, map_app. reflexivity. Qed.

Lemma block_spec L shell cells : length cells <= L ->
  neighbor_block L shell cells (sort_down (map (graph_row L (length cells) shell cells) (seq 0 L))).
Proof.
  intros HL. destruct (Nat.eq_dec (length (somes cells)) (length cells)) as [HK|HK].
  - apply somes_all in HK as (xs & ->). rewrite map_length in *. pose proof (max_shell_largest (length xs) shell) as HM.
    rewrite (map_seq_split _ (length xs)) by auto. rewrite (map_const_seq _ (Some 0%R) (length xs)) by (intros; apply graph_row_outside; auto).
    destruct (max_shell (length xs) shell) as [|m'] eqn:EM.
    + assert (E : map (graph_row L (length xs) shell (map Some xs)) (seq 0 (length xs)) = repeat None (length xs)).
      { replace (repeat None (length xs)) with (map (fun _ : nat => @None R) (seq 0 (length xs))) by (apply map_const_seq; auto).
        apply map_ext_in. intros i Hi. apply in_seq in Hi. apply graph_row_isolated; auto. lia. }
      rewrite E. replace (sort_down _) with (repeat (@None R) (length xs) ++ repeat (Some 0%R) (L - length xs)); [apply BlockIsolated; auto|].
      unfold sort_down. rewrite somes_app, somes_repeat. cbn [List.app]. rewrite app_length, !repeat_length.
      assert (ES : somes (repeat (Some 0%R) (L - length xs)) = repeat 0%R (L - length xs)) by (generalize (L - length xs); intros k; induction k; cbn; [auto|f_equal; auto]).
      rewrite ES, repeat_length. replace (length xs + (L - length xs) - (L - length xs)) with (length xs) by lia. f_equal.
      assert (EI : isort Rleb (repeat 0%R (L - length xs)) = repeat 0%R (L - length xs)).
      { apply (@sorted_perm_unique R Rle); try apply sortedR; [intros; lra|intros; lra| |apply isort_perm]. generalize (L - length xs). intros k. induction k; cbn; constructor; auto.
        apply Forall_forall. intros y Hy. apply repeat_spec in Hy. lra. }
      rewrite EI. assert (ER : forall k, rev (repeat 0%R k) = repeat 0%R k).
      { intros k. assert (G : forall k, (repeat 0 k ++ [0] = 0 :: repeat 0 k)%R) by (induction k0; cbn; [auto|f_equal; auto]). induction k; cbn; [auto|]. rewrite IHk. apply G. }
      rewrite ER. generalize (L - length xs). intros k. induction k; cbn; [auto|f_equal; auto].
    + assert (E : map (graph_row L (length xs) shell (map Some xs)) (seq 0 (length xs)) = map Some (map (received shell (S m') xs) (seq 0 (length xs)))).
      { rewrite map_map. apply map_ext_in. intros i Hi. apply in_seq in Hi. apply graph_row_inside; auto; lia. }
      rewrite E. replace (repeat (Some 0%R) (L - length xs)) with (map Some (repeat 0%R (L - length xs))) by (generalize (L - length xs); intros k; induction k; cbn; [auto|f_equal; auto]).
      rewrite <- map_app. destruct (sort_down_some (map (received shell (S m') xs) (seq 0 (length xs)) ++ repeat 0%R (L - length xs))) as (b & -> & H1 & H2).
      eapply BlockKnown; eauto. lia.
  - rewrite (map_const_seq _ None) by (intros; apply graph_row_unknown; auto).
    replace (sort_down (repeat None L)) with (repeat (@None R) L).
    + apply BlockUnknown. clear - HK. induction cells as [|[x|] t IH]; cbn in *; [lia|right; apply IH; lia|left; auto].
    + unfold sort_down. rewrite somes_repeat, repeat_length. cbn. rewrite Nat.sub_0_r, app_nil_r. reflexivity.
Qed.

Lemma atom_props_known data zs p cells : atom_props data zs p = Ok cells -> cells = map (known data p) zs.
Proof. apply plist_known. Qed.

(** neighbor_sum_vec: for each parameter, in order, what each atom receives from its
    neighbours in decreasing order, padded with zeros; a missing value of one atom makes all
    of them missing, and so do isolated atoms if there are no neighbours at all. *)
Theorem neighbor_sum_features : forall data L params zs shell,
  (L < length zs -> neighbor_sum_vec data L params zs shell = Err ValueError) /\
  (forall v, neighbor_sum_vec data L params zs shell = Ok v ->
     exists blocks, v = concat blocks /\ Forall2 (fun p b => length b = L /\ neighbor_block L shell (map (known data p) zs) b) params blocks).
Proof.
  intros data L params zs shell. unfold neighbor_sum_vec, neighbor_vec. split.
  - intros H. apply Nat.ltb_lt in H. rewrite H. reflexivity.
  - intros v. destruct (Nat.ltb_spec L (length zs)) as [|HL]; [discriminate|].
    match goal with |- bind ?x _ = _ -> _ => destruct x as [blocks|] eqn:E end; cbn [bind]; [|discriminate]. intros [= <-]. exists blocks. split; [auto|].
    apply mapM_spec in E. induction E as [|p b ps bs H1 H2 IH]; constructor; auto.
    destruct (atom_props data zs p) as [cells|] eqn:EA; cbn [bind] in H1; [|discriminate]. injection H1 as <-. apply atom_props_known in EA as ->.
    split.
    + unfold sort_down. rewrite app_length, repeat_length, !map_length, rev_length, (Permutation_length (isort_perm _ _)), seq_length.
      match goal with |- L - length (somes ?l) + _ = _ => pose proof (somes_full l) as HS; rewrite map_length, seq_length in HS end. lia.
    + pose proof (block_spec L shell (map (known data p) zs)) as HB. rewrite map_length in HB. apply HB. auto.
Qed.
(** neighbor_mean_vec divides these sums by the length of the largest structure, not by the
    number of neighbours: padding changes the features. *)
Theorem neighbor_mean_refuted : forall data L params zs shell, 0 < L ->
  neighbor_mean_vec data L params zs shell = bind (neighbor_sum_vec data L params zs shell) (fun v => Ok (map (omul (/ INR L)) v)).
Proof.
  intros data L params zs shell HL. unfold neighbor_mean_vec, neighbor_sum_vec, neighbor_vec. destruct (L <? length zs); [reflexivity|].
  assert (HP : (0 < / INR L)%R) by (apply Rinv_0_lt_compat, lt_0_INR; auto).
  assert (E : forall ps, mapM (fun p => bind (atom_props data zs p) (fun props => Ok (sort_down (map (fun i => omul (/ INR L) (graph_row L (length zs) shell props i)) (seq 0 L))))) ps =
    bind (mapM (fun p => bind (atom_props data zs p) (fun props => Ok (sort_down (map (fun i => graph_row L (length zs) shell props i) (seq 0 L))))) ps) (fun bs => Ok (map (map (omul (/ INR L))) bs))).
  { induction ps as [|p ps IH]; cbn [mapM bind map]; [auto|]. destruct (atom_props data zs p) as [props|e]; cbn [bind]; [|reflexivity]. rewrite IH.
    match goal with |- context [mapM ?g ps] => destruct (mapM g ps) as [bs|e] end; cbn [bind map]; [|reflexivity]. do 2 f_equal.
    rewrite <- sort_down_scale by auto. rewrite map_map. reflexivity. }
  rewrite E. match goal with |- bind (bind ?x _) _ = _ => destruct x as [bs|e] end; cbn [bind]; [|reflexivity]. f_equal. rewrite concat_map. reflexivity.
Qed.

(** Both do not depend on the order of atoms. *)
Lemma mapM_succeeds {A B} (f : A -> result B) l : (exists r, mapM f l = Ok r) <-> forall x, In x l -> exists y, f x = Ok y.
Proof.
  split.
  - intros (r & H). apply mapM_spec in H. induction H as [|x y l r H1 H2 IH]; intros z Hz; [destruct Hz|]. destruct Hz as [<-|Hz]; eauto.
  - induction l as [|x t IH]; intros H; cbn; [eauto|]. destruct (H x) as (y & ->); [left; auto|]. destruct IH as (r & ->); [intros; apply H; right; auto|]. cbn. eauto.
Qed.
Definition picked {A} (p : list nat) (l : list A) (d : A) : list A := map (fun i => nth i l d) p.
Lemma picked_perm {A} p (l : list A) d : Permutation p (seq 0 (length l)) -> Permutation (picked p l d) l.
Proof. intros H. unfold picked. apply Permutation_trans with (map (fun i => nth i l d) (seq 0 (length l))); [apply Permutation_map, H|]. rewrite <- (list_as_map l d). apply Permutation_refl. Qed.
Lemma perm_lt p n i : Permutation p (seq 0 n) -> i < n -> nth i p 0 < n.
Proof.
  intros H Hi. assert (HI : In (nth i p 0) p) by (apply nth_In; rewrite (Permutation_length H), seq_length; auto).
  apply (Permutation_in _ H) in HI. apply in_seq in HI. lia.
Qed.
Lemma perm_surj p n i : Permutation p (seq 0 n) -> i < n -> exists k, k < n /\ nth k p 0 = i.
Proof.
  intros H Hi. assert (HI : In i p) by (apply (Permutation_in _ (Permutation_sym H)), in_seq; lia). apply (In_nth _ _ 0) in HI as (k & Hk & E).
  rewrite (Permutation_length H), seq_length in Hk. eauto.
Qed.

Lemma largest_relabel p n shell m : Permutation p (seq 0 n) -> largest n shell m -> largest n (fun i j => shell (nth i p 0) (nth j p 0)) m.
Proof.
  intros HP [H1 H2]. split; [intros i j Hi Hj; apply H1; eapply perm_lt; eauto|]. destruct H2 as [->|(i & j & Hi & Hj & E)]; [left; auto|right].
  destruct (perm_surj p n i HP Hi) as (a & Ha & Ea). destruct (perm_surj p n j HP Hj) as (b & Hb & Eb). exists a, b. rewrite Ea, Eb. auto.
Qed.
Lemma received_relabel p xs shell m i : Permutation p (seq 0 (length xs)) -> i < length xs ->
  received (fun i j => shell (nth i p 0) (nth j p 0)) m (picked p xs 0%R) i = received shell m xs (nth i p 0).
Proof.
  intros HP Hi. unfold received. assert (HL : length p = length xs) by (rewrite (Permutation_length HP), seq_length; auto).
  unfold picked. rewrite map_length, HL.
  transitivity (sumR (map (fun k => if Nat.eqb (shell (nth i p 0) k) 0 then 0%R else (INR m / INR (shell (nth i p 0%nat) k) * nth k xs 0)%R) p)).
  - transitivity (sumR (map (fun k => if Nat.eqb (shell (nth i p 0) k) 0 then 0%R else (INR m / INR (shell (nth i p 0%nat) k) * nth k xs 0)%R) (map (fun j => nth j p 0) (seq 0 (length p))))); [|rewrite <- (list_as_map p 0); reflexivity].
    rewrite map_map, HL. apply sumR_map_ext. intros j Hj. apply in_seq in Hj.
    destruct (Nat.eqb (shell (nth i p 0) (nth j p 0)) 0); [auto|]. rewrite (nth_map_lt _ _ _ 0) by lia. reflexivity.
  - apply sumR_perm, Permutation_map, HP.
Qed.

Lemma block_relabel L shell cells p : length cells <= L -> Permutation p (seq 0 (length cells)) ->
  sort_down (map (graph_row L (length cells) (fun i j => shell (nth i p 0) (nth j p 0)) (picked p cells None)) (seq 0 L)) =
  sort_down (map (graph_row L (length cells) shell cells) (seq 0 L)).
Proof.
  intros HL HP. assert (LP : length p = length cells) by (rewrite (Permutation_length HP), seq_length; auto).
  assert (PP : Permutation (picked p cells None) cells) by (apply picked_perm; auto).
  destruct (Nat.eq_dec (length (somes cells)) (length cells)) as [HK|HK].
  2: { rewrite !(map_const_seq _ None); [auto| |]; intros; apply graph_row_unknown; [auto|].
       rewrite (Permutation_length (somes_perm _ _ PP)), (Permutation_length PP). auto. }
  apply somes_all in HK as (xs & ->). rewrite map_length in *.
  assert (EPK : picked p (map Some xs) None = map Some (picked p xs 0%R)).
  { unfold picked. rewrite map_map. apply map_ext_in. intros i Hi. apply (Permutation_in _ HP) in Hi. apply in_seq in Hi. apply nth_map_lt. lia. }
  rewrite EPK. assert (LX : length (picked p xs 0%R) = length xs) by (unfold picked; rewrite map_length; auto).
  apply sort_down_perm. rewrite (map_seq_split (graph_row L (length xs) shell (map Some xs)) (length xs) L) by auto. rewrite (map_seq_split _ (length xs) L) by auto.
  rewrite !(map_const_seq _ (Some 0%R) (length xs)); [|intros; apply graph_row_outside; auto|intros; apply graph_row_outside; auto].
  apply Permutation_app_tail. pose proof (max_shell_largest (length xs) shell) as HM. pose proof (largest_relabel _ _ _ _ HP HM) as HM'.
  destruct (max_shell (length xs) shell) as [|m'].
  - rewrite (map_ext_in _ (fun _ => @None R)), (map_ext_in (graph_row L (length xs) shell (map Some xs)) (fun _ => @None R)); [auto| |];
      intros i Hi; apply in_seq in Hi; apply graph_row_isolated; auto; lia.
  - rewrite (map_ext_in _ (fun i => Some (received shell (S m') xs (nth i p 0)))).
    2: { intros i Hi. apply in_seq in Hi. rewrite <- LX. rewrite (graph_row_inside _ _ (S m')); rewrite ?LX; auto; try lia. f_equal. apply received_relabel; auto; lia. }
    rewrite (map_ext_in (graph_row L (length xs) shell (map Some xs)) (fun i => Some (received shell (S m') xs i))).
    2: { intros i Hi. apply in_seq in Hi. apply graph_row_inside; auto; lia. }
    rewrite <- (map_map (fun i => nth i p 0) (fun k => Some (received shell (S m') xs k))). apply Permutation_map.
    rewrite <- LP, <- (list_as_map p 0), LP. exact HP.
Qed.

Theorem neighbor_features_order : forall data mean L params zs shell v p, Permutation p (seq 0 (length zs)) ->
  neighbor_vec data mean L params zs shell = Ok v ->
  neighbor_vec data mean L params (map (fun i => nth i zs 0) p) (fun i j => shell (nth i p 0) (nth j p 0)) = Ok v.
Proof.
  intros data mean L params zs shell v p HP H. assert (LP : length p = length zs) by (rewrite (Permutation_length HP), seq_length; auto).
  unfold neighbor_vec in *. rewrite map_length, LP. destruct (Nat.ltb_spec L (length zs)) as [|HL]; [discriminate|].
  match type of H with bind ?x _ = _ => destruct x as [blocks|] eqn:E end; cbn [bind] in H; [|discriminate]. injection H as <-.
  replace (mapM _ params) with (@Ok (list (list (option R))) blocks); [reflexivity|]. symmetry. apply mapM_spec. apply mapM_spec in E.
  induction E as [|q b ps bs H1 H2 IH]; constructor; auto. clear IH H2.
  destruct (atom_props data zs q) as [cells|] eqn:EA; cbn [bind] in H1; [|discriminate]. injection H1 as <-.
  destruct (atom_props data (map (fun i => nth i zs 0) p) q) as [cells'|e] eqn:EA'.
  2: { exfalso. assert (HS : exists r, atom_props data (map (fun i => nth i zs 0) p) q = Ok r); [|destruct HS; congruence].
       unfold atom_props in *. pose proof (proj1 (mapM_succeeds _ zs) (ex_intro _ cells EA)) as HX. apply mapM_succeeds. intros x Hx. apply HX.
       apply in_map_iff in Hx as (i & <- & Hi). apply (Permutation_in _ HP) in Hi. apply in_seq in Hi. apply nth_In. lia. }
  cbn [bind]. f_equal. apply atom_props_known in EA as EC, EA' as EC'.
  assert (EP : cells' = picked p cells None).
  { rewrite EC, EC'. unfold picked. rewrite map_map. apply map_ext_in. intros i Hi. apply (Permutation_in _ HP) in Hi. apply in_seq in Hi. symmetry. apply nth_map_lt. lia. }
  assert (LC : length cells = length zs) by (rewrite EC, map_length; auto). rewrite EP, <- LC. rewrite <- LC in HP, HL. pose proof (block_relabel L shell cells p HL HP) as HB.
  destruct mean; [|exact HB].
  destruct L as [|L']; [reflexivity|]. rewrite <- (map_map (graph_row (S L') (length cells) (fun i j => shell (nth i p 0) (nth j p 0)) (picked p cells None)) (omul (/ INR (S L')))).
  rewrite <- (map_map (graph_row (S L') (length cells) shell cells) (omul (/ INR (S L')))).
  rewrite !sort_down_scale by (apply Rinv_0_lt_compat, lt_0_INR; lia). rewrite HB. reflexivity.
Qed.

(** Two atoms with value 1 and 2, neighbours of each other. *)
Example neighbor_case : largest 2 (fun i j => if Nat.eqb i j then 0 else 1) 1 /\
  received (fun i j => if Nat.eqb i j then 0 else 1) 1 [1; 2]%R 0 = 2%R /\ received (fun i j => if Nat.eqb i j then 0 else 1) 1 [1; 2]%R 1 = 1%R.
Proof.
  split; [split; [intros i j _ _; destruct (Nat.eqb i j); lia|right; exists 0, 1; auto]|].
  unfold received. cbn. split; field.
Qed.

(** * Autocorrelation functions *)
(** Ordered pairs of atoms at graph distance d. *)
Definition pairs_at (hops : nat -> nat -> option nat) (n d : nat) : list (nat * nat) :=
  filter (fun q => hop_is d (hops (fst q) (snd q))) (list_prod (seq 0 n) (seq 0 n)).
(** What floyd_warshall computes. *)
Inductive walk (adj : nat -> nat -> bool) (n : nat) : nat -> nat -> nat -> Prop :=
| WalkNone i : i < n -> walk adj n 0 i i
| WalkStep d i j k : walk adj n d i j -> k < n -> adj j k = true -> walk adj n (S d) i k.
Definition shortest (adj : nat -> nat -> bool) (n : nat) (hops : nat -> nat -> option nat) : Prop :=
  forall i j, i < n -> j < n -> forall d, hops i j = Some d <-> walk adj n d i j /\ forall e, walk adj n e i j -> d <= e.

Lemma sum_pairs (n : nat) (P : nat -> nat -> bool) (g : nat -> nat -> R) :
  sum_n n (fun i => sum_n n (fun j => if P i j then g i j else 0%R)) = sumR (map (fun q => g (fst q) (snd q)) (filter (fun q => P (fst q) (snd q)) (list_prod (seq 0 n) (seq 0 n)))).
Proof.
  unfold sum_n.
  assert (G : forall l u, sumR (map (fun i => sumR (map (fun j => if P i j then g i j else 0%R) u)) l) =
    sumR (map (fun q => g (fst q) (snd q)) (filter (fun q => P (fst q) (snd q)) (list_prod l u)))); [|apply G].
  intros l u. induction l as [|i t IH]; cbn [map sumR list_prod]; [reflexivity|].
  rewrite filter_app, map_app, sumR_app, <- IH. f_equal. clear. induction u as [|j u IHu]; cbn [map sumR filter]; [reflexivity|].
  cbn [fst snd]. destruct (P i j); cbn [map sumR fst snd]; rewrite IHu; lra.
Qed.

Lemma flat_map_nth {A} (f : nat -> list A) n k d i dft : (forall x, length (f x) = n) -> d < k -> i < n -> nth (d * n + i) (flat_map f (seq 0 k)) dft = nth i (f d) dft.
Proof.
  intros HL Hd Hi. assert (G : forall a, nth (d * n + i) (flat_map f (seq a k)) dft = nth i (f (a + d)) dft); [|apply (G 0)].
  revert d Hd. induction k as [|k IH]; intros d Hd a; [lia|]. cbn [seq flat_map]. destruct d as [|d].
  - cbn [Nat.mul Nat.add]. rewrite app_nth1 by (rewrite HL; auto). rewrite Nat.add_0_r. reflexivity.
  - rewrite app_nth2 by (rewrite HL; cbn; lia). rewrite HL. replace (S d * n + i - n) with (d * n + i) by (cbn; lia). rewrite IH by lia. f_equal. f_equal. lia.
Qed.
Lemma flat_map_len {A} (f : nat -> list A) n l : (forall x, length (f x) = n) -> length (flat_map f l) = length l * n.
Proof. intros H. induction l; cbn; [auto|]. rewrite app_length, H, IHl. auto. Qed.

(** For each distance up to the cut-off and each parameter: the sum of products of the
    values over the ordered pairs of atoms at that distance; missing if a value is missing. *)
Theorem autocorrelation_features : forall data dstar params zs hops W, list_params data zs params = Ok W -> zs <> [] -> n_columns params = length params ->
  exists v, get_autocorrelation data dstar params zs hops = Ok v /\ length v = length params * (dstar + 1) /\
  forall d k, d <= dstar -> k < length params ->
    (forall w, (forall i, i < length zs -> nth k (nth i W []) None = Some (w i)) ->
       nth (d * length params + k) v None = Some (sumR (map (fun q => w (fst q) * w (snd q))%R (pairs_at hops (length zs) d)))) /\
    ((exists i, i < length zs /\ nth k (nth i W []) None = None) -> nth (d * length params + k) v None = None).
Proof.
  intros data dstar params zs hops W HW HZ HC. unfold get_autocorrelation. rewrite HW. cbn [bind]. rewrite HC, Nat.eqb_refl. eexists. split; [reflexivity|].
  assert (HL : forall d, length (map (fun k => correlation (column k W) hops d) (seq 0 (length params))) = length params) by (intros; rewrite map_length, seq_length; auto).
  split; [rewrite (flat_map_len _ (length params)) by auto; rewrite seq_length; lia|].
  assert (LW : length W = length zs) by (apply list_params_rows in HW; [|auto]; symmetry; eapply Forall2_length; eauto).
  intros d k Hd Hk. rewrite (flat_map_nth _ (length params)) by (auto; lia). rewrite (nth_map_lt _ _ _ 0) by (rewrite seq_length; auto). rewrite seq_nth by auto. cbn [Nat.add].
  assert (LC : length (column k W) = length zs) by (unfold column; rewrite map_length; auto).
  assert (NC : forall i, i < length zs -> nth i (column k W) None = nth k (nth i W []) None) by (intros i Hi; unfold column; rewrite (nth_map_lt _ _ _ []) by lia; reflexivity).
  unfold correlation. rewrite LC. split.
  - intros w Hw. assert (EC : column k W = map Some (map w (seq 0 (length zs)))).
    { rewrite map_map. apply (list_ext_nth None); [rewrite LC, map_length, seq_length; auto|]. intros i Hi. rewrite LC in Hi. rewrite NC, Hw by auto.
      rewrite (nth_map_lt _ _ _ 0) by (rewrite seq_length; auto). rewrite seq_nth by auto. reflexivity. }
    rewrite EC, somes_map, map_length, seq_length, Nat.eqb_refl. f_equal.
    rewrite (sum_pairs (length zs) (fun i j => hop_is d (hops i j))). apply sumR_map_ext. intros [i j] Hq. apply filter_In in Hq as [Hq _]. apply in_prod_iff in Hq as [Hi Hj].
    apply in_seq in Hi, Hj. cbn [fst snd]. rewrite !(nth_map_lt _ _ _ 0) by (rewrite seq_length; lia). rewrite !seq_nth by lia. reflexivity.
  - intros (i & Hi & E). destruct (Nat.eqb_spec (length (somes (column k W))) (length zs)) as [HE|]; [|reflexivity]. exfalso.
    rewrite <- LC in HE. apply somes_all in HE as (xs & EX). rewrite <- NC in E by auto. rewrite EX in E. rewrite (nth_map_lt _ _ _ 0%R) in E; [discriminate|].
    rewrite <- (map_length Some), <- EX, LC. auto.
Qed.
(** Distance zero: each atom with itself; distance one: each bond, in both directions. *)
Theorem autocorrelation_pairs : forall adj n hops i j, shortest adj n hops -> i < n -> j < n ->
  (In (i, j) (pairs_at hops n 0) <-> i = j) /\ (In (i, j) (pairs_at hops n 1) <-> i <> j /\ adj i j = true).
Proof.
  intros adj n hops i j HS Hi Hj. specialize (HS i j Hi Hj).
  assert (HP : forall d, In (i, j) (pairs_at hops n d) <-> hops i j = Some d).
  { intros d. unfold pairs_at. rewrite filter_In, in_prod_iff, !in_seq. cbn [fst snd]. unfold hop_is. destruct (hops i j) as [k|].
    - rewrite Nat.eqb_eq. split; [intros [_ ->]; auto|intros [= ->]; repeat split; lia].
    - split; [intros [_ X]; discriminate|discriminate]. }
  rewrite !HP, !HS. split.
  - split; [intros [H _]; inversion H; auto|intros ->]. split; [constructor; auto|intros; lia].
  - split.
    + intros [H HM]. inversion H as [|d i' j' k' H0 Hk HA]; subst. inversion H0; subst. split; [|auto]. intros ->. specialize (HM 0 (WalkNone _ _ _ Hi)). lia.
    + intros [HN HA]. split; [econstructor; [constructor; auto|auto|auto]|]. intros e He. destruct e; [inversion He; subst; contradiction|lia].
Qed.
(** The order of atoms does not matter. *)
Theorem autocorrelation_order : forall data dstar params zs hops v p, Permutation p (seq 0 (length zs)) ->
  get_autocorrelation data dstar params zs hops = Ok v ->
  get_autocorrelation data dstar params (map (fun i => nth i zs 0) p) (fun i j => hops (nth i p 0) (nth j p 0)) = Ok v.
Proof.
  intros data dstar params zs hops v p HP H. assert (LP : length p = length zs) by (rewrite (Permutation_length HP), seq_length; auto).
  destruct zs as [|z0 zs0].
  { cbn in LP. destruct p; [|discriminate]. exact H || (cbn [map]; unfold get_autocorrelation in *; revert H; unfold list_params; cbn [mapM bind];
     destruct (Nat.eqb (n_columns params) (length params)); [|discriminate]; intros <-; reflexivity). }
  set (zs := z0 :: zs0) in *. assert (HZ : zs <> []) by discriminate.
  unfold get_autocorrelation in *. destruct (list_params data zs params) as [W|] eqn:EW; cbn [bind] in H; [|discriminate].
  assert (HR := EW). apply list_params_rows in HR; [|auto]. assert (LW : length W = length zs) by (symmetry; eapply Forall2_length; eauto).
  assert (EW' : list_params data (map (fun i => nth i zs 0) p) params = Ok (picked p W [])).
  { apply list_params_rows; [intros E; apply map_eq_nil in E; subst p; cbn in LP; discriminate|].
    assert (HI : forall i, In i p -> i < length zs) by (intros i Hi; apply (Permutation_in _ HP) in Hi; apply in_seq in Hi; lia).
    unfold picked. clear - HR HI. induction p as [|i t IH]; cbn [map]; constructor; [|apply IH; intros; apply HI; right; auto].
    assert (Hi : i < length zs) by (apply HI; left; auto). clear - HR Hi. revert i Hi. induction HR as [|z r zs rows H1 H2 IH]; intros i Hi; [cbn in Hi; lia|]. destruct i; [exact H1|]. apply IH. cbn in Hi. lia. }
  rewrite EW'. cbn [bind]. destruct (Nat.eqb (n_columns params) (length params)); [|discriminate]. rewrite <- H. f_equal.
  apply flat_map_ext_in. intros d _. apply map_ext. intros k. unfold correlation.
  assert (EC : column k (picked p W []) = picked p (column k W) None).
  { unfold column, picked. rewrite map_map. apply map_ext_in. intros i Hi. apply (Permutation_in _ HP) in Hi. apply in_seq in Hi. rewrite (nth_map_lt _ _ _ []) by lia. reflexivity. }
  rewrite EC. set (col := column k W). assert (LC : length col = length zs) by (unfold col, column; rewrite map_length; auto).
  assert (PP : Permutation (picked p col None) col) by (apply picked_perm; rewrite LC; auto).
  rewrite (Permutation_length (somes_perm _ _ PP)), (Permutation_length PP). destruct (Nat.eqb_spec (length (somes col)) (length col)) as [HE|]; [|reflexivity].
  apply somes_all in HE as (xs & EX). rewrite EX in *. rewrite map_length in *.
  assert (EPK : picked p (map Some xs) None = map Some (picked p xs 0%R)).
  { unfold picked. rewrite map_map. apply map_ext_in. intros i Hi. apply (Permutation_in _ HP) in Hi. apply in_seq in Hi. apply nth_map_lt. lia. }
  rewrite EPK, !somes_map. f_equal. rewrite LC.
  assert (HX : forall i, i < length zs -> nth i (picked p xs 0%R) 0%R = nth (nth i p 0) xs 0%R) by (intros i Hi; unfold picked; rewrite (nth_map_lt _ _ _ 0) by lia; reflexivity).
  assert (ES : forall g : nat -> R, sum_n (length zs) (fun i => g (nth i p 0)) = sum_n (length zs) g).
  { intros g. unfold sum_n. rewrite <- (map_map (fun i => nth i p 0) g). apply sumR_perm, Permutation_map. rewrite <- LP, <- (list_as_map p 0), LP. exact HP. }
  rewrite <- (ES (fun i => sum_n (length zs) (fun j => if hop_is d (hops i j) then (nth i xs 0 * nth j xs 0)%R else 0%R))).
  unfold sum_n at 1 3. apply sumR_map_ext. intros i Hi. apply in_seq in Hi.
  rewrite <- (ES (fun j => if hop_is d (hops (nth i p 0) j) then (nth (nth i p 0%nat) xs 0 * nth j xs 0)%R else 0%R)).
  unfold sum_n. apply sumR_map_ext. intros j Hj. apply in_seq in Hj. rewrite !HX by lia. reflexivity.
Qed.

(** * Convoluted fingerprints *)
(** What conv_bulk and conv_term are to convolute: the products of the values of bonded atoms,
    one of them in the subset. *)
Definition convolution (n : nat) (subset : list nat) (cmx : nat -> nat -> R) (x : nat -> R) : R :=
  sumR (map (fun i => sum_n n (fun j => (x i * (x j * cmx i j))%R)) subset).
(** Right if the atoms of the subset have the values of the first atoms of the structure, for
    example if they are the first atoms. *)
Theorem convolution_first_atoms_partial : forall n subset cmx x, (forall r, r < length subset -> x r = x (nth r subset 0)) ->
  (0 <= convolution n subset cmx x)%R -> conv1 n subset cmx x = Some (sqrt (convolution n subset cmx x) / INR (length subset))%R.
Proof.
  intros n subset cmx x HX HP. unfold conv1.
  assert (E : sum_n (length subset) (fun r => sum_n n (fun j => (x r * (x j * cmx (nth r subset 0%nat) j))%R)) = convolution n subset cmx x).
  { unfold convolution.
    transitivity (sumR (map (fun i => sum_n n (fun j => (x i * (x j * cmx i j))%R)) (map (fun i => nth i subset 0) (seq 0 (length subset))))); [|rewrite <- (list_as_map subset 0); reflexivity].
    rewrite map_map. unfold sum_n at 1. apply sumR_map_ext. intros r Hr. apply in_seq in Hr.
    unfold sum_n. apply sumR_map_ext. intros j _. rewrite HX by lia. reflexivity. }
  rewrite E. destruct (Rltb _ 0) eqn:EL; [apply Rltb_true in EL; lra|reflexivity].
Qed.
(** In general the values of other atoms are taken. *)
Theorem convolution_refuted : exists n subset cmx x, (0 <= convolution n subset cmx x)%R /\ subset <> [] /\
  conv1 n subset cmx x <> Some (sqrt (convolution n subset cmx x) / INR (length subset))%R.
Proof.
  exists 2, [1], (fun i j => if Nat.eqb i j then 0%R else 1%R), (fun i => if Nat.eqb i 0 then 1%R else 4%R).
  unfold convolution, conv1, sum_n. cbn. split; [lra|]. split; [discriminate|].
  replace (1 * (1 * 1) + (1 * (4 * 0) + 0) + 0)%R with 1%R by ring. replace (4 * (1 * 1) + (4 * (4 * 0) + 0) + 0)%R with (2 * 2)%R by ring.
  rewrite sqrt_1, sqrt_square by lra. destruct (Rltb 1 0); [discriminate|]. intros [= E]. lra.
Qed.

(** The values of distance_vec: one for each of the given elements in the given order, or
    for each element of the structure once, in increasing order. *)
Theorem distance_vec_layout : forall types atoms,
  exists ts, length (distance_vec types atoms) = length ts /\
    (forall k z, nth_error ts k = Some z -> nth_error (distance_vec types atoms) k = Some (one_distance z atoms)) /\
    match types with
    | Some l => ts = l
    | None => increasing ts /\ forall z, In z ts <-> exists p, In (z, p) atoms
    end.
Proof.
  intros types atoms. exists (match types with Some ts => ts | None => sorted_set (map fst atoms) end).
  unfold distance_vec. split; [apply map_length|]. split; [intros k z E; exact (map_nth_error (fun z => one_distance z atoms) k _ E)|].
  destruct types; [auto|]. destruct (sorted_set_spec (map fst atoms)) as [S1 S2]. split; [exact S1|]. intros z. rewrite S2, in_map_iff.
  split; [intros ([z' p] & <- & H); eauto|intros [p H]; exists (z, p); auto].
Qed.
Example distance_vec_case : length (distance_vec None [(29, Point 0 0 0); (8, Point 1 0 0); (29, Point 1 2 3)]) = 2.
Proof. reflexivity. Qed.

Print Assumptions distance_vec_layout.
Print Assumptions distance_reciprocal_refuted.
Print Assumptions distance_planar_refuted.
Print Assumptions neighbor_sum_features.
Print Assumptions neighbor_mean_refuted.
Print Assumptions neighbor_features_order.
Print Assumptions autocorrelation_features.
Print Assumptions autocorrelation_pairs.
Print Assumptions autocorrelation_order.
Print Assumptions convolution_first_atoms_partial.
Print Assumptions convolution_refuted.
