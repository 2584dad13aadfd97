(** Proofs about the cross-validation model. *)
From Coq Require Import List Arith Lia Permutation Bool.
From Verif Require Import Base BaseFacts CVModel CVSpec.
Import ListNotations.
Set Implicit Arguments.
Local Arguments Nat.div : simpl never.
Local Arguments Nat.modulo : simpl never.

(** ** array_split *)
Lemma list_sum_repeat x n : list_sum (repeat x n) = n * x.
Proof. induction n; simpl; lia. Qed.

Lemma split_sizes_sum n k : k <> 0 -> list_sum (split_sizes n k) = n.
Proof.
  intros Hk. unfold split_sizes. rewrite list_sum_app, !list_sum_repeat.
  pose proof (Nat.div_mod n k Hk). pose proof (Nat.mod_upper_bound n k Hk).
  nia.
Qed.

Lemma split_sizes_length n k : k <> 0 -> length (split_sizes n k) = k.
Proof.
  intros Hk. unfold split_sizes. rewrite app_length, !repeat_length.
  pose proof (Nat.mod_upper_bound n k Hk). lia.
Qed.

Lemma split_sizes_in n k x : In x (split_sizes n k) -> x = n / k \/ x = n / k + 1.
Proof.
  unfold split_sizes. rewrite in_app_iff. intros [H|H]; apply repeat_spec in H; auto.
Qed.

Lemma nth_repeat_lt {A} (x d : A) n i : i < n -> nth i (repeat x n) d = x.
Proof. revert i; induction n; intros [|i] H; simpl; auto; try lia. apply IHn; lia. Qed.

Lemma split_sizes_noninc n k : nonincreasing (split_sizes n k).
Proof.
  intros i j Hij Hj. unfold split_sizes in *.
  rewrite app_length, !repeat_length in Hj.
  destruct (lt_dec i (n mod k)).
  - rewrite app_nth1 with (n := i) by (rewrite repeat_length; auto).
    rewrite nth_repeat_lt by auto.
    destruct (lt_dec j (n mod k)).
    + rewrite app_nth1 by (rewrite repeat_length; auto). rewrite nth_repeat_lt; auto.
    + rewrite app_nth2 by (rewrite repeat_length; lia).
      rewrite nth_repeat_lt; rewrite ?repeat_length; lia.
  - rewrite !app_nth2 by (rewrite repeat_length; lia).
    rewrite !nth_repeat_lt; rewrite ?repeat_length; lia.
Qed.

Lemma cut_concat {A} sizes (l : list A) : list_sum sizes = length l -> concat (cut sizes l) = l.
Proof.
  revert l; induction sizes as [|s ss IH]; simpl; intros l H.
  - destruct l; simpl in *; auto; lia.
  - rewrite IH. apply firstn_skipn. rewrite skipn_length. lia.
Qed.

Lemma cut_sizes {A} sizes (l : list A) : list_sum sizes = length l -> map (@length A) (cut sizes l) = sizes.
Proof.
  revert l; induction sizes as [|s ss IH]; simpl; intros l H; auto.
  rewrite firstn_length. f_equal; [lia|]. apply IH. rewrite skipn_length; lia.
Qed.

Lemma array_split_ok {A} (l : list A) k : k <> 0 ->
  exists folds, array_split l k = Ok folds /\ length folds = k /\ concat folds = l /\
    map (@length A) folds = split_sizes (length l) k.
Proof.
  intros Hk. unfold array_split. destruct (Nat.eqb_spec k 0); [lia|].
  eexists; split; [reflexivity|].
  pose proof (split_sizes_sum (length l) Hk).
  rewrite cut_concat, cut_sizes by auto. repeat split; auto.
  rewrite <- (map_length (@length A)), cut_sizes by auto. apply split_sizes_length; auto.
Qed.

Lemma balanced_split_sizes n k : balanced (split_sizes n k).
Proof.
  intros a b Ha Hb. apply split_sizes_in in Ha. apply split_sizes_in in Hb. lia.
Qed.

(** ** k_fold *)
Section KFold.
Context {V : Type}.
Notation row := (list V).
Notation glue := (fun p : row * V => fst p ++ [snd p]).
Variable d : V.

Lemma unglue l : map (@removelast V) (map glue l) = map fst l.
Proof.
  induction l as [|[r t] l IH]; simpl; auto. rewrite IH. f_equal. apply removelast_last.
Qed.
Lemma unglue_t l : map (fun r => last r d) (map glue l) = map snd l.
Proof.
  induction l as [|[r t] l IH]; simpl; auto. rewrite IH. f_equal. apply last_last.
Qed.

Lemma map_map_concat {A B} (f : A -> B) (ll : list (list A)) :
  concat (map (map f) ll) = map f (concat ll).
Proof. symmetry; apply concat_map. Qed.

Lemma map_length_map {A B} (f : A -> B) ll :
  map (@length B) (map (map f) ll) = map (@length A) ll.
Proof. rewrite map_map. apply map_ext. intros; apply map_length. Qed.

Lemma k_fold_inv (shuf : list row -> list row) features targets nsplit fix_size :
  (forall l, Permutation (shuf l) l) -> length features = length targets -> nsplit <> 0 ->
  let n := match fix_size with None => length features | Some s => nsplit * s end in
  n <= length features ->
  exists folds pairs rest,
    k_fold d shuf features targets nsplit fix_size
      = Ok (map (map (@removelast V)) folds, map (map (fun r => last r d)) folds) /\
    length folds = nsplit /\ concat folds = map glue pairs /\ length pairs = n /\
    map (@length row) folds = split_sizes n nsplit /\
    Permutation (pairs ++ rest) (combine features targets).
Proof.
  intros Hs HL Hk n Hn. unfold k_fold.
  rewrite HL, Nat.eqb_refl.
  set (X := map glue (combine features targets)).
  assert (HXlen : length (shuf X) = length features).
  { rewrite (Permutation_length (Hs X)). unfold X. rewrite map_length, combine_length. lia. }
  assert (HXp : exists pairs, shuf X = map glue pairs /\ Permutation pairs (combine features targets)).
  { destruct (Permutation_map_inv _ _ (Hs X)) as (pairs & H1 & H2).
    exists pairs. split; auto. symmetry; auto. }
  destruct HXp as (pairs & HX & HP).
  assert (Hfix : fix_rows (shuf X) nsplit fix_size = Ok (firstn n (shuf X))).
  { unfold fix_rows, n. destruct fix_size as [s|].
    - destruct (Nat.leb_spec (nsplit * s) (length (shuf X))); auto.
      unfold n in Hn. lia.
    - rewrite <- HXlen, firstn_all. reflexivity. }
  cbv zeta. rewrite Hfix. simpl.
  destruct (array_split_ok (firstn n (shuf X)) Hk) as (folds & HA & Hf1 & Hf2 & Hf3).
  rewrite HA. simpl.
  exists folds, (firstn n pairs), (skipn n pairs).
  assert (length (firstn n pairs) = n).
  { rewrite firstn_length. apply (f_equal (@length _)) in HX. rewrite map_length in HX. lia. }
  repeat split; auto.
  - rewrite Hf2, HX. apply firstn_map.
  - rewrite Hf3. rewrite firstn_length. f_equal. lia.
  - rewrite firstn_skipn. auto.
Qed.
End KFold.

(** ** Hierarchy: dictionary lemmas *)
Lemma key_eqb_spec a b : key_eqb a b = true <-> a = b.
Proof.
  destruct a, b; unfold key_eqb; simpl. rewrite andb_true_iff, !Nat.eqb_eq.
  split; [intros [-> ->]; auto|inversion 1; auto].
Qed.
Lemma key_eqb_refl a : key_eqb a a = true.
Proof. apply key_eqb_spec; auto. Qed.
Lemma key_eqb_neq a b : a <> b -> key_eqb a b = false.
Proof. intros H. destruct (key_eqb a b) eqn:E; auto. apply key_eqb_spec in E; congruence. Qed.

Section Dict.
Context {V : Type}.
Lemma dget_app_notin (d1 d2 : odict V) k : ~ In k (map fst d1) -> dget (d1 ++ d2) k = dget d2 k.
Proof.
  induction d1 as [|[k' v] d1 IH]; simpl; intros H; auto.
  rewrite key_eqb_neq by (intros ->; auto). apply IH; auto.
Qed.
Lemma dset_app_notin (d1 d2 : odict V) k v :
  ~ In k (map fst d1) -> dset (d1 ++ d2) k v = d1 ++ dset d2 k v.
Proof.
  induction d1 as [|[k' v'] d1 IH]; simpl; intros H; auto.
  rewrite key_eqb_neq by (intros ->; auto). f_equal. apply IH; auto.
Qed.
Lemma dset_new (d : odict V) k v : ~ In k (map fst d) -> dset d k v = d ++ [(k, v)].
Proof. intros H. rewrite <- (app_nil_r d) at 1. rewrite dset_app_notin; auto. Qed.

(** entries of one level, numbered from [k] *)
Definition ents (i k : nat) (L : list V) : odict V :=
  combine (map (pair i) (seq k (length L))) L.

Lemma ents_cons i k x L : ents i k (x :: L) = ((i, k), x) :: ents i (S k) L.
Proof. reflexivity. Qed.
Lemma ents_app i k L1 L2 : ents i k (L1 ++ L2) = ents i k L1 ++ ents i (k + length L1) L2.
Proof.
  revert k; induction L1 as [|x L1 IH]; intros k; simpl.
  - f_equal. lia.
  - rewrite ents_cons. change (x :: L1 ++ L2) with (x :: (L1 ++ L2)). simpl.
    rewrite IH. f_equal. f_equal. f_equal. lia.
Qed.
Lemma ents_keys i k L : map fst (ents i k L) = map (pair i) (seq k (length L)).
Proof. unfold ents. apply map_combine_fst. rewrite map_length, seq_length; auto. Qed.
Lemma ents_vals i k L : map snd (ents i k L) = L.
Proof. unfold ents. apply map_combine_snd. rewrite map_length, seq_length; auto. Qed.
Lemma ents_key_in i k L a : In a (map fst (ents i k L)) <-> fst a = i /\ k <= snd a < k + length L.
Proof.
  rewrite ents_keys, in_map_iff. setoid_rewrite in_seq. split.
  - intros (x & <- & H). simpl. lia.
  - destruct a as [u w]; simpl. intros [-> H]. exists w. auto.
Qed.
End Dict.

Section Hier.
Context {I : Type}.
Variable shuf : key -> list I -> list I.
Hypothesis Hshuf : forall k l, Permutation (shuf k l) l.

(** the shuffled subsets of level [i] from number [k] on, and their halves *)
Fixpoint shuf_all (i k : nat) (L : list (list I)) : list (list I) :=
  match L with [] => [] | x :: t => shuf (i, k) x :: shuf_all i (S k) t end.
Fixpoint halves (L : list (list I)) : list (list I) :=
  match L with
  | [] => []
  | x :: t => firstn (length x / 2) x :: skipn (length x / 2) x :: halves t
  end.

Lemma shuf_all_length i k L : length (shuf_all i k L) = length L.
Proof. revert k; induction L; simpl; auto. Qed.
Lemma halves_length L : length (halves L) = 2 * length L.
Proof. induction L; simpl; lia. Qed.
Lemma shuf_all_concat i k L : Permutation (concat (shuf_all i k L)) (concat L).
Proof. revert k; induction L; simpl; intros; auto. apply Permutation_app; auto. Qed.
Lemma shuf_all_sizes i k L : map (@length I) (shuf_all i k L) = map (@length I) L.
Proof.
  revert k; induction L; simpl; intros; auto. f_equal; auto. apply Permutation_length; auto.
Qed.
Lemma halves_concat L : concat (halves L) = concat L.
Proof.
  induction L; simpl; auto. rewrite IHL, app_assoc, firstn_skipn. reflexivity.
Qed.

(** one full pass over a level in which every subset can be split *)
Lemma split_inner_pass m i P L done :
  (forall k, In k (map fst P) -> fst k < i) ->
  (forall x, In x L -> m <= length x / 2) ->
  split_inner shuf m i (seq (S (length done)) (length L))
    (P ++ ents i 1 (shuf_all i 1 done ++ L) ++ ents (i + 1) 1 (halves (shuf_all i 1 done)))
    (2 * length done + 1) =
  Cont (P ++ ents i 1 (shuf_all i 1 (done ++ L)) ++ ents (i + 1) 1 (halves (shuf_all i 1 (done ++ L))))
       (2 * (length done + length L) + 1).
Proof.
  intros HP. revert done. induction L as [|x L IH]; intros done HL.
  - simpl. rewrite !app_nil_r. f_equal. lia.
  - cbn [length seq split_inner].
    unfold split_body.
    assert (Hni : forall j, ~ In (i, j) (map fst P)).
    { intros j Hj. apply HP in Hj. simpl in Hj. lia. }
    assert (Hni1 : forall j, ~ In (i + 1, j) (map fst P)).
    { intros j Hj. apply HP in Hj. simpl in Hj. lia. }
    set (sd := shuf_all i 1 done).
    assert (Hsd : length sd = length done) by apply shuf_all_length.
    set (ch := ents (i + 1) 1 (halves sd)).
    rewrite dget_app_notin by auto.
    rewrite ents_app, <- app_assoc.
    rewrite dget_app_notin by (rewrite ents_key_in; simpl; lia).
    rewrite ents_cons, Hsd. cbn [app dget]. change (1 + length done) with (S (length done)).
    rewrite key_eqb_refl. cbv zeta.
    rewrite (@dset_app_notin _ P) with (k := (i, S (length done))) by auto.
    rewrite (@dset_app_notin _ (ents i 1 sd)) with (k := (i, S (length done)))
      by (rewrite ents_key_in; simpl; lia).
    cbn [dset]. rewrite key_eqb_refl.
    set (x' := shuf (i, S (length done)) x).
    assert (Hx' : length x' = length x) by (apply Permutation_length, Hshuf).
    rewrite Hx'.
    destruct (Nat.leb_spec m (length x / 2)) as [Hm|Hm]; [|specialize (HL x (or_introl eq_refl)); lia].
    cbv zeta.
    assert (Hch : forall j, 2 * length done < j ->
      ~ In (i + 1, j) (map fst (P ++ ents i 1 sd ++ ((i, S (length done)), x') :: ents i (S (S (length done))) L ++ ch))).
    { intros j Hj. rewrite !map_app, !in_app_iff. cbn [map fst In]. rewrite map_app, in_app_iff.
      rewrite !ents_key_in. unfold ch. rewrite ents_key_in, halves_length, Hsd. cbn [fst snd].
      specialize (Hni1 j). intros [H|[H|[H|[H|H]]]]; try tauto; try lia.
      inversion H; lia. }
    rewrite dset_new with (k := (i + 1, 2 * length done + 1)) by (apply Hch; lia).
    rewrite dset_new.
    2:{ rewrite map_app, in_app_iff. intros [H|H]; [eapply Hch; [|exact H]; lia|].
        simpl in H. destruct H as [H|[]]. inversion H; lia. }
    replace (2 * length done + 1 + 2) with (2 * length (done ++ [x]) + 1) by (rewrite app_length; simpl; lia).
    specialize (IH (done ++ [x])).
    replace (S (S (length done))) with (S (length (done ++ [x]))) by (rewrite app_length; simpl; lia).
    assert (Hsa : forall k l1 l2, shuf_all i k (l1 ++ l2) = shuf_all i k l1 ++ shuf_all i (k + length l1) l2).
    { intros k l1; revert k; induction l1 as [|a l1 IH1]; intros k l2; simpl.
      - f_equal; lia.
      - f_equal. rewrite IH1. f_equal. f_equal. lia. }
    assert (Hh : forall l1 l2, halves (l1 ++ l2) = halves l1 ++ halves l2).
    { induction l1; simpl; intros; auto. rewrite IHl1; auto. }
    assert (Hs1 : shuf_all i 1 (done ++ [x]) = sd ++ [x']).
    { rewrite Hsa. reflexivity. }
    rewrite Hs1 in IH.
    replace (2 * (length done + S (length L)) + 1) with (2 * (length (done ++ [x]) + length L) + 1)
      by (rewrite app_length; simpl; lia).
    replace (done ++ x :: L) with ((done ++ [x]) ++ L) by (rewrite <- app_assoc; auto).
    rewrite <- IH by (intros; apply HL; right; auto).
    f_equal.
    rewrite Hh. cbn [halves]. rewrite Hx'.
    rewrite !ents_app. cbn [ents length seq map combine app].
    rewrite halves_length, !app_length, Hsd. cbn [length].
    unfold ch, ents. rewrite <- !app_assoc. cbn [app]. rewrite <- !app_assoc. cbn [app].
    replace (1 + 2 * length done) with (2 * length done + 1) by lia.
    replace (S (length done + 1)) with (1 + (length done + 1)) by lia.
    replace (S (2 * length done + 1)) with (2 * length done + 1 + 1) by lia.
    reflexivity.
Qed.

(** the invariant a level satisfies: subset sizes are [s] or [s+1] and the
    first has size [s] *)
Definition sized (s : nat) (L : list (list I)) : Prop :=
  (forall x, In x L -> length x = s \/ length x = S s) /\
  match L with [] => False | x :: _ => length x = s end.

Lemma sized_of_sizes s L L' : map (@length I) L = map (@length I) L' -> sized s L -> sized s L'.
Proof.
  intros HE [H1 H2]. split.
  - intros x Hx. assert (In (length x) (map (@length I) L)).
    { rewrite HE. apply in_map; auto. }
    apply in_map_iff in H. destruct H as (y & <- & Hy). auto.
  - destruct L, L'; simpl in *; try tauto; try discriminate. congruence.
Qed.

Lemma halves_sized s L : sized s L -> sized (s / 2) (halves L).
Proof.
  intros [H1 H2]. split.
  - clear H2. induction L as [|x L IH]; simpl; [tauto|].
    intros y [<-|[<-|Hy]].
    + rewrite firstn_length. destruct (H1 x (or_introl eq_refl)) as [-> | ->].
      * left. apply Nat.min_l. apply Nat.div_le_upper_bound; lia.
      * rewrite Nat.min_l by (apply Nat.div_le_upper_bound; lia).
        pose proof (Nat.div_mod s 2 ltac:(lia)). pose proof (Nat.mod_upper_bound s 2 ltac:(lia)).
        pose proof (Nat.div_mod (S s) 2 ltac:(lia)). pose proof (Nat.mod_upper_bound (S s) 2 ltac:(lia)). lia.
    + rewrite skipn_length. destruct (H1 x (or_introl eq_refl)) as [-> | ->];
        pose proof (Nat.div_mod s 2 ltac:(lia)); pose proof (Nat.mod_upper_bound s 2 ltac:(lia));
        pose proof (Nat.div_mod (S s) 2 ltac:(lia)); pose proof (Nat.mod_upper_bound (S s) 2 ltac:(lia)); lia.
    + apply IH; auto. intros; apply H1; right; auto.
  - destruct L as [|x L]; simpl; auto. rewrite firstn_length, H2.
    apply Nat.min_l. apply Nat.div_le_upper_bound; lia.
Qed.

(** a finished dictionary as a stack of levels *)
Fixpoint stack (i : nat) (Ls : list (list (list I))) : odict (list I) :=
  match Ls with [] => [] | L :: t => ents i 1 L ++ stack (S i) t end.

Lemma stack_app i Ls L : stack i (Ls ++ [L]) = stack i Ls ++ ents (i + length Ls) 1 L.
Proof.
  revert i; induction Ls as [|L0 Ls IH]; intros i; simpl.
  - rewrite app_nil_r, Nat.add_0_r. reflexivity.
  - rewrite IH, <- app_assoc. do 3 f_equal. lia.
Qed.
Lemma stack_keys i Ls k : In k (map fst (stack i Ls)) -> i <= fst k < i + length Ls.
Proof.
  revert i; induction Ls as [|L Ls IH]; intros i; simpl; [tauto|].
  rewrite map_app, in_app_iff, ents_key_in. intros [H|H]; [lia|]. apply IH in H. lia.
Qed.

Definition good_level (m : nat) (sel : list I) (i : nat) (L : list (list I)) : Prop :=
  length L = 2 ^ i /\ Permutation (concat L) sel /\ exists s, m <= s /\ sized s L.

Lemma split_outer_ok m sel k i Ls L s :
  1 <= m -> m <= s -> s < m * 2 ^ k ->
  i = S (length Ls) ->
  (forall n, n < length Ls -> good_level m sel (S n) (nth n Ls [])) ->
  length L = 2 ^ i -> Permutation (concat L) sel -> sized s L ->
  exists Ls', split_outer shuf m (seq i k) (stack 1 Ls ++ ents i 1 L) = Ok (Some (stack 1 Ls'))
    /\ Ls' <> [] /\ (forall n, n < length Ls' -> good_level m sel (S n) (nth n Ls' [])).
Proof.
  revert i Ls L s. induction k as [|k IH]; intros i Ls L s Hm Hms Hs Hi HLs HlenL HpL HsL.
  - simpl in Hs. lia.
  - cbn [seq split_outer].
    assert (HPk : forall k0, In k0 (map fst (stack 1 Ls)) -> fst k0 < i).
    { intros k0 Hk0. apply stack_keys in Hk0. lia. }
    destruct (le_dec m (s / 2)) as [Hhalf|Hhalf].
    + pose proof (@split_inner_pass m i (stack 1 Ls) L [] HPk) as Hpass.
      simpl in Hpass. rewrite app_nil_r in Hpass.
      rewrite <- HlenL. rewrite Hpass.
      2:{ intros x Hx. destruct HsL as [HsL _]. destruct (HsL x Hx) as [-> | ->]; auto.
          etransitivity; [exact Hhalf|]. apply Nat.div_le_mono; lia. }
      set (SL := shuf_all i 1 L).
      specialize (IH (S i) (Ls ++ [SL]) (halves SL) (s / 2)).
      destruct IH as (Ls' & HE & Hne & HG); auto.
      * apply Nat.div_lt_upper_bound; [lia|]. simpl in Hs. lia.
      * rewrite app_length; simpl; lia.
      * intros n Hn. rewrite app_length in Hn; simpl in Hn.
        destruct (Nat.eq_dec n (length Ls)) as [->|Hne].
        -- rewrite app_nth2, Nat.sub_diag by lia. simpl.
           repeat split.
           ++ unfold SL. rewrite shuf_all_length, HlenL, Hi. reflexivity.
           ++ unfold SL. rewrite shuf_all_concat. auto.
           ++ exists s. split; auto. eapply sized_of_sizes; [|exact HsL].
              symmetry; apply shuf_all_sizes.
        -- rewrite app_nth1 by lia. apply HLs; lia.
      * rewrite halves_length. unfold SL. rewrite shuf_all_length, HlenL. simpl. lia.
      * rewrite halves_concat. unfold SL. rewrite shuf_all_concat; auto.
      * apply halves_sized. eapply sized_of_sizes; [|exact HsL]. symmetry; apply shuf_all_sizes.
      * exists Ls'. split; auto. rewrite stack_app in HE. rewrite <- app_assoc in HE.
        replace (1 + length Ls) with i in HE by lia. replace (i + 1) with (S i) by lia. exact HE.
    + (* the first subset of the level is too small: return *)
      destruct L as [|x L]; [destruct HsL as [_ []]|].
      assert (Hseq : exists t, seq 1 (2 ^ i) = 1 :: t).
      { rewrite <- HlenL. simpl. eauto. }
      destruct Hseq as [t Ht]. rewrite Ht. cbn [split_inner]. unfold split_body.
      rewrite dget_app_notin by (intros H; apply HPk in H; simpl in H; lia).
      rewrite ents_cons. cbn [dget]. rewrite key_eqb_refl.
      rewrite dset_app_notin by (intros H; apply HPk in H; simpl in H; lia).
      cbn [dset]. rewrite key_eqb_refl.
      assert (Hlx : length (shuf (i, 1) x) = length x) by (apply Permutation_length, Hshuf).
      assert (Hx : length x = s) by apply HsL.
      rewrite Hlx, Hx. destruct (Nat.leb_spec m (s / 2)); [lia|].
      exists (Ls ++ [shuf (i, 1) x :: L]). split; [|split].
      * rewrite stack_app. replace (1 + length Ls) with i by lia. reflexivity.
      * destruct Ls; discriminate.
      * intros n Hn. rewrite app_length in Hn; simpl in Hn.
        destruct (Nat.eq_dec n (length Ls)) as [->|Hne].
        -- rewrite app_nth2, Nat.sub_diag by lia. simpl. repeat split.
           ++ rewrite Hi in HlenL. exact HlenL.
           ++ simpl. rewrite <- HpL. simpl. apply Permutation_app; auto.
           ++ exists s. split; auto. eapply sized_of_sizes; [|exact HsL]. simpl. congruence.
        -- rewrite app_nth1 by lia. apply HLs; lia.
Qed.

(** a stack of good levels meets the specification *)
Lemma level_app (d1 d2 : odict (list I)) i : level (d1 ++ d2) i = level d1 i ++ level d2 i.
Proof. unfold level. rewrite filter_app, map_app. reflexivity. Qed.
Lemma level_ents i j (L : list (list I)) : level (ents j 1 L) i = if j =? i then L else [].
Proof.
  unfold level. destruct (Nat.eqb_spec j i) as [->|Hne].
  - rewrite filter_true; [apply ents_vals|].
    intros [k v] Hx. assert (In k (map fst (ents i 1 L))) by (apply in_map_iff; exists (k, v); auto).
    apply ents_key_in in H. simpl. apply Nat.eqb_eq. tauto.
  - induction (ents j 1 L) as [|[k v] t IH] eqn:E; auto.
    assert (forall e, In e (ents j 1 L) -> fst (fst e) = j).
    { intros [k' v'] He. assert (In k' (map fst (ents j 1 L))) by (apply in_map_iff; exists (k', v'); auto).
      apply ents_key_in in H. simpl; tauto. }
    rewrite E in H. clear IH E.
    assert (forall l : odict (list I), (forall e, In e l -> fst (fst e) = j) ->
       map snd (filter (fun e => fst (fst e) =? i) l) = []).
    { induction l as [|e l IHl]; simpl; intros HH; auto.
      rewrite HH by auto. destruct (Nat.eqb_spec j i); [congruence|]. apply IHl; auto. }
    apply H0; auto.
Qed.
Lemma level_stack k Ls i : level (stack k Ls) i = if (k <=? i) && (i <? k + length Ls) then nth (i - k) Ls [] else [].
Proof.
  revert k; induction Ls as [|L Ls IH]; intros k; simpl.
  - unfold level; simpl. destruct (k <=? i); simpl; auto.
    destruct (i <? k + 0); auto. destruct (i - k); auto.
  - rewrite level_app, level_ents, IH. destruct (Nat.eqb_spec k i) as [->|Hne].
    + rewrite Nat.sub_diag. destruct (Nat.leb_spec (S i) i); [lia|]. simpl. rewrite app_nil_r.
      rewrite Nat.leb_refl. destruct (Nat.ltb_spec i (i + S (length Ls))); auto. lia.
    + cbn [app]. destruct (Nat.leb_spec (S k) i), (Nat.leb_spec k i); cbn [andb]; try lia; auto.
      destruct (Nat.ltb_spec i (S k + length Ls)), (Nat.ltb_spec i (k + S (length Ls))); try lia; auto.
      replace (i - k) with (S (i - S k)) by lia. reflexivity.
Qed.

Lemma stack_NoDup k Ls : NoDup (map fst (stack k Ls)).
Proof.
  revert k; induction Ls as [|L Ls IH]; intros k; simpl; [constructor|].
  rewrite map_app. apply NoDup_app_intro; auto.
  - rewrite ents_keys. apply FinFun.Injective_map_NoDup; [|apply seq_NoDup].
    intros a b H; inversion H; auto.
  - intros x Hx Hy. apply ents_key_in in Hx. apply stack_keys in Hy. lia.
Qed.

Lemma stack_number k Ls i j : k <= i < k + length Ls ->
  (exists s, In ((i, j), s) (stack k Ls)) <-> 1 <= j <= length (nth (i - k) Ls []).
Proof.
  revert k; induction Ls as [|L Ls IH]; intros k H; simpl in *; [lia|].
  setoid_rewrite in_app_iff.
  destruct (Nat.eq_dec i k) as [->|Hne].
  - rewrite Nat.sub_diag. split.
    + intros (s & [Hs|Hs]).
      * assert (In (k, j) (map fst (ents k 1 L))) by (apply in_map_iff; eexists; split; eauto; auto).
        apply ents_key_in in H0. simpl in H0. lia.
      * assert (In (k, j) (map fst (stack (S k) Ls))) by (apply in_map_iff; eexists; split; eauto; auto).
        apply stack_keys in H0. simpl in H0. lia.
    + intros Hj. assert (In (k, j) (map fst (ents k 1 L))) by (apply ents_key_in; simpl; lia).
      apply in_map_iff in H0. destruct H0 as ([k0 s] & E & Hin). simpl in E; subst k0. exists s; auto.
  - replace (i - k) with (S (i - S k)) by lia. rewrite <- IH by lia. split.
    + intros (s & [Hs|Hs]); eauto.
      assert (In (i, j) (map fst (ents k 1 L))) by (apply in_map_iff; eexists; split; eauto; auto).
      apply ents_key_in in H0. simpl in H0. lia.
    + intros (s & Hs); eauto.
Qed.

Lemma stack_hierarchy m sel Ls :
  Ls <> [] -> (forall n, n < length Ls -> good_level m sel (S n) (nth n Ls [])) ->
  hierarchy_of m sel (stack 1 Ls).
Proof.
  intros Hne HG.
  assert (HL : forall i, level (stack 1 Ls) i <> [] ->
     1 <= i <= length Ls /\ level (stack 1 Ls) i = nth (i - 1) Ls []).
  { intros i Hi. rewrite level_stack in *.
    destruct (Nat.leb_spec 1 i), (Nat.ltb_spec i (1 + length Ls)); simpl in *; try congruence.
    split; auto; lia. }
  assert (HG' : forall i, 1 <= i <= length Ls -> good_level m sel i (level (stack 1 Ls) i)).
  { intros i Hi. rewrite level_stack.
    destruct (Nat.leb_spec 1 i), (Nat.ltb_spec i (1 + length Ls)); simpl in *; try lia.
    replace i with (S (i - 1)) at 1 by lia. apply HG; lia. }
  assert (Hpos : forall i, 2 ^ i <> 0) by (intros i; apply Nat.pow_nonzero; lia).
  assert (Hnonempty : forall i, 1 <= i <= length Ls -> level (stack 1 Ls) i <> []).
  { intros i Hi E. destruct (HG' i Hi) as (Hlen & _). rewrite E in Hlen. simpl in Hlen. specialize (Hpos i). lia. }
  assert (Hlen1 : 1 <= length Ls) by (destruct Ls; simpl; [congruence|lia]).
  constructor.
  - apply stack_NoDup.
  - apply Hnonempty; lia.
  - intros i Hi. apply HL in Hi. apply Hnonempty. lia.
  - intros i Hi j. destruct (HL i Hi) as [Hr HE]. rewrite stack_number by lia.
    rewrite <- HE. destruct (HG' i Hr) as (-> & _). lia.
  - intros i Hi. destruct (HL i Hi) as [Hr HE]. split; [lia|]. apply HG'; auto.
  - intros i Hi. destruct (HL i Hi) as [Hr HE]. apply HG'; auto.
  - intros HN i. unfold disjoint_family. destruct (level (stack 1 Ls) i) eqn:E; [constructor|].
    rewrite <- E. assert (Hi : level (stack 1 Ls) i <> []) by congruence.
    destruct (HL i Hi) as [Hr _]. destruct (HG' i Hr) as (_ & HP & _).
    eapply Permutation_NoDup; [symmetry; exact HP|auto].
  - intros i a b Ha Hb. apply in_map_iff in Ha, Hb.
    destruct Ha as (x & <- & Hx), Hb as (y & <- & Hy).
    assert (Hi : level (stack 1 Ls) i <> []) by (intros E; rewrite E in Hx; destruct Hx).
    destruct (HL i Hi) as [Hr _]. destruct (HG' i Hr) as (_ & _ & s & _ & Hs & _).
    destruct (Hs x Hx), (Hs y Hy); lia.
  - intros i s Hs.
    assert (Hi : level (stack 1 Ls) i <> []) by (intros E; rewrite E in Hs; destruct Hs).
    destruct (HL i Hi) as [Hr _]. destruct (HG' i Hr) as (_ & _ & s0 & Hm & Hs0 & _).
    destruct (Hs0 s Hs); lia.
Qed.

Variable shuf0 : list I -> list I.
Hypothesis Hshuf0 : forall l, Permutation (shuf0 l) l.

Lemma split_select_ok m M idx sel :
  split_select shuf0 m M idx = Ok sel ->
  m < length sel /\ sub_multiset sel idx /\
  length sel = match M with None => length idx | Some n => n end.
Proof.
  unfold split_select. set (s := shuf0 idx).
  assert (Hp : Permutation s idx) by apply Hshuf0.
  assert (Hl := Permutation_length Hp).
  destruct M as [n|].
  - destruct (Nat.ltb_spec n (length s)); cbn [andb]; [|discriminate].
    destruct (Nat.leb_spec (2 * m) n); cbn [andb]; [|discriminate].
    destruct (Nat.ltb_spec m (length (firstn n s))); [|discriminate].
    intros E; inversion E; subst. repeat split; auto.
    + exists (skipn n s). rewrite firstn_skipn; auto.
    + rewrite firstn_length. lia.
  - destruct (Nat.ltb_spec m (length s)); [|discriminate].
    intros E; inversion E; subst. repeat split; auto.
    exists []. rewrite app_nil_r. auto.
Qed.

Lemma le_pow2 q : q < 2 ^ q.
Proof. induction q; simpl; lia. Qed.

Lemma split_index_ok m M idx sel :
  1 <= m -> split_select shuf0 m M idx = Ok sel -> 2 * m <= length sel ->
  exists d, split_index shuf0 shuf m M idx = Ok (Some d) /\ hierarchy_of m sel d.
Proof.
  intros Hm Hsel H2m. unfold split_index. rewrite Hsel. simpl.
  destruct (Nat.eqb_spec m 0) as [Hm0|_]; [lia|].
  set (n := length sel) in *. set (h := n / 2).
  assert (Hh : m <= h) by (apply Nat.div_le_lower_bound; lia).
  assert (Hhn : h <= n) by (apply Nat.div_le_upper_bound; lia).
  assert (Hn : n = 2 * h \/ n = 2 * h + 1).
  { pose proof (Nat.div_mod n 2 ltac:(lia)). pose proof (Nat.mod_upper_bound n 2 ltac:(lia)). unfold h. lia. }
  set (a := firstn h sel). set (b := skipn h sel).
  assert (Ha : length a = h) by (unfold a; rewrite firstn_length; fold n; lia).
  assert (Hb : length b = n - h) by (unfold b; rewrite skipn_length; fold n; lia).
  rewrite Ha, Hb. rewrite Nat.min_l by lia.
  set (q := h / m).
  assert (Hq1 : h < m * 2 ^ q).
  { pose proof (Nat.div_mod h m ltac:(lia)). pose proof (Nat.mod_upper_bound h m ltac:(lia)).
    fold q in H. pose proof (le_pow2 q). nia. }
  destruct (@split_outer_ok m sel q 1 [] [a; b] h) as (Ls' & HE & Hne & HG); auto.
  - simpl; intros; lia.
  - simpl. rewrite app_nil_r. unfold a, b. rewrite firstn_skipn. auto.
  - split; simpl; auto. intros x [<-|[<-|[]]]; lia.
  - exists (stack 1 Ls'). split; [exact HE|]. apply stack_hierarchy; auto.
Qed.

Lemma split_index_none m M idx sel :
  split_select shuf0 m M idx = Ok sel -> 1 <= m -> length sel < 2 * m ->
  split_index shuf0 shuf m M idx = Ok None.
Proof.
  intros Hsel Hm H. unfold split_index. rewrite Hsel. simpl.
  destruct (Nat.eqb_spec m 0) as [Hm0|_]; [lia|].
  rewrite firstn_length, skipn_length.
  set (n := length sel) in *.
  assert (Hh : n / 2 < m) by (apply Nat.div_lt_upper_bound; lia).
  rewrite Nat.div_small; [reflexivity|]. lia.
Qed.

(** ** split_predict *)
Lemma calls_in (d : odict (list I)) k1 k2 a b :
  In ((k1, k2), (a, b)) (split_predict_calls d) <->
  In (k1, a) d /\ In (k2, b) d /\ fst k1 = fst k2 /\ k1 <> k2.
Proof.
  unfold split_predict_calls. rewrite in_flat_map. split.
  - intros ([ki vi] & Hi & H). apply in_flat_map in H. destruct H as ([km vm] & Hm & H). simpl in H.
    destruct (Nat.eqb_spec (fst km) (fst ki)) as [E1|]; simpl in H; [|destruct H].
    destruct (Nat.eqb_spec (snd ki) (snd km)) as [|E2]; simpl in H; [destruct H|].
    destruct H as [H|[]]. inversion H; subst. rewrite <- !in_rev in *.
    repeat split; auto. intros ->; auto.
  - intros (H1 & H2 & H3 & H4). exists (k1, a). rewrite <- in_rev. split; auto.
    apply in_flat_map. exists (k2, b). rewrite <- in_rev. split; auto. simpl.
    rewrite H3, Nat.eqb_refl. destruct (Nat.eqb_spec (snd k1) (snd k2)); simpl; auto.
    exfalso; apply H4. destruct k1, k2; simpl in *; congruence.
Qed.

Lemma NoDup_flat_map {A B} (f : A -> list B) l :
  NoDup l -> (forall x, In x l -> NoDup (f x)) ->
  (forall x y z, In x l -> In y l -> In z (f x) -> In z (f y) -> x = y) ->
  NoDup (flat_map f l).
Proof.
  induction l as [|x l IH]; simpl; intros HN H1 H2; [constructor|].
  inversion HN; subst. apply NoDup_app_intro; auto.
  - apply IH; auto. intros; eapply H2; eauto.
  - intros z Hz Hz'. apply in_flat_map in Hz'. destruct Hz' as (y & Hy & Hz').
    assert (x = y) by (eapply H2; eauto). subst; auto.
Qed.

Lemma calls_NoDup (d : odict (list I)) : NoDup (map fst d) -> NoDup (map fst (split_predict_calls d)).
Proof.
  intros HN.
  assert (HE : map fst (split_predict_calls d) =
    flat_map (fun i => flat_map (fun m => if (fst m =? fst i) && negb (snd i =? snd m) then [(i, m)] else [])
      (rev (map fst d))) (rev (map fst d))).
  { unfold split_predict_calls. rewrite <- map_rev. generalize (rev d) at 2 4.
    intros l. induction l as [|x l IH]; simpl; auto.
    rewrite map_app, IH. f_equal. clear.
    induction (rev d) as [|y l IH]; simpl; auto.
    rewrite map_app, IH. f_equal. destruct ((fst (fst y) =? fst (fst x)) && _); auto. }
  rewrite HE. assert (HN' : NoDup (rev (map fst d))) by (apply NoDup_rev; auto).
  assert (Hin : forall i z, In z (flat_map (fun m => if (fst m =? fst i) && negb (snd i =? snd m) then [(i, m)] else [])
      (rev (map fst d))) -> fst z = i).
  { intros i z Hz. apply in_flat_map in Hz. destruct Hz as (m & _ & Hz).
    destruct (_ && _); simpl in Hz; [destruct Hz as [<-|[]]; auto|tauto]. }
  apply NoDup_flat_map; auto.
  - intros i _. apply NoDup_flat_map; auto.
    + intros m _. destruct (_ && _); repeat constructor; auto.
    + intros x y z _ _ Hx Hy. destruct ((fst x =? _) && _), ((fst y =? _) && _); simpl in *; try tauto.
      destruct Hx as [<-|[]], Hy as [H|[]]. inversion H; auto.
  - intros x y z _ _ Hx Hy. apply Hin in Hx. apply Hin in Hy. congruence.
Qed.

Lemma concat_disjoint {A} (L : list (list A)) i j a b x :
  NoDup (concat L) -> nth_error L i = Some a -> nth_error L j = Some b -> i <> j ->
  In x a -> In x b -> False.
Proof.
  revert i j. induction L as [|l L IH]; intros [|i] [|j] HN Ha Hb Hne Hxa Hxb; simpl in *; try discriminate; try congruence.
  - inversion Ha; subst. apply NoDup_app_inv in HN. destruct HN as (_ & _ & HN). apply (HN x); auto.
    apply in_concat. exists b. split; auto. eapply nth_error_In; eauto.
  - inversion Hb; subst. apply NoDup_app_inv in HN. destruct HN as (_ & _ & HN). apply (HN x); auto.
    apply in_concat. exists a. split; auto. eapply nth_error_In; eauto.
  - apply NoDup_app_inv in HN. eapply IH with (i := i) (j := j); eauto. tauto.
Qed.

Lemma hierarchy_disjoint m sel (d : odict (list I)) k1 k2 a b x :
  NoDup sel -> hierarchy_of m sel d -> In (k1, a) d -> In (k2, b) d -> fst k1 = fst k2 -> k1 <> k2 ->
  In x a -> In x b -> False.
Proof.
  intros HN H H1 H2 Hl Hne Hx Hy.
  pose proof (h_disjoint H HN (fst k1)) as HD. unfold disjoint_family, level in HD.
  set (F := filter (fun e => fst (fst e) =? fst k1) d) in *.
  assert (HF1 : In (k1, a) F) by (apply filter_In; split; auto; simpl; apply Nat.eqb_refl).
  assert (HF2 : In (k2, b) F) by (apply filter_In; split; auto; simpl; apply Nat.eqb_eq; auto).
  destruct (In_nth_error _ _ HF1) as (i & Hi). destruct (In_nth_error _ _ HF2) as (j & Hj).
  apply (@concat_disjoint _ (map snd F) i j a b x); auto.
  - rewrite nth_error_map, Hi. reflexivity.
  - rewrite nth_error_map, Hj. reflexivity.
  - intros ->. congruence.
Qed.
End Hier.

(** ** compile_split *)
Section Compile.
Context {I D : Type}.
Variable eqb : I -> I -> bool.
Hypothesis eqb_spec : forall x y, eqb x y = true <-> x = y.
Variable table : list (I * D).
Hypothesis table_nodup : NoDup (map fst table).
Notation get := (get_data eqb table).

Lemma mem_spec x l : existsb (eqb x) l = true <-> In x l.
Proof.
  rewrite existsb_exists. split.
  - intros (y & Hy & E). apply eqb_spec in E; subst; auto.
  - intros H. exists x. split; auto. apply eqb_spec; auto.
Qed.

Lemma get_in ids r : In r (get ids) <-> In r table /\ In (fst r) ids.
Proof. unfold get_data. rewrite filter_In, mem_spec. reflexivity. Qed.

Lemma NoDup_table : NoDup table.
Proof. apply NoDup_map_inv with (f := fst); auto. Qed.

Lemma NoDup_map_filter {A B} (f : A -> B) g l : NoDup (map f l) -> NoDup (map f (filter g l)).
Proof.
  induction l as [|x l IH]; simpl; intros H; auto. inversion H; subst.
  destruct (g x); simpl; auto. constructor; auto.
  intros Hin. apply in_map_iff in Hin. destruct Hin as (y & E & Hy). apply filter_In in Hy.
  apply H2. rewrite <- E. apply in_map; tauto.
Qed.

Lemma get_fst ids : NoDup ids -> (forall x, In x ids -> In x (map fst table)) ->
  Permutation (map fst (get ids)) ids.
Proof.
  intros HN Hin. apply NoDup_Permutation; auto.
  - apply NoDup_map_filter; auto.
  - intros x. rewrite in_map_iff. split.
    + intros (r & <- & Hr). apply get_in in Hr. tauto.
    + intros Hx. destruct (proj1 (in_map_iff _ _ _) (Hin x Hx)) as (r & E & Hr).
      exists r. split; auto. apply get_in. split; auto. congruence.
Qed.

Lemma get_nonempty ids : ids <> [] -> NoDup ids -> (forall x, In x ids -> In x (map fst table)) -> get ids <> [].
Proof.
  intros Hne HN Hin E. pose proof (get_fst HN Hin) as HP. rewrite E in HP. simpl in HP.
  apply Permutation_nil in HP. congruence.
Qed.

Lemma np_concat_ok {A} (a b : list A) : a <> [] -> b <> [] -> np_concat a b = Ok (a ++ b).
Proof. destruct a, b; simpl; congruence. Qed.

Lemma NoDup_skipn {A} n (l : list A) : NoDup l -> NoDup (skipn n l).
Proof. intros H. rewrite <- (firstn_skipn n l) in H. apply NoDup_app_inv in H. tauto. Qed.
Lemma NoDup_firstn {A} n (l : list A) : NoDup l -> NoDup (firstn n l).
Proof. intros H. rewrite <- (firstn_skipn n l) in H. apply NoDup_app_inv in H. tauto. Qed.

Lemma firstn_add {A} n k (l : list A) : firstn (n + k) l = firstn n l ++ firstn k (skipn n l).
Proof.
  revert l; induction n; intros l; simpl; auto.
  destruct l; simpl; [destruct k; auto|]. f_equal; auto.
Qed.

Variable lim : nat.
Hypothesis lim_pos : 1 <= lim.
Variable ids : list I.
Hypothesis ids_nodup : NoDup ids.
Hypothesis ids_in : forall x, In x ids -> In x (map fst table).

Lemma compile_loop_ok k j store :
  store <> [] -> Permutation (map fst store) (firstn (j * lim) ids) -> (forall r, In r store -> In r table) ->
  (j + k - 1) * lim < length ids ->
  exists rows, compile_loop eqb table lim (seq j k) ids store = Ok rows /\
    Permutation (map fst rows) (firstn ((j + k) * lim) ids) /\ (forall r, In r rows -> In r table).
Proof.
  revert j store. induction k as [|k IH]; intros j store Hne HP Hin Hlt.
  - simpl. exists store. rewrite Nat.add_0_r. auto.
  - cbn [seq compile_loop].
    set (rest := skipn (j * lim) ids).
    assert (Hrest : rest <> []).
    { intros E. apply (f_equal (@length I)) in E. unfold rest in E. rewrite skipn_length in E. simpl in E. nia. }
    assert (Hmore : (if length rest <? lim then get rest else get (firstn lim rest)) = get (firstn lim rest)).
    { destruct (Nat.ltb_spec (length rest) lim); auto. rewrite firstn_all2 by lia. auto. }
    rewrite Hmore.
    assert (Hf : firstn lim rest <> []).
    { destruct rest; [congruence|]. destruct lim; [lia|]. simpl. discriminate. }
    assert (HfN : NoDup (firstn lim rest)) by (apply NoDup_firstn, NoDup_skipn; auto).
    assert (Hfin : forall x, In x (firstn lim rest) -> In x (map fst table)).
    { intros x Hx. apply ids_in. apply firstn_In in Hx. apply skipn_In in Hx. auto. }
    rewrite np_concat_ok; auto; [|apply get_nonempty; auto]. simpl.
    destruct (IH (S j) (store ++ get (firstn lim rest))) as (rows & E & HP' & Hin').
    + destruct store; [congruence|discriminate].
    + rewrite map_app, HP, (get_fst HfN Hfin). replace (S j * lim) with (j * lim + lim) by lia.
      rewrite firstn_add. auto.
    + intros r Hr. apply in_app_iff in Hr. destruct Hr as [Hr|Hr]; auto. apply get_in in Hr; tauto.
    + replace (S j + k - 1) with (j + S k - 1) by lia. auto.
    + exists rows. split; auto. split; auto. replace (j + S k) with (S j + k) by lia. auto.
Qed.

Lemma compile_loop_err k store :
  1 <= k -> store <> [] -> Permutation (map fst store) (firstn lim ids) -> (forall r, In r store -> In r table) ->
  length ids = (1 + k) * lim ->
  compile_loop eqb table lim (seq 1 (k + 1)) ids store = Err ValueError.
Proof.
  intros Hk Hne HP Hin HL. rewrite seq_app.
  assert (Happ : forall l1 l2 st, compile_loop eqb table lim (l1 ++ l2) ids st =
     bind (compile_loop eqb table lim l1 ids st) (compile_loop eqb table lim l2 ids)).
  { induction l1 as [|a l1 IH]; simpl; intros l2 st; auto.
    destruct (np_concat st _); simpl; auto. }
  rewrite Happ.
  destruct (@compile_loop_ok k 1 store) as (rows & E & HP' & Hin'); auto.
  - rewrite Nat.mul_1_l. auto.
  - nia.
  - rewrite E. simpl. rewrite skipn_all2 by lia. simpl.
    destruct (Nat.ltb_spec 0 lim); [|lia].
    destruct rows.
    + exfalso. simpl in HP'. apply Permutation_nil in HP'.
      apply (f_equal (@length I)) in HP'. rewrite firstn_length in HP'. simpl in HP'. nia.
    + replace (get []) with (@nil (I * D)); auto. symmetry.
      unfold get_data. clear. induction table as [|x t IH]; simpl; auto.
Qed.

Lemma compile_split_char :
  (lim < length ids /\ length ids mod lim = 0 -> compile_split_lim eqb table lim ids = Err ValueError) /\
  (~ (lim < length ids /\ length ids mod lim = 0) ->
   exists rows, compile_split_lim eqb table lim ids = Ok rows /\
     Permutation (map fst rows) ids /\ (forall r, In r rows -> In r table)).
Proof.
  unfold compile_split_lim.
  assert (Hq := Nat.div_mod (length ids) lim ltac:(lia)).
  assert (Hm := Nat.mod_upper_bound (length ids) lim ltac:(lia)).
  assert (Hst : lim < length ids -> get (firstn lim ids) <> [] /\ Permutation (map fst (get (firstn lim ids))) (firstn lim ids)
     /\ forall r, In r (get (firstn lim ids)) -> In r table).
  { intros H. assert (NoDup (firstn lim ids)) by (apply NoDup_firstn; auto).
    assert (forall x, In x (firstn lim ids) -> In x (map fst table)).
    { intros x Hx. apply ids_in. eapply firstn_In; eauto. }
    repeat split.
    - apply get_nonempty; auto. destruct ids; simpl in *; [lia|]. destruct lim; [lia|]. simpl. discriminate.
    - apply get_fst; auto.
    - intros r Hr. apply get_in in Hr. tauto. }
  split.
  - intros [H H0]. destruct (Nat.ltb_spec lim (length ids)); [|lia].
    destruct (Hst H) as (A1 & A2 & A3).
    assert (Hk : length ids / lim = (length ids / lim - 1) + 1) by nia.
    rewrite Hk, compile_loop_err; auto; nia.
  - intros Hno. destruct (Nat.ltb_spec lim (length ids)) as [H|H].
    + destruct (Hst H) as (A1 & A2 & A3).
      destruct (@compile_loop_ok (length ids / lim) 1 (get (firstn lim ids))) as (rows & E & HP & Hin); auto.
      * rewrite Nat.mul_1_l; auto.
      * replace (1 + length ids / lim - 1) with (length ids / lim) by lia. nia.
      * rewrite E. simpl. rewrite firstn_all2 in HP by nia.
        assert (length rows = length ids).
        { rewrite <- (map_length fst rows). apply Permutation_length; auto. }
        rewrite H0, Nat.eqb_refl. exists rows; auto.
    + simpl. pose proof (get_fst ids_nodup ids_in) as HP.
      assert (length (get ids) = length ids).
      { rewrite <- (map_length fst (get ids)). apply Permutation_length; auto. }
      rewrite H0, Nat.eqb_refl. exists (get ids). repeat split; auto.
      intros r Hr. apply get_in in Hr; tauto.
Qed.
End Compile.
