(** Proofs about FEModel.v. *)
From Coq Require Import String Reals List Bool Arith Lia Lra Permutation.
From Verif Require Import Base BaseFacts RBase PrepModel PrepProofs DBModel DBProofs FEModel.
Import ListNotations.
Open Scope nat_scope.

(** ** Writing columns *)
Lemma set_nth_app_r {A} (a b : list A) k v :
  set_nth (length a + k) v (a ++ b) = a ++ set_nth k v b.
Proof. induction a as [|x t IH]; simpl; auto. rewrite IH. reflexivity. Qed.

Lemma write_columns_from {A} (vals done zeros : list (list A)) :
  length vals <= length zeros ->
  fst (fold_left (fun st v => (set_nth (snd st) v (fst st), S (snd st))) vals (done ++ zeros, length done)) =
  done ++ vals ++ skipn (length vals) zeros.
Proof.
  revert done zeros. induction vals as [|v t IH]; intros done zeros L; simpl; auto.
  destruct zeros as [|z zeros]; simpl in L; [lia|].
  replace (length done) with (length done + 0) at 1 by lia. rewrite set_nth_app_r. simpl.
  replace (done ++ v :: zeros) with ((done ++ [v]) ++ zeros) by (rewrite <- app_assoc; auto).
  replace (S (length done)) with (length (done ++ [v])) by (rewrite app_length; simpl; lia).
  rewrite IH by lia. rewrite <- app_assoc. reflexivity.
Qed.

Lemma write_columns_spec {A} (vals : list (list A)) z n :
  length vals <= n ->
  write_columns (repeat z n) vals = vals ++ repeat z (n - length vals).
Proof.
  intros L. unfold write_columns.
  pose proof (write_columns_from vals [] (repeat z n)) as W. cbn [app length] in W.
  rewrite W by (rewrite repeat_length; auto). f_equal. replace n with (length vals + (n - length vals)) at 1 by lia.
  rewrite repeat_app, skipn_app, skipn_all2 by (rewrite repeat_length; auto).
  rewrite repeat_length, Nat.sub_diag. reflexivity.
Qed.

(** ** Pairs *)
Lemma in_tri_pairs m i j : In (i, j) (tri_pairs m) <-> i <= j < m.
Proof.
  unfold tri_pairs. rewrite in_flat_map. split.
  - intros [a [Ha Hb]]. apply in_map_iff in Hb. destruct Hb as [b [[= -> ->] Hb]].
    apply in_seq in Ha, Hb. lia.
  - intros H. exists i. split; [apply in_seq; lia|]. apply in_map_iff. exists j. split; auto. apply in_seq. lia.
Qed.

Lemma in_all_pairs m i j : In (i, j) (all_pairs m) <-> i < m /\ j < m.
Proof.
  unfold all_pairs. rewrite in_flat_map. split.
  - intros [a [Ha Hb]]. apply in_map_iff in Hb. destruct Hb as [b [[= -> ->] Hb]].
    apply in_seq in Ha, Hb. lia.
  - intros H. exists i. split; [apply in_seq; lia|]. apply in_map_iff. exists j. split; auto. apply in_seq. lia.
Qed.

Lemma NoDup_flat_map_pair (f : nat -> list nat) l :
  NoDup l -> (forall x, NoDup (f x)) -> NoDup (flat_map (fun a => map (pair a) (f a)) l).
Proof.
  intros ND Hf. induction ND as [|x t Hx ND IH]; simpl; [constructor|].
  apply NoDup_app_intro; auto.
  - apply FinFun.Injective_map_NoDup; auto. intros a b [= ->]. auto.
  - intros [a b] H1 H2. apply in_map_iff in H1. destruct H1 as [c [[= <- <-] _]].
    apply in_flat_map in H2. destruct H2 as [d [Hd H2]].
    apply in_map_iff in H2. destruct H2 as [e [[= -> ->] _]]. auto.
Qed.

Lemma tri_pairs_nodup m : NoDup (tri_pairs m).
Proof. apply NoDup_flat_map_pair; [|intros]; apply seq_NoDup. Qed.
Lemma all_pairs_nodup m : NoDup (all_pairs m).
Proof. apply NoDup_flat_map_pair; [|intros]; apply seq_NoDup. Qed.

Lemma fold_add_acc l a : fold_left Nat.add l a = a + fold_left Nat.add l 0.
Proof.
  revert a. induction l as [|x t IH]; intros a; simpl; [lia|].
  rewrite IH, (IH x). lia.
Qed.

Lemma triangular_step m : triangular (S m) = triangular m + S m.
Proof.
  unfold triangular. replace (S m + 1) with ((m + 1) + 1) by lia.
  rewrite (seq_app (m + 1) 1), fold_left_app. simpl. lia.
Qed.

Lemma triangular_formula m : 2 * triangular m = m * (m + 1).
Proof. induction m as [|m IH]; [reflexivity|]. rewrite triangular_step. nia. Qed.

Lemma flat_map_length {A B} (f : A -> list B) l :
  length (flat_map f l) = fold_left Nat.add (map (fun x => length (f x)) l) 0.
Proof.
  induction l as [|x t IH]; simpl; auto. rewrite app_length, IH, (fold_add_acc _ (length (f x))). reflexivity.
Qed.

Lemma tri_pairs_length m : length (tri_pairs m) = triangular m.
Proof.
  unfold tri_pairs. rewrite flat_map_length.
  assert (G : forall k s, s + k = m ->
     2 * fold_left Nat.add (map (fun x => length (map (pair x) (seq x (m - x)))) (seq s k)) 0 = k * (k + 1)).
  { induction k as [|k IH]; intros s Hs; [reflexivity|]. cbn [seq map fold_left].
    rewrite fold_add_acc. rewrite map_length, seq_length.
    specialize (IH (S s)). rewrite Nat.mul_add_distr_l. rewrite IH by lia.
    replace (0 + (m - s)) with (S k) by lia. nia. }
  specialize (G m 0 eq_refl). pose proof (triangular_formula m). lia.
Qed.

Lemma all_pairs_length m : length (all_pairs m) = m * m.
Proof.
  unfold all_pairs. rewrite flat_map_length.
  assert (G : forall l : list nat, fold_left Nat.add (map (fun x => length (map (pair x) (seq 0 m))) l) 0 = length l * m).
  { induction l as [|x t IH]; [reflexivity|]. cbn [map fold_left length]. rewrite fold_add_acc, IH, map_length, seq_length. lia. }
  rewrite G, seq_length. reflexivity.
Qed.

Lemma off_diagonal_length m :
  length (filter (fun p : nat * nat => negb (fst p =? snd p)) (all_pairs m)) = m * m - m.
Proof.
  assert (D : length (filter (fun p : nat * nat => (fst p =? snd p)) (all_pairs m)) = m).
  { assert (P : Permutation (filter (fun p : nat * nat => (fst p =? snd p)) (all_pairs m))
                (map (fun i => (i, i)) (seq 0 m))).
    { apply NoDup_Permutation.
      - apply NoDup_filter, all_pairs_nodup.
      - apply FinFun.Injective_map_NoDup; [|apply seq_NoDup]. intros a b [= ->]; auto.
      - intros [i j]. rewrite filter_In, in_all_pairs, in_map_iff. cbn [fst snd]. rewrite Nat.eqb_eq. split.
        + intros [[H1 H2] ->]. exists j. split; auto. apply in_seq. lia.
        + intros [k [[= -> ->] H]]. apply in_seq in H. lia. }
    rewrite (Permutation_length P), map_length, seq_length. reflexivity. }
  pose proof (filter_length_split (fun p : nat * nat => fst p =? snd p) (all_pairs m)) as S.
  rewrite all_pairs_length in S. lia.
Qed.

(** A filtered list whose head was removed disagrees with the list everywhere. *)
Lemma filter_nth_later {A} (P : A -> bool) (l : list A) d k :
  k < length (filter P l) -> exists q, k <= q < length l /\ nth q l d = nth k (filter P l) d.
Proof.
  revert k. induction l as [|x t IH]; intros k H; simpl in *; [lia|].
  destruct (P x).
  - destruct k as [|k].
    + exists 0. split; [lia|reflexivity].
    + simpl in H. destruct (IH k) as [q [Hq E]]; [lia|]. exists (S q). split; [lia|]. exact E.
  - destruct (IH k H) as [q [Hq E]]. exists (S q). split; [lia|exact E].
Qed.

Lemma filter_head_never_aligned {A} (P : A -> bool) x t d k :
  NoDup (x :: t) -> P x = false -> k < length (filter P (x :: t)) ->
  nth k (filter P (x :: t)) d <> nth k (x :: t) d.
Proof.
  intros ND Px H E. simpl in H, E. rewrite Px in *.
  destruct (filter_nth_later P t d k H) as [q [Hq Eq]].
  assert (S q = k); [|lia].
  apply (proj1 (NoDup_nth (x :: t) d) ND); simpl; [lia|lia|].
  rewrite Eq. exact E.
Qed.

(** ** Monomials *)
(** Exponent vectors of length n and sum k, in the order of
    combinations_with_replacement. *)
Definition inc_hd (e : list nat) : list nat := match e with [] => [] | c :: t => S c :: t end.
Fixpoint vectors (n : nat) : nat -> list (list nat) :=
  match n with
  | 0 => fun k => match k with 0 => [[]] | S _ => [] end
  | S n' => fix go k := match k with
                        | 0 => [repeat 0 n]
                        | S k' => map inc_hd (go k') ++ map (cons 0) (vectors n' (S k'))
                        end
  end.

Definition total (e : list nat) : nat := list_sum e.

Fixpoint expand {A} (p : list A) (e : list nat) : list A :=
  match p, e with x :: p', c :: e' => repeat x c ++ expand p' e' | _, _ => [] end.

Lemma expand_zero {A} (p : list A) n : expand p (repeat 0 n) = [].
Proof. revert n. induction p as [|x t IH]; intros [|n]; simpl; auto. Qed.

Lemma cwr_cons_0 {A} (x : A) t : cwr (x :: t) 0 = [[]].
Proof. reflexivity. Qed.
Lemma cwr_cons_S {A} (x : A) t k : cwr (x :: t) (S k) = map (cons x) (cwr (x :: t) k) ++ cwr t (S k).
Proof. reflexivity. Qed.
Lemma vectors_S_0 n : vectors (S n) 0 = [repeat 0 (S n)].
Proof. reflexivity. Qed.
Lemma vectors_S_S n k : vectors (S n) (S k) = map inc_hd (vectors (S n) k) ++ map (cons 0) (vectors n (S k)).
Proof. reflexivity. Qed.

Lemma in_vectors n k e : In e (vectors n k) <-> length e = n /\ total e = k.
Proof.
  revert k e. induction n as [|n IHn].
  - intros [|k] e; simpl; split.
    + intros [<-|[]]. auto.
    + intros [H _]. destruct e; [auto|discriminate].
    + intros [].
    + intros [H H']. destruct e; discriminate.
  - induction k as [|k IHk]; intros e.
    + rewrite vectors_S_0. split.
      * intros [<-|[]]. rewrite repeat_length. split; auto.
        assert (G : forall j, total (repeat 0 j) = 0) by (induction j; simpl; auto). apply G.
      * intros [H1 H2]. left. clear IHn. revert e H1 H2. generalize (S n) as j.
        induction j as [|j IH]; intros [|c e] H1 H2; simpl in *; try discriminate; auto.
        unfold total in *. simpl in H2. assert (c = 0) by lia. subst. f_equal. apply IH; [lia|]. exact H2.
    + rewrite vectors_S_S, in_app_iff, !in_map_iff. split.
      * intros [[e' [<- H]]|[e' [<- H]]].
        -- apply IHk in H. destruct e' as [|c t]; simpl in *; [lia|]. unfold total in *. simpl in *. lia.
        -- apply IHn in H. unfold total in *. simpl. lia.
      * intros [H1 H2]. destruct e as [|[|c] t]; simpl in *; [discriminate| |].
        -- right. exists t. split; auto. apply IHn. unfold total in *. simpl in H2. lia.
        -- left. exists (c :: t). split; auto. apply IHk. unfold total in *. simpl in *. lia.
Qed.

Lemma vectors_nodup n k : NoDup (vectors n k).
Proof.
  revert k. induction n as [|n IHn].
  - intros [|k]; simpl; constructor; auto. constructor.
  - induction k as [|k IHk].
    + rewrite vectors_S_0. constructor; auto. constructor.
    + rewrite vectors_S_S. apply NoDup_app_intro.
      * assert (G : forall l : list (list nat), (forall e, In e l -> length e = S n) -> NoDup l -> NoDup (map inc_hd l)).
        { induction l as [|e l IH]; intros HL ND; simpl; [constructor|]. inversion ND; subst.
          constructor; [|apply IH; auto; intros; apply HL; right; auto].
          intros H. apply in_map_iff in H. destruct H as [e' [E H']].
          pose proof (HL e (or_introl eq_refl)). pose proof (HL e' (or_intror H')).
          destruct e, e'; simpl in *; try discriminate. injection E as <- <-. auto. }
        apply G; auto. intros e He. apply in_vectors in He. tauto.
      * apply FinFun.Injective_map_NoDup; auto. intros a b [= ->]; auto.
      * intros e H1 H2. apply in_map_iff in H1, H2. destruct H1 as [a [<- H1]], H2 as [b [E H2]].
        apply in_vectors in H1. destruct a; simpl in *; [lia|discriminate].
Qed.

Lemma cwr_vectors {A} (p : list A) k : cwr p k = map (expand p) (vectors (length p) k).
Proof.
  revert k. induction p as [|x t IHp].
  - intros [|k]; reflexivity.
  - induction k as [|k IHk].
    + cbn [length]. rewrite vectors_S_0. cbn [map]. rewrite expand_zero. reflexivity.
    + cbn [length]. rewrite cwr_cons_S, vectors_S_S, map_app, !map_map.
      cbn [length] in IHk. rewrite IHk, map_map, IHp. f_equal.
      * apply map_ext_in. intros e He. apply in_vectors in He. destruct e as [|c e]; simpl in *; [lia|]. reflexivity.
Qed.

(** Exponent vectors of total degree 1..N, degrees decreasing. *)
Definition degrees (n N : nat) : list (list nat) := flat_map (vectors n) (rev (seq 1 N)).

Lemma powers_degrees {A} (p : list A) N : powers p N = map (expand p) (degrees (length p) N).
Proof.
  unfold powers, degrees. rewrite !flat_map_concat_map, concat_map, map_map. f_equal.
  apply map_ext. intros k. apply cwr_vectors.
Qed.

Lemma in_degrees n N e : In e (degrees n N) <-> length e = n /\ 1 <= total e <= N.
Proof.
  unfold degrees. rewrite in_flat_map. split.
  - intros [k [Hk He]]. apply in_rev, in_seq in Hk. apply in_vectors in He. lia.
  - intros [H1 H2]. exists (total e). split; [apply in_rev; rewrite rev_involutive; apply in_seq; lia|].
    apply in_vectors. auto.
Qed.

Lemma degrees_nodup n N : NoDup (degrees n N).
Proof.
  unfold degrees.
  assert (G : forall l, NoDup l -> NoDup (flat_map (vectors n) l)).
  { induction l as [|k t IH]; intros ND; simpl; [constructor|]. inversion ND; subst.
    apply NoDup_app_intro; auto; [apply vectors_nodup|].
    intros e He Hf. apply in_vectors in He. apply in_flat_map in Hf. destruct Hf as [j [Hj Hf]].
    apply in_vectors in Hf. destruct He as [_ <-], Hf as [_ <-]. auto. }
  apply G. apply NoDup_rev, seq_NoDup.
Qed.

(** Number of vectors. *)
Fixpoint binom (n k : nat) : nat :=
  match k, n with
  | 0, _ => 1
  | S _, 0 => 0
  | S k', S n' => binom n' k' + binom n' k
  end.

Lemma vectors_count n k : length (vectors (S n) k) = binom (n + k) k.
Proof.
  revert k. induction n as [|n IHn].
  - induction k as [|k IHk]; [reflexivity|].
    rewrite vectors_S_S, app_length, !map_length, IHk. simpl.
    assert (G : forall j, binom j (S j) = 0 /\ forall i, j < i -> binom j i = 0).
    { induction j as [|j [_ IH]]; split; try reflexivity.
      - intros [|i] Hi; [lia|reflexivity].
      - simpl. rewrite !IH by lia. reflexivity.
      - intros [|i] Hi; [lia|]. simpl. rewrite !IH by lia. reflexivity. }
    rewrite (proj1 (G k)). simpl. lia.
  - induction k as [|k IHk]; [reflexivity|].
    rewrite vectors_S_S, app_length, !map_length, IHk, IHn.
    replace (S n + S k) with (S (S n + k)) by lia.
    replace (n + S k) with (S n + k) by lia. reflexivity.
Qed.

Lemma degrees_count n N : S (length (degrees n N)) = binom (n + N) N.
Proof.
  rewrite <- vectors_count. unfold degrees.
  induction N as [|N IH]; [reflexivity|].
  rewrite seq_S, rev_app_distr. cbn [rev app flat_map]. rewrite app_length.
  rewrite vectors_S_S, app_length, !map_length. simpl (1 + N). lia.
Qed.

(** Values. *)
Open Scope R_scope.
Fixpoint monomial (p : list R) (e : list nat) : R :=
  match p, e with x :: p', c :: e' => x ^ c * monomial p' e' | _, _ => 1 end.

Fixpoint prodR (l : list R) : R := match l with [] => 1 | x :: t => x * prodR t end.

Lemma fold_mult_acc t x : fold_left Rmult t x = x * prodR t.
Proof. revert x. induction t as [|y t IH]; intros x; simpl; [ring|]. rewrite IH. ring. Qed.

Lemma product_prodR l : product l = prodR l.
Proof. destruct l as [|x t]; simpl; auto. apply fold_mult_acc. Qed.

Lemma prodR_app a b : prodR (a ++ b) = prodR a * prodR b.
Proof. induction a as [|x t IH]; simpl; [ring|]. rewrite IH. ring. Qed.

Lemma prodR_repeat x c : prodR (repeat x c) = x ^ c.
Proof. induction c as [|c IH]; simpl; auto. rewrite IH. reflexivity. Qed.

Lemma prodR_expand p e : prodR (expand p e) = monomial p e.
Proof.
  revert e. induction p as [|x t IH]; intros [|c e]; simpl; auto.
  rewrite prodR_app, prodR_repeat, IH. reflexivity.
Qed.

Lemma monomial_zero p n : monomial p (repeat 0%nat n) = 1.
Proof. revert n. induction p as [|x t IH]; intros [|n]; simpl; auto. rewrite IH. ring. Qed.

Lemma expand_map {A B} (f : A -> B) p e : expand (map f p) e = map f (expand p e).
Proof.
  revert e. induction p as [|x t IH]; intros [|c e]; simpl; auto.
  rewrite map_app, IH. f_equal. induction c; simpl; congruence.
Qed.

Lemma map_nth_seq {A} (p : list A) d : map (fun i => nth i p d) (seq 0 (length p)) = p.
Proof.
  apply (@list_ext_nth _ d).
  - rewrite map_length, seq_length. auto.
  - intros i Hi. rewrite map_length, seq_length in Hi.
    rewrite (nth_map_lt _ _ _ 0%nat) by (rewrite seq_length; auto). rewrite seq_nth by auto. reflexivity.
Qed.

(** Collecting equal factors does not change the product when no factor is
    negative. *)
Lemma factor_pow v c : 0 <= v -> factor v c = v ^ c.
Proof.
  intros H. unfold factor. destruct (Nat.eqb_spec c 1) as [->|]; [simpl; ring|].
  rewrite (proj2 (Rltb_false v 0)) by auto. reflexivity.
Qed.

Lemma uniq_in l x : In x (uniq l) <-> In x l.
Proof.
  induction l as [|y t IH]; simpl; [tauto|]. rewrite filter_In, IH. split.
  - tauto.
  - intros [->|H]; auto. destruct (Reqb y x) eqn:E.
    + apply Reqb_true in E. auto.
    + auto.
Qed.

Lemma prodR_filter_split (f : R -> bool) l :
  prodR l = prodR (filter f l) * prodR (filter (fun x => negb (f x)) l).
Proof. induction l as [|x t IH]; simpl; [ring|]. rewrite IH. destruct (f x); simpl; ring. Qed.

Lemma prodR_filter_eq x l : prodR (filter (Reqb x) l) = x ^ count x l.
Proof.
  unfold count. induction l as [|y t IH]; simpl; auto.
  destruct (Reqb x y) eqn:E; simpl; auto. apply Reqb_true in E. subst. rewrite IH. reflexivity.
Qed.

Lemma uniq_filter x l : filter (fun y => negb (Reqb x y)) (uniq l) = uniq (filter (fun y => negb (Reqb x y)) l).
Proof.
  induction l as [|y t IH]; simpl; auto.
  destruct (Reqb x y) eqn:E; simpl.
  - apply Reqb_true in E. subst y. rewrite <- IH.
    clear. induction (uniq t) as [|z s IHs]; simpl; auto.
    destruct (Reqb x z) eqn:E; simpl; [auto|]. rewrite E. simpl. rewrite IHs. reflexivity.
  - f_equal. rewrite <- IH. clear.
    induction (uniq t) as [|z s IHs]; simpl; auto.
    destruct (Reqb y z) eqn:E1, (Reqb x z) eqn:E2; simpl; rewrite ?E1, ?E2; simpl; auto; rewrite IHs; auto.
Qed.

Lemma count_filter x y l : x <> y -> count y (filter (fun z => negb (Reqb x z)) l) = count y l.
Proof.
  intros N. unfold count. f_equal. induction l as [|z t IH]; simpl; auto.
  destruct (Reqb x z) eqn:E; simpl.
  - rewrite IH. destruct (Reqb y z) eqn:E2; auto. apply Reqb_true in E, E2. congruence.
  - rewrite IH. reflexivity.
Qed.

Lemma collect_product l : prodR (map (fun v => v ^ count v l) (uniq l)) = prodR l.
Proof.
  remember (length l) as n eqn:Hn. revert l Hn. induction n as [n IH] using lt_wf_ind. intros l Hn.
  destruct l as [|x t]; [reflexivity|]. cbn [uniq map prodR].
  rewrite uniq_filter.
  set (r := filter (fun y => negb (Reqb x y)) t).
  assert (Lr : (length r < n)%nat).
  { subst n. simpl. unfold r. clear. induction t as [|y t IH]; simpl; [lia|]. destruct (Reqb x y); simpl in *; lia. }
  rewrite (map_ext_in _ (fun v => v ^ count v r)).
  - rewrite (IH (length r) Lr r eq_refl).
    rewrite (prodR_filter_split (Reqb x) t), prodR_filter_eq. fold r.
    unfold count at 1. simpl. rewrite Reqb_refl. simpl. fold (count x t). ring.
  - intros v Hv. apply (proj1 (uniq_in _ _)) in Hv. unfold r in Hv. apply filter_In in Hv. destruct Hv as [Hv E].
    apply negb_true_iff, Reqb_false in E. unfold r. rewrite count_filter by auto.
    unfold count. simpl. rewrite (proj2 (Reqb_false v x)) by auto. reflexivity.
Qed.

Lemma decode_key_nonneg p e :
  (forall x, In x p -> 0 <= x) -> length e = length p ->
  decode_key p (expand (seq 0 (length p)) e) = monomial p e.
Proof.
  intros NN L. unfold decode_key.
  rewrite <- expand_map, map_nth_seq.
  rewrite (map_ext_in _ (fun v => v ^ count v (expand p e))).
  - rewrite product_prodR, collect_product. apply prodR_expand.
  - intros v Hv. apply factor_pow. apply (proj1 (uniq_in _ _)) in Hv. apply NN.
    clear -Hv. revert e Hv. induction p as [|x t IH]; intros [|c e]; simpl; try tauto.
    intros H. apply in_app_iff in H. destruct H as [H|H]; [left; symmetry; eapply repeat_spec; eauto|right; eauto].
Qed.

(** Elements of an expanded vector. *)
Lemma in_expand_seq s n e i :
  length e = n -> (In i (expand (seq s n) e) <-> (s <= i < s + n)%nat /\ nth (i - s) e 0%nat <> 0%nat).
Proof.
  revert s e. induction n as [|n IH]; intros s [|c e] L; simpl in *; try discriminate.
  - split; [tauto|]. intros [H _]. lia.
  - rewrite in_app_iff, (IH (S s) e) by lia. split.
    + intros [H|[H H']].
      * pose proof (repeat_spec _ _ _ H). subst i. rewrite Nat.sub_diag. split; [lia|].
        destruct c; [destruct H|discriminate].
      * split; [lia|]. replace (i - s)%nat with (S (i - S s)) by lia. exact H'.
    + intros [H H']. destruct (Nat.eq_dec i s) as [->|N].
      * left. rewrite Nat.sub_diag in H'. destruct c; [congruence|simpl; auto].
      * right. split; [lia|]. replace (i - s)%nat with (S (i - S s)) in H' by lia. exact H'.
Qed.

Lemma disjointb_expand n e1 e2 :
  length e1 = n -> length e2 = n ->
  (disjointb (expand (seq 0 n) e1) (expand (seq 0 n) e2) = true <->
   forall i, (i < n)%nat -> nth i e1 0%nat = 0%nat \/ nth i e2 0%nat = 0%nat).
Proof.
  intros L1 L2. unfold disjointb. rewrite negb_true_iff. split.
  - intros H i Hi. destruct (Nat.eq_dec (nth i e1 0%nat) 0) as [|N1]; auto.
    destruct (Nat.eq_dec (nth i e2 0%nat) 0) as [|N2]; auto. exfalso.
    assert (existsb (fun i => existsb (Nat.eqb i) (expand (seq 0 n) e2)) (expand (seq 0 n) e1) = true); [|congruence].
    apply existsb_exists. exists i. split.
    + apply in_expand_seq; auto. rewrite Nat.sub_0_r. split; auto. lia.
    + apply existsb_exists. exists i. split; [|apply Nat.eqb_refl].
      apply in_expand_seq; auto. rewrite Nat.sub_0_r. split; auto. lia.
  - intros H. apply not_true_iff_false. intros E. apply existsb_exists in E. destruct E as [i [H1 E]].
    apply existsb_exists in E. destruct E as [j [H2 E]]. apply Nat.eqb_eq in E. subst j.
    apply in_expand_seq in H1, H2; auto. rewrite Nat.sub_0_r in *.
    destruct (H i); [lia|tauto|tauto].
Qed.
