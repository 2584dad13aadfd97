(** Proofs about natural selection, duplicate removal, convergence and the
    search loop of the genetic algorithm. *)
From Coq Require Import List Arith Lia Permutation Bool Sorting.Sorted.
From Verif Require Import Base BaseFacts GAModel.
Import ListNotations.
Local Open Scope nat_scope.

Section Reduction.
Context {C F : Type}.
Variable leb : F -> F -> bool.
Hypothesis Hord : total_preorder leb.

Lemma desc_pair_tp : total_preorder (desc_pair (C := C) leb).
Proof.
  destruct Hord as [H1 H2]. unfold desc_pair. split.
  - intros x y. apply H1.
  - intros x y z A B. eapply H2; eauto.
Qed.

Lemma reduction_pairs (pop : list C) (fit : list F) size :
  let '(p, f) := population_reduction leb pop fit size in
  combine p f = firstn size (isort (desc_pair leb) (combine pop fit)) /\ length p = length f.
Proof.
  unfold population_reduction. split; [apply combine_map_fst_snd|]. rewrite !map_length; auto.
Qed.

Lemma reduction_length (pop : list C) (fit : list F) size p f :
  length pop = length fit -> population_reduction leb pop fit size = (p, f) ->
  length p = min size (length pop) /\ length f = min size (length pop).
Proof.
  intros HL E. unfold population_reduction in E. inversion E; subst.
  rewrite !map_length, firstn_length, isort_length, combine_length. lia.
Qed.

Lemma reduction_spec (pop : list C) (fit : list F) size p f :
  population_reduction leb pop fit size = (p, f) ->
  exists rest, Permutation (combine p f ++ rest) (combine pop fit) /\
    (forall kept gone, In kept (combine p f) -> In gone rest -> leb (snd gone) (snd kept) = true) /\
    StronglySorted (fun a b => leb b a = true) f.
Proof.
  intros E. pose proof (reduction_pairs pop fit size) as HP. rewrite E in HP. destruct HP as [HP HL].
  exists (skipn size (isort (desc_pair leb) (combine pop fit))).
  set (s := isort (desc_pair leb) (combine pop fit)) in *.
  assert (HS : StronglySorted (rel (desc_pair leb)) s) by (apply isort_sorted, desc_pair_tp).
  rewrite <- (firstn_skipn size s) in HS. apply StronglySorted_app_inv in HS.
  destruct HS as (S1 & S2 & S3). rewrite HP. split; [|split].
  - rewrite firstn_skipn. apply isort_perm.
  - intros a b Ha Hb. apply (S3 a b Ha Hb).
  - assert (Hf : f = map snd (firstn size s)).
    { unfold population_reduction in E. inversion E. reflexivity. }
    rewrite Hf. clear - S1. induction S1; simpl; constructor; auto.
    rewrite Forall_forall in *. intros y Hy. apply in_map_iff in Hy. destruct Hy as (z & <- & Hz).
    apply (H z Hz).
Qed.

(** the best of everything that goes in is dominated by something that comes out *)
Lemma reduction_best (pop : list C) (fit : list F) size p f c x :
  1 <= size -> length pop = length fit -> population_reduction leb pop fit size = (p, f) ->
  In (c, x) (combine pop fit) -> exists y, In y f /\ leb x y = true.
Proof.
  intros Hs HL E Hin.
  destruct (reduction_spec _ _ _ _ _ E) as (rest & HP & HK & _).
  destruct (reduction_length _ _ _ _ _ HL E) as [Hlp Hlf].
  pose proof (Permutation_in _ (Permutation_sym HP) Hin) as H.
  apply in_app_iff in H. destruct H as [H|H].
  - exists x. split; [eapply in_combine_r; eauto|]. destruct Hord as [H1 _]. destruct (H1 x x); auto.
  - destruct (combine p f) as [|[c' y] t] eqn:Ec.
    + assert (length (combine p f) = 0) by (rewrite Ec; auto). rewrite combine_length in H0.
      assert (length pop <> 0) by (destruct pop; simpl in *; [tauto|lia]). lia.
    + exists y. split.
      * apply in_combine_r with (l := p) (x := c'). rewrite Ec. left; auto.
      * apply (HK (c', y) (c, x)); simpl; auto.
Qed.
End Reduction.

(** ** remove_duplicates *)
Section Duplicates.
Context {C F G : Type}.
Variable rnd : F -> G.
Variable geqb : G -> G -> bool.
Hypothesis geqb_spec : forall x y, geqb x y = true <-> x = y.

Lemma geqb_refl x : geqb x x = true.
Proof. apply geqb_spec; auto. Qed.

(** positions [i, i+n) not classified as duplicates, in order *)
Fixpoint firsts (seen : list G) (i : nat) (l : list G) : list nat :=
  match l with
  | [] => []
  | r :: t => if existsb (geqb r) seen then i :: firsts seen (S i) t
              else firsts (r :: seen) (S i) t
  end.

Lemma mem_iff x l : existsb (geqb x) l = true <-> In x l.
Proof.
  rewrite existsb_exists. split.
  - intros (y & Hy & E). apply geqb_spec in E. subst; auto.
  - intros H; exists x; split; auto. apply geqb_refl.
Qed.
Lemma mem_iff' x l : existsb (fun u => geqb u x) l = true <-> In x l.
Proof.
  rewrite existsb_exists. split.
  - intros (y & Hy & E). apply geqb_spec in E. subst; auto.
  - intros H; exists x; split; auto. apply geqb_refl.
Qed.

Lemma unique_vals_in x l : In x (unique_vals geqb l) <-> In x l.
Proof.
  induction l as [|y l IH]; simpl; [tauto|].
  destruct (existsb (geqb y) (unique_vals geqb l)) eqn:E; simpl; rewrite IH; [|tauto].
  split; auto. intros [<-|H]; auto. apply IH. apply mem_iff; auto.
Qed.
Lemma unique_vals_nodup l : NoDup (unique_vals geqb l).
Proof.
  induction l as [|y l IH]; simpl; [constructor|].
  destruct (existsb (geqb y) (unique_vals geqb l)) eqn:E; auto.
  constructor; auto. intros H. apply mem_iff in H. congruence.
Qed.
Lemma remove_first_in x y l : NoDup l -> (In y (remove_first geqb x l) <-> In y l /\ y <> x).
Proof.
  induction l as [|z l IH]; simpl; intros HN; [tauto|].
  inversion HN; subst. destruct (geqb z x) eqn:E.
  - apply geqb_spec in E. subst z. split.
    + intros H. split; auto. intros ->; auto.
    + intros [[<-|H] Hne]; congruence.
  - simpl. rewrite IH by auto. split.
    + intros [<-|[H Hne]]; auto. split; auto. intros ->. rewrite geqb_refl in E. discriminate.
    + intros [[<-|H] Hne]; auto.
Qed.
Lemma remove_first_nodup x l : NoDup l -> NoDup (remove_first geqb x l).
Proof.
  induction l as [|z l IH]; simpl; intros HN; auto. inversion HN; subst.
  destruct (geqb z x); auto. constructor; auto.
  intros H. apply remove_first_in in H; tauto.
Qed.

(** the mutable [unique] of the source represents "not seen yet" *)
Lemma find_duplicates_firsts i l unique seen :
  NoDup unique -> (forall x, In x l -> (In x unique <-> ~ In x seen)) ->
  find_duplicates geqb i l unique = firsts seen i l.
Proof.
  revert i unique seen. induction l as [|r l IH]; simpl; intros i unique seen HN H; auto.
  assert (Hr := H r (or_introl eq_refl)).
  destruct (existsb (fun u => geqb u r) unique) eqn:E1, (existsb (geqb r) seen) eqn:E2.
  - apply mem_iff' in E1. apply mem_iff in E2. tauto.
  - apply IH; [apply remove_first_nodup; auto|].
    intros x Hx. rewrite remove_first_in by auto. simpl. rewrite (H x) by auto.
    split; [intros [A B] [->|D]; auto|]. intros A. split; [tauto|]. intros ->. apply A; auto.
  - f_equal. apply IH; auto.
  - exfalso. assert (~ In r unique) by (rewrite <- mem_iff'; congruence).
    assert (~ In r seen) by (rewrite <- mem_iff; congruence). tauto.
Qed.

(** keep the first occurrence of every rounded value: direct recursion *)
Fixpoint keep_first {A} (f : A -> G) (seen : list G) (l : list A) : list A :=
  match l with
  | [] => []
  | x :: t => if existsb (geqb (f x)) seen then keep_first f seen t
              else x :: keep_first f (f x :: seen) t
  end.

Lemma firsts_ge seen i l j : In j (firsts seen i l) -> i <= j.
Proof.
  revert seen i; induction l as [|r l IH]; simpl; intros seen i; [tauto|].
  destruct (existsb (geqb r) seen).
  - intros [<-|H]; auto. apply IH in H. lia.
  - intros H. apply IH in H. lia.
Qed.

Lemma delete_idx_from {A} (l : list A) (f : A -> G) seen i :
  map snd (filter (fun p => negb (existsb (Nat.eqb (fst p)) (firsts seen i (map f l))))
     (combine (seq i (length l)) l)) = keep_first f seen l.
Proof.
  revert seen i; induction l as [|x l IH]; simpl; intros seen i; auto.
  assert (Hext : forall s k, i < k ->
    filter (fun p => negb (existsb (Nat.eqb (fst p)) (i :: firsts s k (map f l)))) (combine (seq k (length l)) l)
    = filter (fun p => negb (existsb (Nat.eqb (fst p)) (firsts s k (map f l)))) (combine (seq k (length l)) l)).
  { intros s k Hk. apply filter_ext_in. intros [n y] Hin. simpl.
    apply in_combine_l in Hin. apply in_seq in Hin. destruct (Nat.eqb_spec n i); [lia|]. auto. }
  destruct (existsb (geqb (f x)) seen) eqn:E.
  - simpl. rewrite Nat.eqb_refl. simpl. simpl in Hext. rewrite Hext by lia. apply IH.
  - destruct (existsb (Nat.eqb i) (firsts (f x :: seen) (S i) (map f l))) eqn:E2.
    + exfalso. apply existsb_exists in E2. destruct E2 as (j & Hj & Ej). apply Nat.eqb_eq in Ej. subst j.
      apply firsts_ge in Hj. lia.
    + simpl. f_equal. apply IH.
Qed.

Lemma keep_first_map {A B} (g : A -> B) (f : B -> G) seen l :
  map g (keep_first (fun x => f (g x)) seen l) = keep_first f seen (map g l).
Proof.
  revert seen; induction l as [|x l IH]; simpl; intros; auto.
  destruct (existsb _ seen); simpl; auto. f_equal; auto.
Qed.

Lemma remove_duplicates_eq (pop : list C) (fit : list F) :
  length pop = length fit ->
  remove_duplicates rnd geqb pop fit =
  (map fst (keep_first (fun p => rnd (snd p)) [] (combine pop fit)),
   map snd (keep_first (fun p => rnd (snd p)) [] (combine pop fit))).
Proof.
  intros HL. unfold remove_duplicates. cbv zeta.
  rewrite find_duplicates_firsts with (seen := []).
  2: apply unique_vals_nodup.
  2:{ intros x Hx. rewrite unique_vals_in. simpl. tauto. }
  unfold delete_idx.
  assert (Hfit : fit = map snd (combine pop fit)) by (rewrite map_combine_snd; auto; lia).
  assert (Hpop : pop = map fst (combine pop fit)) by (rewrite map_combine_fst; auto; lia).
  remember (combine pop fit) as z eqn:Hz. clear Hz.
  rewrite Hpop at 1 2. rewrite Hfit. rewrite !map_length, !map_map.
  f_equal.
  - rewrite <- (@delete_idx_from _ z (fun p => rnd (snd p)) [] 0).
    rewrite map_map. generalize (firsts [] 0 (map (fun x => rnd (snd x)) z)) as idx. intros idx.
    generalize 0. clear. induction z as [|x z IH]; simpl; intros n; auto.
    destruct (negb (existsb (Nat.eqb n) idx)); simpl; rewrite IH; auto.
  - rewrite <- (@delete_idx_from _ z (fun p => rnd (snd p)) [] 0).
    rewrite map_map. generalize (firsts [] 0 (map (fun x => rnd (snd x)) z)) as idx. intros idx.
    generalize 0. clear. induction z as [|x z IH]; simpl; intros n; auto.
    destruct (negb (existsb (Nat.eqb n) idx)); simpl; rewrite IH; auto.
Qed.

Section KF.
Context {A : Type} (f : A -> G).
Lemma keep_first_sub seen l x : In x (keep_first f seen l) -> In x l /\ ~ In (f x) seen.
Proof.
  revert seen; induction l as [|y l IH]; simpl; intros seen; [tauto|].
  destruct (existsb (geqb (f y)) seen) eqn:E.
  - intros H. apply IH in H. tauto.
  - simpl. intros [<-|H].
    + split; auto. rewrite <- mem_iff. congruence.
    + apply IH in H. simpl in H. tauto.
Qed.
Lemma keep_first_nodup seen l : NoDup (map f (keep_first f seen l)).
Proof.
  revert seen; induction l as [|y l IH]; simpl; intros seen; [constructor|].
  destruct (existsb (geqb (f y)) seen); auto. simpl. constructor; auto.
  intros H. apply in_map_iff in H. destruct H as (z & E & Hz). apply keep_first_sub in Hz.
  simpl in Hz. rewrite E in Hz. tauto.
Qed.
Lemma keep_first_first seen l1 x l2 :
  ~ In (f x) seen -> (forall y, In y l1 -> f y <> f x) -> In x (keep_first f seen (l1 ++ x :: l2)).
Proof.
  revert seen; induction l1 as [|y l1 IH]; simpl; intros seen Hs Hl.
  - rewrite <- mem_iff in Hs. destruct (existsb (geqb (f x)) seen); [congruence|]. left; auto.
  - destruct (existsb (geqb (f y)) seen).
    + apply IH; auto.
    + right. apply IH; auto. simpl. intros [H|H]; auto. apply (Hl y); auto.
Qed.
Lemma keep_first_occurrence seen l x :
  In x (keep_first f seen l) -> exists l1 l2, l = l1 ++ x :: l2 /\ forall y, In y l1 -> f y <> f x.
Proof.
  revert seen; induction l as [|y l IH]; simpl; intros seen; [tauto|].
  destruct (existsb (geqb (f y)) seen) eqn:E.
  - intros H. pose proof (keep_first_sub _ _ _ H) as [_ Hns]. apply IH in H. destruct H as (l1 & l2 & -> & H).
    exists (y :: l1), l2. split; auto. intros z [<-|Hz]; auto. intros Ez. apply Hns. rewrite <- Ez. apply mem_iff; auto.
  - simpl. intros [<-|H].
    + exists [], l. split; [reflexivity|]. intros z [].
    + pose proof (keep_first_sub _ _ _ H) as [_ Hns]. apply IH in H. destruct H as (l1 & l2 & -> & H).
      exists (y :: l1), l2. split; auto. intros z [<-|Hz]; auto. intros Ez. apply Hns. rewrite <- Ez. left; auto.
Qed.
Lemma keep_first_complete l x : In x l -> exists y, In y (keep_first f [] l) /\ f y = f x.
Proof.
  assert (H : forall l seen, In x l -> ~ In (f x) seen -> exists y, In y (keep_first f seen l) /\ f y = f x).
  { clear l. induction l as [|z l IH]; simpl; intros seen Hin Hs; [tauto|].
    destruct (existsb (geqb (f z)) seen) eqn:E.
    - destruct Hin as [->|Hin]; auto. apply mem_iff in E. tauto.
    - destruct Hin as [->|Hin]; [exists x; simpl; auto|].
      destruct (geqb (f z) (f x)) eqn:E2.
      + apply geqb_spec in E2. exists z; simpl; auto.
      + destruct (IH (f z :: seen) Hin) as (y & Hy & Ey).
        * simpl. intros [H|H]; auto. rewrite H, geqb_refl in E2. discriminate.
        * exists y. simpl; auto. }
  intros Hin. apply H; auto.
Qed.
End KF.
End Duplicates.

(** ** Convergence *)
Section Conv.
Context {F : Type}.
Variable leb : F -> F -> bool.
Hypothesis Hord : total_preorder leb.
Variable ninf : F.
Hypothesis Hninf : forall x, leb ninf x = true.

Lemma maxl_ge x l : leb x (maxl leb x l) = true /\ forall y, In y l -> leb y (maxl leb x l) = true.
Proof.
  destruct Hord as [Htot Htr].
  revert x; induction l as [|z l IH]; simpl; intros x.
  - split; [destruct (Htot x x); auto|tauto].
  - destruct (leb x z) eqn:E.
    + destruct (IH z) as [A B]. split; [eapply Htr; eauto|].
      intros y [<-|Hy]; auto.
    + destruct (IH x) as [A B]. split; auto. intros y [<-|Hy]; auto.
      destruct (Htot x z) as [H|H]; [congruence|]. eapply Htr; eauto.
Qed.
Lemma maxl_in x l : maxl leb x l = x \/ In (maxl leb x l) l.
Proof.
  revert x; induction l as [|z l IH]; simpl; intros x; auto.
  destruct (IH (if leb x z then z else x)) as [H|H]; auto.
  rewrite H. destruct (leb x z); auto.
Qed.

(** Running the no_progress check on a history of maxima. *)
Fixpoint run_np (repeat : nat) (st : F * nat) (ms : list F) : list bool * (F * nat) :=
  match ms with
  | [] => ([], st)
  | m :: t =>
    let '(b, st') := no_progress_max leb repeat st m in
    let '(bs, st'') := run_np repeat st' t in (b :: bs, st'')
  end.

Lemma run_np_app repeat st l1 l2 :
  run_np repeat st (l1 ++ l2) =
  (fst (run_np repeat st l1) ++ fst (run_np repeat (snd (run_np repeat st l1)) l2),
   snd (run_np repeat (snd (run_np repeat st l1)) l2)).
Proof.
  revert st; induction l1 as [|m l1 IH]; simpl; intros st.
  - destruct (run_np repeat st l2); auto.
  - unfold no_progress_max. destruct st as [p c].
    destruct (leb m p); simpl.
    + specialize (IH (p, c + 1)). destruct (run_np repeat (p, c + 1) (l1 ++ l2)) as [a b].
      destruct (run_np repeat (p, c + 1) l1) as [a1 b1]. simpl in *. inversion IH; subst; auto.
    + specialize (IH (m, 0)). destruct (run_np repeat (m, 0) (l1 ++ l2)) as [a b].
      destruct (run_np repeat (m, 0) l1) as [a1 b1]. simpl in *. inversion IH; subst; auto.
Qed.

(** The last [k] values of the history do not exceed what came before them
    (or -inf). *)
Definition stagnant_for (k : nat) (ms : list F) : Prop :=
  k <= length ms /\ forall y, In y (skipn (length ms - k) ms) ->
    exists x, In x (ninf :: firstn (length ms - k) ms) /\ leb y x = true.

(** state invariant: [previous] is a running maximum, [count] the largest
    number of trailing calls without progress *)
Lemma run_np_state repeat ms :
  let '(p, c) := snd (run_np repeat (ninf, 0) ms) in
  In p (ninf :: ms) /\ (forall y, In y (ninf :: ms) -> leb y p = true) /\ c <= length ms /\ (forall k, k <= length ms -> (k <= c <-> stagnant_for k ms)).
Proof.
  destruct Hord as [Htot Htr].
  induction ms as [|m ms IH] using rev_ind.
  - simpl. split; [auto|]. split; [intros y [<-|[]]; auto|]. split; [auto|].
    intros k Hk. unfold stagnant_for. simpl. split; [|tauto]. intros _. split; [auto|].
    intros y [].
  - rewrite run_np_app. simpl. destruct (snd (run_np repeat (ninf, 0) ms)) as [p c] eqn:E.
    destruct IH as (Hp & Hub & Hc & Hk).
    assert (Hsk : forall k, k <= length ms -> skipn (length (ms ++ [m]) - S k) (ms ++ [m]) = skipn (length ms - k) ms ++ [m]
                   /\ firstn (length (ms ++ [m]) - S k) (ms ++ [m]) = firstn (length ms - k) ms).
    { intros k Hkl. rewrite app_length. simpl.
      replace (length ms + 1 - S k) with (length ms - k) by lia.
      rewrite skipn_app, firstn_app. replace (length ms - k - length ms) with 0 by lia.
      simpl. rewrite app_nil_r. auto. }
    unfold no_progress_max.
    destruct (leb m p) eqn:Emp; simpl.
    + split; [|split; [|split]].
      * destruct Hp as [->|Hp]; auto. right. apply in_app_iff; auto.
      * intros y [<-|Hy]; [apply Hub; left; auto|]. apply in_app_iff in Hy.
        destruct Hy as [Hy|[<-|[]]]; auto. apply Hub; right; auto.
      * rewrite app_length; simpl; lia.
      * intros k Hkl. destruct k as [|k].
        { split; [|lia]. intros _. split; [lia|]. rewrite Nat.sub_0_r, skipn_all. intros y []. }
        rewrite app_length in Hkl; simpl in Hkl. assert (Hkl' : k <= length ms) by lia.
        destruct (Hsk k Hkl') as [Hs1 Hs2].
        unfold stagnant_for. rewrite Hs1, Hs2.
        assert (Heq : S k <= c + 1 <-> k <= c) by lia. rewrite Heq, (Hk k Hkl').
        unfold stagnant_for. split.
        -- intros [_ HS]. split; [rewrite app_length; simpl; lia|].
           intros y Hy. apply in_app_iff in Hy. destruct Hy as [Hy|[<-|[]]]; auto.
           destruct Hp as [Hp|Hp]; [exists ninf; subst; simpl; auto|].
           rewrite <- (firstn_skipn (length ms - k) ms) in Hp. apply in_app_iff in Hp.
           destruct Hp as [Hp|Hp]; [exists p; simpl; auto|].
           destruct (HS p Hp) as (x & Hx & Hle). exists x. split; auto. eapply Htr; eauto.
        -- intros [_ HS]. split; auto. intros y Hy. apply HS. apply in_app_iff; auto.
    + split; [|split; [|split]].
      * right. apply in_app_iff. right; left; auto.
      * assert (Hpm : leb p m = true) by (destruct (Htot m p); congruence).
        intros y [<-|Hy]; [apply Hninf|]. apply in_app_iff in Hy. destruct Hy as [Hy|[<-|[]]].
        -- eapply Htr; [|exact Hpm]. apply Hub; right; auto.
        -- destruct (Htot m m); auto.
      * lia.
      * intros k Hkl. destruct k as [|k].
        { split; auto. intros _. split; [lia|]. rewrite Nat.sub_0_r, skipn_all. intros y []. }
        split; [lia|]. intros [_ HS]. exfalso.
        rewrite app_length in Hkl; simpl in Hkl. assert (Hkl' : k <= length ms) by lia.
        destruct (Hsk k Hkl') as [Hs1 Hs2]. rewrite Hs1, Hs2 in HS.
        destruct (HS m) as (x & Hx & Hle). { apply in_app_iff; right; left; auto. }
        assert (leb x p = true).
        { apply Hub. destruct Hx as [->|Hx]; [left; auto|right]. eapply firstn_In; eauto. }
        rewrite (Htr m x p) in Emp; congruence.
Qed.

(** the answer of the last call *)
Lemma run_np_answer repeat ms m :
  last (fst (run_np repeat (ninf, 0) (ms ++ [m]))) false = true <->
  stagnant_for (repeat + 1) (ms ++ [m]).
Proof.
  pose proof (run_np_state repeat (ms ++ [m])) as H.
  rewrite run_np_app in *. simpl in *.
  destruct (snd (run_np repeat (ninf, 0) ms)) as [p c]. unfold no_progress_max in *.
  set (st' := if leb m p then (p, c + 1) else (m, 0)) in *. simpl in *.
  destruct st' as [p' c']. simpl in *. destruct H as (_ & _ & Hc & Hk).
  rewrite last_last. rewrite Nat.ltb_lt.
  destruct (le_lt_dec (repeat + 1) (length (ms ++ [m]))) as [Hle|Hlt].
  - rewrite <- Hk by auto. lia.
  - split; [intros; lia|]. intros [H _]. lia.
Qed.

(** no_progress on fitness lists is no_progress_max on their maxima *)
Lemma np_max_ok l : l <> [] -> exists m, np_max leb l = Ok m /\ In m l /\ forall y, In y l -> leb y m = true.
Proof.
  destruct l as [|x l]; [congruence|]. intros _. simpl. eexists; split; [reflexivity|].
  destruct (maxl_ge x l) as [A B]. split.
  - destruct (maxl_in x l) as [->|H]; auto.
  - intros y [<-|Hy]; auto.
Qed.
End Conv.

(** ** stagnation *)
Section Stag.
Context {F : Type}.
Variable feqb : F -> F -> bool.
Hypothesis feqb_spec : forall x y, feqb x y = true <-> x = y.

Fixpoint run_st (repeat : nat) (st : option (F * F) * nat) (ms : list (F * F)) : list bool * (option (F * F) * nat) :=
  match ms with
  | [] => ([], st)
  | m :: t =>
    let '(b, st') := stagnation_pair feqb repeat st m in
    let '(bs, st'') := run_st repeat st' t in (b :: bs, st'')
  end.

Lemma run_st_app repeat st l1 l2 :
  run_st repeat st (l1 ++ l2) =
  (fst (run_st repeat st l1) ++ fst (run_st repeat (snd (run_st repeat st l1)) l2),
   snd (run_st repeat (snd (run_st repeat st l1)) l2)).
Proof.
  revert st; induction l1 as [|m l1 IH]; simpl; intros st.
  - destruct (run_st repeat st l2); auto.
  - destruct (stagnation_pair feqb repeat st m) as [b st'].
    specialize (IH st'). destruct (run_st repeat st' (l1 ++ l2)) as [a b'].
    destruct (run_st repeat st' l1) as [a1 b1]. simpl in *. inversion IH; subst; auto.
Qed.

(** The last [k+1] values are all equal. *)
Definition constant_for (k : nat) (ms : list (F * F)) : Prop :=
  k < length ms /\ forall x y, In x (skipn (length ms - S k) ms) -> In y (skipn (length ms - S k) ms) -> x = y.

Lemma run_st_state repeat ms m :
  let '(p, c) := snd (run_st repeat (None, 0) (ms ++ [m])) in
  p = Some m /\ c <= length ms /\ (forall k, k <= length ms -> (k <= c <-> constant_for k (ms ++ [m]))).
Proof.
  revert m. induction ms as [|m0 ms IH] using rev_ind; intros m.
  - simpl. split; [auto|]. split; [auto|].
    intros k Hk. assert (k = 0) by lia. subst k. unfold constant_for. simpl. split; [|lia].
    intros _. split; [lia|]. intros x y [<-|[]] [<-|[]]; auto.
  - rewrite run_st_app. specialize (IH m0).
    destruct (snd (run_st repeat (None, 0) (ms ++ [m0]))) as [p c]. destruct IH as (-> & Hc & Hk).
    assert (Hsk : forall k, k <= length ms -> skipn (length ((ms ++ [m0]) ++ [m]) - S (S k)) ((ms ++ [m0]) ++ [m])
                  = skipn (length (ms ++ [m0]) - S k) (ms ++ [m0]) ++ [m]).
    { intros k Hkl. rewrite (app_length (ms ++ [m0])). rewrite app_length. simpl.
      replace (length ms + 1 + 1 - S (S k)) with (length ms + 1 - S k) by lia.
      rewrite (skipn_app _ (ms ++ [m0])). rewrite app_length. simpl.
      replace (length ms + 1 - S k - (length ms + 1)) with 0 by lia. auto. }
    assert (Hlast : forall k, k <= length ms -> In m0 (skipn (length (ms ++ [m0]) - S k) (ms ++ [m0]))).
    { intros k Hkl. rewrite app_length; simpl. rewrite skipn_app.
      replace (length ms + 1 - S k - length ms) with 0 by lia. apply in_app_iff. right; left; auto. }
    assert (Hz : constant_for 0 ((ms ++ [m0]) ++ [m])).
    { split; [rewrite app_length; simpl; lia|]. intros x y. rewrite (app_length (ms ++ [m0])). cbn [length].
      replace (length (ms ++ [m0]) + 1 - 1) with (length (ms ++ [m0])) by lia.
      rewrite skipn_app, skipn_all, Nat.sub_diag. simpl. intros [<-|[]] [<-|[]]; auto. }
    simpl. unfold stagnation_pair. destruct m0 as [a0 b0], m as [a b]. simpl.
    destruct (feqb a a0 && feqb b b0) eqn:E; simpl.
    + apply andb_true_iff in E. destruct E as [E1 E2]. apply feqb_spec in E1, E2. subst a0 b0.
      split; [auto|]. split; [rewrite app_length; simpl; lia|].
      intros k Hkl. destruct k as [|k]; [split; [auto|lia]|].
      rewrite app_length in Hkl; simpl in Hkl. assert (Hkl' : k <= length ms) by lia.
      assert (Heq : S k <= c + 1 <-> k <= c) by lia. rewrite Heq, (Hk k Hkl').
      unfold constant_for. rewrite (Hsk k Hkl'). split.
      * intros [_ H]. split; [rewrite !app_length; simpl; lia|].
        intros x y Hx Hy. specialize (Hlast k Hkl').
        assert (Hin : forall z, In z (skipn (length (ms ++ [(a, b)]) - S k) (ms ++ [(a, b)]) ++ [(a, b)]) -> z = (a, b)).
        { intros z Hz'. apply in_app_iff in Hz'. destruct Hz' as [Hz'|[<-|[]]]; auto. }
        rewrite (Hin x Hx), (Hin y Hy). auto.
      * intros [_ H]. split; [rewrite app_length; simpl; lia|].
        intros x y Hx Hy. apply H; apply in_app_iff; auto.
    + split; [auto|]. split; [lia|].
      intros k Hkl. destruct k as [|k]; [split; [auto|lia]|].
      split; [lia|]. intros [_ H]. exfalso.
      rewrite app_length in Hkl; simpl in Hkl. assert (Hkl' : k <= length ms) by lia.
      rewrite (Hsk k Hkl') in H. specialize (Hlast k Hkl').
      assert (HE : (a0, b0) = (a, b)).
      { apply H; apply in_app_iff; [left; auto|right; left; auto]. }
      inversion HE; subst. assert (feqb a a = true) by (apply feqb_spec; auto).
      assert (feqb b b = true) by (apply feqb_spec; auto). rewrite H0, H1 in E. discriminate.
Qed.

Lemma run_st_answer repeat ms m :
  last (fst (run_st repeat (None, 0) (ms ++ [m]))) false = true <->
  constant_for (repeat + 1) (ms ++ [m]).
Proof.
  pose proof (run_st_state repeat ms m) as H.
  rewrite run_st_app in *. simpl in *.
  destruct (snd (run_st repeat (None, 0) ms)) as [p c]. unfold stagnation_pair in *.
  set (st' := if match p with Some (a, b) => _ | None => false end then (p, c + 1) else (Some m, 0)) in *.
  simpl in *. destruct st' as [p' c']. simpl in *. destruct H as (_ & Hc & Hk).
  rewrite last_last, Nat.ltb_lt.
  destruct (le_lt_dec (repeat + 1) (length ms)) as [Hle|Hlt].
  - rewrite <- Hk by auto. lia.
  - split; [intros; lia|]. intros [H _]. rewrite app_length in H. simpl in H. lia.
Qed.
End Stag.

(** ** The search loop *)
Section SearchLoop.
Context {C F G : Type}.
Variable leb : F -> F -> bool.
Hypothesis Hord : total_preorder leb.
Variable ninf : F.
Variable rnd : F -> G.
Variable geqb : G -> G -> bool.
Hypothesis geqb_spec : forall x y, geqb x y = true <-> x = y.
Variable score : C -> F.
Variable size : nat.
Variable dedup natsel : bool.
Variable rep : nat.
Variable offs : nat -> list C -> list F -> list C.

Notation combine_select := (combine_select leb rnd geqb score size dedup natsel).
Notation search_loop := (search_loop leb rnd geqb score size dedup natsel rep offs).
Notation generation := (generation leb rnd geqb score size dedup natsel rep offs).

Definition paired (p : list C) (f : list F) : Prop := f = map score p.

Lemma paired_combine p f : paired p f -> length p = length f /\ forall c x, In (c, x) (combine p f) -> x = score c.
Proof.
  unfold paired. intros ->. rewrite map_length. split; auto.
  induction p as [|a p IH]; simpl; [tauto|]. intros c x [H|H]; auto. inversion H; auto.
Qed.
Lemma paired_of_pairs (l : list (C * F)) :
  (forall c x, In (c, x) l -> x = score c) -> paired (map fst l) (map snd l).
Proof.
  unfold paired. induction l as [|[c x] l IH]; simpl; intros H; auto.
  f_equal; auto.
Qed.

Lemma remove_duplicates_paired p f p' f' :
  paired p f -> remove_duplicates rnd geqb p f = (p', f') -> paired p' f'.
Proof.
  intros HP E. destruct (paired_combine _ _ HP) as [HL HC].
  rewrite remove_duplicates_eq in E by auto. inversion E; subst.
  apply paired_of_pairs. intros c x Hin. apply keep_first_sub in Hin; auto. apply HC; tauto.
Qed.
Lemma reduction_paired p f n p' f' :
  paired p f -> population_reduction leb p f n = (p', f') -> paired p' f'.
Proof.
  intros HP E. destruct (paired_combine _ _ HP) as [HL HC].
  unfold population_reduction in E. inversion E; subst.
  apply paired_of_pairs. intros c x Hin. apply firstn_In in Hin. apply isort_in in Hin. auto.
Qed.

Lemma combine_select_paired st o p f :
  paired (pop st) (fit st) -> combine_select st o = (p, f) -> paired p f.
Proof.
  intros HP E. unfold GAModel.combine_select in E.
  assert (H0 : paired (pop st ++ o) (fit st ++ map score o)).
  { unfold paired in *. rewrite map_app, HP. auto. }
  destruct dedup.
  - destruct (remove_duplicates rnd geqb (pop st ++ o) (fit st ++ map score o)) as [p1 f1] eqn:E1.
    pose proof (remove_duplicates_paired _ _ _ _ H0 E1).
    destruct natsel; [eapply reduction_paired; eauto|inversion E; subst; auto].
  - destruct natsel; [eapply reduction_paired; eauto|inversion E; subst; auto].
Qed.

(** generic induction principle over the executed generations *)
Lemma search_loop_ind (P : list C -> state -> Prop) steps k st tr seen :
  (forall s ev o p f c, P ev s -> combine_select s o = (p, f) -> P (ev ++ o) (mkState p f c)) ->
  P seen st -> search_loop steps k st = Ok tr ->
  forall n, n < length tr ->
    P (seen ++ concat (map fst (firstn (S n) tr))) (snd (nth n tr ([], st))).
Proof.
  intros HP. revert k st tr seen. induction steps as [|steps IH]; simpl; intros k st tr seen H0 E.
  - inversion E; subst. simpl. intros; lia.
  - unfold GAModel.generation in E.
    destruct (combine_select st (offs k (pop st) (fit st))) as [p f] eqn:Ecs.
    destruct (no_progress leb rep (conv st) f) as [[b c]|e] eqn:Enp; simpl in E; [|discriminate].
    set (o := offs k (pop st) (fit st)) in *.
    assert (H1 : P (seen ++ o) (mkState p f c)) by (eapply HP; eauto).
    destruct b.
    + inversion E; subst. simpl. intros [|n] Hn; [|lia]. simpl. rewrite app_nil_r. auto.
    + destruct (search_loop steps (S k) (mkState p f c)) as [tr'|e] eqn:Es; simpl in E; [|discriminate].
      inversion E; subst. intros [|n] Hn.
      * simpl. rewrite app_nil_r. auto.
      * simpl in Hn. specialize (IH (S k) (mkState p f c) tr' (seen ++ o) H1 Es n ltac:(lia)).
        cbn [firstn map concat fst nth]. rewrite app_assoc.
        rewrite nth_indep with (d' := ([], mkState p f c)) by lia. exact IH.
Qed.

Lemma remove_duplicates_best (p : list C) (f : list F) p' f' c x :
  length p = length f -> remove_duplicates rnd geqb p f = (p', f') -> In (c, x) (combine p f) ->
  exists c' y, In (c', y) (combine p' f') /\ rnd y = rnd x.
Proof.
  intros HL E Hin. rewrite remove_duplicates_eq in E by auto. inversion E; subst.
  rewrite combine_map_fst_snd.
  destruct (keep_first_complete geqb geqb_spec (fun p => rnd (snd p)) _ _ Hin) as ([c' y] & Hy & Ey).
  exists c', y. auto.
Qed.

(** Everything evaluated so far is matched by the current population: exactly
    when duplicates are not removed, up to rounding otherwise. *)
Definition covers (leq : F -> F -> Prop) (ev : list C) (s : @state C F) : Prop :=
  (forall c, In c ev -> exists y, In y (fit s) /\ leq (score c) y).

Lemma search_loop_covers (leq : F -> F -> Prop) steps k st tr :
  (natsel = true -> 1 <= size) ->
  (forall x, leq x x) -> (forall x y z, leq x y -> leq y z -> leq x z) ->
  (forall x y, leb x y = true -> leq x y) ->
  (dedup = true -> forall x y, rnd x = rnd y -> leq x y) ->
  paired (pop st) (fit st) -> search_loop steps k st = Ok tr ->
  forall n, n < length tr ->
    covers leq (pop st ++ concat (map fst (firstn (S n) tr))) (snd (nth n tr ([], st))).
Proof.
  intros Hsz Hrefl Htrans Hleb Hrnd HP0 E n Hn.
  assert (HI : (fun ev s => paired (pop s) (fit s) /\ covers leq ev s)
           (pop st ++ concat (map fst (firstn (S n) tr))) (snd (nth n tr ([], st)))).
  2: exact (proj2 HI).
  revert n Hn.
  apply (search_loop_ind (fun ev s => paired (pop s) (fit s) /\ covers leq ev s) steps k st tr (pop st)); auto.
  - intros s ev o p f c [HP HC] Ecs.
    assert (HP' := combine_select_paired _ _ _ _ HP Ecs).
    split; auto. unfold covers. simpl.
    (* every evaluated value is matched in the combined list *)
    set (P0 := pop s ++ o). set (F0 := fit s ++ map score o).
    assert (HPF : paired P0 F0) by (unfold P0, F0, paired in *; rewrite map_app, HP; auto).
    destruct (paired_combine _ _ HPF) as [HL0 HC0].
    assert (Hall : forall c0, In c0 (ev ++ o) -> exists c' y, In (c', y) (combine P0 F0) /\ leq (score c0) y).
    { intros c0 Hc0. apply in_app_iff in Hc0. destruct Hc0 as [Hc0|Hc0].
      - destruct (HC c0 Hc0) as (y & Hy & Hle).
        rewrite HP in Hy. apply in_map_iff in Hy. destruct Hy as (c' & <- & Hc').
        exists c', (score c'). split; auto. unfold paired in HPF. rewrite HPF.
        assert (In c' P0) by (apply in_app_iff; auto). clear -H.
        induction P0; simpl in *; [tauto|]. destruct H as [->|H]; auto.
      - exists c0, (score c0). split; auto. unfold paired in HPF. rewrite HPF.
        assert (In c0 P0) by (apply in_app_iff; auto). clear -H.
        induction P0; simpl in *; [tauto|]. destruct H as [->|H]; auto. }
    intros c0 Hc0. destruct (Hall c0 Hc0) as (c' & y & Hin & Hle).
    unfold GAModel.combine_select in Ecs. fold P0 F0 in Ecs.
    assert (Hstep : forall P1 F1 c1 y1, length P1 = length F1 -> In (c1, y1) (combine P1 F1) ->
       (if natsel then population_reduction leb P1 F1 size else (P1, F1)) = (p, f) ->
       exists z, In z f /\ leq y1 z).
    { intros P1 F1 c1 y1 HL1 Hin1 E1. destruct natsel.
      - destruct (reduction_best leb Hord _ _ _ _ _ _ _ (Hsz eq_refl) HL1 E1 Hin1) as (z & Hz & Hle1). eauto.
      - inversion E1; subst. exists y1. split; auto. eapply in_combine_r; eauto. }
    destruct dedup.
    + destruct (remove_duplicates rnd geqb P0 F0) as [P1 F1] eqn:E1.
      destruct (remove_duplicates_best _ _ _ _ _ _ HL0 E1 Hin) as (c1 & y1 & Hin1 & Ey1).
      assert (HP1 := remove_duplicates_paired _ _ _ _ HPF E1). destruct (paired_combine _ _ HP1) as [HL1 _].
      destruct (Hstep P1 F1 c1 y1 HL1 Hin1 Ecs) as (z & Hz & Hle1).
      exists z. split; auto. eapply Htrans; [exact Hle|]. eapply Htrans; [|exact Hle1].
      apply Hrnd; auto.
    + destruct (Hstep P0 F0 c' y HL0 Hin Ecs) as (z & Hz & Hle1). exists z. split; auto. eauto.
  - split; auto. intros c Hc. exists (score c). split; auto. rewrite HP0. apply in_map; auto.
Qed.

(** every state after at least one generation has exactly [size] candidates *)
Lemma search_loop_size steps k st tr :
  dedup = false -> natsel = true -> length (pop st) = length (fit st) -> size <= length (pop st) ->
  search_loop steps k st = Ok tr ->
  forall n, n < length tr -> length (pop (snd (nth n tr ([], st)))) = size /\
     length (fit (snd (nth n tr ([], st)))) = size.
Proof.
  intros Hd Hns HL Hsz E n Hn.
  assert (Hgen : forall steps k st tr, length (pop st) = length (fit st) -> size <= length (pop st) ->
     search_loop steps k st = Ok tr -> forall n, n < length tr ->
     length (pop (snd (nth n tr ([], st)))) = size /\ length (fit (snd (nth n tr ([], st)))) = size).
  2: eapply Hgen; eauto.
  clear - Hd Hns. induction steps as [|steps IH]; simpl; intros k st tr HL Hsz E.
  - inversion E; subst; simpl; intros; lia.
  - unfold GAModel.generation in E.
    destruct (combine_select st (offs k (pop st) (fit st))) as [p f] eqn:Ecs.
    assert (Hpf : length p = size /\ length f = size).
    { unfold GAModel.combine_select in Ecs. rewrite Hd, Hns in Ecs.
      apply reduction_length in Ecs; [|rewrite !app_length, map_length; lia].
      rewrite app_length in Ecs. lia. }
    destruct (no_progress leb rep (conv st) f) as [[b c]|e] eqn:Enp; simpl in E; [|discriminate].
    destruct b.
    + inversion E; subst. simpl. intros [|n] Hn; [|lia]. auto.
    + destruct (search_loop steps (S k) (mkState p f c)) as [tr'|e] eqn:Es; simpl in E; [|discriminate].
      inversion E; subst. intros [|n] Hn; auto.
      simpl in Hn. cbn [nth]. rewrite nth_indep with (d' := ([], mkState p f c)) by lia.
      eapply IH; eauto; simpl; lia.
Qed.
End SearchLoop.
