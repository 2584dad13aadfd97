(** Facts about [Base]. *)
From Coq Require Import List Arith Lia Permutation Sorting.Sorted Bool.
From Verif Require Import Base.
Import ListNotations.
Set Implicit Arguments.

(** ** Sorting *)
Section Sort.
Context {A : Type} (r : A -> A -> bool).

Lemma insert_perm x l : Permutation (insert r x l) (x :: l).
Proof.
  induction l as [|y t IH]; simpl; auto.
  destruct (r x y); auto.
  rewrite IH. apply perm_swap.
Qed.

Lemma isort_perm l : Permutation (isort r l) l.
Proof.
  induction l as [|x t IH]; simpl; auto.
  rewrite insert_perm. auto.
Qed.

Lemma isort_length l : length (isort r l) = length l.
Proof. apply Permutation_length, isort_perm. Qed.

Lemma isort_in x l : In x (isort r l) <-> In x l.
Proof.
  split; apply Permutation_in; [|symmetry]; apply isort_perm.
Qed.

Definition rel : A -> A -> Prop := fun x y => r x y = true.

Hypothesis Htp : total_preorder r.

Lemma tp_refl x : r x x = true.
Proof. destruct Htp as [H _]; destruct (H x x); auto. Qed.

Lemma tp_total_false x y : r x y = false -> r y x = true.
Proof. destruct Htp as [H _]; destruct (H x y); congruence. Qed.

Lemma insert_sorted x l : StronglySorted rel l -> StronglySorted rel (insert r x l).
Proof.
  induction l as [|y t IH]; simpl; intros HS.
  - repeat constructor.
  - inversion HS as [|? ? HS' HF]; subst.
    destruct (r x y) eqn:E.
    + constructor; auto. constructor; auto.
      rewrite Forall_forall in *. intros z Hz.
      destruct Htp as [_ Htr]. eapply Htr; [exact E|]. apply HF; auto.
    + constructor; auto.
      rewrite Forall_forall in *. intros z Hz.
      apply (Permutation_in _ (insert_perm x t)) in Hz. destruct Hz as [->|Hz].
      * apply tp_total_false; auto.
      * apply HF; auto.
Qed.

Lemma isort_sorted l : StronglySorted rel (isort r l).
Proof. induction l; simpl; [constructor|apply insert_sorted; auto]. Qed.

(** stability: elements equivalent to a given key keep their order *)
Lemma insert_filter (f : A -> bool) x l :
  (forall a b, f a = true -> f b = true -> r a b = true) ->
  filter f (insert r x l) = if f x then x :: filter f l else filter f l.
Proof.
  intros Hf. induction l as [|y t IH]; simpl.
  - destruct (f x); auto.
  - destruct (r x y) eqn:E; simpl.
    + destruct (f x); auto.
    + rewrite IH. destruct (f x) eqn:Fx, (f y) eqn:Fy; auto.
      exfalso. rewrite (Hf x y) in E; congruence.
Qed.

Lemma isort_stable (f : A -> bool) l :
  (forall a b, f a = true -> f b = true -> r a b = true) ->
  filter f (isort r l) = filter f l.
Proof.
  intros Hf. induction l as [|x t IH]; simpl; auto.
  rewrite insert_filter by auto. rewrite IH. reflexivity.
Qed.

(** Any sorted list with the same equivalence-class sublists is the same list:
    hence every stable sort returns what [isort] returns. *)
Lemma stable_sort_unique l1 l2 :
  StronglySorted rel l1 -> StronglySorted rel l2 ->
  Permutation l1 l2 ->
  (forall k, filter (fun a => r a k && r k a) l1 = filter (fun a => r a k && r k a) l2) ->
  l1 = l2.
Proof.
  destruct Htp as [Htot Htr].
  revert l2. induction l1 as [|a l1 IH]; intros l2 S1 S2 HP HF.
  - apply Permutation_nil in HP; auto.
  - destruct l2 as [|b l2].
    { symmetry in HP. apply Permutation_nil in HP. discriminate. }
    inversion S1 as [|? ? S1' F1]; subst. inversion S2 as [|? ? S2' F2]; subst.
    rewrite Forall_forall in F1, F2.
    assert (Hab : r a b = true).
    { assert (In b (a :: l1)) as [->|Hin].
      { eapply Permutation_in; [symmetry; exact HP|left; auto]. }
      - apply tp_refl.
      - apply F1; auto. }
    assert (Hba : r b a = true).
    { assert (In a (b :: l2)) as [->|Hin].
      { eapply Permutation_in; [exact HP|left; auto]. }
      - apply tp_refl.
      - apply F2; auto. }
    assert (a = b).
    { specialize (HF a). simpl in HF. rewrite tp_refl, Hba, Hab in HF. simpl in HF.
      congruence. }
    subst b. f_equal. apply IH; auto.
    + eapply Permutation_cons_inv; eauto.
    + intros k. specialize (HF k). simpl in HF.
      destruct (r a k && r k a); congruence.
Qed.

Lemma sorted_isort_id l : StronglySorted rel l -> isort r l = l.
Proof.
  intros HS. induction l as [|x t IH]; simpl; auto.
  inversion HS as [|? ? HS' HF]; subst. rewrite IH by auto.
  destruct t as [|y t]; simpl; auto.
  inversion HF as [|? ? Hxy ?]; subst. rewrite Hxy. reflexivity.
Qed.
End Sort.

Lemma StronglySorted_app_inv {A} (R : A -> A -> Prop) l1 l2 :
  StronglySorted R (l1 ++ l2) ->
  StronglySorted R l1 /\ StronglySorted R l2 /\
  (forall x y, In x l1 -> In y l2 -> R x y).
Proof.
  induction l1 as [|a l1 IH]; simpl; intros HS.
  - repeat split; auto. constructor. intros x y [].
  - inversion HS as [|? ? HS' HF]; subst. destruct (IH HS') as (H1 & H2 & H3).
    rewrite Forall_forall in HF.
    repeat split; auto.
    + constructor; auto. rewrite Forall_forall. intros z Hz. apply HF, in_or_app; auto.
    + intros x y [<-|Hx] Hy; auto. apply HF, in_or_app; auto.
Qed.

(** ** Lists *)
Lemma set_nth_length {A} i (v : A) l : length (set_nth i v l) = length l.
Proof. revert i; induction l; intros [|i]; simpl; auto. Qed.

Lemma nth_set_nth_eq {A} i (v d : A) l : i < length l -> nth i (set_nth i v l) d = v.
Proof.
  revert i; induction l as [|x l IH]; intros [|i] H; simpl in *; try lia; auto.
  apply IH; lia.
Qed.

Lemma nth_set_nth_neq {A} i j (v d : A) l : i <> j -> nth i (set_nth j v l) d = nth i l d.
Proof.
  revert i j; induction l as [|x l IH]; intros [|i] [|j] H; simpl in *; try congruence; auto.
Qed.

Lemma combine_nth_ex {A B} (l : list A) (l' : list B) x y :
  In (x, y) (combine l l') -> exists i, nth_error l i = Some x /\ nth_error l' i = Some y.
Proof.
  revert l'; induction l as [|a l IH]; intros [|b l']; simpl; try tauto.
  intros [H|H].
  - inversion H; subst. exists 0; auto.
  - destruct (IH _ H) as (i & H1 & H2). exists (S i); auto.
Qed.

Lemma list_ext_nth {A} (d : A) l1 l2 :
  length l1 = length l2 -> (forall i, i < length l1 -> nth i l1 d = nth i l2 d) -> l1 = l2.
Proof.
  revert l2; induction l1 as [|a l1 IH]; intros [|b l2]; simpl; intros HL H; try lia; auto.
  f_equal.
  - apply (H 0); lia.
  - apply IH; [lia|]. intros i Hi. apply (H (S i)); lia.
Qed.

Lemma map_combine_fst {A B} (l : list A) (l' : list B) :
  length l <= length l' -> map fst (combine l l') = l.
Proof.
  revert l'; induction l as [|a l IH]; intros [|b l']; simpl; intros H; auto; try lia.
  f_equal; apply IH; lia.
Qed.

Lemma map_combine_snd {A B} (l : list A) (l' : list B) :
  length l' <= length l -> map snd (combine l l') = l'.
Proof.
  revert l'; induction l as [|a l IH]; intros [|b l']; simpl; intros H; auto; try lia.
  f_equal; apply IH; lia.
Qed.

Lemma combine_map_fst_snd {A B} (l : list (A * B)) :
  combine (map fst l) (map snd l) = l.
Proof. induction l as [|[a b] l IH]; simpl; congruence. Qed.

Lemma filter_true {A} (f : A -> bool) l : (forall x, In x l -> f x = true) -> filter f l = l.
Proof.
  induction l; simpl; intros H; auto. rewrite H by auto. f_equal; auto.
Qed.

Lemma filter_length_split {A} (f : A -> bool) l :
  length (filter f l) + length (filter (fun x => negb (f x)) l) = length l.
Proof. induction l; simpl; auto. destruct (f a); simpl; lia. Qed.

Lemma filter_partition_perm {A} (f : A -> bool) l :
  Permutation (filter f l ++ filter (fun x => negb (f x)) l) l.
Proof.
  induction l as [|x l IH]; simpl; auto. destruct (f x); simpl.
  - auto.
  - symmetry. apply Permutation_cons_app. symmetry; auto.
Qed.

Lemma Permutation_filter {A} (f : A -> bool) l l' :
  Permutation l l' -> Permutation (filter f l) (filter f l').
Proof.
  induction 1; simpl; auto.
  - destruct (f x); auto.
  - destruct (f x), (f y); auto. apply perm_swap.
  - eapply perm_trans; eauto.
Qed.

Lemma firstn_In {A} n (l : list A) x : In x (firstn n l) -> In x l.
Proof.
  revert n; induction l; intros [|n]; simpl; try tauto. intros [->|H]; auto. right; eapply IHl; eauto.
Qed.

Lemma skipn_In {A} n (l : list A) x : In x (skipn n l) -> In x l.
Proof.
  revert n; induction l; intros [|n]; simpl; try tauto. intros H. right; eapply IHl; eauto.
Qed.

Lemma NoDup_app_inv {A} (l1 l2 : list A) :
  NoDup (l1 ++ l2) -> NoDup l1 /\ NoDup l2 /\ (forall x, In x l1 -> In x l2 -> False).
Proof.
  induction l1 as [|a l1 IH]; simpl; intros H.
  - repeat split; auto. constructor.
  - inversion H as [|? ? Hn HN]; subst. destruct (IH HN) as (H1 & H2 & H3).
    repeat split; auto.
    + constructor; auto. intros Hin; apply Hn, in_or_app; auto.
    + intros x [<-|Hx] Hy; [apply Hn, in_or_app; auto|eauto].
Qed.

Lemma NoDup_app_intro {A} (l1 l2 : list A) :
  NoDup l1 -> NoDup l2 -> (forall x, In x l1 -> In x l2 -> False) -> NoDup (l1 ++ l2).
Proof.
  induction l1 as [|a l1 IH]; simpl; intros H1 H2 H3; auto.
  inversion H1; subst. constructor.
  - rewrite in_app_iff. intros [H|H]; eauto.
  - apply IH; eauto.
Qed.

Lemma gather_seq {A} (d : A) l : gather d l (seq 0 (length l)) = l.
Proof.
  unfold gather. apply list_ext_nth with (d := d).
  - rewrite map_length, seq_length; auto.
  - rewrite map_length, seq_length. intros i Hi.
    rewrite nth_indep with (d' := nth 0 l d) by (rewrite map_length, seq_length; auto).
    rewrite map_nth with (f := fun i => nth i l d). rewrite seq_nth; auto.
Qed.

Lemma gather_perm {A} (d : A) l p :
  Permutation p (seq 0 (length l)) -> Permutation (gather d l p) l.
Proof.
  intros H. rewrite <- (gather_seq d l) at 2. unfold gather. apply Permutation_map; auto.
Qed.

Lemma gather_length {A} (d : A) l p : length (gather d l p) = length p.
Proof. apply map_length. Qed.

Lemma nth_gather {A} (d : A) l p i : i < length p -> nth i (gather d l p) d = nth (nth i p 0) l d.
Proof.
  intros H. unfold gather.
  rewrite nth_indep with (d' := nth 0 l d) by (rewrite map_length; auto).
  rewrite map_nth with (f := fun i => nth i l d). reflexivity.
Qed.

(** every permutation of a list is a gather by an index permutation *)
Lemma Permutation_gather {A} (d : A) l l' :
  Permutation l l' -> exists p, Permutation p (seq 0 (length l)) /\ l' = gather d l p.
Proof.
  intros H. destruct (Permutation_nth l l' d) as [H1 _].
  destruct (H1 H) as (HL & f & Hb & Hi & Hf).
  exists (map f (seq 0 (length l))). split.
  - apply NoDup_Permutation_bis.
    + apply NoDup_nth with (d := f 0).
      rewrite map_length, seq_length. intros i j Hi' Hj' Heq.
      rewrite !map_nth, !seq_nth in Heq by auto. simpl in Heq.
      apply Hi; auto.
    + rewrite map_length; auto.
    + intros x Hx. apply in_map_iff in Hx. destruct Hx as (y & <- & Hy).
      apply in_seq in Hy. apply in_seq. specialize (Hb y). lia.
  - apply list_ext_nth with (d := d).
    + rewrite gather_length, map_length, seq_length; auto.
    + intros i Hi'. rewrite HL in Hi'. rewrite nth_gather by (rewrite map_length, seq_length; auto).
      rewrite Hf by auto.
      rewrite nth_indep with (d' := f 0) by (rewrite map_length, seq_length; auto).
      rewrite map_nth, seq_nth; auto.
Qed.

Lemma mask_select_in {A} m (l : list A) x : In x (mask_select m l) -> In x l.
Proof.
  revert l; induction m as [|b m IH]; intros [|y l]; simpl; try tauto.
  destruct b; simpl; intros H; [destruct H as [->|H]; auto|]; right; auto.
Qed.

Lemma mask_select_length {A} m (l : list A) :
  length m = length l -> length (mask_select m l) = count_true m.
Proof.
  unfold count_true.
  revert l; induction m as [|b m IH]; intros [|x l]; simpl; intros H; auto; try lia.
  destruct b; simpl; rewrite IH; auto.
Qed.

Lemma Forall2_length_eq {A B} (R : A -> B -> Prop) l l' : Forall2 R l l' -> length l = length l'.
Proof. induction 1; simpl; auto. Qed.

Lemma Forall2_nth {A B} (R : A -> B -> Prop) l l' da db :
  Forall2 R l l' -> forall i, i < length l -> R (nth i l da) (nth i l' db).
Proof.
  induction 1; simpl; intros i Hi; [lia|]. destruct i; auto. apply IHForall2; lia.
Qed.

(** two sorted permutations of a list coincide when the order is antisymmetric *)
Lemma sorted_perm_unique {A} (R : A -> A -> Prop) l1 l2 :
  (forall x y, R x y -> R y x -> x = y) -> (forall x, R x x) ->
  StronglySorted R l1 -> StronglySorted R l2 -> Permutation l1 l2 -> l1 = l2.
Proof.
  intros Has Hrf. revert l2. induction l1 as [|a l1 IH]; intros l2 S1 S2 HP.
  - apply Permutation_nil in HP; auto.
  - destruct l2 as [|b l2].
    { symmetry in HP. apply Permutation_nil in HP. discriminate. }
    inversion S1 as [|? ? S1' F1]; subst. inversion S2 as [|? ? S2' F2]; subst.
    rewrite Forall_forall in F1, F2.
    assert (a = b).
    { apply Has.
      - assert (In b (a :: l1)) as [->|Hin] by (eapply Permutation_in; [symmetry; exact HP|left; auto]); auto.
      - assert (In a (b :: l2)) as [->|Hin] by (eapply Permutation_in; [exact HP|left; auto]); auto. }
    subst b. f_equal. apply IH; auto. eapply Permutation_cons_inv; eauto.
Qed.

Lemma StronglySorted_nth {A} (R : A -> A -> Prop) l d i j :
  StronglySorted R l -> i < j -> j < length l -> R (nth i l d) (nth j l d).
Proof.
  intros HS. revert i j. induction HS as [|a l HS IH HF]; simpl; intros i j Hij Hj; [lia|].
  destruct j; [lia|]. destruct i.
  - rewrite Forall_forall in HF. apply HF. apply nth_In. lia.
  - apply IH; lia.
Qed.

Lemma seq_sorted k n : StronglySorted le (seq k n).
Proof.
  revert k; induction n; simpl; intros k; constructor; auto.
  rewrite Forall_forall. intros x Hx. apply in_seq in Hx. lia.
Qed.

(** putting values back in index order: position [i] of the result holds the
    value that stands where [ord] holds [i] *)
Lemma sort_by_index {B} (d : B) (ord : list nat) (vals : list B) n :
  Permutation ord (seq 0 n) -> length vals = n ->
  forall i, i < n ->
  exists p, p < n /\ nth p ord 0 = i /\
    nth i (map snd (isort (fun a b => Nat.leb (fst a) (fst b)) (combine ord vals))) d = nth p vals d.
Proof.
  intros HP HL i Hi.
  assert (HLo : length ord = n) by (rewrite (Permutation_length HP), seq_length; auto).
  set (r := fun a b : nat * B => Nat.leb (fst a) (fst b)).
  set (s := isort r (combine ord vals)).
  assert (Htp : total_preorder r).
  { unfold r; split; intros; rewrite ?Nat.leb_le in *; lia. }
  assert (Hls : length s = n).
  { unfold s. rewrite isort_length, combine_length. lia. }
  assert (Hfst : map fst s = seq 0 n).
  { apply sorted_perm_unique with (R := le); try lia.
    - assert (HS : StronglySorted (rel r) s) by (apply isort_sorted; auto).
      clear -HS. induction HS; simpl; constructor; auto.
      rewrite Forall_forall in *. intros x Hx. apply in_map_iff in Hx. destruct Hx as (y & <- & Hy).
      apply Nat.leb_le. apply (H y Hy).
    - apply seq_sorted.
    - rewrite <- HP. transitivity (map fst (combine ord vals)).
      + apply Permutation_map, isort_perm.
      + rewrite map_combine_fst by lia. reflexivity. }
  destruct (nth i s (0, d)) as [v b] eqn:E.
  assert (Hv : v = i).
  { assert (H : nth i (map fst s) (fst (0, d)) = i) by (rewrite Hfst, seq_nth; auto).
    rewrite map_nth, E in H. auto. }
  subst v.
  assert (Hin : In (i, b) (combine ord vals)).
  { apply (isort_in r). fold s. rewrite <- E. apply nth_In. lia. }
  destruct (combine_nth_ex _ _ _ _ Hin) as (p & H1 & H2).
  exists p. assert (p < n).
  { rewrite <- HLo. apply nth_error_Some. congruence. }
  repeat split; auto.
  - apply nth_error_nth; auto.
  - change d with (snd (0, d)). rewrite map_nth. fold s. rewrite E. simpl. symmetry. apply nth_error_nth; auto.
Qed.

Lemma nth_map_lt {A B} (f : A -> B) l d d' j : j < length l -> nth j (map f l) d = f (nth j l d').
Proof.
  intros H. rewrite nth_indep with (d' := f d') by (rewrite map_length; auto). apply map_nth.
Qed.

Lemma nth_repeat_lt {A} (x d : A) k i : i < k -> nth i (repeat x k) d = x.
Proof. revert i; induction k; intros [|i] H; simpl; auto; try lia. apply IHk; lia. Qed.

Lemma Forall2_length {A B} (R : A -> B -> Prop) l l' : Forall2 R l l' -> length l = length l'.
Proof. induction 1; simpl; auto. Qed.
