(** Properties of the splits of a list into two (preprocess/feature_engineering.py). *)
From Coq Require Import List Arith Bool Lia Permutation.
From Verif Require Import Base BaseFacts SplitModel.
Import ListNotations.
Set Bullet Behavior "Strict Subproofs".

(** ** Binary digits *)
Fixpoint number (m : list bool) : nat := match m with [] => 0 | b :: m => Nat.b2n b * 2 ^ length m + number m end.

Lemma pow2_pos k : 2 ^ k <> 0.
Proof. apply Nat.pow_nonzero. lia. Qed.
Lemma number_bound m : number m < 2 ^ length m.
Proof. induction m as [|b m IH]; cbn [number length]; [cbn; lia|]. rewrite Nat.pow_succ_r'. destruct b; cbn [Nat.b2n]; lia. Qed.
Lemma digits_length n i : length (digits n i) = n.
Proof. induction n; cbn; auto. Qed.
Lemma number_digits n i : number (digits n i) = i mod 2 ^ n.
Proof.
  induction n as [|k IH]; [change (2 ^ 0) with 1; rewrite Nat.mod_1_r; reflexivity|]. cbn [digits number]. rewrite digits_length, IH.
  rewrite Nat.pow_succ_r', (Nat.mul_comm 2 (2 ^ k)), (Nat.mod_mul_r i (2 ^ k) 2) by (auto using pow2_pos).
  replace (Nat.b2n (Nat.odd (i / 2 ^ k))) with ((i / 2 ^ k) mod 2); [lia|].
  rewrite <- Nat.bit0_mod. rewrite Nat.bit0_odd. reflexivity.
Qed.
Lemma digits_high k a v : v < 2 ^ k -> Nat.odd ((Nat.b2n a * 2 ^ k + v) / 2 ^ k) = a.
Proof.
  intros H. rewrite Nat.div_add_l by apply pow2_pos. rewrite Nat.div_small by auto. rewrite Nat.add_0_r. destruct a; reflexivity.
Qed.
Lemma digits_low j : forall k a v, j <= k -> digits j (a * 2 ^ k + v) = digits j v.
Proof.
  induction j as [|j IH]; intros k a v H; [reflexivity|]. cbn [digits]. rewrite IH by lia. f_equal.
  replace (a * 2 ^ k) with ((a * 2 ^ (k - S j)) * 2 * 2 ^ j).
  - rewrite Nat.div_add_l by apply pow2_pos. rewrite Nat.odd_add. rewrite Nat.odd_mul. change (Nat.odd 2) with false. rewrite andb_false_r. apply xorb_false_l.
  - replace k with (k - S j + S j) at 2 by lia. rewrite Nat.pow_add_r, Nat.pow_succ_r'. lia.
Qed.
Lemma digits_number m : digits (length m) (number m) = m.
Proof.
  induction m as [|b m IH]; [reflexivity|]. cbn [length digits number]. rewrite digits_high by apply number_bound. rewrite digits_low by lia. rewrite IH. reflexivity.
Qed.
Lemma number_zero m : number m = 0 -> forall b, In b m -> b = false.
Proof.
  induction m as [|b m IH]; cbn [number]; intros H c Hc; [destruct Hc|]. pose proof (pow2_pos (length m)).
  destruct b; cbn [Nat.b2n] in H; [lia|]. destruct Hc as [<-|Hc]; [reflexivity|]. apply IH; [exact H|exact Hc].
Qed.
Lemma half n : (2 ^ S n - 2) / 2 = 2 ^ n - 1.
Proof. rewrite Nat.pow_succ_r'. replace (2 * 2 ^ n - 2) with ((2 ^ n - 1) * 2) by lia. apply Nat.div_mul. lia. Qed.

Lemma NoDup_map_in {A B} (f : A -> B) l : (forall x y, In x l -> In y l -> f x = f y -> x = y) -> NoDup l -> NoDup (map f l).
Proof.
  induction l as [|a l IH]; intros H ND; [constructor|]. inversion ND; subst. cbn [map]. constructor.
  - intros I. apply in_map_iff in I. destruct I as (y & E & Hy). assert (y = a) by (apply H; cbn; auto). subst. contradiction.
  - apply IH; auto. intros x y Hx Hy. apply H; right; auto.
Qed.

(** ** Parts *)
Lemma picked_cons {A} b c key (x : A) p : picked b (c :: key) (x :: p) = if Bool.eqb c b then x :: picked b key p else picked b key p.
Proof. unfold picked. cbn [combine filter fst]. destruct (Bool.eqb c b); reflexivity. Qed.
Lemma picked_filter {A} (f : A -> bool) b p : picked b (map f p) p = filter (fun x => Bool.eqb (f x) b) p.
Proof. induction p as [|x p IH]; [reflexivity|]. cbn [map filter]. rewrite picked_cons, IH. reflexivity. Qed.
Lemma picked_in {A} b key (p : list A) x : In x (picked b key p) -> In x p.
Proof.
  unfold picked. intros H. apply in_map_iff in H. destruct H as ([c y] & <- & H). apply filter_In in H. apply (in_combine_r _ _ _ _ (proj1 H)).
Qed.
Lemma picked_perm {A} key : forall p : list A, length key = length p -> Permutation (picked false key p ++ picked true key p) p.
Proof.
  induction key as [|c key IH]; intros [|x p] H; try discriminate; [constructor|]. rewrite !picked_cons. injection H as H.
  destruct c; cbn [Bool.eqb].
  - apply Permutation_sym, Permutation_cons_app, Permutation_sym, IH, H.
  - cbn [app]. constructor. apply IH, H.
Qed.
Lemma picked_inj {A} : forall key key' (p : list A), NoDup p -> length key = length p -> length key' = length p ->
  picked true key p = picked true key' p -> key = key'.
Proof.
  induction key as [|c key IH]; intros [|c' key'] [|x p] ND H H' E; try discriminate; [reflexivity|].
  injection H as H. injection H' as H'. inversion ND as [|? ? NI ND']; subst. rewrite !picked_cons in E.
  destruct c, c'; cbn [Bool.eqb] in E.
  - injection E as E. f_equal. eapply IH; eauto.
  - exfalso. apply NI. apply (picked_in true key' p). rewrite <- E. left. reflexivity.
  - exfalso. apply NI. apply (picked_in true key p). rewrite E. left. reflexivity.
  - f_equal. eapply IH; eauto.
Qed.
Lemma picked_some {A} b key (p : list A) : length key = length p -> In b key -> picked b key p <> [].
Proof.
  revert p. induction key as [|c key IH]; intros [|x p] H HI; try discriminate; [destruct HI|]. rewrite picked_cons.
  destruct (Bool.eqb c b) eqn:E; [discriminate|]. destruct HI as [->|HI]; [rewrite eqb_reflx in E; discriminate|]. apply IH; auto.
Qed.

Lemma picked_key {A} (eqd : forall x y : A, {x = y} + {x <> y}) : forall key p, NoDup p -> length key = length p ->
  map (fun x => if in_dec eqd x (picked true key p) then true else false) p = key.
Proof.
  induction key as [|c key IH]; intros [|x p] ND H; try discriminate; [reflexivity|]. injection H as H. inversion ND as [|? ? NI ND']; subst.
  cbn [map]. f_equal.
  - rewrite picked_cons. destruct c; cbn [Bool.eqb]; destruct (in_dec eqd x _) as [I|I]; try reflexivity.
    + exfalso. apply I. left. reflexivity.
    + exfalso. apply NI. eapply picked_in. exact I.
  - etransitivity; [|apply (IH p ND' H)]. apply map_ext_in. intros y Hy. rewrite picked_cons.
    assert (N : x <> y) by (intros ->; auto). destruct c; cbn [Bool.eqb]; [|reflexivity].
    destruct (in_dec eqd y (x :: _)) as [[E|I]|I], (in_dec eqd y (picked true key p)) as [J|J]; try reflexivity; try contradiction.
    exfalso. apply I. right. exact J.
Qed.

(** ** C403: all splits of a list into two *)
(** No list is split in version 3 of the language. *)
Theorem separate_python3_refuted : forall A (p : list A), separate_list true p = Err TypeError.
Proof. reflexivity. Qed.

(** In version 2, a list of n + 1 different elements gives 2^n - 1 pairs of lists, no pair twice. The two lists of a pair are
    not empty, the first one starts with the first element, and together they hold every element once, in the order of the list.
    Every way to separate the elements in two is one of the pairs in one order and not in the other. *)
Theorem separate_lists : forall A (eqd : forall x y : A, {x = y} + {x <> y}) (a : A) p, NoDup (a :: p) -> exists cs,
  separate_list false (a :: p) = Ok cs /\ NoDup cs /\ length cs = 2 ^ length p - 1 /\
  (forall l r, In (l, r) cs -> exists l', l = a :: l' /\ r <> [] /\ Permutation (l ++ r) (a :: p) /\
     exists f, l = filter (fun x => negb (f x)) (a :: p) /\ r = filter f (a :: p)) /\
  forall f : A -> bool, (exists x, In x (a :: p) /\ f x = true) -> (exists x, In x (a :: p) /\ f x = false) ->
    let l := filter (fun x => negb (f x)) (a :: p) in let r := filter f (a :: p) in
    (In (l, r) cs /\ ~ In (r, l) cs) \/ (In (r, l) cs /\ ~ In (l, r) cs).
Proof.
  intros A eqd a p ND. set (q := a :: p) in *. set (n := length p).
  assert (Lq : length q = S n) by reflexivity.
  assert (NB : (2 ^ length q - 2) / 2 = 2 ^ n - 1) by (rewrite Lq; apply half).
  pose proof (pow2_pos n) as P0.
  set (pair := fun key => (picked false key q, picked true key q)).
  assert (IJ : forall i, digits (length q) i = Nat.odd (i / 2 ^ n) :: digits n i) by reflexivity.
  assert (LOW : forall i, i < 2 ^ n -> digits (length q) i = false :: digits n i).
  { intros i Hi. rewrite IJ, Nat.div_small by auto. reflexivity. }
  assert (MEM : forall key, length key = n -> In true key ->
    In (pair (false :: key)) (map (fun i => pair (digits (length q) i)) (seq 1 (2 ^ n - 1)))).
  { intros key Hl Ht. apply in_map_iff. exists (number key). pose proof (number_bound key) as B. rewrite Hl in B. split.
    - rewrite LOW by auto. rewrite <- Hl at 1. rewrite digits_number. reflexivity.
    - apply in_seq. assert (number key <> 0); [|lia]. intros Z. pose proof (number_zero key Z true Ht). discriminate. }
  assert (SH : forall l r, In (l, r) (map (fun i => pair (digits (length q) i)) (seq 1 (2 ^ n - 1))) ->
    exists key, length key = n /\ In true key /\ l = a :: picked false key p /\ r = picked true key p).
  { intros l r H. apply in_map_iff in H. destruct H as (i & E & Hi). apply in_seq in Hi. rewrite LOW in E by lia. unfold pair, q in E. rewrite !picked_cons in E. cbn [Bool.eqb] in E.
    injection E as <- <-. exists (digits n i). rewrite digits_length. split; [reflexivity|]. split; [|auto].
    destruct (in_dec bool_dec true (digits n i)) as [I|I]; [exact I|]. exfalso.
    assert (Z : forall m : list bool, ~ In true m -> number m = 0).
    { induction m as [|b m IHm]; intros Hm; [reflexivity|]. cbn [number]. destruct b; [exfalso; apply Hm; left; reflexivity|].
      rewrite IHm by (intros X; apply Hm; right; exact X). reflexivity. }
    pose proof (Z _ I) as Q. rewrite number_digits, Nat.mod_small in Q by lia. lia. }
  assert (NI : ~ In a p) by (inversion ND; auto).
  assert (ONE : forall l r, In (l, r) (map (fun i => pair (digits (length q) i)) (seq 1 (2 ^ n - 1))) ->
    ~ In (r, l) (map (fun i => pair (digits (length q) i)) (seq 1 (2 ^ n - 1)))).
  { intros l r H H'. destruct (SH _ _ H) as (k1 & _ & _ & E1 & E2). destruct (SH _ _ H') as (k2 & _ & _ & E3 & E4).
    apply NI. eapply picked_in. rewrite <- E2, E3. left. reflexivity. }
  exists (map (fun i => pair (digits (length q) i)) (seq 1 (2 ^ n - 1))). split; [unfold separate_list; rewrite NB; reflexivity|]. split.
  { apply NoDup_map_in; [|apply seq_NoDup]. intros i j Hi Hj E. apply in_seq in Hi, Hj. unfold pair in E. injection E as _ E.
    apply (picked_inj (digits (length q) i) (digits (length q) j) q ND (digits_length _ _) (digits_length _ _)) in E.
    apply (f_equal number) in E. rewrite !number_digits in E. rewrite Lq, Nat.pow_succ_r', !Nat.mod_small in E by lia. exact E. }
  split; [rewrite map_length, seq_length; reflexivity|]. split.
  - intros l r H. destruct (SH _ _ H) as (key & Lk & Ht & -> & ->). eexists. split; [reflexivity|]. split; [apply picked_some; auto|]. split.
    + cbn [app]. constructor. apply picked_perm. auto.
    + set (f := fun x => if in_dec eqd x (picked true (false :: key) q) then true else false).
      assert (EK : map f q = false :: key) by (apply picked_key; [exact ND|cbn [length]; rewrite Lk; reflexivity]).
      exists f. pose proof (picked_filter f false q) as F0. pose proof (picked_filter f true q) as F1. rewrite EK in F0, F1. unfold q in F0 at 1, F1 at 1.
      rewrite picked_cons in F0, F1. cbn [Bool.eqb] in F0, F1. rewrite F0, F1. split; apply filter_ext; intros x; destruct (f x); reflexivity.
  - intros f (x & Hx & Fx) (y & Hy & Fy) l r.
    assert (G : forall g : A -> bool, g a = false -> (exists x, In x q /\ g x = true) ->
      In (filter (fun x => negb (g x)) q, filter g q) (map (fun i => pair (digits (length q) i)) (seq 1 (2 ^ n - 1)))).
    { intros g Ga (z & Hz & Gz).
      assert (E : (filter (fun x => negb (g x)) q, filter g q) = pair (false :: map g p)).
      { assert (EK : map g q = false :: map g p) by (unfold q; cbn [map]; rewrite Ga; reflexivity). unfold pair. rewrite <- EK. rewrite !picked_filter. f_equal; apply filter_ext; intros v; destruct (g v); reflexivity. }
      rewrite E. apply MEM; [apply map_length|]. destruct Hz as [<-|Hz]; [congruence|]. apply in_map_iff. exists z. auto. }
    destruct (f a) eqn:Fa.
    + right. assert (I : In (r, l) (map (fun i => pair (digits (length q) i)) (seq 1 (2 ^ n - 1)))).
      { pose proof (G (fun x => negb (f x))) as H. cbv beta in H. rewrite Fa in H. specialize (H eq_refl). unfold l, r.
        rewrite (filter_ext f (fun x => negb (negb (f x)))) by (intros; rewrite negb_involutive; reflexivity).
        apply H. exists y. rewrite Fy. auto. }
      split; [exact I|apply ONE, I].
    + left. assert (I : In (l, r) (map (fun i => pair (digits (length q) i)) (seq 1 (2 ^ n - 1)))) by (apply G; [exact Fa|exists x; auto]).
      split; [exact I|apply ONE, I].
Qed.

(** Lists with less than two elements have no splits. *)
Theorem separate_short : forall A (p : list A), length p <= 1 -> separate_list false p = Ok [].
Proof. intros A [|a [|b p]] H; [reflexivity|reflexivity|cbn in H; lia]. Qed.

Example three_split : separate_list false [1; 2; 3] = Ok [([1; 2], [3]); ([1; 3], [2]); ([1], [2; 3])] /\
  NoDup [1; 2; 3].
Proof. split; [reflexivity|]. repeat constructor; cbn; lia. Qed.

Print Assumptions separate_python3_refuted.
Print Assumptions separate_lists.
Print Assumptions separate_short.
