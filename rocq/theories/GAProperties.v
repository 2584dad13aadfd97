(** Properties C07-C18 and C66-C68: the genetic algorithm. *)
From Coq Require Import List Arith Lia Permutation Bool Sorting.Sorted ZArith QArith Lqa.
From Verif Require Import Base BaseFacts GAModel GASearchProofs GAOpsProofs GAParetoProofs.
Import ListNotations.
Local Open Scope nat_scope.

(** Candidates evaluated up to and including generation [n]. *)
Definition evaluated_until {C F} (pop0 : list C) (tr : list (list C * @state C F)) (n : nat) : list C :=
  pop0 ++ concat (map fst (firstn (S n) tr)).

(** [y] is a greatest element of [l]. *)
Definition greatest {F} (leb : F -> F -> bool) (y : F) (l : list F) : Prop :=
  In y l /\ forall z, In z l -> leb z y = true.

Section Search.
Context {C F G : Type}.
Variable leb : F -> F -> bool.
Variable ninf : F.
Variable rnd : F -> G.
Variable geqb : G -> G -> bool.
Variable score : C -> F.
Variable size : nat.
Variable dedup natsel : bool.
Variable rep : nat.
Variable offs : nat -> list C -> list F -> list C.
Notation search := (search leb ninf rnd geqb score size dedup natsel rep offs).

Lemma search_inv steps pop0 st0 tr : search steps pop0 = Ok (st0, tr) ->
  pop st0 = pop0 /\ fit st0 = map score pop0 /\ pop0 <> [] /\
  search_loop leb rnd geqb score size dedup natsel rep offs steps 0 st0 = Ok tr.
Proof.
  unfold GAModel.search, no_progress. destruct (np_max leb (map score pop0)) as [m|e] eqn:Em; simpl; [|discriminate].
  destruct (search_loop _ _ _ _ _ _ _ _ _ _ _ _) as [t|e] eqn:El; simpl; [|discriminate].
  intros H; inversion H; subst. simpl. repeat split; auto.
  intros ->. discriminate.
Qed.
End Search.

(** C07. Whatever the random choices ([offs] is arbitrary), the fitness list is
    the list of scores of the population, in the initial state and after every
    generation. *)
Theorem ga_population_fitness_paired :
  forall (C F G : Type) (leb : F -> F -> bool) (ninf : F) (rnd : F -> G) (geqb : G -> G -> bool)
         (score : C -> F) (size : nat) (dedup natsel : bool) (rep : nat)
         (offs : nat -> list C -> list F -> list C) steps pop0 st0 tr,
  (forall x y, geqb x y = true <-> x = y) ->
  search leb ninf rnd geqb score size dedup natsel rep offs steps pop0 = Ok (st0, tr) ->
  pop st0 = pop0 /\
  forall s, s = st0 \/ In s (map snd tr) -> fit s = map score (pop s).
Proof.
  intros C F G leb ninf rnd geqb score size dedup natsel rep offs steps pop0 st0 tr Hg E.
  destruct (search_inv _ _ _ _ _ _ _ _ _ _ _ _ _ _ E) as (H1 & H2 & _ & El).
  split; auto. intros s [->|Hs]; [congruence|].
  destruct (In_nth _ _ st0 Hs) as (n & Hn & <-). rewrite map_length in Hn.
  rewrite (@nth_map_lt _ _ _ _ _ ([], st0)) by auto.
  refine (@search_loop_ind C F G leb rnd geqb score size dedup natsel rep offs
     (fun _ s => fit s = map score (pop s)) steps 0 st0 tr [] _ _ El n Hn).
  - intros s ev o p f c HP Ecs. simpl.
    refine (@combine_select_paired C F G leb ninf rnd geqb Hg score size dedup natsel offs s o p f _ Ecs). exact HP.
  - congruence.
Qed.

(** A three generation search over integers, candidates scored by themselves. *)
Example ga_search_case :
  match search Z.leb (-1000)%Z (fun x => x) Z.eqb (fun c : Z => (c * c)%Z) 3 true true 5
    (fun k pop fit => [Z.of_nat k; -4; 2]%Z) 3 [1; -2; 3]%Z with
  | Ok (st0, tr) => fit st0 = [1; 4; 9]%Z /\
      map (fun s => (pop (snd s), fit (snd s))) tr =
      [([-4; 3; -2]%Z, [16; 9; 4]%Z); ([-4; 3; -2]%Z, [16; 9; 4]%Z); ([-4; 3; -2]%Z, [16; 9; 4]%Z)]
  | Err _ => False
  end.
Proof. vm_compute. auto. Qed.

(** C08 (without an accuracy parameter): after every generation the best
    fitness in the population is the best of everything evaluated so far. *)
Theorem ga_best_is_best_ever :
  forall (C F G : Type) (leb : F -> F -> bool) (ninf : F) (rnd : F -> G) (geqb : G -> G -> bool)
         (score : C -> F) (size : nat) (natsel : bool) (rep : nat)
         (offs : nat -> list C -> list F -> list C) steps pop0 st0 tr,
  total_preorder leb -> (forall x y, geqb x y = true <-> x = y) -> 1 <= size ->
  search leb ninf rnd geqb score size false natsel rep offs steps pop0 = Ok (st0, tr) ->
  forall n, n < length tr ->
  exists best, greatest leb best (fit (snd (nth n tr ([], st0)))) /\
               greatest leb best (map score (evaluated_until pop0 tr n)).
Proof.
  intros C F G leb ninf rnd geqb score size natsel rep offs steps pop0 st0 tr Ho Hg Hs E n Hn.
  destruct (search_inv _ _ _ _ _ _ _ _ _ _ _ _ _ _ E) as (H1 & H2 & Hne & El).
  pose proof (@search_loop_covers C F G leb Ho ninf rnd geqb Hg score size false natsel rep offs
     (fun x y => leb x y = true) steps 0 st0 tr (fun _ => Hs)) as HC.
  assert (Hcov : forall c, In c (evaluated_until pop0 tr n) ->
            exists y, In y (fit (snd (nth n tr ([], st0)))) /\ leb (score c) y = true).
  { unfold evaluated_until. rewrite <- H1. apply HC; auto.
    - destruct Ho as [Ht _]. intros x. destruct (Ht x x); auto.
    - destruct Ho as [_ Ht]. exact Ht.
    - discriminate.
    - unfold paired. congruence. }
  assert (Hsub : forall y, In y (fit (snd (nth n tr ([], st0)))) -> In y (map score (evaluated_until pop0 tr n))).
  { unfold evaluated_until.
    assert (HI : (fun ev s => length (pop s) = length (fit s) /\ forall y, In y (fit s) -> In y (map score ev))
       (pop0 ++ concat (map fst (firstn (S n) tr))) (snd (nth n tr ([], st0)))); [|exact (proj2 HI)].
    refine (@search_loop_ind C F G leb rnd geqb score size false natsel rep offs
       (fun ev s => length (pop s) = length (fit s) /\ forall y, In y (fit s) -> In y (map score ev))
       steps 0 st0 tr pop0 _ _ El n Hn).
    - intros s ev o p f c [HL HP] Ecs. unfold combine_select in Ecs. simpl.
      assert (HPo : forall y, In y (fit s ++ map score o) -> In y (map score (ev ++ o))).
      { intros y Hy. rewrite map_app, in_app_iff in *. destruct Hy; auto. }
      destruct natsel.
      + split.
        * unfold population_reduction in Ecs. inversion Ecs; subst. rewrite !map_length. auto.
        * destruct (@reduction_spec C F leb Ho _ _ _ _ _ Ecs) as (rest & Hp & _ & _).
          intros y Hy. apply HPo. destruct (In_nth _ _ y Hy) as (i & Hi & Ey).
          assert (Hlen : length p = length f).
          { unfold population_reduction in Ecs. inversion Ecs; subst. rewrite !map_length. auto. }
          destruct p as [|p0 p']; [destruct f; simpl in *; [tauto|discriminate]|].
          eapply in_combine_r with (x := nth i (p0 :: p') p0) (l := pop s ++ o).
          eapply Permutation_in; [exact Hp|]. apply in_app_iff. left.
          rewrite <- Ey. rewrite <- combine_nth by auto. apply nth_In. rewrite combine_length. lia.
      + inversion Ecs; subst. split; auto. rewrite !app_length, map_length. lia.
    - split; [rewrite H1, H2, map_length; auto|]. rewrite H2. auto. }
  assert (Hfne : fit (snd (nth n tr ([], st0))) <> []).
  { destruct pop0 as [|c0 t]; [congruence|]. destruct (Hcov c0) as (y & Hy & _).
    - unfold evaluated_until. left; auto.
    - intros H. rewrite H in Hy. inversion Hy. }
  destruct (@np_max_ok F leb Ho _ Hfne) as (best & _ & Hb1 & Hb2).
  exists best. split; split; auto.
  intros z Hz. apply in_map_iff in Hz. destruct Hz as (c & <- & Hc).
  destruct (Hcov c Hc) as (y & Hy & Hle). destruct Ho as [_ Htr]. eapply Htr; eauto.
Qed.

Example ga_best_case :
  match search Z.leb (-1000)%Z (fun x => x) Z.eqb (fun c : Z => (10 - c * c)%Z) 2 false true 5
    (fun k pop fit => [Z.of_nat k; 7]%Z) 2 [2; 3]%Z with
  | Ok (st0, tr) => map (fun s => fit (snd s)) tr = [[10; 6]%Z; [10; 9]%Z]
  | Err _ => False
  end.
Proof. vm_compute. auto. Qed.

(** C08, the part that holds when duplicates are removed: the best fitness
    rounded to the requested accuracy is never lost. *)
Theorem ga_best_with_duplicate_removal_partial :
  forall (C F G : Type) (leb : F -> F -> bool) (gleb : G -> G -> bool) (ninf : F) (rnd : F -> G)
         (geqb : G -> G -> bool) (score : C -> F) (size : nat) (dedup natsel : bool) (rep : nat)
         (offs : nat -> list C -> list F -> list C) steps pop0 st0 tr,
  total_preorder leb -> total_preorder gleb ->
  (forall x y, leb x y = true -> gleb (rnd x) (rnd y) = true) ->
  (forall x y, geqb x y = true <-> x = y) -> 1 <= size ->
  search leb ninf rnd geqb score size dedup natsel rep offs steps pop0 = Ok (st0, tr) ->
  forall n, n < length tr ->
  forall c, In c (evaluated_until pop0 tr n) ->
  exists y, In y (fit (snd (nth n tr ([], st0)))) /\ gleb (rnd (score c)) (rnd y) = true.
Proof.
  intros C F G leb gleb ninf rnd geqb score size dedup natsel rep offs steps pop0 st0 tr Ho Hgo Hmono Hg Hs E n Hn.
  destruct (search_inv _ _ _ _ _ _ _ _ _ _ _ _ _ _ E) as (H1 & H2 & Hne & El).
  unfold evaluated_until. rewrite <- H1.
  refine (@search_loop_covers C F G leb Ho ninf rnd geqb Hg score size dedup natsel rep offs
     (fun x y => gleb (rnd x) (rnd y) = true) steps 0 st0 tr (fun _ => Hs) _ _ _ _ _ El n Hn); auto.
  - intros x. destruct Hgo as [Ht _]. destruct (Ht (rnd x) (rnd x)); auto.
  - intros x y z. destruct Hgo as [_ Ht]. apply Ht.
  - intros _ x y ->. destruct Hgo as [Ht _]. destruct (Ht (rnd y) (rnd y)); auto.
  - unfold paired. congruence.
Qed.

(** C08 refuted when an accuracy is set: the representative of a rounded value
    is the first one in the list, which need not be the best: fitness in
    thousandths, rounded to hundredths: the population 0.512, 0.514 loses 0.514. *)
Theorem ga_best_never_decreases_refuted :
  exists (pop0 : list Z) (offs : nat -> list Z -> list Z -> list Z) st0 st1,
  search Z.leb (-1000000)%Z (fun x => x / 10)%Z Z.eqb (fun c => c) 2 true true 5 offs 1 pop0
    = Ok (st0, [(offs 0 (pop st0) (fit st0), st1)]) /\
  greatest Z.leb 514%Z (fit st0) /\ greatest Z.leb 512%Z (fit st1).
Proof.
  exists [512; 514]%Z, (fun _ _ _ => [300; 301]%Z). eexists _, _. split; [vm_compute; reflexivity|].
  split; (split; [simpl; auto|]); simpl; intros z Hz; apply Z.leb_le; intuition lia.
Qed.

(** C09. population_reduction keeps min(size, n) pairs, sorted by decreasing
    fitness; nothing discarded is fitter than anything kept. *)
Theorem population_reduction_keeps_fittest :
  forall (C F : Type) (leb : F -> F -> bool) (pop : list C) (fit : list F) size p f,
  total_preorder leb -> length pop = length fit ->
  population_reduction leb pop fit size = (p, f) ->
  length p = Nat.min size (length pop) /\ length f = Nat.min size (length pop) /\
  StronglySorted (fun a b => leb b a = true) f /\
  exists discarded, Permutation (combine p f ++ discarded) (combine pop fit) /\
    forall kept gone, In kept (combine p f) -> In gone discarded -> leb (snd gone) (snd kept) = true.
Proof.
  intros C F leb pop fit size p f Ho HL E.
  destruct (@reduction_length C F leb pop fit size p f HL E) as [A B].
  destruct (@reduction_spec C F leb Ho pop fit size p f E) as (rest & H1 & H2 & H3).
  repeat split; auto. exists rest. auto.
Qed.

Example population_reduction_case :
  population_reduction Nat.leb [10; 11; 12; 13] [5; 8; 5; 9] 3 = ([13; 11; 10], [9; 8; 5]).
Proof. reflexivity. Qed.

Theorem ga_population_size_constant :
  forall (C F G : Type) (leb : F -> F -> bool) (ninf : F) (rnd : F -> G) (geqb : G -> G -> bool)
         (score : C -> F) (size : nat) (rep : nat)
         (offs : nat -> list C -> list F -> list C) steps pop0 st0 tr,
  size <= length pop0 ->
  search leb ninf rnd geqb score size false true rep offs steps pop0 = Ok (st0, tr) ->
  forall o s, In (o, s) tr -> length (pop s) = size /\ length (fit s) = size.
Proof.
  intros C F G leb ninf rnd geqb score size rep offs steps pop0 st0 tr Hsz E o s Hin.
  destruct (search_inv _ _ _ _ _ _ _ _ _ _ _ _ _ _ E) as (H1 & H2 & _ & El).
  destruct (In_nth _ _ ([], st0) Hin) as (n & Hn & En).
  pose proof (@search_loop_size C F G leb rnd geqb score size false true rep offs steps 0 st0 tr
     eq_refl eq_refl) as H.
  assert (HL : length (pop st0) = length (fit st0)) by (rewrite H1, H2, map_length; auto).
  specialize (H HL ltac:(rewrite H1; auto) El n Hn). rewrite En in H. exact H.
Qed.

(** C10. Duplicate removal keeps, in order, exactly the pairs whose rounded
    fitness does not occur earlier. *)
Theorem remove_duplicates_first_representatives :
  forall (C F G : Type) (rnd : F -> G) (geqb : G -> G -> bool) (pop : list C) (fit : list F) p f,
  (forall x y, geqb x y = true <-> x = y) -> length pop = length fit ->
  remove_duplicates rnd geqb pop fit = (p, f) ->
  length p = length f /\ NoDup (map rnd f) /\
  (forall x, In x fit -> In (rnd x) (map rnd f)) /\
  (forall c x, In (c, x) (combine p f) ->
     exists l1 l2, combine pop fit = l1 ++ (c, x) :: l2 /\ forall d y, In (d, y) l1 -> rnd y <> rnd x) /\
  (forall l1 c x l2, combine pop fit = l1 ++ (c, x) :: l2 ->
     (forall d y, In (d, y) l1 -> rnd y <> rnd x) -> In (c, x) (combine p f)).
Proof.
  intros C F G rnd geqb pop fit p f Hg HL E.
  rewrite (@remove_duplicates_eq C F G rnd geqb Hg pop fit HL) in E. inversion E; subst; clear E.
  set (key := fun q : C * F => rnd (snd q)).
  set (kf := keep_first geqb key [] (combine pop fit)).
  split; [rewrite !map_length; auto|].
  split; [rewrite map_map; apply (@keep_first_nodup G geqb Hg _ key [] (combine pop fit))|].
  split.
  { intros x Hx. destruct (In_nth _ _ x Hx) as (i & Hi & Ei).
    assert (Hp : exists c, In (c, x) (combine pop fit)).
    { destruct pop as [|c0 pop']; [destruct fit; simpl in *; [tauto|discriminate]|].
      exists (nth i (c0 :: pop') c0). rewrite <- Ei, <- combine_nth by auto. apply nth_In. rewrite combine_length. lia. }
    destruct Hp as (c & Hc).
    destruct (@keep_first_complete G geqb Hg _ key (combine pop fit) (c, x) Hc) as ([c' y] & Hy & Ey).
    rewrite map_map. apply in_map_iff. exists (c', y). split; auto. }
  rewrite combine_map_fst_snd. split.
  - intros c x Hin. destruct (@keep_first_occurrence G geqb Hg _ key [] (combine pop fit) (c, x) Hin) as (l1 & l2 & H1 & H2).
    exists l1, l2. split; auto. intros d y Hd. apply (H2 (d, y) Hd).
  - intros l1 c x l2 H1 H2. unfold kf. rewrite H1.
    apply (@keep_first_first G geqb Hg _ key); auto. intros [d y] Hd. apply (H2 d y Hd).
Qed.

Example remove_duplicates_case :
  remove_duplicates (fun x => x / 10)%Z Z.eqb [1; 2; 3; 4] [51; 52; 70; 58]%Z = ([1; 3], [51; 70]%Z).
Proof. reflexivity. Qed.

(** C11. Parallel evaluation returns the serial fitness list for every order
    [argsort] may give and every order in which workers finish. *)
Theorem parallel_fitness_equals_serial :
  forall (C F : Type) (dC : C) (zero : F) (score : C -> F) (order done_ : list nat) (params : list C),
  Permutation order (seq 0 (length params)) -> Permutation done_ (seq 0 (length params)) ->
  parallel_iterator dC zero score order done_ params = serial_iterator score params.
Proof. intros. apply parallel_serial; auto. Qed.

Example parallel_case :
  parallel_iterator 0 0 (fun c => c * c) [2; 0; 3; 1] [3; 1; 0; 2] [4; 5; 6; 7] = [16; 25; 36; 49].
Proof. reflexivity. Qed.

(** C12. *)
Theorem cut_and_splice_genes :
  forall (cut : nat) (p1 p2 : list bool),
  length p1 = length p2 -> 1 <= cut < length p1 ->
  exists child, cut_and_splice cut p1 p2 = Ok child /\ length child = length p1 /\
    forall i, i < length p1 -> nth i child false = if i <? cut then nth i p1 false else nth i p2 false.
Proof.
  intros cut p1 p2 HL Hc. unfold cut_and_splice. destruct (Nat.leb_spec (length p1) 1); [lia|].
  eexists. split; [reflexivity|]. split.
  - rewrite app_length, firstn_length, skipn_length. lia.
  - intros i Hi. apply splice_nth; auto. lia.
Qed.

Theorem random_permutation_flips_one_gene :
  forall index (p : list bool), index < length p ->
  length (random_permutation index p) = length p /\
  forall i, i < length p ->
    nth i (random_permutation index p) false =
    if i =? index then negb (nth i p false) else nth i p false.
Proof.
  intros index p Hi. unfold random_permutation. rewrite set_nth_length. split; auto.
  intros i Hi'. destruct (Nat.eqb_spec i index) as [->|Hne].
  - apply nth_set_nth_eq; auto.
  - apply nth_set_nth_neq; auto.
Qed.

(** [hit i]: the random draw for gene [i] says "change". *)
Theorem probability_remove_genes :
  forall hit index (p : list bool), index < length p ->
  let q := probability_remove hit index p in
  length q = length p /\ 1 <= active q /\
  ((exists i, i < length p /\ nth i p false = true /\ hit i = false) ->
     forall i, i < length p -> nth i q false = nth i p false && negb (hit i)) /\
  ((forall i, nth i p false = true -> hit i = true) ->
     forall i, i < length p -> nth i q false = (i =? index)).
Proof.
  intros hit index p Hi q. destruct (probability_remove_spec hit index p) as (H1 & H2 & H3).
  repeat split; auto.
  - apply probability_remove_nonempty; auto.
  - intros (i & A & B & D). apply H2. exists i; auto.
Qed.

Theorem probability_include_genes :
  forall hit (p : list bool),
  length (probability_include hit p) = length p /\
  forall i, i < length p -> nth i (probability_include hit p) false = nth i p false || hit i.
Proof. intros. apply probability_include_spec. Qed.

Example operators_case :
  cut_and_splice 1 [true; true; false] [false; false; true] = Ok [true; false; true] /\
  probability_remove (fun i => i <? 2) 0 [true; true; false; true] = [false; false; false; true] /\
  probability_remove (fun _ => true) 2 [true; true; false] = [false; false; true] /\
  probability_include (fun i => i =? 2) [true; false; false] = [true; false; true] /\
  random_permutation 1 [true; true; false] = [true; false; false].
Proof. repeat split; reflexivity. Qed.

(** C13 refuted: with dmax = 2, mating two candidates of two features each, or
    including features (even after the extra removal), exceeds dmax. *)
Theorem candidates_respect_dmax_refuted :
  exists (p1 p2 child : list bool) cut,
  active p1 <= 2 /\ active p2 <= 2 /\ 1 <= cut < length p1 /\ length p1 = length p2 /\
  make_child (Some 2) (Mate p2 cut) (fun _ => true) 0 p1 = Ok child /\ 2 < active child.
Proof.
  exists [true; true; false; false], [false; false; true; true]. eexists. exists 2.
  split; [vm_compute; lia|]. split; [vm_compute; lia|]. split; [simpl; lia|]. split; auto.
  split; [reflexivity|]. vm_compute. lia.
Qed.
Theorem mutation_respects_dmax_refuted :
  exists (p1 child : list bool) hit hit2,
  active p1 <= 1 /\ make_child (Some 1) (Include hit) hit2 0 p1 = Ok child /\ 1 < active child.
Proof.
  exists [true; false; false]. eexists. exists (fun _ => true), (fun _ => false).
  split; [vm_compute; lia|]. split; [reflexivity|]. vm_compute. lia.
Qed.
(** C13, the part that holds: removal never exceeds dmax, and no mutation path
    ever hands on more features than the mutant it starts from. *)
Theorem removal_respects_dmax_partial :
  forall dmax hit index hit2 index2 (p1 : list bool),
  1 <= active p1 <= dmax -> index < length p1 ->
  exists child, make_child (Some dmax) (Remove hit index) hit2 index2 p1 = Ok child /\
    1 <= active child <= dmax.
Proof.
  intros dmax hit index hit2 index2 p1 Ha Hi. simpl.
  pose proof (probability_remove_sub hit index p1 ltac:(lia) Hi) as H1.
  pose proof (probability_remove_nonempty hit index p1 Hi) as H2.
  destruct (Nat.ltb_spec dmax (active (probability_remove hit index p1))); [lia|].
  eexists. split; [reflexivity|]. lia.
Qed.
Example removal_case : 1 <= active [true; false; true] <= 2 /\
  make_child (Some 2) (Remove (fun i => i =? 0) 1) (fun _ => false) 0 [true; false; true] = Ok [false; false; true].
Proof. split; [vm_compute; lia|reflexivity]. Qed.

(** C14, the part that holds: every drawn candidate is well formed. *)
Theorem initial_population_well_formed_partial :
  forall dimension dmax draws,
  n_active dimension dmax <= dimension ->
  (forall idx, In idx draws -> valid_draw dimension dmax idx) ->
  exists pop, initialize_population dimension draws = Ok pop /\ length pop = length draws /\
    forall p, In p pop -> length p = dimension /\ 1 <= active p <= n_active dimension dmax.
Proof.
  intros dimension dmax draws Hd Hv.
  destruct (initialize_spec dimension dmax draws Hd Hv) as (pop & E & HF).
  exists pop. split; auto. split.
  - symmetry. eapply Forall2_length; eauto.
  - intros p Hp. revert Hv Hp. clear E. induction HF; simpl; [tauto|].
    intros Hv [<-|Hp]; [|apply IHHF; auto].
    destruct H as (H1 & H2 & H3). destruct (Hv x (or_introl eq_refl)) as (_ & _ & Hb). lia.
Qed.
Example initial_population_case :
  initialize_population 3 [[1]; [0; 1]] = Ok [[false; true; false]; [true; true; false]] /\
  valid_draw 3 (Some 2) [1] /\ valid_draw 3 (Some 2) [0; 1].
Proof.
  split; [reflexivity|]. unfold valid_draw. simpl. split; (split; [|split; [|lia]]).
  - repeat constructor; simpl; intuition discriminate.
  - intros i [<-|[]]; lia.
  - repeat constructor; simpl; intuition discriminate.
  - intros i [<-|[<-|[]]]; lia.
Qed.

(** C14 refuted: with dmax set, features with index >= dmax are never active. *)
Theorem every_feature_can_be_active_refuted :
  forall dimension dmax draws pop,
  dmax < dimension ->
  (forall idx, In idx draws -> valid_draw dimension (Some dmax) idx) ->
  initialize_population dimension draws = Ok pop ->
  forall p, In p pop -> nth dmax p false = false.
Proof.
  intros dimension dmax draws pop Hd Hv E p Hp.
  destruct (initialize_spec dimension (Some dmax) draws ltac:(simpl; lia) Hv) as (pop' & E' & HF).
  rewrite E in E'. injection E' as <-. revert Hv Hp. clear E. induction HF; simpl; [tauto|].
  intros Hv [<-|Hp]; [|apply IHHF; auto].
  destruct H as (H1 & H2 & H3). destruct (nth dmax y false) eqn:Ed; auto.
  apply H3 in Ed. destruct (Hv x (or_introl eq_refl)) as (_ & Hb & _). specialize (Hb dmax Ed). simpl in Hb. lia.
Qed.

(** C15 refuted, in general: of two candidates the strictly fitter one always
    gets the strictly smaller acceptance probability. *)
Theorem fitter_more_likely_refuted :
  forall (F : Type) (leb : F -> F -> bool) (dF : F) fits i j,
  total_preorder leb -> i < length fits -> j < length fits ->
  leb (nth i fits dF) (nth j fits dF) = false ->
  (nth i (selection_prob leb fits) 0 < nth j (selection_prob leb fits) 0)%Q.
Proof. intros. eapply selection_prob_anti; eauto. Qed.
(** Every probability is strictly between 0 and 1: no candidate is always or never
    accepted, and the loop over the candidates ends. *)
Theorem selection_prob_open :
  forall (F : Type) (leb : F -> F -> bool) fits i, i < length fits ->
  (0 < nth i (selection_prob leb fits) 0 < 1)%Q.
Proof.
  intros F leb fits i Hi. destruct (selection_prob_spec leb fits i Hi) as (r & Hr & _ & ->).
  unfold scale, Qlt. cbn [Qnum Qden]. split; [lia|].
  rewrite Z.mul_1_r, Z.mul_1_l. pose proof (Nat2Pos.id (length fits + 2) ltac:(lia)). lia.
Qed.
Example fitter_case : selection_prob Nat.leb [7; 3; 9] = [2 # 5; 3 # 5; 1 # 5]%Q.
Proof. reflexivity. Qed.

(** C16. [strictly_better a b]: [a] exceeds [b] in every objective. *)
Definition strictly_better {E} (leb : E -> E -> bool) (a b : list E) : Prop :=
  Forall2 (fun x y => leb x y = false) a b.

Theorem pareto_transform_always_terminates :
  forall (E : Type) (leb : E -> E -> bool) (ninf : E) (w : nat) (m : list (list E)),
  total_preorder leb -> (forall e, leb ninf e = true) ->
  1 <= w -> Forall (fun r => length r = w) m ->
  exists ranks, pareto_transform leb ninf m = Some ranks.
Proof. intros. eapply pareto_transform_terminates; eauto. Qed.

Theorem pareto_ranks_follow_domination :
  forall (E : Type) (leb : E -> E -> bool) (ninf : E) (w : nat) (m : list (list E)) ranks,
  total_preorder leb -> (forall e, leb ninf e = true) ->
  1 <= w -> Forall (fun r => length r = w) m ->
  (* every candidate evaluated in all objectives, or failed *)
  Forall (fun r => (forall e, In e r -> leb e ninf = false) \/ (forall e, In e r -> e = ninf)) m ->
  pareto_transform leb ninf m = Some ranks ->
  length ranks = length m /\
  forall j, j < length m -> (forall e, In e (nth j m []) -> leb e ninf = false) ->
    (nth j ranks 0 <= -1)%Z /\
    (forall i, i < length m -> strictly_better leb (nth i m []) (nth j m []) ->
       (nth j ranks 0 < nth i ranks 0)%Z) /\
    (nth j ranks 0%Z = (-1)%Z <->
       ~ exists i, i < length m /\ strictly_better leb (nth i m []) (nth j m [])) /\
    ((nth j ranks 0 < -1)%Z -> exists i, i < length m /\
       strictly_better leb (nth i m []) (nth j m []) /\ nth i ranks 0%Z = (nth j ranks 0 + 1)%Z).
Proof.
  intros E leb ninf w m ranks Ho Hn Hw Hr Hm HE.
  assert (Hm' : Forall (fun r => evaluated leb ninf r \/ failed ninf r) m).
  { eapply Forall_impl; [|exact Hm]. intros r [H|H]; [left|right]; apply Forall_forall; auto.
    intros e He. unfold is_finite. rewrite (H e He). auto. }
  destruct (@pareto_ranks E leb ninf Ho Hn m w Hw Hr Hm' ranks HE) as (H1 & H2 & H3).
  split; auto. intros j Hj Hf.
  assert (He : evaluated leb ninf (nth j m [])).
  { apply Forall_forall. intros e Hin. unfold is_finite. rewrite (Hf e Hin). auto. }
  destruct (H3 j Hj He) as (A & B & D).
  assert (Hsd : forall i, i < length m -> strictly_better leb (nth i m []) (nth j m []) -> (nth i ranks 0 <= -1)%Z).
  { intros i Hi Hs. pose proof (@sdom_eval E leb ninf Hn m w Hw Hr Hm' i j Hi Hj Hs) as Hei. apply (H3 i Hi Hei). }
  split; auto. split; auto. split; auto. split.
  - intros Hr1 (i & Hi & Hs). specialize (B i Hi Hs). specialize (Hsd i Hi Hs). lia.
  - intros Hno. destruct (Z.eq_dec (nth j ranks 0%Z) (-1)); auto. exfalso. apply Hno.
    destruct D as (i & Hi & Hs & _); [lia|]. eauto.
Qed.

(** Objectives are integers here, -1000 playing -inf. *)
Example pareto_case :
  pareto_transform Z.leb (-1000)%Z [[1; 2]; [2; 1]; [0; 0]; [-1; -1]; [2; 2]]%Z = Some [-1; -1; -2; -3; -1]%Z.
Proof. reflexivity. Qed.

(** C16/C17 boundary: when a fitness is -inf in only one objective the ranking
    breaks: the front is ranked again, so a dominated candidate ends up level
    with the one dominating it. *)
Theorem pareto_partially_failed_refuted :
  exists ranks,
  pareto_transform Z.leb (-1000)%Z [[5; 8]; [-1000; 7]]%Z = Some ranks /\
  nth 0 ranks 0%Z = nth 1 ranks 0%Z.
Proof. eexists. split; [vm_compute; reflexivity|reflexivity]. Qed.

(** C17 refuted, in general: a failed candidate (all objectives -inf) gets rank
    0, strictly better than every candidate that evaluated. *)
Theorem failed_candidates_never_best_refuted :
  forall (E : Type) (leb : E -> E -> bool) (ninf : E) (w : nat) (m : list (list E)) ranks,
  total_preorder leb -> (forall e, leb ninf e = true) ->
  1 <= w -> Forall (fun r => length r = w) m ->
  Forall (fun r => (forall e, In e r -> leb e ninf = false) \/ (forall e, In e r -> e = ninf)) m ->
  pareto_transform leb ninf m = Some ranks ->
  forall i j, i < length m -> j < length m ->
    (forall e, In e (nth i m []) -> e = ninf) ->
    (forall e, In e (nth j m []) -> leb e ninf = false) ->
    (nth j ranks 0 < nth i ranks 0)%Z.
Proof.
  intros E leb ninf w m ranks Ho Hn Hw Hr Hm HE i j Hi Hj Hfi Hej.
  assert (Hm' : Forall (fun r => evaluated leb ninf r \/ failed ninf r) m).
  { eapply Forall_impl; [|exact Hm]. intros r [H|H]; [left|right]; apply Forall_forall; auto.
    intros e He. unfold is_finite. rewrite (H e He). auto. }
  destruct (@pareto_ranks E leb ninf Ho Hn m w Hw Hr Hm' ranks HE) as (H1 & H2 & H3).
  rewrite (H2 i Hi) by (apply Forall_forall; auto).
  destruct (H3 j Hj) as (A & _); [|lia].
  apply Forall_forall. intros e Hin. unfold is_finite. rewrite (Hej e Hin). auto.
Qed.
Example failed_case :
  pareto_transform Z.leb (-1000)%Z [[1; 2]; [-1000; -1000]; [0; 0]]%Z = Some [-1; 0; -2]%Z.
Proof. reflexivity. Qed.

(** C18.  [np_history]: the answers of consecutive calls of one Convergence
    object's no_progress. *)
Fixpoint np_history {F} (leb : F -> F -> bool) (repeat : nat) (st : F * nat) (hist : list (list F))
  : result (list bool) :=
  match hist with
  | [] => Ok []
  | f :: t => bind (no_progress leb repeat st f) (fun r =>
              bind (np_history leb repeat (snd r) t) (fun bs => Ok (fst r :: bs)))
  end.

(** No value seen in the last [k] calls exceeds everything seen before them. *)
Definition no_progress_for {F} (leb : F -> F -> bool) (ninf : F) (k : nat) (hist : list (list F)) : Prop :=
  k <= length hist /\
  forall f y, In f (skipn (length hist - k) hist) -> In y f ->
    exists x, In x (ninf :: concat (firstn (length hist - k) hist)) /\ leb y x = true.

Lemma np_history_run {F} (leb : F -> F -> bool) repeat st hist bs :
  np_history leb repeat st hist = Ok bs ->
  exists ms, Forall2 (fun f m => np_max leb f = Ok m) hist ms /\ bs = fst (run_np leb repeat st ms).
Proof.
  revert st bs. induction hist as [|f hist IH]; simpl; intros st bs.
  - intros H; inversion H. exists []. auto.
  - unfold no_progress. destruct (np_max leb f) as [m|e] eqn:Em; simpl; [|discriminate].
    destruct (np_history leb repeat (snd (no_progress_max leb repeat st m)) hist) as [bs'|e] eqn:E; simpl; [|discriminate].
    intros H; inversion H; subst. destruct (IH _ _ E) as (ms & HF & ->).
    exists (m :: ms). split; [constructor; auto|]. simpl.
    destruct (no_progress_max leb repeat st m) as [b st'] eqn:En. simpl in *.
    destruct (run_np leb repeat st' ms); auto.
Qed.

Theorem no_progress_converges_exactly :
  forall (F : Type) (leb : F -> F -> bool) (ninf : F) repeat hist f bs,
  total_preorder leb -> (forall x, leb ninf x = true) ->
  np_history leb repeat (ninf, 0) (hist ++ [f]) = Ok bs ->
  last bs false = true <-> no_progress_for leb ninf (S repeat) (hist ++ [f]).
Proof.
  intros F leb ninf repeat hist f bs Ho Hn E.
  destruct (np_history_run leb repeat _ _ _ E) as (ms & HF & ->).
  apply Forall2_app_inv_l in HF. destruct HF as (ms1 & ms2 & HF1 & HF2 & ->).
  inversion HF2 as [|? m ? ms3 Hm HF3]; subst. inversion HF3; subst. clear HF2 HF3.
  rewrite (@run_np_answer F leb Ho ninf Hn repeat ms1 m), Nat.add_1_r.
  assert (HF : Forall2 (fun f m => np_max leb f = Ok m) (hist ++ [f]) (ms1 ++ [m])) by (apply Forall2_app; auto).
  revert HF. generalize (hist ++ [f]) as H. generalize (ms1 ++ [m]) as M. clear - Ho. intros M H HF.
  unfold stagnant_for, no_progress_for.
  pose proof (Forall2_length HF) as HL. rewrite HL.
  assert (Hspec : forall f m, np_max leb f = Ok m -> In m f /\ forall y, In y f -> leb y m = true).
  { intros f m Em. destruct f as [|x t]; [discriminate|].
    destruct (@np_max_ok F leb Ho (x :: t) ltac:(discriminate)) as (m' & E' & A & B).
    rewrite Em in E'. inversion E'; subst; auto. }
  assert (Hsplit : forall k, Forall2 (fun f m => np_max leb f = Ok m) (firstn k H) (firstn k M) /\
                             Forall2 (fun f m => np_max leb f = Ok m) (skipn k H) (skipn k M)).
  { clear -HF. induction HF; intros [|k]; simpl; auto. destruct (IHHF k); auto. }
  destruct (Hsplit (length M - S repeat)) as [HFf HFs].
  assert (Hin1 : forall L K, Forall2 (fun f m => np_max leb f = Ok m) L K ->
     forall f, In f L -> exists m, In m K /\ np_max leb f = Ok m).
  { clear. induction 1; simpl; [tauto|]. intros g [<-|Hg]; eauto. destruct (IHForall2 g Hg) as (m & ? & ?). eauto. }
  assert (Hin2 : forall L K, Forall2 (fun f m => np_max leb f = Ok m) L K ->
     forall m, In m K -> exists f, In f L /\ np_max leb f = Ok m).
  { clear. induction 1; simpl; [tauto|]. intros g [<-|Hg]; eauto. destruct (IHForall2 g Hg) as (m & ? & ?). eauto. }
  destruct Ho as [Htot Htr].
  split; intros [HA HB]; (split; [exact HA|]).
  - intros f y Hf Hy. destruct (Hin1 _ _ HFs f Hf) as (m & Hm & Em).
    destruct (HB m Hm) as (x & [<-|Hx] & Hle).
    + exists ninf. split; [left; auto|]. eapply Htr; [apply (Hspec f m Em)|]; eauto.
    + exists x. destruct (Hin2 _ _ HFf x Hx) as (g & Hg & Eg). split.
      * right. apply in_concat. exists g. split; auto. apply (Hspec g x Eg).
      * eapply Htr; [apply (Hspec f m Em)|]; eauto.
  - intros m Hm. destruct (Hin2 _ _ HFs m Hm) as (f & Hf & Ef).
    destruct (HB f m Hf) as (x & [<-|Hx] & Hle); [apply (Hspec f m Ef)| |].
    + exists ninf. split; [left; auto|auto].
    + apply in_concat in Hx. destruct Hx as (g & Hg & Hx).
      destruct (Hin1 _ _ HFf g Hg) as (mg & Hmg & Emg). exists mg. split; [right; auto|].
      eapply Htr; eauto. apply (Hspec g mg Emg); auto.
Qed.
Example no_progress_case :
  np_history Z.leb 1 ((-1000)%Z, 0) [[1; 2]; [2; 0]; [3]; [3]; [1]]%Z = Ok [false; false; false; false; true].
Proof. reflexivity. Qed.

(** The search itself: [fits] are the fitness lists of the initial population and of
    every executed generation.  The search ends at the first generation at which none
    of the last [rep + 1] checks (the one of the initial population included) brought a
    fitness above everything before, and otherwise executes all [steps] generations. *)
Lemma np_history_app {F} (leb : F -> F -> bool) rep st h1 h2 bs :
  np_history leb rep st (h1 ++ h2) = Ok bs -> np_history leb rep st h1 = Ok (firstn (length h1) bs).
Proof.
  revert st bs. induction h1 as [|f t IH]; simpl; intros st bs; [auto|].
  destruct (no_progress leb rep st f) as [[b s]|e]; simpl; [|discriminate].
  destruct (np_history leb rep s (t ++ h2)) as [bs'|e] eqn:E; simpl; [|discriminate].
  intros H; inversion H; subst. rewrite (IH _ _ E). reflexivity.
Qed.
Lemma np_history_length {F} (leb : F -> F -> bool) rep st h bs : np_history leb rep st h = Ok bs -> length bs = length h.
Proof.
  revert st bs. induction h as [|f t IH]; simpl; intros st bs; [intros H; inversion H; auto|].
  destruct (no_progress leb rep st f) as [[b s]|e]; simpl; [|discriminate].
  destruct (np_history leb rep s t) as [bs'|e] eqn:E; simpl; [|discriminate]. intros H; inversion H; subst. simpl. eauto.
Qed.
Lemma search_loop_answers {C F G} (leb : F -> F -> bool) (rnd : F -> G) geqb (score : C -> F) size dedup natsel rep offs steps k st tr :
  search_loop leb rnd geqb score size dedup natsel rep offs steps k st = Ok tr ->
  exists bs, np_history leb rep (conv st) (map (fun r => fit (snd r)) tr) = Ok bs /\
    (forall i, S i < length bs -> nth i bs false = false) /\
    length bs <= steps /\ (length bs < steps -> last bs false = true).
Proof.
  revert k st tr. induction steps as [|n IH]; intros k st tr; cbn [search_loop].
  - intros H; inversion H. exists []. repeat split; auto; simpl; intros; lia.
  - unfold generation. destruct (combine_select leb rnd geqb score size dedup natsel st (offs k (pop st) (fit st))) as [p f].
    destruct (no_progress leb rep (conv st) f) as [[b c]|e] eqn:Enp; cbn [bind fst snd]; [|discriminate].
    destruct b.
    + intros H; inversion H; subst; clear H. exists [true]. cbn [map np_history fit snd]. rewrite Enp. cbn [bind fst snd np_history].
      repeat split; auto; simpl; intros; lia.
    + destruct (search_loop _ _ _ _ _ _ _ _ _ n (S k) _) as [t|e] eqn:E; cbn [bind]; [|discriminate].
      intros H; inversion H; subst; clear H. destruct (IH _ _ _ E) as (bs & H1 & H2 & H3 & H4). cbn [conv] in H1.
      exists (false :: bs). cbn [map np_history fit snd]. rewrite Enp. cbn [bind fst snd]. rewrite H1. cbn [bind length].
      repeat split; auto; try lia.
      * intros [|i] Hi; [auto|]. cbn [nth]. apply H2. lia.
      * intros Hl. assert (Hb : length bs < n) by lia. specialize (H4 Hb). destruct bs; [discriminate|]. exact H4.
Qed.
Lemma last_nth {A} (l : list A) d : last l d = nth (length l - 1) l d.
Proof. induction l as [|x [|y t] IH]; [auto|auto|]. cbn [last length] in *. rewrite IH. simpl. rewrite Nat.sub_0_r. auto. Qed.

Theorem search_stops_exactly :
  forall (C F G : Type) (leb : F -> F -> bool) (ninf : F) (rnd : F -> G) (geqb : G -> G -> bool)
         (score : C -> F) (size : nat) (dedup natsel : bool) (rep : nat)
         (offs : nat -> list C -> list F -> list C) steps pop0 st0 tr,
  total_preorder leb -> (forall x, leb ninf x = true) ->
  search leb ninf rnd geqb score size dedup natsel rep offs steps pop0 = Ok (st0, tr) ->
  let fits := map score pop0 :: map (fun r => fit (snd r)) tr in
  length tr <= steps /\
  (forall n, 0 < n < length tr -> ~ no_progress_for leb ninf (S rep) (firstn (S n) fits)) /\
  (length tr < steps -> tr <> [] /\ no_progress_for leb ninf (S rep) fits).
Proof.
  intros C F G leb ninf rnd geqb score size dedup natsel rep offs steps pop0 st0 tr Ho Hn E fits.
  assert (X : exists b bs, np_history leb rep (ninf, 0) fits = Ok (b :: bs) /\ length bs = length tr /\
     (forall i, S i < length bs -> nth i bs false = false) /\ length bs <= steps /\ (length bs < steps -> last bs false = true)).
  { unfold GAModel.search in E. destruct (no_progress leb rep (ninf, 0) (map score pop0)) as [[b c]|e] eqn:Enp; cbn [bind snd] in E; [|discriminate].
    destruct (search_loop _ _ _ _ _ _ _ _ _ steps 0 _) as [t|e] eqn:El; cbn [bind] in E; [|discriminate].
    inversion E; subst; clear E. destruct (search_loop_answers _ _ _ _ _ _ _ _ _ _ _ _ _ El) as (bs & H1 & H2 & H3 & H4).
    cbn [conv] in H1. exists b, bs. unfold fits. cbn [np_history]. rewrite Enp. cbn [bind snd fst]. rewrite H1. cbn [bind].
    repeat split; auto. apply np_history_length in H1. rewrite map_length in H1. auto. }
  destruct X as (b & bs & HX & HL & H2 & H3 & H4). rewrite HL in *.
  assert (LF : length fits = S (length tr)) by (unfold fits; cbn [length]; rewrite map_length; auto).
  assert (Y : forall n, n < length tr -> (nth n bs false = true <-> no_progress_for leb ninf (S rep) (firstn (S (S n)) fits))).
  { intros n Hlt. assert (SP : exists h f, firstn (S (S n)) fits = h ++ [f]).
    { destruct (exists_last (l := firstn (S (S n)) fits)) as (h & f & Ef); [unfold fits; discriminate|]. eauto. }
    destruct SP as (h & f & Ef). rewrite Ef.
    rewrite <- (no_progress_converges_exactly F leb ninf rep h f (firstn (S (S n)) (b :: bs)) Ho Hn).
    - rewrite last_nth, firstn_length_le by (cbn [length]; lia). replace (S (S n) - 1) with (S n) by lia.
      rewrite firstn_cons. change (nth (S n) (b :: firstn (S n) bs) false) with (nth n (firstn (S n) bs) false).
      replace (nth n (firstn (S n) bs) false) with (nth n bs false); [tauto|].
      clear - Hlt HL. assert (Hb : n < length bs) by lia. clear Hlt HL. revert n Hb. induction bs as [|x t IH]; intros n Hb; simpl in Hb; [lia|].
      destruct n; [auto|]. cbn [nth firstn]. rewrite (IH n) by lia. reflexivity.
    - rewrite <- Ef. pose proof (firstn_skipn (S (S n)) fits) as FS. rewrite <- FS in HX. apply np_history_app in HX.
      rewrite firstn_length_le in HX by lia. exact HX. }
  split; [auto|]. split.
  - intros n Hlt Hp. destruct n as [|n]; [lia|]. apply (Y n) in Hp; [|lia]. rewrite H2 in Hp by lia. discriminate.
  - intros Hlt. specialize (H4 Hlt). assert (HN : length tr <> 0). { intros Z. destruct bs; [discriminate|]. simpl in HL. lia. }
    split; [intros ->; auto|]. rewrite last_nth, HL in H4. apply (Y (length tr - 1)) in H4; [|lia].
    replace (S (S (length tr - 1))) with (length fits) in H4 by lia. rewrite firstn_all in H4. exact H4.
Qed.
(** Nothing improves on the initial best 9: with [repeat = 1] two generations are made. *)
Example search_stops_case :
  match search Z.leb (-1000)%Z (fun x => x) Z.eqb (fun c : Z => c) 2 false true 1 (fun k _ _ => [Z.of_nat k]) 7 [9; 4]%Z with
  | Ok (_, tr) => map (fun r => fit (snd r)) tr = [[9; 4]; [9; 4]]%Z | Err _ => False end.
Proof. reflexivity. Qed.

(** stagnation, on the (min, max) pairs of consecutive calls. *)
Theorem stagnation_converges_exactly :
  forall (F : Type) (feqb : F -> F -> bool) repeat ms m,
  (forall x y, feqb x y = true <-> x = y) ->
  last (fst (run_st feqb repeat (None, 0) (ms ++ [m]))) false = true <->
  (S (S repeat) <= length (ms ++ [m]) /\
   forall x, In x (skipn (length (ms ++ [m]) - S (S repeat)) (ms ++ [m])) -> x = m).
Proof.
  intros F feqb repeat ms m He. rewrite (@run_st_answer F feqb He repeat ms m), Nat.add_1_r.
  unfold constant_for. split; intros [HA HB]; (split; [exact HA|]).
  - intros x Hx. apply HB; auto.
    rewrite skipn_app. apply in_app_iff. right.
    replace (length (ms ++ [m]) - S (S repeat) - length ms) with 0 by (rewrite app_length; simpl; lia).
    simpl; auto.
  - intros x y Hx Hy. rewrite (HB x Hx), (HB y Hy). auto.
Qed.
Example stagnation_case :
  fst (run_st Z.eqb 1 (None, 0) [(1, 2); (1, 2); (1, 2); (0, 2); (0, 2)]%Z) = [false; false; true; false; false].
Proof. reflexivity. Qed.

(** C66 refuted, in general: once a full population has rank -1, a
    multi-objective generation whose offspring all evaluate leaves the
    population unchanged, however much better the offspring are. *)
Theorem pareto_search_improves_refuted :
  forall (C E : Type) (leb : E -> E -> bool) (ninf : E) (w : nat) (scores : C -> list E)
         (pop : list C) (offspring : list C),
  total_preorder leb -> (forall e, leb ninf e = true) -> 1 <= w ->
  (forall c, In c offspring -> length (scores c) = w /\ forall e, In e (scores c) -> leb e ninf = false) ->
  pareto_generation leb ninf scores (length pop) pop (repeat (-1)%Z (length pop)) offspring
  = Some (pop, repeat (-1)%Z (length pop)).
Proof.
  intros C E leb ninf w scores pop offspring Ho Hn Hw Hs.
  unfold pareto_generation.
  assert (Hr : Forall (fun r => length r = w) (map scores offspring)).
  { apply Forall_forall. intros r Hr. apply in_map_iff in Hr. destruct Hr as (c & <- & Hc). apply Hs; auto. }
  assert (Hm : Forall (fun r => evaluated leb ninf r \/ failed ninf r) (map scores offspring)).
  { apply Forall_forall. intros r Hin. apply in_map_iff in Hin. destruct Hin as (c & <- & Hc). left.
    apply Forall_forall. intros e He. unfold is_finite. destruct (Hs c Hc) as [_ H]. rewrite (H e He). auto. }
  destruct (@pareto_transform_terminates E leb ninf Ho Hn w _ Hw Hr) as (r & Er). rewrite Er.
  destruct (@pareto_ranks E leb ninf Ho Hn _ w Hw Hr Hm r Er) as (H1 & H2 & H3).
  assert (Hle : forall x, In x r -> (x <= -1)%Z).
  { intros x Hx. destruct (In_nth _ _ 0%Z Hx) as (j & Hj & <-). rewrite H1 in Hj. apply (H3 j Hj).
    rewrite Forall_forall in Hm. 
    assert (In (nth j (map scores offspring) []) (map scores offspring)) by (apply nth_In; auto).
    apply in_map_iff in H. destruct H as (c & <- & Hc).
    apply Forall_forall. intros e He. unfold is_finite. destruct (Hs c Hc) as [_ H]. rewrite (H e He). auto. }
  f_equal. unfold population_reduction.
  rewrite map_length in H1.
  assert (Hs2 : isort (desc_pair Z.leb) (combine (pop ++ offspring) (repeat (-1)%Z (length pop) ++ r))
     = combine pop (repeat (-1)%Z (length pop)) ++ isort (desc_pair Z.leb) (combine offspring r)).
  { clear - Hle. assert (Hz : forall c (l : list (C * Z)), (forall q, In q l -> (snd q <= -1)%Z) ->
       insert (desc_pair Z.leb) (c, (-1)%Z) l = (c, (-1)%Z) :: l).
    { intros c l Hl. destruct l as [|q l]; simpl; auto. unfold desc_pair. simpl.
      destruct (Z.leb_spec (snd q) (-1)); auto. specialize (Hl q (or_introl eq_refl)). lia. }
    induction pop as [|c pop IH]; simpl; auto. rewrite IH. apply Hz.
    intros q Hq. apply in_app_iff in Hq. destruct Hq as [Hq|Hq].
    - destruct q as [c' x]. apply in_combine_r in Hq. apply repeat_spec in Hq. simpl. lia.
    - apply isort_in in Hq. destruct q as [c' x]. apply in_combine_r in Hq. simpl. auto. }
  rewrite Hs2.
  assert (Hlen : length (combine pop (repeat (-1)%Z (length pop))) = length pop)
    by (rewrite combine_length, repeat_length; lia).
  rewrite firstn_app, Hlen, Nat.sub_diag. simpl. rewrite app_nil_r.
  rewrite firstn_all2 by lia. rewrite map_combine_fst, map_combine_snd by (rewrite repeat_length; lia). auto.
Qed.
Example pareto_frozen_case :
  pareto_generation Z.leb (-1000)%Z (fun c : Z => [c; c]) 2 [1; 2]%Z [-1; -1]%Z [50; 60]%Z = Some ([1; 2]%Z, [-1; -1]%Z).
Proof. reflexivity. Qed.
(** A candidate that dominates is discarded while a dominated one is kept. *)
Theorem pareto_selection_keeps_nondominated_refuted :
  exists pop0 offspring pop1 ranks1 (scores : Z -> list Z),
  pareto_generation Z.leb (-1000)%Z scores 2 pop0 [-1; -1]%Z offspring = Some (pop1, ranks1) /\
  In 1%Z pop1 /\ In 50%Z offspring /\ ~ In 50%Z pop1 /\
  strictly_better Z.leb (scores 50%Z) (scores 1%Z).
Proof.
  exists [1; 2]%Z, [50; 60]%Z. eexists _, _. exists (fun c => [c; c]).
  split; [reflexivity|]. simpl. repeat split; auto; try lia.
  repeat constructor.
Qed.

(** C67. In the cross validation of a candidate, each fold is held out exactly
    once and training plus held-out data are exactly the whole data set. *)
Theorem fitness_is_k_fold_cross_validation :
  forall (V T : Type) (folds : list (list (list V * T))),
  concat (map (cv_test folds) (seq 0 (length folds))) = concat folds /\
  forall k, k < length folds -> Permutation (cv_train folds k ++ cv_test folds k) (concat folds).
Proof.
  intros V T folds. split; [|intros; apply cv_partition; auto].
  f_equal. unfold cv_test. apply gather_seq.
Qed.

(** Score of one fold: what the fitness function says for the active columns of
    the training and the held-out rows; a singular problem counts as -inf. *)
Definition fold_score {V T F : Type} (ninf : F)
  (fit_func : list (list V) -> list T -> list (list V) -> list T -> result F)
  (mask : list bool) (train held : list (list V * T)) (s : F) : Prop :=
  let cols := map (fun r : list V * T => mask_select mask (fst r)) in
  let r := fit_func (cols train) (map snd train) (cols held) (map snd held) in
  r = Ok s \/ (r = Err LinAlgError /\ s = ninf).

(** C67. The fitness is the mean over the folds of the score with that fold
    held out and all others, in their order, as training data. *)
Theorem fitness_is_mean_over_folds :
  forall (V T F : Type) add dv (zero ninf : F)
    (fit_func : list (list V) -> list T -> list (list V) -> list T -> result F)
    mask (folds : list (list (list V * T))) total,
  cross_validate add dv zero ninf fit_func mask folds = Ok total <->
  exists scores, length scores = length folds /\ total = dv (fold_left add scores zero) (length folds) /\
    forall before held after, folds = before ++ held :: after ->
      fold_score ninf fit_func mask (concat (before ++ after)) held (nth (length before) scores zero).
Proof.
  intros V T F add dv zero ninf ff mask folds total.
  assert (G : forall todo done acc v, folds = done ++ todo ->
    (cv_sum add ninf ff mask folds (seq (length done) (length todo)) acc = Ok v <->
     exists scores, length scores = length todo /\ v = fold_left add scores acc /\
       forall before held after, todo = before ++ held :: after ->
         fold_score ninf ff mask (concat (done ++ before ++ after)) held (nth (length before) scores zero))).
  { induction todo as [|t todo IH]; intros done acc v Hf; simpl.
    - split.
      + intros H. injection H as <-. exists []. repeat split; auto.
        intros b h a Hb. destruct b; discriminate.
      + intros [scores [Hl [Hv _]]]. destruct scores; try discriminate. simpl in Hv. subst; auto.
    - assert (Htr : cv_train folds (length done) = concat (done ++ todo)).
      { unfold cv_train. f_equal. rewrite Hf, firstn_app, Nat.sub_diag, firstn_all, app_nil_r.
        f_equal. change (t :: todo) with ([t] ++ todo). rewrite app_assoc.
        replace (S (length done)) with (length (done ++ [t])) by (rewrite app_length; simpl; lia).
        rewrite skipn_app, Nat.sub_diag, skipn_all. reflexivity. }
      assert (Hte : cv_test folds (length done) = t).
      { unfold cv_test. rewrite Hf, app_nth2, Nat.sub_diag by lia. reflexivity. }
      rewrite Htr, Hte.
      assert (Hnext : folds = (done ++ [t]) ++ todo) by (rewrite <- app_assoc; auto).
      assert (Step : forall s, fold_score ninf ff mask (concat (done ++ todo)) t s ->
        (cv_sum add ninf ff mask folds (seq (S (length done)) (length todo)) (add acc s) = Ok v <->
         exists scores, length scores = S (length todo) /\ v = fold_left add scores acc /\ nth 0 scores zero = s /\
           forall before held after, t :: todo = before ++ held :: after ->
             fold_score ninf ff mask (concat (done ++ before ++ after)) held (nth (length before) scores zero))).
      { intros s Hs. specialize (IH (done ++ [t]) (add acc s) v Hnext).
        rewrite app_length in IH. simpl in IH. rewrite Nat.add_1_r in IH. rewrite IH. split.
        - intros [scores [Hl [Hv Hall]]]. exists (s :: scores). simpl. repeat split; auto.
          intros b h a Hb. destruct b as [|b0 b]; simpl in Hb; injection Hb as -> Hb.
          + subst. simpl. auto.
          + simpl. specialize (Hall b h a Hb). rewrite <- app_assoc in Hall. exact Hall.
        - intros [scores [Hl [Hv [H0 Hall]]]]. destruct scores as [|s0 scores]; try discriminate.
          simpl in H0. subst s0. exists scores. simpl in Hl, Hv. repeat split; auto.
          intros b h a Hb. specialize (Hall (t :: b) h a). simpl in Hall. rewrite <- app_assoc.
          apply Hall. rewrite Hb. auto. }
      assert (Uniq : forall s s', fold_score ninf ff mask (concat (done ++ todo)) t s ->
                     fold_score ninf ff mask (concat (done ++ todo)) t s' -> s = s').
      { unfold fold_score. intros s s' [A|[A A']] [B|[B B']]; congruence. }
      assert (Back : forall s, fold_score ninf ff mask (concat (done ++ todo)) t s ->
        ((exists scores, length scores = S (length todo) /\ v = fold_left add scores acc /\ nth 0 scores zero = s /\
           forall before held after, t :: todo = before ++ held :: after ->
             fold_score ninf ff mask (concat (done ++ before ++ after)) held (nth (length before) scores zero)) <->
         exists scores, length scores = S (length todo) /\ v = fold_left add scores acc /\
           forall before held after, t :: todo = before ++ held :: after ->
             fold_score ninf ff mask (concat (done ++ before ++ after)) held (nth (length before) scores zero))).
      { intros s Hs. split; intros [scores H]; exists scores.
        - destruct H as [A [B [_ D]]]; auto.
        - destruct H as [A [B D]]. repeat split; auto.
          apply (Uniq _ _ (D [] t todo eq_refl) Hs). }
      destruct (ff _ _ _ _) as [s|e] eqn:E.
      + assert (Hs : fold_score ninf ff mask (concat (done ++ todo)) t s) by (left; exact E).
        rewrite (Step s Hs). apply Back; auto.
      + assert (Bad : e <> LinAlgError -> ~ exists s, fold_score ninf ff mask (concat (done ++ todo)) t s).
        { intros He [s [A|[A _]]]; rewrite E in A; congruence. }
        assert (No : e <> LinAlgError -> (Err e = Ok v <-> exists scores, length scores = S (length todo) /\ v = fold_left add scores acc /\
           forall before held after, t :: todo = before ++ held :: after ->
             fold_score ninf ff mask (concat (done ++ before ++ after)) held (nth (length before) scores zero))).
        { intros He. split; [discriminate|]. intros [scores [_ [_ D]]]. exfalso. apply Bad; auto.
          eexists. exact (D [] t todo eq_refl). }
        destruct e; try (apply No; discriminate).
        assert (Hs : fold_score ninf ff mask (concat (done ++ todo)) t ninf) by (right; auto).
        rewrite (Step ninf Hs). apply Back; auto. }
  unfold cross_validate. specialize (G folds [] zero). simpl in G.
  split.
  - intros H. destruct (cv_sum _ _ _ _ _ _ _) as [v|e] eqn:E; simpl in H; [|discriminate].
    injection H as <-. destruct (proj1 (G v eq_refl) eq_refl) as [scores [A [B D]]].
    exists scores. subst v. auto.
  - intros [scores [A [B D]]]. rewrite (proj2 (G (fold_left add scores zero) eq_refl)); [simpl; subst; auto|].
    exists scores. auto.
Qed.

(** ... and the score depends on the data only through the active columns. *)
Theorem fitness_ignores_inactive_features :
  forall (V T F : Type) add dv (zero ninf : F)
    (fit_func : list (list V) -> list T -> list (list V) -> list T -> result F)
    mask (folds folds' : list (list (list V * T))),
  map (map (fun r => (mask_select mask (fst r), snd r))) folds =
  map (map (fun r => (mask_select mask (fst r), snd r))) folds' ->
  cross_validate add dv zero ninf fit_func mask folds = cross_validate add dv zero ninf fit_func mask folds'.
Proof.
  intros V T F add dv zero ninf ff mask folds folds' H.
  unfold cross_validate.
  assert (HL : length folds = length folds') by (apply (f_equal (@length _)) in H; rewrite !map_length in H; auto).
  rewrite HL. f_equal.
  generalize (seq 0 (length folds')) as ks. intros ks. generalize zero as acc.
  assert (Htr : forall k, map (fun r => (mask_select mask (fst r), snd r)) (cv_train folds k) =
                          map (fun r => (mask_select mask (fst r), snd r)) (cv_train folds' k)).
  { intros k. unfold cv_train. rewrite !concat_map, !map_app, <- !firstn_map, <- !skipn_map, H. auto. }
  assert (Hte : forall k, map (fun r => (mask_select mask (fst r), snd r)) (cv_test folds k) =
                          map (fun r => (mask_select mask (fst r), snd r)) (cv_test folds' k)).
  { intros k. unfold cv_test.
    set (g := map (fun r : list V * T => (mask_select mask (fst r), snd r))) in *.
    change (g (nth k folds []) = g (nth k folds' [])).
    rewrite <- (map_nth g folds [] k), <- (map_nth g folds' [] k). unfold g in *. rewrite H. auto. }
  assert (Hf : forall l l' : list (list V * T), map (fun r => (mask_select mask (fst r), snd r)) l =
     map (fun r => (mask_select mask (fst r), snd r)) l' ->
     map (fun r => mask_select mask (fst r)) l = map (fun r => mask_select mask (fst r)) l' /\ map snd l = map snd l').
  { intros l l' Hl. split.
    - apply (f_equal (map fst)) in Hl. rewrite !map_map in Hl. exact Hl.
    - apply (f_equal (map snd)) in Hl. rewrite !map_map in Hl. exact Hl. }
  induction ks as [|k ks IH]; simpl; intros acc; auto.
  destruct (Hf _ _ (Htr k)) as [A1 A2]. destruct (Hf _ _ (Hte k)) as [B1 B2].
  rewrite A1, A2, B1, B2. destruct (ff _ _ _ _) as [s|[]]; auto.
Qed.
Example cv_case :
  cross_validate Nat.add (fun a n => a / n) 0 0
    (fun tr tt te tet => Ok (length tr * 10 + list_sum (concat te))) [true; false]
    [[([1; 2], 0); ([3; 4], 0)]; [([5; 6], 0)]] = Ok ((10 + 4 + 20 + 5) / 2).
Proof. reflexivity. Qed.

(** C68 refuted: the flip mutation switches off the last active feature. *)
Theorem candidates_have_a_feature_refuted :
  exists (p1 child : list bool) i,
  1 <= active p1 /\ i < length p1 /\
  make_child None (Flip i) (fun _ => true) 0 p1 = Ok child /\ active child = 0.
Proof.
  exists [false; true; false]. eexists. exists 1. split; [vm_compute; lia|]. split; [simpl; lia|].
  split; reflexivity.
Qed.
(** C68, the part that holds: removal and inclusion never empty a candidate. *)
Theorem remove_include_keep_a_feature_partial :
  forall dmax op hit2 index2 (p1 : list bool) child,
  1 <= active p1 -> index2 < length p1 ->
  (exists hit index, index < length p1 /\ op = Remove hit index) \/ (exists hit, op = Include hit) ->
  make_child dmax op hit2 index2 p1 = Ok child -> 1 <= active child.
Proof.
  intros dmax op hit2 index2 p1 child Ha Hi Hop E.
  assert (HM : 1 <= active (mutate op p1) /\ length (mutate op p1) = length p1).
  { destruct Hop as [(h & i & Hil & ->)|(h & ->)]; simpl.
    - split; [apply probability_remove_nonempty; auto|apply (probability_remove_spec h i p1)].
    - destruct (probability_include_spec h p1) as [H1 H2]. split; auto.
      assert (count_true p1 <= count_true (probability_include h p1)).
      { apply count_true_mono; auto. intros j Hj.
        destruct (lt_dec j (length p1)); [|rewrite nth_overflow in Hj by lia; discriminate].
        rewrite H2, Hj by auto. auto. }
      unfold active in *. lia. }
  assert (E' : match dmax with None => Ok (mutate op p1) | Some m =>
     if m <? active (mutate op p1) then Ok (probability_remove hit2 index2 (mutate op p1)) else Ok (mutate op p1) end = Ok child).
  { destruct Hop as [(h & i & Hil & ->)|(h & ->)]; exact E. }
  destruct HM as [HM HL]. destruct dmax as [m|].
  - destruct (m <? active (mutate op p1)); inversion E'; subst; auto.
    apply probability_remove_nonempty. lia.
  - inversion E'; subst; auto.
Qed.
Example remove_include_case :
  make_child (Some 1) (Include (fun i => i =? 1)) (fun i => i =? 0) 1 [true; false] = Ok [false; true].
Proof. reflexivity. Qed.

Print Assumptions ga_population_fitness_paired.
Print Assumptions ga_best_is_best_ever.
Print Assumptions population_reduction_keeps_fittest.
Print Assumptions parallel_fitness_equals_serial.
Print Assumptions pareto_ranks_follow_domination.
Print Assumptions no_progress_converges_exactly.
Print Assumptions search_stops_exactly.
Print Assumptions selection_prob_open.
Print Assumptions pareto_search_improves_refuted.
Print Assumptions fitness_is_mean_over_folds.
