(** Properties of GAFeatureSelection (catlearn/featurize/site_stability.py). *)
From Coq Require Import List Arith Bool Lia Permutation Sorting.Sorted QArith Qfield Psatz.
From Verif Require Import Base BaseFacts GAFSModel.
Import ListNotations.
Set Implicit Arguments.
Local Open Scope nat_scope.

(** ** Specification *)
(** A chromosome selects [k] different columns of [total]. *)
Definition valid (total k : nat) (c : list nat) : Prop := length c = k /\ NoDup c /\ forall f, In f c -> f < total.

(** What the random number generators guarantee. *)
Record random (population_size n_features : nat) (d : draws) : Prop := {
  rnd_sh1 : forall i l, Permutation (sh1 d i l) l;
  rnd_sh2 : forall i l, Permutation (sh2 d i l) l;
  rnd_pick : forall i c k, NoDup c -> k <= length c -> length (pick d i c k) = k /\ NoDup (pick d i c k) /\ incl (pick d i c k) c;
  rnd_gpos : forall i, gpos d i < population_size;
  rnd_cpos : forall i, cpos d i < n_features;
  rnd_new : forall i c, c <> [] -> In (new_feature d i c) c }.

(** list(set(l)) has the elements of l, each once. *)
Definition set_order (as_set : list nat -> list nat) : Prop := forall l, NoDup (as_set l) /\ forall x, In x (as_set l) <-> In x l.

Definition chromosome_of (s : ga) (e : entry) : list nat := cell (heap s) (e_gene e).

(** ** Auxiliary lemmas *)
Lemma cell_set_nth r c h q : cell (set_nth r c h) q = if Nat.eqb q r then (if r <? length h then c else []) else cell h q.
Proof.
  unfold cell. destruct (Nat.eqb_spec q r) as [->|N].
  - destruct (Nat.ltb_spec r (length h)).
    + apply nth_set_nth_eq; auto.
    + apply nth_overflow. rewrite set_nth_length; lia.
  - apply nth_set_nth_neq; auto.
Qed.

Lemma Forall_set_nth {A} (P : A -> Prop) i v l : Forall P l -> P v -> Forall P (set_nth i v l).
Proof.
  revert i. induction l as [|x t IH]; intros [|i] F Pv; simpl; auto; inversion F; subst; constructor; auto.
Qed.

Lemma set_nth_fresh (l : list nat) : forall k y, NoDup l -> ~ In y l -> NoDup (set_nth k y l) /\ forall z, In z (set_nth k y l) -> z = y \/ In z l.
Proof.
  induction l as [|u l IHl]; intros k y Nl Ny; destruct k; simpl; auto.
  - inversion Nl; subst. split.
    + constructor; auto. intros Hy. apply Ny. right; auto.
    + intros z [->|Hz]; auto.
  - inversion Nl; subst. destruct (IHl k y) as [A B]; auto; [intros Hy; apply Ny; right; auto|]. split.
    + constructor; auto. intros Hu. apply B in Hu as [->|Hu]; [apply Ny; left; auto|auto].
    + intros z [->|Hz]; auto. apply B in Hz as [->|Hz]; auto.
Qed.

Lemma memb_In x l : memb x l = true <-> In x l.
Proof.
  unfold memb. rewrite existsb_exists. split.
  - intros [y [H E]]. apply Nat.eqb_eq in E. subst; auto.
  - intros H. exists x. split; auto. apply Nat.eqb_refl.
Qed.

Lemma others_spec total c x : In x (others total c) <-> x < total /\ ~ In x c.
Proof.
  unfold others. rewrite filter_In, in_seq, negb_true_iff, <- memb_In. split; intros [H1 H2]; split; try lia.
  - rewrite H2. discriminate.
  - destruct (memb x c); auto. exfalso; auto.
Qed.

Lemma others_NoDup total c : NoDup (others total c).
Proof. unfold others. apply NoDup_filter, seq_NoDup. Qed.

Lemma others_length total c : (forall f, In f c -> f < total) -> NoDup c -> length (others total c) + length c = total.
Proof.
  intros B N. rewrite <- app_length. rewrite <- (seq_length total 0) at 2. apply Permutation_length.
  apply NoDup_Permutation.
  - apply NoDup_app_intro; auto using others_NoDup. intros x Hx Hc. apply others_spec in Hx. tauto.
  - apply seq_NoDup.
  - intros x. rewrite in_app_iff, others_spec, in_seq. split.
    + intros [[H _]|H]; [lia|]. apply B in H. lia.
    + intros H. destruct (in_dec Nat.eq_dec x c); auto. left. split; auto. lia.
Qed.

Section Facts.
Variable score : list nat -> Q.
Variable as_set : list nat -> list nat.
Hypothesis SET : set_order as_set.
Variables total n_features population_size offspring_size : nat.

Lemma set_nodup l : NoDup (as_set l).
Proof. apply SET. Qed.
Lemma set_in l x : In x (as_set l) <-> In x l.
Proof. apply SET. Qed.

Lemma as_set_length l : length (as_set l) <= length l.
Proof. apply NoDup_incl_length; [apply set_nodup|]. intros x H. apply set_in. auto. Qed.

Lemma as_set_length_eq l : length (as_set l) = length l <-> NoDup l.
Proof.
  split.
  - intros E. apply (NoDup_incl_NoDup (l:=as_set l)); [apply set_nodup|lia|]. intros x H. apply set_in; auto.
  - intros N. apply Nat.le_antisymm; [apply as_set_length|]. apply NoDup_incl_length; auto. intros x H. apply set_in; auto.
Qed.

Lemma perm_valid k c c' : Permutation c' c -> valid total k c -> valid total k c'.
Proof.
  intros P [L [N B]]. split; [|split].
  - rewrite (Permutation_length P); auto.
  - apply (Permutation_NoDup (Permutation_sym P) N).
  - intros f H. apply B. apply (Permutation_in _ P H).
Qed.

(** The loop over the parents. *)
Lemma mate_spec d parents point is : random population_size n_features d -> forall h h' off,
  mate d parents point is h = Ok (h', off) ->
  (forall r, In r parents -> r < length h) ->
  length h' = length h /\ (forall r, Permutation (cell h' r) (cell h r)) /\
  length off = length is /\
  Forall2 (fun i c => exists p1 p2 a b, nth_error parents i = Some p1 /\ nth_error parents (i + i) = Some p2 /\
     Permutation a (cell h p1) /\ Permutation b (cell h p2) /\ (p1 = p2 -> a = b) /\ c = firstn point a ++ skipn point b) is off.
Proof.
  intros HR. induction is as [|i rest IH]; intros h h' off H HB; simpl in H.
  { injection H as <- <-. auto. }
  destruct (nth_error parents i) as [p1|] eqn:E1; [|discriminate].
  destruct (nth_error parents (i + i)) as [p2|] eqn:E2; [|discriminate].
  set (h1 := set_nth p1 (sh1 d i (cell h p1)) h) in *.
  set (h2 := set_nth p2 (sh2 d i (cell h1 p2)) h1) in *.
  assert (B1 : p1 < length h) by (apply HB; eapply nth_error_In; eauto).
  assert (B2 : p2 < length h) by (apply HB; eapply nth_error_In; eauto).
  assert (L1 : length h1 = length h) by apply set_nth_length.
  assert (L2 : length h2 = length h) by (unfold h2; rewrite set_nth_length; auto).
  assert (P1 : forall r, Permutation (cell h1 r) (cell h r)).
  { intros r. unfold h1. rewrite cell_set_nth. destruct (Nat.eqb_spec r p1) as [->|]; auto.
    rewrite (proj2 (Nat.ltb_lt _ _) B1). apply (rnd_sh1 HR). }
  assert (P2 : forall r, Permutation (cell h2 r) (cell h r)).
  { intros r. rewrite <- P1. unfold h2. rewrite cell_set_nth. destruct (Nat.eqb_spec r p2) as [->|]; auto.
    rewrite L1, (proj2 (Nat.ltb_lt _ _) B2). apply (rnd_sh2 HR). }
  destruct (mate d parents point rest h2) as [[h'' off']|] eqn:EM; [|discriminate]. cbn [bind fst snd] in H.
  injection H as <- <-. destruct (IH _ _ _ EM) as [A1 [A2 [A3 A4]]]; [intros r Hr; rewrite L2; auto|].
  split; [lia|]. split; [intros r; rewrite A2; auto|]. split; [simpl; lia|]. constructor.
  - exists p1, p2, (cell h2 p1), (cell h2 p2). repeat split; auto.
  - clear - A4 P2. induction A4 as [|j c js cs H A4 IH]; constructor; auto.
    destruct H as [q1 [q2 [a [b [H1 [H2 [H3 [H4 [H5 H6]]]]]]]]]. exists q1, q2, a, b. repeat split; auto.
    + rewrite H3; auto.
    + rewrite H4; auto.
Qed.

Lemma mate_ok d parents point is : forall h, (forall i, In i is -> i + i < length parents) -> exists r, mate d parents point is h = Ok r.
Proof.
  induction is as [|i rest IH]; intros h HB; simpl; eauto.
  assert (i + i < length parents) by (apply HB; left; auto).
  destruct (nth_error parents i) as [p1|] eqn:E1; [|apply nth_error_None in E1; lia].
  destruct (nth_error parents (i + i)) as [p2|] eqn:E2; [|apply nth_error_None in E2; lia].
  destruct (IH (set_nth p2 (sh2 d i (cell (set_nth p1 (sh1 d i (cell h p1)) h) p2)) (set_nth p1 (sh1 d i (cell h p1)) h))) as [r ->];
    [intros; apply HB; right; auto|]. simpl. eauto.
Qed.

(** Replacing duplicates. *)
Lemma mutate_duplicates_spec d l : random population_size n_features d -> forall i off,
  mutate_duplicates as_set total d i l = Ok off ->
  Forall2 (fun c c' => length c' = length c /\ (NoDup c -> c' = c) /\
    ((forall f, In f c -> f < total) -> NoDup c' /\ forall f, In f c' -> f < total) /\ incl c c') l off.
Proof.
  intros HR. induction l as [|c rest IH]; intros i off H; simpl in H.
  { injection H as <-. constructor. }
  destruct (Nat.eqb_spec (length c) (length (as_set c))) as [E|E].
  - cbn [bind] in H. destruct (mutate_duplicates as_set total d (S i) rest) as [off'|] eqn:ED; [|discriminate].
    cbn [bind] in H. injection H as <-. constructor; [|apply (IH (S i)); auto].
    symmetry in E. apply as_set_length_eq in E. repeat split; auto. intros x; auto.
  - destruct (Nat.ltb_spec (length (others total c)) (length c - length (as_set c))) as [L|L]; [discriminate|].
    cbn [bind] in H. destruct (mutate_duplicates as_set total d (S i) rest) as [off'|] eqn:ED; [|discriminate].
    cbn [bind] in H. injection H as <-. constructor; [|apply (IH (S i)); auto].
    destruct (rnd_pick HR i (others_NoDup total c) L) as [P1 [P2 P3]]. pose proof (as_set_length c).
    split; [rewrite app_length, P1; lia|]. split.
    { intros N. apply as_set_length_eq in N. lia. }
    split.
    + intros B. split.
      * apply NoDup_app_intro; auto; [apply set_nodup|]. intros x Hx Hp. apply P3, others_spec in Hp. apply (set_in c) in Hx. tauto.
      * intros f Hf. apply in_app_iff in Hf as [Hf|Hf]; [apply B, set_in; auto|]. apply P3, others_spec in Hf. tauto.
    + intros f Hf. apply in_app_iff. left. apply set_in; auto.
Qed.

Lemma mutate_duplicates_ok d l : forall i, (forall c, In c l -> length c <= total /\ forall f, In f c -> f < total) ->
  exists off, mutate_duplicates as_set total d i l = Ok off.
Proof.
  induction l as [|c rest IH]; intros i H; simpl; eauto.
  destruct (H c (or_introl eq_refl)) as [L B].
  destruct (IH (S i)) as [off E]; [intros; apply H; right; auto|].
  destruct (Nat.eqb_spec (length c) (length (as_set c))).
  - cbn [bind]. rewrite E. simpl. eauto.
  - assert (length (others total c) + length (as_set c) = total).
    { assert (E2 : length (others total c) = length (others total (as_set c))).
      { apply Permutation_length, NoDup_Permutation; auto using others_NoDup. intros x. rewrite !others_spec. rewrite (set_in c x). tauto. }
      rewrite E2. apply others_length; [intros f Hf; apply B, set_in; auto|apply set_nodup]. }
    destruct (Nat.ltb_spec (length (others total c)) (length c - length (as_set c))); [lia|].
    cbn [bind]. rewrite E. simpl. eauto.
Qed.

Lemma lower_weights_spec k x p p' : lower_weights k x p = Ok p' -> k <= length p /\ length p' = length p /\
  map e_gene p' = map e_gene p /\ map e_score p' = map e_score p.
Proof.
  unfold lower_weights. destruct (Nat.ltb_spec (length p) k); [discriminate|]. intros H'. injection H' as <-.
  split; auto. rewrite !map_app, !map_map. cbn [e_gene e_score]. rewrite app_length, map_length, <- app_length.
  rewrite <- !map_app, firstn_skipn. auto.
Qed.

Lemma get_fitness_perm h l : Permutation (get_fitness score h l) (map (fun r => Entry r (score (cell h r)) (score (cell h r))) l).
Proof. apply isort_perm. Qed.

(** One crossover. *)
Lemma crossover_spec d s s' : random population_size n_features d -> crossover score as_set total offspring_size d s = Ok s' ->
  (forall e, In e (pop s) -> e_gene e < length (heap s)) ->
  exists point h off, (exists p0 t, map e_gene (pop s) = p0 :: t /\ point = length (cell (heap s) p0) / 2) /\
  heap s' = h ++ off /\ length h = length (heap s) /\ (forall r, Permutation (cell h r) (cell (heap s) r)) /\
  length off = offspring_size /\
  (exists raw, Forall2 (fun i c => exists p1 p2 a b, nth_error (map e_gene (pop s)) i = Some p1 /\ nth_error (map e_gene (pop s)) (i + i) = Some p2 /\
     Permutation a (cell (heap s) p1) /\ Permutation b (cell (heap s) p2) /\ (p1 = p2 -> a = b) /\ c = firstn point a ++ skipn point b)
     (seq 0 offspring_size) raw /\ mutate_duplicates as_set total d 0 raw = Ok off) /\
  offspring_size + 1 <= length (pop s) /\
  genes s' = map e_gene (pop s') /\ combos s' = combos s /\
  exists kept, lower_weights (offspring_size + 1) (population_percentile (pop s)) (pop s) = Ok kept /\
    Permutation (pop s') (firstn (length (pop s) - offspring_size) kept ++
      map (fun r => Entry r (score (cell (heap s') r)) (score (cell (heap s') r))) (seq (length h) offspring_size)).
Proof.
  intros HR H HB. unfold crossover in H. destruct (map e_gene (pop s)) as [|p0 t] eqn:EP; [discriminate|]. rewrite <- EP in *.
  assert (HBr : forall r, In r (map e_gene (pop s)) -> r < length (heap s)).
  { intros r Hr. apply in_map_iff in Hr as [e [<- He]]; auto. }
  destruct (mate d (map e_gene (pop s)) (length (cell (heap s) p0) / 2) (seq 0 offspring_size) (heap s)) as [[h raw]|] eqn:EM; [|discriminate].
  cbn [bind fst snd] in H. destruct (mutate_duplicates as_set total d 0 raw) as [off|] eqn:ED; [|discriminate].
  cbn [bind] in H. destruct (lower_weights (length off + 1) (population_percentile (pop s)) (pop s)) as [p|] eqn:EL; [|discriminate].
  cbn [bind] in H. injection H as <-. cbn [heap pop genes combos].
  destruct (mate_spec _ _ _ HR _ EM HBr) as [A1 [A2 [A3 A4]]]. rewrite seq_length in A3.
  assert (LO : length off = offspring_size).
  { apply Forall2_length_eq in A4. pose proof (Forall2_length_eq (mutate_duplicates_spec _ HR _ ED)). lia. }
  rewrite LO in *. destruct (lower_weights_spec _ _ _ EL) as [K1 [K2 [K3 K4]]].
  exists (length (cell (heap s) p0) / 2), h, off. split; [exists p0, t; auto|]. repeat (split; auto); [exists raw; auto|].
  exists p. split; auto. rewrite isort_perm. unfold get_fitness. rewrite isort_length, map_length, seq_length, K2.
  apply Permutation_app_head. apply isort_perm.
Qed.

(** ** Invariant *)
Definition sound (s : ga) : Prop :=
  (forall r, r < length (heap s) -> valid total n_features (cell (heap s) r)) /\
  (forall e, In e (pop s) -> e_gene e < length (heap s)) /\ genes s = map e_gene (pop s).

Lemma crossover_sound d s s' : random population_size n_features d -> sound s ->
  crossover score as_set total offspring_size d s = Ok s' -> sound s' /\ length (pop s') = length (pop s).
Proof.
  intros HR [V [B G]] H. destruct (crossover_spec _ HR H B) as [point [h [off [[p0 [t [EP Hpt]]] [EH [LH [PH [LO [[raw [RA RM]] [LP [GE [_ [kept [EL PP]]]]]]]]]]]]]].
  destruct (lower_weights_spec _ _ _ EL) as [K1 [K2 [K3 K4]]].
  assert (Hp0 : p0 < length (heap s)).
  { assert (I : In p0 (map e_gene (pop s))) by (rewrite EP; left; auto). apply in_map_iff in I as [e [<- He]]; auto. }
  assert (Hpoint : point <= n_features).
  { destruct (V _ Hp0) as [L _]. rewrite Hpt, L. apply Nat.div_le_upper_bound; lia. }
  split; [split; [|split]|].
  - intros r Hr. rewrite EH in *. rewrite app_length in Hr. unfold cell. destruct (Nat.lt_ge_cases r (length h)) as [R|R].
    + rewrite app_nth1 by auto. apply (@perm_valid n_features (cell (heap s) r)); [apply PH|]. apply V. lia.
    + rewrite app_nth2 by auto. set (j := r - length h). assert (Hj : j < length off) by lia.
      pose proof (mutate_duplicates_spec _ HR _ RM) as F. assert (Lr : length raw = length off) by (apply Forall2_length_eq in F; auto).
      destruct (Forall2_nth [] [] F (i:=j)) as [F1 [_ [F3 _]]]; [lia|].
      assert (Hs : j < length (seq 0 offspring_size)) by (rewrite seq_length; lia).
      destruct (Forall2_nth 0 [] RA Hs) as [q1 [q2 [a [b [N1 [N2 [Pa [Pb [_ Ec]]]]]]]]]. rewrite seq_nth in N1, N2 by lia.
      assert (V1 : valid total n_features a).
      { apply (perm_valid Pa). apply V. apply nth_error_In in N1. apply in_map_iff in N1 as [e [<- He]]; auto. }
      assert (V2 : valid total n_features b).
      { apply (perm_valid Pb). apply V. apply nth_error_In in N2. apply in_map_iff in N2 as [e [<- He]]; auto. }
      destruct V1 as [L1 [_ B1]], V2 as [L2 [_ B2]].
      split; [|apply F3].
      * rewrite F1, Ec, app_length, firstn_length, skipn_length. lia.
      * intros f Hf. rewrite Ec in Hf. apply in_app_iff in Hf as [Hf|Hf]; [apply B1; eapply firstn_In; eauto|apply B2; eapply skipn_In; eauto].
  - intros e He. apply (Permutation_in _ PP) in He. rewrite EH, app_length. apply in_app_iff in He as [He|He].
    + apply firstn_In in He. assert (I : In (e_gene e) (map e_gene (pop s))) by (rewrite <- K3; apply in_map; auto).
      apply in_map_iff in I as [e' [<- He']]. apply B in He'. lia.
    + apply in_map_iff in He as [r [<- Hr]]. apply in_seq in Hr. simpl. lia.
  - auto.
  - rewrite (Permutation_length PP), app_length, firstn_length, map_length, seq_length, K2. lia.
Qed.

Lemma mutations_sound d gs is : random population_size n_features d -> forall h h',
  mutations total d gs is h = Ok h' -> (forall r, r < length h -> valid total n_features (cell h r)) ->
  (forall r, In r gs -> r < length h) ->
  length h' = length h /\ forall r, r < length h' -> valid total n_features (cell h' r).
Proof.
  intros HR. induction is as [|i rest IH]; intros h h' H V B; simpl in H.
  { injection H as <-. auto. }
  destruct (nth_error gs (gpos d i)) as [r|] eqn:EN; [|discriminate].
  assert (Hr : r < length h) by (apply B; eapply nth_error_In; eauto). destruct (V r Hr) as [L [N R]].
  destruct (others total (cell h r)) as [|x t] eqn:EO; [discriminate|].
  destruct (Nat.leb_spec (length (cell h r)) (cpos d i)); [discriminate|].
  assert (I : In (new_feature d i (x :: t)) (others total (cell h r))) by (rewrite EO; apply (rnd_new HR); discriminate).
  apply others_spec in I as [I1 I2].
  destruct (IH _ _ H) as [A1 A2].
  - intros q Hq. rewrite set_nth_length in Hq. rewrite cell_set_nth. destruct (Nat.eqb_spec q r) as [->|]; [|apply V; auto].
    rewrite (proj2 (Nat.ltb_lt _ _) Hr). split; [rewrite set_nth_length; auto|].
    destruct (@set_nth_fresh (cell h r) (cpos d i) _ N I2) as [S1 S2]. split; auto. intros f Hf. apply S2 in Hf as [->|Hf]; auto.
  - intros q Hq. rewrite set_nth_length. auto.
  - rewrite set_nth_length in A1. split; auto.
Qed.

Lemma mutate_sound d s s' : random population_size n_features d -> sound s -> mutate total d s = Ok s' ->
  sound s' /\ pop s' = pop s.
Proof.
  intros HR [V [B G]] H. unfold mutate in H.
  destruct (mutations total d (genes s) (seq 0 (n_mut d)) (heap s)) as [h|] eqn:EM; [|discriminate]. cbn [bind] in H. injection H as <-.
  destruct (mutations_sound _ _ HR _ EM V) as [A1 A2].
  - rewrite G. intros r Hr. apply in_map_iff in Hr as [e [<- He]]; auto.
  - split; auto. split; [|split]; cbn [heap pop genes]; auto. intros e He. rewrite A1. auto.
Qed.

Lemma evolve_sound ds : Forall (random population_size n_features) ds -> forall i s s' rows, sound s ->
  evolve score as_set total offspring_size i ds s = Ok (s', rows) -> sound s' /\ length (pop s') = length (pop s) /\ length rows = length ds.
Proof.
  induction 1 as [|d ds HR F IH]; intros i s s' rows S0 H; simpl in H.
  { injection H as <- <-. auto. }
  destruct (max_population_fitness (pop s)) as [mx|] eqn:EX; [|discriminate]. cbn [bind] in H.
  destruct (crossover score as_set total offspring_size d s) as [s1|] eqn:E1; [|discriminate]. cbn [bind] in H.
  destruct (mutate total d s1) as [s2|] eqn:E2; [|discriminate]. cbn [bind] in H.
  destruct (evolve score as_set total offspring_size (S i) ds s2) as [[s3 rows']|] eqn:E3; [|discriminate]. cbn [bind fst snd] in H.
  injection H as <- <-. destruct (crossover_sound HR S0 E1) as [A1 A2]. destruct (mutate_sound HR A1 E2) as [B1 B2].
  destruct (IH _ _ _ _ B1 E3) as [C1 [C2 C3]]. split; auto. rewrite C2, B2, A2. simpl. lia.
Qed.
End Facts.

(** ** Combinations *)
Inductive increasing : list nat -> Prop :=
| inc_nil : increasing []
| inc_cons x l : increasing l -> (forall y, In y l -> x < y) -> increasing (x :: l).

Lemma increasing_NoDup l : increasing l -> NoDup l.
Proof. induction 1; constructor; auto. intros Hx. apply H0 in Hx. lia. Qed.

Lemma combinations_spec l : forall k, increasing l -> forall c,
  In c (combinations k l) <-> length c = k /\ increasing c /\ incl c l.
Proof.
  induction l as [|x t IH]; intros k HI c.
  - destruct k; simpl.
    + split.
      * intros [<-|[]]. split; auto. split; [constructor|]. intros y [].
      * intros [L _]. destruct c; [auto|discriminate].
    + split; [tauto|]. intros [L [_ I]]. destruct c as [|y c]; [discriminate|]. destruct (I y); left; auto.
  - inversion HI as [|? ? HI' HX]; subst. destruct k; simpl.
    + split.
      * intros [<-|[]]. split; auto. split; [constructor|]. intros y [].
      * intros [L _]. destruct c; [auto|discriminate].
    + rewrite in_app_iff, in_map_iff. split.
      * intros [[c' [<- H]]|H].
        -- apply IH in H as [L [I1 I2]]; auto. split; [simpl; lia|]. split.
           ++ constructor; auto.
           ++ intros y [->|Hy]; [left|right]; auto.
        -- apply (IH (S k)) in H as [L [I1 I2]]; auto. split; auto. split; auto. intros y Hy. right; auto.
      * intros [L [I1 I2]]. destruct c as [|y c]; [discriminate|]. inversion I1 as [|? ? I3 I4]; subst. simpl in L.
        destruct (I2 y (or_introl eq_refl)) as [<-|Hy].
        -- left. exists c. split; auto. apply IH; auto. split; [lia|]. split; auto. intros z Hz.
           destruct (I2 z (or_intror Hz)) as [<-|]; auto. apply I4 in Hz. lia.
        -- right. apply (IH (S k)); auto. split; [simpl; lia|]. split; auto. intros z Hz. destruct (I2 z Hz) as [<-|]; auto.
           apply HX in Hy. destruct Hz as [<-|Hz]; [lia|]. apply I4 in Hz. lia.
Qed.

Lemma combinations_NoDup l : forall k, increasing l -> NoDup (combinations k l).
Proof.
  induction l as [|x t IH]; intros k HI; destruct k; simpl; try (constructor; auto; constructor).
  inversion HI as [|? ? HI' HX]; subst. apply NoDup_app_intro; auto.
  - apply FinFun.Injective_map_NoDup; auto. intros a b E. injection E; auto.
  - intros c H1 H2. apply in_map_iff in H1 as [c' [<- H1]]. apply (combinations_spec (S k) HI') in H2 as [_ [_ I]].
    assert (In x t) by (apply I; left; auto). apply HX in H. lia.
Qed.

Lemma seq_increasing n : forall k, increasing (seq k n).
Proof. induction n; intros k; simpl; constructor; auto. intros y H. apply in_seq in H. lia. Qed.

Lemma unique_set_spec total k c : In c (unique_set (seq 0 total) k) <-> length c = k /\ increasing c /\ forall f, In f c -> f < total.
Proof.
  unfold unique_set. rewrite (combinations_spec k (seq_increasing total 0)). split; intros [H1 [H2 H3]]; split; auto; split; auto; intros f Hf.
  - apply H3, in_seq in Hf. lia.
  - apply in_seq. apply H3 in Hf. lia.
Qed.

(** ** The theorems *)
Section Main.
Variable score : list nat -> Q.
Variable as_set : list nat -> list nat.
Hypothesis SET : set_order as_set.
Variables total n_features population_size offspring_size : nat.

Notation create := (create score total n_features population_size).
Notation crossover := (crossover score as_set total offspring_size).
Notation mutate := (mutate total).
Notation evolve := (evolve score as_set total offspring_size 0).
Notation random := (random population_size n_features).

(** The first genes are different sets of [n_features] columns, and all sets can be drawn. *)
Theorem random_genes_distinct : forall s1 s2 n s, (forall l, Permutation (s1 l) l) -> (forall l, Permutation (s2 l) l) -> combos s = None ->
  let r := random_genes total n_features s1 s2 n s in
  let drawn := map (cell (heap (fst r))) (snd r) in
  NoDup drawn /\ length drawn = min n (length (unique_set (seq 0 total) n_features)) /\
  (forall c, In c drawn -> increasing c /\ valid total n_features c) /\
  (length (unique_set (seq 0 total) n_features) <= n -> forall c, valid total n_features c -> increasing c -> In c drawn).
Proof.
  intros s1 s2 n s P1 P2 E r drawn. unfold drawn, r, random_genes. rewrite E. cbn [fst snd heap].
  set (l := unique_set (seq 0 total) n_features). set (refs := s2 (s1 (seq (length (heap s)) (length l)))).
  assert (PR : Permutation refs (seq (length (heap s)) (length l))) by (unfold refs; rewrite P2; auto).
  assert (EM : map (cell (heap s ++ l)) (seq (length (heap s)) (length l)) = l).
  { apply (list_ext_nth []).
    - rewrite map_length, seq_length; auto.
    - intros i Hi. rewrite map_length, seq_length in Hi. rewrite (nth_map_lt _ _ _ 0) by (rewrite seq_length; auto).
      rewrite seq_nth by auto. unfold cell. rewrite app_nth2 by lia. f_equal. lia. }
  assert (PM : Permutation (map (cell (heap s ++ l)) refs) l) by (eapply Permutation_trans; [apply (Permutation_map _ PR)|rewrite EM; auto]).
  rewrite <- firstn_map. assert (ND : NoDup (map (cell (heap s ++ l)) refs)).
  { apply (Permutation_NoDup (Permutation_sym PM)). apply combinations_NoDup, seq_increasing. }
  split; [|split; [|split]].
  - rewrite <- (firstn_skipn n (map (cell (heap s ++ l)) refs)) in ND. apply NoDup_app_inv in ND. tauto.
  - rewrite firstn_length, (Permutation_length PM). auto.
  - intros c Hc. apply firstn_In in Hc. apply (Permutation_in _ PM) in Hc. apply unique_set_spec in Hc as [H1 [H2 H3]].
    split; auto. split; auto. split; auto. apply increasing_NoDup; auto.
  - intros Hn c [V1 [_ V3]] Hc. rewrite firstn_all2 by (rewrite (Permutation_length PM); auto).
    apply (Permutation_in _ (Permutation_sym PM)). apply unique_set_spec. auto.
Qed.

Lemma create_sound s1 s2 s : (forall l, Permutation (s1 l) l) -> (forall l, Permutation (s2 l) l) -> create s1 s2 = Ok s ->
  sound total n_features s /\ length (pop s) = min population_size (length (unique_set (seq 0 total) n_features)).
Proof.
  intros P1 P2 H. unfold GAFSModel.create in H.
  set (g := random_genes total n_features s1 s2 population_size (GA [] None [] [])) in H. cbv zeta in H.
  match type of H with (if ?b then _ else _) = _ => destruct b; [discriminate|] end. injection H as <-. cbn [heap pop genes].
  assert (EH : heap (fst g) = unique_set (seq 0 total) n_features) by reflexivity.
  destruct (@random_genes_distinct s1 s2 population_size (GA [] None [] []) P1 P2 eq_refl) as [_ [L _]]. fold g in L. rewrite map_length in L.
  split; [split; [|split]|]; auto; cbn [heap pop].
  - intros r Hr. assert (I : In (cell (unique_set (seq 0 total) n_features) r) (unique_set (seq 0 total) n_features)) by (apply nth_In; auto).
    apply unique_set_spec in I as [I1 [I2 I3]]. split; auto. split; auto. apply increasing_NoDup; auto.
  - intros e He. apply (Permutation_in _ (get_fitness_perm _ _ _)) in He. apply in_map_iff in He as [r [<- Hr]]. cbn [e_gene]. apply firstn_In in Hr.
    apply (Permutation_in _ (P2 _)), (Permutation_in _ (P1 _)), in_seq in Hr. simpl in Hr. lia.
  - unfold get_fitness. rewrite isort_length, map_length. apply L.
Qed.

(** Chromosomes stay valid and the population keeps its size in every run of the algorithm. *)
Theorem chromosomes_valid : forall s1 s2 s0 ds s rows, (forall l, Permutation (s1 l) l) -> (forall l, Permutation (s2 l) l) ->
  create s1 s2 = Ok s0 -> Forall random ds -> evolve ds s0 = Ok (s, rows) ->
  (forall e, In e (pop s) -> valid total n_features (chromosome_of s e)) /\
  length (pop s) = min population_size (length (unique_set (seq 0 total) n_features)) /\
  genes s = map e_gene (pop s) /\ length rows = length ds.
Proof.
  intros s1 s2 s0 ds s rows P1 P2 H0 F H. destruct (create_sound _ _ P1 P2 H0) as [S0 L0].
  destruct (@evolve_sound score as_set SET total n_features population_size offspring_size ds F 0 s0 s rows S0 H) as [[V [B G]] [L R]]. repeat split; auto; try lia; apply V; auto.
Qed.

(** The first offspring is a copy of the member with the largest weight, in every case. *)
Definition order_independent : Prop := forall c c', Permutation c c' -> score c = score c'.

Lemma crossover_clone d s s' e0 t : random d -> sound total n_features s -> crossover d s = Ok s' -> 1 <= offspring_size ->
  pop s = e0 :: t -> exists e, In e (pop s') /\ ~ (exists e', In e' (pop s) /\ e_gene e' = e_gene e) /\
    Permutation (chromosome_of s' e) (chromosome_of s e0) /\ e_weight e = score (chromosome_of s' e) /\ e_score e = score (chromosome_of s' e).
Proof.
  intros HR [V [B G]] H Ho EP0. destruct (@crossover_spec score as_set SET total n_features population_size offspring_size d s s' HR H B) as [point [h [off [_ [EH [LH [PH [LO [[raw [RA RM]] [LP [GE [_ [kept [EL PP]]]]]]]]]]]]]].
  assert (Hs : 0 < length (seq 0 offspring_size)) by (rewrite seq_length; lia).
  destruct (Forall2_nth 0 [] RA Hs) as [q1 [q2 [a [b [N1 [N2 [Pa [Pb [Ea Ec]]]]]]]]]. rewrite seq_nth in N1, N2 by lia.
  cbn [Nat.add] in N1, N2. rewrite EP0 in N1, N2. cbn [map nth_error] in N1, N2. injection N1 as <-. injection N2 as <-.
  specialize (Ea eq_refl). subst b. rewrite firstn_skipn in Ec.
  assert (He0 : In e0 (pop s)) by (rewrite EP0; left; auto).
  assert (Va : valid total n_features a) by (apply (perm_valid Pa); apply V, B; auto).
  pose proof (mutate_duplicates_spec score SET total raw HR 0 RM) as F. assert (Lr : length raw = length off) by (apply Forall2_length_eq in F; auto).
  destruct (Forall2_nth [] [] F (i:=0)) as [_ [F2 _]]; [lia|]. rewrite Ec in F2. destruct Va as [_ [Na _]]. specialize (F2 Na).
  assert (CE : cell (heap s') (length h) = a) by (rewrite EH; unfold cell; rewrite app_nth2, Nat.sub_diag by lia; auto).
  exists (Entry (length h) (score a) (score a)). split; [|split; [|split; [|split]]]; unfold chromosome_of; cbn [e_gene e_weight e_score]; rewrite ?CE; auto.
  - apply (Permutation_in _ (Permutation_sym PP)). apply in_app_iff. right. apply in_map_iff. exists (length h). rewrite CE. split; auto.
    apply in_seq. lia.
  - intros [e' [He' E]]. apply B in He'. lia.
Qed.

Theorem first_offspring_refuted : forall d s s' e0 t, random d -> sound total n_features s -> crossover d s = Ok s' -> 1 <= offspring_size ->
  pop s = e0 :: t -> exists e, In e (pop s') /\ ~ (exists e', In e' (pop s) /\ e_gene e' = e_gene e) /\
    Permutation (chromosome_of s' e) (chromosome_of s e0).
Proof. intros d s s' e0 t H1 H2 H3 H4 H5. destruct (crossover_clone H1 H2 H3 H4 H5) as [e [E1 [E2 [E3 _]]]]. eauto. Qed.

(** Offspring i joins features of members i and 2i; features of both that coincide are replaced. *)
Theorem offspring_features : forall d s s', random d -> sound total n_features s -> crossover d s = Ok s' ->
  forall i, i < offspring_size -> exists e1 e2 e a b, nth_error (pop s) i = Some e1 /\ nth_error (pop s) (i + i) = Some e2 /\ In e (pop s') /\
    incl a (chromosome_of s e1) /\ incl b (chromosome_of s e2) /\ length a = n_features / 2 /\ length b = n_features - n_features / 2 /\
    incl (a ++ b) (chromosome_of s' e) /\ (NoDup (a ++ b) -> chromosome_of s' e = a ++ b) /\
    e_weight e = score (chromosome_of s' e) /\ e_score e = score (chromosome_of s' e).
Proof.
  intros d s s' HR [V [B G]] H i Hi. destruct (@crossover_spec score as_set SET total n_features population_size offspring_size d s s' HR H B) as [point [h [off [[p0 [t [EP Hpt]]] [EH [LH [PH [LO [[raw [RA RM]] [LP [GE [_ [kept [EL PP]]]]]]]]]]]]]].
  assert (Hs : i < length (seq 0 offspring_size)) by (rewrite seq_length; lia).
  destruct (Forall2_nth 0 [] RA Hs) as [q1 [q2 [a [b [N1 [N2 [Pa [Pb [_ Ec]]]]]]]]]. rewrite seq_nth in N1, N2 by lia. cbn [Nat.add] in N1, N2.
  rewrite nth_error_map in N1, N2. destruct (nth_error (pop s) i) as [e1|] eqn:E1; [|discriminate].
  destruct (nth_error (pop s) (i + i)) as [e2|] eqn:E2; [|discriminate]. cbn [option_map] in N1, N2. injection N1 as <-. injection N2 as <-.
  pose proof (mutate_duplicates_spec score SET total raw HR 0 RM) as F. assert (Lr : length raw = length off) by (apply Forall2_length_eq in F; auto).
  destruct (Forall2_nth [] [] F (i:=i)) as [_ [F2 [_ F4]]]; [lia|]. rewrite Ec in F2, F4.
  assert (Hp0 : p0 < length (heap s)).
  { assert (I : In p0 (map e_gene (pop s))) by (rewrite EP; left; auto). apply in_map_iff in I as [e [<- He]]; auto. }
  assert (Ept : point = n_features / 2) by (rewrite Hpt; destruct (V _ Hp0) as [-> _]; auto).
  pose proof (Nat.div_le_upper_bound n_features 2 n_features ltac:(lia) ltac:(lia)).
  assert (La : length a = n_features) by (rewrite (Permutation_length Pa); apply V, B; eapply nth_error_In; eauto).
  assert (Lb : length b = n_features) by (rewrite (Permutation_length Pb); apply V, B; eapply nth_error_In; eauto).
  assert (CE : cell (heap s') (length h + i) = nth i off []) by (rewrite EH; unfold cell; rewrite app_nth2 by lia; f_equal; lia).
  exists e1, e2, (Entry (length h + i) (score (nth i off [])) (score (nth i off []))), (firstn point a), (skipn point b).
  unfold chromosome_of; cbn [e_gene e_weight e_score]. rewrite CE. repeat split; auto.
  - apply (Permutation_in _ (Permutation_sym PP)). apply in_app_iff. right. apply in_map_iff. exists (length h + i). rewrite CE. split; auto.
    apply in_seq. lia.
  - intros x Hx. apply firstn_In in Hx. apply (Permutation_in _ Pa Hx).
  - intros x Hx. apply skipn_In in Hx. apply (Permutation_in _ Pb Hx).
  - rewrite firstn_length. lia.
  - rewrite skipn_length. lia.
Qed.

(** Scores stay right in a crossover, if the order of the columns does not matter to the estimator. *)
Definition scores_right (s : ga) : Prop := forall e, In e (pop s) -> e_score e = score (chromosome_of s e).

Theorem crossover_scores : forall d s s', order_independent -> random d -> sound total n_features s -> scores_right s ->
  crossover d s = Ok s' -> scores_right s'.
Proof.
  intros d s s' OI HR [V [B G]] SR H. destruct (@crossover_spec score as_set SET total n_features population_size offspring_size d s s' HR H B) as [point [h [off [_ [EH [LH [PH [LO [_ [LP [GE [_ [kept [EL PP]]]]]]]]]]]]]].
  intros e He. apply (Permutation_in _ PP) in He. apply in_app_iff in He as [He|He].
  - apply firstn_In in He. destruct (lower_weights_spec _ _ _ EL) as [_ [K2 [K3 K4]]].
    destruct (In_nth _ _ e He) as [k [Hk Ek]]. set (e' := nth k (pop s) e).
    assert (In e' (pop s)) by (apply nth_In; lia).
    assert (Eg : e_gene e = e_gene e').
    { assert (X : nth k (map e_gene kept) 0 = nth k (map e_gene (pop s)) 0) by (rewrite K3; auto).
      rewrite (nth_map_lt _ _ _ e) in X by auto. rewrite (nth_map_lt _ _ _ e) in X by lia. rewrite Ek in X. auto. }
    assert (Es : e_score e = e_score e').
    { assert (X : nth k (map e_score kept) 0%Q = nth k (map e_score (pop s)) 0%Q) by (rewrite K4; auto).
      rewrite (nth_map_lt _ _ _ e) in X by auto. rewrite (nth_map_lt _ _ _ e) in X by lia. rewrite Ek in X. auto. }
    rewrite Es, (SR e') by auto. apply OI. unfold chromosome_of. rewrite Eg, EH. unfold cell. rewrite app_nth1 by (apply B in H0; lia).
    apply Permutation_sym, PH.
  - apply in_map_iff in He as [r [<- _]]. reflexivity.
Qed.

(** A mutation changes a member of the population and leaves its score as it was. *)
Theorem mutation_keeps_scores_refuted : forall d s s', random d -> sound total n_features s -> mutate d s = Ok s' ->
  n_mut d = 1 -> pop s' = pop s /\ exists e, In e (pop s') /\ ~ Permutation (chromosome_of s' e) (chromosome_of s e).
Proof.
  intros d s s' HR S0 H E. destruct (mutate_sound HR S0 H) as [_ EP]. split; auto. destruct S0 as [V [B G]].
  unfold GAFSModel.mutate in H. rewrite E in H. cbn [seq mutations] in H.
  destruct (nth_error (genes s) (gpos d 0)) as [r|] eqn:EN; [|discriminate].
  rewrite G in EN. rewrite nth_error_map in EN. destruct (nth_error (pop s) (gpos d 0)) as [e|] eqn:EE; [|discriminate].
  cbn [option_map] in EN. injection EN as <-. apply nth_error_In in EE.
  destruct (others total (cell (heap s) (e_gene e))) as [|x t] eqn:EO; [discriminate|].
  destruct (Nat.leb_spec (length (cell (heap s) (e_gene e))) (cpos d 0)) as [|L]; [discriminate|].
  cbn [bind] in H. injection H as <-. cbn [pop]. exists e. split; auto. unfold chromosome_of. cbn [heap].
  rewrite cell_set_nth, Nat.eqb_refl. rewrite (proj2 (Nat.ltb_lt _ _) (B _ EE)). intros P.
  assert (I : In (new_feature d 0 (x :: t)) (others total (cell (heap s) (e_gene e)))) by (rewrite EO; apply (rnd_new HR); discriminate).
  apply others_spec in I as [_ I]. apply I. apply (Permutation_in _ P).
  rewrite <- (nth_set_nth_eq (new_feature d 0 (x :: t)) 0 _ L) at 1. apply nth_In. rewrite set_nth_length. auto.
Qed.

(** ** Best fitness *)
Lemma by_weight_total : total_preorder by_weight.
Proof.
  unfold by_weight. split.
  - intros x y. rewrite !Qle_bool_iff. destruct (Qlt_le_dec (e_weight x) (e_weight y)) as [H|H]; [right; apply Qlt_le_weak; auto|left; auto].
  - intros x y z. rewrite !Qle_bool_iff. intros H1 H2. eapply Qle_trans; eauto.
Qed.

Lemma crossover_sorted d s s' : crossover d s = Ok s' -> exists l, pop s' = isort by_weight l.
Proof.
  unfold GAFSModel.crossover. destruct (map e_gene (pop s)) as [|p0 t]; [discriminate|].
  destruct (mate _ _ _ _ _) as [m|]; [|discriminate]. cbn [bind].
  destruct (mutate_duplicates _ _ _ _ _) as [off|]; [|discriminate]. cbn [bind].
  destruct (lower_weights _ _ _) as [q|]; [|discriminate]. cbn [bind]. intros E. injection E as <-. cbn [pop]. eauto.
Qed.

Lemma isort_head l e t : isort by_weight l = e :: t -> forall x, In x l -> (e_weight x <= e_weight e)%Q.
Proof.
  intros E x Hx. pose proof (isort_sorted by_weight_total l) as HS. rewrite E in HS. inversion HS as [|? ? _ F]; subst.
  apply (isort_in by_weight) in Hx. rewrite E in Hx. destruct Hx as [<-|Hx]; [apply Qle_refl|].
  rewrite Forall_forall in F. apply F in Hx. apply Qle_bool_iff in Hx. auto.
Qed.

Lemma percentile_unit p l : Forall (fun x => 0 <= x <= 1)%Q l -> (0 <= percentile p l <= 1)%Q.
Proof.
  intros F. unfold percentile. set (m := p * (length l - 1)).
  assert (G : forall k, (0 <= nth k (isort Qle_bool l) 0 <= 1)%Q).
  { intros k. destruct (Nat.lt_ge_cases k (length (isort Qle_bool l))) as [H|H].
    - rewrite Forall_forall in F. apply F. apply (isort_in Qle_bool). apply nth_In; auto.
    - rewrite nth_overflow by auto. split; discriminate. }
  pose proof (G (m / 100)) as G1. pose proof (G (S (m / 100))) as G2.
  set (a := nth (m / 100) (isort Qle_bool l) 0%Q) in *. set (b := nth (S (m / 100)) (isort Qle_bool l) 0%Q) in *.
  assert (H100 : m mod 100 < 100) by (apply Nat.mod_upper_bound; lia).
  clearbody a b. set (q := m mod 100) in *. clearbody q. set (r := (Z.of_nat q # 100)%Q).
  assert (R0 : (0 <= r)%Q) by (unfold r, Qle; simpl; lia).
  assert (R1 : (r <= 1)%Q) by (unfold r, Qle; simpl; lia).
  clearbody r.
  assert (P1 : (0 <= (1 - r) * a)%Q) by (apply Qmult_le_0_compat; lra).
  assert (P2 : (0 <= r * b)%Q) by (apply Qmult_le_0_compat; lra).
  assert (P3 : (0 <= (1 - r) * (1 - a))%Q) by (apply Qmult_le_0_compat; lra).
  assert (P4 : (0 <= r * (1 - b))%Q) by (apply Qmult_le_0_compat; lra).
  split; lra.
Qed.

Definition leading (s : ga) : Prop :=
  (forall e, In e (pop s) -> 0 <= e_weight e /\ e_weight e <= e_score e /\ e_score e <= 1)%Q /\
  exists e0 t, pop s = e0 :: t /\ forall e, In e (pop s) -> (e_score e <= e_weight e0)%Q.

Lemma lower_weights_in k x p p' e : lower_weights k x p = Ok p' -> In e p' -> exists e', In e' p /\ e_score e = e_score e' /\
  (e_weight e = e_weight e' \/ e_weight e = (e_weight e' * x)%Q).
Proof.
  unfold lower_weights. destruct (Nat.ltb_spec (length p) k); [discriminate|]. intros H'. injection H' as <-. intros He.
  apply in_app_iff in He as [He|He].
  - apply in_map_iff in He as [e' [<- He]]. exists e'. cbn. split; [eapply firstn_In; eauto|auto].
  - exists e. split; [eapply skipn_In; eauto|auto].
Qed.

Lemma crossover_leading d s s' : order_independent -> (forall c, 0 <= score c <= 1)%Q -> 1 <= offspring_size -> random d -> sound total n_features s ->
  scores_right s -> leading s -> crossover d s = Ok s' -> leading s' /\ forall e, In e (pop s) -> exists e', In e' (pop s') /\ (e_score e <= e_score e')%Q.
Proof.
  intros OI HU Ho HR S0 SR [W [e0 [t [EP M]]]] H.
  destruct (crossover_clone HR S0 H Ho EP) as [c [C1 [_ [C2 [C3 C4]]]]].
  assert (He0 : In e0 (pop s)) by (rewrite EP; left; auto).
  assert (Cs : e_score c = e_score e0) by (rewrite C4, (SR e0 He0); apply OI; auto).
  assert (Cw : e_weight c = e_score e0) by (rewrite C3, <- C4; auto).
  assert (W0 : e_weight e0 == e_score e0) by (apply Qle_antisym; [apply W; auto|apply M; auto]).
  assert (PU : (0 <= population_percentile (pop s) <= 1)%Q).
  { apply percentile_unit. apply Forall_forall. intros x Hx. apply in_map_iff in Hx as [e [<- He]]. rewrite (SR e He). auto. }
  destruct S0 as [V [B G]].
  destruct (@crossover_spec score as_set SET total n_features population_size offspring_size d s s' HR H B) as [point [h [off [_ [EH [LH [PH [LO [_ [LP [GE [_ [kept [EL PP]]]]]]]]]]]]]].
  assert (D : forall e, In e (pop s') -> (0 <= e_weight e /\ e_weight e <= e_score e /\ e_score e <= 1 /\ (e_score e <= e_score e0 \/ e_score e == e_weight e))%Q).
  { intros e He. apply (Permutation_in _ PP) in He. apply in_app_iff in He as [He|He].
    - apply firstn_In in He. edestruct lower_weights_in as [e' [I [E1 E2]]]; [exact EL|exact He|]. destruct (W e' I) as [W1 [W2 W3]].
      assert (M' := M e' I). rewrite W0 in M'. rewrite E1. assert (0 <= e_weight e /\ e_weight e <= e_weight e')%Q by (destruct E2 as [->| ->]; split; nra).
      repeat split; try tauto; lra.
    - apply in_map_iff in He as [r [<- _]]. cbn. destruct (HU (cell (heap s') r)). repeat split; auto; try apply Qle_refl. right; reflexivity. }
  split.
  - split.
    + intros e He. destruct (D e He) as [? [? [? _]]]. auto.
    + destruct (@crossover_sorted d s s' H) as [l El]. destruct (pop s') as [|h0 t0] eqn:EP'; [destruct C1|].
      exists h0, t0. split; auto. symmetry in El. assert (HH : forall x, In x (h0 :: t0) -> (e_weight x <= e_weight h0)%Q).
      { intros x Hx. rewrite <- El in Hx. rewrite isort_in in Hx. eapply isort_head; [exact El|exact Hx]. }
      intros e He. destruct (D e He) as [_ [_ [_ [D1|D1]]]].
      * rewrite <- Cw in D1. pose proof (HH c C1). lra.
      * rewrite D1. auto.
  - intros e He. exists c. split; auto. rewrite Cs. apply M in He. lra.
Qed.

(** Without mutations and for scores between zero and one the best score never decreases. *)
Theorem best_fitness_kept : forall s1 s2 s0 ds s rows, order_independent -> (forall c, 0 <= score c <= 1)%Q -> 1 <= offspring_size ->
  (forall l, Permutation (s1 l) l) -> (forall l, Permutation (s2 l) l) -> create s1 s2 = Ok s0 ->
  Forall (fun d => random d /\ n_mut d = 0) ds -> evolve ds s0 = Ok (s, rows) ->
  forall e, In e (pop s0) -> exists e', In e' (pop s) /\ (e_score e <= e_score e')%Q.
Proof.
  intros s1 s2 s0 ds s rows OI HU Ho P1 P2 H0 F H. destruct (create_sound _ _ P1 P2 H0) as [S0 _].
  assert (L0 : scores_right s0 /\ leading s0).
  { unfold GAFSModel.create in H0. cbv zeta in H0.
    match type of H0 with (if ?b then _ else _) = _ => destruct b eqn:EZ; [discriminate|] end. injection H0 as <-. unfold scores_right, leading, chromosome_of. cbn [heap pop].
    match goal with |- context[get_fitness score ?hh ?ll] => set (h := hh) in *; set (l := ll) in * end.
    assert (FE : forall e, In e (get_fitness score h l) -> e_score e = score (cell h (e_gene e)) /\ e_weight e = score (cell h (e_gene e))).
    { intros e He. apply (Permutation_in _ (get_fitness_perm _ _ _)) in He. apply in_map_iff in He as [r [<- _]]. auto. }
    split; [intros e He; apply FE; auto|]. split.
    - intros e He. destruct (FE e He) as [E1 E2]. destruct (HU (cell h (e_gene e))). rewrite E1, E2. repeat split; auto. apply Qle_refl.
    - assert (EZ' : (length (concat (map (fun e => cell h (e_gene e)) (get_fitness score h l))) =? 0) = false) by exact EZ.
      destruct (get_fitness score h l) as [|e0 t] eqn:EG; [discriminate|]. exists e0, t. split; auto. intros e He. change (In e (get_fitness score h l)) in He. rewrite EG in He.
      destruct (FE e He) as [E1 E2]. rewrite E1, <- E2. unfold get_fitness in EG. eapply isort_head; [exact EG|].
      rewrite <- EG in He. unfold get_fitness in He. rewrite isort_in in He. auto. }
  destruct L0 as [SR L0]. clear H0. revert s0 S0 SR L0 rows H. generalize 0.
  induction F as [|d ds [HR HM] F IH]; intros i s0 S0 SR L0 rows H e He; cbn [GAFSModel.evolve] in H.
  { injection H as <- <-. exists e. split; auto. apply Qle_refl. }
  destruct (max_population_fitness (pop s0)) as [mx|] eqn:EX; [|discriminate]. cbn [bind] in H.
  destruct (crossover d s0) as [t1|] eqn:E1; [|discriminate]. cbn [bind] in H.
  destruct (mutate d t1) as [t2|] eqn:E2; [|discriminate]. cbn [bind] in H.
  destruct (GAFSModel.evolve score as_set total offspring_size (S i) ds t2) as [[t3 rows']|] eqn:E3; [|discriminate]. cbn [bind fst snd] in H.
  injection H as <- <-.
  assert (t2 = t1). { unfold GAFSModel.mutate in E2. rewrite HM in E2. cbn [seq mutations bind] in E2. injection E2 as <-. destruct t1; auto. }
  subst t2. destruct (crossover_leading OI HU Ho HR S0 SR L0 E1) as [L1 KE].
  destruct (@crossover_sound score as_set SET total n_features population_size offspring_size d s0 t1 HR S0 E1) as [S1 _].
  destruct (KE e He) as [e1 [I1 Q1]]. destruct (IH (S i) t1 S1 (crossover_scores OI HR S0 SR E1) L1 rows' E3 e1 I1) as [e2 [I2 Q2]].
  exists e2. split; auto. lra.
Qed.

(** A crossover succeeds if there are members 2i for all offspring i, and more members than offspring ... *)
Theorem crossover_succeeds : forall d s, random d -> sound total n_features s -> n_features <= total ->
  pop s <> [] -> (forall i, i < offspring_size -> i + i < length (pop s)) -> offspring_size < length (pop s) -> exists s', crossover d s = Ok s'.
Proof.
  intros d s HR [V [B G]] HT HN HI HL. unfold GAFSModel.crossover. destruct (map e_gene (pop s)) as [|p0 t] eqn:EP.
  { destruct (pop s); [congruence|discriminate]. } rewrite <- EP.
  set (point := length (cell (heap s) p0) / 2).
  assert (Hp0 : p0 < length (heap s)).
  { assert (I : In p0 (map e_gene (pop s))) by (rewrite EP; left; auto). apply in_map_iff in I as [e [<- He]]; auto. }
  assert (Hpt : point <= n_features) by (unfold point; destruct (V _ Hp0) as [-> _]; apply Nat.div_le_upper_bound; lia).
  destruct (@mate_ok d (map e_gene (pop s)) point (seq 0 offspring_size) (heap s)) as [[h raw] EM].
  { intros i Hi. apply in_seq in Hi. rewrite map_length. apply HI. lia. }
  rewrite EM. cbn [bind fst snd].
  destruct (mate_spec _ _ _ HR _ EM) as [A1 [A2 [A3 A4]]]; [intros r Hr; apply in_map_iff in Hr as [e [<- He]]; auto|].
  destruct (@mutate_duplicates_ok score as_set SET total d raw 0) as [off EO].
  { intros c Hc. destruct (In_nth _ _ [] Hc) as [j [Hj <-]].
    destruct (Forall2_nth 0 [] A4 (i:=j)) as [q1 [q2 [a [b [N1 [N2 [Pa [Pb [_ Ec]]]]]]]]]; [lia|].
    apply nth_error_In in N1. apply nth_error_In in N2. apply in_map_iff in N1 as [e1 [<- H1]]. apply in_map_iff in N2 as [e2 [<- H2]].
    destruct (perm_valid Pa (V _ (B _ H1))) as [L1 [_ B1]]. destruct (perm_valid Pb (V _ (B _ H2))) as [L2 [_ B2]]. rewrite Ec. split.
    - rewrite app_length, firstn_length, skipn_length. lia.
    - intros f Hf. apply in_app_iff in Hf as [Hf|Hf]; [apply B1; eapply firstn_In; eauto|apply B2; eapply skipn_In; eauto]. }
  rewrite EO. cbn [bind]. pose proof (Forall2_length_eq (mutate_duplicates_spec score SET total raw HR 0 EO)) as LO. rewrite seq_length in A3.
  unfold lower_weights. destruct (Nat.ltb_spec (length (pop s)) (length off + 1)); [lia|]. cbn [bind]. eauto.
Qed.

(** ... otherwise it fails, also for populations that are larger than the offspring. *)
Theorem crossover_fails_refuted : forall d s i, i < offspring_size -> length (pop s) <= i + i -> crossover d s = Err IndexError.
Proof.
  intros d s i Hi HL. unfold GAFSModel.crossover. destruct (map e_gene (pop s)) as [|p0 t] eqn:EP; auto. rewrite <- EP.
  set (point := length (cell (heap s) p0) / 2). clearbody point. clear EP p0 t.
  assert (E : forall is h, In i is -> mate d (map e_gene (pop s)) point is h = Err IndexError).
  { induction is as [|j is IH]; intros h Hin; [destruct Hin|]. cbn [mate].
    destruct (nth_error (map e_gene (pop s)) j) as [p1|] eqn:E1; auto.
    destruct (nth_error (map e_gene (pop s)) (j + j)) as [p2|] eqn:E2; auto.
    destruct Hin as [->|Hin].
    - assert (i + i < length (map e_gene (pop s))) by (apply nth_error_Some; rewrite E2; discriminate). rewrite map_length in *. lia.
    - rewrite IH; auto. }
  rewrite E; auto. apply in_seq. lia.
Qed.

(** ** Homogeneity and frequencies *)
Definition occurring (s : ga) : list nat := concat (map (chromosome_of s) (pop s)).

Lemma occurring_genes s : genes s = map e_gene (pop s) -> concat (map (cell (heap s)) (genes s)) = occurring s.
Proof. intros ->. rewrite map_map. reflexivity. Qed.

Lemma occurring_bound s f : sound total n_features s -> In f (occurring s) -> f < total.
Proof.
  intros [V [B G]] H. apply in_concat in H as [c [Hc Hf]]. apply in_map_iff in Hc as [e [<- He]]. apply (V _ (B _ He)); auto.
Qed.

(** The homogeneity is the share of the features that do not occur: between zero and one, and zero if and only if all occur. *)
Theorem homogeneity_meaning : forall s, sound total n_features s -> 0 < total ->
  (0 <= homogeneity as_set total s <= 1)%Q /\
  (homogeneity as_set total s == inject_Z (Z.of_nat (length (filter (fun f => negb (memb f (occurring s))) (seq 0 total)))) / inject_Z (Z.of_nat total))%Q /\
  ((homogeneity as_set total s == 0)%Q <-> forall f, f < total -> In f (occurring s)).
Proof.
  intros s S0 HT. unfold homogeneity. rewrite occurring_genes by apply S0. set (u := as_set (occurring s)).
  assert (SU : forall f, In f u <-> In f (occurring s)) by (intros f; apply SET).
  assert (Bu : forall f, In f u -> f < total) by (intros f Hf; apply (proj1 (SU f)) in Hf; eapply occurring_bound; eauto).
  pose proof (others_length Bu (proj1 (SET (occurring s)))) as L.
  assert (EO : others total u = filter (fun f => negb (memb f (occurring s))) (seq 0 total)).
  { unfold others. apply filter_ext. intros f. f_equal. apply eq_true_iff_eq. rewrite !memb_In. apply SU. }
  rewrite <- EO. set (o := length (others total u)) in *.
  set (a := inject_Z (Z.of_nat o)). set (b := inject_Z (Z.of_nat (length u))). set (t := inject_Z (Z.of_nat total)).
  assert (Et : (t == a + b)%Q) by (unfold t, a, b; rewrite <- inject_Z_plus; unfold Qeq; simpl; lia).
  assert (Ht : (0 < t)%Q) by (unfold t, Qlt; simpl; lia).
  assert (Ha : (0 <= a)%Q) by (unfold a, Qle; simpl; lia).
  assert (Hb : (0 <= b)%Q) by (unfold b, Qle; simpl; lia).
  assert (EQ : (1 - b / t == a / t)%Q).
  { assert (a == t - b)%Q by lra. rewrite H. field. lra. }
  split; [|split; auto].
  - rewrite EQ. split.
    + apply Qle_shift_div_l; lra.
    + apply Qle_shift_div_r; lra.
  - rewrite EQ. split.
    + intros E0 f Hf. assert (a == 0)%Q by (rewrite <- (Qmult_div_r a t) by lra; rewrite E0; ring).
      assert (o = 0) by (unfold a, Qeq in H; simpl in H; lia).
      destruct (in_dec Nat.eq_dec f (occurring s)) as [|N]; auto. exfalso.
      assert (I : In f (others total u)) by (apply others_spec; split; auto; intros Hu; apply N; apply (proj1 (SU f)); auto).
      unfold o in H0. destruct (others total u); [destruct I|discriminate].
    + intros HA. assert (o = 0).
      { unfold o. destruct (others total u) as [|x r] eqn:E; auto. assert (I : In x (others total u)) by (rewrite E; left; auto).
        apply others_spec in I as [I1 I2]. exfalso. apply I2. apply (proj2 (SU x)). auto. }
      unfold a. rewrite H. unfold Qdiv. apply Qmult_0_l.
Qed.

Lemma list_sum_app_nat l1 l2 : list_sum (l1 ++ l2) = list_sum l1 + list_sum l2.
Proof. induction l1; simpl; auto. lia. Qed.

Lemma list_sum_perm l1 l2 : Permutation l1 l2 -> list_sum l1 = list_sum l2.
Proof. induction 1; simpl; try lia. Qed.

Lemma count_sum n l : (forall x, In x l -> x < n) -> list_sum (map (fun f => count_occ Nat.eq_dec l f) (seq 0 n)) = length l.
Proof.
  induction l as [|x l IH]; intros H.
  - simpl. induction (seq 0 n); simpl; auto.
  - simpl length. rewrite <- IH by (intros; apply H; right; auto). assert (Hx : x < n) by (apply H; left; auto).
    assert (G : forall L, NoDup L -> list_sum (map (fun f => count_occ Nat.eq_dec (x :: l) f) L) =
      (if in_dec Nat.eq_dec x L then 1 else 0) + list_sum (map (fun f => count_occ Nat.eq_dec l f) L)).
    { induction L as [|y L IL]; intros N; [reflexivity|]. inversion N; subst. specialize (IL H3).
      change (list_sum (map ?g (y :: L))) with (g y + list_sum (map g L)). rewrite IL. cbn [count_occ].
      destruct (in_dec Nat.eq_dec x L), (in_dec Nat.eq_dec x (y :: L)) as [I|I], (Nat.eq_dec x y); subst; simpl in *; try lia; exfalso; intuition congruence. }
    rewrite G by apply seq_NoDup. destruct (in_dec Nat.eq_dec x (seq 0 n)) as [_|N]; [reflexivity|].
    exfalso. apply N. apply in_seq. lia.
Qed.

Lemma list_max_in (l : list nat) : l <> [] -> In (list_max l) l.
Proof.
  induction l as [|x l IH]; [congruence|]. intros _. simpl. destruct l as [|y l]; [left; simpl; lia|].
  destruct (Nat.max_spec x (list_max (y :: l))) as [[_ ->]|[_ ->]]; auto. right. apply IH. discriminate.
Qed.

Lemma in_list_max (l : list nat) x : In x l -> x <= list_max l.
Proof. intros H. pose proof (proj1 (list_max_le l (list_max l)) (Nat.le_refl _)) as F. rewrite Forall_forall in F. auto. Qed.

(** Each reported frequency is the percentage of the feature among all features of the population, each feature
    is reported at most once, all that occur are reported, the most frequent come first, and the sum is 100. *)
Theorem frequencies_meaning : forall s, sound total n_features s -> occurring s <> [] ->
  let fr := feature_frequencies total s in
  (forall f x, In (f, x) fr -> x == 100 * inject_Z (Z.of_nat (count_occ Nat.eq_dec (occurring s) f)) / inject_Z (Z.of_nat (length (occurring s))))%Q /\
  NoDup (map fst fr) /\ (forall f, In f (map fst fr) <-> f <= list_max (occurring s)) /\
  (forall i j, i < j < length fr -> (snd (nth j fr (0%nat, 0)) <= snd (nth i fr (0%nat, 0)))%Q) /\
  (fold_right Qplus 0 (map snd fr) == 100)%Q.
Proof.
  intros s S0 NE fr. unfold fr, feature_frequencies. rewrite occurring_genes by apply S0. set (all := occurring s) in *.
  set (mx := list_max all). assert (Hm : mx < total) by (eapply occurring_bound; [exact S0|apply list_max_in; auto]).
  set (cnt := fun f => count_occ Nat.eq_dec all f).
  assert (EC : combine (seq 0 total) (map cnt (seq 0 (S mx))) = map (fun f => (f, cnt f)) (seq 0 (S mx))).
  { replace total with (S mx + (total - S mx)) by lia. generalize (total - S mx). generalize 0. generalize (S mx).
    induction n as [|n IH]; intros a k; simpl; [destruct (seq a k); auto|]. f_equal. apply IH. }
  rewrite EC. set (r := fun a b : nat * nat => snd b <=? snd a). set (occ := isort r (map (fun f => (f, cnt f)) (seq 0 (S mx)))).
  assert (PO : Permutation occ (map (fun f => (f, cnt f)) (seq 0 (S mx)))) by apply isort_perm.
  assert (ES : list_sum (map snd occ) = length all).
  { rewrite (list_sum_perm (Permutation_map snd PO)), map_map. cbn [snd]. apply count_sum. intros x Hx. apply in_list_max in Hx. unfold mx. lia. }
  rewrite ES. set (N := inject_Z (Z.of_nat (length all))).
  assert (HN : (0 < N)%Q) by (unfold N, Qlt; simpl; destruct all; [congruence|simpl; lia]).
  assert (EF : map fst (map (fun p : nat * nat => (fst p, (inject_Z (Z.of_nat (snd p)) / N * 100)%Q)) occ) = map fst occ) by (rewrite map_map; reflexivity).
  assert (PF : Permutation (map fst occ) (seq 0 (S mx))) by (rewrite PO, map_map; cbn [fst]; rewrite map_id; auto).
  split; [|split; [|split; [|split]]].
  - intros f x H. apply in_map_iff in H as [[g c] [E I]]. cbn [fst snd] in E. injection E as -> <-.
    apply (Permutation_in _ PO) in I. apply in_map_iff in I as [g [E _]]. injection E as -> <-. fold (cnt f). field. lra.
  - rewrite EF. apply (Permutation_NoDup (Permutation_sym PF)), seq_NoDup.
  - intros f. rewrite EF. split; intros H.
    + apply (Permutation_in _ PF) in H. apply in_seq in H. lia.
    + apply (Permutation_in _ (Permutation_sym PF)). apply in_seq. lia.
  - rewrite map_length. intros i j [H1 H2].
    rewrite (nth_map_lt _ _ _ (0, 0)) by auto. rewrite (nth_map_lt _ _ _ (0, 0)) by lia. cbn [snd].
    assert (SS : StronglySorted (fun a b => r a b = true) occ).
    { apply isort_sorted. split.
      - intros x y. unfold r. rewrite !Nat.leb_le. lia.
      - intros x y z. unfold r. rewrite !Nat.leb_le. lia. }
    assert (snd (nth j occ (0, 0)) <= snd (nth i occ (0, 0))).
    { clear -SS H1 H2. revert i j H1 H2. induction SS as [|x l SS IH F]; intros i j H1 H2; [simpl in H2; lia|].
      destruct j; [lia|]. simpl in H2. destruct i; simpl.
      - rewrite Forall_forall in F. apply Nat.leb_le. apply F. apply nth_In. lia.
      - apply IH; lia. }
    apply Qmult_le_compat_r; [|discriminate]. unfold Qdiv. apply Qmult_le_compat_r; [|apply Qlt_le_weak, Qinv_lt_0_compat; auto].
    rewrite <- Zle_Qle. lia.
  - assert (G : forall l : list (nat * nat), (fold_right Qplus 0 (map snd (map (fun p => (fst p, (inject_Z (Z.of_nat (snd p)) / N * 100)%Q)) l)) == inject_Z (Z.of_nat (list_sum (map snd l))) / N * 100)%Q).
    { induction l as [|x l IH]; cbn [map fold_right snd fst list_sum].
      - field. lra.
      - rewrite IH. change (list_sum (snd x :: map snd l)) with (snd x + list_sum (map snd l)). fold (list_sum (map snd l)). rewrite Nat2Z.inj_add, inject_Z_plus. field. lra. }
    rewrite G, ES. fold N. field. lra.
Qed.

(** Features above the largest one that occurs are not reported at all. *)
Theorem frequencies_missing_refuted : forall s, sound total n_features s -> occurring s <> [] ->
  ~ In (total - 1) (occurring s) -> exists f, f < total /\ ~ In f (map fst (feature_frequencies total s)).
Proof.
  intros s S0 NE HN. destruct (frequencies_meaning S0 NE) as [_ [_ [H _]]]. exists (total - 1).
  pose proof (list_max_in NE) as I. pose proof (occurring_bound _ S0 I) as HB. split; [lia|].
  intros C. apply H in C. assert (E : list_max (occurring s) = total - 1) by lia. rewrite E in I. auto.
Qed.

(** What is recorded for each generation: its number, the maximum and the mean of the scores of the population at
    its start, and the homogeneity. *)
Lemma maxq_spec : forall l x, (x <= maxq x l)%Q /\ (forall y, In y l -> (y <= maxq x l)%Q) /\ In (maxq x l) (x :: l).
Proof.
  induction l as [|y l IH]; intros x; cbn [maxq]; [split; [apply Qle_refl|split; [intros y []|left; reflexivity]]|].
  destruct (Qle_bool x y) eqn:E.
  - apply Qle_bool_iff in E. destruct (IH y) as (H1 & H2 & H3). split; [eapply Qle_trans; eauto|]. split; [intros z [<-|HZ]; auto|right; exact H3].
  - assert (HX : (y <= x)%Q). { apply Qlt_le_weak. apply Qnot_le_lt. intros C. apply Qle_bool_iff in C. congruence. }
    destruct (IH x) as (H1 & H2 & H3). split; [exact H1|]. split; [intros z [<-|HZ]; auto; eapply Qle_trans; eauto|].
    destruct H3 as [H3|H3]; [left; exact H3|right; right; exact H3].
Qed.
Theorem evolution_statistics : forall ds s0 s rows, evolve ds s0 = Ok (s, rows) ->
  length rows = length ds /\
  forall k, k < length ds -> exists sk rows_k (mx mean : Q),
    evolve (firstn k ds) s0 = Ok (sk, rows_k) /\ nth_error rows k = Some (k, mx, mean, homogeneity as_set total sk) /\
    (* the maximum is attained, and no score is larger *)
    (exists e, In e (pop sk) /\ e_score e = mx) /\ (forall e, In e (pop sk) -> (e_score e <= mx)%Q) /\
    (* the mean times the size of the population is the sum of the scores *)
    (mean * inject_Z (Z.of_nat (length (pop sk))) == fold_right Qplus 0 (map e_score (pop sk)))%Q.
Proof.
  intros ds s0 s rows.
  assert (G : forall i s0 s rows, GAFSModel.evolve score as_set total offspring_size i ds s0 = Ok (s, rows) ->
    length rows = length ds /\
    forall k, k < length ds -> exists sk rows_k (mx mean : Q),
      GAFSModel.evolve score as_set total offspring_size i (firstn k ds) s0 = Ok (sk, rows_k) /\ nth_error rows k = Some (i + k, mx, mean, homogeneity as_set total sk) /\
      (exists e, In e (pop sk) /\ e_score e = mx) /\ (forall e, In e (pop sk) -> (e_score e <= mx)%Q) /\
      (mean * inject_Z (Z.of_nat (length (pop sk))) == fold_right Qplus 0 (map e_score (pop sk)))%Q).
  { clear s0 s rows. induction ds as [|d ds IH]; intros i s0 s rows H; cbn [GAFSModel.evolve] in H.
    { injection H as <- <-. split; [reflexivity|cbn; lia]. }
    destruct (max_population_fitness (pop s0)) as [mx|] eqn:EX; [|discriminate]. cbn [bind] in H.
    destruct (crossover d s0) as [t1|] eqn:E1; [|discriminate]. cbn [bind] in H.
    destruct (mutate d t1) as [t2|] eqn:E2; [|discriminate]. cbn [bind] in H.
    destruct (GAFSModel.evolve score as_set total offspring_size (S i) ds t2) as [[t3 rows']|] eqn:E3; [|discriminate]. cbn [bind fst snd] in H.
    injection H as <- <-. destruct (IH _ _ _ _ E3) as (HL & HI). cbn [length]. split; [congruence|]. intros [|k] HK.
    - cbn [firstn GAFSModel.evolve nth_error]. exists s0, [], mx, (mean_population_fitness (pop s0)). split; [reflexivity|]. rewrite Nat.add_0_r. split; [reflexivity|].
      unfold max_population_fitness in EX. destruct (pop s0) as [|e p] eqn:EP; [discriminate|]. cbn [map] in EX. injection EX as <-.
      destruct (maxq_spec (map e_score p) (e_score e)) as (H1 & H2 & H3). split; [|split].
      + destruct H3 as [H3|H3]; [exists e; split; [left; reflexivity|exact H3]|]. apply in_map_iff in H3. destruct H3 as (e' & HE & HI'). exists e'. split; [right; exact HI'|exact HE].
      + intros e' [<-|HE]; [exact H1|]. apply H2, in_map, HE.
      + unfold mean_population_fitness. set (n := inject_Z _). assert (HN : ~ (n == 0)%Q).
        { unfold n. cbn [length]. intros C. unfold Qeq in C. cbn in C. lia. }
        field. exact HN.
    - destruct (HI k ltac:(lia)) as (sk & rk & mk & ek & HE & HR & HM). exists sk, ((i, mx, mean_population_fitness (pop s0), homogeneity as_set total s0) :: rk), mk, ek.
      split; [|split; [|exact HM]].
      + cbn [firstn GAFSModel.evolve]. rewrite EX. cbn [bind]. rewrite E1. cbn [bind]. rewrite E2. cbn [bind]. rewrite HE. reflexivity.
      + cbn [nth_error]. replace (i + S k) with (S i + k) by lia. exact HR. }
  intros H. exact (G 0 s0 s rows H).
Qed.

(** The weights of the parents are lowered if the scores are between zero and one. *)
Theorem weights_lowered : forall s k p, (forall e, In e (pop s) -> 0 <= e_weight e /\ 0 <= e_score e <= 1)%Q ->
  lower_weights k (population_percentile (pop s)) (pop s) = Ok p ->
  Forall2 (fun e' e => (e_gene e' = e_gene e /\ e_score e' = e_score e) /\ 0 <= e_weight e' <= e_weight e)%Q p (pop s).
Proof.
  intros s k p H L. assert (PU : (0 <= population_percentile (pop s) <= 1)%Q).
  { apply percentile_unit. apply Forall_forall. intros x Hx. apply in_map_iff in Hx as [e [<- He]]. apply H; auto. }
  set (x := population_percentile (pop s)) in *. clearbody x. unfold lower_weights in L.
  destruct (Nat.ltb_spec (length (pop s)) k); [discriminate|]. injection L as <-.
  clear H0. revert k. induction (pop s) as [|e t IH]; intros k; [rewrite firstn_nil, skipn_nil; constructor|].
  destruct (H e (or_introl eq_refl)) as [H1 H2]. destruct k.
  - simpl. constructor; [repeat split; auto; apply Qle_refl|]. apply (IH (fun e He => H e (or_intror He)) 0).
  - simpl. constructor; [|apply IH; intros; apply H; right; auto]. cbn. repeat split; auto.
    + apply Qmult_le_0_compat; tauto.
    + assert (0 <= e_weight e * (1 - x))%Q by (apply Qmult_le_0_compat; lra). lra.
Qed.
End Main.

(** ** Concrete runs *)
(** A deterministic source of random numbers: nothing is shuffled, the first candidates are chosen, the first [k]
    members are mutated at their first position. *)
Definition d0 (p k : nat) : draws :=
  Draws (fun _ l => l) (fun _ l => l) (fun _ c k => firstn k c) k (fun i => min i (p - 1)) (fun _ => 0) (fun _ c => hd 0 c).

Lemma d0_random p n k : p <> 0 -> n <> 0 -> random p n (d0 p k).
Proof.
  intros Hp Hn. constructor; cbn; auto; try lia.
  - intros i c q N L. repeat split.
    + apply firstn_length_le; auto.
    + rewrite <- (firstn_skipn q c) in N. apply NoDup_app_inv in N. tauto.
    + intros x Hx. eapply firstn_In; eauto.
  - intros i c Hc. destruct c; [congruence|left; auto].
Qed.

Lemma nodup_set_order : set_order (nodup Nat.eq_dec).
Proof. intros l. split; [apply NoDup_nodup|]. intros x. apply nodup_In. Qed.

Definition tenth (c : list nat) : Q := (Z.of_nat (list_sum c) # 10)%Q.
Definition negative (c : list nat) : Q := (Z.of_nat (list_sum c) - 10 # 10)%Q.

Lemma list_sum_permutation l1 l2 : Permutation l1 l2 -> list_sum l1 = list_sum l2.
Proof. induction 1; simpl; lia. Qed.

Lemma tenth_order_independent : order_independent tenth.
Proof. intros a b P. unfold tenth. rewrite (list_sum_permutation P). auto. Qed.

Definition start (score : list nat -> Q) : result ga := create score 4 2 4 (fun l => l) (fun l => rev l).
Definition run (score : list nat -> Q) (ds : list draws) : result (ga * list (nat * Q * Q * Q)) :=
  bind (start score) (evolve score (nodup Nat.eq_dec) 4 2 0 ds).

Example run_example : exists s rows, run tenth [d0 4 0; d0 4 0] = Ok (s, rows) /\
  map (chromosome_of s) (pop s) = [[2; 3]; [1; 3]; [2; 3]; [1; 2]] /\ map e_score (pop s) = [5 # 10; 4 # 10; 5 # 10; 3 # 10]%Q /\
  map fst (feature_frequencies 4 s) = [2; 3; 1; 0] /\ map (fun p => Qred (snd p)) (feature_frequencies 4 s) = [75 # 2; 75 # 2; 25; 0]%Q.
Proof. eexists. eexists. split; [vm_compute; reflexivity|]. vm_compute. auto. Qed.

(** After a mutation the recorded scores, and with them the reported maximum, belong to chromosomes
    that are no longer in the population; the best chromosome of the first population is lost. *)
Theorem stale_scores_refuted : exists s0 ds s rows, start tenth = Ok s0 /\ Forall (random 4 2) ds /\
  evolve tenth (nodup Nat.eq_dec) 4 2 0 ds s0 = Ok (s, rows) /\
  (exists e, In e (pop s) /\ ~ e_score e == tenth (chromosome_of s e))%Q /\
  (exists m, max_population_fitness (pop s) = Ok m /\ forall e, In e (pop s) -> tenth (chromosome_of s e) < m)%Q /\
  (exists e, In e (pop s0) /\ forall e', In e' (pop s) -> tenth (chromosome_of s e') < tenth (chromosome_of s0 e))%Q.
Proof.
  do 4 eexists. split; [vm_compute; reflexivity|]. split; [constructor; [apply (@d0_random 4 2 4); discriminate|constructor]|].
  split; [vm_compute; reflexivity|]. split; [|split].
  - eexists. split; [left; reflexivity|]. vm_compute. discriminate.
  - eexists. split; [vm_compute; reflexivity|]. intros e H. repeat (destruct H as [<-|H]; [vm_compute; reflexivity|]). destruct H.
  - eexists. split; [left; reflexivity|]. intros e' H. repeat (destruct H as [<-|H]; [vm_compute; reflexivity|]). destruct H.
Qed.

(** The lists drawn at the start are those of the population: a later call returns lists that a mutation has changed. *)
Theorem shared_combinations_refuted : exists s0 ds s rows, start tenth = Ok s0 /\ Forall (random 4 2) ds /\
  evolve tenth (nodup Nat.eq_dec) 4 2 0 ds s0 = Ok (s, rows) /\
  let r := random_genes 4 2 (fun l => l) (fun l => l) 6 s in
  ~ NoDup (map (cell (heap (fst r))) (snd r)).
Proof.
  do 4 eexists. split; [vm_compute; reflexivity|]. split; [constructor; [apply (@d0_random 4 2 4); discriminate|constructor]|].
  split; [vm_compute; reflexivity|]. cbv zeta. intros N.
  assert (C : 4 = 5) by (apply (proj1 (NoDup_nth _ []) N); vm_compute; auto; do 5 constructor). discriminate.
Qed.

(** With negative scores the weights of the parents are raised. *)
Theorem weights_lowered_refuted : exists s p, start negative = Ok s /\ lower_weights 3 (population_percentile (pop s)) (pop s) = Ok p /\
  Forall2 (fun e' e => e_weight e < e_weight e')%Q (firstn 3 p) (firstn 3 (pop s)) /\
  (* the best parent now stands last *)
  (exists a b c, map e_weight (firstn 3 p) = [a; b; c] /\ a < b /\ b < c)%Q.
Proof.
  do 2 eexists. split; [vm_compute; reflexivity|]. split; [vm_compute; reflexivity|]. split.
  - vm_compute. repeat constructor.
  - do 3 eexists. split; [vm_compute; reflexivity|]. vm_compute. auto.
Qed.

(** The population is larger than the number of offspring, and yet the crossover fails. *)
Example crossover_fails_case : exists s0, start tenth = Ok s0 /\ length (pop s0) = 4 /\
  crossover tenth (nodup Nat.eq_dec) 4 3 (d0 4 0) s0 = Err IndexError.
Proof. eexists. split; [vm_compute; reflexivity|]. split; reflexivity. Qed.

(** Pascal's triangle *)
Fixpoint binomial (n k : nat) : nat :=
  match k, n with
  | 0, _ => 1
  | S _, 0 => 0
  | S k', S n' => binomial n' k' + binomial n' k
  end.

(** The number of sets that can be drawn is the binomial coefficient. *)
Theorem number_of_combinations : forall k l, length (unique_set l k) = binomial (length l) k.
Proof.
  unfold unique_set. intros k l. revert k. induction l as [|x l IH]; intros [|k]; cbn; auto.
  rewrite app_length, map_length, !IH. reflexivity.
Qed.
Example number_of_combinations_case : length (unique_set (seq 0 5) 2) = 10.
Proof. rewrite number_of_combinations. reflexivity. Qed.

Print Assumptions number_of_combinations.
Print Assumptions random_genes_distinct.
Print Assumptions chromosomes_valid.
Print Assumptions first_offspring_refuted.
Print Assumptions offspring_features.
Print Assumptions crossover_scores.
Print Assumptions mutation_keeps_scores_refuted.
Print Assumptions stale_scores_refuted.
Print Assumptions best_fitness_kept.
Print Assumptions evolution_statistics.
Print Assumptions crossover_succeeds.
Print Assumptions crossover_fails_refuted.
Print Assumptions homogeneity_meaning.
Print Assumptions frequencies_meaning.
Print Assumptions frequencies_missing_refuted.
Print Assumptions weights_lowered.
Print Assumptions weights_lowered_refuted.
Print Assumptions shared_combinations_refuted.
