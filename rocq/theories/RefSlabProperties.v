(** Finding adsorbate atoms by comparison with a reference slab. *)
From Coq Require Import Reals Lra List Arith Bool Lia Permutation Sorting.Sorted.
From Verif Require Import Base BaseFacts RBase RefSlabModel.
Import ListNotations.
Local Open Scope nat_scope.

(** The atoms of element [s] in an index list. *)
Definition of_element (symbols : list nat) (s : nat) (l : list nat) : list nat := filter (fun i => nth i symbols 0 =? s) l.
(** Distance of an atom to the nearest slab atom of its element. *)
Definition nearest (dist : nat -> nat -> R) (symbols slab : list nat) (i : nat) (d : R) : Prop :=
  (exists j, j < length slab /\ nth j slab 0 = nth i symbols 0 /\ d = dist i j) /\
  (forall j, j < length slab -> nth j slab 0 = nth i symbols 0 -> (d <= dist i j)%R).

Lemma indices_in s l i : In i (indices_of s l) <-> i < length l /\ nth i l 0 = s.
Proof. unfold indices_of. rewrite filter_In, in_seq, Nat.eqb_eq. intuition lia. Qed.
Lemma indices_nodup s l : NoDup (indices_of s l).
Proof. apply NoDup_filter, seq_NoDup. Qed.
Lemma indices_length s l : length (indices_of s l) = occurrences s l.
Proof.
  unfold indices_of, occurrences. transitivity (length (filter (Nat.eqb s) (map (fun i => nth i l 0) (seq 0 (length l))))).
  - generalize (seq 0 (length l)). intros q. induction q; cbn; [auto|]. rewrite Nat.eqb_sym. destruct (s =? nth a l 0); cbn; auto.
  - f_equal. f_equal. apply nth_ext with (d := 0) (d' := 0); [rewrite map_length, seq_length; auto|].
    intros n Hn. rewrite map_length, seq_length in Hn. rewrite (nth_map_lt _ _ _ 0) by (rewrite seq_length; auto). rewrite seq_nth by auto. reflexivity.
Qed.
Lemma of_indices symbols s s' : of_element symbols s (indices_of s' symbols) = if s =? s' then indices_of s symbols else [].
Proof.
  unfold of_element, indices_of. destruct (Nat.eqb_spec s s') as [->|E]; generalize (seq 0 (length symbols)); intros q; induction q; cbn; auto.
  - destruct (nth a symbols 0 =? s') eqn:E; cbn; rewrite ?E, ?IHq; auto.
  - destruct (Nat.eqb_spec (nth a symbols 0) s') as [E1|E1]; cbn; auto. destruct (Nat.eqb_spec (nth a symbols 0) s); [congruence|auto].
Qed.
Lemma of_app symbols s a b : of_element symbols s (a ++ b) = of_element symbols s a ++ of_element symbols s b.
Proof. apply filter_app. Qed.

(** Elements with as many atoms as the species. *)
Lemma all_of_part symbols comp s : forall todo,
  of_element symbols s (flat_map (fun s' => if occurrences s' comp =? occurrences s' symbols then indices_of s' symbols else []) todo) =
  if occurrences s comp =? occurrences s symbols then concat (repeat (indices_of s symbols) (occurrences s todo)) else [].
Proof.
  unfold occurrences at 5. induction todo as [|t todo IH]; [cbn; destruct (_ =? _); auto|]. cbn [flat_map]. rewrite of_app, IH. clear IH.
  destruct (Nat.eqb_spec t s) as [->|E].
  - cbn [filter]. rewrite Nat.eqb_refl. destruct (_ =? _); cbn [length repeat concat]; [|reflexivity]. rewrite of_indices, Nat.eqb_refl. reflexivity.
  - cbn [filter]. destruct (Nat.eqb_spec s t) as [->|_]; [congruence|].
    destruct (occurrences t comp =? occurrences t symbols); [|reflexivity]. rewrite of_indices. destruct (Nat.eqb_spec s t); [congruence|reflexivity].
Qed.

(** What [farthest] returns. *)
Lemma skipn_last_spec (l : list (R * nat)) k : StronglySorted (fun a b => (fst a <= fst b)%R) l ->
  forall a b, In a (firstn (length l - k) l) -> In b (skipn (length l - k) l) -> (fst a <= fst b)%R.
Proof.
  intros HS a b Ha Hb. rewrite <- (firstn_skipn (length l - k) l) in HS. revert HS Ha Hb.
  generalize (firstn (length l - k) l), (skipn (length l - k) l). intros p q HS Ha Hb. induction p as [|x p IH]; [destruct Ha|].
  cbn in HS. inversion HS as [|? ? HS' HF]; subst. destruct Ha as [<-|Ha]; [|auto]. rewrite Forall_forall in HF. apply HF, in_or_app. auto.
Qed.

Lemma fst_preorder : total_preorder (fun a b : R * nat => Rleb (fst a) (fst b)).
Proof. split; intros; rewrite ?Rleb_true in *; try destruct (Rle_lt_dec (fst a) (fst b)); try lra; rewrite ?Rleb_true; auto; right; rewrite ?Rleb_true; lra. Qed.

Lemma farthest_spec dist symbols slab s k new : farthest dist symbols slab s k = Ok new ->
  NoDup new /\ (forall i, In i new -> In i (indices_of s symbols)) /\ length new = Nat.min k (occurrences s symbols) /\
  forall i j di dj, In i new -> In j (indices_of s symbols) -> ~ In j new ->
    nearest dist symbols slab i di -> nearest dist symbols slab j dj -> (dj <= di)%R.
Proof.
  unfold farthest. intros H. set (A := indices_of s symbols) in *. set (B := indices_of s slab) in *.
  assert (HB : B <> []) by (destruct B; [discriminate|discriminate]).
  set (dev := fun i => lmin (map (dist i) B)).
  set (L := combine (map dev A) (seq 0 (length A))). set (S0 := isort (fun a b : R * nat => Rleb (fst a) (fst b)) L).
  assert (H' : new = map (fun p => nth p A 0) (skipn (length (map snd S0) - k) (map snd S0))) by (destruct B; [congruence|]; injection H as <-; reflexivity).
  clear H. rewrite map_length in H'.
  assert (LL : length L = length A) by (unfold L; rewrite combine_length, map_length, seq_length; lia).
  assert (LS : length S0 = length A) by (unfold S0; rewrite isort_length; auto).
  assert (PS : Permutation (map snd S0) (seq 0 (length A))).
  { transitivity (map snd L); [apply Permutation_map; unfold S0; apply isort_perm|]. unfold L. rewrite map_combine_snd by (rewrite map_length, seq_length; auto). reflexivity. }
  assert (NS : NoDup (map snd S0)) by (eapply Permutation_NoDup; [symmetry; exact PS|apply seq_NoDup]).
  assert (IL : forall p, In p S0 -> snd p < length A /\ fst p = dev (nth (snd p) A 0)).
  { intros p Hp. apply isort_in in Hp. unfold L in Hp. destruct (In_nth _ _ (0%R, 0) Hp) as (q & Q1 & Q2). fold L in Q1. rewrite LL in Q1.
    rewrite combine_nth in Q2 by (rewrite map_length, seq_length; auto). rewrite seq_nth in Q2 by auto. cbn in Q2.
    rewrite (nth_indep _ _ (dev 0)) in Q2 by (rewrite map_length; auto). rewrite map_nth in Q2. subst p. cbn. auto. }
  set (m := length S0 - k) in *. rewrite skipn_map in H'. 
  assert (NSk : NoDup (map snd (skipn m S0))).
  { rewrite <- (firstn_skipn m S0), map_app in NS. clear - NS. induction (map snd (firstn m S0)); [auto|]. cbn in NS. inversion NS; auto. }
  assert (NDA : NoDup A) by apply indices_nodup.
  assert (IN : forall i, In i new <-> exists p, In p (skipn m S0) /\ nth (snd p) A 0 = i).
  { intros i. rewrite H', map_map, in_map_iff. split; intros (p & P1 & P2); exists p; auto. }
  assert (sub : forall p, In p (skipn m S0) -> In p S0) by (intros p Hp; rewrite <- (firstn_skipn m S0); apply in_or_app; auto).
  split; [|split; [|split]].
  - rewrite H', map_map. clear - NSk NDA IL sub. induction (skipn m S0) as [|p t IH]; [constructor|]. cbn in *. inversion NSk as [|? ? N1 N2]; subst.
    constructor; [|apply IH; auto]. intros Q. apply in_map_iff in Q. destruct Q as (q & Q1 & Q2). apply N1.
    rewrite (proj1 (NoDup_nth A 0) NDA (snd p) (snd q)); [apply in_map; auto| | |auto]; apply IL; auto.
  - intros i Hi. apply IN in Hi. destruct Hi as (p & P1 & <-). apply nth_In, IL; auto.
  - rewrite H', !map_length, skipn_length. unfold m. rewrite LS. unfold A. rewrite indices_length. lia.
  - intros i j di dj Hi Hj Hn Di Dj. apply IN in Hi. destruct Hi as (p & P1 & P2).
    destruct (In_nth _ _ 0 Hj) as (q & Q1 & Q2).
    assert (Iq : In q (map snd S0)) by (apply (Permutation_in _ (Permutation_sym PS)), in_seq; lia).
    apply in_map_iff in Iq. destruct Iq as (pq & E1 & E2).
    assert (F : In pq (firstn m S0)).
    { rewrite <- (firstn_skipn m S0) in E2. apply in_app_or in E2. destruct E2 as [|E2]; [auto|]. exfalso. apply Hn, IN. exists pq. split; [auto|]. rewrite E1. auto. }
    assert (HS : StronglySorted (fun a b : R * nat => (fst a <= fst b)%R) S0).
    { pose proof (isort_sorted fst_preorder L) as Q. fold S0 in Q. clear - Q. induction Q as [|a l Q IH HF]; constructor; [auto|]. eapply Forall_impl; [|exact HF]. intros b Hb. apply Rleb_true. exact Hb. }
    pose proof (skipn_last_spec S0 k HS pq p F P1) as LE.
    destruct (IL p (sub _ P1)) as [_ V1]. destruct (IL pq) as [_ V2]; [rewrite <- (firstn_skipn m S0); apply in_or_app; auto|].
    rewrite V1, V2, P2 in LE. rewrite E1, Q2 in LE.
    assert (U : forall x d, In x A -> nearest dist symbols slab x d -> d = dev x).
    { intros x d Hx [(j0 & J1 & J2 & J3) J4]. apply indices_in in Hx. destruct Hx as [_ Hx]. unfold dev.
      assert (M1 : In (lmin (map (dist x) B)) (map (dist x) B)) by (apply lmin_in; destruct B; [congruence|discriminate]).
      apply in_map_iff in M1. destruct M1 as (b & B1 & B2). apply indices_in in B2. apply Rle_antisym.
      - rewrite <- B1. apply J4; [apply B2|rewrite Hx; apply B2].
      - rewrite J3. apply lmin_le, in_map, indices_in. split; [auto|congruence]. }
    rewrite (U i di), (U j dj); auto. rewrite <- P2. apply nth_In, IL; auto.
Qed.

Lemma farthest_of dist symbols slab s k new s' : farthest dist symbols slab s k = Ok new -> of_element symbols s' new = if s' =? s then new else [].
Proof.
  intros H. destruct (farthest_spec _ _ _ _ _ _ H) as (_ & HI & _). unfold of_element.
  assert (Q : forall i, In i new -> nth i symbols 0 = s) by (intros i Hi; apply HI, indices_in in Hi; tauto). clear HI H.
  induction new as [|i t IH]; [destruct (s' =? s); auto|]. cbn. rewrite (Q i) by (left; auto).
  rewrite IH by (intros; apply Q; right; auto). rewrite (Nat.eqb_sym s s'). destruct (s' =? s); reflexivity.
Qed.

Lemma none_of symbols s l : existsb (fun i => nth i symbols 0 =? s) l = false <-> of_element symbols s l = [].
Proof.
  unfold of_element. induction l as [|i t IH]; cbn; [tauto|]. destruct (nth i symbols 0 =? s); cbn; [|exact IH]. split; discriminate.
Qed.

Lemma add_symbols_part dist symbols slab comp s : forall todo ads r, add_symbols dist symbols slab comp todo ads = Ok r ->
  (of_element symbols s ads <> [] -> of_element symbols s r = of_element symbols s ads) /\
  (of_element symbols s ads = [] -> ~ In s todo -> of_element symbols s r = []) /\
  (of_element symbols s ads = [] -> In s todo -> exists new, farthest dist symbols slab s (occurrences s comp) = Ok new /\ of_element symbols s r = new).
Proof.
  induction todo as [|t todo IH]; intros ads r H; cbn [add_symbols] in H.
  - injection H as <-. split; [auto|]. split; [auto|]. intros _ [].
  - destruct (existsb (fun i => nth i symbols 0 =? t) ads) eqn:E.
    + destruct (IH _ _ H) as (I1 & I2 & I3). split; [auto|]. split; [intros A B; apply I2; auto; intros C; apply B; right; auto|].
      intros A [->|B]; [|auto]. apply none_of in A. congruence.
    + destruct (farthest dist symbols slab t (occurrences t comp)) as [new|] eqn:EF; [|discriminate]. cbn [bind] in H.
      destruct (IH _ _ H) as (I1 & I2 & I3). rewrite of_app, (farthest_of _ _ _ _ _ _ s EF) in I1, I2, I3.
      destruct (Nat.eqb_spec s t) as [->|NE].
      * apply none_of in E. rewrite E in *. cbn [app] in *. split; [congruence|]. split; [intros _ Q; exfalso; apply Q; left; auto|].
        intros _ _. exists new. split; [auto|]. destruct new as [|x new]; [|apply I1; discriminate].
        destruct (in_dec Nat.eq_dec t todo) as [IT|IT]; [|auto]. destruct (I3 eq_refl IT) as (n2 & N1 & N2). congruence.
      * rewrite app_nil_r in *. split; [auto|]. split; [intros A B; apply I2; auto; intros C; apply B; right; auto|].
        intros A [->|B]; [congruence|auto].
Qed.

(** What the function returns for each element of the species: every atom of that element
    when the numbers agree, as often as the element is repeated; otherwise as many atoms as
    the species has (or all there are), and these are farthest from the slab. *)
Theorem reference_atoms : forall dist symbols slab comp r, slab_positions2ads_index dist symbols slab comp = Ok r ->
  (forall i, In i r -> i < length symbols /\ In (nth i symbols 0) comp) /\
  forall s, In s comp -> let c := occurrences s comp in let n := occurrences s symbols in let l := of_element symbols s r in
    (c = n -> l = concat (repeat (indices_of s symbols) c)) /\
    (c <> n -> NoDup l /\ length l = Nat.min c n /\
       forall i j di dj, In i l -> j < length symbols -> nth j symbols 0 = s -> ~ In j l ->
         nearest dist symbols slab i di -> nearest dist symbols slab j dj -> (dj <= di)%R).
Proof.
  intros dist symbols slab comp r H. unfold slab_positions2ads_index in H.
  assert (P : forall s, of_element symbols s (all_of_symbol symbols comp) =
    if occurrences s comp =? occurrences s symbols then concat (repeat (indices_of s symbols) (occurrences s comp)) else []) by (intros s; apply all_of_part).
  split.
  - intros i Hi. set (s := nth i symbols 0).
    assert (M : In i (of_element symbols s r)) by (apply filter_In; split; [auto|apply Nat.eqb_refl]).
    destruct (add_symbols_part dist symbols slab comp s _ _ _ H) as (I1 & I2 & I3). specialize (P s).
    destruct (in_dec Nat.eq_dec s comp) as [IC|IC].
    + split; [|exact IC]. destruct (of_element symbols s (all_of_symbol symbols comp)) as [|x t] eqn:E.
      * destruct (I3 eq_refl IC) as (new & N1 & N2). rewrite N2 in M. destruct (farthest_spec _ _ _ _ _ _ N1) as (_ & Q & _). apply Q, indices_in in M. tauto.
      * rewrite I1 in M by discriminate. rewrite P in M. destruct (_ =? _); [|destruct M]. apply in_concat in M. destruct M as (y & Y1 & Y2).
        apply repeat_spec in Y1. subst y. apply indices_in in Y2. tauto.
    + exfalso. assert (Z : occurrences s comp = 0).
      { unfold occurrences. destruct (filter (Nat.eqb s) comp) as [|x t] eqn:E; [auto|]. exfalso. assert (In x (filter (Nat.eqb s) comp)) by (rewrite E; left; auto).
        apply filter_In in H0. destruct H0 as [H1 H2]. apply Nat.eqb_eq in H2. congruence. }
      rewrite Z in P. cbn in P. assert (P0 : of_element symbols s (all_of_symbol symbols comp) = []) by (destruct (occurrences s symbols); exact P).
      rewrite (I2 P0 IC) in M. destruct M.
  - intros s Hs c n l. destruct (add_symbols_part dist symbols slab comp s _ _ _ H) as (I1 & I2 & I3). specialize (P s). fold c n in P. split.
    + intros E. assert (E' := E). apply Nat.eqb_eq in E. rewrite E in P. unfold l. rewrite <- P. apply I1. rewrite P.
      assert (C0 : 0 < c). { unfold c, occurrences. apply in_split in Hs. destruct Hs as (a & b & ->). rewrite filter_app. cbn. rewrite Nat.eqb_refl, app_length. cbn. lia. }
      intros Q. apply (f_equal (@length nat)) in Q. pose proof (indices_length s symbols) as LI. fold n in LI.
      destruct c as [|c']; [lia|]. cbn [repeat concat length] in Q. rewrite app_length, LI in Q. lia.
    + intros E. apply Nat.eqb_neq in E. rewrite E in P. destruct (I3 P Hs) as (new & N1 & N2). fold l in N2. rewrite N2.
      destruct (farthest_spec _ _ _ _ _ _ N1) as (F1 & F2 & F3 & F4). split; [auto|]. split; [exact F3|].
      intros i j di dj Hi Hj Ej Hn. apply F4; auto. apply indices_in. auto.
Qed.

(** For a species without repeated elements, each of which the structure contains, no atom is
    returned twice and the returned atoms have the composition of the species. *)
Theorem reference_composition_partial : forall dist symbols slab comp r, slab_positions2ads_index dist symbols slab comp = Ok r ->
  NoDup comp -> (forall s, In s comp -> In s symbols) -> NoDup r /\ Permutation (map (fun i => nth i symbols 0) r) comp.
Proof.
  intros dist symbols slab comp r H ND HA. destruct (reference_atoms _ _ _ _ _ H) as [R1 R2].
  assert (C1 : forall s, In s comp -> occurrences s comp = 1).
  { intros s Hs. apply in_split in Hs. destruct Hs as (a & b & ->). apply NoDup_remove in ND. unfold occurrences. rewrite filter_app. cbn. rewrite Nat.eqb_refl.
    assert (Z : forall q, ~ In s q -> filter (Nat.eqb s) q = []).
    { intros q Hq. induction q as [|x q IH]; cbn; [auto|]. destruct (Nat.eqb_spec s x) as [<-|]; [exfalso; apply Hq; left; auto|]. apply IH. intros Q; apply Hq; right; auto. }
    rewrite !Z; [reflexivity|intros Q; apply ND, in_or_app; auto|intros Q; apply ND, in_or_app; auto]. }
  assert (one : forall s, In s comp -> exists i, of_element symbols s r = [i]).
  { intros s Hs. destruct (R2 s Hs) as [E1 E2]. rewrite (C1 s Hs) in *.
    assert (N : 1 <= occurrences s symbols).
    { specialize (HA s Hs). apply In_nth with (d := 0) in HA. destruct HA as (k & K1 & K2). rewrite <- indices_length.
      assert (I : In k (indices_of s symbols)) by (apply indices_in; auto). destruct (indices_of s symbols); [destruct I|cbn; lia]. }
    assert (L : length (of_element symbols s r) = 1).
    { destruct (Nat.eq_dec 1 (occurrences s symbols)) as [E|E].
      - rewrite E1 by exact E. cbn. rewrite app_nil_r, indices_length. auto.
      - destruct (E2 E) as (_ & L & _). rewrite L. lia. }
    destruct (of_element symbols s r) as [|i [|]]; try discriminate. eauto. }
  split.
  - assert (Q : forall q, (forall i, In i q -> In (nth i symbols 0) comp) -> (forall s, In s comp -> length (of_element symbols s q) <= 1) -> NoDup q).
    { induction q as [|i q IH]; intros A B; constructor.
      - intros I. specialize (B _ (A i (or_introl eq_refl))). unfold of_element in B. cbn in B. rewrite Nat.eqb_refl in B. cbn in B.
        assert (J : In i (filter (fun j => nth j symbols 0 =? nth i symbols 0) q)) by (apply filter_In; split; [auto|apply Nat.eqb_refl]).
        destruct (filter _ q); [destruct J|cbn in B; lia].
      - apply IH; [intros; apply A; right; auto|]. intros s Hs. specialize (B s Hs). unfold of_element in *. cbn in B. destruct (_ =? _); cbn in *; lia. }
    apply Q; [apply R1|]. intros s Hs. destruct (one s Hs) as [i ->]. cbn. lia.
  - apply (Permutation_count_occ Nat.eq_dec). intros s.
    assert (CO : forall q : list nat, count_occ Nat.eq_dec q s = length (filter (fun x => x =? s) q)).
    { induction q as [|x q IH]; cbn; [auto|]. destruct (Nat.eq_dec x s) as [->|E]; [rewrite Nat.eqb_refl; cbn; auto|]. apply Nat.eqb_neq in E. rewrite E. auto. }
    assert (CM : length (filter (fun x => x =? s) (map (fun i => nth i symbols 0) r)) = length (of_element symbols s r)).
    { unfold of_element. clear. induction r as [|i t IH]; cbn; [auto|]. destruct (_ =? _); cbn; auto. }
    rewrite CO, CM. destruct (in_dec Nat.eq_dec s comp) as [I|I].
    + destruct (one s I) as [i ->]. symmetry. apply NoDup_count_occ'; auto.
    + rewrite (proj1 (count_occ_not_In Nat.eq_dec comp s) I). destruct (of_element symbols s r) as [|i t] eqn:E; [reflexivity|]. exfalso. apply I.
      assert (J : In i (of_element symbols s r)) by (rewrite E; left; auto). apply filter_In in J. destruct J as [J1 J2]. apply Nat.eqb_eq in J2. rewrite <- J2. apply R1, J1.
Qed.

(** The final check of the composition never fails: the function returns or raises because the
    slab lacks an element. *)
Theorem reference_check_refuted : forall dist symbols slab comp, slab_positions2ads_index dist symbols slab comp <> Err AssertionError.
Proof.
  intros dist symbols slab comp. unfold slab_positions2ads_index. generalize (all_of_symbol symbols comp). generalize comp at 2.
  induction comp0 as [|s t IH]; intros ads; cbn [add_symbols]; [discriminate|]. destruct (existsb _ ads); [apply IH|].
  unfold farthest. destruct (indices_of s slab); cbn [bind]; [discriminate|apply IH].
Qed.

(** H2 on a slab without hydrogen: both atoms are returned twice.  CO with no carbon in the
    structure: only oxygen is returned. *)
Theorem reference_composition_refuted :
  (exists dist symbols slab comp r, slab_positions2ads_index dist symbols slab comp = Ok r /\ occurrences 1 symbols = occurrences 1 comp /\ ~ NoDup r) /\
  (exists dist symbols slab comp r, slab_positions2ads_index dist symbols slab comp = Ok r /\ length r < length comp).
Proof.
  split.
  - exists (fun _ _ => 0%R), [78; 1; 1], [78], [1; 1]. eexists. split; [reflexivity|]. split; [reflexivity|].
    cbn. intros N. inversion N as [|? ? N1 _]; subst. apply N1. right. left. reflexivity.
  - exists (fun _ _ => 0%R), [78; 8], [78; 6], [6; 8]. eexists. split; [reflexivity|]. cbn. lia.
Qed.

(** An oxygen atom added to an oxide surface. *)
Example reference_example : slab_positions2ads_index (fun i _ => if i =? 2 then 3%R else 0%R) [29; 8; 8] [29; 8] [8] = Ok [2].
Proof.
  unfold slab_positions2ads_index, all_of_symbol. cbn [flat_map occurrences filter Nat.eqb length app add_symbols existsb].
  unfold farthest. cbn [indices_of occurrences filter seq length nth Nat.eqb map combine lmin]. unfold lmin. cbn [fold_left fold_right].
  cbn [isort insert fst]. rewrite (proj2 (Rleb_true 0 3)) by lra. reflexivity.
Qed.

Print Assumptions reference_atoms.
Print Assumptions reference_composition_partial.
Print Assumptions reference_check_refuted.
Print Assumptions reference_composition_refuted.
