(** Properties of data attached to structures, of ASE neighbour lists and of particle
    vectors. *)
From Coq Require Import ZArith Reals Lra Lia String Ascii List Arith Bool Permutation Sorting.Sorted.
From Verif Require Import Base BaseFacts RBase ApiModel AtomsModel.
Import ListNotations.
Local Open Scope nat_scope.

(** ** Attached data *)
Section Attached.
Context {G V M : Type}.
Implicit Types (a : atoms G V M) (l : list (step G V)).

(** The value last set for a slot, and the last geometry *)
Fixpoint last_set (s : slot) l : option V :=
  match l with
  | [] => None
  | x :: t => match last_set s t with
              | Some v => Some v
              | None => match x with Set_ s' v => if slot_eqb s s' then Some v else None | _ => None end
              end
  end.
Fixpoint last_move (g : G) l : G :=
  match l with [] => g | Move g' :: t => last_move g' t | _ :: t => last_move g t end.

Lemma slot_eqb_spec s s' : reflect (s = s') (slot_eqb s s').
Proof. destruct s, s'; cbn; constructor; congruence. Qed.

Lemma sget_sput s s' (v : V) d : sget (sput d s' v) s = if slot_eqb s s' then Some v else sget d s.
Proof.
  induction d as [|[k w] t IH]; cbn [sput sget]; [reflexivity|]. destruct (slot_eqb_spec s' k) as [->|Hn]; cbn [sget].
  - destruct (slot_eqb s k); reflexivity.
  - rewrite IH. destruct (slot_eqb_spec s k) as [->|]; [|reflexivity]. destruct (slot_eqb_spec k s'); [congruence|reflexivity].
Qed.

Lemma steps_spec : forall l a, extended a = true ->
  exists a', do_steps a l = Ok a' /\ extended a' = true /\ geometry a' = last_move (geometry a) l /\
    connectivity a' = connectivity a /\ distances a' = distances a /\
    forall s, sget (the_store a') s = match last_set s l with Some v => Some v | None => sget (the_store a) s end.
Proof.
  induction l as [|x t IH]; intros a He; [exists a; cbn; auto 10|].
  assert (HX : exists a1, do_step a x = Ok a1 /\ extended a1 = true /\ geometry a1 = last_move (geometry a) [x] /\ connectivity a1 = connectivity a /\ distances a1 = distances a /\
      forall s, sget (the_store a1) s = match last_set s [x] with Some v => Some v | None => sget (the_store a) s end).
  { destruct x as [|s0 v|s0|g]; cbn [do_step].
    - eexists. split; [reflexivity|]. cbn. auto 10.
    - unfold set_. rewrite He. eexists. split; [reflexivity|]. cbn [extended geometry connectivity distances].
      unfold initialize. destruct (store a) eqn:Es; cbn [extended geometry connectivity distances]; repeat split; auto;
      intros s; cbn [the_store store last_set]; rewrite sget_sput; unfold the_store; rewrite ?Es; cbn [store]; destruct (slot_eqb s s0); reflexivity.
    - unfold get_. rewrite He. cbn [bind fst]. eexists. split; [reflexivity|]. unfold initialize. destruct (store a) eqn:Es; cbn; auto 10.
      repeat split; auto. intros s. unfold the_store. rewrite Es. reflexivity.
    - eexists. split; [reflexivity|]. cbn. auto 10. }
  destruct HX as (a1 & E1 & H1 & H2 & H3 & H4 & H5). destruct (IH a1 H1) as (a' & E & I1 & I2 & I3 & I4 & I5).
  exists a'. cbn [do_steps]. rewrite E1. cbn [bind]. split; [exact E|]. split; [exact I1|].
  split; [rewrite I2, H2; destruct x; reflexivity|]. split; [congruence|]. split; [congruence|].
  intros s. rewrite I5, H5. cbn [last_set]. destruct (last_set s t); [reflexivity|]. reflexivity.
Qed.

(** After any history of an extended structure, each slot holds the value last set, or
    nothing, and the geometry is untouched by all of it. *)
Theorem attached_values g l : exists a, do_steps (extend (fresh g)) l = Ok a /\ geometry a = last_move g l /\
  forall s, exists a', get_ s a = Ok (a', last_set s l) /\ geometry a' = geometry a.
Proof.
  destruct (steps_spec l (extend (fresh g)) eq_refl) as (a & E & H1 & H2 & _ & _ & H5). exists a. split; [exact E|]. split; [exact H2|].
  intros s. unfold get_. rewrite H1. exists (initialize a). split.
  - cbv zeta. do 2 f_equal. pose proof (H5 s) as H. cbn [the_store store extend fresh sget] in H.
    unfold initialize, the_store in *. destruct (store a) eqn:Es; rewrite ?Es; cbn [store] in *; rewrite H; destruct (last_set s l); reflexivity.
  - unfold initialize. destruct (store a); reflexivity.
Qed.

(** ** Cached neighbour lists *)
Variable nl_of : G -> V.

(** A structure without an attached list gets that of its geometry; it is attached, and
    returned again while the structure does not change. *)
Theorem neighborlist_current a : sget (the_store a) Neighborlist = None ->
  exists a', base_get_neighborlist nl_of true a = Ok (a', nl_of (geometry a)) /\ geometry a' = geometry a /\
    get_ Neighborlist a' = Ok (a', Some (nl_of (geometry a))) /\
    exists a'', base_get_neighborlist nl_of true a' = Ok (a'', nl_of (geometry a')).
Proof.
  intros HN.
  assert (HM : forall b : atoms G V M, sget (the_store b) Neighborlist = None -> exists b', make_neighborlist nl_of true 1 b = Ok (b', nl_of (geometry b)) /\ geometry b' = geometry b /\ extended b' = true /\ sget (the_store b') Neighborlist = Some (nl_of (geometry b)) /\ store b' <> None).
  { intros b Hb. unfold make_neighborlist, set_. cbn [extended extend bind]. eexists. split; [reflexivity|]. unfold initialize. cbn [store extend].
    destruct (store b); cbn [geometry extended the_store store extend]; repeat split; try discriminate; rewrite sget_sput; reflexivity. }
  assert (HG : exists b, base_get_neighborlist nl_of true a = make_neighborlist nl_of true 1 b /\ geometry b = geometry a /\ sget (the_store b) Neighborlist = None).
  { unfold base_get_neighborlist, get_. destruct (extended a); [|exists a; auto]. cbn [bind]. exists (initialize a). unfold initialize, the_store in *.
    destruct (store a) eqn:Es; rewrite ?Es; cbn [store geometry] in *; [rewrite HN|]; auto. }
  destruct HG as (b & E & Hg & Hb). destruct (HM b Hb) as (b' & E' & H1 & H2 & H3 & H4). rewrite Hg in *. exists b'. rewrite E. split; [exact E'|]. split; [exact H1|].
  assert (HI : initialize b' = b') by (unfold initialize; destruct (store b'); [reflexivity|congruence]).
  assert (HGET : get_ Neighborlist b' = Ok (b', Some (nl_of (geometry a)))) by (unfold get_; rewrite H2; cbv zeta; rewrite HI, H3; reflexivity).
  split; [exact HGET|]. exists b'. unfold base_get_neighborlist. rewrite HGET, H1. reflexivity.
Qed.

(** But it stays when the structure changes. *)
Theorem neighborlist_stale_refuted a a' nl l : base_get_neighborlist nl_of true a = Ok (a', nl) -> last_set Neighborlist l = None ->
  exists a'', do_steps a' l = Ok a'' /\ geometry a'' = last_move (geometry a') l /\
    exists a3, base_get_neighborlist nl_of true a'' = Ok (a3, nl).
Proof.
  intros E HL.
  assert (HS : extended a' = true /\ sget (the_store a') Neighborlist = Some nl).
  { assert (HM : forall b, make_neighborlist nl_of true 1 b = Ok (a', nl) -> extended a' = true /\ sget (the_store a') Neighborlist = Some nl).
    { intros b Eb. unfold make_neighborlist, set_ in Eb. cbn [extended extend bind] in Eb. injection Eb as <- <-. unfold initialize. cbn [store extend].
      destruct (store b); cbn [the_store store extended extend geometry]; rewrite sget_sput; auto. }
    unfold base_get_neighborlist, get_ in E. destruct (extended a) eqn:He; cbn [bind] in E; [|exact (HM _ E)].
    destruct (sget (the_store (initialize a)) Neighborlist) as [v|] eqn:Ev; [|exact (HM _ E)]. injection E as <- <-. split; [|exact Ev].
    unfold initialize. destruct (store a); exact He. }
  destruct HS as [He Hv]. destruct (steps_spec l a' He) as (a'' & E1 & H1 & H2 & _ & _ & H5). exists a''. split; [exact E1|]. split; [exact H2|].
  pose proof (H5 Neighborlist) as H. rewrite HL, Hv in H. exists (initialize a''). unfold base_get_neighborlist, get_. rewrite H1.
  unfold initialize, the_store in *. destruct (store a'') eqn:Es; cbn [store] in *; rewrite ?Es, ?H; [reflexivity|discriminate].
Qed.

(** Other data types are refused unless a list is attached; [neighbor_number] does nothing. *)
Theorem base_dtype a m : make_neighborlist nl_of false m a = Err NotImplementedError /\
  make_neighborlist nl_of true m a = make_neighborlist nl_of true 1 a /\
  base_get_neighborlist nl_of false a =
    match extended a, sget (the_store a) Neighborlist with true, Some nl => Ok (a, nl) | _, _ => Err NotImplementedError end.
Proof.
  split; [reflexivity|]. split; [reflexivity|]. unfold base_get_neighborlist, get_. destruct (extended a); [|reflexivity].
  unfold initialize, the_store. destruct (store a) as [d|] eqn:Es; rewrite ?Es; cbn [store]; [|reflexivity]. destruct (sget d Neighborlist); reflexivity.
Qed.

(** A graph is made with the given cutoffs unless a list is attached; then with that. *)
Theorem graph_cutoffs {K} (nl_cut : option K -> G -> V) cutoffs a : sget (the_store a) Neighborlist = None ->
  snd (graph_neighborlist nl_cut cutoffs a) = nl_cut cutoffs (geometry a).
Proof.
  intros HN. unfold graph_neighborlist, get_. cbn [extended extend]. unfold initialize, the_store in *. cbn [store extend].
  destruct (store a) eqn:Es; cbn [store geometry extend] in *; rewrite ?Es; cbn [snd]; [rewrite HN|]; reflexivity.
Qed.

Theorem graph_cutoffs_refuted {K} (nl_cut : option K -> G -> V) a nl : sget (the_store a) Neighborlist = Some nl ->
  forall cutoffs, snd (graph_neighborlist nl_cut cutoffs a) = nl.
Proof.
  intros HN cutoffs. unfold graph_neighborlist, get_. cbn [extended extend]. unfold initialize, the_store in *. cbn [store extend].
  destruct (store a) eqn:Es; cbn [store geometry extend] in *; [rewrite ?Es, HN; reflexivity|discriminate].
Qed.

(** ** images_connectivity *)
Variable conn_of : G -> result M.
Variable crowded : M -> bool.
Variable distances_of : bool -> G -> M.

(** Structures without a matrix get that of their geometry, nothing else changes. *)
Theorem images_connectivity_spec check : forall images k out w, images_connectivity conn_of crowded check k images = Ok (out, w) ->
  Forall2 (fun a b => geometry b = geometry a /\ store b = store a /\ extended b = extended a /\ distances b = distances a /\
    match connectivity a with Some m => connectivity b = Some m | None => exists m, conn_of (geometry a) = Ok m /\ connectivity b = Some m end) images out /\
  forall i, In i w <-> check = true /\ exists a m, k <= i /\ nth_error images (i - k) = Some a /\ connectivity a = None /\ conn_of (geometry a) = Ok m /\ crowded m = true.
Proof.
  induction images as [|a t IH]; intros k out w E; cbn [images_connectivity] in E.
  - injection E as <- <-. split; [constructor|]. intros i. split; [intros []|]. intros (_ & a & m & _ & H & _). destruct (i - k); discriminate.
  - match type of E with bind ?x _ = _ => destruct x as [[b wb]|] eqn:E1; [|discriminate] end. cbn [bind] in E.
    destruct (images_connectivity conn_of crowded check (S k) t) as [[out' w']|] eqn:E2; [|discriminate]. cbn [bind fst snd] in E. injection E as <- <-.
    destruct (IH _ _ _ E2) as [IH1 IH2]. split.
    + constructor; [|exact IH1]. destruct (connectivity a) as [m|] eqn:Ec.
      * injection E1 as <- <-. auto 10.
      * destruct (conn_of (geometry a)) as [m|] eqn:Em; [|discriminate]. cbn [bind] in E1. injection E1 as <- <-. cbn. repeat split; auto. exists m. auto.
    + intros i. rewrite in_app_iff, IH2.
      assert (HB : In i wb <-> i = k /\ check = true /\ exists m, connectivity a = None /\ conn_of (geometry a) = Ok m /\ crowded m = true).
      { destruct (connectivity a) as [m|] eqn:Ec.
        - injection E1 as <- <-. split; [intros []|]. intros (_ & _ & m' & H & _). congruence.
        - destruct (conn_of (geometry a)) as [m|] eqn:Em; [|discriminate]. cbn [bind] in E1. injection E1 as _ <-.
          destruct check, (crowded m) eqn:Ecr; cbn [andb In]; split; try tauto.
          + intros [<-|[]]. split; [reflexivity|]. split; [reflexivity|]. exists m. auto.
          + intros (-> & _). auto.
          + intros (_ & _ & m' & _ & [= <-] & H). congruence.
          + intros (_ & H & _). discriminate.
          + intros (_ & H & _). discriminate. }
      rewrite HB. split.
      * intros [(-> & Hc & m & H1 & H2 & H3)|(Hc & a0 & m & H0 & H1 & H2)].
        -- split; [exact Hc|]. exists a, m. rewrite Nat.sub_diag. cbn. auto.
        -- split; [exact Hc|]. exists a0, m. split; [lia|]. replace (i - k) with (S (i - S k)) by lia. auto.
      * intros (Hc & a0 & m & H0 & H1 & H2). destruct (Nat.eq_dec i k) as [->|].
        -- rewrite Nat.sub_diag in H1. cbn in H1. injection H1 as <-. left. split; [reflexivity|]. split; [exact Hc|]. exists m. exact H2.
        -- right. split; [exact Hc|]. exists a0, m. split; [lia|]. replace (i - k) with (S (i - S k)) in H1 by lia. auto.
Qed.

(** A matrix stays when the structure changes, also when the check is requested. *)
Theorem connectivity_stale_refuted check a m g : connectivity a = Some m ->
  let moved := Atoms g (extended a) (store a) (connectivity a) (distances a) in
  images_connectivity conn_of crowded check 0 [moved] = Ok ([moved], []).
Proof. intros E. cbn. rewrite E. reflexivity. Qed.

(** Distances are always computed anew. *)
Theorem pair_distances_current mic (images : list (atoms G V M)) : Forall2 (fun a b => b = Atoms (geometry a) (extended a) (store a) (connectivity a) (Some (distances_of mic (geometry a))))
  images (images_pair_distances distances_of mic images).
Proof. unfold images_pair_distances. induction images; constructor; auto. Qed.
End Attached.

(** A fingerprint passes exactly if it has one value per label. *)
Theorem labels_checked {L F} (labels : list L) (fp : list F) : check_labels labels fp = Ok tt <-> length labels = length fp.
Proof. unfold check_labels. destruct (Nat.eqb_spec (length fp) (length labels)); split; congruence. Qed.

(** ** Neighbour lists from ASE *)
Section ASE.
Variable n : nat.
Variable offs : list offset.
Variable dist : nat -> nat -> offset -> R.
Variable order : nat -> list nat -> list nat.
Hypothesis Horder : forall i l, Permutation (order i l) l.

(** The images of atom j, other than atom i itself, closer to atom i than both cutoffs *)
Definition close_images (cut : nat -> R) (i j : nat) : list offset :=
  filter (fun o => Rltb (dist i j o) (cut i + cut j)%R && negb ((i =? j) && offset_eqb o zero)) offs.

Lemma count_repeat_other (j k : nat) {A} (l : list A) : j <> k -> count_occ Nat.eq_dec (map (fun _ => k) l) j = 0.
Proof. intros H. induction l as [|x l IH]; cbn [map count_occ]; [reflexivity|]. destruct (Nat.eq_dec k j); [congruence|exact IH]. Qed.
Lemma count_repeat_same (j : nat) {A} (l : list A) : count_occ Nat.eq_dec (map (fun _ => j) l) j = length l.
Proof. induction l as [|x l IH]; cbn [map count_occ length]; [reflexivity|]. destruct (Nat.eq_dec j j); congruence. Qed.

Lemma raw_count cut i j : j < n -> count_occ Nat.eq_dec (raw n offs dist cut i) j = length (close_images cut i j).
Proof.
  intros Hj. unfold raw, close_images, in_range.
  assert (G : forall k s, count_occ Nat.eq_dec (flat_map (fun j0 => map (fun _ => j0) (filter (fun o => Rltb (dist i j0 o) (cut i + cut j0)%R && negb ((i =? j0) && offset_eqb o zero)) offs)) (seq s k)) j =
    if (s <=? j) && (j <? s + k) then length (filter (fun o => Rltb (dist i j o) (cut i + cut j)%R && negb ((i =? j) && offset_eqb o zero)) offs) else 0).
  { induction k as [|k IH]; intros s; cbn [seq flat_map].
    - destruct (Nat.leb_spec s j), (Nat.ltb_spec j (s + 0)); cbn; auto; lia.
    - rewrite count_occ_app, IH. destruct (Nat.eq_dec s j) as [->|Hne].
      + rewrite count_repeat_same. destruct (Nat.leb_spec (S j) j); [lia|]. destruct (Nat.leb_spec j j); [|lia]. destruct (Nat.ltb_spec j (j + S k)); [|lia]. cbn. lia.
      + rewrite count_repeat_other by congruence. destruct (Nat.leb_spec (S s) j), (Nat.leb_spec s j), (Nat.ltb_spec j (S s + k)), (Nat.ltb_spec j (s + S k)); cbn; auto; lia. }
  rewrite G. destruct (Nat.leb_spec 0 j); [|lia]. destruct (Nat.ltb_spec j (0 + n)); [|lia]. reflexivity.
Qed.

Lemma raw_range cut i j : In j (raw n offs dist cut i) -> j < n.
Proof. unfold raw. rewrite in_flat_map. intros (k & Hk & H). apply in_map_iff in H. destruct H as (_ & <- & _). apply in_seq in Hk. lia. Qed.

(** Each atom has an entry, sorted, with atom j as often as it has images in range. *)
Theorem ase_neighborlist_counts radius cutoffs : let cut := match cutoffs with Some c => c | None => radius end in
  map fst (ase_neighborlist n offs dist order radius cutoffs) = seq 0 n /\
  forall i nbrs, In (i, nbrs) (ase_neighborlist n offs dist order radius cutoffs) ->
    StronglySorted le nbrs /\ (forall j, In j nbrs -> j < n) /\ forall j, j < n -> count_occ Nat.eq_dec nbrs j = length (close_images cut i j).
Proof.
  cbv zeta. unfold ase_neighborlist. cbv zeta. set (cut := match cutoffs with Some c => c | None => radius end). split; [rewrite map_map; apply map_id|].
  intros i nbrs H. apply in_map_iff in H. destruct H as (k & [= -> <-] & _). unfold get_neighbors. split.
  - assert (HT : total_preorder Nat.leb).
    { split; [intros x y; destruct (Nat.leb_spec x y); [auto|right; apply Nat.leb_le; lia]|]. intros x y z H1 H2. apply Nat.leb_le in H1, H2. apply Nat.leb_le. lia. }
    pose proof (isort_sorted HT (order i (raw n offs dist cut i))) as HS. revert HS. generalize (isort Nat.leb (order i (raw n offs dist cut i))).
    intros l HS. induction HS as [|x l HS IH HF]; constructor; auto. revert HF. apply Forall_impl. intros y Hy. apply Nat.leb_le. exact Hy.
  - split.
    + intros j Hj. apply (raw_range cut i). apply (Permutation_in _ (Horder i _)). apply isort_in in Hj. exact Hj.
    + intros j Hj. rewrite <- (raw_count cut i j Hj). apply Permutation_count_occ. rewrite isort_perm. apply Horder.
Qed.

Section Symmetric.
Hypothesis Hdist : forall i j o, dist j i (opp o) = dist i j o.
Hypothesis Hoffs : Permutation (map opp offs) offs.

Lemma offset_eqb_opp o : offset_eqb (opp o) zero = offset_eqb o zero.
Proof. destruct o as [[a b] c]. cbn. destruct (Z.eqb_spec (- a) 0), (Z.eqb_spec (- b) 0), (Z.eqb_spec (- c) 0), (Z.eqb_spec a 0), (Z.eqb_spec b 0), (Z.eqb_spec c 0); cbn; auto; lia. Qed.

Lemma close_images_symmetric cut i j : length (close_images cut i j) = length (close_images cut j i).
Proof.
  unfold close_images. rewrite <- (Permutation_length (Permutation_filter (fun o => Rltb (dist j i o) (cut j + cut i)%R && negb ((j =? i) && offset_eqb o zero)) Hoffs)).
  rewrite (Rplus_comm (cut j)), (Nat.eqb_sym j). clear Hoffs.
  induction offs as [|o t IH]; [reflexivity|]. cbn [map filter]. rewrite Hdist, offset_eqb_opp.
  destruct (Rltb _ _ && _); cbn [length]; rewrite IH; reflexivity.
Qed.

(** Atom j is as often a neighbour of atom i as i is of j. *)
Theorem ase_neighborlist_symmetric radius cutoffs i j ni nj :
  In (i, ni) (ase_neighborlist n offs dist order radius cutoffs) -> In (j, nj) (ase_neighborlist n offs dist order radius cutoffs) ->
  count_occ Nat.eq_dec ni j = count_occ Nat.eq_dec nj i.
Proof.
  intros Hi Hj. destruct (ase_neighborlist_counts radius cutoffs) as [HK HC].
  assert (Li : i < n) by (apply (in_map fst) in Hi; rewrite HK in Hi; apply in_seq in Hi; cbn in Hi; lia).
  assert (Lj : j < n) by (apply (in_map fst) in Hj; rewrite HK in Hj; apply in_seq in Hj; cbn in Hj; lia).
  destruct (HC _ _ Hi) as (_ & _ & H1). destruct (HC _ _ Hj) as (_ & _ & H2). rewrite (H1 j Lj), (H2 i Li). apply close_images_symmetric.
Qed.

(** The graph of a structure has an edge between two atoms exactly if an image of one is
    in range of the other. *)
Theorem graph_edges numbers radius cutoffs : length numbers = n ->
  let cut := match cutoffs with Some c => c | None => radius end in
  exists g, ase_to_networkx numbers (ase_neighborlist n offs dist order radius cutoffs) = Ok g /\ g_numbers g = numbers /\
    forall i j, i < n -> j < n -> (has_edge g i j = true <-> exists o, In o (close_images cut i j)).
Proof.
  intros HL cut. destruct (ase_neighborlist_counts radius cutoffs) as [HK HC]. fold cut in HC. unfold ase_to_networkx.
  set (nl := ase_neighborlist n offs dist order radius cutoffs) in *.
  assert (HE : forall e, In e (flat_map (fun q => map (fun j => (fst q, j)) (snd q)) nl) <-> exists nbrs, In (fst e, nbrs) nl /\ In (snd e) nbrs).
  { intros [x y]. rewrite in_flat_map. cbn [fst snd]. split.
    - intros ([i nbrs] & H1 & H2). apply in_map_iff in H2. destruct H2 as (z & [= <- <-] & H2). cbn in *. eauto.
    - intros (nbrs & H1 & H2). exists (x, nbrs). split; [exact H1|]. apply in_map_iff. eauto. }
  match goal with |- exists g, (if ?b then _ else _) = _ /\ _ => assert (Hb : b = true) end.
  { apply forallb_forall. intros e He. apply HE in He. destruct He as (nbrs & H1 & H2). destruct (HC _ _ H1) as (_ & H3 & _). specialize (H3 _ H2).
    apply (in_map fst) in H1. rewrite HK in H1. apply in_seq in H1. cbn in H1. rewrite HL. apply andb_true_iff. split; apply Nat.ltb_lt; lia. }
  rewrite Hb. eexists. split; [reflexivity|]. split; [reflexivity|]. intros i j Hi Hj. unfold has_edge. cbn [g_edges].
  assert (HIN : forall x y, x < n -> y < n -> (exists nbrs, In (x, nbrs) nl /\ In y nbrs) <-> close_images cut x y <> []).
  { intros x y Hx Hy. split.
    - intros (nbrs & H1 & H2). destruct (HC _ _ H1) as (_ & _ & H3). specialize (H3 y Hy). apply (count_occ_In Nat.eq_dec) in H2. destruct (close_images cut x y); [cbn in H3; lia|discriminate].
    - intros H. assert (Hin : In x (map fst nl)) by (rewrite HK; apply in_seq; lia). apply in_map_iff in Hin. destruct Hin as ([x' nbrs] & Hx' & Hin). cbn in Hx'. subst x'.
      exists nbrs. split; [exact Hin|]. destruct (HC _ _ Hin) as (_ & _ & H3). specialize (H3 y Hy). apply (count_occ_In Nat.eq_dec). destruct (close_images cut x y); [congruence|cbn in H3; lia]. }
  assert (HS : close_images cut i j <> [] <-> close_images cut j i <> []).
  { pose proof (close_images_symmetric cut i j) as H. destruct (close_images cut i j), (close_images cut j i); cbn in H; split; intros; congruence. }
  assert (HO : (exists o, In o (close_images cut i j)) <-> close_images cut i j <> []).
  { destruct (close_images cut i j) as [|o t]; split; [intros [o []]|congruence|discriminate|]. intros _. exists o. left. reflexivity. }
  rewrite HO, existsb_exists. split.
  - intros ([x y] & He & Hxy). cbn [fst snd] in Hxy. apply HE in He. cbn [fst snd] in He.
    apply orb_prop in Hxy. destruct Hxy as [Hxy|Hxy]; apply andb_prop in Hxy; destruct Hxy as [E1 E2]; apply Nat.eqb_eq in E1, E2; subst x y.
    + apply HIN; auto.
    + apply HS. apply HIN; auto.
  - intros H. apply HIN in H; auto. exists (i, j). split; [apply HE; exact H|]. cbn [fst snd]. rewrite !Nat.eqb_refl. reflexivity.
Qed.

(** The connectivity matrix is symmetric and has a one exactly where an image is in range. *)
Theorem connectivity_entries cut : exists m, ase_connectivity n offs dist order false (Some cut) = Ok m /\ length m = n /\
  forall i j, i < n -> j < n -> length (nth i m []) = n /\
    nth j (nth i m []) 0 = (if length (close_images cut i j) =? 0 then 0 else 1) /\ nth j (nth i m []) 0 = nth i (nth j m []) 0.
Proof.
  eexists. split; [reflexivity|]. split; [rewrite map_length, seq_length; reflexivity|].
  assert (HE : forall i j, i < n -> j < n -> nth j (nth i (map (fun i => map (fun j => if existsb (Nat.eqb j) (get_neighbors n offs dist order cut i) then 1 else 0) (seq 0 n)) (seq 0 n)) []) 0 = if length (close_images cut i j) =? 0 then 0 else 1).
  { intros i j Hi Hj. rewrite (nth_map_lt _ _ _ 0) by (rewrite seq_length; lia). rewrite (nth_map_lt _ _ _ 0) by (rewrite seq_length; lia). rewrite !seq_nth by lia. cbn [plus].
    rewrite <- (raw_count cut i j Hj). unfold get_neighbors. destruct (existsb _ _) eqn:E.
    - apply existsb_exists in E. destruct E as (x & Hx & Ex). apply Nat.eqb_eq in Ex. subst x. apply (Permutation_in _ (Horder i _)) in Hx. apply (count_occ_In Nat.eq_dec) in Hx. destruct (Nat.eqb_spec (count_occ Nat.eq_dec (raw n offs dist cut i) j) 0); [lia|reflexivity].
    - destruct (Nat.eqb_spec (count_occ Nat.eq_dec (raw n offs dist cut i) j) 0) as [|Hne]; [reflexivity|]. exfalso. assert (Hin : In j (raw n offs dist cut i)) by (apply (count_occ_In Nat.eq_dec); lia).
      apply (Permutation_in _ (Permutation_sym (Horder i _))) in Hin. assert (existsb (Nat.eqb j) (order i (raw n offs dist cut i)) = true) by (apply existsb_exists; exists j; split; [exact Hin|apply Nat.eqb_refl]). congruence. }
  intros i j Hi Hj. split; [rewrite (nth_map_lt _ _ _ 0) by (rewrite seq_length; lia); rewrite map_length, seq_length; reflexivity|].
  split; [apply HE; assumption|]. rewrite (HE i j Hi Hj), (HE j i Hj Hi), (close_images_symmetric cut i j). reflexivity.
Qed.
End Symmetric.

(** Several images in range count as one, an attached neighbour list is an error, and so
    is the default of the cutoffs. *)
Theorem connectivity_multiple_refuted cut m i j : (forall i j o, dist j i (opp o) = dist i j o) -> Permutation (map opp offs) offs ->
  ase_connectivity n offs dist order false (Some cut) = Ok m -> i < n -> j < n -> 2 <= length (close_images cut i j) ->
  nth j (nth i m []) 0 = 1 /\ nth j (nth i m []) 0 <> length (close_images cut i j).
Proof.
  intros H1 H2 E Hi Hj HL. destruct (connectivity_entries H1 H2 cut) as (m' & E' & _ & HE). rewrite E in E'. injection E' as <-. destruct (HE i j Hi Hj) as (_ & H & _).
  rewrite H. destruct (Nat.eqb_spec (length (close_images cut i j)) 0); lia.
Qed.
Theorem connectivity_attached_refuted cutoffs : ase_connectivity n offs dist order true cutoffs = Err NameError /\ ase_connectivity n offs dist order false None = Err TypeError.
Proof. auto. Qed.
End ASE.

(** ** get_rate_control *)
Local Open Scope string_scope.
Lemma split_app s t : length (split_ (s ++ "_" ++ t)) = length (split_ s) + length (split_ t).
Proof.
  induction s as [|c s IH]; cbn [append split_].
  - cbn. reflexivity.
  - destruct (Ascii.eqb c "_"%char); cbn [length].
    + cbn [append] in IH. rewrite IH. reflexivity.
    + assert (HN : split_ s <> []) by (destruct s as [|x s']; cbn; [discriminate|destruct (Ascii.eqb x "_"%char); [discriminate|destruct (split_ s'); discriminate]]).
      cbn [append] in IH. destruct (split_ s) as [|y r]; [congruence|]. destruct (split_ (s ++ String "_" t)) as [|z q]; cbn [length] in *; lia.
Qed.
Lemma split_nonempty s : 1 <= length (split_ s).
Proof. destruct s as [|c s]; cbn; [lia|]. destruct (Ascii.eqb c "_"%char); cbn; [lia|]. destruct (split_ s); cbn; lia. Qed.
Lemma join_parts : forall l, length l <= length (split_ (join_ l)) \/ l = [].
Proof.
  induction l as [|x [|y t] IH]; [auto| |].
  - left. cbn [join_ length]. apply split_nonempty.
  - left. cbn [join_]. cbn [join_] in IH. rewrite split_app. pose proof (split_nonempty x). destruct IH as [IH|]; [|discriminate]. cbn [length] in *. lia.
Qed.

(** No state of an energy landscape is understood by get_rate_control: there are eight
    parts, it expects six. *)
Theorem rate_control_refuted site_specific d : length (db_fields d) = 7 -> get_rate_control (state_key site_specific d) = Err ValueError.
Proof.
  intros H. unfold get_rate_control, state_key. set (l := (db_fields d ++ _)%list). assert (HL : length l = 8) by (unfold l; rewrite app_length; cbn; lia).
  destruct (join_parts l) as [HJ|HJ]; [|rewrite HJ in HL; discriminate]. rewrite HL in HJ.
  destruct (split_ (join_ l)) as [|a1 [|a2 [|a3 [|a4 [|a5 [|a6 [|a7 r]]]]]]]; try reflexivity; cbn [length] in HJ; lia.
Qed.
Local Close Scope string_scope.

(** ** Particle vectors *)
Section Particle.
Context {G F : Type}.
Variable numbers : G -> list nat.
Variable centered : G -> G.
Variable distribution connections : G -> nat -> list F.
Variable rdf : G -> nat -> nat -> list F.
Variable set_order : list nat -> list nat.
Notation vec := (particle_vec numbers centered distribution connections rdf set_order).
Notation vecs := (particle_vecs numbers centered distribution connections rdf set_order).

(** With given atom types each vector depends on its own structure only and all have the
    same length. *)
Theorem particle_vectors v ts gs width : v = Distribution \/ v = Connections ->
  (forall g t, length (distribution g t) = width) -> (forall g t, length (connections g t) = width) ->
  vecs v (Some ts) gs = map (fun g => snd (vec v (Some ts) g)) gs /\ Forall (fun fp => length fp = length ts * width) (vecs v (Some ts) gs).
Proof.
  intros Hv H1 H2.
  assert (HE : vecs v (Some ts) gs = map (fun g => snd (vec v (Some ts) g)) gs).
  { induction gs as [|g t IH]; [reflexivity|]. cbn [particle_vecs map]. destruct Hv as [-> | ->]; cbn [particle_vec snd]; f_equal; exact IH. }
  split; [exact HE|]. rewrite HE. apply Forall_forall. intros fp Hfp. apply in_map_iff in Hfp. destruct Hfp as (g & <- & _).
  clear HE. destruct Hv as [-> | ->]; cbn [particle_vec snd]; (induction ts as [|t ts IH]; [reflexivity|]; cbn [flat_map length]; rewrite app_length, ?H1, ?H2, IH; lia).
Qed.

(** Without atom types, the first structure decides for all later ones: the vector of a
    structure with another number of elements depends on which one came first. *)
Theorem particle_types_refuted v g g' width : v = Distribution \/ v = Connections -> 0 < width ->
  (forall g t, length (distribution g t) = width) -> (forall g t, length (connections g t) = width) ->
  (forall g, numbers (centered g) = numbers g) -> length (sorted_types numbers g) <> length (sorted_types numbers g') ->
  nth 1 (vecs v None [g; g']) [] <> nth 0 (vecs v None [g'; g]) [].
Proof.
  intros Hv HW H1 H2 HC HN E. apply (f_equal (@length F)) in E.
  assert (HD : forall x l, length (flat_map (fun t => distribution x t) l) = length l * width) by (intros x l; induction l as [|t l IH]; [reflexivity|]; cbn [flat_map length]; rewrite app_length, H1, IH; lia).
  assert (HK : forall x l, length (flat_map (fun t => connections x t) l) = length l * width) by (intros x l; induction l as [|t l IH]; [reflexivity|]; cbn [flat_map length]; rewrite app_length, H2, IH; lia).
  assert (HT : forall x, sorted_types numbers (centered x) = sorted_types numbers x) by (intros x; unfold sorted_types; rewrite HC; reflexivity).
  destruct Hv as [-> | ->]; cbn [particle_vecs particle_vec nth] in E; rewrite ?HD, ?HK, ?HT in E; apply Nat.mul_cancel_r in E; lia.
Qed.

(** distribution_vec changes the cell and the positions of the structure it is given;
    the other two do not. *)
Theorem distribution_changes_structure_refuted types g : snd (fst (vec Distribution types g)) = centered g /\
  snd (fst (vec Connections types g)) = g /\ snd (fst (vec Rdf types g)) = g.
Proof. cbn. auto. Qed.

(** The length of a vector of radial distribution functions depends on the number of
    elements of the structure, whatever the atom types are. *)
Theorem rdf_lengths_refuted types g width : (forall l, Permutation (set_order l) l) -> (forall g a b, length (rdf g a b) = width) ->
  length (snd (vec Rdf types g)) = length (nodup Nat.eq_dec (numbers g)) * length (nodup Nat.eq_dec (numbers g)) * width.
Proof.
  intros HP HW. cbn [particle_vec snd]. set (s := set_order _). assert (HL : length s = length (nodup Nat.eq_dec (numbers g))) by (apply Permutation_length, HP).
  rewrite <- HL. clearbody s.
  assert (H1 : forall a l, length (flat_map (fun b => rdf g a b) l) = length l * width).
  { intros a. induction l as [|x l IH]; [reflexivity|]. cbn [flat_map length]. rewrite app_length, IH, HW. lia. }
  assert (H2 : forall l, length (flat_map (fun a => flat_map (fun b => rdf g a b) s) l) = length l * (length s * width)).
  { induction l as [|x l IH]; [reflexivity|]. cbn [flat_map length]. rewrite app_length, IH, H1. lia. }
  rewrite H2. lia.
Qed.
End Particle.

(** ** Examples *)
Example attached_case : exists a, do_steps (extend (fresh (M := nat) 3)) [Set_ Features 10; Get_ Graph_; Move 4; Set_ Features 11; Set_ Neighborlist 5] = Ok a /\
  geometry a = 4 /\ sget (the_store a) Features = Some 11 /\ sget (the_store a) Graph_ = None.
Proof. eexists. repeat split; reflexivity. Qed.

Example stale_case : exists a a' a2, base_get_neighborlist (fun g => 2 * g) true (fresh (M := nat) 3) = Ok (a, 6) /\
  do_steps a [Move 7] = Ok a' /\ base_get_neighborlist (fun g => 2 * g) true a' = Ok (a2, 6).
Proof. do 3 eexists. repeat split; reflexivity. Qed.

(** A chain of two atoms in a cell of length 2: each has two images of the other. *)
Definition chain_offs : list offset := [(-1, 0, 0); (0, 0, 0); (1, 0, 0)]%Z.
Definition chain_dist (i j : nat) (o : offset) : R := IZR (Z.abs (2 * fst (fst o) + Z.of_nat j - Z.of_nat i)).
Example chain_symmetric : (forall i j o, chain_dist j i (opp o) = chain_dist i j o) /\ Permutation (map opp chain_offs) chain_offs.
Proof.
  split.
  - intros i j [[x y] z]. unfold chain_dist. cbn [opp fst]. f_equal. lia.
  - cbn. apply (Permutation_rev' [(1, 0, 0); (0, 0, 0); (-1, 0, 0)]%Z) || (apply perm_trans with [(1, 0, 0); (-1, 0, 0); (0, 0, 0)]%Z; [apply perm_skip, perm_swap|apply perm_trans with [(-1, 0, 0); (1, 0, 0); (0, 0, 0)]%Z; [apply perm_swap|apply perm_skip, perm_swap]]).
Qed.
Example chain_case : close_images chain_offs chain_dist (fun _ => 1%R) 0 1 = [(-1, 0, 0); (0, 0, 0)]%Z.
Proof.
  unfold close_images, chain_offs, chain_dist, Rltb. cbn -[IZR Rplus Rlt_dec].
  repeat match goal with |- context [Rlt_dec ?x ?y] => destruct (Rlt_dec x y); [first [exfalso; lra|idtac]|first [exfalso; lra|idtac]] end; reflexivity.
Qed.

Print Assumptions attached_values.
Print Assumptions neighborlist_current.
Print Assumptions neighborlist_stale_refuted.
Print Assumptions base_dtype.
Print Assumptions graph_cutoffs.
Print Assumptions graph_cutoffs_refuted.
Print Assumptions images_connectivity_spec.
Print Assumptions connectivity_stale_refuted.
Print Assumptions pair_distances_current.
Print Assumptions labels_checked.
Print Assumptions ase_neighborlist_counts.
Print Assumptions ase_neighborlist_symmetric.
Print Assumptions graph_edges.
Print Assumptions connectivity_entries.
Print Assumptions connectivity_multiple_refuted.
Print Assumptions connectivity_attached_refuted.
Print Assumptions rate_control_refuted.
Print Assumptions particle_vectors.
Print Assumptions particle_types_refuted.
Print Assumptions distribution_changes_structure_refuted.
Print Assumptions rdf_lengths_refuted.
