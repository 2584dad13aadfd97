(** Adsorbate, site and layers of a slab (catlearn/featurize/adsorbate_prep.py). *)
From Coq Require Import ZArith List Arith Bool Lia Permutation Sorting.Sorted.
From Verif Require Import Base BaseFacts FeatModel FeatProperties SurfModel.
Import ListNotations.
Local Open Scope nat_scope.

(** ** Specification *)
(** A bond according to the connectivity matrix. *)
Definition bonded (im : image) (i j : nat) : Prop := (0 < cm (atoms im) i j)%Z.
(** Two groups contain every atom exactly once. *)
Definition partition (im : image) (l l' : list nat) : Prop := Permutation (l ++ l') (seq 0 (natoms (atoms im))).
(** Indices of atoms. *)
Definition in_range (im : image) (g : option (list nat)) : Prop :=
  forall l i, g = Some l -> In i l -> i < natoms (atoms im).
(** At least one of three groups is missing. *)
Definition missing {A} (x y z : option A) : Prop := x = None \/ y = None \/ z = None.
(** No atom is in both groups. *)
Definition disjoint (l l' : list nat) : Prop := forall i, In i l -> ~ In i l'.

(** The tags number the layers: there are four different tags, one of them at most [low]
    and one above 2. *)
Definition tagged_layers (im : image) (low : Z) : Prop :=
  (exists l, NoDup l /\ length l = 4 /\ incl l (tags im)) /\
  (exists t, In t (tags im) /\ (t <= low)%Z) /\ (exists t, In t (tags im) /\ (2 < t)%Z).

Lemma inside_in i l : inside i l = true <-> In i l.
Proof.
  unfold inside. rewrite existsb_exists. split.
  - intros (x & HI & HE). apply Nat.eqb_eq in HE. subst. auto.
  - intros HI. exists i. rewrite Nat.eqb_refl. auto.
Qed.
Lemma inside_out i l : negb (inside i l) = true <-> ~ In i l.
Proof. rewrite negb_true_iff, <- inside_in. destruct (inside i l); intuition congruence. Qed.
Lemma many_tags_spec im low : many_tags im low = true <-> tagged_layers im low.
Proof.
  unfold many_tags, tagged_layers. rewrite !andb_true_iff, Nat.leb_le, !existsb_exists.
  assert (HN : 4 <= length (nodup Z.eq_dec (tags im)) <-> exists l, NoDup l /\ length l = 4 /\ incl l (tags im)).
  { split.
    - intros HL. exists (firstn 4 (nodup Z.eq_dec (tags im))). pose proof (NoDup_nodup Z.eq_dec (tags im)) as HD.
      rewrite <- (firstn_skipn 4) in HD. apply NoDup_app_inv in HD. split; [tauto|]. split; [rewrite firstn_length; lia|].
      intros x HX. rewrite <- (nodup_In Z.eq_dec). rewrite <- (firstn_skipn 4 (nodup Z.eq_dec (tags im))). apply in_or_app. auto.
    - intros (l & HD & HL & HI). rewrite <- HL. apply NoDup_incl_length; [exact HD|]. intros x HX. apply nodup_In. auto. }
  rewrite HN. split.
  - intros ((H1 & t & H2 & H3) & u & H4 & H5). apply Z.leb_le in H3. apply Z.ltb_lt in H5. split; [exact H1|]. split; [exists t|exists u]; auto.
  - intros (H1 & (t & H2 & H3) & u & H4 & H5). apply Z.leb_le in H3. apply Z.ltb_lt in H5. split; [split; [exact H1|eauto]|eauto].
Qed.
Lemma not_many_tags im low : ~ tagged_layers im low -> many_tags im low = false.
Proof. rewrite <- many_tags_spec. destruct (many_tags im low); [intros H; exfalso; auto|reflexivity]. Qed.

Lemma others_in im l i : In i (others im l) <-> i < natoms (atoms im) /\ ~ In i l.
Proof. unfold others, indices. rewrite filter_In, in_seq, inside_out. intuition lia. Qed.
Lemma others_nodup im l : NoDup (others im l).
Proof. apply NoDup_filter, seq_NoDup. Qed.

(** Lengths that add up leave no room for repetitions. *)
Lemma others_partition im l : (forall i, In i l -> i < natoms (atoms im)) ->
  length (others im l) + length l = natoms (atoms im) -> partition im l (others im l).
Proof.
  intros HR HL. unfold partition. set (n := natoms (atoms im)) in *.
  assert (HP : Permutation (nodup Nat.eq_dec l ++ others im l) (seq 0 n)).
  { apply NoDup_Permutation; [|apply seq_NoDup|].
    - apply NoDup_app_intro; [apply NoDup_nodup|apply others_nodup|]. intros x HX HY. apply others_in in HY.
      apply (proj1 (nodup_In Nat.eq_dec l x)) in HX. tauto.
    - intros x. rewrite in_app_iff, nodup_In, others_in, in_seq. fold n. split.
      + intros [H|H]; [specialize (HR x H); lia|lia].
      + intros H. destruct (in_dec Nat.eq_dec x l); [auto|right; split; [lia|auto]]. }
  pose proof (Permutation_length HP) as HE. rewrite app_length, seq_length in HE.
  assert (HD : length (nodup Nat.eq_dec l) = length l) by lia.
  assert (HN : NoDup l).
  { apply (NoDup_incl_NoDup (NoDup_nodup Nat.eq_dec l)); [lia|]. intros x. apply nodup_In. }
  rewrite (nodup_fixed_point Nat.eq_dec HN) in HP. exact HP.
Qed.
Lemma partition_sym im l l' : partition im l l' -> partition im l' l.
Proof. unfold partition. intros H. rewrite Permutation_app_comm. exact H. Qed.
Lemma partition_disjoint im l l' : partition im l l' -> disjoint l l'.
Proof.
  intros HP i H H'. assert (HN : NoDup (l ++ l')) by (apply (Permutation_NoDup (Permutation_sym HP)), seq_NoDup).
  revert HN H. clear HP. induction l as [|x l IH]; intros HN H; [destruct H|]. inversion HN; subst.
  destruct H as [->|H]; [apply H2, in_or_app; auto|auto].
Qed.

(** ** The adsorbate *)
Lemma own_in im comp : forall i, In i (concat (map (fun z => if count z comp =? count z (numbers (atoms im))
    then filter (fun i => elem im i =? z) (indices im) else []) comp)) -> i < natoms (atoms im).
Proof.
  intros i HI. apply in_concat in HI. destruct HI as (l & HL & HI). apply in_map_iff in HL. destruct HL as (z & <- & _).
  destruct (count z comp =? _); [|destruct HI]. apply filter_In in HI. destruct HI as (HI & _). apply in_seq in HI. lia.
Qed.
Lemma detected_in_range im l : in_range im (g_ads (grp im)) -> detect_adsorbate im = Ok l ->
  forall i, In i l -> i < natoms (atoms im).
Proof.
  intros HR HD i HI. unfold detect_adsorbate in HD.
  assert (HF : forall f, In i (filter f (indices im)) -> i < natoms (atoms im)).
  { intros f H. apply filter_In in H. destruct H as (H & _). apply in_seq in H. lia. }
  destruct (g_ads (grp im)) as [a|] eqn:EA.
  { inversion HD; subst. apply (HR l i eq_refl HI). }
  destruct (g_slab (grp im)) as [s|].
  { inversion HD; subst. apply others_in in HI. lia. }
  destruct (many_tags im (-1)).
  { unfold tags2ads_index in HD. destruct (kvp im) as [[[s|] k]|].
    - destruct (sp_formula s) as [comp|]; [|discriminate]. cbn [bind] in HD. destruct (matches im comp _); [|discriminate].
      inversion HD; subst. eapply HF; eauto.
    - inversion HD; subst. eapply HF; eauto.
    - inversion HD; subst. eapply HF; eauto. }
  destruct (kvp im) as [[[s|] k]|]; [|inversion HD; subst; eapply HF; exact HI|inversion HD; subst; eapply HF; exact HI].
  destruct (sp_empty s); [inversion HD; subst; destruct HI|]. destruct (sp_coads s); [discriminate|].
  destruct (sp_formula s) as [comp|]; [|discriminate]. cbn [bind] in HD.
  unfold or_else in HD. destruct (formula2ads_index im comp) as [x|e] eqn:EF.
  { inversion HD; subst. unfold formula2ads_index in EF. destruct (matches im comp _); [|discriminate].
    inversion EF; subst. eapply HF; exact HI. }
  destruct e; try discriminate.
  destruct (connectivity2ads_index im comp) as [x|e] eqn:EC.
  { inversion HD; subst. unfold connectivity2ads_index in EC.
    destruct (length _ =? length comp); [inversion EC; subst; eapply own_in; exact HI|].
    destruct (length _ =? 0); [discriminate|]. inversion EC; subst. rewrite (proj2 (sorted_set_spec _)) in HI. apply in_app_or in HI.
    destruct HI as [HI|HI]; [eapply own_in; exact HI|]. apply in_concat in HI. destruct HI as (m & HM & HI).
    apply in_map_iff in HM. destruct HM as (z & <- & _). eapply HF; exact HI. }
  destruct e; try discriminate. unfold last2ads_index in HD. destruct (natoms (atoms im) <? length comp) eqn:EL; [discriminate|].
  apply Nat.ltb_ge in EL. destruct (matches im comp _); [|discriminate]. inversion HD; subst. apply in_seq in HI. lia.
Qed.

Lemma detected_from_slab im s l : g_ads (grp im) = None -> g_slab (grp im) = Some s -> detect_adsorbate im = Ok l -> l = others im s.
Proof. intros HA HS HD. unfold detect_adsorbate in HD. rewrite HA, HS in HD. inversion HD. reflexivity. Qed.

Section Layers.
Variable auto_layers : image -> list nat -> list nat.
Notation autogen := (autogen_image auto_layers).

Lemma autogen_layers_keeps im im' : autogen_layers auto_layers im = Ok im' ->
  atoms im' = atoms im /\ g_ads (grp im') = g_ads (grp im) /\ g_slab (grp im') = g_slab (grp im) /\
  g_chemi (grp im') = g_chemi (grp im) /\ g_site (grp im') = g_site (grp im) /\ g_ligand (grp im') = g_ligand (grp im) /\
  (g_bulk (grp im') <> None /\ g_term (grp im') <> None /\ g_subsurf (grp im') <> None).
Proof.
  unfold autogen_layers. intros H.
  assert (HD : forall r, bind (detect_termination auto_layers im) (fun r => let '(b, t, s) := r in
     Ok (set_groups im (Groups (g_ads (grp im)) (g_slab (grp im)) (g_chemi (grp im)) (g_site (grp im)) (g_ligand (grp im))
        (Some b) (Some t) (Some s)))) = Ok r -> atoms r = atoms im /\ g_ads (grp r) = g_ads (grp im) /\ g_slab (grp r) = g_slab (grp im) /\
        g_chemi (grp r) = g_chemi (grp im) /\ g_site (grp r) = g_site (grp im) /\ g_ligand (grp r) = g_ligand (grp im) /\
        (g_bulk (grp r) <> None /\ g_term (grp r) <> None /\ g_subsurf (grp r) <> None)).
  { intros r HR. destruct (detect_termination auto_layers im) as [[[b t] s]|]; [|discriminate]. cbn [bind] in HR.
    inversion HR; subst. cbn. intuition discriminate. }
  destruct (g_bulk (grp im)) eqn:EB; [|apply HD; exact H].
  destruct (g_term (grp im)) eqn:ET; [|apply HD; exact H].
  destruct (g_subsurf (grp im)) eqn:ES; [|apply HD; exact H].
  inversion H; subst. rewrite EB, ET, ES. intuition congruence.
Qed.

Lemma autogen_rest_groups im ads im' : autogen_rest auto_layers im ads = Ok im' ->
  exists slab, slab = (match g_slab (grp im) with Some s => s | None => others im ads end) /\
    length slab + length ads = natoms (atoms im) /\ atoms im' = atoms im /\
    g_ads (grp im') = Some ads /\ g_slab (grp im') = Some slab /\
    (g_bulk (grp im') <> None /\ g_term (grp im') <> None /\ g_subsurf (grp im') <> None) /\
    (missing (g_chemi (grp im)) (g_site (grp im)) (g_ligand (grp im)) ->
     let '(chemi, site, ligand) := info2primary_index im ads slab in
     g_chemi (grp im') = Some chemi /\ g_site (grp im') = Some site /\ g_ligand (grp im') = Some ligand).
Proof.
  unfold autogen_rest. set (slab := match g_slab (grp im) with Some s => s | None => others im ads end). intros H.
  destruct (length slab + length ads =? natoms (atoms im)) eqn:EL; [|discriminate]. apply Nat.eqb_eq in EL. cbn [negb] in H.
  apply autogen_layers_keeps in H. destruct H as (H0 & H1 & H2 & H3 & H4 & H5 & H6).
  exists slab. split; [reflexivity|]. split; [exact EL|].
  assert (HS : forall im1, atoms (autogen_site im1 ads slab) = atoms im1 /\ g_ads (grp (autogen_site im1 ads slab)) = g_ads (grp im1) /\
    g_slab (grp (autogen_site im1 ads slab)) = g_slab (grp im1) /\
    (missing (g_chemi (grp im1)) (g_site (grp im1)) (g_ligand (grp im1)) ->
     let '(chemi, site, ligand) := info2primary_index im1 ads slab in
     g_chemi (grp (autogen_site im1 ads slab)) = Some chemi /\ g_site (grp (autogen_site im1 ads slab)) = Some site /\
     g_ligand (grp (autogen_site im1 ads slab)) = Some ligand)).
  { intros im1. unfold autogen_site, missing. destruct (info2primary_index im1 ads slab) as [[c s] l].
    destruct (g_chemi (grp im1)) eqn:E1, (g_site (grp im1)) eqn:E2, (g_ligand (grp im1)) eqn:E3; cbn; intuition congruence. }
  match type of H0 with atoms im' = atoms (autogen_site ?x _ _) => specialize (HS x) end.
  destruct HS as (A0 & A1 & A2 & A3). rewrite H0, A0, H1, A1, H2, A2.
  split; [reflexivity|]. split; [reflexivity|]. split; [reflexivity|]. split; [exact H6|].
  intros HM. specialize (A3 HM). change (info2primary_index im ads slab) with
    (info2primary_index (set_groups im (Groups (Some ads) (Some slab) (g_chemi (grp im)) (g_site (grp im)) (g_ligand (grp im))
                                   (g_bulk (grp im)) (g_term (grp im)) (g_subsurf (grp im)))) ads slab).
  destruct (info2primary_index _ ads slab) as [[c s] l]. rewrite H3, H4, H5. exact A3.
Qed.

Lemma autogen_cases im im' : autogen im = Ok im' ->
  (g_ads (grp im') = Some [] /\ g_ads (grp im) = None /\ detect_adsorbate im = Ok [] /\ atoms im' = atoms im /\
   g_slab (grp im') = g_slab (grp im) /\ g_site (grp im') = g_site (grp im) /\ g_term (grp im') = g_term (grp im)) \/
  exists ads, detect_adsorbate im = Ok ads /\ autogen_rest auto_layers im ads = Ok im'.
Proof.
  unfold autogen_image. intros H. destruct (g_ads (grp im)) as [a|] eqn:EA.
  { right. exists a. split; [|exact H]. unfold detect_adsorbate. rewrite EA. reflexivity. }
  destruct (detect_adsorbate im) as [l|] eqn:ED; [|discriminate]. cbn [bind] in H.
  destruct (Nat.eqb_spec (length l) 0) as [E|E]; [|right; exists l; auto].
  left. destruct l; [|discriminate]. inversion H; subst. cbn. auto 10.
Qed.

(** ** Theorems *)
(** autogen_info: unless both groups were supplied, the adsorbate and the slab together
    contain every atom exactly once. *)
Theorem autogen_partition : forall im im' slab, autogen im = Ok im' ->
  in_range im (g_ads (grp im)) -> in_range im (g_slab (grp im)) ->
  g_ads (grp im) = None \/ g_slab (grp im) = None ->
  g_slab (grp im') = Some slab -> exists ads, g_ads (grp im') = Some ads /\
    (g_slab (grp im) = None \/ ads <> [] -> partition im' ads slab).
Proof.
  intros im im' slab H HA HS HO HG. apply autogen_cases in H. destruct H as [(H1 & H2 & H3 & H4 & H5 & _)|(ads & HD & HR)].
  { exists []. split; [exact H1|]. intros [HN|HN]; [|congruence]. rewrite HG in H5. congruence. }
  apply autogen_rest_groups in HR. destruct HR as (s & ES & EL & EA & E1 & E2 & _). exists ads. split; [exact E1|]. intros _.
  assert (s = slab) by congruence. subst s. pose proof (detected_in_range im ads HA HD) as HI.
  unfold partition. rewrite EA. destruct (g_slab (grp im)) as [s|] eqn:EG.
  - destruct HO as [HO|HO]; [|discriminate]. apply (detected_from_slab im s ads HO EG) in HD. subst slab. subst ads.
    apply partition_sym. apply others_partition; [|lia]. intros i. apply (HS s i eq_refl).
  - subst slab. apply others_partition; auto.
Qed.
(** If both were supplied, only their sizes are compared. *)
Theorem autogen_supplied_refuted : exists im im', autogen im = Ok im' /\ g_ads (grp im') = Some [0] /\ g_slab (grp im') = Some [0] /\
  natoms (atoms im) = 2.
Proof.
  set (g := Groups (Some [0]) (Some [0]) (Some []) (Some []) (Some []) (Some []) (Some []) (Some [])).
  set (im := Image (Struct [1; 2] []) [] [] None g). exists im, im. repeat split.
Qed.

(** The chemisorbed atoms are the atoms of the adsorbate with a bond to the slab, the site
    atoms those of the slab with a bond to the adsorbate and the ligand atoms the other
    atoms of the slab with a bond to a site atom; each is listed once, in increasing order. *)
Theorem autogen_site_atoms : forall im im' ads slab, autogen im = Ok im' -> missing (g_chemi (grp im)) (g_site (grp im)) (g_ligand (grp im)) ->
  g_ads (grp im') = Some ads -> ads <> [] -> g_slab (grp im') = Some slab ->
  exists chemi site ligand,
    g_chemi (grp im') = Some chemi /\ g_site (grp im') = Some site /\ g_ligand (grp im') = Some ligand /\
    increasing chemi /\ increasing site /\ increasing ligand /\
    (forall i, In i chemi <-> In i ads /\ exists j, In j slab /\ bonded im' i j) /\
    (forall j, In j site <-> In j slab /\ exists i, In i ads /\ bonded im' i j) /\
    (forall k, In k ligand <-> In k slab /\ ~ In k site /\ exists j, In j site /\ bonded im' k j).
Proof.
  intros im im' ads slab H HM HA HN HS. apply autogen_cases in H.
  destruct H as [(H1 & _)|(ads' & HD & HR)]; [rewrite HA in H1; congruence|].
  apply autogen_rest_groups in HR. destruct HR as (s & ES & EL & EA & E1 & E2 & _ & E3).
  assert (ads' = ads) by congruence. assert (s = slab) by congruence. clear ES. subst ads' s. specialize (E3 HM). unfold bonded. rewrite EA.
  unfold info2primary_index in E3.
  set (hits := filter (fun p => (0 <? cm (atoms im) (fst p) (snd p))%Z) (list_prod ads slab)) in E3.
  set (chemi := sorted_set (map fst hits)) in *. set (site := sorted_set (map snd hits)) in *.
  set (lig := concat (map (fun j => filter (fun s => (0 <? cm (atoms im) s j)%Z) slab) site)) in *.
  destruct E3 as (G1 & G2 & G3). exists chemi, site, (filter (fun l => negb (inside l site)) (sorted_set lig)).
  split; [exact G1|]. split; [exact G2|]. split; [exact G3|].
  assert (HH : forall i j, In (i, j) hits <-> In i ads /\ In j slab /\ (0 < cm (atoms im) i j)%Z).
  { intros i j. unfold hits. rewrite filter_In, in_prod_iff, Z.ltb_lt. cbn. tauto. }
  split; [apply sorted_set_spec|]. split; [apply sorted_set_spec|]. split.
  { destruct (sorted_set_spec lig) as (HI & _). revert HI. generalize (sorted_set lig). intros l. induction 1 as [|x l HL IH HF]; cbn [filter]; [constructor|].
    destruct (negb (inside x site)); [|exact IH]. constructor; [exact IH|]. apply Forall_forall. intros y HY. apply filter_In in HY.
    rewrite Forall_forall in HF. apply HF. tauto. }
  split; [|split].
  - intros i. unfold chemi. rewrite (proj2 (sorted_set_spec _)), in_map_iff. split.
    + intros ((x & y) & <- & HI). apply HH in HI. cbn. split; [tauto|]. exists y. tauto.
    + intros (HI & j & HJ & HB). exists (i, j). split; [reflexivity|]. apply HH. auto.
  - intros j. unfold site. rewrite (proj2 (sorted_set_spec _)), in_map_iff. split.
    + intros ((x & y) & <- & HI). apply HH in HI. cbn. split; [tauto|]. exists x. tauto.
    + intros (HJ & i & HI & HB). exists (i, j). split; [reflexivity|]. apply HH. auto.
  - intros k. rewrite filter_In, (proj2 (sorted_set_spec _)), inside_out. unfold lig. rewrite in_concat. split.
    + intros ((l & HL & HI) & HO). apply in_map_iff in HL. destruct HL as (j & <- & HJ). apply filter_In in HI.
      destruct HI as (HI & HB). apply Z.ltb_lt in HB. split; [exact HI|]. split; [exact HO|]. exists j. auto.
    + intros (HK & HO & j & HJ & HB). split; [|exact HO]. eexists. split; [apply in_map_iff; exists j; split; [reflexivity|exact HJ]|].
      apply filter_In. split; [exact HK|apply Z.ltb_lt; exact HB].
Qed.

(** An image in which no adsorbate is found is returned without the other groups. *)
Theorem autogen_no_adsorbate_refuted : forall im, grp im = no_groups -> detect_adsorbate im = Ok [] ->
  exists im', autogen im = Ok im' /\ g_slab (grp im') = None /\ g_site (grp im') = None /\ g_term (grp im') = None.
Proof.
  intros im HG HD. unfold autogen_image. rewrite HG, HD. cbn. eexists. split; [reflexivity|]. cbn. auto.
Qed.
(** Without tags, constraints and number of layers, every image with an adsorbate fails. *)
Theorem autogen_no_layers_refuted : forall im im', ~ tagged_layers im 0 -> length (fixed im) <> 1 ->
  (forall p, kvp im = Some p -> kv_layers p = None) -> missing (g_bulk (grp im)) (g_term (grp im)) (g_subsurf (grp im)) ->
  autogen im = Ok im' -> g_ads (grp im') = Some [].
Proof.
  intros im im' HT HF HK HM H. apply not_many_tags in HT. apply autogen_cases in H. destruct H as [(H & _)|(ads & _ & HR)]; [exact H|]. exfalso.
  unfold autogen_rest in HR. destruct (negb _); [discriminate|].
  match type of HR with autogen_layers _ ?x = _ => set (y := x) in HR end.
  assert (HY : many_tags y 0 = false /\ fixed y = fixed im /\ kvp y = kvp im /\ missing (g_bulk (grp y)) (g_term (grp y)) (g_subsurf (grp y))).
  { unfold y, autogen_site. cbn. destruct (g_chemi (grp im)), (g_site (grp im)), (g_ligand (grp im)); cbn; auto. }
  clearbody y. destruct HY as (HT' & HF' & HK' & HM'). unfold autogen_layers in HR.
  assert (HD : detect_termination auto_layers y = Err NotImplementedError).
  { unfold detect_termination. rewrite HT', HF', HK'. destruct (kvp im) as [[s l]|] eqn:EK.
    - pose proof (HK _ eq_refl) as HL. cbn in HL. subst l. destruct (fixed im) as [|c [|c' t]]; try reflexivity. cbn in HF. congruence.
    - destruct (fixed im) as [|c [|c' t]]; try reflexivity. cbn in HF. congruence. }
  rewrite HD in HR. unfold missing in HM'. destruct (g_bulk (grp y)), (g_term (grp y)), (g_subsurf (grp y)); try discriminate.
  intuition discriminate.
Qed.

(** ** Layers *)
(** termination_info exchanges the outermost and the second layer: the atoms stored as
    termination are those that autogen_info stores as subsurface atoms. *)
Theorem termination_info_exchanges : forall im im' bulk term subsurf,
  termination_info auto_layers im = Ok im' -> detect_termination auto_layers im = Ok (bulk, term, subsurf) ->
  g_term (grp im') = Some subsurf /\ g_subsurf (grp im') = Some term /\ g_bulk (grp im') = Some bulk.
Proof. intros im im' b t s H HD. unfold termination_info in H. rewrite HD in H. inversion H; subst. cbn. auto. Qed.

Lemma subsurf_in im bulk term b : In b (sorted_set (concat (map (fun b => concat (map (fun t =>
    if negb (t =? b) && (0 <? cm (atoms im) t b)%Z then [b] else []) term)) bulk))) <->
  In b bulk /\ exists t, In t term /\ t <> b /\ bonded im t b.
Proof.
  rewrite (proj2 (sorted_set_spec _)), in_concat. split.
  - intros (l & HL & HI). apply in_map_iff in HL. destruct HL as (x & <- & HX). apply in_concat in HI. destruct HI as (m & HM & HI).
    apply in_map_iff in HM. destruct HM as (t & <- & HT). destruct (Nat.eqb_spec t x) as [E|E]; [destruct HI|].
    cbn in HI. destruct (Z.ltb_spec 0 (cm (atoms im) t x)) as [HB|HB]; [|destruct HI]. destruct HI as [->|[]]. split; [exact HX|].
    exists t. auto.
  - intros (HB & t & HT & HN & HC). eexists. split; [apply in_map_iff; exists b; split; [reflexivity|exact HB]|].
    apply in_concat. eexists. split; [apply in_map_iff; exists t; split; [reflexivity|exact HT]|].
    destruct (Nat.eqb_spec t b) as [E|E]; [congruence|]. cbn. apply Z.ltb_lt in HC. rewrite HC. left. reflexivity.
Qed.

(** The number of bonds of an atom to other atoms of the slab. *)
Definition slab_bonds (im : image) (slab : list nat) (i : nat) : nat :=
  length (filter (fun j => negb (j =? i) && negb (cm (atoms im) i j =? 0)%Z) slab).
Lemma slab_bonds_coord im slab i : coord im slab i = slab_bonds im slab i.
Proof. unfold coord, slab_bonds, connected. f_equal. apply filter_ext. intros j. rewrite (Nat.eqb_sym j i). reflexivity. Qed.
Lemma max_coord_le im slab n : max_coord im slab <= n <-> forall k, In k slab -> slab_bonds im slab k <= n.
Proof.
  unfold max_coord. setoid_rewrite <- slab_bonds_coord. generalize (coord im slab). intros f.
  induction slab as [|x l IH]; cbn [map fold_right]; [split; [intros _ k []|lia]|].
  rewrite Nat.max_lub_iff, IH. split; [intros (H1 & H2) k [<-|HK]; auto|intros H; split; [apply H; left; reflexivity|intros k HK; apply H; right; exact HK]].
Qed.

(** The layers of autogen_info: by tags, atoms tagged 1, 2 and more than 1; by constraint,
    the slab is divided into bulk and termination, and the subsurface atoms are those
    of the bulk with a bond to the termination. *)
Theorem layers_by_tags : forall im, tagged_layers im 0 -> exists bulk term subsurf,
  detect_termination auto_layers im = Ok (bulk, term, subsurf) /\ increasing bulk /\ increasing term /\ increasing subsurf /\
  forall i, (In i term <-> i < natoms (atoms im) /\ tag im i = 1%Z) /\ (In i subsurf <-> i < natoms (atoms im) /\ tag im i = 2%Z) /\
            (In i bulk <-> i < natoms (atoms im) /\ (2 <= tag im i)%Z).
Proof.
  intros im HT. apply many_tags_spec in HT. unfold detect_termination. rewrite HT. unfold tags_termination.
  assert (HI : forall f, increasing (filter f (indices im))).
  { intros f. unfold indices. generalize (natoms (atoms im)) as n, 0. induction n as [|n IH]; intros s; cbn [seq filter]; [constructor|].
    assert (HS : increasing (filter f (seq (S s) n))) by apply IH. destruct (f s); [|exact HS]. constructor; [exact HS|].
    apply Forall_forall. intros y HY. apply filter_In in HY. destruct HY as (HY & _). apply in_seq in HY. lia. }
  do 3 eexists. split; [reflexivity|]. do 3 (split; [apply HI|]).
  intros i. rewrite !filter_In. unfold indices. rewrite in_seq, !Z.eqb_eq, Z.ltb_lt. intuition lia.
Qed.
Theorem layers_by_constraint : forall im con slab, ~ tagged_layers im 0 -> fixed im = [con] -> g_slab (grp im) = Some slab -> slab <> [] ->
  exists bulk term subsurf, detect_termination auto_layers im = Ok (bulk, term, subsurf) /\
    Permutation (bulk ++ term) slab /\ increasing subsurf /\
    (* bulk: fixed, or at most two bonds fewer than any other atom of the slab *)
    (forall i, In i bulk <-> In i slab /\ (In i con \/ forall k, In k slab -> slab_bonds im slab k <= slab_bonds im slab i + 2)) /\
    (forall b, In b subsurf <-> In b bulk /\ exists t, In t term /\ t <> b /\ bonded im t b).
Proof.
  intros im con slab HT HF HS HN. apply not_many_tags in HT. unfold detect_termination. rewrite HT, HF, HS. unfold constraints_termination.
  destruct slab as [|x slab']; [congruence|]. cbn [length Nat.eqb]. set (slab := x :: slab') in *.
  do 3 eexists. split; [reflexivity|]. split; [|split; [|split]].
  - generalize (is_bulk im con slab). intros f. generalize slab. induction slab0 as [|y l IH]; cbn [filter]; [constructor|].
    destruct (f y); cbn [negb app]; [apply perm_skip, IH|].
    apply Permutation_sym, Permutation_cons_app, Permutation_sym, IH.
  - apply sorted_set_spec.
  - intros i. rewrite filter_In. unfold is_bulk. rewrite orb_true_iff, inside_in, Nat.leb_le, slab_bonds_coord.
    assert (HM : max_coord im slab - 2 <= slab_bonds im slab i <-> forall k, In k slab -> slab_bonds im slab k <= slab_bonds im slab i + 2).
    { rewrite <- max_coord_le. lia. }
    rewrite HM. reflexivity.
  - intros b. apply subsurf_in.
Qed.
Theorem layers_need_slab : forall im con, ~ tagged_layers im 0 -> fixed im = [con] ->
  (g_slab (grp im) = Some [] -> detect_termination auto_layers im = Err ValueError) /\
  (g_slab (grp im) = None -> detect_termination auto_layers im = Err KeyError).
Proof.
  intros im con HT HF. apply not_many_tags in HT. unfold detect_termination. rewrite HT, HF.
  split; intros HS; rewrite HS; reflexivity.
Qed.
(** By height: the outermost layer without the adsorbate, the second layer, and all layers
    but the outermost; layers are counted among the atoms that are not of the adsorbate. *)
Theorem layers_by_number : forall im slab ads s n, ~ tagged_layers im 0 -> length (fixed im) <> 1 ->
  kvp im = Some (Pairs s (Some n)) -> g_slab (grp im) = Some slab -> g_ads (grp im) = Some ads ->
  (* the layers of the other atoms are numbered 0, 1, .., top *)
  forall top, let layer i := nth i (auto_layers im slab) 0 in
  (forall l, l <= top <-> exists i, i < natoms (atoms im) /\ ~ In i ads /\ layer i = l) ->
  exists bulk term subsurf, detect_termination auto_layers im = Ok (bulk, term, subsurf) /\
    forall i, (In i term <-> i < natoms (atoms im) /\ ~ In i ads /\ layer i = top) /\
              (In i subsurf <-> i < natoms (atoms im) /\ S (layer i) = top) /\
              (In i bulk <-> i < natoms (atoms im) /\ layer i < top).
Proof.
  intros im slab ads s n HT HF HK HS HA top layer HL. apply not_many_tags in HT. unfold detect_termination. rewrite HT, HK, HS, HA.
  assert (HN : length (nodup Nat.eq_dec (map layer (others im ads))) = S top).
  { rewrite <- (seq_length (S top) 0). apply Permutation_length. apply NoDup_Permutation; [apply NoDup_nodup|apply seq_NoDup|].
    intros l. rewrite nodup_In, in_map_iff, in_seq. assert (HQ : 0 <= l < 0 + S top <-> l <= top) by lia. rewrite HQ, HL.
    split; intros (i & H); exists i; rewrite others_in in *; tauto. }
  assert (HD : (match fixed im with [con] => constraints_termination im con slab | _ => Ok (layers_termination auto_layers im ads slab) end) = Ok (layers_termination auto_layers im ads slab)).
  { destruct (fixed im) as [|c [|c' t]]; try reflexivity. cbn in HF. congruence. }
  rewrite HD. unfold layers_termination. fold layer. change (fun i => nth i (auto_layers im slab) 0) with layer. rewrite HN.
  do 3 eexists. split; [reflexivity|]. intros i. rewrite !filter_In, andb_true_iff, negb_true_iff, !Z.leb_le, Z.eqb_eq. unfold indices. rewrite in_seq.
  assert (HI : inside i ads = false <-> ~ In i ads) by (rewrite <- inside_in; destruct (inside i ads); intuition congruence).
  rewrite HI. assert (HB : i < natoms (atoms im) -> ~ In i ads -> layer i <= top) by (intros; apply HL; eauto).
  unfold layer in *. clear -HB. set (v := nth i (auto_layers im slab) 0) in *. clearbody v. split; [|split]; (split; intros HX); decompose [and] HX; repeat split; auto; try lia.
  apply Nat.le_antisymm; [auto|lia].
Qed.
(** By number of layers, an atom of the adsorbate can be listed as a bulk atom. *)
Definition layered : image := Image (Struct [29; 29; 1] []) [0; 0; 0]%Z [] (Some (Pairs None (Some 2%Z)))
  (Groups (Some [2]) (Some [0; 1]) None None None None None None).
End Layers.

Theorem layers_with_adsorbate_refuted : exists bulk term subsurf,
  detect_termination (fun _ _ => [0; 1; 0]) layered = Ok (bulk, term, subsurf) /\ g_ads (grp layered) = Some [2] /\ In 2 bulk.
Proof. do 3 eexists. split; [reflexivity|]. split; [reflexivity|]. cbn. auto. Qed.

(** ** Identification of the adsorbate *)
Lemma matches_perm im comp l : matches im comp l = true -> Permutation comp (map (elem im) l).
Proof.
  unfold matches. destruct (list_eq_dec _ _ _) as [E|]; [|discriminate]. intros _.
  rewrite <- (isort_perm Nat.leb comp), E. apply isort_perm.
Qed.
Lemma perm_matches im comp l : Permutation comp (map (elem im) l) -> matches im comp l = true.
Proof.
  intros HP. unfold matches. destruct (list_eq_dec _ _ _) as [E|E]; [reflexivity|]. exfalso. apply E.
  assert (HT : total_preorder Nat.leb) by (split; [intros x y; rewrite !Nat.leb_le; lia|intros x y z; rewrite !Nat.leb_le; lia]).
  assert (HL : forall m, StronglySorted le (isort Nat.leb m)).
  { clear -HT. intros m. pose proof (isort_sorted HT m) as H. induction H as [|x m' HS IH HF]; constructor; auto.
    eapply Forall_impl; [|exact HF]. intros y HY. apply Nat.leb_le, HY. }
  apply (@sorted_perm_unique nat le); [intros; lia|intros; lia| | |].
  - apply (HL comp).
  - apply HL.
  - rewrite !isort_perm. exact HP.
Qed.

(** The atoms of a list of elements, if no other atoms are of these elements: their number
    per element is that of the formula. *)
Lemma count_filter (f : nat -> nat) comp z : forall l, In z comp ->
  count z (map f (filter (fun i => inside (f i) comp) l)) = count z (map f l).
Proof.
  intros l HZ. induction l as [|x l IH]; [reflexivity|]. cbn [filter map].
  destruct (inside (f x) comp) eqn:E; cbn [map]; unfold count in *; cbn [filter].
  - destruct (Nat.eqb z (f x)); cbn [length]; [f_equal|]; exact IH.
  - destruct (Nat.eqb_spec z (f x)) as [->|]; [apply inside_in in HZ; congruence|exact IH].
Qed.
Lemma count_occ_count z l : count z l = count_occ Nat.eq_dec l z.
Proof.
  unfold count. induction l as [|x l IH]; [reflexivity|]. cbn [filter count_occ].
  destruct (Nat.eqb_spec z x) as [E0|HN]; destruct (Nat.eq_dec x z) as [E|E]; try congruence; cbn [length]; rewrite ?IH; congruence.
Qed.
Lemma elems_all im : map (elem im) (indices im) = numbers (atoms im).
Proof.
  unfold indices, elem, zat, natoms. apply nth_ext with (d := nth 0 (numbers (atoms im)) 0) (d' := 0).
  { rewrite map_length, seq_length. reflexivity. }
  intros i HI. rewrite map_length, seq_length in HI.
  rewrite (map_nth (fun i => nth i (numbers (atoms im)) 0)). rewrite seq_nth by exact HI. reflexivity.
Qed.

(** detect_adsorbate, by the formula of the species: if the structure has as many atoms of
    each element of the formula as the formula, these atoms are the adsorbate. *)
Theorem adsorbate_by_formula : forall im s comp k, grp im = no_groups -> ~ tagged_layers im (-1) ->
  kvp im = Some (Pairs (Some s) k) -> sp_empty s = false -> sp_coads s = false -> sp_formula s = Ok comp ->
  (forall z, In z comp -> count_occ Nat.eq_dec (numbers (atoms im)) z = count_occ Nat.eq_dec comp z) ->
  exists ads, detect_adsorbate im = Ok ads /\ Permutation comp (map (elem im) ads) /\ increasing ads /\
    forall i, In i ads <-> i < natoms (atoms im) /\ In (elem im i) comp.
Proof.
  intros im s comp k HG HT HK HE HC HF HN. apply not_many_tags in HT. unfold detect_adsorbate. rewrite HG, HT, HK, HE, HC, HF. cbn [bind g_ads g_slab no_groups].
  set (ads := filter (fun i => inside (elem im i) comp) (indices im)).
  assert (HP : Permutation comp (map (elem im) ads)).
  { apply (Permutation_count_occ Nat.eq_dec). intros z. destruct (in_dec Nat.eq_dec z comp) as [HZ|HZ].
    - rewrite <- (HN z HZ), <- !count_occ_count, <- (elems_all im). symmetry. apply count_filter. exact HZ.
    - rewrite (proj1 (count_occ_not_In Nat.eq_dec comp z) HZ). symmetry. apply count_occ_not_In. intros HI. apply in_map_iff in HI.
      destruct HI as (i & <- & HI). apply filter_In in HI. destruct HI as (_ & HI). apply inside_in in HI. contradiction. }
  exists ads. unfold formula2ads_index. fold ads. rewrite (perm_matches im comp ads HP). split; [reflexivity|]. split; [exact HP|]. split.
  - unfold ads, indices. generalize (natoms (atoms im)) as n, 0. induction n as [|n IH]; intros st; cbn [seq filter]; [constructor|].
    assert (HS : increasing (filter (fun i => inside (elem im i) comp) (seq (S st) n))) by apply IH.
    destruct (inside (elem im st) comp); [|exact HS]. constructor; [exact HS|].
    apply Forall_forall. intros y HY. apply filter_In in HY. destruct HY as (HY & _). apply in_seq in HY. lia.
  - intros i. unfold ads. rewrite filter_In, inside_in. unfold indices. rewrite in_seq. intuition lia.
Qed.
(** By tags, the adsorbate has the composition of the species, or the call fails. *)
Theorem adsorbate_by_tags : forall im s k l, grp im = no_groups -> tagged_layers im (-1) ->
  kvp im = Some (Pairs (Some s) k) -> detect_adsorbate im = Ok l ->
  exists comp, sp_formula s = Ok comp /\ Permutation comp (map (elem im) l) /\
    forall i, In i l <-> i < natoms (atoms im) /\ (tag im i < 0)%Z.
Proof.
  intros im s k l HG HT HK HD. apply many_tags_spec in HT. unfold detect_adsorbate, tags2ads_index in HD. rewrite HG, HT, HK in HD. cbn [g_ads g_slab no_groups] in HD.
  destruct (sp_formula s) as [comp|]; [|discriminate]. cbn [bind] in HD.
  set (ads := filter (fun i => (tag im i <? 0)%Z) (indices im)) in *.
  destruct (matches im comp ads) eqn:EM; [|discriminate]. inversion HD; subst l. exists comp. split; [reflexivity|].
  split; [apply matches_perm; exact EM|]. intros i. unfold ads. rewrite filter_In, Z.ltb_lt. unfold indices. rewrite in_seq. intuition lia.
Qed.
(** H, C, O, N, S, F, Cl, P, Na, K *)
Definition usual_elements : list nat := [1; 6; 7; 8; 9; 11; 15; 16; 17; 19].
(** Without tags, species and groups, the adsorbate consists of the atoms of the elements
    that are usual in adsorbates. *)
Theorem adsorbate_by_symbol : forall im, grp im = no_groups -> ~ tagged_layers im (-1) ->
  (forall p, kvp im = Some p -> kv_species p = None) ->
  exists ads, detect_adsorbate im = Ok ads /\ increasing ads /\
    forall i, In i ads <-> i < natoms (atoms im) /\ In (elem im i) usual_elements.
Proof.
  intros im HG HT HK. apply not_many_tags in HT. unfold detect_adsorbate. rewrite HG, HT. cbn [g_ads g_slab no_groups].
  exists (sym2ads_index im ads_syms). split; [destruct (kvp im) as [[[s|] l]|]; try reflexivity; discriminate (HK _ eq_refl)|].
  unfold sym2ads_index. split.
  { unfold indices. generalize (natoms (atoms im)) as n, 0. induction n as [|n IH]; intros st; cbn [seq filter]; [constructor|].
    assert (HS : increasing (filter (fun i => inside (elem im i) ads_syms) (seq (S st) n))) by apply IH.
    destruct (inside (elem im st) ads_syms); [|exact HS]. constructor; [exact HS|].
    apply Forall_forall. intros y HY. apply filter_In in HY. destruct HY as (HY & _). apply in_seq in HY. lia. }
  intros i. rewrite filter_In, inside_in. unfold indices. rewrite in_seq. unfold ads_syms, usual_elements. cbn [In]. intuition lia.
Qed.
(** Where neither the elements nor the bonds tell the adsorbate, it consists of the last atoms. *)
Theorem adsorbate_by_last : forall im s comp k l, grp im = no_groups -> ~ tagged_layers im (-1) ->
  kvp im = Some (Pairs (Some s) k) -> sp_empty s = false -> sp_coads s = false -> sp_formula s = Ok comp -> comp <> [] ->
  (forall z, In z comp -> count_occ Nat.eq_dec (numbers (atoms im)) z <> count_occ Nat.eq_dec comp z) ->
  detect_adsorbate im = Ok l <->
    (length comp <= natoms (atoms im) /\ l = seq (natoms (atoms im) - length comp) (length comp) /\ Permutation comp (map (elem im) l)).
Proof.
  intros im s comp k l HG HT HK HE HC HF H0 HN. apply not_many_tags in HT. unfold detect_adsorbate. rewrite HG, HT, HK, HE, HC, HF. cbn [bind g_ads g_slab no_groups].
  assert (H1 : formula2ads_index im comp = Err AssertionError).
  { unfold formula2ads_index. destruct (matches im comp _) eqn:EM; [|reflexivity]. exfalso. apply matches_perm in EM.
    destruct comp as [|z comp']; [congruence|]. apply (HN z (or_introl eq_refl)).
    rewrite (proj1 (Permutation_count_occ Nat.eq_dec _ _) EM z), <- !count_occ_count, <- (elems_all im). symmetry. apply count_filter. left. reflexivity. }
  assert (H2 : connectivity2ads_index im comp = Err AssertionError).
  { unfold connectivity2ads_index.
    assert (HO : concat (map (fun z => if count z comp =? count z (numbers (atoms im)) then filter (fun i => elem im i =? z) (indices im) else []) comp) = []).
    { assert (HG' : forall m, (forall z, In z m -> In z comp) -> concat (map (fun z => if count z comp =? count z (numbers (atoms im)) then filter (fun i => elem im i =? z) (indices im) else []) m) = []).
      { induction m as [|z m IH]; intros HM; [reflexivity|]. cbn [map concat]. rewrite IH by (intros; apply HM; right; auto).
        destruct (Nat.eqb_spec (count z comp) (count z (numbers (atoms im)))) as [E|E]; [|reflexivity]. rewrite !count_occ_count in E.
        exfalso. apply (HN z); [apply HM; left; reflexivity|congruence]. }
      apply HG'. auto. }
    rewrite HO. destruct comp; [congruence|reflexivity]. }
  rewrite H1, H2. cbn [or_else]. unfold last2ads_index. destruct (Nat.ltb_spec (natoms (atoms im)) (length comp)) as [HL|HL].
  { split; [discriminate|intros (HL' & _); lia]. }
  destruct (matches im comp _) eqn:EM.
  - apply matches_perm in EM. split; [intros HD; inversion HD; subst l; auto|intros (_ & -> & _); reflexivity].
  - split; [discriminate|]. intros (_ & -> & HP). apply perm_matches in HP. congruence.
Qed.
(** Where the structure has as many atoms of some elements of the formula as the formula, but
    more or fewer of others, the adsorbate consists of the atoms of the former elements, and of the atoms
    with an element of the formula and a bond to these. *)
Theorem adsorbate_by_bonds : forall im s comp k, grp im = no_groups -> ~ tagged_layers im (-1) ->
  kvp im = Some (Pairs (Some s) k) -> sp_empty s = false -> sp_coads s = false -> sp_formula s = Ok comp -> NoDup comp ->
  let own z := In z comp /\ count_occ Nat.eq_dec (numbers (atoms im)) z = 1 in
  (exists z, own z) -> (exists z, In z comp /\ ~ own z) ->
  exists ads, detect_adsorbate im = Ok ads /\ increasing ads /\
    forall i, In i ads <-> i < natoms (atoms im) /\
      (own (elem im i) \/ In (elem im i) comp /\ exists a, a < natoms (atoms im) /\ own (elem im a) /\ bonded im a i).
Proof.
  intros im s comp k HG HT HK HE HC HF HD own (z1 & H1) (z2 & H2 & H2'). apply not_many_tags in HT.
  unfold detect_adsorbate. rewrite HG, HT, HK, HE, HC, HF. cbn [bind g_ads g_slab no_groups].
  assert (HO : forall z, In z comp -> (count z comp =? count z (numbers (atoms im))) = true <-> own z).
  { intros z HZ. unfold own. rewrite Nat.eqb_eq, !count_occ_count, (proj1 (NoDup_count_occ' Nat.eq_dec comp) HD z HZ). intuition congruence. }
  assert (HF1 : formula2ads_index im comp = Err AssertionError).
  { unfold formula2ads_index. destruct (matches im comp _) eqn:EM; [|reflexivity]. exfalso. apply matches_perm in EM.
    apply H2'. apply (HO _ H2). apply Nat.eqb_eq. rewrite (count_occ_count z2 comp), (proj1 (Permutation_count_occ Nat.eq_dec _ _) EM z2), <- !count_occ_count, <- (elems_all im).
    apply count_filter. exact H2. }
  rewrite HF1. cbn [or_else]. unfold connectivity2ads_index.
  set (f := fun z => if count z comp =? count z (numbers (atoms im)) then filter (fun i => elem im i =? z) (indices im) else []).
  assert (HI : forall i, In i (concat (map f comp)) <-> i < natoms (atoms im) /\ own (elem im i)).
  { intros i. rewrite in_concat. split.
    - intros (l & HL & HI). apply in_map_iff in HL. destruct HL as (z & <- & HZ). unfold f in HI.
      destruct (count z comp =? count z (numbers (atoms im))) eqn:EC; [|destruct HI]. apply (HO _ HZ) in EC.
      apply filter_In in HI. destruct HI as (HI & HE'). apply Nat.eqb_eq in HE'. unfold indices in HI. apply in_seq in HI. rewrite HE'. split; [lia|exact EC].
    - intros (HI & HW). exists (f (elem im i)). destruct HW as (HW1 & HW2). split; [apply in_map; exact HW1|].
      unfold f. rewrite (proj2 (HO _ HW1) (conj HW1 HW2)). apply filter_In. split; [apply in_seq; lia|apply Nat.eqb_refl]. }
  assert (HFL : forall z, length (f z) <= 1 /\ (In z comp -> ~ own z -> length (f z) = 0)).
  { intros z. unfold f. destruct (count z comp =? count z (numbers (atoms im))) eqn:EC; [|split; [apply Nat.le_0_l|reflexivity]].
    split; [|intros HZ HW; exfalso; apply HW, (HO _ HZ), EC].
    assert (HL : length (filter (fun i => elem im i =? z) (indices im)) = count z (numbers (atoms im))).
    { rewrite <- (elems_all im). unfold count. generalize (indices im). induction l as [|x l IH]; [reflexivity|]. cbn [map filter].
      rewrite (Nat.eqb_sym z (elem im x)). destruct (elem im x =? z); cbn [length]; congruence. }
    rewrite HL. apply Nat.eqb_eq in EC. rewrite <- EC, count_occ_count. apply (proj1 (NoDup_count_occ Nat.eq_dec comp) HD). }
  assert (HLT : length (concat (map f comp)) < length comp).
  { clear -HFL H2 H2'. assert (G : forall m, length (concat (map f m)) <= length m).
    { induction m as [|z m IH]; [apply le_n|]. cbn [map concat length]. rewrite app_length. pose proof (proj1 (HFL z)). lia. }
    apply in_split in H2 as HS. destruct HS as (a & b & ->). rewrite map_app, concat_app, !app_length. cbn [map concat length]. rewrite app_length.
    rewrite (proj2 (HFL z2) H2 H2'). pose proof (G a). pose proof (G b). lia. }
  destruct (Nat.eqb_spec (length (concat (map f comp))) (length comp)) as [E|_]; [lia|].
  assert (HNE : exists a, In a (concat (map f comp))).
  { assert (HZ : In z1 (map (elem im) (indices im))).
    { rewrite elems_all. apply (count_occ_In Nat.eq_dec). destruct H1. lia. }
    apply in_map_iff in HZ. destruct HZ as (a & HA & HA'). exists a. apply HI. unfold indices in HA'. apply in_seq in HA'. rewrite HA. split; [lia|exact H1]. }
  destruct (Nat.eqb_spec (length (concat (map f comp))) 0) as [E|_].
  { destruct HNE as (a & HA). destruct (concat (map f comp)); [destruct HA|discriminate]. }
  eexists. split; [reflexivity|]. split; [apply sorted_set_spec|]. intros i.
  rewrite (proj2 (sorted_set_spec _) i), in_app_iff, HI, in_concat. split.
  - intros [(HX & HW)|(l & HL & HIL)]; [auto|]. apply in_map_iff in HL. destruct HL as (a & <- & HA). apply HI in HA.
    apply filter_In in HIL. rewrite !andb_true_iff, Z.ltb_lt, inside_in in HIL. destruct HIL as (HX & (HB & HIC) & _).
    unfold indices in HX. apply in_seq in HX. split; [lia|]. right. split; [exact HIC|]. exists a. split; [tauto|]. split; [tauto|exact HB].
  - intros (HX & [HW|(HIC & a & HA & HW & HB)]); [auto|].
    destruct (Nat.eq_dec (elem im i) (elem im a)) as [E|E]; [left; rewrite E; auto|]. right. eexists. split.
    + apply in_map, HI. split; [exact HA|exact HW].
    + apply filter_In. split; [apply in_seq; lia|]. rewrite !andb_true_iff, Z.ltb_lt, inside_in. split; [split; [exact HB|exact HIC]|].
      apply negb_true_iff, Nat.eqb_neq, E.
Qed.
(** If an element also occurs in the slab, the composition is not checked: carbon monoxide
    on an oxide with a bond to a surface oxygen has three atoms, and of hydrogen peroxide
    only the hydrogen atoms are found, each of them twice. *)
Definition with_formula (a : struct) (l : list nat) : image :=
  Image a [] [] (Some (Pairs (Some (Species false false (Ok l))) None)) no_groups.
Definition co_on_oxide : image := with_formula (Struct [12; 8; 6; 8]
  [[0; 1; 0; 0]; [1; 0; 1; 0]; [0; 1; 0; 1]; [0; 0; 1; 0]]%Z) [6; 8].
Definition peroxide_on_oxide : image := with_formula (Struct [12; 8; 1; 8; 8; 1]
  [[0; 1; 0; 0; 0; 0]; [1; 0; 0; 1; 0; 0]; [0; 0; 0; 1; 0; 0]; [0; 1; 1; 0; 1; 0]; [0; 0; 0; 1; 0; 1]; [0; 0; 0; 0; 1; 0]]%Z) [1; 1; 8; 8].
Theorem adsorbate_composition_refuted :
  detect_adsorbate co_on_oxide = Ok [1; 2; 3] /\ map (elem co_on_oxide) [1; 2; 3] = [8; 6; 8] /\
  detect_adsorbate peroxide_on_oxide = Ok [2; 5; 2; 5].
Proof. repeat split. Qed.

(** layers2ads_index and z2ads_index: the composition is that of the species; the second
    returns the highest atoms.  [leb] compares the z coordinates. *)
Definition argsort_of {T} (leb : T -> T -> bool) (z : nat -> T) (n : nat) (order : list nat) : Prop :=
  Permutation order (seq 0 n) /\ StronglySorted (fun i j => leb (z i) (z j) = true) order.
Theorem adsorbate_by_height : forall {T} (leb : T -> T -> bool) (z : nat -> T) im order comp l, comp <> [] ->
  argsort_of leb z (natoms (atoms im)) order -> z2ads_index im order comp = Ok l ->
  Permutation comp (map (elem im) l) /\ NoDup l /\ (forall i, In i l -> i < natoms (atoms im)) /\
  forall i j, In i l -> j < natoms (atoms im) -> ~ In j l -> leb (z j) (z i) = true.
Proof.
  intros T leb z im order comp l HC (HP & HS) H. unfold z2ads_index in H. destruct comp as [|c t]; [congruence|]. cbn [length Nat.eqb] in H.
  set (comp := c :: t) in *. set (k := length order - S (length t)) in *.
  destruct (matches im comp (skipn k order)) eqn:EM; [|discriminate]. inversion H; subst l.
  assert (HN : NoDup order) by (apply (Permutation_NoDup (Permutation_sym HP)), seq_NoDup).
  pose proof (firstn_skipn k order) as HO. split; [apply matches_perm; exact EM|]. split.
  { rewrite <- HO in HN. apply NoDup_app_inv in HN. tauto. }
  split.
  { intros i HI. assert (HI' : In i order) by (rewrite <- HO; apply in_or_app; auto). apply (Permutation_in _ HP) in HI'. apply in_seq in HI'. lia. }
  intros i j HI HJ HNJ. assert (HJ' : In j order) by (apply (Permutation_in _ (Permutation_sym HP)), in_seq; lia).
  rewrite <- HO in HJ'. apply in_app_or in HJ'. destruct HJ' as [HJ'|HJ']; [|contradiction].
  rewrite <- HO in HS. revert HS HJ'. generalize (firstn k order). induction l as [|x l IH]; intros HS HJ'; [destruct HJ'|].
  cbn [app] in HS. inversion HS as [|u v HS' HF]; subst. destruct HJ' as [->|HJ']; [|apply IH; auto].
  rewrite Forall_forall in HF. apply HF. apply in_or_app. auto.
Qed.
Theorem adsorbate_by_layers : forall auto_layers im slab layers comp l, layers2ads_index auto_layers im slab layers comp = Ok l ->
  Permutation comp (map (elem im) l) /\
  forall i, In i l <-> i < natoms (atoms im) /\ (layers <= Z.of_nat (nth i (auto_layers im slab) O))%Z.
Proof.
  intros al im slab layers comp l H. unfold layers2ads_index in H.
  destruct (matches im comp _) eqn:EM; [|discriminate]. inversion H; subst l. split; [apply matches_perm; exact EM|].
  intros i. rewrite filter_In, Z.ltb_lt. unfold indices. rewrite in_seq. intuition lia.
Qed.

(** ** check_reconstructions *)
Definition same_bonds (im : image) (slab : list nat) (reference : image) : Prop :=
  forall i j, i < length slab -> j < length slab ->
    cm (atoms im) (nth i slab 0) (nth j slab 0) = cm (atoms reference) i j.
Lemma compare_same im slab reference : length slab = natoms (atoms reference) ->
  exists b, compare_slab_connectivity im slab reference = Ok b /\ (b = true <-> same_bonds im slab reference).
Proof.
  intros HL. unfold compare_slab_connectivity, allclose. rewrite HL, Nat.eqb_refl. eexists. split; [reflexivity|].
  rewrite forallb_forall. unfold same_bonds. rewrite HL. split.
  - intros H i j HI HJ. specialize (H (i, j)). cbn in H. apply Z.eqb_eq. apply H. apply in_prod; apply in_seq; lia.
  - intros H (i & j) HI. cbn. apply in_prod_iff in HI. rewrite !in_seq in HI. apply Z.eqb_eq, H; lia.
Qed.
(** The positions of exactly those pairs are returned for which the connectivity of the
    slab differs from that of the reference, if these have the same number of atoms; other
    numbers of atoms are an error. *)
Theorem reconstructions_found : forall l,
  (forall im slab reference, In (im, slab, reference) l -> length slab = natoms (atoms reference)) ->
  exists r, check_reconstructions l = Ok r /\ increasing r /\
    forall k, In k r <-> exists im slab reference, nth_error l k = Some (im, slab, reference) /\ ~ same_bonds im slab reference.
Proof.
  intros l HL. unfold check_reconstructions.
  assert (G : forall l s, (forall im slab reference, In (im, slab, reference) l -> length slab = natoms (atoms reference)) ->
    exists r, check_from s l = Ok r /\ increasing r /\
    forall k, In k r <-> s <= k /\ exists im slab reference, nth_error l (k - s) = Some (im, slab, reference) /\ ~ same_bonds im slab reference).
  { clear. induction l as [|[[im slab] reference] t IH]; intros s HL.
    - exists []. split; [reflexivity|]. split; [constructor|]. intros k. split; [intros []|]. intros (_ & a & b & c & H & _).
      destruct (k - s); discriminate.
    - destruct (compare_same im slab reference (HL _ _ _ (or_introl eq_refl))) as (b & HB & HS).
      destruct (IH (S s)) as (r & HR & HI & HK); [intros; eapply HL; right; eauto|].
      cbn [check_from]. rewrite HB. cbn [bind]. rewrite HR. cbn [bind]. eexists. split; [reflexivity|].
      assert (HG : forall k, In k r -> s < k) by (intros k H; apply HK in H; lia).
      assert (HT : forall k, In k r <-> s < k /\ exists im' slab' reference', nth_error ((im, slab, reference) :: t) (k - s) = Some (im', slab', reference') /\ ~ same_bonds im' slab' reference').
      { intros k. rewrite HK. split; intros (H1 & H2); (split; [lia|]); replace (k - s) with (S (k - S s)) in * by lia; exact H2. }
      assert (H0 : ~ same_bonds im slab reference <-> exists im' slab' reference',
        nth_error ((im, slab, reference) :: t) (s - s) = Some (im', slab', reference') /\ ~ same_bonds im' slab' reference').
      { rewrite Nat.sub_diag. cbn. split; [intros H; do 3 eexists; split; [reflexivity|exact H]|]. intros (a & c & d & H & HN). inversion H; subst. exact HN. }
      destruct b.
      + split; [exact HI|]. intros k. rewrite HT. destruct (Nat.eq_dec k s) as [->|HN].
        * split; [lia|]. intros (_ & H). apply H0 in H. exfalso. apply H, HS. reflexivity.
        * split; intros (H1 & H2); (split; [lia|exact H2]).
      + split.
        * constructor; [exact HI|]. apply Forall_forall. exact HG.
        * intros k. cbn [In]. rewrite HT. split.
          -- intros [<-|(H1 & H2)]; [split; [lia|]; apply H0; intros H; apply HS in H; discriminate|split; [lia|exact H2]].
          -- intros (H1 & H2). destruct (Nat.eq_dec k s) as [->|HN]; [left; reflexivity|right; split; [lia|exact H2]]. }
  destruct (G l 0 HL) as (r & HR & HI & HK). exists r. split; [exact HR|]. split; [exact HI|]. intros k. rewrite HK, Nat.sub_0_r.
  split; [intros (_ & H); exact H|intros H; split; [lia|exact H]].
Qed.
Theorem reconstruction_sizes : forall im slab reference, length slab <> natoms (atoms reference) ->
  length slab <> 1 -> natoms (atoms reference) <> 1 -> compare_slab_connectivity im slab reference = Err ValueError.
Proof.
  intros im slab reference H1 H2 H3. unfold compare_slab_connectivity, allclose.
  destruct (Nat.eqb_spec (length slab) (natoms (atoms reference))); [congruence|].
  destruct (Nat.eqb_spec (natoms (atoms reference)) 1); [congruence|]. destruct (Nat.eqb_spec (length slab) 1); [congruence|reflexivity].
Qed.

(** ** attach_cations *)
Theorem cations_and_anions : forall im anion,
  (In anion (numbers (atoms im)) -> exists cations anions, attach_cations im anion = Ok (cations, anions) /\ partition im cations anions /\
     anions <> [] /\ (forall i, In i anions -> elem im i = anion) /\ (forall i, In i cations -> elem im i <> anion)) /\
  (~ In anion (numbers (atoms im)) -> attach_cations im anion = Err ValueError).
Proof.
  intros im anion. unfold attach_cations. destruct (inside anion (numbers (atoms im))) eqn:EI.
  - apply inside_in in EI. split; [|contradiction]. intros _. do 2 eexists. split; [reflexivity|]. split; [|split; [|split]].
    + unfold partition, indices. generalize (seq 0 (natoms (atoms im))). induction l as [|x l IH]; [constructor|]. cbn [filter].
      destruct (elem im x =? anion); cbn [negb app]; [apply Permutation_sym, Permutation_cons_app, Permutation_sym, IH|apply perm_skip, IH].
    + intros HE. rewrite <- elems_all in EI. apply in_map_iff in EI. destruct EI as (i & HZ & HI).
      assert (HX : In i (filter (fun i => elem im i =? anion) (indices im))) by (apply filter_In; rewrite Nat.eqb_eq; auto).
      rewrite HE in HX. destruct HX.
    + intros i HI. apply filter_In in HI. apply Nat.eqb_eq. tauto.
    + intros i HI. apply filter_In in HI. destruct HI as (_ & HI). destruct (Nat.eqb_spec (elem im i) anion); [discriminate|auto].
  - split; [|reflexivity]. intros HI. apply inside_in in HI. congruence.
Qed.

(** ** Cases *)
(** Hydroxyl on four layers of copper, tagged: oxygen (4) binds to atom 3. *)
Definition tagged : image := Image (Struct [29; 29; 29; 29; 8; 1]
  [[0; 1; 0; 0; 0; 0]; [1; 0; 1; 0; 0; 0]; [0; 1; 0; 1; 0; 0]; [0; 0; 1; 0; 1; 0]; [0; 0; 0; 1; 0; 1]; [0; 0; 0; 0; 1; 0]]%Z)
  [4; 3; 2; 1; -1; -1]%Z [] (Some (Pairs (Some (Species false false (Ok [8; 1]))) None)) no_groups.
Example tagged_case : autogen_image (fun _ _ => []) tagged = Ok (set_groups tagged
  (Groups (Some [4; 5]) (Some [0; 1; 2; 3]) (Some [4]) (Some [3]) (Some [2]) (Some [0; 1; 2]) (Some [3]) (Some [2]))).
Proof. reflexivity. Qed.
(** The outermost copper atom (3) is not among the atoms stored as termination. *)
Theorem termination_info_refuted : exists im', termination_info (fun _ _ => []) tagged = Ok im' /\ g_term (grp im') = Some [2] /\
  g_subsurf (grp im') = Some [3] /\ tag tagged 3 = 1%Z /\ tag tagged 2 = 2%Z.
Proof. eexists. split; [reflexivity|]. repeat split. Qed.
(** Without tags, where atom 0 has four neighbours and atom 1 is fixed. *)
Example constrained_case : detect_termination (fun _ _ => [])
  (Image (Struct [29; 29; 29; 29; 29] [[0; 1; 1; 1; 1]; [1; 0; 0; 0; 0]; [1; 0; 0; 0; 0]; [1; 0; 0; 0; 0]; [1; 0; 0; 0; 0]]%Z) [] [[1]] None
         (Groups None (Some [0; 1; 2; 3; 4]) None None None None None None)) = Ok ([0; 1], [2; 3; 4], [0]).
Proof. reflexivity. Qed.
Example no_adsorbate_case : detect_adsorbate (Image (Struct [29; 29] []) [] [] None no_groups) = Ok [].
Proof. reflexivity. Qed.
Example formula_case : detect_adsorbate (with_formula (Struct [29; 8; 1; 29; 1] []) [1; 1; 8]) = Ok [1; 2; 4].
Proof. reflexivity. Qed.
Example last_case : detect_adsorbate (with_formula (Struct [29; 8; 29; 8; 8] []) [8; 8]) = Ok [3; 4].
Proof. reflexivity. Qed.
(** Carbon monoxide on an oxide: carbon, and the oxygen bonded to it. *)
Example bonds_case : detect_adsorbate (with_formula (Struct [12; 8; 6; 8] [[0; 1; 1; 0]; [1; 0; 0; 0]; [1; 0; 0; 1]; [0; 0; 1; 0]]%Z) [6; 8]) = Ok [2; 3].
Proof. reflexivity. Qed.
Example tagged_has_layers : tagged_layers tagged 0 /\ tagged_layers tagged (-1) /\ ~ tagged_layers (set_groups co_on_oxide no_groups) 0.
Proof. rewrite <- !many_tags_spec. repeat split. vm_compute. discriminate. Qed.
Example symbol_case : detect_adsorbate (Image (Struct [29; 8; 29; 1] []) [] [] None no_groups) = Ok [1; 3].
Proof. reflexivity. Qed.
Example number_case : detect_termination (fun _ _ => [0; 1; 2; 3])
  (Image (Struct [29; 29; 29; 1] []) [] [] (Some (Pairs None (Some 3%Z))) (Groups (Some [3]) (Some [0; 1; 2]) None None None None None None)) =
  Ok ([0; 1], [2], [1]).
Proof. reflexivity. Qed.
Example cations_case : attach_cations tagged 8 = Ok ([0; 1; 2; 3; 5], [4]).
Proof. reflexivity. Qed.
Example reconstruction_case : check_reconstructions
  [(tagged, [0; 1], Image (Struct [29; 29] [[0; 1]; [1; 0]]%Z) [] [] None no_groups);
   (tagged, [1; 3], Image (Struct [29; 29] [[0; 1]; [1; 0]]%Z) [] [] None no_groups)] = Ok [1].
Proof. reflexivity. Qed.

Print Assumptions autogen_partition.
Print Assumptions autogen_supplied_refuted.
Print Assumptions autogen_site_atoms.
Print Assumptions autogen_no_adsorbate_refuted.
Print Assumptions autogen_no_layers_refuted.
Print Assumptions termination_info_exchanges.
Print Assumptions termination_info_refuted.
Print Assumptions layers_by_tags.
Print Assumptions layers_by_constraint.
Print Assumptions layers_need_slab.
Print Assumptions layers_by_number.
Print Assumptions layers_with_adsorbate_refuted.
Print Assumptions adsorbate_by_formula.
Print Assumptions adsorbate_by_tags.
Print Assumptions adsorbate_by_symbol.
Print Assumptions adsorbate_by_last.
Print Assumptions adsorbate_by_bonds.
Print Assumptions adsorbate_composition_refuted.
Print Assumptions adsorbate_by_height.
Print Assumptions adsorbate_by_layers.
Print Assumptions reconstructions_found.
Print Assumptions reconstruction_sizes.
Print Assumptions cations_and_anions.
