(** Properties of the files written for sites, of the reference energies and of the EMT stability. *)
From Coq Require Import Ascii String List Arith Bool Reals Lra Lia Permutation DecimalString DecimalNat.
From Verif Require Import Base BaseFacts RBase SiteModel SiteFilesModel.
Import ListNotations.
Local Open Scope string_scope.
Local Open Scope nat_scope.

(** ** Texts *)
Lemma append_same_left a x y : a ++ x = a ++ y -> x = y.
Proof. induction a as [|c a IH]; cbn; [auto|]. intros H. injection H as H. auto. Qed.

Lemma append_assoc' a b c : (a ++ b) ++ c = a ++ (b ++ c).
Proof. induction a; cbn; congruence. Qed.

(** A character that does not occur in a text. *)
Fixpoint free (c : ascii) (s : string) : Prop := match s with EmptyString => True | String d t => d <> c /\ free c t end.

Lemma split_at c a b x y : free c a -> free c b -> a ++ String c x = b ++ String c y -> a = b /\ x = y.
Proof.
  revert b. induction a as [|d a IH]; intros [|e b] Ha Hb H; cbn in *.
  - injection H as H. auto.
  - injection H as <- H. destruct Hb. contradiction.
  - injection H as -> H. destruct Ha. contradiction.
  - injection H as -> H. destruct Ha as [_ Ha], Hb as [_ Hb]. destruct (IH b Ha Hb H) as [-> ->]. auto.
Qed.

Lemma str_free c i : match c with "0" | "1" | "2" | "3" | "4" | "5" | "6" | "7" | "8" | "9" => False | _ => True end%char -> free c (str i).
Proof.
  intros Hc. unfold str. assert (H : forall d, free c (NilEmpty.string_of_uint d)) by (induction d; cbn; auto; split; auto; intros <-; exact Hc).
  unfold NilZero.string_of_uint. destruct (Nat.to_uint i); try apply H. cbn. split; [intros <-; exact Hc|auto].
Qed.

Lemma str_inj i j : str i = str j -> i = j.
Proof.
  assert (N : forall i, Nat.to_uint i <> Decimal.Nil).
  { intros k H. pose proof (DecimalNat.Unsigned.of_to k) as E. rewrite H in E. cbn in E. subst k. discriminate. }
  unfold str. intros H. apply (f_equal NilZero.uint_of_string) in H. rewrite !NilZero.usu in H by auto.
  injection H as H. apply DecimalNat.Unsigned.to_uint_inj. auto.
Qed.

Lemma index_text_inj i j : index_text i = index_text j -> i = j.
Proof.
  assert (N : forall k, str k <> "nan").
  { intros k H. pose proof (str_free "n" k I) as F. rewrite H in F. cbn in F. tauto. }
  destruct i as [i|], j as [j|]; cbn; intros H; [f_equal; apply str_inj; auto|exfalso; eapply N; eauto|exfalso; eapply N; eauto|auto].
Qed.

Lemma matpath_inj fp i j : matpath fp i = matpath fp j -> i = j.
Proof. unfold matpath. intros H. apply append_same_left, append_same_left in H. apply str_inj. auto. Qed.

(** A path below the directory of a material determines the material and the rest. *)
Lemma below_inj fp i j x y : matpath fp i ++ "/" ++ x = matpath fp j ++ "/" ++ y -> i = j /\ x = y.
Proof.
  unfold matpath. rewrite !append_assoc'. intros H. apply append_same_left, append_same_left in H. cbn in H.
  apply split_at in H; [|apply str_free; exact I|apply str_free; exact I]. destruct H as [H ->]. split; [apply str_inj; auto|auto].
Qed.

Definition material_file (fp : string) (e : entry) : string := matpath fp (e_image e) ++ "/defect_free/init.traj".
Definition defect_file (fp : string) (e : entry) : string := defpath fp e ++ "init.traj".

Lemma defect_file_eq fp e : defect_file fp e = matpath fp (e_image e) ++ "/" ++ ("site" ++ index_text (e_index e) ++ String "_" (e_composition e ++ "/init.traj")).
Proof.
  unfold defect_file, defpath. rewrite !append_assoc'. reflexivity.
Qed.

Lemma material_not_defect fp a b : material_file fp a <> defect_file fp b.
Proof. rewrite defect_file_eq. unfold material_file. intros H. change "/defect_free/init.traj" with ("/" ++ "defect_free/init.traj") in H. apply below_inj in H. destruct H as [_ H]. discriminate. Qed.

Lemma material_file_inj fp a b : material_file fp a = material_file fp b -> e_image a = e_image b.
Proof. unfold material_file. intros H. apply (below_inj fp _ _ "defect_free/init.traj" "defect_free/init.traj") in H. tauto. Qed.

Lemma defect_file_inj fp a b : free "_" (index_text (e_index a)) -> free "_" (index_text (e_index b)) -> defect_file fp a = defect_file fp b -> e_image a = e_image b /\ e_index a = e_index b.
Proof.
  intros Fa Fb. rewrite !defect_file_eq. intros H. apply below_inj in H. destruct H as [-> H]. split; [auto|]. apply append_same_left in H. apply split_at in H; auto.
  apply index_text_inj. tauto.
Qed.

Lemma index_free i : free "_" (index_text i).
Proof. destruct i; cbn [index_text]; [apply str_free; exact I|]. cbn. repeat split; discriminate. Qed.

Lemma smemb_In x l : smemb x l = true <-> In x l.
Proof. unfold smemb. rewrite existsb_exists. split; [intros (y & H & E); apply String.eqb_eq in E; subst; auto|intros H; exists x; split; [auto|apply String.eqb_refl]]. Qed.

Section Write.
Variable cwd folderpath : string.
Notation fp := (folder cwd folderpath).
Notation write l s := (write_site_trajectories cwd folderpath l s).

Lemma write_snoc l e s : write (l ++ [e]) s = write_defect fp e (write_material fp e (write l s)).
Proof. unfold write_site_trajectories. rewrite fold_left_app. reflexivity. Qed.

Lemma dirs_kept l s d : In d (dirs s) -> In d (dirs (write l s)).
Proof.
  induction l as [|e l IH] using rev_ind; intros H; [auto|]. rewrite write_snoc. unfold write_defect, write_material. cbn [dirs]. right. right.
  destruct (smemb _ _); cbn [dirs]; [auto|]. right. right. auto.
Qed.

(** A directory of a material exists afterwards only if it did before or a site of it was written. *)
Lemma dirs_new l s i : In (matpath fp i) (dirs (write l s)) -> In (matpath fp i) (dirs s) \/ exists e, In e l /\ e_image e = i.
Proof.
  assert (ND : forall j x, matpath fp j ++ "/" ++ x <> matpath fp i).
  { intros j x H. unfold matpath in H. rewrite !append_assoc' in H. apply append_same_left, append_same_left in H. pose proof (str_free "/" i I) as F. rewrite <- H in F.
    clear H. induction (str j); cbn in *; tauto. }
  induction l as [|e l IH] using rev_ind; intros H; [auto|]. rewrite write_snoc in H. unfold write_defect in H. cbn [dirs] in H.
  destruct H as [H|[H|H]].
  - exfalso. unfold defpath in H. apply (ND (e_image e) ("site" ++ index_text (e_index e) ++ "_" ++ e_composition e ++ "/")). exact H.
  - apply matpath_inj in H. right. exists e. split; [apply in_or_app; right; left; auto|auto].
  - unfold write_material in H. destruct (smemb _ _).
    + destruct (IH H) as [Q|(e' & Q & E)]; [auto|]. right. exists e'. split; [apply in_or_app; auto|auto].
    + cbn [dirs] in H. destruct H as [H|[H|H]].
      * exfalso. apply (ND (e_image e) "defect_free/"). exact H.
      * apply matpath_inj in H. right. exists e. split; [apply in_or_app; right; left; auto|auto].
      * destruct (IH H) as [Q|(e' & Q & E)]; [auto|]. right. exists e'. split; [apply in_or_app; auto|auto].
Qed.

(** In a folder without directories of these materials, for sites of which no two share material and index,
    and of which those of one material have the same material structure: every site finds its structure and its
    material in its files, and no other file is changed. *)
Theorem site_trajectories_partial : forall l s,
  (forall e, In e l -> ~ In (matpath fp (e_image e)) (dirs s)) ->
  NoDup (map (fun e => (e_image e, e_index e)) l) ->
  (forall a b, In a l -> In b l -> e_image a = e_image b -> e_material a = e_material b) ->
  (forall e, In e l -> find (defect_file fp e) (files (write l s)) = Some (e_defect e) /\ find (material_file fp e) (files (write l s)) = Some (e_material e)) /\
  (forall p, (forall e, In e l -> p <> defect_file fp e /\ p <> material_file fp e) -> find p (files (write l s)) = find p (files s)).
Proof.
  induction l as [|e l IH] using rev_ind; intros s HD ND HM; [split; [intros e []|auto]|].
  rewrite map_app in ND. cbn [map] in ND. apply NoDup_remove in ND. rewrite app_nil_r in ND. destruct ND as [ND N].
  destruct (IH s) as [IH1 IH2]; [intros; apply HD, in_or_app; auto|auto|intros; apply HM; auto using in_or_app|]. clear IH.
  rewrite write_snoc. set (w := write l s) in *. unfold write_defect. cbn [files]. fold (defect_file fp e).
  assert (MAT : forall p, p <> material_file fp e -> find p (files (write_material fp e w)) = find p (files w)).
  { intros p Hp. unfold write_material. destruct (smemb _ _); [auto|]. cbn [files find]. fold (material_file fp e). destruct (String.eqb_spec p (material_file fp e)); [contradiction|auto]. }
  assert (SELF : find (material_file fp e) (files (write_material fp e w)) = Some (e_material e)).
  { unfold write_material. destruct (smemb _ _) eqn:M.
    - apply smemb_In in M. destruct (dirs_new l s _ M) as [Q|(b & Hb & E)]; [exfalso; apply (HD e); [apply in_or_app; right; left; auto|auto]|].
      assert (F : material_file fp e = material_file fp b) by (unfold material_file; rewrite E; auto). rewrite F.
      destruct (IH1 b Hb) as [_ ->]. f_equal. apply HM; auto using in_or_app. apply in_or_app. right. left. auto.
    - cbn [files find]. fold (material_file fp e). rewrite String.eqb_refl. auto. }
  split.
  - intros x Hx. apply in_app_or in Hx. cbn [find]. destruct Hx as [Hx|[<-|[]]].
    + assert (D : defect_file fp x <> defect_file fp e).
      { intros E. apply defect_file_inj in E; auto using index_free. apply N. apply in_map_iff. exists x. split; [destruct E as [-> ->]; auto|auto]. }
      destruct (String.eqb_spec (defect_file fp x) (defect_file fp e)); [contradiction|]. destruct (String.eqb_spec (material_file fp x) (defect_file fp e)) as [E|_]; [exfalso; eapply material_not_defect; eauto|].
      destruct (IH1 x Hx) as [Q1 Q2]. split.
      * rewrite MAT; [auto|]. intros E. symmetry in E. eapply material_not_defect; eauto.
      * destruct (String.eqb_spec (material_file fp x) (material_file fp e)) as [E|NE]; [|rewrite MAT; auto].
        rewrite E, SELF. f_equal. apply HM; [apply in_or_app; right; left; auto|apply in_or_app; auto|]. symmetry. eapply material_file_inj; eauto.
    + rewrite String.eqb_refl. split; [auto|]. destruct (String.eqb_spec (material_file fp e) (defect_file fp e)) as [E|_]; [exfalso; eapply material_not_defect; eauto|auto].
  - intros p Hp. cbn [find]. destruct (Hp e) as [P1 P2]; [apply in_or_app; right; left; auto|]. destruct (String.eqb_spec p (defect_file fp e)); [contradiction|]. rewrite MAT by auto.
    apply IH2. intros; apply Hp, in_or_app; auto.
Qed.
End Write.

(** Writing into a folder that was used before leaves the old material; so does a list with two data sets, in
    which the numbers of the materials repeat. *)
Theorem site_trajectories_refuted :
  let old := Entry 0 (Some 0) "Cu3" 1 2 in let new := Entry 0 (Some 1) "Pt3" 3 4 in
  find (material_file "d/" new) (files (write_site_trajectories "" "d" [new] (write_site_trajectories "" "d" [old] (FS [] [])))) = Some 1 /\
  find (material_file "d/" new) (files (write_site_trajectories "" "d" [old; new] (FS [] []))) = Some 1.
Proof. split; reflexivity. Qed.

(** ** Reference energies *)
Lemma string_rev_app s : forall t, string_rev s t = string_rev s "" ++ t.
Proof.
  induction s as [|c s IH]; intros t; cbn; auto. rewrite (IH (String c t)), (IH (String c "")).
  assert (A : forall a b d : string, (a ++ b) ++ d = a ++ b ++ d) by (induction a; intros; cbn; [auto|f_equal; auto]). rewrite A. reflexivity.
Qed.
Lemma app_str_assoc (a b c : string) : (a ++ b) ++ c = a ++ b ++ c.
Proof. induction a; cbn; [auto|f_equal; auto]. Qed.
Lemma string_rev_cat a b : string_rev (a ++ b) "" = string_rev b "" ++ string_rev a "".
Proof.
  induction a as [|c a IH]; cbn; [induction (string_rev b ""); cbn; [auto|f_equal; auto]|].
  rewrite string_rev_app, IH, (string_rev_app a (String c "")), app_str_assoc. auto.
Qed.
Lemma string_rev_twice a : string_rev (string_rev a "") "" = a.
Proof. induction a as [|c a IH]; cbn; auto. rewrite (string_rev_app a (String c "")), string_rev_cat, IH. reflexivity. Qed.
Lemma prefix_app_iff p s : prefix p s = true <-> exists t, s = p ++ t.
Proof.
  revert s. induction p as [|c p IH]; intros s; cbn; [split; [eauto|destruct s; auto]|].
  destruct s as [|d s]; [split; [discriminate|intros [t H]; discriminate]|]. cbn [prefix append]. destruct (ascii_dec c d) as [->|N].
  - split; [intros H; apply IH in H as [t H]; exists t; congruence|]. intros [t H]. apply IH. exists t. congruence.
  - split; [discriminate|]. intros [t H]. congruence.
Qed.

(** The files read are those whose name ends in traj or json. *)
Theorem reference_files : forall name, is_reference name = true <-> exists base, name = base ++ "traj" \/ name = base ++ "json".
Proof.
  assert (E : forall suf name, ends_with suf name = true <-> exists base, name = base ++ suf).
  { intros suf name. unfold ends_with. rewrite prefix_app_iff. split.
    - intros [t H]. exists (string_rev t ""). rewrite <- (string_rev_twice name), H, string_rev_cat, string_rev_twice. auto.
    - intros [b ->]. exists (string_rev b ""). apply string_rev_cat. }
  intros name. unfold is_reference. rewrite orb_true_iff, !E. split; [intros [[b H]|[b H]]; eauto|]. intros [b [H|H]]; eauto.
Qed.

Lemma refs_find listing d k : find k (fold_left (fun d (f : reference) => if is_reference (fst f) then snd f :: d else d) listing d)
  = find k (app (rev (map snd (filter (fun f => is_reference (fst f)) listing))) d).
Proof.
  revert d. induction listing as [|f t IH]; intros d; [auto|]. cbn [fold_left filter]. rewrite IH. destruct (is_reference (fst f)); [|auto].
  cbn [map rev]. rewrite <- app_assoc. reflexivity.
Qed.

Lemma find_In {A} (l : list (string * A)) k v : NoDup (map fst l) -> (find k l = Some v <-> In (k, v) l).
Proof.
  induction l as [|[q c] t IH]; cbn [map find fst]; intros ND; [split; [discriminate|intros []]|]. apply NoDup_cons_iff in ND. destruct ND as [N ND].
  destruct (String.eqb_spec k q) as [->|D].
  - split; [intros H; injection H as ->; left; auto|]. intros [H|H]; [congruence|]. exfalso. apply N, in_map_iff. exists (q, v). auto.
  - rewrite (IH ND). split; [right; auto|]. intros [H|H]; [congruence|auto].
Qed.

(** When the trajectories of the folder have different formulas, the dictionary gives exactly the energy of the
    trajectory of each formula, in whatever order the folder is listed. *)
Theorem reference_energies_partial : forall listing k e, NoDup (map (fun f => fst (snd f)) (filter (fun f => is_reference (fst f)) listing)) ->
  (find k (traj_to_reference_dict listing) = Some e <-> exists name, is_reference name = true /\ In (name, (k, e)) listing).
Proof.
  intros listing k e ND. unfold traj_to_reference_dict. rewrite refs_find, app_nil_r, find_In.
  - rewrite <- in_rev, in_map_iff. split.
    + intros ((n & q) & E & H). cbn in E. subst q. apply filter_In in H. exists n. tauto.
    + intros (n & Hn & H). exists (n, (k, e)). split; [auto|]. apply filter_In. auto.
  - rewrite map_rev. apply NoDup_rev. rewrite map_map. exact ND.
Qed.

(** With two trajectories of one formula the order of the listing decides. *)
Theorem reference_energies_refuted : exists a b, Permutation a b /\ find "Cu" (traj_to_reference_dict a) <> find "Cu" (traj_to_reference_dict b).
Proof.
  exists [("1.traj", ("Cu", 1%R)); ("2.traj", ("Cu", 2%R))], [("2.traj", ("Cu", 2%R)); ("1.traj", ("Cu", 1%R))]. split; [apply perm_swap|].
  cbn. intros H. injection H as H. lra.
Qed.

(** ** Data sets *)
(** What is saved is read back, for data without a column called INDEX. *)
Theorem dataset_round_trip : forall d, Forall (fun r => length r = length (header d)) (body d) -> ~ In "INDEX" (header d) -> ~ In "Unnamed: 0" (header d) ->
  get_df (save_dataset d) = Ok d.
Proof.
  intros [h b] HR HI HU. cbn [header body] in *. unfold get_df, save_dataset, read_csv. cbn [header body]. unfold rename, drop_column. cbn [header body map]. rewrite String.eqb_refl.
  assert (E : map (fun c => if String.eqb c "Unnamed: 0" then "INDEX" else c) h = h).
  { rewrite <- (map_id h) at 2. apply map_ext_in. intros c Hc. destruct (String.eqb_spec c "Unnamed: 0"); [subst; contradiction|auto]. }
  rewrite E. cbn [filter]. rewrite String.eqb_refl. cbn [negb].
  assert (F : forall l : list string, ~ In "INDEX" l -> filter (fun c => negb (String.eqb c "INDEX")) l = l).
  { induction l as [|c l IH]; intros N; [auto|]. cbn [filter]. destruct (String.eqb_spec c "INDEX"); [exfalso; apply N; left; auto|]. cbn [negb]. rewrite IH; [auto|]. intros Q. apply N. right. auto. }
  rewrite F by auto. do 2 f_equal. rewrite map_map.
  assert (G : forall r, length r = length h -> map snd (filter (fun p : string * option R => negb (String.eqb (fst p) "INDEX")) (combine h r)) = r).
  { clear - HI. induction h as [|c h IH]; intros [|x r] L; try discriminate; [auto|]. cbn [combine filter fst]. destruct (String.eqb_spec c "INDEX"); [exfalso; apply HI; left; auto|]. cbn [negb map snd]. f_equal. apply IH; [intros Q; apply HI; right; auto|]. cbn in L. lia. }
  generalize 0. induction b as [|r b IH]; intros k; [auto|]. cbn [length seq combine map]. apply Forall_cons_iff in HR. destruct HR as [H0 HR].
  f_equal; [|apply IH; auto]. cbn [fst snd combine filter]. rewrite String.eqb_refl. cbn [negb]. apply G. auto.
Qed.

(** ** EMT stability *)
(** The stability is the energy of the material without the site and of the free atom subtracted from that of the
    material, and does not depend on the zero of energy chosen for each element. *)
Definition shifted (emt : atoms -> R) (zero : nat -> R) (a : atoms) : R := (emt a + sumR (map zero (syms a)))%R.

Theorem emt_stability : forall emt m i, i < length (syms (m_atoms m)) ->
  (forall zero, emt_site_stability (shifted emt zero) m i = emt_site_stability emt m i) /\
  exists x d, emt_site_stability emt m i = Ok x /\ create_defect m i = Ok d /\
    Permutation (nth i (syms (m_atoms m)) 0 :: syms d) (syms (m_atoms m)) /\
    (x + emt d + emt (Atoms [nth i (syms (m_atoms m)) 0%nat] [origin] None) = emt (Atoms (syms (m_atoms m)) (pos (m_atoms m)) None))%R.
Proof.
  intros emt m i Hi. assert (E : nth_error (syms (m_atoms m)) i = Some (nth i (syms (m_atoms m)) 0)) by (apply nth_error_nth'; auto).
  assert (P : Permutation (nth i (syms (m_atoms m)) 0 :: remove_at i (syms (m_atoms m))) (syms (m_atoms m))).
  { unfold remove_at. rewrite Permutation_middle. rewrite <- (firstn_skipn i (syms (m_atoms m))) at 4. apply Permutation_app_head.
    clear E. revert Hi. generalize (syms (m_atoms m)). intros l. revert i. induction l as [|z l IH]; intros [|i] Hi; cbn in *; try lia; [auto|]. apply IH. lia. }
  assert (C : create_defect m i = Ok (Atoms (remove_at i (syms (m_atoms m))) (remove_at i (pos (m_atoms m))) None)).
  { unfold create_defect, number_of. destruct (Nat.ltb_spec i (length (syms (m_atoms m)))); [auto|lia]. }
  assert (SUM : forall zero, sumR (map zero (syms (m_atoms m))) = (zero (nth i (syms (m_atoms m)) 0%nat) + sumR (map zero (remove_at i (syms (m_atoms m)))))%R).
  { intros zero. transitivity (sumR (map zero (nth i (syms (m_atoms m)) 0 :: remove_at i (syms (m_atoms m))))); [|reflexivity].
    assert (Q : forall a b, Permutation a b -> sumR a = sumR b) by (unfold sumR; induction 1; cbn; lra). apply Q, Permutation_map, Permutation_sym, P. }
  unfold emt_site_stability. rewrite E, C. cbn [bind]. split.
  - intros zero. unfold shifted. cbn [syms]. f_equal. rewrite SUM. unfold sumR at 2. cbn. lra.
  - eexists. eexists. split; [reflexivity|]. split; [reflexivity|]. split; [exact P|]. cbn [syms]. lra.
Qed.

Example trajectories_example : let l := [Entry 0 (Some 0) "Cu3" 1 2; Entry 0 (Some 3) "Cu3" 1 3; Entry 10 (Some 3) "Pt3" 4 5] in
  NoDup (map (fun e => (e_image e, e_index e)) l) /\ (forall a b, In a l -> In b l -> e_image a = e_image b -> e_material a = e_material b) /\
  find "d/material0/site3_Cu3/init.traj" (files (write_site_trajectories "" "d" l (FS [] []))) = Some 3 /\
  find "d/material10/defect_free/init.traj" (files (write_site_trajectories "" "d" l (FS [] []))) = Some 4.
Proof.
  cbv zeta. split; [repeat constructor; cbn; intuition discriminate|]. split; [|split; reflexivity].
  cbn. intros a b [<-|[<-|[<-|[]]]] [<-|[<-|[<-|[]]]]; cbn; congruence.
Qed.

Example dataset_example : get_df (save_dataset (Tab ["a"; "b"] [[Some 1%R; None]; [Some 2%R; Some 3%R]])) = Ok (Tab ["a"; "b"] [[Some 1%R; None]; [Some 2%R; Some 3%R]]).
Proof. reflexivity. Qed.

Print Assumptions site_trajectories_partial.
Print Assumptions site_trajectories_refuted.
Print Assumptions reference_energies_partial.
Print Assumptions reference_energies_refuted.
Print Assumptions dataset_round_trip.
Print Assumptions emt_stability.
Print Assumptions reference_files.
