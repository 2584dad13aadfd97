(** Properties of Material and SiteFeaturizer (catlearn/featurize/site_stability.py). *)
From Coq Require Import Ascii String List Arith Bool Lia Permutation Reals Lra.
From Verif Require Import Base BaseFacts RBase SlabUtilModel SlabUtilProperties SiteModel.
Import ListNotations.
Set Implicit Arguments.
Local Open Scope string_scope.
Local Open Scope list_scope.
Local Open Scope nat_scope.

(** ** Specification *)
(** Bonds join different atoms and have no direction (connection_matrix_entries in NMatProperties.v). *)
Definition proper_bonds (bonded : atoms -> nat -> nat -> bool) : Prop :=
  forall a i j, bonded a i j = bonded a j i /\ bonded a i i = false.

(** A value in the final table: missing values are zero. *)
Definition filled (v : option R) : R := match v with Some x => x | None => 0%R end.

(** The element of an atom and its reference energy. *)
Definition reference (ref : nat -> option R) (z : nat) : R := filled (ref z).
Definition known (ref : nat -> option R) (symbols : list nat) : Prop := forall z, In z symbols -> ref z <> None.

(** ** Rows and frames *)
Lemma value_cells (g : string -> option R) c cs : value c (map (fun c => (c, g c)) cs) = if smemb c cs then g c else None.
Proof.
  unfold value. induction cs as [|k t IH]; [reflexivity|]. cbn [map field smemb existsb]. unfold smemb in IH.
  destruct (String.eqb_spec c k) as [->|N]; [reflexivity|]. exact IH.
Qed.

Lemma smemb_In c l : smemb c l = true <-> In c l.
Proof.
  unfold smemb. rewrite existsb_exists. split.
  - intros [y [H E]]. apply String.eqb_eq in E. subst; auto.
  - intros H. exists c. split; auto. apply String.eqb_refl.
Qed.

Lemma value_none c r : ~ In c (map fst r) -> value c r = None.
Proof.
  unfold value. induction r as [|[k v] t IH]; [reflexivity|]. cbn [map fst field In]. intros H.
  destruct (String.eqb_spec c k) as [->|N]; [exfalso; auto|]. apply IH. auto.
Qed.

Lemma value_assign c c' v r : value c (assign c' v r) = if String.eqb c c' then v else value c r.
Proof.
  unfold value. induction r as [|[k w] t IH]; cbn [assign field].
  - destruct (String.eqb_spec c c'); reflexivity.
  - destruct (String.eqb_spec c' k) as [->|N]; cbn [field].
    + destruct (String.eqb_spec c k) as [->|N2]; reflexivity.
    + destruct (String.eqb_spec c k) as [->|N2].
      * destruct (String.eqb_spec k c') as [->|N3]; [congruence|reflexivity].
      * exact IH.
Qed.

Lemma assign_keys c v r : incl (map fst r) (map fst (assign c v r)) /\ In c (map fst (assign c v r)).
Proof.
  induction r as [|[k w] t [I1 I2]]; cbn [assign map fst].
  - split; [intros x []|left; auto].
  - destruct (String.eqb_spec c k) as [->|N]; cbn [map fst].
    + split; [intros x Hx; exact Hx|left; auto].
    + split; [|right; auto]. intros x [->|Hx]; [left; auto|right; apply I1; auto].
Qed.

Definition table_of (rs : list row) (d : frame) : Prop :=
  (forall c, In c (cols d) <-> exists r, In r rs /\ In c (map fst r)) /\
  length (rows d) = length rs /\
  ((exists r, rs = [r] /\ rows d = [r]) \/
   1 < length rs /\ (forall i, i < length rs -> map fst (nth i (rows d) []) = cols d /\ forall c, In c (cols d) -> value c (nth i (rows d) []) = Some (filled (value c (nth i rs []))))).

Lemma table_step rs d r : rs <> [] -> table_of rs d -> table_of (rs ++ [r]) (fillna (concat_row d r)).
Proof.
  intros NE [HC [HL HV]]. unfold fillna, concat_row. cbn [cols rows].
  set (cs := cols d ++ filter (fun c => negb (smemb c (cols d))) (map fst r)).
  assert (Hcs : forall c, In c cs <-> In c (cols d) \/ In c (map fst r)).
  { intros c. unfold cs. rewrite in_app_iff, filter_In, negb_true_iff. split; [tauto|]. intros [H|H]; auto.
    destruct (smemb c (cols d)) eqn:E; auto. apply smemb_In in E. auto. }
  split; [|split].
  - intros c. cbn [cols]. rewrite Hcs, HC. split.
    + intros [[r' [H1 H2]]|H]; [exists r'|exists r]; rewrite in_app_iff; simpl; auto.
    + intros [r' [H1 H2]]. apply in_app_iff in H1 as [H1|[<-|[]]]; eauto.
  - cbn [rows]. rewrite map_length, !app_length. simpl. lia.
  - right. split; [rewrite app_length; destruct rs; [congruence|simpl; lia]|]. cbn [rows cols]. intros i Hi. rewrite app_length in Hi. simpl in Hi.
    rewrite (nth_map_lt _ _ _ []) by (rewrite app_length; simpl; lia). split; [rewrite map_map; apply map_id|].
    intros c Hc. rewrite (value_cells (fun c => Some (match value c (nth i (rows d ++ [r]) []) with Some x => x | None => 0%R end))).
    rewrite (proj2 (smemb_In c cs) Hc). fold (filled (value c (nth i (rows d ++ [r]) []))). f_equal.
    destruct (Nat.lt_ge_cases i (length rs)) as [L|L].
    + rewrite !app_nth1 by lia. destruct HV as [[r0 [-> E]]|[_ HV]].
      * rewrite E. destruct i; [reflexivity|simpl in L; lia].
      * destruct (HV i L) as [K V]. destruct (in_dec string_dec c (cols d)) as [I|I].
        -- rewrite V by auto. reflexivity.
        -- rewrite !value_none; auto; [|rewrite K; auto]. intros C. apply I, HC. exists (nth i rs []). split; auto. apply nth_In; auto.
    + assert (i = length rs) by lia. subst i. rewrite (app_nth2 rs) by lia. rewrite app_nth2 by lia. rewrite HL, Nat.sub_diag. reflexivity.
Qed.

Lemma skipn_nth {A} (d : A) i l : i < length l -> skipn i l = nth i l d :: skipn (S i) l.
Proof. revert i. induction l as [|x t IH]; intros [|i] H; simpl in *; try lia; auto. rewrite IH by lia. destruct t; auto. Qed.

Lemma remove_at_perm {A} (d : A) i l : i < length l -> Permutation l (nth i l d :: remove_at i l).
Proof.
  intros H. unfold remove_at. rewrite <- (firstn_skipn i l) at 1. rewrite (skipn_nth d) by auto.
  apply Permutation_sym, Permutation_cons_app. reflexivity.
Qed.

Lemma remove_at_length {A} i (l : list A) : i < length l -> length (remove_at i l) = length l - 1.
Proof. intros H. unfold remove_at. rewrite app_length, firstn_length, skipn_length. lia. Qed.

Section Facts.
Variable as_set : list nat -> list nat.
Hypothesis SET : set_order as_set.
Variable bonded : atoms -> nat -> nat -> bool.
Hypothesis BONDS : proper_bonds bonded.
Variable nvalence : nat -> R.
Variable atom_dict : nat -> option R.
Variable scale : frame -> frame.

Notation site_row := (site_row as_set bonded nvalence).
Notation site_features := (site_features as_set bonded nvalence).
Notation get_features := (get_features as_set bonded nvalence).
Notation cohesive_energy := (cohesive_energy as_set).

Lemma collect_table f l : forall acc rs0 d, match acc with None => rs0 = [] | Some d0 => rs0 <> [] /\ table_of rs0 d0 end ->
  collect as_set bonded nvalence f acc l = Ok d -> exists rs, Forall2 (fun s r => site_row f s = Ok r) l rs /\ table_of (rs0 ++ rs) d /\ rs0 ++ rs <> [].
Proof.
  induction l as [|s t IH]; intros acc rs0 d HA H; cbn [collect] in H.
  - destruct acc as [d0|]; [|discriminate]. injection H as <-. exists []. rewrite app_nil_r. destruct HA. auto.
  - destruct (site_row f s) as [r|] eqn:ER; [|discriminate]. cbn [bind] in H.
    destruct acc as [d0|].
    + destruct HA as [NE HT]. destruct (IH (Some (fillna (concat_row d0 r))) (rs0 ++ [r]) d) as [rs [F [T N]]]; auto.
      { split; [destruct rs0; discriminate|]. apply table_step; auto. }
      exists (r :: rs). rewrite <- app_assoc in T, N. simpl in T, N. split; auto.
    + subst rs0. destruct (IH (Some (Frame (map fst r) [r])) [r] d) as [rs [F [T N]]]; auto.
      { split; [discriminate|]. split; [|split].
        - intros c. cbn [cols]. split; [intros Hc; exists r; split; auto; left; auto|]. intros [r' [[<-|[]] Hc]]. auto.
        - reflexivity.
        - left. eauto. }
      exists (r :: rs). split; auto.
Qed.

(** *** The columns with a one in their names *)
Lemma zero_no_one s : has_one (one_to_zero s) = false.
Proof. induction s as [|c t IH]; cbn; auto. destruct (Ascii.eqb_spec c "1"%char) as [->|N]; cbn; auto. destruct (Ascii.eqb_spec c "1"%char); [congruence|auto]. Qed.

Definition substituted (c : string) (r : row) : option R :=
  match value c r with Some x => if Reqb x 0 then value (one_to_zero c) r else Some x | None => None end.

Lemma fill_column_spec c e rs rs' : has_one c = true -> fill_column c (one_to_zero c) e rs = Ok rs' ->
  Forall2 (fun r r' => forall k, value k r' = if String.eqb k c then substituted c r else value k r) rs rs'.
Proof.
  intros HO. revert rs'. induction rs as [|r t IH]; intros rs' H; cbn [fill_column] in H; [injection H as <-; constructor|].
  destruct (value c r) as [x|] eqn:EV.
  - destruct (Reqb x 0) eqn:E0.
    + destruct e; [|discriminate]. cbn [bind] in H. destruct (fill_column _ _ _ t) as [t'|] eqn:ET; [|discriminate]. cbn [bind] in H. injection H as <-.
      constructor; auto. intros k. rewrite value_assign. unfold substituted. rewrite EV, E0. reflexivity.
    + cbn [bind] in H. destruct (fill_column _ _ _ t) as [t'|] eqn:ET; [|discriminate]. cbn [bind] in H. injection H as <-.
      constructor; auto. intros k. rewrite value_assign. unfold substituted. rewrite EV, E0. reflexivity.
  - cbn [bind] in H. destruct (fill_column _ _ _ t) as [t'|] eqn:ET; [|discriminate]. cbn [bind] in H. injection H as <-.
    constructor; auto. intros k. rewrite value_assign. unfold substituted. rewrite EV. reflexivity.
Qed.

Lemma Forall2_trans3 {A B C} (P : A -> B -> Prop) (Q : B -> C -> Prop) (W : A -> C -> Prop) l1 l2 l3 :
  (forall a b c, P a b -> Q b c -> W a c) -> Forall2 P l1 l2 -> Forall2 Q l2 l3 -> Forall2 W l1 l3.
Proof. intros H F. revert l3. induction F; intros l3 G; inversion G; subst; constructor; eauto. Qed.

Lemma fill_columns_spec cs : forall d d', (forall c, In c cs -> has_one c = true) -> fill_columns cs d = Ok d' ->
  cols d' = cols d /\ Forall2 (fun r r' => forall k, value k r' = if smemb k cs then substituted k r else value k r) (rows d) (rows d').
Proof.
  induction cs as [|c cs IH]; intros d d' HO H; cbn [fill_columns] in H.
  - injection H as <-. split; auto. induction (rows d); constructor; auto.
  - destruct (fill_column c _ _ (rows d)) as [rs|] eqn:EF; [|discriminate]. cbn [bind] in H.
    destruct (IH _ _ (fun x Hx => HO x (or_intror Hx)) H) as [E F]. cbn [cols rows] in *. split; auto.
    pose proof (@fill_column_spec c _ _ _ (HO c (or_introl eq_refl)) EF) as F0.
    eapply Forall2_trans3; [|exact F0|exact F]. intros r r1 r2 H1 H2 k. rewrite H2. unfold substituted at 1. rewrite !H1.
    assert (EO : String.eqb (one_to_zero k) c = false).
    { destruct (String.eqb_spec (one_to_zero k) c) as [X|]; auto. pose proof (HO c (or_introl eq_refl)) as Y. rewrite <- X, zero_no_one in Y. discriminate. }
    rewrite EO. cbn [smemb existsb]. fold (smemb k cs). destruct (String.eqb_spec k c) as [->|Nk]; cbn [orb].
    + destruct (smemb c cs) eqn:Em; auto. unfold substituted. destruct (value c r) as [x|]; auto. destruct (Reqb x 0) eqn:E0; [|rewrite E0; auto].
      destruct (value (one_to_zero c) r) as [y|]; auto. destruct (Reqb y 0); auto.
    + destruct (smemb k cs); reflexivity.
Qed.


(** *** The table of features *)
Lemma site_features_fresh f f' d l : c_features f = None -> sites f = Some l -> site_features f = Ok (f', d) ->
  exists rs d0, Forall2 (fun s r => site_row f s = Ok r) l rs /\ table_of rs d0 /\ rs <> [] /\ f' = with_features f d /\ cols d = cols d0 /\
    Forall2 (fun r r' => forall k, In k (cols d) -> value k r' = if has_one k then substituted k r else value k r) (rows d0) (rows d).
Proof.
  intros HN HS H. unfold SiteModel.site_features in H. rewrite HN, HS in H.
  destruct (collect as_set bonded nvalence f None l) as [d0|] eqn:EC; [|discriminate]. cbn [bind] in H.
  destruct (fill_columns (filter has_one (cols d0)) d0) as [d1|] eqn:EF; [|discriminate]. cbn [bind] in H. injection H as <- <-.
  destruct (@collect_table f l None [] d0 eq_refl EC) as [rs [F [T N]]]. simpl in T, N.
  destruct (@fill_columns_spec (filter has_one (cols d0)) d0 d1) as [E F2]; auto.
  { intros c Hc. apply filter_In in Hc. tauto. }
  exists rs, d0. repeat split; auto; try apply T. rewrite E.
  assert (FR : Forall2 eq (rows d0) (rows d0)) by (clear; induction (rows d0); constructor; auto).
  eapply Forall2_trans3; [|exact FR|exact F2].
  intros r r1 r2 <- H2 k Hk. rewrite H2. destruct (smemb k (filter has_one (cols d0))) eqn:Em.
  - apply smemb_In, filter_In in Em as [_ ->]. auto.
  - destruct (has_one k) eqn:HO; auto. exfalso. assert (X : In k (filter has_one (cols d0))) by (apply filter_In; auto).
    apply smemb_In in X. congruence.
Qed.

(** The table has one row per site, in their order; the columns without a one hold the features of the site, with
    zero for missing values if there are at least two sites. *)
Theorem site_features_rows : forall f f' d l, c_features f = None -> sites f = Some l -> site_features f = Ok (f', d) ->
  length (rows d) = length l /\
  forall i s, nth_error l i = Some s -> exists r, site_row f s = Ok r /\
    forall c, In c (cols d) -> has_one c = false ->
      value c (nth i (rows d) []) = if length l =? 1 then value c r else Some (filled (value c r)).
Proof.
  intros f f' d l HN HS H. destruct (@site_features_fresh f f' d l HN HS H) as [rs [d0 [F [[HC [HL HV]] [NE [-> [EC F2]]]]]]].
  pose proof (Forall2_length_eq F) as L1. pose proof (Forall2_length_eq F2) as L2. split; [lia|].
  intros i s Hs. assert (Hi : i < length l) by (apply nth_error_Some; rewrite Hs; discriminate).
  exists (nth i rs []). split.
  { pose proof (Forall2_nth s [] F (i:=i) Hi) as X. cbn beta in X. rewrite (nth_error_nth _ _ _ Hs) in X. auto. }
  intros c Hc HO. pose proof (Forall2_nth [] [] F2 (i:=i) ltac:(lia) c Hc) as X. cbn beta in X. rewrite HO in X. rewrite X.
  destruct HV as [[r [-> Er]]|[H1 HV]].
  - simpl in L1. destruct l as [|? [|? ?]]; try discriminate. simpl in Hi. assert (i = 0) by lia. subst i. rewrite Er. reflexivity.
  - destruct (HV i ltac:(lia)) as [_ V]. rewrite V by (rewrite <- EC; auto).
    destruct (Nat.eqb_spec (length l) 1); auto. lia.
Qed.

(** The columns that say which site a row belongs to, and the features of that site. *)
Theorem site_row_labels : forall f f' d l, c_features f = None -> sites f = Some l -> site_features f = Ok (f', d) ->
  forall i s, nth_error l i = Some s -> exists k feats e, s_index s = Some k /\ get_features (f_symbols f) (s_material s) k = Ok feats /\
    get_DFT_site_stability (f_ref f) s = Ok e /\
    value "material_image_index" (nth i (rows d) []) = Some (INR (s_image s)) /\ value "site_index" (nth i (rows d) []) = Some (INR k) /\
    value "DFT_site_stability" (nth i (rows d) []) = (if length l =? 1 then e else Some (filled e)) /\
    forall c, In c (cols d) -> has_one c = false -> c <> "material_image_index" -> c <> "site_index" -> c <> "DFT_site_stability" ->
      value c (nth i (rows d) []) = if length l =? 1 then value c feats else Some (filled (value c feats)).
Proof.
  intros f f' d l HN HS H i s Hs. destruct (@site_features_rows f f' d l HN HS H) as [_ G]. destruct (G i s Hs) as [r [ER V]].
  destruct (@site_features_fresh f f' d l HN HS H) as [rs [d0 [F [[HC _] [NE [_ [EC _]]]]]]].
  pose proof ER as ER0.
  unfold SiteModel.site_row in ER. destruct (s_index s) as [k|] eqn:EI; [|discriminate]. destruct (get_features _ _ k) as [r0|] eqn:EG; [|discriminate]. cbn [bind] in ER.
  destruct (get_DFT_site_stability (f_ref f) s) as [e|] eqn:EE; [|discriminate]. cbn [bind] in ER. injection ER as Er.
  assert (IC : forall c, In c (map fst r) -> In c (cols d)).
  { intros c Hc. rewrite EC. apply HC. exists r. split; auto.
    assert (Hi : i < length l) by (apply nth_error_Some; rewrite Hs; discriminate).
    pose proof (Forall2_nth s [] F (i:=i) Hi) as X. cbn beta in X. rewrite (nth_error_nth _ _ _ Hs), ER0 in X. injection X as ->.
    apply nth_In. rewrite <- (Forall2_length_eq F). auto. }
  assert (K1 : In "DFT_site_stability" (map fst r)) by (rewrite <- Er; apply assign_keys).
  assert (K2 : In "site_index" (map fst r)) by (rewrite <- Er; apply (proj1 (assign_keys "DFT_site_stability" e _)), assign_keys).
  assert (K3 : In "material_image_index" (map fst r)).
  { rewrite <- Er. apply (proj1 (assign_keys "DFT_site_stability" e _)), (proj1 (assign_keys "site_index" _ _)), assign_keys. }
  exists k, r0, e. split; [auto|]. split; [auto|]. split; [auto|].
  split; [|split; [|split]].
  - rewrite V by auto. rewrite <- Er, !value_assign. cbn [String.eqb Ascii.eqb Bool.eqb]. destruct (length l =? 1); reflexivity.
  - rewrite V by auto. rewrite <- Er, !value_assign. cbn [String.eqb Ascii.eqb Bool.eqb]. destruct (length l =? 1); reflexivity.
  - rewrite V by auto. rewrite <- Er, !value_assign. cbn [String.eqb Ascii.eqb Bool.eqb]. reflexivity.
  - intros c Hc HO N1 N2 N3. rewrite V by auto. rewrite <- Er, !value_assign.
    destruct (String.eqb_spec c "DFT_site_stability"); [contradiction|]. destruct (String.eqb_spec c "site_index"); [contradiction|].
    destruct (String.eqb_spec c "material_image_index"); [contradiction|]. reflexivity.
Qed.

(** A site whose defect has no energy gets the stability zero, as soon as there is another site. *)
Theorem missing_energy_refuted : forall f f' d l i s, c_features f = None -> sites f = Some l -> site_features f = Ok (f', d) ->
  nth_error l i = Some s -> total_energy (s_defect s) = None -> 1 < length l ->
  value "DFT_site_stability" (nth i (rows d) []) = Some 0%R.
Proof.
  intros f f' d l i s HN HS H Hs HD HL. destruct (@site_features_rows f f' d l HN HS H) as [_ G]. destruct (G i s Hs) as [r [ER V]].
  destruct (@site_features_fresh f f' d l HN HS H) as [rs [d0 [F [[HC _] [NE [_ [EC _]]]]]]].
  assert (E : value "DFT_site_stability" r = None /\ In "DFT_site_stability" (map fst r)).
  { unfold SiteModel.site_row in ER. destruct (s_index s) as [k|] eqn:EI; [|discriminate]. destruct (get_features _ _ k) as [r0|]; [|discriminate]. cbn [bind] in ER.
    destruct (get_DFT_site_stability (f_ref f) s) as [e|] eqn:EE; [|discriminate]. cbn [bind] in ER. injection ER as <-.
    unfold get_DFT_site_stability in EE. rewrite EI, HD in EE. destruct (nth_error _ k); [|discriminate]. destruct (f_ref f n); [|discriminate].
    assert (e = None) by (destruct (total_energy (s_material s)); injection EE as <-; auto). subst e.
    split; [rewrite value_assign; reflexivity|]. apply assign_keys. }
  destruct E as [E1 E2]. rewrite V.
  - destruct (Nat.eqb_spec (length l) 1); [lia|]. rewrite E1. reflexivity.
  - rewrite EC. apply HC. exists r. split; auto.
    assert (Hi : i < length l) by (apply nth_error_Some; rewrite Hs; discriminate).
    pose proof (Forall2_nth s [] F (i:=i) Hi) as X. cbn beta in X. rewrite (nth_error_nth _ _ _ Hs), ER in X. injection X as ->.
    apply nth_In. rewrite <- (Forall2_length_eq F). auto.
  - reflexivity.
Qed.

(** A structure of one element in a table with other compounds: its missing second element is reported as a copy of the first. *)
Theorem second_element_refuted : forall f f' d l i s r, c_features f = None -> sites f = Some l -> site_features f = Ok (f', d) ->
  nth_error l i = Some s -> site_row f s = Ok r -> 1 < length l -> In "n1" (cols d) -> value "n1" r = None ->
  In "n0" (cols d) -> value "n1" (nth i (rows d) []) = value "n0" (nth i (rows d) []).
Proof.
  intros f f' d l i s r HN HS H Hs ER HL H1 HV1 H0.
  destruct (@site_features_fresh f f' d l HN HS H) as [rs [d0 [F [[HC [HLn HV]] [NE [_ [EC F2]]]]]]].
  assert (Hi : i < length l) by (apply nth_error_Some; rewrite Hs; discriminate).
  pose proof (Forall2_length_eq F) as L1.
  pose proof (Forall2_nth s [] F (i:=i) Hi) as X. cbn beta in X. rewrite (nth_error_nth _ _ _ Hs), ER in X. injection X as Er.
  assert (Hi2 : i < length (rows d0)) by lia.
  pose proof (Forall2_nth [] [] F2 (i:=i) Hi2) as Y. cbn beta in Y. rewrite (Y "n1" H1), (Y "n0" H0). cbn [has_one Ascii.eqb].
  destruct HV as [[r0 [-> _]]|[_ HV]]; [simpl in L1; lia|]. destruct (HV i ltac:(lia)) as [_ V].
  unfold substituted. rewrite EC in H1, H0. rewrite (V "n1" H1), <- Er, HV1. cbn [filled]. rewrite Reqb_refl. reflexivity.
Qed.

(** ** Energies *)
Lemma count_sum_refs (ref : nat -> R) (s l : list nat) : NoDup l -> (forall x, In x s -> In x l) ->
  sumR (map (fun e => (ref e * INR (count_occ Nat.eq_dec s e))%R) l) = sumR (map ref s).
Proof.
  intros N. induction s as [|x s IH]; intros H.
  - simpl. clear. induction l as [|y l IH]; simpl; auto. rewrite IH. lra.
  - cbn [map sumR]. rewrite <- IH by (intros; apply H; right; auto). assert (Hx : In x l) by (apply H; left; auto).
    assert (G : forall L, NoDup L -> sumR (map (fun e => (ref e * INR (count_occ Nat.eq_dec (x :: s) e))%R) L) =
      ((if in_dec Nat.eq_dec x L then ref x else 0) + sumR (map (fun e => (ref e * INR (count_occ Nat.eq_dec s e))%R) L))%R).
    { induction L as [|y L IL]; intros NL; [simpl; lra|]. inversion NL; subst. specialize (IL H3).
      cbn [map sumR]. rewrite IL. cbn [count_occ].
      destruct (in_dec Nat.eq_dec x L) as [I|I], (in_dec Nat.eq_dec x (y :: L)) as [J|J], (Nat.eq_dec x y) as [E|E]; subst;
        try (exfalso; simpl in *; intuition congruence); try rewrite S_INR; try lra. }
    rewrite G by auto. destruct (in_dec Nat.eq_dec x l); [lra|contradiction].
Qed.

Lemma subtract_spec ref comp : forall x, (forall e n, In (e, n) comp -> ref e <> None) ->
  subtract_references ref (Some x) comp = Ok (Some (x - sumR (map (fun p => (reference ref (fst p) * INR (snd p))%R) comp))%R).
Proof.
  induction comp as [|[e n] t IH]; intros x H; cbn [subtract_references map sumR]; [f_equal; f_equal; lra|].
  assert (He : ref e <> None) by (eapply H; left; auto). unfold reference at 1. cbn [fst snd].
  destruct (ref e) as [r|]; [|congruence]. rewrite IH by (intros; eapply H; right; eauto). cbn [filled]. do 2 f_equal. lra.
Qed.

(** The cohesive energy is the energy per atom relative to isolated atoms. *)
Theorem cohesive_energy_value : forall m e, total_energy m = Some e -> known (m_ref m) (syms (m_atoms m)) -> syms (m_atoms m) <> [] ->
  cohesive_energy m = Ok ((e - sumR (map (reference (m_ref m)) (syms (m_atoms m)))) / INR (length (syms (m_atoms m))))%R.
Proof.
  intros m e HE HK HN. unfold SiteModel.cohesive_energy. rewrite HE. destruct (SET (syms (m_atoms m))) as [N HS].
  rewrite subtract_spec.
  - cbn [bind]. destruct (syms (m_atoms m)) as [|z t] eqn:ES; [congruence|]. cbn [length Nat.eqb]. do 3 f_equal.
    unfold stoichiometry. rewrite map_map. cbn [fst snd]. rewrite count_sum_refs; auto. intros x. apply HS.
  - intros z n H. unfold stoichiometry in H. apply in_map_iff in H as [z' [E I]]. injection E as -> _. apply HK, HS, I.
Qed.

(** Without energy, or with an element without reference, there is no cohesive energy. *)
Theorem cohesive_energy_errors : forall m, syms (m_atoms m) <> [] ->
  (total_energy m = None -> exists e, cohesive_energy m = Err e) /\
  (forall x, total_energy m = Some x -> ~ known (m_ref m) (syms (m_atoms m)) -> cohesive_energy m = Err KeyError).
Proof.
  intros m HN. unfold SiteModel.cohesive_energy. destruct (SET (syms (m_atoms m))) as [N HS]. split.
  - intros HE. rewrite HE. unfold stoichiometry. destruct (as_set (syms (m_atoms m))) as [|e t] eqn:EA.
    + destruct (syms (m_atoms m)) as [|z r]; [congruence|]. exfalso. apply (HS z). left; auto.
    + cbn [map subtract_references]. destruct (m_ref m e); cbn [bind]; eauto.
  - intros x HE HK. rewrite HE. assert (X : exists z, In z (as_set (syms (m_atoms m))) /\ m_ref m z = None).
    { assert (D : forall l, (forall z, In z l -> m_ref m z <> None) \/ exists z, In z l /\ m_ref m z = None).
      { induction l as [|z t IH]; [left; intros z []|]. destruct (m_ref m z) as [r|] eqn:E; [|right; exists z; simpl; auto].
        destruct IH as [IH|[y [I E']]]; [left|right; exists y; simpl; auto]. intros y [<-|I]; [congruence|auto]. }
      destruct (D (syms (m_atoms m))) as [C|[z [I E]]]; [contradiction|]. exists z. split; auto. apply HS; auto. }
    unfold stoichiometry. destruct X as [z [I E]]. revert x I HE. clear -E.
    generalize (count_occ Nat.eq_dec (syms (m_atoms m))). intros g. generalize (as_set (syms (m_atoms m))).
    intros l x I _. revert x. induction l as [|y t IH]; intros x; [destruct I|]. cbn [map subtract_references].
    destruct (m_ref m y) as [r|] eqn:EY; [|reflexivity]. destruct I as [->|I]; [congruence|]. apply IH; auto.
Qed.

(** The stability of a site is the difference of the total cohesive energies of the material and the defect. *)
Theorem site_stability_identity : forall ref a e ed i d c cd, i < length (syms a) -> 1 < length (syms a) -> known ref (syms a) ->
  let m := Mat a ref (Some e) in
  create_defect m i = Ok d -> let md := Mat d ref (Some ed) in
  cohesive_energy m = Ok c -> cohesive_energy md = Ok cd ->
  get_DFT_site_stability ref (Site 0 (Some i) m md) = Ok (Some (INR (length (syms a)) * c - INR (length (syms a) - 1) * cd)%R).
Proof.
  intros ref a e ed i d c cd Hi H1 HK m HD md HC HCd. unfold create_defect in HD. cbn [m_atoms m] in HD. unfold number_of in HD.
  rewrite (proj2 (Nat.ltb_lt _ _) Hi) in HD. injection HD as <-.
  pose proof (remove_at_perm 0 _ Hi) as PR. pose proof (remove_at_length _ Hi) as LR.
  set (r := remove_at i (syms a)) in *.
  rewrite (@cohesive_energy_value m e) in HC; cbn [m m_atoms m_ref]; auto; [|intros E; rewrite E in Hi; simpl in Hi; lia].
  cbn [m m_atoms m_ref] in HC. injection HC as <-.
  rewrite (@cohesive_energy_value md ed) in HCd; cbn [md m_atoms m_ref syms]; auto.
  2:{ intros z Hz. apply HK. apply (Permutation_in _ (Permutation_sym PR)). right; auto. }
  2:{ intros E. rewrite E in LR. simpl in LR. lia. }
  cbn [md m_atoms m_ref syms] in HCd. injection HCd as <-.
  unfold get_DFT_site_stability. cbn [s_index s_material s_defect m md m_atoms]. rewrite (nth_error_nth' _ 0 Hi).
  assert (Hz : In (nth i (syms a) 0) (syms a)) by (apply nth_In; auto). pose proof (HK _ Hz) as HR.
  assert (ES : sumR (map (reference ref) (syms a)) = (reference ref (nth i (syms a) 0%nat) + sumR (map (reference ref) r))%R).
  { rewrite (sumR_perm _ _ (Permutation_map (reference ref) PR)). reflexivity. }
  unfold reference at 2 in ES. destruct (ref (nth i (syms a) 0)) as [x|]; [|congruence]. cbn [filled] in ES.
  unfold total_energy. cbn [m_total m md]. do 2 f_equal. rewrite LR, ES.
  assert (INR (length (syms a)) <> 0)%R by (apply not_0_INR; lia). assert (INR (length (syms a) - 1) <> 0)%R by (apply not_0_INR; lia).
  field. auto.
Qed.

(** ** Selection of sites *)
Lemma images_in (f : featurizer) k a : In (k, a) (combine (seq 0 (length (images f))) (images f)) <-> nth_error (images f) k = Some a.
Proof.
  assert (G : forall l b, In (k, a) (combine (seq b (length l)) l) <-> b <= k /\ nth_error l (k - b) = Some a).
  { induction l as [|x t IH]; intros b; cbn [length seq combine].
    - split; [intros []|]. intros [_ H]. destruct (k - b); discriminate.
    - simpl. rewrite IH. split.
      + intros [E|[H1 H2]]; [injection E as -> ->; rewrite Nat.sub_diag; auto|]. split; [lia|]. replace (k - b) with (S (k - S b)) by lia. auto.
      + intros [H1 H2]. destruct (Nat.eq_dec k b) as [->|N].
        * rewrite Nat.sub_diag in H2. injection H2 as ->. auto.
        * right. split; [lia|]. replace (k - b) with (S (k - S b)) in H2 by lia. auto. }
  rewrite G, Nat.sub_0_r. split; [tauto|]. intros H; split; auto. lia.
Qed.

(** unique_sites lists every atom of every image exactly once. *)
Theorem unique_sites_all : forall f, NoDup (unique_sites f) /\
  forall k i, In (k, i) (unique_sites f) <-> exists a, nth_error (images f) k = Some a /\ i < number_of a.
Proof.
  intros f. split.
  - unfold unique_sites. assert (G : forall l b, NoDup (concat (map (fun p => map (pair (fst p)) (seq 0 (number_of (snd p)))) (combine (seq b (length l)) l))) /\
      forall k i, In (k, i) (concat (map (fun p => map (pair (fst p)) (seq 0 (number_of (snd p)))) (combine (seq b (length l)) l))) -> b <= k).
    { induction l as [|x t IH]; intros b; cbn [length seq combine map concat].
      - split; [constructor|intros k i []].
      - destruct (IH (S b)) as [N B]. cbn [fst snd]. split.
        + apply NoDup_app_intro; auto.
          * apply FinFun.Injective_map_NoDup; [intros u v E; injection E; auto|apply seq_NoDup].
          * intros [k i] H1 H2. apply B in H2. apply in_map_iff in H1 as [j [E _]]. injection E as -> _. lia.
        + intros k i H. apply in_app_iff in H as [H|H]; [apply in_map_iff in H as [j [E _]]; injection E as -> _; lia|apply B in H; lia]. }
    apply G.
  - intros k i. unfold unique_sites. rewrite in_concat. split.
    + intros [l [Hl H]]. apply in_map_iff in Hl as [[k' a] [<- Hk]]. cbn [fst snd] in H. apply in_map_iff in H as [j [E Hj]]. injection E as -> ->.
      apply in_seq in Hj. apply images_in in Hk. exists a. split; auto. lia.
    + intros [a [H1 H2]]. apply images_in in H1. eexists. split; [apply in_map_iff; exists (k, a); split; [reflexivity|exact H1]|].
      cbn [fst snd]. apply in_map. apply in_seq. lia.
Qed.

Lemma make_sites_spec f ts l : make_sites atom_dict f ts = Ok l -> Forall2 (fun t s => make_site atom_dict f t = Ok s) ts l.
Proof.
  revert l. induction ts as [|t r IH]; intros l H; cbn [make_sites] in H; [injection H as <-; constructor|].
  destruct (make_site atom_dict f t) as [s|] eqn:E; [|discriminate]. cbn [bind] in H. destruct (make_sites atom_dict f r) as [l'|]; [|discriminate].
  cbn [bind] in H. injection H as <-. constructor; auto.
Qed.

Lemma make_site_spec f t s : make_site atom_dict f t = Ok s -> exists a d, nth_error (images f) (fst t) = Some a /\ snd t < number_of a /\
  s = Site (fst t) (Some (snd t)) (Mat a atom_dict None) (Mat d atom_dict None) /\ create_defect (Mat a atom_dict None) (snd t) = Ok d.
Proof.
  unfold make_site. destruct (nth_error (images f) (fst t)) as [a|] eqn:E; [|discriminate]. unfold create_defect at 1. cbn [m_atoms].
  destruct (Nat.ltb_spec (snd t) (number_of a)) as [L|L]; [|discriminate]. cbn [bind]. intros H. injection H as <-. exists a. eexists. split; auto. split; auto.
  split; [reflexivity|]. unfold create_defect. cbn [m_atoms]. rewrite (proj2 (Nat.ltb_lt _ _) L). reflexivity.
Qed.

Lemma make_sites_ok f ts : (forall t, In t ts -> In t (unique_sites f)) -> exists l, make_sites atom_dict f ts = Ok l.
Proof.
  induction ts as [|t r IH]; intros H; cbn [make_sites]; [eauto|].
  assert (Ht : In t (unique_sites f)) by (apply H; left; auto). destruct t as [k i]. apply unique_sites_all in Ht as [a [H1 H2]].
  unfold make_site. cbn [fst snd]. rewrite H1. unfold create_defect. cbn [m_atoms]. rewrite (proj2 (Nat.ltb_lt _ _) H2). cbn [bind].
  destruct IH as [l ->]; [intros; apply H; right; auto|]. cbn [bind]. eauto.
Qed.

Lemma pair_eqb_In p l : existsb (pair_eqb p) l = true <-> In p l.
Proof.
  rewrite existsb_exists. split.
  - intros [q [H E]]. unfold pair_eqb in E. apply andb_true_iff in E as [E1 E2]. apply Nat.eqb_eq in E1. apply Nat.eqb_eq in E2.
    destruct p, q; cbn in *; subst; auto.
  - intros H. exists p. split; auto. unfold pair_eqb. rewrite !Nat.eqb_refl. auto.
Qed.

(** Random selection takes the requested number of existing atoms and none of the excluded ones. *)
Theorem select_random_valid : forall order draws exclude f, (forall l, Permutation (order l) l) ->
  (forall i, In i draws -> i < length (candidates order exclude f)) ->
  exists f' l, select_random_sites atom_dict order draws exclude f = Ok f' /\ sites f' = Some l /\ length l = length draws /\
    forall s, In s l -> exists i, s_index s = Some i /\ In (s_image s, i) (unique_sites f) /\
      (forall ex, exclude = Some ex -> ~ In (s_image s, i) ex).
Proof.
  intros order draws exclude f HO HD. unfold select_random_sites.
  assert (HC : forall t, In t (candidates order exclude f) -> In t (unique_sites f) /\ forall ex, exclude = Some ex -> ~ In t ex).
  { intros t. unfold candidates. destruct exclude as [ex|]; [|intros H; split; auto; discriminate].
    intros H. apply (Permutation_in _ (HO _)) in H. apply filter_In in H as [H1 H2]. split; auto. intros ex' E. injection E as <-.
    intros C. apply pair_eqb_In in C. rewrite C in H2. discriminate. }
  set (c := candidates order exclude f) in *. set (ts := map (fun i => nth i c (0, 0)) draws).
  assert (HT : forall t, In t ts -> In t c) by (intros t Ht; apply in_map_iff in Ht as [i [<- Hi]]; apply nth_In, HD; auto).
  replace ((length c =? 0) && negb (length draws =? 0)) with false.
  2:{ symmetry. destruct draws as [|i r]; [apply andb_false_r|]. destruct (Nat.eqb_spec (length c) 0); auto.
      specialize (HD i (or_introl eq_refl)). lia. }
  destruct (@make_sites_ok f ts) as [l El]; [intros t Ht; apply HC, HT; auto|]. rewrite El. cbn [bind].
  exists (with_sites f l), l. split; auto. split; auto. apply make_sites_spec in El.
  split; [rewrite <- (Forall2_length_eq El); apply map_length|].
  intros s Hs. destruct (In_nth _ _ s Hs) as [k [Hk Ek]]. pose proof (Forall2_length_eq El) as LE.
  pose proof (Forall2_nth (0, 0) s El (i:=k) ltac:(lia)) as X. cbn beta in X. rewrite Ek in X.
  destruct (make_site_spec _ _ X) as [a [d [_ [_ [-> _]]]]]. cbn [s_index s_image]. eexists. split; [reflexivity|].
  rewrite <- surjective_pairing. apply HC, HT. apply nth_In. lia.
Qed.

(** The same site may be selected more than once. *)
Theorem select_random_duplicates_refuted : forall order f, unique_sites f <> [] ->
  exists draws f' l, (forall i, In i draws -> i < length (candidates order None f)) /\
    select_random_sites atom_dict order draws None f = Ok f' /\ sites f' = Some l /\
    ~ NoDup (map (fun s => (s_image s, s_index s)) l).
Proof.
  intros order f NE. exists [0; 0]. destruct (unique_sites f) as [|t ts] eqn:E; [congruence|].
  unfold select_random_sites, candidates. rewrite E. cbn [length Nat.eqb andb map nth].
  destruct (@make_sites_ok f [t; t]) as [l El]; [intros x [<-|[<-|[]]]; rewrite E; left; auto|]. rewrite El. cbn [bind].
  exists (with_sites f l), l. split; [intros i [<-|[<-|[]]]; lia|]. split; auto. split; auto. apply make_sites_spec in El.
  inversion El as [|? ? ? ? H1 El']; subst. inversion El' as [|? ? ? ? H2 El'']; subst. inversion El''; subst. rewrite H1 in H2. injection H2 as <-.
  intros N. inversion N as [|? ? H3 _]; subst. apply H3. left; auto.
Qed.

(** The references given by the user are not used for selected sites. *)
Theorem selected_references_refuted : forall sel f f' l s a e, select_specific_sites atom_dict sel f = Ok f' -> sites f' = Some l ->
  In s l -> nth_error (images f) (s_image s) = Some a -> calc a = Some e -> syms a <> [] -> ~ known atom_dict (syms a) -> c_features f = None ->
  cohesive_energy (s_material s) = Err KeyError /\ forall r, site_features f' <> Ok r.
Proof.
  intros sel f f' l s a e H HS Hs HI HE HN HK HC. unfold select_specific_sites in H.
  destruct (make_sites atom_dict f sel) as [l'|] eqn:EM; [|discriminate]. cbn [bind] in H. injection H as <-. cbn [with_sites sites] in HS. injection HS as ->.
  apply make_sites_spec in EM. pose proof (Forall2_length_eq EM) as LE. destruct (In_nth _ _ s Hs) as [k [Hk Ek]].
  pose proof (Forall2_nth (0, 0) s EM (i:=k) ltac:(lia)) as X. cbn beta in X. rewrite Ek in X.
  destruct (make_site_spec _ _ X) as [a' [d [HI' [_ [Es _]]]]]. rewrite Es in HI. cbn [s_image] in HI. rewrite HI' in HI. injection HI as ->.
  assert (EC : cohesive_energy (s_material s) = Err KeyError).
  { rewrite Es. cbn [s_material]. destruct (@cohesive_energy_errors (Mat a atom_dict None)) as [_ Y]; auto. apply (Y e); auto. }
  split; auto. intros [f2 d2] R. destruct (@site_features_fresh (with_sites f l) f2 d2 l HC eq_refl R) as [rs [d0 [F _]]].
  pose proof (Forall2_nth s [] F (i:=k) Hk) as Y. cbn beta in Y. rewrite Ek in Y. unfold SiteModel.site_row in Y. rewrite Es in Y. cbn [s_index s_material] in Y.
  unfold SiteModel.get_features in Y. destruct (get_site_features _ _ _ _ _) as [r0|]; [|discriminate]. cbn [bind] in Y.
  unfold system_features in Y. rewrite Es in EC. cbn [s_material] in EC. rewrite EC in Y. discriminate.
Qed.

(** After _update_materials the sites with energies use the references of the user. *)
Theorem update_references : forall ref s s', update_site as_set ref s = Ok s' ->
  s_image s' = s_image s /\ s_index s' = s_index s /\ total_energy (s_material s') = total_energy (s_material s) /\
  total_energy (s_defect s') = total_energy (s_defect s) /\
  (total_energy (s_material s) <> None -> total_energy (s_defect s) <> None -> m_ref (s_material s') = ref /\ m_ref (s_defect s') = ref).
Proof.
  intros ref s s' H. unfold update_site in H. destruct (total_energy (s_material s)) as [e|] eqn:E1; [|injection H as <-; repeat split; auto; congruence].
  destruct (total_energy (s_defect s)) as [d|] eqn:E2; [|injection H as <-; repeat split; auto; congruence].
  destruct (SiteModel.cohesive_energy _ (Mat (m_atoms (s_material s)) _ _)); [|discriminate]. cbn [bind] in H.
  destruct (SiteModel.cohesive_energy _ _); [|discriminate]. cbn [bind] in H. injection H as <-. repeat split; auto.
Qed.

(** ** Cached features *)
(** Features that were computed before are returned although other sites have been selected. *)
Theorem cached_features_refuted : forall f d, c_features f = Some d ->
  (forall sel f', select_specific_sites atom_dict sel f = Ok f' -> site_features f' = Ok (f', d)) /\
  (forall order draws ex f', select_random_sites atom_dict order draws ex f = Ok f' -> site_features f' = Ok (f', d)) /\
  (forall a b x, site_features (traj_to_sites a b x f) = Ok (traj_to_sites a b x f, d)) /\
  (forall l x, site_features (read_sites l x f) = Ok (read_sites l x f, d)).
Proof.
  intros f d H. assert (G : forall l, site_features (with_sites f l) = Ok (with_sites f l, d)).
  { intros l. unfold SiteModel.site_features. cbn [with_sites c_features]. rewrite H. auto. }
  split; [|split; [|split]].
  - intros sel f' E. unfold select_specific_sites in E. destruct (make_sites atom_dict f sel); [|discriminate]. injection E as <-. apply G.
  - intros order draws ex f' E. unfold select_random_sites in E. destruct (_ && _); [discriminate|]. destruct (make_sites _ _ _); [|discriminate]. injection E as <-. apply G.
  - intros. apply G.
  - intros. apply G.
Qed.

(** After refresh the table describes the present sites. *)
Theorem refresh_rows : forall f f' d l, sites f = Some l -> site_features (refresh f) = Ok (f', d) -> length (rows d) = length l /\
  forall i s, nth_error l i = Some s -> exists r, site_row f s = Ok r /\
    forall c, In c (cols d) -> has_one c = false -> value c (nth i (rows d) []) = if length l =? 1 then value c r else Some (filled (value c r)).
Proof. intros f f' d l HS H. exact (@site_features_rows (refresh f) f' d l eq_refl HS H). Qed.

(** ** Outliers *)
Definition outliers (column : string) (x : R) (d : frame) : list nat :=
  filter (fun i => equals x (value column (nth i (rows d) []))) (seq 0 (length (rows d))).

Lemma remove_outlier_eq column x f d l : c_features f = Some d -> sites f = Some l -> In column (cols d) -> outliers column x d <> [] ->
  remove_outlier as_set bonded nvalence column x f =
    (with_sites (with_features f (Frame (cols d) (delete_idx (rows d) (outliers column x d)))) (fst (pops (outliers column x d) l)), snd (pops (outliers column x d) l)).
Proof.
  intros HC HS HI HN. unfold remove_outlier, SiteModel.site_features. rewrite HC. rewrite (proj2 (smemb_In _ _) HI). cbn [negb].
  fold (outliers column x d). destruct (outliers column x d) eqn:E; [congruence|]. rewrite <- E. cbn [with_features sites]. rewrite HS. reflexivity.
Qed.

Lemma delete_one {A} i (l : list A) : i < length l -> delete_idx l [i] = remove_at i l.
Proof.
  intros H. unfold delete_idx. assert (G : forall l b j, b + j = i -> j < length l -> map snd (filter (fun p : nat * A => negb (existsb (Nat.eqb (fst p)) [i])) (combine (seq b (length l)) l)) = remove_at j l).
  { clear l H. induction l as [|y t IH]; intros b j E Hj; simpl in Hj; [lia|]. cbn [length seq combine filter fst existsb].
    destruct (Nat.eqb_spec b i) as [->|N]; cbn [orb negb].
    - assert (j = 0) by lia. subst j. cbn [remove_at firstn skipn app]. unfold remove_at. cbn [firstn skipn app].
      assert (K : forall t b, i < b -> map snd (filter (fun p : nat * A => negb ((fst p =? i) || false)) (combine (seq b (length t)) t)) = t).
      { induction t0 as [|z u IHu]; intros b Hb; [reflexivity|]. cbn [length seq combine filter fst].
        destruct (Nat.eqb_spec b i); [lia|]. cbn [orb negb map snd]. f_equal. apply IHu. lia. }
      apply K. lia.
    - destruct j as [|j]; [lia|]. cbn [map snd]. unfold remove_at. cbn [firstn skipn app]. f_equal. apply (IH (S b) j); lia. }
  apply (G l 0 i); auto.
Qed.

(** A single outlier is removed from the table and from the sites. *)
Theorem remove_outlier_one : forall column x f d l i, c_features f = Some d -> sites f = Some l -> length (rows d) = length l -> In column (cols d) ->
  outliers column x d = [i] -> exists f', remove_outlier as_set bonded nvalence column x f = (f', None) /\
    sites f' = Some (remove_at i l) /\ c_features f' = Some (Frame (cols d) (remove_at i (rows d))).
Proof.
  intros column x f d l i HC HS HL HI HO. rewrite (@remove_outlier_eq column x f d l) by (auto; rewrite HO; discriminate). rewrite HO.
  assert (Hi : i < length (rows d)).
  { assert (X : In i (outliers column x d)) by (rewrite HO; left; auto). apply filter_In in X as [X _]. apply in_seq in X. lia. }
  cbn [pops]. destruct (Nat.ltb_spec i (length l)); [|lia]. cbn [fst snd]. eexists. split; [reflexivity|]. cbn [with_sites with_features sites c_features].
  rewrite delete_one by auto. auto.
Qed.

(** With two outliers the wrong site is removed ... *)
Theorem remove_outlier_two_refuted : forall column x f d s0 s1 s2 r0 r1 r2, c_features f = Some d -> sites f = Some [s0; s1; s2] ->
  rows d = [r0; r1; r2] -> In column (cols d) -> value column r0 = Some x -> value column r1 = Some x -> equals x (value column r2) = false ->
  exists f', remove_outlier as_set bonded nvalence column x f = (f', None) /\ sites f' = Some [s1] /\ c_features f' = Some (Frame (cols d) [r2]).
Proof.
  intros column x f d s0 s1 s2 r0 r1 r2 HC HS HR HI H0 H1 H2.
  assert (HO : outliers column x d = [0; 1]).
  { unfold outliers. rewrite HR. cbn [length seq filter nth]. rewrite H0, H1, H2. cbn [equals]. rewrite !Reqb_refl. reflexivity. }
  rewrite (@remove_outlier_eq column x f d _ HC HS HI) by (rewrite HO; discriminate). rewrite HO, HR. eexists. split; [reflexivity|]. auto.
Qed.

Lemma pops_error {A} idx : forall (l : list A) p i, nth_error idx p = Some i -> length l <= i + p -> snd (pops idx l) = Some IndexError.
Proof.
  induction idx as [|h t IH]; intros l p i Hp HL; [destruct p; discriminate|]. cbn [pops].
  destruct (Nat.ltb_spec h (length l)) as [L|L]; [|reflexivity]. destruct p as [|p].
  - injection Hp as ->. lia.
  - apply (IH _ p i Hp). rewrite remove_at_length by auto. simpl in *. lia.
Qed.

Lemma filter_seq_first (f : nat -> bool) b n h t : filter f (seq b n) = h :: t -> forall k, In k t -> h < k.
Proof.
  revert b. induction n as [|n IH]; intros b; cbn [seq filter]; [discriminate|]. destruct (f b); [|apply IH].
  intros E k Hk. injection E as <- <-. apply filter_In in Hk as [Hk _]. apply in_seq in Hk. lia.
Qed.

(** ... or the call fails after the table has been changed, if the last site is one of them. *)
Theorem remove_outlier_last_refuted : forall column x f d l, c_features f = Some d -> sites f = Some l -> length (rows d) = length l -> In column (cols d) ->
  In (length l - 1) (outliers column x d) -> 1 < length (outliers column x d) ->
  snd (remove_outlier as_set bonded nvalence column x f) = Some IndexError.
Proof.
  intros column x f d l HC HS HL HI HLast H2. rewrite (@remove_outlier_eq column x f d l HC HS HI) by (intros E; rewrite E in H2; simpl in H2; lia). cbn [snd].
  set (o := outliers column x d) in *. destruct (In_nth_error _ _ HLast) as [p Hp].
  destruct p as [|p]; [|eapply pops_error; [exact Hp|lia]].
  exfalso. assert (IN : forall k, In k o -> k < length (rows d)) by (intros k Hk; apply filter_In in Hk as [Hk _]; apply in_seq in Hk; lia).
  destruct o as [|h [|h2 t]] eqn:EO; simpl in H2; try lia. simpl in Hp. injection Hp as ->.
  assert (h2 < length (rows d)) by (apply IN; right; left; auto).
  pose proof (filter_seq_first (fun i => equals x (value column (nth i (rows d) []))) 0 (length (rows d)) EO) as Y.
  specialize (Y h2 (or_introl eq_refl)). lia.
Qed.

(** The normalised table is not changed by the removal. *)
Theorem remove_outlier_normalized_refuted : forall column x f d n l, c_features f = Some d -> sites f = Some l -> In column (cols d) -> c_norm f = Some n ->
  forall f' e, remove_outlier as_set bonded nvalence column x f = (f', e) -> normalized_site_features as_set bonded nvalence scale f' = Ok (f', n).
Proof.
  intros column x f d n l HC HS HI HN f' e H. destruct (outliers column x d) as [|b bs] eqn:E.
  - unfold remove_outlier, SiteModel.site_features in H. rewrite HC in H. rewrite (proj2 (smemb_In _ _) HI) in H. cbn [negb] in H.
    fold (outliers column x d) in H. rewrite E in H. injection H as <- _. unfold normalized_site_features. rewrite HN. auto.
  - rewrite (@remove_outlier_eq column x f d l HC HS HI) in H by (rewrite E; discriminate). injection H as <- _.
    unfold normalized_site_features. cbn [with_sites with_features c_norm]. rewrite HN. auto.
Qed.

(** ** The tables are made once *)
(** The tables that are returned are returned again by every later call; the normalised table is the scaled table of the
    same sites, and the table before scaling is kept beside it. *)
Theorem site_tables_kept : forall f,
  (forall f' d, site_features f = Ok (f', d) -> site_features f' = Ok (f', d) /\ sites f' = sites f) /\
  (forall f' n, normalized_site_features as_set bonded nvalence scale f = Ok (f', n) ->
    normalized_site_features as_set bonded nvalence scale f' = Ok (f', n) /\ sites f' = sites f /\
    (c_norm f = None -> exists g d, site_features f = Ok (g, d) /\ n = scale d /\ site_features f' = Ok (f', d))).
Proof.
  intros f.
  assert (K : forall f' d, site_features f = Ok (f', d) -> c_features f' = Some d /\ sites f' = sites f /\ c_norm f' = c_norm f).
  { intros f' d H. unfold SiteModel.site_features in H. destruct (c_features f) as [d0|] eqn:E; [injection H as <- <-; auto|].
    destruct (sites f) as [l|] eqn:ES; [|discriminate]. destruct (collect _ _ _ f None l) as [d1|]; [|discriminate]. cbn [bind] in H.
    destruct (fill_columns _ d1) as [d2|]; [|discriminate]. cbn [bind] in H. injection H as <- <-. cbn. auto. }
  split.
  - intros f' d H. destruct (K f' d H) as (K1 & K2 & K3). split; [|exact K2]. unfold SiteModel.site_features. rewrite K1. reflexivity.
  - intros f' n H. unfold normalized_site_features in H. destruct (c_norm f) as [n0|] eqn:E.
    + injection H as <- <-. split; [unfold normalized_site_features; rewrite E; reflexivity|]. split; [auto|discriminate].
    + destruct (site_features f) as [[g d]|] eqn:ES; [|discriminate]. cbn [bind fst snd] in H. injection H as <- <-.
      destruct (K g d eq_refl) as (K1 & K2 & K3). split; [reflexivity|]. split; [exact K2|]. intros _. exists g, d. split; [auto|]. split; [auto|].
      unfold SiteModel.site_features. cbn [with_norm c_features]. rewrite K1. reflexivity.
Qed.

(** ** Finding the vacancy *)
Lemma close_refl v : close v v = true.
Proof.
  unfold close, close1. assert (G : forall x, Rleb (Rabs (x - x)) (/ 100000000 + / 1000 * Rabs x) = true).
  { intros x. apply Rleb_true. rewrite Rminus_diag_eq by auto. rewrite Rabs_R0. pose proof (Rabs_pos x). lra. }
  rewrite !G. auto.
Qed.

Lemma hd_filter_seq (f : nat -> bool) b n i : hd_error (filter f (seq b n)) = Some i <-> b <= i < b + n /\ f i = true /\ forall j, b <= j < i -> f j = false.
Proof.
  revert b. induction n as [|n IH]; intros b; cbn [seq filter].
  - split; [discriminate|]. lia.
  - destruct (f b) eqn:E.
    + cbn [hd_error]. split.
      * intros H. injection H as <-. split; [lia|]. split; auto. lia.
      * intros [H1 [H2 H3]]. destruct (Nat.eq_dec b i) as [->|N]; auto. rewrite H3 in E by lia. discriminate.
    + rewrite IH. split.
      * intros [H1 [H2 H3]]. split; [lia|]. split; auto. intros j Hj. destruct (Nat.eq_dec j b) as [->|N]; auto. apply H3. lia.
      * intros [H1 [H2 H3]]. destruct (Nat.eq_dec b i) as [->|N]; [congruence|]. split; [lia|]. split; auto. intros j Hj. apply H3. lia.
Qed.

Lemma nth_skip {A} (d : A) n k l : nth k (skipn n l) d = nth (n + k) l d.
Proof. revert l. induction n as [|n IH]; intros [|x t]; simpl; auto. destruct k; auto. Qed.

Lemma remove_at_In (i : nat) (l : list vec) v : i < length l -> (In v (remove_at i l) <-> exists j, j < length l /\ j <> i /\ nth j l origin = v).
Proof.
  intros Hi. unfold remove_at. rewrite in_app_iff. split.
  - intros [H|H].
    + destruct (In_nth _ _ origin H) as [j [Hj Ej]]. rewrite firstn_length in Hj. exists j. rewrite <- Ej. split; [lia|]. split; [lia|].
      rewrite <- (firstn_skipn i l) at 1. rewrite app_nth1; auto. rewrite firstn_length. lia.
    + destruct (In_nth _ _ origin H) as [j [Hj Ej]]. rewrite skipn_length in Hj. exists (S i + j). rewrite <- Ej. split; [lia|]. split; [lia|].
      rewrite nth_skip. auto.
  - intros [j [H1 [H2 <-]]]. destruct (Nat.lt_ge_cases j i) as [L|L].
    + left. rewrite <- (firstn_skipn i l) at 1. rewrite app_nth1 by (rewrite firstn_length; lia). apply nth_In. rewrite firstn_length. lia.
    + right. replace j with (S i + (j - S i)) by lia. rewrite <- nth_skip. apply nth_In. rewrite skipn_length. lia.
Qed.

(** Two positions agree if each coordinate differs by at most 1e-8 plus a thousandth of its size. *)
Definition same_coordinate (x y : R) : Prop := (Rabs (x - y) <= / 100000000 + / 1000 * Rabs y)%R.
Definition same_position (a b : vec) : Prop :=
  match a, b with (xa, ya, za), (xb, yb, zb) => same_coordinate xa xb /\ same_coordinate ya yb /\ same_coordinate za zb end.
Lemma close_spec a b : close a b = false <-> ~ same_position a b.
Proof.
  assert (G : forall x y, close1 x y = true <-> same_coordinate x y) by (intros x y; unfold close1, same_coordinate; apply Rleb_true).
  destruct a as [[xa ya] za], b as [[xb yb] zb]. unfold close, same_position. cbn [fst snd].
  rewrite <- (not_true_iff_false), !andb_true_iff, !G. tauto.
Qed.

(** The index of a removed atom is found exactly when no other atom is within the tolerance; otherwise there is
    no index. *)
Theorem get_site_index_found : forall ps i, i < length ps ->
  (get_site_index ps (remove_at i ps) = Some i <-> forall j, j < length ps -> j <> i -> ~ same_position (nth i ps origin) (nth j ps origin)) /\
  (get_site_index ps (remove_at i ps) = Some i \/ get_site_index ps (remove_at i ps) = None).
Proof.
  intros ps i Hi.
  assert (G : forall j, j < length ps -> j <> i -> negb (existsb (close (nth j ps origin)) (remove_at i ps)) = false).
  { intros j Hj N. apply negb_false_iff. apply existsb_exists. exists (nth j ps origin). split; [|apply close_refl].
    apply remove_at_In; eauto. }
  unfold get_site_index. split.
  - rewrite hd_filter_seq. split.
    + intros [_ [H _]] j Hj N. apply close_spec. apply negb_true_iff in H. destruct (close (nth i ps origin) (nth j ps origin)) eqn:E; auto.
      rewrite <- H. symmetry. apply existsb_exists. exists (nth j ps origin). split; auto. apply remove_at_In; eauto.
    + intros H. split; [lia|]. split; [|intros; apply G; lia]. apply negb_true_iff.
      destruct (existsb _ _) eqn:E; auto. apply existsb_exists in E as [v [Hv C]]. apply remove_at_In in Hv as [j [H1 [H2 <-]]]; auto.
      specialize (H j H1 H2). apply close_spec in H. rewrite H in C. discriminate.
  - destruct (hd_error _) as [k|] eqn:E; auto. left. f_equal. apply hd_filter_seq in E as [H1 [H2 _]].
    destruct (Nat.eq_dec k i); auto. rewrite G in H2 by (auto; lia). discriminate.
Qed.

(** ** Adding sites *)
(** Sites that are read or made from files come after the ones there are, which stay as they are; without extend they
    replace them. A site made from files has the number of earlier sites as image number. *)
Theorem extend_keeps_sites : forall f old new a b, sites f = Some old \/ sites f = None /\ old = [] ->
  sites (read_sites new true f) = Some (old ++ new)%list /\ sites (read_sites new false f) = Some new /\
  exists s, sites (traj_to_sites a b true f) = Some (old ++ [s])%list /\ sites (traj_to_sites a b false f) = Some [s] /\
    s_image s = length old /\ m_atoms (s_material s) = a /\ m_atoms (s_defect s) = b /\
    forall i, i < length (pos a) -> pos b = remove_at i (pos a) ->
      (forall j, j < length (pos a) -> j <> i -> ~ same_position (nth i (pos a) origin) (nth j (pos a) origin)) -> s_index s = Some i.
Proof.
  intros f old new a b H.
  assert (E : match sites f with Some l => l | None => [] end = old) by (destruct H as [->|[-> ->]]; reflexivity).
  split; [|split; [reflexivity|]].
  - unfold read_sites. cbn [with_sites sites]. destruct H as [->|[-> ->]]; reflexivity.
  - unfold traj_to_sites. rewrite E. cbn [with_sites sites]. eexists. split; [reflexivity|]. split; [reflexivity|]. cbn [s_image s_material s_defect m_atoms s_index].
    split; [reflexivity|]. split; [reflexivity|]. split; [reflexivity|]. intros i Hi -> N. apply (get_site_index_found (pos a) Hi). exact N.
Qed.

(** ** Sites from trajectory files *)
Definition read_all (files : list (atoms * atoms)) (f : featurizer) : featurizer :=
  fold_left (fun f p => traj_to_sites (fst p) (snd p) true f) files f.

(** Reading one file after the other into a new featurizer numbers the materials 0, 1, ... in the order of the files. *)
Theorem traj_indices : forall files f, sites f = None -> files <> [] -> exists l, sites (read_all files f) = Some l /\
  map s_image l = seq 0 (length files) /\ map (fun s => m_atoms (s_material s)) l = map fst files /\ map (fun s => m_atoms (s_defect s)) l = map snd files.
Proof.
  intros files f HS NE. destruct files as [|p0 r0]; [congruence|].
  assert (G : forall files f l, sites f = Some l -> map s_image l = seq 0 (length l) -> exists l', sites (read_all files f) = Some l' /\
    map s_image l' = seq 0 (length l + length files) /\ map (fun s => m_atoms (s_material s)) l' = map (fun s => m_atoms (s_material s)) l ++ map fst files /\
    map (fun s => m_atoms (s_defect s)) l' = map (fun s => m_atoms (s_defect s)) l ++ map snd files).
  { clear. induction files as [|p r IH]; intros f l HS HI.
    - exists l. cbn [length map]. rewrite Nat.add_0_r, !app_nil_r. auto.
    - unfold read_all. cbn [fold_left]. destruct (IH (traj_to_sites (fst p) (snd p) true f) (l ++ [Site (length l) (get_site_index (pos (fst p)) (pos (snd p))) (Mat (fst p) (f_ref f) None) (Mat (snd p) (f_ref f) None)])) as [l' [H1 [H2 [H3 H4]]]].
      + unfold traj_to_sites. rewrite HS. auto.
      + rewrite map_app, app_length, seq_app, HI. auto.
      + exists l'. split; auto. rewrite H2, H3, H4, !map_app, app_length. cbn [length map s_material s_defect m_atoms]. rewrite <- !app_assoc. split; [f_equal; lia|auto]. }
  unfold read_all. cbn [fold_left].
  edestruct (G r0 (traj_to_sites (fst p0) (snd p0) true f)) as [l' [H1 [H2 [H3 H4]]]]; [unfold traj_to_sites; rewrite HS; reflexivity|reflexivity|]. exists l'. split; [exact H1|]. rewrite H2, H3, H4. auto.
Qed.

(** With extend=False the number of a material counts the sites that were discarded, so that two materials may
    get the same number. *)
Theorem traj_indices_refuted : forall f s0 a0 d0 a1 d1, sites f = Some [s0] -> exists s1 s2,
  sites (traj_to_sites a1 d1 true (traj_to_sites a0 d0 false f)) = Some [s1; s2] /\
  m_atoms (s_material s1) = a0 /\ m_atoms (s_material s2) = a1 /\ s_image s1 = s_image s2.
Proof. intros f s0 a0 d0 a1 d1 H. unfold traj_to_sites. rewrite H. cbn [length with_sites sites app]. eexists. eexists. split; [reflexivity|]. auto. Qed.

(** ** Values of the features of a site *)
Section Values.
Variable a : atoms.
Variable i : nat.
Hypothesis inside : i < number_of a.
Hypothesis numbers : forall z, In z (syms a) -> z <> 0.

Definition bonded_atoms : list nat := filter (bonded a i) (seq 0 (number_of a)).

Lemma neighbors_bonded : neighbors bonded a i = bonded_atoms.
Proof.
  unfold neighbors, bonded_atoms. apply filter_ext. intros j. destruct (Nat.eqb_spec j i) as [->|N]; [|apply andb_true_r].
  rewrite (proj2 (BONDS a i i)). auto.
Qed.

Lemma masked_bonded v : (forall j, In j bonded_atoms -> v j <> 0) -> masked bonded a i v = map (fun j => INR (v j)) bonded_atoms.
Proof.
  unfold masked, bonded_atoms. induction (seq 0 (number_of a)) as [|j t IH]; intros H; [reflexivity|]. cbn [map filter] in *.
  destruct (bonded a i j) eqn:E.
  - rewrite Nat.mul_1_r. destruct (Nat.eqb_spec (v j) 0) as [Z|Z]; [exfalso; apply (H j); [left|]; auto|]. cbn [negb map]. f_equal. apply IH.
    intros k Hk. apply H. right; auto.
  - rewrite Nat.mul_0_r. cbn [Nat.eqb negb]. apply IH. auto.
Qed.

Lemma cn_positive j : In j bonded_atoms -> cn bonded a j <> 0.
Proof.
  unfold bonded_atoms. intros H. apply filter_In in H as [H1 H2]. unfold cn. intros Z. apply length_zero_iff_nil in Z.
  assert (X : In i (filter (bonded a j) (seq 0 (number_of a)))).
  { apply filter_In. split; [apply in_seq; unfold number_of in *; lia|]. rewrite (proj1 (BONDS a j i)). auto. }
  rewrite Z in X. destruct X.
Qed.

Lemma number_positive j : In j bonded_atoms -> nth j (syms a) 0 <> 0.
Proof. unfold bonded_atoms. intros H. apply filter_In in H as [H _]. apply in_seq in H. apply numbers, nth_In. unfold number_of in H. lia. Qed.

(** A statistic is absent from an empty list only. *)
Definition stats_of (pre suf : string) (l : list R) (r : row) : Prop :=
  value (pre ++ "min" ++ suf)%string r = (if length l =? 0 then None else Some (lmin l)) /\
  value (pre ++ "max" ++ suf)%string r = (if length l =? 0 then None else Some (lmax l)) /\
  value (pre ++ "mean" ++ suf)%string r = (if length l =? 0 then None else Some (mean l)) /\
  value (pre ++ "std" ++ suf)%string r = (if length l =? 0 then None else Some (std l)).

(** The site part of a row describes the atom and the atoms bonded to it: their coordination numbers, atomic
    numbers, distances and the angles between them. *)
Theorem site_feature_values : forall sym m r, m_atoms m = a -> get_site_features bonded nvalence sym m i = Ok r ->
  bonded_atoms <> [] /\ value "site_index" r = Some (INR i) /\ value "site_atomic_number" r = Some (INR (nth i (syms a) 0)) /\
  value "site_e_val" r = Some (nvalence (nth i (syms a) 0)) /\ value "site_cn" r = Some (INR (length bonded_atoms)) /\
  stats_of "" "_neighbor_cn" (map (fun j => INR (cn bonded a j)) bonded_atoms) r /\
  stats_of "" "_neighbor_atomic_number" (map (fun j => INR (nth j (syms a) 0)) bonded_atoms) r /\
  stats_of "site_distance_" "" (map (fun j => norm (sub (position a j) (position a i))) bonded_atoms) r /\
  stats_of "site_angles_" "" (site_angles bonded a i) r.
Proof.
  intros sym m r Hm H. unfold get_site_features in H. rewrite Hm in H.
  rewrite (@nth_error_nth' _ (syms a) i 0 inside) in H. set (z := nth i (syms a) 0) in *.
  rewrite (masked_bonded _ cn_positive), (masked_bonded (fun j => nth j (syms a) 0) number_positive) in H.
  destruct (Nat.eqb_spec (length (site_distances bonded a i)) 0) as [Z|Z]; [discriminate|]. injection H as <-.
  unfold site_distances in *. rewrite neighbors_bonded in *. rewrite map_length in Z. unfold cn at 1. fold bonded_atoms.
  split; [intros E; apply Z; rewrite E; auto|].
  assert (S0 : forall l, statistics l = [if length l =? 0 then None else Some (lmin l); if length l =? 0 then None else Some (lmax l); if length l =? 0 then None else Some (mean l); if length l =? 0 then None else Some (std l)])
    by (intros [|x t]; reflexivity).
  rewrite !S0. clear S0. generalize (site_angles bonded a i) as an. intros an. destruct sym; unfold stats_of; repeat split; reflexivity.
Qed.

Lemma pairs_In l p : In p (pairs l) -> In (fst p) l /\ In (snd p) l.
Proof.
  induction l as [|x t IH]; [intros []|]. cbn [pairs]. rewrite in_app_iff. intros [H|H].
  - apply in_map_iff in H as [y [<- Hy]]. cbn. auto.
  - destruct (IH H). cbn. auto.
Qed.

Lemma somes_In {A} (l : list (option A)) x : In x (somes l) <-> In (Some x) l.
Proof.
  induction l as [|[y|] t IH]; cbn [somes In]; [tauto|rewrite IH; split; [intros [->|H]; auto|intros [E|H]; [injection E as ->|]; auto]|].
  rewrite IH. split; auto. intros [E|H]; [discriminate|auto].
Qed.

(** Every angle is between two bonds of the site and lies between 0 and 180 degrees. *)
Theorem site_angles_range : forall x, In x (site_angles bonded a i) -> (0 <= x <= 180)%R /\
  exists j k, In j bonded_atoms /\ In k bonded_atoms /\ angle (position a i) (position a j) (position a k) = Some x.
Proof.
  intros x H. unfold site_angles in H. apply somes_In in H. apply in_map_iff in H as [p [E Hp]]. apply pairs_In in Hp as [H1 H2].
  rewrite neighbors_bonded in H1, H2. split; [|exists (fst p), (snd p); auto].
  unfold angle in E. destruct (_ || _); [discriminate|]. injection E as <-. set (t := (dot _ _ / _)%R). pose proof (acos_bound t) as B. pose proof PI_RGT_0 as P.
  split.
  - apply Rmult_le_pos; [nra|]. left. apply Rinv_0_lt_compat. auto.
  - apply (Rmult_le_reg_r PI); auto. unfold Rdiv. rewrite Rmult_assoc, Rinv_l by lra. nra.
Qed.

(** A site without neighbours has no features. *)
Theorem isolated_site : forall sym m, m_atoms m = a -> (bonded_atoms = [] <-> get_site_features bonded nvalence sym m i = Err ValueError).
Proof.
  intros sym m Hm. unfold get_site_features. rewrite Hm. rewrite (@nth_error_nth' _ (syms a) i 0 inside). unfold site_distances. rewrite neighbors_bonded, map_length.
  destruct bonded_atoms; cbn [length Nat.eqb]; split; intros E; (reflexivity || discriminate).
Qed.
End Values.

(** One isolated site makes the table of all sites impossible. *)
Theorem isolated_site_refuted : forall f l s i, c_features f = None -> sites f = Some l -> In s l -> s_index s = Some i ->
  i < number_of (m_atoms (s_material s)) -> (forall j, bonded (m_atoms (s_material s)) i j = false) -> forall r, site_features f <> Ok r.
Proof.
  intros f l s i HC HS Hs HI HL HB [f2 d2] R. destruct (@site_features_fresh f f2 d2 l HC HS R) as [rs [d0 [F _]]].
  destruct (In_nth _ _ s Hs) as [k [Hk Ek]]. pose proof (Forall2_nth s [] F (i:=k) Hk) as Y. cbn beta in Y. rewrite Ek in Y.
  unfold SiteModel.site_row in Y. rewrite HI in Y. unfold SiteModel.get_features in Y.
  rewrite (proj1 (@isolated_site _ i HL (f_symbols f) (s_material s) eq_refl)) in Y; [discriminate|].
  unfold bonded_atoms. generalize (seq 0 (number_of (m_atoms (s_material s)))). induction l0 as [|y t IH]; [reflexivity|]. cbn [filter]. rewrite HB. exact IH.
Qed.

(** ** Energies from a file *)
Definition matches (s : site) (q : nat * nat * R) : bool :=
  (s_image s =? fst (fst q)) && (match s_index s with Some j => j =? snd (fst q) | None => false end).
(** The last row of the file for a site. *)
Definition last_row (s : site) (rs : list (nat * nat * R)) : option R :=
  fold_left (fun acc q => if matches s q then Some (snd q) else acc) rs None.

Definition updated (s s' : site) (v : option R) : Prop :=
  s_image s' = s_image s /\ s_index s' = s_index s /\ m_atoms (s_material s') = m_atoms (s_material s) /\ m_atoms (s_defect s') = m_atoms (s_defect s) /\
  match v with
  | None => s' = s
  | Some e => total_energy (s_defect s') = Some e /\ m_total (s_material s') = None /\ m_ref (s_material s') = atom_dict /\ m_ref (s_defect s') = atom_dict
  end.

Lemma update_energy_spec k i e l l' : update_energy as_set atom_dict k i e l = Ok l' ->
  Forall2 (fun s s' => updated s s' (if matches s (k, i, e) then Some e else None)) l l'.
Proof.
  revert l'. induction l as [|s t IH]; intros l' H; cbn [update_energy] in H; [injection H as <-; constructor|].
  change ((s_image s =? k) && _) with (matches s (k, i, e)) in H. destruct (matches s (k, i, e)) eqn:E.
  - destruct (SiteModel.cohesive_energy _ _); [|discriminate]. cbn [bind] in H. destruct (update_energy _ _ k i e t) as [t'|]; [|discriminate].
    cbn [bind] in H. injection H as <-. constructor; auto. rewrite E. repeat split; auto.
  - cbn [bind] in H. destruct (update_energy _ _ k i e t) as [t'|]; [|discriminate].
    cbn [bind] in H. injection H as <-. constructor; auto. rewrite E. repeat split; auto.
Qed.

(** Each site takes the last energy the file has for its material and index; the other sites are unchanged. *)
Theorem update_site_file_energies : forall rs l l', update_site_file as_set atom_dict rs l = Ok l' ->
  Forall2 (fun s s' => updated s s' (last_row s rs)) l l'.
Proof.
  assert (G : forall rs l l' (o : list (option R)), update_site_file as_set atom_dict rs l = Ok l' -> forall l0, Forall2 (fun p s => updated (fst p) s (snd p)) (combine l0 o) l -> length l0 = length o ->
     Forall2 (fun p s' => updated (fst p) s' (fold_left (fun acc q => if matches (fst p) q then Some (snd q) else acc) rs (snd p))) (combine l0 o) l').
  { induction rs as [|[[k i] e] t IH]; intros l l' o H l0 F LO; cbn [update_site_file] in H; [injection H as <-; exact F|].
    destruct (update_energy _ _ k i e l) as [l1|] eqn:E; [|discriminate]. cbn [bind] in H. apply update_energy_spec in E.
    assert (F1 : Forall2 (fun p s => updated (fst p) s (snd p)) (combine l0 (map (fun p => if matches (fst p) (k, i, e) then Some e else snd p) (combine l0 o))) l1).
    { clear IH H. revert l1 l F E LO. revert o. induction l0 as [|s l0 IH0]; intros [|v o] l1 l F E LO; try discriminate.
      - inversion F; subst. inversion E; subst. constructor.
      - cbn [combine map] in *. inversion F as [|? s1 ? l2 U F']; subst. inversion E as [|? s2 ? l3 U2 E']; subst. cbn [fst snd] in *.
        injection LO as LO. constructor; [|apply (IH0 o l3 l2); auto]. cbn [fst snd]. destruct U as [A1 [A2 [A3 [A4 A5]]]]. destruct U2 as [B1 [B2 [B3 [B4 B5]]]].
        assert (EM : matches s1 (k, i, e) = matches s (k, i, e)) by (unfold matches; rewrite A1, A2; auto). rewrite EM in B5.
        split; [congruence|]. split; [congruence|]. split; [congruence|]. split; [congruence|].
        destruct (matches s (k, i, e)); auto. subst s2. auto. }
    specialize (IH l1 l' _ H l0 F1). rewrite map_length, combine_length, LO, Nat.min_id in IH. specialize (IH eq_refl).
    clear - IH LO. revert l' o LO IH. induction l0 as [|s l0 IH0]; intros l' [|v o] LO IH; try discriminate; [inversion IH; constructor|].
    cbn [combine map] in *. inversion IH as [|? s1 ? l2 U F']; subst. injection LO as LO. constructor; [|apply IH0; auto]. cbn [fst snd fold_left] in *. exact U. }
  intros rs l l' H. assert (X := G rs l l' (map (fun _ => None) l) H l).
  assert (F : Forall2 (fun p s => updated (fst p) s (snd p)) (combine l (map (fun _ => None) l)) l).
  { clear. induction l as [|s t IH]; cbn [map combine]; constructor; auto. repeat split. }
  specialize (X F ltac:(rewrite map_length; auto)). clear - X. revert l' X. induction l as [|s t IH]; intros l' X; cbn [map combine] in X; inversion X; subst; constructor; auto.
Qed.

(** The energy that was stored with the material is lost if its structure has no calculator, and then the site has
    no stability. *)
Theorem update_site_file_refuted : forall rs l l' n s s' e, update_site_file as_set atom_dict rs l = Ok l' ->
  nth_error l n = Some s -> nth_error l' n = Some s' -> last_row s rs = Some e -> calc (m_atoms (s_material s)) = None ->
  total_energy (s_material s') = None /\ forall ref x, get_DFT_site_stability ref s' <> Ok (Some x).
Proof.
  intros rs l l' n s s' e H H1 H2 H3 H4. apply update_site_file_energies in H. pose proof (nth_error_nth _ _ s H1) as E1. pose proof (nth_error_nth _ _ s H2) as E2.
  assert (L : n < length l) by (apply nth_error_Some; congruence). pose proof (Forall2_nth s s H (i:=n) L) as U. cbn beta in U. rewrite E1, E2, H3 in U.
  destruct U as [_ [_ [U3 [_ [_ [U5 _]]]]]]. assert (T : total_energy (s_material s') = None) by (unfold total_energy; rewrite U5, U3; auto).
  split; auto. intros ref x. unfold get_DFT_site_stability. destruct (s_index s'); [|discriminate]. destruct (nth_error (syms _) _); [|discriminate].
  destruct (ref _); [|discriminate]. rewrite T. discriminate.
Qed.

(** ** All sites of all images *)
(** If every image has as many elements as the first, the columns are those of one row, with the number of the
    material in front, and each row belongs to one atom of one image, in order. *)
Lemma filter_known cs all : incl cs all -> filter (fun c => negb (smemb c all)) cs = [].
Proof.
  induction cs as [|c t IH]; intros H; [reflexivity|]. cbn [filter]. rewrite (proj2 (smemb_In c all)) by (apply H; left; auto). cbn [negb].
  apply IH. intros x Hx. apply H. right; auto.
Qed.

Lemma collect_all_table rs : forall d n ks, collect_all (Some d) (map Ok rs) = Ok n -> cols d = ks -> Forall (fun r => map fst r = ks) rs ->
  cols n = ks /\ length (rows n) = length (rows d) + length rs /\
  (forall k c, k < length (rows d) -> In c ks -> filled (value c (nth k (rows n) [])) = filled (value c (nth k (rows d) []))) /\
  (forall k c, k < length rs -> In c ks -> filled (value c (nth (length (rows d) + k) (rows n) [])) = filled (value c (nth k rs []))).
Proof.
  induction rs as [|r t IH]; intros d n ks H HK F; cbn [map collect_all bind] in H.
  - injection H as <-. repeat split; auto. intros k c L. simpl in L. lia.
  - inversion F as [|? ? Hr Ft]; subst x l. set (d1 := fillna (concat_row d r)) in *.
    assert (NEW : filter (fun c => negb (smemb c (cols d))) (map fst r) = []).
    { rewrite Hr, <- HK. apply filter_known. intros c Hc. exact Hc. }
    assert (K1 : cols d1 = ks) by (unfold d1, fillna, concat_row; cbn [cols]; rewrite NEW, app_nil_r; auto).
    assert (L1 : length (rows d1) = S (length (rows d))) by (unfold d1, fillna, concat_row; cbn [rows]; rewrite map_length, app_length; simpl; lia).
    assert (V1 : forall k c, k < S (length (rows d)) -> In c ks -> value c (nth k (rows d1) []) = Some (filled (value c (nth k (rows d ++ [r]) [])))).
    { intros k c Hk Hc. unfold d1, fillna, concat_row. cbn [rows cols]. rewrite NEW, app_nil_r.
      rewrite (nth_map_lt _ _ _ []) by (rewrite app_length; simpl; lia). rewrite value_cells. rewrite (proj2 (smemb_In c _)) by (rewrite HK; auto). reflexivity. }
    destruct (IH d1 n ks H K1 Ft) as [I1 [I2 [I3 I4]]]. split; auto. split; [rewrite I2, L1; simpl; lia|]. split.
    + intros k c Hk Hc. rewrite I3 by (auto; lia). rewrite V1 by (auto; lia). rewrite app_nth1 by auto. reflexivity.
    + intros [|k] c Hk Hc.
      * rewrite Nat.add_0_r. rewrite I3 by (auto; lia). rewrite V1 by (auto; lia). rewrite app_nth2, Nat.sub_diag by auto. reflexivity.
      * replace (length (rows d) + S k) with (length (rows d1) + k) by lia. rewrite I4 by (auto; simpl in Hk; lia). reflexivity.
Qed.

Theorem features_of_all_sites_rows : forall f d rs ks, c_all f = None -> all_rows as_set bonded nvalence f = map Ok rs ->
  Forall (fun r => map fst r = ks ++ ["material_number"]) rs -> ~ In "material_number" ks ->
  features_of_all_sites as_set bonded nvalence f = Ok d ->
  cols d = "material_number" :: ks /\ length (rows d) = length rs /\
  forall k c, k < length rs -> In c (cols d) -> filled (value c (nth k (rows d) [])) = filled (value c (nth k rs [])).
Proof.
  intros f d rs ks HC HR HF HN H. unfold features_of_all_sites in H. rewrite HC, HR in H. destruct rs as [|r0 rs]; [discriminate|].
  cbn [map collect_all bind] in H. destruct (collect_all _ (map Ok rs)) as [n|] eqn:E; [|discriminate]. cbn [bind] in H. injection H as <-.
  inversion HF as [|? ? H0 Ht]; subst x l.
  destruct (@collect_all_table rs _ n (ks ++ ["material_number"]) E H0 Ht) as [I1 [I2 [I3 I4]]]. cbn [rows length] in I2, I3, I4.
  cbn [cols rows]. rewrite I1, removelast_last. split; auto. rewrite map_length. split; [exact I2|].
  intros k c Hk Hc. rewrite (nth_map_lt _ _ _ []) by (rewrite I2; exact Hk). cbn beta.
  change (value c (_ :: map (fun c0 => (c0, value c0 (nth k (rows n) []))) ks)) with (value c (map (fun c0 => (c0, value c0 (nth k (rows n) []))) ("material_number" :: ks))).
  rewrite (value_cells (fun c => value c (nth k (rows n) []))).
  rewrite (proj2 (smemb_In c _) Hc). assert (Hc' : In c (ks ++ ["material_number"])) by (rewrite in_app_iff; destruct Hc as [<-|Hc]; [right; left|left]; auto).
  destruct k as [|k]; [rewrite I3 by (auto; lia); reflexivity|]. specialize (I4 k c). simpl in Hk. cbn [Nat.add] in I4. rewrite I4 by (auto; lia). reflexivity.
Qed.

(** Each row of the table is one atom of one image. *)
Theorem all_rows_order : forall f, length (all_rows as_set bonded nvalence f) = length (unique_sites f) /\
  forall n k i, nth_error (unique_sites f) n = Some (k, i) -> exists a, nth_error (images f) k = Some a /\
    nth_error (all_rows as_set bonded nvalence f) n = Some (bind (get_features (f_symbols f) (Mat a (f_ref f) None) i) (fun r => Ok (assign "material_number" (Some (INR k)) r))).
Proof.
  intros f. set (g := fun k a i => bind (get_features (f_symbols f) (Mat a (f_ref f) None) i) (fun r => Ok (assign "material_number" (Some (INR k)) r))).
  assert (G : forall l, let u := concat (map (fun p => map (pair (fst p)) (seq 0 (number_of (snd p)))) l) in
      let v := concat (map (fun p => map (g (fst p) (snd p)) (seq 0 (number_of (snd p)))) l) in
      length v = length u /\ forall n k i, nth_error u n = Some (k, i) -> exists a, In (k, a) l /\ nth_error v n = Some (g k a i)).
  { induction l as [|[k0 a0] t IH]; cbn [map concat]; [split; auto; intros [|n] k i; discriminate|]. destruct IH as [I1 I2]. cbn [fst snd]. split.
    - rewrite !app_length, !map_length. rewrite I1. auto.
    - intros n k i H. destruct (Nat.lt_ge_cases n (number_of a0)) as [L|L].
      + rewrite nth_error_app1 in H by (rewrite map_length, seq_length; auto). rewrite nth_error_app1 by (rewrite map_length, seq_length; auto).
        assert (Q : nth_error (seq 0 (number_of a0)) n = Some n) by (rewrite (@nth_error_nth' _ _ n 0) by (rewrite seq_length; auto); rewrite seq_nth by auto; auto).
        rewrite (map_nth_error _ _ _ Q) in H. injection H as <- <-. exists a0. split; [left; auto|]. apply map_nth_error. auto.
      + rewrite nth_error_app2 in H by (rewrite map_length, seq_length; auto). rewrite nth_error_app2 by (rewrite map_length, seq_length; auto).
        rewrite map_length, seq_length in *. destruct (I2 _ _ _ H) as [a [Ha Hn]]. exists a. split; [right; auto|exact Hn]. }
  destruct (G (combine (seq 0 (length (images f))) (images f))) as [G1 G2]. split; [exact G1|]. intros n k i H.
  destruct (G2 n k i H) as [a [Ha Hn]]. exists a. split; [apply images_in; auto|exact Hn].
Qed.

End Facts.

(** ** The composition *)
Lemma value_cons c k v (r : row) : value c ((k, v) :: r) = if String.eqb c k then v else value c r.
Proof. unfold value. cbn [field]. destruct (String.eqb c k); auto. Qed.

Lemma str_digit i : exists c t, str i = String c t /\ c <> "_"%char.
Proof.
  unfold str, DecimalString.NilZero.string_of_uint. destruct (Nat.to_uint i); cbn [DecimalString.NilEmpty.string_of_uint]; eexists; eexists; (split; [reflexivity|discriminate]).
Qed.

Lemma element_columns c (comp : list (nat * (nat * nat))) nv (rest : row) : (exists p, (p = "Z" \/ p = "e_val") /\ c = (p ++ "_mean")%string) ->
  value c (concat (map (fun p => let i := fst p in let e := fst (snd p) in
        [(("Z" ++ str i)%string, Some (INR e)); (("n" ++ str i)%string, Some (INR (snd (snd p)))); (("e_val" ++ str i)%string, Some (nv e))]) comp) ++ rest) = value c rest.
Proof.
  intros [p [Hp ->]]. unfold value. induction comp as [|[i q] t IH]; [reflexivity|]. cbn [map concat fst snd app]. cbn [field].
  destruct (str_digit i) as [ch [u [E N]]]. rewrite E.
  assert (E1 : String.eqb (p ++ "_mean")%string ("Z" ++ String ch u)%string = false).
  { apply String.eqb_neq. intros X. destruct Hp as [-> | ->]; cbn in X; [injection X as X _; auto|discriminate]. }
  assert (E2 : String.eqb (p ++ "_mean")%string ("n" ++ String ch u)%string = false).
  { apply String.eqb_neq. intros X. destruct Hp as [-> | ->]; cbn in X; discriminate. }
  assert (E3 : String.eqb (p ++ "_mean")%string ("e_val" ++ String ch u)%string = false).
  { apply String.eqb_neq. intros X. destruct Hp as [-> | ->]; cbn in X; [discriminate|injection X as X _; auto]. }
  rewrite E1, E2, E3. exact IH.
Qed.

Lemma set_order_perm s1 s2 l : set_order s1 -> set_order s2 -> Permutation (s1 l) (s2 l).
Proof.
  intros H1 H2. destruct (H1 l) as [N1 I1]. destruct (H2 l) as [N2 I2]. apply NoDup_Permutation; auto. intros x. rewrite I1, I2. tauto.
Qed.

(** The number of atoms, the cohesive energy and the means over the elements do not depend on the order of the set
    of elements. *)
Theorem system_features_order : forall s1 s2 nv m e, set_order s1 -> set_order s2 -> total_energy m = Some e -> known (m_ref m) (syms (m_atoms m)) -> syms (m_atoms m) <> [] ->
  exists r1 r2, system_features s1 nv m = Ok r1 /\ system_features s2 nv m = Ok r2 /\
    forall c, In c ["natoms"; "DFT_cohesive_energy"; "Z_mean"; "e_val_mean"] -> value c r1 = value c r2 /\ value c r1 <> None.
Proof.
  intros s1 s2 nv m e H1 H2 HE HK HN. unfold system_features. rewrite (cohesive_energy_value H1 nv (m_ref m) m HE HK HN), (cohesive_energy_value H2 nv (m_ref m) m HE HK HN). cbn [bind].
  eexists. eexists. split; [reflexivity|]. split; [reflexivity|]. pose proof (set_order_perm (syms (m_atoms m)) H1 H2) as P.
  assert (M : forall g : nat -> R, mean (map (fun p => g (fst p)) (stoichiometry s1 (syms (m_atoms m)))) = mean (map (fun p => g (fst p)) (stoichiometry s2 (syms (m_atoms m))))).
  { intros g. unfold stoichiometry. rewrite !map_map. cbn [fst]. unfold mean. rewrite !map_length. rewrite (Permutation_length P). f_equal. apply sumR_perm, Permutation_map, P. }
  intros c [<-|[<-|[<-|[<-|[]]]]]; cbn [app].
  - split; [reflexivity|discriminate].
  - split; [reflexivity|discriminate].
  - rewrite !(value_cons "Z_mean" "natoms"), !(value_cons "Z_mean" "DFT_cohesive_energy"). cbn [String.eqb Ascii.eqb Bool.eqb].
    rewrite !element_columns by (exists "Z"; auto). rewrite !(value_cons "Z_mean" "Z_mean"). cbn [String.eqb Ascii.eqb Bool.eqb].
    split; [f_equal; apply (M INR)|discriminate].
  - rewrite !(value_cons "e_val_mean" "natoms"), !(value_cons "e_val_mean" "DFT_cohesive_energy"). cbn [String.eqb Ascii.eqb Bool.eqb].
    rewrite !element_columns by (exists "e_val"; auto). rewrite !(value_cons "e_val_mean" "Z_mean"), !(value_cons "e_val_mean" "e_val_mean"). cbn [String.eqb Ascii.eqb Bool.eqb].
    split; [f_equal; apply (M nv)|discriminate].
Qed.

(** The columns of the elements depend on the order: the same material has different features in different runs. *)
Theorem element_order_refuted : exists s1 s2 m, set_order s1 /\ set_order s2 /\ forall nv, exists r1 r2,
  system_features s1 nv m = Ok r1 /\ system_features s2 nv m = Ok r2 /\ value "Z0" r1 = Some (INR 29) /\ value "Z0" r2 = Some (INR 46).
Proof.
  assert (S1 : set_order (fun l => nodup Nat.eq_dec l)) by (intros l; split; [apply NoDup_nodup|apply nodup_In]).
  exists (fun l => nodup Nat.eq_dec l), (fun l => rev (nodup Nat.eq_dec l)).
  exists (Mat (Atoms [29; 46] [origin; (2, 0, 0)%R] (Some (-5)%R)) (fun _ => Some (-1)%R) None). split; auto. split.
  { intros l. destruct (S1 l) as [N H]. split; [apply NoDup_rev; auto|]. intros x. rewrite <- in_rev. apply H. }
  intros nv. eexists. eexists. split; [reflexivity|]. split; [reflexivity|]. split; reflexivity.
Qed.

(** ** A table that loses a column *)
Definition all_bonded (a : atoms) (i j : nat) : bool := negb (i =? j).
Definition pure : atoms := Atoms [29; 29] [origin; (2, 0, 0)%R] (Some (-5)%R).
Definition alloy : atoms := Atoms [29; 46] [origin; (2, 0, 0)%R] (Some (-6)%R).
Definition two_images : featurizer := Feat [pure; alloy] None false (fun _ => Some (-1)%R) None None None.

(** If a later image has more elements than the first, the last of the new columns is lost and the number of the
    material appears twice. *)
Theorem features_of_all_sites_refuted : forall nv, exists d,
  features_of_all_sites (fun l => nodup Nat.eq_dec l) all_bonded nv two_images = Ok d /\
  In "Z1" (cols d) /\ In "n1" (cols d) /\ ~ In "e_val1" (cols d) /\ count_occ string_dec (cols d) "material_number" = 2.
Proof.
  intros nv. eexists. split; [vm_compute; reflexivity|]. cbn [cols]. split; [|split; [|split]].
  - vm_compute. tauto.
  - vm_compute. tauto.
  - vm_compute. intuition discriminate.
  - vm_compute. reflexivity.
Qed.

(** ** Concrete cases *)
Definition refs (z : nat) : option R := Some (-1)%R.
Notation elements := (fun l => nodup Nat.eq_dec l).

Example random_case : exists f', select_random_sites refs (fun l => l) [1; 2] (Some [(0, 0)]) two_images = Ok f' /\
  option_map (map (fun s => (s_image s, s_index s))) (sites f') = Some [(1, Some 0); (1, Some 1)].
Proof. eexists. split; [reflexivity|]. reflexivity. Qed.

(** One site: the table, the stability and a removal. *)
Definition one_site : site := Site 0 (Some 1) (Mat pure refs None) (Mat (Atoms [29] [origin] (Some (-2)%R)) refs None).
Example table_case : forall nv, exists f' d, site_features elements all_bonded nv (with_sites two_images [one_site]) = Ok (f', d) /\
  map (value "site_cn") (rows d) = [Some (INR 1)] /\ map (value "natoms") (rows d) = [Some (INR 2)] /\
  map (value "DFT_site_stability") (rows d) = [Some (-5 - -2 - -1)%R] /\ map (value "site_angles_mean") (rows d) = [None].
Proof. intros nv. eexists. eexists. split; [reflexivity|]. repeat split. Qed.

Example extend_case : sites (read_sites [one_site] true (with_sites two_images [one_site])) = Some [one_site; one_site].
Proof. apply (proj1 (extend_keeps_sites (with_sites two_images [one_site]) (old := [one_site]) [one_site] pure pure (or_introl eq_refl))). Qed.

(** Scaling that keeps the columns only: it is not applied twice. *)
Example kept_case : forall nv, let scale := fun d => Frame (cols d) [] in exists f' n, normalized_site_features elements all_bonded nv scale (with_sites two_images [one_site]) = Ok (f', n) /\
  normalized_site_features elements all_bonded nv scale f' = Ok (f', n) /\ rows n = [] /\ exists d, site_features elements all_bonded nv f' = Ok (f', d) /\ length (rows d) = 1.
Proof. intros nv scale. eexists. eexists. split; [reflexivity|]. split; [reflexivity|]. split; [reflexivity|]. eexists. split; reflexivity. Qed.

Example found_case : get_site_index [origin; (2, 0, 0)%R] (remove_at 1 [origin; (2, 0, 0)%R]) = Some 1.
Proof.
  apply get_site_index_found; [simpl; lia|]. intros [|[|j]] Hj N; simpl in Hj; try lia. apply close_spec. cbn [nth]. unfold close, close1. cbn [fst snd].
  replace (Rleb (Rabs (2 - 0)) _) with false; auto. symmetry. apply Rleb_false. unfold origin. cbn [fst snd]. rewrite Rabs_R0, Rabs_right by lra. lra.
Qed.

Example file_case : exists l, update_site_file elements refs [(0, 0, 7%R); (0, 1, 5%R); (0, 1, (-3)%R)] [one_site] = Ok l /\ map (fun s => total_energy (s_defect s)) l = [Some (-3)%R].
Proof. eexists. split; reflexivity. Qed.

Example outlier_case : outliers "E" 1%R (Frame ["E"] [[("E", Some 0%R)]; [("E", Some 1%R)]]) = [1].
Proof.
  unfold outliers. cbn [rows length seq filter nth value field String.eqb Ascii.eqb Bool.eqb]. unfold value. cbn [field String.eqb Ascii.eqb Bool.eqb equals].
  rewrite Reqb_refl. replace (Reqb 0 1) with false; auto. symmetry. destruct (Reqb 0 1) eqn:E; auto. apply Reqb_true in E. lra.
Qed.

Print Assumptions site_features_rows.
Print Assumptions site_row_labels.
Print Assumptions missing_energy_refuted.
Print Assumptions second_element_refuted.
Print Assumptions cohesive_energy_value.
Print Assumptions cohesive_energy_errors.
Print Assumptions site_stability_identity.
Print Assumptions unique_sites_all.
Print Assumptions select_random_valid.
Print Assumptions select_random_duplicates_refuted.
Print Assumptions selected_references_refuted.
Print Assumptions update_references.
Print Assumptions cached_features_refuted.
Print Assumptions refresh_rows.
Print Assumptions remove_outlier_one.
Print Assumptions remove_outlier_two_refuted.
Print Assumptions remove_outlier_last_refuted.
Print Assumptions remove_outlier_normalized_refuted.
Print Assumptions get_site_index_found.
Print Assumptions traj_indices.
Print Assumptions traj_indices_refuted.
Print Assumptions site_feature_values.
Print Assumptions site_angles_range.
Print Assumptions isolated_site.
Print Assumptions isolated_site_refuted.
Print Assumptions update_site_file_energies.
Print Assumptions update_site_file_refuted.
Print Assumptions features_of_all_sites_rows.
Print Assumptions all_rows_order.
Print Assumptions features_of_all_sites_refuted.
Print Assumptions system_features_order.
Print Assumptions element_order_refuted.
Print Assumptions site_tables_kept.
Print Assumptions extend_keeps_sites.
