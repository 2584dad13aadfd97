(** Properties of database_to_list and of the features that repeat stored data. *)
From Coq Require Import Ascii String List Arith Bool Reals Lra Lia Permutation Sorting.Sorted.
From Verif Require Import Base BaseFacts RBase DbFeatModel.
Import ListNotations.
Local Open Scope string_scope.
Local Open Scope nat_scope.

(** One structure for every selected row, in their order; its id, time and stored data are those of the row. *)
Theorem database_images : forall parse rows,
  length (database_to_list rows) = length rows /\
  forall i d, nth_error rows i = Some d -> exists a, nth_error (database_to_list rows) i = Some a /\
    dbid a = [Some (INR (d_id d))] /\ ctime a = [Some (d_ctime d)] /\ i_numbers a = d_numbers d /\ i_connectivity a = d_connectivity d /\
    element_mass a = [sumR (d_masses d)] /\
    (forall x, get "delta_energy" (d_kvp d) = Some (Num x) -> delta_energy parse a = Ok [Some x]) /\
    (get "delta_energy" (d_kvp d) = None -> delta_energy parse a = Ok [None]) /\
    i_subsets a = [] /\ (forall r, db_size parse a <> Ok r).
Proof.
  intros parse rows. split; [apply map_length|]. intros i d H. unfold database_to_list. rewrite nth_error_map, H. cbn. eexists. split; [reflexivity|].
  repeat split; try reflexivity.
  - intros x Hx. unfold delta_energy, stored. cbn [i_kvp]. rewrite Hx. reflexivity.
  - intros Hx. unfold delta_energy, stored. cbn [i_kvp]. rewrite Hx. reflexivity.
  - intros r. unfold db_size. cbn [i_subsets get]. destruct (stored parse "layers" _); [|discriminate]. cbn [bind]. destruct (stored parse "n" _); discriminate.
Qed.

(** Different rows of one database have different ids, so the feature tells structures apart. *)
Theorem database_ids : forall rows i j a b, NoDup (map d_id rows) ->
  nth_error (database_to_list rows) i = Some a -> nth_error (database_to_list rows) j = Some b -> dbid a = dbid b -> i = j.
Proof.
  intros rows i j a b ND Ha Hb E. unfold database_to_list in *. rewrite nth_error_map in Ha, Hb.
  destruct (nth_error rows i) as [d|] eqn:Hi; [|discriminate]. destruct (nth_error rows j) as [e|] eqn:Hj; [|discriminate].
  cbn in Ha, Hb. injection Ha as <-. injection Hb as <-. unfold dbid in E. cbn in E. injection E as E. apply INR_eq in E.
  rewrite NoDup_nth_error in ND. apply ND; [rewrite map_length; apply nth_error_Some; congruence|]. rewrite !nth_error_map, Hi, Hj. cbn. congruence.
Qed.

(** The number stored under a key: missing (nan), a number, or a text that can be read as a number. *)
Definition holds (parse : string -> option R) (a : image) (k : string) (o : option R) : Prop :=
  match i_kvp a with
  | None => o = None
  | Some d => match get k d with None => o = None | Some (Num x) => o = Some x | Some (Txt s) => o <> None /\ parse s = o end
  end.

Lemma stored_holds parse k a o : stored parse k a = Ok o <-> holds parse a k o.
Proof.
  unfold stored, holds. destruct (i_kvp a) as [d|]; [|split; congruence]. destruct (get k d) as [[x|s]|]; cbn; [split; congruence| |split; congruence].
  destruct (parse s) as [x|]; cbn; (split; [intros H|intros [H E]]); try discriminate; try congruence. injection H as <-. split; [discriminate|auto].
Qed.

(** The features are the stored numbers: for ['delta_energy'] one, for ['layers', 'size', 'coverage'] the stored layers, the
    number of termination atoms and the stored number n divided by it; nan exactly for missing data. *)
Theorem stored_features : forall parse a v,
  (delta_energy parse a = Ok v <-> exists o, holds parse a "delta_energy" o /\ v = [o]) /\
  (db_size parse a = Ok v <-> exists layers n t coverage, holds parse a "layers" layers /\ holds parse a "n" n /\ get "termination_atoms" (i_subsets a) = Some t /\
     v = [layers; Some (INR (length t)); coverage] /\
     match n, t with Some n, _ :: _ => exists c, coverage = Some c /\ (c * INR (length t) = n)%R | _, _ => coverage = None end).
Proof.
  intros parse a v. split.
  - unfold delta_energy. destruct (stored parse "delta_energy" a) as [o|e] eqn:E.
    + apply stored_holds in E. split; [intros H; injection H as <-; eauto|]. intros (o' & H & ->). apply stored_holds in E, H. cbn. congruence.
    + split; [discriminate|]. intros (o' & H & ->). apply stored_holds in H. congruence.
  - unfold db_size. split.
    + intros H. destruct (stored parse "layers" a) as [l|] eqn:El; [|discriminate]. cbn [bind] in H. destruct (stored parse "n" a) as [n|] eqn:En; [|discriminate]. cbn [bind] in H.
      destruct (get "termination_atoms" (i_subsets a)) as [t|] eqn:Et; [|discriminate]. injection H as <-. exists l, n, t. eexists. split; [apply stored_holds; auto|]. split; [apply stored_holds; auto|].
      split; [auto|]. split; [reflexivity|]. destruct n as [n|]; [|reflexivity]. destruct t as [|y t]; [reflexivity|]. cbn [true_divide length Nat.eqb]. eexists. split; [reflexivity|]. field. apply not_0_INR. lia.
    + intros (l & n & t & c & Hl & Hn & Ht & -> & Hc). apply stored_holds in Hl, Hn. rewrite Hl, Hn. cbn [bind]. rewrite Ht. do 3 f_equal. unfold true_divide.
      destruct n as [n|]; [|subst; auto]. destruct t as [|y t]; [subst; auto|]. destruct Hc as (x & -> & Hx). cbn [length Nat.eqb] in *. do 2 f_equal. rewrite <- Hx. field. apply not_0_INR. lia.
Qed.

(** The name of a CatApp entry does not determine the surface: Pt2 with facet 11 and Pt with facet 211. *)
Definition entry (species name facet : string) : image :=
  Image [] [] None None None (Some [("species", Txt species); ("name", Txt name); ("facet", Txt facet)]) [] None.
Theorem catapp_name_refuted : exists s n f n' f', (n, f) <> (n', f') /\ catapp_name (entry s n f) = catapp_name (entry s n' f').
Proof. exists "H", "Pt2", "11", "Pt", "211". split; [discriminate|reflexivity]. Qed.

Lemma append_inj a : forall b x y, String.length a = String.length b -> (a ++ x)%string = (b ++ y)%string -> a = b /\ x = y.
Proof.
  induction a as [|c a IH]; intros [|d b] x y HL H; try discriminate; [auto|]. cbn in H. injection H as -> H.
  destruct (IH b x y) as [-> ->]; auto.
Qed.
Lemma append_length a b : String.length (a ++ b) = String.length a + String.length b.
Proof. induction a; cbn; auto. Qed.

(** It does for facets with the same number of characters and species without a star. *)
Fixpoint star_free (s : string) : Prop := match s with EmptyString => True | String c t => c <> "*"%char /\ star_free t end.
Theorem catapp_name_partial : forall s n f s' n' f', star_free s -> star_free s' -> String.length f = String.length f' ->
  catapp_name (entry s n f) = catapp_name (entry s' n' f') -> s = s' /\ n = n' /\ f = f'.
Proof.
  intros s n f s' n' f' Hs Hs' L H. assert (E : (s ++ "*" ++ n ++ f)%string = (s' ++ "*" ++ n' ++ f')%string) by (injection H; auto). clear H.
  assert (Q : s = s' /\ (n ++ f)%string = (n' ++ f')%string).
  { revert s' Hs' E. induction s as [|c s IH]; intros [|d s'] Hs' E; cbn in *.
    - injection E as E. auto.
    - injection E as <- E. destruct Hs'. contradiction.
    - injection E as -> E. destruct Hs. contradiction.
    - injection E as -> E. destruct Hs as [_ Hs]. destruct Hs' as [_ Hs']. destruct (IH Hs s' Hs' E) as [-> ->]. auto. }
  destruct Q as [-> Q]. split; [auto|]. apply append_inj in Q; [auto|]. apply (f_equal String.length) in Q. rewrite !append_length in Q. lia.
Qed.

(** The mass does not depend on the order of the atoms. *)
Theorem mass_order : forall a b, Permutation (i_masses a) (i_masses b) -> element_mass a = element_mass b.
Proof. intros a b H. unfold element_mass. f_equal. unfold sumR. induction H; cbn; lra. Qed.

(** ** Elements of adsorbates *)
Lemma dedup_In x l : In x (dedup l) <-> In x l.
Proof.
  induction l as [|y t IH]; cbn; [tauto|]. destruct (existsb (Nat.eqb y) t) eqn:E; cbn; rewrite IH; [|tauto].
  split; [auto|]. intros [->|H]; [|auto]. apply existsb_exists in E. destruct E as (z & Hz & E). apply Nat.eqb_eq in E. subst. auto.
Qed.
Lemma dedup_NoDup l : NoDup (dedup l).
Proof.
  induction l as [|y t IH]; cbn; [constructor|]. destruct (existsb (Nat.eqb y) t) eqn:E; [auto|]. constructor; [|auto]. rewrite dedup_In. intros H.
  assert (existsb (Nat.eqb y) t = true) by (apply existsb_exists; exists y; split; [auto|apply Nat.eqb_refl]). congruence.
Qed.
Lemma pick_In numbers idx r : pick numbers idx = Ok r -> forall z, In z r <-> exists i, In i idx /\ nth_error numbers i = Some z.
Proof.
  revert r. induction idx as [|i t IH]; intros r H z; cbn in H; [injection H as <-; split; [intros []|intros (i & [] & _)]|].
  destruct (nth_error numbers i) as [y|] eqn:E; [|discriminate]. destruct (pick numbers t) as [r0|]; [|discriminate]. cbn in H. injection H as <-. cbn. rewrite (IH r0 eq_refl z). split.
  - intros [->|(k & Hk & Ek)]; [exists i; auto|exists k; auto].
  - intros (k & [->|Hk] & Ek); [left; congruence|right; exists k; auto].
Qed.

(** An atom of the adsorbate of one of the structures. *)
Definition adsorbate_element (l : list image) (z : nat) : Prop :=
  exists a idx i, In a l /\ get "ads_atoms" (i_subsets a) = Some idx /\ In i idx /\ nth_error (i_numbers a) i = Some z.

Lemma ads_numbers_In l r : ads_numbers l = Ok r -> forall z, In z r <-> adsorbate_element l z.
Proof.
  revert r. induction l as [|a t IH]; intros r H z; cbn in H; [injection H as <-; split; [intros []|intros (a & idx & i & [] & _)]|].
  destruct (get "ads_atoms" (i_subsets a)) as [idx|] eqn:E; [|discriminate]. destruct (pick (i_numbers a) idx) as [p|] eqn:Ep; [|discriminate]. cbn in H.
  destruct (ads_numbers t) as [r0|]; [|discriminate]. cbn in H. injection H as <-. rewrite in_app_iff, (pick_In _ _ _ Ep), (IH r0 eq_refl). split.
  - intros [(i & Hi & Ei)|(b & jdx & i & Hb & Q)]; [exists a, idx, i; cbn; auto|exists b, jdx, i; cbn; auto].
  - intros (b & jdx & i & [<-|Hb] & Q1 & Q2 & Q3); [left; exists i; rewrite E in Q1; injection Q1 as <-; auto|right; exists b, jdx, i; auto].
Qed.

(** The types are exactly the elements of the adsorbates of training and test structures, in increasing order. *)
Theorem ads_types : forall train test r, ads_atom_types train test = Ok r ->
  StronglySorted lt r /\ forall z, In z r <-> adsorbate_element (train ++ match test with Some t => t | None => [] end) z.
Proof.
  intros train test r H. unfold ads_atom_types in H. destruct (ads_numbers _) as [z0|] eqn:E; [|discriminate]. cbn in H. injection H as <-. split.
  - assert (S : StronglySorted (rel Nat.leb) (isort Nat.leb (dedup z0))).
    { apply isort_sorted. split; [intros x y; destruct (Nat.leb_spec x y); [auto|right; apply Nat.leb_le; lia]|]. intros x y z Hxy Hyz. apply Nat.leb_le in Hxy, Hyz. apply Nat.leb_le. lia. }
    assert (N : NoDup (isort Nat.leb (dedup z0))) by (eapply Permutation_NoDup; [symmetry; apply isort_perm|apply dedup_NoDup]).
    induction S as [|x l S IH F]; [constructor|]. apply NoDup_cons_iff in N. destruct N as [N0 N]. constructor; [auto|]. rewrite Forall_forall in *. intros y Hy. specialize (F y Hy). apply Nat.leb_le in F.
    assert (x <> y) by (intros ->; auto). lia.
  - intros z. rewrite isort_in, dedup_In. apply ads_numbers_In. auto.
Qed.

(** The order of the structures, and which of them are test structures, does not matter. *)
Theorem ads_types_order : forall train test train' test' r r', ads_atom_types train test = Ok r -> ads_atom_types train' test' = Ok r' ->
  Permutation (train ++ match test with Some t => t | None => [] end) (train' ++ match test' with Some t => t | None => [] end) -> r = r'.
Proof.
  intros train test train' test' r r' H H' P. destruct (ads_types _ _ _ H) as [S I], (ads_types _ _ _ H') as [S' I'].
  assert (IFF : forall z, In z r <-> In z r').
  { intros z. rewrite I, I'. unfold adsorbate_element. split; intros (a & idx & i & Ha & Q); exists a, idx, i; (split; [|auto]); [apply (Permutation_in _ P)|apply (Permutation_in _ (Permutation_sym P))]; auto. }
  clear - S S' IFF. revert r' S' IFF. induction S as [|x l S IH F]; intros r' S' IFF.
  - destruct r' as [|y t]; [auto|]. exfalso. apply (IFF y). left. auto.
  - destruct S' as [|y t S' F']; [exfalso; apply (IFF x); left; auto|]. rewrite Forall_forall in F, F'.
    assert (x = y).
    { destruct (proj1 (IFF x) (or_introl eq_refl)) as [E|Hx]; [auto|]. destruct (proj2 (IFF y) (or_introl eq_refl)) as [E|Hy]; [auto|]. specialize (F y Hy). specialize (F' x Hx). lia. }
    subst y. f_equal. apply IH; auto. intros z. split; intros Hz.
    + destruct (proj1 (IFF z) (or_intror Hz)) as [<-|Q]; [|auto]. specialize (F x Hz). lia.
    + destruct (proj2 (IFF z) (or_intror Hz)) as [<-|Q]; [|auto]. specialize (F' x Hz). lia.
Qed.

Example ads_example : ads_atom_types [Image [29; 29; 8; 6] [] None None None None [("ads_atoms", [2; 3])] None]
  (Some [Image [29; 1; 6] [] None None None None [("ads_atoms", [1; 2])] None]) = Ok [1; 6; 8].
Proof. reflexivity. Qed.

Example database_example : exists a, nth_error (database_to_list [Row 7 3%R [29] [64%R] [("delta_energy", Num 2%R)] None]) 0 = Some a /\
  dbid a = [Some (INR 7)] /\ delta_energy (fun _ => None) a = Ok [Some 2%R].
Proof. eexists. repeat split; reflexivity. Qed.

Print Assumptions database_images.
Print Assumptions database_ids.
Print Assumptions stored_features.
Print Assumptions catapp_name_refuted.
Print Assumptions catapp_name_partial.
Print Assumptions mass_order.
Print Assumptions ads_types.
Print Assumptions ads_types_order.
