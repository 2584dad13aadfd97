(** Properties of the CatApp fingerprint. *)
From Coq Require Import Reals Lra String Ascii List Arith Bool Lia Permutation Sorting.Sorted.
From Verif Require Import Base BaseFacts RBase PeriodicModel PeriodicProperties CatAppModel.
Import ListNotations.
Local Open Scope string_scope.
Local Open Scope nat_scope.

(** ** Which elements are described *)
Lemma by_count_preorder raw : total_preorder (fun a b => count b raw <=? count a raw).
Proof. split; intros; rewrite ?Nat.leb_le in *; lia. Qed.

Lemma second_spec key (z1 : nat) : forall l i, StronglySorted (fun a b => key b <= key a) l ->
  let r := fold_left (fun z2 z => if z =? z1 then z2 else z) l i in
  (r = i /\ Forall (fun z => z = z1) l) \/ (In r l /\ r <> z1 /\ forall z, In z l -> z <> z1 -> key r <= key z).
Proof.
  induction l as [|x t IH]; intros i HS; cbn; [left; auto|]. inversion HS as [|x' t' HS' HF]; subst.
  destruct (IH (if x =? z1 then i else x) HS') as [[E1 E2]|(E1 & E2 & E3)]; cbn in *.
  - rewrite E1. destruct (Nat.eqb_spec x z1) as [->|HX]; [left; auto|]. right. split; [auto|]. split; [auto|].
    intros z [<-|Hz] Hn; [lia|]. rewrite Forall_forall in E2. rewrite (E2 z Hz) in Hn. congruence.
  - right. split; [auto|]. split; [auto|]. intros z [<-|Hz] Hn; [|auto]. rewrite Forall_forall in HF. apply HF. exact E1.
Qed.

(** The first element described is a most common ligand element; the second is the same
    one only if there is no other, and otherwise a least common one of the others. *)
Theorem catapp_elements : forall ligands z1 z2, main_elements ligands = Ok (z1, z2) ->
  In z1 ligands /\ (forall z, In z ligands -> count z ligands <= count z1 ligands) /\
  (z2 = z1 <-> forall z, In z ligands -> z = z1) /\
  (z2 <> z1 -> In z2 ligands /\ forall z, In z ligands -> z <> z1 -> count z2 ligands <= count z ligands).
Proof.
  intros ligands z1 z2 H. unfold main_elements in H. destruct (by_count ligands) as [|z t] eqn:E; [discriminate|].
  assert (HS : StronglySorted (fun a b => count b ligands <= count a ligands) (z :: t)).
  { rewrite <- E. unfold by_count. pose proof (isort_sorted (by_count_preorder ligands) ligands) as Q.
    clear - Q. induction Q as [|a l Q IH HF]; constructor; [auto|]. eapply Forall_impl; [|exact HF]. intros b Hb. unfold rel in Hb. apply Nat.leb_le. exact Hb. }
  assert (HI : forall x, In x ligands <-> In x (z :: t)) by (intros x; rewrite <- E; unfold by_count; symmetry; apply isort_in).
  injection H as <- <-.
  destruct (second_spec (fun x => count x ligands) z (z :: t) z HS) as [[E1 E2]|(E1 & E2 & E3)]; cbn [fold_left] in *.
  all: (split; [apply HI; left; auto|]); split.
  1,3: intros x Hx; apply HI in Hx; destruct Hx as [<-|Hx]; [lia|]; inversion HS as [|? ? ? HF]; subst; rewrite Forall_forall in HF; auto.
  - rewrite Nat.eqb_refl in *. split; [|intros Q; exfalso; apply Q; exact E1]. split; [|intros _; exact E1]. intros _ x Hx. rewrite Forall_forall in E2. apply E2, HI, Hx.
  - rewrite Nat.eqb_refl in *. split.
    + split; [intros Q; congruence|]. intros Q. exfalso. apply E2. apply Q, HI, E1.
    + intros _. split; [apply HI, E1|]. intros x Hx Hn. apply E3; auto. apply HI, Hx.
Qed.

(** With at most two elements around the site both are described. *)
Corollary catapp_both_elements : forall ligands z1 z2, main_elements ligands = Ok (z1, z2) ->
  (forall a b c, In a ligands -> In b ligands -> In c ligands -> a = b \/ b = c \/ a = c) ->
  forall z, In z ligands <-> z = z1 \/ z = z2.
Proof.
  intros ligands z1 z2 H HT. destruct (catapp_elements _ _ _ H) as (I1 & _ & E2 & E3). intros z. split.
  - intros Hz. destruct (Nat.eq_dec z2 z1) as [E|E]; [left; apply (proj1 E2 E); auto|].
    destruct (E3 E) as [I2 _]. destruct (HT z z1 z2 Hz I1 I2) as [Q|[Q|Q]]; auto. congruence.
  - intros [->| ->]; [auto|]. destruct (Nat.eq_dec z2 z1) as [->|E]; [auto|]. apply E3; auto.
Qed.

(** With three elements the second one described is not the second most common. *)
Theorem catapp_second_refuted : exists ligands z1 z2 z, main_elements ligands = Ok (z1, z2) /\
  In z ligands /\ z <> z1 /\ z <> z2 /\ count z2 ligands < count z ligands < count z1 ligands.
Proof. exists [78; 78; 78; 29; 29; 8], 78, 8, 29. cbv. repeat split; auto; try lia; discriminate. Qed.

Lemma count_perm z a b : Permutation a b -> count z a = count z b.
Proof.
  unfold count. intros H. induction H; cbn; auto; repeat match goal with |- context [if ?c then _ else _] => destruct c end; cbn; congruence.
Qed.

(** The order of the ligand atoms does not matter when no two elements are equally common. *)
Theorem catapp_order_partial : forall ligands ligands', Permutation ligands ligands' ->
  (forall a b, In a ligands -> In b ligands -> count a ligands = count b ligands -> a = b) ->
  main_elements ligands = main_elements ligands'.
Proof.
  intros l l' HP HC.
  assert (HN : forall m, main_elements m = Err IndexError /\ m = [] \/ exists a b, main_elements m = Ok (a, b)).
  { intros m. unfold main_elements. destruct (by_count m) eqn:E; [left; split; auto|right; eauto].
    apply (f_equal (@List.length nat)) in E. unfold by_count in E. rewrite isort_length in E. destruct m; [auto|discriminate]. }
  destruct (HN l) as [[-> E]|(a & b & E)].
  { subst l. apply Permutation_nil in HP. subst. reflexivity. }
  destruct (HN l') as [[E' E0]|(a' & b' & E')].
  { subst l'. symmetry in HP. apply Permutation_nil in HP. subst. discriminate. }
  rewrite E, E'. destruct (catapp_elements _ _ _ E) as (A1 & A2 & A3 & A4). destruct (catapp_elements _ _ _ E') as (B1 & B2 & B3 & B4).
  assert (I : forall x, In x l <-> In x l') by (intros x; split; apply Permutation_in; [|symmetry]; auto).
  assert (EA : a = a').
  { apply HC; auto; [apply I; auto|]. apply Nat.le_antisymm.
    - rewrite !(count_perm _ _ _ HP). apply B2, I, A1.
    - apply A2, I, B1. }
  subst a'. do 2 f_equal. destruct (Nat.eq_dec b a) as [E1|E1], (Nat.eq_dec b' a) as [E2|E2].
  - congruence.
  - exfalso. apply E2, B3. intros z Hz. apply (proj1 A3 E1), I, Hz.
  - exfalso. apply E1, A3. intros z Hz. apply (proj1 B3 E2), I, Hz.
  - destruct (A4 E1) as [C1 C2], (B4 E2) as [D1 D2]. apply HC; auto; [apply I; auto|]. apply Nat.le_antisymm.
    + apply C2; auto. apply I, D1.
    + rewrite !(count_perm _ _ _ HP). apply D2; auto. apply I, C1.
Qed.

(** With a tie the order of the atoms decides. *)
Theorem catapp_order_refuted : exists ligands ligands', Permutation ligands ligands' /\ main_elements ligands <> main_elements ligands'.
Proof. exists [78; 29], [29; 78]. split; [apply perm_swap|]. cbv. discriminate. Qed.

(** ** Codes *)
(** The site code tells whether the ligands are all of one element. *)
Theorem catapp_site : forall ligands z1 z2, main_elements ligands = Ok (z1, z2) ->
  exists s, site_code ligands z1 z2 = Ok s /\ (s = 1 \/ s = 2)%R /\ (s = 1%R <-> z1 = z2).
Proof.
  intros ligands z1 z2 H. destruct (catapp_elements _ _ _ H) as (I1 & _ & E2 & _). unfold main_elements in H. unfold site_code.
  destruct (by_count ligands) as [|z t]; [discriminate|]. injection H as <- _. rewrite Nat.eqb_refl.
  destruct (Nat.eqb_spec (List.length (nodup Nat.eq_dec ligands)) 1) as [E|E]; (eexists; split; [reflexivity|]; split; [auto|]).
  - split; [intros _|auto]. symmetry. apply E2. intros x Hx.
    destruct (nodup Nat.eq_dec ligands) as [|y [|]] eqn:EN; try discriminate.
    apply (nodup_In Nat.eq_dec) in Hx, I1. rewrite EN in *. destruct Hx as [<-|[]], I1 as [<-|[]]. reflexivity.
  - split; [intros; lra|]. intros Q. exfalso. apply E. symmetry in Q. pose proof (proj1 E2 Q) as A.
    assert (N : NoDup (nodup Nat.eq_dec ligands)) by apply NoDup_nodup.
    assert (J : In z (nodup Nat.eq_dec ligands)) by (apply nodup_In; auto).
    assert (K : forall x, In x (nodup Nat.eq_dec ligands) -> x = z) by (intros x Hx; apply nodup_In in Hx; auto).
    destruct (nodup Nat.eq_dec ligands) as [|y [|w u]]; [destruct J|reflexivity|].
    exfalso. inversion N as [|? ? N1 _]; subst. apply N1. rewrite (K y) by (left; auto). rewrite (K w) by (right; left; auto). left. reflexivity.
Qed.

(** Without a '3' in the termination the concentration code is the number of its elements
    (one or two; more raise). *)
Theorem catapp_concentration_partial : forall symbols term zs, symbols term = Ok zs -> CatAppModel.has_char "3" term = false ->
  let n := List.length (nodup Nat.eq_dec zs) in
  concentration symbols term = (if (n =? 1)%nat then Ok 1%R else if (n =? 2)%nat then Ok 2%R else Err NotImplementedError).
Proof. intros symbols term zs H H3. unfold concentration. rewrite H. cbn [bind]. rewrite H3. reflexivity. Qed.

(** Any '3' makes it 3, even for a pure surface. *)
Theorem catapp_concentration_refuted : exists symbols term zs, symbols term = Ok zs /\
  List.length (nodup Nat.eq_dec zs) = 1 /\ concentration symbols term = Ok 3%R.
Proof. exists (fun _ => Ok [78; 78; 78]), "Pt3", [78; 78; 78]. repeat split. Qed.

(** ** The fingerprint *)
Lemma names_shape : let named suf := map (fun f => feature_name f ++ suf) (features text_params) in
  catapp_names = (named "_m1" ++ ["ground_state_magmom_m1"] ++ named "_m2" ++ ["ground_state_magmom_m2"] ++
                  named "_sum" ++ ["ground_state_magmom_sum"] ++ ["concentration_catapp"; "facet_catapp"; "site_catapp"])%list.
Proof. reflexivity. Qed.

Theorem catapp_names_distinct : NoDup catapp_names.
Proof. apply nodup_check. vm_compute. reflexivity. Qed.

(** The sum of two values where a missing one counts as zero. *)
Definition known (c : cell) : R := match c with Some x => x | None => 0%R end.

Lemma nansum2_known a b : nansum2 a b = Some (known a + known b)%R.
Proof. destruct a, b; cbn; f_equal; lra. Qed.

Lemma element_part_means data gs z f : element_part data gs z = Ok f ->
  exists d r, data z = Some d /\ Forall2 (means d) (features text_params) r /\ f = (r ++ [Some (gs z)])%list.
Proof.
  unfold element_part. intros H. destruct (line data text_params z) as [[kept ex]|] eqn:EL; [|discriminate]. cbn [bind fst snd] in H.
  destruct (mapM to_float kept) as [a|] eqn:EM; [|discriminate]. cbn [bind] in H. injection H as <-.
  destruct (row_means data text_params z (a ++ ex)%list) as (_ & d & Ed & F).
  { unfold row_of. rewrite EL. cbn [bind fst snd]. rewrite EM. reflexivity. }
  exists d, (a ++ ex)%list. split; [auto|]. split; [auto|]. rewrite <- app_assoc. reflexivity.
Qed.

(** The fingerprint holds, in the order of its names, the data of the first element, of the
    second, their sums (a missing value counts as zero), and the three codes. *)
Theorem catapp_fingerprint : forall data gs symbols ligands term facet v,
  catapp_AB data gs symbols ligands term facet = Ok v ->
  exists z1 z2 d1 d2 r1 r2 conc fc site,
    main_elements ligands = Ok (z1, z2) /\ data z1 = Some d1 /\ data z2 = Some d2 /\
    Forall2 (means d1) (features text_params) r1 /\ Forall2 (means d2) (features text_params) r2 /\
    concentration symbols term = Ok conc /\ facet_number (remove_char "(" (remove_char ")" facet)) = Ok fc /\ site_code ligands z1 z2 = Ok site /\
    let f1 := (r1 ++ [Some (gs z1)])%list in let f2 := (r2 ++ [Some (gs z2)])%list in
    v = (f1 ++ f2 ++ map (fun k => Some (known (nth k f1 None) + known (nth k f2 None))%R) (seq 0 26) ++ [Some conc; Some fc; Some site])%list /\
    List.length v = List.length catapp_names.
Proof.
  intros data gs symbols ligands term facet v H. unfold catapp_AB in H.
  destruct (main_elements ligands) as [[z1 z2]|] eqn:EZ; [|discriminate]. cbn [bind] in H.
  destruct (site_code ligands z1 z2) as [site|] eqn:ES; [|discriminate]. cbn [bind] in H.
  destruct (concentration symbols term) as [conc|] eqn:EC; [|discriminate]. cbn [bind] in H.
  destruct (element_part data gs z1) as [f1|] eqn:E1; [|discriminate]. cbn [bind] in H.
  assert (E2 : exists f2, (if z1 =? z2 then Ok f1 else element_part data gs z2) = Ok f2 /\ element_part data gs z2 = Ok f2).
  { destruct (Nat.eqb_spec z1 z2) as [<-|]; [eauto|]. destruct (element_part data gs z2) as [f2|]; [eauto|discriminate]. }
  destruct E2 as (f2 & E2 & E2'). rewrite E2 in H. cbn [bind] in H.
  destruct (facet_number _) as [fc|] eqn:EF; [|discriminate]. cbn [bind] in H. injection H as <-.
  destruct (element_part_means _ _ _ _ E1) as (d1 & r1 & D1 & M1 & ->). destruct (element_part_means _ _ _ _ E2') as (d2 & r2 & D2 & M2 & ->).
  exists z1, z2, d1, d2, r1, r2, conc, fc, site. repeat (split; [assumption||reflexivity|]).
  assert (L1 : List.length r1 = 25) by (rewrite <- (Forall2_length M1); reflexivity).
  assert (L2 : List.length r2 = 25) by (rewrite <- (Forall2_length M2); reflexivity).
  cbv zeta. remember (r1 ++ [Some (gs z1)])%list as f1 eqn:Q1. remember (r2 ++ [Some (gs z2)])%list as f2 eqn:Q2.
  assert (N1 : List.length f1 = 26) by (rewrite Q1, app_length, L1; reflexivity).
  assert (N2 : List.length f2 = 26) by (rewrite Q2, app_length, L2; reflexivity).
  assert (EP : part_sum f1 f2 = map (fun k => Some (known (nth k f1 None) + known (nth k f2 None))%R) (seq 0 26)).
  { unfold part_sum. apply nth_ext with (d := None) (d' := None).
    - rewrite !map_length, combine_length, seq_length. lia.
    - intros k Hk. rewrite map_length, combine_length in Hk. rewrite (nth_map_lt _ _ _ (None, None)) by (rewrite combine_length; lia).
      rewrite combine_nth by lia. cbn [fst snd]. rewrite nansum2_known. rewrite (nth_map_lt _ _ _ 0) by (rewrite seq_length; lia). rewrite seq_nth by lia. reflexivity. }
  rewrite EP. split; [reflexivity|]. rewrite !app_length, map_length, seq_length, N1, N2. reflexivity.
Qed.

(** An alloy site and a pure one. *)
Definition demo_data (z : nat) : option (string -> value) :=
  Some (fun p => if String.eqb p "block" then VStr "d" else if String.eqb p "econf" then VStr "[Ar] 3d6 4s2"
                 else if String.eqb p "ionenergies" then VIon (Some 7%R) else VNum (INR z)).
Example catapp_example : exists v, catapp_AB demo_data (fun _ => 2%R) (fun _ => Ok [26; 29]) [26; 29; 26] "FeCu" "(111)" = Ok v /\
  nth 0 v None = Some (INR 26) /\ nth 26 v None = Some (INR 29) /\ nth 78 v None = Some 2%R /\ nth 79 v None = Some 5%R /\ nth 80 v None = Some 2%R.
Proof. eexists. split; [reflexivity|]. repeat split. Qed.

Print Assumptions catapp_elements.
Print Assumptions catapp_both_elements.
Print Assumptions catapp_second_refuted.
Print Assumptions catapp_order_partial.
Print Assumptions catapp_order_refuted.
Print Assumptions catapp_site.
Print Assumptions catapp_concentration_partial.
Print Assumptions catapp_concentration_refuted.
Print Assumptions catapp_names_distinct.
Print Assumptions catapp_fingerprint.
