(** Properties of catlearn/featurize/slab_utilities.py. *)
From Coq Require Import List Arith Bool Lia Permutation Sorting.Sorted Reals Lra.
From Verif Require Import Base BaseFacts RBase SlabUtilModel.
Import ListNotations.
Set Implicit Arguments.
Local Open Scope nat_scope.

(** ** Specification *)
(** list(set(l)) has the elements of l, each once. *)
Definition set_order (as_set : list nat -> list nat) : Prop := forall l, NoDup (as_set l) /\ forall x, In x (as_set l) <-> In x l.

(** The number of atoms of an element. *)
Definition number (z : nat) (symbols : list nat) : nat := count_occ Nat.eq_dec symbols z.

(** Scandium, yttrium, bismuth, polonium and lawrencium, which are metals. *)
Definition forgotten : list nat := [21; 39; 83; 84; 103].

Lemma memb_In x l : memb x l = true <-> In x l.
Proof.
  unfold memb. rewrite existsb_exists. split.
  - intros [y [H E]]. apply Nat.eqb_eq in E. subst; auto.
  - intros H. exists x. split; auto. apply Nat.eqb_refl.
Qed.

Section Facts.
Variable as_set : list nat -> list nat.
Hypothesis SET : set_order as_set.

(** ** Composition *)
Lemma lookup_stoichiometry s z : lookup z (stoichiometry as_set s) = if in_dec Nat.eq_dec z s then Some (number z s) else None.
Proof.
  unfold stoichiometry. assert (G : forall l, lookup z (map (fun e => (e, count_occ Nat.eq_dec s e)) l) = if in_dec Nat.eq_dec z l then Some (number z s) else None).
  { induction l as [|x t IH]; [reflexivity|]. cbn [map lookup]. destruct (Nat.eqb_spec z x) as [->|N].
    - destruct (in_dec Nat.eq_dec x (x :: t)) as [_|C]; [reflexivity|]. exfalso; apply C; left; auto.
    - rewrite IH. destruct (in_dec Nat.eq_dec z t) as [I|I], (in_dec Nat.eq_dec z (x :: t)) as [J|J]; auto.
      + exfalso; apply J; right; auto.
      + destruct J as [J|J]; [exfalso; auto|tauto]. }
  rewrite G. destruct (SET s) as [_ HS]. destruct (in_dec Nat.eq_dec z (as_set s)) as [I|I], (in_dec Nat.eq_dec z s) as [J|J]; auto.
  - exfalso. apply J, HS, I.
  - exfalso. apply I, HS, J.
Qed.

Lemma count_total (s l : list nat) : NoDup l -> (forall x, In x s -> In x l) -> list_sum (map (fun e => count_occ Nat.eq_dec s e) l) = length s.
Proof.
  intros N. induction s as [|x s IH]; intros H.
  - simpl. clear. induction l; simpl; auto.
  - simpl length. rewrite <- IH by (intros; apply H; right; auto). assert (Hx : In x l) by (apply H; left; auto).
    assert (G : forall L, NoDup L -> list_sum (map (fun f => count_occ Nat.eq_dec (x :: s) f) L) =
      (if in_dec Nat.eq_dec x L then 1 else 0) + list_sum (map (fun f => count_occ Nat.eq_dec s f) L)).
    { induction L as [|y L IL]; intros NL; [reflexivity|]. inversion NL; subst. specialize (IL H3).
      change (list_sum (map ?g (y :: L))) with (g y + list_sum (map g L)). rewrite IL. cbn [count_occ].
      destruct (in_dec Nat.eq_dec x L), (in_dec Nat.eq_dec x (y :: L)) as [I|I], (Nat.eq_dec x y); subst; simpl in *; try lia; exfalso; intuition congruence. }
    rewrite G by auto. destruct (in_dec Nat.eq_dec x l); [reflexivity|contradiction].
Qed.

(** The composition has an entry for exactly the elements that occur, with their numbers, which add up to the number of atoms. *)
Theorem stoichiometry_counts : forall symbols,
  NoDup (map fst (stoichiometry as_set symbols)) /\
  (forall z n, In (z, n) (stoichiometry as_set symbols) <-> In z symbols /\ n = number z symbols) /\
  list_sum (map snd (stoichiometry as_set symbols)) = length symbols.
Proof.
  intros s. destruct (SET s) as [N HS]. unfold stoichiometry. rewrite !map_map. cbn [fst snd]. rewrite map_id. repeat split; auto.
  - apply in_map_iff in H as [e [E I]]. injection E as <- <-. apply HS; auto.
  - apply in_map_iff in H as [e [E I]]. injection E as <- <-. auto.
  - intros [H ->]. apply in_map_iff. exists z. split; auto. apply HS; auto.
  - apply count_total; auto. intros x. apply HS.
Qed.

(** ** Oxides *)
(** A structure that is called an oxide has a metal with at most as many atoms as oxygen. *)
Theorem is_oxide_sound : forall symbols, is_oxide as_set symbols = Ok true ->
  exists m, In m symbols /\ is_metal m = true /\ In oxygen symbols /\ number m symbols <= number oxygen symbols.
Proof.
  intros s. unfold is_oxide. destruct (stoichiometry as_set s) as [|[e0 n0] rest] eqn:E; [discriminate|].
  intros H. injection H as H. apply existsb_exists in H as [m [Hm H]]. exists m. unfold oxide_of in H. rewrite <- E in H.
  rewrite !lookup_stoichiometry in H. apply andb_true_iff in H as [H1 H2].
  destruct (in_dec Nat.eq_dec m s) as [I|]; [|discriminate]. apply andb_true_iff in H2 as [_ H2].
  destruct (in_dec Nat.eq_dec oxygen s) as [J|]; [|discriminate]. apply Nat.leb_le in H2. repeat split; auto.
  unfold is_metal. apply orb_true_iff in H1 as [H1|H1]; auto. apply memb_In. apply memb_In in H1. unfold metals. rewrite !in_app_iff. auto.
Qed.

(** For a compound of one metal and oxygen in which the set lists oxygen first, the answer is the one that is meant, except
    that the share of the metal is taken relative to oxygen. *)
Theorem is_oxide_binary : forall symbols m, as_set symbols = [oxygen; m] -> is_metal m = true ->
  is_oxide as_set symbols = Ok ((number oxygen symbols <? 4 * number m symbols) && (number m symbols <=? number oxygen symbols)).
Proof.
  intros s m E M. destruct (SET s) as [N HS]. rewrite E in N, HS.
  assert (Im : In m s) by (apply HS; right; left; auto). assert (Io : In oxygen s) by (apply HS; left; auto).
  unfold is_oxide. unfold stoichiometry at 1. rewrite E. cbn [map fst]. cbn [existsb]. unfold oxide_of. rewrite !lookup_stoichiometry.
  destruct (in_dec Nat.eq_dec m s); [|contradiction]. destruct (in_dec Nat.eq_dec oxygen s); [|contradiction].
  unfold is_metal in M. rewrite M, orb_true_r, orb_false_r. reflexivity.
Qed.

(** If the set lists the metal first, the same compound is not an oxide. *)
Theorem is_oxide_binary_refuted : forall symbols m, as_set symbols = [m; oxygen] -> is_oxide as_set symbols = Ok false.
Proof.
  intros s m E. unfold is_oxide. unfold stoichiometry at 1. rewrite E. reflexivity.
Qed.

(** ** Layers *)
Variable kmeans : nat -> list R -> list nat.
Hypothesis KM : forall n zs, length (kmeans n zs) = length zs.

Definition height (a : slab) (i : nat) : R := nth i (heights_of a) 0%R.

Lemma layers_perm (T : Type) (xs : list T) labels : length labels = length xs ->
  Permutation (concat (map (fun i => map fst (filter (fun e => snd e =? i) (combine xs labels))) (as_set labels))) xs.
Proof.
  intros L. destruct (SET labels) as [N HS].
  assert (G : forall ls (ps : list (T * nat)), NoDup ls -> (forall p, In p ps -> In (snd p) ls) ->
    Permutation (concat (map (fun i => map fst (filter (fun e => snd e =? i) ps)) ls)) (map fst ps)).
  { induction ls as [|i ls IH]; intros ps Nl H.
    - destruct ps as [|p ps]; [constructor|]. destruct (H p (or_introl eq_refl)).
    - inversion Nl; subst. cbn [map concat]. rewrite <- (filter_partition_perm (fun e => snd e =? i) ps) at 2.
      rewrite map_app. apply Permutation_app_head. rewrite <- (IH (filter (fun e => negb (snd e =? i)) ps)); auto.
      + rewrite (map_ext_in (fun j => map fst (filter (fun e => snd e =? j) (filter (fun e => negb (snd e =? i)) ps))) (fun j => map fst (filter (fun e => snd e =? j) ps))); auto.
        intros j Hj. f_equal. clear -Hj H2. induction ps as [|p ps IH]; auto. simpl.
        destruct (Nat.eqb_spec (snd p) i) as [E|E]; simpl.
        * destruct (Nat.eqb_spec (snd p) j); [exfalso; subst; congruence|]. auto.
        * rewrite IH. auto.
      + intros p Hp. apply filter_In in Hp as [Hp Hn]. destruct (H p Hp) as [E|I]; auto. rewrite E, Nat.eqb_refl in Hn. discriminate. }
  rewrite G; auto.
  - rewrite map_combine_fst by lia. auto.
  - intros [x i] Hp. apply in_combine_r in Hp. cbn. apply HS. auto.
Qed.

Lemma combine_third (A B C : Type) (xs : list A) (ys : list B) (zs : list C) (f : A -> B) : ys = map f xs ->
  forall x y z, In ((x, y), z) (combine (combine xs ys) zs) -> y = f x.
Proof.
  intros -> x y z H. apply in_combine_l in H. revert H. clear. induction xs as [|a xs IH]; simpl; [tauto|].
  intros [E|H]; auto. injection E as -> <-. auto.
Qed.

(** What a successful search returns. *)
Definition proper (a : slab) (tolerance : R) (atoms : list nat) (zs : list R) (ls : list (list nat)) : Prop :=
  Permutation (concat ls) atoms /\ (forall l, In l ls -> l <> []) /\
  zs = map (fun l => mean (map (height a) l)) ls /\ StronglySorted Rle zs /\
  length ls < length atoms /\
  (sqrt (sumR (map (fun l => var (map (height a) l) * INR (length l - 1)) ls) / INR (length atoms - length ls)) <= tolerance)%R.

Lemma search_spec a tol atoms ns zs ls : search as_set kmeans tol atoms (map (height a) atoms) ns = Ok (Some (zs, ls)) -> proper a tol atoms zs ls.
Proof.
  induction ns as [|n ns IH]; cbn [search]; [discriminate|]. destruct (length (map (height a) atoms) <? n); [discriminate|].
  set (zp := map (height a) atoms) in *. set (L := layers as_set atoms zp (kmeans n zp)).
  unfold pooled. destruct (Nat.eqb_spec (length zp - length L) 0) as [E0|E0]; [exact IH|].
  destruct (Rleb _ tol) eqn:ET; [|exact IH]. intros H. injection H as <- <-. apply Rleb_true in ET.
  set (r := fun x y : R * list nat * R => Rleb (fst (fst x)) (fst (fst y))). set (F := isort r L).
  assert (LZ : length zp = length atoms) by apply map_length.
  assert (LK : length (kmeans n zp) = length atoms) by (rewrite KM; auto).
  assert (PF : Permutation F L) by apply isort_perm.
  assert (EL : forall x, In x L -> exists l, x = (mean (map (height a) l), l, (var (map (height a) l) * INR (length l - 1))%R) /\ l <> []).
  { intros x Hx. apply in_map_iff in Hx as [i [<- Hi]]. cbv beta zeta.
    set (fl := filter (fun e => snd e =? i) (combine (combine atoms zp) (kmeans n zp))).
    exists (map (fun e => fst (fst e)) fl). rewrite map_map, map_length.
    assert (EM : map (fun e => snd (fst e)) fl = map (fun x => height a (fst (fst x))) fl).
    { apply map_ext_in. intros [[x y] z] Hf. apply filter_In in Hf as [Hf _]. cbn. eapply combine_third; [|exact Hf]. reflexivity. }
    rewrite EM. split; auto. apply (proj1 (proj2 (SET _) i)) in Hi. intros C.
    assert (LC : length (combine atoms zp) = length (kmeans n zp)) by (rewrite combine_length; lia).
    assert (Hin : In i (map snd (combine (combine atoms zp) (kmeans n zp)))) by (rewrite map_combine_snd by lia; auto).
    apply in_map_iff in Hin as [e [Ee He]]. assert (In e fl) by (apply filter_In; split; auto; apply Nat.eqb_eq; auto).
    destruct fl; [destruct H|discriminate]. }
  assert (EF : forall x, In x F -> exists l, x = (mean (map (height a) l), l, (var (map (height a) l) * INR (length l - 1))%R) /\ l <> []) by (intros x Hx; apply EL, (Permutation_in _ PF); auto).
  assert (LF : length F = length L) by (apply Permutation_length; auto).
  unfold proper. repeat split.
  - transitivity (concat (map (fun l => snd (fst l)) L)).
    { assert (G : forall l1 l2 : list (list nat), Permutation l1 l2 -> Permutation (concat l1) (concat l2)).
      { induction 1; simpl; auto; [apply Permutation_app_head; auto|rewrite !app_assoc; apply Permutation_app_tail, Permutation_app_comm|etransitivity; eauto]. }
      apply G, Permutation_map; auto. }
    unfold L, layers. rewrite map_map. cbn [fst snd].
    assert (X := layers_perm (combine atoms zp) (kmeans n zp)). rewrite combine_length in X. specialize (X ltac:(lia)).
    apply (Permutation_map fst) in X. rewrite concat_map, map_map, map_combine_fst in X by lia.
    rewrite (map_ext _ (fun i => map fst (map fst (filter (fun e => snd e =? i) (combine (combine atoms zp) (kmeans n zp)))))); auto.
    intros i. rewrite map_map. auto.
  - intros l Hl. apply in_map_iff in Hl as [x [<- Hx]]. destruct (EF x Hx) as [l [-> Hl]]. auto.
  - rewrite map_map. apply map_ext_in. intros x Hx. destruct (EF x Hx) as [l [-> _]]. reflexivity.
  - assert (SS : StronglySorted (fun x y => r x y = true) F).
    { apply isort_sorted. split.
      - intros x y. unfold r. rewrite !Rleb_true. lra.
      - intros x y z. unfold r. rewrite !Rleb_true. lra. }
    clear -SS. induction SS as [|x l SS IH F]; simpl; constructor; auto.
    apply Forall_forall. intros y Hy. apply in_map_iff in Hy as [z [<- Hz]]. rewrite Forall_forall in F. apply F in Hz. apply Rleb_true. auto.
  - rewrite map_length. lia.
  - rewrite map_length, map_map, LF, <- LZ. rewrite <- (sumR_perm _ _ (Permutation_map snd PF)) in ET.
    rewrite (map_ext_in _ snd); auto. intros x Hx. destruct (EF x Hx) as [l [-> _]]. reflexivity.
Qed.

(** If the structure is not taken for an oxide, the layers divide the atoms; their average heights are returned in increasing order. *)
Theorem slab_layers_partition : forall max_layers tolerance a zs ls, is_oxide as_set (elements_of a) = Ok false ->
  slab_layers as_set kmeans max_layers tolerance a = Ok (Some (zs, ls)) ->
  proper a tolerance (seq 0 (length (elements_of a))) zs ls.
Proof.
  intros m tol a zs ls HO H. unfold slab_layers, clustered in H. rewrite HO in H. cbn [bind] in H. eapply search_spec; exact H.
Qed.

(** For an oxide the layers contain the atoms of a single metal only: no oxygen atom is in a layer. *)
Theorem slab_layers_oxide_refuted : forall max_layers tolerance a zs ls, is_oxide as_set (elements_of a) = Ok true ->
  slab_layers as_set kmeans max_layers tolerance a = Ok (Some (zs, ls)) ->
  (exists m, is_metal m = true /\ proper a tolerance (filter (fun i => nth i (elements_of a) 0 =? m) (seq 0 (length (elements_of a)))) zs ls) /\
  exists i, i < length (elements_of a) /\ ~ In i (concat ls).
Proof.
  intros mx tol a zs ls HO H. unfold slab_layers, clustered in H. rewrite HO in H. cbn [bind] in H.
  destruct (last_metal _) as [m|] eqn:EM; [|discriminate]. cbn [bind] in H. apply search_spec in H.
  assert (M : is_metal m = true).
  { revert EM. generalize (map fst (tl (stoichiometry as_set (elements_of a)))). clear. induction l as [|e t IH]; cbn [last_metal]; [discriminate|].
    destruct (last_metal t); auto. destruct (memb e metals) eqn:E; [|discriminate]. intros X; injection X as <-. auto. }
  split; eauto.
  destruct (is_oxide_sound _ HO) as [m' [_ [_ [Io _]]]]. destruct (In_nth _ _ 0 Io) as [i [Hi Ei]]. exists i. split; auto.
  intros C. destruct H as [P _]. apply (Permutation_in _ P) in C. apply filter_In in C as [_ C]. apply Nat.eqb_eq in C.
  rewrite Ei in C. subst m. discriminate.
Qed.

(** Two atoms at different heights are never two layers: the search fails. *)
Theorem slab_layers_two_atoms_refuted : forall max_layers tolerance z1 z2 h1 h2, 3 <= max_layers ->
  (2 * tolerance < Rabs (h1 - h2))%R -> is_oxide as_set [z1; z2] = Ok false ->
  slab_layers as_set kmeans max_layers tolerance (Slab [z1; z2] [h1; h2]) = Err ValueError.
Proof.
  intros mx tol z1 z2 h1 h2 Hm Hd HO. unfold slab_layers, clustered. cbn [elements_of]. rewrite HO. cbn [bind length seq map nth heights_of].
  destruct mx as [|[|[|mx]]]; try lia. cbn [seq search length]. cbn [Nat.ltb Nat.leb].
  assert (G : forall n, match pooled 2 (layers as_set [0; 1] [h1; h2] (kmeans n [h1; h2])) with Some s => Rleb s tol | None => false end = false).
  { intros n. assert (LK := KM n [h1; h2]). destruct (kmeans n [h1; h2]) as [|l1 [|l2 [|? ?]]]; try discriminate. clear LK.
    unfold pooled. destruct (Nat.eqb_spec (2 - length (layers as_set [0; 1] [h1; h2] [l1; l2])) 0) as [E|E]; auto.
    unfold layers in *. rewrite map_length in E. destruct (SET [l1; l2]) as [N HS].
    assert (E12 : l1 = l2).
    { destruct (Nat.eq_dec l1 l2) as [|D]; auto. exfalso. apply E.
      assert (P : Permutation (as_set [l1; l2]) [l1; l2]).
      { apply NoDup_Permutation; auto. constructor; [intros [X|[]]; auto|constructor; auto; constructor]. }
      rewrite (Permutation_length P). reflexivity. }
    subst l2. assert (EA : as_set [l1; l1] = [l1]).
    { assert (P : Permutation (as_set [l1; l1]) [l1]).
      { apply NoDup_Permutation; auto; [repeat constructor; auto|]. intros x. rewrite HS. simpl. tauto. }
      symmetry in P. apply Permutation_length_1_inv in P. auto. }
    rewrite EA. cbn [combine map filter snd fst]. rewrite Nat.eqb_refl. cbn [map fst snd length Nat.sub sumR].
    apply Rleb_false. unfold var, mean. cbn [map sumR length INR].
    replace (_ / 1)%R with (((h1 - h2) / 2) ^ 2)%R by field.
    rewrite <- (Rabs_right 2) in Hd by lra. replace (((h1 - h2) / 2) ^ 2)%R with (Rsqr ((h1 - h2) / 2)) by (unfold Rsqr; ring).
    rewrite sqrt_Rsqr_abs. unfold Rdiv. rewrite Rabs_mult, (Rabs_right (/ 2)) by lra. rewrite (Rabs_right 2) in Hd by lra. lra. }
  pose proof (G 1) as G1. pose proof (G 2) as G2.
  destruct (pooled 2 (layers as_set [0; 1] [h1; h2] (kmeans 1 [h1; h2]))) as [s1|]; [rewrite G1|];
  destruct (pooled 2 (layers as_set [0; 1] [h1; h2] (kmeans 2 [h1; h2]))) as [s2|]; try rewrite G2; reflexivity.
Qed.
End Facts.

(** ** Metals *)
(** Some metals are not in the list. *)
Theorem is_metal_refuted : forall z, In z forgotten -> is_metal z = false.
Proof. intros z H. repeat (destruct H as [<-|H]; [reflexivity|]). destruct H. Qed.

(** Non-metals are never called metals. *)
Theorem is_metal_sound : forall z, is_metal z = true -> ~ In z [1; 2; 6; 7; 8; 9; 10; 15; 16; 17; 18; 33; 34; 35; 36; 51; 52; 53; 54; 85; 86].
Proof. intros z H C. repeat (destruct C as [<-|C]; [discriminate|]). destruct C. Qed.

(** Every other element up to nobelium is called a metal. *)
Theorem is_metal_complete : forall z, 3 <= z <= 102 -> ~ In z forgotten ->
  ~ In z [6; 7; 8; 9; 10; 15; 16; 17; 18; 33; 34; 35; 36; 51; 52; 53; 54; 85; 86] -> is_metal z = true.
Proof.
  intros z Hz F N. do 103 (destruct z as [|z]; [try lia; try reflexivity; exfalso; cbn in F, N; intuition congruence|]). lia.
Qed.

(** ** Concrete cases *)
(** Rutile: the answer depends on the order of a set of strings, which Python chooses at random in each run. *)
Theorem is_oxide_order_refuted : exists f g, set_order f /\ set_order g /\ is_oxide f [22; 8; 8] = Ok true /\ is_oxide g [22; 8; 8] = Ok false.
Proof.
  exists (fun l => rev (nodup Nat.eq_dec l)), (fun l => nodup Nat.eq_dec l).
  assert (S1 : set_order (fun l => nodup Nat.eq_dec l)) by (intros l; split; [apply NoDup_nodup|apply nodup_In]).
  split; [|split; [exact S1|]].
  - intros l. destruct (S1 l) as [N H]. split; [apply NoDup_rev; auto|]. intros x. rewrite <- in_rev. apply H.
  - vm_compute. auto.
Qed.

Example layers_case : forall kmeans, kmeans 1 [0%R; 0%R; 5%R; 5%R] = [0; 0; 0; 0] -> kmeans 2 [0%R; 0%R; 5%R; 5%R] = [1; 1; 0; 0] ->
  slab_layers (nodup Nat.eq_dec) kmeans 20 (1 / 2) (Slab [29; 29; 29; 29] [0%R; 0%R; 5%R; 5%R]) = Ok (Some ([0%R; 5%R], [[0; 1]; [2; 3]])).
Proof.
  intros km K1 K2. unfold slab_layers. replace (clustered (nodup Nat.eq_dec) _) with (Ok [0; 1; 2; 3] : result (list nat)) by reflexivity.
  cbn [bind map nth heights_of]. cbn [seq search length Nat.ltb Nat.leb]. rewrite K1, K2.
  unfold layers. replace (nodup Nat.eq_dec [0; 0; 0; 0]) with [0] by reflexivity. replace (nodup Nat.eq_dec [1; 1; 0; 0]) with [1; 0] by reflexivity.
  cbn [map combine filter snd fst Nat.eqb length Nat.sub pooled sumR].
  unfold pooled. cbn [length Nat.sub Nat.eqb map snd sumR].
  replace (Rleb _ _) with false.
  2:{ symmetry. apply Rleb_false. replace (_ / INR 3)%R with (Rsqr (5 / 2)) by (unfold Rsqr, var, mean; cbn; field). rewrite sqrt_Rsqr; lra. }
  replace (Rleb _ (1 / 2)) with true.
  2:{ symmetry. apply Rleb_true. replace (_ / INR 2)%R with 0%R by (unfold var, mean; cbn; field). rewrite sqrt_0. lra. }
  cbn [isort insert fst snd map]. replace (Rleb (mean [5; 5]%R) (mean [0; 0]%R)) with false by (symmetry; apply Rleb_false; unfold mean; cbn; lra).
  replace (Rleb (mean [0; 0]%R) (mean [5; 5]%R)) with true by (symmetry; apply Rleb_true; unfold mean; cbn; lra).
  cbn [map fst snd]. unfold mean. cbn. do 4 f_equal; [lra|]. f_equal. lra.
Qed.

Print Assumptions stoichiometry_counts.
Print Assumptions is_oxide_sound.
Print Assumptions is_oxide_binary.
Print Assumptions is_oxide_binary_refuted.
Print Assumptions is_oxide_order_refuted.
Print Assumptions slab_layers_partition.
Print Assumptions slab_layers_oxide_refuted.
Print Assumptions slab_layers_two_atoms_refuted.
Print Assumptions is_metal_refuted.
Print Assumptions is_metal_sound.
Print Assumptions is_metal_complete.
