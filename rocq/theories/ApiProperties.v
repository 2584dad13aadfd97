(** Properties of the data set, CatMAP and graph interfaces, of penalty functions and
    neighbour shells. *)
From Coq Require Import ZArith Reals Lra Lia String Ascii List Arith Bool Permutation.
From Verif Require Import Base BaseFacts RBase ApiModel.
Import ListNotations.

(** ** Test and training sets *)
Section Data.
Context {A V : Type}.
Variable target : A -> option V.
Variable shuffle : list (nat * A) -> list (nat * A).
Hypothesis shuffled : forall l, Permutation (shuffle l) l.

(** The data set consists of distinct structures of [atoms], each with its own target. *)
Definition drawn (atoms : list A) (ds : dataset (A := A) (V := V)) : Prop :=
  NoDup (d_index ds) /\ Forall2 (fun i a => nth_error atoms i = Some a) (d_index ds) (d_atoms ds) /\
  Forall2 (fun a v => target a = Some v) (d_atoms ds) (d_target ds).

(** [out] is [ds] and then [p] *)
Definition added (ds out : dataset) (p : list (nat * A)) : Prop :=
  exists vs, d_atoms out = d_atoms ds ++ map snd p /\ d_index out = d_index ds ++ map fst p /\ d_target out = d_target ds ++ vs /\
    Forall2 (fun a v => target a = Some v) (map snd p) vs.

Lemma added_nil ds : added ds ds [].
Proof. exists []. cbn. rewrite !app_nil_r. auto. Qed.

Lemma added_cons ds a ds' out p : d_add target ds a = Ok ds' -> added ds' out p -> added ds out (a :: p).
Proof.
  unfold d_add. destruct (target (snd a)) as [v|] eqn:ET; [|discriminate]. intros E (vs & H1 & H2 & H3 & H4). injection E as <-. cbn [d_atoms d_index d_target] in *.
  exists (v :: vs). rewrite H1, H2, H3, <- !app_assoc. repeat split. constructor; auto.
Qed.

Lemma add_length ds a ds' : d_add target ds a = Ok ds' -> length (d_atoms ds') = S (length (d_atoms ds)).
Proof. unfold d_add. destruct (target (snd a)); [|discriminate]. intros E. injection E as <-. cbn. rewrite app_length. cbn. lia. Qed.

Lemma unique_loop_spec size : forall l ds out, unique_loop target size l ds = Ok out ->
  exists p rest, l = p ++ rest /\ added ds out p /\ length p = Nat.min (Z.to_nat (size - Z.of_nat (length (d_atoms ds)))) (length l).
Proof.
  induction l as [|a l IH]; intros ds out E; cbn [unique_loop] in E.
  - injection E as <-. exists [], []. split; [auto|]. split; [apply added_nil|]. cbn. lia.
  - destruct (Z.ltb_spec (Z.of_nat (length (d_atoms ds))) size).
    + destruct (d_add target ds a) as [ds'|] eqn:ED; [|discriminate]. cbn [bind] in E. destruct (IH _ _ E) as (p & rest & -> & HA & HL).
      exists (a :: p), rest. split; [auto|]. split; [eapply added_cons; eauto|]. rewrite (add_length _ _ _ ED) in HL. cbn [length]. rewrite HL. cbn [length]. lia.
    + injection E as <-. exists [], (a :: l). split; [auto|]. split; [apply added_nil|]. cbn. lia.
Qed.

Definition free (taken : option (list nat)) (i : nat) : bool := match taken with None => true | Some tk => negb (existsb (Nat.eqb i) tk) end.

Lemma train_loop_spec size taken : forall l ds out, train_loop target size taken l ds = Ok out ->
  exists p rest, filter (fun a => free taken (fst a)) l = p ++ rest /\ added ds out p /\
    length p = match size with None => length (filter (fun a => free taken (fst a)) l)
                             | Some s => Nat.min (Z.to_nat (s - Z.of_nat (length (d_atoms ds)))) (length (filter (fun a => free taken (fst a)) l)) end.
Proof.
  induction l as [|a l IH]; intros ds out E; cbn [train_loop filter] in *.
  - injection E as <-. exists [], []. split; [auto|]. split; [apply added_nil|]. destruct size; cbn; lia.
  - fold (free taken (fst a)) in E. cbv zeta in E.
    destruct (match size with None => true | Some s => _ end) eqn:ES.
    + destruct (free taken (fst a)).
      * destruct (d_add target ds a) as [ds'|] eqn:ED; [|discriminate]. cbn [bind] in E. destruct (IH _ _ E) as (p & rest & HF & HA & HL).
        exists (a :: p), rest. split; [cbn; congruence|]. split; [eapply added_cons; eauto|]. rewrite (add_length _ _ _ ED) in HL. cbn [length]. rewrite HL.
        destruct size; cbn [length]; [apply Z.ltb_lt in ES|]; lia.
      * exact (IH _ _ E).
    + destruct size as [s|]; [|discriminate]. apply Z.ltb_ge in ES.
      destruct (Z.eqb_spec (Z.of_nat (length (d_atoms ds))) s) as [HZ|HZ].
      * injection E as <-. exists [], (filter (fun a => free taken (fst a)) (a :: l)). split; [auto|]. split; [apply added_nil|]. cbn [length]. lia.
      * destruct (IH _ _ E) as (p & rest & HF & HA & HL). exists [], (filter (fun a => free taken (fst a)) (a :: l)). split; [auto|].
        assert (p = []) as -> by (destruct p; [auto|cbn in HL; lia]). split; [auto|]. cbn [length]. lia.
Qed.

Lemma drawn_added atoms p out : added (Dataset [] [] []) out p -> (forall a, In a p -> In a (combine (seq 0 (length atoms)) atoms)) -> NoDup (map fst p) -> drawn atoms out.
Proof.
  intros (vs & H1 & H2 & H3 & H4) HI HN. cbn in *. split; [rewrite H2; auto|]. split; [|rewrite H1, H3; auto].
  rewrite H1, H2. clear - HI. induction p as [|[i a] p IH]; cbn; constructor; [|apply IH; intros; apply HI; cbn; auto].
  specialize (HI (i, a) ltac:(cbn; auto)). apply combine_nth_ex in HI as (m & Hm & Ha).
  assert (m < length (seq 0 (length atoms)))%nat by (apply nth_error_Some; congruence). rewrite seq_length in *.
  rewrite (nth_error_nth' _ 0%nat) in Hm by (rewrite seq_length; auto). rewrite seq_nth in Hm by auto. injection Hm as <-. auto.
Qed.

Lemma order_keys atoms : Permutation (map fst (orderlist shuffle atoms)) (seq 0 (length atoms)).
Proof.
  unfold orderlist. eapply Permutation_trans; [apply Permutation_map, shuffled|]. rewrite map_combine_fst; [auto|rewrite seq_length; auto].
Qed.
Lemma order_nodup atoms : NoDup (map fst (orderlist shuffle atoms)).
Proof. eapply Permutation_NoDup; [apply Permutation_sym, order_keys|apply seq_NoDup]. Qed.
Lemma order_length atoms : length (orderlist shuffle atoms) = length atoms.
Proof. unfold orderlist. rewrite (Permutation_length (shuffled _)), combine_length, seq_length. lia. Qed.

Lemma NoDup_app_l {B} (l1 l2 : list B) : NoDup (l1 ++ l2) -> NoDup l1.
Proof. induction l1 as [|x l IH]; intros H; [constructor|]. cbn in H. inversion H as [|? ? H1 H2]; subst. constructor; [rewrite in_app_iff in H1; tauto|auto]. Qed.

(** A test set has min(size, n) distinct structures with their own targets. *)
Theorem get_unique_drawn atoms size ds : get_unique target shuffle atoms size = Ok ds ->
  drawn atoms ds /\ length (d_index ds) = Nat.min (Z.to_nat size) (length atoms).
Proof.
  intros E. destruct (unique_loop_spec _ _ _ _ E) as (p & rest & HO & HA & HL). rewrite order_length in HL. cbn [d_atoms length] in HL.
  split.
  - eapply drawn_added; [exact HA| |].
    + intros a Ha. apply (Permutation_in _ (shuffled _)). fold (orderlist shuffle atoms). rewrite HO. apply in_app_iff. auto.
    + eapply NoDup_app_l. rewrite <- map_app, <- HO. apply order_nodup.
  - destruct HA as (vs & _ & -> & _). cbn. rewrite map_length, HL, Z.sub_0_r. auto.
Qed.

(** A training set has distinct structures, with their own targets, that were not taken:
    as many as asked for, or all of them. *)
Theorem get_train_drawn atoms size taken ds : get_train target shuffle atoms size taken = Ok ds ->
  drawn atoms ds /\
  (forall tk i, taken = Some tk -> In i tk -> ~ In i (d_index ds)) /\
  length (d_index ds) = (let available := length (filter (fun i => match taken with None => true | Some tk => negb (existsb (Nat.eqb i) tk) end) (seq 0 (length atoms))) in
                         match size with None => available | Some s => Nat.min (Z.to_nat s) available end).
Proof.
  intros E. destruct (train_loop_spec _ _ _ _ _ E) as (p & rest & HO & HA & HL). cbn [d_atoms length] in HL.
  assert (HP : forall a, In a p -> In a (orderlist shuffle atoms) /\ free taken (fst a) = true).
  { intros a Ha. apply filter_In with (f := fun a => free taken (fst a)). rewrite HO. apply in_app_iff. auto. }
  split; [|split].
  - eapply drawn_added; [exact HA| |].
    + intros a Ha. apply (Permutation_in _ (shuffled _)). apply HP. auto.
    + eapply NoDup_app_l. rewrite <- map_app, <- HO. pose proof (order_nodup atoms) as HN. revert HN. generalize (orderlist shuffle atoms). clear.
      induction l as [|x l IH]; cbn; [constructor|]. intros HN. inversion HN as [|? ? H1 H2]; subst. destruct (free taken (fst x)); cbn; [|auto].
      constructor; [|auto]. intros HI. apply H1. apply in_map_iff in HI as (y & <- & Hy). apply filter_In in Hy. apply in_map. tauto.
  - intros tk i -> Hi HD. destruct HA as (vs & _ & H2 & _). rewrite H2 in HD. cbn in HD. apply in_map_iff in HD as (a & <- & Ha). apply HP in Ha as [_ Ha].
    cbn in Ha. apply negb_true_iff in Ha. rewrite (proj2 (existsb_exists _ _)) in Ha; [discriminate|]. exists (fst a). rewrite Nat.eqb_refl. auto.
  - destruct HA as (vs & _ & -> & _). cbn [d_index app]. rewrite map_length.
    assert (HC : length (filter (fun a => free taken (fst a)) (orderlist shuffle atoms)) = length (filter (free taken) (seq 0 (length atoms)))).
    { rewrite <- (map_length fst). transitivity (length (filter (free taken) (map fst (orderlist shuffle atoms)))).
      - f_equal. generalize (orderlist shuffle atoms). clear. induction l as [|x l IH]; cbn; [auto|]. destruct (free taken (fst x)); cbn; congruence.
      - apply Permutation_length. pose proof (order_keys atoms) as HK. revert HK. clear. generalize (map fst (orderlist shuffle atoms)) (seq 0 (length atoms)).
        induction 1; cbn; repeat (match goal with |- context [free taken ?x] => destruct (free taken x) end); auto using perm_swap, perm_skip.
        eapply Permutation_trans; eauto. }
    cbv zeta. fold (free taken). rewrite HC in HL. rewrite HL. destruct size; [rewrite Z.sub_0_r|]; auto.
Qed.

(** Drawn one after the other, test and training set are disjoint, and the training set
    has min(size, n - |test|) structures. *)
Theorem test_and_training_disjoint atoms n m test train :
  get_unique target shuffle atoms n = Ok test -> get_train target shuffle atoms m (Some (d_index test)) = Ok train ->
  (forall i, In i (d_index test) -> ~ In i (d_index train)) /\
  length (d_index train) = (let rest := length atoms - length (d_index test) in match m with None => rest | Some s => Nat.min (Z.to_nat s) rest end)%nat.
Proof.
  intros E1 E2. destruct (get_unique_drawn _ _ _ E1) as [(HN & HF & _) HL]. destruct (get_train_drawn _ _ _ _ E2) as (_ & HD & HT).
  split; [intros i Hi; apply (HD _ _ eq_refl Hi)|]. rewrite HT. cbv zeta.
  set (tk := d_index test) in *.
  assert (HP : Permutation (filter (fun i => existsb (Nat.eqb i) tk) (seq 0 (length atoms))) tk).
  { apply NoDup_Permutation; [apply NoDup_filter, seq_NoDup|auto|]. intros i. rewrite filter_In, in_seq, existsb_exists. split.
    - intros (_ & x & Hx & E). apply Nat.eqb_eq in E. subst. auto.
    - intros Hi. split; [|exists i; rewrite Nat.eqb_refl; auto]. clear - HF Hi. induction HF as [|x a l l' H HF IH]; [destruct Hi|]. destruct Hi as [->|Hi]; [|auto].
      assert (i < length atoms)%nat by (apply nth_error_Some; congruence). lia. }
  assert (HS : (length (filter (fun i => existsb (Nat.eqb i) tk) (seq 0 (length atoms))) + length (filter (fun i => negb (existsb (Nat.eqb i) tk)) (seq 0 (length atoms))) = length atoms)%nat).
  { rewrite <- (seq_length (length atoms) 0) at 3. generalize (seq 0 (length atoms)). clear. induction l as [|x l IH]; cbn; [auto|]. destruct (existsb _ _); cbn; lia. }
  rewrite (Permutation_length HP) in HS. replace (length (filter _ _)) with (length atoms - length tk)%nat by lia. reflexivity.
Qed.
End Data.

Example data_case : get_unique (fun a => Some (a * 10)%nat) (@rev _) [1;2;3;4;5]%nat 2 = Ok (Dataset [5;4] [50;40] [4;3])%nat /\
  get_train (fun a => Some (a * 10)%nat) (@rev _) [1;2;3;4;5]%nat (Some 2%Z) (Some [4;3]%nat) = Ok (Dataset [3;2] [30;20] [2;1])%nat.
Proof. split; reflexivity. Qed.

(** ** CatMAP *)
Open Scope string_scope.
Open Scope R_scope.

Lemma get_put {V} (d : list (string * V)) k v k' : get (put d k v) k' = if String.eqb k' k then Some v else get d k'.
Proof.
  induction d as [|[q w] d IH]; cbn; [auto|]. destruct (String.eqb_spec k q) as [->|Hq]; cbn.
  - destruct (String.eqb_spec k' q); auto.
  - destruct (String.eqb_spec k' q) as [->|Hq']; [|auto]. destruct (String.eqb_spec q k); [congruence|auto].
Qed.

Lemma put_keys {V} (d : list (string * V)) k v : NoDup (map fst d) -> NoDup (map fst (put d k v)) /\ (forall x, In x (map fst (put d k v)) -> x = k \/ In x (map fst d)).
Proof.
  induction d as [|[q w] d IH]; cbn; intros HN; [split; [repeat constructor; auto|intuition]|]. inversion HN as [|? ? H1 H2]; subst.
  destruct (String.eqb_spec k q) as [->|Hq]; cbn; [split; [auto|intuition]|]. destruct (IH H2) as [I1 I2]. split.
  - constructor; [|auto]. intros H. destruct (I2 _ H); [congruence|auto].
  - intros x [->|H]; [auto|]. destruct (I2 _ H); auto.
Qed.

Lemma get_none {V} (d : list (string * V)) k : ~ In k (map fst d) -> get d k = None.
Proof. induction d as [|[q w] d IH]; cbn; [auto|]. intros H. destruct (String.eqb_spec k q) as [->|]; [tauto|]. apply IH. tauto. Qed.

Lemma update_get {V} (e : list (string * V)) : forall d k, NoDup (map fst e) -> get (update d e) k = match get e k with Some v => Some v | None => get d k end.
Proof.
  unfold update. induction e as [|[q w] e IH]; intros d k HN; cbn; [auto|]. inversion HN as [|? ? H1 H2]; subst. rewrite IH by auto. rewrite get_put.
  destruct (String.eqb_spec k q) as [->|]; [rewrite get_none by auto; auto|auto].
Qed.

Section Catmap.
Variable fetch : nat -> result dbrow.

(** Row [i] of the input is a structure of state [k] with predicted energy [e],
    uncertainty [s] and database id [id]. *)
Definition row_is (site_specific : bool) (ids : list nat) (prediction u : list R) (i : nat) (k : string) (e s : R) (id : nat) : Prop :=
  nth_error ids i = Some id /\ nth_error prediction i = Some e /\ nth_error u i = Some s /\ exists d, fetch id = Ok d /\ state_key site_specific d = k.
Definition state_of (site_specific : bool) (ids : list nat) (i : nat) (k : string) : Prop :=
  exists id d, nth_error ids i = Some id /\ fetch id = Ok d /\ state_key site_specific d = k.

(** The first [n] rows are in the landscape [l]. *)
Definition holds_rows ss ids prediction u (n : nat) (l : landscape) : Prop :=
  NoDup (map fst (formation l)) /\ NoDup (map fst (std_ l)) /\ NoDup (map fst (dbid l)) /\
  forall k, match get (formation l) k with
            | None => get (std_ l) k = None /\ get (dbid l) k = None /\ forall i, (i < n)%nat -> ~ state_of ss ids i k
            | Some e => exists s id i, get (std_ l) k = Some s /\ get (dbid l) k = Some id /\ (i < n)%nat /\ row_is ss ids prediction u i k e s id /\
                forall j e', (j < n)%nat -> state_of ss ids j k -> nth_error prediction j = Some e' -> e' <= e
            end.

Lemma catmap_loop_spec ss ids prediction u : forall t done l out, ids = (done ++ t)%list -> holds_rows ss ids prediction u (List.length done) l ->
  catmap_loop fetch ss t prediction (Some u) (List.length done) l = Ok out -> holds_rows ss ids prediction u (List.length ids) out.
Proof.
  induction t as [|id t IH]; intros done l out EI HI E; cbn [catmap_loop] in E.
  - injection E as <-. rewrite app_nil_r in EI. subst. auto.
  - destruct (fetch id) as [d|] eqn:EF; [|discriminate]. cbn [bind] in E.
    set (key := state_key ss d) in *. set (n := List.length done) in *.
    assert (HID : nth_error ids n = Some id) by (rewrite EI; unfold n; rewrite nth_error_app2, Nat.sub_diag; auto).
    assert (HSn : forall k, state_of ss ids n k -> k = key).
    { intros k (id' & d' & H1 & H2 & H3). rewrite HID in H1. injection H1 as <-. rewrite EF in H2. injection H2 as <-. auto. }
    destruct (nth_error prediction n) as [p|] eqn:EP; [|discriminate].
    match type of E with bind ?x _ = _ => destruct x as [l'|] eqn:EL end; [|discriminate]. cbn [bind] in E.
    apply (IH (done ++ [id])%list l' out); [rewrite <- app_assoc; auto| |rewrite app_length; cbn [List.length]; rewrite Nat.add_1_r; exact E].
    rewrite app_length. cbn [List.length]. rewrite Nat.add_1_r. fold n.
    destruct HI as (N1 & N2 & N3 & HK).
    assert (Hput : forall s, nth_error u n = Some s -> (forall e, get (formation l) key = Some e -> e < p) ->
      holds_rows ss ids prediction u (S n) (Landscape (put (formation l) key p) (put (std_ l) key s) (put (dbid l) key id))).
    { intros s ES Hlt. repeat split; try (apply put_keys; auto). intros k. cbn [formation std_ dbid]. rewrite !get_put. destruct (String.eqb_spec k key) as [->|Hne].
      - exists s, id, n. repeat split; auto; [exists d; auto|]. intros j e' Hj Hs He. destruct (Nat.eq_dec j n) as [->|Hjn]; [rewrite EP in He; injection He as ->; lra|].
        specialize (HK key). destruct (get (formation l) key) as [e|].
        + destruct HK as (s0 & id0 & i0 & _ & _ & _ & _ & HM). specialize (HM j e' ltac:(lia) Hs He). specialize (Hlt e eq_refl). lra.
        + destruct HK as (_ & _ & HM). exfalso. apply (HM j ltac:(lia) Hs).
      - specialize (HK k). destruct (get (formation l) k) as [e|].
        + destruct HK as (s0 & id0 & i0 & H1 & H2 & H3 & H4 & HM). exists s0, id0, i0. repeat split; auto; try apply H4. intros j e' Hj Hs He.
          destruct (Nat.eq_dec j n) as [->|Hjn]; [apply HSn in Hs; congruence|]. apply (HM j); auto. lia.
        + destruct HK as (H1 & H2 & HM). repeat split; auto. intros j Hj Hs. destruct (Nat.eq_dec j n) as [->|Hjn]; [apply HSn in Hs; congruence|]. apply (HM j); auto. lia. }
    destruct (get (formation l) key) as [e|] eqn:EG.
    + destruct (Rltb e p) eqn:EC.
      * destruct (nth_error u n) as [s|] eqn:ES; [|discriminate]. injection EL as <-. apply Hput; auto. intros e0 H. injection H as <-. apply Rltb_true. auto.
      * injection EL as <-. apply Rltb_false in EC. repeat split; auto. intros k. specialize (HK k). destruct (get (formation l) k) as [e1|] eqn:EG1.
        -- destruct HK as (s0 & id0 & i0 & H1 & H2 & H3 & H4 & HM). exists s0, id0, i0. repeat split; auto; try apply H4. intros j e' Hj Hs He.
           destruct (Nat.eq_dec j n) as [->|Hjn]; [apply HSn in Hs; subst k; rewrite EP in He; injection He as <-; rewrite EG in EG1; injection EG1 as <-; lra|]. apply (HM j); auto. lia.
        -- destruct HK as (H1 & H2 & HM). repeat split; auto. intros j Hj Hs. destruct (Nat.eq_dec j n) as [->|Hjn]; [apply HSn in Hs; congruence|]. apply (HM j); auto. lia.
    + destruct (nth_error u n) as [s|] eqn:ES; [|discriminate]. injection EL as <-. apply Hput; auto. intros e0 H. discriminate.
Qed.

(** For each state of the input the landscape holds the energy, uncertainty and id of one
    of its structures, which has the largest predicted energy; other states are left as
    they were. *)
Theorem catmap_states_partial ids prediction u c ss out :
  catmap_energy_landscape fetch ids prediction (Some u) (Some c) ss = Ok out ->
  forall k,
    ((exists i, (i < List.length ids)%nat /\ state_of ss ids i k) ->
     exists e s id i, get (formation out) k = Some e /\ get (std_ out) k = Some s /\ get (dbid out) k = Some id /\
       row_is ss ids prediction u i k e s id /\
       forall j e', (j < List.length ids)%nat -> state_of ss ids j k -> nth_error prediction j = Some e' -> e' <= e) /\
    (~ (exists i, (i < List.length ids)%nat /\ state_of ss ids i k) ->
     get (formation out) k = get (formation c) k /\ get (std_ out) k = get (std_ c) k /\ get (dbid out) k = get (dbid c) k).
Proof.
  unfold catmap_energy_landscape. destruct (catmap_loop _ _ _ _ _ _ _) as [l|] eqn:E; [|discriminate]. cbn [bind]. intros EO k. injection EO as <-.
  assert (H0 : holds_rows ss ids prediction u (List.length (@nil nat)) (Landscape [] [] [])).
  { repeat split; try (cbn; constructor). intros; cbn in *; lia. }
  destruct (catmap_loop_spec ss ids prediction u ids [] _ _ eq_refl H0 E) as (N1 & N2 & N3 & HK). specialize (HK k). cbn [formation std_ dbid].
  rewrite !update_get by auto. destruct (get (formation l) k) as [e|].
  - destruct HK as (s & id & i & -> & -> & Hi & HR & HM). split.
    + intros _. exists e, s, id, i. repeat split; auto; apply HR.
    + intros H. exfalso. apply H. exists i. split; [auto|]. destruct HR as (H1 & _ & _ & d & H2 & H3). exists id, d. auto.
  - destruct HK as (-> & -> & HM). split; [intros (i & Hi & Hs); exfalso; apply (HM i); auto|auto].
Qed.

(** So of two structures of one state the less stable one is kept. *)
Theorem catmap_minimum_refuted a b d e1 e2 s1 s2 c ss :
  fetch a = Ok d -> fetch b = Ok d -> e1 < e2 ->
  exists out, catmap_energy_landscape fetch [a; b] [e1; e2] (Some [s1; s2]) (Some c) ss = Ok out /\ get (formation out) (state_key ss d) = Some e2 /\
    get (dbid out) (state_key ss d) = Some b.
Proof.
  intros Ha Hb Hlt. unfold catmap_energy_landscape. cbn [catmap_loop]. rewrite Ha, Hb. cbn [bind nth_error get formation put std_ dbid]. rewrite !String.eqb_refl.
  rewrite (proj2 (Rltb_true e1 e2) Hlt). cbn [bind]. eexists. split; [reflexivity|]. cbn [formation std_ dbid update fold_left fst snd]. rewrite !get_put, String.eqb_refl. auto.
Qed.

(** Without uncertainties, the default, it fails. *)
Theorem catmap_default_fails_refuted id ids d p prediction c ss : fetch id = Ok d ->
  catmap_energy_landscape fetch (id :: ids) (p :: prediction) None (Some c) ss = Err TypeError.
Proof. intros H. unfold catmap_energy_landscape. cbn [catmap_loop]. rewrite H. reflexivity. Qed.
End Catmap.

(** *** Different states have different keys *)
(** No underscore in a field. *)
Fixpoint plain (s : string) : Prop := match s with EmptyString => True | String a t => a <> "_"%char /\ plain t end.

Lemma plain_split s1 : forall s2 t1 t2, plain s1 -> plain s2 -> s1 ++ "_" ++ t1 = s2 ++ "_" ++ t2 -> s1 = s2 /\ t1 = t2.
Proof.
  induction s1 as [|a s1 IH]; intros [|b s2] t1 t2 H1 H2 E; cbn in *.
  - injection E as ->. auto.
  - injection E as <- _. exfalso. apply H2. auto.
  - injection E as -> _. exfalso. apply H1. auto.
  - injection E as -> E. destruct (IH s2 t1 t2 ltac:(tauto) ltac:(tauto) E) as [-> ->]. auto.
Qed.

Lemma join_injective : forall l1 l2, List.length l1 = List.length l2 -> Forall plain l1 -> Forall plain l2 -> join_ l1 = join_ l2 -> l1 = l2.
Proof.
  induction l1 as [|x l1 IH]; intros [|y l2] HL F1 F2 E; try discriminate; [auto|].
  inversion F1 as [|? ? P1 F1']; subst. inversion F2 as [|? ? P2 F2']; subst.
  destruct l1 as [|x' l1]; destruct l2 as [|y' l2]; try discriminate.
  - cbn in E. congruence.
  - change (x ++ "_" ++ join_ (x' :: l1) = y ++ "_" ++ join_ (y' :: l2)) in E. apply plain_split in E as [-> E]; auto. f_equal. apply IH; auto.
Qed.

(** Structures whose fields have no underscore are of one state only if all fields agree
    (and, if asked for, the sites). *)
Theorem catmap_states_distinct ss d1 d2 :
  List.length (db_fields d1) = List.length (db_fields d2) -> Forall plain (db_fields d1) -> Forall plain (db_fields d2) ->
  (forall s, db_site d1 = Some s \/ db_site d2 = Some s -> plain s) ->
  state_key ss d1 = state_key ss d2 ->
  db_fields d1 = db_fields d2 /\ (ss = true -> match db_site d1 with Some s => s | None => "site" end = match db_site d2 with Some s => s | None => "site" end).
Proof.
  intros HL F1 F2 HP E. unfold state_key in E. apply join_injective in E.
  - apply app_inj_tail in E as [E1 E2]. split; [auto|]. intros ->. auto.
  - rewrite !app_length. cbn. lia.
  - apply Forall_app. split; [auto|]. apply Forall_cons; [|auto]. destruct ss; [destruct (db_site d1) as [s|] eqn:Ed; [apply HP; auto|]|]; cbn; repeat split; discriminate.
  - apply Forall_app. split; [auto|]. apply Forall_cons; [|auto]. destruct ss; [destruct (db_site d2) as [s|] eqn:Ed; [apply HP; auto|]|]; cbn; repeat split; discriminate.
Qed.

Example catmap_underscore_case : state_key false (DbRow ["1"; "CO"; "Pt_fcc"; "x"] None) = state_key false (DbRow ["1"; "CO"; "Pt"; "fcc_x"] None).
Proof. reflexivity. Qed.

(** ** Neighbour lists and graphs *)
Definition entry (m : list (list Z)) (i j : nat) : Z := nth j (nth i m []) 0%Z.
Definition square (m : list (list Z)) : Prop := forall r, In r m -> List.length r = List.length m.

(** For a square symmetric matrix (but for the diagonal) the list of atom i consists, in
    increasing order, of the j other than i with a 1 at (i, j). *)
Theorem neighbor_list_of_matrix m : square m -> (forall i j, (i < List.length m)%nat -> (j < List.length m)%nat -> i <> j -> entry m i j = entry m j i) ->
  exists nl, matrix_to_nl m = Ok nl /\ map fst nl = seq 0 (List.length m) /\
    forall i l, In (i, l) nl -> (exists f, l = filter f (seq 0 (List.length m))) /\
      forall j, In j l <-> (j < List.length m)%nat /\ i <> j /\ entry m i j = 1%Z.
Proof.
  intros HS HT. unfold matrix_to_nl. rewrite (proj2 (forallb_forall _ _)) by (intros r Hr; apply Nat.eqb_eq; auto). cbn [negb].
  rewrite (proj2 (forallb_forall _ _)).
  2:{ intros i Hi. apply forallb_forall. intros j Hj. apply in_seq in Hi, Hj. apply Z.eqb_eq. rewrite (Nat.eqb_sym j i). destruct (Nat.eqb_spec i j); [auto|].
      apply HT; auto; lia. }
  eexists. split; [reflexivity|]. split; [rewrite map_map; cbn [fst]; apply map_id|].
  intros i l Hl. apply in_map_iff in Hl as (i' & E & Hi). injection E as -> <-. split; [eexists; reflexivity|]. intros j. rewrite filter_In, in_seq, Z.eqb_eq.
  unfold entry. destruct (Nat.eqb_spec i j); [subst; split; [intros [_ H]; lia|tauto]|]. intuition lia.
Qed.

(** Hence the lists are symmetric and irreflexive. *)
Theorem neighbor_list_symmetric m nl i j li lj : square m -> matrix_to_nl m = Ok nl -> In (i, li) nl -> In (j, lj) nl ->
  (In j li <-> In i lj) /\ ~ In i li.
Proof.
  intros HS E Hi Hj. unfold matrix_to_nl in E. destruct (negb _); [discriminate|]. destruct (forallb _ _) eqn:EF; [|discriminate]. injection E as <-.
  apply in_map_iff in Hi as (i' & E & Hi). injection E as -> <-. apply in_map_iff in Hj as (j' & E & Hj). injection E as -> <-.
  rewrite !filter_In, !Z.eqb_eq, Nat.eqb_refl. rewrite forallb_forall in EF. specialize (EF i Hi). rewrite forallb_forall in EF. specialize (EF j Hj). apply Z.eqb_eq in EF.
  rewrite EF. split; [tauto|]. intros [_ H]. lia.
Qed.

(** A matrix that is not symmetric is rejected. *)
Theorem neighbor_list_asymmetric m i j : square m -> (i < List.length m)%nat -> (j < List.length m)%nat -> i <> j -> entry m i j <> entry m j i ->
  matrix_to_nl m = Err AssertionError.
Proof.
  intros HS Hi Hj Hij HE. unfold matrix_to_nl. rewrite (proj2 (forallb_forall _ _)) by (intros r Hr; apply Nat.eqb_eq; auto). cbn [negb].
  destruct (forallb _ _) eqn:EF; [|auto]. exfalso. apply HE. rewrite forallb_forall in EF. specialize (EF i ltac:(apply in_seq; lia)). rewrite forallb_forall in EF.
  specialize (EF j ltac:(apply in_seq; lia)). apply Z.eqb_eq in EF. rewrite (Nat.eqb_sym j i) in EF. destruct (Nat.eqb_spec i j); [congruence|auto].
Qed.

Lemma adjacency_square g : square (networkx_to_adjacency g) /\ List.length (networkx_to_adjacency g) = List.length (g_numbers g).
Proof.
  unfold networkx_to_adjacency. split; [|rewrite map_length, seq_length; auto]. intros r Hr. apply in_map_iff in Hr as (i & <- & _). rewrite !map_length, !seq_length. auto.
Qed.
Lemma adjacency_entry g i j : (i < List.length (g_numbers g))%nat -> (j < List.length (g_numbers g))%nat ->
  entry (networkx_to_adjacency g) i j = ((if has_edge g i j then 1 else 0) + (if (i =? j)%nat then nth i (g_numbers g) 0 else 0))%Z.
Proof.
  intros Hi Hj. unfold entry, networkx_to_adjacency. rewrite (nth_map_lt _ _ _ 0%nat) by (rewrite seq_length; auto). rewrite (nth_map_lt _ _ _ 0%nat) by (rewrite seq_length; auto).
  rewrite !seq_nth by auto. reflexivity.
Qed.
Lemma has_edge_iff g i j : has_edge g i j = true <-> In (i, j) (g_edges g) \/ In (j, i) (g_edges g).
Proof.
  unfold has_edge. rewrite existsb_exists. split.
  - intros ([a b] & Hin & H). cbn [fst snd] in H. apply orb_true_iff in H as [H|H]; apply andb_true_iff in H as [H1 H2]; apply Nat.eqb_eq in H1, H2; subst; auto.
  - intros [H|H]; eexists; (split; [exact H|]); cbn [fst snd]; rewrite !Nat.eqb_refl; cbn; auto using orb_true_r.
Qed.
Lemma has_edge_sym g i j : has_edge g i j = has_edge g j i.
Proof. apply eq_true_iff_eq. rewrite !has_edge_iff. tauto. Qed.

(** From a structure with a neighbour list to a graph, to its adjacency matrix, and back to
    a neighbour list: atoms i and j are neighbours if one is in the list of the other.  The
    atomic numbers are on the diagonal of the matrix. *)
Theorem graph_round_trip numbers nl g : ase_to_networkx numbers nl = Ok g ->
  exists nl', matrix_to_nl (networkx_to_adjacency g) = Ok nl' /\ map fst nl' = seq 0 (List.length numbers) /\
    (forall i, (i < List.length numbers)%nat -> (forall l, In (i, l) nl -> ~ In i l) -> entry (networkx_to_adjacency g) i i = nth i numbers 0%Z) /\
    forall i l, In (i, l) nl' -> forall j, In j l <-> i <> j /\ ((exists l', In (i, l') nl /\ In j l') \/ (exists l', In (j, l') nl /\ In i l')).
Proof.
  unfold ase_to_networkx. destruct (forallb _ _) eqn:EF; [|discriminate]. intros E. injection E as <-. set (g := Graph _ _).
  destruct (adjacency_square g) as [HS HL]. cbn [g_numbers g] in HL.
  assert (HE : forall i j, In (i, j) (g_edges g) <-> exists l', In (i, l') nl /\ In j l').
  { intros i j. cbn [g_edges g]. rewrite in_flat_map. split.
    - intros ([a l] & H1 & H2). cbn [fst snd] in H2. apply in_map_iff in H2 as (b & E & H2). injection E as -> ->. eauto.
    - intros (l' & H1 & H2). exists (i, l'). split; [auto|]. cbn [fst snd]. apply in_map. auto. }
  assert (HR : forall i j, In (i, j) (g_edges g) -> (i < List.length numbers)%nat /\ (j < List.length numbers)%nat).
  { intros i j H. rewrite forallb_forall in EF. specialize (EF _ H). apply andb_true_iff in EF as [E1 E2]. apply Nat.ltb_lt in E1, E2. auto. }
  destruct (neighbor_list_of_matrix (networkx_to_adjacency g) HS) as (nl' & E' & HF & HN).
  { intros i j Hi Hj Hij. rewrite HL in *. rewrite !adjacency_entry by auto. rewrite (has_edge_sym g j i). destruct (Nat.eqb_spec i j); [congruence|]. destruct (Nat.eqb_spec j i); congruence. }
  rewrite HL in HF. exists nl'. split; [auto|]. split; [auto|]. split.
  - intros i Hi Hno. rewrite adjacency_entry by auto. rewrite Nat.eqb_refl. destruct (has_edge g i i) eqn:EH; [|reflexivity].
    exfalso. apply has_edge_iff in EH. assert (H : In (i, i) (g_edges g)) by tauto. apply HE in H as (l' & H1 & H2). apply (Hno l'); auto.
  - intros i l Hl j. destruct (HN i l Hl) as [_ Hj]. rewrite Hj, HL. rewrite <- !HE.
    assert (Hi : (i < List.length numbers)%nat). { apply (in_map fst) in Hl. rewrite HF in Hl. apply in_seq in Hl. cbn in Hl. lia. }
    split.
    + intros (H1 & H2 & H3). split; [auto|]. rewrite adjacency_entry in H3 by auto. destruct (Nat.eqb_spec i j); [contradiction|]. apply has_edge_iff.
      destruct (has_edge g i j); [auto|discriminate].
    + intros [H1 H2]. assert (Hj' : (j < List.length numbers)%nat) by (destruct H2 as [H2|H2]; apply HR in H2; tauto). split; [auto|]. split; [auto|].
      rewrite adjacency_entry by auto. apply has_edge_iff in H2. rewrite H2. destruct (Nat.eqb_spec i j); [contradiction|reflexivity].
Qed.

Example graph_case : exists g, ase_to_networkx [8; 1; 1]%Z [(0, [1; 2]); (1, [0]); (2, [0])]%nat = Ok g /\ networkx_to_adjacency g = [[8; 1; 1]; [1; 1; 0]; [1; 0; 1]]%Z /\
  matrix_to_nl (networkx_to_adjacency g) = Ok [(0, [1; 2]); (1, [0]); (2, [0])]%nat.
Proof. eexists. split; [reflexivity|]. split; reflexivity. Qed.

(** ** Penalty functions *)
Lemma mapR_spec {A B} (f : A -> result B) : forall l out, mapR f l = Ok out -> Forall2 (fun x y => f x = Ok y) l out.
Proof.
  induction l as [|x l IH]; intros out E; cbn in E; [injection E as <-; constructor|]. destruct (f x) as [y|] eqn:EF; [|discriminate]. cbn in E.
  destruct (mapR f l) as [r|]; [|discriminate]. injection E as <-. constructor; auto.
Qed.

Lemma Forall2_imp {A B} (P Q : A -> B -> Prop) l l' : (forall x y, P x y -> Q x y) -> Forall2 P l l' -> Forall2 Q l l'.
Proof. intros H. induction 1; constructor; auto. Qed.

(** [d] is the Euclidean distance of [x] to the nearest training point. *)
Definition nearest (x : list R) (train : list (list R)) (d : R) : Prop :=
  (exists t, In t train /\ d = euclidean x t) /\ forall t, In t train -> d <= euclidean x t.

Lemma min_dist_nearest x train d : min_dist x train = Ok d -> nearest x train d.
Proof.
  unfold min_dist. destruct (forallb _ _); [|discriminate]. destruct train as [|t0 train]; [discriminate|]. intros E. injection E as <-. set (l := t0 :: train). split.
  - assert (HI : In (lmin (map (euclidean x) l)) (map (euclidean x) l)) by (apply lmin_in; discriminate). apply in_map_iff in HI as (t & E & Ht). exists t. auto.
  - intros t Ht. apply (lmin_le (map (euclidean x) l)). apply in_map. auto.
Qed.

(** The penalty of a point at distance d from the training data is c (d - d_crit)^2 if d
    is below the critical distance, and 0 otherwise. *)
Theorem penalty_close_value train test c dcrit out : penalty_close train test c dcrit = Ok out ->
  Forall2 (fun x p => exists d, nearest x train d /\ (d < dcrit -> p = c * (d - dcrit) ^ 2) /\ (dcrit <= d -> p = 0)) test out.
Proof.
  intros E. apply mapR_spec in E. eapply Forall2_imp; [|exact E]. intros x p H. cbn in H. destruct (min_dist x train) as [d|] eqn:ED; [|discriminate]. injection H as <-.
  exists d. split; [apply min_dist_nearest; auto|]. destruct (Rltb d dcrit) eqn:EC; [apply Rltb_true in EC|apply Rltb_false in EC]; split; intros; auto; lra.
Qed.
(** And the other way round for points that are too far away. *)
Theorem penalty_far_value train test c dcrit out : penalty_far train test c dcrit = Ok out ->
  Forall2 (fun x p => exists d, nearest x train d /\ (dcrit < d -> p = c * (d - dcrit) ^ 2) /\ (d <= dcrit -> p = 0)) test out.
Proof.
  intros E. apply mapR_spec in E. eapply Forall2_imp; [|exact E]. intros x p H. cbn in H. destruct (min_dist x train) as [d|] eqn:ED; [|discriminate]. injection H as <-.
  exists d. split; [apply min_dist_nearest; auto|]. destruct (Rltb dcrit d) eqn:EC; [apply Rltb_true in EC|apply Rltb_false in EC]; split; intros; auto; lra.
Qed.

(** Penalties are not negative; a copy of a training point gets the full penalty. *)
Theorem penalty_nonnegative train test c dcrit out : 0 <= c -> penalty_close train test c dcrit = Ok out \/ penalty_far train test c dcrit = Ok out -> Forall (fun p => 0 <= p) out.
Proof.
  intros Hc [E|E]; apply mapR_spec in E; induction E as [|x p l out H E IH]; constructor; auto; cbn in H; destruct (min_dist x train) as [d|]; try discriminate; injection H as <-;
    destruct (Rltb _ _); try lra; apply Rmult_le_pos; auto; apply pow2_ge_0.
Qed.
Lemma euclidean_self x : euclidean x x = 0.
Proof.
  unfold euclidean. replace (sumR _) with 0; [apply sqrt_0|]. induction x as [|a x IH]; cbn; [auto|]. cbn in IH. rewrite <- IH. ring.
Qed.
Theorem penalty_of_duplicate train test c dcrit out i x : 0 < dcrit -> penalty_close train test c dcrit = Ok out -> nth_error test i = Some x -> In x train ->
  nth_error out i = Some (c * dcrit ^ 2).
Proof.
  intros Hd E Hi Hx. pose proof (penalty_close_value _ _ _ _ _ E) as HF. clear E. revert i Hi. induction HF as [|y p l l' (d & [(t & Ht & Hdt) HN] & H1 & H2) HF IH]; intros i Hi; [destruct i; discriminate|].
  destruct i as [|i]; [|exact (IH i Hi)]. cbn in *. injection Hi as ->. specialize (HN x Hx). rewrite euclidean_self in HN.
  assert (0 <= d) by (rewrite Hdt; apply sqrt_pos). assert (d = 0) as -> by lra. rewrite H1 by auto. f_equal. ring.
Qed.

Example penalty_case : penalty_close [[0; 0]; [3; 0]] [[0; 0]] 2 5 = Ok [2 * (Rmin (euclidean [0; 0] [0; 0]) (euclidean [0; 0] [3; 0]) - 5) ^ 2].
Proof.
  unfold penalty_close. cbn [mapR]. unfold min_dist. cbn [forallb List.length Nat.eqb andb bind map lmin fold_left].
  rewrite (proj2 (Rltb_true _ _)); [reflexivity|]. rewrite euclidean_self. unfold Rmin. destruct (Rle_dec _ _); lra.
Qed.

(** ** Neighbour shells *)
(** One entry of the matrices. *)
Fixpoint shell_iter (m n : nat) (x : R) (s : R * R) : R * R :=
  match m with
  | O => s
  | S m => let r := shell_res (fun _ _ => fst s) (fun _ _ => x) n 0 0 in shell_iter m (S n) x (fst s + r * 10000, snd s + r)
  end.

Lemma shells_entry i j rb : forall m n D C, (fst (shells m n rb (D, C)) i j, snd (shells m n rb (D, C)) i j) = shell_iter m n (rb i j) (D i j, C i j).
Proof. induction m as [|m IH]; intros n D C; cbn [shells shell_iter]; [reflexivity|]. unfold neighbor_iterator. cbn [fst snd]. rewrite IH. reflexivity. Qed.

Lemma shell_res_far d x n : x * INR (n + 1) <= d -> shell_res (fun _ _ => d) (fun _ _ => x) n 0 0 = 0.
Proof.
  intros H. unfold shell_res. destruct (Rltb 0 (d - x * INR (n + 1))) eqn:E1.
  - rewrite (proj2 (Rltb_false 0 0)) by lra. auto.
  - apply Rltb_false in E1. rewrite (proj2 (Rltb_false _ _)) by lra. lra.
Qed.
Lemma shell_res_near d x n : d < x * INR (n + 1) -> shell_res (fun _ _ => d) (fun _ _ => x) n 0 0 = INR (n + 1).
Proof.
  intros H. unfold shell_res. rewrite (proj2 (Rltb_false 0 _)) by lra. rewrite (proj2 (Rltb_true _ 0)) by lra. auto.
Qed.

Lemma shell_iter_far x : forall m n d c, 0 <= x -> x * INR (n + m) <= d -> shell_iter m n x (d, c) = (d, c).
Proof.
  induction m as [|m IH]; intros n d c Hx H; cbn [shell_iter]; [auto|]. cbn [fst snd].
  assert (x * INR (n + 1) <= x * INR (n + S m)) by (apply Rmult_le_compat_l; [auto|]; apply le_INR; lia).
  rewrite shell_res_far by lra. rewrite Rmult_0_l, !Rplus_0_r. apply IH; auto. replace (S n + m)%nat with (n + S m)%nat by lia. auto.
Qed.

(** The shell of a pair at distance d with cutoff x: the k with (k - 1) x <= d < k x. *)
Definition in_shell (k : nat) (x d : R) : Prop := (1 <= k)%nat /\ INR (k - 1) * x <= d < INR k * x.

Lemma shell_iter_value x d : 0 < x -> 0 <= d -> forall m n c, x * INR (n + m) <= 10000 -> x * INR n <= d ->
  (snd (shell_iter m n x (d, c)) = c /\ INR (n + m) * x <= d) \/
  exists k, in_shell k x d /\ (n < k <= n + m)%nat /\ snd (shell_iter m n x (d, c)) = c + INR k.
Proof.
  intros Hx Hd. induction m as [|m IH]; intros n c HM Hn; cbn [shell_iter].
  - left. rewrite Nat.add_0_r. split; [auto|lra].
  - cbn [fst snd]. destruct (Rlt_le_dec d (x * INR (n + 1))) as [H|H].
    + right. exists (n + 1)%nat. rewrite shell_res_near by auto. rewrite shell_iter_far.
      * cbn [snd]. split; [|split; [lia|auto]]. split; [lia|]. replace (n + 1 - 1)%nat with n by lia. lra.
      * lra.
      * replace (S n + m)%nat with (n + S m)%nat by lia.
        assert (1 <= INR (n + 1)) by (change 1 with (INR 1); apply le_INR; lia). lra.
    + rewrite shell_res_far by auto. rewrite Rmult_0_l, !Rplus_0_r. destruct (IH (S n) c) as [[E1 E2]|(k & Hk & Hr & E)].
      * replace (S n + m)%nat with (n + S m)%nat by lia. auto.
      * replace (S n) with (n + 1)%nat by lia. auto.
      * left. split; [auto|]. replace (n + S m)%nat with (S n + m)%nat by lia. auto.
      * right. exists k. split; [auto|]. split; [lia|auto].
Qed.

Section Shells.
Variables (k : nat) (an : nat -> Z) (dist : mat) (radius : Z -> R) (dx : option (Z -> option R)).
Let buffer (i : nat) : R := match dx with None => radius (an i) / 5 | Some d => match d (an i) with Some x => x | None => 0 end end.
Let rb : mat := cutoff_matrix (fun i => radius (an i)) buffer.

Lemma neighborlist_shells fuel m c : catlearn_neighborlist fuel k an dist radius dx (Shells m) = Some (Ok c) ->
  forall i j, c i j = if (i =? j)%nat then 0 else snd (shell_iter m 0 (rb i j) (dist i j, 0)).
Proof.
  unfold catlearn_neighborlist. cbv zeta. destruct (forallb _ _); [|discriminate]. intros E i j. injection E as <-. destruct (i =? j)%nat; [auto|].
  rewrite <- (shells_entry i j rb m 0 dist (fun _ _ => 0)). cbn [snd]. unfold rb, buffer. destruct dx; reflexivity.
Qed.

(** With [m] shells, a pair of different atoms is in exactly one shell, or beyond the
    last; the diagonal is zero.  The cutoffs must be positive and the last one not beyond
    10000, the number the code adds to distances already counted. *)
Theorem neighbor_shell fuel m c i j : catlearn_neighborlist fuel k an dist radius dx (Shells m) = Some (Ok c) ->
  0 < rb i j -> rb i j * INR m <= 10000 -> 0 <= dist i j ->
  c i i = 0 /\ (i <> j ->
    (c i j = 0 /\ INR m * rb i j <= dist i j) \/ exists s, in_shell s (rb i j) (dist i j) /\ (s <= m)%nat /\ c i j = INR s).
Proof.
  intros E Hx HM Hd. split; [rewrite (neighborlist_shells _ _ _ E), Nat.eqb_refl; auto|]. intros Hij. rewrite (neighborlist_shells _ _ _ E).
  destruct (Nat.eqb_spec i j); [contradiction|]. destruct (shell_iter_value (rb i j) (dist i j) Hx Hd m 0 0) as [[E1 E2]|(s & Hs & Hr & E1)].
  - exact HM.
  - cbn [INR]. lra.
  - left. auto.
  - right. exists s. split; [auto|]. split; [lia|]. rewrite E1. ring.
Qed.

(** A buffer that is missing for an element, or a setting that is not one of those
    documented, is refused. *)
Theorem neighborlist_refuses fuel max :
  ((exists i d, (i < k)%nat /\ dx = Some d /\ d (an i) = None) -> catlearn_neighborlist fuel k an dist radius dx max = Some (Err KeyError)) /\
  ((forall i d, (i < k)%nat -> dx = Some d -> d (an i) <> None) -> catlearn_neighborlist fuel k an dist radius dx Other = Some (Err NotImplementedError)).
Proof.
  unfold catlearn_neighborlist. cbv zeta. split.
  - intros (i & d & Hi & -> & E). destruct (forallb _ (seq 0 k)) eqn:F; [|reflexivity]. rewrite forallb_forall in F.
    specialize (F i (proj2 (in_seq _ _ _) (conj (Nat.le_0_l i) Hi))). rewrite E in F. discriminate.
  - intros H. rewrite (proj2 (forallb_forall _ _)); [reflexivity|]. intros i Hi. apply in_seq in Hi. destruct dx as [d|]; [|auto].
    destruct (d (an i)) eqn:E; [auto|]. exfalso. apply (H i d); [lia|auto|auto].
Qed.

(** Shells are symmetric for atoms with the same buffer. *)
Theorem neighbor_shell_symmetric_partial fuel m c i j : catlearn_neighborlist fuel k an dist radius dx (Shells m) = Some (Ok c) ->
  dist i j = dist j i -> buffer i = buffer j -> c i j = c j i.
Proof.
  intros E Hd Hb. rewrite !(neighborlist_shells _ _ _ E). rewrite (Nat.eqb_sym j i). destruct (i =? j)%nat; [auto|]. rewrite Hd. do 2 f_equal.
  unfold rb, cutoff_matrix. rewrite Hb. ring.
Qed.
End Shells.

(** With default buffers and two elements of different radius there are distances for which
    the shells are not symmetric: one atom is a neighbour of the other but not the other
    way round. *)
Theorem neighbor_shell_symmetric_refuted an radius : 0 < radius (an 0%nat) -> radius (an 0%nat) < radius (an 1%nat) ->
  exists (dist : mat) (c : mat), (forall i j, dist i j = dist j i) /\ (forall i j, 0 <= dist i j) /\
    catlearn_neighborlist 0 2 an dist radius None (Shells 1) = Some (Ok c) /\ c 0%nat 1%nat = 1 /\ c 1%nat 0%nat = 0.
Proof.
  intros H0 H1. set (r0 := radius (an 0%nat)) in *. set (r1 := radius (an 1%nat)) in *.
  set (d := r0 + r1 + r0 / 5 + r1 / 5 / 2).
  assert (Hd : 0 <= d) by (unfold d; lra).
  eexists (fun i j => if (i =? j)%nat then 0 else d), _. split; [intros i j; rewrite (Nat.eqb_sym j i); auto|]. split; [intros i j; destruct (i =? j)%nat; lra|].
  split; [reflexivity|]. cbn [Nat.eqb shells snd neighbor_iterator]. split.
  - change (0 + shell_res (fun _ _ => d) (fun _ _ => cutoff_matrix (fun i => radius (an i)) (fun i => radius (an i) / 5) 0 1) 0 0 0 = 1).
    rewrite shell_res_near; [cbn [Nat.add INR]; lra|]. unfold cutoff_matrix. fold r0 r1. cbn [Nat.add INR]. unfold d. lra.
  - change (0 + shell_res (fun _ _ => d) (fun _ _ => cutoff_matrix (fun i => radius (an i)) (fun i => radius (an i) / 5) 1 0) 0 0 0 = 0).
    rewrite shell_res_far; [lra|]. unfold cutoff_matrix. fold r0 r1. cbn [Nat.add INR]. unfold d. lra.
Qed.

(** *** All shells *)
Lemma unconnected_zero k c : unconnected k c = 0%nat <-> forall i j, (i < k)%nat -> (j < k)%nat -> c i j <> 0.
Proof.
  unfold unconnected. split.
  - intros E i j Hi Hj H. assert (HI : In (i, j) (filter (fun q => Reqb (c (fst q) (snd q)) 0) (list_prod (seq 0 k) (seq 0 k)))).
    { apply filter_In. split; [apply in_prod; apply in_seq; lia|]. cbn [fst snd]. apply Reqb_true. auto. }
    destruct (filter _ _); [destruct HI|discriminate].
  - intros H. destruct (filter _ _) as [|[i j] l] eqn:E; [auto|]. exfalso. assert (HI : In (i, j) (filter (fun q => Reqb (c (fst q) (snd q)) 0) (list_prod (seq 0 k) (seq 0 k)))) by (rewrite E; cbn; auto).
    apply filter_In in HI as [HP HR]. apply in_prod_iff in HP as [H1 H2]. apply in_seq in H1, H2. apply (H i j); [lia|lia|]. apply Reqb_true. auto.
Qed.

Lemma shells_full_stops k rb : forall M fuel n s, (1 <= M <= fuel)%nat -> unconnected k (snd (shells M n rb s)) = 0%nat ->
  exists m, (1 <= m <= M)%nat /\ shells_full fuel k n rb s = Some (snd (shells m n rb s)) /\ unconnected k (snd (shells m n rb s)) = 0%nat.
Proof.
  induction M as [|M IH]; intros fuel n s HM HU; [lia|]. destruct fuel as [|fuel]; [lia|]. cbn [shells_full shells] in *.
  set (s1 := neighbor_iterator (fst s) rb n (snd s)) in *. destruct (Nat.eqb_spec (unconnected k (snd s1)) 0) as [E|E].
  - exists 1%nat. cbn [shells]. fold s1. split; [lia|]. auto.
  - destruct M as [|M]; [cbn [shells] in HU; contradiction|]. destruct (IH fuel (S n) s1 ltac:(lia) HU) as (m & Hm & H1 & H2). exists (S m). cbn [shells]. fold s1. split; [lia|]. auto.
Qed.

(** With max_neighbor='full' the search ends and every pair of atoms is in exactly one
    shell, if M shells reach all atoms and the cutoff M is not beyond 10000. *)
Theorem all_neighbor_shells fuel k an dist radius M : (1 <= M <= fuel)%nat ->
  let rb := cutoff_matrix (fun i => radius (an i)) (fun i => radius (an i) / 5) in
  (forall i j, (i < k)%nat -> (j < k)%nat -> 0 < rb i j /\ 0 <= dist i j < rb i j * INR M /\ rb i j * INR M <= 10000) ->
  exists c, catlearn_neighborlist fuel k an dist radius None Full = Some (Ok c) /\
    forall i j, (i < k)%nat -> (j < k)%nat -> c i i = 0 /\ (i <> j -> exists s, in_shell s (rb i j) (dist i j) /\ c i j = INR s).
Proof.
  intros HM rb HR. unfold catlearn_neighborlist. cbv zeta. rewrite (proj2 (forallb_forall _ _)) by auto. fold rb.
  assert (HV : forall m i j, (m <= M)%nat -> (i < k)%nat -> (j < k)%nat ->
    (snd (shells m 0 rb (dist, fun _ _ => 0)) i j = 0 /\ INR m * rb i j <= dist i j) \/ exists s, in_shell s (rb i j) (dist i j) /\ snd (shells m 0 rb (dist, fun _ _ => 0)) i j = INR s).
  { intros m i j Hm Hi Hj. destruct (HR i j Hi Hj) as (H1 & H2 & H3). pose proof (shells_entry i j rb m 0 dist (fun _ _ => 0)) as HE. apply (f_equal snd) in HE. cbn [snd] in HE. rewrite HE.
    assert (rb i j * INR m <= rb i j * INR M) by (apply Rmult_le_compat_l; [lra|]; apply le_INR; auto).
    destruct (shell_iter_value (rb i j) (dist i j) H1 (proj1 H2) m 0 0) as [[E1 E2]|(s & Hs & Hr & E1)]; [cbn [Nat.add]; lra|cbn [INR]; lra|left; auto|right; exists s; split; [auto|rewrite E1; ring]]. }
  destruct (shells_full_stops k rb M fuel 0 (dist, fun _ _ => 0) HM) as (m & Hm & E & HU).
  { apply unconnected_zero. intros i j Hi Hj H0. destruct (HV M i j ltac:(lia) Hi Hj) as [[_ H]|(s & [Hs _] & H)].
    - destruct (HR i j Hi Hj) as (H1 & H2 & H3). lra.
    - rewrite H in H0. apply (not_0_INR s) in H0; [auto|lia]. }
  rewrite E. eexists. split; [reflexivity|]. intros i j Hi Hj. cbv beta. rewrite Nat.eqb_refl. split; [auto|]. intros Hij. destruct (Nat.eqb_spec i j); [contradiction|].
  destruct (HV m i j ltac:(lia) Hi Hj) as [[H0 _]|H]; [|auto]. exfalso. apply unconnected_zero with (i := i) (j := j) in HU; auto.
Qed.

Example all_shells_case : exists c, catlearn_neighborlist 3 2 (fun _ => 1%Z) (fun i j => if (i =? j)%nat then 0 else 5) (fun _ => 1) None Full = Some (Ok c) /\ c 0%nat 1%nat = 3.
Proof.
  destruct (all_neighbor_shells 3 2 (fun _ => 1%Z) (fun i j => if (i =? j)%nat then 0 else 5) (fun _ => 1) 3) as (c & E & H).
  - lia.
  - intros i j _ _. unfold cutoff_matrix. cbn [INR]. destruct (i =? j)%nat; lra.
  - exists c. split; [exact E|]. destruct (H 0%nat 1%nat ltac:(lia) ltac:(lia)) as [_ H']. destruct (H' ltac:(lia)) as (s & [Hs [H1 H2]] & ->).
    unfold cutoff_matrix in *. cbn [Nat.eqb] in *.
    assert (s < 4)%nat. { apply INR_lt. destruct (Rlt_le_dec (INR s) (INR 4)) as [|H4]; [auto|]. exfalso. apply INR_le in H4.
      assert (INR 3 <= INR (s - 1)) by (apply le_INR; lia). cbn [INR] in *. lra. }
    destruct s as [|[|[|[|s]]]]; try lia; cbn [INR Nat.sub] in *; lra.
Qed.

Print Assumptions get_unique_drawn.
Print Assumptions get_train_drawn.
Print Assumptions test_and_training_disjoint.
Print Assumptions catmap_states_partial.
Print Assumptions catmap_minimum_refuted.
Print Assumptions catmap_default_fails_refuted.
Print Assumptions catmap_states_distinct.
Print Assumptions neighbor_list_of_matrix.
Print Assumptions neighbor_list_symmetric.
Print Assumptions neighbor_list_asymmetric.
Print Assumptions graph_round_trip.
Print Assumptions penalty_close_value.
Print Assumptions penalty_far_value.
Print Assumptions penalty_nonnegative.
Print Assumptions penalty_of_duplicate.
Print Assumptions neighbor_shell.
Print Assumptions neighbor_shell_symmetric_partial.
Print Assumptions neighbor_shell_symmetric_refuted.
Print Assumptions all_neighbor_shells.
Print Assumptions neighborlist_refuses.
