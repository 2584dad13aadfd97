(** Convoluted fingerprints and the names of bulk features. *)
From Coq Require Import Reals String List Arith Bool Lia Lra Permutation.
From Verif Require Import Base BaseFacts RBase PeriodicModel PeriodicProperties FingerModel ConvModel.
Import ListNotations.
Local Open Scope string_scope.
Local Open Scope nat_scope.

(** ** Specification *)
(** The names under which these functions report a property: as in the table of elements
    except for three. *)
Definition reported (f : feature) : string :=
  match f with
  | Plain "dft_density" => "dft_rhodensity"
  | Plain "dbkurt" => "dbkurtosis"
  | Plain "metallic_radius_c12" => "metallic_radius"
  | _ => feature_name f
  end.
(** The properties used by default. *)
Definition slab_defaults : list string := (default_params ++ extra_slab_params)%list.
Definition bulk_defaults : list string := (default_params ++ bulk_extra_params)%list.

(** [value_of data f z c]: c is the value of f for element z. *)
Definition value_of (data : table) (f : feature) (z : nat) (c : option R) : Prop :=
  exists d, data z = Some d /\ means d f c.

(** Root of the sum of squares over the atoms of the subset, per atom; missing if a value is. *)
Definition self_convolution (cs : list (option R)) (subset : list nat) (v : option R) : Prop :=
  (forall x, (forall i, In i subset -> nth i cs None = Some (x i)) ->
     v = Some (sqrt (sumR (map (fun i => (x i ^ 2)%R) subset)) / INR (List.length subset))%R) /\
  ((exists i, In i subset /\ nth i cs None = None) -> v = None).
(** The convolution over bonds as computed (C162): missing if any atom of the structure has
    no value. *)
Definition bond_convolution (cs : list (option R)) (subset : list nat) (cmx : nat -> nat -> R) (v : option R) : Prop :=
  (forall x, cs = map Some x -> 
     let s := sumR (map (fun r => sumR (map (fun j => (nth r x 0 * (nth j x 0 * cmx (nth r subset 0%nat) j))%R) (seq 0 (List.length x)))) (seq 0 (List.length subset))) in
     ((0 <= s)%R -> v = Some (sqrt s / INR (List.length subset))%R) /\ ((s < 0)%R -> v = None)) /\
  (In None cs -> v = None).

(** ** Lemmas *)
Lemma all_known_map x : all_known (map Some x) = Some x.
Proof. induction x as [|a x IH]; cbn; [auto|]. rewrite IH. auto. Qed.
Lemma all_known_none c : In None c -> all_known c = None.
Proof. induction c as [|[a|] c IH]; cbn; [tauto| |auto]. intros [H|H]; [discriminate|]. rewrite IH; auto. Qed.

Lemma conv_self_spec cs subset : subset <> [] ->
  self_convolution cs subset (conv_self (map (fun i => nth i cs None) subset) (List.length subset)).
Proof.
  intros HS. split.
  - intros x Hx. unfold conv_self.
    replace (map (fun i => nth i cs None) subset) with (map Some (map x subset)).
    2: { rewrite map_map. apply map_ext_in. intros i Hi. symmetry. auto. }
    rewrite all_known_map. destruct (Nat.eqb_spec (List.length subset) 0) as [E|_]; [destruct subset; [contradiction|discriminate]|].
    rewrite map_map. do 4 f_equal. apply map_ext. intros i. ring.
  - intros (i & Hi & E). unfold conv_self. rewrite all_known_none; auto. apply in_map_iff. exists i. auto.
Qed.
Lemma conv_bonds_spec cs subset cmx : subset <> [] -> bond_convolution cs subset cmx (conv_bonds cs subset cmx).
Proof.
  intros HS. split.
  - intros x -> s. unfold conv_bonds. rewrite all_known_map.
    destruct (Nat.eqb_spec (List.length subset) 0) as [E|_]; [destruct subset; [contradiction|discriminate]|].
    unfold conv1, sum_n. fold s. unfold Rltb. destruct (Rlt_dec s 0); split; intros; auto; lra.
  - intros H. unfold conv_bonds. rewrite all_known_none; auto.
Qed.

Lemma column_values data params zs rows k f : zs <> [] -> list_params data zs params = Ok rows ->
  nth_error (features params) k = Some f ->
  Forall2 (value_of data f) zs (column k rows).
Proof.
  intros HZ EL Ef. apply list_params_rows in EL; [|auto]. clear HZ. unfold column. induction EL as [|z r zs rows H1 H2 IH]; cbn [map]; constructor; auto.
  apply row_means in H1 as (_ & d & ED & HF). exists d. split; [auto|]. clear - HF Ef.
  revert k Ef. induction HF as [|g c fs r H1 H2 IH]; intros [|k] Ef; try discriminate; cbn in *; [injection Ef as ->; auto|auto].
Qed.
Lemma list_params_subset data params zs rows subset rows' : zs <> [] -> subset <> [] -> Forall (fun i => i < List.length zs) subset ->
  list_params data zs params = Ok rows -> list_params data (map (fun i => nth i zs 0) subset) params = Ok rows' ->
  rows' = map (fun i => nth i rows []) subset.
Proof.
  intros HZ HS HF E1 E2. apply list_params_rows in E1; [|auto]. apply list_params_rows in E2; [|destruct subset; [contradiction|discriminate]].
  assert (N : forall i, i < List.length zs -> row_of data params (nth i zs 0) = Ok (nth i rows [])).
  { clear - E1. induction E1 as [|z r zs rows H1 H2 IH]; intros [|i] Hi; cbn in *; [lia|lia|auto|apply IH; lia]. }
  clear HS. revert rows' E2. induction HF as [|i subset Hi HF IH]; intros rows' E2; inversion E2 as [|a b l1 l2 F1 F2]; subst; cbn; [auto|].
  f_equal; [|auto]. specialize (N i Hi). congruence.
Qed.

Lemma nth_column k rows i : i < List.length rows -> nth i (column k rows) None = nth k (nth i rows []) None.
Proof. intros H. unfold column. rewrite (nth_map_lt _ _ _ []) by auto. reflexivity. Qed.

(** ** Theorems *)
(** Whatever the table of elements and the properties asked for: if conv_bulk or conv_term
    returns a vector, it holds the self-convolution of each property over the subset, that
    of the magnetic moments, and then the convolutions over bonds, and has as many entries as
    there are names. *)
Theorem convoluted_features : forall data gs labels params zs subset cmx v, subset <> [] -> Forall (fun i => i < List.length zs) subset ->
  conv_vec data gs labels params zs (Some subset) cmx = Ok v ->
  let fs := features params in let m := List.length fs in
  List.length v = 2 * m + 2 /\ List.length v = List.length labels /\
  (forall k f, nth_error fs k = Some f -> exists cs v0 v1, Forall2 (value_of data f) zs cs /\
     nth_error v k = Some v0 /\ nth_error v (m + 1 + k) = Some v1 /\
     self_convolution cs subset v0 /\ bond_convolution cs subset cmx v1) /\
  exists v0 v1, nth_error v m = Some v0 /\ nth_error v (2 * m + 1) = Some v1 /\
     self_convolution (map (fun z => Some (gs z)) zs) subset v0 /\ bond_convolution (map (fun z => Some (gs z)) zs) subset cmx v1.
Proof.
  intros data gs labels params zs subset cmx v HS HF H fs m. unfold conv_vec in H.
  assert (HZ : zs <> []). { destruct zs; [|discriminate]. destruct subset as [|i s]; [contradiction|]. inversion HF; subst. cbn in *. lia. }
  destruct (list_params data (map (fun i => nth i zs 0) subset) params) as [rb|] eqn:E1; [|discriminate H]. cbn [bind] in H.
  destruct (list_params data zs params) as [rows|] eqn:E2; [|discriminate H]. cbn [bind] in H.
  assert (Lm : m = n_columns params) by apply features_length.
  assert (Lr : List.length rows = List.length zs).
  { apply list_params_rows in E2; [|auto]. symmetry. eapply Forall2_length; eauto. }
  pose proof (list_params_subset _ _ _ _ _ _ HZ HS HF E2 E1) as EB. subst rb.
  unfold check_length in H. match type of H with context [Nat.eqb ?a ?b] => destruct (Nat.eqb_spec a b) as [EL|] end; [|discriminate H]. cbn [bind] in H. injection H as <-.
  split; [rewrite Lm; do 3 (repeat (rewrite app_length || rewrite map_length || rewrite seq_length); cbn [List.length]); lia|]. split; [exact EL|]. clear EL. split.
  - intros k f Ef. assert (Hk : k < n_columns params) by (rewrite <- Lm; apply nth_error_Some; unfold fs in *; congruence).
    exists (column k rows). eexists. eexists. split; [eapply column_values; eauto|].
    split; [rewrite nth_error_app1 by (rewrite map_length, seq_length; auto); rewrite nth_error_map, (nth_error_nth' _ 0) by (rewrite seq_length; auto); rewrite seq_nth by auto; reflexivity|].
    split. { rewrite Lm. rewrite nth_error_app2 by (rewrite map_length, seq_length; lia). rewrite map_length, seq_length.
      replace (n_columns params + 1 + k - n_columns params) with (S k) by lia. cbn [nth_error List.app]. rewrite nth_error_app1 by (rewrite map_length, seq_length; auto).
      rewrite nth_error_map, (nth_error_nth' _ 0) by (rewrite seq_length; auto). rewrite seq_nth by auto. reflexivity. }
    split; [|apply conv_bonds_spec; auto]. cbn [Nat.add].
    replace (column k (map (fun i => nth i rows []) subset)) with (map (fun i => nth i (column k rows) None) subset); [apply conv_self_spec; auto|].
    unfold column at 2. rewrite map_map. apply map_ext_in. intros i Hi. apply nth_column. rewrite Lr. rewrite Forall_forall in HF. auto.
  - eexists. eexists. split; [|split; [|split]].
    + rewrite Lm, nth_error_app2 by (rewrite map_length, seq_length; lia). rewrite map_length, seq_length, Nat.sub_diag. reflexivity.
    + rewrite Lm, nth_error_app2 by (rewrite map_length, seq_length; lia). rewrite map_length, seq_length.
      replace (2 * n_columns params + 1 - n_columns params) with (S (n_columns params)) by lia. cbn [nth_error List.app].
      rewrite nth_error_app2 by (rewrite map_length, seq_length; lia). rewrite map_length, seq_length, Nat.sub_diag. reflexivity.
    + rewrite map_map. replace (map (fun x => Some (gs (nth x zs 0))) subset) with (map (fun i => nth i (map (fun z => Some (gs z)) zs) None) subset); [apply conv_self_spec; auto|].
      apply map_ext_in. intros i Hi. rewrite Forall_forall in HF. rewrite (nth_map_lt _ _ _ 0) by auto. reflexivity.
    + apply conv_bonds_spec; auto.
Qed.

(** The names of the default properties, in the order of the values. *)
Definition expected_names (place : string) : list string :=
  (map (fun f => (reported f ++ "_" ++ place ++ "_conv_0")%string) (features slab_defaults) ++ [("ground_state_magmom_" ++ place ++ "_conv_0")%string] ++
   map (fun f => (reported f ++ "_" ++ place ++ "_conv_1")%string) (features slab_defaults) ++ [("ground_state_magmom_" ++ place ++ "_conv_1")%string])%list.
Theorem conv_bulk_labels : conv_bulk_names = expected_names "bulk" /\ NoDup (conv_bulk_names ++ conv_term_names).
Proof. split; [reflexivity|]. apply nodup_check. vm_compute. reflexivity. Qed.
(** In conv_term one name is wrong. *)
Theorem conv_term_labels_refuted : forall k,
  if k =? 53 then nth_error conv_term_names k = Some "dft_term_modulus_term_conv_1" /\ nth_error (expected_names "term") k = Some "dft_bulk_modulus_term_conv_1"
  else nth_error conv_term_names k = nth_error (expected_names "term") k.
Proof. intros k. do 54 (destruct k; [cbn; try split; reflexivity|]). cbn [Nat.eqb]. do 20 (destruct k; [reflexivity|]). destruct k; reflexivity. Qed.

(** The names do not depend on the properties asked for: with another number of values every
    call fails, and with the default properties in another order, density in front, the
    values of the density stand under the name of the atomic number. *)
Theorem conv_params_refuted :
  (forall data gs params zs subset cmx v, n_columns params <> 36 -> conv_bulk data gs params zs subset cmx <> Ok v /\ conv_term data gs params zs subset cmx <> Ok v) /\
  exists params, Permutation params slab_defaults /\
    forall data gs zs subset cmx v, subset <> [] -> Forall (fun i => i < List.length zs) subset -> conv_bulk data gs params zs (Some subset) cmx = Ok v ->
      nth_error conv_bulk_names 0 = Some "atomic_number_bulk_conv_0" /\
      exists cs v0, Forall2 (value_of data (Plain "density")) zs cs /\ nth_error v 0 = Some v0 /\ self_convolution cs subset v0.
Proof.
  split.
  - intros data gs params zs subset cmx v HN.
    assert (G : forall labels, List.length labels = 74 -> conv_vec data gs labels params zs subset cmx <> Ok v).
    { intros labels HL H. unfold conv_vec in H. destruct subset as [sub|]; [|discriminate H].
      destruct (list_params data _ params); [|discriminate H]. cbn [bind] in H. destruct (list_params data zs params); [|discriminate H]. cbn [bind] in H.
      unfold check_length in H. match type of H with context [Nat.eqb ?a ?b] => destruct (Nat.eqb_spec a b) as [EL|] end; [|discriminate H].
      rewrite HL in EL. do 3 (repeat (rewrite app_length in EL || rewrite map_length in EL || rewrite seq_length in EL); cbn [List.length] in EL). lia. }
    split; apply G; reflexivity.
  - exists ("density" :: (firstn 3 slab_defaults ++ skipn 4 slab_defaults))%list. split.
    + change slab_defaults with (firstn 3 slab_defaults ++ "density" :: skipn 4 slab_defaults)%list at 3. apply Permutation_middle.
    + intros data gs zs subset cmx v HS HF H. split; [reflexivity|].
      destruct (convoluted_features _ _ _ _ _ _ _ _ HS HF H) as (_ & _ & G & _).
      destruct (G 0 (Plain "density") eq_refl) as (cs & v0 & _ & H1 & H2 & _ & H3 & _). exists cs, v0. auto.
Qed.

(** ** Names of bulk features *)
Definition bulk_reported (word : string) (f : feature) : string :=
  match f with Plain "dft_std_modulus" => "dft_" ++ word ++ "_modulus" | _ => reported f end.
Definition expected_bulk_names (word : string) : list string :=
  (map (fun f => (bulk_reported word f ++ "_" ++ word)%string) (features bulk_defaults) ++ [("ground_state_magmom_" ++ word)%string])%list.
(** The names of the sums are those of the properties in the order of the values; of the
    averages and standard deviations those of the electronegativity of Gordy and of the atomic
    radius do not say which statistic they are. *)
Theorem bulk_labels_partial : bulk_summation_names = expected_bulk_names "sum" /\ NoDup bulk_summation_names /\
  (forall k, k <> 18 -> nth_error bulk_average_names k = nth_error (expected_bulk_names "av") k) /\
  (forall k, k <> 18 -> k <> 25 -> nth_error bulk_std_names k = nth_error (expected_bulk_names "std") k).
Proof.
  split; [reflexivity|]. split; [apply nodup_check; vm_compute; reflexivity|]. split; intros k.
  - intros H1. do 46 (destruct k; [try lia; reflexivity|]). destruct k; reflexivity.
  - intros H1 H2. do 46 (destruct k; [try lia; reflexivity|]). destruct k; reflexivity.
Qed.
Theorem bulk_labels_refuted : nth_error bulk_average_names 18 = Some "en_gordy" /\ nth_error bulk_std_names 18 = Some "en_gordy" /\
  nth_error bulk_std_names 25 = Some "atomic_radius" /\
  nth_error (features bulk_defaults) 18 = Some (Plain "en_gordy") /\ nth_error (features bulk_defaults) 25 = Some (Plain "atomic_radius").
Proof. repeat split. Qed.

(** The property asked for under the name of a modulus is not in the table of elements
    ("dft_std_modulus" for "dft_bulk_modulus"): whatever the structure and the bulk moduli of
    its elements, the sum is 0 and the average and standard deviation are missing. *)
Theorem bulk_modulus_refuted : forall data gs s zs v suf, zs <> [] -> (forall z d, data z = Some d -> d "dft_std_modulus" = VNone) ->
  property_vec data gs s bulk_defaults suf zs = Ok v ->
  nth_error bulk_summation_names 27 = Some "dft_sum_modulus_sum" /\
  nth_error v 27 = Some (match s with Nansum => Some 0%R | _ => None end).
Proof.
  intros data gs s zs v suf HZ HD H. split; [reflexivity|].
  destruct (list_params data zs bulk_defaults) as [rows|] eqn:EL; [|unfold property_vec in H; rewrite EL in H; discriminate H].
  rewrite (property_vec_ok _ _ _ _ _ _ _ HZ EL) in H. injection H as <-.
  assert (C := column_values _ _ _ _ 27 (Plain "dft_std_modulus") HZ EL eq_refl).
  cbn [nth_error]. f_equal.
  assert (E : somes (column 27 rows) = []).
  { clear - C HD. induction C as [|z c zs cs (d & D1 & D2) H IH]; [auto|]. specialize (HD z d D1). inversion D2; subst; [congruence|]. exact IH. }
  unfold reduce. rewrite E. destruct s; reflexivity.
Qed.

(** The names of bulk features do not depend on extra_params: the number of values does. *)
Theorem bulk_extra_params_refuted : forall data gs s extra zs v suf, zs <> [] -> property_vec data gs s (default_params ++ extra)%list suf zs = Ok v ->
  List.length v = 15 + n_columns extra /\ List.length bulk_summation_names = 46 /\ List.length bulk_average_names = 46 /\ List.length bulk_std_names = 46.
Proof.
  intros data gs s extra zs v suf HZ H. split; [|repeat split].
  destruct (list_params data zs (default_params ++ extra)) as [rows|] eqn:EL; [|unfold property_vec in H; rewrite EL in H; discriminate H].
  rewrite (property_vec_ok _ _ _ _ _ _ _ HZ EL) in H. apply (f_equal (fun r => match r with Ok l => List.length l | Err _ => 0 end)) in H. rewrite app_length, map_length, seq_length in H. rewrite <- H. rewrite <- !features_length. unfold features. rewrite flat_map_app, app_length. cbn. lia.
Qed.

(** Palladium-like atoms, with the default properties. *)
Example conv_case : (exists v, conv_bulk pd_table (fun _ => 0%R) slab_defaults [46; 46] (Some [0]) (fun _ _ => 1%R) = Ok v /\ nth_error v 4 = Some None /\
    nth_error v 3 = Some (Some (sqrt (12 * 12 + 0) / INR 1)%R)) /\
  (exists v, conv_term pd_table (fun _ => 0%R) slab_defaults [46; 46] (Some [1]) (fun _ _ => 1%R) = Ok v) /\
  conv_bulk pd_table (fun _ => 0%R) ["density"] [46; 46] (Some [0]) (fun _ _ => 1%R) = Err AssertionError /\
  conv_bulk pd_table (fun _ => 0%R) slab_defaults [46; 46] None (fun _ _ => 1%R) = Err NotImplementedError.
Proof. split; [eexists; split; [reflexivity|split; reflexivity]|]. split; [eexists; reflexivity|]. split; reflexivity. Qed.
Example bulk_case : (forall z d, pd_table z = Some d -> d "dft_std_modulus" = VNone) /\
  exists v, property_vec pd_table (fun _ => 0%R) Nansum bulk_defaults "_sum" [46; 46] = Ok v.
Proof.
  split; [|eexists; reflexivity]. intros z d H. unfold pd_table in H. destruct (Nat.eqb z 46); [|discriminate]. injection H as <-. reflexivity.
Qed.

Print Assumptions convoluted_features.
Print Assumptions conv_bulk_labels.
Print Assumptions conv_term_labels_refuted.
Print Assumptions conv_params_refuted.
Print Assumptions bulk_labels_partial.
Print Assumptions bulk_labels_refuted.
Print Assumptions bulk_modulus_refuted.
Print Assumptions bulk_extra_params_refuted.
