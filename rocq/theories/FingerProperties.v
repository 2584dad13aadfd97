(** Properties of the real valued fingerprints of standard.py and graph.py. *)
From Coq Require Import ZArith Reals String List Arith Bool Permutation Sorted Lia Lra.
From Verif Require Import Base BaseFacts RBase FeatModel PeriodicModel FingerModel FeatProperties PeriodicProperties.
Import ListNotations.
Local Open Scope nat_scope.

(** * Specification *)
(** The value of a parameter for an element, if the table has one. *)
Definition known (data : nat -> option (string -> value)) (p : string) (z : nat) : option R :=
  match data z with Some d => match d p with VNum x => Some x | _ => None end | None => None end.
(** The known values of the atoms of a structure, one per atom. *)
Definition atom_values data p (a : struct) : list R := somes (map (known data p) (numbers a)).

(** * Element parameters *)
Lemma plist_known data ts p ps : plist data ts p = Ok ps -> ps = map (known data p) ts.
Proof.
  unfold plist. revert ps. induction ts as [|z t IH]; intros ps; cbn [mapM map].
  - intros [= <-]. reflexivity.
  - unfold known at 1. destruct (data z) as [d|]; cbn [bind]; [|discriminate]. destruct (to_float (d p)) as [c|] eqn:E; cbn [bind]; [|discriminate].
    destruct (mapM _ t) as [r|]; cbn [bind]; [|discriminate]. intros [= <-]. rewrite (IH r eq_refl). f_equal. destruct (d p); cbn in E; congruence.
Qed.

Lemma somes_app a b : somes (a ++ b) = (somes a ++ somes b)%list.
Proof. induction a as [|[x|] a IH]; cbn; [auto| |auto]. f_equal. auto. Qed.

(** The sum over element types of count times value is the sum over atoms. *)
Lemma weighted_sum (f : nat -> option R) ts l : NoDup ts -> (forall z, In z l -> In z ts) ->
  sumR (somes (map (fun z => omul (INR (count z l)) (f z)) ts)) = sumR (somes (map f l)).
Proof.
  intros HN. induction l as [|x l IH]; intros HI.
  - cbn. clear. induction ts as [|z t IH]; cbn; [auto|]. destruct (f z); cbn; [rewrite IH; lra|auto].
  - transitivity (sumR (somes (map (fun z => omul (INR (if Nat.eqb z x then 1 else 0)) (f z)) ts)) + sumR (somes (map (fun z => omul (INR (count z l)) (f z)) ts)))%R.
    + clear. induction ts as [|z t IH]; cbn [map somes]; [cbn; lra|]. unfold count in *. cbn [filter] in *.
      destruct (f z) as [v|]; cbn [omul somes sumR]; [|exact IH]. rewrite IH.
      destruct (Nat.eqb z x); cbn [length]; rewrite ?S_INR; cbn [INR]; lra.
    + rewrite IH by (intros; apply HI; right; auto). assert (HX : In x ts) by (apply HI; left; auto).
      replace (sumR (somes (map (fun z => omul (INR (if Nat.eqb z x then 1 else 0)) (f z)) ts))) with (match f x with Some v => v | None => 0%R end).
      * cbn [map somes]. destruct (f x); cbn [sumR]; lra.
      * clear - HN HX. induction ts as [|z t IH]; [destruct HX|]. inversion HN as [|u w Hu Hw]; subst. cbn [map somes].
        destruct HX as [->|HX].
        -- rewrite Nat.eqb_refl.
           assert (E0 : sumR (somes (map (fun z => omul (INR (if Nat.eqb z x then 1 else 0)) (f z)) t)) = 0%R).
           { clear - Hu. induction t as [|z t IH]; cbn; [auto|]. destruct (Nat.eqb_spec z x); [subst; exfalso; apply Hu; left; auto|].
             destruct (f z); cbn [omul somes]; [cbn [sumR INR]; rewrite IH by (intros H; apply Hu; right; auto); lra|apply IH; intros H; apply Hu; right; auto]. }
           destruct (f x); cbn [omul somes]; [cbn [sumR INR]; rewrite E0; lra|lra].
        -- destruct (Nat.eqb_spec z x); [subst; contradiction|]. rewrite IH by auto. destruct (f z); cbn [omul somes]; [cbn [sumR INR]; lra|auto].
Qed.

Definition types_of (types : option (list nat)) (a : struct) : list nat := fst (composition_vec types a).

(** The block of features of one parameter. *)
Definition block_of data p (ts l : list nat) : list (option R) :=
  map (fun z => omul (INR (count z l)) (known data p z)) ts.

Lemma element_blocks data types params a v : element_parameter_vec data types params a = Ok v ->
  v = concat (map (fun p => block_of data p (types_of types a) (numbers a) ++
     [Some (sumR (somes (block_of data p (types_of types a) (numbers a))));
      Some (sumR (somes (block_of data p (types_of types a) (numbers a))) / (INR (length (somes (map (known data p) (types_of types a)))) + 2))%R])%list params).
Proof.
  unfold element_parameter_vec, types_of, composition_vec. cbn [fst].
  set (ts := match types with Some t => t | None => sorted_set (numbers a) end).
  destruct (mapM (plist data ts) params) as [pss|] eqn:E; cbn [bind]; [|discriminate]. intros [= <-]. f_equal.
  apply mapM_spec in E. induction E as [|p ps params pss H1 H2 IH]; [reflexivity|]. cbn [map]. f_equal; [|exact IH].
  apply plist_known in H1 as ->. unfold one_parameter.
  assert (EB : map (fun q => omul (INR (fst q)) (snd q)) (combine (map (fun z => count z (numbers a)) ts) (map (known data p) ts)) = block_of data p ts (numbers a)).
  { unfold block_of. clear. induction ts as [|z t IH]; cbn; [auto|]. f_equal. auto. }
  rewrite EB. f_equal. unfold reduce. rewrite somes_app. cbn [somes]. rewrite sumR_app.
  replace (sumR [0; 0]%R) with 0%R by (cbn; lra). rewrite Rplus_0_r. f_equal. f_equal.
  destruct (somes (block_of data p ts (numbers a)) ++ [0; 0]%R)%list eqn:EE; [apply app_eq_nil in EE as [_ EE]; discriminate|].
  rewrite <- EE. unfold mean. rewrite sumR_app, app_length, plus_INR. replace (sumR [0; 0]%R) with 0%R by (cbn; lra).
  rewrite Rplus_0_r. replace (INR (length [0; 0]%R)) with 2%R by (cbn; lra). do 2 f_equal. apply (f_equal (fun y => (y + 2)%R)), (f_equal INR).
  unfold block_of. clear. induction ts as [|z t IH]; cbn; [auto|]. destruct (known data p z); cbn; auto.
Qed.

Lemma blocks_nth {A B} (f : A -> list (option R)) (g : A -> list B) params k y v :
  (forall p, length (f p) = length (g p)) -> nth_error (concat (map g params)) k = Some y -> nth_error (concat (map f params)) k = Some v ->
  exists p i, In p params /\ nth_error (g p) i = Some y /\ nth_error (f p) i = Some v.
Proof.
  intros HL. revert k. induction params as [|p t IH]; intros k; cbn [map concat]; [destruct k; discriminate|].
  destruct (Nat.lt_ge_cases k (length (g p))) as [H|H].
  - rewrite !nth_error_app1 by (rewrite ?HL; auto). intros H1 H2. exists p, k. cbn. auto.
  - rewrite !nth_error_app2 by (rewrite ?HL; auto). rewrite HL. intros H1 H2. destruct (IH _ H1 H2) as (q & i & Q1 & Q2 & Q3). exists q, i. cbn. auto.
Qed.

(** The sums: one value per name; the sum over the atoms of one element, missing (even if the
    element does not occur) if the table has no value; the sum over all atoms with a value;
    independent of the order of atoms. *)
Theorem element_sums : forall data types params a v, element_parameter_vec data types params a = Ok v ->
  let ts := types_of types a in NoDup ts -> (forall z, In z (numbers a) -> In z ts) ->
  exists ns, element_parameter_names (Some ts) params = Ok ns /\ length v = length ns /\
    (forall k z p, nth_error ns k = Some (PSum z p) ->
       nth_error v k = Some (match known data p z with Some x => Some (INR (count_occ Nat.eq_dec (numbers a) z) * x)%R | None => None end)) /\
    (forall k p, nth_error ns k = Some (PSumAll p) -> nth_error v k = Some (Some (sumR (atom_values data p a)))) /\
    (forall q, reordering q a -> element_parameter_vec data types params (relabel q a) = Ok v).
Proof.
  intros data types params a v H ts HN HI. eexists. split; [reflexivity|].
  pose proof (element_blocks _ _ _ _ _ H) as EV. fold ts in EV.
  set (f := fun p => (block_of data p ts (numbers a) ++
     [Some (sumR (somes (block_of data p ts (numbers a))));
      Some (sumR (somes (block_of data p ts (numbers a))) / (INR (length (somes (map (known data p) ts))) + 2))%R])%list) in EV.
  set (g := fun p => (map (fun z => PSum z p) ts ++ [PSumAll p; PMeanAll p])%list).
  assert (HL : forall p, length (f p) = length (g p)) by (intros p; unfold f, g, block_of; rewrite !app_length, !map_length; reflexivity).
  assert (HLL : length v = length (concat (map g params))).
  { rewrite EV. clear - HL. induction params as [|p t IH]; cbn [map concat]; [auto|]. rewrite !app_length, HL, IH. auto. }
  assert (HX : forall k y, nth_error (concat (map g params)) k = Some y -> exists x p i, nth_error v k = Some x /\ nth_error (g p) i = Some y /\ nth_error (f p) i = Some x).
  { intros k y HY. destruct (nth_error v k) as [x|] eqn:EX.
    - rewrite EV in EX. destruct (blocks_nth f g params k y x HL HY EX) as (p & i & _ & Q2 & Q3). exists x, p, i. auto.
    - apply nth_error_None in EX. assert (k < length (concat (map g params))) by (apply nth_error_Some; congruence). lia. }
  split; [exact HLL|]. split; [|split].
  - intros k z p HK. destruct (HX k _ HK) as (x & p' & i & E1 & E2 & E3). rewrite E1. unfold g in E2. unfold f in E3.
    destruct (Nat.lt_ge_cases i (length ts)) as [Hi|Hi].
    + rewrite nth_error_app1 in E2 by (rewrite map_length; auto). rewrite nth_error_app1 in E3 by (unfold block_of; rewrite map_length; auto).
      rewrite nth_error_map in E2. unfold block_of in E3. rewrite nth_error_map in E3. destruct (nth_error ts i) as [z'|]; [|discriminate].
      cbn in E2, E3. injection E2 as -> ->. injection E3 as <-. rewrite count_spec. destruct (known data p z); reflexivity.
    + rewrite nth_error_app2 in E2 by (rewrite map_length; auto). rewrite map_length in E2. destruct (i - length ts) as [|[|[|]]]; discriminate.
  - intros k p HK. destruct (HX k _ HK) as (x & p' & i & E1 & E2 & E3). rewrite E1. unfold g in E2. unfold f in E3.
    destruct (Nat.lt_ge_cases i (length ts)) as [Hi|Hi].
    + rewrite nth_error_app1 in E2 by (rewrite map_length; auto). rewrite nth_error_map in E2. destruct (nth_error ts i); discriminate.
    + rewrite nth_error_app2 in E2 by (rewrite map_length; auto). rewrite nth_error_app2 in E3 by (unfold block_of; rewrite map_length; auto).
      unfold block_of at 3 in E3. rewrite map_length in E2, E3. destruct (i - length ts) as [|[|[|]]]; try discriminate. cbn [nth_error] in E2, E3. injection E2 as ->. injection E3 as <-.
      do 2 f_equal. unfold block_of, atom_values. apply weighted_sum; auto.
  - intros q HQ. unfold element_parameter_vec in *. destruct (composition_counts types a q HQ) as (_ & _ & _ & _ & _ & _ & EC & _). rewrite EC. exact H.
Qed.

(** The feature called mean is the sum divided by two more than the number of element types
    with a value: it is the mean over the atoms only if that happens to be their number. *)
Theorem element_mean_refuted : forall data types params a v, element_parameter_vec data types params a = Ok v ->
  let ts := types_of types a in NoDup ts -> (forall z, In z (numbers a) -> In z ts) ->
  forall ns k p, element_parameter_names (Some ts) params = Ok ns -> nth_error ns k = Some (PMeanAll p) ->
  exists m, nth_error v k = Some (Some m) /\
    (m * (INR (length (somes (map (known data p) ts))) + 2) = sumR (atom_values data p a))%R /\
    (sumR (atom_values data p a) <> 0%R -> (m = mean (atom_values data p a) <-> length (atom_values data p a) = length (somes (map (known data p) ts)) + 2)).
Proof.
  intros data types params a v H ts HN HI ns k p EN HK. injection EN as <-.
  pose proof (element_blocks _ _ _ _ _ H) as EV. fold ts in EV.
  set (f := fun p => (block_of data p ts (numbers a) ++
     [Some (sumR (somes (block_of data p ts (numbers a))));
      Some (sumR (somes (block_of data p ts (numbers a))) / (INR (length (somes (map (known data p) ts))) + 2))%R])%list) in EV.
  set (g := fun p => (map (fun z => PSum z p) ts ++ [PSumAll p; PMeanAll p])%list) in HK.
  assert (HL : forall p, length (f p) = length (g p)) by (intros p'; unfold f, g, block_of; rewrite !app_length, !map_length; reflexivity).
  assert (HLL : length v = length (concat (map g params))).
  { rewrite EV. clear - HL. induction params as [|p' t IH]; cbn [map concat]; [auto|]. rewrite !app_length, HL, IH. auto. }
  destruct (nth_error v k) as [x|] eqn:EX.
  2: { apply nth_error_None in EX. assert (k < length (concat (map g params))) by (apply nth_error_Some; congruence). lia. }
  assert (EX' := EX). rewrite EV in EX'. destruct (blocks_nth f g params k _ x HL HK EX') as (p' & i & _ & E2 & E3). unfold g in E2. unfold f in E3.
  destruct (Nat.lt_ge_cases i (length ts)) as [Hi|Hi].
  { rewrite nth_error_app1 in E2 by (rewrite map_length; auto). rewrite nth_error_map in E2. destruct (nth_error ts i); discriminate. }
  rewrite nth_error_app2 in E2 by (rewrite map_length; auto). rewrite nth_error_app2 in E3 by (unfold block_of; rewrite map_length; auto).
  unfold block_of at 3 in E3. rewrite map_length in E2, E3. destruct (i - length ts) as [|[|[|]]]; try discriminate. cbn [nth_error] in E2, E3. injection E2 as ->. injection E3 as <-.
  eexists. split; [reflexivity|].
  assert (EW : sumR (somes (block_of data p ts (numbers a))) = sumR (atom_values data p a)) by (apply weighted_sum; auto).
  rewrite EW. set (K := length (somes (map (known data p) ts))). assert (HK0 : (0 <= INR K)%R) by apply pos_INR.
  split; [field; lra|]. intros HS. unfold mean. set (S := sumR (atom_values data p a)) in *. set (L := length (atom_values data p a)).
  split; intros E.
  - apply INR_eq. rewrite plus_INR. change (INR 2) with 2%R.
    assert (HLn : INR L <> 0%R).
    { intros HZ. assert (L = 0) by (apply INR_eq; rewrite HZ; reflexivity). unfold L in *. apply HS. unfold S. destruct (atom_values data p a); [reflexivity|discriminate]. }
    assert (E' : (S * INR L = S * (INR K + 2))%R).
    { apply (f_equal (fun y => (y * (INR K + 2) * INR L)%R)) in E. replace (S / (INR K + 2) * (INR K + 2) * INR L)%R with (S * INR L)%R in E by (field; lra).
      replace (S / INR L * (INR K + 2) * INR L)%R with (S * (INR K + 2))%R in E by (field; auto). exact E. }
    apply Rmult_eq_reg_l in E'; auto.
  - rewrite E, plus_INR. reflexivity.
Qed.
(** Hydrogen molecule, parameter value 1: sum 2, "mean" 2/3. *)
Example element_h2 : element_parameter_vec (fun z => if Nat.eqb z 1 then Some (fun _ => VNum 1) else None) None ["x"%string] (Struct [1; 1] []) =
  Ok [Some (INR 2 * 1); Some (sumR [INR 2 * 1; 0; 0]); Some (mean [INR 2 * 1; 0; 0])]%R /\
  (mean [INR 2 * 1; 0; 0] = 2 / 3)%R /\ mean (atom_values (fun z => if Nat.eqb z 1 then Some (fun _ => VNum 1) else None) "x" (Struct [1; 1] [])) = 1%R.
Proof. split; [reflexivity|]. unfold mean, atom_values. cbn. split; field. Qed.

(** * Coulomb matrix *)
(** Relabelling of a matrix: simultaneous permutation of rows and columns. *)
Definition permuted (p : list nat) (m : list (list R)) : list (list R) :=
  map (fun i => map (fun j => nth j (nth i m []) 0%R) p) p.
(** What is assumed of np.linalg.eigvals: one eigenvalue per row, and the same ones, in some
    order, for a matrix whose rows and columns are permuted. *)
Definition spectrum (eigvals : list (list R) -> list R) : Prop :=
  (forall m, length (eigvals m) = length m) /\
  (forall m p, (forall row, In row m -> length row = length m) -> Permutation p (seq 0 (length m)) -> Permutation (eigvals (permuted p m)) (eigvals m)).

Lemma coulomb_ok zs dm : 2 <= length zs -> coulomb zs dm = Ok (map (fun i => map (coulomb_entry zs dm i) (seq 0 (length zs))) (seq 0 (length zs))).
Proof. intros H. unfold coulomb. destruct (Nat.ltb_spec (length zs) 2); [lia|reflexivity]. Qed.

(** The Coulomb matrix of at least two atoms: square, with the documented entries, symmetric
    for symmetric distances; fewer atoms are rejected. *)
Theorem coulomb_matrix : forall zs dm,
  (length zs < 2 -> coulomb zs dm = Err ValueError) /\
  (2 <= length zs -> exists m, coulomb zs dm = Ok m /\ length m = length zs /\ (forall row, In row m -> length row = length zs) /\
    (forall i j, i < length zs -> j < length zs -> i <> j -> nth j (nth i m []) 0%R = (INR (nth i zs 0%nat) * INR (nth j zs 0%nat) / dm i j)%R) /\
    (forall i, i < length zs -> nth i (nth i m []) 0%R = (0.5 * Rpower (INR (nth i zs 0%nat)) 2.4)%R) /\
    ((forall i j, dm i j = dm j i) -> forall i j, i < length zs -> j < length zs -> nth j (nth i m []) 0%R = nth i (nth j m []) 0%R)).
Proof.
  intros zs dm. split.
  - intros H. unfold coulomb. apply Nat.ltb_lt in H. rewrite H. reflexivity.
  - intros H. rewrite coulomb_ok by auto. eexists. split; [reflexivity|]. split; [rewrite map_length, seq_length; auto|].
    split; [intros row HR; apply in_map_iff in HR as (i & <- & _); rewrite map_length, seq_length; auto|].
    assert (EN : forall i j, i < length zs -> j < length zs ->
      nth j (nth i (map (fun i => map (coulomb_entry zs dm i) (seq 0 (length zs))) (seq 0 (length zs))) []) 0%R = coulomb_entry zs dm i j).
    { intros i j Hi Hj. rewrite (nth_map_lt _ _ _ 0) by (rewrite seq_length; auto). rewrite (nth_map_lt _ _ _ 0) by (rewrite seq_length; auto).
      rewrite !seq_nth by auto. reflexivity. }
    split; [|split].
    + intros i j Hi Hj Hij. rewrite EN by auto. unfold coulomb_entry. destruct (Nat.eqb_spec i j); [contradiction|reflexivity].
    + intros i Hi. rewrite EN by auto. unfold coulomb_entry. rewrite Nat.eqb_refl. reflexivity.
    + intros HD i j Hi Hj. rewrite !EN by auto. unfold coulomb_entry. rewrite (Nat.eqb_sym j i). destruct (Nat.eqb_spec i j); [subst; reflexivity|].
      rewrite (HD j i). f_equal. apply Rmult_comm.
Qed.

(** The eigenspectrum: the eigenvalues in decreasing order, zeros up to the length of the
    largest structure; larger structures are rejected; the order of atoms does not matter. *)
Theorem eigenspectrum_features : forall eigvals atom_len zs dm, spectrum eigvals -> 2 <= length zs ->
  (atom_len < length zs -> eigenspectrum_vec eigvals atom_len zs dm = Err ValueError) /\
  (length zs <= atom_len -> exists m v, coulomb zs dm = Ok m /\ StronglySorted Rge v /\ Permutation v (eigvals m) /\
     eigenspectrum_vec eigvals atom_len zs dm = Ok (v ++ repeat 0%R (atom_len - length zs))%list) /\
  (forall p, Permutation p (seq 0 (length zs)) ->
     eigenspectrum_vec eigvals atom_len (map (fun i => nth i zs 0) p) (fun i j => dm (nth i p 0) (nth j p 0)) = eigenspectrum_vec eigvals atom_len zs dm).
Proof.
  intros eigvals atom_len zs dm [SL SP] HZ.
  destruct (proj2 (coulomb_matrix zs dm) HZ) as (m & EM & LM & RM & _).
  assert (LV : length (rev (isort Rleb (eigvals m))) = length zs).
  { rewrite rev_length, (Permutation_length (isort_perm _ _)), SL. auto. }
  unfold eigenspectrum_vec. split; [|split].
  - intros H. rewrite EM. cbn [bind]. rewrite LV. destruct (Nat.leb_spec (length zs) atom_len); [lia|reflexivity].
  - intros H. exists m, (rev (isort Rleb (eigvals m))). split; [auto|]. split; [|split].
    + pose proof (sortedR (eigvals m)) as HS. revert HS. generalize (isort Rleb (eigvals m)). intros l. induction l as [|x t IH]; intros HS; cbn; [constructor|].
      inversion HS as [|u w Hu Hw]; subst. specialize (IH Hu). clear - IH Hw. rewrite Forall_forall in Hw.
      assert (G : forall l, (forall y, In y l -> (x <= y)%R) -> StronglySorted Rge l -> StronglySorted Rge (l ++ [x])).
      { induction l as [|y l IHl]; intros HL HS; cbn; [constructor; constructor|]. inversion HS as [|a b Ha Hb]; subst. constructor; [apply IHl; [intros; apply HL; right; auto|auto]|].
        apply Forall_app. split; [auto|]. constructor; [|constructor]. apply Rle_ge, HL. left; auto. }
      apply G; [intros y Hy; apply Hw, in_rev; auto|auto].
    + apply Permutation_trans with (isort Rleb (eigvals m)); [apply Permutation_sym, Permutation_rev|apply isort_perm].
    + rewrite EM. cbn [bind]. rewrite LV. destruct (Nat.leb_spec (length zs) atom_len); [reflexivity|lia].
  - intros p HP. assert (LP : length p = length zs) by (apply Permutation_length in HP; rewrite seq_length in HP; auto).
    assert (EP : coulomb (map (fun i => nth i zs 0) p) (fun i j => dm (nth i p 0) (nth j p 0)) = Ok (permuted p m)).
    { rewrite coulomb_ok by (rewrite map_length; lia). f_equal. rewrite map_length. unfold permuted.
      rewrite coulomb_ok in EM by auto. injection EM as <-.
      assert (HPI : forall i, i < length p -> nth i p 0 < length zs).
      { intros i Hi. assert (HI : In (nth i p 0) p) by (apply nth_In; auto). apply (Permutation_in _ HP) in HI. apply in_seq in HI. lia. }
      assert (HND : NoDup p) by (apply (Permutation_NoDup (Permutation_sym HP)), seq_NoDup).
      apply (list_ext_nth []); [rewrite !map_length, seq_length; auto|]. intros i Hi. rewrite map_length, seq_length in Hi.
      rewrite (nth_map_lt _ _ _ 0) by (rewrite seq_length; auto). rewrite seq_nth by auto. cbn [Nat.add].
      rewrite (nth_map_lt _ _ _ 0) by auto. apply (list_ext_nth 0%R); [rewrite !map_length, seq_length; auto|]. intros j Hj. rewrite map_length, seq_length in Hj.
      rewrite (nth_map_lt _ _ _ 0) by (rewrite seq_length; auto). rewrite seq_nth by auto. cbn [Nat.add].
      rewrite (nth_map_lt _ _ _ 0) by auto. rewrite (nth_map_lt _ _ _ 0) by (rewrite seq_length; auto). rewrite (nth_map_lt _ _ _ 0) by (rewrite seq_length; auto).
      rewrite !seq_nth by auto. cbn [Nat.add]. unfold coulomb_entry. rewrite !(nth_map_lt _ _ _ 0) by auto.
      destruct (Nat.eqb_spec i j) as [->|Hn]; [rewrite Nat.eqb_refl; reflexivity|].
      destruct (Nat.eqb_spec (nth i p 0) (nth j p 0)) as [HE|]; [|reflexivity]. exfalso. apply Hn. apply (proj1 (NoDup_nth p 0) HND i j); auto. }
    rewrite EP, EM. cbn [bind].
    assert (ES : isort Rleb (eigvals (permuted p m)) = isort Rleb (eigvals m)).
    { apply (@sorted_perm_unique R Rle); try apply sortedR; [intros; lra|intros; lra|].
      apply Permutation_trans with (eigvals (permuted p m)); [apply isort_perm|]. apply Permutation_trans with (eigvals m); [|apply Permutation_sym, isort_perm].
      apply SP; [rewrite LM; auto|rewrite LM; auto]. }
    rewrite ES. reflexivity.
Qed.
(** Not every matrix function is a spectrum, but some are: e.g. the sums of the rows. *)
Example spectrum_case : spectrum (map sumR).
Proof.
  split; [intros; apply map_length|]. intros m p HR HP. unfold permuted. rewrite map_map.
  apply Permutation_trans with (map (fun i => sumR (nth i m [])) p).
  - apply Permutation_refl'. apply map_ext_in. intros i Hi. assert (Hi' : i < length m) by (apply (Permutation_in _ HP) in Hi; apply in_seq in Hi; lia).
    assert (LR : length (nth i m []) = length m) by (apply HR, nth_In; auto).
    transitivity (sumR (map (fun j => nth j (nth i m []) 0%R) (seq 0 (length m)))); [apply sumR_perm, Permutation_map, HP|].
    f_equal. rewrite <- LR. symmetry. apply (list_ext_nth 0%R); [rewrite map_length, seq_length; auto|]. intros j Hj. rewrite (nth_map_lt _ _ _ 0) by (rewrite seq_length; auto). rewrite seq_nth by auto. reflexivity.
  - apply Permutation_trans with (map (fun i => sumR (nth i m [])) (seq 0 (length m))); [apply Permutation_map, HP|].
    assert (E : map (fun i => sumR (nth i m [])) (seq 0 (length m)) = map sumR m); [|rewrite E; apply Permutation_refl].
    apply (list_ext_nth 0%R); [rewrite !map_length, seq_length; auto|]. intros j Hj. rewrite map_length, seq_length in Hj.
    rewrite (nth_map_lt _ _ _ 0) by (rewrite seq_length; auto). rewrite seq_nth by auto. rewrite (nth_map_lt _ _ _ []) by auto. reflexivity.
Qed.

Print Assumptions element_sums.
Print Assumptions element_mean_refuted.
Print Assumptions coulomb_matrix.
Print Assumptions eigenspectrum_features.
