(** Properties of the files and tables of cross validation and of the files of the genetic algorithm. *)
From Coq Require Import String List Arith Bool Lia Permutation.
From Verif Require Import Base BaseFacts CVModel CVSpec CVProofs CVProperties DBModel DBProofs IOModel.
Import ListNotations.
Local Open Scope string_scope.
Local Open Scope list_scope.
Local Open Scope nat_scope.

Section Json.
Context {V : Type}.

(** A proper array: every row has as many entries as there are columns. *)
Definition proper (a : array V) : Prop := match a with Vec _ => True | Mat c rows => Forall (fun r => length r = c) rows end.
(** It has rows, or only one dimension. *)
Definition some_rows (a : array V) : Prop := match a with Vec _ => True | Mat _ rows => rows <> [] end.

Lemma numbers_of_nums (l : list V) : numbers_of (map JNum l) = Some l.
Proof. induction l as [|x l IH]; [auto|]. cbn. rewrite IH. auto. Qed.

Lemma rows_of_rows (l : list (list V)) : rows_of (map (fun r => JList (map JNum r)) l) = Some l.
Proof. induction l as [|x l IH]; [auto|]. cbn. rewrite numbers_of_nums, IH. auto. Qed.

Lemma asarray_tolist (a : array V) : proper a -> some_rows a -> asarray (tolist a) = Ok a.
Proof.
  destruct a as [l|c rows]; cbn [proper some_rows]; intros P S0; unfold tolist, asarray.
  - rewrite numbers_of_nums. auto.
  - destruct rows as [|r t]; [congruence|]. rewrite rows_of_rows. cbn [map numbers_of]. inversion P as [|? ? P1 P2]; subst.
    assert (F : forallb (fun x => length x =? length r) t = true).
    { apply forallb_forall. intros x Hx. rewrite Forall_forall in P2. apply Nat.eqb_eq. apply P2. auto. }
    rewrite F. auto.
Qed.

Lemma map_r_tolist (l : list (array V)) : Forall proper l -> Forall some_rows l -> map_r asarray (map tolist l) = Ok l.
Proof.
  induction l as [|a l IH]; intros P S0; [auto|]. inversion P; inversion S0; subst. cbn [map map_r].
  rewrite asarray_tolist by auto. cbn [bind]. rewrite IH by auto. auto.
Qed.

(** What was written in either format is read back. *)
Theorem split_round_trip : forall features targets fname fmt (fs fs' : string -> option (split_file V)),
  write_split features targets fname fmt fs = (fs', Ok tt) ->
  Forall proper features -> (fmt = "json" -> Forall some_rows features) ->
  (forall t, targets = Some t -> Forall proper t /\ (fmt = "json" -> Forall some_rows t)) ->
  read_split fname fmt fs' = Ok (features, targets) /\
  (forall n, n <> (fname ++ "." ++ fmt)%string -> fs' n = fs n).
Proof.
  intros features targets fname fmt fs fs' E PF SF PT. unfold write_split, read_split in *.
  destruct (String.eqb fmt "json") eqn:J.
  - apply String.eqb_eq in J. subst fmt. destruct targets as [t|]; [|discriminate]. injection E as <-. unfold put. rewrite String.eqb_refl.
    destruct (PT t eq_refl) as [P1 P2]. rewrite !map_r_tolist by auto. split; [reflexivity|]. intros n Hn.
    destruct (String.eqb n _) eqn:Q; [|auto]. apply String.eqb_eq in Q. exfalso. apply Hn. exact Q.
  - destruct (String.eqb fmt "pickle") eqn:K; [|discriminate]. apply String.eqb_eq in K. subst fmt. injection E as <-. unfold put. rewrite String.eqb_refl.
    split; [reflexivity|]. intros n Hn. destruct (String.eqb n _) eqn:Q; [|auto]. apply String.eqb_eq in Q. exfalso. apply Hn. exact Q.
Qed.

(** Which calls succeed: pickle always, json only with targets; nothing is written by the others. *)
Theorem write_split_outcome : forall features targets fname fmt (fs : string -> option (split_file V)),
  (snd (write_split features targets fname fmt fs) = Ok tt <-> fmt = "pickle" \/ (fmt = "json" /\ targets <> None)) /\
  (snd (write_split features targets fname fmt fs) <> Ok tt -> fst (write_split features targets fname fmt fs) = fs).
Proof.
  intros. unfold write_split. destruct (String.eqb fmt "json") eqn:J.
  - apply String.eqb_eq in J. subst fmt. destruct targets; cbn; intuition (try discriminate; congruence).
  - apply String.eqb_neq in J. destruct (String.eqb fmt "pickle") eqn:K; cbn.
    + apply String.eqb_eq in K. intuition congruence.
    + apply String.eqb_neq in K. intuition (try discriminate; congruence).
Qed.

(** Folds without targets, as k_fold returns them without targets, cannot be written as json. *)
Theorem write_split_no_targets_refuted : forall features fname (fs : string -> option (split_file V)),
  write_split features None fname "json" fs = (fs, Err TypeError).
Proof. reflexivity. Qed.

(** A fold without rows, which k_fold makes when there are more folds than rows, loses its columns in json. *)
Theorem split_empty_fold_refuted : forall (x t : V), exists fs ts,
  k_fold x (fun l => l) [[x; x]] [t] 2 None = Ok (fs, ts) /\
  let a := fold_arrays 2 (fs, ts) in
  exists out, read_split "split" "json" (fst (write_split (fst a) (Some (snd a)) "split" "json" (fun _ => None))) = Ok (out, Some (snd a)) /\
    nth 1 (fst a) (Vec []) = Mat 2 [] /\ nth 1 out (Mat 0 []) = Vec [].
Proof. intros x t. eexists _, _. split; [reflexivity|]. cbn zeta. eexists. split; [reflexivity|]. split; reflexivity. Qed.

(** The arrays of a split of at least as many rows as folds are written and read back as they are. *)
Theorem k_fold_split_round_trip : forall (dflt : V) shuf features targets nsplit d fmt fname (f0 : string -> option (split_file V)),
  (forall l, Permutation (shuf l) l) -> length features = length targets -> 1 <= nsplit <= length features ->
  Forall (fun r => length r = d) features -> fmt = "json" \/ fmt = "pickle" ->
  exists fs ts, k_fold dflt shuf features targets nsplit None = Ok (fs, ts) /\
    let a := fold_arrays d (fs, ts) in
    exists f1, write_split (fst a) (Some (snd a)) fname fmt f0 = (f1, Ok tt) /\ read_split fname fmt f1 = Ok (fst a, Some (snd a)).
Proof.
  intros dflt shuf features targets nsplit d fmt fname f0 HS HL HN HW HF.
  destruct (@k_fold_partition V dflt shuf features targets nsplit HS HL) as [fs [ts [E [L1 [L2 [L3 [P [B NI]]]]]]]]; [lia|].
  exists fs, ts. split; [auto|]. cbn zeta. unfold fold_arrays. cbn [fst snd].
  assert (LC : length (concat fs) = length (concat ts)).
  { clear - L3. revert ts L3. induction fs as [|f fs IH]; intros [|t ts] H; cbn in *; try discriminate; [auto|].
    injection H as H1 H2. rewrite !app_length, H1. f_equal. auto. }
  assert (PF : Permutation (concat fs) features).
  { rewrite <- (map_combine_fst (concat fs) (concat ts)) by lia. rewrite <- (map_combine_fst features targets) by lia. apply Permutation_map. auto. }
  assert (RW : Forall proper (map (Mat d) fs)).
  { rewrite Forall_map. apply Forall_forall. intros f Hf. cbn. apply Forall_forall. intros r Hr. rewrite Forall_forall in HW. apply HW.
    apply (Permutation_in _ PF). apply in_concat. eauto. }
  assert (NE : Forall some_rows (map (Mat d) fs)).
  { rewrite Forall_map. apply Forall_forall. intros f Hf. cbn. intros ->.
    assert (Z : In 0 (map (@length _) fs)) by (apply in_map_iff; exists []; auto).
    assert (LS : length (concat fs) = length features) by (apply Permutation_length; auto).
    assert (LE : forall x, In x (map (@length _) fs) -> x <= 1) by (intros x Hx; pose proof (B _ _ Hx Z); lia).
    assert (G : forall l : list (list (list V)), (forall x, In x (map (@length _) l) -> x <= 1) -> In 0 (map (@length _) l) -> length (concat l) < length l).
    { clear. induction l as [|a l IH]; intros H1 H2; [destruct H2|]. cbn in *. rewrite app_length.
      assert (GE : forall m : list (list (list V)), (forall x, In x (map (@length _) m) -> x <= 1) -> length (concat m) <= length m).
      { clear. induction m as [|b m IH]; intros H; [auto|]. cbn in *. rewrite app_length. specialize (H (length b) (or_introl eq_refl)) as H1.
        assert (length (concat m) <= length m) by (apply IH; auto). lia. }
      destruct H2 as [H2|H2].
      - assert (length (concat l) <= length l) by (apply GE; auto). lia.
      - specialize (H1 (length a) (or_introl eq_refl)) as Ha. assert (length (concat l) < length l) by (apply IH; auto). lia. }
    specialize (G fs LE Z). lia. }
  assert (PT : Forall proper (map (@Vec V) ts)) by (rewrite Forall_map; apply Forall_forall; cbn; auto).
  assert (ST : Forall some_rows (map (@Vec V) ts)) by (rewrite Forall_map; apply Forall_forall; cbn; auto).
  assert (W : exists f1, write_split (map (Mat d) fs) (Some (map (@Vec V) ts)) fname fmt f0 = (f1, Ok tt)).
  { destruct HF as [-> | ->]; eexists; reflexivity. }
  destruct W as [f1 W]. exists f1. split; [auto|]. apply (split_round_trip _ _ _ _ _ _ W); auto. intros t Et. injection Et as <-. auto.
Qed.

(** ** Files of the genetic algorithm *)
(** A population and its fitness as the search has them: rows, and some of them *)
Definition storable (d : array V * array V) : Prop := proper (fst d) /\ some_rows (fst d) /\ proper (snd d) /\ some_rows (snd d).

Lemma steps_length gens : length (flat_map (@write_steps V) gens) = 2 * length gens.
Proof. induction gens as [|g gens IH]; [auto|]. cbn [flat_map write_steps app length]. rewrite IH. lia. Qed.

Lemma file_at_cons c g gens (before : saved V) : file_at (S (S c)) (g :: gens) before = file_at c gens (Saved (tolist (fst g)) (tolist (snd g)) : saved V).
Proof.
  unfold file_at. cbn [flat_map write_steps app firstn]. set (l := firstn c _). clearbody l.
  destruct l; [auto|]. cbn [last]. destruct l; auto. revert s0. induction l as [|y l IH]; intros s0; [auto|]. cbn [last] in *. auto.
Qed.

Lemma last_cons {A} (l : list A) x d : last (x :: l) d = last l x.
Proof. revert x. induction l as [|y l IH]; intros x; [auto|]. cbn [last]. cbn [last] in IH. destruct l; auto. Qed.

(** After complete saves the file has the last generation, exactly; at any moment within a save it cannot be read. *)
Theorem saved_generation : forall gens (before : saved V) k, Forall storable gens -> k <= length gens ->
  read_data (file_at (2 * k) gens before) = (match k with 0 => read_data before | S j => Ok (nth j gens (Vec [], Vec [])) end) /\
  (k < length gens -> read_data (file_at (2 * k + 1) gens before) = Err ValueError).
Proof.
  induction gens as [|g gens IH]; intros before k HS HK.
  - cbn in HK. assert (k = 0) by lia. subst k. cbn. split; [reflexivity|lia].
  - destruct k as [|k]; [split; [reflexivity|intros; reflexivity]|].
    replace (2 * S k) with (S (S (2 * k))) by lia. replace (S (S (2 * k)) + 1) with (S (S (2 * k + 1))) by lia. rewrite !file_at_cons.
    inversion HS as [|? ? H1 H2]; subst. cbn [length] in HK. destruct (IH (Saved (tolist (fst g)) (tolist (snd g))) k H2) as [I1 I2]; [lia|].
    split; [|intros H; apply I2; cbn [length] in H; lia]. rewrite I1. destruct k as [|k]; [|reflexivity].
    cbn [nth read_data]. destruct H1 as [A1 [A2 [A3 A4]]]. rewrite !asarray_tolist by auto. cbn [bind]. destruct g; auto.
Qed.

(** A search that is interrupted while it saves leaves neither this nor the previous generation. *)
Theorem interrupted_save_refuted : forall (g1 g2 : array V * array V), storable g1 -> storable g2 ->
  read_data (file_at 2 [g1; g2] Absent) = Ok g1 /\ read_data (file_at 3 [g1; g2] Absent) = Err ValueError.
Proof.
  intros g1 g2 H1 H2. split.
  - apply (saved_generation [g1; g2] Absent 1); [repeat constructor; apply H1 || apply H2|cbn; lia].
  - reflexivity.
Qed.

(** ** Hierarchy files *)
Theorem hierarchy_load_literal : forall name fmt d (fs fs' : string -> option index_file), interned fmt = true ->
  hierarchy_write name fmt d fs = (fs', Ok tt) -> hierarchy_load name fmt fs' = Ok d.
Proof.
  intros name fmt d fs fs' HI E. unfold hierarchy_write, hierarchy_load in *. rewrite HI, !andb_true_r.
  destruct (String.eqb (text fmt) "json"); [|destruct (String.eqb (text fmt) "pickle"); [|discriminate]];
  injection E as <-; unfold iput; rewrite String.eqb_refl; auto.
Qed.

(** A format name that was read or put together at run time is accepted for writing, but never for loading. *)
Theorem hierarchy_load_refuted : forall name t d (fs : string -> option index_file), t = "json" \/ t = "pickle" ->
  exists fs', hierarchy_write name (PyStr t false) d fs = (fs', Ok tt) /\ hierarchy_load name (PyStr t false) fs' = Err NotImplementedError.
Proof. intros name t d fs [-> | ->]; eexists; split; reflexivity. Qed.

(** ** Data in the table *)
Variable show_nat : nat -> string.
Hypothesis show_inj : forall i j, show_nat i = show_nat j -> i = j.

(** The sample that was stored under an id *)
Definition sample (uids : list string) (features : list (list V)) (targets : list V) (id : string) (s : list V * V) : Prop :=
  exists i, nth_error uids i = Some id /\ nth_error (combine features targets) i = Some s.

Definition rows_for (uids : list string) (features : list (list V)) (targets : list V) : list (string * list (option V)) :=
  map (fun p => (fst p, map Some (fst (snd p) ++ [snd (snd p)]))) (combine uids (combine features targets)).

Lemma append_inj a s t : (a ++ s)%string = (a ++ t)%string -> s = t.
Proof. induction a as [|c a IH]; cbn; intros H; [auto|]. injection H as H. auto. Qed.

Lemma column_names_nodup d : (forall i, ("f" ++ show_nat i)%string <> "target") -> (forall i, ("f" ++ show_nat i)%string <> "uuid") ->
  nodupb ("uuid" :: column_names show_nat d) = true.
Proof.
  intros H1 H2. apply nodupb_NoDup. unfold column_names. constructor.
  - intros H. apply in_app_or in H. destruct H as [H|[H|[]]]; [|discriminate]. apply in_map_iff in H. destruct H as [i [H _]]. apply (H2 i). auto.
  - apply NoDup_app_intro.
    + apply FinFun.Injective_map_NoDup; [|apply seq_NoDup]. intros i j H. apply show_inj. apply (append_inj "f"). auto.
    + repeat constructor; auto.
    + intros x Hx [<-|[]]. apply in_map_iff in Hx. destruct Hx as [i [Hx _]]. apply (H1 i). auto.
Qed.

Lemma names_differ i : ("f" ++ show_nat i)%string <> "target" /\ ("f" ++ show_nat i)%string <> "uuid".
Proof. split; discriminate. Qed.

Lemma insert_all w data (t : table V) : Forall (fun r => length (snd r) = w) data -> insert_rows w data t = (mkTable (t_cols t) (t_rows t ++ data), Ok tt).
Proof.
  revert t. induction data as [|r data IH]; intros t H; cbn [insert_rows].
  - rewrite app_nil_r. destruct t; auto.
  - inversion H; subst. rewrite Nat.eqb_refl. rewrite IH by auto. cbn [t_cols t_rows]. rewrite <- app_assoc. auto.
Qed.

Lemma todb_ok uids d features targets (c : conn V) t : length features = length targets -> Forall (fun r => length r = d) features ->
  seen c = None \/ seen c = Some t /\ length (t_cols t) = d + 1 ->
  exists c', todb show_nat uids d features targets c = (c', Ok tt) /\ committed c' = seen c' /\
    exists t', seen c' = Some t' /\ length (t_cols t') = d + 1 /\
      t_rows t' = (match seen c with None => [] | Some t => t_rows t end) ++ rows_for uids features targets.
Proof.
  intros HL HW HC. unfold todb. rewrite HL, Nat.eqb_refl. cbn [negb].
  assert (WD : Forall (fun r => length (snd r) = d + 1) (rows_for uids features targets)).
  { unfold rows_for. rewrite Forall_map. apply Forall_forall. intros [u [f t0]] H. cbn [fst snd]. rewrite map_length, app_length. cbn [length].
    apply in_combine_r in H. apply in_combine_l in H. rewrite Forall_forall in HW. rewrite (HW f H). auto. }
  assert (LN : length (column_names show_nat d) = d + 1) by (unfold column_names; rewrite app_length, map_length, seq_length; auto).
  unfold create_db. destruct HC as [HC|[HC LT]]; rewrite HC.
  - rewrite column_names_nodup by apply names_differ. unfold commit, fill_db. cbn [seen t_cols committed]. rewrite Nat.eqb_refl, LN.
    fold (rows_for uids features targets). rewrite insert_all by auto. cbn [t_cols t_rows app]. eexists. split; [reflexivity|]. split; [auto|]. eexists. split; [reflexivity|]. auto.
  - unfold fill_db. rewrite HC, LN, LT, Nat.eqb_refl. fold (rows_for uids features targets). rewrite insert_all by auto.
    eexists. split; [reflexivity|]. split; [auto|]. eexists. split; [reflexivity|]. auto.
Qed.

Lemma rows_for_ids uids features targets : length uids = length features -> length features = length targets -> map fst (rows_for uids features targets) = uids.
Proof. intros H1 H2. unfold rows_for. rewrite map_map. cbn [fst]. apply map_combine_fst. rewrite combine_length. lia. Qed.

Lemma rows_for_sample uids features targets r : In r (rows_for uids features targets) ->
  exists s, sample uids features targets (fst r) s /\ snd r = map Some (fst s ++ [snd s]).
Proof.
  unfold rows_for. intros H. apply in_map_iff in H. destruct H as [[u s] [<- H]]. exists s. split; [|auto]. cbn [fst].
  apply In_nth_error in H. destruct H as [i H]. exists i. revert H. clear. generalize (combine features targets). intros l. revert i l.
  induction uids as [|a uids IH]; intros [|i] [|b l] H; cbn in *; try discriminate; [injection H as <- <-; auto|apply IH; auto].
Qed.

(** [out] holds, for the ids in some order, the stored features and targets. *)
Definition samples_of (uids : list string) (features : list (list V)) (targets : list V) (ids : list string) (out : list (list (option V)) * list (option V)) : Prop :=
  exists order ss, Permutation order ids /\ Forall2 (sample uids features targets) order ss /\
    fst out = map (fun s => map Some (fst s)) ss /\ snd out = map (fun s => Some (snd s)) ss.

Lemma subset_rows_spec (c : conn V) t uids features targets ids : seen c = Some t -> t_rows t = rows_for uids features targets ->
  length uids = length features -> length features = length targets -> NoDup uids -> NoDup ids -> (forall x, In x ids -> In x uids) ->
  ids <> [] -> length ids <= 999 \/ length ids mod 999 <> 0 ->
  exists out, subset_rows c ids = Ok out /\ samples_of uids features targets ids out.
Proof.
  intros HS HR H1 H2 NU NI HI NE SZ. unfold subset_rows. rewrite HS, HR.
  destruct (@compile_split_complete_partial string (list (option V)) String.eqb (rows_for uids features targets) ids) as [rows [E [P I0]]];
    [apply String.eqb_eq|rewrite rows_for_ids; auto|auto|intros x Hx; rewrite rows_for_ids; auto|auto|].
  rewrite E. cbn [bind]. unfold columns_of. destruct rows as [|r0 rt].
  - apply Permutation_nil in P. congruence.
  - set (rows := r0 :: rt) in *. clearbody rows. eexists. split; [reflexivity|].
    assert (SS : exists ss, Forall2 (sample uids features targets) (map fst rows) ss /\ map snd rows = map (fun s => map Some (fst s ++ [snd s])) ss).
    { clear - I0. induction rows as [|r rows IH]; [exists []; split; [constructor|auto]|].
      destruct IH as [ss [A B]]; [intros; apply I0; cbn; auto|]. destruct (rows_for_sample uids features targets r (I0 r (or_introl eq_refl))) as [s [S1 S2]].
      exists (s :: ss). cbn [map]. split; [constructor; auto|]. rewrite S2, B. auto. }
    destruct SS as [ss [S1 S2]]. exists (map fst rows), ss. split; [auto|]. split; [auto|]. cbn [fst snd].
    rewrite <- (map_map snd (fun x => removelast x)), <- (map_map snd (fun x => last x None)), S2, !map_map. split; apply map_ext; intros s; rewrite map_app; cbn [map].
    + apply removelast_last.
    + apply last_last.
Qed.

(** Data stored in a new table are found again: the index has all ids, and each subset of them its samples, features
    with the targets they came with. *)
Theorem todb_subset : forall uids d features targets, length uids = length features -> length features = length targets ->
  Forall (fun r => length r = d) features -> NoDup uids ->
  exists c, todb show_nat uids d features targets (@fresh V) = (c, Ok tt) /\ committed c = seen c /\ get_index c = Ok uids /\
    forall split i j other ids, dget split (i, match other with None => j | Some k => k end) = Some ids ->
      NoDup ids -> (forall x, In x ids -> In x uids) -> ids <> [] -> length ids <= 999 \/ length ids mod 999 <> 0 ->
      exists out, get_subset_data c split i j other = Ok out /\ samples_of uids features targets ids out.
Proof.
  intros uids d features targets H1 H2 HW NU.
  destruct (todb_ok uids d features targets (@fresh V) (mkTable [] []) H2 HW) as [c [E [CM [t [St [LT R0]]]]]]; [left; auto|]. cbn [fresh seen app] in R0.
  exists c. split; [auto|]. split; [auto|]. split; [unfold get_index; rewrite St, R0, rows_for_ids; auto|].
  intros split i j other ids HD NI HI NE SZ. unfold get_subset_data. rewrite HD. apply (subset_rows_spec c t); auto.
Qed.

(** All features once, in the two halves of the first level; features and targets of the first half. *)
Theorem global_data : forall uids d features targets c m sel split, length uids = length features -> length features = length targets ->
  Forall (fun r => length r = d) features -> NoDup uids -> todb show_nat uids d features targets (@fresh V) = (c, Ok tt) ->
  1 <= m -> hierarchy_of m sel split -> NoDup sel -> (forall x, In x sel -> In x uids) ->
  (forall s, In s (level split 1) -> length s <= 999 \/ length s mod 999 <> 0) ->
  exists ids1 ids2 all feat tar, dget split (1, 1) = Some ids1 /\ Permutation (ids1 ++ ids2) sel /\
    globalscaledata c split = Ok (all, feat, tar) /\ samples_of uids features targets ids1 (feat, tar) /\
    exists tars, samples_of uids features targets sel (all, tars).
Proof.
  intros uids d features targets c m sel split H1 H2 HW NU E Hm HH NS HI SZ.
  destruct (todb_subset uids d features targets H1 H2 HW NU) as [c0 [E0 [_ [_ GS]]]]. rewrite E in E0. injection E0 as <-.
  assert (K : forall j, 1 <= j <= 2 -> exists s, In ((1, j), s) split) by (intros j Hj; apply (proj2 (@h_numbering _ _ _ _ HH 1 (@h_first _ _ _ _ HH) j)); cbn; lia).
  assert (DG : forall k s, In (k, s) split -> dget split k = Some s).
  { intros k s Hs. pose proof (@h_keys _ _ _ _ HH) as ND. revert Hs ND. clear. induction split as [|[k' v'] l IH]; intros H ND; [destruct H|]. cbn [dget].
    cbn in ND. inversion ND; subst. destruct H as [H|H].
    - injection H as -> ->. unfold key_eqb. rewrite !Nat.eqb_refl. auto.
    - destruct (key_eqb k k') eqn:Q; [|auto]. unfold key_eqb in Q. apply andb_true_iff in Q. destruct Q as [Q1 Q2]. apply Nat.eqb_eq in Q1, Q2.
      exfalso. apply H2. apply in_map_iff. exists (k, s). split; [|auto]. cbn. destruct k, k'. cbn in *. subst. auto. }
  destruct (K 1) as [a Ha]; [lia|]. destruct (K 2) as [b Hb]; [lia|].
  assert (LV : Permutation (a ++ b) sel).
  { rewrite <- (@h_cover _ _ _ _ HH 1 (@h_first _ _ _ _ HH)).
    destruct (@h_count _ _ _ _ HH 1 (@h_first _ _ _ _ HH)) as [_ LC]. cbn in LC. unfold level in *.
    set (F := filter (fun e => fst (fst e) =? 1) split) in *.
    assert (Fa : In ((1, 1), a) F) by (apply filter_In; auto). assert (Fb : In ((1, 2), b) F) by (apply filter_In; auto).
    rewrite map_length in LC. destruct F as [|x [|y [|z F']]]; cbn in LC; try discriminate. cbn [map concat]. rewrite app_nil_r.
    destruct Fa as [Fa|[Fa|[]]]; destruct Fb as [Fb|[Fb|[]]]; try congruence.
    - subst x y. cbn. auto.
    - subst x y. cbn. apply Permutation_app_comm. }
  assert (NAB : NoDup (a ++ b)) by (apply (Permutation_NoDup (Permutation_sym LV)); auto).
  apply NoDup_app_inv in NAB. destruct NAB as [NA [NB DJ]].
  assert (IA : forall x, In x (a ++ b) -> In x uids) by (intros x Hx; apply HI; apply (Permutation_in _ LV); auto).
  assert (LA : forall s j, In ((1, j), s) split -> s <> [] /\ (length s <= 999 \/ length s mod 999 <> 0)).
  { intros s j Hs. assert (IL : In s (level split 1)) by (unfold level; apply in_map_iff; exists ((1, j), s); split; [auto|]; apply filter_In; auto).
    split; [|apply SZ; auto]. pose proof (@h_min _ _ _ _ HH 1 s IL) as M. intros ->. cbn in M. lia. }
  destruct (LA a 1 Ha) as [NEa SZa]. destruct (LA b 2 Hb) as [NEb SZb].
  destruct (GS split 1 1 None a) as [o1 [G1 S1]]; auto; [intros; apply IA, in_or_app; auto|].
  destruct (GS split 1 2 None b) as [o2 [G2 S2]]; auto; [intros; apply IA, in_or_app; auto|].
  unfold get_subset_data in G1, G2. rewrite (DG _ _ Ha) in G1. rewrite (DG _ _ Hb) in G2.
  exists a, b, (fst o1 ++ fst o2), (fst o1), (snd o1). split; [auto|]. split; [auto|].
  split; [unfold globalscaledata; rewrite (DG _ _ Ha), (DG _ _ Hb), G1; cbn [bind]; rewrite G2; reflexivity|].
  split; [destruct o1; auto|]. exists (snd o1 ++ snd o2).
  destruct S1 as [or1 [ss1 [P1 [F1 [A1 B1]]]]]. destruct S2 as [or2 [ss2 [P2 [F2 [A2 B2]]]]].
  exists (or1 ++ or2), (ss1 ++ ss2). cbn [fst snd]. rewrite A1, A2, B1, B2, !map_app. split; [|split; [apply Forall2_app; auto|auto]].
  rewrite P1, P2. auto.
Qed.

(** Storing data in the same file a second time appends them under new ids: every sample is then there twice, so that
    training and test sets with different ids can share samples. *)
Theorem todb_twice_refuted : forall uids uids' d features targets, length uids = length features -> length uids' = length features ->
  length features = length targets -> Forall (fun r => length r = d) features ->
  exists c1 c2 t, todb show_nat uids d features targets (@fresh V) = (c1, Ok tt) /\
    todb show_nat uids' d features targets c1 = (c2, Ok tt) /\ get_index c2 = Ok (uids ++ uids') /\ seen c2 = Some t /\
    forall i u u' cells, nth_error uids i = Some u -> nth_error uids' i = Some u' -> In (u, cells) (rows_for uids features targets) -> NoDup uids ->
      In (u, cells) (t_rows t) /\ In (u', cells) (t_rows t).
Proof.
  intros uids uids' d features targets H1 H1' H2 HW.
  destruct (todb_ok uids d features targets (@fresh V) (mkTable [] []) H2 HW) as [c1 [E1 [CM1 [t1 [S1 [L1 R1]]]]]]; [left; auto|]. cbn [fresh seen app] in R1.
  destruct (todb_ok uids' d features targets c1 t1 H2 HW) as [c2 [E2 [CM2 [t2 [S2 [L2 R2]]]]]]; [right; auto|]. rewrite S1, R1 in R2.
  exists c1, c2, t2. split; [auto|]. split; [auto|]. split; [unfold get_index; rewrite S2, R2, map_app, !rows_for_ids; auto|]. split; [auto|].
  intros i u u' cells Hu Hu' HI NU. rewrite R2. split; [apply in_or_app; auto|]. apply in_or_app. right.
  unfold rows_for in *. apply in_map_iff in HI. destruct HI as [[v s] [Q HI]]. cbn [fst snd] in Q. injection Q as -> <-.
  apply in_map_iff. exists (u', s). split; [reflexivity|].
  assert (Hs : nth_error (combine features targets) i = Some s).
  { apply In_nth_error in HI. destruct HI as [k HK].
    assert (EK : nth_error uids k = Some u /\ nth_error (combine features targets) k = Some s).
    { revert HK. clear. generalize (combine features targets). intros l. revert k l.
      induction uids as [|a uids IH]; intros [|k] [|b l] H; cbn in *; try discriminate; [injection H as <- <-; auto|apply IH; auto]. }
    destruct EK as [K1 K2]. assert (k = i).
    { rewrite NoDup_nth_error in NU. apply NU; [apply nth_error_Some; congruence|congruence]. }
    subst k. auto. }
  revert Hu' Hs. clear. generalize (combine features targets). intros l. revert i l.
  induction uids' as [|a uids' IH]; intros [|i] [|b l] H G; cbn in *; try discriminate; [injection H as ->; injection G as ->; auto|right; apply (IH i l); auto].
Qed.
End Json.

Example todb_case : forall show, (forall i j, show i = show j -> i = j) -> exists c : conn nat,
  todb show ["a"; "b"; "c"] 2 [[1; 2]; [3; 4]; [5; 6]] [10; 20; 30] (@fresh nat) = (c, Ok tt) /\ get_index c = Ok ["a"; "b"; "c"] /\
  get_subset_data c [((1, 1), ["c"; "a"]); ((1, 2), ["b"])] 1 1 None = Ok ([[Some 1; Some 2]; [Some 5; Some 6]], [Some 10; Some 30]).
Proof.
  intros show H. destruct (@todb_ok nat show H ["a"; "b"; "c"] 2 [[1; 2]; [3; 4]; [5; 6]] [10; 20; 30] (@fresh nat) (mkTable [] [])) as [c [E [_ [t [S0 [_ R0]]]]]];
    [auto|repeat constructor|left; auto|]. exists c. split; [auto|]. split; [unfold get_index; rewrite S0, R0; reflexivity|].
  unfold get_subset_data, subset_rows. cbn [dget]. rewrite S0, R0. reflexivity.
Qed.

Example save_case : storable (Mat 2 [[1; 0]; [0; 1]], Vec [5; 6]) /\ read_data (file_at 2 [(Mat 2 [[1; 0]; [0; 1]], Vec [5; 6])] Absent) = Ok (Mat 2 [[1; 0]; [0; 1]], Vec [5; 6]).
Proof. split; [|reflexivity]. repeat split; cbn; auto; discriminate. Qed.

Print Assumptions split_round_trip.
Print Assumptions write_split_outcome.
Print Assumptions write_split_no_targets_refuted.
Print Assumptions split_empty_fold_refuted.
Print Assumptions k_fold_split_round_trip.
Print Assumptions saved_generation.
Print Assumptions interrupted_save_refuted.
Print Assumptions hierarchy_load_literal.
Print Assumptions hierarchy_load_refuted.
Print Assumptions todb_subset.
Print Assumptions global_data.
Print Assumptions todb_twice_refuted.
