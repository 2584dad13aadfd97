(** Elemental data: every value stands under its name, averages do not depend on the order
    of atoms, and what goes wrong (outer electrons of the first period, weights of formulas,
    names of bulk features). *)
From Coq Require Import ZArith Reals String Ascii List Arith Bool Lia Lra Permutation Sorting.Sorted.
From Verif Require Import Base BaseFacts RBase PeriodicModel.
Import ListNotations.
Local Open Scope string_scope.
Local Open Scope nat_scope.

(** ** Specification *)
(** What a feature name stands for. *)
Inductive feature :=
| Plain (p : string)
| OxiMin | OxiMed | OxiMax
| InBlock (b : string)
| NeAll | NeS | NeP | NeD | NeF
| IonEnergy.
Definition feature_name (f : feature) : string :=
  match f with
  | Plain p => p
  | OxiMin => "oxi_min" | OxiMed => "oxi_med" | OxiMax => "oxi_max"
  | InBlock b => b ++ "block"
  | NeAll => "ne_outer" | NeS => "ne_s" | NeP => "ne_p" | NeD => "ne_d" | NeF => "ne_f"
  | IonEnergy => "ionenergy"
  end.
(** [means d f c]: c is the value of feature f for an element with data d. *)
Inductive means (d : string -> value) : feature -> option R -> Prop :=
| means_number p x : d p = VNum x -> means d (Plain p) (Some x)
| means_missing p : d p = VNone -> means d (Plain p) None
| means_oxi_min l x : d "oxistates" = VStates l -> In x l -> (forall y, In y l -> x <= y)%R -> means d OxiMin (Some x)
| means_oxi_max l x : d "oxistates" = VStates l -> In x l -> (forall y, In y l -> y <= x)%R -> means d OxiMax (Some x)
| means_oxi_med l : d "oxistates" = VStates l -> l <> [] -> means d OxiMed (Some (median l))
| means_in_block b : d "block" = VStr b -> means d (InBlock b) (Some 1%R)
| means_not_in_block b b' : d "block" = VStr b' -> b <> b' -> means d (InBlock b) (Some 0%R)
| means_ne e a s p q f : d "econf" = VStr e -> n_outer e = Ok (a, s, p, q, f) -> means d NeAll (Some (INR a))
| means_ne_s e a s p q f : d "econf" = VStr e -> n_outer e = Ok (a, s, p, q, f) -> means d NeS (Some (INR s))
| means_ne_p e a s p q f : d "econf" = VStr e -> n_outer e = Ok (a, s, p, q, f) -> means d NeP (Some (INR p))
| means_ne_d e a s p q f : d "econf" = VStr e -> n_outer e = Ok (a, s, p, q, f) -> means d NeD (Some (INR q))
| means_ne_f e a s p q f : d "econf" = VStr e -> n_outer e = Ok (a, s, p, q, f) -> means d NeF (Some (INR f))
| means_ion x : d "ionenergies" = VIon (Some x) -> means d IonEnergy (Some x).

(** [is_stat s l x]: x is the statistic s of the numbers l. *)
Definition is_stat (s : stat) (l : list R) (x : R) : Prop :=
  match s with
  | Nansum => x = sumR l
  | Nanmean => (x * INR (List.length l) = sumR l)%R
  | Nanmin => In x l /\ forall y, In y l -> (x <= y)%R
  | Nanmax => In x l /\ forall y, In y l -> (y <= x)%R
  | Nanmedian => exists s, Permutation s l /\ StronglySorted Rle s /\
      let n := List.length l in
      (Nat.even n = false -> x = nth (n / 2) s 0%R) /\
      (Nat.even n = true -> x = ((nth (n / 2 - 1) s 0 + nth (n / 2) s 0) / 2)%R)
  | Nanstd => (0 <= x)%R /\ (x ^ 2 = var l)%R
  end.

(** ** Reductions *)
Lemma somes_perm a b : Permutation a b -> Permutation (somes a) (somes b).
Proof.
  induction 1 as [|[x|] a b H IH|[x|] [y|] a|a b c H1 IH1 H2 IH2]; cbn; auto; try apply perm_swap; eauto using perm_trans.
Qed.
Lemma lmin_perm a b : Permutation a b -> lmin a = lmin b.
Proof.
  intros H. destruct a as [|x a]; [apply Permutation_nil in H; subst; auto|]. symmetry. apply lmin_unique.
  - apply (Permutation_in _ H). apply lmin_in. discriminate.
  - intros y Hy. apply lmin_le. apply (Permutation_in _ (Permutation_sym H)). auto.
Qed.
Lemma lmax_perm a b : Permutation a b -> lmax a = lmax b.
Proof.
  intros H. destruct a as [|x a]; [apply Permutation_nil in H; subst; auto|]. symmetry. apply lmax_unique.
  - apply (Permutation_in _ H). apply lmax_in. discriminate.
  - intros y Hy. apply lmax_ge. apply (Permutation_in _ (Permutation_sym H)). auto.
Qed.
Lemma mean_perm a b : Permutation a b -> mean a = mean b.
Proof. intros H. unfold mean. rewrite (sumR_perm _ _ H), (Permutation_length H). reflexivity. Qed.
Lemma std_perm a b : Permutation a b -> std a = std b.
Proof.
  intros H. unfold std, var. rewrite (mean_perm _ _ H). f_equal. apply mean_perm. apply Permutation_map. auto.
Qed.
Lemma sortedR l : StronglySorted Rle (isort Rleb l).
Proof.
  assert (H : StronglySorted (rel Rleb) (isort Rleb l)) by (apply isort_sorted, Rleb_total_order).
  induction H as [|x t H IH HF]; constructor; auto. eapply Forall_impl; [|exact HF]. intros y Hy. apply Rleb_true. exact Hy.
Qed.
Lemma median_perm a b : Permutation a b -> median a = median b.
Proof.
  intros H. unfold median. rewrite (Permutation_length H).
  replace (isort Rleb b) with (isort Rleb a); [reflexivity|]. apply (@sorted_perm_unique R Rle); try apply sortedR.
  - intros; lra.
  - intros; lra.
  - rewrite isort_perm, H. symmetry. apply isort_perm.
Qed.
Lemma reduce_perm s a b : Permutation a b -> reduce s a = reduce s b.
Proof.
  intros H. pose proof (somes_perm _ _ H) as HS. unfold reduce.
  destruct (somes a) as [|x l] eqn:EA.
  - apply Permutation_nil in HS. rewrite HS. reflexivity.
  - destruct (somes b) as [|y m] eqn:EB; [symmetry in HS; apply Permutation_nil in HS; discriminate|].
    destruct s; f_equal; auto using mean_perm, lmin_perm, lmax_perm, median_perm, sumR_perm, std_perm.
Qed.

(** nan is ignored; the statistic is that of the other values. *)
Theorem reduce_spec : forall s cs,
  let known := somes cs in
  (forall x, In x known <-> In (Some x) cs) /\
  (known <> [] -> exists x, reduce s cs = Some x /\ is_stat s known x) /\
  (known = [] -> reduce s cs = match s with Nansum => Some 0%R | _ => None end).
Proof.
  intros s cs known. split; [|split].
  - intros x. unfold known. clear. induction cs as [|[y|] t IH]; cbn; [tauto| |].
    + rewrite IH. split; intros [H|H]; auto; [left; congruence|injection H; auto].
    + rewrite IH. split; auto. intros [H|H]; [discriminate|auto].
  - intros HN. unfold reduce. fold known. destruct known as [|x l]; [contradiction|]. clear HN.
    destruct s; cbn [is_stat]; eexists; (split; [reflexivity|]).
    + unfold mean. assert (0 < INR (List.length (x :: l)))%R by (apply length_pos; discriminate). field. lra.
    + split; [apply lmin_in; discriminate|apply lmin_le].
    + split; [apply lmax_in; discriminate|apply lmax_ge].
    + exists (isort Rleb (x :: l)). split; [apply isort_perm|]. split; [apply sortedR|]. unfold median. cbv zeta.
      split; intros ->; reflexivity.
    + reflexivity.
    + split; [apply sqrt_pos|apply std_sq].
  - intros HN. unfold reduce. fold known. rewrite HN. destruct s; reflexivity.
Qed.

(** ** Lines *)
Definition features_of (p : string) : list feature :=
  match special_of p with
  | Some Oxi => [OxiMin; OxiMed; OxiMax]
  | Some Econf => [NeAll; NeS; NeP; NeD; NeF]
  | Some Block => [InBlock "s"; InBlock "p"; InBlock "d"; InBlock "f"]
  | Some Ion => [IonEnergy]
  | None => [Plain p]
  end.
Definition features (params : list string) : list feature := flat_map features_of params.

Lemma append_nil_r s : s ++ "" = s.
Proof. induction s as [|c t IH]; cbn; [auto|rewrite IH; auto]. Qed.
Lemma append_assoc a b c : (a ++ b) ++ c = a ++ b ++ c.
Proof. induction a as [|x t IH]; cbn; [auto|rewrite IH; auto]. Qed.

Lemma labels_features params pre suf :
  make_labels params pre suf = map (fun f => pre ++ feature_name f ++ suf) (features params).
Proof.
  induction params as [|p t IH]; [reflexivity|]. cbn [make_labels features flat_map]. rewrite map_app. fold (features t). rewrite <- IH. f_equal.
  unfold param_labels, features_of. destruct (special_of p) as [[| | |]|]; reflexivity.
Qed.
Lemma features_length params : List.length (features params) = n_columns params.
Proof.
  induction params as [|p t IH]; [reflexivity|]. cbn [features flat_map n_columns]. rewrite app_length. fold (features t). rewrite IH. f_equal.
  unfold features_of. destruct (special_of p) as [[| | |]|]; reflexivity.
Qed.
Lemma labels_length params pre suf : List.length (make_labels params pre suf) = n_columns params.
Proof. rewrite labels_features, map_length. apply features_length. Qed.

Lemma special_name p k : special_of p = Some k ->
  p = match k with Oxi => "oxistates" | Econf => "econf" | Block => "block" | Ion => "ionenergies" end.
Proof.
  unfold special_of. destruct (String.eqb_spec p "oxistates"); [intros [= <-]; auto|].
  destruct (String.eqb_spec p "econf"); [intros [= <-]; auto|].
  destruct (String.eqb_spec p "block"); [intros [= <-]; auto|].
  destruct (String.eqb_spec p "ionenergies"); [intros [= <-]; auto|discriminate].
Qed.

(** Special values are never floats. *)
Lemma special_not_float p v a : is_special p = true -> expand p v = Ok a -> exists e, to_float v = Err e.
Proof.
  unfold is_special, expand. destruct (special_of p) as [[| | |]|]; [..|discriminate]; intros _; destruct v; cbn; intros H; try discriminate; eauto.
Qed.
Lemma special_means d p a : is_special p = true -> expand p (d p) = Ok a -> Forall2 (means d) (features_of p) a.
Proof.
  unfold is_special, expand, features_of. destruct (special_of p) as [k|] eqn:EK; [|discriminate]. intros _.
  apply special_name in EK. subst p. destruct k.
  - destruct (d "oxistates") as [| |l| |] eqn:ED; try discriminate. destruct l as [|x l]; [discriminate|]. intros [= <-].
    apply Forall2_cons; [|apply Forall2_cons; [|apply Forall2_cons; [|apply Forall2_nil]]].
    + apply (means_oxi_min d (x :: l)); [auto|exact (lmin_in (x :: l) ltac:(discriminate))|exact (lmin_le (x :: l))].
    + apply (means_oxi_med d (x :: l)); [auto|discriminate].
    + apply (means_oxi_max d (x :: l)); [auto|exact (lmax_in (x :: l) ltac:(discriminate))|exact (lmax_ge (x :: l))].
  - destruct (d "econf") as [| | |e|] eqn:ED; try discriminate. destruct (n_outer e) as [[[[[a0 s] p] q] f]|] eqn:EN; [|discriminate].
    cbn [bind]. intros [= <-]. cbn [map]. repeat apply Forall2_cons; [..|apply Forall2_nil]; econstructor; eauto.
  - destruct (d "block") as [| | |b|] eqn:ED; try discriminate. unfold block2number.
    destruct (String.eqb_spec b "s") as [->|N1]; [|destruct (String.eqb_spec b "p") as [->|N2]; [|destruct (String.eqb_spec b "d") as [->|N3];
      [|destruct (String.eqb_spec b "f") as [->|N4]; [|discriminate]]]]; intros [= <-]; repeat apply Forall2_cons; try apply Forall2_nil;
      first [apply means_in_block; exact ED|eapply means_not_in_block; [exact ED|discriminate]].
  - destruct (d "ionenergies") as [| | | |[x|]] eqn:ED; try discriminate. intros [= <-]. repeat constructor. auto.
Qed.

Lemma get_params_one data z params : get_params data [z] params = match data z with None => Err KeyError | Some d => Ok (map d params) end.
Proof. cbn. destruct (data z); [rewrite app_nil_r; reflexivity|reflexivity]. Qed.

(** All special parameters stand behind the other ones. *)
Definition special_last (params : list string) : Prop :=
  exists ord spec, params = (ord ++ spec)%list /\ (forall p, In p ord -> is_special p = false) /\ (forall p, In p spec -> is_special p = true).

Lemma n_special_le params : n_special params <= List.length params.
Proof. unfold n_special. induction params as [|p t IH]; cbn; [auto|]. destruct (is_special p); cbn; lia. Qed.
Lemma n_special_app a b : n_special (a ++ b)%list = n_special a + n_special b.
Proof. unfold n_special. rewrite filter_app, app_length. reflexivity. Qed.
Lemma n_special_none l : (forall p, In p l -> is_special p = false) -> n_special l = 0.
Proof.
  unfold n_special. induction l as [|p t IH]; cbn; intros H; [auto|]. rewrite (H p) by auto. apply IH. auto.
Qed.
Lemma n_special_full l : n_special l = List.length l -> forall p, In p l -> is_special p = true.
Proof.
  unfold n_special. induction l as [|p t IH]; cbn; [intros _ p []|]. pose proof (n_special_le t) as HL. unfold n_special in HL.
  destruct (is_special p) eqn:EP; cbn; intros H q; [intros [<-|Hq]; [auto|apply IH; auto; lia]|lia].
Qed.

Lemma expand_all_in d params a : expand_all (combine params (map d params)) = Ok a -> forall p, In p params -> exists b, expand p (d p) = Ok b.
Proof.
  revert a. induction params as [|q t IH]; cbn; intros a; [intros _ p []|]. destruct (expand q (d q)) as [b|] eqn:EQ; [|discriminate]. cbn [bind].
  destruct (expand_all _) as [c|] eqn:EC; [|discriminate]. cbn [bind]. intros _ p [<-|Hp]; [eauto|]. eapply IH; eauto.
Qed.
Lemma mapM_spec {A B} (f : A -> result B) l r : mapM f l = Ok r <-> Forall2 (fun x y => f x = Ok y) l r.
Proof.
  revert r. induction l as [|x t IH]; cbn; intros r.
  - split; [intros [= <-]; constructor|intros H; inversion H; auto].
  - split.
    + destruct (f x) as [y|] eqn:EX; [|discriminate]. cbn [bind]. destruct (mapM f t) as [ys|]; [|discriminate]. cbn [bind]. intros [= <-].
      constructor; [auto|apply IH; auto].
    + intros H. inversion H as [|a b c d H1 H2]; subst. rewrite H1. cbn [bind]. apply IH in H2. rewrite H2. reflexivity.
Qed.

Lemma line_special_last data params z kept ex fl : line data params z = Ok (kept, ex) -> mapM to_float kept = Ok fl -> special_last params.
Proof.
  unfold line. rewrite get_params_one. destruct (data z) as [d|]; [|discriminate]. cbn [bind].
  destruct (expand_all _) as [a|] eqn:EA; [|discriminate]. cbn [bind]. intros [= <- <-] HM.
  set (k := List.length params - n_special params). rewrite map_length in HM. fold k in HM.
  exists (firstn k params), (skipn k params). pose proof (firstn_skipn k params) as EP. split; [auto|].
  assert (HO : forall p, In p (firstn k params) -> is_special p = false).
  { intros p Hp. destruct (is_special p) eqn:ES; [|auto]. exfalso.
    destruct (expand_all_in _ _ _ EA p) as (b & EB). { rewrite <- EP. apply in_or_app. auto. }
    destruct (special_not_float _ _ _ ES EB) as (e & EE). rewrite firstn_map in HM. apply mapM_spec in HM.
    assert (HI : In (d p) (map d (firstn k params))) by (apply in_map; auto).
    clear - HM HI EE. induction HM as [|x y l1 l2 H1 H2 IH]; [destruct HI|]. destruct HI as [->|HI]; [rewrite EE in H1; discriminate|auto]. }
  split; [auto|]. apply n_special_full.
  assert (EN : n_special params = n_special (skipn k params)).
  { rewrite <- EP at 1. rewrite n_special_app, (n_special_none (firstn k params)) by auto. reflexivity. }
  rewrite <- EN, skipn_length. pose proof (n_special_le params). unfold k. lia.
Qed.

(** The row of one element. *)
Definition row_of (data : nat -> option (string -> value)) (params : list string) (z : nat) : result (list (option R)) :=
  bind (line data params z) (fun l => bind (mapM to_float (fst l)) (fun a => Ok (a ++ snd l)%list)).

Lemma expand_all_ordinary vs ps : (forall p, In p ps -> is_special p = false) -> expand_all (combine ps vs) = Ok [].
Proof.
  revert vs. induction ps as [|p t IH]; intros vs H; [reflexivity|]. destruct vs as [|v vs]; [reflexivity|]. cbn [combine expand_all].
  assert (HP : is_special p = false) by (apply H; left; auto). unfold is_special in HP. unfold expand. destruct (special_of p); [discriminate|].
  cbn [bind]. rewrite IH; [reflexivity|intros q Hq; apply H; right; auto].
Qed.
Lemma expand_all_app a b : expand_all (a ++ b)%list = bind (expand_all a) (fun x => bind (expand_all b) (fun y => Ok (x ++ y)%list)).
Proof.
  induction a as [|[p v] t IH]; cbn.
  - destruct (expand_all b); reflexivity.
  - destruct (expand p v); [|reflexivity]. cbn [bind]. rewrite IH. destruct (expand_all t); [|reflexivity]. cbn [bind].
    destruct (expand_all b); [|reflexivity]. cbn [bind]. rewrite app_assoc. reflexivity.
Qed.
Lemma combine_map_app {A} (d : string -> A) a b : combine (a ++ b)%list (map d (a ++ b)%list) = (combine a (map d a) ++ combine b (map d b))%list.
Proof. induction a as [|x t IH]; cbn; [auto|rewrite IH; auto]. Qed.

Lemma row_means data params z row : row_of data params z = Ok row ->
  special_last params /\ exists d, data z = Some d /\ Forall2 (means d) (features params) row.
Proof.
  unfold row_of. destruct (line data params z) as [[kept ex]|] eqn:EL; [|discriminate]. cbn [bind fst snd].
  destruct (mapM to_float kept) as [fl|] eqn:EM; [|discriminate]. cbn [bind]. intros [= <-].
  pose proof (line_special_last _ _ _ _ _ _ EL EM) as HS. split; [exact HS|]. destruct HS as (ord & spec & -> & HO & HP).
  revert EL. unfold line. rewrite get_params_one. destruct (data z) as [d|]; [|discriminate]. cbn [bind].
  destruct (expand_all _) as [a|] eqn:EA; [|discriminate]. cbn [bind]. intros [= EK <-]. exists d. split; [auto|].
  rewrite n_special_app, n_special_none in EK by auto.
  assert (EN : n_special spec = List.length spec).
  { unfold n_special. clear - HP. induction spec as [|p t IH]; cbn; [auto|]. rewrite (HP p) by (left; auto). cbn. rewrite IH; [auto|intros; apply HP; right; auto]. }
  rewrite EN, map_length, app_length in EK. replace (List.length ord + List.length spec - (0 + List.length spec)) with (List.length ord) in EK by lia.
  rewrite firstn_map, firstn_app, Nat.sub_diag, firstn_O, firstn_all, app_nil_r in EK. subst kept.
  rewrite combine_map_app, expand_all_app, expand_all_ordinary in EA by auto. cbn [bind] in EA.
  destruct (expand_all (combine spec (map d spec))) as [b|] eqn:EB; [|discriminate]. injection EA as <-. cbn [List.app].
  unfold features. rewrite flat_map_app. apply Forall2_app.
  - apply mapM_spec in EM. clear - EM HO. revert fl EM. induction ord as [|p t IH]; intros fl EM; inversion EM as [|x y l1 l2 H1 H2]; subst; cbn [flat_map]; [constructor|].
    unfold features_of at 1. assert (EP : is_special p = false) by (apply HO; left; auto). unfold is_special in EP. destruct (special_of p); [discriminate|].
    cbn [List.app]. constructor; [|apply IH; auto; intros; apply HO; right; auto].
    destruct (d p) eqn:ED; try discriminate; injection H1 as <-; constructor; auto.
  - clear - EB HP. revert b EB. induction spec as [|p t IH]; cbn [map combine expand_all flat_map]; intros b EB; [injection EB as <-; constructor|].
    destruct (expand p (d p)) as [x|] eqn:EX; [|discriminate]. cbn [bind] in EB. destruct (expand_all (combine t (map d t))) as [y|] eqn:EY; [|discriminate].
    cbn [bind] in EB. injection EB as <-. apply Forall2_app; [apply special_means; auto; apply HP; left; auto|apply IH; auto; intros; apply HP; right; auto].
Qed.

Lemma list_params_rows data zs params rows : zs <> [] ->
  (list_params data zs params = Ok rows <-> Forall2 (fun z r => row_of data params z = Ok r) zs rows).
Proof.
  intros HZ. unfold list_params. split.
  - destruct (mapM (line data params) zs) as [ls|] eqn:EL; [|discriminate]. cbn [bind]. apply mapM_spec in EL.
    destruct ls as [|l ls]; [inversion EL; subst; contradiction|]. revert EL. generalize (l :: ls). clear l ls. intros ls EL.
    destruct (mapM _ ls) as [rs|] eqn:ER; [|discriminate]. cbn [bind]. apply mapM_spec in ER. destruct (forallb _ rs); [|discriminate]. intros [= <-].
    clear HZ. revert rs ER. induction EL as [|z l zs ls H1 H2 IH]; intros rs ER; inversion ER as [|x y l1 l2 H3 H4]; subst; constructor; auto.
    unfold row_of. rewrite H1. exact H3.
  - intros H.
    assert (HL : exists ls, mapM (line data params) zs = Ok ls /\ Forall2 (fun l r => bind (mapM to_float (fst l)) (fun a => Ok (a ++ snd l)%list) = Ok r) ls rows).
    { clear HZ. induction H as [|z r zs rows H1 H2 (ls & E1 & E2)]; [exists []; split; [reflexivity|constructor]|].
      unfold row_of in H1. destruct (line data params z) as [l|] eqn:EL; [|discriminate]. exists (l :: ls). split; [cbn; rewrite EL; cbn; rewrite E1; reflexivity|].
      constructor; auto. }
    destruct HL as (ls & E1 & E2). rewrite E1. cbn [bind]. destruct ls as [|l ls].
    { inversion E2; subst. inversion H; subst. contradiction. }
    apply mapM_spec in E2. rewrite E2. cbn [bind].
    replace (forallb _ rows) with true; [reflexivity|]. symmetry. apply forallb_forall. intros r Hr. apply Nat.eqb_eq.
    clear - H Hr. induction H as [|z r' zs rows H1 H2 IH]; [destruct Hr|]. destruct Hr as [->|Hr]; [|auto].
    apply row_means in H1 as (_ & d & _ & HF). rewrite <- features_length. symmetry. eapply Forall2_length; eauto.
Qed.

(** ** Theorems: elemental data *)
(** Whatever the order of the parameters: if an array is returned, its columns are what the
    labels say, for every atom. *)
Theorem list_params_labels : forall data zs params rows pre suf, zs <> [] -> list_params data zs params = Ok rows ->
  exists fs, make_labels params pre suf = map (fun f => pre ++ feature_name f ++ suf) fs /\
    Forall2 (fun z row => exists d, data z = Some d /\ Forall2 (means d) fs row) zs rows.
Proof.
  intros data zs params rows pre suf HZ H. exists (features params). split; [apply labels_features|].
  apply list_params_rows in H; [|auto]. clear HZ. induction H as [|z r zs rows H1 H2 IH]; constructor; auto.
  apply row_means in H1 as (_ & H1). exact H1.
Qed.

(** An empty list of atoms gives one row of missing values. *)
Theorem list_params_empty : forall data params pre suf,
  list_params data [] params = Ok [repeat None (List.length (make_labels params pre suf))].
Proof. intros. rewrite labels_length. reflexivity. Qed.

(** Data as in the table for the special parameters, numbers or nothing otherwise. *)
Definition usable (d : string -> value) (p : string) : Prop :=
  match special_of p with
  | None => d p = VNone \/ exists x, d p = VNum x
  | Some Oxi => exists l, d p = VStates l /\ l <> []
  | Some Econf => exists e k, d p = VStr e /\ n_outer e = Ok k
  | Some Block => exists b, d p = VStr b /\ In b ["s"; "p"; "d"; "f"]
  | Some Ion => exists x, d p = VIon (Some x)
  end.
Lemma usable_special d p : is_special p = true -> usable d p -> exists a, expand p (d p) = Ok a.
Proof.
  unfold is_special, usable, expand. destruct (special_of p) as [[| | |]|]; [..|discriminate]; intros _.
  - intros (l & -> & HL). destruct l; [contradiction|eauto].
  - intros (e & [[[[a b] c] q] f] & -> & ->). cbn. eauto.
  - intros (b & -> & HB). cbn in HB. destruct HB as [<-|[<-|[<-|[<-|[]]]]]; cbn; eauto.
  - intros (x & ->). eauto.
Qed.

(** With the special parameters last an array is returned for every list of known elements. *)
Theorem list_params_succeeds : forall data zs params, special_last params ->
  (forall z, In z zs -> exists d, data z = Some d /\ forall p, In p params -> usable d p) ->
  exists rows, list_params data zs params = Ok rows.
Proof.
  intros data zs params (ord & spec & -> & HO & HP) HD.
  destruct zs as [|z0 zs0]; [eexists; reflexivity|]. set (zs := z0 :: zs0) in *.
  assert (HR : forall z, In z zs -> exists r, row_of data (ord ++ spec)%list z = Ok r).
  { intros z Hz. destruct (HD z Hz) as (d & ED & HU). unfold row_of, line. rewrite get_params_one, ED. cbn [bind].
    rewrite combine_map_app, expand_all_app, expand_all_ordinary by auto. cbn [bind].
    assert (HE : exists b, expand_all (combine spec (map d spec)) = Ok b).
    { assert (HU' : forall p, In p spec -> usable d p) by (intros; apply HU, in_or_app; auto). clear - HP HU'.
      induction spec as [|p t IH]; cbn; [eauto|]. destruct (usable_special d p) as (a & ->); [apply HP; left; auto|apply HU'; left; auto|]. cbn [bind].
      destruct IH as (b & ->); [intros; apply HP; right; auto|intros; apply HU'; right; auto|]. cbn. eauto. }
    destruct HE as (b & ->). cbn [bind fst snd]. rewrite n_special_app, n_special_none by auto.
    assert (EN : n_special spec = List.length spec).
    { unfold n_special. clear - HP. induction spec as [|p t IH]; cbn; [auto|]. rewrite (HP p) by (left; auto). cbn. rewrite IH; [auto|intros; apply HP; right; auto]. }
    rewrite EN, map_length, app_length. replace (List.length ord + List.length spec - (0 + List.length spec)) with (List.length ord) by lia.
    rewrite firstn_map, firstn_app, Nat.sub_diag, firstn_O, firstn_all, app_nil_r.
    assert (HM : exists a, mapM to_float (map d ord) = Ok a).
    { assert (HU' : forall p, In p ord -> usable d p) by (intros; apply HU, in_or_app; auto). clear - HO HU'.
      induction ord as [|p t IH]; cbn; [eauto|]. assert (EP : is_special p = false) by (apply HO; left; auto).
      assert (EU : usable d p) by (apply HU'; left; auto). unfold is_special in EP. unfold usable in EU. destruct (special_of p); [discriminate|].
      destruct IH as (a & ->); [intros; apply HO; right; auto|intros; apply HU'; right; auto|].
      destruct EU as [->|(x & ->)]; cbn; eauto. }
    destruct HM as (a & ->). cbn. eauto. }
  assert (HF : exists rows, Forall2 (fun z r => row_of data (ord ++ spec)%list z = Ok r) zs rows).
  { clear - HR. induction zs as [|z t IH]; [eexists; constructor|]. destruct (HR z) as (r & ER); [left; auto|].
    destruct IH as (rs & IH); [intros; apply HR; right; auto|]. exists (r :: rs). constructor; auto. }
  destruct HF as (rows & HF). exists rows. apply list_params_rows; [discriminate|exact HF].
Qed.

(** If a special parameter stands before another one the call fails, for all data. *)
Theorem list_params_order_refuted : forall data zs params i j p q, zs <> [] -> i < j ->
  nth_error params i = Some p -> is_special p = true -> nth_error params j = Some q -> is_special q = false ->
  exists e, list_params data zs params = Err e.
Proof.
  intros data zs params i j p q HZ Hij Ep Sp Eq Sq. destruct (list_params data zs params) as [rows|e] eqn:E; [|eauto]. exfalso.
  apply list_params_rows in E; [|auto]. destruct E as [|z r zs rows H1 H2]; [contradiction|].
  apply row_means in H1 as ((ord & spec & -> & HO & HP) & _).
  destruct (Nat.lt_ge_cases i (List.length ord)) as [Hi|Hi].
  - rewrite nth_error_app1 in Ep by auto. apply nth_error_In, HO in Ep. congruence.
  - rewrite nth_error_app2 in Eq by lia. apply nth_error_In, HP in Eq. congruence.
Qed.

(** A concrete table: palladium-like data. *)
Definition pd : string -> value := fun p =>
  if String.eqb p "density" then VNum 12 else if String.eqb p "oxistates" then VStates [4; 2; 0]%R
  else if String.eqb p "block" then VStr "d" else if String.eqb p "econf" then VStr "[Kr] 4d10"
  else if String.eqb p "ionenergies" then VIon (Some 8.3%R) else VNone.
Definition pd_table (z : nat) : option (string -> value) := if Nat.eqb z 46 then Some pd else None.
Example list_params_case : special_last ["density"; "boiling_point"; "block"; "econf"] /\
  list_params pd_table [46; 46] ["density"; "boiling_point"; "block"; "econf"] =
    Ok (repeat [Some 12; None; Some 0; Some 0; Some 1; Some 0; Some (INR 10); Some (INR 0); Some (INR 0); Some (INR 10); Some (INR 0)]%R 2) /\
  list_params pd_table [46] ["block"; "density"] = Err ValueError.
Proof.
  split; [|split; reflexivity]. exists ["density"; "boiling_point"], ["block"; "econf"].
  split; [reflexivity|]. split; intros p H; repeat (destruct H as [<-|H]; [reflexivity|]); destruct H.
Qed.

(** ** Theorems: statistics over a set of atoms *)
Lemma reduce_list_ok s (f : nat -> R) zs : zs <> [] ->
  reduce_list s (map (fun z => Some (f z)) zs) = Ok (reduce s (map (fun z => Some (f z)) zs)).
Proof. destruct zs; [contradiction|]. intros _. destruct s; reflexivity. Qed.

Lemma property_vec_ok data gs s params suf zs rows : zs <> [] -> list_params data zs params = Ok rows ->
  property_vec data gs s params suf zs =
  Ok (map (fun k => reduce s (column k rows)) (seq 0 (n_columns params)) ++ [reduce s (map (fun z => Some (gs z)) zs)])%list.
Proof.
  intros HZ HL. unfold property_vec. rewrite HL. cbn [bind]. rewrite reduce_list_ok by auto. cbn [bind].
  rewrite !app_length, labels_length, map_length, seq_length. cbn [List.length]. rewrite Nat.eqb_refl. reflexivity.
Qed.

(** Value k is the statistic, over the atoms, of what name k says; the last one that of the
    magnetic moments. *)
Theorem property_features : forall data gs s params suf zs v, zs <> [] -> property_vec data gs s params suf zs = Ok v ->
  exists fs, property_names params suf = List.app (map (fun f => feature_name f ++ suf) fs) ["ground_state_magmom" ++ suf] /\
    List.length v = List.length (property_names params suf) /\
    (forall k f, nth_error fs k = Some f -> exists cs,
       Forall2 (fun z c => exists d, data z = Some d /\ means d f c) zs cs /\ nth_error v k = Some (reduce s cs)) /\
    nth_error v (List.length fs) = Some (reduce s (map (fun z => Some (gs z)) zs)).
Proof.
  intros data gs s params suf zs v HZ H.
  destruct (list_params data zs params) as [rows|] eqn:EL; [|unfold property_vec in H; rewrite EL in H; discriminate].
  rewrite (property_vec_ok _ _ _ _ _ _ _ HZ EL) in H. injection H as <-. exists (features params).
  split; [unfold property_names; rewrite labels_features; reflexivity|].
  split; [unfold property_names; rewrite !app_length, labels_length, map_length, seq_length; reflexivity|]. split.
  - intros k f Ef. assert (Hk : k < n_columns params) by (rewrite <- features_length; apply nth_error_Some; congruence).
    exists (column k rows). split.
    + apply list_params_rows in EL; [|auto]. clear HZ. unfold column. induction EL as [|z r zs rows H1 H2 IH]; cbn [map]; constructor; auto.
      apply row_means in H1 as (_ & d & ED & HF). exists d. split; [auto|]. clear - HF Ef.
      revert k Ef. induction HF as [|g c fs r H1 H2 IH]; intros [|k] Ef; try discriminate; cbn in *; [injection Ef as ->; auto|auto].
    + rewrite nth_error_app1 by (rewrite map_length, seq_length; auto).
      rewrite nth_error_map, (nth_error_nth' _ 0) by (rewrite seq_length; exact Hk). rewrite seq_nth by auto. reflexivity.
  - rewrite features_length, nth_error_app2 by (rewrite map_length, seq_length; auto). rewrite map_length, seq_length, Nat.sub_diag. reflexivity.
Qed.

Lemma Forall2_perm {A B} (P : A -> B -> Prop) a a' b : Permutation a a' -> Forall2 P a b -> exists b', Permutation b b' /\ Forall2 P a' b'.
Proof.
  intros HP. revert b. induction HP as [|x a a' H IH|x y a|a a' a'' H1 IH1 H2 IH2]; intros b HF.
  - inversion HF; subst. exists []. split; constructor.
  - inversion HF as [|u w l1 l2 E1 E2]; subst. destruct (IH _ E2) as (b' & P1 & P2). exists (w :: b'). split; [auto|constructor; auto].
  - inversion HF as [|u w l1 l2 E1 E2]; subst. inversion E2 as [|u' w' l1' l2' E3 E4]; subst. exists (w' :: w :: l2'). split; [apply perm_swap|repeat constructor; auto].
  - destruct (IH1 _ HF) as (b' & P1 & P2). destruct (IH2 _ P2) as (b'' & P3 & P4). exists b''. split; [eapply perm_trans; eauto|auto].
Qed.

(** The order of the atoms does not matter. *)
Theorem property_features_order : forall data gs s params suf zs zs' v, Permutation zs zs' ->
  property_vec data gs s params suf zs = Ok v -> property_vec data gs s params suf zs' = Ok v.
Proof.
  intros data gs s params suf zs zs' v HP H. destruct zs as [|z0 t] eqn:EZ; [apply Permutation_nil in HP; subst; auto|].
  rewrite <- EZ in *. assert (HZ : zs <> []) by (rewrite EZ; discriminate). assert (HZ' : zs' <> []) by (intros ->; symmetry in HP; apply Permutation_nil in HP; auto).
  destruct (list_params data zs params) as [rows|] eqn:EL; [|unfold property_vec in H; rewrite EL in H; discriminate].
  rewrite (property_vec_ok _ _ _ _ _ _ _ HZ EL) in H. injection H as <-.
  apply list_params_rows in EL; [|auto]. destruct (Forall2_perm _ _ _ _ HP EL) as (rows' & PR & EL').
  apply list_params_rows in EL'; [|auto]. rewrite (property_vec_ok _ _ _ _ _ _ _ HZ' EL'). do 2 f_equal.
  - apply map_ext. intros k. apply reduce_perm. unfold column. apply Permutation_map. symmetry. auto.
  - f_equal. apply reduce_perm, Permutation_map. symmetry. auto.
Qed.

(** Without atoms: nan, zero for sums, and an error for minimum and maximum. *)
Theorem property_features_empty : forall data gs s params suf,
  property_vec data gs s params suf [] =
  match s with
  | Nanmin | Nanmax => Err ValueError
  | Nansum => Ok (repeat (Some 0%R) (List.length (property_names params suf)))
  | _ => Ok (repeat None (List.length (property_names params suf)))
  end.
Proof.
  intros data gs s params suf. unfold property_vec. change (list_params data [] params) with (@Ok (list (list (option R))) [repeat None (n_columns params)]).
  cbn [bind map]. unfold property_names. rewrite !app_length, labels_length. cbn [List.length].
  assert (HC : forall k, column k [repeat None (n_columns params)] = [None]).
  { intros k. unfold column. cbn. f_equal. apply nth_repeat. }
  assert (HM : forall c, (forall k, reduce s (column k [repeat None (n_columns params)]) = c) ->
     map (fun k => reduce s (column k [repeat None (n_columns params)])) (seq 0 (n_columns params)) = repeat c (n_columns params)).
  { intros c H. rewrite (map_ext _ (fun _ => c)) by auto. generalize 0. generalize (n_columns params). clear. induction n; intros m; cbn; [auto|rewrite IHn; auto]. }
  destruct s; cbn [reduce_list bind]; try reflexivity;
    (rewrite (HM None) + rewrite (HM (Some 0%R))); try (intros k; rewrite HC; reflexivity);
    rewrite app_length, repeat_length; cbn [List.length]; rewrite Nat.eqb_refl; f_equal; rewrite repeat_app; reflexivity.
Qed.

(** Number of ligands and of different elements among them. *)
Theorem surf_ligands_counts : forall data gs params zs v, mean_surf_ligands data gs params zs = Ok v ->
  List.length v = List.length (mean_surf_ligands_names params) /\
  nth_error (mean_surf_ligands_names params) 0 = Some "nn_surf_ligands" /\ nth_error v 0 = Some (Some (INR (List.length zs))) /\
  exists kinds, NoDup kinds /\ (forall z, In z kinds <-> In z zs) /\ nth_error v 1 = Some (Some (INR (List.length kinds))).
Proof.
  intros data gs params zs v. unfold mean_surf_ligands. destruct (property_vec _ _ _ _ _ _) as [r|] eqn:EP; [|discriminate].
  cbn [bind]. intros [= <-]. split; [|split; [reflexivity|split; [reflexivity|]]].
  - unfold mean_surf_ligands_names. cbn [List.length]. do 2 f_equal. destruct zs as [|z t].
    + rewrite property_features_empty in EP. cbv beta iota in EP. injection EP as <-. apply repeat_length.
    + apply property_features in EP as (fs & _ & H & _); [exact H|discriminate].
  - exists (nodup Nat.eq_dec zs). split; [apply NoDup_nodup|]. split; [intros z; apply nodup_In|reflexivity].
Qed.

(** ** Theorems: names *)
Lemma append_inj_r a b s : a ++ s = b ++ s -> a = b.
Proof.
  assert (HL : forall x y, String.length (x ++ y) = String.length x + String.length y) by (induction x; intros; cbn; auto).
  revert b. induction a as [|c t IH]; intros b H.
  - destruct b as [|c t]; [auto|]. apply (f_equal String.length) in H. rewrite !HL in H. cbn in H. lia.
  - destruct b as [|c' t']; [apply (f_equal String.length) in H; rewrite !HL in H; cbn in H; lia|]. cbn in H. injection H as -> H. f_equal. auto.
Qed.
Lemma nodup_check (l : list string) : (if list_eq_dec string_dec (nodup string_dec l) l then true else false) = true -> NoDup l.
Proof. destruct (list_eq_dec _ _ _) as [<-|]; [intros _; apply NoDup_nodup|discriminate]. Qed.

(** The names of each slab feature set are distinct, whatever the suffix. *)
Theorem slab_names_distinct : forall suf, NoDup (property_names (default_params ++ extra_slab_params)%list suf).
Proof.
  intros suf. unfold property_names. rewrite labels_features.
  change (map (fun f => "" ++ feature_name f ++ suf) (features (default_params ++ extra_slab_params)%list)) with
    (map (fun f => feature_name f ++ suf) (features (default_params ++ extra_slab_params)%list)).
  rewrite <- map_map with (f := feature_name) (g := fun n => n ++ suf).
  change ["ground_state_magmom" ++ suf] with (map (fun n => n ++ suf) ["ground_state_magmom"]). rewrite <- map_app.
  apply FinFun.Injective_map_NoDup; [intros a b; apply append_inj_r|]. apply nodup_check. vm_compute. reflexivity.
Qed.
(** The default slab parameters have the special ones last. *)
Theorem default_params_last : special_last (default_params ++ extra_slab_params)%list /\ special_last (default_params ++ bulk_extra_params)%list.
Proof.
  split.
  - exists (default_params ++ firstn 9 extra_slab_params)%list, (skipn 9 extra_slab_params).
    split; [reflexivity|]. split; intros p H; cbn in H; repeat (destruct H as [<-|H]; [reflexivity|]); destruct H.
  - exists (default_params ++ firstn 21 bulk_extra_params)%list, (skipn 21 bulk_extra_params).
    split; [reflexivity|]. split; intros p H; cbn in H; repeat (destruct H as [<-|H]; [reflexivity|]); destruct H.
Qed.

(** Two features of the default bulk set have the same name; the numbers of names are right. *)
Theorem bulk_names_refuted : ~ NoDup (bulk_average_names ++ bulk_std_names)%list.
Proof.
  intros H. assert (E : nodup string_dec (bulk_average_names ++ bulk_std_names)%list = (bulk_average_names ++ bulk_std_names)%list) by (apply nodup_fixed_point; auto).
  apply (f_equal (@List.length string)) in E. vm_compute in E. discriminate.
Qed.
Theorem bulk_names_partial : NoDup bulk_average_names /\ NoDup bulk_std_names /\
  forall data gs zs, zs <> [] -> forall s v, property_vec data gs s (default_params ++ bulk_extra_params)%list "" zs = Ok v ->
    List.length v = List.length bulk_average_names /\ List.length v = List.length bulk_std_names.
Proof.
  split; [apply nodup_check; vm_compute; reflexivity|]. split; [apply nodup_check; vm_compute; reflexivity|].
  intros data gs zs HZ s v H. destruct (property_features _ _ _ _ _ _ _ HZ H) as (fs & _ & HL & _). rewrite HL. split; reflexivity.
Qed.

(** ** Theorems: radii *)
(** The first parameter that is known, in Angstrom, or the covalent radius. *)
Theorem get_radius_first : forall data rad z d params, data z = Some d ->
  (forall pre p post x, params = (pre ++ p :: post)%list -> (forall q, In q pre -> d q = VNone) -> d p = VNum x ->
     get_radius data rad z params = Ok (x / 100)%R) /\
  ((forall q, In q params -> d q = VNone) -> get_radius data rad z params = Ok (rad z)).
Proof.
  intros data rad z d params ED. split.
  - intros pre p post x -> HN EP. unfold get_radius. rewrite get_params_one, ED. cbn [bind].
    replace (first_value (map d (pre ++ p :: post)%list)) with (@Ok (option R) (Some (x / 100)%R)); [reflexivity|].
    induction pre as [|q t IH]; cbn [List.app map first_value]; [rewrite EP; reflexivity|]. rewrite (HN q) by (left; auto). apply IH. intros; apply HN; right; auto.
  - intros HN. unfold get_radius. rewrite get_params_one, ED. cbn [bind].
    replace (first_value (map d params)) with (@Ok (option R) None); [reflexivity|].
    induction params as [|q t IH]; cbn [map first_value]; [auto|]. rewrite (HN q) by (left; auto). apply IH. intros; apply HN; right; auto.
Qed.

(** The radius used for connectivity: fifteen per cent and 0.1 Angstrom above the radius of
    the element, which is the covalent radius for carbon, that plus 0.2 for hydrogen, and
    otherwise the first known of the atomic and the covalent radius of the data, or the
    covalent radius of ASE. *)
Theorem default_radius_value : forall data rad z d, data z = Some d -> z <> 6 -> z <> 1 ->
  (forall x, d "atomic_radius" = VNum x -> default_radius data rad z = Ok (x / 100 * (1 + 15 / 100) + 1 / 10)%R) /\
  (forall x, d "atomic_radius" = VNone -> d "covalent_radius_cordero" = VNum x ->
     default_radius data rad z = Ok (x / 100 * (1 + 15 / 100) + 1 / 10)%R) /\
  (d "atomic_radius" = VNone -> d "covalent_radius_cordero" = VNone ->
     default_radius data rad z = Ok (rad z * (1 + 15 / 100) + 1 / 10)%R).
Proof.
  intros data rad z d ED H6 H1. pose proof (get_radius_first data rad z d radius_params ED) as [HG HN].
  unfold default_radius. apply Nat.eqb_neq in H6. apply Nat.eqb_neq in H1. rewrite H6, H1.
  split; [|split].
  - intros x EX. rewrite (HG [] _ _ x eq_refl ltac:(intros q []) EX). cbn [bind]. f_equal. lra.
  - intros x EA EX. rewrite (HG ["atomic_radius"] _ _ x eq_refl ltac:(intros q [<-|[]]; exact EA) EX). cbn [bind]. f_equal. lra.
  - intros EA EC. rewrite HN by (intros q [<-|[<-|[]]]; auto). cbn [bind]. f_equal. lra.
Qed.
Theorem default_radius_light : forall data rad,
  default_radius data rad 6 = Ok (rad 6%nat * (1 + 15 / 100) + 1 / 10)%R /\
  default_radius data rad 1 = Ok ((rad 1%nat + 2 / 10) * (1 + 15 / 100) + 1 / 10)%R.
Proof. intros. unfold default_radius. cbn [Nat.eqb bind]. split; f_equal; lra. Qed.
Example default_radius_case : default_radius (fun _ => Some (fun q => if String.eqb q "atomic_radius" then VNum 100%R else VNone)) (fun _ => 0%R) 26 = Ok 1.25%R.
Proof.
  destruct (default_radius_value (fun _ => Some (fun q => if String.eqb q "atomic_radius" then VNum 100%R else VNone)) (fun _ => 0%R) 26 _ eq_refl ltac:(lia) ltac:(lia)) as [H _].
  rewrite (H 100%R eq_refl). f_equal. lra.
Qed.

(** ** Outer electrons *)
(** Shells, and how they are written in the data. *)
Inductive orbital := Os | Op | Od | Of.
Record shell := Shell { sh_n : nat; sh_orb : orbital; sh_occ : nat }.
Definition valid_shell (x : shell) : Prop := 1 <= sh_n x <= 9 /\ 1 <= sh_occ x <= 14.
Definition digit_char (k : nat) : ascii := ascii_of_nat (48 + k).
Definition letter (o : orbital) : ascii := match o with Os => "s" | Op => "p" | Od => "d" | Of => "f" end%char.
Definition render (x : shell) : string :=
  String (digit_char (sh_n x)) (String (letter (sh_orb x))
    (if Nat.eqb (sh_occ x) 1 then "" else if sh_occ x <? 10 then String (digit_char (sh_occ x)) ""
     else String (digit_char (sh_occ x / 10)) (String (digit_char (sh_occ x mod 10)) ""))).
(** For example '[Ar]' and 3d6, 4s2: '[Ar] 3d6 4s2' *)
Fixpoint configuration (first : string) (shells : list shell) : string :=
  match shells with [] => first | x :: t => first ++ " " ++ configuration (render x) t end.
Definition orbital_dec (a b : orbital) : {a = b} + {a <> b}.
Proof. decide equality. Defined.
Fixpoint electrons (o : option orbital) (shells : list shell) : nat :=
  match shells with
  | [] => 0
  | x :: t => (match o with None => sh_occ x | Some o' => if orbital_dec o' (sh_orb x) then sh_occ x else 0 end) + electrons o t
  end.

Lemma split_word w : has_char " " w = false -> split_space w = [w].
Proof.
  induction w as [|c t IH]; cbn [has_char split_space]; intros H; [reflexivity|]. apply orb_false_iff in H as [H1 H2].
  rewrite Ascii.eqb_sym in H1. rewrite H1, IH by auto. reflexivity.
Qed.
Lemma split_app w rest : has_char " " w = false -> split_space (w ++ " " ++ rest) = w :: split_space rest.
Proof.
  induction w as [|c t IH]; cbn [has_char]; intros H; [reflexivity|]. apply orb_false_iff in H as [H1 H2].
  change (String c t ++ " " ++ rest) with (String c (t ++ " " ++ rest)). cbn [split_space]. rewrite Ascii.eqb_sym in H1. rewrite H1, IH by auto. reflexivity.
Qed.

Definition all_shells : list shell :=
  flat_map (fun n => flat_map (fun o => map (fun k => Shell n o k) (seq 1 14)) [Os; Op; Od; Of]) (seq 1 9).
Lemma valid_in x : valid_shell x -> In x all_shells.
Proof.
  intros [H1 H2]. destruct x as [n o k]. cbn [sh_n sh_occ] in *. unfold all_shells. rewrite in_flat_map. exists n. split; [rewrite in_seq; lia|].
  rewrite in_flat_map. exists o. split; [destruct o; cbn; auto|]. apply in_map. rewrite in_seq. lia.
Qed.
Definition render_ok (x : shell) : bool :=
  negb (has_char " " (render x)) &&
  match shell_count (render x) with Ok n => Nat.eqb n (sh_occ x) | Err _ => false end &&
  Bool.eqb (has_char "s" (render x)) (if orbital_dec Os (sh_orb x) then true else false) &&
  Bool.eqb (has_char "p" (render x)) (if orbital_dec Op (sh_orb x) then true else false) &&
  Bool.eqb (has_char "d" (render x)) (if orbital_dec Od (sh_orb x) then true else false) &&
  Bool.eqb (has_char "f" (render x)) (if orbital_dec Of (sh_orb x) then true else false).
Lemma render_facts x : valid_shell x ->
  has_char " " (render x) = false /\ shell_count (render x) = Ok (sh_occ x) /\
  (forall o, has_char (letter o) (render x) = if orbital_dec o (sh_orb x) then true else false).
Proof.
  intros H. assert (HA : forallb render_ok all_shells = true) by (vm_compute; reflexivity).
  rewrite forallb_forall in HA. specialize (HA x (valid_in x H)). unfold render_ok in HA. rewrite !andb_true_iff in HA.
  destruct HA as (((((H1 & H2) & H3) & H4) & H5) & H6). apply negb_true_iff in H1. split; [auto|].
  split; [destruct (shell_count (render x)); [apply Nat.eqb_eq in H2; subst; auto|discriminate]|].
  intros o. apply Bool.eqb_prop in H3, H4, H5, H6. destruct o; assumption.
Qed.

Lemma split_configuration first shells : has_char " " first = false -> (forall x, In x shells -> valid_shell x) ->
  split_space (configuration first shells) = first :: map render shells.
Proof.
  revert first. induction shells as [|x t IH]; intros first HF HV; cbn [configuration map]; [apply split_word; auto|].
  rewrite split_app by auto. f_equal. apply IH; [apply render_facts, HV; left; auto|intros; apply HV; right; auto].
Qed.

(** n_outer counts the electrons of all shells but the first entry, which is meant to be the
    noble gas core. *)
Theorem n_outer_counts_partial : forall core shells, has_char " " core = false -> (forall x, In x shells -> valid_shell x) ->
  n_outer (configuration core shells) =
  Ok (electrons None shells, electrons (Some Os) shells, electrons (Some Op) shells, electrons (Some Od) shells, electrons (Some Of) shells).
Proof.
  intros core shells HC HV. unfold n_outer. rewrite split_configuration by auto. cbn [tl].
  assert (H : forall a s p d f, shell_loop (map render shells) (a, s, p, d, f) =
    Ok (a + electrons None shells, s + electrons (Some Os) shells, p + electrons (Some Op) shells, d + electrons (Some Od) shells, f + electrons (Some Of) shells)).
  { clear HC core. induction shells as [|x t IH]; intros a s p d f; [cbn; rewrite !Nat.add_0_r; reflexivity|]. cbn [map shell_loop].
    destruct (render_facts x) as (_ & E & HL); [apply HV; left; auto|]. rewrite E. cbn [bind]. unfold add_shell.
    pose proof (HL Os) as Ls. pose proof (HL Op) as Lp. pose proof (HL Od) as Ld. pose proof (HL Of) as Lf. cbn [letter] in *.
    rewrite Ls, Lp, Ld, Lf. cbn [electrons].
    destruct x as [n [| | |] k]; cbn [sh_orb sh_occ orbital_dec orbital_rec orbital_rect]; cbn; rewrite IH by (intros; apply HV; right; auto);
      repeat (f_equal; try lia). }
  rewrite H. reflexivity.
Qed.

(** Hydrogen and helium have no core: their electrons are not counted. *)
Theorem n_outer_first_period_refuted : n_outer "1s" = Ok (0, 0, 0, 0, 0) /\ n_outer "1s2" = Ok (0, 0, 0, 0, 0) /\
  forall x rest, valid_shell x -> (forall y, In y rest -> valid_shell y) ->
    n_outer (configuration (render x) rest) <> Ok (electrons None (x :: rest), electrons (Some Os) (x :: rest), electrons (Some Op) (x :: rest),
                                               electrons (Some Od) (x :: rest), electrons (Some Of) (x :: rest)).
Proof.
  split; [reflexivity|]. split; [reflexivity|]. intros x rest HX HR. rewrite n_outer_counts_partial by (auto; apply render_facts; auto).
  intros E. injection E as E _ _ _ _. destruct HX as [_ HX]. cbn [electrons] in E. lia.
Qed.
Example n_outer_case : configuration "[Xe]" [Shell 4 Of 14; Shell 5 Od 10; Shell 6 Os 2; Shell 6 Op 1] = "[Xe] 4f14 5d10 6s2 6p" /\
  n_outer "[Xe] 4f14 5d10 6s2 6p" = Ok (27, 2, 1, 10, 14).
Proof. split; reflexivity. Qed.

(** ** Formulas *)
Section Formula.
Variable coefs : list R.
(** The weight that the scanner takes for piece number k. *)
Definition taken (k : nat) (p : piece) : result R :=
  match coef p with None => Ok 1%R | Some _ => py_index coefs (Z.of_nat k - 1)%Z end.
Fixpoint taken_all (k : nat) (ps : list piece) : result (list R) :=
  match ps with [] => Ok [] | p :: t => bind (taken k p) (fun w => bind (taken_all (S k) t) (fun ws => Ok (w :: ws))) end.

(** State after k + 1 symbols, the last of them z. *)
Definition after (k : nat) (st : scan) (nums : list nat) (z : nat) (ws : list R) : Prop :=
  fill st = Scan nums ws (Z.of_nat k) (Z.of_nat k) (Some z) /\ n_symbol st = Z.of_nat k.

Lemma fill_none ns ws a b c : (b <= a)%Z -> fill (Scan ns ws a b c) = Scan ns ws a b c.
Proof. intros H. unfold fill. cbn [n_float n_symbol]. destruct (Z.ltb_spec a b); [lia|reflexivity]. Qed.
Lemma fill_one ns ws a b c : (a < b)%Z -> fill (Scan ns ws a b c) = Scan ns (ws ++ [1%R])%list (a + 1) b c.
Proof. intros H. unfold fill. cbn [n_float n_symbol s_numbers s_weights current]. destruct (Z.ltb_spec a b); [reflexivity|lia]. Qed.

Lemma read_after k nums z ws p : sym p = Some z ->
  match taken k p with
  | Ok w => exists st, read_coef coefs p (Scan nums ws (Z.of_nat k - 1) (Z.of_nat k) (Some z)) = Ok st /\ after k st nums z (ws ++ [w])%list
  | Err e => read_coef coefs p (Scan nums ws (Z.of_nat k - 1) (Z.of_nat k) (Some z)) = Err e
  end.
Proof.
  intros ES. unfold taken, read_coef. destruct (coef p) as [c|].
  - cbn [n_float]. destruct (py_index coefs (Z.of_nat k - 1)) as [w|e]; [|reflexivity]. cbn [bind]. eexists. split; [reflexivity|].
    cbn [s_numbers s_weights n_symbol current]. split; [|reflexivity]. rewrite fill_none by lia. f_equal. lia.
  - eexists. split; [reflexivity|]. split; [|reflexivity]. rewrite fill_one by lia. f_equal. lia.
Qed.

Lemma scan_after k st nums z ws ps zs : after k st nums z ws -> map sym ps = map Some zs ->
  match taken_all (S k) ps with
  | Ok vs => exists st' nums' z', scan_loop coefs ps st = Ok st' /\ after (k + List.length ps) st' nums' z' (ws ++ vs)%list /\
                                  (nums' ++ [z'] = nums ++ z :: zs)%list
  | Err e => scan_loop coefs ps st = Err e
  end.
Proof.
  revert k st nums z ws zs. induction ps as [|p t IH]; intros k st nums z ws zs HA HS.
  - destruct zs; [|discriminate]. cbn [taken_all scan_loop]. exists st, nums, z. rewrite Nat.add_0_r, app_nil_r. auto.
  - destruct zs as [|z1 zs]; [discriminate|]. cbn [map] in HS. injection HS as ES HS. cbn [taken_all scan_loop].
    destruct HA as [HF HN].
    assert (E1 : start_symbol p st = Scan (nums ++ [z])%list ws (Z.of_nat (S k) - 1) (Z.of_nat (S k)) (Some z1)).
    { unfold start_symbol. rewrite HN. destruct (Z.leb_spec 0 (Z.of_nat k)); [|lia]. rewrite HF. cbn [current s_numbers s_weights n_float n_symbol].
      rewrite ES. f_equal; lia. }
    rewrite E1. pose proof (read_after (S k) (nums ++ [z])%list z1 ws p ES) as HR. destruct (taken (S k) p) as [w|e]; cbn [bind].
    + destruct HR as (st1 & -> & HA1). cbn [bind]. specialize (IH (S k) st1 (nums ++ [z])%list z1 (ws ++ [w])%list zs HA1 HS).
      destruct (taken_all (S (S k)) t) as [vs|e]; cbn [bind]; [|exact IH]. destruct IH as (st' & nums' & z' & E2 & HA2 & E3).
      exists st', nums', z'. cbn [List.length]. rewrite Nat.add_succ_r. split; [exact E2|]. rewrite <- app_assoc in HA2. split; [exact HA2|].
      rewrite E3, <- app_assoc. reflexivity.
    + rewrite HR. reflexivity.
Qed.
End Formula.

Lemma taken_length coefs k ps ws : taken_all coefs k ps = Ok ws -> List.length ws = List.length ps.
Proof.
  revert k ws. induction ps as [|p t IH]; cbn; intros k ws; [intros [= <-]; auto|]. destruct (taken _ _ _); [|discriminate]. cbn [bind].
  destruct (taken_all _ _ _) as [vs|] eqn:E; [|discriminate]. cbn [bind]. intros [= <-]. cbn. f_equal. eauto.
Qed.

(** All symbols known: the elements are in order, and the weights those of [taken_all]. *)
Lemma stat_known ps zs : ps <> [] -> map sym ps = map Some zs ->
  stat_composition ps = bind (taken_all (somes (map coef ps)) 0 ps) (fun ws => Ok (zs, ws)).
Proof.
  intros HN HS. destruct ps as [|p t]; [contradiction|]. destruct zs as [|z zs]; [discriminate|]. cbn [map] in HS. injection HS as ES HS.
  unfold stat_composition. set (coefs := somes (map coef (p :: t))). cbn [scan_loop taken_all].
  assert (E1 : start_symbol p (Scan [] [] (-1) (-1) None) = Scan [] [] (Z.of_nat 0 - 1) (Z.of_nat 0) (Some z)).
  { unfold start_symbol. cbn. rewrite ES. reflexivity. }
  rewrite E1. pose proof (read_after coefs 0 [] z [] p ES) as HR. destruct (taken coefs 0 p) as [w|e]; cbn [bind].
  - destruct HR as (st1 & -> & HA). cbn [bind]. pose proof (scan_after coefs 0 st1 [] z ([] ++ [w])%list t zs HA HS) as HB.
    destruct (taken_all coefs 1 t) as [vs|e] eqn:ET; cbn [bind].
    + destruct HB as (st' & nums' & z' & -> & [HF _] & E3). cbn [bind]. rewrite HF. cbn [current s_numbers s_weights].
      rewrite E3. cbn [List.app]. assert (EL : List.length vs = List.length zs).
      { apply taken_length in ET. rewrite ET. apply (f_equal (@List.length _)) in HS. rewrite !map_length in HS. auto. }
      cbn [List.length]. rewrite EL, Nat.eqb_refl. reflexivity.
    + rewrite HB. reflexivity.
  - rewrite HR. reflexivity.
Qed.

(** Without coefficients all weights are one. *)
Theorem formula_without_coefficients_partial : forall zs, zs <> [] ->
  stat_composition (map (fun z => Piece (Some z) None) zs) = Ok (zs, repeat 1%R (List.length zs)).
Proof.
  intros zs HZ. rewrite (stat_known _ zs); [|destruct zs; [contradiction|discriminate]|rewrite map_map; reflexivity].
  assert (E : forall k, taken_all (somes (map coef (map (fun z => Piece (Some z) None) zs))) k (map (fun z => Piece (Some z) None) zs) = Ok (repeat 1%R (List.length zs))).
  { generalize (somes (map coef (map (fun z => Piece (Some z) None) zs))). clear HZ. induction zs as [|z t IH]; intros cs k; cbn; [auto|]. rewrite IH. reflexivity. }
  rewrite E. reflexivity.
Qed.

(** One coefficient: right for the first and the second element (as in 'H2O' and 'MoS2'),
    an error for any later one. *)
Theorem formula_one_coefficient_partial : forall before z c rest,
  let plain := map (fun z => Piece (Some z) None) in
  stat_composition (plain before ++ Piece (Some z) (Some c) :: plain rest)%list =
  match before with
  | [] | [_] => Ok (before ++ z :: rest, repeat 1%R (List.length before) ++ c :: repeat 1%R (List.length rest))%list
  | _ => Err IndexError
  end.
Proof.
  intros before z c rest plain.
  rewrite (stat_known _ (before ++ z :: rest)%list).
  2: { destruct before; discriminate. }
  2: { unfold plain. rewrite !map_app. cbn [map sym]. rewrite !map_map. reflexivity. }
  assert (EC : somes (map coef (plain before ++ Piece (Some z) (Some c) :: plain rest)%list) = [c]).
  { assert (EP : forall l tl, somes (map coef (plain l) ++ tl)%list = somes tl) by (intros l tl; induction l as [|x t IH]; cbn; auto).
    rewrite map_app, EP. cbn [map coef somes]. f_equal. rewrite <- (app_nil_r (map coef (plain rest))). rewrite EP. reflexivity. }
  rewrite EC. clear EC.
  assert (ER : forall k, taken_all [c] k (plain rest) = Ok (repeat 1%R (List.length rest))).
  { induction rest as [|x t IH]; intros k; cbn; [auto|]. fold plain. unfold plain in IH. rewrite IH. reflexivity. }
  assert (EB : forall l k tl, taken_all [c] k (plain l ++ tl)%list = bind (taken_all [c] (k + List.length l) tl) (fun ws => Ok (repeat 1%R (List.length l) ++ ws)%list)).
  { induction l as [|x t IH]; intros k tl; cbn [plain map List.app List.length repeat].
    - rewrite Nat.add_0_r. destruct (taken_all [c] k tl); reflexivity.
    - cbn [taken_all taken coef bind]. fold plain. unfold plain in IH. rewrite IH. rewrite Nat.add_succ_r. cbn [Nat.add].
      destruct (taken_all [c] _ tl); reflexivity. }
  rewrite EB. cbn [taken_all]. rewrite ER. unfold taken. cbn [coef Nat.add].
  destruct before as [|b1 [|b2 t]]; [reflexivity|reflexivity|].
  cbn [List.length]. unfold py_index. cbn [List.length].
  destruct (Z.ltb_spec (Z.of_nat (S (S (List.length t))) - 1) 0); [lia|].
  destruct (Z.leb_spec (Z.of_nat 1) (Z.of_nat (S (S (List.length t))) - 1)); [|lia]. rewrite orb_true_r. reflexivity.
Qed.

(** All coefficients given: every weight is that of the element before, cyclically. *)
Theorem formula_coefficients_refuted : forall zcs, zcs <> [] ->
  stat_composition (map (fun q => Piece (Some (fst q)) (Some (snd q))) zcs) =
  Ok (map fst zcs, last (map snd zcs) 0%R :: removelast (map snd zcs)).
Proof.
  intros zcs HN. rewrite (stat_known _ (map fst zcs)); [|destruct zcs; [contradiction|discriminate]|rewrite !map_map; reflexivity].
  set (f := fun q : nat * R => Piece (Some (fst q)) (Some (snd q))).
  assert (EC : somes (map coef (map f zcs)) = map snd zcs) by (rewrite map_map; induction zcs as [|q [|q' t] IH]; cbn in *; [auto|auto|rewrite IH; [auto|discriminate]]).
  rewrite EC. set (cs := map snd zcs). assert (LC : List.length cs = List.length zcs) by apply map_length.
  assert (E : forall l k, S k + List.length l <= List.length cs -> taken_all cs (S k) (map f l) = Ok (firstn (List.length l) (skipn k cs))).
  { induction l as [|q t IH]; intros k HK; cbn [map taken_all List.length] in *; [reflexivity|]. unfold taken, f at 1. cbn [coef].
    replace (Z.of_nat (S k) - 1)%Z with (Z.of_nat k) by lia. unfold py_index.
    destruct (Z.ltb_spec (Z.of_nat k) 0); [lia|]. destruct (Z.ltb_spec (Z.of_nat k) 0); [lia|]. destruct (Z.leb_spec (Z.of_nat (List.length cs)) (Z.of_nat k)); [lia|].
    cbn [orb bind]. rewrite IH by lia. cbn [bind]. rewrite Nat2Z.id. f_equal.
    assert (EK : skipn k cs = nth k cs 0%R :: skipn (S k) cs).
    { clear - HK. assert (H : k < List.length cs) by lia. clear HK. revert k H. induction cs as [|x u IHc]; intros k H; cbn in H; [lia|]. destruct k; [reflexivity|]. cbn. apply IHc. lia. }
    rewrite EK. reflexivity. }
  destruct zcs as [|q t]; [contradiction|]. cbn [map taken_all]. unfold taken, f at 1. cbn [coef].
  change (Z.of_nat 0 - 1)%Z with (-1)%Z. unfold py_index. cbn [Z.ltb]. change (-1 <? 0)%Z with true. cbv iota.
  cbn [List.length] in LC. rewrite LC. destruct (Z.ltb_spec (-1 + Z.of_nat (S (List.length t))) 0); [lia|].
  destruct (Z.leb_spec (Z.of_nat (S (List.length t))) (-1 + Z.of_nat (S (List.length t)))); [lia|]. cbn [orb bind].
  rewrite (E t 0) by lia. cbn [bind skipn]. do 2 f_equal. f_equal.
  - replace (Z.to_nat (-1 + Z.of_nat (S (List.length t)))) with (List.length cs - 1) by lia. clear. induction cs as [|x [|y u] IH]; [reflexivity|reflexivity|].
    cbn [List.length last] in *. replace (S (S (List.length u)) - 1) with (S (S (List.length u) - 1)) by lia. cbn [nth]. rewrite <- IH. reflexivity.
  - clear - LC. rewrite removelast_firstn_len. f_equal. lia.
Qed.
(** Without coefficients and with one unknown symbol: it is left out when it is the last
    one, and the call fails when an element follows. *)
Theorem formula_unknown_symbol_refuted : forall before after,
  let plain := map (fun z => Piece (Some z) None) in
  stat_composition (plain before ++ Piece None None :: plain after)%list =
  match after with [] => Ok (before, repeat 1%R (List.length before)) | _ => Err AssertionError end.
Proof.
  intros before after plain. unfold stat_composition.
  set (coefs := somes _). clearbody coefs.
  assert (S1 : forall ps st, scan_loop coefs (plain ps) st = Ok (fold_left (fun st z => start_symbol (Piece (Some z) None) st) ps st)).
  { induction ps as [|z t IH]; intros st; cbn [plain map scan_loop fold_left]; [auto|]. unfold read_coef. cbn [coef bind]. apply IH. }
  assert (S2 : forall ps st rest, scan_loop coefs (plain ps ++ rest)%list st =
     scan_loop coefs rest (fold_left (fun st z => start_symbol (Piece (Some z) None) st) ps st)).
  { induction ps as [|z t IH]; intros st rest; cbn [plain map scan_loop fold_left List.app]; [auto|]. unfold read_coef. cbn [coef bind]. apply IH. }
  rewrite S2. cbn [scan_loop]. unfold read_coef at 1. cbn [coef bind]. rewrite S1. cbn [bind].
  assert (RS : forall n, (repeat 1%R n ++ [1%R])%list = repeat 1%R (S n)) by (intros n; change [1%R] with (repeat 1%R 1); rewrite <- repeat_app; f_equal; lia).
  assert (RL : forall n, removelast (repeat 1%R (S n)) = repeat 1%R n).
  { intros n. rewrite <- RS. apply removelast_last. }
  (* the unknown symbol *)
  assert (HU : start_symbol (Piece None None) (fold_left (fun st z => start_symbol (Piece (Some z) None) st) before (Scan [] [] (-1) (-1) None)) =
     Scan before (repeat 1%R (List.length before)) (Z.of_nat (List.length before) - 1) (Z.of_nat (List.length before)) None).
  { destruct before as [|b t]; [reflexivity|]. cbn [fold_left].
    assert (HK : forall t nums z, fold_left (fun st z => start_symbol (Piece (Some z) None) st) t
        (Scan nums (repeat 1%R (List.length nums)) (Z.of_nat (List.length nums) - 1) (Z.of_nat (List.length nums)) (Some z)) =
      let l := (nums ++ removelast (z :: t))%list in
      Scan l (repeat 1%R (List.length l)) (Z.of_nat (List.length l) - 1) (Z.of_nat (List.length l)) (Some (last (z :: t) 0))).
    { induction t0 as [|y u IH]; intros nums z.
      - cbn [fold_left removelast last]. rewrite app_nil_r. reflexivity.
      - cbn [fold_left]. unfold start_symbol at 2. cbn [n_symbol current s_numbers s_weights n_float sym].
        destruct (Z.leb_spec 0 (Z.of_nat (List.length nums))); [|lia]. unfold fill. cbn [n_symbol current s_numbers s_weights n_float].
        destruct (Z.ltb_spec (Z.of_nat (List.length nums) - 1) (Z.of_nat (List.length nums))); [|lia].
        cbn [n_symbol current s_numbers s_weights n_float]. rewrite RS.
        specialize (IH (nums ++ [z])%list y). rewrite app_length in IH. cbn [List.length] in IH.
        replace (Z.of_nat (List.length nums) - 1 + 1)%Z with (Z.of_nat (List.length nums + 1) - 1)%Z by lia.
        replace (Z.of_nat (List.length nums) + 1)%Z with (Z.of_nat (List.length nums + 1))%Z by lia.
        replace (S (List.length nums)) with (List.length nums + 1)%nat by lia. rewrite IH.
        change (removelast (z :: y :: u)) with (z :: removelast (y :: u)). change (last (z :: y :: u) 0) with (last (y :: u) 0).
        replace ((nums ++ [z]) ++ removelast (y :: u))%list with (nums ++ z :: removelast (y :: u))%list by (rewrite <- app_assoc; reflexivity). reflexivity. }
    change (start_symbol (Piece (Some b) None) (Scan [] [] (-1) (-1) None)) with
      (Scan [] (repeat 1%R 0) (Z.of_nat 0 - 1) (Z.of_nat 0) (Some b)).
    rewrite (HK t [] b : fold_left _ t (Scan [] (repeat 1%R 0) (Z.of_nat 0 - 1) (Z.of_nat 0) (Some b)) = _). cbv zeta. rewrite app_nil_l.
    set (l := removelast (b :: t)). set (z := last (b :: t) 0).
    assert (EB : b :: t = (l ++ [z])%list) by (apply app_removelast_last; discriminate). rewrite EB. clearbody l z. clear.
    unfold start_symbol. cbn [n_symbol current s_numbers s_weights n_float sym].
    destruct (Z.leb_spec 0 (Z.of_nat (List.length l))); [|lia]. unfold fill. cbn [n_symbol current s_numbers s_weights n_float].
    destruct (Z.ltb_spec (Z.of_nat (List.length l) - 1) (Z.of_nat (List.length l))); [|lia].
    cbn [n_symbol current s_numbers s_weights n_float]. rewrite app_length. cbn [List.length].
    f_equal; try lia. change [1%R] with (repeat 1%R 1). rewrite <- repeat_app. reflexivity. }
  rewrite HU. destruct after as [|y u].
  - cbn [fold_left]. unfold fill. cbn [n_symbol current s_numbers s_weights n_float].
    destruct (Z.ltb_spec (Z.of_nat (List.length before) - 1) (Z.of_nat (List.length before))); [|lia].
    cbn [n_symbol current s_numbers s_weights n_float]. rewrite RS, RL, repeat_length, Nat.eqb_refl. reflexivity.
  - (* weights stay one short *)
    set (n0 := List.length before).
    assert (HS : forall u nums ws nf z, (Z.of_nat (List.length ws) = nf \/ nf + 1 = Z.of_nat (List.length nums) /\ S (List.length ws) = List.length nums)%Z ->
       (nf = Z.of_nat (List.length nums) /\ List.length ws = List.length nums \/ nf + 1 = Z.of_nat (List.length nums) /\ S (List.length ws) = List.length nums)%Z ->
       exists nums' ws' nf' z', fold_left (fun st z => start_symbol (Piece (Some z) None) st) u (Scan nums ws nf (Z.of_nat (List.length nums)) (Some z)) =
         Scan nums' ws' nf' (Z.of_nat (List.length nums')) (Some z') /\
       (nf' = Z.of_nat (List.length nums') /\ List.length ws' = List.length nums' \/ nf' + 1 = Z.of_nat (List.length nums') /\ S (List.length ws') = List.length nums')%Z).
    { clear. induction u as [|x t IH]; intros nums ws nf z _ HI; cbn [fold_left].
      - do 4 eexists. split; [reflexivity|exact HI].
      - unfold start_symbol at 2. cbn [n_symbol current s_numbers s_weights n_float sym].
        destruct (Z.leb_spec 0 (Z.of_nat (List.length nums))); [|lia]. unfold fill. cbn [n_symbol current s_numbers s_weights n_float].
        replace (Z.of_nat (List.length nums) + 1)%Z with (Z.of_nat (List.length (nums ++ [z])%list)) by (rewrite app_length; cbn [List.length]; lia).
        destruct (Z.ltb_spec nf (Z.of_nat (List.length nums))); cbn [n_symbol current s_numbers s_weights n_float].
        + replace (Z.of_nat (List.length nums) + 1)%Z with (Z.of_nat (List.length (nums ++ [z])%list)) by (rewrite app_length; cbn [List.length]; lia).
          apply IH; rewrite ?app_length; cbn [List.length]; lia.
        + replace (Z.of_nat (List.length nums) + 1)%Z with (Z.of_nat (List.length (nums ++ [z])%list)) by (rewrite app_length; cbn [List.length]; lia).
          apply IH; rewrite ?app_length; cbn [List.length]; lia. }
    assert (EY : start_symbol (Piece (Some y) None) (Scan before (repeat 1%R n0) (Z.of_nat n0 - 1) (Z.of_nat n0) None) =
       Scan before (repeat 1%R n0) (Z.of_nat n0) (Z.of_nat (List.length before)) (Some y)).
    { unfold start_symbol. cbn [n_symbol current s_numbers s_weights n_float sym].
      destruct (Z.leb_spec 0 (Z.of_nat n0)); [|lia]. unfold fill. cbn [n_symbol current s_numbers s_weights n_float].
      destruct (Z.ltb_spec (Z.of_nat n0 - 1) (Z.of_nat n0)); [|lia]. cbn [n_symbol current s_numbers s_weights n_float].
      rewrite RS, RL. fold n0. f_equal; lia. }
    cbn [fold_left]. rewrite EY.
    destruct (HS u before (repeat 1%R n0) (Z.of_nat n0) y) as (nums & ws & nf & z & -> & HI); [rewrite repeat_length; lia|rewrite repeat_length; unfold n0; lia|].
    unfold fill. cbn [n_symbol current s_numbers s_weights n_float].
    destruct (Z.ltb_spec nf (Z.of_nat (List.length nums))); cbn [n_symbol current s_numbers s_weights n_float];
      rewrite ?app_length; cbn [List.length].
    + destruct (Nat.eqb_spec (List.length ws + 1) (List.length nums + 1)); [lia|reflexivity].
    + destruct (Nat.eqb_spec (List.length ws) (List.length nums + 1)); [lia|reflexivity].
Qed.
Example formula_unknown_case :
  stat_composition [Piece (Some 26) None; Piece None None] = Ok ([26], [1%R]) /\
  stat_composition [Piece None None; Piece (Some 26) None] = Err AssertionError.
Proof. exact (conj (formula_unknown_symbol_refuted [26] []) (formula_unknown_symbol_refuted [] [26])). Qed.
Example formula_case : stat_composition [Piece (Some 26) (Some 2%R); Piece (Some 8) (Some 3%R)] = Ok ([26; 8], [3; 2]%R).
Proof. exact (formula_coefficients_refuted [(26, 2%R); (8, 3%R)] ltac:(discriminate)). Qed.

Print Assumptions reduce_spec.
Print Assumptions list_params_labels.
Print Assumptions list_params_empty.
Print Assumptions list_params_succeeds.
Print Assumptions list_params_order_refuted.
Print Assumptions property_features.
Print Assumptions property_features_order.
Print Assumptions property_features_empty.
Print Assumptions surf_ligands_counts.
Print Assumptions slab_names_distinct.
Print Assumptions default_params_last.
Print Assumptions bulk_names_refuted.
Print Assumptions bulk_names_partial.
Print Assumptions get_radius_first.
Print Assumptions default_radius_value.
Print Assumptions default_radius_light.
Print Assumptions formula_unknown_symbol_refuted.
Print Assumptions n_outer_counts_partial.
Print Assumptions n_outer_first_period_refuted.
Print Assumptions formula_without_coefficients_partial.
Print Assumptions formula_one_coefficient_partial.
Print Assumptions formula_coefficients_refuted.
