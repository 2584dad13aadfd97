(** Properties of the prototype and Voronoi fingerprints. *)
From Coq Require Import NArith String Ascii List Arith Bool Lia Permutation DecimalString DecimalNat.
From Verif Require Import Base BaseFacts MagpieModel.
Import ListNotations.
Local Open Scope string_scope.
Local Open Scope nat_scope.

(** ** Formulas *)
Lemma remove_ones_app a b : remove_ones (a ++ b) = remove_ones a ++ remove_ones b.
Proof. induction a as [|c a IH]; cbn; [auto|]. destruct (Ascii.eqb c "1"); cbn; congruence. Qed.

(** Text without the digit 1. *)
Definition no_one (s : string) : Prop := remove_ones s = s.

(** A site given by its element and its multiplicity; a multiplicity of 1 is not written. *)
Definition site_text (element count : string) : string := element ++ (if String.eqb count "1" then "" else count).

Lemma site_names_app s at_ l r : site_names s at_ l = Ok r ->
  forall (el : string -> string) (ct : string -> string),
  (forall si, In si l -> lookup si at_ = Some (VStr (el si)) /\ exists t, lookup si (site_dict s) = Some (ct si :: t)) ->
  (forall si, In si l -> no_one (el si) /\ (ct si = "1" \/ no_one (ct si))) ->
  remove_ones r = fold_right append "" (map (fun si => site_text (el si) (ct si)) l).
Proof.
  revert r. induction l as [|si l IH]; intros r H el ct H1 H2; cbn [site_names] in H; [injection H as <-; auto|].
  destruct (H1 si (or_introl eq_refl)) as (Q1 & t & Q2). rewrite Q1, Q2 in H. destruct (site_names s at_ l) as [r0|] eqn:E; [|discriminate]. cbn in H. injection H as <-.
  cbn [map fold_right]. rewrite !remove_ones_app, (IH r0 eq_refl el ct) by (intros; apply H1 || apply H2; right; auto).
  f_equal. destruct (H2 si (or_introl eq_refl)) as [N1 N2]. rewrite N1. unfold site_text. f_equal.
  destruct (String.eqb_spec (ct si) "1") as [->|N]; [reflexivity|]. destruct N2; [contradiction|auto].
Qed.

(** The formula lists the element and the multiplicity of every site, for multiplicities
    (other than 1 itself) without the digit 1. *)
Theorem proto_formula_partial : forall s at_ (el ct : string -> string),
  (forall si, In si (site_list s) -> lookup si at_ = Some (VStr (el si)) /\ exists t, lookup si (site_dict s) = Some (ct si :: t)) ->
  (forall si, In si (site_list s) -> no_one (el si) /\ (ct si = "1" \/ no_one (ct si))) ->
  site_formula s at_ = Ok (fold_right append "" (map (fun si => site_text (el si) (ct si)) (site_list s))).
Proof.
  intros s at_ el ct H1 H2. unfold site_formula.
  assert (E : exists r, site_names s at_ (site_list s) = Ok r).
  { clear H2. induction (site_list s) as [|si l IH]; cbn; [eauto|]. destruct (H1 si (or_introl eq_refl)) as (-> & t & ->).
    destruct IH as [r ->]; [intros; apply H1; right; auto|]. cbn. eauto. }
  destruct E as [r E]. rewrite E. cbn. f_equal. eapply site_names_app; eauto.
Qed.

(** Site B with multiplicity 12 is written like one with multiplicity 2, one with 10 like 0. *)
Theorem proto_formula_refuted : exists at_,
  site_formula (Sites [("A", ["1"]); ("B", ["12"])] ["A"; "B"] "") at_ = Ok "CaO2" /\
  site_formula (Sites [("A", ["1"]); ("B", ["2"])] ["A"; "B"] "") at_ = Ok "CaO2" /\
  site_formula (Sites [("A", ["10"])] ["A"] "") at_ = Ok "Ca0".
Proof. exists [("A", VStr "Ca"); ("B", VStr "O")]. repeat split; reflexivity. Qed.

(** A formula is refused exactly when a site has no element or no multiplicity. *)
Theorem proto_formula_refused : forall s at_, (exists f, site_formula s at_ = Ok f) <->
  forall si, In si (site_list s) -> (exists x, lookup si at_ = Some (VStr x)) /\ (exists c t, lookup si (site_dict s) = Some (c :: t)).
Proof.
  intros s at_. unfold site_formula. assert (E : (exists f, site_names s at_ (site_list s) = Ok f) <->
    forall si, In si (site_list s) -> (exists x, lookup si at_ = Some (VStr x)) /\ (exists c t, lookup si (site_dict s) = Some (c :: t))).
  { induction (site_list s) as [|si l IH]; cbn [site_names]; [split; [intros _ si []|eauto]|]. split.
    - intros [f H]. destruct (lookup si at_) as [v|] eqn:E1; [|discriminate]. destruct (lookup si (site_dict s)) as [[|c t]|] eqn:E2; try discriminate.
      destruct v as [x| |]; try discriminate. destruct (site_names s at_ l) as [r|] eqn:E3; [|discriminate].
      intros si' [<-|Hin]; [eauto|]. apply IH; eauto.
    - intros H. destruct (H si (or_introl eq_refl)) as [[x ->] (c & t & ->)]. destruct (proj2 IH) as [r ->]; [intros; apply H; right; auto|]. eexists. reflexivity. }
  rewrite <- E. destruct (site_names s at_ (site_list s)) as [r|]; cbn; split; intros [f H]; eauto; discriminate.
Qed.

(** The sites are described in alphabetic order. *)
Fixpoint alphabetic (l : list string) : Prop :=
  match l with [] => True | x :: t => Forall (fun y => String.leb x y = true) t /\ alphabetic t end.

Lemma string_le_leb a : forall b, string_le a b = String.leb a b.
Proof.
  unfold String.leb. induction a as [|x a IH]; intros [|y b]; auto. cbn [string_le String.compare]. unfold Ascii.compare.
  rewrite IH. unfold nat_of_ascii. destruct (N.compare_spec (N_of_ascii x) (N_of_ascii y)) as [H|H|H].
  - rewrite H, Nat.ltb_irrefl, Nat.eqb_refl. auto.
  - replace (N.to_nat (N_of_ascii x) <? N.to_nat (N_of_ascii y)) with true by (symmetry; apply Nat.ltb_lt; lia). auto.
  - replace (N.to_nat (N_of_ascii x) <? N.to_nat (N_of_ascii y)) with false by (symmetry; apply Nat.ltb_ge; lia).
    replace (N.to_nat (N_of_ascii x) =? N.to_nat (N_of_ascii y)) with false by (symmetry; apply Nat.eqb_neq; lia). auto.
Qed.

Lemma string_le_total : total_preorder string_le.
Proof.
  split.
  - induction x as [|x a IH]; intros [|y b]; cbn [string_le]; auto. destruct (Nat.ltb_spec (nat_of_ascii x) (nat_of_ascii y)); cbn [orb]; [auto|].
    destruct (Nat.ltb_spec (nat_of_ascii y) (nat_of_ascii x)); cbn [orb]; [auto|].
    assert (E : nat_of_ascii x = nat_of_ascii y) by lia. rewrite E, Nat.eqb_refl. cbn [orb andb]. apply IH.
  - induction x as [|x a IH]; intros [|y b] [|z d]; cbn [string_le]; auto; try discriminate.
    destruct (Nat.ltb_spec (nat_of_ascii x) (nat_of_ascii y)), (Nat.ltb_spec (nat_of_ascii y) (nat_of_ascii z)), (Nat.ltb_spec (nat_of_ascii x) (nat_of_ascii z));
    destruct (Nat.eqb_spec (nat_of_ascii x) (nat_of_ascii y)), (Nat.eqb_spec (nat_of_ascii y) (nat_of_ascii z)), (Nat.eqb_spec (nat_of_ascii x) (nat_of_ascii z)); cbn [orb andb]; auto; try lia; try discriminate; eauto.
Qed.

(** Python 2: every site once, in alphabetic order, each described by its values. *)
Theorem proto_sites_partial : forall d, exists s, prototype_sites false (Some d) = Ok s /\
  Permutation (site_list s) (map fst d) /\ alphabetic (site_list s) /\ site_dict s = d /\
  site_str s = String.concat (String "010" "") (map (fun si => String.concat " " (match lookup si d with Some t => t | None => [] end)) (site_list s)).
Proof.
  intros d. eexists. split; [reflexivity|]. cbn [site_list site_dict site_str]. split; [apply isort_perm|]. split; [|auto].
  pose proof (isort_sorted string_le_total (map fst d)) as H. induction H as [|x l _ IH F]; cbn; [auto|]. split; [|auto].
  eapply Forall_impl; [|exact F]. intros y Hy. rewrite <- string_le_leb. exact Hy.
Qed.

(** Python 3 cannot create the description of the sites. *)
Theorem proto_sites_refuted : forall d, prototype_sites true d = Err AttributeError.
Proof. reflexivity. Qed.

(** ** Table *)
Lemma mapM_ok {A B} (f : A -> result B) l r : mapM f l = Ok r -> length r = length l /\ forall i d e, i < length l -> f (nth i l d) = Ok (nth i r e).
Proof.
  revert r. induction l as [|x t IH]; intros r H; cbn in H; [injection H as <-; split; [auto|cbn; lia]|].
  destruct (f x) as [y|] eqn:E; [|discriminate]. cbn in H. destruct (mapM f t) as [r0|]; [|discriminate]. cbn in H. injection H as <-.
  destruct (IH r0 eq_refl) as [L N]. split; [cbn; lia|]. intros [|i] d e Hi; cbn in *; [auto|]. apply N. lia.
Qed.

Lemma filter_eqb_once p l : NoDup l -> In p l -> filter (String.eqb p) l = [p].
Proof.
  induction l as [|x t IH]; intros ND Hp; [destruct Hp|]. apply NoDup_cons_iff in ND. destruct ND as [N ND]. cbn.
  destruct (String.eqb_spec p x) as [->|D].
  - f_equal. clear - N. induction t as [|y t IH]; cbn; [auto|]. destruct (String.eqb_spec x y) as [->|]; [exfalso; apply N; left; auto|]. apply IH. intros H. apply N. right. auto.
  - apply IH; auto. destruct Hp; congruence.
Qed.

(** The value of an attribute, None where a structure lacks it. *)
Definition attribute (p : string) (at_ : object) : value := match lookup p at_ with Some v => v | None => VNone end.

Lemma property_column_once props p ats : NoDup props -> In p props -> property_column props p ats = map (attribute p) ats.
Proof. intros ND Hp. unfold property_column. rewrite filter_eqb_once by auto. cbn. induction ats as [|a t IH]; cbn; [auto|]. rewrite IH. auto. Qed.

Lemma mem_In x l : mem x l = true <-> In x l.
Proof. induction l as [|y t IH]; cbn; [intuition discriminate|]. rewrite orb_true_iff, IH, String.eqb_eq. intuition. Qed.

(** The table has a row for every structure, in their order: formula, position in the list and
    the properties; it is refused exactly when a site is no listed property or a formula
    cannot be written. *)
Theorem proto_rows : forall s props ats, NoDup ("formula" :: "id" :: props) ->
  (forall t, proto_table s props ats = Ok t ->
     map fst t = "formula" :: "id" :: props /\ Forall (fun c => length (snd c) = length ats) t /\
     forall i, i < length ats -> exists f, site_formula s (nth i ats []) = Ok f /\
       table_row t i = VStr f :: VNum i :: map (fun p => attribute p (nth i ats [])) props) /\
  ((exists t, proto_table s props ats = Ok t) <->
     (forall si, In si (site_list s) -> In si props) /\ (forall at_, In at_ ats -> exists f, site_formula s at_ = Ok f)).
Proof.
  intros s props ats ND. apply NoDup_cons_iff in ND. destruct ND as [N1 ND]. apply NoDup_cons_iff in ND. destruct ND as [N2 ND].
  assert (NP : ~ In "formula" props) by (intros H; apply N1; right; auto).
  assert (COL : forall fml p, In p props -> column_of props fml ats p = map (attribute p) ats).
  { intros fml p Hp. unfold column_of. destruct (String.eqb_spec p "formula") as [->|]; [contradiction|].
    destruct (String.eqb_spec p "id") as [->|]; [contradiction|]. apply property_column_once; auto. }
  assert (LEN : forall fml, length fml = length ats -> forallb (fun c => length (snd c) =? length ats) (map (fun p => (p, column_of props fml ats p)) ("formula" :: "id" :: props)) = true).
  { intros fml L. apply forallb_forall. intros c Hc. apply in_map_iff in Hc. destruct Hc as (p & <- & Hp). cbn [snd]. apply Nat.eqb_eq.
    destruct Hp as [<-|[<-|Hp]]; [cbn; rewrite map_length; auto|cbn; rewrite map_length, seq_length; auto|]. rewrite COL by auto. apply map_length. }
  unfold proto_table. split.
  - intros t H. destruct (forallb _ (site_list s)) eqn:C; [|discriminate]. destruct (mapM (site_formula s) ats) as [fml|] eqn:M; [|discriminate]. cbn [bind] in H.
    destruct (mapM_ok _ _ _ M) as [L Q]. rewrite LEN in H by auto. injection H as <-. split; [|split].
    + cbn [map fst]. do 2 f_equal. rewrite map_map. cbn [fst]. apply map_id.
    + specialize (LEN fml L). rewrite forallb_forall in LEN. apply Forall_forall. intros c Hc. apply Nat.eqb_eq. auto.
    + intros i Hi. exists (nth i fml ""). split; [apply Q; auto|]. unfold table_row. cbn [map snd]. rewrite map_map. cbn [snd]. f_equal; [|f_equal].
      * cbn. rewrite (nth_map_lt _ _ _ "") by lia. auto.
      * cbn. rewrite (nth_map_lt _ _ _ 0) by (rewrite seq_length; lia). rewrite seq_nth by lia. auto.
      * apply map_ext_in. intros p Hp. rewrite COL by auto. apply nth_map_lt. auto.
  - split.
    + intros [t H]. destruct (forallb _ (site_list s)) eqn:C; [|discriminate]. destruct (mapM (site_formula s) ats) as [fml|] eqn:M; [|discriminate].
      rewrite forallb_forall in C. split; [intros si Hs; apply mem_In, C; auto|]. intros a Ha. apply (In_nth _ _ []) in Ha. destruct Ha as (i & Hi & <-).
      destruct (mapM_ok _ _ _ M) as [L Q]. exists (nth i fml ""). apply Q. auto.
    + intros [HS HF]. assert (C : forallb (fun si => mem si props) (site_list s) = true) by (apply forallb_forall; intros; apply mem_In, HS; auto). rewrite C.
      assert (M : exists fml, mapM (site_formula s) ats = Ok fml).
      { clear - HF. induction ats as [|a t IH]; cbn; [eauto|]. destruct (HF a (or_introl eq_refl)) as [f ->]. destruct IH as [r ->]; [intros; apply HF; right; auto|]. cbn. eauto. }
      destruct M as [fml M]. destruct (mapM_ok _ _ _ M) as [L _]. rewrite M. cbn [bind]. rewrite LEN by auto. eauto.
Qed.

(** A property listed twice is refused for any structures. *)
Theorem proto_repeated : forall s props ats p, ats <> [] -> In p props -> p <> "formula" -> p <> "id" -> 2 <= length (filter (String.eqb p) props) ->
  forall t, proto_table s props ats <> Ok t.
Proof.
  intros s props ats p HA Hp NF NI H2 t H. unfold proto_table in H. destruct (forallb _ (site_list s)); [|discriminate]. destruct (mapM _ ats) as [fml|]; [|discriminate]. cbn [bind] in H.
  destruct (forallb _ (map _ _)) eqn:C in H; [|discriminate]. rewrite forallb_forall in C.
  specialize (C (p, column_of props fml ats p)). rewrite Nat.eqb_eq in C. cbn [snd] in C.
  assert (C' : length (column_of props fml ats p) = length ats) by (apply C, in_map_iff; exists p; split; [auto|right; right; auto]).
  unfold column_of in C'. apply String.eqb_neq in NF, NI. rewrite NF, NI in C'. unfold property_column in C'.
  destruct ats as [|a ats]; [contradiction|]. clear C HA. remember (length (filter (String.eqb p) props)) as n eqn:En. clear - C' H2.
  assert (L : forall l : list object, length (flat_map (fun at_ => repeat (match lookup p at_ with Some v => v | None => VNone end) n) l) = n * length l).
  { induction l as [|x l IH]; cbn [flat_map length]; [lia|]. rewrite app_length, repeat_length, IH. lia. }
  rewrite L in C'. cbn [length] in C'. nia.
Qed.

(** ** Merging *)
Section Merge.
Variable F : Type.

Lemma filter_perm {A} (f : A -> bool) l1 l2 : Permutation l1 l2 -> Permutation (filter f l1) (filter f l2).
Proof. induction 1; cbn; auto; [destruct (f x); auto|destruct (f x), (f y); auto; apply perm_swap|]. eapply perm_trans; eauto. Qed.

Lemma filter_id (fp : nat -> F) n m i : m <= i < m + n -> filter (fun b => fst b =? i) (map (fun i => (i, fp i)) (seq m n)) = [(i, fp i)].
Proof.
  revert m. induction n as [|n IH]; intros m H; [lia|]. cbn [seq map filter fst]. destruct (Nat.eqb_spec m i) as [->|N].
  - f_equal. assert (Z : forall k, i < k -> filter (fun b : nat * F => fst b =? i) (map (fun i => (i, fp i)) (seq k n)) = []).
    { clear. induction n as [|n IH]; intros k Hk; cbn; [auto|]. destruct (Nat.eqb_spec k i); [lia|]. apply IH. lia. }
    apply Z. lia.
  - apply IH. lia.
Qed.

Lemma merge_complete {A} (g : nat -> A) (fp : nat -> F) n out : Permutation out (map (fun i => (i, fp i)) (seq 0 n)) ->
  merge F (map (fun i => (i, g i)) (seq 0 n)) out = map (fun i => (i, g i, fp i)) (seq 0 n).
Proof.
  intros P. unfold merge. assert (H : forall i, In i (seq 0 n) -> filter (fun b => fst b =? i) out = [(i, fp i)]).
  { intros i Hi. apply in_seq in Hi. pose proof (filter_perm (fun b => fst b =? i) _ _ P) as Q. rewrite filter_id in Q by lia.
    symmetry in Q. apply Permutation_length_1_inv in Q. auto. }
  clear P. induction (seq 0 n) as [|i l IH]; [auto|]. cbn [map flat_map fst snd]. rewrite (H i) by (left; auto). cbn [map app snd]. f_equal. apply IH. intros. apply H. right. auto.
Qed.

Lemma merge_rows {A} (g : nat -> A) n out i x f : In (i, x, f) (merge F (map (fun i => (i, g i)) (seq 0 n)) out) <-> i < n /\ x = g i /\ In (i, f) out.
Proof.
  unfold merge. rewrite in_flat_map. split.
  - intros ([j y] & Hj & H). apply in_map_iff in Hj. destruct Hj as (k & E & Hk). injection E as <- <-. apply in_seq in Hk.
    apply in_map_iff in H. destruct H as ([p q] & E & H). apply filter_In in H. destruct H as [H E']. cbn in *. apply Nat.eqb_eq in E'. subst p. injection E as <- <- <-.
    split; [lia|auto].
  - intros (Hi & -> & H). exists (i, g i). split; [apply in_map_iff; exists i; split; [auto|apply in_seq; lia]|].
    apply in_map_iff. exists (i, f). split; [auto|]. apply filter_In. split; [auto|]. apply Nat.eqb_refl.
Qed.

Variable magpie : list (string * content F) -> list (string * content F).

(** The rows returned by generate_all: fingerprints go to their own structures in whatever
    order Magpie writes them. *)
Theorem proto_fingerprints : forall s input props ats keep old t (fp : nat -> F) out,
  proto_table s props ats = Ok t ->
  lookup "proto_FP.csv" (magpie (write_proto F s input t None)) = Some (Rows out) ->
  (Permutation out (map (fun i => (i, fp i)) (seq 0 (length ats))) ->
     generate_all F magpie s input props ats keep old = Ok (map (fun i => (i, table_row t i, fp i)) (seq 0 (length ats)))) /\
  (exists rows, generate_all F magpie s input props ats keep old = Ok rows /\
     forall i x f, In (i, x, f) rows <-> i < length ats /\ x = table_row t i /\ In (i, f) out).
Proof.
  intros s input props ats keep old t fp out HT HO. unfold generate_all, generate_proto. rewrite HT.
  assert (E : write_proto F s input t old = write_proto F s input t None) by (destruct old; reflexivity). cbv zeta. rewrite E. unfold read. rewrite HO. cbn [fst bind].
  split; [intros P; f_equal; apply merge_complete; auto|]. eexists. split; [reflexivity|]. intros. apply merge_rows.
Qed.

(** Nothing left over from an earlier run is used, and nothing is left after a successful run
    that deletes its files. *)
Theorem magpie_stale : forall s input props ats fml keep old,
  generate_proto F magpie s input props ats keep old = generate_proto F magpie s input props ats keep None /\
  generate_voro F magpie fml input keep old = generate_voro F magpie fml input keep None /\
  (forall r, fst (generate_proto F magpie s input props ats true old) = Ok r -> snd (generate_proto F magpie s input props ats true old) = None) /\
  (forall r, fst (generate_voro F magpie fml input true old) = Ok r -> snd (generate_voro F magpie fml input true old) = None).
Proof.
  intros s input props ats fml keep old. repeat split.
  - destruct old; reflexivity.
  - destruct old; reflexivity.
  - unfold generate_proto. destruct (proto_table s props ats); [|discriminate]. cbv zeta. destruct (read _ _ _); [auto|discriminate].
  - unfold generate_voro. cbv zeta. destruct (read _ _ _); [auto|discriminate].
Qed.

(** A result file left by an earlier run is not taken for the result of a failed one. *)
Theorem magpie_failed : forall s input props ats fml keep old,
  (forall d, lookup "proto_FP.csv" d = None -> lookup "proto_FP.csv" (magpie d) = None) ->
  (forall d, lookup "voro_FP.csv" d = None -> lookup "voro_FP.csv" (magpie d) = None) ->
  (forall r, fst (generate_proto F magpie s input props ats keep old) <> Ok r) /\
  (forall r, fst (generate_voro F magpie fml input keep old) <> Ok r).
Proof.
  intros s input props ats fml keep old H1 H2. split; intros r.
  - unfold generate_proto. destruct (proto_table s props ats) as [t|]; [|discriminate]. cbv zeta. unfold read. rewrite H1; [discriminate|]. destruct old; reflexivity.
  - unfold generate_voro. cbv zeta. unfold read. rewrite H2; [discriminate|]. unfold write_voro.
    assert (Q : forall l d, lookup "voro_FP.csv" d = None ->
      lookup "voro_FP.csv" (fold_left (fun d p => put F ("cif/" ++ voro_name (fst p) (snd p)) (Poscar (fst p)) d) l d) = None).
    { assert (P : forall (d : list (string * content F)) f, lookup "voro_FP.csv" d = None -> lookup "voro_FP.csv" (filter f d) = None).
      { induction d as [|[n c] d IH]; intros f H; cbn [filter lookup] in *; [auto|]. destruct (String.eqb_spec "voro_FP.csv" n) as [E|N]; [discriminate|].
        destruct (f (n, c)); cbn [lookup]; [|auto]. destruct (String.eqb_spec "voro_FP.csv" n); [contradiction|auto]. }
      induction l as [|[i fm] l IH]; intros d H; cbn [fold_left]; [auto|]. apply IH. unfold put. cbn [lookup fst snd append String.eqb Ascii.eqb Bool.eqb]. apply P. auto. }
    assert (R : lookup "voro_FP.csv" (fold_left (fun d p => put F ("cif/" ++ voro_name (fst p) (snd p)) (Poscar (fst p)) d) (combine (seq 0 (length fml)) fml) (fresh F old)) = None) by (apply Q; destruct old; reflexivity).
    revert R. generalize (fold_left (fun d p => put F ("cif/" ++ voro_name (fst p) (snd p)) (Poscar (fst p)) d) (combine (seq 0 (length fml)) fml) (fresh F old)).
    intros d R. assert (P : forall (d : list (string * content F)) f, lookup "voro_FP.csv" d = None -> lookup "voro_FP.csv" (filter f d) = None).
    { clear. induction d as [|[n c] d IH]; intros f H; cbn [filter lookup] in *; [auto|]. destruct (String.eqb_spec "voro_FP.csv" n) as [E|N]; [discriminate|].
      destruct (f (n, c)); cbn [lookup]; [|auto]. destruct (String.eqb_spec "voro_FP.csv" n); [contradiction|auto]. }
    unfold put. cbn. auto.
Qed.

(** ** Voronoi *)
Lemma str_digits i : forall c, In c (list_ascii_of_string (str i)) -> c <> "-"%char.
Proof.
  unfold str. assert (H : forall d c, In c (list_ascii_of_string (NilEmpty.string_of_uint d)) -> c <> "-"%char).
  { induction d; cbn; [tauto|..]; (intros c [<-|Hc]; [discriminate|auto]). }
  intros c. unfold NilZero.string_of_uint. destruct (Nat.to_uint i); try apply H. cbn. intros [<-|[]]. discriminate.
Qed.

Lemma split_dash a b x y : (forall c, In c (list_ascii_of_string a) -> c <> "-"%char) -> (forall c, In c (list_ascii_of_string b) -> c <> "-"%char) ->
  a ++ "-" ++ x = b ++ "-" ++ y -> a = b.
Proof.
  revert b. induction a as [|c a IH]; intros [|d b] Ha Hb H; cbn in *; [auto| | |].
  - injection H as H1 H2. exfalso. apply (Hb d); auto.
  - injection H as H1 H2. exfalso. apply (Ha c); auto.
  - injection H as -> H. f_equal. apply IH; auto.
Qed.

Lemma str_inj i j : str i = str j -> i = j.
Proof.
  assert (N : forall i, Nat.to_uint i <> Decimal.Nil).
  { intros k H. pose proof (DecimalNat.Unsigned.of_to k) as E. rewrite H in E. cbn in E. subst k. discriminate. }
  unfold str. intros H. apply (f_equal NilZero.uint_of_string) in H. rewrite !NilZero.usu in H by auto.
  injection H as H. apply DecimalNat.Unsigned.to_uint_inj. auto.
Qed.

Lemma voro_name_inj i j f g : voro_name i f = voro_name j g -> i = j.
Proof. unfold voro_name. intros H. apply split_dash in H; [apply str_inj; auto|apply str_digits|apply str_digits]. Qed.

Lemma lookup_filter_other {A} (n m : string) (d : list (string * A)) : n <> m -> lookup n (filter (fun f => negb (String.eqb m (fst f))) d) = lookup n d.
Proof.
  intros N. induction d as [|[k c] d IH]; cbn [filter lookup fst]; [auto|]. destruct (String.eqb_spec m k) as [->|D]; cbn [negb lookup].
  - destruct (String.eqb_spec n k); [contradiction|auto].
  - rewrite IH. auto.
Qed.

Lemma files_written (l : list (string * content F)) : forall d n, NoDup (map fst l) ->
  lookup n (fold_left (fun d p => put F (fst p) (snd p) d) l d) = match lookup n l with Some c => Some c | None => lookup n d end.
Proof.
  induction l as [|[m c] l IH]; intros d n ND; [auto|]. cbn [map fst] in ND. apply NoDup_cons_iff in ND. destruct ND as [N ND].
  cbn [fold_left fst snd]. rewrite IH by auto. cbn [lookup]. destruct (String.eqb_spec n m) as [->|D].
  - assert (E : lookup m l = None).
    { clear - N. induction l as [|[k v] l IH]; cbn in *; [auto|]. destruct (String.eqb_spec m k) as [->|]; [exfalso; auto|]. apply IH. auto. }
    rewrite E. unfold put. cbn [lookup]. rewrite String.eqb_refl. auto.
  - destruct (lookup n l); [auto|]. unfold put. cbn [lookup]. destruct (String.eqb_spec n m); [contradiction|]. apply lookup_filter_other. auto.
Qed.

Lemma lookup_In {A} (l : list (string * A)) n v : NoDup (map fst l) -> In (n, v) l -> lookup n l = Some v.
Proof.
  induction l as [|[m w] l IH]; cbn; [tauto|]. intros ND H. apply NoDup_cons_iff in ND. destruct ND as [N ND]. destruct (String.eqb_spec n m) as [->|D].
  - destruct H as [H|H]; [congruence|]. exfalso. apply N, in_map_iff. exists (m, v). auto.
  - apply IH; auto. destruct H; [congruence|auto].
Qed.

(** Every structure is written to a file of its own, listed in the table with its position. *)
Theorem voro_files : forall fml input old,
  NoDup (voro_names fml) /\
  lookup "cif/properties.txt" (write_voro F fml input old) = Some (Table (voro_table fml)) /\
  forall i, i < length fml ->
    lookup ("cif/" ++ nth i (voro_names fml) "") (write_voro F fml input old) = Some (Poscar i) /\
    table_row (voro_table fml) i = [VStr (nth i (voro_names fml) ""); VNum i; VStr (nth i fml "")].
Proof.
  intros fml input old.
  assert (LN : length (voro_names fml) = length fml) by (unfold voro_names; rewrite map_length, combine_length, seq_length; lia).
  assert (NTH : forall i, i < length fml -> nth i (voro_names fml) "" = voro_name i (nth i fml "")).
  { intros i Hi. unfold voro_names. rewrite (nth_map_lt _ _ _ (0, "")) by (rewrite combine_length, seq_length; lia).
    rewrite combine_nth by (rewrite seq_length; auto). cbn [fst snd]. rewrite seq_nth by auto. auto. }
  assert (ND : NoDup (voro_names fml)).
  { rewrite (NoDup_nth _ ""). rewrite LN. intros i j Hi Hj E. rewrite !NTH in E by auto. apply voro_name_inj in E. auto. }
  split; [auto|]. split; [unfold write_voro, put; cbn; reflexivity|]. intros i Hi. split.
  - rewrite NTH by auto. unfold write_voro.
    assert (NM : "cif/" ++ voro_name i (nth i fml "") <> "cif/properties.txt").
    { intros H. cbn in H. injection H as H. revert H. unfold voro_name. pose proof (str_digits i) as D0. destruct (str i) as [|c t] eqn:E; [discriminate|]. cbn. intros H. injection H as -> _.
      assert (D : forall d, match NilEmpty.string_of_uint d with String c _ => c <> "p"%char | _ => True end) by (intros []; cbn; auto; discriminate).
      unfold str, NilZero.string_of_uint in E. specialize (D (Nat.to_uint i)). destruct (Nat.to_uint i); rewrite ?E in D; try congruence. }
    assert (NI : "cif/" ++ voro_name i (nth i fml "") <> "voro_FP.in") by (intros H; cbn in H; discriminate).
    set (l := map (fun p => ("cif/" ++ voro_name (fst p) (snd p), Poscar (F := F) (fst p))) (combine (seq 0 (length fml)) fml)).
    replace (fold_left (fun d p => put F ("cif/" ++ voro_name (fst p) (snd p)) (Poscar (fst p)) d) (combine (seq 0 (length fml)) fml) (fresh F old))
      with (fold_left (fun d p => put F (fst p) (snd p) d) l (fresh F old)).
    2:{ unfold l. generalize (combine (seq 0 (length fml)) fml) (fresh F old). intros q. induction q as [|x q IH]; intros d; cbn [map fold_left fst snd]; auto. }
    assert (NL : NoDup (map fst l)).
    { unfold l. rewrite map_map. cbn [fst]. rewrite <- (map_map (fun p => voro_name (fst p) (snd p)) (fun n => "cif/" ++ n)). apply FinFun.Injective_map_NoDup; [|exact ND].
      intros x y H. cbn in H. congruence. }
    assert (IL : In ("cif/" ++ voro_name i (nth i fml ""), Poscar i) l).
    { unfold l. apply in_map_iff. exists (i, nth i fml ""). split; [auto|]. assert (E : (i, nth i fml "") = nth i (combine (seq 0 (length fml)) fml) (0, "")).
      { rewrite combine_nth by (apply seq_length). rewrite seq_nth by auto. auto. }
      rewrite E. apply nth_In. rewrite combine_length, seq_length. lia. }
    unfold put at 1. cbn [lookup]. apply String.eqb_neq in NI. rewrite NI. apply String.eqb_neq in NI. rewrite lookup_filter_other by auto.
    unfold put at 1. cbn [lookup]. apply String.eqb_neq in NM. rewrite NM. apply String.eqb_neq in NM. rewrite lookup_filter_other by auto.
    rewrite files_written by auto. rewrite (lookup_In l _ (Poscar i)) by auto. auto.
  - unfold table_row, voro_table. cbn [map snd]. rewrite (nth_map_lt _ _ _ ""), (nth_map_lt _ _ _ 0), (nth_map_lt _ _ _ "") by (rewrite ?seq_length; lia). rewrite seq_nth by auto. auto.
Qed.

(** When Magpie returns a row for every structure, row i of the result is that of structure i. *)
Theorem voro_fingerprints_partial : forall fml input keep old (fp : nat -> F) out,
  lookup "voro_FP.csv" (magpie (write_voro F fml input None)) = Some (Rows out) ->
  Permutation out (map (fun i => (i, fp i)) (seq 0 (length fml))) ->
  fst (generate_voro F magpie fml input keep old) = Ok (map fp (seq 0 (length fml))).
Proof.
  intros fml input keep old fp out HO P. assert (E : write_voro F fml input old = write_voro F fml input None) by (destruct old; reflexivity).
  unfold generate_voro. cbv zeta. rewrite E. unfold read. rewrite HO. cbn [fst]. rewrite (merge_complete (fun i => nth i fml "") fp) by auto. rewrite map_map. reflexivity.
Qed.
End Merge.

(** A structure that Magpie skips shifts the fingerprints of the later ones, and the result does
    not say so. *)
Theorem voro_fingerprints_refuted : exists magpie : list (string * content string) -> list (string * content string),
  lookup "voro_FP.csv" (magpie (write_voro string ["Cu"; "Pt"] "" None)) = Some (Rows [(1, "Pt")]) /\
  fst (generate_voro string magpie ["Cu"; "Pt"] "" true None) = Ok ["Pt"].
Proof. exists (fun d => ("voro_FP.csv", Rows [(1, "Pt")]) :: d). split; reflexivity. Qed.

Example proto_example : exists t, proto_table (Sites [("A", ["1"]); ("B", ["1"]); ("C", ["3"; "-omit"])] ["A"; "B"; "C"] "")
  ["A"; "B"; "C"; "energy"] [[("A", VStr "Sr"); ("B", VStr "Ti"); ("C", VStr "O"); ("energy", VNum 5)]; [("A", VStr "K"); ("B", VStr "Ta"); ("C", VStr "O")]] = Ok t /\
  table_row t 0 = [VStr "SrTiO3"; VNum 0; VStr "Sr"; VStr "Ti"; VStr "O"; VNum 5] /\
  table_row t 1 = [VStr "KTaO3"; VNum 1; VStr "K"; VStr "Ta"; VStr "O"; VNone].
Proof. eexists. split; [reflexivity|]. split; reflexivity. Qed.

Example voro_example : fst (generate_voro string (fun d => ("voro_FP.csv", Rows [(1, "Pt"); (0, "Cu")]) :: d) ["Cu"; "Pt"] "" true None) = Ok ["Cu"; "Pt"].
Proof. reflexivity. Qed.

Print Assumptions proto_formula_partial.
Print Assumptions proto_formula_refuted.
Print Assumptions proto_sites_refuted.
Print Assumptions proto_rows.
Print Assumptions proto_repeated.
Print Assumptions proto_fingerprints.
Print Assumptions magpie_stale.
Print Assumptions magpie_failed.
Print Assumptions voro_files.
Print Assumptions voro_fingerprints_partial.
Print Assumptions voro_fingerprints_refuted.
Print Assumptions proto_formula_refused.
Print Assumptions proto_sites_partial.
