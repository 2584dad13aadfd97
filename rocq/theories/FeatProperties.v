(** Properties of the counting fingerprints and of FeatureGenerator. *)
From Coq Require Import ZArith String List Arith Bool Permutation Sorted Lia.
From Verif Require Import Base BaseFacts FeatModel.
Import ListNotations.

(** * Specification *)
(** The connectivity matrix of a structure is square and symmetric. *)
Definition well_formed (a : struct) : Prop :=
  length (conn a) = natoms a /\ forall row, In row (conn a) -> length row = natoms a.
Definition undirected (a : struct) : Prop :=
  forall i j, i < natoms a -> j < natoms a -> cm a i j = cm a j i.

(** The same structure with its atoms listed in another order: atom i of the new
    structure is atom p[i] of the old one. *)
Definition relabel (p : list nat) (a : struct) : struct :=
  Struct (map (zat a) p) (map (fun i => map (fun j => cm a i j) p) p).
Definition reordering (p : list nat) (a : struct) : Prop := Permutation p (seq 0 (natoms a)).

(** The bonds of a structure, each listed once. *)
Definition bond_list (a : struct) (es : list (nat * nat)) : Prop :=
  NoDup es /\ forall r c, In (r, c) es <-> (r < c < natoms a /\ (0 < cm a r c)%Z).
(** Element types in increasing order, as _get_atom_types gives them. *)
Definition increasing (ts : list nat) : Prop := StronglySorted lt ts.
Fixpoint sum (l : list nat) : nat := match l with [] => 0 | x :: t => x + sum t end.
(** The coordination number that bag_element_cn uses: the sum of the row of the
    connectivity matrix. *)
Definition row_cn (a : struct) (i : nat) : Z := sumZ (map (cm a i) (seq 0 (natoms a))).

(** * Facts about lists *)
Lemma sum_app l l' : sum (l ++ l') = sum l + sum l'.
Proof. induction l; cbn; lia. Qed.
Lemma sumZ_app l l' : sumZ (l ++ l') = (sumZ l + sumZ l')%Z.
Proof. induction l as [|x l IH]; cbn; lia. Qed.
Lemma sumZ_perm l l' : Permutation l l' -> sumZ l = sumZ l'.
Proof. induction 1; cbn in *; lia. Qed.

Lemma filter_len_perm {A} (f : A -> bool) l l' : Permutation l l' -> length (filter f l) = length (filter f l').
Proof. intros H. apply Permutation_length, Permutation_filter, H. Qed.
Lemma filter_len_map {A B} (g : A -> B) f l : length (filter f (map g l)) = length (filter (fun x => f (g x)) l).
Proof. induction l as [|x l IH]; cbn; [auto|]. destruct (f (g x)); cbn; auto. Qed.
Lemma filter_len_ext {A} (f g : A -> bool) l : (forall x, In x l -> f x = g x) -> length (filter f l) = length (filter g l).
Proof. intros H. rewrite (filter_ext_in f g); auto. Qed.

Lemma NoDup_prod {A B} (l : list A) (m : list B) : NoDup l -> NoDup m -> NoDup (list_prod l m).
Proof.
  induction l as [|x l IH]; intros HL HM; cbn; [constructor|]. inversion HL as [|y t Hy Ht]; subst.
  apply NoDup_app_intro.
  - apply FinFun.Injective_map_NoDup; [intros u v [= ->]; auto|auto].
  - auto.
  - intros [u v] H1 H2. apply in_map_iff in H1 as (w & [= -> ->] & _). apply in_prod_iff in H2 as [H2 _]. contradiction.
Qed.

Lemma sum_indicator {A} (eqb : A -> A -> bool) (l : list A) x : (forall u v, eqb u v = true <-> u = v) -> NoDup l -> In x l ->
  sum (map (fun y => if eqb y x then 1 else 0) l) = 1.
Proof.
  intros HE. induction l as [|y l IH]; intros HN HI; [destruct HI|]. inversion HN as [|z t Hz Ht]; subst. cbn.
  destruct HI as [->|HI].
  - replace (eqb x x) with true by (symmetry; apply HE; auto).
    replace (sum (map (fun y => if eqb y x then 1 else 0) l)) with 0; [auto|]. symmetry.
    clear -HE Hz. induction l as [|y l IH]; [auto|]. cbn. destruct (eqb y x) eqn:E; [apply HE in E as ->; exfalso; apply Hz; cbn; auto|].
    apply IH. intros H. apply Hz. cbn. auto.
  - destruct (eqb y x) eqn:E; [apply HE in E as ->; contradiction|]. rewrite IH; auto.
Qed.

(** Counting by classes counts everything once. *)
Lemma sum_classes {A C} (eqb : C -> C -> bool) (cls : list C) (f : A -> C) (l : list A) :
  (forall u v, eqb u v = true <-> u = v) -> NoDup cls -> (forall x, In x l -> In (f x) cls) ->
  sum (map (fun c => length (filter (fun x => eqb c (f x)) l)) cls) = length l.
Proof.
  intros HE HN. induction l as [|x l IH]; intros HF.
  - cbn. clear. induction cls; cbn; auto.
  - cbn [length]. rewrite <- IH by (intros; apply HF; cbn; auto).
    transitivity (sum (map (fun c => if eqb c (f x) then 1 else 0) cls) + sum (map (fun c => length (filter (fun x => eqb c (f x)) l)) cls));
      [|rewrite (sum_indicator eqb cls (f x) HE HN) by (apply HF; cbn; auto); reflexivity].
    clear. induction cls as [|c cls IH2]; cbn; [auto|]. cbn in IH2. destruct (eqb c (f x)); cbn [length]; lia.
Qed.

Lemma nat_pair_eqb_spec (u v : nat * nat) : ((fst u =? fst v) && (snd u =? snd v)) = true <-> u = v.
Proof.
  destruct u as [a b], v as [c d]. cbn. rewrite andb_true_iff, !Nat.eqb_eq. split; [intros [-> ->]; auto|intros [= -> ->]; auto].
Qed.

(** * Relabelling *)
Lemma relabel_natoms p a : reordering p a -> natoms (relabel p a) = natoms a.
Proof. intros H. unfold natoms, relabel. cbn. rewrite map_length. apply Permutation_length in H. rewrite seq_length in H. exact H. Qed.
Lemma relabel_len p a : reordering p a -> length p = natoms a.
Proof. intros H. apply Permutation_length in H. rewrite seq_length in H. exact H. Qed.
Lemma relabel_zat p a i : i < length p -> zat (relabel p a) i = zat a (nth i p 0).
Proof. intros H. unfold zat at 1, relabel. cbn. apply nth_map_lt. auto. Qed.
Lemma relabel_cm p a i j : i < length p -> j < length p -> cm (relabel p a) i j = cm a (nth i p 0) (nth j p 0).
Proof. intros H1 H2. unfold cm at 1, relabel. cbn. rewrite (nth_map_lt _ _ _ 0) by auto. apply nth_map_lt. auto. Qed.
Lemma numbers_zat a : numbers a = map (zat a) (seq 0 (natoms a)).
Proof.
  apply (list_ext_nth 0); [rewrite map_length, seq_length; auto|]. intros i Hi. rewrite (nth_map_lt _ _ _ 0) by (rewrite seq_length; auto).
  rewrite seq_nth by auto. reflexivity.
Qed.
Lemma relabel_numbers p a : reordering p a -> Permutation (numbers (relabel p a)) (numbers a).
Proof. intros H. cbn. rewrite (numbers_zat a). apply Permutation_map, H. Qed.
Lemma reordering_in p a i : reordering p a -> In i p <-> i < natoms a.
Proof.
  intros H. split; intros Hi.
  - apply (Permutation_in _ H) in Hi. apply in_seq in Hi. lia.
  - apply (Permutation_in _ (Permutation_sym H)). apply in_seq. lia.
Qed.
Lemma reordering_lt p a i : reordering p a -> i < natoms a -> nth i p 0 < natoms a.
Proof. intros H Hi. apply (reordering_in p a); auto. apply nth_In. rewrite (relabel_len p a); auto. Qed.
Lemma reordering_inj p a i j : reordering p a -> i < natoms a -> j < natoms a -> nth i p 0 = nth j p 0 -> i = j.
Proof.
  intros H Hi Hj E. assert (HN : NoDup p) by (apply (Permutation_NoDup (Permutation_sym H)), seq_NoDup).
  rewrite NoDup_nth in HN. apply HN; rewrite ?(relabel_len p a); eauto.
Qed.

Lemma relabel_well_formed p a : reordering p a -> well_formed (relabel p a).
Proof.
  intros H. split.
  - rewrite relabel_natoms by auto. cbn. rewrite map_length. apply relabel_len. auto.
  - intros row Hr. rewrite relabel_natoms by auto. cbn in Hr. apply in_map_iff in Hr as (i & <- & _). rewrite map_length. apply relabel_len. auto.
Qed.
Lemma relabel_undirected p a : reordering p a -> undirected a -> undirected (relabel p a).
Proof.
  intros H HU i j Hi Hj. rewrite relabel_natoms in * by auto. rewrite !relabel_cm by (rewrite (relabel_len p a); auto).
  apply HU; apply reordering_lt; auto.
Qed.

(** * Compositions *)
Lemma count_spec z l : count z l = count_occ Nat.eq_dec l z.
Proof.
  unfold count. induction l as [|x l IH]; [auto|]. cbn. destruct (Nat.eq_dec x z) as [->|Hn].
  - rewrite Nat.eqb_refl. cbn. auto.
  - destruct (Nat.eqb_spec z x); [congruence|]. auto.
Qed.

Lemma counts_sum ts l : NoDup ts -> (forall z, In z l -> In z ts) -> sum (map (fun z => count z l) ts) = length l.
Proof. intros HN HI. apply (sum_classes Nat.eqb ts (fun z => z) l); [apply Nat.eqb_eq|auto|auto]. Qed.

Lemma nodup_sorted_increasing l : NoDup l -> increasing (isort Nat.leb l).
Proof.
  intros HN. assert (HS : StronglySorted (rel Nat.leb) (isort Nat.leb l)).
  { apply isort_sorted. split; [intros x y; rewrite !Nat.leb_le; lia|intros x y z; rewrite !Nat.leb_le; lia]. }
  assert (HN' : NoDup (isort Nat.leb l)) by (apply (Permutation_NoDup (Permutation_sym (isort_perm _ _))); auto).
  revert HN' HS. unfold increasing. generalize (isort Nat.leb l). intros m. induction m as [|x m IH]; intros HN' HS; constructor.
  - inversion HN'; inversion HS; auto.
  - inversion HN' as [|u v Hu Hv]; inversion HS as [|u' v' Hu' Hv']; subst. apply Forall_forall. intros y Hy.
    rewrite Forall_forall in Hv'. specialize (Hv' y Hy). unfold rel in Hv'. apply Nat.leb_le in Hv'.
    destruct (Nat.eq_dec x y); [subst; contradiction|lia].
Qed.

Lemma sorted_set_spec l : increasing (sorted_set l) /\ forall z, In z (sorted_set l) <-> In z l.
Proof.
  unfold sorted_set. split; [apply nodup_sorted_increasing, NoDup_nodup|]. intros z. rewrite isort_in, nodup_In. reflexivity.
Qed.
Lemma increasing_NoDup ts : increasing ts -> NoDup ts.
Proof.
  induction 1 as [|x l HS IH HF]; constructor; auto. intros H. rewrite Forall_forall in HF. specialize (HF x H). lia.
Qed.
Lemma increasing_unique l l' : increasing l -> increasing l' -> (forall z, In z l <-> In z l') -> l = l'.
Proof.
  intros HS HS' HI.
  assert (HLE : forall m, increasing m -> StronglySorted le m).
  { induction 1 as [|x m HM IH HF]; constructor; auto. eapply Forall_impl; [|exact HF]. intros; lia. }
  apply (@sorted_perm_unique nat le); auto; [intros; lia|apply NoDup_Permutation; auto using increasing_NoDup].
Qed.

(** composition_vec: one value per name, the number of atoms of that element; the values
    do not depend on the order of the atoms and, if no element is missing, add up to the
    number of atoms.  Without given types those of the structure are used. *)
Theorem composition_counts : forall types a p, reordering p a ->
  let ts := fst (composition_vec types a) in let v := snd (composition_vec types a) in
  (types = None -> increasing ts /\ forall z, In z ts <-> In z (numbers a)) /\
  (forall t, types = Some t -> ts = t) /\
  composition_names (Some ts) = Ok (map LCount ts) /\ composition_names None = Err AssertionError /\ length v = length ts /\
  (forall k z, nth_error ts k = Some z -> nth_error v k = Some (count_occ Nat.eq_dec (numbers a) z)) /\
  composition_vec types (relabel p a) = composition_vec types a /\
  (NoDup ts -> (forall z, In z (numbers a) -> In z ts) -> sum v = natoms a).
Proof.
  intros types a p HP ts v. split; [|split; [|split; [|split; [reflexivity|split; [|split; [|split]]]]]].
  - intros ->. apply sorted_set_spec.
  - intros t ->. reflexivity.
  - reflexivity.
  - unfold v, composition_vec. cbn. apply map_length.
  - intros k z E. unfold v, composition_vec. cbn. fold ts. change (match types with Some t => t | None => sorted_set (numbers a) end) with ts.
    rewrite (map_nth_error _ _ _ E). rewrite count_spec. reflexivity.
  - pose proof (relabel_numbers p a HP) as HN. unfold composition_vec.
    assert (E : sorted_set (numbers (relabel p a)) = sorted_set (numbers a)).
    { apply increasing_unique; try apply sorted_set_spec. intros z. rewrite (proj2 (sorted_set_spec _)), (proj2 (sorted_set_spec _)).
      split; apply Permutation_in; auto using Permutation_sym. }
    rewrite E. f_equal. apply map_ext. intros z. unfold count. apply filter_len_perm. auto.
  - intros HN HI. unfold v, composition_vec. cbn. apply counts_sum; auto.
Qed.

(** bag_elements is the same counts. *)
Theorem bag_elements_counts : forall n ts a p, reordering p a -> (forall z, In z ts -> z < n) ->
  exists v ns, bag_elements n ts a = Ok v /\ bag_elements_names n ts = Ok ns /\ length v = length ns /\
    (forall k z, nth_error ns k = Some (LBag z) -> nth_error v k = Some (count_occ Nat.eq_dec (numbers a) z)) /\
    bag_elements n ts (relabel p a) = Ok v /\
    (NoDup ts -> (forall z, In z (numbers a) -> In z ts) -> sum v = natoms a).
Proof.
  intros n ts a p HP HT. unfold bag_elements, bag_elements_names, symbols.
  replace (forallb (fun z => z <? n) ts) with true by (symmetry; apply forallb_forall; intros z Hz; apply Nat.ltb_lt; auto).
  cbn [bind]. eexists; eexists. split; [reflexivity|]. split; [reflexivity|]. split; [rewrite !map_length; auto|]. split; [|split].
  - intros k z E. rewrite nth_error_map in E. destruct (nth_error ts k) as [z'|] eqn:EK; [|discriminate]. injection E as ->.
    rewrite (map_nth_error _ _ _ EK), count_spec. reflexivity.
  - f_equal. apply map_ext. intros z. apply filter_len_perm, relabel_numbers. auto.
  - intros HN HI. apply counts_sum; auto.
Qed.

Example composition_case : composition_vec None (Struct [6; 1; 1; 1; 8; 1] []) = ([1; 6; 8], [4; 1; 1]).
Proof. reflexivity. Qed.

(** * Bonds *)
Lemma bonds_in a r c : In (r, c) (bonds a) <-> (r < c < natoms a /\ (0 < cm a r c)%Z).
Proof.
  unfold bonds. rewrite filter_In, in_prod_iff, !in_seq. cbn [fst snd]. rewrite andb_true_iff, Nat.ltb_lt, Z.ltb_lt. intuition lia.
Qed.
Lemma bonds_bond_list a : bond_list a (bonds a).
Proof. split; [apply NoDup_filter, NoDup_prod; apply seq_NoDup|]. intros r c. apply bonds_in. Qed.
Lemma bond_list_perm a es : bond_list a es -> Permutation es (bonds a).
Proof.
  intros [HN HI]. apply NoDup_Permutation; [auto|apply bonds_bond_list|]. intros [r c]. rewrite HI, bonds_in. reflexivity.
Qed.

(** A bond of the relabelled structure, in the old numbering. *)
Definition old_bond (p : list nat) (e : nat * nat) : nat * nat :=
  let r := nth (fst e) p 0 in let c := nth (snd e) p 0 in if r <? c then (r, c) else (c, r).

Lemma bonds_relabel p a : reordering p a -> undirected a -> Permutation (map (old_bond p) (bonds (relabel p a))) (bonds a).
Proof.
  intros HP HU. pose proof (relabel_len p a HP) as HL. pose proof (relabel_natoms p a HP) as HA.
  assert (HIN : forall r c, In (r, c) (bonds (relabel p a)) -> r < c < natoms a /\ (0 < cm a (nth r p O) (nth c p O))%Z).
  { intros r c H. apply bonds_in in H as [H1 H2]. rewrite HA in H1. rewrite relabel_cm in H2 by lia. auto. }
  apply NoDup_Permutation.
  - assert (HN : NoDup (bonds (relabel p a))) by apply bonds_bond_list. revert HIN HN. generalize (bonds (relabel p a)). intros l.
    induction l as [|[r c] l IH]; intros HIN HN; cbn; [constructor|]. inversion HN as [|x t Hx Ht]; subst. constructor.
    + intros H. apply in_map_iff in H as ([r' c'] & E & H). apply Hx.
      destruct (HIN r c) as [B1 _]; [cbn; auto|]. destruct (HIN r' c') as [B2 _]; [cbn; auto|].
      assert (HR : nth r p 0 <> nth c p 0) by (intros X; apply (reordering_inj p a) in X; auto; lia).
      assert (HX : (nth r' p 0 = nth r p 0 /\ nth c' p 0 = nth c p 0) \/ (nth r' p 0 = nth c p 0 /\ nth c' p 0 = nth r p 0)).
      { unfold old_bond in E. cbn [fst snd] in E. destruct (nth r' p 0 <? nth c' p 0), (nth r p 0 <? nth c p 0); injection E; auto. }
      destruct HX as [[X Y]|[X Y]]; apply (reordering_inj p a) in X; auto; try lia; apply (reordering_inj p a) in Y; auto; try lia; subst; auto; lia.
    + apply IH; auto. intros r' c' H. apply HIN. cbn. auto.
  - apply bonds_bond_list.
  - intros [r c]. rewrite in_map_iff, bonds_in. split.
    + intros ([r' c'] & E & H). destruct (HIN _ _ H) as [B1 B2]. unfold old_bond in E. cbn [fst snd] in E.
      assert (L1 : nth r' p 0 < natoms a) by (apply reordering_lt; auto; lia). assert (L2 : nth c' p 0 < natoms a) by (apply reordering_lt; auto; lia).
      assert (HR : nth r' p 0 <> nth c' p 0) by (intros X; apply (reordering_inj p a) in X; auto; lia).
      destruct (Nat.ltb_spec (nth r' p 0) (nth c' p 0)); injection E as <- <-.
      * split; [lia|auto].
      * split; [lia|]. rewrite HU; auto.
    + intros [B1 B2]. assert (R : In r p) by (apply (reordering_in p a); auto; lia). assert (C : In c p) by (apply (reordering_in p a); auto; lia).
      apply (In_nth _ _ 0) in R as (i & Hi & Ei). apply (In_nth _ _ 0) in C as (j & Hj & Ej).
      assert (Hij : i <> j) by (intros ->; lia).
      destruct (Nat.lt_ge_cases i j) as [L|L].
      * exists (i, j). unfold old_bond. cbn [fst snd]. rewrite Ei, Ej. replace (r <? c) with true by (symmetry; apply Nat.ltb_lt; lia). split; [auto|].
        apply bonds_in. rewrite HA, relabel_cm, Ei, Ej by lia. split; [lia|auto].
      * exists (j, i). unfold old_bond. cbn [fst snd]. rewrite Ei, Ej. replace (c <? r) with false by (symmetry; apply Nat.ltb_ge; lia). split; [auto|].
        apply bonds_in. rewrite HA, relabel_cm, Ei, Ej by lia. split; [lia|]. rewrite HU by lia. auto.
Qed.

(** * The pair loop *)
Section PairLoop.
Context {K : Type} (eqb leb : K -> K -> bool) (nodes : list K).
Hypothesis eqb_spec : forall x y, eqb x y = true <-> x = y.
Hypothesis leb_total : forall x y, leb x y = true \/ leb y x = true.
Hypothesis leb_antisym : forall x y, leb x y = true -> leb y x = true -> x = y.

Definition two (x y : K) : K * K := if leb x y then (x, y) else (y, x).
Lemma two_sym x y : two x y = two y x.
Proof.
  unfold two. destruct (leb x y) eqn:E1, (leb y x) eqn:E2; auto.
  - rewrite (leb_antisym x y); auto.
  - destruct (leb_total x y); congruence.
Qed.
Definition place (key : nat -> K) (e : nat * nat) : option (nat * nat) :=
  let (x, y) := two (key (fst e)) (key (snd e)) in
  match index_of eqb x nodes, index_of eqb y nodes with Ok i, Ok j => Some (i, j) | _, _ => None end.
Definition at_place (i j : nat) (o : option (nat * nat)) : bool :=
  match o with Some q => (i =? fst q) && (j =? snd q) | None => false end.

Lemma index_of_err x e : index_of eqb x nodes = Err e -> e = ValueError.
Proof.
  induction nodes as [|y l IH]; cbn; [congruence|]. destruct (eqb x y); [discriminate|].
  destruct (index_of eqb x l); cbn; [discriminate|]. intros [= <-]. auto.
Qed.
Lemma index_of_ok x i : index_of eqb x nodes = Ok i -> nth_error nodes i = Some x.
Proof.
  revert i. induction nodes as [|y l IH]; cbn; [discriminate|]. intros i. destruct (eqb x y) eqn:E.
  - intros [= <-]. apply eqb_spec in E as ->. reflexivity.
  - destruct (index_of eqb x l) as [j|]; cbn; [|discriminate]. intros [= <-]. cbn. apply IH. auto.
Qed.
Lemma index_of_in x : In x nodes -> exists i, index_of eqb x nodes = Ok i.
Proof.
  induction nodes as [|y l IH]; cbn; [intros []|]. intros [->|H].
  - replace (eqb x x) with true by (symmetry; apply eqb_spec; auto). eauto.
  - destruct (eqb x y); [eauto|]. destruct (IH H) as [i ->]. cbn. eauto.
Qed.

Lemma pair_loop_spec key : forall bs boc,
  match pair_loop eqb leb nodes key bs boc with
  | Ok m => (forall e, In e bs -> place key e <> None) /\
            forall i j, m i j = boc i j + length (filter (fun e => at_place i j (place key e)) bs)
  | Err e => e = ValueError /\ exists e, In e bs /\ place key e = None
  end.
Proof.
  induction bs as [|[r c] t IH]; intros boc; [cbn; split; [intros e []|intros; lia]|].
  cbn [pair_loop].
  change (if leb (key r) (key c) then (key r, key c) else (key c, key r)) with (two (key r) (key c)).
  destruct (two (key r) (key c)) as [x y] eqn:ET.
  assert (EP : place key (r, c) = match index_of eqb x nodes, index_of eqb y nodes with Ok i, Ok j => Some (i, j) | _, _ => None end).
  { unfold place. cbn [fst snd]. rewrite ET. reflexivity. }
  destruct (index_of eqb x nodes) as [i|e] eqn:EX; cbn [bind].
  2:{ split; [apply (index_of_err _ _ EX)|]. exists (r, c). cbn. auto. }
  destruct (index_of eqb y nodes) as [j|e] eqn:EY; cbn [bind].
  2:{ split; [apply (index_of_err _ _ EY)|]. exists (r, c). cbn. auto. }
  specialize (IH (bump boc i j)). destruct (pair_loop _ _ _ _ t _) as [m|e].
  - destruct IH as [H1 H2]. split.
    + intros e [<-|He]; [rewrite EP; discriminate|apply H1; auto].
    + intros u v. rewrite H2. cbn [filter]. rewrite EP. unfold at_place at 2. cbn [fst snd]. unfold bump.
      destruct ((u =? i) && (v =? j)); cbn [length]; lia.
  - destruct IH as [H1 (e' & H2 & H3)]. split; [auto|]. exists e'. cbn. auto.
Qed.

(** The outcome depends on the bonds up to order and direction only. *)
Lemma pair_loop_relabel key key' bs bs' n : Permutation (map (fun e => place key e) bs) (map (fun e => place key' e) bs') ->
  bind (pair_loop eqb leb nodes key bs (fun _ _ => 0)) (fun boc => Ok (triu_values n boc)) =
  bind (pair_loop eqb leb nodes key' bs' (fun _ _ => 0)) (fun boc => Ok (triu_values n boc)).
Proof.
  intros HP. pose proof (pair_loop_spec key bs (fun _ _ => 0)) as S1. pose proof (pair_loop_spec key' bs' (fun _ _ => 0)) as S2.
  assert (HX : (exists e, In e bs /\ place key e = None) <-> (exists e, In e bs' /\ place key' e = None)).
  { split; intros (e & H1 & H2).
    - apply (in_map (fun e => place key e)) in H1. cbv beta in H1. rewrite H2 in H1. apply (Permutation_in _ HP) in H1. apply in_map_iff in H1 as (e' & H3 & H4). eauto.
    - apply (in_map (fun e => place key' e)) in H1. cbv beta in H1. rewrite H2 in H1. apply (Permutation_in _ (Permutation_sym HP)) in H1. apply in_map_iff in H1 as (e' & H3 & H4). eauto. }
  destruct (pair_loop _ _ _ key bs _) as [m|e], (pair_loop _ _ _ key' bs' _) as [m'|e']; cbn [bind].
  - f_equal. unfold triu_values. apply map_ext. intros [i j]. cbn. destruct S1 as [_ S1], S2 as [_ S2]. rewrite S1, S2. f_equal.
    rewrite <- (filter_len_map (fun e => place key e) (at_place i j)), <- (filter_len_map (fun e => place key' e) (at_place i j)).
    apply filter_len_perm. auto.
  - destruct S1 as [S1 _], S2 as [_ S2]. apply HX in S2 as (e & H1 & H2). exfalso. apply (S1 e); auto.
  - destruct S1 as [_ S1], S2 as [S2 _]. apply HX in S1 as (e0 & H1 & H2). exfalso. apply (S2 e0); auto.
  - destruct S1 as [-> _], S2 as [-> _]. reflexivity.
Qed.

(** With nodes in increasing order the pairs are counted in the upper triangle. *)
Hypothesis nodes_sorted : forall i j x y, nth_error nodes i = Some x -> nth_error nodes j = Some y -> i < j -> leb y x = false.

Lemma place_in key e : In (key (fst e)) nodes -> In (key (snd e)) nodes ->
  exists i j x y, place key e = Some (i, j) /\ i <= j /\ j < length nodes /\ nth_error nodes i = Some x /\ nth_error nodes j = Some y /\
    two (key (fst e)) (key (snd e)) = (x, y).
Proof.
  intros H1 H2. unfold place. destruct (two (key (fst e)) (key (snd e))) as [x y] eqn:ET.
  assert (HXY : In x nodes /\ In y nodes /\ leb x y = true).
  { unfold two in ET. destruct (leb (key (fst e)) (key (snd e))) eqn:EL; injection ET as <- <-; auto.
    split; [auto|]. split; [auto|]. destruct (leb_total (key (fst e)) (key (snd e))); congruence. }
  destruct HXY as (HX & HY & HL). destruct (index_of_in x HX) as [i EI]. destruct (index_of_in y HY) as [j EJ].
  rewrite EI, EJ. apply index_of_ok in EI. apply index_of_ok in EJ. exists i, j, x, y. split; [auto|]. split; [|split].
  - destruct (Nat.le_gt_cases i j); [auto|]. rewrite (nodes_sorted j i y x) in HL; auto. discriminate.
  - apply nth_error_Some. congruence.
  - auto.
Qed.

Lemma nodes_index_unique i j x : nth_error nodes i = Some x -> nth_error nodes j = Some x -> i = j.
Proof.
  intros H1 H2. destruct (Nat.lt_trichotomy i j) as [H|[H|H]]; auto; exfalso;
  [pose proof (nodes_sorted _ _ _ _ H1 H2 H) as X|pose proof (nodes_sorted _ _ _ _ H2 H1 H) as X];
  destruct (leb_total x x); congruence.
Qed.

Lemma triu_nodup n : NoDup (triu n).
Proof. apply NoDup_filter, NoDup_prod; apply seq_NoDup. Qed.
Lemma triu_in n i j : In (i, j) (triu n) <-> i <= j /\ j < n.
Proof. unfold triu. rewrite filter_In, in_prod_iff, !in_seq. cbn [fst snd]. rewrite Nat.leb_le. lia. Qed.

Lemma pair_loop_counts key bs : (forall e, In e bs -> In (key (fst e)) nodes /\ In (key (snd e)) nodes) ->
  exists boc, pair_loop eqb leb nodes key bs (fun _ _ => 0) = Ok boc /\
    (forall i j x y, nth_error nodes i = Some x -> nth_error nodes j = Some y -> i <= j ->
       boc i j = length (filter (fun e => (eqb (key (fst e)) x && eqb (key (snd e)) y) || (eqb (key (fst e)) y && eqb (key (snd e)) x)) bs)) /\
    sum (triu_values (length nodes) boc) = length bs.
Proof.
  intros HI. pose proof (pair_loop_spec key bs (fun _ _ => 0)) as HS.
  destruct (pair_loop _ _ _ key bs _) as [boc|e].
  2:{ destruct HS as [_ (e' & H1 & H2)]. destruct (HI _ H1) as [A B]. destruct (place_in key e' A B) as (i & j & x & y & E & _). congruence. }
  destruct HS as [_ HS]. exists boc. split; [auto|]. split.
  - intros i j x y EI EJ Hij. rewrite HS. cbn [Nat.add]. apply filter_len_ext. intros e He. destruct (HI _ He) as [A B].
    destruct (place_in key e A B) as (i' & j' & x' & y' & -> & Hij' & _ & EI' & EJ' & ET). cbn.
    assert (HL : leb x y = true).
    { destruct (leb_total x y) as [H|H]; [auto|]. destruct (Nat.eq_dec i j) as [->|Hne]; [replace y with x in * by congruence; auto|].
      rewrite (nodes_sorted i j x y) in H; auto; [discriminate|lia]. }
    destruct ((eqb (key (fst e)) x && eqb (key (snd e)) y) || (eqb (key (fst e)) y && eqb (key (snd e)) x)) eqn:EB.
    + assert (EXY : (x', y') = (x, y)).
      { rewrite <- ET. apply orb_true_iff in EB as [EB|EB]; apply andb_true_iff in EB as [E1 E2]; apply eqb_spec in E1, E2; rewrite E1, E2.
        - unfold two. rewrite HL. auto.
        - rewrite two_sym. unfold two. rewrite HL. auto. }
      injection EXY as -> ->. rewrite (nodes_index_unique i i' x), (nodes_index_unique j j' y), !Nat.eqb_refl; auto.
    + destruct ((i =? i') && (j =? j')) eqn:EIJ; [|auto]. apply andb_true_iff in EIJ as [E1 E2]. apply Nat.eqb_eq in E1, E2. subst i' j'.
      replace x' with x in ET by congruence. replace y' with y in ET by congruence. exfalso.
      apply orb_false_iff in EB as [E1 E2]. unfold two in ET. destruct (leb (key (fst e)) (key (snd e))); injection ET as X Y.
      * rewrite (proj2 (eqb_spec _ _) X), (proj2 (eqb_spec _ _) Y) in E1. discriminate.
      * rewrite (proj2 (eqb_spec _ _) X), (proj2 (eqb_spec _ _) Y) in E2. discriminate.
  - pose (f := fun e => match place key e with Some q => q | None => (0, 0) end).
    rewrite <- (sum_classes (fun u v : nat * nat => (fst u =? fst v) && (snd u =? snd v)) (triu (length nodes)) f bs nat_pair_eqb_spec (triu_nodup _)).
    + unfold triu_values. f_equal. apply map_ext. intros [i j]. cbn [fst snd]. rewrite HS. cbn [Nat.add]. apply filter_len_ext. intros e He.
      destruct (HI _ He) as [A B]. destruct (place_in key e A B) as (i' & j' & x' & y' & E & _). unfold f. rewrite E. reflexivity.
    + intros e He. destruct (HI _ He) as [A B]. destruct (place_in key e A B) as (i' & j' & x' & y' & E & H1 & H2 & _). unfold f. rewrite E. apply triu_in. auto.
Qed.
End PairLoop.

Lemma increasing_nth ts i j x y : increasing ts -> nth_error ts i = Some x -> nth_error ts j = Some y -> i < j -> x < y.
Proof.
  intros H. revert i j. induction H as [|z l HS IH HF]; intros i j EI EJ Hij; [destruct i; discriminate|].
  destruct j as [|j]; [lia|]. cbn in EJ. destruct i as [|i]; cbn in EI.
  - injection EI as <-. rewrite Forall_forall in HF. apply HF. apply nth_error_In in EJ. auto.
  - apply (IH i j); auto. lia.
Qed.

Lemma leb_nat_total x y : (x <=? y) = true \/ (y <=? x) = true.
Proof. rewrite !Nat.leb_le. lia. Qed.
Lemma leb_nat_antisym x y : (x <=? y) = true -> (y <=? x) = true -> x = y.
Proof. rewrite !Nat.leb_le. lia. Qed.

Lemma symbols_ok n ts : (forall z, In z ts -> z < n) -> symbols n ts = Ok ts.
Proof. intros H. unfold symbols. replace (forallb _ ts) with true; [auto|]. symmetry. apply forallb_forall. intros z Hz. apply Nat.ltb_lt. auto. Qed.

Lemma nth_error_triu n k i j : nth_error (triu n) k = Some (i, j) -> i <= j /\ j < n.
Proof. intros E. apply nth_error_In in E. apply triu_in. auto. Qed.

(** bag_edges: one value per name, the number of bonds between the two elements of the
    name; the values add up to the number of bonds. *)
Theorem bag_edges_counts : forall n ts a es, increasing ts -> (forall z, In z ts -> z < n) -> bond_list a es ->
  (forall r c, In (r, c) es -> In (zat a r) ts /\ In (zat a c) ts) ->
  exists v ns, bag_edges ts a = Ok v /\ bag_edges_names n ts = Ok ns /\ length v = length ns /\
    (forall k z1 z2, nth_error ns k = Some (LPair z1 z2) ->
       nth_error v k = Some (length (filter (fun e => let x := zat a (fst e) in let y := zat a (snd e) in
                                                      ((x =? z1) && (y =? z2)) || ((x =? z2) && (y =? z1))) es))) /\
    sum v = length es.
Proof.
  intros n ts a es HT HN HB HI. pose proof (bond_list_perm a es HB) as HP.
  assert (HS : forall i j x y, nth_error ts i = Some x -> nth_error ts j = Some y -> i < j -> (y <=? x) = false).
  { intros i j x y E1 E2 L. apply Nat.leb_gt. eapply increasing_nth; eauto. }
  destruct (pair_loop_counts Nat.eqb Nat.leb ts Nat.eqb_eq leb_nat_total leb_nat_antisym HS (zat a) (bonds a)) as (boc & EL & HC & HSum).
  { intros [r c] H. apply HI. apply (Permutation_in _ (Permutation_sym HP)). auto. }
  unfold bag_edges, bag_edges_names. rewrite EL, symbols_ok by auto. cbn [bind]. eexists; eexists. split; [reflexivity|]. split; [reflexivity|].
  split; [unfold triu_values; rewrite !map_length; auto|]. split.
  - intros k z1 z2 E. rewrite nth_error_map in E. destruct (nth_error (triu (length ts)) k) as [[i j]|] eqn:EK; [|discriminate]. cbn in E. injection E as <- <-.
    destruct (nth_error_triu _ _ _ _ EK) as [Hij Hj]. unfold triu_values. rewrite nth_error_map, EK. cbn. f_equal.
    rewrite (HC i j (nth i ts 0) (nth j ts 0)) by (auto using nth_error_nth' || (apply nth_error_nth'; lia)).
    rewrite (filter_len_perm _ _ _ HP). apply filter_len_ext. intros [r c] _. cbn. apply orb_comm.
  - rewrite HSum. symmetry. apply Permutation_length. auto.
Qed.

Lemma place_norm {K} eqb (leb : K -> K -> bool) nodes key p e : (forall x y, leb x y = true \/ leb y x = true) ->
  (forall x y, leb x y = true -> leb y x = true -> x = y) ->
  place eqb leb nodes key (old_bond p e) = place eqb leb nodes (fun i => key (nth i p 0)) e.
Proof.
  intros HT HA. unfold place, old_bond. destruct (nth (fst e) p 0 <? nth (snd e) p 0); cbn [fst snd]; [reflexivity|].
  rewrite (two_sym leb HT HA). reflexivity.
Qed.

Lemma place_ext {K} eqb (leb : K -> K -> bool) nodes key key' e : key (fst e) = key' (fst e) -> key (snd e) = key' (snd e) ->
  place eqb leb nodes key e = place eqb leb nodes key' e.
Proof. intros H1 H2. unfold place. rewrite H1, H2. reflexivity. Qed.

(** bag_edges does not depend on the order of the atoms, in no case. *)
Theorem bag_edges_order_independent : forall ts a p, undirected a -> reordering p a -> bag_edges ts (relabel p a) = bag_edges ts a.
Proof.
  intros ts a p HU HP. unfold bag_edges. apply pair_loop_relabel.
  rewrite <- (Permutation_map (fun e => place Nat.eqb Nat.leb ts (zat a) e) (bonds_relabel p a HP HU)), map_map.
  rewrite (map_ext_in _ (fun e => place Nat.eqb Nat.leb ts (zat a) (old_bond p e))); [reflexivity|].
  intros [r c] H. cbv beta. rewrite (place_norm Nat.eqb Nat.leb) by (auto using leb_nat_total, leb_nat_antisym).
  apply bonds_in in H as [H _]. rewrite relabel_natoms in H by auto. apply place_ext; cbn; apply relabel_zat; rewrite (relabel_len p a); auto; lia.
Qed.

(** With element types given by the user in another order bonds are lost. *)
Theorem bag_edges_unsorted_types_refuted : exists ts a es, NoDup ts /\ well_formed a /\ undirected a /\ bond_list a es /\
  (forall z, In z (numbers a) -> In z ts) /\ length es = 1 /\ bag_edges ts a = Ok [0; 0; 0].
Proof.
  exists [8; 1], (Struct [8; 1] [[0; 1]; [1; 0]]%Z), [(0, 1)]. split; [repeat constructor; cbn; intuition lia|].
  split; [split; [reflexivity|intros row [<-|[<-|[]]]; reflexivity]|]. split.
  - intros i j Hi Hj. change (natoms _) with 2 in *. destruct i as [|[|i]], j as [|[|j]]; try lia; reflexivity.
  - split; [|split; [cbn; intuition|split; reflexivity]]. split; [repeat constructor; intros []|]. intros r c. change (natoms _) with 2. split.
    + intros [[= <- <-]|[]]. split; [lia|reflexivity].
    + intros [H _]. left. f_equal; lia.
Qed.

(** * Coordination numbers *)
Lemma row_sum a i : well_formed a -> i < natoms a -> sumZ (nth i (conn a) []) = row_cn a i.
Proof.
  intros [H1 H2] Hi. unfold row_cn. f_equal. assert (HL : length (nth i (conn a) []) = natoms a) by (apply H2, nth_In; lia).
  apply (list_ext_nth 0%Z); [rewrite map_length, seq_length; auto|]. intros j Hj. rewrite (nth_map_lt _ _ _ 0) by (rewrite seq_length; lia).
  rewrite seq_nth by lia. reflexivity.
Qed.
Lemma row_cn_relabel p a i : reordering p a -> i < natoms a -> row_cn (relabel p a) i = row_cn a (nth i p 0).
Proof.
  intros HP Hi. unfold row_cn. rewrite relabel_natoms by auto. pose proof (relabel_len p a HP) as HL.
  transitivity (sumZ (map (cm a (nth i p 0)) p)).
  - f_equal. apply (list_ext_nth 0%Z); [rewrite !map_length, seq_length; auto|]. intros j Hj. rewrite map_length, seq_length in Hj.
    rewrite (nth_map_lt _ _ _ 0) by (rewrite seq_length; auto). rewrite seq_nth by auto. rewrite relabel_cm by lia. cbn. symmetry. apply nth_map_lt. lia.
  - apply sumZ_perm, Permutation_map. auto.
Qed.

Lemma last_index_ok x ts i : last_index x ts = Some i -> nth_error ts i = Some x.
Proof.
  revert i. induction ts as [|y t IH]; cbn; [discriminate|]. intros i. destruct (last_index x t) as [j|] eqn:E.
  - intros [= <-]. cbn. auto.
  - destruct (Nat.eqb_spec x y); [|discriminate]. intros [= <-]. cbn. congruence.
Qed.
Lemma last_index_in x ts : In x ts -> exists i, last_index x ts = Some i.
Proof.
  induction ts as [|y t IH]; [intros []|]. intros H. cbn. destruct (last_index x t) as [j|] eqn:E; [eauto|].
  destruct H as [->|H]; [rewrite Nat.eqb_refl; eauto|]. destruct (IH H); congruence.
Qed.

Section Cn.
Variables (cn_min cn_max : Z) (ts : list nat) (a : struct).
Hypothesis (HW : well_formed a) (HT : forall z, In z (numbers a) -> In z ts).
Definition bounded (i : nat) : Prop := (cn_min <= row_cn a i <= cn_max)%Z.
Definition cell (i : nat) : nat * nat := (match last_index (zat a i) ts with Some j => j | None => 0 end, Z.to_nat (row_cn a i - cn_min)).

Lemma zat_in i : i < natoms a -> In (zat a i) ts.
Proof. intros H. apply HT. unfold zat. apply nth_In. auto. Qed.

Lemma cn_loop_in_bounds kvp : forall is m, (forall i, In i is -> i < natoms a /\ bounded i) ->
  exists m', cn_loop cn_min cn_max ts kvp a is m = Ok (Some m') /\
    forall u v, m' u v = m u v + length (filter (fun i => (u =? fst (cell i)) && (v =? snd (cell i))) is).
Proof.
  induction is as [|i t IH]; intros m HB; cbn [cn_loop].
  - exists m. split; [auto|]. intros. cbn. lia.
  - destruct (HB i) as [Hi Hc]; [cbn; auto|]. rewrite row_sum by auto. unfold bounded in Hc.
    replace (cn_max <? row_cn a i)%Z with false by (symmetry; apply Z.ltb_ge; lia). replace (row_cn a i <? cn_min)%Z with false by (symmetry; apply Z.ltb_ge; lia). cbn [orb].
    destruct (last_index_in (zat a i) ts) as [j Ej]; [apply zat_in; auto|]. rewrite Ej.
    destruct (IH (bump m j (Z.to_nat (row_cn a i - cn_min)))) as (m' & E & H); [intros; apply HB; cbn; auto|]. exists m'. split; [auto|].
    intros u v. rewrite H. cbn [filter]. unfold cell at 3 4. rewrite Ej. cbn [fst snd]. unfold bump. destruct ((u =? j) && (v =? _)); cbn [length]; lia.
Qed.

Lemma cn_loop_out_of_bounds kvp : forall is m, (forall i, In i is -> i < natoms a) -> (exists i, In i is /\ ~ bounded i) ->
  cn_loop cn_min cn_max ts kvp a is m = if kvp then Ok None else Err KeyError.
Proof.
  induction is as [|i t IH]; intros m HB (k & Hk & Hn); [destruct Hk|]. cbn [cn_loop]. assert (Hi : i < natoms a) by (apply HB; cbn; auto).
  rewrite row_sum by auto. destruct ((cn_max <? row_cn a i)%Z || (row_cn a i <? cn_min)%Z) eqn:EB; [auto|].
  apply orb_false_iff in EB as [E1 E2]. apply Z.ltb_ge in E1, E2.
  destruct (last_index_in (zat a i) ts) as [j Ej]; [apply zat_in; auto|]. rewrite Ej. apply IH; [intros; apply HB; cbn; auto|].
  destruct Hk as [->|Hk]; [exfalso; apply Hn; unfold bounded; lia|]. eauto.
Qed.
End Cn.

Lemma rangeZ_length x y : length (rangeZ x y) = Z.to_nat (y - x).
Proof. unfold rangeZ. rewrite map_length, seq_length. auto. Qed.
Lemma cn_names_length cn_min cn_max ts : length (cn_names cn_min cn_max ts) = length ts * Z.to_nat (cn_max + 1 - cn_min).
Proof. unfold cn_names. induction ts as [|z t IH]; [auto|]. cbn [flat_map length]. rewrite app_length, map_length, rangeZ_length, IH. lia. Qed.

Lemma cn_names_nth cn_min : forall ts ts0 k,
  map (fun p => LCn (nth (fst p) (ts0 ++ ts) 0) (cn_min + Z.of_nat (snd p))) (list_prod (seq (length ts0) (length ts)) (seq 0 k)) =
  flat_map (fun z => map (LCn z) (map (fun j => cn_min + Z.of_nat j)%Z (seq 0 k))) ts.
Proof.
  induction ts as [|z t IH]; intros ts0 k; [reflexivity|]. cbn [length seq list_prod flat_map]. rewrite map_app. f_equal.
  - rewrite !map_map. apply map_ext. intros j. cbn. rewrite app_nth2, Nat.sub_diag by lia. reflexivity.
  - specialize (IH (ts0 ++ [z]) k). rewrite app_length in IH. cbn in IH. rewrite Nat.add_1_r in IH. rewrite <- app_assoc in IH. exact IH.
Qed.

(** bag_element_cn: one value per name; with all coordination numbers within the bounds the
    value is the number of atoms of that element with that coordination number and the
    values add up to the number of atoms.  Otherwise all values are nan, or KeyError is
    raised for a structure without key_value_pairs.  The order of the atoms does not
    matter. *)
Theorem bag_element_cn_counts : forall n cn_min cn_max ts kvp a p, NoDup ts -> (forall z, In z ts -> z < n) ->
  (cn_min <= cn_max + 1)%Z -> well_formed a -> (forall z, In z (numbers a) -> In z ts) -> reordering p a ->
  let in_bounds := forall i, i < natoms a -> (cn_min <= row_cn a i <= cn_max)%Z in
  exists ns, bag_element_cn_names n cn_min cn_max ts = Ok ns /\ length ns = length ts * Z.to_nat (cn_max + 1 - cn_min) /\
  (in_bounds -> exists v, bag_element_cn n cn_min cn_max ts kvp a = Ok (map Some v) /\ length v = length ns /\
     (forall k z cn, nth_error ns k = Some (LCn z cn) ->
        nth_error v k = Some (length (filter (fun i => (zat a i =? z) && (row_cn a i =? cn)%Z) (seq 0 (natoms a))))) /\
     sum v = natoms a) /\
  (~ in_bounds -> bag_element_cn n cn_min cn_max ts kvp a = if kvp then Ok (repeat None (length ns)) else Err KeyError) /\
  bag_element_cn n cn_min cn_max ts kvp (relabel p a) = bag_element_cn n cn_min cn_max ts kvp a.
Proof.
  intros n cn_min cn_max ts kvp a p HN HS HM HW HT HP in_bounds.
  set (W := Z.to_nat (cn_max + 1 - cn_min)).
  set (cls := list_prod (seq 0 (length ts)) (seq 0 W)).
  assert (ENS : cn_names cn_min cn_max ts = map (fun q => LCn (nth (fst q) ts 0) (cn_min + Z.of_nat (snd q))) cls).
  { pose proof (cn_names_nth cn_min ts [] W) as H. cbn [app length] in H. unfold cls. rewrite H. reflexivity. }
  assert (EIN : forall a', well_formed a' -> (forall z, In z (numbers a') -> In z ts) -> (forall i, i < natoms a' -> (cn_min <= row_cn a' i <= cn_max)%Z) ->
    bag_element_cn n cn_min cn_max ts kvp a' =
    Ok (map Some (map (fun q => length (filter (fun i => (fst q =? fst (cell cn_min ts a' i)) && (snd q =? snd (cell cn_min ts a' i))) (seq 0 (natoms a')))) cls))).
  { intros a' HW' HT' HB. unfold bag_element_cn. rewrite symbols_ok by auto. cbn [bind].
    replace (cn_max + 1 - cn_min <? 0)%Z with false by (symmetry; apply Z.ltb_ge; lia).
    destruct (cn_loop_in_bounds cn_min cn_max ts a' HW' HT' kvp (seq 0 (natoms a')) (fun _ _ => 0)) as (m & E & H).
    { intros i Hi. apply in_seq in Hi. split; [lia|]. apply HB. lia. }
    rewrite E. cbn [bind]. f_equal. fold W. fold cls. rewrite map_map. apply map_ext. intros q. rewrite H. reflexivity. }
  assert (EOUT : forall a', well_formed a' -> (forall z, In z (numbers a') -> In z ts) -> (exists i, i < natoms a' /\ ~ (cn_min <= row_cn a' i <= cn_max)%Z) ->
    bag_element_cn n cn_min cn_max ts kvp a' = if kvp then Ok (repeat None (length cls)) else Err KeyError).
  { intros a' HW' HT' (i & Hi & Hn). unfold bag_element_cn. rewrite symbols_ok by auto. cbn [bind].
    replace (cn_max + 1 - cn_min <? 0)%Z with false by (symmetry; apply Z.ltb_ge; lia).
    rewrite (cn_loop_out_of_bounds cn_min cn_max ts a' HW' HT' kvp).
    - destruct kvp; cbn [bind]; [|auto]. rewrite ENS, map_length. auto.
    - intros k Hk. apply in_seq in Hk. lia.
    - exists i. split; [apply in_seq; lia|auto]. }
  assert (HDEC : forall a', (forall i, i < natoms a' -> (cn_min <= row_cn a' i <= cn_max)%Z) \/ (exists i, i < natoms a' /\ ~ (cn_min <= row_cn a' i <= cn_max)%Z)).
  { intros a'. generalize (natoms a') as k. intros k. induction k as [|k IH]; [left; lia|].
    destruct IH as [IH|(i & Hi & H)]; [|right; exists i; split; [lia|auto]].
    destruct (Z_le_dec cn_min (row_cn a' k)) as [H1|H1], (Z_le_dec (row_cn a' k) cn_max) as [H2|H2].
    2-4: right; exists k; split; [lia|lia].
    left. intros i Hi. destruct (Nat.eq_dec i k) as [->|Hne]; [lia|apply IH; lia]. }
  assert (HLC : length cls = length ts * W) by (unfold cls; rewrite prod_length, !seq_length; auto).
  assert (HCELL : forall i, i < natoms a -> (cn_min <= row_cn a i <= cn_max)%Z -> In (cell cn_min ts a i) cls).
  { intros i Hi Hb. unfold cls, cell. destruct (last_index_in (zat a i) ts) as [j Ej]; [apply HT; unfold zat; apply nth_In; auto|].
    rewrite Ej. apply last_index_ok in Ej. assert (j < length ts) by (apply nth_error_Some; congruence). apply in_prod; apply in_seq; unfold W; lia. }
  exists (cn_names cn_min cn_max ts). split; [unfold bag_element_cn_names; rewrite symbols_ok by auto; reflexivity|].
  split; [rewrite cn_names_length; reflexivity|]. split; [|split].
  - intros HB. eexists. split; [apply EIN; auto|]. split; [rewrite ENS, !map_length; auto|]. split.
    + intros k z cn E. rewrite ENS, nth_error_map in E. destruct (nth_error cls k) as [[j w]|] eqn:EK; [|discriminate]. cbn in E. injection E as <- <-.
      rewrite nth_error_map, EK. cbn. f_equal. apply filter_len_ext. intros i Hi. apply in_seq in Hi. specialize (HB i ltac:(lia)).
      assert (Hj : j < length ts /\ w < W) by (apply nth_error_In in EK; unfold cls in EK; apply in_prod_iff in EK as [A B]; apply in_seq in A, B; lia).
      destruct (last_index_in (zat a i) ts) as [j' Ej]; [apply HT; unfold zat; apply nth_In; unfold natoms in *; lia|].
      rewrite Ej. apply last_index_ok in Ej.
      assert (E1 : (j =? j') = (zat a i =? nth j ts 0)).
      { destruct (Nat.eqb_spec j j') as [->|Hne].
        - symmetry. apply Nat.eqb_eq. symmetry. apply nth_error_nth. auto.
        - symmetry. apply Nat.eqb_neq. intros E. apply Hne. rewrite NoDup_nth_error in HN. apply HN; [lia|]. rewrite Ej, (nth_error_nth' ts 0) by lia. congruence. }
      rewrite E1. f_equal. destruct (Z.eqb_spec (row_cn a i) (cn_min + Z.of_nat w)) as [E|E]; [apply Nat.eqb_eq; lia|apply Nat.eqb_neq; lia].
    + rewrite (sum_classes (fun u v : nat * nat => (fst u =? fst v) && (snd u =? snd v)) cls (cell cn_min ts a) (seq 0 (natoms a)) nat_pair_eqb_spec).
      * apply seq_length.
      * apply NoDup_prod; apply seq_NoDup.
      * intros i Hi. apply in_seq in Hi. apply HCELL; [lia|apply HB; lia].
  - intros HB. destruct (HDEC a) as [H|H]; [contradiction|]. rewrite cn_names_length. fold W. rewrite <- HLC. apply EOUT; auto.
  - pose proof (relabel_well_formed p a HP) as HW'. pose proof (relabel_natoms p a HP) as HA. pose proof (relabel_len p a HP) as HLp.
    assert (HT' : forall z, In z (numbers (relabel p a)) -> In z ts).
    { intros z Hz. apply HT. apply (Permutation_in _ (relabel_numbers p a HP)). auto. }
    destruct (HDEC a) as [HB|(i & Hi & Hn)].
    + assert (HB' : forall i, i < natoms (relabel p a) -> (cn_min <= row_cn (relabel p a) i <= cn_max)%Z).
      { intros i Hi. rewrite HA in Hi. rewrite row_cn_relabel by auto. apply HB. apply reordering_lt; auto. }
      rewrite (EIN _ HW' HT' HB'), (EIN _ HW HT HB). f_equal. f_equal. apply map_ext. intros [u v]. cbn [fst snd]. rewrite HA.
      rewrite <- (filter_len_perm (fun i => (u =? fst (cell cn_min ts a i)) && (v =? snd (cell cn_min ts a i))) _ _ HP).
      transitivity (length (filter (fun i => (u =? fst (cell cn_min ts a (nth i p 0))) && (v =? snd (cell cn_min ts a (nth i p 0)))) (seq 0 (natoms a)))).
      * apply filter_len_ext. intros i Hi. apply in_seq in Hi. unfold cell. rewrite relabel_zat, row_cn_relabel by (auto; lia). reflexivity.
      * rewrite <- (filter_len_map (fun i => nth i p 0) (fun i => (u =? fst (cell cn_min ts a i)) && (v =? snd (cell cn_min ts a i)))).
        rewrite <- HLp. pose proof (gather_seq 0 p) as HG. unfold gather in HG. rewrite HG. reflexivity.
    + rewrite (EOUT _ HW HT) by eauto. apply EOUT; auto. apply (reordering_in p a) in Hi; auto. apply (In_nth _ _ 0) in Hi as (k & Hk & Ek).
      exists k. rewrite HA. split; [lia|]. rewrite row_cn_relabel, Ek by (auto; lia). auto.
Qed.

(** * Bonds by elements and coordination numbers *)
Lemma node_eqb_spec x y : node_eqb x y = true <-> x = y.
Proof.
  destruct x as [a b], y as [c d]. unfold node_eqb. cbn. rewrite andb_true_iff, Nat.eqb_eq, Z.eqb_eq. split; [intros [-> ->]; auto|intros [= -> ->]; auto].
Qed.
Lemma node_leb_iff x y : node_leb x y = true <-> fst x < fst y \/ fst x = fst y /\ (snd x <= snd y)%Z.
Proof. unfold node_leb. rewrite orb_true_iff, andb_true_iff, Nat.ltb_lt, Nat.eqb_eq, Z.leb_le. reflexivity. Qed.
Lemma node_leb_total x y : node_leb x y = true \/ node_leb y x = true.
Proof. rewrite !node_leb_iff. lia. Qed.
Lemma node_leb_antisym x y : node_leb x y = true -> node_leb y x = true -> x = y.
Proof. rewrite !node_leb_iff. destruct x, y. cbn. intros. f_equal; lia. Qed.

Definition node_lt (x y : nat * Z) : Prop := fst x < fst y \/ fst x = fst y /\ (snd x < snd y)%Z.
Lemma sorted_app {A} (R : A -> A -> Prop) l l' : StronglySorted R l -> StronglySorted R l' -> (forall x y, In x l -> In y l' -> R x y) -> StronglySorted R (l ++ l').
Proof.
  induction 1 as [|x l HS IH HF]; intros HS' HR; [auto|]. cbn. constructor; [apply IH; auto; intros; apply HR; cbn; auto|].
  apply Forall_app. split; [auto|]. apply Forall_forall. intros y Hy. apply HR; cbn; auto.
Qed.
Lemma nodes_sorted_lt cn_min cn_max ts : increasing ts -> StronglySorted node_lt (nodes cn_min cn_max ts).
Proof.
  induction 1 as [|z l HS IH HF]; [constructor|]. cbn. apply sorted_app; [|exact IH|].
  - unfold rangeZ. rewrite map_map. generalize (Z.to_nat (cn_max + 1 - cn_min)) as k. intros k. generalize 0 as s. induction k as [|k IHk]; intros s; [constructor|].
    cbn. constructor; [apply IHk|]. apply Forall_forall. intros y Hy. apply in_map_iff in Hy as (j & <- & Hj). apply in_seq in Hj. right. cbn. lia.
  - intros x y Hx Hy. left. apply in_map_iff in Hx as (k & <- & _). unfold nodes in Hy. apply in_flat_map in Hy as (z' & Hz' & Hy). apply in_map_iff in Hy as (k' & <- & _).
    rewrite Forall_forall in HF. cbn. auto.
Qed.
Lemma sorted_nth_error {A} (R : A -> A -> Prop) l : StronglySorted R l -> forall i j x y, nth_error l i = Some x -> nth_error l j = Some y -> i < j -> R x y.
Proof.
  induction 1 as [|z l HS IH HF]; intros i j x y EI EJ Hij; [destruct i; discriminate|].
  destruct j as [|j]; [lia|]. cbn in EJ. destruct i as [|i]; cbn in EI.
  - injection EI as <-. rewrite Forall_forall in HF. apply HF. apply nth_error_In in EJ. auto.
  - apply (IH i j); auto. lia.
Qed.
Lemma nodes_length cn_min cn_max ts : length (nodes cn_min cn_max ts) = length ts * Z.to_nat (cn_max + 1 - cn_min).
Proof. unfold nodes. induction ts as [|z t IH]; [auto|]. cbn [flat_map length]. rewrite app_length, map_length, rangeZ_length, IH. lia. Qed.
Lemma nodes_in cn_min cn_max ts z cn : In (z, cn) (nodes cn_min cn_max ts) <-> In z ts /\ (cn_min <= cn <= cn_max)%Z.
Proof.
  unfold nodes. rewrite in_flat_map. split.
  - intros (z' & Hz & H). apply in_map_iff in H as (n & [= -> ->] & H). split; [auto|]. unfold rangeZ in H. apply in_map_iff in H as (k & <- & Hk). apply in_seq in Hk. lia.
  - intros [Hz Hc]. exists z. split; [auto|]. apply in_map_iff. exists cn. split; [auto|]. unfold rangeZ. apply in_map_iff. exists (Z.to_nat (cn - cn_min)). split; [lia|]. apply in_seq. lia.
Qed.

(** The coordination number without self connections. *)
Definition degree (a : struct) (i : nat) : Z := sumZ (map (cm a i) (filter (fun j => negb (i =? j)) (seq 0 (natoms a)))).
Lemma cn_of_degree a i : cn_of a i = degree a i.
Proof.
  unfold cn_of, degree. induction (seq 0 (natoms a)) as [|j l IH]; [reflexivity|]. cbn. destruct (i =? j); cbn; rewrite IH; auto.
Qed.
Lemma cn_of_relabel p a i : reordering p a -> i < natoms a -> cn_of (relabel p a) i = cn_of a (nth i p 0).
Proof.
  intros HP Hi. unfold cn_of. rewrite relabel_natoms by auto. pose proof (relabel_len p a HP) as HL.
  transitivity (sumZ (map (fun j => if nth i p 0 =? j then 0%Z else cm a (nth i p 0) j) p)).
  - f_equal. apply (list_ext_nth 0%Z); [rewrite !map_length, seq_length; auto|]. intros j Hj. rewrite map_length, seq_length in Hj.
    rewrite !(nth_map_lt _ _ _ 0) by (rewrite ?seq_length; lia). rewrite seq_nth by auto. cbn [Nat.add]. rewrite relabel_cm by lia.
    destruct (Nat.eqb_spec i j) as [->|Hne]; [rewrite Nat.eqb_refl; auto|]. destruct (Nat.eqb_spec (nth i p 0) (nth j p 0)) as [E|]; [|auto].
    exfalso. apply Hne. apply (reordering_inj p a); auto.
  - apply sumZ_perm, Permutation_map. auto.
Qed.

(** bag_edges_cn: one value per name, the number of bonds between atoms with the elements
    and coordination numbers of the name; the values add up to the number of bonds. *)
Theorem bag_edges_cn_counts : forall n cn_min cn_max ts a es, increasing ts -> (forall z, In z ts -> z < n) -> (cn_min <= cn_max + 1)%Z ->
  bond_list a es ->
  (forall r c, In (r, c) es -> In (zat a r) ts /\ In (zat a c) ts /\ (cn_min <= degree a r <= cn_max)%Z /\ (cn_min <= degree a c <= cn_max)%Z) ->
  exists v ns, bag_edges_cn n cn_min cn_max ts a = Ok v /\ bag_edges_cn_names n cn_min cn_max ts = Ok ns /\ length v = length ns /\
    (forall k z1 n1 z2 n2, nth_error ns k = Some (LNodes z1 n1 z2 n2) ->
       nth_error v k = Some (length (filter (fun e =>
         let is i z m := (zat a i =? z) && (degree a i =? m)%Z in
         (is (fst e) z1 n1 && is (snd e) z2 n2) || (is (fst e) z2 n2 && is (snd e) z1 n1)) es))) /\
    sum v = length es.
Proof.
  intros n cn_min cn_max ts a es HT HN HM HB HI. pose proof (bond_list_perm a es HB) as HP.
  set (ns := nodes cn_min cn_max ts).
  assert (HS : forall i j x y, nth_error ns i = Some x -> nth_error ns j = Some y -> i < j -> node_leb y x = false).
  { intros i j x y E1 E2 L. pose proof (sorted_nth_error _ _ (nodes_sorted_lt cn_min cn_max ts HT) i j x y E1 E2 L) as H.
    destruct (node_leb y x) eqn:E; [|auto]. apply node_leb_iff in E. unfold node_lt in H. lia. }
  destruct (pair_loop_counts node_eqb node_leb ns node_eqb_spec node_leb_total node_leb_antisym HS (fun i => (zat a i, cn_of a i)) (bonds a)) as (boc & EL & HC & HSum).
  { intros [r c] H. apply (Permutation_in _ (Permutation_sym HP)) in H. destruct (HI r c H) as (A & B & C & D). cbn. rewrite !cn_of_degree. unfold ns. rewrite !nodes_in. auto. }
  unfold bag_edges_cn, bag_edges_cn_names. rewrite symbols_ok by auto. cbn [bind]. fold ns. rewrite EL. cbn [bind].
  assert (HLN : Z.to_nat (Z.of_nat (length ts) * (cn_max - cn_min + 1)) = length ns).
  { unfold ns. rewrite nodes_length. rewrite Z2Nat.inj_mul by lia. rewrite Nat2Z.id. f_equal. f_equal. lia. }
  replace (Z.of_nat (length ts) * (cn_max - cn_min + 1) <? 0)%Z with false by (symmetry; apply Z.ltb_ge; nia).
  rewrite HLN. eexists; eexists. split; [reflexivity|]. split; [reflexivity|].
  split; [unfold triu_values; rewrite !map_length; auto|]. split.
  - intros k z1 n1 z2 n2 E. rewrite nth_error_map in E. destruct (nth_error (triu (length ns)) k) as [[i j]|] eqn:EK; [|discriminate]. cbn in E. injection E as <- <- <- <-.
    destruct (nth_error_triu _ _ _ _ EK) as [Hij Hj]. unfold triu_values. rewrite nth_error_map, EK. cbn. f_equal.
    rewrite (HC i j (nth i ns (0, 0%Z)) (nth j ns (0, 0%Z))) by (auto; apply nth_error_nth'; lia).
    rewrite (filter_len_perm _ _ _ HP). apply filter_len_ext. intros [r c] _. cbn. unfold node_eqb. cbn. rewrite !cn_of_degree. apply orb_comm.
  - rewrite HSum. symmetry. apply Permutation_length. auto.
Qed.

Theorem bag_edges_cn_order_independent : forall n cn_min cn_max ts a p, undirected a -> reordering p a ->
  bag_edges_cn n cn_min cn_max ts (relabel p a) = bag_edges_cn n cn_min cn_max ts a.
Proof.
  intros n cn_min cn_max ts a p HU HP. unfold bag_edges_cn. destruct (symbols n ts) as [ss|]; [|reflexivity]. cbn [bind].
  destruct (_ <? 0)%Z; [reflexivity|]. apply pair_loop_relabel.
  rewrite <- (Permutation_map (fun e => place node_eqb node_leb (nodes cn_min cn_max ss) (fun i => (zat a i, cn_of a i)) e) (bonds_relabel p a HP HU)), map_map.
  rewrite (map_ext_in _ (fun e => place node_eqb node_leb (nodes cn_min cn_max ss) (fun i => (zat a i, cn_of a i)) (old_bond p e))); [reflexivity|].
  intros [r c] H. cbv beta. rewrite (place_norm node_eqb node_leb) by (auto using node_leb_total, node_leb_antisym).
  apply bonds_in in H as [H _]. rewrite relabel_natoms in H by auto.
  apply place_ext; cbn [fst snd]; rewrite relabel_zat, cn_of_relabel by (auto; rewrite ?(relabel_len p a); auto; lia); reflexivity.
Qed.

(** ** A case: methane, with the carbon atom listed second *)
Definition methane : struct := Struct [1; 6; 1; 1; 1] [[0;1;0;0;0]; [1;0;1;1;1]; [0;1;0;0;0]; [0;1;0;0;0]; [0;1;0;0;0]]%Z.
Example methane_case : bag_edges [1; 6] methane = Ok [0; 4; 0] /\ bag_edges_names 119 [1; 6] = Ok [LPair 1 1; LPair 6 1; LPair 6 6] /\
  bag_element_cn 119 0 4 [1; 6] true methane = Ok (map Some [0;4;0;0;0; 0;0;0;0;1]) /\
  bag_edges_cn 119 1 1 [1; 6] methane = Err ValueError /\
  bag_element_cn 119 0 3 [1; 6] true methane = Ok (repeat None 8) /\ bag_element_cn 119 0 3 [1; 6] false methane = Err KeyError.
Proof. repeat split. Qed.
Example methane_relabelled : reordering [1; 0; 2; 3; 4] methane /\ undirected methane /\ well_formed methane /\ relabel [1; 0; 2; 3; 4] methane <> methane.
Proof.
  split; [apply perm_swap|]. split; [|split; [split; [reflexivity|]|discriminate]].
  - intros i j Hi Hj. change (natoms methane) with 5 in *. do 5 (destruct i as [|i]; [do 5 (destruct j as [|j]; [reflexivity|]); lia|]). lia.
  - intros row Hr. cbn in Hr. repeat destruct Hr as [<-|Hr]; try reflexivity. destruct Hr.
Qed.

Print Assumptions composition_counts.
Print Assumptions bag_elements_counts.
Print Assumptions bag_edges_counts.
Print Assumptions bag_edges_order_independent.
Print Assumptions bag_edges_unsorted_types_refuted.
Print Assumptions bag_element_cn_counts.
Print Assumptions bag_edges_cn_counts.
Print Assumptions bag_edges_cn_order_independent.
