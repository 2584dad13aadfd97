(** Properties of geometry_hash. *)
From Coq Require Import String ZArith List Arith Bool Lia Permutation Sorting.Sorted DecimalString DecimalNat.
From Verif Require Import Base BaseFacts HashModel.
Import ListNotations.
Local Open Scope nat_scope.

(** ** Sorting *)
Lemma before_total : total_preorder before.
Proof.
  split.
  - intros [[a b] c] [[x y] z]. unfold before. lia.
  - intros [[a b] c] [[x y] z] [[p q] r]. unfold before. lia.
Qed.

Lemma before_antisym a b : before a b = true -> before b a = true -> a = b.
Proof. destruct a as [[a1 a2] a3], b as [[b1 b2] b3]. unfold before. intros. repeat f_equal; lia. Qed.

Lemma sorted_unique {A} (r : A -> A -> bool) l1 : forall l2, total_preorder r ->
  StronglySorted (rel r) l1 -> StronglySorted (rel r) l2 -> Permutation l1 l2 ->
  (forall a b, In a l1 -> In b l1 -> r a b = true -> r b a = true -> a = b) -> l1 = l2.
Proof.
  induction l1 as [|a l1 IH]; intros l2 T S1 S2 P U; [apply Permutation_nil in P; auto|].
  destruct l2 as [|b l2]; [symmetry in P; apply Permutation_nil in P; discriminate|].
  inversion S1 as [|? ? S1' F1]; inversion S2 as [|? ? S2' F2]; subst. rewrite Forall_forall in F1, F2.
  assert (E : a = b).
  { assert (Hb : In b (a :: l1)) by (eapply Permutation_in; [symmetry; exact P|left; auto]).
    assert (Ha : In a (b :: l2)) by (eapply Permutation_in; [exact P|left; auto]).
    apply U; [left; auto|auto| |].
    - destruct Hb as [->|Hb]; [apply (tp_refl T)|apply F1; auto].
    - destruct Ha as [->|Ha]; [apply (tp_refl T)|apply F2; auto]. }
  subst b. f_equal. apply IH; auto; [eapply Permutation_cons_inv; eauto|]. intros. apply U; auto; right; auto.
Qed.

Lemma isort_unique {A} (r : A -> A -> bool) l1 l2 : total_preorder r -> Permutation l1 l2 ->
  (forall a b, In a l1 -> In b l1 -> r a b = true -> r b a = true -> a = b) -> isort r l1 = isort r l2.
Proof.
  intros T P U. apply (sorted_unique r); auto; try (apply isort_sorted; auto).
  - rewrite !isort_perm. auto.
  - intros a b Ha Hb. apply U; apply (isort_in r); auto.
Qed.

Lemma insert_map {A B} (r : B -> B -> bool) (f : A -> B) x l : insert r (f x) (map f l) = map f (insert (fun a b => r (f a) (f b)) x l).
Proof. induction l as [|y t IH]; cbn; [auto|]. destruct (r (f x) (f y)); cbn; [auto|]. rewrite IH. auto. Qed.

Lemma isort_map {A B} (r : B -> B -> bool) (f : A -> B) l : isort r (map f l) = map f (isort (fun a b => r (f a) (f b)) l).
Proof. induction l as [|y t IH]; cbn; [auto|]. rewrite IH. apply insert_map. Qed.

Lemma insert_ext {A} (r s : A -> A -> bool) x l : (forall y, In y l -> r x y = s x y) -> insert r x l = insert s x l.
Proof. induction l as [|y t IH]; intros H; cbn; [auto|]. rewrite H by (left; auto). destruct (s x y); [auto|]. rewrite IH; [auto|]. intros. apply H. right. auto. Qed.

Lemma isort_ext {A} (r s : A -> A -> bool) l : (forall x y, In x l -> In y l -> r x y = s x y) -> isort r l = isort s l.
Proof.
  induction l as [|x t IH]; intros H; cbn; [auto|]. rewrite IH by (intros; apply H; right; auto).
  apply insert_ext. intros y Hy. apply isort_in in Hy. apply H; [left|right]; auto.
Qed.

Lemma combine_seq {A B} (l : list A) (m : list B) d e : length l = length m -> combine l m = map (fun i => (nth i l d, nth i m e)) (seq 0 (length l)).
Proof.
  revert m. induction l as [|a l IH]; intros [|b m] H; try discriminate; [auto|]. cbn [length combine seq map nth]. f_equal.
  rewrite <- seq_shift, map_map. apply IH. cbn in H. lia.
Qed.

(** ** Text *)
Lemma append_inj a : forall b x y, String.length a = String.length b -> (a ++ x)%string = (b ++ y)%string -> a = b /\ x = y.
Proof.
  induction a as [|c a IH]; intros [|d b] x y HL H; try discriminate; [auto|]. cbn in H. injection H as -> H.
  destruct (IH b x y) as [-> ->]; auto.
Qed.

Lemma append_same_left a x y : (a ++ x)%string = (a ++ y)%string -> x = y.
Proof. intros H. apply (append_inj a a x y) in H; tauto. Qed.

Lemma append_nil_r' s : (s ++ "")%string = s.
Proof. induction s; cbn; congruence. Qed.

Lemma str_inj i j : str i = str j -> i = j.
Proof.
  assert (N : forall i, Nat.to_uint i <> Decimal.Nil).
  { intros k H. pose proof (DecimalNat.Unsigned.of_to k) as E. rewrite H in E. cbn in E. subst k. discriminate. }
  unfold str. intros H. apply (f_equal NilZero.uint_of_string) in H. rewrite !NilZero.usu in H by auto.
  injection H as H. apply DecimalNat.Unsigned.to_uint_inj. auto.
Qed.

Lemma str_two i : 10 <= i < 100 -> String.length (str i) = 2.
Proof. intros H. do 100 (destruct i as [|i]; [cbn in *; lia || reflexivity|]). lia. Qed.

Lemma concat_cons a l : String.concat "" (a :: l) = (a ++ String.concat "" l)%string.
Proof. destruct l; cbn; auto. induction a as [|c a IH]; cbn; congruence. Qed.

Lemma concat_two l1 : forall l2, length l1 = length l2 -> Forall (fun z => 10 <= z < 100) l1 -> Forall (fun z => 10 <= z < 100) l2 ->
  String.concat "" (map str l1) = String.concat "" (map str l2) -> l1 = l2.
Proof.
  induction l1 as [|a l1 IH]; intros [|b l2] HL H1 H2 H; try discriminate; [auto|].
  apply Forall_cons_iff in H1. apply Forall_cons_iff in H2. destruct H1 as [Ha H1], H2 as [Hb H2].
  cbn [map] in H. rewrite !concat_cons in H. apply append_inj in H; [|rewrite !str_two; auto]. destruct H as [E H].
  apply str_inj in E. subst b. f_equal. apply IH; auto.
Qed.

(** ** Rounding *)
Lemma round3_mono x y : (x <= y)%Z -> (round3 x <= round3 y)%Z.
Proof.
  intros H. unfold round3. pose proof (Z.div_mod x 1000 ltac:(lia)) as Ex. pose proof (Z.div_mod y 1000 ltac:(lia)) as Ey.
  pose proof (Z.mod_pos_bound x 1000 ltac:(lia)) as Bx. pose proof (Z.mod_pos_bound y 1000 ltac:(lia)) as By.
  set (q := (x / 1000)%Z) in *. set (r := (x mod 1000)%Z) in *. set (q' := (y / 1000)%Z) in *. set (r' := (y mod 1000)%Z) in *.
  assert (C : (q < q' \/ (q = q' /\ r <= r'))%Z) by nia.
  destruct C as [C|[C C']]; [|rewrite <- C];
    repeat match goal with |- context [if ?b then _ else _] => destruct b eqn:? end; lia.
Qed.

Definition coordinate_z (v : vec) : Z := snd v.
(** Position to 3 decimal places. *)
Definition rounded (v : vec) : vec := match v with (x, y, z) => (round3 x, round3 y, round3 z) end.

Lemma before_rounded u v : round3 (coordinate_z u) <> round3 (coordinate_z v) -> before u v = (round3 (coordinate_z u) <? round3 (coordinate_z v))%Z.
Proof.
  destruct u as [[x y] z], v as [[x' y'] z']. cbn [coordinate_z snd before]. intros N.
  destruct (Z.ltb_spec (round3 z) (round3 z')) as [L|L].
  - assert (z < z')%Z by (destruct (Z_lt_le_dec z z') as [Q|Q]; auto; apply round3_mono in Q; lia). lia.
  - assert (z' < z)%Z by (destruct (Z_lt_le_dec z' z) as [Q|Q]; auto; apply round3_mono in Q; lia). lia.
Qed.

Lemma flat_rounded l : map round3 (flat l) = flat (map rounded l).
Proof. induction l as [|[[x y] z] t IH]; cbn; [auto|]. unfold flat in IH. rewrite IH. auto. Qed.

(** Rounding is to the nearest multiple of 0.001; of two equally near ones the even one. *)
Theorem rounding_is_nearest : forall x, (- 500 <= 1000 * round3 x - x <= 500)%Z /\ ((x mod 1000)%Z = 500%Z -> Z.even (round3 x) = true).
Proof.
  intros x. unfold round3. cbv zeta. pose proof (Z.div_mod x 1000 ltac:(lia)) as E. pose proof (Z.mod_pos_bound x 1000 ltac:(lia)) as B.
  destruct (Z.ltb_spec (x mod 1000) 500) as [H|H]; [split; lia|]. destruct (Z.ltb_spec 500 (x mod 1000)) as [H'|H']; [split; lia|].
  destruct (Z.even (x / 1000)) eqn:V; split; try lia; intros _; [auto|]. replace (x / 1000 + 1)%Z with (Z.succ (x / 1000)) by lia.
  rewrite Z.even_succ, <- Z.negb_even, V. auto.
Qed.

Section Properties.
Variable wrap : list vec -> vec -> vec.
Variable text : bool -> list Z -> string.
Variable md5 : string -> string.
Notation hash := (fun a => fst (geometry_hash wrap text md5 false a)).

(** The structure as a set of atoms: wrapped position and element. *)
Definition atoms_of (a : structure) : list (vec * nat) := combine (map (wrap (cell a)) (positions a)) (numbers a).

(** The order of the atoms, and that of the cell vectors, does not matter when no two atoms
    share a position. *)
Theorem hash_order : forall a b,
  length (positions a) = length (numbers a) -> length (positions b) = length (numbers b) ->
  Permutation (cell a) (cell b) -> Permutation (atoms_of a) (atoms_of b) -> NoDup (map (wrap (cell a)) (positions a)) ->
  hash a = hash b /\ exists s, hash a = Ok s.
Proof.
  intros a b La Lb HC HP ND. split; [|eexists; reflexivity]. unfold geometry_hash. cbn [fst]. do 2 f_equal.
  replace (isort before (cell b)) with (isort before (cell a)).
  2:{ apply isort_unique; auto using before_total. intros. apply before_antisym; auto. }
  unfold sorted_atoms. fold (atoms_of a) (atoms_of b).
  replace (isort (fun x y => before (fst x) (fst y)) (atoms_of b)) with (isort (fun x y => before (fst x) (fst y)) (atoms_of a)); [auto|].
  apply isort_unique; auto.
  - destruct before_total as [T1 T2]. split; [intros; apply T1|intros x y z; apply T2].
  - intros x y Hx Hy H1 H2. assert (E : fst x = fst y) by (apply before_antisym; auto). clear - Hx Hy E ND La.
    apply (In_nth _ _ ((0, 0, 0)%Z, 0)) in Hx. apply (In_nth _ _ ((0, 0, 0)%Z, 0)) in Hy. destruct Hx as (i & Hi & <-), Hy as (j & Hj & <-).
    unfold atoms_of in *. rewrite combine_length, map_length in *. rewrite !combine_nth in * by (rewrite map_length; auto). cbn [fst] in E.
    rewrite NoDup_nth in ND. rewrite map_length in ND. apply ND in E; [subst; auto|lia|lia].
Qed.

(** Elements: with equal positions, fewer than 1001 atoms and atomic numbers of two digits the
    hashed text differs for different elements. *)
Theorem hash_elements_partial : forall c pos z1 z2,
  length z1 = length pos -> length z2 = length pos -> length pos <= 1000 ->
  Forall (fun z => 10 <= z < 100) z1 -> Forall (fun z => 10 <= z < 100) z2 -> (forall s t, md5 s = md5 t -> s = t) ->
  hash (Structure c pos z1) = hash (Structure c pos z2) -> z1 = z2.
Proof.
  intros c pos z1 z2 L1 L2 LP F1 F2 INJ H. unfold geometry_hash in H. cbn [fst cell positions numbers] in H.
  injection H as H. apply INJ in H. apply append_same_left in H. set (p := map (wrap c) pos) in *.
  assert (Lp : length p = length pos) by (apply map_length).
  set (o := isort (fun i j => before (nth i p (0, 0, 0)%Z) (nth j p (0, 0, 0)%Z)) (seq 0 (length p))).
  assert (E : forall z, length z = length p -> sorted_atoms p z = map (fun i => (nth i p (0, 0, 0)%Z, nth i z 0)) o).
  { intros z Lz. unfold sorted_atoms. rewrite (combine_seq p z (0, 0, 0)%Z 0) by auto. rewrite isort_map. reflexivity. }
  rewrite !E in H by lia. rewrite !map_map in H. cbn [fst snd] in H. apply append_same_left in H.
  assert (Po : Permutation o (seq 0 (length p))) by apply isort_perm.
  assert (Lo : length o = length p) by (rewrite (Permutation_length Po); apply seq_length).
  unfold int_text in H. unfold shown, long in H. rewrite !map_length in H. rewrite Lo, Lp in H.
  assert (B : (1000 <? length pos) = false) by (apply Nat.ltb_ge; auto). rewrite B in H. cbn [fst snd] in H.
  assert (G : map (fun i => nth i z1 0) o = map (fun i => nth i z2 0) o).
  { apply concat_two; [rewrite !map_length; auto| | |].
    - apply Forall_map, Forall_forall. intros i Hi. apply (Permutation_in _ Po), in_seq in Hi. rewrite Forall_forall in F1. apply F1, nth_In. lia.
    - apply Forall_map, Forall_forall. intros i Hi. apply (Permutation_in _ Po), in_seq in Hi. rewrite Forall_forall in F2. apply F2, nth_In. lia.
    - cbn [map String.concat append] in H. rewrite !append_nil_r' in H. exact H. }
  apply (nth_ext _ _ 0 0); [lia|]. intros i Hi. assert (I : In i o) by (apply (Permutation_in _ (Permutation_sym Po)), in_seq; lia).
  exact (proj1 map_ext_in_iff G i I).
Qed.

(** Positions to 3 decimal places: when no two atoms share their rounded height, the hash
    depends on the rounded positions only. *)
Theorem hash_rounding_partial : forall c pos1 pos2 z, length z = length pos1 ->
  map (fun v => rounded (wrap c v)) pos1 = map (fun v => rounded (wrap c v)) pos2 ->
  NoDup (map (fun v => round3 (coordinate_z (wrap c v))) pos1) ->
  hash (Structure c pos1 z) = hash (Structure c pos2 z).
Proof.
  intros c pos1 pos2 z Lz HR ND. assert (L2 : length pos1 = length pos2) by (apply (f_equal (@length _)) in HR; rewrite !map_length in HR; auto).
  unfold geometry_hash. cbn [fst cell positions numbers]. do 3 f_equal.
  set (p1 := map (wrap c) pos1). set (p2 := map (wrap c) pos2).
  assert (L1 : length p1 = length pos1) by apply map_length. assert (L2' : length p2 = length pos1) by (unfold p2; rewrite map_length; auto).
  assert (R : map rounded p1 = map rounded p2) by (unfold p1, p2; rewrite !map_map; auto).
  assert (N1 : forall i, i < length pos1 -> rounded (nth i p1 (0, 0, 0)%Z) = rounded (nth i p2 (0, 0, 0)%Z)).
  { intros i Hi. apply (f_equal (fun l => nth i l (rounded (0, 0, 0)%Z))) in R. rewrite !map_nth in R. auto. }
  assert (Z1 : forall i, i < length pos1 -> round3 (coordinate_z (nth i p1 (0, 0, 0)%Z)) = round3 (coordinate_z (nth i p2 (0, 0, 0)%Z))).
  { intros i Hi. specialize (N1 i Hi). destruct (nth i p1 (0, 0, 0)%Z) as [[a b] d], (nth i p2 (0, 0, 0)%Z) as [[a' b'] d']. cbn in *. congruence. }
  assert (D : forall i j, i < length pos1 -> j < length pos1 -> round3 (coordinate_z (nth i p1 (0, 0, 0)%Z)) = round3 (coordinate_z (nth j p1 (0, 0, 0)%Z)) -> i = j).
  { intros i j Hi Hj E. rewrite NoDup_nth in ND. rewrite map_length in ND. apply ND; auto.
    assert (K : forall i, i < length pos1 -> nth i (map (fun v => round3 (coordinate_z (wrap c v))) pos1) 0%Z = round3 (coordinate_z (nth i p1 (0, 0, 0)%Z))).
    { intros k Hk. rewrite (nth_map_lt _ _ _ (0, 0, 0)%Z) by auto. unfold p1. rewrite (nth_map_lt _ _ _ (0, 0, 0)%Z) by auto. auto. }
    rewrite !K by auto. auto. }
  unfold sorted_atoms. rewrite (combine_seq p1 z (0, 0, 0)%Z 0), (combine_seq p2 z (0, 0, 0)%Z 0) by lia. rewrite L1, L2', !isort_map. cbn [fst].
  rewrite (isort_ext (fun a b => before (nth a p2 (0, 0, 0)%Z) (nth b p2 (0, 0, 0)%Z)) (fun a b => before (nth a p1 (0, 0, 0)%Z) (nth b p1 (0, 0, 0)%Z))).
  - set (o := isort _ _). rewrite !map_map. cbn [snd fst]. f_equal. unfold float_text.
    replace (map round3 (flat (map (fun x => nth x p2 (0, 0, 0)%Z) o))) with (map round3 (flat (map (fun x => nth x p1 (0, 0, 0)%Z) o))); [auto|].
    rewrite !flat_rounded, !map_map. f_equal. apply map_ext_in. intros i Hi. apply isort_in, in_seq in Hi. apply N1. lia.
  - intros i j Hi Hj. apply in_seq in Hi. apply in_seq in Hj. destruct (Nat.eq_dec i j) as [<-|N].
    + destruct before_total as [T _]. destruct (T (nth i p2 (0, 0, 0)%Z) (nth i p2 (0, 0, 0)%Z)) as [->| ->]; destruct (T (nth i p1 (0, 0, 0)%Z) (nth i p1 (0, 0, 0)%Z)) as [->| ->]; auto.
    + rewrite !before_rounded, !Z1 by (rewrite <- ?Z1 by lia; intros E; apply N, D; auto; lia) || lia. auto.
Qed.

(** Python 3 supports no call at all. *)
Theorem hash_python3_refuted : forall a, fst (geometry_hash wrap text md5 true a) = Err TypeError.
Proof. reflexivity. Qed.

(** H below Na and Na below H, in the same positions, have the same hash. *)
Theorem hash_elements_refuted : forall c, (forall v, wrap c v = v) -> exists pos z1 z2,
  length pos = length z1 /\ NoDup pos /\ z1 <> z2 /\ hash (Structure c pos z1) = hash (Structure c pos z2).
Proof.
  intros c W. exists [(0, 0, 0)%Z; (0, 0, 2000000)%Z], [1; 11], [11; 1]. split; [auto|]. split; [repeat constructor; cbn; intuition discriminate|].
  split; [discriminate|]. unfold geometry_hash. cbn [fst cell positions numbers map]. rewrite !W. reflexivity.
Qed.

(** Positions that agree to 3 decimal places give different texts. *)
Theorem hash_rounding_refuted : forall c, (forall v, wrap c v = v) -> (forall s t, md5 s = md5 t -> s = t) ->
  String.length (text false [0; 0; 0; 1000; 0; 0]%Z) = String.length (text false [1000; 0; 0; 0; 0; 0]%Z) ->
  text false [0; 0; 0; 1000; 0; 0]%Z <> text false [1000; 0; 0; 0; 0; 0]%Z -> exists pos1 pos2 z,
  map rounded pos1 = map rounded pos2 /\ hash (Structure c pos1 z) <> hash (Structure c pos2 z).
Proof.
  intros c W INJ HL HT. exists [(0, 0, 100)%Z; (1000000, 0, 200)%Z], [(0, 0, 200)%Z; (1000000, 0, 100)%Z], [1; 1]. split; [reflexivity|].
  unfold geometry_hash. cbn [fst cell positions numbers map]. rewrite !W. intros H. injection H as H. apply INJ, append_same_left, append_inj in H.
  - apply HT. exact (proj1 H).
  - exact HL.
Qed.

(** A chain of 400 atoms with one atom in the middle displaced by 1 Angstrom. *)
Definition chain (displaced : bool) : list vec :=
  map (fun i => ((if displaced && Nat.eqb i 200 then 1000000 else 0)%Z, 0%Z, (2000000 * Z.of_nat i)%Z)) (seq 0 400).
Theorem hash_large_refuted : forall c, (forall v, wrap c v = v) ->
  chain true <> chain false /\ hash (Structure c (chain true) (repeat 79 400)) = hash (Structure c (chain false) (repeat 79 400)).
Proof.
  intros c W. split; [intros H; apply (f_equal (fun l => nth 200 l (0, 0, 0)%Z)) in H; vm_compute in H; discriminate|].
  unfold geometry_hash. cbn [fst cell positions numbers].
  assert (E : forall l, map (wrap c) l = l) by (intros l; rewrite (map_ext _ (fun v => v)) by auto; apply map_id). rewrite !E.
  unfold float_text.
  assert (A : forall b, long (map round3 (flat (map fst (sorted_atoms (chain b) (repeat 79 400))))) = true) by (intros []; vm_compute; reflexivity).
  assert (B : shown (map round3 (flat (map fst (sorted_atoms (chain true) (repeat 79 400))))) = shown (map round3 (flat (map fst (sorted_atoms (chain false) (repeat 79 400)))))) by (vm_compute; reflexivity).
  assert (C : map snd (sorted_atoms (chain true) (repeat 79 400)) = map snd (sorted_atoms (chain false) (repeat 79 400))) by (vm_compute; reflexivity).
  cbv zeta. rewrite !A, B, C. reflexivity.
Qed.

(** The structure passed in comes out wrapped into its cell. *)
Theorem hash_argument : forall p3 a, snd (geometry_hash wrap text md5 p3 a) = Structure (cell a) (map (wrap (cell a)) (positions a)) (numbers a).
Proof. reflexivity. Qed.
End Properties.

(** Wrapping into an orthorhombic cell of given edges. *)
Definition ortho_wrap (c : list vec) (v : vec) : vec :=
  match c, v with [(a, _, _); (_, b, _); (_, _, d)], (x, y, z) => (x mod a, y mod b, z mod d)%Z | _, _ => v end.

Theorem hash_argument_refuted : forall text md5 p3, exists a, snd (geometry_hash ortho_wrap text md5 p3 a) <> a.
Proof.
  intros text md5 p3. exists (Structure [(5000000, 0, 0); (0, 5000000, 0); (0, 0, 5000000)]%Z [(6000000, 0, 0)%Z] [1]).
  rewrite hash_argument. intros H. vm_compute in H. discriminate.
Qed.

(** Two listings of a CO molecule in a box, with the cell vectors listed differently. *)
Example hash_example : forall md5 text,
  let a := Structure [(5000000, 0, 0); (0, 6000000, 0); (0, 0, 7000000)]%Z [(0, 0, 0); (0, 0, 1128000)]%Z [6; 8] in
  let b := Structure [(5000000, 0, 0); (0, 6000000, 0); (0, 0, 7000000)]%Z [(0, 0, 8128000); (5000000, 0, 0)]%Z [8; 6] in
  fst (geometry_hash ortho_wrap text md5 false a) = fst (geometry_hash ortho_wrap text md5 false b).
Proof.
  intros md5 text a b. apply hash_order; auto.
  - apply perm_swap.
  - repeat constructor; cbn; intuition discriminate.
Qed.

Example elements_example : Forall (fun z => 10 <= z < 100) [78; 29] /\ length [78; 29] <= 1000.
Proof. repeat constructor; lia. Qed.

(** numpy's texts of the two arrays of [hash_rounding_refuted] are 000100 and 100000. *)
Example rounding_example : let text (b : bool) l := String.concat "" (map (fun z => str (Z.to_nat (z / 1000))) l) in
  String.length (text false [0; 0; 0; 1000; 0; 0]%Z) = String.length (text false [1000; 0; 0; 0; 0; 0]%Z) /\
  text false [0; 0; 0; 1000; 0; 0]%Z <> text false [1000; 0; 0; 0; 0; 0]%Z.
Proof. split; [reflexivity|discriminate]. Qed.

Print Assumptions hash_order.
Print Assumptions hash_elements_partial.
Print Assumptions hash_rounding_partial.
Print Assumptions hash_python3_refuted.
Print Assumptions hash_elements_refuted.
Print Assumptions hash_rounding_refuted.
Print Assumptions hash_large_refuted.
Print Assumptions hash_argument.
Print Assumptions hash_argument_refuted.
Print Assumptions rounding_is_nearest.
