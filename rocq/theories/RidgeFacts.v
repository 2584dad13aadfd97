(** From lists of rows to functions, and the coefficients as solutions. *)
From Coq Require Import Reals Lra Lia List Arith Bool.
From Verif Require Import Base BaseFacts RBase LinAlg KernModel KernProofs GPModel GPProofs RidgeModel RidgeProofs.
Import ListNotations.
Open Scope R_scope.

Lemma sumR_Sum {A} (f : A -> R) (l : list A) (dflt : A) : sumR (map f l) = Sum (length l) (fun i => f (nth i l dflt)).
Proof.
  induction l as [|a l IH]; [reflexivity|]. cbn [map length sumR]. rewrite Sum_S_first. cbn [nth]. rewrite IH. reflexivity.
Qed.

(** ** Specification *)
(** |X a - Y|^2 + w |a - p|^2 *)
Definition cost (X : list row) (Y : list R) (w p : R) (a : list R) : R :=
  sumR (map (fun q => (inner (fst q) a - snd q) ^ 2) (combine X Y)) + w * sumR (map (fun x => (x - p) ^ 2) a).

(** One and only one best coefficient vector. *)
Definition only_minimiser (X : list row) (Y : list R) (w p : R) (c : list R) : Prop :=
  length c = ncols X /\ forall a, length a = ncols X -> a <> c -> cost X Y w p c < cost X Y w p a.

(** A feature matrix with at least one row, and one target per row. *)
Definition data_ok (X : list row) (Y : list R) : Prop :=
  X <> [] /\ rectangular X (ncols X) /\ length X = length Y.

(** What numpy.linalg.svd promises for a square matrix. *)
Definition svd_contract (svd : matrix -> result (matrix * list R * matrix)) : Prop :=
  forall M V W Vh, svd M = Ok (V, W, Vh) -> nr M = nc M ->
    nr Vh = nr M /\ nc Vh = nr M /\ length W = nr M /\
    (forall x, In x W -> 0 <= x) /\
    orthogonal (nr M) (at_ V) /\ orthogonal (nr M) (at_ Vh) /\
    decomposes (nr M) (at_ M) (at_ V) (fun k => nth k W 0) (at_ Vh).

Lemma rect_row X D i : rectangular X D -> (i < length X)%nat -> length (row_at X i) = D.
Proof. intros H Hi. eapply Forall_forall in H; [exact H|]. apply nth_In. auto. Qed.

Definition vecf (a : list R) : vec := fun j => nth j a 0.

Lemma inner_fit X a i : rectangular X (ncols X) -> (i < length X)%nat -> length a = ncols X ->
  inner (row_at X i) a = fit (ncols X) (entry X) (vecf a) i.
Proof. intros HR Hi Ha. rewrite (inner_Sum _ _ (ncols X)); auto. apply rect_row; auto. Qed.

Lemma cost_costf X Y w p a : data_ok X Y -> length a = ncols X ->
  cost X Y w p a = costf (length X) (ncols X) (entry X) (vecf Y) w p (vecf a).
Proof.
  intros (_ & HR & HL) Ha. unfold cost, costf. rewrite (sumR_Sum _ (combine X Y) ([], 0)), (sumR_Sum _ a 0).
  rewrite combine_length, <- HL, Nat.min_id, Ha. f_equal. apply Sum_ext. intros i Hi.
  rewrite combine_nth by auto. cbn [fst snd]. change (nth i X []) with (row_at X i). rewrite inner_fit; auto.
Qed.

Lemma list_eq_vec (a b : list R) n : length a = n -> length b = n -> eqv n (vecf a) (vecf b) -> a = b.
Proof. intros Ha Hb H. apply nth_ext with 0 0; [congruence|]. intros i Hi. apply H. lia. Qed.

(** ** The Gram matrix *)
Lemma gram_symm X : symm (ncols X) (at_ (gram X)).
Proof. intros i j _ _. cbn. apply Sum_ext. intros; ring. Qed.

Lemma gram_mulv X v i : mulv (ncols X) (at_ (gram X)) v i = Sum (length X) (fun k => entry X k i * fit (ncols X) (entry X) v k).
Proof.
  unfold mulv, gram, at_. cbn. transitivity (Sum (ncols X) (fun j => Sum (length X) (fun k => entry X k i * (entry X k j * v j)))).
  - apply Sum_ext. intros j _. rewrite <- Sum_scal_r. apply Sum_ext. intros; ring.
  - rewrite Sum_swap. apply Sum_ext. intros k _. unfold fit. rewrite <- Sum_scal. auto.
Qed.

Lemma gram_psd X : possemidef (ncols X) (at_ (gram X)).
Proof.
  intros v. unfold quad. match goal with |- 0 <= ?t => replace t with (Sum (length X) (fun k => fit (ncols X) (entry X) v k ^ 2)) end.
  - apply Sum_nonneg. intros; nra.
  - transitivity (Sum (ncols X) (fun i => v i * mulv (ncols X) (at_ (gram X)) v i)).
    + transitivity (Sum (ncols X) (fun i => Sum (length X) (fun k => v i * entry X k i * fit (ncols X) (entry X) v k))).
      * rewrite Sum_swap. apply Sum_ext. intros k _. rewrite Sum_scal_r. unfold fit at 1. cbn [pow]. rewrite Rmult_1_r. f_equal.
        apply Sum_ext. intros; ring.
      * apply Sum_ext. intros i _. rewrite gram_mulv, <- Sum_scal. apply Sum_ext. intros; ring.
    + apply Sum_ext. intros i _. unfold mulv. rewrite <- Sum_scal. apply Sum_ext. intros; ring.
Qed.

Lemma grad_gram X Y w p v j : grad (length X) (ncols X) (entry X) (vecf Y) w p v j =
  mulv (ncols X) (at_ (gram X)) v j + w * v j - (xty X Y j + w * p).
Proof.
  unfold grad. rewrite gram_mulv. unfold xty.
  replace (Sum (length X) (fun i => entry X i j * (fit (ncols X) (entry X) v i - vecf Y i))) with
    (Sum (length X) (fun i => entry X i j * fit (ncols X) (entry X) v i) - Sum (length X) (fun k => entry X k j * nth k Y 0)); [ring|].
  rewrite <- Sum_minus. apply Sum_ext. intros. unfold vecf. ring.
Qed.

(** ** What RR solves *)
(** The numbers kept by the object belong to the matrix [X1]. *)
Definition kept (X1 : list row) (W : list R) (Vh : matrix) : Prop :=
  nr Vh = ncols X1 /\ nc Vh = ncols X1 /\ length W = ncols X1 /\ (forall x, In x W -> 0 <= x) /\
  orthogonal (ncols X1) (at_ Vh) /\
  decomposes (ncols X1) (at_ (gram X1)) (tr (at_ Vh)) (fun k => nth k W 0) (at_ Vh).

Lemma kept_svd svd X V W Vh : svd_contract svd -> svd (gram X) = Ok (V, W, Vh) -> kept X W Vh.
Proof.
  intros HC E. destruct (HC _ _ _ _ E eq_refl) as (A & B & C & D & F & G & H). cbn [nr gram] in *.
  split; [auto|]. split; [auto|]. split; [auto|]. split; [auto|]. split; [auto|].
  apply spectral with (V := at_ V); auto.
  - apply gram_symm.
  - apply gram_psd.
  - intros k Hk. apply D. apply nth_In. lia.
Qed.

Lemma inverse_solves X1 W Vh w b : kept X1 W Vh -> 0 < w ->
  let d := ncols X1 in
  let c i := Sum d (fun j => Sum d (fun k => at_ Vh k i * / (nth k W 0 + w) * at_ Vh k j) * b j) in
  forall j, (j < d)%nat -> mulv d (at_ (gram X1)) c j + w * c j = b j.
Proof.
  intros (A & B & C & D & F & G) Hw d c j Hj. fold d in A, B, C, F, G.
  set (Q := at_ Vh) in *. set (s := fun k => nth k W 0) in *. set (y := mulv d Q b).
  set (z := fun k => / (s k + w) * y k).
  assert (Hs : forall k, (k < d)%nat -> 0 < s k + w).
  { intros k Hk. assert (0 <= s k) by (apply D, nth_In; lia). lra. }
  assert (Ec : eqv d c (mulv d (tr Q) z)).
  { intros i Hi. unfold c, mulv, tr, z, y, mulv.
    transitivity (Sum d (fun j0 => Sum d (fun k => Q k i * / (s k + w) * Q k j0 * b j0))).
    - apply Sum_ext. intros j0 _. rewrite <- Sum_scal_r. auto.
    - rewrite Sum_swap. apply Sum_ext. intros k _. rewrite <- !Sum_scal. apply Sum_ext. intros; ring. }
  assert (Ez : eqv d (mulv d Q c) z).
  { intros k Hk. transitivity (mulv d Q (mulv d (tr Q) z) k); [|apply orth_r; auto].
    apply mulv_ext; auto. intros ? ? ? ?; auto. }
  rewrite (decomposes_mulv d _ _ _ _ c G j Hj), Ec by auto.
  rewrite <- mulv_scal, <- mulv_plus.
  transitivity (mulv d (tr Q) y j); [|unfold y; apply orth_l; auto].
  apply mulv_ext; [intros ? ? ? ?; auto| |auto]. intros k Hk. rewrite Ez by auto. unfold z.
  pose proof (Hs k Hk). field. lra.
Qed.

(** The object keeps nothing, or the decomposition for [X1]. *)
Definition remembers (r : ridge) (X1 : list row) : Prop :=
  r_W2 r = None \/ exists W Vh, r = Ridge (Some W) (Some Vh) /\ kept X1 W Vh.

Lemma use_svd_kept svd r X1 X r' W Vh : svd_contract svd -> remembers r X1 ->
  use_svd svd r X = Ok (r', W, Vh) ->
  r' = Ridge (Some W) (Some Vh) /\ (r_W2 r = None -> kept X W Vh) /\ (r_W2 r <> None -> kept X1 W Vh).
Proof.
  intros HC [HN|(W1 & Vh1 & -> & HK)] E.
  - unfold use_svd in E. rewrite HN in E. destruct (svd (gram X)) as [[[V W'] Vh']|] eqn:ES; [|discriminate].
    cbn in E. injection E as <- <- <-. split; [auto|]. split; [|contradiction]. intros _. eapply kept_svd; eauto.
  - cbn in E. injection E as <- <- <-. split; [auto|]. split; [discriminate|auto].
Qed.

Lemma RR_solves svd r X1 X Y w p fv r' c neff :
  svd_contract svd -> remembers r X1 -> (r_W2 r = None -> X = X1) -> 0 < w -> data_ok X Y ->
  RR svd r X Y w p fv = Ok (r', c, neff) ->
  length c = ncols X /\ ncols X1 = ncols X /\
  (forall j, (j < ncols X)%nat -> mulv (ncols X) (at_ (gram X1)) (vecf c) j + w * vecf c j = xty X Y j + w * p) /\
  (0 <= neff <= INR (ncols X)) /\
  (if fv then r_W2 r' = None else remembers r' X1).
Proof.
  intros HC HR HX Hw HD E. unfold RR in E. destruct (use_svd svd r X) as [[[r1 W] Vh]|] eqn:EU; [|discriminate]. cbn [bind] in E.
  destruct (use_svd_kept _ _ _ _ _ _ _ HC HR EU) as (-> & K1 & K2).
  assert (K : kept X1 W Vh). { destruct (r_W2 r); [apply K2; discriminate|]. rewrite <- HX by auto. auto. }
  clear K1 K2. destruct (negb _) eqn:EB; [discriminate|].
  apply negb_false_iff, andb_prop in EB as [EB B3]. apply andb_prop in EB as [B1 B2].
  apply Nat.eqb_eq in B1, B2, B3. pose proof K as (A & B & C & D & F & G).
  assert (Ed : ncols X1 = ncols X) by congruence.
  injection E as <- <- <-. split; [apply tabulate_length|]. split; [auto|]. split; [|split].
  - intros j Hj. pose proof (inverse_solves X1 W Vh w (fun j => xty X Y j + w * p) K Hw) as Q. cbv zeta in Q.
    rewrite Ed in Q. rewrite <- (Q j Hj). rewrite C, Ed.
    f_equal; [|f_equal].
    + apply mulv_ext; auto; [intros ? ? ? ?; auto|]. intros k Hk. unfold vecf. rewrite nth_tabulate by auto. auto.
    + unfold vecf. rewrite nth_tabulate by auto. auto.
  - rewrite C, Ed.
    assert (P : forall i, (i < ncols X)%nat -> 0 <= nth i W 0 * / (nth i W 0 + w) <= 1).
    { intros i Hi. assert (0 <= nth i W 0) by (apply D, nth_In; lia).
      assert (0 < / (nth i W 0 + w)) by (apply Rinv_0_lt_compat; lra).
      assert ((nth i W 0 + w) * / (nth i W 0 + w) = 1) by (apply Rinv_r; lra). nra. }
    split; [apply Sum_nonneg; intros; apply P; auto|].
    apply Rle_trans with (Sum (ncols X) (fun _ => 1)); [apply Sum_le; intros; apply P; auto|].
    clear. induction (ncols X) as [|k IH]; [cbn; lra|]. cbn [Sum]. rewrite S_INR. lra.
  - destruct fv; [reflexivity|]. right. eauto.
Qed.

Lemma solves_minimiser X Y w p c : data_ok X Y -> 0 < w -> length c = ncols X ->
  (forall j, (j < ncols X)%nat -> mulv (ncols X) (at_ (gram X)) (vecf c) j + w * vecf c j = xty X Y j + w * p) ->
  only_minimiser X Y w p c.
Proof.
  intros HD Hw Hc HE. split; [auto|]. intros a Ha Hne. rewrite !cost_costf by auto.
  assert (HG : forall j, (j < ncols X)%nat -> grad (length X) (ncols X) (entry X) (vecf Y) w p (vecf c) j = 0).
  { intros j Hj. rewrite grad_gram. rewrite HE by auto. ring. }
  destruct (stationary_min _ _ _ _ _ _ _ Hw HG (vecf a)) as [H1 H2].
  apply Rnot_le_lt. intros L. apply Hne. apply (list_eq_vec _ _ (ncols X)); auto.
Qed.

(** ** Leaving one row out *)
Definition without {A} (i : nat) (l : list A) : list A := firstn i l ++ skipn (S i) l.

Lemma sumR_without {A} (f : A -> R) : forall l i dflt, (i < length l)%nat ->
  sumR (map f (without i l)) = sumR (map f l) - f (nth i l dflt).
Proof.
  unfold without. induction l as [|a l IH]; intros i dflt Hi; [cbn in Hi; lia|].
  destruct i; [cbn [firstn skipn map app sumR nth]; lra|].
  change (firstn (S i) (a :: l) ++ skipn (S (S i)) (a :: l)) with (a :: (firstn i l ++ skipn (S i) l)).
  cbn [map sumR nth]. rewrite (IH i dflt) by (cbn in Hi; lia). lra.
Qed.

Lemma without_S {A} i (a : A) l : without (S i) (a :: l) = a :: without i l.
Proof. reflexivity. Qed.
Lemma without_nil {A} i : without i (@nil A) = [].
Proof. unfold without. rewrite firstn_nil, skipn_nil. reflexivity. Qed.
Lemma combine_nil_r {A B} (l : list A) : combine l (@nil B) = [].
Proof. destruct l; auto. Qed.

Lemma combine_without {A B} : forall i (l : list A) (m : list B), combine (without i l) (without i m) = without i (combine l m).
Proof.
  induction i as [|i IH]; intros [|x l] [|y m]; rewrite ?without_nil, ?combine_nil_r; auto.
  cbn [combine]. rewrite !without_S. cbn [combine]. rewrite IH. auto.
Qed.

Lemma cost_without X Y w p a i : data_ok X Y -> length a = ncols X -> (i < length X)%nat ->
  cost (without i X) (without i Y) w p a =
  costf (length X) (ncols X) (entry X) (vecf Y) w p (vecf a) - (fit (ncols X) (entry X) (vecf a) i - vecf Y i) ^ 2.
Proof.
  intros HD Ha Hi. rewrite <- cost_costf by auto. pose proof HD as (_ & HR & HL). unfold cost.
  rewrite combine_without, (sumR_without _ (combine X Y) i ([], 0)).
  2:{ rewrite combine_length, <- HL, Nat.min_id. auto. }
  rewrite combine_nth by auto. cbn [fst snd]. change (nth i X []) with (row_at X i). rewrite inner_fit by auto. unfold vecf. ring.
Qed.
