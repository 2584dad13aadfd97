(** Properties of the bootstrap estimate of ridge regression. *)
From Coq Require Import Reals Lra Lia List Arith Bool.
From Verif Require Import Base BaseFacts RBase LinAlg KernModel KernProofs GPModel GPProofs RidgeModel RidgeProofs RidgeFacts RidgeProperties BootModel.
Import ListNotations.
Open Scope R_scope.

Lemma mapM_spec {A B} (f : A -> result B) l out : mapM f l = Ok out -> Forall2 (fun x y => f x = Ok y) l out.
Proof.
  revert out. induction l as [|x l IH]; intros out H; cbn in H; [injection H as <-; constructor|].
  destruct (f x) as [y|] eqn:E; [|discriminate]. cbn in H. destruct (mapM f l) as [r|]; [|discriminate]. cbn in H. injection H as <-.
  constructor; auto.
Qed.

Lemma Forall2_nth_gen {A B} (P : A -> B -> Prop) l m da db : Forall2 P l m -> forall i, (i < length l)%nat -> P (nth i l da) (nth i m db).
Proof. induction 1 as [|x y l m H _ IH]; intros [|i] Hi; cbn in *; try lia; auto. apply IH. lia. Qed.

Lemma Forall2_len {A B} (P : A -> B -> Prop) l m : Forall2 P l m -> length l = length m.
Proof. induction 1; cbn; auto. Qed.

Lemma Forall2_weaken {A B} (P Q : A -> B -> Prop) l m : (forall x y, P x y -> Q x y) -> Forall2 P l m -> Forall2 Q l m.
Proof. intros H. induction 1; constructor; auto. Qed.

(** A solution with the decomposition of the Gram matrix of the same rows is ridge
    regression. *)
Lemma presvd_minimises svd X Y p w V W2 Vh c : svd_contract svd -> data_ok X Y -> 0 < w ->
  svd (gram X) = Ok (V, W2, Vh) -> rr_presvd X Y p w W2 Vh = Ok c -> only_minimiser X Y w p c.
Proof.
  intros HC HD Hw ES H.
  assert (E : exists r neff, RR svd (Ridge None None) X Y w p false = Ok (r, c, neff)).
  { unfold RR, use_svd. cbn [r_W2 r_Vh]. rewrite ES. cbn [bind]. unfold rr_presvd in H.
    destruct (negb _) eqn:EN; [discriminate|]. injection H as <-. eexists. eexists. reflexivity. }
  destruct E as (r & neff & E). destruct (ridge_minimises svd X Y w p false r c neff HC HD Hw E). auto.
Qed.

(** ** Specification *)
Definition avg (l : list R) : R := sumR l / INR (length l).
(** The squared error of the coefficients [a] for point [i]. *)
Definition sq_err (X : list row) (Y : list R) (i : nat) (a : list R) : R := (inner (row_at X i) a - nth i Y 0) ^ 2.
(** The numbers of the samples without point [i]. *)
Definition without_point (samples : list (list nat)) (i : nat) : list nat :=
  filter (fun k => negb (is_in i (nth k samples []))) (seq 0 (length samples)).

(** At least two samples of points of the data. *)
Definition samples_ok (n : nat) (samples : list (list nat)) : Prop :=
  (2 <= length samples)%nat /\ Forall (fun s => s <> [] /\ Forall (fun i => (i < n)%nat) s) samples.

Lemma is_in_spec i l : is_in i l = true <-> In i l.
Proof.
  unfold is_in. rewrite existsb_exists. split; [intros [x [H E]]; apply Nat.eqb_eq in E; subst; auto|].
  intros H. exists i. rewrite Nat.eqb_refl. auto.
Qed.

Lemma residuals_nth X Y a i : length X = length Y -> (i < length Y)%nat -> nth i (residuals X Y a) 0 = inner (row_at X i) a - nth i Y 0.
Proof.
  intros HL Hi. unfold residuals. rewrite (nth_map_lt _ _ _ ([], 0)) by (rewrite combine_length; lia).
  rewrite combine_nth by auto. reflexivity.
Qed.

Lemma filter_combine_seq {A B C} (g : B -> bool) (f : A -> C) (a : list A) (b : list B) da db : length a = length b ->
  map (fun q => f (fst q)) (filter (fun q => g (snd q)) (combine a b)) =
  map (fun k => f (nth k a da)) (filter (fun k => g (nth k b db)) (seq 0 (length b))).
Proof.
  revert b. induction a as [|x a IH]; intros [|y b] HL; try discriminate; [reflexivity|].
  cbn [combine filter snd length seq]. change (nth 0 (y :: b) db) with y. injection HL as HL.
  assert (E : map (fun k => f (nth k (x :: a) da)) (filter (fun k => g (nth k (y :: b) db)) (seq 1 (length b))) =
              map (fun k => f (nth k a da)) (filter (fun k => g (nth k b db)) (seq 0 (length b)))).
  { rewrite <- seq_shift. clear. generalize (seq 0 (length b)). intros l. induction l as [|k l IHl]; [reflexivity|]. cbn [map filter].
    change (nth (S k) (y :: b) db) with (nth k b db).
    destruct (g (nth k b db)); cbn [map]; [change (nth (S k) (x :: a) da) with (nth k a da); f_equal|]; exact IHl. }
  destruct (g y); cbn [map fst]; [change (nth 0 (x :: a) da) with x|]; rewrite E, <- IH by auto; reflexivity.
Qed.

Lemma all_some_map {A B} (f : A -> option B) (g : A -> B) l : (forall x, In x l -> f x = Some (g x)) -> all_some (map f l) = Some (map g l).
Proof.
  induction l as [|x l IH]; intros H; [reflexivity|]. cbn. rewrite H by (left; auto). rewrite IH; [reflexivity|]. intros y Hy. apply H. right; auto.
Qed.

Lemma nanmean_avg l : l <> [] -> nanmean l = Some (avg l).
Proof. destruct l; [congruence|]. reflexivity. Qed.

Lemma take_data_ok X Y s : data_ok X Y -> s <> [] -> Forall (fun i => (i < length X)%nat) s -> data_ok (take_rows X s) (take_values Y s) /\ ncols (take_rows X s) = ncols X.
Proof.
  intros (HN & HR & HL) Hs HF. assert (EN : ncols (take_rows X s) = ncols X).
  { destruct s as [|i s]; [congruence|]. cbn. apply Forall_cons_iff in HF. apply rect_row; tauto. }
  split; [|auto]. split; [destruct s; [congruence|discriminate]|]. split.
  - rewrite EN. unfold take_rows. apply Forall_map. eapply Forall_impl; [|exact HF]. cbn. intros i Hi. apply rect_row; auto.
  - unfold take_rows, take_values. rewrite !map_length. auto.
Qed.

Definition covered (n : nat) (samples : list (list nat)) : Prop := forall i, (i < n)%nat -> exists s, In s samples /\ ~ In i s.

Lemma without_nonempty n samples i : covered n samples -> (i < n)%nat -> without_point samples i <> [].
Proof.
  intros HC Hi E. destruct (HC i Hi) as [s [Hs Ni]]. destruct (In_nth _ _ [] Hs) as [k [Hk Ek]].
  assert (I0 : In k (without_point samples i)).
  { apply filter_In. split; [apply in_seq; lia|]. apply negb_true_iff. destruct (is_in i (nth k samples [])) eqn:Q; auto. apply is_in_spec in Q. congruence. }
  rewrite E in I0. destruct I0.
Qed.

Lemma ERR_value X Y a samples : length X = length Y -> Y <> [] -> length a = length samples -> covered (length Y) samples ->
  bootstrap_ERR (length Y) (map (residuals X Y) a) samples =
  Some (avg (map (fun i => avg (map (fun k => sq_err X Y i (nth k a [])) (without_point samples i))) (seq 0 (length Y)))).
Proof.
  intros HL HY Ha HC. unfold bootstrap_ERR.
  rewrite (all_some_map _ (fun i => avg (map (fun k => sq_err X Y i (nth k a [])) (without_point samples i)))).
  - apply nanmean_avg. destruct Y; [congruence|discriminate].
  - intros i Hi. apply in_seq in Hi.
    rewrite (filter_combine_seq (fun s => negb (is_in i s)) (fun e => nth i e 0 ^ 2) _ _ (residuals X Y []) []) by (rewrite map_length; auto).
    rewrite nanmean_avg.
    + f_equal. f_equal. apply map_ext_in. intros k Hk. apply filter_In in Hk. destruct Hk as [Hk _]. apply in_seq in Hk.
      rewrite (nth_map_lt _ _ _ []) by lia. rewrite residuals_nth by (auto; lia). reflexivity.
    + pose proof (without_nonempty _ _ i HC ltac:(lia)) as N. unfold without_point in N. destruct (filter _ _); [congruence|discriminate].
Qed.

Lemma samples_svd_spec svd X samples svds : samples_svd svd X samples = Ok svds ->
  Forall2 (fun s q => exists V, svd (gram (take_rows X s)) = Ok (V, fst q, snd q)) samples svds.
Proof.
  unfold samples_svd. destruct samples as [|s0 t]; [discriminate|]. set (l := s0 :: t). intros H. apply mapM_spec in H.
  eapply Forall2_weaken; [|exact H]. intros s q E. cbn beta in E. destruct (svd (gram (take_rows X s))) as [[[V W] Vh]|]; [|discriminate].
  cbn in E. injection E as <-. eexists. reflexivity.
Qed.

Lemma presvd_ok svd X Y p w V W2 Vh : svd_contract svd -> data_ok X Y -> svd (gram X) = Ok (V, W2, Vh) -> exists c, rr_presvd X Y p w W2 Vh = Ok c.
Proof.
  intros HC (_ & _ & HL) ES. destruct (HC _ _ _ _ ES eq_refl) as (A & B & C & _). cbn [nr nc gram] in A, B, C.
  unfold rr_presvd. rewrite A, B, C, HL, !Nat.eqb_refl. cbn. eauto.
Qed.

Lemma mapM_ok {A B} (f : A -> result B) l : (forall x, In x l -> exists y, f x = Ok y) -> exists r, mapM f l = Ok r.
Proof.
  induction l as [|x l IH]; intros H; cbn; [eauto|]. destruct (H x (or_introl eq_refl)) as [y ->]. cbn.
  destruct IH as [r ->]; [intros z Hz; apply H; right; auto|]. cbn. eauto.
Qed.

(** C262: the estimate for a regularization is the square root of 0.368 times the mean
    squared error of ridge regression on all points plus 0.632 times the mean over the
    points of the mean squared error for the point of the ridge regressions on the
    samples without it. *)
Theorem bootstrap_estimate : forall svd X Y p w samples V W2 Vh svds,
  svd_contract svd -> data_ok X Y -> 0 < w -> samples_ok (length Y) samples -> covered (length Y) samples ->
  svd (gram X) = Ok (V, W2, Vh) -> samples_svd svd X samples = Ok svds ->
  exists c a, only_minimiser X Y w p c /\ length a = length samples /\
    (forall k, (k < length samples)%nat -> only_minimiser (take_rows X (nth k samples [])) (take_values Y (nth k samples [])) w p (nth k a [])) /\
    bootstrap_calc X Y p w samples W2 Vh svds = Ok (Some (sqrt (368 / 1000 * avg (map (fun i => sq_err X Y i c) (seq 0 (length Y))) +
                    632 / 1000 * avg (map (fun i => avg (map (fun k => sq_err X Y i (nth k a [])) (without_point samples i))) (seq 0 (length Y)))))).
Proof.
  intros svd X Y p w samples V W2 Vh svds HC HD Hw [HS HF] HV ES EV. pose proof HD as (HN & HR & HL).
  unfold bootstrap_calc. destruct (presvd_ok svd X Y p w V W2 Vh HC HD ES) as [c Ec]. rewrite Ec. cbn [bind].
  destruct (Nat.eqb_spec (length samples) 1); [lia|]. apply samples_svd_spec in EV.
  destruct (mapM_ok (fun q : list nat * (list R * matrix) => rr_presvd (take_rows X (fst q)) (take_values Y (fst q)) p w (fst (snd q)) (snd (snd q))) (combine samples svds)) as [a Ea].
  { intros [s [Ws Vs]] Hq. cbn [fst snd]. pose proof (in_combine_l _ _ _ _ Hq) as Hs.
    rewrite Forall_forall in HF. destruct (HF s Hs) as [F1 F2]. rewrite <- HL in F2.
    assert (Q : exists V, svd (gram (take_rows X s)) = Ok (V, Ws, Vs)).
    { clear - EV Hq. induction EV as [|x y l m [V E] _ IH]; [destruct Hq|]. destruct Hq as [Hq|Hq]; [|auto]. injection Hq as -> ->. cbn [fst snd] in E. eauto. }
    destruct Q as [Vq Q]. eapply presvd_ok; [exact HC|apply take_data_ok; auto|exact Q]. }
  rewrite Ea. cbn [bind]. pose proof (Forall2_len _ _ _ EV) as L1. apply mapM_spec in Ea. pose proof (Forall2_len _ _ _ Ea) as L2.
  rewrite combine_length, <- L1, Nat.min_id in L2.
  assert (HY : Y <> []) by (intros ->; destruct X; [congruence|discriminate]).
  rewrite ERR_value by auto.
  exists c, a. split; [eapply presvd_minimises; eauto|]. split; [auto|]. split.
  - intros k Hk. pose proof (Forall2_nth_gen _ _ _ ([], ([], Vh)) [] Ea k) as Pk. rewrite combine_length, <- L1, Nat.min_id in Pk. specialize (Pk Hk).
    cbn beta in Pk. rewrite combine_nth in Pk by auto. cbn [fst snd] in Pk.
    destruct (Forall2_nth_gen _ _ _ [] ([], Vh) EV k Hk) as [Vk Ek].
    rewrite Forall_forall in HF. destruct (HF (nth k samples []) (nth_In _ _ Hk)) as [F1 F2]. rewrite <- HL in F2.
    eapply presvd_minimises; [exact HC|apply take_data_ok; auto|exact Hw|exact Ek|exact Pk].
  - f_equal. f_equal. f_equal. f_equal. f_equal. unfold avg. rewrite map_length, seq_length.
    assert (Lr : length (residuals X Y c) = length Y) by (unfold residuals; rewrite map_length, combine_length; lia).
    assert (E : map (fun i => sq_err X Y i c) (seq 0 (length Y)) = map (fun e => e ^ 2) (residuals X Y c)).
    { apply nth_ext with 0 0; [rewrite !map_length, seq_length; auto|]. intros i Hi. rewrite map_length, seq_length in Hi.
      rewrite (nth_map_lt _ _ _ 0%nat) by (rewrite seq_length; auto). rewrite seq_nth by auto.
      rewrite (nth_map_lt _ _ _ 0) by lia. rewrite residuals_nth by auto. reflexivity. }
    rewrite E. clear. unfold Rdiv. induction (residuals X Y c) as [|x l IH]; [cbn; lra|]. cbn [map sumR]. rewrite IH. ring.
Qed.

(** A point that is in every sample has no estimate. *)
Lemma uncovered_nan X Y p w samples W2 Vh svds e i : (i < length Y)%nat -> (forall s, In s samples -> In i s) ->
  bootstrap_calc X Y p w samples W2 Vh svds = Ok e -> e = None.
Proof.
  intros Hi HS H. unfold bootstrap_calc in H. destruct (rr_presvd X Y p w W2 Vh) as [c|]; [|discriminate]. cbn [bind] in H.
  destruct (length samples =? 1)%nat; [discriminate|]. destruct (mapM _ (combine samples svds)) as [a|]; [|discriminate]. cbn [bind] in H.
  injection H as <-. replace (bootstrap_ERR _ _ _) with (@None R); [reflexivity|]. symmetry. unfold bootstrap_ERR.
  replace (all_some _) with (@None (list R)); [reflexivity|]. symmetry.
  assert (G : forall l, In i l -> all_some (map (fun i => nanmean (map (fun q : list R * list nat => nth i (fst q) 0 ^ 2)
     (filter (fun q => negb (is_in i (snd q))) (combine (map (residuals X Y) a) samples)))) l) = None).
  { induction l as [|j l IH]; intros Hl; [destruct Hl|]. cbn [map all_some]. destruct Hl as [->|Hl].
    - replace (filter _ _) with (@nil (list R * list nat)); [reflexivity|]. symmetry.
      assert (F : forall z : list (list R * list nat), (forall q, In q z -> In i (snd q)) -> filter (fun q => negb (is_in i (snd q))) z = []).
      { clear. induction z as [|q z IH]; intros H; [reflexivity|]. cbn. rewrite (proj2 (is_in_spec i (snd q))) by (apply H; left; auto). cbn. apply IH.
        intros r Hr. apply H. right; auto. }
      apply F. intros [x y] Hq. apply in_combine_r in Hq. apply HS. auto.
    - rewrite (IH Hl). destruct (nanmean _); reflexivity. }
  apply G. apply in_seq. lia.
Qed.

Lemma choose_nan w l : choose ((w, None) :: l) = Some w.
Proof. reflexivity. Qed.

Lemma search_nan epe wsteps : forall rsteps w tried range width m,
  (forall v e, epe v = Ok e -> e = None) ->
  search epe rsteps wsteps ((w, None) :: tried) range width = Ok m -> m = Some w.
Proof.
  induction rsteps as [|r IH]; intros w tried range width m HE H; cbn [search] in H; [injection H as <-; reflexivity|].
  destruct (mapM _ range) as [es|]; [|discriminate]. cbn [bind] in H. change (((w, None) :: tried) ++ es) with ((w, @None R) :: (tried ++ es)) in H.
  rewrite choose_nan in H. apply (IH w (tried ++ es) _ _ m HE H).
Qed.

(** C263: if some point is in every bootstrap sample all estimates are nan, and the
    search returns the smallest regularization it tries, a millionth of half the
    smallest singular value, whatever the data are.  With one training point this is
    always so. *)
Theorem bootstrap_uncovered_refuted : forall svd X Y p samples wsteps rsteps r' m i V W2 Vh,
  (i < length Y)%nat -> (forall s, In s samples -> In i s) ->
  svd (gram X) = Ok (V, W2, Vh) ->
  find_bootstrap svd (Ridge None None) X Y p samples wsteps (S rsteps) = Ok (r', m) ->
  m = Some (/ 1000000 * exp (ln (last W2 0 * / 2))).
Proof.
  intros svd X Y p samples wsteps rsteps r' m i V W2 Vh Hi HS ES H. unfold find_bootstrap, use_svd in H. cbn [r_W2 r_Vh] in H.
  rewrite ES in H. cbn [bind] in H.
  set (epe := fun w => bind (samples_svd svd X samples) (fun svds => bootstrap_calc X Y p w samples W2 Vh svds)) in H.
  assert (HE : forall v e, epe v = Ok e -> e = None).
  { intros v e E. unfold epe in E. destruct (samples_svd svd X samples) as [svds|]; [|discriminate]. cbn [bind] in E. eapply uncovered_nan; eauto. }
  destruct (search _ (S rsteps) _ _ _ _) as [m0|] eqn:E0; [|discriminate]. cbn [bind] in H. injection H as _ <-.
  cbn [search] in E0. unfold first_range at 1 in E0. cbn [mapM] in E0.
  destruct (epe (/ 1000000 * exp (ln (last W2 0 * / 2)))) as [e|] eqn:E1; [|discriminate]. cbn [bind] in E0. apply HE in E1. subst e.
  destruct (mapM _ (map exp (linspace _ _ wsteps) ++ _)) as [es|]; [|discriminate]. cbn [bind app] in E0.
  rewrite choose_nan in E0. eapply search_nan; eauto.
Qed.

(** With two or more training points of which none is in every sample the search finds
    the best of all the regularizations it tries. *)
Lemma choose_best l m : (forall q, In q l -> snd q <> None) -> choose l = Some m ->
  exists e, In (m, Some e) l /\ forall w' e', In (w', Some e') l -> e <= e'.
Proof.
  intros HN H. assert (F : first_nan l = None).
  { clear H. induction l as [|[w [e|]] l IH]; [reflexivity| |exfalso; apply (HN (w, None)); [left; auto|reflexivity]].
    cbn. apply IH. intros q Hq. apply HN. right; auto. }
  unfold choose in H. rewrite F in H. destruct l as [|[w [e|]] t]; try discriminate. injection H as <-.
  assert (G : forall t w e, (forall q, In q t -> snd q <> None) ->
     exists e0, (smallest w e t = w /\ e0 = e \/ In (smallest w e t, Some e0) t) /\ e0 <= e /\ forall w' e', In (w', Some e') t -> e0 <= e').
  { clear. induction t as [|[w1 [e1|]] t IH]; intros w e HN; cbn [smallest].
    - exists e. split; [auto|]. split; [lra|]. intros ? ? [].
    - assert (HN' : forall q, In q t -> snd q <> None) by (intros q Hq; apply HN; right; auto).
      destruct (Rltb e1 e) eqn:E.
      + apply Rltb_true in E. destruct (IH w1 e1 HN') as [e0 [H1 [H2 H3]]]. exists e0. split; [|split; [lra|]].
        * right. destruct H1 as [[H1 ->]|H1]; [left; rewrite H1; auto|right; auto].
        * intros w' e' [Q|Q]; [injection Q as _ <-; auto|eauto].
      + apply Rltb_false in E. destruct (IH w e HN') as [e0 [H1 [H2 H3]]]. exists e0. split; [|split; [lra|]].
        * destruct H1 as [H1|H1]; [left; auto|right; right; auto].
        * intros w' e' [Q|Q]; [injection Q as _ <-; lra|eauto].
    - exfalso. apply (HN (w1, None)); [left; auto|reflexivity]. }
  destruct (G t w e) as [e0 [H1 [H2 H3]]]; [intros q Hq; apply HN; right; auto|]. exists e0. split.
  - destruct H1 as [[H1 ->]|H1]; [left; rewrite H1; auto|right; auto].
  - intros w' e' [Q|Q]; [injection Q as _ <-; auto|eauto].
Qed.

Lemma evaluated (epe : R -> result (option R)) range es : mapM (fun w => bind (epe w) (fun e => Ok (w, e))) range = Ok es ->
  map fst es = range /\ Forall (fun q => epe (fst q) = Ok (snd q)) es.
Proof.
  revert es. induction range as [|w t IH]; intros es H; cbn in H; [injection H as <-; auto|].
  destruct (epe w) as [e|] eqn:E; [|discriminate]. cbn in H. destruct (mapM _ t) as [r|]; [|discriminate]. cbn in H. injection H as <-.
  destruct (IH r eq_refl) as [H1 H2]. cbn. rewrite H1. auto.
Qed.

Definition known (epe : R -> result (option R)) (q : R * option R) : Prop := 0 < fst q /\ epe (fst q) = Ok (snd q).

Lemma search_best (epe : R -> result (option R)) (wsteps : nat) : (forall v, 0 < v -> forall e, epe v = Ok e -> e <> None) ->
  forall rsteps (tried : list (R * option R)) (range : list R) (width m : R),
  Forall (known epe) tried -> (forall v, In v range -> 0 < v) ->
  search epe (S rsteps) wsteps tried range width = Ok (Some m) ->
  exists all : list (R * option R), Forall (known epe) all /\ length all = (length tried + length range + rsteps * wsteps)%nat /\
    (exists more, map fst all = map fst tried ++ range ++ more) /\
    exists e, In (m, Some e) all /\ forall w' e', In (w', Some e') all -> e <= e'.
Proof.
  intros HE. induction rsteps as [|r IH]; intros tried range width m HT HR H; cbn [search] in H;
    destruct (mapM _ range) as [es|] eqn:EM; try discriminate; cbn [bind] in H; apply evaluated in EM; destruct EM as [M1 M2];
    assert (HA : Forall (known epe) (tried ++ es)).
  1,3: apply Forall_app; split; [auto|]; apply Forall_forall; intros q Hq; rewrite Forall_forall in M2; split; [|auto];
       apply HR; rewrite <- M1; apply in_map; auto.
  - destruct (choose (tried ++ es)) as [m1|] eqn:EC; [|discriminate]. injection H as H. replace m1 with m in EC by congruence. clear H.
    exists (tried ++ es). split; [auto|]. split; [rewrite app_length, <- M1, map_length; lia|]. split; [exists []; rewrite map_app, M1, app_nil_r; auto|].
    apply choose_best; auto. intros q Hq E. rewrite Forall_forall in HA. destruct (HA q Hq) as [A1 A2]. apply (HE _ A1 _ A2 E).
  - destruct (choose (tried ++ es)) as [m1|] eqn:EC; [|discriminate].
    set (width' := 2 * width / INR (wsteps - 1)) in *. set (range' := map exp (linspace _ _ wsteps)) in H.
    destruct (IH (tried ++ es) range' width' m HA) as (all & A1 & A2 & (more & A3) & A4); auto.
    { intros v Hv. unfold range' in Hv. apply in_map_iff in Hv. destruct Hv as [u [<- _]]. apply exp_pos. }
    exists all. split; [auto|]. split.
    + rewrite A2, app_length, <- M1, map_length. unfold range'. rewrite map_length, linspace_length. lia.
    + split; [|auto]. exists (range' ++ more). rewrite A3, map_app, M1, <- app_assoc. reflexivity.
Qed.

Lemma first_range_pos W2 wsteps v : In v (first_range W2 wsteps) -> 0 < v.
Proof.
  intros Hv. unfold first_range in Hv. destruct Hv as [<-|Hv]; [pose proof (exp_pos (ln (last W2 0 * / 2))); lra|].
  apply in_app_iff in Hv. destruct Hv as [Hv|[<-|[]]]; [|pose proof (exp_pos (ln (nth 0 W2 0 * 2))); lra].
  apply in_map_iff in Hv. destruct Hv as [u [<- _]]. apply exp_pos.
Qed.

(** C263: the regularization found has the smallest bootstrap estimate of all those
    tried, wsteps + 2 on a grid over the singular values and wsteps per refinement. *)
Theorem bootstrap_search : forall svd X Y p samples wsteps rsteps r' m V W2 Vh svds,
  svd_contract svd -> data_ok X Y -> samples_ok (length Y) samples -> covered (length Y) samples ->
  svd (gram X) = Ok (V, W2, Vh) -> samples_svd svd X samples = Ok svds ->
  find_bootstrap svd (Ridge None None) X Y p samples wsteps (S rsteps) = Ok (r', Some m) ->
  0 < m /\ exists tried, length tried = (wsteps + 2 + rsteps * wsteps)%nat /\ In m tried /\
    (exists more, tried = first_range W2 wsteps ++ more) /\
    (forall w, In w tried -> 0 < w) /\
    exists e, bootstrap_calc X Y p m samples W2 Vh svds = Ok (Some e) /\
      forall w, In w tried -> exists e', bootstrap_calc X Y p w samples W2 Vh svds = Ok (Some e') /\ e <= e'.
Proof.
  intros svd X Y p samples wsteps rsteps r' m V W2 Vh svds HC HD HS HV ES EV H. unfold find_bootstrap, use_svd in H. cbn [r_W2 r_Vh] in H.
  rewrite ES in H. cbn [bind] in H.
  set (epe := fun w => bind (samples_svd svd X samples) (fun svds => bootstrap_calc X Y p w samples W2 Vh svds)) in H.
  assert (EE : forall w, epe w = bootstrap_calc X Y p w samples W2 Vh svds) by (intros w; unfold epe; rewrite EV; reflexivity).
  assert (HE : forall v, 0 < v -> forall e, epe v = Ok e -> e <> None).
  { intros v Hv e E. rewrite EE in E. destruct (bootstrap_estimate svd X Y p v samples V W2 Vh svds HC HD Hv HS HV ES EV) as (c & a & _ & _ & _ & Q).
    rewrite Q in E. injection E as <-. discriminate. }
  destruct (search epe (S rsteps) wsteps [] (first_range W2 wsteps) _) as [m0|] eqn:E0; [|discriminate]. cbn [bind] in H. injection H as _ ->.
  pose proof (first_range_pos W2 wsteps) as P0.
  destruct (search_best epe wsteps HE rsteps [] (first_range W2 wsteps) _ m (Forall_nil _) P0 E0) as (all & A1 & A2 & (more & A3) & e & A4 & A5).
  assert (L0 : length (first_range W2 wsteps) = (wsteps + 2)%nat).
  { unfold first_range. cbn [length]. rewrite app_length, map_length, linspace_length. cbn. lia. }
  rewrite Forall_forall in A1.
  split; [destruct (A1 _ A4); auto|]. exists (map fst all). split; [rewrite map_length, A2, L0; cbn; lia|].
  split; [apply in_map_iff; exists (m, Some e); auto|]. split; [exists more; rewrite A3; reflexivity|]. split.
  - intros w Hw. apply in_map_iff in Hw. destruct Hw as [q [<- Hq]]. apply A1. auto.
  - exists e. destruct (A1 _ A4) as [_ B]. cbn in B. rewrite EE in B. split; [auto|].
    intros w Hw. apply in_map_iff in Hw. destruct Hw as [[w1 e1] [<- Hq]]. destruct (A1 _ Hq) as [B1 B2]. cbn [fst snd] in *.
    destruct e1 as [e1|]; [|exfalso; apply (HE _ B1 _ B2); reflexivity]. exists e1. rewrite <- EE. split; [auto|]. eapply A5; eauto.
Qed.

(** C263: a single bootstrap sample is an error, for any data. *)
Theorem bootstrap_one_sample_refuted : forall svd r X Y p s wsteps rsteps,
  exists e, find_bootstrap svd r X Y p [s] wsteps (S rsteps) = Err e.
Proof.
  intros svd r X Y p s wsteps rsteps. unfold find_bootstrap. destruct (use_svd svd r X) as [[[r1 W2] Vh]|]; cbn [bind]; [|eauto].
  cbn [search]. unfold first_range at 1. cbn [mapM].
  destruct (samples_svd svd X [s]) as [svds|]; cbn [bind]; [|eauto]. unfold bootstrap_calc at 1.
  destruct (rr_presvd _ _ _ _ _ _); cbn; eauto.
Qed.

(** C264: the samples are the same in every call, and so are the numbers the user draws
    afterwards, whatever state the global generator was in. *)
Theorem bootstrap_reproducible : forall state seed draw (g1 g2 : state) Nd Ns,
  snd (get_bootstrap_samples state seed draw g1 Nd Ns) = snd (get_bootstrap_samples state seed draw g2 Nd Ns).
Proof. reflexivity. Qed.

Theorem bootstrap_reseeds_refuted : forall state seed draw (g1 g2 : state) Nd Ns,
  fst (get_bootstrap_samples state seed draw g1 Nd Ns) = fst (get_bootstrap_samples state seed draw g2 Nd Ns).
Proof. reflexivity. Qed.

(** C265: whatever coefficients regularization returns are those of ridge regression
    for the regularization it returns, which is positive. *)
Lemma choose_in l m : choose l = Some m -> In m (map fst l).
Proof.
  intros H. unfold choose in H. destruct (first_nan l) as [w|] eqn:E.
  - injection H as <-. induction l as [|[v [e|]] t IH]; [discriminate| |]; cbn in *; [right; auto|left; congruence].
  - destruct l as [|[w [e|]] t]; try discriminate. injection H as <-. clear E.
    revert w e. induction t as [|[v [d|]] t IH]; intros w e; cbn [smallest]; [left; reflexivity| |].
    + destruct (Rltb d e); [right; apply IH|]. destruct (IH w e) as [H|H]; [left; auto|right; right; auto].
    + destruct (IH w e) as [H|H]; [left; auto|right; right; auto].
Qed.

Lemma search_pos epe wsteps : forall rsteps tried range width m,
  (forall v, In v (map fst tried) -> 0 < v) -> (forall v, In v range -> 0 < v) ->
  search epe rsteps wsteps tried range width = Ok (Some m) -> 0 < m.
Proof.
  induction rsteps as [|r IH]; intros tried range width m HT HR H; cbn [search] in H.
  - injection H as H. apply choose_in in H. auto.
  - destruct (mapM _ range) as [es|] eqn:EM; [|discriminate]. cbn [bind] in H. apply evaluated in EM. destruct EM as [M1 M2].
    destruct (choose _) as [m1|]; [|discriminate]. apply IH in H; auto.
    + intros v Hv. rewrite map_app, in_app_iff in Hv. destruct Hv as [Hv|Hv]; auto. apply HR. congruence.
    + intros v Hv. apply in_map_iff in Hv. destruct Hv as [u [<- _]]. apply exp_pos.
Qed.

Theorem regularization_consistent : forall svd X Y p samples wsteps rsteps fv r' c b,
  svd_contract svd -> data_ok X Y ->
  regularization svd (fun r => find_bootstrap svd r X Y p samples wsteps rsteps) (Ridge None None) X Y None fv = Ok (r', Some (c, b)) ->
  0 < b /\ only_minimiser X Y b 0 c /\
  exists s, find_bootstrap svd (Ridge None None) X Y p samples wsteps rsteps = Ok (s, Some b).
Proof.
  intros svd X Y p samples wsteps rsteps fv r' c b HC HD H. unfold regularization in H.
  destruct (find_bootstrap svd (Ridge None None) X Y p samples wsteps rsteps) as [[r [b0|]]|] eqn:E; try discriminate.
  cbn [bind snd fst] in H. destruct (RR svd r X Y b0 0 fv) as [[[r2 c2] n2]|] eqn:ER; [|discriminate]. cbn in H. injection H as _ -> ->.
  unfold find_bootstrap in E. destruct (use_svd svd (Ridge None None) X) as [[[q W] Vh]|] eqn:EU; [|discriminate]. cbn [bind] in E.
  destruct (use_svd_kept svd (Ridge None None) X X q W Vh HC ltac:(left; reflexivity) EU) as (-> & K & _).
  destruct (search _ _ _ _ _ _) as [m|] eqn:ES; [|discriminate]. cbn [bind] in E. injection E as <- ->.
  apply search_pos in ES; [|intros v []|apply first_range_pos]. split; [auto|].
  destruct (RR_solves svd _ X X Y b 0 fv r2 c n2 HC ltac:(right; eauto) ltac:(discriminate) ES HD ER) as (A & B & C & _).
  split; [apply solves_minimiser; auto|eauto].
Qed.

(** C265: given coefficients are not used: nothing is returned. *)
Theorem regularization_given_refuted : forall svd find r X Y c fv, regularization svd find r X Y (Some c) fv = Ok (r, None).
Proof. reflexivity. Qed.

(** C266: the list of leave-one-out errors has the error of each regularization, and
    needs at least one. *)
Theorem loocv_list_values : forall X Y p omegas U W,
  match loocv_list X Y p omegas U W with
  | Ok l => omegas <> [] /\ length l = length omegas /\ forall k, (k < length omegas)%nat -> nth k l 0 = loocv X Y p (nth k omegas 0) U W
  | Err _ => omegas = []
  end.
Proof.
  intros X Y p omegas U W. unfold loocv_list. destruct omegas as [|w t]; [reflexivity|]. split; [discriminate|]. split; [apply map_length|].
  intros k Hk. rewrite (nth_map_lt _ _ _ 0) by auto. reflexivity.
Qed.

(** Two points, two samples each with one of them. *)
Example two_points :
  samples_ok 2 [[0;0];[1;1]]%nat /\ covered 2 [[0;0];[1;1]]%nat /\ data_ok [[1];[1]] [1;3] /\
  exists V W2 Vh svds, svd_one (gram [[1];[1]]) = Ok (V, W2, Vh) /\ samples_svd svd_one [[1];[1]] [[0;0];[1;1]]%nat = Ok svds /\
  bootstrap_calc [[1];[1]] [1;3] 0 2 [[0;0];[1;1]]%nat W2 Vh svds = Ok (Some (sqrt (279/100))).
Proof.
  split; [split; [cbn; lia|repeat constructor; try discriminate; lia]|].
  split. { intros [|[|i]] Hi; [exists [1;1]%nat|exists [0;0]%nat|lia]; cbn; intuition lia. }
  split; [split; [discriminate|split; [repeat constructor|reflexivity]]|].
  unfold samples_svd, svd_one, gram. cbn -[Rle_dec].
  destruct (Rle_dec 0 _) as [H|H]; [|exfalso; apply H; unfold entry; cbn; lra].
  cbn -[Rle_dec]. repeat (destruct (Rle_dec _ _) as [?|N]; [|exfalso; apply N; unfold entry; cbn; lra]; cbn -[Rle_dec]).
  do 4 eexists. split; [reflexivity|]. split; [reflexivity|].
  unfold bootstrap_calc, rr_presvd, residuals, bootstrap_ERR. cbn. unfold xty, entry. cbn.
  f_equal. f_equal. f_equal. field.
Qed.

(** One training point: every sample has it. *)
Example one_point : (0 < length [5])%nat /\ (forall s, In s [[0];[0]]%nat -> In 0%nat s).
Proof. split; [cbn; lia|]. intros s [<-|[<-|[]]]; left; reflexivity. Qed.

Print Assumptions bootstrap_estimate.
Print Assumptions bootstrap_search.
Print Assumptions bootstrap_uncovered_refuted.
Print Assumptions bootstrap_one_sample_refuted.
Print Assumptions bootstrap_reproducible.
Print Assumptions bootstrap_reseeds_refuted.
Print Assumptions regularization_consistent.
Print Assumptions regularization_given_refuted.
Print Assumptions loocv_list_values.
