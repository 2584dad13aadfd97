(** Proofs about kernel_scaling. *)
From Coq Require Import Reals Lra Lia List Arith Bool.
From Verif Require Import Base BaseFacts RBase LinAlg KernModel KernProofs KernSetupProofs KernDefProofs.
Import ListNotations.
Open Scope R_scope.

(** The entries of a standardized row: (x - mean) / std. *)
Definition standard_row (mean std x : row) : row :=
  map (fun d => (nth d x 0 - nth d mean 0) / nth d std 0) (seq 0 (length x)).
Definition standard_rows (mean std : row) (m : list row) : list row := map (standard_row mean std) m.

Lemma nth_standard mean std x d : (d < length x)%nat ->
  nth d (standard_row mean std x) 0 = (nth d x 0 - nth d mean 0) / nth d std 0.
Proof. intros H. unfold standard_row. rewrite (nth_map_lt _ _ _ 0%nat) by (rewrite seq_length; auto). rewrite seq_nth by auto. auto. Qed.

Lemma standard_length mean std x : length (standard_row mean std x) = length x.
Proof. unfold standard_row. rewrite map_length, seq_length. auto. Qed.

Lemma take_nth l f r : take l f = Ok r -> forall d, (d < length f)%nat -> nth d r 0 = nth (nth d f 0%nat) l 0 /\ (nth d f 0 < length l)%nat.
Proof.
  revert r; induction f as [|i f IH]; intros r H d Hd; cbn [take] in H; [cbn in Hd; lia|].
  unfold item in H. destruct (nth_error l i) as [x|] eqn:Ex; [|discriminate]. cbn [bind] in H.
  destruct (take l f) as [r'|] eqn:Er; [|discriminate]. injection H as <-.
  destruct d as [|d]; cbn [nth].
  - split; [symmetry; apply nth_error_nth; auto|]. apply nth_error_Some. congruence.
  - apply IH; auto. cbn in Hd. lia.
Qed.

Lemma nth_broadcast f x w r : broadcast f x w = Ok r -> forall d, length x = length w ->
  (d < length x)%nat -> nth d r 0 = f (nth d x 0) (nth d w 0).
Proof.
  intros H d HL Hd. unfold broadcast in H. rewrite HL, Nat.eqb_refl in H. injection H as <-.
  rewrite (nth_map_lt _ _ _ (0, 0)) by (rewrite combine_length; lia). rewrite combine_nth by auto. reflexivity.
Qed.

Lemma broadcast_same f x w : length x = length w -> exists r, broadcast f x w = Ok r /\ length r = length x.
Proof.
  intros H. unfold broadcast. rewrite H, Nat.eqb_refl. eexists. split; [reflexivity|]. rewrite map_length, combine_length. lia.
Qed.

(** Dividing the standardized rows by the scaled widths. *)
Lemma scaled_difference mean std x y w w' x1 y1 x2 y2 :
  length w = length x -> length y = length x -> length std = length x ->
  Forall (fun s => s <> 0) std -> Forall (fun s => s <> 0) w ->
  broadcast Rdiv w std = Ok w' ->
  broadcast Rdiv x w = Ok x1 -> broadcast Rdiv y w = Ok y1 ->
  broadcast Rdiv (standard_row mean std x) w' = Ok x2 -> broadcast Rdiv (standard_row mean std y) w' = Ok y2 ->
  sqeuclidean x2 y2 = sqeuclidean x1 y1.
Proof.
  intros Lw Ly Ls Hs Hw Ew Ex1 Ey1 Ex2 Ey2.
  assert (Lw' : length w' = length x).
  { apply broadcast_length in Ew. rewrite Ew, Lw, Ls, Nat.eqb_refl. auto. }
  assert (L : forall u v r, length u = length v -> broadcast Rdiv u v = Ok r -> length r = length v).
  { intros u v r Hu E. apply broadcast_length in E. rewrite E, Hu, Nat.eqb_refl. auto. }
  rewrite !(sqeuclidean_Sum _ _ (length x)).
  - apply Sum_ext. intros d Hd.
    rewrite (nth_broadcast _ _ _ _ Ex2) by (rewrite ?standard_length; lia).
    rewrite (nth_broadcast _ _ _ _ Ey2) by (rewrite ?standard_length; lia).
    rewrite (nth_broadcast _ _ _ _ Ex1), (nth_broadcast _ _ _ _ Ey1) by lia.
    rewrite (nth_broadcast _ _ _ _ Ew) by lia. rewrite !nth_standard by lia.
    assert (nth d std 0 <> 0) by (rewrite Forall_forall in Hs; apply Hs, nth_In; lia).
    assert (nth d w 0 <> 0) by (rewrite Forall_forall in Hw; apply Hw, nth_In; lia).
    field. auto.
  - rewrite (fun h => L _ _ _ h Ex1); rewrite ?standard_length; lia.
  - rewrite (fun h => L _ _ _ h Ey1); rewrite ?standard_length; lia.
  - rewrite (fun h => L _ _ _ h Ex2); rewrite ?standard_length; lia.
  - rewrite (fun h => L _ _ _ h Ey2); rewrite ?standard_length; lia.
Qed.

Lemma divide_rows_nth m w r : divide_rows m w = Ok r -> forall i, (i < length m)%nat ->
  broadcast Rdiv (row_at m i) w = Ok (row_at r i).
Proof.
  revert r; induction m as [|x m IH]; intros r H i Hi; cbn [divide_rows] in H; [cbn in Hi; lia|].
  destruct (broadcast Rdiv x w) as [x'|] eqn:Ex; [|discriminate]. cbn [bind] in H.
  destruct (divide_rows m w) as [m'|] eqn:Em; [|discriminate]. injection H as <-.
  destruct i as [|i]; cbn; auto. apply IH; auto. cbn in Hi. lia.
Qed.

Lemma select_columns_nth m f s : select_columns m f = Ok s -> forall i, (i < length m)%nat ->
  take (row_at m i) f = Ok (row_at s i).
Proof.
  revert s; induction m as [|x m IH]; intros s H i Hi; cbn [select_columns] in H; [cbn in Hi; lia|].
  destruct (take x f) as [x'|] eqn:Ex; [|discriminate]. cbn [bind] in H.
  destruct (select_columns m f) as [m'|] eqn:Em; [|discriminate]. injection H as <-.
  destruct i as [|i]; cbn; auto. apply IH; auto. cbn in Hi. lia.
Qed.

Lemma take_standard mean std f x x' mean' std' : length mean = length x -> length std = length x ->
  take x f = Ok x' -> take mean f = Ok mean' -> take std f = Ok std' ->
  take (standard_row mean std x) f = Ok (standard_row mean' std' x').
Proof.
  intros Lm Ls Hx Hm Hs.
  destruct (take_in_range (standard_row mean std x) f) as [r [Er Lr]].
  { rewrite standard_length. apply Forall_forall. intros i Hi.
    apply (In_nth _ _ 0%nat) in Hi. destruct Hi as [d [Hd <-]]. apply (take_nth _ _ _ Hx d Hd). }
  rewrite Er. f_equal. apply list_ext_nth with (d := 0).
  - rewrite standard_length, Lr. apply take_length in Hx. auto.
  - intros d Hd. rewrite Lr in Hd. destruct (take_nth _ _ _ Er d Hd) as [-> Hi]. rewrite standard_length in Hi.
    rewrite nth_standard by auto. rewrite nth_standard by (apply take_length in Hx; lia).
    destruct (take_nth _ _ _ Hx d Hd) as [-> _]. destruct (take_nth _ _ _ Hm d Hd) as [-> _].
    destruct (take_nth _ _ _ Hs d Hd) as [-> _]. auto.
Qed.

(** Kernels for which scaling makes sense: constants, and gaussians with one
    non-zero width per selected feature. *)
Definition scalable (nd : nat) (k : kdict) : Prop :=
  in_range nd k /\
  match k_type k with
  | Some KConstant => k_width k = None /\ k_hyper k = None /\ is_some (k_const k) = true
  | Some KGaussian => k_dimension k <> Some Single /\ k_const k = None /\ k_hyper k = None /\
      exists w, k_width k = Some (Arr w) /\ Forall (fun x => x <> 0) w /\
        length w = match k_features k with Some f => length f | None => nd end
  | _ => False
  end.

Definition same_matrix (a b : matrix) : Prop :=
  nr a = nr b /\ nc a = nc b /\ forall i j, (i < nr a)%nat -> (j < nc a)%nat -> at_ a i j = at_ b i j.

Lemma take_Forall (Q : R -> Prop) l f r : take l f = Ok r -> Forall Q l -> Forall Q r.
Proof.
  intros H HQ. apply Forall_forall. intros x Hx. apply (In_nth _ _ 0) in Hx. destruct Hx as [d [Hd <-]].
  rewrite (take_length _ _ _ H) in Hd. destruct (take_nth _ _ _ H d Hd) as [-> Hi].
  rewrite Forall_forall in HQ. apply HQ, nth_In; auto.
Qed.

Lemma scaled_kernel_invariant nd mean std k k' m : m <> [] -> rectangular m nd ->
  length mean = nd -> length std = nd -> Forall (fun s => s <> 0) std ->
  scalable nd k -> scale_kernel std false k = Ok k' ->
  k_mult k' = k_mult k /\
  exists K K', scaled_kernel k false false m None = Ok K /\
    scaled_kernel k' false false (standard_rows mean std m) None = Ok K' /\
    nr K = length m /\ nc K = length m /\ same_matrix K' K.
Proof.
  intros HN HR Lm Ls Hs [HF HK] H. unfold scale_kernel in H.
  assert (HR' : rectangular (standard_rows mean std m) nd).
  { unfold rectangular, standard_rows. apply Forall_map. eapply Forall_impl; [|exact HR]. intros a Ha. cbv beta. rewrite standard_length. auto. }
  assert (HN' : standard_rows mean std m <> []) by (destruct m; cbn; congruence).
  assert (LR : length (standard_rows mean std m) = length m) by apply map_length.
  destruct (k_type k) as [t|] eqn:Et; [|contradiction]. destruct t; try contradiction.
  - (* constant *)
    assert (k' = k) as ->.
    { destruct (k_dimension k) as [[]|]; try (injection H as <-; reflexivity);
      destruct (match k_features k with Some f => take std f | None => Ok std end); cbn in H; try discriminate;
      injection H as <-; reflexivity. }
    split; auto.
    assert (EV : evaluable nd k) by (unfold evaluable; rewrite Et; auto).
    destruct (scaled_kernel_ok nd k false m None EV HN HR I) as [K [EK [K1 K2]]].
    destruct (scaled_kernel_ok nd k false (standard_rows mean std m) None EV HN' HR' I) as [K' [EK' [K1' K2']]].
    cbn [cols_of] in *.
    exists K, K'. split; [auto|]. split; [auto|]. split; [auto|]. split; [auto|]. split; [lia|]. split; [lia|].
    intros i j _ _. destruct HK as [Hw [Hh Hc]].
    unfold scaled_kernel in EK, EK'. rewrite Et in EK, EK'.
    destruct (select k m); [|discriminate]. destruct (select k (standard_rows mean std m)); [|discriminate].
    unfold kdict2list, get_theta in EK, EK'. rewrite Et, Hw, Hh in EK, EK'. cbn [bind fst snd] in EK, EK'.
    destruct (k_const k) as [x|]; [|discriminate]. cbn in EK, EK'. injection EK as <-. injection EK' as <-. reflexivity.
  - (* gaussian *)
    destruct HK as [Hd [Hc [Hh [w [Hw [Hw0 Lw]]]]]].
    set (c := match k_features k with Some f => length f | None => nd end) in *.
    assert (exists std', (match k_features k with Some f => take std f | None => Ok std end) = Ok std' /\ length std' = c /\
            Forall (fun s => s <> 0) std') as [std' [Estd [Lstd Hstd]]].
    { unfold c. unfold in_range in HF. destruct (k_features k) as [f|]; [|eauto].
      destruct (take_in_range std f) as [r [Er Lr]]; [rewrite Ls; auto|]. exists r. split; [auto|]. split; [auto|].
      eapply take_Forall; eauto. }
    assert (H' : bind (broadcast Rdiv w std') (fun w' => Ok (set_width k (Arr w'))) = Ok k').
    { rewrite Estd, Hw in H. cbn [bind] in H. destruct (k_dimension k) as [[]|]; auto. congruence. }
    destruct (broadcast_same Rdiv w std') as [w' [Ew' Lw']]; [lia|].
    rewrite Ew' in H'. injection H' as <-. split; [reflexivity|].
    set (k' := set_width k (Arr w')).
    assert (EV : evaluable nd k).
    { unfold evaluable. rewrite Et. fold c. split; [exact HF|]. split; [exact Hc|]. split; [exact Hh|].
      exists w. split; [exact Hw|]. left. exact Lw. }
    assert (EV' : evaluable nd k').
    { unfold evaluable. change (k_type k') with (k_type k). change (k_features k') with (k_features k).
      rewrite Et. fold c. split; [exact HF|]. split; [exact Hc|]. split; [exact Hh|].
      exists w'. split; [reflexivity|]. left. lia. }
    destruct (scaled_kernel_ok nd k false m None EV HN HR I) as [K [EK [K1 K2]]].
    destruct (scaled_kernel_ok nd k' false (standard_rows mean std m) None EV' HN' HR' I) as [K' [EK' [K1' K2']]].
    cbn [cols_of] in *.
    exists K, K'. split; [auto|]. split; [auto|]. split; [auto|]. split; [auto|]. split; [lia|]. split; [lia|].
    rewrite K1', K2', LR. intros i j Hi Hj.
    unfold scaled_kernel in EK, EK'. change (k_type k') with (k_type k) in EK'. rewrite Et in EK, EK'.
    change (select k') with (select k) in EK'.
    destruct (select k m) as [s|] eqn:Es; [|discriminate].
    destruct (select k (standard_rows mean std m)) as [s'|] eqn:Es'; [|discriminate].
    assert (rows : exists mean', forall i, (i < length m)%nat ->
        row_at s' i = standard_row mean' std' (row_at s i) /\ length (row_at s i) = c).
    { unfold select in Es, Es'. unfold in_range in HF. unfold c. destruct (k_features k) as [f|].
      - destruct (take_in_range mean f) as [mean' [Em _]]; [rewrite Lm; auto|]. exists mean'. intros i0 Hi0.
        pose proof (select_columns_nth _ _ _ Es i0 Hi0) as T1.
        pose proof (select_columns_nth _ _ _ Es' i0 ltac:(lia)) as T2.
        unfold standard_rows in T2. unfold row_at in T2 at 1. rewrite (nth_map_lt _ _ _ []) in T2 by auto.
        fold (row_at m i0) in T2.
        assert (length (row_at m i0) = nd) by (apply row_at_length; auto).
        rewrite (take_standard mean std f (row_at m i0) (row_at s i0) mean' std') in T2 by (auto; lia).
        injection T2 as <-. split; auto. apply take_length in T1. auto.
      - injection Es as <-. injection Es' as <-. injection Estd as <-. exists mean. intros i0 Hi0. split.
        + unfold standard_rows, row_at. rewrite (nth_map_lt _ _ _ []) by auto. auto.
        + apply row_at_length; auto. }
    destruct rows as [mean' rows].
    unfold kdict2list, get_theta in EK, EK'. change (k_type k') with (k_type k) in EK'.
    change (k_const k') with (k_const k) in EK'. change (k_hyper k') with (k_hyper k) in EK'.
    change (k_width k') with (Some (Arr w')) in EK'. change (k_scaling k') with (k_scaling k) in EK'.
    rewrite Et, Hc, Hh, Hw in EK. rewrite Et, Hc, Hh in EK'. cbn [bind to_list fst snd] in EK, EK'.
    unfold kernel in EK, EK'. rewrite floats_nums in EK, EK'. cbn [bind] in EK, EK'.
    assert (ML : forall l, map (logged false) l = l) by (intros l; apply map_id).
    rewrite ML in EK, EK'. unfold gaussian_kernel in EK, EK'.
    destruct (divide_rows s w) as [d1|] eqn:Ed1; [|discriminate].
    destruct (divide_rows s' w') as [d2|] eqn:Ed2; [|discriminate]. cbn [bind divide_opt negb] in EK, EK'.
    injection EK as <-. injection EK' as <-. cbn [at_ dist_matrix]. f_equal.
    destruct (Nat.eqb_spec i j); auto. unfold gaussian_fn. f_equal. f_equal.
    destruct (select_ok nd k m HF HR) as [s0 [Es0 [L0 _]]]. rewrite Es in Es0. injection Es0 as <-.
    destruct (select_ok nd k (standard_rows mean std m) HF HR') as [s0 [Es0 [L0' _]]]. rewrite Es' in Es0. injection Es0 as <-.
    destruct (rows i Hi) as [R1 L1]. destruct (rows j Hj) as [R2 L2].
    assert (B1 := divide_rows_nth _ _ _ Ed2 i ltac:(lia)). assert (B2 := divide_rows_nth _ _ _ Ed2 j ltac:(lia)).
    rewrite R1 in B1. rewrite R2 in B2.
    apply (scaled_difference mean' std' (row_at s i) (row_at s j) w w'); auto; try lia;
    apply divide_rows_nth; auto; lia.
Qed.

Lemma cov_loop_invariant nd mean std m : m <> [] -> rectangular m nd ->
  length mean = nd -> length std = nd -> Forall (fun s => s <> 0) std ->
  forall ks ks', Forall (scalable nd) ks -> kernel_scaling std ks false = Ok ks' -> forall c0 c0',
  match c0, c0' with
  | None, None => ks <> []
  | Some a, Some b => nr a = length m /\ nc a = length m /\ same_matrix b a
  | _, _ => False
  end ->
  exists c c', cov_loop ks false false m None c0 = Ok (Some c) /\
    cov_loop ks' false false (standard_rows mean std m) None c0' = Ok (Some c') /\
    nr c = length m /\ nc c = length m /\ same_matrix c' c.
Proof.
  intros HN HR Lm Ls Hs. induction ks as [|k ks IH]; intros ks' HK H c0 c0' HC; cbn [kernel_scaling] in H.
  - injection H as <-. destruct c0 as [a|], c0' as [b|]; try (contradiction || congruence). cbn. exists a, b. tauto.
  - destruct (scale_kernel std false k) as [k'|] eqn:Ek; [|discriminate]. cbn [bind] in H.
    destruct (kernel_scaling std ks false) as [t'|] eqn:Et; [|discriminate]. injection H as <-.
    apply Forall_cons_iff in HK. destruct HK as [HK1 HK2].
    destruct (scaled_kernel_invariant nd mean std k k' m HN HR Lm Ls Hs HK1 Ek) as [HM [K [K' [EK [EK' [K1 [K2 [S1 [S2 S3]]]]]]]]].
    cbn [cov_loop]. rewrite EK, EK', HM. cbn [bind].
    assert (A : exists c c', accumulate (k_mult k) (match c0 with Some c => c | None => Mx (nr K) (nc K) (fun _ _ => 0) end) K = Ok c /\
        accumulate (k_mult k) (match c0' with Some c => c | None => Mx (nr K') (nc K') (fun _ _ => 0) end) K' = Ok c' /\
        nr c = length m /\ nc c = length m /\ same_matrix c' c).
    { unfold accumulate. destruct c0 as [a|], c0' as [b|]; try contradiction.
      - destruct HC as [A1 [A2 [B1 [B2 B3]]]]. rewrite A1, A2, K1, K2, B1, B2, A1, A2, S1, S2, K1, K2, !Nat.eqb_refl. cbn [andb].
        eexists. eexists. split; [reflexivity|]. split; [reflexivity|]. cbn. split; [auto|]. split; [auto|]. split; [auto|]. split; [auto|]. cbn.
        intros i j Hi Hj. rewrite B3, S3 by lia. auto.
      - cbn [nr nc]. rewrite !Nat.eqb_refl. cbn [andb]. eexists. eexists. split; [reflexivity|]. split; [reflexivity|].
        cbn. split; [auto|]. split; [auto|]. split; [auto|]. split; [auto|]. cbn. intros i j Hi Hj. rewrite S3 by lia. auto. }
    destruct A as [c [c' [E1 [E2 [C1 [C2 C3]]]]]]. rewrite E1, E2. cbn [bind].
    apply IH; auto.
Qed.

(** ** Scaling and rescaling *)
Definition fits (nd : nat) (k : kdict) : Prop :=
  in_range nd k /\
  match k_type k with
  | Some (KConstant | KLinear | KQuadratic | KLaplacian) => True
  | Some KGaussian => k_dimension k = Some Single \/ exists w, k_width k = Some (Arr w) /\
        length w = match k_features k with Some f => length f | None => nd end
  | _ => False
  end.

Lemma scale_kernel_inverse nd std k b : length std = nd -> Forall (fun s => s <> 0) std -> fits nd k ->
  exists k1, scale_kernel std b k = Ok k1 /\ scale_kernel std (negb b) k1 = Ok k.
Proof.
  intros Ls Hs [HF HK]. unfold scale_kernel.
  destruct (k_dimension k) as [[| |]|] eqn:Ed.
  1: { exists k. rewrite Ed. auto. }
  all: assert (exists std', (match k_features k with Some f => take std f | None => Ok std end) = Ok std' /\
            length std' = match k_features k with Some f => length f | None => nd end /\
            Forall (fun s => s <> 0) std') as [std' [Estd [Lstd Hstd]]] by
    (unfold in_range in HF; destruct (k_features k) as [f|]; [|eauto];
     destruct (take_in_range std f) as [r [Er Lr]]; [rewrite Ls; auto|]; exists r; split; [auto|]; split; [auto|];
     eapply take_Forall; eauto).
  all: rewrite Estd; cbn [bind].
  all: destruct (k_type k) as [[]|] eqn:Et; try contradiction;
    try (exists k; rewrite Ed, Estd, Et; cbn; auto; fail).
  all: destruct HK as [HK|[w [Hw Lw]]]; [congruence|].
  all: rewrite Hw.
  all: rewrite <- Lw in Lstd.
  all: destruct (broadcast_same (if b then Rmult else Rdiv) w std') as [w' [Ew' Lw']]; [lia|].
  all: rewrite Ew'; cbn [bind]; exists (set_width k (Arr w')); split; [reflexivity|].
  all: cbn [set_width k_dimension k_features k_type k_width]; rewrite Ed, Estd, Et; cbn [bind].
  all: destruct (broadcast_same (if negb b then Rmult else Rdiv) w' std') as [w2 [Ew2 Lw2]]; [lia|].
  all: rewrite Ew2; cbn [bind]; f_equal.
  all: assert (w2 = w) as -> by
    (apply list_ext_nth with (d := 0); [lia|]; intros d Hd;
     rewrite (nth_broadcast _ _ _ _ Ew2) by lia; rewrite (nth_broadcast _ _ _ _ Ew') by lia;
     assert (nth d std' 0 <> 0) by (rewrite Forall_forall in Hstd; apply Hstd, nth_In; lia);
     destruct b; cbn [negb]; field; auto).
  all: exact (set_width_id k (Arr w) Hw).
Qed.

Lemma kernel_scaling_inverse_lem nd std b ks : length std = nd -> Forall (fun s => s <> 0) std -> Forall (fits nd) ks ->
  exists ks1, kernel_scaling std ks b = Ok ks1 /\ kernel_scaling std ks1 (negb b) = Ok ks.
Proof.
  intros Ls Hs. induction ks as [|k ks IH]; intros HK; cbn [kernel_scaling]; [eauto|].
  apply Forall_cons_iff in HK. destruct HK as [HK1 HK2]. destruct (IH HK2) as [ks1 [E1 E2]].
  destruct (scale_kernel_inverse nd std k b Ls Hs HK1) as [k1 [F1 F2]].
  rewrite F1, E1. cbn [bind]. eexists. split; [reflexivity|]. cbn [kernel_scaling]. rewrite F2, E2. auto.
Qed.
