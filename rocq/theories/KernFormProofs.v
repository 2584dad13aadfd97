(** The covariance of two points as a formula: what covariance.py 10-76 and the
    kernels.py functions compute for two single points, one kernel at a time. *)
From Coq Require Import Reals Lra Lia List Arith Bool Permutation.
From Verif Require Import Base BaseFacts RBase LinAlg KernModel KernProofs KernSetupProofs KernDefProofs
  KernScaleProofs KernEntryProofs.
Import ListNotations.
Open Scope R_scope.
Set Bullet Behavior "Strict Subproofs".

(** Number of columns a kernel looks at, and which ones. *)
Definition n_used (D : nat) (k : kdict) : nat := match k_features k with Some f => length f | None => D end.
Definition used (k : kdict) (d : nat) : nat := match k_features k with Some f => nth d f 0%nat | None => d end.
Definition scale_of (lg : bool) (k : kdict) : R := logged lg (match k_scaling k with Some s => s | None => 1 end).
Definition width_of (lg : bool) (k : kdict) (d : nat) : R :=
  match k_width k with Some (Arr w) => logged lg (wnth w d) | _ => 0 end.
(** quadratic_kernel reads its first two hyperparameters. *)
Definition quad_of (k : kdict) (i : nat) : R :=
  match k_slope k, k_degree k with Some (Arr l), Some (Num d) => nth i (l ++ [d]) 0 | _, _ => 0 end.

Definition form (D : nat) (lg : bool) (k : kdict) (x y : row) : R :=
  let n := n_used D k in
  let u d := nth (used k d) x 0 in
  let v d := nth (used k d) y 0 in
  match k_type k with
  | Some KConstant => match k_const k with Some c => logged lg c | None => 0 end
  | Some KGaussian => exp (- / 2 * Sum n (fun d => ((u d - v d) / width_of lg k d) ^ 2))
  | Some KLaplacian => exp (- Sum n (fun d => Rabs ((u d - v d) / width_of lg k d)))
  | Some KLinear => Sum n (fun d => u d * v d)
  | Some KQuadratic =>
      let s := logged lg (quad_of k 0) in let g := logged lg (quad_of k 1) in
      Rpower (1 + / 2 * Sum n (fun d => ((u d - v d) / s * g) ^ 2)) (- g)
  | _ => 0
  end.

Lemma wnth_map f w d : (d < length w)%nat \/ length w = 1%nat -> wnth (map f w) d = f (wnth w d).
Proof.
  intros H. destruct w as [|a [|b w]]; [cbn in H; lia|reflexivity|].
  cbn [map wnth]. change (f a :: f b :: map f w) with (map f (a :: b :: w)). destruct H as [H|H]; [|cbn in H; lia].
  rewrite (nth_map_lt _ _ _ 0) by auto. reflexivity.
Qed.

Lemma broadcast_wnth x w r : broadcast Rdiv x w = Ok r -> length w = length x \/ length w = 1%nat ->
  length r = length x /\ forall d, (d < length x)%nat -> nth d r 0 = nth d x 0 / wnth w d.
Proof.
  intros H HL. unfold broadcast in H. destruct (Nat.eqb_spec (length x) (length w)) as [E|NE].
  - assert (r = map (fun p => fst p / snd p) (combine x w)) as -> by congruence. split; [rewrite map_length, combine_length; lia|]. intros d Hd.
    rewrite (nth_map_lt _ _ _ (0, 0)) by (rewrite combine_length; lia). rewrite combine_nth by auto. cbn [fst snd].
    f_equal. destruct w as [|a [|b w]]; auto. cbn in E. destruct d; [auto|lia].
  - destruct HL as [HL|HL]; [congruence|]. destruct w as [|b [|c w]]; cbn in HL; try lia.
    destruct x as [|a [|a2 x]].
    + injection H as <-. split; auto. cbn. intros; lia.
    + cbn in NE. lia.
    + injection H as <-. split; [cbn; rewrite map_length; auto|]. intros d Hd.
      change (Rdiv a b :: Rdiv a2 b :: map (fun z => z / b) x) with (map (fun z => z / b) (a :: a2 :: x)).
      rewrite (nth_map_lt _ _ _ 0) by auto. reflexivity.
Qed.

Lemma select_single D k x s : in_range D k -> length x = D -> select k [x] = Ok s ->
  exists z, s = [z] /\ length z = n_used D k /\ forall d, (d < n_used D k)%nat -> nth d z 0 = nth (used k d) x 0.
Proof.
  intros HF HL H. unfold select, n_used, used in *. destruct (k_features k) as [f|].
  - cbn [select_columns] in H. destruct (take x f) as [z|] eqn:Ez; [|discriminate]. cbn [bind] in H. injection H as <-.
    exists z. split; auto. split; [eapply take_length; eauto|]. intros d Hd. apply (take_nth _ _ _ Ez d Hd).
  - injection H as <-. exists x. auto.
Qed.

Lemma divide_one x w r : divide_rows [x] w = Ok r -> exists z, r = [z] /\ broadcast Rdiv x w = Ok z.
Proof. cbn. destruct (broadcast Rdiv x w) as [z|]; [|discriminate]. cbn. intros [= <-]. eauto. Qed.

Lemma kernel_form D lg k x y : evaluable D k -> length x = D -> length y = D ->
  exists K, scaled_kernel k lg false [x] (Some [y]) = Ok K /\ nr K = 1%nat /\ nc K = 1%nat /\
    at_ K 0%nat 0%nat = scale_of lg k * form D lg k x y.
Proof.
  intros EV Hx Hy.
  assert (R1 : rectangular [x] D) by (repeat constructor; auto). assert (R2 : rectangular [y] D) by (repeat constructor; auto).
  destruct (scaled_kernel_ok D k lg [x] (Some [y]) EV ltac:(discriminate) R1 R2) as [K [EK [K1 K2]]].
  cbn [cols_of length] in *. exists K. split; [auto|]. split; [auto|]. split; [auto|].
  destruct EV as [HF EV]. cbv zeta in EV. fold (n_used D k) in EV.
  unfold scaled_kernel in EK. destruct (k_type k) as [t|] eqn:Et; [|discriminate].
  destruct (select k [x]) as [sx|] eqn:Ex; [|discriminate]. destruct (select k [y]) as [sy|] eqn:Ey; [|discriminate]. cbn [bind] in EK.
  destruct (select_single _ _ _ _ HF Hx Ex) as [u [-> [Lu Hu]]]. destruct (select_single _ _ _ _ HF Hy Ey) as [v [-> [Lv Hv]]].
  unfold kdict2list, get_theta in EK. rewrite Et in EK.
  assert (Sc : forall th : list val, logged lg (match fst (match k_scaling k with Some s => [s] | None => [] end, th) with s :: _ => s | [] => 1 end) = scale_of lg k).
  { intros. unfold scale_of. destruct (k_scaling k); auto. }
  unfold form. rewrite Et. destruct t; try contradiction.
  - (* constant *) destruct EV as [Hw [Hh Hc]]. destruct (k_const k) as [c|]; [|discriminate]. rewrite Hw, Hh in EK.
    cbn [bind snd kernel as_number nth_error] in EK. rewrite Sc in EK. injection EK as <-. reflexivity.
  - (* gaussian *) destruct EV as [Hc [Hh [w [Hw Lw]]]]. rewrite Hc, Hh, Hw in EK. cbn [bind to_list snd kernel] in EK.
    rewrite floats_nums in EK. cbn [bind] in EK. unfold gaussian_kernel in EK.
    destruct (divide_rows [u] (map (logged lg) w)) as [d1|] eqn:E1; [|discriminate]. cbn [divide_opt bind] in EK.
    destruct (divide_rows [v] (map (logged lg) w)) as [d2|] eqn:E2; [|discriminate]. cbn [bind negb] in EK. rewrite Sc in EK.
    injection EK as <-. destruct (divide_one _ _ _ E1) as [a [-> B1]]. destruct (divide_one _ _ _ E2) as [b [-> B2]].
    cbn [at_ dist_matrix row_at nth]. f_equal. unfold gaussian_fn. f_equal. f_equal.
    destruct (broadcast_wnth _ _ _ B1) as [L1 N1]; [rewrite map_length, Lu; auto|].
    destruct (broadcast_wnth _ _ _ B2) as [L2 N2]; [rewrite map_length, Lv; auto|].
    rewrite (sqeuclidean_Sum _ _ (n_used D k)) by lia. apply Sum_ext. intros d Hd.
    rewrite N1, N2, wnth_map, Hu, Hv by lia. unfold width_of. rewrite Hw. unfold Rdiv. f_equal. ring.
  - (* quadratic *) destruct EV as [Hw [Hh [l [g [Hs [Hg Ll]]]]]]. rewrite Hw, Hh, Hs, Hg in EK.
    assert (G : forall i, (i < 2)%nat -> as_number (map Num l ++ [Num g]) i = Ok (quad_of k i)).
    { intros i Hi. unfold as_number, quad_of. rewrite Hs, Hg. change [Num g] with (map Num [g]). rewrite <- map_app.
      rewrite nth_error_map. destruct (nth_error (l ++ [g]) i) as [z|] eqn:Ez.
      - cbn. f_equal. symmetry. apply nth_error_nth. auto.
      - apply nth_error_None in Ez. rewrite app_length in Ez. cbn in Ez. lia. }
    destruct (k_const k); cbn [bind to_list snd kernel] in EK; rewrite !G in EK by lia; cbn [bind] in EK; rewrite Sc in EK; injection EK as <-.
    all: cbn [at_ quadratic_kernel dist_matrix row_at nth map option_map]; f_equal; unfold quadratic_fn; f_equal; f_equal; f_equal; auto.
    all: rewrite (sqeuclidean_Sum _ _ (n_used D k)) by (rewrite map_length; lia); apply Sum_ext; intros d Hd.
    all: rewrite !(nth_map_lt _ _ _ 0) by lia; rewrite Hu, Hv by auto; unfold Rdiv; f_equal; ring.
  - (* laplacian *) destruct EV as [Hc [Hh [w [Hw Lw]]]]. rewrite Hc, Hh, Hw in EK. cbn [bind to_list snd kernel] in EK.
    rewrite floats_nums in EK. cbn [bind] in EK. unfold laplacian_kernel in EK.
    destruct (divide_rows [u] (map (logged lg) w)) as [d1|] eqn:E1; [|discriminate]. cbn [divide_opt bind] in EK.
    destruct (divide_rows [v] (map (logged lg) w)) as [d2|] eqn:E2; [|discriminate]. cbn [bind negb] in EK. rewrite Sc in EK.
    injection EK as <-. destruct (divide_one _ _ _ E1) as [a [-> B1]]. destruct (divide_one _ _ _ E2) as [b [-> B2]].
    cbn [at_ dist_matrix row_at nth]. f_equal. unfold laplacian_fn. f_equal. f_equal.
    destruct (broadcast_wnth _ _ _ B1) as [L1 N1]; [rewrite map_length, Lu; auto|].
    destruct (broadcast_wnth _ _ _ B2) as [L2 N2]; [rewrite map_length, Lv; auto|].
    rewrite (cityblock_Sum _ _ (n_used D k)) by lia. apply Sum_ext. intros d Hd.
    rewrite N1, N2, wnth_map, Hu, Hv by lia. unfold width_of. rewrite Hw. unfold Rdiv. f_equal. ring.
  - (* linear *) destruct (k_width k) as [v0|] eqn:Hw; [destruct EV as [l ->]|].
    all: destruct (k_const k); cbn [bind to_list snd kernel] in EK.
    all: destruct (k_hyper k) as [[]|]; cbn [bind snd kernel] in EK; rewrite Sc in EK; injection EK as <-.
    all: cbn [at_ linear_kernel negb row_at nth cols_of]; f_equal; rewrite (inner_Sum _ _ (n_used D k)) by lia; apply Sum_ext; intros d Hd; rewrite Hu, Hv by auto; auto.
Qed.

(** The kernels are added or multiplied in the order of the list. *)
Definition combine_forms (D : nat) (lg : bool) (x y : row) (a : R) (k : kdict) : R :=
  let v := scale_of lg k * form D lg k x y in if k_mult k then a * v else a + v.

Lemma cov_loop_form D lg x y : length x = D -> length y = D -> forall ks c0, Forall (evaluable D) ks ->
  match c0 with None => ks <> [] | Some c => nr c = 1%nat /\ nc c = 1%nat end ->
  exists c, cov_loop ks lg false [x] (Some [y]) c0 = Ok (Some c) /\
    at_ c 0%nat 0%nat = fold_left (combine_forms D lg x y) ks (match c0 with None => 0 | Some c => at_ c 0%nat 0%nat end).
Proof.
  intros Hx Hy. induction ks as [|k ks IH]; intros c0 HE HC.
  - destruct c0 as [c|]; [|congruence]. exists c. auto.
  - apply Forall_cons_iff in HE. destruct HE as [HE1 HE2].
    destruct (kernel_form D lg k x y HE1 Hx Hy) as [K [EK [K1 [K2 HK]]]].
    cbn [cov_loop fold_left]. rewrite EK. cbn [bind].
    set (c1 := match c0 with Some c => c | None => Mx (nr K) (nc K) (fun _ _ => 0) end).
    assert (N : nr c1 = 1%nat /\ nc c1 = 1%nat) by (unfold c1; destruct c0; auto). destruct N as [N1 N2].
    unfold accumulate. rewrite N1, N2, K1, K2. cbn [Nat.eqb andb bind].
    destruct (IH (Some (Mx 1 1 (fun i j => if k_mult k then at_ c1 i j * at_ K i j else at_ c1 i j + at_ K i j))) HE2) as [c [Ec Hc]]; [auto|].
    exists c. split; [exact Ec|]. rewrite Hc. cbn [at_]. f_equal. unfold combine_forms. cbv zeta. rewrite HK. unfold c1. destruct c0; auto.
Qed.

Lemma kappa_form D ks lg x y : Forall (evaluable D) ks -> ks <> [] -> length x = D -> length y = D ->
  kappa ks lg x y = fold_left (combine_forms D lg x y) ks 0.
Proof.
  intros HE HK Hx Hy. unfold kappa, get_covariance. cbn [ncols]. rewrite Hx, Hy, Nat.eqb_refl. cbn [require bind].
  destruct (cov_loop_form D lg x y Hx Hy ks None HE HK) as [c [-> Hc]]. cbn [bind]. exact Hc.
Qed.

(** Kernel lists whose forms agree give the same covariance. *)
Lemma kappa_agree D D' lg ks ks' x y x' y' : Forall (evaluable D) ks -> Forall (evaluable D') ks' -> ks <> [] ->
  length x = D -> length y = D -> length x' = D' -> length y' = D' ->
  Forall2 (fun k k' => k_mult k' = k_mult k /\ scale_of lg k' = scale_of lg k /\ form D' lg k' x' y' = form D lg k x y) ks ks' ->
  kappa ks' lg x' y' = kappa ks lg x y.
Proof.
  intros H1 H2 HN Lx Ly Lx' Ly' HF. rewrite (kappa_form D ks), (kappa_form D' ks'); auto.
  - clear - HF. generalize 0. induction HF as [|k k' ks ks' [Hm [Hs He]] HF IH]; intros a; [auto|].
    cbn [fold_left]. unfold combine_forms at 2 4. cbv zeta. rewrite Hm, Hs, He. apply IH.
  - intros ->. inversion HF. congruence.
Qed.
