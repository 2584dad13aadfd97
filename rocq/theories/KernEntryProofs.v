(** Every entry of a covariance matrix is the covariance of the two points alone. *)
From Coq Require Import Reals Lra Lia List Arith Bool.
From Verif Require Import Base BaseFacts RBase LinAlg PSD KernModel KernProofs KernSetupProofs KernDefProofs KernScaleProofs.
Import ListNotations.
Open Scope R_scope.

Lemma select_single k m s i : select k m = Ok s -> (i < length m)%nat ->
  select k [row_at m i] = Ok [row_at s i].
Proof.
  unfold select. destruct (k_features k) as [f|]; intros H Hi.
  - cbn [select_columns]. rewrite (select_columns_nth _ _ _ H i Hi). reflexivity.
  - injection H as <-. reflexivity.
Qed.

Lemma divide_single m w t i : divide_rows m w = Ok t -> (i < length m)%nat ->
  divide_rows [row_at m i] w = Ok [row_at t i].
Proof. intros H Hi. cbn [divide_rows]. rewrite (divide_rows_nth _ _ _ H i Hi). reflexivity. Qed.

Lemma dist_matrix_entry f m1 m2 i j : (forall x, f x x = 1) ->
  at_ (dist_matrix f m1 m2) i j = f (row_at m1 i) (row_at (cols_of m1 m2) j).
Proof.
  intros H. destruct m2 as [m2|]; cbn; auto. destruct (Nat.eqb_spec i j) as [->|]; auto. 
Qed.

Lemma laplacian_self x : laplacian_fn x x = 1.
Proof.
  unfold laplacian_fn. rewrite (cityblock_Sum x x (length x)) by auto. rewrite Sum_zero.
  - rewrite Ropp_0. apply exp_0.
  - intros d _. rewrite Rminus_diag_eq by auto. apply Rabs_R0.
Qed.

Lemma row_at_map (g : row -> row) m i : (i < length m)%nat -> row_at (map g m) i = g (row_at m i).
Proof. intros H. unfold row_at. rewrite (nth_map_lt _ _ _ []) by auto. auto. Qed.

Lemma scaled_kernel_entry D k log_scale m1 m2 K : evaluable D k -> m1 <> [] -> rectangular m1 D ->
  opt (fun m => rectangular m D) m2 ->
  scaled_kernel k log_scale false m1 m2 = Ok K ->
  forall i j, (i < length m1)%nat -> (j < length (cols_of m1 m2))%nat ->
  exists K1, scaled_kernel k log_scale false [row_at m1 i] (Some [row_at (cols_of m1 m2) j]) = Ok K1 /\
    nr K1 = 1%nat /\ nc K1 = 1%nat /\ at_ K1 0 0 = at_ K i j.
Proof.
  intros [HF HE] HN HR1 HR2 H i j Hi Hj. unfold scaled_kernel in *.
  destruct (select_ok D k m1 HF HR1) as [s1 [E1 [L1 R1]]].
  set (c := match k_features k with Some f => length f | None => D end) in *.
  assert (exists s2, (match m2 with None => Ok None | Some m => bind (select k m) (fun s => Ok (Some s)) end) = Ok s2 /\
     opt (fun m => rectangular m c) s2 /\ length (cols_of s1 s2) = length (cols_of m1 m2) /\
     select k (cols_of m1 m2) = Ok (cols_of s1 s2)) as [s2 [E2 [R2 [L2 E3]]]].
  { destruct m2 as [m|].
    - destruct (select_ok D k m HF HR2) as [s [Es [Ls Rs]]]. rewrite Es. cbn [bind]. exists (Some s).
      repeat split; cbn; auto.
    - exists None. repeat split; cbn; auto. }
  rewrite E1 in H. cbn [bind] in H. rewrite E2 in H. cbn [bind] in H.
  rewrite (select_single _ _ _ _ E1 Hi), (select_single _ _ _ _ E3 Hj). cbn [bind].
  rewrite (rectangular_ncols m1 D HR1 HN) in H.
  replace (ncols [row_at m1 i]) with D by (cbn; symmetry; apply row_at_length; auto).
  assert (HL : (i < length s1)%nat) by lia. assert (HL2 : (j < length (cols_of s1 s2))%nat) by lia.
  clear E1 E2 E3.
  assert (D2 : forall w t1 t2, divide_rows s1 w = Ok t1 -> divide_opt s2 w = Ok t2 ->
     divide_rows (cols_of s1 s2) w = Ok (cols_of t1 t2)).
  { intros w t1 t2 H1 H2. destruct s2 as [s|]; cbn [divide_opt cols_of] in *.
    - destruct (divide_rows s w) as [q|]; [|discriminate]. cbn [bind] in H2. injection H2 as <-. reflexivity.
    - injection H2 as <-. auto. }
  destruct (kdict2list k D) as [[sc th]|] eqn:Ek; [|destruct (k_type k); discriminate]. cbn [bind fst snd] in *.
  destruct (k_type k) as [t|] eqn:Et; [|contradiction]. destruct t; try contradiction.
  - cbn [kernel] in *. destruct (as_number th 0) as [x|]; [|discriminate]. cbn [bind] in *. injection H as <-.
    eexists. split; [reflexivity|]. cbn. auto.
  - cbn [kernel] in *. destruct (floats th) as [w|]; [|discriminate]. cbn [bind] in *. unfold gaussian_kernel in *.
    destruct (divide_rows s1 (map (logged log_scale) w)) as [t1|] eqn:Et1; [|discriminate]. cbn [bind] in *.
    destruct (divide_opt s2 (map (logged log_scale) w)) as [t2|] eqn:Et2; [|discriminate]. cbn [bind negb] in *.
    injection H as <-. rewrite (divide_single _ _ _ _ Et1 HL). cbn [bind divide_opt].
    rewrite (divide_single _ _ _ _ (D2 _ _ _ Et1 Et2) HL2). cbn [bind].
    eexists. split; [reflexivity|]. split; [reflexivity|]. split; [reflexivity|]. cbn [at_].
    rewrite !dist_matrix_entry by apply gaussian_self. reflexivity.
  - cbn [kernel] in *. destruct (as_number th 0) as [x|]; [|discriminate].
    destruct (as_number th 1) as [y|]; [|discriminate]. cbn [bind] in *. injection H as <-.
    eexists. split; [reflexivity|]. split; [reflexivity|]. split; [reflexivity|]. cbn [at_]. unfold quadratic_kernel.
    rewrite !dist_matrix_entry by (intros; apply quadratic_self). f_equal.
    set (g := map (fun z => z / logged log_scale x * logged log_scale y)).
    assert (Q : cols_of (map g s1) (option_map (fun m => map g m) s2) = map g (cols_of s1 s2)) by (destruct s2; reflexivity).
    cbv zeta. fold g. change (option_map (fun m => map g m) (Some [row_at (cols_of s1 s2) j])) with (Some [g (row_at (cols_of s1 s2) j)]).
    match goal with |- _ = quadratic_fn _ _ (row_at ?c _) => change c with (cols_of (map g s1) (option_map (fun m => map g m) s2)) end.
    rewrite Q, (row_at_map g s1), (row_at_map g (cols_of s1 s2)) by lia. reflexivity.
  - cbn [kernel] in *. destruct (floats th) as [w|]; [|discriminate]. cbn [bind] in *. unfold laplacian_kernel in *.
    destruct (divide_rows s1 (map (logged log_scale) w)) as [t1|] eqn:Et1; [|discriminate]. cbn [bind] in *.
    destruct (divide_opt s2 (map (logged log_scale) w)) as [t2|] eqn:Et2; [|discriminate]. cbn [bind negb] in *.
    injection H as <-. rewrite (divide_single _ _ _ _ Et1 HL). cbn [bind divide_opt].
    rewrite (divide_single _ _ _ _ (D2 _ _ _ Et1 Et2) HL2). cbn [bind].
    eexists. split; [reflexivity|]. split; [reflexivity|]. split; [reflexivity|]. cbn [at_].
    rewrite !dist_matrix_entry by apply laplacian_self. reflexivity.
  - cbn [kernel] in *. cbn [bind] in *. injection H as <-. eexists. split; [reflexivity|].
    split; [reflexivity|]. split; [reflexivity|]. cbn. destruct s2; reflexivity.
Qed.

Lemma cov_loop_entry D ks log_scale m1 m2 : Forall (evaluable D) ks -> m1 <> [] -> rectangular m1 D ->
  opt (fun m => rectangular m D) m2 -> forall c0 c i j,
  cov_loop ks log_scale false m1 m2 c0 = Ok (Some c) ->
  (i < length m1)%nat -> (j < length (cols_of m1 m2))%nat ->
  forall a0, match c0, a0 with
             | None, None => ks <> []
             | Some c, Some a => nr a = 1%nat /\ nc a = 1%nat /\ at_ a 0 0 = at_ c i j
             | _, _ => False
             end ->
  exists a, cov_loop ks log_scale false [row_at m1 i] (Some [row_at (cols_of m1 m2) j]) a0 = Ok (Some a) /\
    nr a = 1%nat /\ nc a = 1%nat /\ at_ a 0 0 = at_ c i j.
Proof.
  intros HE HN HR1 HR2. induction ks as [|k ks IH]; intros c0 c i j H Hi Hj a0 HA.
  - cbn in H. injection H as ->. destruct a0 as [a|]; [|contradiction]. exists a. cbn. tauto.
  - apply Forall_cons_iff in HE. destruct HE as [HE1 HE2]. cbn [cov_loop] in *.
    destruct (scaled_kernel k log_scale false m1 m2) as [K|] eqn:EK; [|discriminate]. cbn [bind] in H.
    destruct (scaled_kernel_entry D k log_scale m1 m2 K HE1 HN HR1 HR2 EK i j Hi Hj) as [K1 [EK1 [N1 [N2 N3]]]].
    rewrite EK1. cbn [bind].
    destruct (accumulate (k_mult k) (match c0 with Some c => c | None => Mx (nr K) (nc K) (fun _ _ => 0) end) K) as [c'|] eqn:EA;
      [|discriminate]. cbn [bind] in H. apply accumulate_shape in EA. destruct EA as [_ [_ [_ [_ EA]]]].
    assert (A : exists a', accumulate (k_mult k) (match a0 with Some c => c | None => Mx (nr K1) (nc K1) (fun _ _ => 0) end) K1 = Ok a' /\
        nr a' = 1%nat /\ nc a' = 1%nat /\ at_ a' 0 0 = at_ c' i j).
    { unfold accumulate. rewrite EA. destruct a0 as [a|], c0 as [c0|]; try contradiction.
      - destruct HA as [A1 [A2 A3]]. rewrite A1, A2, N1, N2. cbn [Nat.eqb andb]. eexists. split; [reflexivity|].
        cbn [nr nc at_]. rewrite A3, N3. auto.
      - cbn [nr nc at_]. rewrite !Nat.eqb_refl. cbn [andb]. eexists. split; [reflexivity|]. cbn [nr nc at_].
        rewrite N3. auto. }
    destruct A as [a' [Ea' [A1 [A2 A3]]]]. rewrite Ea'. cbn [bind]. apply (IH HE2 (Some c')); auto.
Qed.

Lemma get_covariance_entry D ks log_scale m1 m2 C : Forall (evaluable D) ks -> ks <> [] -> m1 <> [] -> rectangular m1 D ->
  opt (fun m => rectangular m D /\ m <> []) m2 ->
  get_covariance ks log_scale m1 m2 None false = Ok C ->
  forall i j, (i < length m1)%nat -> (j < length (cols_of m1 m2))%nat ->
  exists C1, get_covariance ks log_scale [row_at m1 i] (Some [row_at (cols_of m1 m2) j]) None false = Ok C1 /\
    at_ C1 0 0 = at_ C i j.
Proof.
  intros HE HK HN HR1 HR2 H i j Hi Hj. unfold get_covariance in *. apply require_ok in H. destruct H as [_ H].
  destruct (cov_loop ks log_scale false m1 m2 None) as [[c|]|] eqn:EC; try discriminate. cbn [bind] in H. injection H as <-.
  assert (RC : rectangular (cols_of m1 m2) D) by (destruct m2; cbn in *; tauto).
  replace (ncols [row_at m1 i] =? ncols [row_at (cols_of m1 m2) j])%nat with true.
  2:{ cbn. rewrite !(row_at_length _ D) by auto. symmetry. apply Nat.eqb_refl. }
  cbn [require bind].
  assert (HR2' : opt (fun m => rectangular m D) m2) by (destruct m2; cbn in *; tauto).
  destruct (cov_loop_entry D ks log_scale m1 m2 HE HN HR1 HR2' None c i j EC Hi Hj None HK) as [a [Ea [_ [_ Eq]]]].
  rewrite Ea. cbn [bind]. eauto.
Qed.

(** The covariance of two single points. *)
Definition kappa (ks : list kdict) (log_scale : bool) (x y : row) : R :=
  match get_covariance ks log_scale [x] (Some [y]) None false with Ok c => at_ c 0 0 | Err _ => 0 end.

Lemma covariance_kappa D ks log_scale m1 m2 : Forall (evaluable D) ks -> ks <> [] -> m1 <> [] -> rectangular m1 D ->
  opt (fun m => rectangular m D /\ m <> []) m2 ->
  exists C, get_covariance ks log_scale m1 m2 None false = Ok C /\ nr C = length m1 /\ nc C = length (cols_of m1 m2) /\
    forall i j, (i < length m1)%nat -> (j < length (cols_of m1 m2))%nat ->
      at_ C i j = kappa ks log_scale (row_at m1 i) (row_at (cols_of m1 m2) j).
Proof.
  intros HE HK HN HR1 HR2.
  destruct (get_covariance_ok D ks log_scale m1 m2 None HE HK HN HR1 HR2 ltac:(auto)) as [C [EC [N1 N2]]].
  exists C. split; [auto|]. split; [auto|]. split; [auto|]. intros i j Hi Hj.
  destruct (get_covariance_entry D ks log_scale m1 m2 C HE HK HN HR1 HR2 EC i j Hi Hj) as [C1 [E1 E2]].
  unfold kappa. rewrite E1. auto.
Qed.

Lemma evaluable_ordinary D k : evaluable D k -> ordinary k.
Proof. intros [_ H]. unfold ordinary. cbv zeta in H. destruct (k_type k) as [[]|]; cbv beta iota in H; tauto. Qed.

Lemma covariance_symm_psd D ks log_scale m : Forall (evaluable D) ks -> Forall (sensible log_scale) ks -> ks <> [] ->
  m <> [] -> rectangular m D ->
  exists C, get_covariance ks log_scale m None None false = Ok C /\ nr C = length m /\ nc C = length m /\
    symm (length m) (at_ C) /\ possemidef (length m) (at_ C).
Proof.
  intros HE HS HK HN HR.
  destruct (get_covariance_ok D ks log_scale m None None HE HK HN HR I ltac:(auto)) as [C [EC [N1 N2]]].
  exists C. split; [auto|]. split; [auto|]. split; [auto|].
  assert (HO : Forall ordinary ks) by (eapply Forall_impl; [|exact HE]; intros; eapply evaluable_ordinary; eauto).
  unfold get_covariance in EC. cbn [require bind] in EC.
  destruct (cov_loop ks log_scale false m None None) as [[c|]|] eqn:EL; try discriminate. cbn [bind] in EC. injection EC as <-.
  destruct (cov_loop_good ks log_scale m D HR HO HS None c EL I) as [_ [_ [G1 G2]]].
  split; auto. apply psd_quad. apply mult_psd; auto.
Qed.

Lemma covariance_reg D ks log_scale m r : Forall (evaluable D) ks -> ks <> [] -> m <> [] -> rectangular m D ->
  exists C C0, get_covariance ks log_scale m None (Some r) false = Ok C /\
    get_covariance ks log_scale m None None false = Ok C0 /\ nr C = length m /\ nc C = length m /\
    forall i j, at_ C i j = at_ C0 i j + (logged log_scale r * ident i j) ^ 2.
Proof.
  intros HE HK HN HR.
  destruct (get_covariance_ok D ks log_scale m None None HE HK HN HR I ltac:(auto)) as [C0 [EC [N1 N2]]].
  cbn [cols_of] in N2.
  unfold get_covariance in *. cbn [require bind] in *.
  destruct (cov_loop ks log_scale false m None None) as [[c|]|] eqn:EL; try discriminate. cbn [bind] in *. injection EC as ->.
  rewrite N1, N2, Nat.eqb_refl. eexists. exists C0. split; [reflexivity|]. cbn. auto.
Qed.

Lemma covariance_posdef D ks log_scale m r : Forall (evaluable D) ks -> Forall (sensible log_scale) ks -> ks <> [] ->
  m <> [] -> rectangular m D -> logged log_scale r <> 0 ->
  exists C, get_covariance ks log_scale m None (Some r) false = Ok C /\ nr C = length m /\ nc C = length m /\
    symm (length m) (at_ C) /\ posdef (length m) (at_ C) /\ exists B, inverse (length m) (at_ C) B.
Proof.
  intros HE HS HK HN HR Hr.
  destruct (covariance_reg D ks log_scale m r HE HK HN HR) as [C [C0 [EC [EC0 [N1 [N2 HA]]]]]].
  destruct (covariance_symm_psd D ks log_scale m HE HS HK HN HR) as [C1 [EC1 [_ [_ [G1 G2]]]]].
  rewrite EC0 in EC1. injection EC1 as <-.
  exists C. split; [auto|]. split; [auto|]. split; [auto|].
  assert (Sy : symm (length m) (at_ C)).
  { intros i j Hi Hj. rewrite !HA. rewrite (G1 i j) by auto. unfold ident. rewrite (Nat.eqb_sym j i). auto. }
  assert (Pd : posdef (length m) (at_ C)).
  { intros x Hx. replace (quad (length m) (at_ C) x) with (quad (length m) (fun i j => at_ C0 i j + (logged log_scale r * ident i j) ^ 2) x).
    - apply (posdef_reg _ (at_ C0) (logged log_scale r) G2 Hr x Hx).
    - unfold quad. apply Sum_ext. intros i _. apply Sum_ext. intros j _. rewrite HA. auto. }
  split; [auto|]. split; [auto|]. apply posdef_invertible; auto.
Qed.

Lemma kappa_symm_psd D ks log_scale : Forall (evaluable D) ks -> Forall (sensible log_scale) ks -> ks <> [] ->
  (forall x y, length x = D -> length y = D -> kappa ks log_scale x y = kappa ks log_scale y x) /\
  forall n (xs : nat -> row), (forall i, (i < n)%nat -> length (xs i) = D) ->
    possemidef n (fun i j => kappa ks log_scale (xs i) (xs j)).
Proof.
  intros HE HS HK.
  assert (A : forall n (xs : nat -> row), (forall i, (i < n)%nat -> length (xs i) = D) -> n <> 0%nat ->
     symm n (fun i j => kappa ks log_scale (xs i) (xs j)) /\ possemidef n (fun i j => kappa ks log_scale (xs i) (xs j))).
  { intros n xs Hx Hn. set (m := map xs (seq 0 n)).
    assert (Lm : length m = n) by (unfold m; rewrite map_length, seq_length; auto).
    assert (HR : rectangular m D).
    { unfold rectangular, m. apply Forall_map, Forall_forall. intros i Hi. apply in_seq in Hi. apply Hx. lia. }
    assert (HN : m <> []) by (intros E; rewrite E in Lm; cbn in Lm; lia).
    assert (RA : forall i, (i < n)%nat -> row_at m i = xs i).
    { intros i Hi. unfold row_at, m. rewrite (nth_map_lt _ _ _ 0%nat) by (rewrite seq_length; auto). rewrite seq_nth by auto. auto. }
    destruct (covariance_symm_psd D ks log_scale m HE HS HK HN HR) as [C [EC [_ [_ [G1 G2]]]]].
    destruct (covariance_kappa D ks log_scale m None HE HK HN HR I) as [C' [EC' [_ [_ HA]]]].
    rewrite EC in EC'. injection EC' as <-. cbn [cols_of] in HA. rewrite Lm in *. split.
    - intros i j Hi Hj. rewrite <- (RA i Hi), <- (RA j Hj), <- !HA by auto. apply G1; auto.
    - intros v. specialize (G2 v). unfold quad in *. erewrite Sum_ext; [exact G2|]. intros i Hi. apply Sum_ext. intros j Hj.
      cbv beta. rewrite HA, RA, RA by auto. auto. }
  split.
  - intros x y Hx Hy. destruct (A 2%nat (fun i => if (i =? 0)%nat then x else y)) as [S1 _]; [|lia|].
    + intros i _. destruct (i =? 0)%nat; auto.
    + apply (S1 0 1)%nat; lia.
  - intros n xs Hx. destruct (Nat.eq_dec n 0) as [->|Hn]; [|apply A; auto].
    intros v. unfold quad. cbn. lra.
Qed.
