(** Properties of kernel dictionaries and covariance matrices (C41, C42, C94-C101). *)
From Coq Require Import Reals Lra Lia List Arith Bool.
From Verif Require Import Base BaseFacts RBase LinAlg KernModel KernProofs KernSetupProofs KernDefProofs
  KernScaleProofs KernEntryProofs.
Import ListNotations.
Open Scope R_scope.

(** ** Specification vocabulary *)

(** A dictionary with only a type. *)
Definition bare (t : ktype) : kdict :=
  KD (Some t) false None None None true None None None None None None None false.
Definition gaussian (w : list R) : kdict := set_width (bare KGaussian) (Arr w).
Definition laplacian (w : list R) : kdict := set_width (bare KLaplacian) (Arr w).
Definition constant (c : R) : kdict := set_const (bare KConstant) c.
Definition quadratic (s : list R) (d : R) : kdict := set_degree (set_slope (bare KQuadratic) (Arr s)) (Num d).
Definition constant_multi (l : list R) : kdict := set_hyper (bare KConstantMulti) (Arr l).
Definition noise_multi (l : list R) : kdict := set_hyper (bare KNoiseMulti) (Arr l).

(** The kernels a user may write down: a type among constant, gaussian, laplacian,
    quadratic and linear, 'features' that are columns of the data (at least one),
    a quadratic degree that is a number, no stray scalar width in a linear kernel. *)
Record well_formed (nd : nat) (k : kdict) : Prop := {
  w_type : basic k;
  w_range : in_range nd k;
  w_nonempty : match k_features k with Some [] => False | _ => True end;
  w_linear : k_type k = Some KLinear -> opt (fun v => exists l, v = Arr l) (k_width k) }.

Lemma prepare_all_evaluable ks nd dflt : (1 <= nd)%nat -> forall ks' b, prepare_loop ks nd dflt = Ok (ks', b) ->
  Forall (well_formed nd) ks -> Forall (evaluable nd) ks' /\ length ks' = length ks.
Proof.
  intros Hn. induction ks as [|k ks IH]; intros ks' b H HW; cbn [prepare_loop] in H.
  - injection H as <- _. auto.
  - apply Forall_cons_iff in HW. destruct HW as [HW1 HW2].
    destruct (prepare_kernel k nd dflt) as [[k1 b1]|] eqn:E1; [|discriminate]. cbn [bind] in H.
    destruct (prepare_loop ks nd dflt) as [[t1 b2]|] eqn:E2; [|discriminate]. injection H as <- _.
    destruct (IH _ _ eq_refl HW2) as [H1 H2]. cbn. split; [|lia]. constructor; auto.
    destruct HW1 as [A1 A2 A3 A4]. eapply prepare_evaluable; eauto.
Qed.

Lemma prepare_kernels_evaluable ks rb g nd ks' b : (1 <= nd)%nat -> prepare_kernels ks rb g nd = Ok (ks', b) ->
  Forall (well_formed nd) ks -> ks <> [] -> Forall (evaluable nd) ks' /\ ks' <> [].
Proof.
  intros Hn H HW HK. unfold prepare_kernels in H. destruct (prepare_loop ks nd (default_bound g)) as [[t c]|] eqn:E; [|discriminate].
  injection H as <- _. destruct (prepare_all_evaluable _ _ _ Hn _ _ E HW) as [H1 H2]. cbn. split; auto.
  destruct ks, t; cbn in *; congruence || lia.
Qed.

(** ** C94 *)

(** [bounds_of dflt k b]: b is the bound of the scaling, if k has one, and then those of the
    other hyperparameters: in both cases what the user gave, and the default otherwise. *)
Definition bounds_of (dflt : bound) (k : kdict) (b : list bound) : Prop :=
  exists sb tb, b = sb ++ tb /\
    sb = match k_scaling k with None => [] | Some _ => match k_scaling_bounds k with Some given => given | None => [dflt] end end /\
    match k_bounds k with Some given => tb = given | None => Forall (eq dflt) tb end.

Lemma prepare_bounds_of k nd dflt k' b : prepare_kernel k nd dflt = Ok (k', b) -> plain k -> own_bounds k nd -> bounds_of dflt k b.
Proof.
  intros H HP [_ HB]. unfold prepare_kernel in H. unfold plain in HP. destruct (k_type k) as [t|]; [|discriminate].
  apply require_ok in H. destruct H as [_ H]. apply require_ok in H. destruct H as [_ H].
  destruct (match k_scaling k with Some _ => scaling_setup k dflt | None => Ok [] end) as [sb|] eqn:Esb; [|discriminate].
  cbn [bind] in H. destruct (type_setup t k _ dflt) as [[k2 tb]|] eqn:Ets; [|discriminate]. cbn [bind fst snd] in H. injection H as <- <-.
  exists sb, tb. split; [auto|]. split.
  - destruct (k_scaling k); [|congruence]. unfold scaling_setup in Esb. apply require_ok in Esb. destruct Esb as [_ E]. congruence.
  - assert (R : forall n, tb = match k_bounds k with Some given => given | None => repeat dflt n end ->
      match k_bounds k with Some given => tb = given | None => Forall (eq dflt) tb end).
    { intros n ->. destruct (k_bounds k); [auto|]. apply Forall_forall. intros x Hx. apply repeat_spec in Hx. auto. }
    destruct t; cbn [type_setup] in Ets; try discriminate; try contradiction;
      repeat match goal with
      | H : bind (require _) _ = Ok _ |- _ => apply require_ok in H; destruct H as [_ H]
      | H : match ?x with Some _ => _ | None => _ end = Ok _ |- _ => destruct x eqn:?; try discriminate
      | H : bind (format_vec ?a ?b) _ = Ok _ |- _ => destruct (format_vec a b); [cbn [bind] in H|discriminate]
      end;
      try (injection Ets as <- <-);
      try (first [apply (R 1%nat); reflexivity | apply (R 2%nat); reflexivity | apply (R 3%nat); reflexivity | eapply R; reflexivity]);
      try (destruct (k_bounds k) as [g|]; [destruct g; [auto|discriminate]|constructor]).
Qed.

(** prepare_kernels returns one bound per hyperparameter, kernel by kernel and in the
    order in which kdicts2list lists the hyperparameters, followed by the bound of
    the regularization. *)
Theorem bounds_match_hyperparameters : forall ks rb grad nd ks' bnds,
  prepare_kernels ks rb grad nd = Ok (ks', bnds) ->
  Forall plain ks -> Forall (fun k => own_bounds k nd) ks -> ks <> [] ->
  exists (params : list (list R)) (bounds : list (list bound)),
    kdicts2list ks' nd = Ok (concat params) /\
    bnds = concat bounds ++ [rb] /\
    Forall2 (fun k p => exists s th, kdict2list k nd = Ok (s, map Num th) /\ p = s ++ th) ks' params /\
    Forall2 (fun p b => length p = length b) params bounds /\
    Forall2 (bounds_of (if grad then (/ 1000000, Some 1000000) else (/ 10000000000, None))) ks bounds /\
    length ks' = length ks /\ map k_type ks' = map k_type ks.
Proof.
  intros ks rb grad nd ks' bnds H HP HB HN. unfold prepare_kernels in H.
  destruct (prepare_loop ks nd (default_bound grad)) as [[ks1 b1]|] eqn:E; [|discriminate]. cbn in H. injection H as <- <-.
  destruct (prepare_loop_spec _ _ _ _ _ E HP HB) as [H1 [H2 [H3 [blocks [H4 [H5 [H6 H7]]]]]]].
  assert (L : length ks1 = length ks) by (rewrite <- (map_length k_type ks1), H2, map_length; auto).
  exists (map fst blocks), (map snd blocks). split; [|split; [|split; [|split; [|split; [|split]]]]]; auto.
  - unfold kdicts2list. destruct ks1; [destruct ks; cbn in L; congruence || discriminate|auto].
  - rewrite H6. auto.
  - clear -H4. induction H4 as [|k b ks bs [Hk _] _ IH]; cbn; constructor; auto.
    unfold block in Hk. destruct (kdict2list k nd) as [[s th]|]; [|discriminate]. cbn [bind fst snd] in Hk.
    destruct (floats th) as [f|] eqn:Ef; [|discriminate]. cbn in Hk. injection Hk as <-.
    exists s, f. split; auto. f_equal. f_equal. clear -Ef. revert f Ef; induction th as [|[x|l] th IH]; intros f Ef; cbn in Ef.
    + injection Ef as <-. auto.
    + destruct (floats th) as [g|]; [|discriminate]. cbn in Ef. injection Ef as <-. cbn. f_equal. auto.
    + discriminate.
  - clear -H4. induction H4 as [|k b ks bs [_ Hk] _ IH]; cbn; constructor; auto.
  - change (if grad then (/ 1000000, Some 1000000) else (/ 10000000000, None)) with (default_bound grad).
    clear -H7 HP HB. induction H7 as [|k b ks bs [k' Hk] _ IH]; cbn; constructor; inversion HP; inversion HB; subst; auto.
    eapply prepare_bounds_of; eauto.
Qed.
Print Assumptions bounds_match_hyperparameters.

Example bounds_example :
  prepare_kernels [set_width (bare KGaussian) (Num 2); quadratic [1; 3] 5; noise_multi [1; 1]] (0, None) false 2 =
    Ok ([gaussian [2; 2]; quadratic [1; 3] 5; noise_multi [1; 1]],
        repeat (/ 10000000000, None) 7 ++ [(0, None)]) /\
  Forall plain [set_width (bare KGaussian) (Num 2); quadratic [1; 3] 5; noise_multi [1; 1]] /\
  Forall (fun k => own_bounds k 2) [set_width (bare KGaussian) (Num 2); quadratic [1; 3] 5; noise_multi [1; 1]].
Proof.
  split; [|split].
  - cbn. unfold prepare_kernels. cbn. unfold Rltb. destruct (Rlt_dec 0 2); [|lra]. reflexivity.
  - repeat constructor; cbn; eauto.
  - repeat constructor; cbn; auto.
Qed.

(** ** C41 *)

(** For prepared kernel lists without quadratic kernels and with constant_multi and
    noise_multi kernels only in last position: writing the flat list back is the
    identity, and writing any other list of values of the same length (followed by
    the regularization) makes exactly these values the hyperparameters. *)
Theorem hyperparameters_round_trip_partial : forall ks rb grad nd ks' bnds flat,
  prepare_kernels ks rb grad nd = Ok (ks', bnds) ->
  Forall plain ks -> Forall (fun k => own_bounds k nd) ks -> ks <> [] ->
  Forall (fun k => k_type k <> Some KQuadratic) ks ->
  (forall i, (S i < length ks)%nat -> nth i (map k_type ks) None <> Some KConstantMulti /\
                                      nth i (map k_type ks) None <> Some KNoiseMulti) ->
  kdicts2list ks' nd = Ok flat ->
  list2kdict flat ks' = Ok ks' /\
  forall flat' rest, length flat' = length flat ->
    exists ks2, list2kdict (flat' ++ rest) ks' = Ok ks2 /\ map k_type ks2 = map k_type ks /\
                kdicts2list ks2 nd = Ok flat'.
Proof.
  intros ks rb grad nd ks' bnds flat H HP HB HN HQ HM HF. unfold prepare_kernels in H.
  destruct (prepare_loop ks nd (default_bound grad)) as [[ks1 b1]|] eqn:E; [|discriminate]. cbn in H. injection H as <- <-.
  destruct (prepare_loop_spec _ _ _ _ _ E HP HB) as [H1 [H2 _]].
  assert (HQ' : Forall (fun k => is_quadratic k = false) ks1).
  { apply Forall_forall. intros k Hk. apply (in_map k_type) in Hk. rewrite H2 in Hk. apply in_map_iff in Hk.
    destruct Hk as [k0 [Ek Hk]]. rewrite Forall_forall in HQ. specialize (HQ _ Hk). rewrite Ek in HQ.
    unfold is_quadratic. destruct (k_type k) as [[]|]; auto. congruence. }
  assert (HM' : multi_last ks1).
  { assert (L : length ks1 = length ks) by (rewrite <- (map_length k_type ks1), H2, map_length; auto).
    rewrite <- H2, <- L in HM. clear -HM. induction ks1 as [|k [|k2 t] IH]; cbn; auto. split.
    - destruct (HM 0%nat) as [A B]; [cbn; lia|]. cbn in A, B. unfold advances. destruct (k_type k) as [[]|]; auto; congruence.
    - apply IH. intros i Hi. apply (HM (S i)). cbn in *. lia. }
  assert (HF' : kdicts_loop ks1 nd = Ok flat) by (unfold kdicts2list in HF; destruct ks1; [discriminate|auto]).
  assert (HN' : ks1 <> []) by (intros ->; discriminate).
  split.
  - destruct (list2kdict_spec ks1 nd H1 HQ' HM' flat HF' [] flat [] eq_refl) as [k2 [E2 [_ [_ [_ E3]]]]].
    rewrite (E3 eq_refl) in E2. cbn in E2. rewrite app_nil_r in E2. exact E2.
  - intros flat' rest HL. destruct (list2kdict_spec ks1 nd H1 HQ' HM' flat HF' [] flat' rest HL) as [k2 [E2 [_ [E3 [E4 _]]]]].
    exists k2. split; [exact E2|]. split; [congruence|]. unfold kdicts2list.
    destruct k2; [destruct ks1; [congruence|discriminate]|auto].
Qed.
Print Assumptions hyperparameters_round_trip_partial.

Example round_trip_example :
  let ks := [constant 1; gaussian [2; 3]; noise_multi [4; 5]] in
  kdicts2list ks 2 = Ok [1; 2; 3; 4; 5] /\ list2kdict [6; 7; 8; 9; 10; 11] ks = Ok [constant 6; gaussian [7; 8]; noise_multi [9; 10]].
Proof. split; reflexivity. Qed.

(** A constant_multi (or noise_multi) kernel that is not last: writing the unchanged
    hyperparameters back replaces the width of the kernel behind it. *)
Theorem multi_kernel_shifts_refuted : forall a b c w,
  prepare_kernels [constant_multi [a; b; c]; gaussian [w]] (0, None) true 1 =
    (if Rltb 0 w then Ok ([constant_multi [a; b; c]; gaussian [w]], repeat (/ 1000000, Some 1000000) 4 ++ [(0, None)]) else Err AssertionError) /\
  kdicts2list [constant_multi [a; b; c]; gaussian [w]] 1 = Ok [a; b; c; w] /\
  list2kdict [a; b; c; w] [constant_multi [a; b; c]; gaussian [w]] = Ok [constant_multi [a; b; c]; gaussian [a]].
Proof.
  intros. split; [|split; reflexivity]. unfold prepare_kernels. cbn. destruct (Rltb 0 w); reflexivity.
Qed.
Print Assumptions multi_kernel_shifts_refuted.

(** A quadratic kernel: the degree comes back as an array, and flattening the result
    again is an error. *)
Theorem quadratic_degree_array_refuted : forall s d,
  kdicts2list [quadratic [s] d] 1 = Ok [s; d] /\
  list2kdict [s; d] [quadratic [s] d] = Ok [set_degree (quadratic [s] d) (Arr [d])] /\
  kdicts2list [set_degree (quadratic [s] d) (Arr [d])] 1 = Err ValueError.
Proof. intros. repeat split; reflexivity. Qed.
Print Assumptions quadratic_degree_array_refuted.

(** The values themselves are read correctly: the slopes and the degree of a quadratic kernel
    are the first entries and the kernels behind it get the entries after them. *)
Lemma list2kdict_shift : forall ks pre rest i,
  list2kdict_from (pre ++ rest) (length pre + i) ks = list2kdict_from rest i ks.
Proof.
  assert (HI : forall pre (rest : list R) i, item (pre ++ rest) (length pre + i) = item rest i).
  { intros pre rest i. unfold item. rewrite nth_error_app2 by lia.
    replace (length pre + i - length pre)%nat with i by lia. reflexivity. }
  assert (HS : forall pre (rest : list R) i n, slice (pre ++ rest) (length pre + i) n = slice rest i n).
  { intros pre rest i n. unfold slice. rewrite skipn_app, skipn_all2 by lia.
    replace (length pre + i - length pre)%nat with i by lia. reflexivity. }
  assert (HT : forall k pre rest i, list2kdict_step (pre ++ rest) (length pre + i) k =
     bind (list2kdict_step rest i k) (fun r => Ok (fst r, (length pre + snd r)%nat))).
  { intros k pre rest i. unfold list2kdict_step. destruct (k_type k) as [t|]; [|reflexivity].
    assert (HK : forall k j, match t with
      | KGaussian | KLaplacian => bind (len (k_width k)) (fun n => Ok (set_width k (Arr (slice (pre ++ rest) (length pre + j) n)), (length pre + j + n)%nat))
      | KQuadratic => bind (len (k_slope k)) (fun n => let theta := slice (pre ++ rest) (length pre + j) (n + 1) in
          Ok (set_degree (set_slope k (Arr (firstn n theta))) (Arr (skipn n theta)), (length pre + j + n + 1)%nat))
      | KLinear => Ok (k, (length pre + j)%nat)
      | KConstant => bind (item (pre ++ rest) (length pre + j)) (fun x => Ok (set_const k x, S (length pre + j)))
      | _ => bind (len (k_hyper k)) (fun n => Ok (set_hyper k (Arr (slice (pre ++ rest) (length pre + j) n)), (length pre + j)%nat)) end =
      bind (match t with
      | KGaussian | KLaplacian => bind (len (k_width k)) (fun n => Ok (set_width k (Arr (slice rest j n)), (j + n)%nat))
      | KQuadratic => bind (len (k_slope k)) (fun n => let theta := slice rest j (n + 1) in
          Ok (set_degree (set_slope k (Arr (firstn n theta))) (Arr (skipn n theta)), (j + n + 1)%nat))
      | KLinear => Ok (k, j)
      | KConstant => bind (item rest j) (fun x => Ok (set_const k x, S j))
      | _ => bind (len (k_hyper k)) (fun n => Ok (set_hyper k (Arr (slice rest j n)), j)) end)
      (fun r => Ok (fst r, (length pre + snd r)%nat))).
    { intros k0 j. rewrite HI. destruct t;
        try (destruct (item rest j); cbn [bind fst snd]; [|reflexivity]; do 2 f_equal; lia);
        try (destruct (len _); cbn [bind fst snd]; [|reflexivity]; rewrite HS; do 2 f_equal; lia); reflexivity. }
    destruct (k_scaling k); [|apply HK]. rewrite HI. destruct (item rest i); cbn [bind]; [|reflexivity].
    replace (S (length pre + i)) with (length pre + S i)%nat by lia. apply HK. }
  induction ks as [|k t IH]; intros pre rest i; cbn [list2kdict_from]; [reflexivity|].
  rewrite HT. destruct (list2kdict_step rest i k) as [[k' j]|]; cbn [bind fst snd]; [|reflexivity]. rewrite IH. reflexivity.
Qed.

Theorem quadratic_values_read_partial : forall s d s' d' rest ks, length s' = length s ->
  list2kdict (s' ++ d' :: rest) (quadratic s d :: ks) =
  bind (list2kdict rest ks) (fun ks2 => Ok (set_degree (quadratic s' d) (Arr [d']) :: ks2)).
Proof.
  intros s d s' d' rest ks HL. unfold list2kdict. cbn [list2kdict_from]. unfold list2kdict_step. cbn.
  rewrite <- HL. unfold slice. cbn [skipn].
  assert (E : firstn (length s' + 1) (s' ++ d' :: rest) = s' ++ [d']).
  { rewrite firstn_app, firstn_all2 by lia. replace (length s' + 1 - length s')%nat with 1%nat by lia. reflexivity. }
  rewrite E, firstn_app, firstn_all, skipn_app, skipn_all, Nat.sub_diag. cbn [firstn skipn app]. rewrite app_nil_r.
  replace (s' ++ d' :: rest) with ((s' ++ [d']) ++ rest) by (rewrite <- app_assoc; reflexivity).
  replace (length s' + 1)%nat with (length (s' ++ [d']) + 0)%nat by (rewrite app_length; cbn; lia).
  rewrite list2kdict_shift. reflexivity.
Qed.
Print Assumptions quadratic_values_read_partial.
Example quadratic_values_case :
  list2kdict [1; 2; 3; 7] [quadratic [5; 5] 1; constant 4] = Ok [set_degree (quadratic [1; 2] 1) (Arr [3]); constant 7].
Proof. exact (quadratic_values_read_partial [5; 5] 1 [1; 2] 3 [7] [constant 4] eq_refl). Qed.

(** ** C42 *)

(** The training covariance is symmetric and positive semidefinite. *)
Theorem covariance_positive_semidefinite : forall ks rb nd ks' bnds log_scale m,
  prepare_kernels ks rb false nd = Ok (ks', bnds) -> (1 <= nd)%nat ->
  Forall (well_formed nd) ks -> ks <> [] -> Forall (sensible log_scale) ks' ->
  m <> [] -> Forall (fun r => length r = nd) m ->
  exists C, get_covariance ks' log_scale m None None false = Ok C /\ nr C = length m /\ nc C = length m /\
    (forall i j, (i < length m)%nat -> (j < length m)%nat -> at_ C j i = at_ C i j) /\
    (forall x : nat -> R, 0 <= Sum (length m) (fun i => Sum (length m) (fun j => x i * at_ C i j * x j))).
Proof.
  intros ks rb nd ks' bnds log_scale m HP Hn HW HK HS HN HR.
  destruct (prepare_kernels_evaluable _ _ _ _ _ _ Hn HP HW HK) as [HE HK'].
  destruct (covariance_symm_psd nd ks' log_scale m HE HS HK' HN HR) as [C [H1 [H2 [H3 [H4 H5]]]]].
  exists C. split; [auto|]. split; [auto|]. split; [auto|]. split; [|exact H5].
  intros i j Hi Hj. apply H4; auto.
Qed.
Print Assumptions covariance_positive_semidefinite.

(** With a regularization that is not zero (always so when hyperparameters are
    log-scaled) it is positive definite and has an inverse. *)
Theorem covariance_positive_definite : forall ks rb nd ks' bnds log_scale m reg,
  prepare_kernels ks rb false nd = Ok (ks', bnds) -> (1 <= nd)%nat ->
  Forall (well_formed nd) ks -> ks <> [] -> Forall (sensible log_scale) ks' ->
  m <> [] -> Forall (fun r => length r = nd) m -> (log_scale = true \/ reg <> 0) ->
  exists C, get_covariance ks' log_scale m None (Some reg) false = Ok C /\ nr C = length m /\ nc C = length m /\
    (forall x : nat -> R, (exists i, (i < length m)%nat /\ x i <> 0) ->
       0 < Sum (length m) (fun i => Sum (length m) (fun j => x i * at_ C i j * x j))) /\
    exists B : nat -> nat -> R, forall i j, (i < length m)%nat -> (j < length m)%nat ->
       Sum (length m) (fun l => at_ C i l * B l j) = (if (i =? j)%nat then 1 else 0) /\
       Sum (length m) (fun l => B i l * at_ C l j) = (if (i =? j)%nat then 1 else 0).
Proof.
  intros ks rb nd ks' bnds log_scale m reg HP Hn HW HK HS HN HR Hr.
  destruct (prepare_kernels_evaluable _ _ _ _ _ _ Hn HP HW HK) as [HE HK'].
  assert (Hl : logged log_scale reg <> 0).
  { unfold logged. destruct log_scale; [pose proof (exp_pos reg); lra|destruct Hr; [discriminate|auto]]. }
  destruct (covariance_posdef nd ks' log_scale m reg HE HS HK' HN HR Hl) as [C [H1 [H2 [H3 [H4 [H5 [B HB]]]]]]].
  exists C. split; [auto|]. split; [auto|]. split; [auto|]. split; [exact H5|].
  exists B. intros i j Hi Hj. destruct HB as [HB1 HB2]. split; [apply HB1|apply HB2]; auto.
Qed.
Print Assumptions covariance_positive_definite.

Example covariance_example :
  let ks := [gaussian [1; 2]; laplacian [3; 1]; constant 2; quadratic [1; 1] 2] in
  (exists b, prepare_kernels ks (0, None) false 2 = Ok (ks, b)) /\ Forall (well_formed 2) ks /\
  Forall (sensible false) ks.
Proof.
  cbv zeta. split; [|split].
  - unfold prepare_kernels. cbn. unfold Rltb. destruct (Rlt_dec 0 1), (Rlt_dec 0 2); try lra. cbn. eauto.
  - repeat apply Forall_cons; try apply Forall_nil; constructor; cbn; eauto; try exact I; discriminate.
  - repeat apply Forall_cons; try apply Forall_nil; constructor; cbn; intros _; try exact I; repeat constructor; cbn; lra.
Qed.

(** ** C101: one covariance function *)

(** Every entry of every covariance matrix (training, or test against training) is
    the covariance of the two single points, whatever else is in the data. *)
Theorem covariance_entrywise : forall ks rb nd ks' bnds log_scale m1 m2,
  prepare_kernels ks rb false nd = Ok (ks', bnds) -> (1 <= nd)%nat ->
  Forall (well_formed nd) ks -> ks <> [] ->
  m1 <> [] -> Forall (fun r => length r = nd) m1 -> m2 <> [] -> Forall (fun r => length r = nd) m2 ->
  exists K C, get_covariance ks' log_scale m1 None None false = Ok K /\
    get_covariance ks' log_scale m1 (Some m2) None false = Ok C /\
    (forall i j, (i < length m1)%nat -> (j < length m1)%nat ->
       exists e, get_covariance ks' log_scale [row_at m1 i] (Some [row_at m1 j]) None false = Ok e /\ at_ K i j = at_ e 0 0) /\
    (forall i j, (i < length m1)%nat -> (j < length m2)%nat ->
       exists e, get_covariance ks' log_scale [row_at m1 i] (Some [row_at m2 j]) None false = Ok e /\ at_ C i j = at_ e 0 0).
Proof.
  intros ks rb nd ks' bnds log_scale m1 m2 HP Hn HW HK HN1 HR1 HN2 HR2.
  destruct (prepare_kernels_evaluable _ _ _ _ _ _ Hn HP HW HK) as [HE HK'].
  destruct (get_covariance_ok nd ks' log_scale m1 None None HE HK' HN1 HR1 I ltac:(auto)) as [K [EK _]].
  destruct (get_covariance_ok nd ks' log_scale m1 (Some m2) None HE HK' HN1 HR1 (conj HR2 HN2) ltac:(auto)) as [C [EC _]].
  exists K, C. split; [auto|]. split; [auto|]. split; intros i j Hi Hj.
  - destruct (get_covariance_entry nd ks' log_scale m1 None K HE HK' HN1 HR1 I EK i j Hi Hj) as [e [E1 E2]]. eauto.
  - destruct (get_covariance_entry nd ks' log_scale m1 (Some m2) C HE HK' HN1 HR1 (conj HR2 HN2) EC i j Hi Hj) as [e [E1 E2]]. eauto.
Qed.
Print Assumptions covariance_entrywise.

(** ** C95, C96: scaling of the hyperparameters *)

Lemma prepared_fits : forall ks rb g nd ks' b, prepare_kernels ks rb g nd = Ok (ks', b) ->
  Forall (in_range nd) ks -> Forall basic ks -> Forall (fits nd) ks'.
Proof.
  intros ks rb g nd ks' b H. unfold prepare_kernels in H.
  destruct (prepare_loop ks nd (default_bound g)) as [[ks1 b1]|] eqn:E; [|discriminate]. cbn in H. injection H as <- _.
  revert ks1 b1 E; induction ks as [|k ks IH]; intros ks1 b1 E HR HB; cbn [prepare_loop] in E.
  - injection E as <- _. constructor.
  - apply Forall_cons_iff in HR. destruct HR as [HR1 HR2]. apply Forall_cons_iff in HB. destruct HB as [HB1 HB2].
    destruct (prepare_kernel k nd (default_bound g)) as [[k1 c1]|] eqn:E1; [|discriminate]. cbn [bind] in E.
    destruct (prepare_loop ks nd (default_bound g)) as [[t1 c2]|]; [|discriminate]. cbn in E. injection E as <- _.
    constructor; [|eapply IH; eauto]. clear IH. unfold prepare_kernel in E1.
    destruct (k_type k) as [t|] eqn:Et; [|discriminate]. apply require_ok in E1. destruct E1 as [_ E1].
    apply require_ok in E1. destruct E1 as [_ E1].
    destruct (match k_scaling k with Some _ => scaling_setup k (default_bound g) | None => Ok [] end); [|discriminate]. cbn [bind] in E1.
    set (c := match k_dimension k with Some Single => 1%nat | _ => match k_features k with Some f => length f | None => nd end end) in *.
    destruct (type_setup t k c (default_bound g)) as [[k2 b2]|] eqn:E2; [|discriminate]. cbn in E1. injection E1 as <- _.
    unfold basic in HB1. rewrite Et in HB1. unfold fits. destruct t; try contradiction; cbn [type_setup] in E2.
    + apply require_ok in E2. destruct E2 as [_ E2]. destruct (k_const k); [|discriminate]. injection E2 as <- _. rewrite Et. auto.
    + destruct (k_width k) as [w|]; [|discriminate]. apply require_ok in E2. destruct E2 as [_ E2].
      destruct (format_vec w c) as [l|] eqn:El; [|discriminate]. cbn [bind] in E2. apply require_ok in E2. destruct E2 as [_ E2].
      injection E2 as <- _. cbn [set_width k_type k_dimension k_features k_width]. rewrite Et. split; [exact HR1|].
      apply format_vec_ok in El. unfold c in El. destruct (k_dimension k) as [[]|]; auto; right; exists l; auto.
    + destruct (k_slope k) as [s|]; [|discriminate]. destruct (k_degree k); [|discriminate].
      apply require_ok in E2. destruct E2 as [_ E2]. destruct (format_vec s c) as [l|]; [|discriminate]. injection E2 as <- _.
      cbn [set_slope k_type]. rewrite Et. split; auto.
    + destruct (k_width k) as [w|]; [|discriminate]. apply require_ok in E2. destruct E2 as [_ E2].
      destruct (format_vec w c) as [l|] eqn:El; [|discriminate]. injection E2 as <- _. cbn [set_width k_type]. rewrite Et. split; auto.
    + injection E2 as <- _. rewrite Et. auto.
Qed.

(** C95: scaling the hyperparameters and rescaling them (in either order) gives the
    original kernel list back. *)
Theorem kernel_scaling_round_trip : forall ks rb g nd ks' b std rescale,
  prepare_kernels ks rb g nd = Ok (ks', b) ->
  Forall (in_range nd) ks -> Forall basic ks ->
  length std = nd -> Forall (fun s => s <> 0) std ->
  exists ks1, kernel_scaling std ks' rescale = Ok ks1 /\ kernel_scaling std ks1 (negb rescale) = Ok ks'.
Proof.
  intros ks rb g nd ks' b std rescale HP HR HB HL HS.
  apply (kernel_scaling_inverse_lem nd); auto. eapply prepared_fits; eauto.
Qed.
Print Assumptions kernel_scaling_round_trip.

Example kernel_scaling_example :
  kernel_scaling [2; 4] [gaussian [6; 12]; constant 1] false = Ok [gaussian [6 / 2; 12 / 4]; constant 1].
Proof. reflexivity. Qed.

(** C96: for gaussian kernels (one width per feature) and constants, standardizing
    the features and scaling the kernel widths leaves the covariance unchanged. *)
Theorem scaling_preserves_covariance_partial : forall nd ks ks1 mean std m reg,
  Forall (scalable nd) ks -> ks <> [] -> m <> [] -> Forall (fun r => length r = nd) m ->
  length mean = nd -> length std = nd -> Forall (fun s => s <> 0) std ->
  kernel_scaling std ks false = Ok ks1 ->
  exists C C1, get_covariance ks false m None reg false = Ok C /\
    get_covariance ks1 false (standard_rows mean std m) None reg false = Ok C1 /\
    forall i j, (i < length m)%nat -> (j < length m)%nat -> at_ C1 i j = at_ C i j.
Proof.
  intros nd ks ks1 mean std m reg HK HN HM HR Lm Ls Hs E.
  destruct (cov_loop_invariant nd mean std m HM HR Lm Ls Hs ks ks1 HK E None None HN) as [c [c' [E1 [E2 [N1 [N2 [S1 [S2 S3]]]]]]]].
  unfold get_covariance. cbn [require bind]. rewrite E1, E2. cbn [bind].
  destruct reg as [r|].
  - rewrite S1, S2, N1, N2, Nat.eqb_refl. eexists. eexists. split; [reflexivity|]. split; [reflexivity|]. cbn. intros i j Hi Hj.
    rewrite S3 by lia. auto.
  - exists c, c'. split; [auto|]. split; [auto|]. intros i j Hi Hj. apply S3; lia.
Qed.
Print Assumptions scaling_preserves_covariance_partial.

Example scaling_example : Forall (scalable 2) [gaussian [6; 12]; constant 1] /\
  standard_rows [1; 1] [2; 4] [[3; 5]] = [[(3 - 1) / 2; (5 - 1) / 4]].
Proof.
  split; [|reflexivity]. repeat apply Forall_cons; try apply Forall_nil; cbn.
  - split; [exact I|]. split; [discriminate|]. split; [reflexivity|]. split; [reflexivity|].
    exists [6; 12]. split; [reflexivity|]. split; [|reflexivity]. repeat constructor; lra.
  - repeat split; reflexivity.
Qed.

(** A laplacian kernel is left as it is, so its covariance changes. *)
Theorem laplacian_scaling_refuted : exists m std mean C C1,
  kernel_scaling std [laplacian [1]] false = Ok [laplacian [1]] /\
  get_covariance [laplacian [1]] false m None None false = Ok C /\
  get_covariance [laplacian [1]] false (standard_rows mean std m) None None false = Ok C1 /\
  at_ C 0 1 <> at_ C1 0 1.
Proof.
  exists [[0]; [2]], [2], [0]. eexists. eexists. split; [reflexivity|]. split; [reflexivity|]. split; [reflexivity|].
  cbn. unfold laplacian_fn, cityblock_dist. cbn.
  replace (0 / 1 - 2 / 1) with (- (2)) by lra. replace ((0 - 0) / 2 / 1 - (2 - 0) / 2 / 1) with (- (1)) by lra.
  rewrite !Rabs_Ropp, !Rabs_right by lra. intros H.
  assert (exp (- (2 + 0)) < exp (- (1 + 0))) by (apply exp_increasing; lra). lra.
Qed.
Print Assumptions laplacian_scaling_refuted.

(** ** C97: the quadratic kernel *)

(** With one feature, the quadratic kernel uses the slope and the degree given. *)
Theorem quadratic_one_feature_partial : forall s d x y,
  exists C, get_covariance [quadratic [s] d] false [[x]] (Some [[y]]) None false = Ok C /\
    at_ C 0 0 = Rpower (1 + / 2 * (x / s * d - y / s * d) ^ 2) (- d).
Proof.
  intros. eexists. split; [reflexivity|]. cbn. unfold quadratic_fn, sqeuclidean. cbn.
  rewrite Rplus_0_l, Rmult_1_l, Rplus_0_r. reflexivity.
Qed.
Print Assumptions quadratic_one_feature_partial.

(** With two or more features, the degree and all slopes but the first two are
    ignored: the second slope is used as degree. *)
Theorem quadratic_degree_ignored_refuted : forall s1 s2 rest rest' d d' log_scale m1 m2,
  get_covariance [quadratic (s1 :: s2 :: rest) d] log_scale m1 m2 None false =
  get_covariance [quadratic (s1 :: s2 :: rest') d'] log_scale m1 m2 None false.
Proof. intros. reflexivity. Qed.
Print Assumptions quadratic_degree_ignored_refuted.

(** ** C98: absent 'scaling' *)

Theorem no_scaling_is_one_partial : forall k nd m1 m2 K, k_scaling k = None ->
  Forall (fun r => length r = nd) m1 ->
  scaled_kernel k false false m1 m2 = Ok K ->
  exists K', scaled_kernel (set_scaling k 1) false false m1 m2 = Ok K' /\
    nr K' = nr K /\ nc K' = nc K /\ forall i j, at_ K' i j = at_ K i j.
Proof.
  intros k nd m1 m2 K Hs _ H. unfold scaled_kernel in *. unfold kdict2list in *. change (k_type (set_scaling k 1)) with (k_type k).
  destruct (k_type k) as [t|] eqn:Et; [|discriminate].
  change (select (set_scaling k 1)) with (select k). destruct (select k m1) as [s1|]; [|discriminate]. cbn [bind] in *.
  destruct (match m2 with Some m => bind (select k m) (fun s => Ok (Some s)) | None => Ok None end) as [s2|]; [|discriminate].
  cbn [bind] in *. rewrite Hs in H. change (k_scaling (set_scaling k 1)) with (Some 1).
  change (k_features (set_scaling k 1)) with (k_features k).
  assert (G : forall n, get_theta (set_scaling k 1) n = get_theta k n) by (intros; reflexivity). rewrite G.
  destruct (get_theta k _) as [th|]; [|discriminate]. cbn [bind fst snd] in *.
  destruct (kernel t th false false s1 s2) as [K0|]; [|discriminate]. cbn [bind] in *. injection H as <-.
  eexists. split; [reflexivity|]. cbn. auto.
Qed.
Print Assumptions no_scaling_is_one_partial.

(** With log-scaled hyperparameters a kernel without 'scaling' is multiplied by e. *)
Theorem no_scaling_logscale_refuted : forall w x,
  exists C, get_covariance [gaussian [w]] true [[x]] None None false = Ok C /\ at_ C 0 0 = exp 1 /\ exp 1 <> 1.
Proof.
  intros w x. eexists. split; [reflexivity|]. cbn. split; [lra|].
  pose proof (exp_increasing 0 1 ltac:(lra)). rewrite exp_0 in H. lra.
Qed.
Print Assumptions no_scaling_logscale_refuted.

(** ** C99: accepted kernels can be evaluated *)

Theorem accepted_kernels_evaluate_partial : forall ks rb nd ks' bnds log_scale m1 m2 reg,
  prepare_kernels ks rb false nd = Ok (ks', bnds) -> (1 <= nd)%nat ->
  Forall (well_formed nd) ks -> ks <> [] ->
  m1 <> [] -> Forall (fun r => length r = nd) m1 ->
  match m2 with None => True | Some m => m <> [] /\ Forall (fun r => length r = nd) m /\ reg = None end ->
  exists C, get_covariance ks' log_scale m1 m2 reg false = Ok C /\ nr C = length m1 /\
    nc C = match m2 with None => length m1 | Some m => length m end.
Proof.
  intros ks rb nd ks' bnds log_scale m1 m2 reg HP Hn HW HK HN HR H2.
  destruct (prepare_kernels_evaluable _ _ _ _ _ _ Hn HP HW HK) as [HE HK'].
  destruct (get_covariance_ok nd ks' log_scale m1 m2 reg HE HK' HN HR) as [C [H3 [H4 H5]]].
  - destruct m2; cbn; tauto.
  - destruct m2; tauto.
  - exists C. split; [auto|]. split; [auto|]. destruct m2; auto.
Qed.
Print Assumptions accepted_kernels_evaluate_partial.

(** A 'user' kernel, and a constant_multi kernel without gradients, pass the setup and
    fail at the first covariance, for every data set. *)
Theorem accepted_kernel_fails_refuted : forall m,
  (exists b, prepare_kernels [bare KUser] (0, None) false 1 = Ok ([bare KUser], b)) /\
  get_covariance [bare KUser] false m None None false = Err AttributeError /\
  (exists b, prepare_kernels [constant_multi [1; 1; 1]] (0, None) false 1 = Ok ([constant_multi [1; 1; 1]], b)) /\
  get_covariance [constant_multi [1; 1; 1]] false m None None false = Err AssertionError.
Proof. intros m. repeat split; try reflexivity; eexists; reflexivity. Qed.
Print Assumptions accepted_kernel_fails_refuted.

(** ** C100: negative hyperparameters *)

Theorem negative_constant_accepted_refuted :
  (exists b, prepare_kernels [constant (-1)] (0, None) false 1 = Ok ([constant (-1)], b)) /\
  exists C, get_covariance [constant (-1)] false [[0]] None None false = Ok C /\ at_ C 0 0 < 0.
Proof. split; [eexists; reflexivity|]. eexists. split; [reflexivity|]. cbn. lra. Qed.
Print Assumptions negative_constant_accepted_refuted.

(** Negative, zero or missing gaussian widths are rejected. *)
Theorem nonpositive_width_rejected_partial : forall k rb g nd,
  k_type k = Some KGaussian -> (1 <= nd)%nat -> k_features k = None ->
  (match k_width k with Some (Num x) => x <= 0 | Some (Arr l) => exists x, In x l /\ x <= 0 | None => True end) ->
  exists e, prepare_kernels [k] rb g nd = Err e.
Proof.
  intros k rb g nd Ht Hn Hf Hw. unfold prepare_kernels, prepare_loop, prepare_kernel. rewrite Ht, Hf.
  destruct (require (nd <=? nd)%nat); cbn [bind]; [|eauto].
  destruct (require match k_dimension k with Some OtherDim => false | _ => true end); cbn [bind]; [|eauto].
  destruct (match k_scaling k with Some _ => scaling_setup k (default_bound g) | None => Ok [] end); cbn [bind]; [|eauto].
  set (c := match k_dimension k with Some Single => 1%nat | _ => nd end).
  assert (Hc : (1 <= c)%nat) by (unfold c; destruct (k_dimension k) as [[]|]; lia). clearbody c.
  cbn [type_setup]. destruct (k_width k) as [w|]; [|cbn; eauto].
  destruct (require (negb (is_some (k_const k) || is_some (k_slope k) || is_some (k_degree k) || is_some (k_hyper k) || k_unknown k))); cbn [bind]; [|eauto].
  destruct (format_vec w c) as [l|] eqn:El; cbn [bind]; [|eauto].
  assert (F : forallb (fun x => Rltb 0 x) l = false).
  { apply not_true_iff_false. intros F. rewrite forallb_forall in F.
    assert (exists x, In x l /\ x <= 0) as [x [Hx Hx0]].
    { destruct w as [x|l0]; cbn in El.
      - injection El as <-. exists x. split; auto. destruct c; [lia|]. left; auto.
      - destruct (length l0 =? c)%nat; [|discriminate]. injection El as <-. auto. }
    specialize (F x Hx). apply Rltb_true in F. lra. }
  rewrite F. cbn. eauto.
Qed.
Print Assumptions nonpositive_width_rejected_partial.

(** ** C102: the first kernel's operation *)

(** Kernels are combined from left to right. *)
Theorem kernels_combine_left_to_right : forall ks k log_scale m1 m2 C K,
  ks <> [] -> get_covariance ks log_scale m1 m2 None false = Ok C ->
  scaled_kernel k log_scale false m1 m2 = Ok K -> nr K = nr C -> nc K = nc C ->
  exists C', get_covariance (ks ++ [k]) log_scale m1 m2 None false = Ok C' /\
    forall i j, at_ C' i j = if k_mult k then at_ C i j * at_ K i j else at_ C i j + at_ K i j.
Proof.
  intros ks k log_scale m1 m2 C K HN HC HK H1 H2. unfold get_covariance in *.
  apply require_ok in HC. destruct HC as [HA HC]. rewrite HA. cbn [require bind].
  assert (G : forall c0 c, cov_loop ks log_scale false m1 m2 c0 = Ok (Some c) ->
     cov_loop (ks ++ [k]) log_scale false m1 m2 c0 = cov_loop [k] log_scale false m1 m2 (Some c)).
  { clear. induction ks as [|a ks IH]; intros c0 c H; cbn [cov_loop app] in *.
    - injection H as ->. reflexivity.
    - destruct (scaled_kernel a log_scale false m1 m2); [|discriminate]. cbn [bind] in *.
      destruct (accumulate _ _ _); [|discriminate]. cbn [bind] in *. apply IH. auto. }
  destruct (cov_loop ks log_scale false m1 m2 None) as [[c|]|] eqn:EL; try discriminate. cbn [bind] in HC. injection HC as ->.
  rewrite (G _ _ EL). cbn [cov_loop]. rewrite HK. cbn [bind]. unfold accumulate. rewrite H1, H2, !Nat.eqb_refl. cbn.
  eexists. split; [reflexivity|]. cbn. auto.
Qed.
Print Assumptions kernels_combine_left_to_right.

(** A list that begins with a 'multiplication' kernel starts from a zero matrix. *)
Theorem leading_multiplication_zero_refuted : forall k log_scale m1 m2 C,
  k_mult k = true -> get_covariance [k] log_scale m1 m2 None false = Ok C -> forall i j, at_ C i j = 0.
Proof.
  intros k log_scale m1 m2 C Hm H i j. unfold get_covariance in H. apply require_ok in H. destruct H as [_ H].
  cbn [cov_loop] in H. destruct (scaled_kernel k log_scale false m1 m2) as [K|]; [|discriminate]. cbn [bind] in H.
  destruct (accumulate (k_mult k) _ K) as [c|] eqn:E; [|discriminate]. cbn in H. injection H as ->.
  apply accumulate_shape in E. destruct E as [_ [_ [_ [_ E]]]]. rewrite E, Hm. cbn. ring.
Qed.
Print Assumptions leading_multiplication_zero_refuted.
