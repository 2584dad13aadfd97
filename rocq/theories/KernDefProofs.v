(** Which prepared kernel lists have a covariance matrix. *)
From Coq Require Import Reals Lra Lia List Arith Bool.
From Verif Require Import Base BaseFacts RBase LinAlg KernModel KernProofs KernSetupProofs.
Import ListNotations.
Open Scope R_scope.

(** Kernel types that can be evaluated without gradients as soon as they are
    prepared. *)
Definition basic (k : kdict) : Prop :=
  match k_type k with
  | Some (KConstant | KGaussian | KLaplacian | KLinear) => True
  | Some KQuadratic => exists d, k_degree k = Some (Num d)
  | _ => False
  end.

(** The 'features' are columns of the data. *)
Definition in_range (D : nat) (k : kdict) : Prop :=
  match k_features k with None => True | Some f => Forall (fun i => (i < D)%nat) f end.

(** What evaluation needs to know about a kernel dictionary over D columns. *)
Definition evaluable (D : nat) (k : kdict) : Prop :=
  in_range D k /\
  let c := match k_features k with Some f => length f | None => D end in
  match k_type k with
  | Some (KGaussian | KLaplacian) =>
      k_const k = None /\ k_hyper k = None /\
      exists w, k_width k = Some (Arr w) /\ (length w = c \/ length w = 1%nat)
  | Some KConstant => k_width k = None /\ k_hyper k = None /\ is_some (k_const k) = true
  | Some KLinear => opt (fun v => exists l, v = Arr l) (k_width k)
  | Some KQuadratic => k_width k = None /\ k_hyper k = None /\
      exists l d, k_slope k = Some (Arr l) /\ k_degree k = Some (Num d) /\ (1 <= length l)%nat
  | _ => False
  end.

Lemma take_in_range r f : Forall (fun i => (i < length r)%nat) f -> exists r', take r f = Ok r' /\ length r' = length f.
Proof.
  induction f as [|i f IH]; intros H; cbn [take]; [eauto|].
  apply Forall_cons_iff in H. destruct H as [H1 H2]. destruct (IH H2) as [r' [E L]].
  unfold item. destruct (nth_error r i) as [x|] eqn:Ex.
  - cbn [bind]. rewrite E. cbn [bind]. eexists. split; [reflexivity|]. cbn. lia.
  - apply nth_error_None in Ex. lia.
Qed.

Lemma select_ok D k m : in_range D k -> rectangular m D ->
  exists s, select k m = Ok s /\ length s = length m /\
            rectangular s (match k_features k with Some f => length f | None => D end).
Proof.
  unfold in_range, select. destruct (k_features k) as [f|]; intros HF HR; [|eauto].
  induction m as [|r m IH]; cbn [select_columns].
  - exists []. repeat split; auto. constructor.
  - inversion HR as [|? ? H1 H2]; subst. destruct (take_in_range r f) as [r' [E L]]; [auto|].
    destruct (IH H2) as [s [Es [Ls Rs]]]. rewrite E. cbn [bind]. rewrite Es. cbn [bind].
    eexists. split; [reflexivity|]. split; [cbn; lia|]. constructor; auto.
Qed.

Lemma divide_ok m w c : rectangular m c -> (length w = c \/ length w = 1%nat) ->
  exists s, divide_rows m w = Ok s /\ length s = length m.
Proof.
  intros HR HW. induction m as [|r m IH]; cbn [divide_rows]; [eauto|].
  inversion HR as [|? ? H1 H2]; subst. destruct (IH H2) as [s [Es Ls]].
  assert (exists r', broadcast Rdiv r w = Ok r') as [r' ->].
  { unfold broadcast. destruct (Nat.eqb_spec (length r) (length w)); [eauto|].
    destruct HW as [HW|HW]; [lia|]. destruct w as [|a [|b w]]; cbn in HW; try lia.
    destruct r as [|x [|y r]]; eauto. }
  cbn [bind]. rewrite Es. cbn [bind]. eexists. split; [reflexivity|]. cbn; lia.
Qed.

Lemma dist_matrix_shape f m1 m2 : nr (dist_matrix f m1 m2) = length m1 /\
  nc (dist_matrix f m1 m2) = length (cols_of m1 m2).
Proof. destruct m2; cbn; auto. Qed.

Lemma scaled_kernel_ok D k log_scale m1 m2 : evaluable D k -> m1 <> [] -> rectangular m1 D -> opt (fun m => rectangular m D) m2 ->
  exists K, scaled_kernel k log_scale false m1 m2 = Ok K /\ nr K = length m1 /\ nc K = length (cols_of m1 m2).
Proof.
  intros [HF HE] HN HR1 HR2. unfold scaled_kernel.
  destruct (select_ok D k m1 HF HR1) as [s1 [E1 [L1 R1]]].
  set (c := match k_features k with Some f => length f | None => D end) in *.
  assert (exists s2, (match m2 with None => Ok None | Some m => bind (select k m) (fun s => Ok (Some s)) end) = Ok s2 /\
     opt (fun m => rectangular m c) s2 /\ length (cols_of s1 s2) = length (cols_of m1 m2) /\
     (m2 = None <-> s2 = None)) as [s2 [E2 [R2 [L2 HN2]]]].
  { destruct m2 as [m|].
    - destruct (select_ok D k m HF HR2) as [s [Es [Ls Rs]]]. rewrite Es. cbn [bind]. exists (Some s).
      repeat split; cbn; auto; discriminate.
    - exists None. repeat split; cbn; auto. }
  rewrite E1. cbn [bind]. rewrite E2. cbn [bind]. rewrite (rectangular_ncols m1 D HR1 HN).
  assert (ND : match k_features k with Some f => length f | None => D end = c) by reflexivity.
  assert (D2 : forall w, (length w = c \/ length w = 1%nat) ->
     exists t2, divide_opt s2 w = Ok t2 /\ length (cols_of s1 t2) = length (cols_of s1 s2)).
  { intros w Hw. destruct s2 as [s|]; cbn [divide_opt].
    - destruct (divide_ok s w c R2 Hw) as [t [Et Lt]]. rewrite Et. cbn. eauto.
    - eauto. }
  assert (DC : forall (t1 : list row) t2, length t1 = length s1 -> length (cols_of s1 t2) = length (cols_of s1 s2) ->
             length (cols_of t1 t2) = length (cols_of m1 m2)).
  { intros t1 t2 H1 H2. rewrite <- L2, <- H2. destruct t2; cbn; auto. }
  unfold kdict2list, get_theta.
  destruct (k_type k) as [t|] eqn:Et; [|contradiction]. destruct t; try contradiction.
  - destruct HE as [Hw [Hh Hc]]. rewrite Hw, Hh. destruct (k_const k) as [x|]; [|discriminate]. cbn [bind fst snd].
    cbn [kernel as_number nth_error bind]. eexists. split; [reflexivity|]. cbn. split; auto.
  - destruct HE as [Hc [Hh [w [Hw Hl]]]]. rewrite Hc, Hh, Hw. cbn [bind to_list fst snd]. unfold kernel.
    rewrite floats_nums. cbn [bind]. unfold gaussian_kernel.
    destruct (divide_ok s1 (map (logged log_scale) w) c R1) as [t1 [Et1 Lt1]]; [rewrite map_length; auto|].
    destruct (D2 (map (logged log_scale) w)) as [t2 [Et2 Lt2]]; [rewrite map_length; auto|].
    rewrite Et1. cbn [bind]. rewrite Et2. cbn [bind negb]. eexists. split; [reflexivity|].
    destruct (dist_matrix_shape gaussian_fn t1 t2) as [Q1 Q2]. cbn [nr nc]. rewrite Q1, Q2. split; [lia|auto].
  - destruct HE as [Hw [Hh [l [d [Hs [Hd Hl]]]]]]. rewrite Hw, Hh, Hs, Hd. cbn [bind to_list fst snd kernel].
    assert (exists x, as_number (map Num l ++ [Num d]) 0 = Ok x) as [x ->].
    { destruct l as [|a l]; cbn in Hl; [lia|]. cbn. eauto. }
    assert (exists y, as_number (map Num l ++ [Num d]) 1 = Ok y) as [y ->].
    { destruct l as [|a [|b l]]; cbn in Hl; [lia| |]; cbn; eauto. }
    cbn [bind]. eexists. split; [reflexivity|]. cbn [nr nc]. unfold quadratic_kernel.
    set (g := map (map (fun z => z / logged log_scale x * logged log_scale y))).
    destruct (dist_matrix_shape (quadratic_fn (logged log_scale y)) (g s1) (option_map g s2)) as [Q1 Q2].
    rewrite Q1, Q2. unfold g at 1. rewrite map_length. split; [lia|].
    rewrite <- L2. destruct s2; cbn; unfold g; rewrite map_length; auto.
  - destruct HE as [Hc [Hh [w [Hw Hl]]]]. rewrite Hc, Hh, Hw. cbn [bind to_list fst snd]. unfold kernel.
    rewrite floats_nums. cbn [bind]. unfold laplacian_kernel.
    destruct (divide_ok s1 (map (logged log_scale) w) c R1) as [t1 [Et1 Lt1]]; [rewrite map_length; auto|].
    destruct (D2 (map (logged log_scale) w)) as [t2 [Et2 Lt2]]; [rewrite map_length; auto|].
    rewrite Et1. cbn [bind]. rewrite Et2. cbn [bind negb]. eexists. split; [reflexivity|].
    destruct (dist_matrix_shape laplacian_fn t1 t2) as [Q1 Q2]. cbn [nr nc]. rewrite Q1, Q2. split; [lia|auto].
  - assert (exists th, (bind match k_width k with Some w => to_list w | None => Ok [] end
       (fun th : list val =>
        bind (Ok match k_const k with Some c0 => [Num c0] | None => th end)
          (fun th0 : list val => match k_hyper k with
             | Some (Num x) => Ok (repeat (Num x) match k_features k with Some f => length f | None => D end)
             | Some (Arr l) => Ok (map Num l)
             | None => Ok th0 end))) = Ok th) as [th Eth].
    { destruct (k_width k) as [v|]; [destruct HE as [l ->]|]; cbn [to_list bind]; destruct (k_hyper k) as [[?|?]|]; eauto. }
    rewrite Eth. cbn [bind fst snd kernel]. eexists. split; [reflexivity|]. cbn. split; auto.
Qed.

Lemma cov_loop_ok D ks log_scale m1 m2 : Forall (evaluable D) ks -> m1 <> [] -> rectangular m1 D ->
  opt (fun m => rectangular m D) m2 -> forall c0,
  match c0 with None => ks <> [] | Some c => nr c = length m1 /\ nc c = length (cols_of m1 m2) end ->
  exists c, cov_loop ks log_scale false m1 m2 c0 = Ok (Some c) /\ nr c = length m1 /\ nc c = length (cols_of m1 m2).
Proof.
  intros HE HN HR1 HR2. induction ks as [|k ks IH]; intros c0 Hc.
  - destruct c0 as [c|]; [|congruence]. exists c. cbn. tauto.
  - apply Forall_cons_iff in HE. destruct HE as [HE1 HE2]. cbn [cov_loop].
    destruct (scaled_kernel_ok D k log_scale m1 m2 HE1 HN HR1 HR2) as [K [EK [K1 K2]]]. rewrite EK. cbn [bind].
    assert (S0 : exists c', accumulate (k_mult k) (match c0 with Some c => c | None => Mx (nr K) (nc K) (fun _ _ => 0) end) K = Ok c' /\
              nr c' = length m1 /\ nc c' = length (cols_of m1 m2)).
    { unfold accumulate. destruct c0 as [c|].
      - destruct Hc as [H1 H2]. rewrite H1, H2, K1, K2, !Nat.eqb_refl. cbn. eauto.
      - cbn. rewrite !Nat.eqb_refl. cbn. eauto. }
    destruct S0 as [c' [Ec [C1 C2]]]. rewrite Ec. cbn [bind]. apply IH; auto.
Qed.

Lemma get_covariance_ok D ks log_scale m1 m2 reg : Forall (evaluable D) ks -> ks <> [] -> m1 <> [] -> rectangular m1 D ->
  opt (fun m => rectangular m D /\ m <> []) m2 -> (reg = None \/ m2 = None) ->
  exists c, get_covariance ks log_scale m1 m2 reg false = Ok c /\ nr c = length m1 /\ nc c = length (cols_of m1 m2).
Proof.
  intros HE HK HN HR1 HR2 Hreg. unfold get_covariance.
  assert (A : match m2 with Some m => (ncols m1 =? ncols m)%nat | None => true end = true).
  { destruct m2 as [m|]; auto. destruct HR2. rewrite !(rectangular_ncols _ D) by auto. apply Nat.eqb_refl. }
  rewrite A. cbn [require bind].
  destruct (cov_loop_ok D ks log_scale m1 m2 HE HN HR1) with (c0 := @None matrix) as [c [Ec [C1 C2]]]; auto.
  { destruct m2; cbn in *; tauto. }
  rewrite Ec. cbn [bind]. destruct reg as [r|]; [|eauto].
  destruct Hreg as [?|Hm]; [discriminate|]. subst m2. cbn [cols_of] in *. rewrite C1, C2, Nat.eqb_refl.
  eexists. split; [reflexivity|]. cbn. auto.
Qed.

(** Preparation makes the basic kernels evaluable. *)
Lemma prepare_evaluable k nd dflt k' b : prepare_kernel k nd dflt = Ok (k', b) -> (1 <= nd)%nat ->
  basic k -> in_range nd k -> (match k_features k with Some [] => False | _ => True end) ->
  (k_type k = Some KLinear -> opt (fun v => exists l, v = Arr l) (k_width k)) ->
  evaluable nd k'.
Proof.
  unfold prepare_kernel. intros H Hnd HB HI HF HL. unfold basic in HB. destruct (k_type k) as [t|] eqn:Et; [|discriminate].
  apply require_ok in H. destruct H as [_ H]. apply require_ok in H. destruct H as [_ H].
  set (f := match k_features k with Some f => length f | None => nd end) in *.
  assert (f1 : (1 <= f)%nat) by (unfold f; destruct (k_features k) as [[|? ?]|]; cbn; [contradiction|lia|lia]).
  destruct (match k_scaling k with Some _ => scaling_setup k dflt | None => Ok [] end) as [sb|]; [|discriminate].
  cbn [bind] in H. set (c := match k_dimension k with Some Single => 1%nat | _ => f end) in *.
  assert (c1 : c = f \/ c = 1%nat) by (unfold c; destruct (k_dimension k) as [[]|]; auto).
  clearbody c. fold f in H.
  destruct (type_setup t k c dflt) as [[k2 b2]|] eqn:Ets; [|discriminate]. cbn [bind fst snd] in H.
  injection H as <- <-. unfold evaluable, in_range in *.
  destruct t; try contradiction; cbn [type_setup] in Ets.
  - apply require_ok in Ets. destruct Ets as [Hk Ets]. negb_or Hk.
    destruct (k_const k) eqn:Ec; [|discriminate]. injection Ets as <- <-. rewrite Et, Ec. auto.
  - destruct (k_width k) as [w|] eqn:Ew; [|discriminate]. apply require_ok in Ets. destruct Ets as [Hk Ets]. negb_or Hk.
    destruct (format_vec w c) as [l|] eqn:El; [|discriminate]. cbn [bind] in Ets.
    apply require_ok in Ets. destruct Ets as [_ Ets]. injection Ets as <- <-. apply format_vec_ok in El.
    cbn [set_width k_type k_features k_const k_hyper k_width]. rewrite Et. fold f. split; auto.
    repeat split; auto. exists l. split; auto. lia.
  - destruct (k_slope k) as [s|] eqn:Es; [|discriminate]. destruct (k_degree k) as [d|] eqn:Ed; [|discriminate].
    destruct HB as [d0 [= ->]].
    apply require_ok in Ets. destruct Ets as [Hk Ets]. negb_or Hk.
    destruct (format_vec s c) as [l|] eqn:El; [|discriminate]. cbn [bind] in Ets. injection Ets as <- <-. apply format_vec_ok in El.
    cbn [set_slope k_type k_features k_const k_hyper k_width k_slope k_degree]. rewrite Et. fold f. split; auto.
    repeat split; auto. exists l, d0. repeat split; auto. lia.
  - destruct (k_width k) as [w|] eqn:Ew; [|discriminate]. apply require_ok in Ets. destruct Ets as [Hk Ets]. negb_or Hk.
    destruct (format_vec w c) as [l|] eqn:El; [|discriminate]. cbn [bind] in Ets.
    injection Ets as <- <-. apply format_vec_ok in El.
    cbn [set_width k_type k_features k_const k_hyper k_width]. rewrite Et. fold f. split; auto.
    repeat split; auto. exists l. split; auto. lia.
  - injection Ets as <- <-. rewrite Et. split; auto.
Qed.
