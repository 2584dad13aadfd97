(** Models that are built from the same kernel list. *)
From Coq Require Import Reals Lra Lia List Arith Bool.
From Verif Require Import Base BaseFacts RBase LinAlg KernModel KernProofs KernSetupProofs KernDefProofs
  KernScaleProofs KernEntryProofs KernProperties GPModel GPProofs GPMoreProofs GPProperties GPUpdateProofs GPUpdateProperties
  GPScaleProperties GPOptProperties ShareModel.
Import ListNotations.
Open Scope R_scope.

(** ** Stores *)
Lemma nth_error_set_nth_eq {A} i (v : A) l : (i < length l)%nat -> nth_error (set_nth i v l) i = Some v.
Proof. revert i. induction l as [|x l IH]; intros i H; cbn in H; [lia|]. destruct i; cbn; auto. apply IH. lia. Qed.
Lemma nth_error_set_nth_neq {A} i j (v : A) l : i <> j -> nth_error (set_nth i v l) j = nth_error l j.
Proof. revert i j. induction l as [|x l IH]; intros i j H; [destruct i; auto|]. destruct i, j; cbn; auto; congruence. Qed.
Lemma nth_error_lt {A} (l : list A) i x : nth_error l i = Some x -> (i < length l)%nat.
Proof. intros H. apply nth_error_Some. congruence. Qed.
Lemma nth_error_snoc {A} (l : list A) x : nth_error (l ++ [x]) (length l) = Some x.
Proof. rewrite nth_error_app2, Nat.sub_diag by lia. reflexivity. Qed.
Lemma with_own_kernels s : with_kernels s (g_kernels s) = s.
Proof. destruct s; reflexivity. Qed.

Section Oracles.
Variables inv cho : matrix -> result matrix.
Variable cho_solve : matrix -> list R -> list R.
Notation perform := (perform inv cho cho_solve).
Notation perform_all := (perform_all inv cho cho_solve).

Lemma model_ok st m s : model st m = Ok s -> exists a s0 ks, nth_error (s_models st) m = Some (a, s0) /\ nth_error (s_lists st) a = Some ks /\
  s = with_kernels s0 ks /\ list_of st m = Some a.
Proof.
  unfold model, list_of. destruct (nth_error (s_models st) m) as [[a s0]|]; [|discriminate].
  destruct (nth_error (s_lists st) a) as [ks|] eqn:E; [|discriminate]. intros H. injection H as <-. exists a, s0, ks. auto.
Qed.

Lemma put_model st m s s' st' : model st m = Ok s -> put st m s' = Ok st' -> model st' m = Ok s'.
Proof.
  intros H P. destruct (model_ok _ _ _ H) as (a & s0 & ks & E1 & E2 & _ & E3). unfold put in P. rewrite E3 in P. injection P as <-.
  unfold model. cbn. rewrite nth_error_set_nth_eq by (eapply nth_error_lt; eauto).
  rewrite nth_error_set_nth_eq by (eapply nth_error_lt; eauto). rewrite with_own_kernels. auto.
Qed.

Lemma put_other st m s st' m' a : put st m s = Ok st' -> list_of st m' = Some a -> list_of st m <> Some a ->
  model st' m' = model st m' /\ list_of st' m' = Some a.
Proof.
  intros P L N. unfold put in P. destruct (list_of st m) as [b|] eqn:E; [|discriminate]. injection P as <-.
  assert (m <> m') by congruence. assert (b <> a) by congruence.
  unfold model, list_of in *. cbn. rewrite nth_error_set_nth_neq by auto. split; [|auto].
  destruct (nth_error (s_models st) m') as [[a' s']|]; auto. cbn in L. injection L as ->.
  rewrite nth_error_set_nth_neq by auto. auto.
Qed.

(** ** Models with their own kernel list *)

(** An operation acts on its model as if there were no other models and lists. *)
Theorem operation_on_own_model : forall st st',
  (forall a fp tgt g reg rb so sd, perform st (NewModel a fp tgt g reg rb so sd) = Ok st' ->
     exists ks s, nth_error (s_lists st) a = Some ks /\ gp_init inv cho cho_solve fp tgt ks g reg rb so sd = Ok s /\
       length (s_models st') = S (length (s_models st)) /\ model st' (length (s_models st)) = Ok s /\ list_of st' (length (s_models st)) = Some a) /\
  (forall m min, perform st (Optimize m min) = Ok st' ->
     exists s s', model st m = Ok s /\ optimize_hyperparameters inv s min = Ok s' /\ model st' m = Ok s') /\
  (forall m fp tgt g so, perform st (UpdateData m fp tgt g so) = Ok st' ->
     exists s s', model st m = Ok s /\ update_data inv cho cho_solve s fp tgt g so = Ok s' /\ model st' m = Ok s').
Proof.
  intros st st'. split; [|split].
  - intros a fp tgt g reg rb so sd H. cbn in H. destruct (nth_error (s_lists st) a) as [ks|] eqn:E; [|discriminate].
    destruct (gp_init inv cho cho_solve fp tgt ks g reg rb so sd) as [s|] eqn:EI; [|discriminate]. cbn in H. injection H as <-.
    exists ks, s. unfold model, list_of. cbn [s_models s_lists]. rewrite nth_error_snoc, app_length. cbn [option_map fst length].
    rewrite nth_error_set_nth_eq by (eapply nth_error_lt; eauto). rewrite with_own_kernels. repeat split; auto. lia.
  - intros m min H. cbn in H. destruct (model st m) as [s|] eqn:E; [|discriminate]. cbn in H.
    destruct (optimize_hyperparameters inv s min) as [s'|] eqn:EO; [|discriminate]. cbn in H.
    exists s, s'. split; [auto|]. split; [auto|]. eapply put_model; eauto.
  - intros m fp tgt g so H. cbn in H. destruct (model st m) as [s|] eqn:E; [|discriminate]. cbn in H.
    destruct (update_data inv cho cho_solve s fp tgt g so) as [s'|] eqn:EO; [|discriminate]. cbn in H.
    exists s, s'. split; [auto|]. split; [auto|]. eapply put_model; eauto.
Qed.

Lemma operation_elsewhere st o st' m a : perform st o = Ok st' -> list_of st m = Some a -> touches st o <> Some a ->
  model st' m = model st m /\ list_of st' m = Some a.
Proof.
  intros H L N. destruct o as [b fp tgt g reg rb so sd|m' min|m' fp tgt g so]; cbn in H, N.
  - destruct (nth_error (s_lists st) b) as [ks|] eqn:E; [|discriminate].
    destruct (gp_init _ _ _ _ _ _ _ _ _ _ _) as [s|]; [|discriminate]. cbn in H. injection H as <-.
    unfold model, list_of in *. cbn. destruct (nth_error (s_models st) m) as [[a' s0]|] eqn:Em; [|discriminate].
    rewrite (nth_error_app1 _ _ (nth_error_lt _ _ _ Em)), Em. cbn in *. injection L as ->. rewrite nth_error_set_nth_neq by congruence. auto.
  - destruct (model st m') as [s|]; [|discriminate]. cbn in H. destruct (optimize_hyperparameters _ _ _); [|discriminate]. cbn in H.
    eapply put_other; eauto.
  - destruct (model st m') as [s|]; [|discriminate]. cbn in H. destruct (update_data _ _ _ _ _ _ _ _); [|discriminate]. cbn in H.
    eapply put_other; eauto.
Qed.

(** No operation of the history is on list [a]. *)
Fixpoint spares (a : nat) (st : store) (ops : list operation) : Prop :=
  match ops with
  | [] => True
  | o :: t => touches st o <> Some a /\ forall st', perform st o = Ok st' -> spares a st' t
  end.

(** However many models are built, optimized and updated with other kernel lists, a model
    and so everything it computes stay the same. *)
Theorem other_lists_do_not_matter : forall ops st st' m a, list_of st m = Some a ->
  perform_all st ops = Ok st' -> spares a st ops ->
  model st' m = model st m /\
  forall s s', model st m = Ok s -> model st' m = Ok s' -> forall test,
    predict s' test = predict s test /\ predict_with_uncertainty s' test = predict_with_uncertainty s test /\ train_prediction s' = train_prediction s.
Proof.
  assert (M : forall ops st st' m a, list_of st m = Some a -> perform_all st ops = Ok st' -> spares a st ops -> model st' m = model st m).
  { induction ops as [|o ops IH]; intros st st' m a L H N; cbn in H, N.
    - injection H as <-. auto.
    - destruct N as [N1 N2]. destruct (perform st o) as [st1|] eqn:E; [|discriminate]. cbn in H.
      destruct (operation_elsewhere _ _ _ _ _ E L N1) as [Q1 Q2]. rewrite <- Q1. eapply IH; eauto. }
  intros ops st st' m a L H N. pose proof (M _ _ _ _ _ L H N) as E. split; [auto|].
  intros s s' H1 H2 test. rewrite E, H1 in H2. injection H2 as <-. auto.
Qed.

End Oracles.

(** ** One list for several models *)
Lemma format_again w nd l : format_vec w nd = Ok l -> format_vec (Arr l) nd = Ok l.
Proof.
  destruct w as [x|l0]; cbn.
  - intros H. injection H as <-. rewrite repeat_length, Nat.eqb_refl. auto.
  - destruct (length l0 =? nd)%nat eqn:E; [|discriminate]. intros H. injection H as <-. rewrite E. auto.
Qed.

Lemma type_setup_again t k nd d k' b : k_type k = Some t -> type_setup t k nd d = Ok (k', b) ->
  type_setup t k' nd d = Ok (k', b) /\ k_type k' = Some t /\ k_features k' = k_features k /\ k_dimension k' = k_dimension k /\
  k_scaling k' = k_scaling k /\ k_float k' = k_float k /\ k_scaling_bounds k' = k_scaling_bounds k.
Proof.
  intros Et H. assert (G : k' = k -> type_setup t k' nd d = Ok (k', b) /\ k_type k' = Some t /\ k_features k' = k_features k /\ k_dimension k' = k_dimension k /\
    k_scaling k' = k_scaling k /\ k_float k' = k_float k /\ k_scaling_bounds k' = k_scaling_bounds k) by (intros ->; repeat split; auto).
  destruct t; cbn [type_setup] in H.
  all: try (injection H as H _; apply G; auto; fail).
  all: try discriminate.
  all: try (destruct (require _) as [u|]; [|discriminate]; cbn [bind] in H; try (destruct (k_const k); [|discriminate]);
            injection H as H _; apply G; auto; fail).
  - (* gaussian *) clear G. destruct (k_width k) as [w|] eqn:Ew; [|discriminate]. destruct (require _) as [u|] eqn:E1; [|discriminate]. cbn [bind] in H.
    destruct (format_vec w nd) as [l|] eqn:E2; [|discriminate]. cbn [bind] in H. destruct (require _) as [u'|] eqn:E3 in H; [|discriminate].
    cbn [bind] in H. injection H as <- <-. cbn [set_width k_type k_features k_dimension k_scaling k_float k_scaling_bounds]. split; [|repeat split; auto].
    cbn [type_setup set_width k_width k_const k_slope k_degree k_hyper k_unknown k_bounds]. rewrite E1. cbn [bind]. rewrite (format_again _ _ _ E2). cbn [bind].
    rewrite E3. reflexivity.
  - (* quadratic *) clear G. destruct (k_slope k) as [w|] eqn:Ew; [|discriminate]. destruct (k_degree k) as [dg|] eqn:Ed; [|discriminate].
    destruct (require _) as [u|] eqn:E1; [|discriminate]. cbn [bind] in H.
    destruct (format_vec w nd) as [l|] eqn:E2; [|discriminate]. cbn [bind] in H. injection H as <- <-.
    cbn [set_slope k_type k_features k_dimension k_scaling k_float k_scaling_bounds]. split; [|repeat split; auto].
    cbn [type_setup set_slope k_width k_const k_slope k_degree k_hyper k_unknown k_bounds]. rewrite Ed, E1. cbn [bind]. rewrite (format_again _ _ _ E2). reflexivity.
  - (* laplacian *) clear G. destruct (k_width k) as [w|] eqn:Ew; [|discriminate]. destruct (require _) as [u|] eqn:E1; [|discriminate]. cbn [bind] in H.
    destruct (format_vec w nd) as [l|] eqn:E2; [|discriminate]. cbn [bind] in H. injection H as <- <-.
    cbn [set_width k_type k_features k_dimension k_scaling k_float k_scaling_bounds]. split; [|repeat split; auto].
    cbn [type_setup set_width k_width k_const k_slope k_degree k_hyper k_unknown k_bounds]. rewrite E1. cbn [bind]. rewrite (format_again _ _ _ E2). reflexivity.
Qed.

Lemma prepare_kernel_again k nd d k' b : prepare_kernel k nd d = Ok (k', b) -> prepare_kernel k' nd d = Ok (k', b).
Proof.
  intros H. unfold prepare_kernel in *. destruct (k_type k) as [t|] eqn:Et; [|discriminate]. cbv zeta in *.
  destruct (require (_ <=? _)%nat) as [u1|] eqn:R1; [|discriminate]. cbn [bind] in H.
  destruct (require _) as [u2|] eqn:R2 in H; [|discriminate]. cbn [bind] in H.
  destruct (match k_scaling k with Some _ => scaling_setup k d | None => Ok [] end) as [sb|] eqn:E1; [|discriminate]. cbn [bind] in H.
  set (c := match k_dimension k with Some Single => 1%nat | _ => _ end) in H.
  destruct (type_setup t k c d) as [[k1 b1]|] eqn:E2; [|discriminate]. cbn [bind fst snd] in H. injection H as <- <-.
  destruct (type_setup_again _ _ _ _ _ _ Et E2) as (A1 & A2 & A3 & A4 & A5 & A6 & A7). unfold scaling_setup in *.
  rewrite A2, A3, A4, A5, A6, A7, R1. cbn [bind]. rewrite R2. cbn [bind]. rewrite E1. cbn [bind]. fold c. rewrite A1. reflexivity.
Qed.

Lemma prepare_loop_again ks nd d : forall ks' b, prepare_loop ks nd d = Ok (ks', b) -> prepare_loop ks' nd d = Ok (ks', b).
Proof.
  induction ks as [|k ks IH]; intros ks' b H; cbn [prepare_loop] in H; [injection H as <- <-; reflexivity|].
  destruct (prepare_kernel k nd d) as [[k1 b1]|] eqn:E; [|discriminate]. cbn [bind] in H.
  destruct (prepare_loop ks nd d) as [[k2 b2]|]; [|discriminate]. cbn [bind fst snd] in H. injection H as <- <-.
  cbn [prepare_loop]. rewrite (prepare_kernel_again _ _ _ _ _ E). cbn [bind]. rewrite (IH _ _ eq_refl). reflexivity.
Qed.

(** A prepared list can be prepared again: nothing changes. *)
Lemma prepare_again ks rb g nd ks' b : prepare_kernels ks rb g nd = Ok (ks', b) -> forall rb2,
  prepare_kernels ks' rb2 g nd = prepare_kernels ks rb2 g nd.
Proof.
  unfold prepare_kernels. destruct (prepare_loop ks nd (default_bound g)) as [[k1 b1]|] eqn:E; [|discriminate]. cbn. intros H. injection H as <- _.
  intros rb2. rewrite (prepare_loop_again _ _ _ _ _ E). reflexivity.
Qed.

(** What is needed to build a model without gradients. *)
Record request := Request { q_fp : list row; q_tgt : list R; q_reg : R; q_rb : option bound; q_so : bool; q_sd : bool }.
Definition build (a : nat) (q : request) : operation := NewModel a (q_fp q) (q_tgt q) None (q_reg q) (q_rb q) (q_so q) (q_sd q).

Section Many.
Variables inv cho : matrix -> result matrix.
Variable cho_solve : matrix -> list R -> list R.
Hypothesis HO : oracles_ok inv cho.
Notation perform := (perform inv cho cho_solve).
Notation perform_all := (perform_all inv cho cho_solve).
Notation init ks q := (gp_init inv cho cho_solve (q_fp q) (q_tgt q) ks None (q_reg q) (q_rb q) (q_so q) (q_sd q)).
Variable ks : list kdict.
Hypothesis HQ : Forall not_quadratic ks.
Variable dims : nat -> Prop.
Hypothesis Hdim : forall rb D1 D2, dims D1 -> dims D2 -> prepare_kernels ks rb false D1 = prepare_kernels ks rb false D2.
Definition fine (q : request) : Prop := exists D, dims D /\ inputs_ok D (q_fp q) ks.
Definition used (l : list kdict) : Prop := exists rb D b, dims D /\ prepare_kernels ks rb false D = Ok (l, b).

Lemma used_prepare l rb D : used l -> dims D -> prepare_kernels l rb false D = prepare_kernels ks rb false D.
Proof.
  intros (rb1 & D1 & b & H1 & E) H2. rewrite (Hdim _ _ _ H1 H2) in E. exact (prepare_again _ _ _ _ _ _ E rb).
Qed.

Lemma used_unique l l' : used l -> used l' -> l = l'.
Proof.
  intros (rb1 & D1 & b1 & H1 & E1) (rb2 & D2 & b2 & H2 & E2). rewrite (Hdim _ _ _ H2 H1) in E2. unfold prepare_kernels in *.
  destruct (prepare_loop ks D1 (default_bound false)) as [[k b]|]; [|discriminate]. cbn in *. congruence.
Qed.

Lemma init_used q s : fine q -> init ks q = Ok s -> used (g_kernels s).
Proof.
  intros [D [Hd HI]] E. destruct (init_facts _ _ _ HO _ _ _ _ _ _ _ _ _ HI E) as (ks' & b & EP & T & _).
  exists (init_bounds (q_rb q) false), D, b. split; [auto|].
  assert (NQ : Forall not_quadratic ks').
  { eapply not_quadratic_types; [|exact HQ]. eapply prepare_types; eauto. apply HI. }
  rewrite (t_kernels _ _ _ T), boxed_id by auto. auto.
Qed.

Lemma init_used_list q l : fine q -> l = ks \/ used l -> init l q = init ks q.
Proof.
  intros [D [Hd HI]] [->|Hu]; [auto|]. unfold gp_init. cbn [is_some].
  rewrite (rectangular_ncols (q_fp q) D (i_rect _ _ _ HI) (i_fp _ _ _ HI)).
  rewrite (used_prepare _ _ _ Hu Hd). auto.
Qed.

Lemma build_many a : forall qs st st' l, nth_error (s_lists st) a = Some l -> l = ks \/ used l -> Forall fine qs ->
  perform_all st (map (build a) qs) = Ok st' ->
  (used l -> forall m, list_of st m = Some a -> model st' m = model st m) /\
  forall i q, nth_error qs i = Some q -> exists s, init ks q = Ok s /\ model st' (length (s_models st) + i)%nat = Ok s.
Proof.
  induction qs as [|q qs IH]; intros st st' l EL HL HF H; cbn [map ShareModel.perform_all] in H.
  - injection H as <-. split; auto. intros [|i]; discriminate.
  - apply Forall_cons_iff in HF. destruct HF as [Hq HF]. cbn [ShareModel.perform build] in H. rewrite EL in H.
    rewrite (init_used_list q l Hq HL) in H. destruct (init ks q) as [s|] eqn:EI; [|discriminate]. cbn [bind] in H.
    pose proof (init_used _ _ Hq EI) as Hu.
    set (st1 := Store _ _) in H.
    assert (E1 : nth_error (s_lists st1) a = Some (g_kernels s)) by (apply nth_error_set_nth_eq; eapply nth_error_lt; eauto).
    destruct (IH _ _ _ E1 (or_intror Hu) HF H) as [I1 I2]. specialize (I1 Hu).
    split.
    + intros Hl m Lm. rewrite <- (used_unique _ _ Hl Hu) in E1.
      unfold list_of in Lm. destruct (nth_error (s_models st) m) as [[a' s0]|] eqn:Em; [|discriminate]. cbn in Lm. injection Lm as ->.
      assert (Em1 : nth_error (s_models st1) m = Some (a, s0)) by (cbn; rewrite nth_error_app1; [auto|eapply nth_error_lt; eauto]).
      rewrite I1 by (unfold list_of; rewrite Em1; auto). unfold model. rewrite Em1, Em, E1, EL. auto.
    + assert (Em1 : nth_error (s_models st1) (length (s_models st)) = Some (a, s)) by apply nth_error_snoc.
      intros [|i] q' Hi; cbn in Hi.
      * injection Hi as <-. exists s. split; [auto|]. rewrite Nat.add_0_r, I1 by (unfold list_of; rewrite Em1; auto).
        unfold model. rewrite Em1, E1, with_own_kernels. auto.
      * destruct (I2 i q' Hi) as (s' & J1 & J2). exists s'. split; [auto|].
        replace (length (s_models st) + S i)%nat with (length (s_models st1) + i)%nat by (cbn; rewrite app_length; cbn; lia). auto.
Qed.
End Many.

(** However many models with the same number of features are built from one list of kernels
    (without quadratic kernels), each is the model that an own copy of the list gives. *)
Theorem shared_list_same_features : forall inv cho cho_solve D ks st a qs st',
  oracles_ok inv cho -> Forall not_quadratic ks -> nth_error (s_lists st) a = Some ks ->
  (forall q, In q qs -> inputs_ok D (q_fp q) ks) ->
  perform_all inv cho cho_solve st (map (build a) qs) = Ok st' ->
  forall i q, nth_error qs i = Some q -> exists s,
    gp_init inv cho cho_solve (q_fp q) (q_tgt q) ks None (q_reg q) (q_rb q) (q_so q) (q_sd q) = Ok s /\
    model st' (length (s_models st) + i)%nat = Ok s.
Proof.
  intros inv cho cho_solve D ks st a qs st' HO HQ EL HI H.
  apply (build_many inv cho cho_solve HO ks HQ (eq D)) with (a := a) (l := ks); auto.
  - intros rb D1 D2 <- <-. auto.
  - apply Forall_forall. intros q Hq. exists D. split; auto.
Qed.
Print Assumptions shared_list_same_features.

(** Kernels that do not depend on the number of features. *)
Definition dimension_free (k : kdict) : Prop :=
  k_features k = None /\ (k_dimension k = Some Single \/ k_type k = Some KConstant \/ k_type k = Some KLinear).

Lemma dimension_free_prepare ks d D1 D2 : Forall dimension_free ks -> prepare_loop ks D1 d = prepare_loop ks D2 d.
Proof.
  induction 1 as [|k ks [HF HS] _ IH]; cbn [prepare_loop]; auto. rewrite IH. f_equal. unfold prepare_kernel.
  destruct (k_type k) as [t|]; auto. rewrite HF, !Nat.leb_refl. cbn [require bind]. destruct HS as [-> | [E | E]].
  - auto.
  - injection E as ->. auto.
  - injection E as ->. auto.
Qed.

(** The same for models with different numbers of features, when no kernel depends on it. *)
Theorem shared_list_single_dimension : forall inv cho cho_solve ks st a qs st',
  oracles_ok inv cho -> Forall not_quadratic ks -> Forall dimension_free ks -> nth_error (s_lists st) a = Some ks ->
  (forall q, In q qs -> exists D, inputs_ok D (q_fp q) ks) ->
  perform_all inv cho cho_solve st (map (build a) qs) = Ok st' ->
  forall i q, nth_error qs i = Some q -> exists s,
    gp_init inv cho cho_solve (q_fp q) (q_tgt q) ks None (q_reg q) (q_rb q) (q_so q) (q_sd q) = Ok s /\
    model st' (length (s_models st) + i)%nat = Ok s.
Proof.
  intros inv cho cho_solve ks st a qs st' HO HQ HD EL HI H.
  apply (build_many inv cho cho_solve HO ks HQ (fun _ => True)) with (a := a) (l := ks); auto.
  - intros rb D1 D2 _ _. unfold prepare_kernels. rewrite (dimension_free_prepare _ _ D1 D2 HD). auto.
  - apply Forall_forall. intros q Hq. destruct (HI q Hq) as [D HD']. exists D. auto.
Qed.
Print Assumptions shared_list_single_dimension.

(** ** What goes wrong *)
Definition scalar_gaussian (w : R) : kdict := set_width (bare KGaussian) (Num w).

Lemma scalar_prepare w D rb : 0 < w -> prepare_kernels [scalar_gaussian w] rb false D =
  Ok ([gaussian (repeat w D)], repeat (default_bound false) D ++ [rb]).
Proof.
  intros Hw. unfold prepare_kernels. cbn. rewrite Nat.leb_refl. cbn.
  assert (F : forallb (fun x => Rltb 0 x) (repeat w D) = true).
  { apply forallb_forall. intros x Hx. apply repeat_spec in Hx as ->. apply Rltb_true. auto. }
  rewrite F. cbn. rewrite !app_nil_r. auto.
Qed.

Lemma scalar_usable w D : (1 <= D)%nat -> Forall (usable D) [scalar_gaussian w].
Proof. intros H. repeat constructor; cbn; auto; discriminate. Qed.

Lemma scalar_ok inv cho cho_solve fp tgt w D reg rb sdata : oracles_ok inv cho -> oracles_total inv cho -> 0 < w -> (1 <= D)%nat ->
  fp <> [] -> rectangular fp D -> length fp = length tgt -> reg <> 0 ->
  exists s, gp_init inv cho cho_solve fp tgt [scalar_gaussian w] None reg rb false sdata = Ok s /\ g_kernels s = [gaussian (repeat w D)].
Proof.
  intros [SI SC] [CI CC] Hw HD HN HR HL Hr.
  destruct (gp_init_ok inv cho cho_solve SI fp tgt [scalar_gaussian w] reg rb false sdata D _ _ CI CC (scalar_prepare w D _ Hw) (scalar_usable w D HD)) as [s Es]; auto.
  - discriminate.
  - repeat constructor; cbn; auto; try discriminate. intros _. apply Forall_forall. intros x Hx. apply repeat_spec in Hx. subst. lra.
  - exists s. split; [auto|].
    assert (HI : inputs_ok D fp [scalar_gaussian w]) by (constructor; auto; [apply scalar_usable; auto|discriminate]).
    destruct (init_facts inv cho cho_solve (Build_oracles_ok _ _ SI SC) _ _ _ _ _ _ _ _ _ HI Es) as (ks' & b & EP & T & _).
    rewrite scalar_prepare in EP by auto. injection EP as <- <-. rewrite (t_kernels _ _ _ T). reflexivity.
Qed.

(** A kernel with a scalar width has no fixed number of features, but once a model was built
    from the list the list is refused for every other number of features. *)
Theorem reuse_for_other_features_refuted : forall inv cho cho_solve w D D' fp tgt fp' tgt' reg rb so sd,
  oracles_ok inv cho -> oracles_total inv cho -> 0 < w -> (1 <= D)%nat -> (1 <= D')%nat -> D <> D' ->
  fp <> [] -> rectangular fp D -> length fp = length tgt -> fp' <> [] -> rectangular fp' D' -> length fp' = length tgt' -> reg <> 0 ->
  let st := Store [[scalar_gaussian w]] [] in
  exists st1 st2,
    perform inv cho cho_solve st (NewModel 0 fp tgt None reg rb false sd) = Ok st1 /\
    perform inv cho cho_solve st (NewModel 0 fp' tgt' None reg rb false sd) = Ok st2 /\
    perform inv cho cho_solve st1 (NewModel 0 fp' tgt' None reg rb so sd) = Err AssertionError /\
    s_lists st1 = [[gaussian (repeat w D)]].
Proof.
  intros inv cho cho_solve w D D' fp tgt fp' tgt' reg rb so sd HO HT Hw HD HD' HDD N1 R1 L1 N2 R2 L2 Hr st.
  destruct (scalar_ok inv cho cho_solve fp tgt w D reg rb sd HO HT Hw HD N1 R1 L1 Hr) as (s1 & E1 & K1).
  destruct (scalar_ok inv cho cho_solve fp' tgt' w D' reg rb sd HO HT Hw HD' N2 R2 L2 Hr) as (s2 & E2 & _).
  cbn [perform st s_lists nth_error]. rewrite E1, E2. cbn [bind]. do 2 eexists. split; [reflexivity|]. split; [reflexivity|].
  cbn [perform s_lists set_nth nth_error]. rewrite K1. split; [|auto].
  unfold gp_init. destruct (length fp' =? length tgt')%nat; cbn [negb]; [|reflexivity].
  rewrite (rectangular_ncols fp' D' R2 N2). unfold prepare_kernels. cbn. rewrite Nat.leb_refl, repeat_length.
  destruct (Nat.eqb_spec D D'); [contradiction|]. reflexivity.
Qed.
Print Assumptions reuse_for_other_features_refuted.

Lemma kappa_width w x y : kappa [gaussian [w]] false [x] [y] = exp (- / 2 * (x / w - y / w) ^ 2).
Proof. unfold kappa. cbn. unfold gaussian_fn, sqeuclidean. cbn. rewrite ?Rplus_0_l, ?Rplus_0_r, ?Rmult_1_r, ?Rmult_1_l. f_equal. Qed.

Lemma gaussian_eval w : w <> 0 -> Forall (evaluable 1) [gaussian [w]] /\ Forall (sensible false) [gaussian [w]].
Proof. intros H. split; repeat constructor; cbn; auto; try discriminate. exists [w]. auto. Qed.

Lemma one_point_prediction inv cho cho_solve s y w t : oracles_ok inv cho -> w <> 0 ->
  gp_init inv cho cho_solve [[0]] [y] [scalar_gaussian 1] None 1 None false false = Ok s ->
  predict (with_kernels s [gaussian [w]]) [[t]] = Ok [exp (- / 2 * (t / w) ^ 2) * (y / 2)].
Proof.
  intros HO Hw E.
  assert (HI : inputs_ok 1 [[0]] [scalar_gaussian 1]) by (repeat constructor; cbn; auto; discriminate).
  destruct (init_facts _ _ _ HO _ _ _ _ _ _ _ _ _ HI E) as (ks' & b & EP & T & El & Es & Er & En & Eb & _ & ET & _).
  rewrite scalar_prepare in EP by lra. injection EP as <- <-. cbn in ET. injection ET as Esc Ef Et.
  destruct (gaussian_eval w Hw) as [HE _].
  destruct (covariance_kappa 1 [gaussian [w]] false [[t]] (Some [[0]]) HE) as (K & EK & N1 & N2 & HK); try discriminate.
  { repeat constructor. } { split; [repeat constructor|discriminate]. }
  unfold predict, scale_test, test_covariance. cbn [with_kernels g_scale g_scaling g_kernels g_log g_fp g_grad g_cinv g_target].
  rewrite Es, El, Ef, (t_grad _ _ _ T), EK. cbn [bind].
  replace (make_prediction (with_kernels s [gaussian [w]])) with (make_prediction s) by reflexivity.
  rewrite (make_prediction_trained s _ 1 T K 1); [|rewrite Ef; auto|auto]. unfold rescale. rewrite Es, Ef. cbn [length tabulate seq map Sum].
  f_equal. f_equal.
  pose proof (weights_spec s _ 1 T 0%nat) as W. rewrite Ef, Et, El, Er in W. specialize (W ltac:(cbn; lia)). cbn [length Sum nth] in W.
  unfold row_at in W. cbn [nth repeat] in W. rewrite kappa_width in W. unfold logged, ident in W. cbn [Nat.eqb] in W.
  replace (- / 2 * (0 / 1 - 0 / 1) ^ 2) with 0 in W by field. rewrite exp_0 in W.
  rewrite HK by (cbn; lia). unfold row_at. cbn [cols_of nth]. rewrite kappa_width.
  replace (t / w - 0 / w) with (t / w) by (field; auto).
  replace (weights s 0%nat) with (y / 2) by lra. ring.
Qed.

(** Two models are built from the same list and the second one is optimized: the
    predictions of the first one change. *)
Theorem optimizing_one_changes_the_other_refuted : forall inv cho cho_solve y w f t,
  oracles_ok inv cho -> oracles_total inv cho -> y <> 0 -> t <> 0 -> 0 < w -> w <> 1 ->
  let new := NewModel 0 [[0]] [y] None 1 None false false in
  exists st1 st2 s s' p p',
    perform_all inv cho cho_solve (Store [[scalar_gaussian 1]] []) [new; new] = Ok st1 /\
    perform inv cho cho_solve st1 (Optimize 1 (fun _ _ => ([w; 1], f))) = Ok st2 /\
    model st1 0 = Ok s /\ model st2 0 = Ok s' /\
    predict s [[t]] = Ok [p] /\ predict s' [[t]] = Ok [p'] /\ p <> p' /\
    p = exp (- / 2 * t ^ 2) * (y / 2) /\ p' = exp (- / 2 * (t / w) ^ 2) * (y / 2).
Proof.
  intros inv cho cho_solve y w f t HO HT Hy Ht Hw Hw1 new.
  assert (R1 : rectangular [[0]] 1) by repeat constructor.
  destruct (scalar_ok inv cho cho_solve [[0]] [y] 1 1 1 None false HO HT) as (s & Es & Ks); try lra; try lia; auto; try discriminate.
  cbn [repeat] in Ks.
  assert (HI : inputs_ok 1 [[0]] [scalar_gaussian 1]) by (repeat constructor; cbn; auto; discriminate).
  destruct (init_facts _ _ _ HO _ _ _ _ _ _ _ _ _ HI Es) as (ks' & b & EP & T & El & Esc & Er & En & Eb & _ & ET & _).
  cbn in ET. injection ET as Esd Ef Et.
  assert (Es2 : gp_init inv cho cho_solve [[0]] [y] [gaussian [1]] None 1 None false false = Ok s).
  { rewrite <- Es. unfold gp_init. cbn [is_some]. f_equal. cbn [ncols length Nat.eqb negb].
    change [gaussian [1]] with (fst ([gaussian (repeat 1 1)], repeat (default_bound false) 1 ++ [init_bounds None false])).
    pose proof (scalar_prepare 1 1 (init_bounds None false) ltac:(lra)) as Q. cbn [fst]. rewrite (prepare_again _ _ _ _ _ _ Q (init_bounds None false)). reflexivity. }
  destruct (gaussian_eval w ltac:(lra)) as [HE HS].
  destruct (covariance_posdef 1 [gaussian [w]] false [[0]] 1 HE HS) as (C & EC & C1 & C2 & C3 & C4 & _); try discriminate; auto.
  { cbn. lra. }
  destruct HT as [CI CC]. destruct (CI C) as [ci Eci]; [congruence|rewrite C1; auto|rewrite C1; auto|].
  assert (EO : exists s2, optimize_hyperparameters inv s (fun _ _ => ([w; 1], f)) = Ok s2 /\ g_kernels s2 = [gaussian [w]]).
  { unfold optimize_hyperparameters. rewrite Ks, En, (t_grad _ _ _ T), El, Ef. cbn -[get_covariance gaussian].
    unfold list2kdict. cbn -[get_covariance]. unfold slice. cbn -[get_covariance].
    change (set_width (gaussian [1]) (Arr [w])) with (gaussian [w]).
    rewrite EC. cbn [bind]. rewrite Eci. cbn [bind]. eexists. split; reflexivity. }
  destruct EO as (s2 & EO & K2).
  set (st1 := Store [[gaussian [1]]] [(0%nat, s); (0%nat, s)]). set (st2 := Store [[gaussian [w]]] [(0%nat, s); (0%nat, s2)]).
  exists st1, st2, s, (with_kernels s [gaussian [w]]), (exp (- / 2 * t ^ 2) * (y / 2)), (exp (- / 2 * (t / w) ^ 2) * (y / 2)).
  assert (M1 : forall m, (m < 2)%nat -> model st1 m = Ok s).
  { intros m Hm. rewrite <- (with_own_kernels s), Ks. destruct m as [|[|m]]; [| |lia]; reflexivity. }
  split; [|split; [|split; [|split; [|split; [|split; [|split; [|split]]]]]]]; auto.
  - unfold new. cbn [perform_all perform s_lists nth_error]. rewrite Es. cbn [bind s_lists set_nth nth_error s_models app]. rewrite Ks.
    cbn [bind s_lists set_nth nth_error s_models app]. rewrite Es2. cbn [bind s_lists set_nth s_models app]. rewrite Ks. reflexivity.
  - cbn [perform]. rewrite M1 by lia. cbn [bind]. rewrite EO. cbn [bind]. unfold put, list_of. cbn. rewrite K2. reflexivity.
  - rewrite <- (with_own_kernels s), Ks, (one_point_prediction inv cho cho_solve s y 1 t HO ltac:(lra) Es).
    replace (t / 1) with t by field. reflexivity.
  - apply (one_point_prediction inv cho cho_solve s y w t HO ltac:(lra) Es).
  - intros Q. assert (Q2 : exp (- / 2 * t ^ 2) = exp (- / 2 * (t / w) ^ 2)) by (apply Rmult_eq_reg_r with (y / 2); [auto|lra]).
    apply exp_inv in Q2. assert (Q3 : t ^ 2 = (t / w) ^ 2) by lra.
    assert (Q4 : t ^ 2 * w ^ 2 = t ^ 2) by (rewrite Q3 at 1; field; lra).
    assert (Q5 : w ^ 2 = 1). { apply Rmult_eq_reg_l with (t ^ 2); [lra|]. apply pow_nonzero. auto. }
    apply Hw1. nra.
Qed.
Print Assumptions optimizing_one_changes_the_other_refuted.

(** ** Concrete cases *)

(** Two models with one feature and different data, of one list with a scalar width. *)
Example shared_list_example :
  oracles_ok ref_inv ref_cho /\ Forall not_quadratic [scalar_gaussian 1] /\
  inputs_ok 1 [[0]] [scalar_gaussian 1] /\ inputs_ok 1 [[1]; [2]] [scalar_gaussian 1] /\
  exists st', perform_all ref_inv ref_cho (fun _ y => y) (Store [[scalar_gaussian 1]] [])
    (map (build 0) [Request [[0]] [3] 1 None false false; Request [[1]; [2]] [4; 5] 2 None false true]) = Ok st'.
Proof.
  destruct oracles_exist as [HO HT]. split; [auto|]. split; [repeat constructor; discriminate|].
  split; [repeat constructor; cbn; auto; discriminate|]. split; [repeat constructor; cbn; auto; discriminate|].
  destruct (scalar_ok ref_inv ref_cho (fun _ y => y) [[0]] [3] 1 1 1 None false HO HT) as (s & Es & Ks); try lra; try lia; auto; try discriminate; try (repeat constructor; fail).
  destruct (scalar_ok ref_inv ref_cho (fun _ y => y) [[1]; [2]] [4; 5] 1 1 2 None true HO HT) as (s2 & Es2 & Ks2); try lra; try lia; auto; try discriminate; try (repeat constructor; fail).
  cbn [map build perform_all perform s_lists nth_error q_fp q_tgt q_reg q_rb q_so q_sd]. rewrite Es. cbn [bind s_lists set_nth nth_error s_models app]. rewrite Ks.
  assert (E : gp_init ref_inv ref_cho (fun _ y => y) [[1]; [2]] [4; 5] [gaussian (repeat 1 1)] None 2 None false true = Ok s2).
  { rewrite <- Es2. unfold gp_init. cbn [is_some]. f_equal. cbn [ncols length Nat.eqb negb].
    pose proof (scalar_prepare 1 1 (init_bounds None false) ltac:(lra)) as Q. rewrite (prepare_again _ _ _ _ _ _ Q (init_bounds None false)). reflexivity. }
  cbn [bind perform_all perform s_lists nth_error set_nth]. rewrite E. cbn [bind]. eexists. reflexivity.
Qed.

Print Assumptions operation_on_own_model.
Print Assumptions other_lists_do_not_matter.

(** A single length scale, for one and then for two features. *)
Definition single_gaussian (w : val) : kdict := KD (Some KGaussian) false None (Some Single) None true None None (Some w) None None None None false.

Example single_dimension_example :
  Forall not_quadratic [single_gaussian (Num 1)] /\ Forall dimension_free [single_gaussian (Num 1)] /\
  inputs_ok 1 [[0]] [single_gaussian (Num 1)] /\ inputs_ok 2 [[1; 3]; [2; 2]] [single_gaussian (Num 1)] /\
  exists st', perform_all ref_inv ref_cho (fun _ y => y) (Store [[single_gaussian (Num 1)]] [])
    (map (build 0) [Request [[0]] [3] 1 None false false; Request [[1; 3]; [2; 2]] [4; 5] 2 None false false]) = Ok st'.
Proof.
  destruct oracles_exist as [HO [CI CC]]. split; [repeat constructor; discriminate|]. split; [repeat constructor; auto|].
  assert (I1 : inputs_ok 1 [[0]] [single_gaussian (Num 1)]) by (repeat constructor; cbn; auto; discriminate).
  assert (I2 : inputs_ok 2 [[1; 3]; [2; 2]] [single_gaussian (Num 1)]) by (repeat constructor; cbn; auto; discriminate).
  split; [auto|]. split; [auto|].
  assert (P : forall D rb, exists b, prepare_kernels [single_gaussian (Num 1)] rb false D = Ok ([single_gaussian (Arr [1])], b) /\
     prepare_kernels [single_gaussian (Arr [1])] rb false D = Ok ([single_gaussian (Arr [1])], b)).
  { intros D rb. unfold prepare_kernels. cbn. rewrite Nat.leb_refl. cbn. unfold Rltb. destruct (Rlt_dec 0 1); [|lra]. cbn. eauto. }
  assert (S1 : Forall (sensible false) [single_gaussian (Arr [1])]) by (repeat constructor; cbn; auto; discriminate).
  destruct (P 1%nat (init_bounds None false)) as (b1 & P1 & _). destruct (P 2%nat (init_bounds None false)) as (b2 & P2 & P3).
  destruct (gp_init_ok ref_inv ref_cho (fun _ y => y) (o_inv _ _ HO) [[0]] [3] [single_gaussian (Num 1)] 1 None false false 1 _ _ CI CC P1) as [s1 E1];
    try apply I1; auto. { cbn. lra. }
  assert (K1 : g_kernels s1 = [single_gaussian (Arr [1])]).
  { destruct (init_facts _ _ _ HO _ _ _ _ _ _ _ _ _ I1 E1) as (ks' & b & EP & T & _). rewrite P1 in EP. injection EP as <- <-.
    rewrite (t_kernels _ _ _ T). reflexivity. }
  destruct (gp_init_ok ref_inv ref_cho (fun _ y => y) (o_inv _ _ HO) [[1; 3]; [2; 2]] [4; 5] [single_gaussian (Num 1)] 2 None false false 2 _ _ CI CC P2) as [s2 E2];
    try apply I2; auto. { cbn. lra. }
  assert (E3 : gp_init ref_inv ref_cho (fun _ y => y) [[1; 3]; [2; 2]] [4; 5] [single_gaussian (Arr [1])] None 2 None false false = Ok s2).
  { rewrite <- E2. unfold gp_init. cbn [is_some length Nat.eqb negb ncols]. rewrite P2, P3. reflexivity. }
  cbn [map build perform_all perform s_lists nth_error q_fp q_tgt q_reg q_rb q_so q_sd]. rewrite E1. cbn [bind s_lists set_nth nth_error s_models app]. rewrite K1.
  cbn [bind perform_all perform s_lists nth_error set_nth]. rewrite E3. cbn [bind]. eexists. reflexivity.
Qed.
