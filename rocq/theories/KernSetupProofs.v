(** Proofs about kernel dictionaries: preparation, flattening, writing back. *)
From Coq Require Import Reals Lra Lia List Arith Bool.
From Verif Require Import Base BaseFacts RBase LinAlg KernModel.
Import ListNotations.
Open Scope R_scope.

(** The flat hyperparameters of one kernel. *)
Definition block (k : kdict) (nd : nat) : result (list R) :=
  bind (kdict2list k nd) (fun r => bind (floats (snd r)) (fun th => Ok (fst r ++ th))).

Lemma kdicts_loop_cons k ks nd : kdicts_loop (k :: ks) nd =
  bind (block k nd) (fun b => bind (kdicts_loop ks nd) (fun rest => Ok (b ++ rest))).
Proof.
  cbn [kdicts_loop]. unfold block. destruct (kdict2list k nd) as [[s th]|]; cbn [bind fst snd]; auto.
  destruct (floats th); cbn [bind]; auto. destruct (kdicts_loop ks nd); cbn [bind]; auto. rewrite app_assoc. auto.
Qed.

Lemma floats_nums l : floats (map Num l) = Ok l.
Proof. induction l as [|x l IH]; cbn; auto. rewrite IH. auto. Qed.

Lemma floats_app a b : floats (a ++ b) =
  bind (floats a) (fun x => bind (floats b) (fun y => Ok (x ++ y))).
Proof.
  induction a as [|[x|l] a IH]; cbn.
  - destruct (floats b); auto.
  - rewrite IH. destruct (floats a); cbn; auto. destruct (floats b); auto.
  - auto.
Qed.

(** Keys that a linear kernel and the multi kernels need in order to be flattened
    and written back; prepare_kernels does not look at them. *)
Definition plain (k : kdict) : Prop :=
  match k_type k with
  | Some KLinear => k_width k = None /\ k_const k = None /\ k_hyper k = None
  | Some KConstantMulti => exists l, k_hyper k = Some (Arr l) /\ length l = 3%nat
  | Some KNoiseMulti => exists l, k_hyper k = Some (Arr l) /\ length l = 2%nat
  | Some KUser => False
  | Some KQuadratic => exists d, k_degree k = Some (Num d)
  | _ => True
  end.

(** User supplied bounds, if any, are as many as the kernel has parameters. *)
Definition own_bounds (k : kdict) (nd : nat) : Prop :=
  let c := match k_dimension k with
           | Some Single => 1%nat
           | _ => match k_features k with Some f => length f | None => nd end
           end in
  match k_scaling_bounds k with None => True | Some b => length b = 1%nat end /\
  match k_bounds k with
  | None => True
  | Some b => length b = match k_type k with
                         | Some KConstant => 1 | Some KConstantMulti => 3 | Some KNoiseMulti => 2
                         | Some (KGaussian | KLaplacian) => c | Some KQuadratic => c + 1 | _ => 0 end%nat
  end.

(** ** Prepared kernels *)
Definition prepared (k : kdict) : Prop :=
  (is_some (k_scaling k) = true -> k_float k = true) /\
  match k_type k with
  | Some (KGaussian | KLaplacian) => (exists l, k_width k = Some (Arr l)) /\ k_const k = None /\ k_hyper k = None
  | Some KConstant => (exists c, k_const k = Some c) /\ k_hyper k = None /\ k_width k = None /\ k_scaling k = None
  | Some KLinear => k_width k = None /\ k_const k = None /\ k_hyper k = None
  | Some (KConstantMulti | KNoiseMulti) =>
      (exists l, k_hyper k = Some (Arr l)) /\ k_width k = None /\ k_const k = None /\ k_scaling k = None
  | Some KQuadratic => (exists l d, k_slope k = Some (Arr l) /\ k_degree k = Some (Num d)) /\
      k_width k = None /\ k_const k = None /\ k_hyper k = None
  | _ => False
  end.

Lemma require_ok {A} b (k : result A) r : (assert! b; k) = Ok r -> b = true /\ k = Ok r.
Proof. destruct b; cbn; intros H; [auto|discriminate]. Qed.

Ltac negb_or H :=
  apply negb_true_iff in H; repeat (apply orb_false_elim in H; destruct H as [H ?]);
  repeat match goal with E : is_some ?o = false |- _ => destruct o eqn:?; [discriminate E|clear E] end.

Lemma format_vec_ok v nd l : format_vec v nd = Ok l -> length l = nd.
Proof.
  destruct v as [x|a]; cbn.
  - intros [= <-]. apply repeat_length.
  - destruct (Nat.eqb_spec (length a) nd); [intros [= <-]; auto|discriminate].
Qed.

Lemma prepare_kernel_spec k nd dflt k' b : prepare_kernel k nd dflt = Ok (k', b) -> plain k -> own_bounds k nd ->
  prepared k' /\ k_type k' = k_type k /\ k_mult k' = k_mult k /\
  exists blk, block k' nd = Ok blk /\ length blk = length b.
Proof.
  unfold prepare_kernel. intros H HP [HB1 HB2]. destruct (k_type k) as [t|] eqn:Et; [|discriminate].
  apply require_ok in H. destruct H as [_ H]. apply require_ok in H. destruct H as [_ H].
  set (c := match k_dimension k with Some Single => 1%nat | _ => match k_features k with Some f => length f | None => nd end end) in *.
  destruct (match k_scaling k with Some _ => scaling_setup k dflt | None => Ok [] end) as [sb|] eqn:Esb; [|discriminate].
  cbn [bind] in H.
  assert (Hsb : (is_some (k_scaling k) = true -> k_float k = true) /\
                length sb = length (match k_scaling k with Some s => [s] | None => [] end)).
  { destruct (k_scaling k) as [s|].
    - unfold scaling_setup in Esb. apply require_ok in Esb. destruct Esb as [Hf E]. injection E as <-.
      split; auto. destruct (k_scaling_bounds k); auto.
    - injection Esb as <-. split; [discriminate|auto]. }
  destruct Hsb as [Hf Hsb]. clear Esb.
  destruct (type_setup t k c dflt) as [[k2 b2]|] eqn:Ets; [|discriminate]. cbn [bind fst snd] in H.
  injection H as <- <-. unfold plain in HP. rewrite Et in HP.
  assert (Bn : forall m, match k_bounds k with Some b => length b = m | None => True end ->
     length (match k_bounds k with Some b => b | None => repeat dflt m end) = m).
  { intros m. destruct (k_bounds k); auto. intros _. apply repeat_length. }
  destruct t; cbn [type_setup] in Ets; try discriminate; try contradiction.
  - (* constant *)
    apply require_ok in Ets. destruct Ets as [Hk Ets]. negb_or Hk.
    destruct (k_const k) as [x|] eqn:Ec; [|discriminate]. injection Ets as <- <-.
    unfold prepared, block, kdict2list, get_theta. rewrite Et, Ec.
    repeat match goal with E : _ = None |- _ => rewrite E in * end. cbn [bind is_some fst snd app floats].
    split; [split; [discriminate|eauto 6]|]. split; auto. split; auto. eexists. split; [reflexivity|].
    assert (B1 := Bn 1%nat HB2). cbn [repeat] in B1 |- *. rewrite app_length, B1. cbn in Hsb. rewrite Hsb. cbn. auto.
  - (* constant_multi *)
    apply require_ok in Ets. destruct Ets as [Hk Ets]. negb_or Hk.
    destruct HP as [l [Hl Hlen]]. injection Ets as <- <-.
    unfold prepared, block, kdict2list, get_theta. rewrite Et, Hl.
    repeat match goal with E : _ = None |- _ => rewrite E in * end. cbn [bind is_some fst snd app].
    rewrite floats_nums. split; [split; [discriminate|eauto 6]|]. split; auto. split; auto. eexists. split; [reflexivity|].
    assert (B1 := Bn 3%nat HB2). cbn [repeat] in B1 |- *. rewrite app_length, B1. cbn in Hsb. rewrite Hsb. cbn. auto.
  - (* noise_multi *)
    apply require_ok in Ets. destruct Ets as [Hk Ets]. negb_or Hk.
    destruct HP as [l [Hl Hlen]]. injection Ets as <- <-.
    unfold prepared, block, kdict2list, get_theta. rewrite Et, Hl.
    repeat match goal with E : _ = None |- _ => rewrite E in * end. cbn [bind is_some fst snd app].
    rewrite floats_nums. split; [split; [discriminate|eauto 6]|]. split; auto. split; auto. eexists. split; [reflexivity|].
    assert (B1 := Bn 2%nat HB2). cbn [repeat] in B1 |- *. rewrite app_length, B1. cbn in Hsb. rewrite Hsb. cbn. auto.
  - (* gaussian *)
    destruct (k_width k) as [w|] eqn:Ew; [|discriminate]. apply require_ok in Ets. destruct Ets as [Hk Ets]. negb_or Hk.
    destruct (format_vec w c) as [l|] eqn:El; [|discriminate]. cbn [bind] in Ets.
    apply require_ok in Ets. destruct Ets as [_ Ets]. injection Ets as <- <-.
    unfold prepared, block, kdict2list, get_theta. cbn [set_width k_type k_scaling k_width k_const k_hyper k_float k_features k_mult].
    rewrite Et. repeat match goal with E : _ = None |- _ => rewrite E end. cbn [bind to_list fst snd].
    rewrite floats_nums. cbn [bind].
    split; [split; eauto|]. split; auto. split; auto. eexists. split; [reflexivity|].
    rewrite !app_length, Bn by auto. apply format_vec_ok in El. lia.
  - (* quadratic *)
    destruct (k_slope k) as [s|] eqn:Es; [|discriminate]. destruct (k_degree k) as [d|] eqn:Ed; [|discriminate].
    destruct HP as [d0 [= ->]].
    apply require_ok in Ets. destruct Ets as [Hk Ets]. negb_or Hk.
    destruct (format_vec s c) as [l|] eqn:El; [|discriminate]. cbn [bind] in Ets. injection Ets as <- <-.
    unfold prepared, block, kdict2list, get_theta.
    cbn [set_slope k_type k_scaling k_width k_const k_hyper k_float k_features k_slope k_degree k_mult].
    rewrite Et, Ed. repeat match goal with E : _ = None |- _ => rewrite E end. cbn [bind to_list fst snd].
    rewrite floats_app, floats_nums. cbn [bind floats].
    split; [split; eauto 7|]. split; auto. split; auto. eexists. split; [reflexivity|].
    rewrite !app_length, Bn by auto. apply format_vec_ok in El. cbn [length]. lia.
  - (* laplacian *)
    destruct (k_width k) as [w|] eqn:Ew; [|discriminate]. apply require_ok in Ets. destruct Ets as [Hk Ets]. negb_or Hk.
    destruct (format_vec w c) as [l|] eqn:El; [|discriminate]. cbn [bind] in Ets. injection Ets as <- <-.
    unfold prepared, block, kdict2list, get_theta. cbn [set_width k_type k_scaling k_width k_const k_hyper k_float k_features k_mult].
    rewrite Et. repeat match goal with E : _ = None |- _ => rewrite E end. cbn [bind to_list fst snd].
    rewrite floats_nums. cbn [bind].
    split; [split; eauto|]. split; auto. split; auto. eexists. split; [reflexivity|].
    rewrite !app_length, Bn by auto. apply format_vec_ok in El. lia.
  - (* linear *)
    injection Ets as <- <-. destruct HP as [H1 [H2 H3]].
    unfold prepared, block, kdict2list, get_theta. rewrite Et, H1, H2, H3. cbn [bind floats fst snd].
    split; [split; auto|]. split; auto. split; auto. eexists. split; [reflexivity|].
    rewrite !app_nil_r. auto.
Qed.

(** ** One kernel written back *)
Lemma item_app pre x post : item (pre ++ x :: post) (length pre) = Ok x.
Proof. unfold item. rewrite nth_error_app2, Nat.sub_diag by lia. auto. Qed.

Lemma slice_app pre blk post : slice (pre ++ blk ++ post) (length pre) (length blk) = blk.
Proof.
  unfold slice. rewrite skipn_app, skipn_all, Nat.sub_diag. cbn [app skipn].
  rewrite firstn_app, Nat.sub_diag, firstn_all. cbn. apply app_nil_r.
Qed.

Definition advances (k : kdict) : bool :=
  match k_type k with Some (KConstantMulti | KNoiseMulti) => false | _ => true end.
Definition is_quadratic (k : kdict) : bool :=
  match k_type k with Some KQuadratic => true | _ => false end.

Lemma set_scaling_id k s : k_scaling k = Some s -> k_float k = true -> set_scaling k s = k.
Proof. destruct k; cbn. intros -> ->. auto. Qed.
Lemma set_width_id k w : k_width k = Some w -> set_width k w = k.
Proof. destruct k; cbn. intros ->. auto. Qed.
Lemma set_const_id k w : k_const k = Some w -> set_const k w = k.
Proof. destruct k; cbn. intros ->. auto. Qed.
Lemma set_hyper_id k w : k_hyper k = Some w -> set_hyper k w = k.
Proof. destruct k; cbn. intros ->. auto. Qed.

(** A prepared kernel that is not quadratic takes its block from the flat list. *)
Lemma step_spec k nd blk : prepared k -> is_quadratic k = false -> block k nd = Ok blk ->
  forall pre blk' post, length blk' = length blk ->
  exists k', list2kdict_step (pre ++ blk' ++ post) (length pre) k =
               Ok (k', if advances k then (length pre + length blk')%nat else length pre) /\
             prepared k' /\ k_type k' = k_type k /\ block k' nd = Ok blk' /\ (blk' = blk -> k' = k).
Proof.
  intros [Hf HP] HQ Hb pre blk' post HL. unfold list2kdict_step, advances. unfold is_quadratic in HQ.
  unfold prepared, block, kdict2list, get_theta in *.
  destruct (k_type k) as [t|] eqn:Et; [|contradiction]. destruct t; try contradiction; try discriminate HQ.
  - (* constant *)
    destruct HP as [[c Hc] [Hh [Hw Hs]]]. rewrite Hc, Hh, Hw, Hs in *. cbn in Hb. injection Hb as <-.
    cbn in HL. destruct blk' as [|x [|? ?]]; cbn in HL; try discriminate. cbn [bind app].
    rewrite item_app. cbn [bind]. eexists. split; [rewrite Nat.add_1_r; reflexivity|].
    cbn [set_const k_type k_scaling k_width k_const k_hyper k_float k_features]. rewrite Et, Hh, Hw, Hs.
    split; [|split; [|split]]; auto.
    + split; [discriminate|eauto 6].
    + intros [= ->]. apply set_const_id; auto.
  - (* constant_multi *)
    destruct HP as [[l Hl] [Hw [Hc Hs]]]. rewrite Hl, Hw, Hc, Hs in *. cbn [bind fst snd app] in Hb.
    rewrite floats_nums in Hb. injection Hb as <-. cbn [bind len app]. rewrite ?Hl. cbn [len bind]. rewrite <- HL, slice_app.
    eexists. split; [reflexivity|].
    cbn [set_hyper k_type k_scaling k_width k_const k_hyper k_float k_features]. rewrite Et, Hw, Hc, Hs. cbn [bind fst snd app].
    rewrite floats_nums.
    split; [|split; [|split]]; auto.
    + split; [discriminate|eauto 6].
    + intros [= ->]. apply set_hyper_id; auto.
  - (* noise_multi *)
    destruct HP as [[l Hl] [Hw [Hc Hs]]]. rewrite Hl, Hw, Hc, Hs in *. cbn [bind fst snd app] in Hb.
    rewrite floats_nums in Hb. injection Hb as <-. cbn [bind len app]. rewrite ?Hl. cbn [len bind]. rewrite <- HL, slice_app.
    eexists. split; [reflexivity|].
    cbn [set_hyper k_type k_scaling k_width k_const k_hyper k_float k_features]. rewrite Et, Hw, Hc, Hs. cbn [bind fst snd app].
    rewrite floats_nums.
    split; [|split; [|split]]; auto.
    + split; [discriminate|eauto 6].
    + intros [= ->]. apply set_hyper_id; auto.
  - (* gaussian *)
    destruct HP as [[l Hl] [Hc Hh]]. rewrite Hl, Hc, Hh in *. cbn [bind to_list fst snd] in Hb.
    rewrite floats_nums in Hb. cbn [bind] in Hb. injection Hb as <-.
    destruct (k_scaling k) as [s|] eqn:Es.
    + destruct blk' as [|x w]; cbn in HL; [discriminate|]. injection HL as HL.
      cbn [app]. rewrite item_app. cbn [bind].
      cbn [set_scaling k_width]. rewrite Hl. cbn [len bind].
      replace (pre ++ x :: w ++ post) with ((pre ++ [x]) ++ w ++ post) by (rewrite <- app_assoc; auto).
      replace (S (length pre)) with (length (pre ++ [x])) by (rewrite app_length; cbn; lia).
      rewrite <- HL, slice_app. eexists. split.
      { f_equal. f_equal. rewrite app_length. cbn. lia. }
      cbn [set_width set_scaling k_type k_scaling k_width k_const k_hyper k_float k_features].
      rewrite Et, Hc, Hh. cbn [bind to_list fst snd]. rewrite floats_nums.
      split; [|split; [|split]]; auto.
      * split; eauto.
      * intros [= -> ->]. fold (set_scaling k s).
        rewrite set_scaling_id by auto. apply set_width_id; auto.
    + cbn [bind]. rewrite Hl. cbn [len bind]. cbn in HL. rewrite <- HL, slice_app. eexists. split; [reflexivity|].
      cbn [set_width k_type k_scaling k_width k_const k_hyper k_float k_features].
      rewrite Et, Hc, Hh, Es. cbn [bind to_list fst snd]. rewrite floats_nums.
      split; [|split; [|split]]; auto.
      * split; eauto.
      * intros ->. cbn. apply set_width_id; auto.
  - (* laplacian *)
    destruct HP as [[l Hl] [Hc Hh]]. rewrite Hl, Hc, Hh in *. cbn [bind to_list fst snd] in Hb.
    rewrite floats_nums in Hb. cbn [bind] in Hb. injection Hb as <-.
    destruct (k_scaling k) as [s|] eqn:Es.
    + destruct blk' as [|x w]; cbn in HL; [discriminate|]. injection HL as HL.
      cbn [app]. rewrite item_app. cbn [bind].
      cbn [set_scaling k_width]. rewrite Hl. cbn [len bind].
      replace (pre ++ x :: w ++ post) with ((pre ++ [x]) ++ w ++ post) by (rewrite <- app_assoc; auto).
      replace (S (length pre)) with (length (pre ++ [x])) by (rewrite app_length; cbn; lia).
      rewrite <- HL, slice_app. eexists. split.
      { f_equal. f_equal. rewrite app_length. cbn. lia. }
      cbn [set_width set_scaling k_type k_scaling k_width k_const k_hyper k_float k_features].
      rewrite Et, Hc, Hh. cbn [bind to_list fst snd]. rewrite floats_nums.
      split; [|split; [|split]]; auto.
      * split; eauto.
      * intros [= -> ->]. fold (set_scaling k s).
        rewrite set_scaling_id by auto. apply set_width_id; auto.
    + cbn [bind]. rewrite Hl. cbn [len bind]. cbn in HL. rewrite <- HL, slice_app. eexists. split; [reflexivity|].
      cbn [set_width k_type k_scaling k_width k_const k_hyper k_float k_features].
      rewrite Et, Hc, Hh, Es. cbn [bind to_list fst snd]. rewrite floats_nums.
      split; [|split; [|split]]; auto.
      * split; eauto.
      * intros ->. cbn. apply set_width_id; auto.
  - (* linear *)
    destruct HP as [Hw [Hc Hh]]. rewrite Hw, Hc, Hh in *. cbn [bind floats fst snd] in Hb. injection Hb as <-.
    rewrite app_nil_r in HL. destruct (k_scaling k) as [s|] eqn:Es.
    + destruct blk' as [|x [|? ?]]; cbn in HL; try discriminate. cbn [app]. rewrite item_app. cbn [bind].
      eexists. split; [cbn; rewrite Nat.add_1_r; reflexivity|].
      cbn [set_scaling k_type k_scaling k_width k_const k_hyper k_float k_features].
      rewrite Et, Hw, Hc, Hh. cbn [bind floats fst snd].
      split; [|split; [|split]]; auto.
      intros [= ->]. apply set_scaling_id; auto.
    + destruct blk'; cbn in HL; [|discriminate]. cbn [bind app]. eexists. split; [cbn; rewrite Nat.add_0_r; reflexivity|].
      rewrite Et, Hw, Hc, Hh, Es. cbn [bind floats fst snd]. split; [|split; [|split]]; auto.
Qed.

(** Only the last kernel may be one of the kernels with a 'hyperparameters' key. *)
Fixpoint multi_last (ks : list kdict) : Prop :=
  match ks with
  | [] => True
  | [k] => True
  | k :: t => advances k = true /\ multi_last t
  end.

Lemma list2kdict_spec ks nd : Forall prepared ks -> Forall (fun k => is_quadratic k = false) ks -> multi_last ks ->
  forall flat, kdicts_loop ks nd = Ok flat -> forall pre flat' post, length flat' = length flat ->
  exists ks', list2kdict_from (pre ++ flat' ++ post) (length pre) ks = Ok ks' /\
    Forall prepared ks' /\ map k_type ks' = map k_type ks /\
    kdicts_loop ks' nd = Ok flat' /\ (flat' = flat -> ks' = ks).
Proof.
  induction ks as [|k ks IH]; intros HP HQ HM flat HF pre flat' post HL.
  - cbn in HF. injection HF as <-. destruct flat'; [|discriminate]. exists []. repeat split; auto.
  - rewrite kdicts_loop_cons in HF. destruct (block k nd) as [b|] eqn:Eb; [|discriminate]. cbn [bind] in HF.
    destruct (kdicts_loop ks nd) as [rest|] eqn:Er; [|discriminate]. injection HF as <-.
    rewrite app_length in HL.
    apply Forall_cons_iff in HP. destruct HP as [HP1 HP2]. apply Forall_cons_iff in HQ. destruct HQ as [HQ1 HQ2].
    set (b' := firstn (length b) flat'). set (r' := skipn (length b) flat').
    assert (Ef : flat' = b' ++ r') by (symmetry; apply firstn_skipn).
    assert (Lb : length b' = length b) by (unfold b'; rewrite firstn_length; lia).
    assert (Lr : length r' = length rest) by (unfold r'; rewrite skipn_length; lia).
    clearbody b' r'. subst flat'.
    destruct (step_spec k nd b HP1 HQ1 Eb pre b' (r' ++ post) Lb) as [k' [S1 [S2 [S3 [S4 S5]]]]].
    cbn [list2kdict_from]. rewrite <- app_assoc, S1. cbn [bind snd fst].
    assert (HM' : ks = [] \/ (advances k = true /\ multi_last ks)) by (destruct ks; auto).
    destruct HM' as [->|[HA HM']].
    + cbn in Er. injection Er as <-. destruct r'; [|discriminate]. cbn [list2kdict_from bind].
      exists [k']. split; auto. split; [constructor; auto|]. split; [cbn; rewrite S3; auto|]. split.
      * rewrite kdicts_loop_cons, S4. cbn. auto.
      * intros E. rewrite S5; auto. rewrite !app_nil_r in E. auto.
    + rewrite HA. destruct (IH HP2 HQ2 HM' rest eq_refl (pre ++ b') r' post Lr) as [ks' [T1 [T2 [T3 [T4 T5]]]]].
      rewrite app_length in T1. rewrite <- !app_assoc in T1. rewrite T1. cbn [bind].
      exists (k' :: ks'). split; auto. split; [constructor; auto|]. split; [cbn; rewrite S3, T3; auto|]. split.
      * rewrite kdicts_loop_cons, S4. cbn [bind]. rewrite T4. auto.
      * intros E.
        assert (b' = b /\ r' = rest) as [E1 E2].
        { clear -E Lb. revert b E Lb. induction b' as [|x b' IHb]; intros [|y b] E Lb; cbn in *; try discriminate; auto.
          injection E as -> E. destruct (IHb b E ltac:(lia)) as [-> ->]. auto. }
        rewrite S5, T5; auto.
Qed.

(** ** All kernels: blocks of parameters and bounds *)
Lemma prepare_loop_spec ks nd dflt : forall ks' bnds, prepare_loop ks nd dflt = Ok (ks', bnds) ->
  Forall plain ks -> Forall (fun k => own_bounds k nd) ks ->
  Forall prepared ks' /\ map k_type ks' = map k_type ks /\ map k_mult ks' = map k_mult ks /\
  exists blocks : list (list R * list bound),
    Forall2 (fun k b => block k nd = Ok (fst b) /\ length (fst b) = length (snd b)) ks' blocks /\
    kdicts_loop ks' nd = Ok (concat (map fst blocks)) /\ bnds = concat (map snd blocks) /\
    Forall2 (fun k b => exists k', prepare_kernel k nd dflt = Ok (k', snd b)) ks blocks.
Proof.
  induction ks as [|k ks IH]; intros ks' bnds H HP HB; cbn [prepare_loop] in H.
  - injection H as <- <-. repeat split; auto. exists []. repeat split; auto.
  - apply Forall_cons_iff in HP. destruct HP as [HP1 HP2]. apply Forall_cons_iff in HB. destruct HB as [HB1 HB2].
    destruct (prepare_kernel k nd dflt) as [[k1 b1]|] eqn:Ek; [|discriminate]. cbn [bind fst snd] in H.
    destruct (prepare_loop ks nd dflt) as [[ks2 b2]|] eqn:El; [|discriminate]. cbn [bind fst snd] in H.
    injection H as <- <-.
    destruct (prepare_kernel_spec _ _ _ _ _ Ek HP1 HB1) as [P1 [P2 [P3 [blk [P4 P5]]]]].
    destruct (IH _ _ eq_refl HP2 HB2) as [Q1 [Q2 [Q3 [blocks [Q4 [Q5 [Q6 Q7]]]]]]].
    split; [constructor; auto|]. split; [cbn; congruence|]. split; [cbn; congruence|].
    exists ((blk, b1) :: blocks). split; [constructor; auto|]. split; [|split; [|constructor; cbn; eauto]].
    + rewrite kdicts_loop_cons, P4. cbn [bind]. rewrite Q5. auto.
    + cbn. congruence.
Qed.
