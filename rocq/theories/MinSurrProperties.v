(** The surrogate of MLMin. *)
From Coq Require Import Reals Lra Lia List Arith Bool String.
From Coquelicot Require Import Coquelicot.
From Verif Require Import Base BaseFacts RBase LinAlg KernModel KernProofs KernSetupProofs KernDefProofs KernProperties GPModel GPProofs
  GPMoreProofs GPProperties GPUpdateProperties GradSpec GradKernProofs KernMultiProperties MaskModel OptModel MinSurrModel.
From Verif Require PathModel PathProperties MaskProperties.
From Coq Require Import List.
Import ListNotations.
Open Scope R_scope.

(** ** The two kernels of a surrogate *)
Definition surr (dim : dimension) (ws : list R) (wb : list bound) (sf : R) (sb : list bound) (a b : R) (nb : list bound) : list kdict :=
  [sq_kernel dim (Arr ws) wb sf sb; noise_kernel [a; b] nb].
Definition width_count (dim : dimension) (D : nat) : nat := match dim with Single => 1%nat | _ => D end.

Lemma surr_prepare dim w wb sf sb a b nb rb D ws : dim <> OtherDim -> format_vec w (width_count dim D) = Ok ws -> Forall (fun x => 0 < x) ws ->
  prepare_kernels [sq_kernel dim w wb sf sb; noise_kernel [a; b] nb] rb true D =
  Ok (surr dim ws wb sf sb a b nb, (sb ++ wb) ++ nb ++ [rb]).
Proof.
  intros Hd Hf Hw. assert (F : forallb (fun x => Rltb 0 x) ws = true).
  { apply forallb_forall. intros x Hx. apply Rltb_true. rewrite Forall_forall in Hw. auto. }
  unfold prepare_kernels. cbn. rewrite !Nat.leb_refl. cbn [require bind].
  destruct dim; [| |congruence]; cbn in *; rewrite Hf; cbn [bind]; rewrite F; cbn; rewrite app_nil_r, <- !app_assoc; reflexivity.
Qed.

Lemma surr_flat dim ws wb sf sb a b nb D : kdicts2list (surr dim ws wb sf sb a b nb) D = Ok (sf :: ws ++ [a; b]).
Proof.
  unfold surr. cbn [kdicts2list kdicts_loop]. unfold kdict2list. cbn. rewrite floats_nums. reflexivity.
Qed.

Lemma surr_write dim ws wb sf sb a b nb sf' ws' a' b' rest : length ws' = length ws ->
  list2kdict (sf' :: ws' ++ [a'; b'] ++ rest) (surr dim ws wb sf sb a b nb) = Ok (surr dim ws' wb sf' sb a' b' nb).
Proof.
  intros HL. unfold list2kdict, surr. cbn [list2kdict_from]. unfold list2kdict_step at 1. cbn [sq_kernel k_type k_scaling item nth_error bind].
  cbn [set_scaling sq_kernel k_width len bind]. unfold slice. cbn [skipn].
  replace (firstn (length ws) (ws' ++ [a'; b'] ++ rest)) with ws' by (rewrite <- HL, firstn_app, Nat.sub_diag, firstn_all, firstn_O, app_nil_r; auto).
  cbn [snd fst]. unfold list2kdict_step. cbn [noise_kernel k_type k_scaling bind k_hyper len]. unfold slice.
  replace (skipn (1 + length ws) (sf' :: ws' ++ [a'; b'] ++ rest)) with ([a'; b'] ++ rest) by (cbn [skipn Nat.add]; rewrite <- HL, skipn_app, Nat.sub_diag, skipn_all, skipn_O; auto).
  reflexivity.
Qed.

Record good (D : nat) (dim : dimension) (ws : list R) (sf a b : R) : Prop := {
  o_dim : dim <> OtherDim;
  o_len : length ws = width_count dim D;
  o_pos : Forall (fun x => 0 < x) ws;
  o_sf : 0 <= sf;
  o_a : a <> 0;
  o_b : b <> 0 }.

Lemma posdef_diag n A d : possemidef n A -> (forall i, (i < n)%nat -> 0 < d i) -> posdef n (fun i j => A i j + (if (i =? j)%nat then d i else 0)).
Proof.
  intros H Hd x [i [Hi Hx]].
  assert (E : quad n (fun i j => A i j + (if (i =? j)%nat then d i else 0)) x = quad n A x + Sum n (fun i => d i * x i ^ 2)).
  { unfold quad. rewrite <- Sum_plus. apply Sum_ext. intros k Hk.
    replace (d k * x k ^ 2) with (Sum n (fun j => (if (k =? j)%nat then 1 else 0) * (d k * x k * x j))) by (rewrite (Sum_delta n k (fun j => d k * x k * x j)) by auto; ring).
    rewrite <- Sum_plus. apply Sum_ext. intros j _. destruct (k =? j)%nat; ring. }
  rewrite E. specialize (H x).
  assert (P : forall k, (k < n)%nat -> 0 <= d k * x k ^ 2) by (intros k Hk; specialize (Hd k Hk); pose proof (pow2_ge_0 (x k)); nra).
  destruct (Rle_lt_or_eq_dec 0 _ (Sum_nonneg n (fun k => d k * x k ^ 2) P)) as [L|L]; [lra|].
  exfalso. pose proof (Sum_pos_zero n (fun k => d k * x k ^ 2) P (eq_sym L) i Hi) as Q. cbv beta in Q. specialize (Hd i Hi).
  apply Rmult_integral in Q. destruct Q as [Q|Q]; [lra|]. apply Hx. apply Rsqr_0_uniq. unfold Rsqr. lra.
Qed.

Lemma posdef_ext n A B : eqm n B A -> posdef n A -> posdef n B.
Proof. intros E H x Hx. specialize (H x Hx). replace (quad n B x) with (quad n A x); auto. unfold quad. apply Sum_ext. intros i Hi. apply Sum_ext. intros j Hj. rewrite E; auto. Qed.

(** With noise the covariance of the values and derivatives of any training set is positive
    definite, with or without regularization. *)
Lemma surr_posdef D dim ws wb sf sb a b nb m r : good D dim ws sf a b -> (1 <= D)%nat -> m <> [] -> rectangular m D ->
  exists K, get_covariance (surr dim ws wb sf sb a b nb) false m None (Some r) true = Ok K /\
    nr K = (length m + length m * D)%nat /\ nc K = nr K /\ symm (nr K) (at_ K) /\ posdef (nr K) (at_ K).
Proof.
  intros [Hd Hl Hp Hs Ha Hb] HD HN HR. set (k := sq_kernel dim (Arr ws) wb sf sb).
  assert (HE : Forall (evaluable D) [k]).
  { repeat constructor. cbn. exists ws. split; [auto|]. rewrite Hl. destruct dim; cbn; auto. }
  assert (HS : Forall (sensible false) [k]).
  { constructor; [|constructor]. constructor; cbn; intros _; auto. eapply Forall_impl; [|exact Hp]. cbv beta. intros. lra. }
  assert (HM : Forall smooth [k]) by (repeat constructor; auto).
  destruct (covariance_grad_posdef D [k] false m HE HS HM ltac:(discriminate) HN HR) as (C & EC & C1 & C2 & C3 & C4 & _).
  cbv zeta in *. set (N := (length m + length m * D)%nat) in *.
  destruct (scaled_noise a b true m None) as (K1 & E1 & N1 & N2 & N3).
  assert (ND : ncols m = D) by (apply rectangular_ncols; auto).
  assert (E1' : scaled_kernel (noise_kernel [a; b] nb) false true m None = Ok K1) by exact E1.
  pose proof (covariance_append [k] (noise_kernel [a; b] nb) false true m None C K1 ltac:(discriminate) EC E1') as EA.
  unfold noise_multi_kernel, grad_size in N1, N2. cbn [nr nc] in N1, N2. rewrite ND in N1, N2. fold N in N1, N2.
  specialize (EA ltac:(congruence) ltac:(congruence) eq_refl).
  unfold surr. fold k. change [k; noise_kernel [a; b] nb] with ([k] ++ [noise_kernel [a; b] nb]).
  unfold get_covariance in EA |- *. apply require_ok in EA. destruct EA as [_ EA]. cbn [require bind].
  destruct (cov_loop ([k] ++ [noise_kernel [a; b] nb]) false true m None None) as [[c|]|]; try discriminate. cbn [bind] in *.
  injection EA as ->. cbn [nr nc]. rewrite C1, C2, Nat.eqb_refl. eexists. split; [reflexivity|]. cbn [nr nc at_].
  split; [auto|]. split; [auto|].
  assert (EN : forall i j, at_ K1 i j = if (i =? j)%nat then (if (i <? length m)%nat then a ^ 2 else b ^ 2) else 0).
  { intros i j. rewrite N3. reflexivity. }
  split.
  - intros i j Hi Hj. rewrite !EN, (C3 i j) by auto. unfold ident. rewrite (Nat.eqb_sym j i). destruct (Nat.eqb_spec i j); [subst|]; auto.
  - apply (posdef_ext N (fun i j => at_ C i j + (if (i =? j)%nat then (if (i <? length m)%nat then a ^ 2 else b ^ 2) + r ^ 2 else 0))).
    + intros i j _ _. rewrite EN. unfold logged, ident. destruct (i =? j)%nat; ring.
    + apply posdef_diag; [auto|]. intros i _. pose proof (pow2_ge_0 r). destruct (i <? length m)%nat; nra.
Qed.

(** ** Specification *)
Definition within (x : R) (b : bound) : Prop := fst b <= x /\ match snd b with Some h => x <= h | None => True end.

(** A minimizer that is started within the bounds returns a point within the bounds. *)
Definition respects (minimizer : list R -> list bound -> (list R * R) * bool) : Prop :=
  forall th b, Forall2 within th b -> Forall2 within (fst (fst (minimizer th b))) b.

(** Training data of structures with [L] coordinates, of which those in [mask] are free. *)
Record valid (L : nat) (mask : list nat) (d : data) : Prop := {
  v_mask : d_mask d = mask;
  v_free : mask <> [];
  v_range : Forall (fun i => (i < L)%nat) mask;
  v_some : d_targets d <> [];
  v_train : length (d_train d) = length (d_targets d);
  v_gradients : length (d_gradients d) = length (d_targets d);
  v_rows : Forall (fun r => length r = L) (d_train d);
  v_grows : Forall (fun r => length r = L) (d_gradients d) }.

Definition implemented (kernel : string) : Prop := kernel = "SQE_fixed"%string \/ kernel = "SQE"%string \/ kernel = "ARD_SQE"%string.

(** The variance of the surrogate and the hyperparameters it starts with: variance, length
    scales, noise of the energies, noise of the forces. *)
Definition spread (targets : list R) : R := 1 / 1000 + std targets ^ 2.
Definition start (kernel : string) (noise : R) (free : nat) (targets : list R) : list R :=
  if (length targets =? 1)%nat then [spread targets; 1 / 5; noise * (4 / 25); noise]
  else if (kernel =? "SQE_fixed")%string then [1; 2 / 5; noise * (4 / 25); noise]
  else if (kernel =? "SQE")%string then [spread targets; 2 / 5; noise; noise * (4 / 25)]
  else spread targets :: repeat (2 / 5) free ++ [noise / 2; noise / 10].

(** The bounds they are optimised within; the regularization is fixed to zero. *)
Definition exactly (x : R) : bound := between x x.
Definition limits (kernel : string) (noise : R) (free : nat) (targets : list R) : list bound :=
  (if (length targets =? 1)%nat || (kernel =? "SQE_fixed")%string then map exactly (start kernel noise free targets)
   else if (kernel =? "SQE")%string then
     [exactly (spread targets); between (1 / 100) 1; between (noise / 5) (noise * 10); between (noise / 5 * (4 / 25)) (noise * 10)]
   else exactly (spread targets) :: repeat (between (1 / 100) 1) free ++ [between (noise / 5) noise; between (noise / 10) (noise / 4)])
  ++ [exactly 0].

(** One pass of a run.  [s] has the hyperparameters and bounds that were kept since the
    first successful optimisation.  The result has the hyperparameters (the last one is
    the regularization) and bounds of the model, and what is kept. *)
Definition pass (kernel : string) (noise : R) (free : nat) (targets : list R) (minimizer : list R -> list bound -> (list R * R) * bool)
  (s : option (list R * list bound)) : (list R * list bound) * option (list R * list bound) :=
  let '(x0, b) := match s with Some q => q | None => (start kernel noise free targets ++ [0], limits kernel noise free targets) end in
  if negb (kernel =? "SQE_fixed")%string && (6 <=? length targets)%nat then
    let '(x, _, success) := minimizer x0 b in
    ((x, b), match s with Some _ => Some (x, b) | None => if success then Some (x, b) else None end)
  else ((x0, b), s).
Fixpoint run_passes (kernel : string) (noise : R) (free : nat) (l : list (data * (list R -> list bound -> (list R * R) * bool)))
  (m : list R * list bound) (s : option (list R * list bound)) : (list R * list bound) * option (list R * list bound) :=
  match l with
  | [] => (m, s)
  | (d, minimizer) :: t => let r := pass kernel noise free (d_targets d) minimizer s in run_passes kernel noise free t (fst r) (snd r)
  end.

(** The hyperparameters and the bounds of a model. *)
Definition has (g : gp) (q : list R * list bound) : Prop :=
  exists th, kdicts2list (g_kernels g) (g_nd g) = Ok th /\ q = (th ++ [g_reg g], g_bounds g).

(** ** Settings *)
Record setting (D : nat) (dim : dimension) (ws : list R) (wb : list bound) (sf : R) (sb : list bound) (a b : R) (nb : list bound) : Prop := {
  e_good : good D dim ws sf a b;
  e_sb : length sb = 1%nat;
  e_wb : length wb = length ws;
  e_nb : length nb = 2%nat;
  e_low : Forall (fun q => 0 < fst q) (sb ++ wb ++ nb);
  e_within : Forall2 within ((sf :: ws ++ [a; b]) ++ [0]) ((sb ++ wb) ++ nb ++ [between 0 0]) }.

Lemma within_pos x l : Forall2 within x l -> Forall (fun q : bound => 0 < fst q) l -> Forall (fun y => 0 < y) x.
Proof. induction 1 as [|y q x l [H _] _ IH]; intros F; [constructor|]. apply Forall_cons_iff in F as [F1 F2]. constructor; [lra|auto]. Qed.

Lemma setting_next D dim ws wb sf sb a b nb x : setting D dim ws wb sf sb a b nb ->
  Forall2 within x ((sb ++ wb) ++ nb ++ [between 0 0]) ->
  exists sf' ws' a' b', x = (sf' :: ws' ++ [a'; b']) ++ [0] /\ length ws' = length ws /\ setting D dim ws' wb sf' sb a' b' nb.
Proof.
  intros [[Hd Hl Hp Hs Ha Hb] L1 L2 L3 HF _] HX. pose proof HX as HX0.
  apply Forall2_app_inv_r in HX as (x1 & x2 & HX1 & HX2 & ->). apply Forall2_app_inv_r in HX1 as (xs & ws' & HX1 & HX1' & ->).
  apply Forall2_app_inv_r in HX2 as (xn & xr & HX2 & HX3 & ->).
  apply Forall_app in HF as [F1 F2]. apply Forall_app in F2 as [F2 F3].
  pose proof (within_pos _ _ HX1 F1) as P1. pose proof (within_pos _ _ HX1' F2) as P2. pose proof (within_pos _ _ HX2 F3) as P3.
  pose proof (Forall2_length HX1) as Q1. pose proof (Forall2_length HX1') as Q2. pose proof (Forall2_length HX2) as Q3.
  rewrite L1 in Q1. rewrite L3 in Q3. destruct xs as [|sf' [|? ?]]; try discriminate. destruct xn as [|a' [|b' [|? ?]]]; try discriminate.
  inversion HX3 as [|r q xr' l' [R1 R2] R3]; subst. inversion R3; subst. cbn in R1, R2. assert (r = 0) by lra. subst r.
  assert (EX : ([sf'] ++ ws') ++ [a'; b'] ++ [0] = (sf' :: ws' ++ [a'; b']) ++ [0]) by (cbn [app]; rewrite <- app_assoc; auto).
  exists sf', ws', a', b'. split; [auto|]. split; [congruence|].
  apply Forall_cons_iff in P1 as [P1 _]. apply Forall_cons_iff in P3 as [P3 P4]. apply Forall_cons_iff in P4 as [P4 _].
  constructor; auto; try congruence.
  - constructor; auto; try congruence; try (apply Rgt_not_eq; lra). lra.
  - apply Forall_app. split; auto. apply Forall_app. auto.
Qed.

Lemma mask_rows L mask (rows : list (list R)) : Forall (fun i => (i < L)%nat) mask -> Forall (fun r => length r = L) rows ->
  exists m, apply_mask rows mask = Ok m /\ length m = length rows /\ Forall (fun r => length r = length mask) m.
Proof.
  intros HM. induction 1 as [|r rows Hr _ (m & E & E1 & E2)]; [exists []; cbn; auto|]. cbn [apply_mask].
  rewrite (MaskProperties.take_ok r 0) by (rewrite Hr; apply Forall_forall; auto). cbn [bind]. rewrite E. cbn [bind].
  eexists. split; [reflexivity|]. cbn. split; [congruence|]. constructor; [apply map_length|auto].
Qed.

Lemma spread_pos t : 0 < spread t.
Proof. unfold spread. pose proof (pow2_ge_0 (std t)). lra. Qed.

Lemma mean_sub c l : l <> [] -> mean (map (fun t => t - c) l) = mean l - c.
Proof.
  intros H. unfold mean. rewrite map_length. assert (0 < INR (length l)) by (apply lt_0_INR; destruct l; [congruence|cbn; lia]).
  assert (E : sumR (map (fun t => t - c) l) = sumR l - INR (length l) * c).
  { clear. induction l as [|x l IH]; [cbn; ring|]. cbn [map sumR length]. rewrite IH, S_INR. ring. }
  rewrite E. field. lra.
Qed.

Lemma spread_scaled c t : t <> [] -> 1 / 1000 + PathModel.std (map (fun x => x - c) t) ^ 2 = spread t.
Proof.
  intros H. unfold spread. do 2 f_equal. change (PathModel.std (map (fun x => x - c) t)) with (std (map (fun x => x - c) t)).
  unfold std, var. rewrite (mean_sub c t H), map_map. do 2 f_equal. apply map_ext. intros x. f_equal. ring.
Qed.

Lemma start_setting kernel noise D t l : implemented kernel -> 0 < noise -> (1 <= D)%nat ->
  exists o dim w wb ws sf sb a b nb,
    kernel_setup kernel noise (spread t) D (length t) l = Some (o, [sq_kernel dim w wb sf sb; noise_kernel [a; b] nb]) /\
    format_vec w (width_count dim D) = Ok ws /\ setting D dim ws wb sf sb a b nb /\ start kernel noise D t = sf :: ws ++ [a; b] /\
    limits kernel noise D t = (sb ++ wb) ++ nb ++ [between 0 0] /\ o = negb (length t =? 1)%nat && negb (kernel =? "SQE_fixed")%string.
Proof.
  intros HK HN HD. pose proof (spread_pos t) as HS. unfold kernel_setup, limits, start. destruct (length t =? 1)%nat; cbn [orb negb andb].
  - do 10 eexists. split; [reflexivity|]. split; [reflexivity|]. split; [|split; [reflexivity|split; reflexivity]].
    constructor; try reflexivity.
    + constructor; try discriminate; cbn; auto; try lra; try (apply Rgt_not_eq; lra). constructor; [lra|auto].
    + repeat constructor; cbn; lra.
    + repeat constructor; cbn; lra.
  - destruct HK as [-> | [-> | ->]]; cbn [String.eqb Ascii.eqb Bool.eqb negb andb orb].
    + do 10 eexists. split; [reflexivity|]. split; [reflexivity|]. split; [|split; [reflexivity|split; reflexivity]].
      constructor; try reflexivity.
      * constructor; try discriminate; cbn; auto; try lra; try (apply Rgt_not_eq; lra). constructor; [lra|auto].
      * repeat constructor; cbn; lra.
      * repeat constructor; cbn; lra.
    + do 10 eexists. split; [reflexivity|]. split; [reflexivity|]. split; [|split; [reflexivity|split; reflexivity]].
      constructor; try reflexivity.
      * constructor; try discriminate; cbn; auto; try lra; try (apply Rgt_not_eq; lra). constructor; [lra|auto].
      * repeat constructor; cbn; lra.
      * repeat constructor; cbn; lra.
    + do 10 eexists. split; [reflexivity|]. split; [reflexivity|]. split; [|split; [reflexivity|split; [cbn [app]; rewrite <- app_assoc; reflexivity|reflexivity]]].
      assert (HR : forall n, Forall (fun x => 0 < x) (repeat (2 / 5) n)) by (intros n; induction n; cbn; constructor; auto; lra).
      assert (HB : forall n, Forall2 within (repeat (2 / 5) n) (repeat (between (1 / 100) 1) n)).
      { intros n; induction n; cbn; constructor; auto. split; cbn; lra. }
      assert (HL : forall n, Forall (fun q : bound => 0 < fst q) (repeat (between (1 / 100) 1) n)) by (intros n; induction n; cbn; constructor; auto; cbn; lra).
      constructor; try reflexivity.
      * constructor; try discriminate; auto; try (apply Rgt_not_eq; lra); [apply repeat_length|lra].
      * rewrite !repeat_length. reflexivity.
      * cbn [app]. constructor; [auto|]. apply Forall_app. split; [auto|]. repeat constructor; cbn; lra.
      * cbn [app]. constructor; [split; cbn; lra|]. rewrite <- app_assoc. apply Forall2_app; [auto|]. repeat constructor; cbn; lra.
Qed.

(** ** Training *)
Section Oracles.
Variables inv cho : matrix -> result matrix.
Variable cho_solve : matrix -> list R -> list R.
Hypothesis HO : oracles_ok inv cho.
Hypothesis HT : oracles_total inv cho.
Notation fit := (fit inv cho cho_solve).

Record fitted (D : nat) (m : list row) (dim : dimension) (ws : list R) (wb : list bound) (sf : R) (sb : list bound) (a b : R) (nb : list bound) (g : gp) : Prop := {
  f_kernels : g_kernels g = surr dim ws wb sf sb a b nb;
  f_nd : g_nd g = D;
  f_bounds : g_bounds g = (sb ++ wb) ++ nb ++ [between 0 0];
  f_grad : g_grad g = true;
  f_log : g_log g = false;
  f_fp : g_fp g = m;
  f_scale : g_scale g = false;
  f_target : length (g_target g) = (length m + length m * D)%nat;
  f_cinv_r : nr (g_cinv g) = (length m + length m * D)%nat;
  f_cinv_c : nc (g_cinv g) = (length m + length m * D)%nat }.

Lemma concat_rows (G : list (list R)) D : Forall (fun r => length r = D) G -> length (concat G) = (length G * D)%nat.
Proof. induction 1 as [|r G H _ IH]; cbn; auto. rewrite app_length. lia. Qed.

Lemma fit_ok D dim w wb sf sb a b nb ws m t G : format_vec w (width_count dim D) = Ok ws -> good D dim ws sf a b -> (1 <= D)%nat ->
  m <> [] -> rectangular m D -> length m = length t -> length G = length m -> Forall (fun r => length r = D) G ->
  exists g, fit m t G [sq_kernel dim w wb sf sb; noise_kernel [a; b] nb] = Ok g /\ fitted D m dim ws wb sf sb a b nb g /\ g_reg g = 0.
Proof.
  intros Hw Hg HD HN HR HL HG1 HG2. unfold MinSurrModel.fit, gp_init. rewrite HL, Nat.eqb_refl. cbn [negb is_some init_bounds].
  rewrite (rectangular_ncols m D HR HN). rewrite (surr_prepare _ _ _ _ _ _ _ _ _ _ ws (o_dim _ _ _ _ _ _ Hg) Hw (o_pos _ _ _ _ _ _ Hg)). cbn [bind fst snd].
  unfold update_data. cbn [g_nd]. rewrite (rectangular_ncols m D HR HN), Nat.eqb_refl. cbn [negb g_scale bind g_kernels g_reg g_grad].
  destruct (surr_posdef D dim ws wb sf sb a b nb m 0 Hg HD HN HR) as (K & EK & K1 & K2 & K3 & K4). rewrite EK. cbn [bind].
  destruct HT as [CI CC]. destruct (CI K (eq_sym K2) K3 K4) as [ci EI]. rewrite EI. cbn [bind]. destruct (o_inv _ _ HO _ _ EI) as [_ [I1 [I2 _]]].
  assert (LT : length (t ++ concat G) = nr K) by (rewrite app_length, (concat_rows G D HG2), K1, HG1, HL; auto).
  unfold update_lml. cbn [g_kernels g_nd g_reg g_fp g_target g_log g_grad g_cinv g_scale g_bounds g_scaling].
  rewrite surr_flat. cbn [bind]. unfold neg_lml.
  change ((sf :: ws ++ [a; b]) ++ [0]) with (sf :: (ws ++ [a; b]) ++ [0]). rewrite <- app_assoc, surr_write by auto. cbn [bind].
  replace (last (sf :: ws ++ [a; b] ++ [0]) 0) with 0.
  2: { replace (sf :: ws ++ [a; b] ++ [0]) with ((sf :: ws ++ [a; b]) ++ [0]) by (cbn [app]; rewrite <- app_assoc; auto). rewrite last_last. auto. }
  rewrite EK. cbn [bind]. destruct (CC K (eq_sym K2) K3 K4) as [L EL]. rewrite EL. cbn [bind].
  unfold dot_vec. rewrite I2, LT, Nat.eqb_refl. cbn [bind]. rewrite tabulate_length, I1, Nat.eqb_refl. cbn [negb bind snd fst].
  eexists. split; [reflexivity|]. split; [constructor; cbn; auto; congruence|reflexivity].
Qed.

Lemma removelast_snoc (x : list R) r : removelast (x ++ [r]) = x.
Proof. rewrite removelast_app by discriminate. apply app_nil_r. Qed.

Lemma opt_ok D m dim ws wb sf sb a b nb g mini sf' ws' a' b' r f : fitted D m dim ws wb sf sb a b nb g -> (1 <= D)%nat -> m <> [] -> rectangular m D ->
  mini ((sf :: ws ++ [a; b]) ++ [g_reg g]) (g_bounds g) = ((sf' :: ws' ++ [a'; b']) ++ [r], f) ->
  length ws' = length ws -> good D dim ws' sf' a' b' ->
  exists g', optimize_hyperparameters inv g mini = Ok g' /\ fitted D m dim ws' wb sf' sb a' b' nb g' /\ g_reg g' = r.
Proof.
  intros [F1 F2 F3 F4 F5 F6 F7 F8 F9 F10] HD HN HR EM HL Hg. unfold optimize_hyperparameters. rewrite F1, surr_flat. cbn [bind]. rewrite EM.
  rewrite removelast_snoc, last_last.
  replace (sf' :: ws' ++ [a'; b']) with (sf' :: ws' ++ [a'; b'] ++ []) by (rewrite app_nil_r; auto). rewrite surr_write by auto. cbn [bind].
  rewrite F4, F5, F6. destruct (surr_posdef D dim ws' wb sf' sb a' b' nb m r Hg HD HN HR) as (K & EK & K1 & K2 & K3 & K4). rewrite EK. cbn [bind].
  destruct HT as [CI _]. destruct (CI K (eq_sym K2) K3 K4) as [ci EI]. rewrite EI. cbn [bind]. destruct (o_inv _ _ HO _ _ EI) as [_ [I1 [I2 _]]].
  eexists. split; [reflexivity|]. split; [constructor; cbn; auto; congruence|reflexivity].
Qed.

Notation train_surrogate := (train_surrogate inv cho cho_solve).
Notation passes := (passes inv cho cho_solve).

(** What a run keeps from one pass to the next. *)
Definition agree (D : nat) (s : option (list R * list bound)) (st : surrogate) : Prop :=
  match r_success st, s with
  | None, None => True
  | Some ks, Some q => exists dim ws wb sf sb a b nb, ks = surr dim ws wb sf sb a b nb /\ setting D dim ws wb sf sb a b nb /\
      q = ((sf :: ws ++ [a; b]) ++ [0], (sb ++ wb) ++ nb ++ [between 0 0])
  | _, _ => False
  end.

Lemma format_setting D dim ws wb sf sb a b nb : setting D dim ws wb sf sb a b nb -> format_vec (Arr ws) (width_count dim D) = Ok ws.
Proof. intros [[_ H _ _ _ _] _ _ _ _ _]. cbn. rewrite H, Nat.eqb_refl. auto. Qed.

Lemma setting_positive D dim ws wb sf sb a b nb : setting D dim ws wb sf sb a b nb -> Forall (fun x => 0 < x) (sf :: ws ++ [a; b]).
Proof.
  intros [_ _ _ _ HL HW]. rewrite app_assoc in HW. apply Forall2_app_inv_l in HW as (b1 & b2 & H1 & H2 & E).
  inversion H2 as [|? ? ? ? _ H3]; subst. inversion H3; subst. apply app_inj_tail in E as [<- _].
  apply (within_pos _ _ H1). rewrite <- app_assoc. auto.
Qed.

Lemma train_ok L mask kernel noise d mini st s : implemented kernel -> 0 < noise -> valid L mask d -> respects mini -> agree (length mask) s st ->
  let r := pass kernel noise (length mask) (d_targets d) mini s in
  exists st' g, train_surrogate mini kernel noise d st = Ok st' /\ agree (length mask) (snd r) st' /\ r_gp st' = Some g /\
    has g (fst r) /\ Forall2 within (fst (fst r)) (snd (fst r)) /\ (exists dim ws wb sf sb a b nb, fitted (length mask) (g_fp g) dim ws wb sf sb a b nb g /\ setting (length mask) dim ws wb sf sb a b nb) /\
    apply_mask (d_train d) mask = Ok (g_fp g) /\ g_reg g = 0 /\ maxR (d_targets d) = Ok (r_prior st').
Proof.
  intros HK HN [V0 V1 V2 V3 V4 V5 V6 V7] HM HP. set (D := length mask) in *. assert (HD : (1 <= D)%nat) by (unfold D; destruct mask; [congruence|cbn; lia]).
  unfold MinSurrModel.train_surrogate. destruct (maxR (d_targets d)) as [u|] eqn:EU; [|destruct (d_targets d); [congruence|discriminate]]. cbn [bind].
  rewrite (spread_scaled u _ V3), V0. fold D.
  destruct (start_setting kernel noise D (d_targets d) (r_locals st) HK HN HD) as (o & dim & w & wb & ws & sf & sb & a & b & nb & E1 & E2 & E3 & E4 & E5 & E6).
  rewrite E1. destruct (mask_rows L mask (d_train d) V2 V6) as (m & M1 & M2 & M3). destruct (mask_rows L mask (d_gradients d) V2 V7) as (G & G1 & G2 & G3).
  rewrite M1. cbn [bind]. rewrite G1. cbn [bind].
  assert (Hm : m <> []) by (intros ->; destruct (d_targets d); [congruence|cbn in *; lia]).
  assert (HX : exists dim' w' wb' ws' sf' sb' a' b' nb',
     match r_success st with Some k => k | None => [sq_kernel dim w wb sf sb; noise_kernel [a; b] nb] end = [sq_kernel dim' w' wb' sf' sb'; noise_kernel [a'; b'] nb'] /\
     format_vec w' (width_count dim' D) = Ok ws' /\ setting D dim' ws' wb' sf' sb' a' b' nb' /\
     match s with Some q => q | None => (start kernel noise D (d_targets d) ++ [0], limits kernel noise D (d_targets d)) end =
       ((sf' :: ws' ++ [a'; b']) ++ [0], (sb' ++ wb') ++ nb' ++ [between 0 0]) /\
     (forall ks, r_success st = Some ks -> ks = surr dim' ws' wb' sf' sb' a' b' nb')).
  { unfold agree in HP. destruct (r_success st) as [ks|] eqn:ES, s as [q|]; try contradiction.
    - destruct HP as (dim' & ws' & wb' & sf' & sb' & a' & b' & nb' & -> & HS & EQ). exists dim', (Arr ws'), wb', ws', sf', sb', a', b', nb'.
      split; [reflexivity|]. split; [eapply format_setting; eauto|]. split; [auto|]. split; [auto|]. congruence.
    - exists dim, w, wb, ws, sf, sb, a, b, nb. split; [auto|]. split; [auto|]. split; [auto|]. split; [|discriminate]. rewrite E4, E5. auto. }
  destruct HX as (dim' & w' & wb' & ws' & sf' & sb' & a' & b' & nb' & -> & E2' & E3' & EQ & HS). clear E1 E2 E3 E4 E5. clear dim w wb ws sf sb a b nb.
  rename dim' into dim, w' into w, wb' into wb, ws' into ws, sf' into sf, sb' into sb, a' into a, b' into b, nb' into nb, E2' into E2, E3' into E3.
  unfold pass. rewrite EQ. cbv zeta. clear EQ.
  destruct (fit_ok D dim w wb sf sb a b nb ws m (map (fun t => t - u) (d_targets d)) G E2 (e_good _ _ _ _ _ _ _ _ _ E3) HD Hm) as (g & EG & FG & RG); auto.
  { rewrite map_length. congruence. } { congruence. }
  pose proof FG as [F1 F2 F3 F4 F5 F6 _ _ _ _].
  rewrite EG. cbn [bind].
  replace (o && (5 <? length (d_targets d))%nat)%bool with (negb (kernel =? "SQE_fixed")%string && (6 <=? length (d_targets d))%nat)%bool.
  2: { rewrite E6. change (5 <? length (d_targets d))%nat with (6 <=? length (d_targets d))%nat.
       destruct (Nat.leb_spec 6 (length (d_targets d))) as [Q|Q]; [|rewrite !andb_false_r; auto].
       destruct (Nat.eqb_spec (length (d_targets d)) 1); [lia|]. cbn. rewrite !andb_true_r. auto. }
  set (opt := (negb (kernel =? "SQE_fixed")%string && (6 <=? length (d_targets d))%nat)%bool). destruct opt.
  - pose proof (HM ((sf :: ws ++ [a; b]) ++ [0]) ((sb ++ wb) ++ nb ++ [between 0 0]) (e_within _ _ _ _ _ _ _ _ _ E3)) as HW.
    destruct (setting_next D dim ws wb sf sb a b nb _ E3 HW) as (sf' & ws' & a' & b' & EX & LX & E3').
    destruct (opt_ok D m dim ws wb sf sb a b nb g (fun th q => fst (mini th q)) sf' ws' a' b' 0 (snd (fst (mini ((sf :: ws ++ [a; b]) ++ [0]) ((sb ++ wb) ++ nb ++ [between 0 0])))) FG HD Hm M3) as (g' & EO & FG' & RG'); auto.
    { rewrite F3, RG, <- EX. apply surjective_pairing. }
    { apply (e_good _ _ _ _ _ _ _ _ _ E3'). }
    rewrite EO. cbn [bind]. rewrite F1, surr_flat. cbn [bind]. rewrite F3, RG.
    destruct (mini ((sf :: ws ++ [a; b]) ++ [0]) ((sb ++ wb) ++ nb ++ [between 0 0])) as [[x f] success] eqn:EM. cbn [fst snd] in *. subst x.
    pose proof FG' as [F1' F2' F3' F4' F5' F6' _ _ _ _].
    eexists. exists g'. split; [reflexivity|]. cbn [fst snd r_gp r_prior r_success]. split.
    { unfold agree in *. cbn [r_success]. rewrite F1'. destruct (r_success st), s; try contradiction; [|destruct success; [|exact I]];
        exists dim, ws', wb, sf', sb, a', b', nb; auto. }
    split; [auto|]. split; [exists (sf' :: ws' ++ [a'; b']); rewrite F1', surr_flat, RG', F3'; auto|].
    split; [auto|]. split; [exists dim, ws', wb, sf', sb, a', b', nb; rewrite F6'; auto|].
    split; [congruence|]. auto.
  - eexists. exists g. split; [reflexivity|]. cbn [fst snd r_gp r_prior r_success]. split.
    { unfold agree in *. cbn [r_success]. rewrite F1. destruct (r_success st) as [ks|], s; try contradiction; auto.
      destruct HP as (dim' & ws' & wb' & sf' & sb' & a' & b' & nb' & EK & HS' & EQ). rewrite (HS ks eq_refl) in EK. rewrite EK. repeat eexists; eauto; apply HS'. }
    split; [auto|]. split; [exists (sf :: ws ++ [a; b]); rewrite F1, surr_flat, RG, F3; auto|].
    split; [apply (e_within _ _ _ _ _ _ _ _ _ E3)|]. split; [exists dim, ws, wb, sf, sb, a, b, nb; rewrite F6; auto|].
    split; [congruence|]. auto.
Qed.

Lemma passes_ok L mask kernel noise : implemented kernel -> 0 < noise -> forall l d mini st s q,
  Forall (fun p => valid L mask (fst p) /\ respects (snd p)) (l ++ [(d, mini)]) -> agree (length mask) s st ->
  let r := run_passes kernel noise (length mask) (l ++ [(d, mini)]) q s in
  exists st' g, passes kernel noise (l ++ [(d, mini)]) st = Ok st' /\ agree (length mask) (snd r) st' /\ r_gp st' = Some g /\
    has g (fst r) /\ Forall2 within (fst (fst r)) (snd (fst r)) /\ (exists dim ws wb sf sb a b nb, fitted (length mask) (g_fp g) dim ws wb sf sb a b nb g /\ setting (length mask) dim ws wb sf sb a b nb) /\
    apply_mask (d_train d) mask = Ok (g_fp g) /\ g_reg g = 0 /\ maxR (d_targets d) = Ok (r_prior st').
Proof.
  intros HK HN l. induction l as [|[d0 m0] l IH]; intros d mini st s q HF HA.
  - apply Forall_cons_iff in HF as [[H1 H2] _]. cbn [app MinSurrModel.passes run_passes].
    destruct (train_ok L mask kernel noise d mini st s HK HN H1 H2 HA) as (st' & g & E & R). rewrite E. cbn [bind]. eauto 12.
  - cbn [app] in HF. apply Forall_cons_iff in HF as [[H1 H2] HF]. cbn [app MinSurrModel.passes run_passes].
    destruct (train_ok L mask kernel noise d0 m0 st s HK HN H1 H2 HA) as (st' & g & E & HA' & _). rewrite E. cbn [bind].
    apply IH; auto.
Qed.
End Oracles.

(** ** Theorems *)
Theorem surrogate_always_trained : forall inv cho cho_solve L mask kernel noise l d mini,
  oracles_ok inv cho -> oracles_total inv cho -> implemented kernel -> 0 < noise ->
  Forall (fun p => valid L mask (fst p) /\ respects (snd p)) (l ++ [(d, mini)]) ->
  exists st g th, passes inv cho cho_solve kernel noise (l ++ [(d, mini)]) no_surrogate = Ok st /\ r_gp st = Some g /\
    kdicts2list (g_kernels g) (g_nd g) = Ok th /\ Forall (fun x => 0 < x) th /\ Forall2 within (th ++ [0]) (g_bounds g) /\ g_reg g = 0 /\
    apply_mask (d_train d) mask = Ok (g_fp g) /\ In (r_prior st) (d_targets d) /\ Forall (fun t => t <= r_prior st) (d_targets d).
Proof.
  intros inv cho cho_solve L mask kernel noise l d mini HO HT HK HN HF.
  destruct (passes_ok inv cho cho_solve HO HT L mask kernel noise HK HN l d mini no_surrogate None ([], []) HF I)
    as (st & g & E & _ & EG & (th & ET & EQ) & HW & (dim & ws & wb & sf & sb & a & b & nb & FG & HS) & EM & ER & EU).
  rewrite EQ in HW. cbn [fst snd] in HW. rewrite ER in HW. rewrite (f_kernels _ _ _ _ _ _ _ _ _ _ _ FG), surr_flat in ET. injection ET as <-. pose proof (setting_positive _ _ _ _ _ _ _ _ _ HS) as HP.
  assert (ET : kdicts2list (g_kernels g) (g_nd g) = Ok (sf :: ws ++ [a; b])) by (rewrite (f_kernels _ _ _ _ _ _ _ _ _ _ _ FG); apply surr_flat).
  exists st, g, (sf :: ws ++ [a; b]). destruct (PathProperties.maxR_spec _ _ EU) as [U1 U2]. repeat (split; [assumption|]). apply Forall_forall. auto.
Qed.

Theorem surrogate_hyperparameters : forall inv cho cho_solve L mask kernel noise l d mini,
  oracles_ok inv cho -> oracles_total inv cho -> implemented kernel -> 0 < noise ->
  Forall (fun p => valid L mask (fst p) /\ respects (snd p)) (l ++ [(d, mini)]) ->
  exists st g, passes inv cho cho_solve kernel noise (l ++ [(d, mini)]) no_surrogate = Ok st /\ r_gp st = Some g /\
    has g (fst (run_passes kernel noise (length mask) (l ++ [(d, mini)]) ([], []) None)).
Proof.
  intros inv cho cho_solve L mask kernel noise l d mini HO HT HK HN HF.
  destruct (passes_ok inv cho cho_solve HO HT L mask kernel noise HK HN l d mini no_surrogate None ([], []) HF I) as (st & g & E & _ & EG & H & _). eauto.
Qed.

(** *** The fixed kernel *)
Theorem fixed_kernel_never_changes : forall inv cho cho_solve L mask noise l d mini,
  oracles_ok inv cho -> oracles_total inv cho -> 0 < noise ->
  Forall (fun p => valid L mask (fst p) /\ respects (snd p)) (l ++ [(d, mini)]) -> (2 <= length (d_targets d))%nat ->
  exists st g, passes inv cho cho_solve "SQE_fixed" noise (l ++ [(d, mini)]) no_surrogate = Ok st /\ r_gp st = Some g /\
    kdicts2list (g_kernels g) (g_nd g) = Ok [1; 2 / 5; noise * (4 / 25); noise] /\ g_reg g = 0.
Proof.
  intros inv cho cho_solve L mask noise l d mini HO HT HN HF H2.
  destruct (surrogate_hyperparameters inv cho cho_solve L mask "SQE_fixed" noise l d mini HO HT (or_introl eq_refl) HN HF) as (st & g & E & EG & (th & ET & EQ)).
  exists st, g. split; [auto|]. split; [auto|].
  assert (RP : forall q, fst (run_passes "SQE_fixed" noise (length mask) (l ++ [(d, mini)]) q None) =
    (start "SQE_fixed" noise (length mask) (d_targets d) ++ [0], limits "SQE_fixed" noise (length mask) (d_targets d))).
  { clear. induction l as [|[d0 m0] l IH]; intros q; [reflexivity|]. cbn [app run_passes]. unfold pass. cbn [String.eqb Ascii.eqb Bool.eqb negb andb fst snd]. apply IH. }
  rewrite RP in EQ. injection EQ as E1 _. apply app_inj_tail in E1 as [E1 E2]. split; [|auto]. rewrite ET, <- E1. unfold start.
  destruct (Nat.eqb_spec (length (d_targets d)) 1); [lia|]. reflexivity.
Qed.

(** *** A shift of the energies *)
Definition shifted (c : R) (d : data) : data := Data (d_train d) (map (fun t => t + c) (d_targets d)) (d_gradients d) (d_mask d).
Definition with_prior (c : R) (st : surrogate) : surrogate := Surrogate (r_locals st) (r_success st) (r_gp st) (r_prior st + c).

Lemma train_shift inv cho cho_solve mini kernel noise d st c :
  train_surrogate inv cho cho_solve mini kernel noise (shifted c d) (with_prior c st) =
  bind (train_surrogate inv cho cho_solve mini kernel noise d st) (fun st' => Ok (with_prior c st')).
Proof.
  unfold train_surrogate, shifted. cbn [d_train d_targets d_gradients d_mask with_prior r_locals r_success]. rewrite PathProperties.maxR_shift.
  destruct (maxR (d_targets d)) as [u|]; [|reflexivity]. cbn [bind].
  rewrite map_map, (map_ext _ (fun t => t - u)) by (intros; ring). rewrite map_length.
  destruct (kernel_setup _ _ _ _ _ _) as [[o ks]|]; [|reflexivity].
  destruct (apply_mask (d_train d) (d_mask d)) as [m|]; [|reflexivity]. cbn [bind]. destruct (apply_mask (d_gradients d) (d_mask d)) as [G|]; [|reflexivity]. cbn [bind].
  destruct (fit _ _ _ _ _ _ _) as [g|]; [|reflexivity]. cbn [bind].
  destruct (o && _)%bool; [|reflexivity]. destruct (optimize_hyperparameters _ _ _) as [g'|]; [|reflexivity]. cbn [bind].
  destruct (kdicts2list _ _) as [th|]; reflexivity.
Qed.

Theorem surrogate_shift_invariant : forall inv cho cho_solve kernel noise c l st,
  passes inv cho cho_solve kernel noise (map (fun p => (shifted c (fst p), snd p)) l) (with_prior c st) =
  bind (passes inv cho cho_solve kernel noise l st) (fun st' => Ok (with_prior c st')).
Proof.
  intros inv cho cho_solve kernel noise c l. induction l as [|[d mini] l IH]; intros st; [reflexivity|].
  cbn [map passes fst snd]. rewrite train_shift. destruct (train_surrogate _ _ _ _ _ _ _ st) as [st'|]; [|reflexivity]. cbn [bind]. apply IH.
Qed.

(** *** Kernels of the documentation *)
Theorem unknown_kernel_stops : forall inv cho cho_solve kernel noise d mini, ~ implemented kernel -> (2 <= length (d_targets d))%nat ->
  train_surrogate inv cho cho_solve mini kernel noise d no_surrogate = Err NameError.
Proof.
  intros inv cho cho_solve kernel noise d mini HK H2. unfold train_surrogate. destruct (d_targets d) as [|t ts] eqn:ET; [cbn in H2; lia|].
  cbn [maxR bind]. unfold kernel_setup.
  destruct (String.eqb_spec kernel "SQE_fixed"); [exfalso; apply HK; cbv [implemented]; auto|].
  destruct (String.eqb_spec kernel "SQE"); [exfalso; apply HK; cbv [implemented]; auto|].
  destruct (String.eqb_spec kernel "ARD_SQE"); [exfalso; apply HK; cbv [implemented]; auto|].
  destruct (Nat.eqb_spec (length (t :: ts)) 1); [cbn in *; lia|]. reflexivity.
Qed.

Theorem documented_sqe_opt_refuted : ~ forall inv cho cho_solve mini noise d, (2 <= length (d_targets d))%nat ->
  train_surrogate inv cho cho_solve mini "SQE_opt" noise d no_surrogate <> Err NameError.
Proof.
  intros H. apply (H (fun m => Ok m) (fun m => Ok m) (fun _ v => v) (fun th _ => (th, 0, true)) 1 (Data [[0]; [1]] [0; 1] [[0]; [0]] [0%nat])); [cbn; lia|].
  apply unknown_kernel_stops; [|cbn; lia]. intros [H'|[H'|H']]; discriminate.
Qed.

(** Minimizers that go to one end of the bounds. *)
Definition to_lower (success : bool) (th : list R) (b : list bound) : (list R * R) * bool := (map fst b, 0, success).
Definition to_upper (success : bool) (th : list R) (b : list bound) : (list R * R) * bool :=
  (map (fun q : bound => match snd q with Some h => h | None => fst q end) b, 0, success).
Lemma lower_respects s : respects (to_lower s).
Proof. intros th b H. cbn. induction H as [|x q th b [H1 H2] _ IH]; cbn; constructor; auto. split; [lra|]. destruct (snd q); lra. Qed.
Lemma upper_respects s : respects (to_upper s).
Proof. intros th b H. cbn. induction H as [|x q th b [H1 H2] _ IH]; cbn; constructor; auto. split; destruct (snd q); lra. Qed.

(** The kernel documented as "SQE (fixed hyperparamters)" is optimised. *)
Theorem documented_fixed_sqe_refuted : forall inv cho cho_solve L mask noise d,
  oracles_ok inv cho -> oracles_total inv cho -> 0 < noise -> valid L mask d -> (6 <= length (d_targets d))%nat ->
  exists mini st g, respects mini /\ passes inv cho cho_solve "SQE" noise [(d, mini)] no_surrogate = Ok st /\ r_gp st = Some g /\
    kdicts2list (g_kernels g) (g_nd g) = Ok [spread (d_targets d); 1; noise * 10; noise * 10] /\
    start "SQE" noise (length mask) (d_targets d) = [spread (d_targets d); 2 / 5; noise; noise * (4 / 25)].
Proof.
  intros inv cho cho_solve L mask noise d HO HT HN HV H6.
  assert (HF : Forall (fun p => valid L mask (fst p) /\ respects (snd p)) ([] ++ [(d, to_upper true)])) by (constructor; [split; [auto|apply upper_respects]|constructor]).
  destruct (surrogate_hyperparameters inv cho cho_solve L mask "SQE" noise [] d (to_upper true) HO HT (or_intror (or_introl eq_refl)) HN HF) as (st & g & E & EG & (th & ET & EQ)).
  exists (to_upper true), st, g. split; [apply upper_respects|]. split; [auto|]. split; [auto|].
  cbn [app run_passes] in EQ. unfold pass in EQ. destruct (Nat.leb_spec 6 (length (d_targets d))); [|lia].
  assert (N1 : (length (d_targets d) =? 1)%nat = false) by (apply Nat.eqb_neq; lia).
  unfold limits, start in *. rewrite N1 in *. cbn in EQ. cbn. split; [|auto]. injection EQ as EQ _.
  change (?a :: ?b :: ?c :: ?e :: [0]) with ([a; b; c; e] ++ [0]) in EQ. apply app_inj_tail in EQ as [EQ _]. rewrite ET, <- EQ. auto.
Qed.

(** *** A failed optimisation *)
(** "Using the last optimized hyperparamters" is printed, but the model uses those of the
    failed one. *)
Theorem failed_optimisation_refuted : forall inv cho cho_solve L mask noise d,
  oracles_ok inv cho -> oracles_total inv cho -> 0 < noise -> valid L mask d -> (6 <= length (d_targets d))%nat ->
  exists good_one failing st1 st2 g1 g2, respects good_one /\ respects failing /\
    (forall th b, snd (good_one th b) = true) /\ (forall th b, snd (failing th b) = false) /\
    passes inv cho cho_solve "SQE" noise [(d, good_one)] no_surrogate = Ok st1 /\ r_gp st1 = Some g1 /\
    kdicts2list (g_kernels g1) (g_nd g1) = Ok [spread (d_targets d); 1 / 100; noise / 5; noise / 5 * (4 / 25)] /\
    passes inv cho cho_solve "SQE" noise [(d, good_one); (d, failing)] no_surrogate = Ok st2 /\ r_gp st2 = Some g2 /\
    kdicts2list (g_kernels g2) (g_nd g2) = Ok [spread (d_targets d); 1; noise * 10; noise * 10].
Proof.
  intros inv cho cho_solve L mask noise d HO HT HN HV H6.
  assert (F1 : Forall (fun p => valid L mask (fst p) /\ respects (snd p)) ([] ++ [(d, to_lower true)])) by (constructor; [split; [auto|apply lower_respects]|constructor]).
  assert (F2 : Forall (fun p => valid L mask (fst p) /\ respects (snd p)) ([(d, to_lower true)] ++ [(d, to_upper false)])).
  { constructor; [split; [auto|apply lower_respects]|]. constructor; [split; [auto|apply upper_respects]|constructor]. }
  pose proof (or_intror (or_introl eq_refl) : implemented "SQE") as HK.
  destruct (surrogate_hyperparameters inv cho cho_solve L mask "SQE" noise _ _ _ HO HT HK HN F1) as (st1 & g1 & E1 & EG1 & (th1 & ET1 & EQ1)).
  destruct (surrogate_hyperparameters inv cho cho_solve L mask "SQE" noise _ _ _ HO HT HK HN F2) as (st2 & g2 & E2 & EG2 & (th2 & ET2 & EQ2)).
  exists (to_lower true), (to_upper false), st1, st2, g1, g2. split; [apply lower_respects|]. split; [apply upper_respects|].
  split; [auto|]. split; [auto|]. split; [auto|]. split; [auto|].
  assert (N1 : (length (d_targets d) =? 1)%nat = false) by (apply Nat.eqb_neq; lia).
  assert (N6 : (6 <=? length (d_targets d))%nat = true) by (apply Nat.leb_le; auto).
  cbn [app run_passes] in EQ1, EQ2. unfold pass, limits, start in EQ1, EQ2. rewrite N1, N6 in *. cbn in EQ1, EQ2.
  injection EQ1 as EQ1 _. injection EQ2 as EQ2 _.
  change (?a :: ?b :: ?c :: ?e :: [0]) with ([a; b; c; e] ++ [0]) in EQ1. change (?a :: ?b :: ?c :: ?e :: [0]) with ([a; b; c; e] ++ [0]) in EQ2.
  apply app_inj_tail in EQ1 as [EQ1 _]. apply app_inj_tail in EQ2 as [EQ2 _].
  split; [rewrite ET1, <- EQ1; auto|]. split; [auto|]. split; [auto|]. rewrite ET2, <- EQ2. auto.
Qed.

(** Six structures with two coordinates, the second one free. *)
Definition six : data := Data [[0; 0]; [0; 1]; [0; 2]; [0; 3]; [0; 4]; [0; 5]] [0; 1; 2; 3; 4; 5] [[0; 1]; [0; 1]; [0; 1]; [0; 1]; [0; 1]; [0; 1]] [1%nat].
Example six_valid : valid 2 [1%nat] six.
Proof. constructor; try reflexivity; try discriminate; repeat constructor. Qed.
Example six_passes : Forall (fun p => valid 2 [1%nat] (fst p) /\ respects (snd p)) ([(six, to_lower true)] ++ [(six, to_upper false)]).
Proof. constructor; [split; [apply six_valid|apply lower_respects]|]. constructor; [split; [apply six_valid|apply upper_respects]|constructor]. Qed.
Example shifted_six : d_targets (shifted 7 six) = [0 + 7; 1 + 7; 2 + 7; 3 + 7; 4 + 7; 5 + 7].
Proof. reflexivity. Qed.

Print Assumptions surrogate_always_trained.
Print Assumptions surrogate_hyperparameters.
Print Assumptions fixed_kernel_never_changes.
Print Assumptions surrogate_shift_invariant.
Print Assumptions unknown_kernel_stops.
Print Assumptions documented_sqe_opt_refuted.
Print Assumptions documented_fixed_sqe_refuted.
Print Assumptions failed_optimisation_refuted.
