(** Gaussian processes trained on values and gradients. *)
From Coq Require Import Reals Lra Lia List Arith Bool.
From Coquelicot Require Import Coquelicot.
From Verif Require Import Base BaseFacts RBase LinAlg PSD LogDet KernModel KernProofs KernSetupProofs KernDefProofs KernScaleProofs
  KernEntryProofs KernProperties GPModel GPProofs GPMoreProofs GradSpec GradProofs GradPSD GradKernProofs.
From Verif Require PrepModel PrepProofs.
From Coq Require Import List.
Import ListNotations.
Open Scope R_scope.

(** ** The covariance of one test point with the training data *)
Definition ktest (ks : list kdict) (log_scale : bool) (fp : list row) (x : row) (q : nat) : R :=
  match get_covariance ks log_scale [x] (Some fp) None true with Ok k => at_ k 0 q | Err _ => 0 end.

Section Jets.
Variables (D : nat) (ks : list kdict) (log_scale : bool) (fp : list row).
Hypothesis HE : Forall (evaluable D) ks.
Hypothesis HS : Forall (sensible log_scale) ks.
Hypothesis HK : Forall smooth ks.
Hypothesis HM : Forall (fun k => k_mult k = false) ks.
Hypothesis HN0 : ks <> [].
Hypothesis HN : fp <> [].
Hypothesis HR : rectangular fp D.
Local Notation n := (length fp).

Lemma ktest_cov x : length x = D -> exists C, get_covariance ks log_scale [x] (Some fp) None true = Ok C /\
  gradient_cross_covariance (kappa ks log_scale) D [x] fp C.
Proof. intros Hx. apply covariance_gradx; auto; [discriminate|repeat constructor; auto]. Qed.

Lemma ktest_value x j : length x = D -> (j < n)%nat -> ktest ks log_scale fp x j = kappa ks log_scale x (nth j fp []).
Proof.
  intros Hx Hj. destruct (ktest_cov x Hx) as [C [EC [_ _ G _]]]. unfold ktest. rewrite EC. rewrite G by (cbn; auto). auto.
Qed.

Lemma ktest_deriv x j b : length x = D -> (j < n)%nat -> (b < D)%nat ->
  partial (fun y => kappa ks log_scale x y) b (nth j fp []) (ktest ks log_scale fp x (n + j * D + b)).
Proof.
  intros Hx Hj Hb. destruct (ktest_cov x Hx) as [C [EC [_ _ _ G]]]. unfold ktest. rewrite EC.
  apply (G 0%nat j b); cbn; auto.
Qed.

Lemma partial_unique f d x u v : partial f d x u -> partial f d x v -> u = v.
Proof. unfold partial. apply uniqueness_limite. Qed.

Lemma index_cases q : (q < n + n * D)%nat -> (q < n)%nat \/ exists j b, (j < n)%nat /\ (b < D)%nat /\ q = (n + j * D + b)%nat.
Proof.
  intros Hq. destruct (Nat.lt_ge_cases q n); [auto|]. right. assert (D <> 0)%nat by nia.
  exists ((q - n) / D)%nat, ((q - n) mod D)%nat. split; [apply Nat.div_lt_upper_bound; nia|].
  split; [apply Nat.mod_upper_bound; auto|]. pose proof (Nat.div_mod (q - n) D). nia.
Qed.

(** Row i of the training covariance is the test covariance at point i; the rows of
    the derivatives are its derivatives. *)
Lemma ktest_jets K : get_covariance ks log_scale fp None None true = Ok K ->
  forall q, (q < n + n * D)%nat -> forall i, (i < n)%nat ->
  ktest ks log_scale fp (nth i fp []) q = at_ K i q /\
  forall a, (a < D)%nat -> partial (fun x => ktest ks log_scale fp x q) a (nth i fp []) (at_ K (n + i * D + a) q).
Proof.
  intros EK q Hq i Hi.
  destruct (covariance_grad D ks log_scale fp HE HS HK HM HN0 HN HR) as [K0 [EK0 G]]. rewrite EK in EK0. injection EK0 as <-.
  destruct G as [_ _ G3 G4 G5 G6]. pose proof (nth_rect D fp HR i Hi) as Li.
  destruct (index_cases q Hq) as [Hv|[j [b [Hj [Hb ->]]]]].
  - split.
    + rewrite ktest_value by auto. rewrite G3 by auto. auto.
    + intros a Ha. apply (partial_ext (fun x => kappa ks log_scale x (nth q fp []))); [lia| |apply G5; auto].
      intros z Hz. rewrite ktest_value; auto. lia.
  - split.
    + apply (partial_unique (fun y => kappa ks log_scale (nth i fp []) y) b (nth j fp [])); [apply ktest_deriv; auto|apply G4; auto].
    + intros a Ha. destruct (G6 i j a b Hi Hj Ha Hb) as [g [G7 G8]].
      apply (partial_ext g); [lia| |exact G8]. intros z Hz.
      apply (partial_unique (fun y => kappa ks log_scale z y) b (nth j fp [])); [apply G7; auto|apply ktest_deriv; auto; lia].
Qed.
End Jets.

Lemma partial_Sum N (F : nat -> row -> R) d x V : (forall q, (q < N)%nat -> partial (F q) d x (V q)) ->
  partial (fun z => Sum N (fun q => F q z)) d x (Sum N V).
Proof.
  induction N as [|N IH]; intros H; cbn [Sum]; [apply partial_const|].
  apply (partial_plus (fun z => Sum N (fun q => F q z)) (F N)); [apply IH; intros; apply H; lia|apply H; lia].
Qed.

(** ** Training *)
Section Init.
Variable inv cho : matrix -> result matrix.
Variable cho_solve : matrix -> list R -> list R.
Hypothesis Hinv : sound_inv inv.

(** What update_data stores, with and without scaling. *)
Definition grad_data (sdata : bool) (fp : list row) (tgt : list R) (G : list row) :
  option PrepModel.scale_data * list row * list R :=
  if sdata then let '(sd, fp', t') := scale_train fp tgt in (Some sd, fp', t' ++ concat (scale_gradients sd G))
  else (None, fp, tgt ++ concat G).

Lemma gp_init_grad fp tgt G ks reg rb sopt sdata s D :
  gp_init inv cho cho_solve fp tgt ks (Some G) reg rb sopt sdata = Ok s ->
  Forall (usable D) ks -> ks <> [] -> (1 <= D)%nat -> fp <> [] -> rectangular fp D ->
  exists ks' b K, prepare_kernels ks (init_bounds rb true) true D = Ok (ks', b) /\
    Forall (evaluable D) ks' /\ ks' <> [] /\
    g_kernels s = map boxed ks' /\ g_log s = sopt /\ g_scale s = sdata /\ g_reg s = reg /\ g_grad s = true /\
    (g_scaling s, g_fp s, g_target s) = grad_data sdata fp tgt G /\ length fp = length tgt /\
    get_covariance ks' sopt (g_fp s) None (Some reg) true = Ok K /\ nr K = nc K /\ length (g_target s) = nr K /\
    nr (g_cinv s) = nr K /\ nc (g_cinv s) = nr K /\ inverse (nr K) (at_ K) (at_ (g_cinv s)).
Proof.
  intros H HU HK HD HN HR. unfold gp_init in H.
  destruct (Nat.eqb_spec (length fp) (length tgt)) as [HL|]; [|discriminate]. cbn [negb] in H. cbv zeta in H.
  cbn [is_some] in H. rewrite (rectangular_ncols fp D HR HN) in H.
  destruct (prepare_kernels ks (init_bounds rb true) true D) as [[ks' b]|] eqn:EP; [|discriminate]. cbn [bind fst snd] in H.
  destruct (prepare_usable _ _ _ _ _ _ HD EP HU HK) as [HE [HK' [flat [Hf Hl]]]].
  unfold update_data in H. cbn [g_nd] in H. rewrite (rectangular_ncols fp D HR HN), Nat.eqb_refl in H. cbn [negb] in H.
  cbn [g_scale g_scaling g_kernels g_reg g_grad g_log g_bounds g_lml option_map] in H.
  destruct (grad_data sdata fp tgt G) as [[sc fp'] t'] eqn:EG.
  assert (EB : exists t1 G1, (if sdata then let '(sd, fp', t') := scale_train fp tgt in Ok (Some sd, fp', t', Some (scale_gradients sd G))
     else Ok (None, fp, tgt, Some G)) = Ok (sc, fp', t1, Some G1) /\ t' = t1 ++ concat G1).
  { unfold grad_data in EG. destruct sdata.
    - destruct (scale_train fp tgt) as [[sd f1] t1]. injection EG as <- <- <-. eauto.
    - injection EG as <- <- <-. eauto. }
  destruct EB as [t1 [G1 [EB Et]]]. rewrite EB in H. cbn [bind] in H. rewrite <- Et in H. clear EB Et.
  destruct (get_covariance ks' sopt fp' None (Some reg) true) as [K|] eqn:EK; [|discriminate]. cbn [bind] in H.
  destruct (inv K) as [cinv|] eqn:EI; [|discriminate]. cbn [bind] in H. destruct (Hinv _ _ EI) as [I0 [I1 [I2 I3]]].
  unfold update_lml in H. cbn [g_kernels g_nd g_reg g_fp g_target g_log g_grad g_cinv g_scale g_bounds g_scaling] in H.
  rewrite Hf in H. cbn [bind] in H. unfold neg_lml in H. rewrite Hl in H. cbn [bind] in H.
  rewrite last_last, get_covariance_boxed, EK in H. cbn [bind] in H.
  destruct (cho K) as [L|] eqn:EL; [|discriminate]. cbn [bind] in H.
  unfold dot_vec in H. destruct (Nat.eqb_spec (nc cinv) (length t')) as [HC|]; [|discriminate]. cbn [bind] in H.
  match type of H with bind (if ?c then _ else _) _ = _ => destruct c; [discriminate|] end. cbn [bind fst snd] in H. injection H as <-.
  exists ks', b, K. cbn. repeat (split; auto). congruence.
Qed.

Lemma gp_init_grad_ok fp tgt G ks reg rb sopt sdata D ks' b :
  complete_inv inv -> complete_cho cho ->
  prepare_kernels ks (init_bounds rb true) true D = Ok (ks', b) ->
  Forall (usable D) ks -> ks <> [] -> (1 <= D)%nat -> fp <> [] -> rectangular fp D -> length fp = length tgt ->
  (forall sc fp' t', grad_data sdata fp tgt G = (sc, fp', t') ->
     exists K, get_covariance ks' sopt fp' None (Some reg) true = Ok K /\ nr K = nc K /\ length t' = nr K /\
       symm (nr K) (at_ K) /\ posdef (nr K) (at_ K)) ->
  exists s, gp_init inv cho cho_solve fp tgt ks (Some G) reg rb sopt sdata = Ok s.
Proof.
  intros CI CC EP HU HK HD HN HR HL HG. unfold gp_init. rewrite HL, Nat.eqb_refl. cbn [negb]. cbv zeta.
  cbn [is_some]. rewrite (rectangular_ncols fp D HR HN), EP. cbn [bind fst snd].
  destruct (prepare_usable _ _ _ _ _ _ HD EP HU HK) as [HE [HK' [flat [Hf Hl]]]].
  unfold update_data. cbn [g_nd]. rewrite (rectangular_ncols fp D HR HN), Nat.eqb_refl. cbn [negb].
  cbn [g_scale g_scaling g_kernels g_reg g_grad g_log g_bounds g_lml option_map].
  destruct (grad_data sdata fp tgt G) as [[sc fp'] t'] eqn:EG. destruct (HG _ _ _ eq_refl) as [K [EK [K1 [K2 [K3 K4]]]]].
  assert (EB : exists t1 G1, (if sdata then let '(sd, fp', t') := scale_train fp tgt in Ok (Some sd, fp', t', Some (scale_gradients sd G))
     else Ok (None, fp, tgt, Some G)) = Ok (sc, fp', t1, Some G1) /\ t' = t1 ++ concat G1).
  { unfold grad_data in EG. destruct sdata.
    - destruct (scale_train fp tgt) as [[sd f1] t1]. injection EG as <- <- <-. eauto.
    - injection EG as <- <- <-. eauto. }
  destruct EB as [t1 [G1 [EB Et]]]. rewrite EB. cbn [bind]. rewrite <- Et. rewrite EK. cbn [bind].
  destruct (CI K K1 K3 K4) as [cinv EI]. rewrite EI. cbn [bind]. destruct (Hinv _ _ EI) as [I0 [I1 [I2 I3]]].
  unfold update_lml. cbn [g_kernels g_nd g_reg g_fp g_target g_log g_grad g_cinv g_scale g_bounds g_scaling].
  rewrite Hf. cbn [bind]. unfold neg_lml. rewrite Hl. cbn [bind]. rewrite last_last, get_covariance_boxed, EK. cbn [bind].
  destruct (CC K K1 K3 K4) as [L EL]. rewrite EL. cbn [bind].
  unfold dot_vec. rewrite I2, <- K2, Nat.eqb_refl. cbn [bind]. rewrite tabulate_length, I1, <- K2, Nat.eqb_refl. cbn. eauto.
Qed.
End Init.

(** ** Kernels that stay smooth *)
Definition sum_of_smooth (log_scale : bool) (ks : list kdict) : Prop :=
  Forall (fun k => k_features k = None /\ (k_type k = Some KGaussian \/ k_type k = Some KConstant) /\ k_mult k = false /\
                   sensible log_scale k) ks.

Lemma prepare_kernel_keeps k nd dflt k' b : prepare_kernel k nd dflt = Ok (k', b) ->
  k_features k' = k_features k /\ k_type k' = k_type k /\ k_mult k' = k_mult k.
Proof.
  intros H. unfold prepare_kernel in H. destruct (k_type k) as [t|] eqn:Et; [|discriminate]. cbv zeta in H.
  apply require_ok in H. destruct H as [_ H]. apply require_ok in H. destruct H as [_ H].
  set (c := match k_dimension k with Some Single => 1%nat | _ => _ end) in H.
  destruct (match k_scaling k with Some _ => scaling_setup k dflt | None => Ok [] end) as [sb|]; [|discriminate]. cbn [bind] in H.
  destruct (type_setup t k c dflt) as [[k1 b1]|] eqn:E; [|discriminate]. cbn in H. injection H as <- _.
  unfold type_setup in E. destruct t; try discriminate E; try (injection E as <- _; auto; fail).
  - apply require_ok in E. destruct E as [_ E]. destruct (k_const k) eqn:Ec; [|discriminate]. injection E as <- _. auto.
  - apply require_ok in E. destruct E as [_ E]. injection E as <- _. auto.
  - apply require_ok in E. destruct E as [_ E]. injection E as <- _. auto.
  - destruct (k_width k) as [w|] eqn:Ew; [|discriminate]. apply require_ok in E. destruct E as [_ E].
    destruct (format_vec w c) as [l|] eqn:El; [|discriminate]. cbn [bind] in E. apply require_ok in E. destruct E as [_ E].
    injection E as <- _. cbn. auto.
  - destruct (k_slope k) as [w|] eqn:Ew; [|discriminate]. destruct (k_degree k) eqn:Ed; [|discriminate].
    apply require_ok in E. destruct E as [_ E].
    destruct (format_vec w c) as [l|] eqn:El; [|discriminate]. cbn [bind] in E. injection E as <- _. cbn. auto.
  - destruct (k_width k) as [w|] eqn:Ew; [|discriminate]. apply require_ok in E. destruct E as [_ E].
    destruct (format_vec w c) as [l|] eqn:El; [|discriminate]. cbn [bind] in E. injection E as <- _. cbn. auto.
Qed.

Lemma prepare_smooth ks rb g nd ks' b log_scale : prepare_kernels ks rb g nd = Ok (ks', b) -> sum_of_smooth log_scale ks ->
  Forall smooth ks' /\ Forall (sensible log_scale) ks' /\ Forall (fun k => k_mult k = false) ks'.
Proof.
  unfold prepare_kernels. intros H HS. destruct (prepare_loop ks nd (default_bound g)) as [[k1 b1]|] eqn:E; [|discriminate].
  injection H as <- _. cbn. revert k1 b1 E. induction ks as [|k ks IH]; intros k1 b1 E; cbn [prepare_loop] in E.
  - injection E as <- _. auto.
  - apply Forall_cons_iff in HS. destruct HS as [[A1 [A2 [A3 A4]]] HS2].
    destruct (prepare_kernel k nd (default_bound g)) as [[k2 b2]|] eqn:E2; [|discriminate]. cbn [bind] in E.
    destruct (prepare_loop ks nd (default_bound g)) as [[k3 b3]|] eqn:E3; [|discriminate]. injection E as <- _. cbn.
    destruct (IH HS2 _ _ eq_refl) as [B1 [B2 B3]]. destruct (prepare_kernel_keeps _ _ _ _ _ E2) as [C1 [C2 C3]].
    split; [|split]; constructor; auto; [|eapply prepare_kernel_sensible; eauto|congruence].
    split; [congruence|]. rewrite C2. auto.
Qed.

(** ** Prediction with gradients *)
Section Predict.
Variables (D : nat) (ks : list kdict) (log_scale : bool) (fp : list row).
Hypothesis HE : Forall (evaluable D) ks.
Hypothesis HS : Forall (sensible log_scale) ks.
Hypothesis HK : Forall smooth ks.
Hypothesis HM : Forall (fun k => k_mult k = false) ks.
Hypothesis HN0 : ks <> [].
Hypothesis HN : fp <> [].
Hypothesis HR : rectangular fp D.
Local Notation n := (length fp).
Local Notation N := (length fp + length fp * D)%nat.

(** Every row of a test covariance is the covariance of that one point. *)
Lemma ktest_rows test : test <> [] -> rectangular test D ->
  exists C, get_covariance ks log_scale test (Some fp) None true = Ok C /\ nr C = length test /\ nc C = N /\
  forall i q, (i < length test)%nat -> (q < N)%nat -> at_ C i q = ktest ks log_scale fp (nth i test []) q.
Proof.
  intros TN TR. destruct (covariance_gradx D ks log_scale test fp HE HS HK HM HN0 TN HN TR HR) as [C [EC [G1 G2 G3 G4]]].
  exists C. split; [auto|]. split; [auto|]. split; [auto|]. intros i q Hi Hq. pose proof (nth_rect D test TR i Hi) as Li.
  destruct (index_cases D fp q Hq) as [Hv|[j [b [Hj [Hb ->]]]]].
  - rewrite G3 by auto. symmetry. apply (ktest_value D); auto.
  - apply (partial_unique (fun y => kappa ks log_scale (nth i test []) y) b (nth j fp [])); [apply G4; auto|apply (ktest_deriv D); auto].
Qed.

Variables (s : gp) (K : matrix) (r : R).
Hypothesis Sk : g_kernels s = map boxed ks.
Hypothesis Sl : g_log s = log_scale.
Hypothesis Sg : g_grad s = true.
Hypothesis Sf : g_fp s = fp.
Hypothesis St : length (g_target s) = N.
Hypothesis Cr : nr (g_cinv s) = N.
Hypothesis Cc : nc (g_cinv s) = N.
Hypothesis EK : get_covariance ks log_scale fp None None true = Ok K.
Hypothesis CI : inverse N (fun i j => at_ K i j + (r * ident i j) ^ 2) (at_ (g_cinv s)).

Definition alpha (q : nat) : R := Sum N (fun j => at_ (g_cinv s) q j * nth j (g_target s) 0).
(** The prediction in the units of the model. *)
Definition raw (x : row) : R := Sum N (fun q => ktest ks log_scale fp x q * alpha q).

Lemma predict_raw test : scale_test s test <> [] -> rectangular (scale_test s test) D ->
  predict s test = Ok (rescale s (map raw (scale_test s test))).
Proof.
  intros TN TR. unfold predict, test_covariance. rewrite Sk, Sl, Sg, Sf, get_covariance_boxed.
  destruct (ktest_rows _ TN TR) as [C [EC [C1 [C2 HC]]]]. rewrite EC. cbn [bind].
  unfold make_prediction, dot_vec. rewrite Cc, St, Nat.eqb_refl. cbn [bind]. rewrite tabulate_length, Cr, C2, Nat.eqb_refl. cbn [bind].
  f_equal. f_equal. apply (nth_ext _ _ 0 0); [rewrite tabulate_length, map_length; auto|].
  intros i Hi. rewrite tabulate_length in Hi. rewrite nth_tabulate by auto. rewrite (nth_map_lt _ _ _ []) by lia.
  unfold raw. apply Sum_ext. intros q Hq. rewrite HC by lia. rewrite nth_tabulate by auto. auto.
Qed.

Lemma alpha_system p : (p < N)%nat -> Sum N (fun q => at_ K p q * alpha q) = nth p (g_target s) 0 - r ^ 2 * alpha p.
Proof.
  intros Hp. pose proof (mulv_inverse N _ _ (fun j => nth j (g_target s) 0) CI p Hp) as E. cbv beta in E. rewrite <- E.
  assert (A : mulv N (fun i j => at_ K i j + (r * ident i j) ^ 2) (mulv N (at_ (g_cinv s)) (fun j => nth j (g_target s) 0)) p =
    Sum N (fun j => at_ K p j * alpha j + ident p j * (r ^ 2 * alpha j))).
  { unfold mulv. apply Sum_ext. intros q _. fold (alpha q). unfold ident. destruct (p =? q)%nat; ring. }
  rewrite A, Sum_plus. pose proof (mulv_ident N (fun j => r ^ 2 * alpha j) p Hp) as B. unfold mulv in B. rewrite B. ring.
Qed.

Lemma raw_value i : (i < n)%nat -> raw (nth i fp []) = nth i (g_target s) 0 - r ^ 2 * alpha i.
Proof.
  intros Hi. rewrite <- alpha_system by lia. unfold raw. apply Sum_ext. intros q Hq.
  destruct (ktest_jets D ks log_scale fp HE HS HK HM HN0 HN HR K EK q Hq i Hi) as [-> _]. auto.
Qed.

Lemma raw_deriv i d : (i < n)%nat -> (d < D)%nat ->
  partial raw d (nth i fp []) (nth (n + i * D + d) (g_target s) 0 - r ^ 2 * alpha (n + i * D + d)).
Proof.
  intros Hi Hd. rewrite <- alpha_system by nia. unfold raw.
  apply (partial_Sum N (fun q x => ktest ks log_scale fp x q * alpha q)). intros q Hq.
  destruct (ktest_jets D ks log_scale fp HE HS HK HM HN0 HN HR K EK q Hq i Hi) as [_ H]. specialize (H d Hd).
  apply (partial_ext (fun x => alpha q * ktest ks log_scale fp x q)); [rewrite (nth_rect D fp HR i Hi); auto|intros; ring|].
  rewrite (Rmult_comm (at_ K _ _)). apply partial_scal. auto.
Qed.
End Predict.

(** ** Flat targets *)
Lemma nth_concat_rect (G : list row) D i d : rectangular G D -> (i < length G)%nat -> (d < D)%nat ->
  nth (i * D + d) (concat G) 0 = nth d (nth i G []) 0.
Proof.
  intros HR. revert i. induction HR as [|g G Hg HG IH]; intros i Hi Hd; cbn in Hi; [lia|]. cbn [concat]. destruct i as [|i].
  - rewrite app_nth1 by (cbn; lia). auto.
  - rewrite app_nth2 by nia. replace (S i * D + d - length g)%nat with (i * D + d)%nat by nia. cbn [nth]. apply IH; lia.
Qed.

Lemma concat_rect_length (G : list row) D : rectangular G D -> length (concat G) = (length G * D)%nat.
Proof. induction 1 as [|g G Hg HG IH]; cbn; [auto|]. rewrite app_length, IH, Hg. auto. Qed.

(** ** Scaling one coordinate *)
Lemma scale_row_nth mu sd (x : row) d : length mu = length x -> length sd = length x -> (d < length x)%nat ->
  nth d (PrepModel.scale_row mu sd x) 0 = (nth d x 0 - nth d mu 0) / nth d sd 0.
Proof.
  intros H1 H2 Hd. unfold PrepModel.scale_row.
  rewrite (nth_map_lt _ _ _ (0, (0, 0))) by (rewrite !combine_length; lia).
  rewrite combine_nth by (rewrite combine_length; lia). rewrite combine_nth by lia. auto.
Qed.

Lemma scale_row_set mu sd (x : row) d t : length mu = length x -> length sd = length x -> (d < length x)%nat ->
  PrepModel.scale_row mu sd (set_coord d t x) = set_coord d ((t - nth d mu 0) / nth d sd 0) (PrepModel.scale_row mu sd x).
Proof.
  intros H1 H2 Hd. assert (L : length (PrepModel.scale_row mu sd x) = length x) by (apply PrepProofs.scale_row_length; auto).
  apply (nth_ext _ _ 0 0).
  - rewrite set_coord_length by lia. rewrite L. unfold PrepModel.scale_row. rewrite map_length, !combine_length, set_coord_length by auto. lia.
  - intros i Hi. assert (i < length x)%nat.
    { unfold PrepModel.scale_row in Hi. rewrite map_length, !combine_length, set_coord_length in Hi by auto. lia. }
    rewrite scale_row_nth by (rewrite set_coord_length; auto). rewrite !nth_set_coord by lia.
    destruct (i =? d)%nat eqn:E; [apply Nat.eqb_eq in E; subst; auto|]. rewrite scale_row_nth; auto.
Qed.

Lemma partial_scale f mu sd (x : row) d v : length mu = length x -> length sd = length x -> (d < length x)%nat -> nth d sd 0 <> 0 ->
  partial f d (PrepModel.scale_row mu sd x) v ->
  partial (fun z => f (PrepModel.scale_row mu sd z)) d x (v / nth d sd 0).
Proof.
  intros H1 H2 Hd H0 H. unfold partial in *. rewrite scale_row_nth in H by auto.
  rewrite <- is_derive_Reals in *.
  apply (is_derive_ext (fun t => (fun u => f (set_coord d u (PrepModel.scale_row mu sd x))) ((t - nth d mu 0) / nth d sd 0))).
  { intros t. cbv beta. rewrite scale_row_set; auto. }
  evar_last.
  - apply (is_derive_comp (fun u => f (set_coord d u (PrepModel.scale_row mu sd x))) (fun t => (t - nth d mu 0) / nth d sd 0)); [exact H|].
    auto_derive; [auto|reflexivity].
  - unfold scal; cbn. unfold mult; cbn. field. auto.
Qed.


Lemma Sum_blocks n D f : Sum (n * D) f = Sum n (fun j => Sum D (fun b => f (j * D + b)%nat)).
Proof.
  induction n as [|n IH]; cbn [Sum]; [auto|]. rewrite <- IH. rewrite Nat.mul_succ_l, Sum_app. auto.
Qed.
