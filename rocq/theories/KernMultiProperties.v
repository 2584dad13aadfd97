(** Kernels with separate parameters for values and derivatives: noise_multi is noise, and
    constant_multi is a covariance only for some constants. *)
From Coq Require Import Reals Lra Lia List Arith Bool.
From Coquelicot Require Import Coquelicot.
From Verif Require Import Base BaseFacts RBase LinAlg KernModel KernProofs KernSetupProofs KernProperties GradSpec GradKernProofs.
From Coq Require Import List.
Import ListNotations.
Open Scope R_scope.

(** ** Specification *)
(** Number of observations: the values and, with gradients, the derivatives of each point. *)
Definition observations (grad : bool) (m : list (list R)) (D : nat) : nat :=
  if grad then (length m + length m * D)%nat else length m.
Definition quadratic_form (n : nat) (A : nat -> nat -> R) (x : nat -> R) : R :=
  Sum n (fun i => Sum n (fun j => x i * A i j * x j)).

(** ** Lemmas *)
Lemma covariance_append ks k log_scale grad m1 m2 C K :
  ks <> [] -> get_covariance ks log_scale m1 m2 None grad = Ok C ->
  scaled_kernel k log_scale grad m1 m2 = Ok K -> nr K = nr C -> nc K = nc C -> k_mult k = false ->
  get_covariance (ks ++ [k]) log_scale m1 m2 None grad = Ok (Mx (nr C) (nc C) (fun i j => at_ C i j + at_ K i j)).
Proof.
  intros HN HC HK H1 H2 HM. unfold get_covariance in *.
  apply require_ok in HC. destruct HC as [HA HC]. rewrite HA. cbn [require bind].
  assert (G : forall c0 c, cov_loop ks log_scale grad m1 m2 c0 = Ok (Some c) ->
     cov_loop (ks ++ [k]) log_scale grad m1 m2 c0 = cov_loop [k] log_scale grad m1 m2 (Some c)).
  { clear. induction ks as [|a ks IH]; intros c0 c H; cbn [cov_loop app] in *.
    - injection H as ->. reflexivity.
    - destruct (scaled_kernel a log_scale grad m1 m2); [|discriminate]. cbn [bind] in *.
      destruct (accumulate _ _ _); [|discriminate]. cbn [bind] in *. apply IH. auto. }
  destruct (cov_loop ks log_scale grad m1 m2 None) as [[c|]|] eqn:EL; try discriminate. cbn [bind] in HC. injection HC as ->.
  rewrite (G _ _ EL). cbn [cov_loop]. rewrite HK. cbn [bind]. unfold accumulate. rewrite H1, H2, HM, !Nat.eqb_refl. reflexivity.
Qed.

Lemma scaled_noise a b grad m1 m2 : exists K, scaled_kernel (noise_multi [a; b]) false grad m1 m2 = Ok K /\
  nr K = nr (noise_multi_kernel a b grad m1 m2) /\ nc K = nc (noise_multi_kernel a b grad m1 m2) /\
  forall i j, at_ K i j = at_ (noise_multi_kernel a b grad m1 m2) i j.
Proof. destruct m2 as [m2|]; eexists; (split; [reflexivity|]); (split; [reflexivity|]); (split; [reflexivity|]); intros i j; cbn -[pow]; unfold logged; apply Rmult_1_l. Qed.

(** ** noise_multi *)
(** A noise_multi kernel behind other kernels adds the square of its first parameter to the
    variance of every value and that of its second to the variance of every derivative, and
    changes no other entry and no covariance with test points. *)
Theorem noise_multi_is_noise : forall ks grad m D a b C, ks <> [] -> m <> [] -> Forall (fun r => length r = D) m ->
  get_covariance ks false m None None grad = Ok C -> nr C = observations grad m D -> nc C = observations grad m D ->
  (exists C', get_covariance (ks ++ [noise_multi [a; b]]) false m None None grad = Ok C' /\ nr C' = nr C /\ nc C' = nc C /\
     forall i j, (i < nr C)%nat -> at_ C' i j = at_ C i j + (if (i =? j)%nat then if (i <? length m)%nat then a ^ 2 else b ^ 2 else 0)) /\
  forall t T, t <> [] -> Forall (fun r => length r = D) t -> get_covariance ks false t (Some m) None grad = Ok T ->
    nr T = length t -> nc T = observations grad m D ->
    exists T', get_covariance (ks ++ [noise_multi [a; b]]) false t (Some m) None grad = Ok T' /\ nr T' = nr T /\ nc T' = nc T /\
      forall i j, at_ T' i j = at_ T i j.
Proof.
  intros ks grad m D a b C HK HN HR HC H1 H2.
  assert (ND : forall x : list row, x <> [] -> Forall (fun r => length r = D) x -> ncols x = D).
  { intros x H F. destruct F as [|r x E F]; [contradiction|]. exact E. }
  split.
  - destruct (scaled_noise a b grad m None) as (K & E & E1 & E2 & E3).
    assert (E1' : nr K = nr C /\ nc K = nc C).
    { rewrite E1, E2, H1, H2. unfold noise_multi_kernel, observations, grad_size. rewrite (ND m HN HR). destruct grad; auto. }
    eexists. split; [apply (covariance_append _ _ _ _ _ _ C K); auto; apply E1'|]. cbn [nr nc at_]. split; [auto|]. split; [auto|].
    intros i j Hi. rewrite E3. unfold noise_multi_kernel. destruct grad; cbn [at_]; [auto|].
    rewrite H1 in Hi. cbn in Hi. destruct (Nat.ltb_spec i (length m)); [auto|lia].
  - intros t T Ht Hr HT T1 T2. destruct (scaled_noise a b grad t (Some m)) as (K & E & E1 & E2 & E3).
    assert (E1' : nr K = nr T /\ nc K = nc T).
    { rewrite E1, E2, T1, T2. unfold noise_multi_kernel, observations. rewrite (ND t Ht Hr). destruct grad; auto. }
    eexists. split; [apply (covariance_append _ _ _ _ _ _ T K); auto; apply E1'|]. cbn [nr nc at_]. split; [auto|]. split; [auto|].
    intros i j. rewrite E3. unfold noise_multi_kernel. cbn [at_]. apply Rplus_0_r.
Qed.

(** With the same parameter for both it is the regularization. *)
Theorem noise_multi_is_regularization : forall ks grad m D r C, ks <> [] -> m <> [] -> Forall (fun x => length x = D) m ->
  get_covariance ks false m None None grad = Ok C -> nr C = observations grad m D -> nc C = observations grad m D ->
  exists C1 C2, get_covariance (ks ++ [noise_multi [r; r]]) false m None None grad = Ok C1 /\
    get_covariance ks false m None (Some r) grad = Ok C2 /\ nr C1 = nr C2 /\ nc C1 = nc C2 /\
    forall i j, (i < nr C1)%nat -> (j < nc C1)%nat -> at_ C1 i j = at_ C2 i j.
Proof.
  intros ks grad m D r C HK HN HR HC H1 H2. destruct (noise_multi_is_noise ks grad m D r r C HK HN HR HC H1 H2) as ((C1 & E & S1 & S2 & G) & _).
  exists C1. eexists. split; [exact E|]. split.
  - unfold get_covariance in *. apply require_ok in HC. destruct HC as [HA HC]. cbn [require bind].
    destruct (cov_loop ks false grad m None None) as [[c|]|]; try discriminate. cbn [bind] in *. injection HC as ->.
    rewrite H1, H2, Nat.eqb_refl. reflexivity.
  - cbn [nr nc at_]. split; [congruence|]. split; [congruence|]. intros i j Hi Hj. unfold logged, ident.
    rewrite G by congruence. f_equal. destruct (Nat.eqb i j); [|ring]. destruct (Nat.ltb i (length m)); ring.
Qed.

(** ** constant_multi *)
Lemma block_form n k c1 c2 c3 x :
  quadratic_form (n + k) (fun i j => match (i <? n)%nat, (j <? n)%nat with
      | true, true => c1 | true, false => c2 | false, true => c2 | false, false => c3 end) x =
  c1 * (Sum n x) ^ 2 + 2 * c2 * (Sum n x * Sum k (fun i => x (n + i)%nat)) + c3 * (Sum k (fun i => x (n + i)%nat)) ^ 2.
Proof.
  unfold quadratic_form. set (s := Sum n x). set (t := Sum k (fun i => x (n + i)%nat)).
  assert (L : forall i, (i < n)%nat -> (i <? n)%nat = true) by (intros; apply Nat.ltb_lt; auto).
  assert (G : forall i, (n + i <? n)%nat = false) by (intros; apply Nat.ltb_ge; lia).
  rewrite Sum_app.
  rewrite (Sum_ext n _ (fun i => x i * (c1 * s + c2 * t))).
  2: { intros i Hi. rewrite Sum_app. rewrite (Sum_ext n _ (fun j => (x i * c1) * x j)) by (intros j Hj; rewrite (L i Hi), (L j Hj); auto).
       rewrite (Sum_ext k _ (fun j => (x i * c2) * x (n + j)%nat)) by (intros j Hj; rewrite (L i Hi), G; auto). rewrite !Sum_scal. fold s t. ring. }
  rewrite (Sum_ext k _ (fun i => x (n + i)%nat * (c2 * s + c3 * t))).
  2: { intros i Hi. rewrite Sum_app. rewrite (Sum_ext n _ (fun j => (x (n + i)%nat * c2) * x j)) by (intros j Hj; rewrite G, (L j Hj); auto).
       rewrite (Sum_ext k _ (fun j => (x (n + i)%nat * c3) * x (n + j)%nat)) by (intros j Hj; rewrite !G; auto). rewrite !Sum_scal. fold s t. ring. }
  rewrite !Sum_scal_r. fold s t. ring.
Qed.

(** The covariance of values and derivatives by a constant_multi kernel has no negative
    variance exactly when the two outer constants are not negative and the square of the
    middle one is at most their product. *)
Theorem constant_multi_semidefinite : forall m D c1 c2 c3, m <> [] -> (1 <= D)%nat -> Forall (fun r => length r = D) m ->
  exists C, get_covariance [constant_multi [c1; c2; c3]] false m None None true = Ok C /\
    nr C = observations true m D /\ nc C = observations true m D /\
    ((forall x, 0 <= quadratic_form (observations true m D) (at_ C) x) <-> 0 <= c1 /\ 0 <= c3 /\ c2 ^ 2 <= c1 * c3).
Proof.
  intros m D c1 c2 c3 HN HD HR. assert (ND : ncols m = D) by (destruct HR as [|r x E F]; [contradiction|exact E]).
  assert (EC : exists C, get_covariance [constant_multi [c1; c2; c3]] false m None None true = Ok C /\ nr C = grad_size m /\ nc C = grad_size m /\
    forall i j, at_ C i j = match (i <? length m)%nat, (j <? length m)%nat with
      | true, true => c1 | true, false => c2 | false, true => c2 | false, false => c3 end).
  { assert (EK : exists K, scaled_kernel (constant_multi [c1; c2; c3]) false true m None = Ok K /\ nr K = grad_size m /\ nc K = grad_size m /\
      forall i j, at_ K i j = logged false 1 * (match (i <? length m)%nat, (j <? length m)%nat with
        | true, true => c1 | true, false => c2 | false, true => c2 | false, false => c3 end)).
    { eexists. split; [reflexivity|]. split; [reflexivity|]. split; [reflexivity|]. intros i j. reflexivity. }
    destruct EK as (K & K0 & K1 & K2 & K3).
    eexists. split. { unfold get_covariance. cbn [require bind cov_loop]. rewrite K0. cbn [bind]. unfold accumulate. cbn [nr nc].
      rewrite !Nat.eqb_refl. cbn [andb bind]. reflexivity. } cbn [nr nc at_]. split; [auto|]. split; [auto|].
    intros i j. cbn [k_mult constant_multi set_hyper bare]. rewrite K3. unfold logged. ring. }
  destruct EC as (C & E & E1 & E2 & E3). exists C. unfold grad_size in E1, E2. rewrite ND in E1, E2.
  split; [auto|]. split; [auto|]. split; [auto|].
  set (n := length m) in *. set (k := (n * D)%nat) in *.
  assert (Hn : (1 <= n)%nat) by (unfold n; destruct m; [contradiction|cbn; lia]). assert (Hk : (1 <= k)%nat) by (unfold k; nia).
  assert (Q : forall x, quadratic_form (observations true m D) (at_ C) x =
     c1 * (Sum n x) ^ 2 + 2 * c2 * (Sum n x * Sum k (fun i => x (n + i)%nat)) + c3 * (Sum k (fun i => x (n + i)%nat)) ^ 2).
  { intros x. rewrite <- block_form. unfold quadratic_form, observations. fold n k. apply Sum_ext. intros i _. apply Sum_ext. intros j _. rewrite E3. auto. }
  split.
  - intros H.
    assert (T : forall s t, 0 <= c1 * s ^ 2 + 2 * c2 * (s * t) + c3 * t ^ 2).
    { intros s t. specialize (H (fun i => if (i =? 0)%nat then s else if (i =? n)%nat then t else 0)). rewrite Q in H.
      replace (Sum n _) with s in H. replace (Sum k _) with t in H. exact H.
      - destruct k as [|k']; [lia|]. rewrite Sum_S_first. rewrite Nat.add_0_r, Nat.eqb_refl. replace (n =? 0)%nat with false by (symmetry; apply Nat.eqb_neq; lia).
        rewrite Sum_zero; [ring|]. intros i _. replace (n + S i =? 0)%nat with false by (symmetry; apply Nat.eqb_neq; lia).
        replace (n + S i =? n)%nat with false by (symmetry; apply Nat.eqb_neq; lia). auto.
      - destruct n as [|n']; [lia|]. rewrite Sum_S_first. cbn [Nat.eqb]. rewrite Sum_zero; [ring|]. intros i Hi.
        replace (i =? n')%nat with false by (symmetry; apply Nat.eqb_neq; lia). auto. }
    pose proof (T 1 0) as T1. pose proof (T 0 1) as T2. split; [nra|]. split; [nra|].
    destruct (Rle_lt_dec (c2 ^ 2) (c1 * c3)) as [|HL]; [auto|]. exfalso.
    destruct (Req_dec c1 0) as [->|N1].
    + destruct (Req_dec c2 0) as [->|N2]; [nra|]. pose proof (T (- (c3 + 1) / (2 * c2)) 1) as T3.
      replace (0 * (- (c3 + 1) / (2 * c2)) ^ 2 + 2 * c2 * (- (c3 + 1) / (2 * c2) * 1) + c3 * 1 ^ 2) with (-1) in T3 by (field; auto). lra.
    + pose proof (T c2 (- c1)) as T3. assert (0 < c1) by nra. nra.
  - intros (P1 & P3 & P2) x. rewrite Q. generalize (Sum n x), (Sum k (fun i => x (n + i)%nat)). intros s t.
    destruct (Req_dec c1 0) as [->|N1].
    + assert (c2 = 0) by nra. subst c2. nra.
    + assert (0 < c1) by lra. assert (0 <= c1 * (c1 * s ^ 2 + 2 * c2 * (s * t) + c3 * t ^ 2)).
      { replace (c1 * (c1 * s ^ 2 + 2 * c2 * (s * t) + c3 * t ^ 2)) with ((c1 * s + c2 * t) ^ 2 + (c1 * c3 - c2 ^ 2) * t ^ 2) by ring.
        pose proof (pow2_ge_0 (c1 * s + c2 * t)). pose proof (pow2_ge_0 t). nra. }
      nra.
Qed.

(** Constants that pass the set-up of the kernels need not satisfy this. *)
Theorem constant_multi_accepted_refuted : forall x y : R,
  (exists b, prepare_kernels [constant_multi [1; 2; 1]] (0, None) true 2 = Ok ([constant_multi [1; 2; 1]], b)) /\
  exists C v, get_covariance [constant_multi [1; 2; 1]] false [[x; y]] None None true = Ok C /\ quadratic_form 3 (at_ C) v < 0.
Proof.
  intros x y. split; [eexists; reflexivity|]. eexists. exists (fun i => if (i =? 0)%nat then 1 else if (i =? 1)%nat then -1 else 0).
  split; [reflexivity|]. unfold quadratic_form. cbn. unfold logged. lra.
Qed.

(** ** linear *)
Lemma inner_coord d : forall x y, length x = length y -> (d < length y)%nat ->
  exists r, forall t, inner x (set_coord d t y) = r + nth d x 0 * t.
Proof.
  induction d as [|d IH]; intros x y HL Hd; destruct y as [|b y]; cbn in Hd; try lia; destruct x as [|a x]; cbn in HL; try lia.
  - exists (inner x y). intros t. unfold inner, set_coord. cbn. ring.
  - destruct (IH x y) as [r Hr]; [lia|lia|]. exists (a * b + r). intros t. change (inner (a :: x) (set_coord (S d) t (b :: y))) with (a * b + inner x (set_coord d t y)). cbn [nth]. rewrite Hr. ring.
Qed.
Lemma inner_partial x y d : length x = length y -> (d < length y)%nat -> partial (fun z => inner x z) d y (nth d x 0).
Proof.
  intros HL Hd. destruct (inner_coord d x y HL Hd) as [r Hr]. unfold partial. apply is_derive_Reals.
  apply (is_derive_ext (fun t => r + nth d x 0 * t)); [intros t; rewrite Hr; auto|]. auto_derive; auto. ring.
Qed.
Lemma inner_comm x : forall y, inner x y = inner y x.
Proof. induction x as [|a x IH]; intros [|b y]; auto. unfold inner in *. cbn. rewrite IH. ring. Qed.
Lemma coord_partial d x : (d < length x)%nat -> partial (fun z => nth d z 0) d x 1.
Proof.
  intros Hd. unfold partial. apply is_derive_Reals. apply (is_derive_ext (fun t => t)); [|auto_derive; auto].
  intros t. unfold set_coord. rewrite app_nth2; rewrite firstn_length_le by lia; [|lia]. rewrite Nat.sub_diag. reflexivity.
Qed.

(** The linear kernel with gradients: values and first derivatives are right, for training
    and for test points, and so are the second derivatives for the same coordinate. *)
Theorem linear_gradient_blocks_partial : forall D m1 m2, (1 <= D)%nat -> m1 <> [] -> m2 <> [] ->
  Forall (fun r => length r = D) m1 -> Forall (fun r => length r = D) m2 ->
  let k u v := match get_covariance [bare KLinear] false [u] (Some [v]) None false with Ok c => at_ c 0 0 | Err _ => 0 end in
  (exists C, get_covariance [bare KLinear] false m1 (Some m2) None true = Ok C /\ gradient_cross_covariance k D m1 m2 C) /\
  exists K, get_covariance [bare KLinear] false m1 None None true = Ok K /\
    nr K = observations true m1 D /\ nc K = observations true m1 D /\
    forall i j, (i < length m1)%nat -> (j < length m1)%nat -> let x := nth i m1 [] in let y := nth j m1 [] in
      at_ K i j = k x y /\
      forall d, (d < D)%nat ->
        partial (fun v => k x v) d y (at_ K i (length m1 + j * D + d)) /\ partial (fun u => k u y) d x (at_ K (length m1 + i * D + d) j) /\
        mixed_partial k d d x y (at_ K (length m1 + i * D + d) (length m1 + j * D + d)) /\
        (D = 1%nat -> gradient_covariance k D m1 K).
Proof.
  intros D m1 m2 HD N1 N2 R1 R2 k.
  assert (LT : forall n a, (a < n)%nat -> (a <? n)%nat = true) by (intros; apply Nat.ltb_lt; auto).
  assert (LF : forall n i d, (n + i * D + d <? n)%nat = false) by (intros; apply Nat.ltb_ge; lia).
  assert (LM : forall n i d, (d < D)%nat -> ((n + i * D + d - n) mod D = d)%nat).
  { intros n i d Hd. replace (n + i * D + d - n)%nat with (d + i * D)%nat by lia. rewrite Nat.mod_add by lia. apply Nat.mod_small. auto. }
  assert (ND : forall x : list row, x <> [] -> Forall (fun r => length r = D) x -> ncols x = D).
  { intros x H F. destruct F as [|r x E F]; [contradiction|]. exact E. }
  assert (Ek : forall u v, length u = D -> length v = D -> k u v = inner u v).
  { intros u v Hu Hv. unfold k, get_covariance. cbn [ncols]. rewrite Hu, Hv, Nat.eqb_refl. cbn -[inner]. unfold logged. ring. }
  assert (LR : forall (m : list row) i, Forall (fun r => length r = D) m -> (i < length m)%nat -> length (nth i m []) = D).
  { intros m i F Hi. rewrite Forall_forall in F. apply F. apply nth_In. auto. }
  assert (PR : forall x y d, length x = D -> length y = D -> (d < D)%nat -> partial (fun v => k x v) d y (nth d x 0)).
  { intros x y d Hx Hy Hd. apply (partial_ext (fun v => inner x v)); [lia|intros z Hz; rewrite Ek; auto; lia|]. apply inner_partial; lia. }
  assert (PL : forall x y d, length x = D -> length y = D -> (d < D)%nat -> partial (fun u => k u y) d x (nth d y 0)).
  { intros x y d Hx Hy Hd. apply (partial_ext (fun u => inner y u)); [lia|intros z Hz; rewrite Ek; [apply inner_comm|lia|auto]|]. apply inner_partial; lia. }
  assert (PM : forall x y d, length x = D -> length y = D -> (d < D)%nat -> mixed_partial k d d x y 1).
  { intros x y d Hx Hy Hd. exists (fun z => nth d z 0). split; [|apply coord_partial; lia]. intros z Hz. apply PR; auto. lia. }
  split.
  - assert (EC : exists C, get_covariance [bare KLinear] false m1 (Some m2) None true = Ok C /\ nr C = length m1 /\ nc C = (length m2 + length m2 * D)%nat /\
      forall p q, at_ C p q = if (q <? length m2)%nat then inner (row_at m1 p) (row_at m2 q) else nth ((q - length m2) mod D) (row_at m1 p) 0).
    { unfold get_covariance. rewrite (ND _ N1 R1), (ND _ N2 R2), Nat.eqb_refl. cbn [require bind cov_loop scaled_kernel k_type bare select k_features kdict2list].
      change (get_theta (bare KLinear) (ncols m1)) with (@Ok (list val) []). cbn [bind fst snd kernel k_scaling linear_kernel negb k_mult nr nc].
      unfold accumulate. cbn [nr nc]. rewrite !Nat.eqb_refl. cbn [andb bind]. eexists. split; [reflexivity|]. cbn [nr nc at_]. rewrite (ND _ N1 R1).
      split; [auto|]. split; [auto|]. intros p q. unfold logged. rewrite Rmult_1_l, Rplus_0_l. auto. }
    destruct EC as (C & E & E1 & E2 & E3). exists C. split; [auto|]. constructor; auto.
    + intros i j Hi Hj. rewrite E3, (LT _ _ Hj), Ek by auto. auto.
    + intros i j d Hi Hj Hd. rewrite E3, LF, LM by auto. apply PR; [apply LR; auto|apply LR; auto|auto].
  - assert (EC : exists K, get_covariance [bare KLinear] false m1 None None true = Ok K /\ nr K = (length m1 + length m1 * D)%nat /\ nc K = (length m1 + length m1 * D)%nat /\
      forall p q, at_ K p q = match (p <? length m1)%nat, (q <? length m1)%nat with
          | true, true => inner (row_at m1 p) (row_at m1 q)
          | true, false => nth ((q - length m1) mod D) (row_at m1 p) 0
          | false, true => nth ((p - length m1) mod D) (row_at m1 q) 0
          | false, false => 1 end).
    { unfold get_covariance. cbn [require bind cov_loop scaled_kernel k_type bare select k_features kdict2list].
      change (get_theta (bare KLinear) (ncols m1)) with (@Ok (list val) []). cbn [bind fst snd kernel k_scaling linear_kernel negb k_mult nr nc].
      unfold accumulate. cbn [nr nc]. rewrite !Nat.eqb_refl. cbn [andb bind]. eexists. split; [reflexivity|]. cbn [nr nc at_]. unfold grad_size. rewrite (ND _ N1 R1).
      split; [auto|]. split; [auto|]. intros p q. unfold logged. rewrite Rmult_1_l, Rplus_0_l. auto. }
    destruct EC as (K & E & E1 & E2 & E3). exists K. split; [auto|]. split; [auto|]. split; [auto|].
    assert (G : forall i j, (i < length m1)%nat -> (j < length m1)%nat -> let x := nth i m1 [] in let y := nth j m1 [] in
      at_ K i j = k x y /\
      forall d, (d < D)%nat ->
        partial (fun v => k x v) d y (at_ K i (length m1 + j * D + d)) /\ partial (fun u => k u y) d x (at_ K (length m1 + i * D + d) j) /\
        mixed_partial k d d x y (at_ K (length m1 + i * D + d) (length m1 + j * D + d))).
    { intros i j Hi Hj x y. assert (Lx : length x = D) by (apply LR; auto). assert (Ly : length y = D) by (apply LR; auto).
      split; [rewrite E3, (LT _ _ Hi), (LT _ _ Hj), Ek by auto; auto|]. intros d Hd.
      split; [rewrite E3, (LT _ _ Hi), LF, LM by auto; apply PR; auto|].
      split; [rewrite E3, (LT _ _ Hj), LF, LM by auto; apply PL; auto|]. rewrite E3, !LF. apply PM; auto. }
    intros i j Hi Hj x y. destruct (G i j Hi Hj) as [G1 G2]. split; [exact G1|]. intros d Hd. destruct (G2 d Hd) as (A1 & A2 & A3).
    split; [auto|]. split; [auto|]. split; [auto|]. intros HD1. constructor; auto.
    + intros i' j' Hi' Hj'. apply G; auto.
    + intros i' j' d' Hi' Hj' Hd'. apply (proj2 (G i' j' Hi' Hj') d' Hd').
    + intros i' j' d' Hi' Hj' Hd'. apply (proj2 (G i' j' Hi' Hj') d' Hd').
    + intros i' j' a b Hi' Hj' Ha Hb. replace b with a by lia. apply (proj2 (G i' j' Hi' Hj') a Ha).
Qed.

Example noise_multi_case : exists C, get_covariance [gaussian [1; 1]] false [[0; 0]; [1; 2]] None None true = Ok C /\
  nr C = observations true [[0; 0]; [1; 2]] 2 /\ nc C = observations true [[0; 0]; [1; 2]] 2 /\
  exists T, get_covariance [gaussian [1; 1]] false [[3; 0]] (Some [[0; 0]; [1; 2]]) None true = Ok T /\ nr T = 1%nat /\ nc T = 6%nat.
Proof. eexists. split; [reflexivity|]. split; [reflexivity|]. split; [reflexivity|]. eexists. split; [reflexivity|]. split; reflexivity. Qed.

Print Assumptions noise_multi_is_noise.
Print Assumptions noise_multi_is_regularization.
Print Assumptions constant_multi_semidefinite.
Print Assumptions constant_multi_accepted_refuted.
Print Assumptions linear_gradient_blocks_partial.
