(** Proofs about the kernel model. *)
From Coq Require Import Reals Lra Lia List Arith Bool.
From Verif Require Import Base BaseFacts RBase LinAlg PSD KernModel.
Import ListNotations.
Open Scope R_scope.

(** ** Sums over paired rows *)
Lemma sumR_combine (f : R * R -> R) x : forall y, length x = length y ->
  sumR (map f (combine x y)) = Sum (length x) (fun d => f (nth d x 0, nth d y 0)).
Proof.
  induction x as [|a x IH]; intros [|b y] H; cbn in H; try discriminate; [reflexivity|].
  cbn [combine map length]. rewrite Sum_S_first. cbn [nth]. rewrite <- IH by lia. reflexivity.
Qed.

Lemma sqeuclidean_Sum x y D : length x = D -> length y = D ->
  sqeuclidean x y = Sum D (fun d => (nth d x 0 - nth d y 0) ^ 2).
Proof. intros <- H. unfold sqeuclidean. rewrite sumR_combine by auto. reflexivity. Qed.

Lemma cityblock_Sum x y D : length x = D -> length y = D ->
  cityblock_dist x y = Sum D (fun d => Rabs (nth d x 0 - nth d y 0)).
Proof. intros <- H. unfold cityblock_dist. rewrite sumR_combine by auto. reflexivity. Qed.

Lemma inner_Sum x y D : length x = D -> length y = D ->
  inner x y = Sum D (fun d => nth d x 0 * nth d y 0).
Proof. intros <- H. unfold inner. rewrite sumR_combine by auto. reflexivity. Qed.

Lemma sqeuclidean_self x : sqeuclidean x x = 0.
Proof. rewrite (sqeuclidean_Sum x x (length x)) by auto. apply Sum_zero. intros; ring. Qed.

Lemma cityblock_self x : cityblock_dist x x = 0.
Proof.
  rewrite (cityblock_Sum x x (length x)) by auto. apply Sum_zero. intros.
  rewrite Rminus_diag_eq by auto. apply Rabs_R0.
Qed.

Lemma gaussian_self x : gaussian_fn x x = 1.
Proof. unfold gaussian_fn. rewrite sqeuclidean_self, Rmult_0_r. apply exp_0. Qed.

Lemma laplacian_self x : laplacian_fn x x = 1.
Proof. unfold laplacian_fn. rewrite cityblock_self, Ropp_0. apply exp_0. Qed.

Lemma quadratic_self d x : quadratic_fn d x x = 1.
Proof.
  unfold quadratic_fn. rewrite sqeuclidean_self, Rmult_0_r, Rplus_0_r. unfold Rpower. rewrite ln_1, Rmult_0_r. apply exp_0.
Qed.

Lemma sqeuclidean_sym x : forall y, sqeuclidean x y = sqeuclidean y x.
Proof.
  unfold sqeuclidean. induction x as [|a x IH]; intros [|b y]; cbn; auto.
  cbn in IH. rewrite IH. ring.
Qed.

Lemma cityblock_sym x : forall y, cityblock_dist x y = cityblock_dist y x.
Proof.
  unfold cityblock_dist. induction x as [|a x IH]; intros [|b y]; cbn; auto.
  cbn in IH. rewrite IH, Rabs_minus_sym. ring.
Qed.

Lemma inner_sym x : forall y, inner x y = inner y x.
Proof.
  unfold inner. induction x as [|a x IH]; intros [|b y]; cbn; auto.
  cbn in IH. rewrite IH. ring.
Qed.

(** ** Rectangular data *)
Definition rectangular (m : list row) (D : nat) : Prop := Forall (fun r => length r = D) m.

Lemma row_at_length m D i : rectangular m D -> (i < length m)%nat -> length (row_at m i) = D.
Proof.
  intros H Hi. unfold rectangular in H. rewrite Forall_forall in H. apply H. apply nth_In. auto.
Qed.

Lemma rectangular_ncols m D : rectangular m D -> m <> [] -> ncols m = D.
Proof. intros H N. destruct m as [|r t]; [congruence|]. inversion H; auto. Qed.

Lemma broadcast_length f x w r : broadcast f x w = Ok r ->
  length r = (if (length x =? length w) then length w
              else match x with [_] => length w | _ => length x end)%nat.
Proof.
  unfold broadcast. destruct (Nat.eqb_spec (length x) (length w)) as [E|N].
  - intros [= <-]. rewrite map_length, combine_length. lia.
  - destruct x as [|a [|b x]]; [|intros [= <-]; rewrite map_length; auto|].
    + destruct w as [|c [|d w]]; intros H; inversion H; auto.
    + destruct w as [|c [|d w]]; intros H; inversion H. cbn. rewrite map_length. auto.
Qed.

Lemma divide_rows_rect m w : forall r D, divide_rows m w = Ok r -> rectangular m D ->
  length r = length m /\ exists D', rectangular r D'.
Proof.
  induction m as [|x t IH]; intros r D H HR; cbn [divide_rows] in H.
  - injection H as <-. split; auto. exists 0%nat. constructor.
  - destruct (broadcast Rdiv x w) as [x'|] eqn:Ex; [|discriminate]. cbn [bind] in H.
    destruct (divide_rows t w) as [t'|] eqn:Et; [|discriminate]. injection H as <-.
    inversion HR as [|? ? Hx Ht]; subst.
    destruct (IH t' (length x) eq_refl Ht) as [HL [D' HD]].
    split; [cbn; auto|]. exists (length x'). constructor; auto.
    assert (G : forall y y', length y = length x -> broadcast Rdiv y w = Ok y' -> length y' = length x').
    { intros y y' Hy E. apply broadcast_length in E. apply broadcast_length in Ex. rewrite E, Ex, Hy.
      destruct (length x =? length w)%nat; auto.
      destruct y as [|? [|? y]], x as [|? [|? x]]; cbn in Hy; auto; lia. }
    clear -Et Ht G. revert t' Et. induction t as [|y t IHt]; intros t' Et; cbn [divide_rows] in Et.
    + injection Et as <-. constructor.
    + destruct (broadcast Rdiv y w) as [y'|] eqn:Ey; [|discriminate]. cbn [bind] in Et.
      destruct (divide_rows t w) as [t2|]; [|discriminate]. injection Et as <-.
      inversion Ht; subst. constructor; auto. apply G with y; auto.
Qed.

Lemma take_length l idx r : take l idx = Ok r -> length r = length idx.
Proof.
  revert r; induction idx as [|i t IH]; intros r H; cbn [take] in H; [injection H as <-; auto|].
  destruct (item l i); [|discriminate]. cbn [bind] in H. destruct (take l t); [|discriminate]. injection H as <-.
  cbn. f_equal. auto.
Qed.

Lemma select_rect k m s D : select k m = Ok s -> rectangular m D -> length s = length m /\ exists D', rectangular s D'.
Proof.
  unfold select. destruct (k_features k) as [f|]; intros H HR.
  - revert s H. induction m as [|r t IH]; intros s H; cbn [select_columns] in H.
    + injection H as <-. split; auto. exists 0%nat. constructor.
    + destruct (take r f) as [r'|] eqn:Er; [|discriminate]. cbn [bind] in H.
      destruct (select_columns t f) as [t'|] eqn:Et; [|discriminate]. injection H as <-.
      inversion HR; subst. destruct (IH ltac:(auto) t' eq_refl) as [HL _]. split; [cbn; auto|].
      exists (length f). constructor; [apply take_length in Er; auto|].
      clear -Et. revert t' Et. induction t as [|y t IHt]; intros t' Et; cbn [select_columns] in Et.
      * injection Et as <-. constructor.
      * destruct (take y f) as [y'|] eqn:Ey; [|discriminate]. cbn [bind] in Et.
        destruct (select_columns t f); [|discriminate]. injection Et as <-.
        constructor; [apply take_length in Ey; auto|]. apply IHt; auto.
  - injection H as <-. split; auto. exists D. auto.
Qed.

(** ** Each kernel is a multiplier over the row indices *)
Section OnRows.
Variable n : nat.
Notation P := (fun i : nat => (i < n)%nat).
Notation multi := (mult P).

Lemma mult_gaussian_rows s D : length s = n -> rectangular s D ->
  multi (fun i j => gaussian_fn (row_at s i) (row_at s j)).
Proof.
  intros HL HR.
  apply mult_ext with (k := fun i j => exp (- / 2 * sqdist (fun d i => nth d (row_at s i) 0) D i j)).
  - intros i j Hi Hj. unfold gaussian_fn. rewrite (sqeuclidean_Sum _ _ D) by (apply row_at_length; auto; lia). reflexivity.
  - apply mult_gaussian. lra.
Qed.

Lemma mult_laplacian_rows s D : length s = n -> rectangular s D ->
  multi (fun i j => laplacian_fn (row_at s i) (row_at s j)).
Proof.
  intros HL HR.
  apply mult_ext with (k := fun i j => exp (- cityblock (fun d i => nth d (row_at s i) 0) D i j)).
  - intros i j Hi Hj. unfold laplacian_fn. rewrite (cityblock_Sum _ _ D) by (apply row_at_length; auto; lia). reflexivity.
  - apply mult_laplacian.
Qed.

Lemma mult_linear_rows s D : length s = n -> rectangular s D ->
  multi (fun i j => inner (row_at s i) (row_at s j)).
Proof.
  intros HL HR.
  apply mult_ext with (k := fun i j => Sum D (fun d => (fun d i => nth d (row_at s i) 0) d i * (fun d i => nth d (row_at s i) 0) d j)).
  - intros i j Hi Hj. rewrite (inner_Sum _ _ D) by (apply row_at_length; auto; lia). reflexivity.
  - apply (mult_linear P (fun d i => nth d (row_at s i) 0)).
Qed.

Lemma mult_quadratic_rows s D d : 0 <= d -> length s = n -> rectangular s D ->
  multi (fun i j => quadratic_fn d (row_at s i) (row_at s j)).
Proof.
  intros Hd HL HR.
  apply mult_ext with (k := fun i j => Rpower (1 + / 2 * sqdist (fun d i => nth d (row_at s i) 0) D i j) (- d)).
  - intros i j Hi Hj. unfold quadratic_fn. rewrite (sqeuclidean_Sum _ _ D) by (apply row_at_length; auto; lia). reflexivity.
  - apply mult_quadratic; lra.
Qed.

Lemma mult_delta (c : nat -> R) : (forall i, 0 <= c i) -> multi (fun i j => if (i =? j)%nat then c i else 0).
Proof.
  intros Hc.
  apply mult_ext with (k := fun i j => Sum n (fun t => c t * ((if (i =? t)%nat then 1 else 0) * (if (j =? t)%nat then 1 else 0)))).
  - intros i j Hi Hj. destruct (Nat.eqb_spec i j) as [->|N].
    + rewrite <- (Sum_delta n j c) by auto. apply Sum_ext. intros t _. destruct (j =? t)%nat; ring.
    + apply Sum_zero. intros t _. destruct (Nat.eqb_spec i t), (Nat.eqb_spec j t); try ring. lia.
  - apply (mult_Sum P n (fun t i j => c t * ((if (i =? t)%nat then 1 else 0) * (if (j =? t)%nat then 1 else 0)))).
    intros t _. apply mult_scal; auto. apply (mult_rank1 P (fun i => if (i =? t)%nat then 1 else 0)).
Qed.

Lemma dist_matrix_mult f s : length s = n -> (forall x, f x x = 1) ->
  multi (fun i j => f (row_at s i) (row_at s j)) -> multi (at_ (dist_matrix f s None)).
Proof.
  intros HL H1 HM. apply mult_ext with (k := fun i j => f (row_at s i) (row_at s j)); auto.
  intros i j _ _. cbn. destruct (Nat.eqb_spec i j) as [->|]; auto.
Qed.
End OnRows.

Lemma dist_matrix_symm n f s : (forall x y, f x y = f y x) -> symm n (at_ (dist_matrix f s None)).
Proof. intros H i j _ _. cbn. rewrite (Nat.eqb_sym i j). destruct (j =? i)%nat; auto. Qed.

(** ** Hyperparameters that make sense for a covariance.  With log_scale the code
    uses exp of every hyperparameter, so no sign condition is needed. *)
Definition nonneg_val (v : val) : Prop := match v with Num x => 0 <= x | Arr l => Forall (fun x => 0 <= x) l end.
Definition opt {A} (Q : A -> Prop) (o : option A) : Prop := match o with None => True | Some a => Q a end.
Definition nonzero_val (v : val) : Prop := match v with Num x => x <> 0 | Arr l => Forall (fun x => x <> 0) l end.

Record sensible (log_scale : bool) (k : kdict) : Prop := {
  s_scaling : log_scale = false -> opt (fun x => 0 <= x) (k_scaling k);
  s_const : log_scale = false -> opt (fun x => 0 <= x) (k_const k);
  s_slope : log_scale = false -> opt nonneg_val (k_slope k);
  s_degree : log_scale = false -> opt nonneg_val (k_degree k);
  (* division by zero is not modelled *)
  s_slope0 : log_scale = false -> opt nonzero_val (k_slope k);
  s_width0 : log_scale = false -> opt nonzero_val (k_width k) }.

Lemma floats_get l r i : floats l = Ok r -> nth_error l i = option_map Num (nth_error r i).
Proof.
  revert r i; induction l as [|[x|a] t IH]; intros r i H; cbn [floats] in H.
  - injection H as <-. destruct i; auto.
  - destruct (floats t) as [r'|] eqn:E; [|discriminate]. injection H as <-. destruct i; cbn; auto.
  - discriminate.
Qed.

Lemma as_number_in th i x : as_number th i = Ok x -> In (Num x) th \/ In (Arr [x]) th.
Proof.
  unfold as_number. destruct (nth_error th i) as [v|] eqn:E; [|discriminate]. apply nth_error_In in E.
  destruct v as [y|[|y [|z l]]]; intros H; try discriminate; injection H as <-; auto.
Qed.

(** The list of hyperparameters of a well formed dictionary. *)
Lemma kdict2list_scaling k nd s th : kdict2list k nd = Ok (s, th) ->
  s = match k_scaling k with Some x => [x] | None => [] end.
Proof.
  unfold kdict2list. destruct (k_type k); [|discriminate]. destruct (get_theta _ _); [|discriminate].
  intros [= <- _]. auto.
Qed.

Lemma quadratic_theta_nonneg k nd s th : kdict2list k nd = Ok (s, th) ->
  k_type k = Some KQuadratic -> k_hyper k = None -> opt nonneg_val (k_slope k) -> opt nonneg_val (k_degree k) ->
  forall i x, as_number th i = Ok x -> 0 <= x.
Proof.
  unfold kdict2list, get_theta. intros H Ht Hh Hs Hd i x Hi. rewrite Ht, Hh in H.
  destruct (match k_width k with Some w => to_list w | None => Ok [] end); [|discriminate]. cbn [bind] in H.
  destruct (k_slope k) as [sl|]; [|discriminate]. destruct (k_degree k) as [dg|]; [|discriminate].
  destruct sl as [y|l]; cbn [to_list bind] in H; [discriminate|]. injection H as <- <-.
  cbn [opt nonneg_val] in Hs, Hd. rewrite Forall_forall in Hs.
  destruct (as_number_in _ _ _ Hi) as [Hin|Hin]; apply in_app_or in Hin; destruct Hin as [Hin|Hin].
  - apply in_map_iff in Hin. destruct Hin as [z [[= ->] Hz]]. auto.
  - destruct Hin as [->|[]]. exact Hd.
  - apply in_map_iff in Hin. destruct Hin as [z [? Hz]]. discriminate.
  - destruct Hin as [->|[]]. cbn in Hd. inversion Hd; auto.
Qed.

Lemma constant_theta_nonneg k nd s th : kdict2list k nd = Ok (s, th) ->
  k_type k = Some KConstant -> k_hyper k = None -> is_some (k_const k) = true -> opt (fun x => 0 <= x) (k_const k) ->
  forall x, as_number th 0 = Ok x -> 0 <= x.
Proof.
  unfold kdict2list, get_theta. intros H Ht Hh Hs Hc x Hx. rewrite Ht, Hh in H.
  destruct (match k_width k with Some w => to_list w | None => Ok [] end); [|discriminate]. cbn [bind] in H.
  destruct (k_const k) as [c|]; [|discriminate]. injection H as <- <-. cbn in Hx. injection Hx as <-. exact Hc.
Qed.

(** Kernel types whose covariance is meaningful without gradients. *)
Definition ordinary (k : kdict) : Prop :=
  match k_type k with
  | Some KConstant => k_hyper k = None /\ is_some (k_const k) = true
  | Some (KGaussian | KLaplacian | KLinear | KNoiseMulti) => True
  | Some KQuadratic => k_hyper k = None
  | _ => False
  end.

Lemma logged_nonneg b x : (b = false -> 0 <= x) -> 0 <= logged b x.
Proof. unfold logged. destruct b; intros H; [left; apply exp_pos|auto]. Qed.

Lemma scaled_kernel_mult k log_scale m1 D K :
  rectangular m1 D -> ordinary k -> sensible log_scale k ->
  scaled_kernel k log_scale false m1 None = Ok K ->
  nr K = length m1 /\ nc K = length m1 /\ symm (length m1) (at_ K) /\
  mult (fun i => (i < length m1)%nat) (at_ K).
Proof.
  intros HR HO HS H. unfold scaled_kernel in H. destruct (k_type k) as [t|] eqn:Et; [|discriminate].
  destruct (select k m1) as [s1|] eqn:Es; [|discriminate]. cbn [bind] in H.
  destruct (select_rect k m1 s1 D Es HR) as [HL [D1 HR1]].
  destruct (kdict2list k (ncols m1)) as [[sc th]|] eqn:Ek; [|discriminate]. cbn [bind fst snd] in H.
  pose proof (kdict2list_scaling _ _ _ _ Ek) as Esc.
  destruct (kernel t th log_scale false s1 None) as [K0|] eqn:EK; [|discriminate]. cbn [bind] in H.
  injection H as <-. cbn [nr nc at_].
  assert (Hsc : 0 <= logged log_scale (match sc with s :: _ => s | [] => 1 end)).
  { apply logged_nonneg. intros Hl. rewrite Esc. pose proof (s_scaling _ _ HS Hl) as Q.
    destruct (k_scaling k); cbn in Q |- *; lra. }
  set (c := logged log_scale _) in *. clearbody c.
  enough (G : nr K0 = length m1 /\ nc K0 = length m1 /\ symm (length m1) (at_ K0) /\
              mult (fun i => (i < length m1)%nat) (at_ K0)).
  { destruct G as [G1 [G2 [G3 G4]]]. repeat split; auto.
    - intros i j Hi Hj. rewrite G3; auto.
    - apply mult_scal; auto. }
  unfold ordinary in HO. rewrite Et in HO.
  destruct t; try contradiction; cbn [kernel negb] in EK.
  - (* constant *)
    destruct HO as [Hh Hc].
    destruct (as_number th 0) as [x|] eqn:Ex; [|discriminate]. injection EK as <-. cbn.
    repeat split; auto.
    apply mult_const. apply logged_nonneg. intros Hl.
    eapply constant_theta_nonneg; eauto. apply (s_const _ _ HS Hl).
  - (* noise_multi *)
    destruct (as_number th 0) as [x|]; [|discriminate]. cbn [bind] in EK.
    destruct (as_number th 1) as [y|]; [|discriminate]. injection EK as <-. cbn.
    repeat split; auto.
    + intros i j _ _. rewrite Nat.eqb_sym. auto.
    + apply (mult_delta (length m1) (fun _ => logged log_scale x * (logged log_scale x * 1))). intros. nra.
  - (* gaussian *)
    destruct (floats th) as [w|]; [|discriminate]. cbn [bind] in EK. unfold gaussian_kernel in EK.
    destruct (divide_rows s1 (map (logged log_scale) w)) as [r|] eqn:Er; [|discriminate]. cbn [bind divide_opt negb] in EK.
    injection EK as <-. destruct (divide_rows_rect _ _ _ _ Er HR1) as [HLr [D' HR']].
    split; [cbn; lia|split; [cbn; lia|split]].
    + apply (dist_matrix_symm _ gaussian_fn r). intros x y. unfold gaussian_fn. rewrite sqeuclidean_sym. auto.
    + apply dist_matrix_mult; [lia|apply gaussian_self|]. apply mult_gaussian_rows with D'; auto. lia.
  - (* quadratic *)
    destruct (as_number th 0) as [x|] eqn:Ex; [|discriminate]. cbn [bind] in EK.
    destruct (as_number th 1) as [y|] eqn:Ey; [|discriminate]. injection EK as <-.
    assert (Hy : 0 <= logged log_scale y).
    { apply logged_nonneg. intros Hl.
      eapply quadratic_theta_nonneg; eauto; [apply (s_slope _ _ HS Hl)|apply (s_degree _ _ HS Hl)]. }
    set (sl := logged log_scale x). set (dg := logged log_scale y) in *. unfold quadratic_kernel.
    set (r := map (map (fun z => z / sl * dg)) s1).
    assert (HLr : length r = length s1) by apply map_length.
    assert (HR' : rectangular r D1).
    { unfold r, rectangular. apply Forall_map. eapply Forall_impl; [|exact HR1]. intros a Ha. cbv beta. rewrite map_length. auto. }
    split; [cbn; lia|split; [cbn; lia|split]].
    + apply (dist_matrix_symm _ (quadratic_fn dg) r). intros u v. unfold quadratic_fn. rewrite sqeuclidean_sym. auto.
    + apply dist_matrix_mult; [lia|apply quadratic_self|]. apply mult_quadratic_rows with D1; auto. lia.
  - (* laplacian *)
    destruct (floats th) as [w|]; [|discriminate]. cbn [bind] in EK. unfold laplacian_kernel in EK.
    destruct (divide_rows s1 (map (logged log_scale) w)) as [r|] eqn:Er; [|discriminate]. cbn [bind divide_opt] in EK.
    injection EK as <-. destruct (divide_rows_rect _ _ _ _ Er HR1) as [HLr [D' HR']].
    split; [cbn; lia|split; [cbn; lia|split]].
    + apply (dist_matrix_symm _ laplacian_fn r). intros x y. unfold laplacian_fn. rewrite cityblock_sym. auto.
    + apply dist_matrix_mult; [lia|apply laplacian_self|]. apply mult_laplacian_rows with D'; auto. lia.
  - (* linear *)
    injection EK as <-. unfold linear_kernel. cbn [negb cols_of nr nc]. rewrite HL. repeat split; auto.
    + intros i j _ _. apply inner_sym.
    + apply mult_linear_rows with D1; auto.
Qed.

Lemma accumulate_shape mlt a b c : accumulate mlt a b = Ok c ->
  nr b = nr a /\ nc b = nc a /\ nr c = nr a /\ nc c = nc a /\
  at_ c = (fun i j => if mlt then at_ a i j * at_ b i j else at_ a i j + at_ b i j).
Proof.
  unfold accumulate. destruct ((nr a =? nr b) && (nc a =? nc b))%nat eqn:E; [|discriminate].
  apply andb_prop in E. destruct E as [E1 E2]. apply Nat.eqb_eq in E1. apply Nat.eqb_eq in E2.
  intros [= <-]. cbn. auto.
Qed.

Definition good (n : nat) (c : matrix) : Prop :=
  nr c = n /\ nc c = n /\ symm n (at_ c) /\ mult (fun i => (i < n)%nat) (at_ c).

Lemma accumulate_good n mlt a b c : accumulate mlt a b = Ok c -> good n a -> good n b -> good n c.
Proof.
  intros H [A1 [A2 [A3 A4]]] [B1 [B2 [B3 B4]]]. apply accumulate_shape in H.
  destruct H as [_ [_ [H1 [H2 H3]]]]. unfold good. rewrite H1, H2, H3. repeat split; auto.
  - intros i j Hi Hj. cbv beta. rewrite (A3 i j), (B3 i j) by auto. auto.
  - destruct mlt; [apply (mult_mult _ (at_ a) (at_ b))|apply (mult_plus _ (at_ a) (at_ b))]; auto.
Qed.

Lemma cov_loop_good ks log_scale m1 D : rectangular m1 D ->
  Forall ordinary ks -> Forall (sensible log_scale) ks ->
  forall c0 c, cov_loop ks log_scale false m1 None c0 = Ok (Some c) ->
  match c0 with None => True | Some x => good (length m1) x end -> good (length m1) c.
Proof.
  intros HR. induction ks as [|k ks IH]; intros HO HS c0 c H HG; cbn [cov_loop] in H.
  - injection H as ->. exact HG.
  - apply Forall_cons_iff in HO. destruct HO as [HO1 HO2]. apply Forall_cons_iff in HS. destruct HS as [HS1 HS2].
    destruct (scaled_kernel k log_scale false m1 None) as [K|] eqn:EK; [|discriminate]. cbn [bind] in H.
    pose proof (scaled_kernel_mult _ _ _ _ _ HR HO1 HS1 EK) as GK.
    destruct (accumulate _ _ K) as [c1|] eqn:EA in H; [|discriminate]. cbn [bind] in H.
    apply (IH HO2 HS2 _ _ H).
    apply (accumulate_good _ _ _ _ _ EA); auto.
    destruct c0 as [x|]; auto. destruct GK as [G1 [G2 _]]. split; [|split; [|split]]; cbn; auto.
    + intros i j _ _. reflexivity.
    + apply mult_const. lra.
Qed.

(** ** Quadratic forms *)
Lemma psd_quad n A : psd (fun i => (i < n)%nat) A -> possemidef n A.
Proof.
  intros H x. specialize (H n x (fun i => i) ltac:(auto)). unfold form in H. unfold quad.
  erewrite Sum_ext; [exact H|]. intros i _. apply Sum_ext. intros; ring.
Qed.

Lemma quad_reg n A r x : quad n (fun i j => A i j + (r * ident i j) ^ 2) x = quad n A x + r ^ 2 * dotv n x x.
Proof.
  unfold quad, dotv. rewrite <- Sum_scal, <- Sum_plus. apply Sum_ext. intros i Hi.
  transitivity (Sum n (fun j => x i * A i j * x j) + Sum n (fun j => (if (i =? j)%nat then 1 else 0) * (r ^ 2 * (x i * x j)))).
  - rewrite <- Sum_plus. apply Sum_ext. intros j _. unfold ident. destruct (i =? j)%nat; ring.
  - rewrite Sum_delta by auto. auto.
Qed.

Lemma posdef_reg n A r : possemidef n A -> r <> 0 -> posdef n (fun i j => A i j + (r * ident i j) ^ 2).
Proof.
  intros H Hr x [i [Hi Hx]]. rewrite quad_reg. specialize (H x).
  assert (0 < r ^ 2) by nra.
  assert (0 < dotv n x x).
  { destruct (Rle_lt_or_eq_dec 0 (dotv n x x)) as [L|E]; auto.
    - apply Sum_nonneg. intros; nra.
    - exfalso. apply Hx. symmetry in E. assert (Q := Sum_pos_zero n (fun i => x i * x i) ltac:(intros; nra) E i Hi).
      cbv beta in Q. nra. }
  nra.
Qed.
