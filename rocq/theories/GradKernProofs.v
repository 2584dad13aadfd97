(** The covariance matrices with eval_gradients. *)
From Coq Require Import Reals Lra Lia List Arith Bool.
From Coquelicot Require Import Coquelicot.
From Verif Require Import Base BaseFacts RBase LinAlg PSD KernModel KernProofs KernSetupProofs KernDefProofs KernScaleProofs
  KernEntryProofs GradSpec GradProofs GradPSD.
From Coq Require Import List.
Import ListNotations.
Open Scope R_scope.

(** ** Closure properties of the specification *)
Lemma partial_ext f g d x v : (d < length x)%nat -> (forall z, length z = length x -> f z = g z) -> partial f d x v -> partial g d x v.
Proof.
  intros Hd H. unfold partial. rewrite <- !is_derive_Reals. apply is_derive_ext. intros t. apply H. apply set_coord_length; auto.
Qed.

Lemma partial_plus f g d x u v : partial f d x u -> partial g d x v -> partial (fun z => f z + g z) d x (u + v).
Proof. unfold partial. apply derivable_pt_lim_plus. Qed.

Lemma partial_scal c f d x v : partial f d x v -> partial (fun z => c * f z) d x (c * v).
Proof. unfold partial. apply derivable_pt_lim_scal. Qed.

Lemma partial_const c d x : partial (fun _ => c) d x 0.
Proof. unfold partial. apply derivable_pt_lim_const. Qed.

Lemma mixed_ext k k' a b x y v : (a < length x)%nat -> (b < length y)%nat ->
  (forall u v, length u = length x -> length v = length y -> k u v = k' u v) ->
  mixed_partial k a b x y v -> mixed_partial k' a b x y v.
Proof.
  intros Ha Hb H [g [G1 G2]]. exists g. split; auto. intros z Hz.
  apply (partial_ext (fun y => k z y)); auto.
Qed.

Lemma mixed_plus k k' a b x y u v : mixed_partial k a b x y u -> mixed_partial k' a b x y v ->
  mixed_partial (fun s t => k s t + k' s t) a b x y (u + v).
Proof.
  intros [g [G1 G2]] [g' [G1' G2']]. exists (fun z => g z + g' z). split.
  - intros z Hz. apply partial_plus; auto.
  - apply partial_plus; auto.
Qed.

Lemma mixed_scal c k a b x y v : mixed_partial k a b x y v -> mixed_partial (fun s t => c * k s t) a b x y (c * v).
Proof.
  intros [g [G1 G2]]. exists (fun z => c * g z). split.
  - intros z Hz. apply partial_scal; auto.
  - apply partial_scal; auto.
Qed.

Section Closure.
Variables (D : nat) (xs : list row).
Hypothesis HR : rectangular xs D.

Lemma nth_rect i : (i < length xs)%nat -> length (nth i xs []) = D.
Proof. intros H. apply (row_at_length xs D i HR H). Qed.

Lemma gc_ext k k' K : (forall u v, length u = D -> length v = D -> k u v = k' u v) ->
  gradient_covariance k D xs K -> gradient_covariance k' D xs K.
Proof.
  intros H G. destruct G as [G1 G2 G3 G4 G5 G6]. constructor; auto.
  - intros i j Hi Hj. rewrite G3 by auto. apply H; apply nth_rect; auto.
  - intros i j d Hi Hj Hd. apply (partial_ext (fun y => k (nth i xs []) y)); [rewrite nth_rect; auto| |apply G4; auto].
    intros z Hz. apply H; [apply nth_rect; auto|]. rewrite Hz. apply nth_rect; auto.
  - intros i j d Hi Hj Hd. apply (partial_ext (fun x => k x (nth j xs []))); [rewrite nth_rect; auto| |apply G5; auto].
    intros z Hz. apply H; [|apply nth_rect; auto]. rewrite Hz. apply nth_rect; auto.
  - intros i j a b Hi Hj Ha Hb. apply (mixed_ext k); [rewrite nth_rect; auto|rewrite nth_rect; auto| |apply G6; auto].
    intros u v Hu Hv. apply H; [rewrite Hu|rewrite Hv]; apply nth_rect; auto.
Qed.

Lemma gc_plus k k' K K' : gradient_covariance k D xs K -> gradient_covariance k' D xs K' ->
  gradient_covariance (fun u v => k u v + k' u v) D xs (Mx (nr K) (nc K) (fun i j => at_ K i j + at_ K' i j)).
Proof.
  intros G G'. destruct G as [G1 G2 G3 G4 G5 G6], G' as [H1 H2 H3 H4 H5 H6]. constructor; cbn [nr nc at_]; auto.
  - intros. rewrite G3, H3; auto.
  - intros. apply partial_plus; auto.
  - intros i j d Hi Hj Hd. apply (partial_plus (fun x => k x (nth j xs [])) (fun x => k' x (nth j xs []))); auto.
  - intros. apply mixed_plus; auto.
Qed.

Lemma gc_scal c k K : gradient_covariance k D xs K ->
  gradient_covariance (fun u v => c * k u v) D xs (Mx (nr K) (nc K) (fun i j => c * at_ K i j)).
Proof.
  intros G. destruct G as [G1 G2 G3 G4 G5 G6]. constructor; cbn [nr nc at_]; auto.
  - intros. rewrite G3; auto.
  - intros. apply partial_scal; auto.
  - intros i j d Hi Hj Hd. apply (partial_scal c (fun x => k x (nth j xs []))); auto.
  - intros. apply mixed_scal; auto.
Qed.

Lemma gc_zero : gradient_covariance (fun _ _ => 0) D xs
  (Mx (length xs + length xs * D) (length xs + length xs * D) (fun _ _ => 0)).
Proof.
  constructor; cbn [nr nc at_]; auto.
  - intros. apply partial_const.
  - intros. apply partial_const.
  - intros. exists (fun _ => 0). split; [intros|]; apply partial_const.
Qed.
End Closure.

Section ClosureCross.
Variables (D : nat) (xs ys : list row).
Hypothesis HRx : rectangular xs D.
Hypothesis HRy : rectangular ys D.

Lemma gx_ext k k' K : (forall u v, length u = D -> length v = D -> k u v = k' u v) ->
  gradient_cross_covariance k D xs ys K -> gradient_cross_covariance k' D xs ys K.
Proof.
  intros H [G1 G2 G3 G4]. constructor; auto.
  - intros i j Hi Hj. rewrite G3 by auto. apply H; apply nth_rect; auto.
  - intros i j d Hi Hj Hd. apply (partial_ext (fun y => k (nth i xs []) y)); [rewrite (nth_rect D); auto| |apply G4; auto].
    intros z Hz. apply H; [apply nth_rect; auto|]. rewrite Hz. apply nth_rect; auto.
Qed.

Lemma gx_plus k k' K K' : gradient_cross_covariance k D xs ys K -> gradient_cross_covariance k' D xs ys K' ->
  gradient_cross_covariance (fun u v => k u v + k' u v) D xs ys (Mx (nr K) (nc K) (fun i j => at_ K i j + at_ K' i j)).
Proof.
  intros [G1 G2 G3 G4] [H1 H2 H3 H4]. constructor; cbn [nr nc at_]; auto.
  - intros. rewrite G3, H3; auto.
  - intros. apply partial_plus; auto.
Qed.

Lemma gx_scal c k K : gradient_cross_covariance k D xs ys K ->
  gradient_cross_covariance (fun u v => c * k u v) D xs ys (Mx (nr K) (nc K) (fun i j => c * at_ K i j)).
Proof.
  intros [G1 G2 G3 G4]. constructor; cbn [nr nc at_]; auto.
  - intros. rewrite G3; auto.
  - intros. apply partial_scal; auto.
Qed.

Lemma gx_zero : gradient_cross_covariance (fun _ _ => 0) D xs ys
  (Mx (length xs) (length ys + length ys * D) (fun _ _ => 0)).
Proof. constructor; cbn [nr nc at_]; auto. intros. apply partial_const. Qed.
End ClosureCross.

(** ** The gaussian kernel *)
Lemma wnth_broadcast x w x' D : length x = D -> (length w = D \/ length w = 1%nat) -> broadcast Rdiv x w = Ok x' ->
  length x' = D /\ forall d, (d < D)%nat -> nth d x' 0 = nth d x 0 / wnth w d.
Proof.
  intros Hx Hl H. unfold broadcast in H. destruct (Nat.eqb_spec (length x) (length w)) as [E|N].
  - injection H as <-. split; [rewrite map_length, combine_length; lia|]. intros d Hd.
    rewrite (nth_map_lt _ _ _ (0, 0)) by (rewrite combine_length; lia). rewrite combine_nth by auto. cbn [fst snd].
    unfold wnth. destruct w as [|a [|b w]]; auto. cbn in E. replace d with 0%nat by lia. auto.
  - destruct Hl as [Hl|Hl]; [lia|]. destruct w as [|b [|? ?]]; try discriminate. cbn [length] in N.
    destruct x as [|a [|a' x]].
    + injection H as <-. cbn in Hx. cbn. split; [auto|intros; lia].
    + cbn in N. lia.
    + set (z := a :: a' :: x) in *. assert (E : x' = map (fun u => u / b) z) by (injection H as <-; reflexivity). subst x'.
      split; [rewrite map_length; auto|]. intros d Hd. rewrite (nth_map_lt _ _ _ 0) by lia. reflexivity.
Qed.

Lemma gaussian_fn_gauss x y w x' y' D : length x = D -> length y = D -> (length w = D \/ length w = 1%nat) ->
  (forall d, (d < D)%nat -> wnth w d <> 0) ->
  broadcast Rdiv x w = Ok x' -> broadcast Rdiv y w = Ok y' -> gaussian_fn x' y' = gauss (wnth w) D x y.
Proof.
  intros Hx Hy Hl Hw Ex Ey. destruct (wnth_broadcast _ _ _ _ Hx Hl Ex) as [Lx Nx].
  destruct (wnth_broadcast _ _ _ _ Hy Hl Ey) as [Ly Ny].
  unfold gaussian_fn, gauss. f_equal. f_equal. rewrite (sqeuclidean_Sum _ _ D) by auto. unfold sqd. apply Sum_ext.
  intros d Hd. rewrite Nx, Ny by auto. field. auto.
Qed.

Lemma gaussian_grad w m D : m <> [] -> rectangular m D -> (length w = D \/ length w = 1%nat) ->
  (forall d, (d < D)%nat -> wnth w d <> 0) ->
  exists K, gaussian_kernel w true m None = Ok K /\
    nr K = (length m + length m * D)%nat /\ nc K = (length m + length m * D)%nat /\
    forall p q, (p < length m + length m * D)%nat -> (q < length m + length m * D)%nat ->
      at_ K p q = entry (wnth w) D (row_at m) (length m) p q.
Proof.
  intros HN HR Hl Hw. unfold gaussian_kernel.
  destruct (divide_ok m w D HR Hl) as [t [Et Lt]]. rewrite Et. cbn [bind divide_opt negb].
  rewrite (rectangular_ncols m D HR HN).
  replace ((length w =? 1)%nat || (length w =? D)%nat) with true.
  2:{ symmetry. apply orb_true_iff. rewrite !Nat.eqb_eq. tauto. }
  unfold gaussian_xx_gradients, grad_size. rewrite (rectangular_ncols m D HR HN).
  eexists. split; [reflexivity|]. cbn [nr nc at_]. split; [auto|]. split; [auto|].
  intros p q Hp Hq. destruct (index_bound _ _ _ Hp) as [Bp Dp]. destruct (index_bound _ _ _ Hq) as [Bq Dq].
  assert (KG : forall i j, (i < length m)%nat -> (j < length m)%nat ->
     at_ (dist_matrix gaussian_fn t None) i j = gauss (wnth w) D (row_at m i) (row_at m j)).
  { intros i j Hi Hj. rewrite dist_matrix_entry by apply gaussian_self. cbn [cols_of].
    apply gaussian_fn_gauss; auto; try (apply row_at_length; auto); apply divide_rows_nth; auto. }
  assert (KS : forall i j, (i < length m)%nat -> (j < length m)%nat ->
     at_ (dist_matrix gaussian_fn t None) i j = at_ (dist_matrix gaussian_fn t None) j i).
  { intros i j Hi Hj. rewrite !KG by auto. apply gauss_sym; auto. }
  unfold gaussian_xx_entry. rewrite (rectangular_ncols m D HR HN). unfold entry, gjet.
  unfold ibase, idir in *.
  set (n := length m) in *. set (X := row_at m) in *.
  destruct (Nat.ltb_spec p n) as [L1|L1], (Nat.ltb_spec q n) as [L2|L2]; cbn [opt] in Dp, Dq.
  - apply KG; auto.
  - rewrite KS, KG by auto. ring.
  - rewrite KG by auto. ring.
  - destruct (D <=? 30)%nat.
    + rewrite KS, KG by auto. ring.
    + destruct (((p - n) / D <=? (q - n) / D)%nat).
      * rewrite KG by auto. ring.
      * rewrite KS, KG by auto. unfold delta. rewrite (Nat.eqb_sym ((q - n) mod D)).
        destruct (Nat.eqb_spec ((p - n) mod D) ((q - n) mod D)) as [E|N]; [rewrite E|]; ring.
Qed.

Lemma gaussian_gc w m D : m <> [] -> rectangular m D -> (length w = D \/ length w = 1%nat) ->
  (forall d, (d < D)%nat -> wnth w d <> 0) ->
  exists K, gaussian_kernel w true m None = Ok K /\ gradient_covariance (gauss (wnth w) D) D m K /\
    good (length m + length m * D) K.
Proof.
  intros HN HR Hl Hw. destruct (gaussian_grad w m D HN HR Hl Hw) as [K [EK [N1 [N2 HK]]]]. exists K. split; [auto|].
  assert (HX : forall i, (i < length m)%nat -> length (row_at m i) = D) by (intros; apply row_at_length; auto).
  assert (BG : forall i d, (i < length m)%nat -> (d < D)%nat -> (length m + i * D + d < length m + length m * D)%nat) by (intros; nia).
  assert (BV : forall i, (i < length m)%nat -> (i < length m + length m * D)%nat) by (intros; lia).
  split.
  - constructor; auto.
    + intros i j Hi Hj. rewrite HK by auto. unfold entry. destruct (index_value (length m) D i Hi) as [-> ->].
      destruct (index_value (length m) D j Hj) as [-> ->]. reflexivity.
    + intros i j d Hi Hj Hd. rewrite HK by auto. unfold entry. destruct (index_value (length m) D i Hi) as [-> ->].
      destruct (index_grad (length m) D j d Hd) as [-> ->]. apply gauss_right; auto.
    + intros i j d Hi Hj Hd. rewrite HK by auto. unfold entry. destruct (index_value (length m) D j Hj) as [-> ->].
      destruct (index_grad (length m) D i d Hd) as [-> ->]. apply gauss_left; auto.
    + intros i j a b Hi Hj Ha Hb. rewrite HK by auto. unfold entry. destruct (index_grad (length m) D i a Ha) as [-> ->].
      destruct (index_grad (length m) D j b Hb) as [-> ->]. apply gauss_mixed; auto.
  - split; [auto|]. split; [auto|]. split.
    + intros p q Hp Hq. rewrite !HK by auto. apply entry_symm; auto.
    + apply mult_ext with (k := entry (wnth w) D (row_at m) (length m)); [intros; rewrite HK; auto|]. apply entry_mult; auto.
Qed.

Lemma gaussian_gx w m1 m2 D : m1 <> [] -> m2 <> [] -> rectangular m1 D -> rectangular m2 D ->
  (length w = D \/ length w = 1%nat) -> (forall d, (d < D)%nat -> wnth w d <> 0) ->
  exists K, gaussian_kernel w true m1 (Some m2) = Ok K /\ gradient_cross_covariance (gauss (wnth w) D) D m1 m2 K.
Proof.
  intros HN1 HN2 HR1 HR2 Hl Hw. unfold gaussian_kernel.
  destruct (divide_ok m1 w D HR1 Hl) as [t1 [Et1 Lt1]]. rewrite Et1. cbn [bind divide_opt].
  destruct (divide_ok m2 w D HR2 Hl) as [t2 [Et2 Lt2]]. rewrite Et2. cbn [bind negb].
  rewrite (rectangular_ncols m1 D HR1 HN1).
  replace ((length w =? 1)%nat || (length w =? D)%nat) with true.
  2:{ symmetry. apply orb_true_iff. rewrite !Nat.eqb_eq. tauto. }
  unfold gaussian_xxp_gradients, grad_size. rewrite (rectangular_ncols m2 D HR2 HN2).
  eexists. split; [reflexivity|].
  assert (KG : forall i j, (i < length m1)%nat -> (j < length m2)%nat ->
     at_ (dist_matrix gaussian_fn t1 (Some t2)) i j = gauss (wnth w) D (row_at m1 i) (row_at m2 j)).
  { intros i j Hi Hj. rewrite dist_matrix_entry by apply gaussian_self. cbn [cols_of].
    apply gaussian_fn_gauss; auto; try (apply row_at_length; auto); apply divide_rows_nth; auto. }
  constructor; cbn [nr nc at_]; auto.
  - intros i j Hi Hj. destruct (Nat.ltb_spec j (length m2)); [|lia]. apply KG; auto.
  - intros i j d Hi Hj Hd. destruct (index_grad (length m2) D j d Hd) as [Q1 Q2]. unfold ibase, idir in Q1, Q2.
    destruct (Nat.ltb_spec (length m2 + j * D + d) (length m2)); [lia|]. injection Q2 as Q2. rewrite Q1, Q2.
    rewrite KG by auto. 
    replace (- (/ wnth w d ^ 2 * (nth d (row_at m2 j) 0 - nth d (row_at m1 i) 0) * gauss (wnth w) D (row_at m1 i) (row_at m2 j)))
      with (gjet (wnth w) D (row_at m1 i) None (row_at m2 j) (Some d)) by (unfold gjet; ring).
    apply gauss_right; auto. apply row_at_length; auto.
Qed.

(** ** The constant kernel *)
Lemma constant_gc c m D : m <> [] -> rectangular m D -> 0 <= c ->
  gradient_covariance (fun _ _ => c) D m (constant_kernel c true m None) /\
  good (length m + length m * D) (constant_kernel c true m None).
Proof.
  intros HN HR Hc. unfold constant_kernel, grad_size. cbn [negb]. rewrite (rectangular_ncols m D HR HN). split.
  - constructor; cbn [nr nc at_]; auto.
    + intros i j Hi Hj. destruct (Nat.ltb_spec i (length m)), (Nat.ltb_spec j (length m)); try lia. auto.
    + intros i j d Hi Hj Hd. destruct (Nat.ltb_spec (length m + j * D + d) (length m)); [lia|]. rewrite andb_false_r. apply partial_const.
    + intros i j d Hi Hj Hd. destruct (Nat.ltb_spec (length m + i * D + d) (length m)); [lia|]. apply partial_const.
    + intros i j a b Hi Hj Ha Hb. destruct (Nat.ltb_spec (length m + i * D + a) (length m)); [lia|]. cbn [andb].
      exists (fun _ => 0). split; [intros|]; apply partial_const.
  - split; [auto|]. split; [auto|]. split; cbn [at_].
    + intros p q _ _. rewrite andb_comm. auto.
    + set (f := fun p => if (p <? length m)%nat then 1 else 0).
      apply mult_ext with (k := fun p q => c * (f p * f q)).
      * intros p q _ _. unfold f. destruct (p <? length m)%nat, (q <? length m)%nat; cbn; ring.
      * apply mult_scal; auto. apply mult_rank1.
Qed.

Lemma constant_gx c m1 m2 D : m1 <> [] -> m2 <> [] -> rectangular m1 D -> rectangular m2 D ->
  gradient_cross_covariance (fun _ _ => c) D m1 m2 (constant_kernel c true m1 (Some m2)).
Proof.
  intros HN1 HN2 HR1 HR2. unfold constant_kernel, grad_size. cbn [negb]. rewrite (rectangular_ncols m2 D HR2 HN2).
  constructor; cbn [nr nc at_]; auto.
  - intros i j Hi Hj. destruct (Nat.ltb_spec j (length m2)); [auto|lia].
  - intros i j d Hi Hj Hd. destruct (Nat.ltb_spec (length m2 + j * D + d) (length m2)); [lia|]. apply partial_const.
Qed.

(** ** One kernel of the list *)
Definition smooth (k : kdict) : Prop :=
  k_features k = None /\ (k_type k = Some KGaussian \/ k_type k = Some KConstant).

(** The covariance function of one kernel: two single points, no gradients. *)
Definition kfun (k : kdict) (log_scale : bool) (x y : row) : R :=
  match scaled_kernel k log_scale false [x] (Some [y]) with Ok c => at_ c 0 0 | Err _ => 0 end.

Lemma nonzero_widths log_scale k w D : sensible log_scale k -> k_width k = Some (Arr w) -> (length w = D \/ length w = 1%nat) ->
  forall d, (d < D)%nat -> wnth (map (logged log_scale) w) d <> 0.
Proof.
  intros HS Hw Hl d Hd.
  assert (A : forall x, In x w -> logged log_scale x <> 0).
  { intros x Hx. unfold logged. destruct log_scale; [pose proof (exp_pos x); lra|].
    pose proof (s_width0 _ _ HS eq_refl) as Q. rewrite Hw in Q. cbn in Q. rewrite Forall_forall in Q. auto. }
  unfold wnth. destruct w as [|a [|b w]]; cbn [map].
  - cbn in Hl. lia.
  - apply A. left. auto.
  - destruct Hl as [Hl|Hl]; [|cbn in Hl; lia].
    change (logged log_scale a :: logged log_scale b :: map (logged log_scale) w) with (map (logged log_scale) (a :: b :: w)).
    rewrite (nth_map_lt _ _ _ 0) by lia. apply A. apply nth_In. lia.
Qed.

Lemma smooth_kernel D k log_scale : evaluable D k -> sensible log_scale k -> smooth k ->
  exists f, (forall x y, length x = D -> length y = D -> kfun k log_scale x y = f x y) /\
    (forall m, m <> [] -> rectangular m D -> exists K, scaled_kernel k log_scale true m None = Ok K /\
       gradient_covariance f D m K /\ good (length m + length m * D) K) /\
    (forall m1 m2, m1 <> [] -> m2 <> [] -> rectangular m1 D -> rectangular m2 D ->
       exists K, scaled_kernel k log_scale true m1 (Some m2) = Ok K /\ gradient_cross_covariance f D m1 m2 K).
Proof.
  intros [_ HE] HS [HF HT]. cbv zeta in HE. rewrite HF in HE.
  set (s := logged log_scale (match k_scaling k with Some s => s | None => 1 end)).
  assert (Hs : 0 <= s).
  { apply logged_nonneg. intros Hl. pose proof (s_scaling _ _ HS Hl) as Q. destruct (k_scaling k); cbn in Q; lra. }
  assert (GS : forall n K, good n K -> good n (Mx (nr K) (nc K) (fun i j => s * at_ K i j))).
  { intros n K [G1 [G2 [G3 G4]]]. split; [auto|]. split; [auto|]. split; cbn [at_].
    - intros i j Hi Hj. rewrite G3; auto.
    - apply mult_scal; auto. }
  destruct HT as [HT|HT]; rewrite HT in HE.
  - destruct HE as [Hc [Hh [w [Ew Hl]]]].
    set (w' := map (logged log_scale) w).
    pose proof (nonzero_widths log_scale k w D HS Ew Hl) as NZ. fold w' in NZ.
    assert (Hl' : length w' = D \/ length w' = 1%nat) by (unfold w'; rewrite map_length; auto).
    assert (KL : forall nd, kdict2list k nd = Ok (match k_scaling k with Some s => [s] | None => [] end, map Num w)).
    { intros nd. unfold kdict2list, get_theta. rewrite HT, Ew, Hc, Hh. reflexivity. }
    assert (HSC : logged log_scale (match (match k_scaling k with Some s => [s] | None => [] end) with s :: _ => s | [] => 1 end) = s).
    { unfold s. destruct (k_scaling k); auto. }
    exists (fun x y => s * gauss (wnth w') D x y). split; [|split].
    + intros x y Hx Hy. unfold kfun, scaled_kernel, select. rewrite HT, HF. cbn [bind]. rewrite KL. cbn [bind fst snd].
      rewrite HSC. unfold kernel. rewrite floats_nums. cbn [bind]. fold w'. unfold gaussian_kernel.
      destruct (divide_ok [x] w' D) as [t1 [Et1 Lt1]]; [repeat constructor; auto|auto|].
      destruct (divide_ok [y] w' D) as [t2 [Et2 Lt2]]; [repeat constructor; auto|auto|].
      rewrite Et1. cbn [bind divide_opt]. rewrite Et2. cbn [bind negb at_]. f_equal.
      rewrite dist_matrix_entry by apply gaussian_self. cbn [cols_of].
      apply gaussian_fn_gauss; auto.
      * apply (divide_rows_nth [x] w' t1 Et1 0). cbn. lia.
      * apply (divide_rows_nth [y] w' t2 Et2 0). cbn. lia.
    + intros m HN HR. unfold scaled_kernel, select. rewrite HT, HF. cbn [bind]. rewrite KL. cbn [bind fst snd].
      rewrite HSC. unfold kernel. rewrite floats_nums. cbn [bind]. fold w'.
      destruct (gaussian_gc w' m D HN HR Hl' NZ) as [K [EK [G1 G2]]]. rewrite EK. cbn [bind].
      eexists. split; [reflexivity|]. split; [apply gc_scal; auto|apply GS; auto].
    + intros m1 m2 HN1 HN2 HR1 HR2. unfold scaled_kernel, select. rewrite HT, HF. cbn [bind]. rewrite KL. cbn [bind fst snd].
      rewrite HSC. unfold kernel. rewrite floats_nums. cbn [bind]. fold w'.
      destruct (gaussian_gx w' m1 m2 D HN1 HN2 HR1 HR2 Hl' NZ) as [K [EK G1]]. rewrite EK. cbn [bind].
      eexists. split; [reflexivity|]. apply gx_scal; auto.
  - destruct HE as [Hw [Hh Hc]]. destruct (k_const k) as [c|] eqn:Ec; [|discriminate].
    set (c' := logged log_scale c).
    assert (Hc' : 0 <= c').
    { apply logged_nonneg. intros Hl. pose proof (s_const _ _ HS Hl) as Q. rewrite Ec in Q. exact Q. }
    assert (KL : forall nd, kdict2list k nd = Ok (match k_scaling k with Some s => [s] | None => [] end, [Num c])).
    { intros nd. unfold kdict2list, get_theta. rewrite HT, Hw, Ec, Hh. reflexivity. }
    assert (HSC : logged log_scale (match (match k_scaling k with Some s => [s] | None => [] end) with s :: _ => s | [] => 1 end) = s).
    { unfold s. destruct (k_scaling k); auto. }
    exists (fun x y => s * c'). split; [|split].
    + intros x y Hx Hy. unfold kfun, scaled_kernel, select. rewrite HT, HF. cbn [bind]. rewrite KL. cbn [bind fst snd].
      rewrite HSC. cbn. auto.
    + intros m HN HR. unfold scaled_kernel, select. rewrite HT, HF. cbn [bind]. rewrite KL. cbn [bind fst snd].
      rewrite HSC. cbn [kernel as_number nth_error bind]. fold c'.
      destruct (constant_gc c' m D HN HR Hc') as [G1 G2].
      eexists. split; [reflexivity|]. split; [apply (gc_scal D m s (fun _ _ => c')); auto|apply GS; auto].
    + intros m1 m2 HN1 HN2 HR1 HR2. unfold scaled_kernel, select. rewrite HT, HF. cbn [bind]. rewrite KL. cbn [bind fst snd].
      rewrite HSC. cbn [kernel as_number nth_error bind]. fold c'.
      eexists. split; [reflexivity|]. apply (gx_scal D m1 m2 s (fun _ _ => c')). apply constant_gx; auto.
Qed.

(** ** The whole list, combined by addition *)
Definition ksum (ks : list kdict) (log_scale : bool) (x y : row) : R := sumR (map (fun k => kfun k log_scale x y) ks).

Lemma kfun_single D k log_scale x y : evaluable D k -> length x = D -> length y = D ->
  exists K, scaled_kernel k log_scale false [x] (Some [y]) = Ok K /\ nr K = 1%nat /\ nc K = 1%nat /\ at_ K 0 0 = kfun k log_scale x y.
Proof.
  intros HE Hx Hy.
  destruct (scaled_kernel_ok D k log_scale [x] (Some [y]) HE) as [K [EK [N1 N2]]]; [discriminate|repeat constructor; auto|repeat constructor; auto|].
  exists K. unfold kfun. rewrite EK. auto.
Qed.

Lemma cov_loop_single D ks log_scale x y : Forall (evaluable D) ks -> Forall (fun k => k_mult k = false) ks ->
  length x = D -> length y = D -> forall c0 v,
  match c0 with None => ks <> [] /\ v = 0 | Some c => nr c = 1%nat /\ nc c = 1%nat /\ at_ c 0 0 = v end ->
  exists c, cov_loop ks log_scale false [x] (Some [y]) c0 = Ok (Some c) /\ at_ c 0 0 = v + ksum ks log_scale x y.
Proof.
  intros HE HM Hx Hy. induction ks as [|k ks IH]; intros c0 v H0.
  - destruct c0 as [c|]; [|tauto]. exists c. cbn. split; [auto|]. destruct H0 as [_ [_ ->]]. unfold ksum. cbn. lra.
  - apply Forall_cons_iff in HE. destruct HE as [HE1 HE2]. apply Forall_cons_iff in HM. destruct HM as [HM1 HM2].
    destruct (kfun_single D k log_scale x y HE1 Hx Hy) as [K [EK [N1 [N2 HK]]]]. cbn [cov_loop]. rewrite EK. cbn [bind].
    unfold accumulate. rewrite HM1. unfold ksum. cbn [map sumR]. fold (ksum ks log_scale x y).
    destruct c0 as [c|]; cbn [nr nc at_].
    + destruct H0 as [H1 [H2 H3]]. rewrite H1, H2, N1, N2. cbn [Nat.eqb andb bind].
      destruct (IH HE2 HM2 (Some (Mx 1 1 (fun i j => at_ c i j + at_ K i j))) (v + kfun k log_scale x y)) as [c' [Ec Hc]].
      { cbn. rewrite H3, HK. auto. }
      exists c'. split; [auto|]. rewrite Hc. ring.
    + destruct H0 as [_ ->]. rewrite !Nat.eqb_refl. cbn [andb bind].
      destruct (IH HE2 HM2 (Some (Mx (nr K) (nc K) (fun i j => 0 + at_ K i j))) (kfun k log_scale x y)) as [c' [Ec Hc]].
      { cbn [nr nc at_]. rewrite N1, N2, HK. split; [auto|]. split; [auto|]. ring. }
      exists c'. split; [auto|]. rewrite Hc. ring.
Qed.

Lemma kappa_ksum D ks log_scale x y : Forall (evaluable D) ks -> Forall (fun k => k_mult k = false) ks -> ks <> [] ->
  length x = D -> length y = D -> kappa ks log_scale x y = ksum ks log_scale x y.
Proof.
  intros HE HM HN Hx Hy. unfold kappa, get_covariance. cbn [ncols]. rewrite Hx, Hy, Nat.eqb_refl. cbn [require bind].
  destruct (cov_loop_single D ks log_scale x y HE HM Hx Hy None 0 (conj HN eq_refl)) as [c [-> Hc]]. cbn [bind].
  rewrite Hc. ring.
Qed.

Lemma accumulate_plus a b : nr a = nr b -> nc a = nc b ->
  accumulate false a b = Ok (Mx (nr a) (nc a) (fun i j => at_ a i j + at_ b i j)).
Proof. intros H1 H2. unfold accumulate. rewrite H1, H2, !Nat.eqb_refl. reflexivity. Qed.

Lemma cov_loop_grad D ks log_scale m : Forall (evaluable D) ks -> Forall (sensible log_scale) ks -> Forall smooth ks ->
  Forall (fun k => k_mult k = false) ks -> m <> [] -> rectangular m D -> forall c0 f,
  match c0 with None => ks <> [] /\ f = (fun _ _ => 0) | Some c => gradient_covariance f D m c end ->
  exists c, cov_loop ks log_scale true m None c0 = Ok (Some c) /\
    gradient_covariance (fun x y => f x y + ksum ks log_scale x y) D m c.
Proof.
  intros HE HS HK HM HN HR. induction ks as [|k ks IH]; intros c0 f H0.
  - destruct c0 as [c|]; [|tauto]. exists c. split; [reflexivity|].
    apply (gc_ext D m HR f); auto. intros. unfold ksum. cbn. ring.
  - apply Forall_cons_iff in HE. destruct HE as [HE1 HE2]. apply Forall_cons_iff in HM. destruct HM as [HM1 HM2].
    apply Forall_cons_iff in HS. destruct HS as [HS1 HS2]. apply Forall_cons_iff in HK. destruct HK as [HK1 HK2].
    destruct (smooth_kernel D k log_scale HE1 HS1 HK1) as [g [Hg [HG _]]]. destruct (HG m HN HR) as [K [EK [GK _]]].
    cbn [cov_loop]. rewrite EK. cbn [bind]. rewrite HM1.
    set (c1 := match c0 with Some c => c | None => Mx (nr K) (nc K) (fun _ _ => 0) end).
    assert (G1 : gradient_covariance f D m c1).
    { destruct c0 as [c|]; [exact H0|]. destruct H0 as [_ ->]. unfold c1. rewrite (gc_rows _ _ _ _ GK), (gc_cols _ _ _ _ GK). apply gc_zero. }
    rewrite accumulate_plus.
    2:{ rewrite (gc_rows _ _ _ _ GK), (gc_rows _ _ _ _ G1). auto. }
    2:{ rewrite (gc_cols _ _ _ _ GK), (gc_cols _ _ _ _ G1). auto. }
    cbn [bind].
    destruct (IH HE2 HS2 HK2 HM2 (Some (Mx (nr c1) (nc c1) (fun i j => at_ c1 i j + at_ K i j))) (fun x y => f x y + g x y)) as [c [Ec Gc]].
    { apply gc_plus; auto. }
    exists c. split; [auto|]. eapply gc_ext; [exact HR| |exact Gc]. intros u v Hu Hv. cbv beta. unfold ksum. cbn [map sumR].
    rewrite Hg by auto. ring.
Qed.

Lemma cov_loop_gradx D ks log_scale m1 m2 : Forall (evaluable D) ks -> Forall (sensible log_scale) ks -> Forall smooth ks ->
  Forall (fun k => k_mult k = false) ks -> m1 <> [] -> m2 <> [] -> rectangular m1 D -> rectangular m2 D -> forall c0 f,
  match c0 with None => ks <> [] /\ f = (fun _ _ => 0) | Some c => gradient_cross_covariance f D m1 m2 c end ->
  exists c, cov_loop ks log_scale true m1 (Some m2) c0 = Ok (Some c) /\
    gradient_cross_covariance (fun x y => f x y + ksum ks log_scale x y) D m1 m2 c.
Proof.
  intros HE HS HK HM HN1 HN2 HR1 HR2. induction ks as [|k ks IH]; intros c0 f H0.
  - destruct c0 as [c|]; [|tauto]. exists c. split; [reflexivity|].
    apply (gx_ext D m1 m2 HR1 HR2 f); auto. intros. unfold ksum. cbn. ring.
  - apply Forall_cons_iff in HE. destruct HE as [HE1 HE2]. apply Forall_cons_iff in HM. destruct HM as [HM1 HM2].
    apply Forall_cons_iff in HS. destruct HS as [HS1 HS2]. apply Forall_cons_iff in HK. destruct HK as [HK1 HK2].
    destruct (smooth_kernel D k log_scale HE1 HS1 HK1) as [g [Hg [_ HG]]]. destruct (HG m1 m2 HN1 HN2 HR1 HR2) as [K [EK GK]].
    cbn [cov_loop]. rewrite EK. cbn [bind]. rewrite HM1.
    set (c1 := match c0 with Some c => c | None => Mx (nr K) (nc K) (fun _ _ => 0) end).
    assert (G1 : gradient_cross_covariance f D m1 m2 c1).
    { destruct c0 as [c|]; [exact H0|]. destruct H0 as [_ ->]. unfold c1.
      rewrite (gx_rows _ _ _ _ _ GK), (gx_cols _ _ _ _ _ GK). apply gx_zero. }
    rewrite accumulate_plus.
    2:{ rewrite (gx_rows _ _ _ _ _ GK), (gx_rows _ _ _ _ _ G1). auto. }
    2:{ rewrite (gx_cols _ _ _ _ _ GK), (gx_cols _ _ _ _ _ G1). auto. }
    cbn [bind].
    destruct (IH HE2 HS2 HK2 HM2 (Some (Mx (nr c1) (nc c1) (fun i j => at_ c1 i j + at_ K i j))) (fun x y => f x y + g x y)) as [c [Ec Gc]].
    { apply gx_plus; auto. }
    exists c. split; [auto|]. eapply gx_ext; [exact HR1|exact HR2| |exact Gc]. intros u v Hu Hv. cbv beta. unfold ksum. cbn [map sumR].
    rewrite Hg by auto. ring.
Qed.

Lemma covariance_grad D ks log_scale m : Forall (evaluable D) ks -> Forall (sensible log_scale) ks -> Forall smooth ks ->
  Forall (fun k => k_mult k = false) ks -> ks <> [] -> m <> [] -> rectangular m D ->
  exists K, get_covariance ks log_scale m None None true = Ok K /\ gradient_covariance (kappa ks log_scale) D m K.
Proof.
  intros HE HS HK HM HN0 HN HR. unfold get_covariance. cbn [require bind].
  destruct (cov_loop_grad D ks log_scale m HE HS HK HM HN HR None (fun _ _ => 0) (conj HN0 eq_refl)) as [c [-> Gc]]. cbn [bind].
  exists c. split; [auto|]. eapply gc_ext; [exact HR| |exact Gc]. intros u v Hu Hv. cbv beta.
  rewrite (kappa_ksum D) by auto. ring.
Qed.

Lemma covariance_gradx D ks log_scale m1 m2 : Forall (evaluable D) ks -> Forall (sensible log_scale) ks -> Forall smooth ks ->
  Forall (fun k => k_mult k = false) ks -> ks <> [] -> m1 <> [] -> m2 <> [] -> rectangular m1 D -> rectangular m2 D ->
  exists K, get_covariance ks log_scale m1 (Some m2) None true = Ok K /\ gradient_cross_covariance (kappa ks log_scale) D m1 m2 K.
Proof.
  intros HE HS HK HM HN0 HN1 HN2 HR1 HR2. unfold get_covariance.
  rewrite (rectangular_ncols m1 D HR1 HN1), (rectangular_ncols m2 D HR2 HN2), Nat.eqb_refl. cbn [require bind].
  destruct (cov_loop_gradx D ks log_scale m1 m2 HE HS HK HM HN1 HN2 HR1 HR2 None (fun _ _ => 0) (conj HN0 eq_refl)) as [c [-> Gc]]. cbn [bind].
  exists c. split; [auto|]. eapply gx_ext; [exact HR1|exact HR2| |exact Gc]. intros u v Hu Hv. cbv beta.
  rewrite (kappa_ksum D) by auto. ring.
Qed.

(** ** Positivity, also for products *)
Lemma noise_good c1 c2 m D : m <> [] -> rectangular m D -> good (length m + length m * D) (noise_multi_kernel c1 c2 true m None).
Proof.
  intros HN HR. unfold noise_multi_kernel, grad_size. rewrite (rectangular_ncols m D HR HN).
  split; [auto|]. split; [auto|]. split; cbn [at_].
  - intros i j _ _. rewrite (Nat.eqb_sym j i). destruct (Nat.eqb_spec i j) as [->|]; auto.
  - apply (mult_delta _ (fun i => if (i <? length m)%nat then c1 ^ 2 else c2 ^ 2)). intros i. destruct (i <? length m)%nat; nra.
Qed.

Lemma cov_loop_grad_good D ks log_scale m : Forall (evaluable D) ks -> Forall (sensible log_scale) ks -> Forall smooth ks ->
  m <> [] -> rectangular m D -> forall c0,
  match c0 with None => ks <> [] | Some c => good (length m + length m * D) c end ->
  exists c, cov_loop ks log_scale true m None c0 = Ok (Some c) /\ good (length m + length m * D) c.
Proof.
  intros HE HS HK HN HR. induction ks as [|k ks IH]; intros c0 H0.
  - destruct c0 as [c|]; [|tauto]. exists c. auto.
  - apply Forall_cons_iff in HE. destruct HE as [HE1 HE2].
    apply Forall_cons_iff in HS. destruct HS as [HS1 HS2]. apply Forall_cons_iff in HK. destruct HK as [HK1 HK2].
    destruct (smooth_kernel D k log_scale HE1 HS1 HK1) as [g [Hg [HG _]]]. destruct (HG m HN HR) as [K [EK [_ GK]]].
    cbn [cov_loop]. rewrite EK. cbn [bind].
    set (c1 := match c0 with Some c => c | None => Mx (nr K) (nc K) (fun _ _ => 0) end).
    assert (G1 : good (length m + length m * D) c1).
    { destruct c0 as [c|]; [exact H0|]. destruct GK as [G1 [G2 _]]. split; [auto|]. split; [auto|]. split; cbn.
      - intros i j _ _. auto.
      - apply mult_const. lra. }
    assert (exists c', accumulate (k_mult k) c1 K = Ok c') as [c' Ec'].
    { unfold accumulate. destruct G1 as [-> [-> _]], GK as [-> [-> _]]. rewrite !Nat.eqb_refl. cbn. eauto. }
    rewrite Ec'. cbn [bind]. apply (IH HE2 HS2 HK2 (Some c')). apply (accumulate_good _ _ _ _ _ Ec'); auto.
Qed.

Lemma covariance_grad_posdef D ks log_scale m : Forall (evaluable D) ks -> Forall (sensible log_scale) ks -> Forall smooth ks ->
  ks <> [] -> m <> [] -> rectangular m D ->
  exists K, get_covariance ks log_scale m None None true = Ok K /\
    let N := (length m + length m * D)%nat in
    nr K = N /\ nc K = N /\ symm N (at_ K) /\ possemidef N (at_ K) /\
    forall r, logged log_scale r <> 0 ->
      exists Kr, get_covariance ks log_scale m None (Some r) true = Ok Kr /\ nr Kr = N /\ nc Kr = N /\
        (forall i j, at_ Kr i j = at_ K i j + (logged log_scale r * ident i j) ^ 2) /\
        symm N (at_ Kr) /\ posdef N (at_ Kr).
Proof.
  intros HE HS HK HN0 HN HR. unfold get_covariance. cbn [require bind].
  destruct (cov_loop_grad_good D ks log_scale m HE HS HK HN HR None HN0) as [c [-> [G1 [G2 [G3 G4]]]]]. cbn [bind].
  exists c. split; [auto|]. cbv zeta. split; [auto|]. split; [auto|]. split; [auto|].
  assert (Ps : possemidef (length m + length m * D) (at_ c)) by (apply psd_quad, mult_psd; auto).
  split; [auto|]. intros r Hr. rewrite G1, G2, Nat.eqb_refl. eexists. split; [reflexivity|]. cbn [nr nc at_].
  split; [auto|]. split; [auto|]. split; [auto|]. split.
  - intros i j Hi Hj. rewrite (G3 i j) by auto. unfold ident. rewrite (Nat.eqb_sym j i). auto.
  - apply posdef_reg; auto.
Qed.
