(** What a test point and the training data have to do with each other is the same
    whether the point is predicted or is itself part of the training data. *)
From Coq Require Import Reals Lra Lia List Arith Bool.
From Verif Require Import Base BaseFacts RBase LinAlg KernModel KernProofs KernSetupProofs KernProperties.
From Coq Require Import List.
Import ListNotations.
Open Scope R_scope.
Set Bullet Behavior "Strict Subproofs".

(** ** Specification *)
(** Number of observations of [n] points with [d] derivatives each. *)
Definition observed (grad : bool) (n d : nat) : nat := if grad then (n + n * d)%nat else n.
(** A covariance matrix lists the values of all points first, then the derivatives of the
    first point, of the second, and so on.  When [t] points are put in front of [n] others,
    observation [q] of the others is found at this place. *)
Definition place (t n d q : nat) : nat := if (q <? n)%nat then (t + q)%nat else ((t + n) + t * d + (q - n))%nat.

(** ** Lemmas *)
Lemma select_columns_app f m : forall t s, select_columns (t ++ m) f = Ok s ->
  exists a b, select_columns t f = Ok a /\ select_columns m f = Ok b /\ s = a ++ b.
Proof.
  induction t as [|r t IH]; intros s H; cbn [app select_columns] in *; [exists [], s; auto|].
  destruct (take r f) as [r'|]; [|discriminate]. cbn [bind] in *.
  destruct (select_columns (t ++ m) f) as [s'|]; [|discriminate]. cbn [bind] in H. injection H as <-.
  destruct (IH _ eq_refl) as (a & b & -> & E2 & ->). exists (r' :: a), b. auto.
Qed.

Lemma select_columns_shape f m s : select_columns m f = Ok s -> length s = length m /\ rectangular s (length f).
Proof.
  revert s; induction m as [|r m IH]; intros s H; cbn [select_columns] in H; [injection H as <-; split; [auto|constructor]|].
  destruct (take r f) as [r'|] eqn:E; [|discriminate]. cbn [bind] in H. destruct (select_columns m f) as [s'|]; [|discriminate].
  cbn [bind] in H. injection H as <-. destruct (IH _ eq_refl) as [L F]. split; [cbn; auto|]. constructor; auto. eapply take_length; eauto.
Qed.

Lemma select_app k t m s D : rectangular t D -> rectangular m D -> select k (t ++ m) = Ok s ->
  exists a b d, select k t = Ok a /\ select k m = Ok b /\ s = a ++ b /\ length a = length t /\ length b = length m /\
    rectangular a d /\ rectangular b d.
Proof.
  intros HT HM H. unfold select in *. destruct (k_features k) as [f|].
  - destruct (select_columns_app _ _ _ _ H) as (a & b & Ea & Eb & ->). destruct (select_columns_shape _ _ _ Ea), (select_columns_shape _ _ _ Eb).
    exists a, b, (length f). repeat split; auto.
  - injection H as <-. exists t, m, D. repeat split; auto.
Qed.

Lemma divide_rows_app w m : forall t s, divide_rows (t ++ m) w = Ok s ->
  exists a b, divide_rows t w = Ok a /\ divide_rows m w = Ok b /\ s = a ++ b /\ length a = length t /\ length b = length m.
Proof.
  assert (L : forall m s, divide_rows m w = Ok s -> length s = length m).
  { clear. induction m as [|r m IH]; intros s H; cbn in H; [injection H as <-; auto|].
    destruct (broadcast Rdiv r w); [|discriminate]. cbn in H. destruct (divide_rows m w); [|discriminate]. cbn in H. injection H as <-. cbn. f_equal. auto. }
  induction t as [|r t IH]; intros s H; cbn [app divide_rows] in *; [exists [], s; split; [auto|split; [auto|split; [auto|split; [auto|eauto]]]]|].
  destruct (broadcast Rdiv r w) as [r'|]; [|discriminate]. cbn [bind] in *.
  destruct (divide_rows (t ++ m) w) as [s'|]; [|discriminate]. cbn [bind] in H. injection H as <-.
  destruct (IH _ eq_refl) as (a & b & -> & E2 & -> & L1 & L2). exists (r' :: a), b. cbn. repeat split; auto.
Qed.

Lemma row_front (a b : list row) i : (i < length a)%nat -> row_at (a ++ b) i = row_at a i.
Proof. intros. unfold row_at. apply app_nth1. auto. Qed.
Lemma row_back (a b : list row) j n : n = length a -> row_at (a ++ b) (n + j) = row_at b j.
Proof. intros ->. unfold row_at. rewrite app_nth2 by lia. f_equal. lia. Qed.

Lemma ncols_rect (m : list row) d : m <> [] -> rectangular m d -> ncols m = d.
Proof. intros H F. destruct F; [contradiction|]. auto. Qed.

Lemma place_value t n d q : (q < n)%nat -> place t n d q = (t + q)%nat.
Proof. intros. unfold place. destruct (Nat.ltb_spec q n); [auto|lia]. Qed.

Lemma place_derivative t n d q : (n <= q)%nat -> (q < n + n * d)%nat ->
  (t + n <= place t n d q)%nat /\ ((place t n d q - (t + n)) / d = t + (q - n) / d)%nat /\
  ((place t n d q - (t + n)) mod d = (q - n) mod d)%nat /\ ((q - n) / d < n)%nat.
Proof.
  intros H1 H2. unfold place. destruct (Nat.ltb_spec q n); [lia|]. assert (d <> 0)%nat by (intros ->; lia).
  replace (t + n + t * d + (q - n) - (t + n))%nat with (q - n + t * d)%nat by lia.
  rewrite Nat.div_add, Nat.mod_add by auto. split; [lia|]. split; [lia|]. split; [auto|].
  apply Nat.div_lt_upper_bound; auto. lia.
Qed.

Lemma dist_matrix_joint f s1 s2 i q : (i < length s1)%nat -> (q < length s2)%nat ->
  at_ (dist_matrix f s1 (Some s2)) i q = at_ (dist_matrix f (s1 ++ s2) None) i (length s1 + q).
Proof. intros. unfold dist_matrix. cbn [at_]. destruct (Nat.eqb_spec i (length s1 + q)); [lia|]. rewrite row_front, (row_back s1 s2) by auto. auto. Qed.

Lemma kernel_joint ty th lg grad s1 s2 d T J : s1 <> [] -> s2 <> [] -> rectangular s1 d -> rectangular s2 d ->
  kernel ty th lg grad s1 (Some s2) = Ok T -> kernel ty th lg grad (s1 ++ s2) None = Ok J ->
  nr T = length s1 /\ nc T = observed grad (length s2) d /\ nr J = observed grad (length s1 + length s2) d /\ nc J = nr J /\
  forall i q, (i < length s1)%nat -> (q < observed grad (length s2) d)%nat -> at_ T i q = at_ J i (place (length s1) (length s2) d q).
Proof.
  intros N1 N2 R1 R2 HT HJ.
  assert (C1 : ncols s1 = d) by (apply ncols_rect; auto). assert (C2 : ncols s2 = d) by (apply ncols_rect; auto).
  assert (C : ncols (s1 ++ s2) = d) by (destruct s1; [contradiction|auto]).
  destruct ty; cbn [kernel] in HT, HJ; try discriminate.
  - (* constant *) destruct (as_number th 0) as [c|]; [|discriminate]. cbn [bind] in *. injection HT as <-. injection HJ as <-.
    unfold constant_kernel, observed. destruct grad; cbn [negb nr nc at_ cols_of]; unfold grad_size; rewrite ?C, ?C2, ?app_length; repeat split; auto.
    intros i q Hi Hq. destruct (Nat.ltb_spec i (length s1 + length s2)); [|lia]. cbn [andb].
    destruct (Nat.ltb_spec q (length s2)) as [H0|H0].
    + rewrite place_value by auto. destruct (Nat.ltb_spec (length s1 + q) (length s1 + length s2)); [auto|lia].
    + destruct (place_derivative (length s1) _ _ _ H0 Hq) as [P _]. destruct (Nat.ltb_spec (place (length s1) (length s2) d q) (length s1 + length s2)); [lia|auto].
  - (* constant_multi *) destruct grad; cbn [negb] in *; [|discriminate].
    destruct (as_number th 0) as [c1|]; [|discriminate]. destruct (as_number th 1) as [c2|]; [|discriminate].
    destruct (as_number th 2) as [c3|]; [|discriminate]. cbn [bind] in *. injection HT as <-. injection HJ as <-.
    unfold constant_multi_kernel, observed. cbn [nr nc at_]. unfold grad_size. rewrite C, C1, app_length. repeat split; auto.
    intros i q Hi Hq. destruct (Nat.ltb_spec i (length s1 + length s2)); [|lia].
    destruct (Nat.ltb_spec q (length s2)) as [H0|H0].
    + rewrite place_value by auto. destruct (Nat.ltb_spec (length s1 + q) (length s1 + length s2)); [auto|lia].
    + destruct (place_derivative (length s1) _ _ _ H0 Hq) as [P _]. destruct (Nat.ltb_spec (place (length s1) (length s2) d q) (length s1 + length s2)); [lia|auto].
  - (* noise_multi *) destruct (as_number th 0) as [c1|]; [|discriminate]. destruct (as_number th 1) as [c2|]; [|discriminate].
    cbn [bind] in *. injection HT as <-. injection HJ as <-.
    unfold noise_multi_kernel, observed. destruct grad; cbn [nr nc at_]; unfold grad_size; rewrite ?C, ?C1, ?app_length; repeat split; auto.
    + intros i q Hi Hq. destruct (Nat.eqb_spec i (place (length s1) (length s2) d q)) as [E|]; [|auto]. unfold place in E. destruct (q <? length s2)%nat; lia.
    + intros i q Hi Hq. rewrite place_value by auto. destruct (Nat.eqb_spec i (length s1 + q)); [lia|auto].
  - (* gaussian *) destruct (floats th) as [w|]; [|discriminate]. cbn [bind] in *. unfold gaussian_kernel in *.
    destruct (divide_rows (s1 ++ s2) (map (logged lg) w)) as [ss|] eqn:E; [|discriminate].
    destruct (divide_rows_app _ _ _ _ E) as (a & b & Ea & Eb & -> & La & Lb).
    rewrite Ea in HT. cbn [divide_opt bind] in *. rewrite Eb in HT. cbn [bind] in *.
    pose proof (dist_matrix_joint gaussian_fn a b) as DJ.
    assert (DS : forall i j, at_ (dist_matrix gaussian_fn (a ++ b) None) i j = at_ (dist_matrix gaussian_fn (a ++ b) None) j i).
    { intros i j. cbn [at_ dist_matrix]. rewrite Nat.eqb_sym. destruct (_ =? i)%nat; [auto|]. unfold gaussian_fn. do 2 f_equal. apply sqeuclidean_sym. }
    assert (DN : nr (dist_matrix gaussian_fn a (Some b)) = length a /\ nc (dist_matrix gaussian_fn a (Some b)) = length b /\
      nr (dist_matrix gaussian_fn (a ++ b) None) = (length a + length b)%nat /\ nc (dist_matrix gaussian_fn (a ++ b) None) = (length a + length b)%nat).
    { cbn [nr nc dist_matrix]. rewrite app_length. auto. }
    destruct DN as (D1 & D2 & D3 & D4).
    set (K1 := dist_matrix gaussian_fn a (Some b)) in *. set (K2 := dist_matrix gaussian_fn (a ++ b) None) in *. clearbody K1 K2.
    destruct grad; cbn [negb] in *.
    + rewrite C1 in HT. rewrite C in HJ. destruct ((length (map (logged lg) w) =? 1)%nat || (length (map (logged lg) w) =? d)%nat); [|discriminate].
      injection HT as <-. injection HJ as <-. unfold gaussian_xxp_gradients, gaussian_xx_gradients, observed. cbn [nr nc]. unfold grad_size.
      rewrite C, C2, app_length. repeat split; auto. intros i q Hi Hq. cbn [at_]. unfold gaussian_xx_entry. rewrite C, app_length.
      destruct (Nat.ltb_spec i (length s1 + length s2)); [|lia]. destruct (Nat.ltb_spec q (length s2)) as [H0|H0].
      * rewrite place_value by auto. destruct (Nat.ltb_spec (length s1 + q) (length s1 + length s2)); [|lia].
        rewrite DJ by lia. rewrite La. auto.
      * destruct (place_derivative (length s1) _ _ _ H0 Hq) as (P & P1 & P2 & P3).
        destruct (Nat.ltb_spec (place (length s1) (length s2) d q) (length s1 + length s2)); [lia|].
        rewrite P1, P2, row_front, (row_back s1 s2) by auto. rewrite DJ by lia. rewrite La, (DS i). ring.
    + injection HT as <-. injection HJ as <-. unfold observed. rewrite D1, D2, D3, D4, La, Lb. repeat split; auto.
      intros i q Hi Hq. rewrite place_value by auto. rewrite DJ by lia. rewrite La. auto.
  - (* quadratic *) destruct grad; [discriminate|]. destruct (as_number th 0) as [s|]; [|discriminate]. destruct (as_number th 1) as [g|]; [|discriminate].
    cbn [bind] in *. injection HT as <-. injection HJ as <-. unfold quadratic_kernel, observed. cbv zeta. cbn [option_map]. rewrite map_app.
    split; [apply map_length|]. split; [apply map_length|].
    split; [cbn [nr dist_matrix]; rewrite app_length, !map_length; auto|]. split; [reflexivity|].
    intros i q Hi Hq. rewrite place_value by auto. rewrite dist_matrix_joint by (rewrite map_length; auto). rewrite map_length. auto.
  - (* laplacian *) destruct grad; [discriminate|]. destruct (floats th) as [w|]; [|discriminate]. cbn [bind] in *. unfold laplacian_kernel in *.
    destruct (divide_rows (s1 ++ s2) (map (logged lg) w)) as [ss|] eqn:E; [|discriminate].
    destruct (divide_rows_app _ _ _ _ E) as (a & b & Ea & Eb & -> & La & Lb).
    rewrite Ea in HT. cbn [divide_opt bind] in *. rewrite Eb in HT. cbn [bind] in *.
    injection HT as <-. injection HJ as <-. unfold observed. split; [exact La|]. split; [exact Lb|].
    split; [cbn [nr dist_matrix]; rewrite app_length; lia|]. split; [reflexivity|].
    intros i q Hi Hq. rewrite place_value by auto. rewrite <- La. apply (dist_matrix_joint laplacian_fn a b); lia.
  - (* linear *) injection HT as <-. injection HJ as <-. unfold linear_kernel, observed. destruct grad; cbn [negb nr nc at_ cols_of]; unfold grad_size; rewrite ?C, ?C1, ?app_length; repeat split; auto.
    + intros i q Hi Hq. destruct (Nat.ltb_spec i (length s1 + length s2)); [|lia]. rewrite row_front by auto.
      destruct (Nat.ltb_spec q (length s2)) as [H0|H0].
      * rewrite place_value by auto. destruct (Nat.ltb_spec (length s1 + q) (length s1 + length s2)); [|lia]. rewrite (row_back s1 s2) by auto. auto.
      * destruct (place_derivative (length s1) _ _ _ H0 Hq) as (P & P1 & P2 & P3).
        destruct (Nat.ltb_spec (place (length s1) (length s2) d q) (length s1 + length s2)); [lia|]. rewrite P2. auto.
    + intros i q Hi Hq. rewrite place_value by auto. rewrite row_front, (row_back s1 s2) by auto. auto.
Qed.

Lemma scaled_joint k lg grad t m D T J : t <> [] -> m <> [] -> rectangular t D -> rectangular m D ->
  scaled_kernel k lg grad t (Some m) = Ok T -> scaled_kernel k lg grad (t ++ m) None = Ok J ->
  exists d, nr T = length t /\ nc T = observed grad (length m) d /\ nr J = observed grad (length t + length m) d /\ nc J = nr J /\
  forall i q, (i < length t)%nat -> (q < observed grad (length m) d)%nat -> at_ T i q = at_ J i (place (length t) (length m) d q).
Proof.
  intros N1 N2 R1 R2 HT HJ. unfold scaled_kernel in *. destruct (k_type k) as [ty|]; [|discriminate].
  destruct (select k (t ++ m)) as [s|] eqn:E; [|discriminate]. destruct (select_app _ _ _ _ _ R1 R2 E) as (a & b & d & Ea & Eb & -> & La & Lb & Ra & Rb).
  rewrite Ea, Eb in HT. cbn [bind] in *.
  replace (ncols (t ++ m)) with (ncols t) in HJ by (destruct t; [contradiction|auto]).
  destruct (kdict2list k (ncols t)) as [th|]; [|discriminate]. cbn [bind] in *.
  destruct (kernel ty (snd th) lg grad a (Some b)) as [T0|] eqn:ET; [|discriminate].
  destruct (kernel ty (snd th) lg grad (a ++ b) None) as [J0|] eqn:EJ; [|discriminate]. cbn [bind] in *. injection HT as <-. injection HJ as <-.
  exists d. assert (Na : a <> []) by (intros ->; destruct t; [contradiction|discriminate]). assert (Nb : b <> []) by (intros ->; destruct m; [contradiction|discriminate]).
  destruct (kernel_joint _ _ _ _ _ _ _ _ _ Na Nb Ra Rb ET EJ) as (H1 & H2 & H3 & H4 & H5). cbn [nr nc at_]. rewrite La, Lb in *.
  repeat split; auto. intros i q Hi Hq. rewrite H5; auto.
Qed.

Definition agrees (grad : bool) (t m d : nat) (T J : matrix) : Prop :=
  nr T = t /\ nc T = observed grad m d /\ nr J = observed grad (t + m) d /\ nc J = nr J /\
  forall i q, (i < t)%nat -> (q < observed grad m d)%nat -> at_ T i q = at_ J i (place t m d q).

Lemma loop_joint lg grad t m D : t <> [] -> m <> [] -> rectangular t D -> rectangular m D -> forall ks c0 c1 T J,
  match c0, c1 with
  | None, None => True
  | Some a, Some b => exists d, agrees grad (length t) (length m) d a b
  | _, _ => False
  end ->
  cov_loop ks lg grad t (Some m) c0 = Ok (Some T) -> cov_loop ks lg grad (t ++ m) None c1 = Ok (Some J) ->
  exists d, agrees grad (length t) (length m) d T J.
Proof.
  intros N1 N2 R1 R2. induction ks as [|k ks IH]; intros c0 c1 T J H0 HT HJ; cbn [cov_loop] in HT, HJ.
  - injection HT as ->. injection HJ as ->. exact H0.
  - destruct (scaled_kernel k lg grad t (Some m)) as [KT|] eqn:ET; [|discriminate].
    destruct (scaled_kernel k lg grad (t ++ m) None) as [KJ|] eqn:EJ; [|discriminate]. cbn [bind] in *.
    destruct (scaled_joint _ _ _ _ _ _ _ _ N1 N2 R1 R2 ET EJ) as (d & H1 & H2 & H3 & H4 & H5).
    set (a := match c0 with Some c => c | None => Mx (nr KT) (nc KT) (fun _ _ => 0) end) in *.
    set (b := match c1 with Some c => c | None => Mx (nr KJ) (nc KJ) (fun _ _ => 0) end) in *.
    assert (A : exists e, agrees grad (length t) (length m) e a b).
    { unfold a, b. destruct c0, c1; try contradiction; [exact H0|]. exists d. split; [exact H1|]. split; [exact H2|]. split; [exact H3|]. split; [exact H4|]. auto. }
    destruct A as (e & A1 & A2 & A3 & A4 & A5).
    destruct (accumulate (k_mult k) a KT) as [a'|] eqn:Ea; [|discriminate]. destruct (accumulate (k_mult k) b KJ) as [b'|] eqn:Eb; [|discriminate]. cbn [bind] in *.
    eapply IH; [|exact HT|exact HJ]. cbn. exists d. unfold accumulate in *.
    destruct (Nat.eqb_spec (nr a) (nr KT)); [|discriminate]. destruct (Nat.eqb_spec (nc a) (nc KT)); [|discriminate].
    destruct (Nat.eqb_spec (nr b) (nr KJ)); [|discriminate]. destruct (Nat.eqb_spec (nc b) (nc KJ)); [|discriminate]. cbn [andb] in *.
    injection Ea as <-. injection Eb as <-. unfold agrees. cbn [nr nc at_]. repeat (split; [congruence|]). intros i q Hi Hq. rewrite H5 by auto.
    assert (PQ : place (length t) (length m) e q = place (length t) (length m) d q).
    { destruct grad; [|unfold place; destruct (Nat.ltb_spec q (length m)); [auto|cbn in Hq; lia]].
      assert (observed true (length m) e = observed true (length m) d) by congruence. cbn in H.
      assert (length m <> 0)%nat by (destruct m; [contradiction|discriminate]). assert (e = d) by nia. subst. auto. }
    rewrite A5 by (auto; congruence). rewrite PQ. auto.
Qed.

(** ** C382 *)
(** Whatever the kernels are, added or multiplied, with or without derivatives: the row of
    the test covariance that belongs to a point is the part of that point's row in the
    training covariance of the point together with the data. *)
Theorem test_covariance_is_training_covariance : forall ks log_scale grad D d t m T J reg,
  t <> [] -> m <> [] -> Forall (fun r => length r = D) t -> Forall (fun r => length r = D) m ->
  get_covariance ks log_scale t (Some m) None grad = Ok T ->
  get_covariance ks log_scale (t ++ m) None reg grad = Ok J -> nc T = observed grad (length m) d ->
  nr T = length t /\ nr J = observed grad (length t + length m) d /\ nc J = nr J /\
  forall i q, (i < length t)%nat -> (q < nc T)%nat -> at_ T i q = at_ J i (place (length t) (length m) d q).
Proof.
  intros ks lg grad D d t m T J reg N1 N2 R1 R2 HT HJ HD. unfold get_covariance in *.
  apply require_ok in HT. destruct HT as [_ HT]. cbn [require bind] in HJ.
  destruct (cov_loop ks lg grad t (Some m) None) as [[T0|]|] eqn:ET; try discriminate. cbn [bind] in HT. injection HT as ->.
  destruct (cov_loop ks lg grad (t ++ m) None None) as [[J0|]|] eqn:EJ; try discriminate. cbn [bind] in HJ.
  destruct (loop_joint lg grad t m D N1 N2 R1 R2 ks None None T J0 I ET EJ) as (e & A1 & A2 & A3 & A4 & A5).
  assert (DE : grad = false \/ e = d).
  { destruct grad; [right|auto]. assert (observed true (length m) e = observed true (length m) d) by congruence. cbn in H.
    assert (length m <> 0)%nat by (destruct m; [contradiction|discriminate]). nia. }
  assert (OE : forall n, observed grad n e = observed grad n d) by (intros n; destruct DE as [->| ->]; auto).
  assert (PE : forall q, (q < nc T)%nat -> place (length t) (length m) e q = place (length t) (length m) d q).
  { intros q Hq. destruct DE as [->| ->]; [|auto]. rewrite A2 in Hq. cbn in Hq. rewrite !place_value by auto. auto. }
  assert (G : forall i q, (i < length t)%nat -> (q < nc T)%nat -> at_ T i q = at_ J0 i (place (length t) (length m) d q)).
  { intros i q Hi Hq. rewrite A5 by (auto; congruence). rewrite PE by auto. auto. }
  destruct reg as [r|].
  - destruct (nr J0 =? nc J0)%nat; [|discriminate]. injection HJ as <-. cbn [nr nc at_]. rewrite <- OE. repeat split; auto.
    intros i q Hi Hq. rewrite (G i q Hi Hq).
    assert (X : ident i (place (length t) (length m) d q) = 0).
    { unfold ident. destruct (Nat.eqb_spec i (place (length t) (length m) d q)) as [E|]; [|auto]. unfold place in E. destruct (q <? length m)%nat; lia. }
    rewrite X, Rmult_0_r. cbn [pow]. ring.
  - injection HJ as <-. rewrite <- OE. repeat split; auto.
Qed.

(** A constant_multi and a linear kernel with derivatives, one point against two. *)
Example joint_case : exists T J, let ks := [constant_multi [1; 2; 3]; bare KLinear] in
  get_covariance ks false [[1; 5]] (Some [[2; 0]; [7; 1]]) None true = Ok T /\
  get_covariance ks false [[1; 5]; [2; 0]; [7; 1]] None (Some 1) true = Ok J /\
  nc T = observed true 2 2 /\ at_ T 0%nat 3%nat = 7 /\ place 1 2 2 3 = 6%nat /\ at_ J 0%nat 6%nat = 7.
Proof.
  do 2 eexists. cbv zeta. split; [reflexivity|]. split; [reflexivity|]. split; [reflexivity|].
  split; [cbn; lra|]. split; [reflexivity|]. cbn. lra.
Qed.

Print Assumptions test_covariance_is_training_covariance.
