(** Properties of ridge regression: what the coefficients minimise, when calls on the same
    object influence each other, the search for the regularization, and the leave one out
    estimate. *)
From Coq Require Import Reals Lra Lia List Arith Bool.
From Verif Require Import Base BaseFacts RBase LinAlg KernModel KernProofs GPModel GPProofs RidgeModel RidgeProofs RidgeFacts.
Import ListNotations.
Open Scope R_scope.

(** ** A call on an object without earlier calls *)
(** For a positive regularization the coefficients are the one and only minimiser of
    |X a - Y|^2 + w |a - p|^2, for the data of this call, and the effective number of
    parameters is between zero and the number of features. *)
Theorem ridge_minimises svd X Y w p fv r' c neff :
  svd_contract svd -> data_ok X Y -> 0 < w ->
  RR svd (Ridge None None) X Y w p fv = Ok (r', c, neff) ->
  only_minimiser X Y w p c /\ 0 <= neff <= INR (ncols X).
Proof.
  intros HC HD Hw E.
  destruct (RR_solves svd (Ridge None None) X X Y w p fv r' c neff) as (A & B & C & D & _); auto.
  { left. reflexivity. }
  split; [|auto]. apply solves_minimiser; auto.
Qed.

(** ** Histories of calls on one object *)
Record call := Call { c_X : list row; c_Y : list R; c_w : R; c_p : R; c_featvar : bool }.

(** Call RR for each element, on the same object, and collect the coefficients. *)
Fixpoint run (svd : matrix -> result (matrix * list R * matrix)) (r : ridge) (calls : list call) : result (list (list R)) :=
  match calls with
  | [] => Ok []
  | k :: t => bind (RR svd r (c_X k) (c_Y k) (c_w k) (c_p k) (c_featvar k)) (fun o =>
              bind (run svd (fst (fst o)) t) (fun l => Ok (snd (fst o) :: l)))
  end.

(** Each call uses the features of the call before it, or the call before it was made
    with featselect_featvar. *)
Fixpoint same_features (before : option (list row)) (calls : list call) : Prop :=
  match calls with
  | [] => True
  | k :: t => match before with None => True | Some X => c_X k = X end /\
              same_features (if c_featvar k then None else Some (c_X k)) t
  end.

Lemma run_ok svd : svd_contract svd -> forall calls r before l,
  (match before with None => r_W2 r = None | Some X => remembers r X end) ->
  same_features before calls ->
  Forall (fun k => data_ok (c_X k) (c_Y k) /\ 0 < c_w k) calls ->
  run svd r calls = Ok l ->
  Forall2 (fun k c => only_minimiser (c_X k) (c_Y k) (c_w k) (c_p k) c) calls l.
Proof.
  intros HC. induction calls as [|k t IH]; intros r before l HB HS HF E; cbn [run] in E.
  - injection E as <-. constructor.
  - destruct HS as [HX HS]. inversion HF as [|? ? [HD Hw] HF' EE]; subst.
    destruct (RR svd r _ _ _ _ _) as [[[r1 c] neff]|] eqn:ER; [|discriminate]. cbn [bind fst snd] in E.
    destruct (run svd r1 t) as [l'|] eqn:ET; [|discriminate]. cbn in E. injection E as <-.
    assert (HR : remembers r (c_X k)).
    { destruct before as [X|]; [rewrite HX; auto|left; auto]. }
    destruct (RR_solves svd r (c_X k) (c_X k) (c_Y k) (c_w k) (c_p k) (c_featvar k) r1 c neff) as (A & B & C & D & F); auto.
    constructor; [apply solves_minimiser; auto|].
    apply (IH r1 (if c_featvar k then None else Some (c_X k))); auto. destruct (c_featvar k); auto.
Qed.

(** Missing for the property: the same for every history; false, see below. *)
Theorem ridge_history_partial svd calls l :
  svd_contract svd -> same_features None calls ->
  Forall (fun k => data_ok (c_X k) (c_Y k) /\ 0 < c_w k) calls ->
  run svd (Ridge None None) calls = Ok l ->
  Forall2 (fun k c => only_minimiser (c_X k) (c_Y k) (c_w k) (c_p k) c) calls l.
Proof. intros HC HS HF E. eapply run_ok; eauto. reflexivity. Qed.

(** In general a second call uses the matrix of the first: its coefficients solve
    (X1^T X1 + w) c = X2^T Y2 + w p. *)
Theorem ridge_second_call_mixes svd X1 Y1 w1 p1 r1 c1 n1 X2 Y2 w2 p2 fv r2 c2 n2 :
  svd_contract svd -> data_ok X1 Y1 -> data_ok X2 Y2 -> 0 < w1 -> 0 < w2 ->
  RR svd (Ridge None None) X1 Y1 w1 p1 false = Ok (r1, c1, n1) ->
  RR svd r1 X2 Y2 w2 p2 fv = Ok (r2, c2, n2) ->
  ncols X1 = ncols X2 /\ length c2 = ncols X2 /\
  forall j, (j < ncols X2)%nat ->
    Sum (ncols X2) (fun i => Sum (length X1) (fun k => entry X1 k j * entry X1 k i) * nth i c2 0) + w2 * nth j c2 0 =
    Sum (length X2) (fun k => entry X2 k j * nth k Y2 0) + w2 * p2.
Proof.
  intros HC HD1 HD2 Hw1 Hw2 E1 E2.
  assert (K : exists W Vh, r1 = Ridge (Some W) (Some Vh) /\ kept X1 W Vh).
  { unfold RR in E1. destruct (use_svd svd (Ridge None None) X1) as [[[q W] Vh]|] eqn:EU; [|discriminate]. cbn [bind] in E1.
    destruct (use_svd_kept svd (Ridge None None) X1 X1 q W Vh HC ltac:(left; reflexivity) EU) as (-> & K1 & _).
    destruct (negb _); [discriminate|]. injection E1 as <- _ _. eauto. }
  destruct K as (W & Vh & -> & K).
  destruct (RR_solves svd (Ridge (Some W) (Some Vh)) X1 X2 Y2 w2 p2 fv r2 c2 n2) as (A & B & C & _); auto.
  { right. eauto. } { discriminate. }
Qed.

(** The property fails for a second call with other features: the best coefficient is
    4/5 and the object returns 2, for every singular value decomposition. *)
Theorem ridge_stale_features_refuted svd r1 c1 n1 r2 c2 n2 :
  svd_contract svd ->
  RR svd (Ridge None None) [[1]] [1] 1 0 false = Ok (r1, c1, n1) ->
  RR svd r1 [[2]] [2] 1 0 false = Ok (r2, c2, n2) ->
  c2 = [2] /\ only_minimiser [[2]] [2] 1 0 [4/5].
Proof.
  intros HC E1 E2.
  assert (D1 : data_ok [[1]] [1]) by (split; [discriminate|]; split; [repeat constructor|reflexivity]).
  assert (D2 : data_ok [[2]] [2]) by (split; [discriminate|]; split; [repeat constructor|reflexivity]).
  destruct (ridge_second_call_mixes svd _ _ _ _ _ _ _ _ _ _ _ _ _ _ _ HC D1 D2 Rlt_0_1 Rlt_0_1 E1 E2) as (_ & A & B).
  cbn in A. destruct c2 as [|x [|? ?]]; try discriminate. specialize (B 0%nat ltac:(cbn; lia)). cbn in B.
  split; [f_equal; lra|]. apply solves_minimiser; auto; [lra|]. intros [|j] Hj; [|cbn in Hj; lia].
  unfold vecf, xty, mulv, entry. cbn. lra.
Qed.

(** A singular value decomposition for matrices of one row, to run the case. *)
Definition svd_one (M : matrix) : result (matrix * list R * matrix) :=
  if ((nr M =? 1)%nat && (nc M =? 1)%nat)%bool
  then if Rle_dec 0 (at_ M 0 0) then Ok (Mx 1 1 (fun _ _ => 1), [at_ M 0 0], Mx 1 1 (fun _ _ => 1)) else Err LinAlgError
  else Err LinAlgError.

Lemma svd_one_ok : svd_contract svd_one.
Proof.
  intros M V W Vh E _. unfold svd_one in E. destruct (_ && _)%bool eqn:EB; [|discriminate].
  apply andb_prop in EB as [B1 B2]. apply Nat.eqb_eq in B1, B2. destruct (Rle_dec _ _) as [H|]; [|discriminate].
  injection E as <- <- <-. rewrite B1. cbn [nr nc length].
  assert (O : orthogonal 1 (at_ (Mx 1 1 (fun _ _ => 1)))).
  { split; intros i j Hi Hj; replace i with 0%nat by lia; replace j with 0%nat by lia; unfold mulm, tr, ident; cbn; ring. }
  split; [auto|]. split; [auto|]. split; [auto|]. split; [|split; [exact O|split; [exact O|]]].
  - intros x [<-|[]]. auto.
  - intros i j Hi Hj. replace i with 0%nat by lia. replace j with 0%nat by lia. cbn. ring.
Qed.

(** Three calls on one object: the same features with other targets and another prior, and
    other features after a call with featselect_featvar. *)
Example two_calls : exists a b,
  run svd_one (Ridge None None) [Call [[1]; [1]] [1; 2] 2 0 false; Call [[1]; [1]] [3; 5] 2 1 true; Call [[3]] [1] 1 0 false] = Ok [a; b; [3/10]] /\
  a = [3/4] /\ b = [5/2].
Proof.
  unfold run, RR, use_svd, svd_one, gram. cbn -[Rle_dec].
  destruct (Rle_dec 0 _) as [H|H]; [|exfalso; apply H; unfold entry; cbn; lra].
  cbn -[Rle_dec]. destruct (Rle_dec 0 _) as [H2|H2]; [|exfalso; apply H2; unfold entry; cbn; lra]. cbn.
  unfold xty, entry. cbn.
  match goal with |- exists a b, Ok [?x; ?y; ?z] = _ /\ _ => exists x, y end.
  split; [f_equal; f_equal; f_equal; f_equal; f_equal; field|]. split; f_equal; field.
Qed.

(** ** get_coefficients *)
(** The property fails for a supplied regularization: every call is an error. *)
Theorem ridge_supplied_regularization_refuted svd epe r X Y reg p wsteps rsteps :
  get_coefficients svd epe r X Y (Some reg) p wsteps rsteps = Err ValueError.
Proof. reflexivity. Qed.

Lemma argmin_from_best epe : forall l b, (argmin_from epe b l = b \/ In (argmin_from epe b l) l) /\
  epe (argmin_from epe b l) <= epe b /\ forall x, In x l -> epe (argmin_from epe b l) <= epe x.
Proof.
  induction l as [|a l IH]; intros b; cbn [argmin_from].
  - split; [auto|]. split; [lra|]. intros x [].
  - destruct (IH (if Rltb (epe a) (epe b) then a else b)) as (H1 & H2 & H3).
    destruct (Rltb (epe a) (epe b)) eqn:EB.
    + apply Rltb_true in EB. split; [right; destruct H1 as [->|H1]; cbn; auto|]. split; [lra|].
      intros x [<-|Hx]; auto.
    + apply Rltb_false in EB. split; [destruct H1 as [->|H1]; cbn; auto|]. split; [auto|].
      intros x [<-|Hx]; auto. lra.
Qed.

Lemma argmin_best epe l m : argmin epe l = Some m -> In m l /\ forall x, In x l -> epe m <= epe x.
Proof.
  destruct l as [|a l]; [discriminate|]. cbn [argmin]. intros E. injection E as <-.
  destruct (argmin_from_best epe l a) as (H1 & H2 & H3). split; [destruct H1 as [->|H1]; cbn; auto|].
  intros x [<-|Hx]; auto.
Qed.

Lemma linspace_length a b n : length (linspace a b n) = n.
Proof. unfold linspace. rewrite map_length, seq_length. auto. Qed.

Lemma refine_best epe wsteps : forall rsteps tried range width m,
  (forall x, In x tried -> 0 < x) -> (forall x, In x range -> 0 < x) ->
  refine epe (S rsteps) wsteps tried range width = Some m ->
  exists more, length more = (rsteps * wsteps)%nat /\ 0 < m /\ In m (tried ++ range ++ more) /\
    forall x, In x (tried ++ range ++ more) -> 0 < x /\ epe m <= epe x.
Proof.
  induction rsteps as [|n IH]; intros tried range width m HT HR E.
  - cbn [refine] in E. destruct (argmin epe (tried ++ range)) as [m0|] eqn:EA; [|discriminate].
    injection E as <-.
    destruct (argmin_best _ _ _ EA) as [H1 H2]. exists []. rewrite app_nil_r.
    assert (P : forall x, In x (tried ++ range) -> 0 < x) by (intros x Hx; apply in_app_or in Hx as [Hx|Hx]; auto).
    split; [reflexivity|]. split; [auto|]. split; [auto|]. auto.
  - remember (S n) as sn. cbn [refine] in E. subst sn. destruct (argmin epe (tried ++ range)) as [m0|] eqn:EA; [|discriminate].
    apply IH in E.
    + destruct E as (more & HL & H0 & H1 & H2). rewrite <- !app_assoc in *.
      eexists. split; [|split; [exact H0|split; [exact H1|exact H2]]].
      rewrite app_length, map_length, linspace_length, HL. lia.
    + intros x Hx. apply in_app_or in Hx as [Hx|Hx]; auto.
    + intros x Hx. apply in_map_iff in Hx as (y & <- & _). apply exp_pos.
Qed.

(** With no supplied regularization, on an object without earlier calls: the coefficients
    are the one and only minimiser for a positive regularization, and no other of the
    values the search has tried has a lower estimate of the error, whatever the estimate. *)
Theorem ridge_search_minimises svd epe X Y p wsteps rsteps r' c :
  svd_contract svd -> data_ok X Y ->
  get_coefficients svd epe (Ridge None None) X Y None p wsteps (S rsteps) = Ok (r', c) ->
  exists w tried, 0 < w /\ only_minimiser X Y w p c /\
    length tried = (wsteps + 2 + rsteps * wsteps)%nat /\ In w tried /\
    (forall x, In x tried -> 0 < x /\ epe w <= epe x).
Proof.
  intros HC HD E. unfold get_coefficients, find_optimal_regularization in E.
  destruct (use_svd svd (Ridge None None) X) as [[[q W] Vh]|] eqn:EU; [|discriminate]. cbn [bind] in E. cbv zeta in E. cbn [fst snd] in E.
  destruct (use_svd_kept svd (Ridge None None) X X q W Vh HC ltac:(left; reflexivity) EU) as (-> & K & _).
  destruct (refine _ _ _ _ _ _) as [w|] eqn:ER; [|discriminate].
  destruct (RR svd _ X Y w p false) as [[[r1 c1] n1]|] eqn:E1; [|discriminate]. cbn in E. injection E as <- <-.
  apply refine_best in ER.
  - destruct ER as (more & HL & H0 & H1 & H2). exists w, (first_range W wsteps ++ more).
    split; [auto|]. split; [|split; [|split; auto]].
    + destruct (RR_solves svd _ X X Y w p false r1 c1 n1 HC ltac:(right; eauto) ltac:(discriminate) H0 HD E1) as (A & B & C & _).
      apply solves_minimiser; auto.
    + rewrite app_length, HL. unfold first_range. cbn [length]. rewrite app_length, map_length, linspace_length. cbn. lia.
  - intros x [].
  - intros x [<-|Hx]; [pose proof (exp_pos (ln (last W 0 * / 2))); lra|].
    apply in_app_or in Hx as [Hx|[<-|[]]].
    + apply in_map_iff in Hx as (y & <- & _). apply exp_pos.
    + pose proof (exp_pos (ln (nth 0 W 0 * 2))). lra.
Qed.

(** ** Predictions *)
Theorem ridge_predictions coef : forall m out, predict_rows coef m = Ok out <->
  out = map (fun v => sumR (map (fun q => fst q * snd q) (combine coef v))) m /\ Forall (fun v => length v = length coef) m.
Proof.
  induction m as [|v m IH]; intros out; cbn.
  - split; [intros E; injection E as <-; auto|]. intros [-> _]. reflexivity.
  - destruct (Nat.eqb_spec (length coef) (length v)) as [HL|HN].
    + split.
      * intros E. destruct (predict_rows coef m) as [l|]; [|discriminate]. cbn in E. injection E as <-.
        destruct (proj1 (IH l) eq_refl) as [-> HF]. split; [reflexivity|]. constructor; auto.
      * intros [-> HF]. inversion HF; subst. rewrite (proj2 (IH _) (conj eq_refl H2)). reflexivity.
    + split; [discriminate|]. intros [_ HF]. inversion HF; subst. congruence.
Qed.
Example ridge_predictions_case : predict_rows [1; 2] [[3; 4]; [5; 6]] = Ok [11; 17] /\ predict_rows [1; 2] [[3]] = Err ValueError.
Proof.
  split; [|reflexivity]. apply ridge_predictions. split; [|repeat constructor]. cbn. repeat (f_equal; try lra).
Qed.

(** ** The leave one out estimate *)
(** What numpy.linalg.svd(X, full_matrices=False) promises. *)
Definition thin_svd (X : list row) (U : matrix) (W : list R) (Vh : matrix) : Prop :=
  let k := length W in
  (forall i j, (i < length X)%nat -> (j < ncols X)%nat -> entry X i j = Sum k (fun q => at_ U i q * nth q W 0 * at_ Vh q j)) /\
  (forall q r, (q < k)%nat -> (r < k)%nat -> Sum (length X) (fun i => at_ U i q * at_ U i r) = if (q =? r)%nat then 1 else 0) /\
  (forall q r, (q < k)%nat -> (r < k)%nat -> Sum (ncols X) (fun j => at_ Vh q j * at_ Vh r j) = if (q =? r)%nat then 1 else 0).

(** [a] is a best coefficient vector for these data. *)
Definition minimiser (d : nat) (X : list row) (Y : list R) (w p : R) (a : list R) : Prop :=
  length a = d /\ forall b, length b = d -> cost X Y w p a <= cost X Y w p b.

Lemma without_residual X Y w p U W Vh a i : data_ok X Y -> thin_svd X U W Vh -> 0 < w -> (i < length X)%nat ->
  minimiser (ncols X) (without i X) (without i Y) w p a ->
  let y l := nth l Y 0 - Sum (ncols X) (fun j => entry X l j * p) in
  nth i Y 0 - inner (row_at X i) a = (y i - Sum (length X) (fun j => hat (length W) (at_ U) (fun q => nth q W 0) w i j * y j)) /
     (1 - hat (length W) (at_ U) (fun q => nth q W 0) w i i) /\
  1 - hat (length W) (at_ U) (fun q => nth q W 0) w i i <> 0.
Proof.
  intros HD (S1 & S2 & S3) Hw Hi [Ha Hmin] y. pose proof HD as (_ & HR & HL).
  set (n := length X) in *. set (d := ncols X) in *.
  set (h := fun j => vecf a j - p).
  assert (FH : forall l, fit d (entry X) h l = fit d (entry X) (vecf a) l - Sum d (fun j => entry X l j * p)).
  { intros l. unfold fit, h. rewrite <- Sum_minus. apply Sum_ext. intros; ring. }
  split; [|eapply hat_diag; eauto].
  rewrite <- (leave_one_out n d (length W) (entry X) (at_ U) (fun q => nth q W 0) (at_ Vh) w Hw S1 S2 S3 y h i Hi).
  - rewrite FH. unfold y. rewrite inner_fit by auto. fold d. ring.
  - set (ys := fun l => if (l =? i)%nat then fit d (entry X) h i else y l).
    apply min_stationary. intros b.
    set (sq := fun z : nat -> R => fun t : vec => costf n d (entry X) z w p t).
    (* the cost without row i, for the coefficients b + p *)
    set (lb := tabulate d (fun j => b j + p)).
    assert (Elb : eqv d (vecf lb) (fun j => b j + p)) by (intros j Hj; unfold vecf, lb; rewrite nth_tabulate by auto; auto).
    assert (M : cost (without i X) (without i Y) w p a <= cost (without i X) (without i Y) w p lb) by (apply Hmin, tabulate_length).
    rewrite !cost_without in M; auto; [|apply tabulate_length]. fold n d in M.
    assert (FB : forall l, fit d (entry X) (vecf lb) l = fit d (entry X) b l + Sum d (fun j => entry X l j * p)).
    { intros l. rewrite (fit_ext d (entry X) _ _ l Elb). unfold fit. rewrite <- Sum_plus. apply Sum_ext. intros; ring. }
    assert (A1 : costf n d (entry X) ys w 0 h =
       costf n d (entry X) (vecf Y) w p (vecf a) - (fit d (entry X) (vecf a) i - vecf Y i) ^ 2).
    { unfold costf.
      assert (E : Sum n (fun l => (fit d (entry X) h l - ys l) ^ 2) =
         Sum n (fun l => (fit d (entry X) (vecf a) l - vecf Y l) ^ 2) - (fit d (entry X) (vecf a) i - vecf Y i) ^ 2).
      { rewrite <- (Sum_delta n i (fun l => (fit d (entry X) (vecf a) l - vecf Y l) ^ 2) Hi) at 1. rewrite <- Sum_minus.
        apply Sum_ext. intros l _. unfold ys. rewrite (Nat.eqb_sym i l). destruct (Nat.eqb_spec l i) as [->|_]; [ring|].
        rewrite FH. unfold y, vecf. ring. }
      rewrite E. assert (E2 : Sum d (fun j => (h j - 0) ^ 2) = Sum d (fun j => (vecf a j - p) ^ 2)) by (apply Sum_ext; intros; unfold h; ring).
      rewrite E2. ring. }
    assert (A2 : costf n d (entry X) (vecf Y) w p (vecf lb) - (fit d (entry X) (vecf lb) i - vecf Y i) ^ 2 <= costf n d (entry X) ys w 0 b).
    { unfold costf.
      assert (E : Sum n (fun l => (fit d (entry X) (vecf lb) l - vecf Y l) ^ 2) - (fit d (entry X) (vecf lb) i - vecf Y i) ^ 2 <=
         Sum n (fun l => (fit d (entry X) b l - ys l) ^ 2)).
      { rewrite <- (Sum_delta n i (fun l => (fit d (entry X) (vecf lb) l - vecf Y l) ^ 2) Hi) at 1. rewrite <- Sum_minus.
        apply Sum_le. intros l _. unfold ys. rewrite (Nat.eqb_sym i l). destruct (Nat.eqb_spec l i) as [->|_].
        - match goal with |- _ <= ?t ^ 2 => pose proof (pow2_ge_0 t) end. lra.
        - rewrite FB. unfold y, vecf. right. ring. }
      assert (E2 : Sum d (fun j => (vecf lb j - p) ^ 2) = Sum d (fun j => (b j - 0) ^ 2)).
      { apply Sum_ext. intros j Hj. rewrite Elb by auto. ring. }
      rewrite E2. lra. }
    fold ys. lra.
Qed.

(** The fast estimate is the root mean square of the errors of predicting each row with
    coefficients that are best for the data without this row. *)
Theorem ridge_leave_one_out X Y w p U W Vh (a : nat -> list R) :
  data_ok X Y -> thin_svd X U W Vh -> 0 < w ->
  (forall i, (i < length X)%nat -> minimiser (ncols X) (without i X) (without i Y) w p (a i)) ->
  loocv X Y p w U W =
  sqrt (/ INR (length X) * Sum (length X) (fun i => (nth i Y 0 - inner (row_at X i) (a i)) ^ 2)).
Proof.
  intros HD HT Hw HM. unfold loocv. pose proof HD as (_ & HR & HL). rewrite <- HL. f_equal. f_equal.
  apply Sum_ext. intros i Hi.
  destruct (without_residual X Y w p U W Vh (a i) i HD HT Hw Hi (HM i Hi)) as [E Hne]. cbv zeta in E. rewrite E.
  set (hatf := hat (length W) (at_ U) (fun q => nth q W 0) w) in *.
  set (y := fun l => nth l Y 0 - Sum (ncols X) (fun j => entry X l j * p)).
  assert (EP : forall l j, loocv_P U W w l j = ident l j - hatf l j) by reflexivity.
  assert (PY : Sum (length X) (fun j => loocv_P U W w i j * y j) = y i - Sum (length X) (fun j => hatf i j * y j)).
  { transitivity (Sum (length X) (fun j => (if (i =? j)%nat then 1 else 0) * y j - hatf i j * y j)).
    - apply Sum_ext. intros j _. rewrite EP. unfold ident. ring.
    - rewrite Sum_minus, Sum_delta by auto. auto. }
  assert (YP : Sum (length X) (fun j => y j * loocv_P U W w j i) = Sum (length X) (fun j => loocv_P U W w i j * y j)).
  { apply Sum_ext. intros j _. rewrite !EP. unfold hatf. rewrite hat_sym. unfold ident. rewrite (Nat.eqb_sym i j). ring. }
  change (fun j => (nth j Y 0 - Sum (ncols X) (fun j0 => entry X j j0 * p)) * loocv_P U W w j i) with (fun j => y j * loocv_P U W w j i).
  change (fun j => loocv_P U W w i j * (nth j Y 0 - Sum (ncols X) (fun j0 => entry X j j0 * p))) with (fun j => loocv_P U W w i j * y j).
  change (nth i Y 0 - Sum (ncols X) (fun j => entry X i j * p)) with (y i).
  rewrite YP, PY, EP. unfold ident. rewrite Nat.eqb_refl.
  change (fun j => hatf i j * (nth j Y 0 - Sum (ncols X) (fun j0 => entry X j j0 * p))) with (fun j => hatf i j * y j).
  field. auto.
Qed.

(** Nothing is divided by zero in the estimate. *)
Theorem ridge_leave_one_out_defined X Y w U W Vh :
  data_ok X Y -> thin_svd X U W Vh -> 0 < w ->
  INR (length Y) <> 0 /\ (forall k, (k < length W)%nat -> nth k W 0 ^ 2 + w <> 0) /\
  forall i, (i < length Y)%nat -> loocv_P U W w i i <> 0.
Proof.
  intros HD (S1 & S2 & S3) Hw. pose proof HD as (HN & HR & HL). split; [|split].
  - apply not_0_INR. rewrite <- HL. destruct X; [congruence|discriminate].
  - intros k _. pose proof (pow2_ge_0 (nth k W 0)). lra.
  - intros i Hi. rewrite <- HL in Hi.
    assert (E : 1 - hat (length W) (at_ U) (fun q => nth q W 0) w i i <> 0) by (eapply hat_diag; eauto).
    unfold loocv_P, ident. rewrite Nat.eqb_refl. exact E.
Qed.

(** Two rows of one feature: X = (1, 1), W = sqrt 2. *)
Lemma two_rows_thin : thin_svd [[1]; [1]] (Mx 2 1 (fun _ _ => / sqrt 2)) [sqrt 2] (Mx 1 1 (fun _ _ => 1)).
Proof.
  assert (0 < sqrt 2) by (apply sqrt_lt_R0; lra). assert (sqrt 2 * sqrt 2 = 2) by (apply sqrt_sqrt; lra).
  split; [|split].
  - intros [|[|i]] [|j] Hi Hj; cbn in Hi, Hj; try lia; unfold entry; cbn; field; lra.
  - intros [|q] [|r] Hq Hr; cbn in Hq, Hr; try lia. cbn. rewrite Rplus_0_l, <- Rinv_mult. rewrite H0. lra.
  - intros [|q] [|r] Hq Hr; cbn in Hq, Hr; try lia. cbn. ring.
Qed.

Lemma one_row_min y : minimiser 1 [[1]] [y] 1 0 [y / 2].
Proof.
  split; [reflexivity|]. intros [|b [|? ?]] Hb; try discriminate. unfold cost, inner. cbn. pose proof (pow2_ge_0 (b - y / 2)). nra.
Qed.

Example leave_one_out_case :
  loocv [[1]; [1]] [2; 4] 0 1 (Mx 2 1 (fun _ _ => / sqrt 2)) [sqrt 2] = sqrt (/ 2 * (0 + 9)).
Proof.
  rewrite (ridge_leave_one_out [[1]; [1]] [2; 4] 1 0 _ _ _ (fun i => if (i =? 0)%nat then [2] else [1])
     ltac:(split; [discriminate|]; split; [repeat constructor|reflexivity]) two_rows_thin ltac:(lra)).
  - f_equal. unfold row_at, inner. cbn. field.
  - intros [|[|i]] Hi; cbn in Hi; try lia; unfold without; cbn [firstn skipn app Nat.eqb].
    + replace 2 with (4 / 2) at 1 by lra. apply one_row_min.
    + replace 1 with (2 / 2) at 5 by lra. apply one_row_min.
Qed.

Print Assumptions ridge_minimises.
Print Assumptions ridge_history_partial.
Print Assumptions ridge_second_call_mixes.
Print Assumptions ridge_stale_features_refuted.
Print Assumptions ridge_supplied_regularization_refuted.
Print Assumptions ridge_search_minimises.
Print Assumptions ridge_predictions.
Print Assumptions ridge_leave_one_out.
Print Assumptions ridge_leave_one_out_defined.
