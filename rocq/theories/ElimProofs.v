(** Proofs about backward elimination. *)
From Coq Require Import List Arith Lia Permutation Bool Sorting.Sorted.
From Verif Require Import Base BaseFacts GAModel GAOpsProofs ElimModel.
Import ListNotations.

Local Arguments Nat.div : simpl never.
Local Arguments Nat.mul : simpl never.

(** ** delete_idx *)
Lemma combine_seq_in {A} (l : list A) k i x :
  In (i, x) (combine (seq k (length l)) l) -> k <= i /\ nth_error l (i - k) = Some x.
Proof.
  revert k; induction l as [|y l IH]; simpl; intros k; [tauto|].
  intros [H|H].
  - inversion H; subst. split; auto. rewrite Nat.sub_diag. auto.
  - apply IH in H. destruct H as [H1 H2]. split; [lia|].
    replace (i - k) with (S (i - S k)) by lia. auto.
Qed.

Lemma filter_map_snd {A B} (q : B -> bool) (l : list (A * B)) :
  map snd (filter (fun p => q (snd p)) l) = filter q (map snd l).
Proof. induction l as [|[a b] l IH]; simpl; auto. destruct (q b); simpl; congruence. Qed.

Definition notin (gone : list nat) (x : nat) : bool := negb (existsb (Nat.eqb x) gone).
Lemma notin_true gone x : notin gone x = true <-> ~ In x gone.
Proof.
  unfold notin. rewrite negb_true_iff. split.
  - intros H Hin. assert (existsb (Nat.eqb x) gone = true); [|congruence].
    apply existsb_exists. exists x; split; auto. apply Nat.eqb_refl.
  - intros H. destruct (existsb (Nat.eqb x) gone) eqn:E; auto. apply existsb_exists in E.
    destruct E as (y & Hy & Ey). apply Nat.eqb_eq in Ey. subst. tauto.
Qed.

Lemma delete_idx_filter (l : list nat) idx :
  NoDup l -> (forall i, In i idx -> i < length l) ->
  delete_idx l idx = filter (notin (map (fun i => nth i l 0) idx)) l.
Proof.
  intros HN Hb. unfold delete_idx.
  transitivity (map snd (filter (fun p => notin (map (fun i => nth i l 0) idx) (snd p)) (combine (seq 0 (length l)) l))).
  - f_equal. apply filter_ext_in. intros [i x] Hin. simpl.
    apply combine_seq_in in Hin. destruct Hin as [_ Hn]. rewrite Nat.sub_0_r in Hn.
    assert (Hi : i < length l) by (apply nth_error_Some; congruence).
    apply nth_error_nth with (d := 0) in Hn.
    change (negb (existsb (Nat.eqb i) idx)) with (notin idx i).
    destruct (notin idx i) eqn:E1, (notin (map (fun i => nth i l 0) idx) x) eqn:E2; auto; exfalso.
    + apply notin_true in E1. assert (In x (map (fun i => nth i l 0) idx)).
      { destruct (in_dec Nat.eq_dec x (map (fun i => nth i l 0) idx)); auto.
        apply notin_true in n. congruence. }
      apply in_map_iff in H. destruct H as (j & Ej & Hj). apply E1.
      rewrite NoDup_nth with (d := 0) in HN. rewrite (HN i j); auto. congruence.
    + apply notin_true in E2. apply E2. destruct (in_dec Nat.eq_dec i idx).
      * apply in_map_iff. exists i; auto.
      * apply notin_true in n. congruence.
  - rewrite filter_map_snd, map_combine_snd by (rewrite seq_length; auto). auto.
Qed.

Lemma combine_map_r {A B C} (f : B -> C) (l : list A) (m : list B) :
  combine l (map f m) = map (fun p => (fst p, f (snd p))) (combine l m).
Proof. revert m; induction l; intros [|b m]; simpl; auto. f_equal. auto. Qed.

Lemma filter_map_comm {A B} (f : A -> B) p l : filter p (map f l) = map f (filter (fun x => p (f x)) l).
Proof. induction l; simpl; auto. destruct (p (f a)); simpl; congruence. Qed.

Lemma delete_idx_map {A B} (f : A -> B) l idx : delete_idx (map f l) idx = map f (delete_idx l idx).
Proof.
  unfold delete_idx. rewrite map_length, combine_map_r, filter_map_comm, !map_map. simpl. auto.
Qed.

Lemma filter_none {A} (f : A -> bool) l : (forall x, In x l -> f x = false) -> filter f l = [].
Proof. induction l; simpl; intros H; auto. rewrite H by auto. auto. Qed.

Lemma filter_filter {A} (f g : A -> bool) l : filter f (filter g l) = filter (fun x => g x && f x) l.
Proof. induction l; simpl; auto. destruct (g a); simpl; [destruct (f a)|]; simpl; congruence. Qed.

(** ** Rounds *)
Definition asort_ok {F} (leb : F -> F -> bool) (asort : list F -> list nat) : Prop :=
  forall l d, Permutation (asort l) (seq 0 (length l)) /\
    forall a b, a < b -> b < length l -> leb (nth (nth a (asort l) 0) l d) (nth (nth b (asort l) 0) l d) = true.

Definition remaining (T : nat) (gone : list nat) : list nat := filter (notin gone) (seq 0 T).

Section Rounds.
Context {F : Type}.
Variable leb : F -> F -> bool.
Variable mean : list F -> F.
Variable zero : F.
Variable asort : list F -> list nat.
Variable nsplit step : nat.
Variable ev : nat -> list nat -> nat -> pred_out F.
Variable meta_row : list (list (list F)) -> nat -> result (list F).
Hypothesis Hsort : asort_ok leb asort.
Hypothesis Hnsplit : nsplit <> 1.

Notation fill_row := (fill_row zero ev).
Notation elim_round := (elim_round mean zero asort nsplit step ev meta_row).
Notation elim_rounds := (elim_rounds mean zero asort nsplit step ev meta_row).
Notation elim_run := (elim_run mean zero asort nsplit step ev meta_row).

Definition pos_score (surv : list nat) (x : nat) : F :=
  mean (map (fun k => score_of (ev k surv x)) (seq 0 nsplit)).
Definition pos_scores (surv : list nat) : list F := map (pos_score surv) (seq 0 (length surv)).

Lemma fill_row_eq surv k order :
  Permutation order (seq 0 (length surv)) ->
  fill_row (length surv) surv k order = map (fun x => score_of (ev k surv x)) (seq 0 (length surv)).
Proof.
  intros HP. unfold ElimModel.fill_row. apply list_ext_nth with (d := zero).
  - rewrite fold_set_nth_length, repeat_length, map_length, seq_length. auto.
  - rewrite fold_set_nth_length, repeat_length. intros i Hi.
    rewrite (fold_set_nth (fun x => score_of (ev k surv x))) by (rewrite repeat_length; auto).
    rewrite (@nth_map_lt _ _ _ _ _ 0) by (rewrite seq_length; auto). rewrite seq_nth by auto. simpl.
    assert (In i order) by (eapply Permutation_in; [symmetry; exact HP|apply in_seq; lia]).
    assert (existsb (Nat.eqb i) order = true) as ->; auto.
    apply existsb_exists. exists i. split; auto. apply Nat.eqb_refl.
Qed.

Lemma scores_eq surv orders :
  (forall k, Permutation (orders k) (seq 0 (length surv))) ->
  column_means mean zero (length surv) (map (fun k => fill_row (length surv) surv k (orders k)) (seq 0 nsplit))
  = pos_scores surv.
Proof.
  intros HP. unfold column_means, pos_scores. apply map_ext_in. intros j Hj. apply in_seq in Hj.
  unfold pos_score. f_equal. rewrite map_map. apply map_ext. intros k.
  rewrite fill_row_eq by auto. rewrite (@nth_map_lt _ _ _ _ _ 0) by (rewrite seq_length; lia).
  rewrite seq_nth by lia. auto.
Qed.

Lemma emit_ok surv scores s meta gs :
  length scores = length surv -> Permutation s (seq 0 (length surv)) ->
  (forall g, In g gs -> g < length surv) ->
  (forall g, In g gs -> exists m, meta_row meta g = Ok m) ->
  exists new, emit meta_row surv scores s meta gs = Ok new /\
    map fst new = map (fun g => (nth (nth g s 0) surv 0, nth (nth g s 0) scores zero)) gs /\
    Forall2 (fun g e => meta_row meta g = Ok (snd e)) gs new.
Proof.
  intros HL HP Hg Hm. induction gs as [|g gs IH]; simpl.
  - exists []. auto.
  - destruct IH as (new & E & H1 & H2); [intros; apply Hg; simpl; auto|intros; apply Hm; simpl; auto|].
    assert (Hlen : length s = length surv) by (rewrite (Permutation_length HP), seq_length; auto).
    assert (Hg0 : g < length s) by (rewrite Hlen; apply Hg; simpl; auto).
    assert (Hs : nth g s 0 < length surv).
    { assert (In (nth g s 0) (seq 0 (length surv))) by (eapply Permutation_in; [exact HP|apply nth_In; auto]).
      apply in_seq in H. lia. }
    rewrite (nth_error_nth' s 0 Hg0), (nth_error_nth' surv 0 Hs), (nth_error_nth' scores zero) by lia.
    destruct (Hm g (or_introl eq_refl)) as (m & Em). rewrite Em. simpl. rewrite E. simpl.
    eexists. split; [reflexivity|]. simpl. split; [congruence|]. constructor; auto.
Qed.

(** serial and parallel scores coincide; description of a whole round *)
Lemma round_ok orders st :
  total st = length (survivors st) -> step <= length (survivors st) ->
  (forall k, Permutation (orders k) (seq 0 (length (survivors st)))) ->
  (forall meta g, exists m, meta_row meta g = Ok m) \/
  (forall k x, meta_of (ev k (survivors st) x) = None) /\ (forall g, exists m, meta_row [] g = Ok m) ->
  let s := asort (pos_scores (survivors st)) in
  exists new, elim_round orders st =
    Ok (mkE (output st ++ new) (delete_idx (survivors st) (firstn step s)) (total st - step)) /\
    map fst new = map (fun i => (nth i (survivors st) 0, pos_score (survivors st) i)) (firstn step s) /\
    ((forall k x, meta_of (ev k (survivors st) x) = None) ->
        Forall2 (fun g e => meta_row [] g = Ok (snd e)) (seq 0 step) new).
Proof.
  intros Ht Hst HP Hmeta s. unfold ElimModel.elim_round. rewrite (proj2 (Nat.eqb_neq nsplit 1) Hnsplit). cbv zeta. rewrite Ht.
  rewrite scores_eq by auto. fold s.
  set (surv := survivors st) in *.
  set (meta := filter _ _).
  destruct (Hsort (pos_scores surv) zero) as [Hs1 _]. fold s in Hs1.
  assert (HLs : length (pos_scores surv) = length surv) by (unfold pos_scores; rewrite map_length, seq_length; auto).
  rewrite HLs in Hs1.
  assert (Hls : length s = length surv) by (rewrite (Permutation_length Hs1), seq_length; auto).
  assert (Hnil : (forall k x, meta_of (ev k surv x) = None) -> meta = []).
  { intros Hn. unfold meta. assert (Hfm : forall k, fold_meta ev surv k (orders k) = []).
    { intros k. unfold fold_meta. induction (orders k) as [|x o IH]; simpl; auto. rewrite Hn. auto. }
    induction (seq 0 nsplit) as [|k ks IH]; simpl; auto. rewrite Hfm. simpl. auto. }
  destruct (emit_ok surv (pos_scores surv) s meta (seq 0 step)) as (new & E & H1 & H2); auto.
  { intros g Hg. apply in_seq in Hg. lia. }
  { intros g _. destruct Hmeta as [Hmeta|[Hn Hmeta]]; auto. rewrite (Hnil Hn). auto. }
  exists new. rewrite E. simpl. split; auto. split.
  - rewrite H1.
    assert (Hf : firstn step s = map (fun g => nth g s 0) (seq 0 step)).
    { rewrite <- (gather_seq 0 s) at 1. unfold gather. rewrite firstn_map. f_equal.
      rewrite Hls. clear -Hst. generalize 0 as k. revert Hst. generalize (length surv) as n.
      induction step as [|m IH]; intros n H k; simpl; auto. destruct n; [lia|]. simpl. f_equal. apply IH. lia. }
    rewrite Hf, map_map. apply map_ext_in. intros g Hg. apply in_seq in Hg. f_equal.
    assert (Hb : nth g s 0 < length surv).
    { assert (In (nth g s 0) (seq 0 (length surv))) by (eapply Permutation_in; [exact Hs1|apply nth_In; lia]).
      apply in_seq in H. lia. }
    unfold pos_scores. rewrite (@nth_map_lt _ _ _ _ _ 0) by (rewrite seq_length; auto). rewrite seq_nth by auto. auto.
  - intros Hn. rewrite <- (Hnil Hn). auto.
Qed.

Definition feats (l : list (nat * F * list F)) : list nat := map (fun e => fst (fst e)) l.

Lemma feats_app l1 l2 : feats (l1 ++ l2) = feats l1 ++ feats l2.
Proof. apply map_app. Qed.

(** Bookkeeping invariant. *)
Record good (T r : nat) (st : @estate F) : Prop := {
  good_len : length (output st) = r * step;
  good_surv : survivors st = remaining T (feats (output st));
  good_total : total st = length (survivors st);
  good_total2 : total st + r * step = T;
  good_perm : Permutation (feats (output st) ++ survivors st) (seq 0 T)
}.

Lemma remaining_nodup T gone : NoDup (remaining T gone).
Proof. apply NoDup_filter, seq_NoDup. Qed.

Lemma good_start T : good T 0 (elim_start T).
Proof.
  constructor; simpl; auto.
  - unfold remaining. rewrite filter_true; auto.
  - rewrite seq_length. auto.
Qed.

Lemma Permutation_partition_idx (s : list nat) surv k :
  Permutation s (seq 0 (length surv)) ->
  Permutation (map (fun i => nth i surv 0) (firstn k s) ++ map (fun i => nth i surv 0) (skipn k s)) surv.
Proof.
  intros HP. rewrite <- map_app, firstn_skipn. change (map (fun i => nth i surv 0) s) with (gather 0 surv s).
  rewrite <- (gather_seq 0 surv) at 2. unfold gather. apply Permutation_map; auto.
Qed.

Lemma good_round T r orders st :
  good T r st -> 1 <= step -> S r * step < T ->
  (forall k, Permutation (orders k) (seq 0 (T - r * step))) ->
  (forall meta g, exists m, meta_row meta g = Ok m) \/
  (forall k surv x, meta_of (ev k surv x) = None) /\ (forall g, exists m, meta_row [] g = Ok m) ->
  exists st', elim_round orders st = Ok st' /\ good T (S r) st' /\
    let surv := survivors st in
    let s := asort (pos_scores surv) in
    exists new, output st' = output st ++ new /\
      map fst new = map (fun i => (nth i surv 0, pos_score surv i)) (firstn step s) /\
      survivors st' = filter (notin (feats new)) surv /\
      ((forall k surv x, meta_of (ev k surv x) = None) -> Forall2 (fun g e => meta_row [] g = Ok (snd e)) (seq 0 step) new).
Proof.
  intros [G1 G2 G3 G4 G5] Hst HT HP Hmeta.
  assert (Hlen : length (survivors st) = T - r * step) by lia.
  assert (HlenS : S r * step = r * step + step) by lia.
  set (surv := survivors st) in *.
  destruct (round_ok orders st) as (new & E & H1 & H2); auto.
  { fold surv. lia. }
  { fold surv. rewrite Hlen. auto. }
  { destruct Hmeta as [H|[Ha Hb]]; auto. }
  fold surv in E, H1, H2.
  set (s := asort (pos_scores surv)) in *.
  destruct (Hsort (pos_scores surv) zero) as [Hs1 _]. fold s in Hs1.
  assert (HLs : length (pos_scores surv) = length surv) by (unfold pos_scores; rewrite map_length, seq_length; auto).
  rewrite HLs in Hs1.
  assert (Hls : length s = length surv) by (rewrite (Permutation_length Hs1), seq_length; auto).
  assert (Hfe : feats new = map (fun i => nth i surv 0) (firstn step s)).
  { unfold feats. rewrite <- (map_map fst fst). rewrite H1, map_map. auto. }
  assert (Hb : forall i, In i (firstn step s) -> i < length surv).
  { intros i Hi. apply firstn_In in Hi. assert (In i (seq 0 (length surv))) by (eapply Permutation_in; eauto).
    apply in_seq in H. lia. }
  assert (HN : NoDup surv) by (rewrite G2; apply remaining_nodup).
  assert (Hsurv : delete_idx surv (firstn step s) = filter (notin (feats new)) surv).
  { rewrite Hfe. apply delete_idx_filter; auto. }
  assert (Hpart : Permutation (feats new ++ filter (notin (feats new)) surv) surv).
  { pose proof (Permutation_partition_idx s surv step Hs1) as HPp. rewrite <- Hfe in HPp.
    assert (HNa : NoDup (feats new ++ map (fun i => nth i surv 0) (skipn step s)))
      by (eapply Permutation_NoDup; [symmetry; exact HPp|auto]).
    assert (Hf2 : Permutation (filter (notin (feats new)) surv) (map (fun i => nth i surv 0) (skipn step s))).
    { rewrite <- (Permutation_filter (notin (feats new)) HPp). rewrite filter_app.
      rewrite (filter_none (notin (feats new)) (feats new)), (filter_true (notin (feats new)) (map _ _)); simpl; auto.
      - intros x Hx. apply notin_true. intros Hn.
        apply NoDup_app_inv in HNa. destruct HNa as (_ & _ & HNa). eapply HNa; eauto.
      - intros x Hx. destruct (notin (feats new) x) eqn:En; auto. apply notin_true in En. tauto. }
    rewrite Hf2. auto. }
  eexists. split; [exact E|].
  assert (Hnewlen : length new = step).
  { assert (length (map fst new) = step) by (rewrite H1, map_length, firstn_length; lia). rewrite map_length in H. auto. }
  split.
  - assert (Hl3 : length (filter (notin (feats new)) surv) + step = length surv).
    { pose proof (Permutation_length Hpart) as Hpl. rewrite app_length in Hpl. unfold feats at 1 in Hpl.
      rewrite map_length, Hnewlen in Hpl. lia. }
    constructor; simpl.
    + rewrite app_length, G1, Hnewlen. lia.
    + rewrite Hsurv. unfold remaining. rewrite feats_app. rewrite G2. unfold remaining.
      rewrite filter_filter. apply filter_ext. intros x.
      unfold notin. rewrite existsb_app, negb_orb. auto.
    + rewrite Hsurv. lia.
    + lia.
    + rewrite feats_app, Hsurv, <- app_assoc. rewrite Hpart. auto.
  - exists new. simpl. repeat split; auto.
Qed.

Lemma good_rounds T n : forall r sched st,
  good T r st -> 1 <= step -> (r + n) * step < T \/ n = 0 ->
  (forall i k, Permutation (sched i k) (seq 0 (T - (r + i) * step))) ->
  (forall meta g, exists m, meta_row meta g = Ok m) \/
  (forall k surv x, meta_of (ev k surv x) = None) /\ (forall g, exists m, meta_row [] g = Ok m) ->
  exists st', elim_rounds n sched st = Ok st' /\ good T (r + n) st'.
Proof.
  induction n as [|n IH]; intros r sched st HG Hst HT HP Hm; simpl.
  - exists st. rewrite Nat.add_0_r. auto.
  - destruct HT as [HT|HT]; [|discriminate].
    destruct (good_round T r (sched 0) st) as (st1 & E1 & G1 & _); auto.
    { nia. }
    { intros k. specialize (HP 0 k). rewrite Nat.add_0_r in HP. auto. }
    rewrite E1. simpl.
    destruct (IH (S r) (fun i => sched (S i)) st1 G1) as (st2 & E2 & G2); auto.
    { left. nia. }
    { intros i k. specialize (HP (S i) k). replace (S r + i) with (r + S i) by lia. auto. }
    exists st2. split; auto. replace (r + S n) with (S r + n) by lia. auto.
Qed.

Lemma elim_rounds_app n m sched st :
  elim_rounds (n + m) sched st =
  bind (elim_rounds n sched st) (elim_rounds m (fun i => sched (n + i))).
Proof.
  revert sched st; induction n as [|n IH]; intros sched st; simpl; auto.
  destruct (elim_round (sched 0) st) as [st1|e]; simpl; auto.
  rewrite IH. auto.
Qed.

(** schedules do not matter *)
Lemma round_schedule T r o1 o2 st :
  good T r st -> 1 <= step -> S r * step < T ->
  (forall k, Permutation (o1 k) (seq 0 (T - r * step))) ->
  (forall k, Permutation (o2 k) (seq 0 (T - r * step))) ->
  (forall k surv x, meta_of (ev k surv x) = None) -> (forall g, exists m, meta_row [] g = Ok m) ->
  elim_round o1 st = elim_round o2 st.
Proof.
  intros [G1 G2 G3 G4 G5] Hst HT H1 H2 Hn Hm.
  unfold ElimModel.elim_round. rewrite (proj2 (Nat.eqb_neq nsplit 1) Hnsplit). cbv zeta. rewrite G3.
  assert (Hlen : length (survivors st) = T - r * step) by lia.
  rewrite !scores_eq by (rewrite Hlen; auto).
  assert (Hfm : forall o k, fold_meta ev (survivors st) k o = []).
  { intros o k. unfold fold_meta. induction o as [|x o IH]; simpl; auto. rewrite Hn. auto. }
  assert (Hmm : forall o : nat -> list nat, filter (fun m : list (list F) => negb (length m =? 0))
     (map (fun k => fold_meta ev (survivors st) k (o k)) (seq 0 nsplit)) = []).
  { intros o. induction (seq 0 nsplit) as [|k ks IH]; simpl; auto. rewrite Hfm. auto. }
  rewrite !Hmm. auto.
Qed.

Lemma rounds_schedule T n : forall r s1 s2 st,
  good T r st -> 1 <= step -> (r + n) * step < T \/ n = 0 ->
  (forall i k, Permutation (s1 i k) (seq 0 (T - (r + i) * step))) ->
  (forall i k, Permutation (s2 i k) (seq 0 (T - (r + i) * step))) ->
  (forall k surv x, meta_of (ev k surv x) = None) -> (forall g, exists m, meta_row [] g = Ok m) ->
  elim_rounds n s1 st = elim_rounds n s2 st.
Proof.
  induction n as [|n IH]; intros r s1 s2 st HG Hst HT H1 H2 Hn Hm; simpl; auto.
  destruct HT as [HT|HT]; [|discriminate].
  assert (HA : forall k, Permutation (s1 0 k) (seq 0 (T - r * step))).
  { intros k. specialize (H1 0 k). rewrite Nat.add_0_r in H1. auto. }
  assert (HB : forall k, Permutation (s2 0 k) (seq 0 (T - r * step))).
  { intros k. specialize (H2 0 k). rewrite Nat.add_0_r in H2. auto. }
  rewrite (round_schedule T r (s1 0) (s2 0) st); auto; [|nia].
  destruct (good_round T r (s2 0) st) as (st1 & E1 & G1 & _); auto; [nia|].
  rewrite E1. simpl. apply (IH (S r)); auto.
  - left. nia.
  - intros i k. specialize (H1 (S i) k). replace (S r + i) with (r + S i) by lia. auto.
  - intros i k. specialize (H2 (S i) k). replace (S r + i) with (r + S i) by lia. auto.
Qed.

(** what each of the next [n] rounds did *)
Lemma rounds_trace T n : forall r sched st,
  good T r st -> 1 <= step -> (r + n) * step < T \/ n = 0 ->
  (forall i k, Permutation (sched i k) (seq 0 (T - (r + i) * step))) ->
  (forall meta g, exists m, meta_row meta g = Ok m) \/
  (forall k surv x, meta_of (ev k surv x) = None) /\ (forall g, exists m, meta_row [] g = Ok m) ->
  exists st' rest, elim_rounds n sched st = Ok st' /\ good T (r + n) st' /\
    output st' = output st ++ rest /\
    forall i, i < n ->
      let surv := remaining T (feats (firstn ((r + i) * step) (output st'))) in
      length surv = T - (r + i) * step /\
      map fst (firstn step (skipn ((r + i) * step) (output st')))
      = map (fun i => (nth i surv 0, pos_score surv i)) (firstn step (asort (pos_scores surv))).
Proof.
  induction n as [|n IH]; intros r sched st HG Hst HT HP Hm; simpl.
  - exists st, []. rewrite Nat.add_0_r, app_nil_r. split; auto. split; auto. split; auto. intros i Hi. lia.
  - destruct HT as [HT|HT]; [|discriminate].
    destruct (good_round T r (sched 0) st) as (st1 & E1 & G1 & new & N1 & N2 & N3 & _); auto.
    { nia. }
    { intros k. specialize (HP 0 k). rewrite Nat.add_0_r in HP. auto. }
    rewrite E1. simpl.
    destruct (IH (S r) (fun i => sched (S i)) st1 G1) as (st2 & rest & E2 & G2 & R1 & R2); auto.
    { left. nia. }
    { intros i k. specialize (HP (S i) k). replace (S r + i) with (r + S i) by lia. auto. }
    exists st2, (new ++ rest). split; auto. replace (r + S n) with (S r + n) by lia. split; auto.
    split. { rewrite R1, N1, app_assoc. auto. }
    intros i Hi. destruct i as [|i].
    + rewrite Nat.add_0_r. destruct HG as [g1 g2 g3 g4 g5].
      assert (Ef : firstn (r * step) (output st2) = output st).
      { rewrite R1, N1, <- app_assoc, <- g1, firstn_app, Nat.sub_diag, firstn_all, firstn_O, app_nil_r. auto. }
      assert (Es : skipn (r * step) (output st2) = new ++ rest).
      { rewrite R1, N1, <- app_assoc, <- g1, skipn_app, Nat.sub_diag, skipn_all. auto. }
      rewrite Ef, Es, <- g2. split; [lia|].
      assert (Hln : length new = step).
      { destruct G1 as [q1 _ _ _ _]. rewrite N1, app_length in q1. lia. }
      rewrite <- Hln at 1. rewrite firstn_app, Nat.sub_diag, firstn_all, firstn_O, app_nil_r. auto.
    + replace (r + S i) with (S r + i) by lia. apply R2. lia.
Qed.

(** without meta data every row ends after the score *)
Lemma rounds_nometa T n : forall r sched st,
  good T r st -> 1 <= step -> (r + n) * step < T \/ n = 0 ->
  (forall i k, Permutation (sched i k) (seq 0 (T - (r + i) * step))) ->
  (forall k surv x, meta_of (ev k surv x) = None) -> (forall g, meta_row [] g = Ok []) ->
  (forall e, In e (output st) -> snd e = []) ->
  forall st', elim_rounds n sched st = Ok st' -> forall e, In e (output st') -> snd e = [].
Proof.
  induction n as [|n IH]; intros r sched st HG Hst HT HP Hn Hm H0 st' E; simpl in E.
  - inversion E; subst. auto.
  - destruct HT as [HT|HT]; [|discriminate].
    destruct (good_round T r (sched 0) st) as (st1 & E1 & G1 & new & N1 & N2 & N3 & N4); auto.
    { nia. }
    { intros k. specialize (HP 0 k). rewrite Nat.add_0_r in HP. auto. }
    { right. split; auto. intros g. exists []. auto. }
    rewrite E1 in E. simpl in E.
    apply (IH (S r) (fun i => sched (S i)) st1 G1) with (st' := st'); auto.
    { left. nia. }
    { intros i k. specialize (HP (S i) k). replace (S r + i) with (r + S i) by lia. auto. }
    intros e He. rewrite N1 in He. apply in_app_iff in He. destruct He as [He|He]; auto.
    specialize (N4 Hn). clear -N4 He Hm. induction N4 as [|g x gs l Hx _ IH]; simpl in He; [tauto|].
    destruct He as [<-|He]; auto. rewrite Hm in Hx. inversion Hx. auto.
Qed.

(** features, scores and survivors do not depend on the schedule even with meta data *)
Lemma rounds_schedule_fst T n : forall r s1 s2 st1 st2,
  good T r st1 -> good T r st2 -> map fst (output st1) = map fst (output st2) ->
  1 <= step -> (r + n) * step < T \/ n = 0 ->
  (forall i k, Permutation (s1 i k) (seq 0 (T - (r + i) * step))) ->
  (forall i k, Permutation (s2 i k) (seq 0 (T - (r + i) * step))) ->
  (forall meta g, exists m, meta_row meta g = Ok m) ->
  exists t1 t2, elim_rounds n s1 st1 = Ok t1 /\ elim_rounds n s2 st2 = Ok t2 /\
    map fst (output t1) = map fst (output t2) /\ survivors t1 = survivors t2.
Proof.
  induction n as [|n IH]; intros r s1 s2 st1 st2 HG1 HG2 Hf Hst HT HP1 HP2 Hm; simpl.
  - exists st1, st2. repeat split; auto. destruct HG1 as [_ -> _ _ _], HG2 as [_ -> _ _ _].
    unfold feats. rewrite <- !(map_map fst fst). congruence.
  - destruct HT as [HT|HT]; [|discriminate].
    destruct (good_round T r (s1 0) st1) as (u1 & E1 & G1 & new1 & N1 & N2 & N3 & _); auto.
    { nia. }
    { intros k. specialize (HP1 0 k). rewrite Nat.add_0_r in HP1. auto. }
    destruct (good_round T r (s2 0) st2) as (u2 & E2 & G2 & new2 & M1 & M2 & M3 & _); auto.
    { nia. }
    { intros k. specialize (HP2 0 k). rewrite Nat.add_0_r in HP2. auto. }
    rewrite E1, E2. simpl.
    assert (Hs : survivors st1 = survivors st2).
    { destruct HG1 as [_ -> _ _ _], HG2 as [_ -> _ _ _].
      unfold feats. rewrite <- !(map_map fst fst). congruence. }
    apply (IH (S r)); auto.
    + rewrite N1, M1, !map_app, Hf, N2, M2, Hs. auto.
    + left. nia.
    + intros i k. specialize (HP1 (S i) k). replace (S r + i) with (r + S i) by lia. auto.
    + intros i k. specialize (HP2 (S i) k). replace (S r + i) with (r + S i) by lia. auto.
Qed.
End Rounds.

Lemma rounds_left T step a :
  1 <= step -> a <= (T - 1) / step -> (T - a * step - 1) / step = (T - 1) / step - a.
Proof.
  intros Hs Ha. destruct (Nat.eq_dec T 0) as [->|HT].
  - simpl. rewrite Nat.div_0_l by lia. simpl in *. auto.
  - replace (T - a * step - 1) with ((T - 1) - step * a) by lia.
    pose proof (Nat.div_mod (T - 1) step ltac:(lia)).
    pose proof (Nat.mod_upper_bound (T - 1) step ltac:(lia)).
    symmetry. apply Nat.div_unique with (r := (T - 1) mod step); auto. nia.
Qed.

Lemma rounds_bound T step : 1 <= step -> (T - 1) / step = 0 \/ (T - 1) / step * step < T.
Proof.
  intros Hs. destruct (Nat.eq_dec T 0) as [->|HT].
  - left. simpl. apply Nat.div_0_l. lia.
  - right. pose proof (Nat.div_mod (T - 1) step ltac:(lia)). nia.
Qed.
