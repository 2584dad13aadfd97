(** Proofs about the Pareto transform (algorithm.py:308-351). *)
From Coq Require Import List Arith Lia Permutation Bool ZArith.
From Verif Require Import Base BaseFacts GAModel.
Import ListNotations.
Local Open Scope nat_scope.

Section Pareto.
Context {E : Type}.
Variable leb : E -> E -> bool.
Variable ninf : E.
Hypothesis Hord : total_preorder leb.
Hypothesis Hninf : forall e, leb ninf e = true.

(** [a] is strictly better than [b] in every objective. *)
Definition sdom (a b : list E) : Prop := Forall2 (fun x y => leb x y = false) a b.

Lemma leb_refl x : leb x x = true.
Proof. destruct Hord as [H _]. destruct (H x x); auto. Qed.
Lemma lt_trans x y z : leb x y = false -> leb y z = false -> leb x z = false.
Proof.
  destruct Hord as [Ht Htr]. intros H1 H2. destruct (leb x z) eqn:Ex; auto.
  assert (leb z y = true) by (destruct (Ht z y); congruence).
  rewrite (Htr x z y) in H1; congruence.
Qed.

Lemma some_geq_sdom row fit : length row = length fit ->
  some_geq leb row fit = false <-> sdom fit row.
Proof.
  unfold some_geq, sdom. revert fit. induction row as [|x row IH]; intros [|y fit]; simpl; intros HL; try lia.
  - split; auto.
  - rewrite orb_false_iff, IH by lia. split.
    + intros [H1 H2]; constructor; auto.
    + intros H; inversion H; auto.
Qed.

Lemma sdom_trans a b c : sdom a b -> sdom b c -> sdom a c.
Proof.
  unfold sdom. intros H; revert c; induction H; intros c Hc; inversion Hc; subst; constructor; eauto using lt_trans.
Qed.
Lemma sdom_irrefl a : a <> [] -> ~ sdom a a.
Proof.
  intros Hne H. destruct a; [congruence|]. inversion H; subst. rewrite leb_refl in *. discriminate.
Qed.

(** a maximal element for a coordinate function *)
Lemma arg_max {I} (f : I -> E) (l : list I) : l <> [] ->
  exists i, In i l /\ forall j, In j l -> leb (f j) (f i) = true.
Proof.
  destruct Hord as [Ht Htr].
  induction l as [|a l IH]; [congruence|]. intros _. destruct l as [|b l].
  - exists a. split; [left; auto|]. intros j [<-|[]]. apply leb_refl.
  - destruct IH as (i & Hi & Hm); [discriminate|].
    destruct (leb (f a) (f i)) eqn:Ea.
    + exists i. split; [right; auto|]. intros j [<-|Hj]; auto.
    + exists a. split; [left; auto|]. intros j [<-|Hj]; [apply leb_refl|].
      assert (leb (f i) (f a) = true) by (destruct (Ht (f i) (f a)); congruence).
      eauto.
Qed.

Section Front.
Variable m : list (list E).
Variable w : nat.
Hypothesis Hw : 1 <= w.
Hypothesis Hrect : Forall (fun r => length r = w) m.
Let n := length m.
Notation row i := (nth i m []).

Lemma row_len i : i < n -> length (row i) = w.
Proof. intros. rewrite Forall_forall in Hrect. apply Hrect. apply nth_In; auto. Qed.

Definition undominated j := forall i, i < n -> ~ sdom (row i) (row j).

Lemma step_length front i : length front = n -> length (pareto_step leb m front i) = n.
Proof.
  intros H. unfold pareto_step. destruct (nth i front false); auto.
  rewrite map_length, combine_length. fold n. lia.
Qed.
Lemma step_nth front i j : length front = n -> j < n ->
  nth j (pareto_step leb m front i) false =
  nth j front false && (negb (nth i front false) || some_geq leb (row j) (row i)).
Proof.
  intros HL Hj. unfold pareto_step. destruct (nth i front false) eqn:Ei.
  - rewrite (@nth_map_lt _ _ _ _ _ (false, [])) by (rewrite combine_length; fold n; lia).
    rewrite combine_nth by auto. simpl.
    destruct (nth j front false); auto.
  - simpl. rewrite andb_true_r. auto.
Qed.

Lemma fold_length l front : length front = n -> length (fold_left (pareto_step leb m) l front) = n.
Proof. revert front; induction l; simpl; intros; auto. apply IHl, step_length; auto. Qed.

Lemma fold_keep l front j : length front = n -> j < n -> undominated j ->
  (forall i, In i l -> i < n) -> nth j front false = true ->
  nth j (fold_left (pareto_step leb m) l front) false = true.
Proof.
  revert front. induction l as [|i l IH]; simpl; intros front HL Hj Hu Hl Ht; auto.
  apply IH; auto. { apply step_length; auto. }
  rewrite step_nth by auto. rewrite Ht. simpl.
  destruct (some_geq leb (row j) (row i)) eqn:Es; [apply orb_true_r|].
  apply some_geq_sdom in Es.
  - exfalso. eapply Hu; [|exact Es]. apply Hl; auto.
  - rewrite !row_len; auto.
Qed.

Lemma fold_false l front j : length front = n -> j < n -> nth j front false = false ->
  nth j (fold_left (pareto_step leb m) l front) false = false.
Proof.
  revert front. induction l as [|i l IH]; simpl; intros front HL Hj Hf; auto.
  apply IH; auto. { apply step_length; auto. }
  rewrite step_nth, Hf by auto. auto.
Qed.

Lemma fold_drop l front i j : length front = n -> j < n -> i < n ->
  undominated i -> sdom (row i) (row j) -> In i l -> (forall i, In i l -> i < n) ->
  nth i front false = true ->
  nth j (fold_left (pareto_step leb m) l front) false = false.
Proof.
  revert front. induction l as [|a l IH]; simpl; intros front HL Hj Hi Hu Hd Hin Hl Ht; [tauto|].
  destruct (Nat.eq_dec a i) as [->|Hne].
  - apply fold_false; auto. { apply step_length; auto. }
    rewrite step_nth, Ht by auto. simpl.
    apply some_geq_sdom in Hd; [|rewrite !row_len; auto]. rewrite Hd. apply andb_false_r.
  - destruct Hin as [->|Hin]; [congruence|].
    apply IH; auto. { apply step_length; auto. }
    apply (fold_keep [a] front i); auto. intros x [<-|[]]; auto.
Qed.

Lemma undominated_dominator j : j < n -> ~ undominated j ->
  exists i, i < n /\ undominated i /\ sdom (row i) (row j).
Proof.
  intros Hj Hnu.
  set (D := filter (fun i => negb (some_geq leb (row j) (row i))) (seq 0 n)).
  assert (HD : forall i, In i D <-> i < n /\ sdom (row i) (row j)).
  { intros i. unfold D. rewrite filter_In, in_seq, negb_true_iff. split.
    - intros [H1 H2]. split; [lia|]. apply some_geq_sdom; auto. rewrite !row_len; auto; lia.
    - intros [H1 H2]. split; [lia|]. apply some_geq_sdom; auto. rewrite !row_len; auto; lia. }
  destruct D as [|i0 D'] eqn:ED.
  { exfalso. apply Hnu. intros i Hi Hs. apply (proj2 (HD i)); auto. }
  destruct (arg_max (fun i => nth 0 (row i) ninf) D) as (i & Hi & Hm); [rewrite ED; discriminate|].
  rewrite ED in *.
  apply HD in Hi. destruct Hi as [Hi Hs]. exists i. repeat split; auto.
  intros i' Hi' Hs'.
  assert (In i' (i0 :: D')). { apply HD. split; auto. eapply sdom_trans; eauto. }
  specialize (Hm i' H).
  pose proof (row_len i Hi). pose proof (row_len i' Hi').
  destruct (row i') as [|x r'], (row i) as [|y r]; simpl in *; try lia.
  inversion Hs'; subst. congruence.
Qed.

Lemma undominated_dec j : j < n -> undominated j \/ ~ undominated j.
Proof.
  intros Hj. destruct (existsb (fun i => negb (some_geq leb (row j) (row i))) (seq 0 n)) eqn:Ex.
  - right. apply existsb_exists in Ex. destruct Ex as (i & Hi & Hs). apply in_seq in Hi.
    apply negb_true_iff, some_geq_sdom in Hs; [|rewrite !row_len; auto; lia].
    intros Hu. apply (Hu i); auto. lia.
  - left. intros i Hi Hs. apply some_geq_sdom in Hs; [|rewrite !row_len; auto; lia].
    assert (existsb (fun i => negb (some_geq leb (row j) (row i))) (seq 0 n) = true); [|congruence].
    apply existsb_exists. exists i. rewrite in_seq, Hs. split; auto. lia.
Qed.

Lemma locate_length : length (locate_pareto leb m) = n.
Proof. unfold locate_pareto. apply fold_length. apply repeat_length. Qed.

Lemma locate_spec j : j < n ->
  nth j (locate_pareto leb m) false = true <-> undominated j.
Proof.
  intros Hj. unfold locate_pareto. fold n.
  assert (Hr : forall i, i < n -> nth i (repeat true n) false = true) by (intros; apply nth_repeat_lt; auto).
  assert (Hs : forall i, In i (seq 0 n) -> i < n) by (intros i H; apply in_seq in H; lia).
  split.
  - intros Ht. destruct (undominated_dec j Hj) as [|Hnu]; auto.
    destruct (undominated_dominator j Hj Hnu) as (i & Hi & Hu & Hd).
    rewrite (fold_drop (seq 0 n) (repeat true n) i j) in Ht; auto.
    + discriminate.
    + apply repeat_length.
    + apply in_seq. lia.
  - intros Hu. apply fold_keep; auto. apply repeat_length.
Qed.

Lemma locate_dominator j : j < n -> nth j (locate_pareto leb m) false = false ->
  exists i, i < n /\ nth i (locate_pareto leb m) false = true /\ sdom (row i) (row j).
Proof.
  intros Hj Hf. destruct (undominated_dec j Hj) as [Hu|Hnu].
  - apply (locate_spec j Hj) in Hu. congruence.
  - destruct (undominated_dominator j Hj Hnu) as (i & Hi & Hu & Hd).
    exists i. repeat split; auto. apply locate_spec; auto.
Qed.

(** while a finite entry exists, the front contains a row with a finite entry *)
Lemma front_live : any_finite leb ninf m = true ->
  exists j, j < n /\ nth j (locate_pareto leb m) false = true /\ existsb (is_finite leb ninf) (row j) = true.
Proof.
  unfold any_finite. rewrite existsb_exists. intros (r & Hr & Hf).
  apply existsb_exists in Hf. destruct Hf as (e & He & Hfe).
  destruct (In_nth _ _ [] Hr) as (i0 & Hi0 & <-).
  destruct (In_nth _ _ ninf He) as (k & Hk & <-).
  fold n in Hi0. rewrite row_len in Hk by auto.
  destruct (arg_max (fun i => nth k (row i) ninf) (seq 0 n)) as (i & Hi & Hm).
  { intros H. apply (f_equal (@length nat)) in H. rewrite seq_length in H. simpl in H. lia. }
  apply in_seq in Hi. exists i. assert (i < n) by lia. repeat split; auto.
  - apply locate_spec; auto. intros i' Hi' Hs.
    assert (Hin : In i' (seq 0 n)) by (apply in_seq; lia). specialize (Hm i' Hin).
    pose proof (@Forall2_nth) as _. 
    assert (leb (nth k (row i') ninf) (nth k (row i) ninf) = false); [|congruence].
    assert (Hk' : k < length (row i')) by (rewrite row_len; auto).
    clear -Hs Hk'. unfold sdom in Hs. revert k Hk'. induction Hs; simpl; intros [|k] Hk; try lia; auto.
    apply IHHs. lia.
  - apply existsb_exists. exists (nth k (row i) ninf). split.
    + apply nth_In. rewrite row_len; auto.
    + unfold is_finite in *. rewrite negb_true_iff in *.
      destruct (leb (nth k (row i) ninf) ninf) eqn:El; auto.
      destruct Hord as [_ Htr]. rewrite (Htr _ _ _ (Hm i0 ltac:(apply in_seq; lia)) El) in Hfe. discriminate.
Qed.
End Front.

Lemma clear_length front m : length front = length m -> length (clear ninf front m) = length m.
Proof. intros. unfold clear. rewrite map_length, combine_length. lia. Qed.
Lemma clear_nth front m j : length front = length m -> j < length m ->
  nth j (clear ninf front m) [] = if nth j front false then map (fun _ => ninf) (nth j m []) else nth j m [].
Proof.
  intros HL Hj. unfold clear.
  rewrite (@nth_map_lt _ _ _ _ _ (false, [])) by (rewrite combine_length; lia).
  rewrite combine_nth by auto. simpl. auto.
Qed.
Lemma mark_length front p res : length front = length res -> length (mark front p res) = length res.
Proof. intros. unfold mark. rewrite map_length, combine_length. lia. Qed.
Lemma mark_nth front p res j : length front = length res -> j < length res ->
  nth j (mark front p res) 0%Z = if nth j front false then p else nth j res 0%Z.
Proof.
  intros HL Hj. unfold mark.
  rewrite (@nth_map_lt _ _ _ _ _ (false, 0%Z)) by (rewrite combine_length; lia).
  rewrite combine_nth by auto. simpl. auto.
Qed.

Lemma clear_rect front m w : length front = length m -> Forall (fun r => length r = w) m ->
  Forall (fun r => length r = w) (clear ninf front m).
Proof.
  intros HL HF. rewrite Forall_forall in *. intros r Hr.
  destruct (In_nth _ _ [] Hr) as (j & Hj & <-). rewrite clear_length in Hj by auto.
  rewrite clear_nth by auto. destruct (nth j front false); rewrite ?map_length; apply HF, nth_In; auto.
Qed.

(** *** Termination *)
Definition live (m : list (list E)) : nat := length (filter (existsb (is_finite leb ninf)) m).

Lemma ninf_not_finite : is_finite leb ninf ninf = false.
Proof. unfold is_finite. rewrite Hninf. auto. Qed.
Lemma all_ninf_dead (r : list E) : existsb (is_finite leb ninf) (map (fun _ => ninf) r) = false.
Proof. induction r; simpl; auto. rewrite ninf_not_finite. auto. Qed.

Lemma live_clear_le front m : length front = length m -> live (clear ninf front m) <= live m.
Proof.
  unfold live, clear. revert front. induction m as [|r m IH]; intros [|b front]; simpl; intros HL; try lia.
  specialize (IH front ltac:(lia)). destruct b.
  - rewrite all_ninf_dead. destruct (existsb (is_finite leb ninf) r); simpl; lia.
  - destruct (existsb (is_finite leb ninf) r); simpl; lia.
Qed.
Lemma live_clear_lt front m j : length front = length m -> j < length m ->
  nth j front false = true -> existsb (is_finite leb ninf) (nth j m []) = true ->
  live (clear ninf front m) < live m.
Proof.
  revert front j. induction m as [|r m IH]; intros [|b front] j; simpl; intros HL Hj Hf He; try lia.
  destruct j as [|j].
  - subst b. unfold live, clear. simpl. rewrite all_ninf_dead, He. simpl.
    pose proof (live_clear_le front m ltac:(lia)). unfold live, clear in H. lia.
  - specialize (IH front j ltac:(lia) ltac:(lia) Hf He). unfold live, clear in *. simpl.
    destruct b.
    + rewrite all_ninf_dead. destruct (existsb (is_finite leb ninf) r); simpl; lia.
    + destruct (existsb (is_finite leb ninf) r); simpl; lia.
Qed.

Lemma pareto_loop_terminates w fuel m p res :
  1 <= w -> Forall (fun r => length r = w) m -> live m <= fuel ->
  exists r, pareto_loop leb ninf fuel m p res = Some r.
Proof.
  intros Hw. revert m p res. induction fuel as [|fuel IH]; simpl; intros m p res Hr Hl;
    destruct (any_finite leb ninf m) eqn:Ea; eauto.
  - exfalso. destruct (front_live m w Hw Hr Ea) as (j & Hj & _ & Hf).
    assert (In (nth j m []) (filter (existsb (is_finite leb ninf)) m)) by (apply filter_In; split; auto; apply nth_In; auto).
    unfold live in Hl. destruct (filter _ m); simpl in *; [tauto|lia].
  - destruct (front_live m w Hw Hr Ea) as (j & Hj & Ht & Hf).
    assert (HL : length (locate_pareto leb m) = length m) by (eapply locate_length; eauto).
    apply IH.
    + apply clear_rect; auto.
    + pose proof (live_clear_lt (locate_pareto leb m) m j HL Hj Ht Hf). lia.
Qed.

Lemma live_le m : live m <= length m.
Proof. unfold live. induction m as [|r m IH]; simpl; auto. destruct (existsb _ r); simpl; lia. Qed.

Lemma pareto_transform_terminates w m :
  1 <= w -> Forall (fun r => length r = w) m -> exists r, pareto_transform leb ninf m = Some r.
Proof.
  intros Hw Hr. unfold pareto_transform. eapply pareto_loop_terminates; eauto. apply live_le.
Qed.

(** *** Ranks *)
Section Ranks.
Variable m0 : list (list E).
Variable w : nat.
Hypothesis Hw : 1 <= w.
Hypothesis Hrect0 : Forall (fun r => length r = w) m0.
Let n := length m0.
Notation row0 i := (nth i m0 []).
(** every candidate either evaluated in all objectives or failed completely *)
Definition evaluated (r : list E) := Forall (fun e => is_finite leb ninf e = true) r.
Definition failed (r : list E) := Forall (fun e => e = ninf) r.
Hypothesis Hmix : Forall (fun r => evaluated r \/ failed r) m0.

Definition cleared m j := nth j m [] = map (fun _ => ninf) (row0 j).

Record inv (k : nat) (m : list (list E)) (res : list Z) : Prop := {
  inv_len : length m = n;
  inv_rlen : length res = n;
  inv_rect : Forall (fun r => length r = w) m;
  inv_failed : forall j, j < n -> failed (row0 j) -> nth j m [] = row0 j /\ nth j res 0%Z = 0%Z;
  inv_fin : forall j, j < n -> evaluated (row0 j) ->
     (nth j m [] = row0 j /\ nth j res 0%Z = 0%Z /\
        (1 <= k -> exists i, i < n /\ evaluated (row0 i) /\ sdom (row0 i) (row0 j) /\ nth i res 0%Z = (- Z.of_nat k)%Z)) \/
     (cleared m j /\ (- Z.of_nat k <= nth j res 0 <= -1)%Z /\
        (forall i, i < n -> sdom (row0 i) (row0 j) -> (nth j res 0 < nth i res 0 <= -1)%Z) /\
        ((nth j res 0 < -1)%Z -> exists i, i < n /\ sdom (row0 i) (row0 j) /\ nth i res 0%Z = (nth j res 0 + 1)%Z))
}.

Lemma row0_len i : i < n -> length (row0 i) = w.
Proof. intros. rewrite Forall_forall in Hrect0. apply Hrect0. apply nth_In; auto. Qed.

Lemma failed_map r : failed r -> r = map (fun _ => ninf) r.
Proof. induction 1; simpl; congruence. Qed.

Lemma evaluated_sdom (a b : list E) : length a = length b -> evaluated a -> sdom a (map (fun _ => ninf) b).
Proof.
  unfold sdom, evaluated. revert b. induction a as [|x a IH]; intros [|y b]; simpl; intros HL He; try lia; constructor.
  - inversion He; subst. unfold is_finite in H1. apply negb_true_iff; auto.
  - inversion He; subst. apply IH; auto.
Qed.
Lemma ninf_sdom_none (a b : list E) : b <> [] -> length a = length b -> ~ sdom (map (fun _ => ninf) a) b.
Proof.
  intros Hb HL Hs. destruct a as [|x a], b as [|y b]; simpl in *; try lia; try congruence.
  inversion Hs; subst. rewrite Hninf in H2. discriminate.
Qed.

Lemma mix j : j < n -> evaluated (row0 j) \/ failed (row0 j).
Proof. intros. rewrite Forall_forall in Hmix. apply Hmix, nth_In; auto. Qed.

Lemma row0_ne j : j < n -> row0 j <> [].
Proof. intros Hj H. pose proof (row0_len j Hj). rewrite H in H0. simpl in H0. lia. Qed.

Lemma sdom_eval i j : i < n -> j < n -> sdom (row0 i) (row0 j) -> evaluated (row0 i).
Proof.
  intros Hi Hj Hs. destruct (mix i Hi) as [|Hf]; auto. exfalso.
  rewrite (failed_map _ Hf) in Hs. eapply ninf_sdom_none; [| |exact Hs].
  - apply row0_ne; auto.
  - rewrite !row0_len; auto.
Qed.

Lemma evaluated_finite r : evaluated r -> r <> [] -> existsb (is_finite leb ninf) r = true.
Proof. intros He Hn. destruct r; [congruence|]. inversion He; subst. simpl. rewrite H1. auto. Qed.

Lemma inv_init : inv 0 m0 (repeat 0%Z n).
Proof.
  assert (Hz : forall j, nth j (repeat 0%Z n) 0%Z = 0%Z).
  { intros j. destruct (lt_dec j n). apply nth_repeat_lt; auto. apply nth_overflow. rewrite repeat_length; lia. }
  constructor; auto.
  - apply repeat_length.
  - intros j Hj He. left. split; auto. split; auto. lia.
Qed.

Lemma evaluated_not_dead (a b : list E) : evaluated a -> a <> [] -> a <> map (fun _ : E => ninf) b.
Proof.
  intros He Hne Heq. destruct a; [congruence|]. destruct b; simpl in Heq; [discriminate|].
  injection Heq; intros; subst. inversion He; subst. rewrite ninf_not_finite in H1. discriminate.
Qed.

Lemma inv_step k m res : inv k m res -> any_finite leb ninf m = true ->
  inv (S k) (clear ninf (locate_pareto leb m) m)
      (mark (locate_pareto leb m) (- Z.of_nat (S k)) res).
Proof.
  intros I Ha. destruct I as [HL HLr HR HF HE].
  set (front := locate_pareto leb m).
  assert (HLf : length front = length m) by (eapply locate_length; eauto).
  assert (Hmn : forall j, j < n -> nth j (clear ninf front m) [] = if nth j front false then map (fun _ => ninf) (nth j m []) else nth j m []).
  { intros j Hj. apply clear_nth; auto. lia. }
  assert (Hrn : forall j, j < n -> nth j (mark front (- Z.of_nat (S k)) res) 0%Z = if nth j front false then (- Z.of_nat (S k))%Z else nth j res 0%Z).
  { intros j Hj. apply mark_nth; lia. }
  (* a live evaluated row exists *)
  destruct (front_live m w Hw HR Ha) as (jf & Hjf & Hft & Hff). rewrite HL in Hjf.
  assert (Hjf2 : evaluated (row0 jf) /\ nth jf m [] = row0 jf).
  { destruct (mix jf Hjf) as [He|Hf].
    - split; auto. destruct (HE jf Hjf He) as [[H _]|[H _]]; auto.
      unfold cleared in H. rewrite H, all_ninf_dead in Hff. discriminate.
    - destruct (HF jf Hjf Hf) as [H _]. rewrite H, (failed_map _ Hf), all_ninf_dead in Hff. discriminate. }
  destruct Hjf2 as [Hjfe Hjfr].
  (* dead rows are not in the front *)
  assert (Hdead : forall j, j < n -> nth j m [] = map (fun _ => ninf) (row0 j) -> nth j front false = false).
  { intros j Hj Hd. destruct (nth j front false) eqn:Ef; auto. exfalso.
    apply (locate_spec m w Hw HR j) in Ef; [|lia]. apply (Ef jf); [lia|].
    rewrite Hd, Hjfr. apply evaluated_sdom; auto. rewrite !row0_len; auto. }
  constructor.
  - rewrite clear_length; auto.
  - rewrite mark_length; lia.
  - apply clear_rect; auto.
  - intros j Hj Hf. destruct (HF j Hj Hf) as [H1 H2].
    assert (nth j front false = false) by (apply Hdead; auto; rewrite H1; apply failed_map; auto).
    rewrite Hmn, Hrn, H by auto. auto.
  - intros j Hj He. destruct (HE j Hj He) as [(H1 & H2 & H3)|(H1 & H2 & H3 & H4)].
    + destruct (nth j front false) eqn:Ef.
      * right. split; [unfold cleared; rewrite Hmn, Ef, H1; auto|].
        rewrite Hrn, Ef by auto. split; [lia|].
        assert (Hdom : forall i, i < n -> sdom (row0 i) (row0 j) -> nth i front false = false /\ cleared m i /\ (- Z.of_nat k <= nth i res 0 <= -1)%Z).
        { intros i Hi Hs. pose proof (sdom_eval i j Hi Hj Hs) as Hei.
          destruct (HE i Hi Hei) as [(G1 & _)|(G1 & G2 & _)].
          - exfalso. pose proof Ef as Ef'. apply (locate_spec m w Hw HR j) in Ef'; [|lia].
            apply (Ef' i); [lia|]. rewrite G1, H1. auto.
          - split; auto. }
        split.
        { intros i Hi Hs. destruct (Hdom i Hi Hs) as (G1 & _ & G2). rewrite Hrn, G1 by auto. lia. }
        intros Hlt. destruct H3 as (i & Hi & Hei & Hs & Hri); [lia|].
        exists i. repeat split; auto. destruct (Hdom i Hi Hs) as (G1 & _). rewrite Hrn, G1 by auto. lia.
      * left. rewrite Hmn, Hrn, Ef by auto. repeat split; auto. intros _.
        destruct (locate_dominator m w Hw HR j) as (i & Hi & Hit & Hs); [lia|auto|].
        rewrite HL in Hi. exists i. fold front in Hit.
        assert (Hnd : nth i m [] = row0 i /\ evaluated (row0 i)).
        { destruct (mix i Hi) as [Hei|Hfi].
          - split; auto. destruct (HE i Hi Hei) as [(G & _)|(G & _)]; auto.
            rewrite (Hdead i Hi G) in Hit. discriminate.
          - destruct (HF i Hi Hfi) as [G _]. rewrite (Hdead i Hi) in Hit; [discriminate|].
            rewrite G. apply failed_map; auto. }
        destruct Hnd as [G1 G2]. rewrite G1, H1 in Hs. repeat split; auto.
        rewrite Hrn by auto. rewrite Hit. auto.
    + right. assert (Ef : nth j front false = false) by (apply Hdead; auto).
      split; [unfold cleared; rewrite Hmn, Ef; auto|].
      rewrite Hrn, Ef by auto. split; [lia|].
      assert (Hdom : forall i, i < n -> sdom (row0 i) (row0 j) -> nth i (mark front (- Z.of_nat (S k)) res) 0%Z = nth i res 0%Z).
      { intros i Hi Hs. rewrite Hrn by auto. pose proof (sdom_eval i j Hi Hj Hs) as Hei.
        destruct (HE i Hi Hei) as [(G1 & G2 & _)|(G1 & _)].
        - specialize (H3 i Hi Hs). lia.
        - rewrite (Hdead i Hi G1). auto. }
      split.
      { intros i Hi Hs. rewrite Hdom by auto. auto. }
      intros Hlt. destruct (H4 Hlt) as (i & Hi & Hs & Hri). exists i. repeat split; auto. rewrite Hdom; auto.
Qed.

Lemma pareto_loop_inv fuel k m res r :
  inv k m res -> pareto_loop leb ninf fuel m (- Z.of_nat (S k)) res = Some r ->
  exists k' m', inv k' m' r /\ any_finite leb ninf m' = false.
Proof.
  revert k m res. induction fuel as [|fuel IH]; intros k m res I; simpl;
    destruct (any_finite leb ninf m) eqn:Ea; intros H; try discriminate.
  - injection H as <-. eauto.
  - apply (IH (S k)) with (m := clear ninf (locate_pareto leb m) m)
       (res := mark (locate_pareto leb m) (- Z.of_nat (S k)) res).
    + apply inv_step; auto.
    + rewrite <- H. f_equal; lia.
  - injection H as <-. eauto.
Qed.

Lemma pareto_ranks r :
  pareto_transform leb ninf m0 = Some r ->
  length r = n /\
  (forall j, j < n -> failed (row0 j) -> nth j r 0%Z = 0%Z) /\
  (forall j, j < n -> evaluated (row0 j) ->
     (nth j r 0 <= -1)%Z /\
     (forall i, i < n -> sdom (row0 i) (row0 j) -> (nth j r 0 < nth i r 0)%Z) /\
     ((nth j r 0 < -1)%Z -> exists i, i < n /\ sdom (row0 i) (row0 j) /\ nth i r 0%Z = (nth j r 0 + 1)%Z)).
Proof.
  intros H. unfold pareto_transform in H.
  change (-1)%Z with (- Z.of_nat 1)%Z in H.
  destruct (pareto_loop_inv _ 0 _ _ _ inv_init H) as (k & m & I & Ha).
  destruct I as [HL HLr HR HF HE]. repeat split; auto.
  - intros; apply HF; auto.
  - destruct (HE j H0 H1) as [(G1 & _)|(_ & G2 & _)]; [|lia]. exfalso.
    assert (any_finite leb ninf m = true); [|congruence].
    unfold any_finite. apply existsb_exists. exists (nth j m []). split; [apply nth_In; lia|].
    rewrite G1. apply evaluated_finite; auto. apply row0_ne; auto.
  - intros i Hi Hs. destruct (HE j H0 H1) as [(G1 & _)|(_ & _ & G3 & _)].
    + exfalso. assert (any_finite leb ninf m = true); [|congruence].
      unfold any_finite. apply existsb_exists. exists (nth j m []). split; [apply nth_In; lia|].
      rewrite G1. apply evaluated_finite; auto. apply row0_ne; auto.
    + specialize (G3 i Hi Hs). lia.
  - intros Hlt. destruct (HE j H0 H1) as [(G1 & G2 & _)|(_ & _ & _ & G4)]; [lia|auto].
Qed.
End Ranks.
End Pareto.
