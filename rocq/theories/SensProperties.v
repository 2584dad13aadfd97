(** Properties of sensitivity.py. *)
From Coq Require Import Reals Lra Lia List Arith Bool Permutation Sorting.Sorted.
From Verif Require Import Base BaseFacts RBase LinAlg LogDet KernModel KernProofs KernSetupProofs KernDefProofs KernEntryProofs KernProperties GPModel GPProofs GPMoreProofs GPProperties GPScaleProperties SensModel.
Import ListNotations.
Open Scope R_scope.
Local Open Scope nat_scope.

Lemma map_nth_seq {A} (d : A) (p : list A) : map (fun i => nth i p d) (seq 0 (length p)) = p.
Proof. apply nth_ext with d d; [rewrite map_length, seq_length; auto|]. intros n Hn. rewrite map_length, seq_length in Hn.
  rewrite (nth_map_lt _ _ _ 0) by (rewrite seq_length; auto). rewrite seq_nth by auto. reflexivity. Qed.

Lemma NoDup_app_iff {A} (a b : list A) : NoDup (a ++ b) <-> NoDup a /\ NoDup b /\ forall x, In x a -> ~ In x b.
Proof.
  induction a as [|x a IH]; cbn.
  - split; [intros H; repeat split; auto; constructor|tauto].
  - split.
    + intros H. inversion H as [|? ? H1 H2]. subst. apply IH in H2. destruct H2 as [A1 [A2 A3]]. rewrite in_app_iff in H1.
      repeat split; auto; [constructor; tauto|]. intros y [<-|Hy] Hb; [tauto|]. eapply A3; eauto.
    + intros [H1 [H2 H3]]. inversion H1 as [|? ? A1 A2]. subst. constructor.
      * rewrite in_app_iff. intros [H|H]; [contradiction|]. apply (H3 x); auto.
      * apply IH. repeat split; auto.
Qed.

Lemma seq_strict k n : StronglySorted lt (seq k n).
Proof.
  revert k. induction n as [|n IH]; intros k; cbn; constructor; auto. apply Forall_forall. intros x Hx. apply in_seq in Hx. lia.
Qed.

Lemma last_cons_default {A} (l : list A) x d : last l x = last (x :: l) d.
Proof. revert x. induction l as [|y l IH]; intros x; [reflexivity|]. destruct l as [|z l]; [reflexivity|]. exact (IH x). Qed.

(** ** np.delete *)
Definition outside (idx : list nat) (i : nat) : bool := negb (existsb (Nat.eqb i) idx).

Lemma outside_spec idx i : outside idx i = true <-> ~ In i idx.
Proof.
  unfold outside. rewrite negb_true_iff. split.
  - intros H Hi. assert (E : existsb (Nat.eqb i) idx = true) by (apply existsb_exists; exists i; rewrite Nat.eqb_refl; auto). congruence.
  - intros H. destruct (existsb _ _) eqn:E; auto. apply existsb_exists in E. destruct E as [x [A B]]. apply Nat.eqb_eq in B. subst. contradiction.
Qed.

Lemma filter_combine_map {A B} (g : nat -> bool) (f : A -> B) k l :
  map snd (filter (fun p => g (fst p)) (combine (seq k (length (map f l))) (map f l))) =
  map f (map snd (filter (fun p => g (fst p)) (combine (seq k (length l)) l))).
Proof.
  revert k. induction l as [|x l IH]; intros k; [reflexivity|]. cbn [map length seq combine filter fst].
  destruct (g k); cbn [map snd]; rewrite IH; reflexivity.
Qed.

Lemma del_map {A B} (f : A -> B) idx l : del idx (map f l) = map f (del idx l).
Proof. unfold del. apply (filter_combine_map (outside idx) f 0 l). Qed.

Lemma del_seq idx n : del idx (seq 0 n) = filter (outside idx) (seq 0 n).
Proof.
  unfold del. rewrite seq_length. generalize 0 at 1 2 3. induction n as [|n IH]; intros k; [reflexivity|].
  cbn [seq combine filter fst]. fold (outside idx k). destruct (outside idx k); cbn [map snd]; rewrite IH; reflexivity.
Qed.

Lemma del_pick {A} (d : A) idx l : del idx l = map (fun i => nth i l d) (filter (outside idx) (seq 0 (length l))).
Proof. rewrite <- del_seq, <- del_map, map_nth_seq. reflexivity. Qed.

Lemma filter_sorted {A} (R : A -> A -> Prop) (f : A -> bool) l : StronglySorted R l -> StronglySorted R (filter f l).
Proof.
  induction 1 as [|x l H IH HF]; [constructor|]. cbn. destruct (f x); auto. constructor; auto.
  apply Forall_forall. intros y Hy. apply filter_In in Hy. rewrite Forall_forall in HF. apply HF. tauto.
Qed.

Lemma del_sorted (idx : list nat) l : StronglySorted lt l -> StronglySorted lt (del idx l).
Proof.
  intros H. unfold del. generalize 0. induction H as [|x l H IH HF]; intros k; [constructor|].
  cbn [length seq combine filter fst]. destruct (negb _); cbn [map snd]; auto. constructor; auto.
  apply Forall_forall. intros y Hy. apply in_map_iff in Hy. destruct Hy as [[a b] [<- Hy]]. apply filter_In in Hy. destruct Hy as [Hy _].
  apply in_combine_r in Hy. rewrite Forall_forall in HF. apply HF. auto.
Qed.

Lemma in_del {A} (d : A) idx l x : In x (del idx l) <-> exists i, i < length l /\ ~ In i idx /\ nth i l d = x.
Proof.
  rewrite (del_pick d). rewrite in_map_iff. split.
  - intros [i [E H]]. apply filter_In in H. destruct H as [H1 H2]. apply in_seq in H1. apply outside_spec in H2. exists i. repeat split; auto; lia.
  - intros [i [H1 [H2 E]]]. exists i. split; auto. apply filter_In. split; [apply in_seq; lia|apply outside_spec; auto].
Qed.

Lemma del_length {A} idx (l : list A) : NoDup idx -> (forall i, In i idx -> i < length l) -> length (del idx l) = length l - length idx.
Proof.
  intros ND HB. destruct l as [|a l0] eqn:El.
  - destruct idx as [|i t]; [reflexivity|]. cbn in HB. specialize (HB i (or_introl eq_refl)). lia.
  - rewrite <- El in *. rewrite (del_pick a), map_length. clear El.
    assert (P : Permutation (seq 0 (length l)) (filter (outside idx) (seq 0 (length l)) ++ idx)).
    { apply NoDup_Permutation.
      - apply seq_NoDup.
      - apply NoDup_app_iff. split; [apply NoDup_filter, seq_NoDup|]. split; [auto|].
        intros x Hx Hi. apply filter_In in Hx. destruct Hx as [_ Hx]. apply outside_spec in Hx. contradiction.
      - intros x. rewrite in_app_iff, filter_In, in_seq, outside_spec. split.
        + intros H. destruct (in_dec Nat.eq_dec x idx); [auto|left; auto].
        + intros [[H _]|H]; [auto|]. specialize (HB x H). lia. }
    apply Permutation_length in P. rewrite seq_length, app_length in P. lia.
Qed.

(** ** Ranking *)
Notation byval := (fun a b : nat * R => Rleb (snd b) (snd a)).

Lemma rank_perm l : Permutation (rank l) (seq 0 (length l)).
Proof.
  unfold rank. rewrite <- (map_combine_fst (seq 0 (length l)) l) at 2 by (rewrite seq_length; lia).
  apply Permutation_map, isort_perm.
Qed.

Lemma rank_sorted_pairs l : StronglySorted (fun a b : nat * R => (snd b <= snd a)%R) (isort byval (combine (seq 0 (length l)) l)).
Proof.
  assert (H : StronglySorted (fun a b => byval a b = true) (isort byval (combine (seq 0 (length l)) l))).
  { apply isort_sorted. split.
    - intros a b. destruct (Rleb (snd b) (snd a)) eqn:E; auto. right. apply Rleb_true. apply Rleb_false in E. lra.
    - intros a b c A B. apply Rleb_true in A, B. apply Rleb_true. lra. }
  revert H. generalize (isort byval (combine (seq 0 (length l)) l)). intros s. induction 1; constructor; auto.
  eapply Forall_impl; [|eassumption]. intros ? E. apply Rleb_true in E. auto.
Qed.

Lemma rank_pairs_value l p : In p (isort byval (combine (seq 0 (length l)) l)) -> snd p = nth (fst p) l 0%R /\ fst p < length l.
Proof.
  intros H. apply isort_in in H. destruct p as [i x]. cbn.
  destruct (In_nth _ _ (0, 0%R) H) as [k [Hk E]]. rewrite combine_length, seq_length, Nat.min_id in Hk.
  rewrite combine_nth in E by apply seq_length. rewrite seq_nth in E by auto. injection E as <- <-. auto.
Qed.

(** Of two positions the one ranked first is at least as sensitive. *)
Lemma rank_order l i a b : In a (firstn i (rank l)) -> In b (skipn i (rank l)) -> (nth b l 0 <= nth a l 0)%R.
Proof.
  unfold rank. rewrite firstn_map, skipn_map. intros Ha Hb.
  apply in_map_iff in Ha. destruct Ha as [p [<- Hp]]. apply in_map_iff in Hb. destruct Hb as [q [<- Hq]].
  pose proof (rank_sorted_pairs l) as HS. rewrite <- (firstn_skipn i) in HS. apply StronglySorted_app_inv in HS. destruct HS as [_ [_ HS]].
  specialize (HS p q Hp Hq). cbn in HS.
  assert (Ip : In p (isort byval (combine (seq 0 (length l)) l))) by (rewrite <- (firstn_skipn i); apply in_app_iff; auto).
  assert (Iq : In q (isort byval (combine (seq 0 (length l)) l))) by (rewrite <- (firstn_skipn i); apply in_app_iff; auto).
  apply rank_pairs_value in Ip. apply rank_pairs_value in Iq. destruct Ip as [Ep _], Iq as [Eq _]. rewrite <- Ep, <- Eq. auto.
Qed.

Lemma rank_length l : length (rank l) = length l.
Proof. rewrite (Permutation_length (rank_perm l)). apply seq_length. Qed.

Lemma rank_nodup l : NoDup (rank l).
Proof. eapply Permutation_NoDup; [apply Permutation_sym, rank_perm|apply seq_NoDup]. Qed.

(** ** Backward selection *)

(** The columns [idx] of a row. *)
Definition restrict (idx : list nat) (r : row) : row := map (fun i => nth i r 0%R) idx.

Section Run.
Variable inv : matrix -> result matrix.
Variable cho : matrix -> result matrix.
Variable cho_solve : matrix -> list R -> list R.
Variable minimizer : list R -> list bound -> list R * R.
Notation opt := (opt_step inv cho cho_solve minimizer).
Notation loop := (backward_loop inv cho cho_solve minimizer).
Variables (T : list row) (tg : list R) (U : list row).
Hypothesis HT : T <> [].

Lemma ncols_restrict idx : ncols (map (restrict idx) T) = length idx.
Proof. destruct T as [|r t]; [congruence|]. cbn. apply map_length. Qed.

Lemma opt_step_facts s idx s' e : opt s idx = Ok (s', e) ->
  s_train s' = s_train s /\ s_targets s' = s_targets s /\ s_test s' = s_test s /\
  e_features e = ncols (s_train s) /\ length (e_sens e) = ncols (s_train s) /\ e_sorted e = rank (e_sens e) /\ e_abs e = idx /\
  1 <= ncols (s_train s) /\ mean_sensitivity inv s' = Ok (e_sens e) /\ e_widths e = match first_width (s_kernels s') with Ok w => w | Err _ => [] end /\
  e_reg e = s_reg s'.
Proof.
  unfold opt_step. intros H. destruct (gp_optimized _ _ _ _ _ _ _ _ _) as [g|]; [|discriminate]. cbn [bind] in H.
  set (s1 := SA _ _ _ _ _) in *. destruct (first_width (s_kernels s1)) as [w|] eqn:Ew; [|discriminate]. cbn [bind] in H.
  destruct (mean_sensitivity inv s1) as [l|] eqn:El; [|discriminate]. cbn [bind] in H.
  assert (LL : length l = ncols (s_train s)).
  { unfold mean_sensitivity in El. rewrite Ew in El. cbn [bind] in El.
    destruct (get_covariance _ _ _ _ _ _); [|discriminate]. cbn [bind] in El. destruct (inv _); [|discriminate]. cbn [bind] in El.
    destruct (dot_vec _ _); [|discriminate]. cbn [bind] in El. destruct (_ && _); [discriminate|]. injection El as <-.
    rewrite map_length, seq_length. reflexivity. }
  destruct l as [|x t]; [discriminate|]. injection H as <- <-. cbn [e_features e_sens e_sorted e_abs e_widths e_reg].
  rewrite Ew. repeat split; auto. rewrite <- LL. cbn. lia.
Qed.

(** What is true of one entry of the result. *)
Definition good (i : nat) (e : entry) : Prop :=
  e_features e = i /\ length (e_abs e) = i /\ StronglySorted lt (e_abs e) /\ length (e_sens e) = i /\
  Permutation (e_sorted e) (seq 0 i) /\
  exists ks reg s', opt (SA (map (restrict (e_abs e)) T) tg (map (restrict (e_abs e)) U) ks reg) (e_abs e) = Ok (s', e).

(** Entry [q] results from [p] by leaving out its least sensitive features. *)
Definition reduces (p q : entry) : Prop :=
  incl (e_abs q) (e_abs p) /\
  forall a b, a < length (e_abs p) -> b < length (e_abs p) ->
    In (nth a (e_abs p) 0) (e_abs q) -> ~ In (nth b (e_abs p) 0) (e_abs q) -> (nth b (e_sens p) 0 <= nth a (e_sens p) 0)%R.

Fixpoint linked (p : entry) (l : list (nat * entry)) : Prop :=
  match l with [] => True | (_, q) :: t => reduces p q /\ linked q t end.

Lemma strict_nodup (l : list nat) : StronglySorted lt l -> NoDup l.
Proof.
  induction 1 as [|x l H IH HF]; constructor; auto. intros Hx. rewrite Forall_forall in HF. specialize (HF x Hx). lia.
Qed.

Lemma loop_spec pi : forall s prev s' l,
  s_train s = map (restrict (e_abs prev)) T -> s_targets s = tg -> s_test s = map (restrict (e_abs prev)) U ->
  StronglySorted lt (e_abs prev) -> length (e_sens prev) = length (e_abs prev) -> e_sorted prev = rank (e_sens prev) ->
  StronglySorted gt pi -> Forall (fun i => i <= length (e_abs prev)) pi ->
  loop false pi s (e_abs prev) (e_sorted prev) = Ok (s', l) ->
  map fst l = pi /\ Forall (fun x => good (fst x) (snd x)) l /\ linked prev l /\
  ncols (s_train s') = last pi (length (e_abs prev)) /\
  s_train s' = map (restrict (e_abs (last (map snd l) prev))) T /\ s_targets s' = tg /\ s_test s' = map (restrict (e_abs (last (map snd l) prev))) U.
Proof.
  induction pi as [|i pi IH]; intros s prev s' l ET EG EU HS HL HR HP HB H; cbn [backward_loop] in H.
  - injection H as <- <-. cbn. rewrite ET, ncols_restrict. repeat split; auto.
  - unfold drop_features in H. destruct (first_width (s_kernels s)) as [w|]; [|discriminate]. cbn [bind] in H.
    destruct (s_kernels s) as [|k ks]; [discriminate|]. cbn [bind] in H.
    set (out := skipn i (e_sorted prev)) in *. set (index := del out (e_abs prev)) in *.
    assert (Rt : map (del out) (s_train s) = map (restrict index) T).
    { rewrite ET, map_map. apply map_ext. intros r. unfold restrict. apply del_map. }
    assert (Ru : map (del out) (s_test s) = map (restrict index) U).
    { rewrite EU, map_map. apply map_ext. intros r. unfold restrict. apply del_map. }
    rewrite Rt, Ru, EG in H.
    match type of H with context [opt ?a ?b] => destruct (opt a b) as [[s1 e]|] eqn:E1 end; [|discriminate]. cbn [bind fst snd] in H.
    pose proof (opt_step_facts _ _ _ _ E1) as (F1 & F2 & F3 & F4 & F5 & F6 & F7 & F8 & _). cbn [s_train s_targets s_test] in F1, F2, F3, F4, F5, F8.
    rewrite ncols_restrict in F4, F5, F8.
    apply Forall_cons_iff in HB. destruct HB as [Hi HB]. inversion HP as [|? ? HP1 HP2]. subst.
    assert (Oin : forall x, In x out -> x < length (e_abs prev)).
    { intros x Hx. assert (In x (e_sorted prev)) by (rewrite <- (firstn_skipn i); apply in_app_iff; auto).
      rewrite HR in H0. apply (Permutation_in _ (rank_perm _)) in H0. apply in_seq in H0. lia. }
    assert (Ond : NoDup out).
    { pose proof (rank_nodup (e_sens prev)) as Q. rewrite <- HR, <- (firstn_skipn i) in Q. apply NoDup_app_iff in Q. tauto. }
    assert (Li : length index = i).
    { unfold index. rewrite del_length by auto. unfold out. rewrite skipn_length, HR, rank_length. lia. }
    destruct (loop false pi s1 index (e_sorted e)) as [[s2 t]|] eqn:E2; [|discriminate]. injection H as <- <-. cbn [fst snd].
    rewrite Li in F4, F5.
    assert (Si : StronglySorted lt index) by (apply del_sorted; auto).
    destruct (IH s1 e s2 t) as (G1 & G2 & G3 & G4 & G5 & G6 & G7); auto.
    { rewrite F1, F7. auto. } { rewrite F3, F7; auto. } { rewrite F7. auto. } { rewrite F7, F5. auto. }
    { rewrite F7, Li. rewrite Forall_forall in *. intros x Hx. specialize (HP2 x Hx). lia. }
    { rewrite F7. auto. }
    cbn [map fst snd]. split; [congruence|]. split; [|split; [|split; [|split; [|split]]]].
    + constructor; [|auto]. cbn [fst snd]. unfold good. rewrite F7, F6. split; [auto|]. split; [auto|]. split; [auto|]. split; [auto|].
      split; [rewrite <- F5; apply rank_perm|]. eexists. eexists. eexists. exact E1.
    + cbn [linked]. split; [|auto]. unfold reduces. rewrite F7. split.
      * intros x Hx. apply (in_del 0) in Hx. destruct Hx as [k0 [Hk [_ <-]]]. apply nth_In. auto.
      * intros a b Ha Hb Ia Ib.
        assert (Na : ~ In a out).
        { apply (in_del 0) in Ia. destruct Ia as [a' [A1 [A2 A3]]]. pose proof (strict_nodup _ HS) as ND.
          rewrite (NoDup_nth (e_abs prev) 0) in ND. assert (a' = a) by (apply ND; auto). congruence. }
        assert (Nb : In b out).
        { destruct (in_dec Nat.eq_dec b out) as [|Hn]; auto. exfalso. apply Ib. apply (in_del 0). exists b. auto. }
        assert (Fa : In a (firstn i (e_sorted prev))).
        { assert (In a (e_sorted prev)).
          { rewrite HR. apply (Permutation_in _ (Permutation_sym (rank_perm _))). apply in_seq. lia. }
          rewrite <- (firstn_skipn i) in H. apply in_app_iff in H. destruct H; auto. contradiction. }
        unfold out in Nb. rewrite HR in Fa, Nb. eapply rank_order; eauto.
    + rewrite G4, F7, Li. apply last_cons_default.
    + rewrite G5, (last_cons_default (map snd t) e prev). reflexivity.
    + auto.
    + rewrite G7, (last_cons_default (map snd t) e prev). reflexivity.
Qed.
End Run.

Lemma steps_sorted sel f : StronglySorted gt (steps sel f).
Proof.
  unfold steps. destruct (match sel with All => _ | Upto n => _ | Range a b => _ end) as [a b]. generalize (b - a). intros n.
  revert a. induction n as [|n IH]; intros a; [constructor|]. rewrite seq_S, rev_app_distr. cbn [rev app]. constructor; auto.
  apply Forall_forall. intros x Hx. apply in_rev in Hx. apply in_seq in Hx. lia.
Qed.

Lemma restrict_id f r : length r = f -> restrict (seq 0 f) r = r.
Proof. intros <-. unfold restrict. apply map_nth_seq. Qed.

Lemma linked_split p l pre x y post : linked p l -> p :: map snd l = pre ++ x :: y :: post -> reduces x y.
Proof.
  revert p pre. induction l as [|[i q] t IH]; intros p pre H E.
  - destruct pre as [|? [|]]; discriminate.
  - cbn [linked] in H. destruct H as [H1 H2]. destruct pre as [|z pre]; cbn in E.
    + injection E as <- <- _. auto.
    + injection E as _ E. eapply IH; eauto.
Qed.

(** The largest number of features the selection asks for. *)
Definition within (sel : selection) (f : nat) : Prop :=
  match sel with All => True | Upto n => n <= f + 1 | Range _ b => b <= f + 1 end.

Lemma steps_bound sel f : within sel f -> Forall (fun i => i <= f) (steps sel f).
Proof.
  intros H. apply Forall_forall. intros x Hx. unfold steps in Hx. destruct sel; apply in_rev in Hx; apply in_seq in Hx; cbn in H; lia.
Qed.

(** C254: with a numpy that accepts the indices, every step of the backward selection
    has exactly the number of features it is labelled with, its features are original
    columns in their order, they are taken from those of the step before, none of the
    left out features was more sensitive than one that was kept, and the step is the
    analysis of exactly the original data restricted to these columns. *)
Theorem backward_selection_nested_partial : forall inv cho cho_solve minimizer sel s f s' o l,
  s_train s <> [] -> Forall (fun r => length r = f) (s_train s) -> Forall (fun r => length r = f) (s_test s) -> within sel f ->
  backward_selection inv cho cho_solve minimizer false sel s = Ok (s', (o, l)) ->
  e_abs o = seq 0 f /\ e_features o = f /\ length (e_sens o) = f /\ map fst l = steps sel f /\
  (forall i e, In (i, e) l ->
     e_features e = i /\ length (e_abs e) = i /\ StronglySorted lt (e_abs e) /\ length (e_sens e) = i /\
     Permutation (e_sorted e) (seq 0 i) /\
     exists ks reg s1, opt_step inv cho cho_solve minimizer
       (SA (map (restrict (e_abs e)) (s_train s)) (s_targets s) (map (restrict (e_abs e)) (s_test s)) ks reg) (e_abs e) = Ok (s1, e)) /\
  (forall pre p q post, o :: map snd l = pre ++ p :: q :: post ->
     incl (e_abs q) (e_abs p) /\
     forall a b, a < length (e_abs p) -> b < length (e_abs p) ->
       In (nth a (e_abs p) 0) (e_abs q) -> ~ In (nth b (e_abs p) 0) (e_abs q) -> (nth b (e_sens p) 0 <= nth a (e_sens p) 0)%R).
Proof.
  intros inv cho cho_solve minimizer sel s f s' o l HN HT HU HW H.
  assert (NC : ncols (s_train s) = f) by (apply rectangular_ncols; auto).
  unfold backward_selection in H. rewrite NC in H.
  destruct (opt_step inv cho cho_solve minimizer s (seq 0 f)) as [[s1 o1]|] eqn:E1; [|discriminate]. cbn [bind fst snd] in H.
  pose proof (opt_step_facts _ _ _ _ _ _ _ _ E1) as (F1 & F2 & F3 & F4 & F5 & F6 & F7 & F8 & _).
  destruct (backward_loop _ _ _ _ _ _ _ _ _) as [[s2 l2]|] eqn:E2; [|discriminate]. injection H as <- <- <-. cbn [fst snd] in *.
  assert (Id : forall m, Forall (fun r => length r = f) m -> map (restrict (seq 0 f)) m = m).
  { intros m Hm. rewrite <- (map_id m) at 2. apply map_ext_in. intros r Hr. rewrite Forall_forall in Hm. apply restrict_id. auto. }
  destruct (loop_spec inv cho cho_solve minimizer (s_train s) (s_targets s) (s_test s) HN (steps sel f) s1 o1 s2 l2) as (G1 & G2 & G3 & _).
  - rewrite F7, Id; auto. - auto. - rewrite F7, Id; auto.
  - rewrite F7. apply seq_strict.
  - rewrite F7, seq_length, F5. auto.
  - auto.
  - apply steps_sorted.
  - rewrite F7, seq_length. apply steps_bound. auto.
  - rewrite F7. auto.
  - split; [auto|]. split; [congruence|]. split; [congruence|]. split; [auto|]. split.
    + intros i e Hi. rewrite Forall_forall in G2. exact (G2 _ Hi).
    + intros pre p q post E. exact (linked_split _ _ _ _ _ _ G3 E).
Qed.

(** ** When the analysis runs *)

(** The minimizer keeps positive parameters positive (its bounds are 1e-10 and 1e-6). *)
Definition keeps_positive (m : list R -> list bound -> list R * R) : Prop :=
  forall x b, Forall (fun v => (0 < v)%R) x -> length (fst (m x b)) = length x /\ Forall (fun v => (0 < v)%R) (fst (m x b)).

Record ready (f : nat) (s : sens) : Prop := {
  r_ne : s_train s <> [];
  r_train : Forall (fun r => length r = f) (s_train s);
  r_targets : length (s_targets s) = length (s_train s);
  r_kernel : exists w, s_kernels s = [gaussian w] /\ length w = f /\ Forall (fun v => (0 < v)%R) w;
  r_reg : (0 < s_reg s)%R }.

Lemma gaussian_prepared w f rb : length w = f -> Forall (fun v => (0 < v)%R) w ->
  exists b, prepare_kernels [gaussian w] rb false f = Ok ([gaussian w], b).
Proof.
  intros L P. unfold prepare_kernels. cbn -[default_bound]. rewrite L, Nat.eqb_refl. cbn -[default_bound].
  assert (EF : forallb (fun x : R => Rltb 0 x) w = true).
  { apply forallb_forall. intros x Hx. rewrite Forall_forall in P. specialize (P x Hx). unfold Rltb.
    destruct (Rlt_dec 0 x); [reflexivity|contradiction]. }
  rewrite Nat.leb_refl, EF. unfold require. cbn -[default_bound]. eauto.
Qed.

Lemma gaussian_usable w f : Forall (usable f) [gaussian w].
Proof. repeat constructor; cbn; auto; discriminate. Qed.

Lemma gaussian_sensible w : Forall (fun v => (0 < v)%R) w -> Forall (sensible false) [gaussian w].
Proof.
  intros P. repeat constructor; cbn; auto. intros _; eapply Forall_impl; [|exact P]. cbn. intros; lra.
Qed.

Lemma gaussian_evaluable w f : length w = f -> Forall (evaluable f) [gaussian w].
Proof. intros L. repeat constructor; cbn; auto. exists w. auto. Qed.

Section Works.
Variable inv : matrix -> result matrix.
Variable cho : matrix -> result matrix.
Variable cho_solve : matrix -> list R -> list R.
Variable minimizer : list R -> list bound -> list R * R.
Hypothesis HO : oracles_ok inv cho.
Hypothesis HC : oracles_total inv cho.
Hypothesis HM : keeps_positive minimizer.

Lemma gaussian_inverse w f m reg : 1 <= f -> length w = f -> Forall (fun v => (0 < v)%R) w -> m <> [] ->
  Forall (fun r => length r = f) m -> (0 < reg)%R ->
  exists C B, get_covariance [gaussian w] false m None (Some reg) false = Ok C /\ inv C = Ok B /\ nr C = length m /\ nc C = length m /\
    nr B = length m /\ nc B = length m.
Proof.
  intros Hf L P HN HR Hr.
  destruct (covariance_posdef f [gaussian w] false m reg) as [C [E1 [N1 [N2 [Sy [Pd _]]]]]]; auto.
  - apply gaussian_evaluable; auto. - apply gaussian_sensible; auto. - discriminate. - cbn. lra.
  - destruct HC as [CI _]. destruct (CI C) as [B EB]; [congruence|rewrite N1; auto|rewrite N1; auto|].
    destruct HO as [SI _]. destruct (SI _ _ EB) as [_ [B1 [B2 _]]]. exists C, B. repeat split; auto; congruence.
Qed.

Lemma optimized_gaussian w f fp tgt reg sdata : 1 <= f -> length w = f -> Forall (fun v => (0 < v)%R) w -> fp <> [] ->
  Forall (fun r => length r = f) fp -> length fp = length tgt -> (0 < reg)%R ->
  exists g w', gp_optimized inv cho cho_solve minimizer fp tgt [gaussian w] reg sdata = Ok g /\
    g_kernels g = [gaussian w'] /\ length w' = f /\ Forall (fun v => (0 < v)%R) w' /\ (0 < g_reg g)%R.
Proof.
  intros Hf L P HN HR HL Hr. pose proof HO as [SI SC]. pose proof HC as [CI CC].
  destruct (gaussian_prepared w f (init_bounds None false) L P) as [b EP].
  destruct (gp_init_ok inv cho cho_solve SI fp tgt [gaussian w] reg None false sdata f [gaussian w] b CI CC EP (gaussian_usable w f))
    as [s E]; auto; try discriminate; [apply gaussian_sensible; auto|cbn; lra|].
  assert (HI : inputs_ok f fp [gaussian w]) by (constructor; auto; [apply gaussian_usable|discriminate]).
  destruct (init_facts _ _ _ HO _ _ _ _ _ _ _ _ _ HI E) as (ks' & b' & EP' & T & El & Es & Er & En & _ & _ & ET & _).
  rewrite EP in EP'. injection EP' as <- <-. pose proof (t_kernels _ _ _ T) as EK.
  change (map boxed [gaussian w]) with [gaussian w] in EK.
  unfold gp_optimized. rewrite E. cbn [bind]. unfold optimize_hyperparameters. rewrite EK, En, Er.
  replace (kdicts2list [gaussian w] f) with (@Ok (list R) w).
  2:{ assert (Fl : forall t, floats (map Num t) = Ok t) by (induction t as [|z t IHt]; [reflexivity|]; cbn; rewrite IHt; reflexivity).
      unfold kdicts2list, kdicts_loop, kdict2list, get_theta, gaussian, bare, set_width.
      cbn [k_type k_scaling k_features k_width k_const k_hyper to_list bind fst snd ktype_eqb]. rewrite Fl. cbn [bind app]. rewrite app_nil_r. reflexivity. }
  cbn [bind]. assert (Px : Forall (fun v => (0 < v)%R) (w ++ [reg])) by (apply Forall_app; split; auto).
  destruct (HM (w ++ [reg]) (g_bounds s) Px) as [M1 M2].
  destruct (minimizer (w ++ [reg]) (g_bounds s)) as [x v]. cbn [fst] in M1, M2. rewrite app_length in M1. cbn [length] in M1.
  assert (Lx : length (removelast x) = f) by (rewrite removelast_firstn_len, firstn_length; lia).
  assert (Xe : x <> []) by (intros ->; cbn in M1; lia).
  pose proof (app_removelast_last 0%R Xe) as Ex. rewrite Ex in M2. apply Forall_app in M2. destruct M2 as [M2 M3].
  apply Forall_cons_iff in M3. destruct M3 as [M3 _].
  replace (list2kdict (removelast x) [gaussian w]) with (@Ok (list kdict) [gaussian (removelast x)]).
  2:{ cbn. unfold slice. cbn [skipn]. rewrite firstn_all2 by lia. reflexivity. }
  cbn [bind]. rewrite El, (t_grad _ _ _ T).
  destruct (gaussian_inverse (removelast x) f (g_fp s) (last x 0%R)) as (C & B & E1 & E2 & _); auto.
  { apply (t_ne _ _ _ T). } { apply (t_rect _ _ _ T). }
  rewrite E1. cbn [bind]. rewrite E2. cbn [bind]. eexists. exists (removelast x). split; [reflexivity|]. cbn [g_kernels g_reg]. auto.
Qed.

Lemma opt_step_works f s idx : 1 <= f -> ready f s ->
  exists s' e, opt_step inv cho cho_solve minimizer s idx = Ok (s', e) /\ ready f s'.
Proof.
  intros Hf [HN HR HL [w [EK [Lw Pw]]] Hr].
  destruct (optimized_gaussian w f (s_train s) (s_targets s) (s_reg s) true Hf Lw Pw HN HR (eq_sym HL) Hr) as (g & w' & E & EG & L' & P' & R').
  unfold opt_step. rewrite EK, E. cbn [bind]. rewrite EG. cbn [s_kernels first_width gaussian set_width k_width bind].
  set (s1 := SA _ _ _ _ _).
  assert (R1 : ready f s1) by (constructor; cbn; auto; exists w'; auto).
  unfold mean_sensitivity. cbn [s1 s_kernels first_width gaussian set_width k_width bind s_train s_reg].
  destruct (gaussian_inverse w' f (s_train s) (g_reg g)) as (C & B & E1 & E2 & C1 & C2 & B1 & B2); auto.
  change (KD (k_type (bare KGaussian)) (k_mult (bare KGaussian)) (k_features (bare KGaussian)) (k_dimension (bare KGaussian))
      (k_scaling (bare KGaussian)) (k_float (bare KGaussian)) (k_scaling_bounds (bare KGaussian)) (k_bounds (bare KGaussian))
      (Some (Arr w')) (k_const (bare KGaussian)) (k_slope (bare KGaussian)) (k_degree (bare KGaussian)) (k_hyper (bare KGaussian))
      (k_unknown (bare KGaussian))) with (gaussian w').
  rewrite E1. cbn [bind]. rewrite E2. cbn [bind]. unfold dot_vec at 1. rewrite B2. unfold s1; cbn [s_targets s_test s_train s_kernels s_reg]. rewrite HL, Nat.eqb_refl. cbn [bind].
  rewrite (rectangular_ncols (s_train s) f HR HN). replace (length w' <? f) with false by (symmetry; apply Nat.ltb_ge; lia). cbn [andb].
  destruct f as [|f]; [lia|]. cbn [seq map bind]. eexists. eexists. split; [reflexivity|]. exact R1.
Qed.

Lemma del_pos {A} (Q : A -> Prop) idx l : Forall Q l -> Forall Q (del idx l).
Proof.
  intros H. unfold del. apply Forall_forall. intros x Hx. apply in_map_iff in Hx. destruct Hx as [[a b] [<- Hx]].
  apply filter_In in Hx. destruct Hx as [Hx _]. apply in_combine_r in Hx. rewrite Forall_forall in H. apply H. auto.
Qed.

Lemma loop_works pi : forall f s index dlist, ready f s -> Permutation dlist (seq 0 f) ->
  StronglySorted gt pi -> Forall (fun i => 1 <= i <= f) pi ->
  exists r, backward_loop inv cho cho_solve minimizer false pi s index dlist = Ok r.
Proof.
  induction pi as [|i pi IH]; intros f s index dlist HR HD HS HB; cbn [backward_loop]; [eauto|].
  apply Forall_cons_iff in HB. destruct HB as [[B1 B2] HB]. inversion HS as [|? ? HS1 HS2]. subst.
  destruct HR as [HN HT HL [w [EK [Lw Pw]]] Hr]. unfold drop_features. rewrite EK. cbn [first_width gaussian set_width k_width bind].
  set (out := skipn i dlist).
  assert (Oin : forall x, In x out -> x < f).
  { intros x Hx. assert (Hd : In x dlist) by (rewrite <- (firstn_skipn i); apply in_app_iff; auto).
    apply (Permutation_in _ HD) in Hd. apply in_seq in Hd. lia. }
  assert (Ond : NoDup out).
  { assert (Q : NoDup dlist) by (eapply Permutation_NoDup; [apply Permutation_sym; exact HD|apply seq_NoDup]).
    rewrite <- (firstn_skipn i) in Q. apply NoDup_app_iff in Q. tauto. }
  assert (Ld : forall B (l : list B), length l = f -> length (del out l) = i).
  { intros B l Hl. rewrite del_length by (auto; intros ? ?; rewrite Hl; auto). unfold out. rewrite skipn_length, (Permutation_length HD), seq_length. lia. }
  match goal with |- context [opt_step _ _ _ _ ?a ?b] => destruct (opt_step_works i a b) as (s1 & e & E & R1); [lia| |] end.
  { constructor; cbn [s_train s_targets s_kernels s_reg]; auto.
    - intros Hn. apply map_eq_nil in Hn. auto.
    - apply Forall_map. eapply Forall_impl; [|exact HT]. cbn. intros r Hr'. apply Ld. auto.
    - rewrite map_length. auto.
    - exists (del out w). split; [reflexivity|]. split; [apply Ld; auto|apply del_pos; auto]. }
  rewrite E. cbn [bind fst snd].
  pose proof (opt_step_facts _ _ _ _ _ _ _ _ E) as (F1 & _ & _ & _ & F5 & F6 & _). cbn [s_train] in F5.
  assert (Nc : length (e_sens e) = i).
  { rewrite F5. apply rectangular_ncols; [|intros Hn; apply map_eq_nil in Hn; auto].
    apply Forall_map. eapply Forall_impl; [|exact HT]. cbn. intros r Hr'. apply Ld. auto. }
  destruct (IH i s1 (del out index) (e_sorted e)) as [r Er]; auto.
  - rewrite F6, <- Nc. apply rank_perm.
  - rewrite Forall_forall in *. intros x Hx. specialize (HB x Hx). specialize (HS2 x Hx). lia.
  - rewrite Er. cbn. eauto.
Qed.
End Works.

(** With a gaussian kernel of positive widths, positive noise and a minimizer that
    stays positive the selection runs to its end. *)
Theorem backward_selection_runs_partial : forall inv cho cho_solve minimizer sel s f,
  oracles_ok inv cho -> oracles_total inv cho -> keeps_positive minimizer ->
  1 <= f -> ready f s -> within sel f -> (forall a b, sel = Range a b -> 1 <= a) ->
  exists r, backward_selection inv cho cho_solve minimizer false sel s = Ok r.
Proof.
  intros inv cho cho_solve minimizer sel s f HO HC HM Hf HR HW HA.
  assert (NC : ncols (s_train s) = f) by (apply rectangular_ncols; [apply (r_train _ _ HR)|apply (r_ne _ _ HR)]).
  unfold backward_selection. rewrite NC.
  destruct (opt_step_works inv cho cho_solve minimizer HO HC HM f s (seq 0 f) Hf HR) as (s1 & e & E & R1). rewrite E. cbn [bind fst snd].
  pose proof (opt_step_facts _ _ _ _ _ _ _ _ E) as (F1 & _ & _ & _ & F5 & F6 & _).
  destruct (loop_works inv cho cho_solve minimizer HO HC HM (steps sel f) f s1 (seq 0 f) (e_sorted e)) as [r Er]; auto.
  - rewrite F6. rewrite NC in F5. rewrite <- F5. apply rank_perm.
  - apply steps_sorted.
  - pose proof (steps_bound sel f HW) as HB. rewrite Forall_forall in *. intros x Hx. split; [|apply HB; auto].
    unfold steps in Hx. destruct sel as [|n|a b]; apply in_rev in Hx; apply in_seq in Hx; try lia. specialize (HA a b eq_refl). lia.
  - rewrite Er. cbn. eauto.
Qed.

(** A case that meets the hypotheses: two training points with three features. *)
Example ready_example : ready 3 (SA [[1; 2; 3]; [2; 0; 5]] [1; 2] [[0; 0; 1]] [gaussian [1; 2; 3]] 1)%R /\
  keeps_positive (fun x _ => (x, 0%R)) /\ within All 3 /\ steps All 3 = [2; 1].
Proof.
  split; [|split; [|split; [exact I|reflexivity]]].
  - constructor; cbn; auto; try discriminate; try lra; repeat constructor. eexists. split; [reflexivity|]. split; [reflexivity|].
    repeat constructor; lra.
  - intros x b H. auto.
Qed.

(** ** What goes wrong *)

(** C254: numpy 1.19 and later refuses the array of floats the positions are stored
    in, so every selection with at least one step ends in an IndexError or an earlier
    error. *)
Theorem backward_selection_floats_refuted : forall inv cho cho_solve minimizer sel s,
  steps sel (ncols (s_train s)) <> [] -> exists e, backward_selection inv cho cho_solve minimizer true sel s = Err e.
Proof.
  intros inv cho cho_solve minimizer sel s H. unfold backward_selection.
  destruct (opt_step _ _ _ _ _ _) as [[s1 o]|]; cbn [bind]; [|eauto].
  destruct (steps sel (ncols (s_train s))) as [|i pi]; [congruence|]. cbn. eauto.
Qed.

Lemma del_nil {A} (l : list A) : del [] l = l.
Proof.
  destruct l as [|a t] eqn:E; [reflexivity|]. rewrite <- E. rewrite (del_pick a).
  replace (filter (outside []) (seq 0 (length l))) with (seq 0 (length l)); [apply map_nth_seq|].
  symmetry. rewrite <- (app_nil_r (seq 0 (length l))) at 2. rewrite app_nil_r. generalize 0. induction (length l); intros k; cbn; [auto|]. rewrite IHn. auto.
Qed.

(** C254: a selection of more features than there are is labelled with numbers of
    features the steps do not have. *)
Theorem selection_beyond_features_refuted : forall inv cho cho_solve minimizer n s s' o l,
  ncols (s_train s) + 1 < n ->
  backward_selection inv cho cho_solve minimizer false (Upto n) s = Ok (s', (o, l)) ->
  exists e, In (n - 1, e) l /\ e_features e = ncols (s_train s) /\ e_features e <> n - 1.
Proof.
  intros inv cho cho_solve minimizer n s s' o l Hn H. unfold backward_selection in H. set (f := ncols (s_train s)) in *.
  destruct (opt_step _ _ _ _ s _) as [[s1 o1]|] eqn:E1; [|discriminate]. cbn [bind fst snd] in H.
  pose proof (opt_step_facts _ _ _ _ _ _ _ _ E1) as (F1 & _ & _ & _ & F5 & F6 & _).
  assert (ES : steps (Upto n) f = (n - 1) :: rev (seq 1 (n - 2))).
  { unfold steps. replace (n - 1) with (S (n - 2)) at 1 by lia. rewrite seq_S, rev_app_distr. cbn [rev app]. f_equal. lia. }
  rewrite ES in H. cbn [backward_loop] in H. rewrite (skipn_all2 (n := n - 1)) in H by (rewrite F6, rank_length, F5; fold f; lia).
  unfold drop_features in H. destruct (first_width (s_kernels s1)); [|discriminate]. cbn [bind] in H.
  destruct (s_kernels s1) as [|k ks]; [discriminate|]. cbn [bind] in H.
  destruct (opt_step _ _ _ _ _ (del [] (seq 0 f))) as [[s2 e]|] eqn:E2; [|discriminate]. cbn [bind fst snd] in H.
  destruct (backward_loop _ _ _ _ _ _ _ _ _) as [[s3 t]|]; [|discriminate]. injection H as <- <- <-.
  pose proof (opt_step_facts _ _ _ _ _ _ _ _ E2) as (_ & _ & _ & G4 & _). cbn [s_train] in G4.
  exists e. split; [left; reflexivity|].
  assert (Ef : e_features e = f).
  { rewrite G4, F1. unfold f. destruct (s_train s); [reflexivity|]. cbn. rewrite del_nil. reflexivity. }
  split; [auto|]. lia.
Qed.

(** C255: the selection changes the object: what is left are the features of its last
    step, so a second call analyses these only and calls them the original ones. *)
Theorem second_selection_reduced_refuted : forall inv cho cho_solve minimizer s f s' o l sel2 s2 o2 l2,
  s_train s <> [] -> Forall (fun r => length r = f) (s_train s) -> Forall (fun r => length r = f) (s_test s) -> 2 <= f ->
  backward_selection inv cho cho_solve minimizer false All s = Ok (s', (o, l)) ->
  backward_selection inv cho cho_solve minimizer false sel2 s' = Ok (s2, (o2, l2)) ->
  e_features o = f /\ e_features o2 = 1 /\ e_abs o2 = [0].
Proof.
  intros inv cho cho_solve minimizer s f s' o l sel2 s2 o2 l2 HN HT HU Hf H H2.
  assert (NC : ncols (s_train s) = f) by (apply rectangular_ncols; auto).
  unfold backward_selection in H. rewrite NC in H.
  destruct (opt_step inv cho cho_solve minimizer s (seq 0 f)) as [[s1 o1]|] eqn:E1; [|discriminate]. cbn [bind fst snd] in H.
  pose proof (opt_step_facts _ _ _ _ _ _ _ _ E1) as (F1 & F2 & F3 & F4 & F5 & F6 & F7 & F8 & _).
  destruct (backward_loop _ _ _ _ _ _ _ _ _) as [[s3 l3]|] eqn:E2; [|discriminate]. injection H as <- <- <-. cbn [fst snd] in *.
  assert (Id : forall m, Forall (fun r => length r = f) m -> map (restrict (seq 0 f)) m = m).
  { intros m Hm. rewrite <- (map_id m) at 2. apply map_ext_in. intros r Hr. rewrite Forall_forall in Hm. apply restrict_id. auto. }
  destruct (loop_spec inv cho cho_solve minimizer (s_train s) (s_targets s) (s_test s) HN (steps All f) s1 o1 s3 l3) as (_ & _ & _ & G4 & _).
  - rewrite F7, Id; auto. - auto. - rewrite F7, Id; auto.
  - rewrite F7. apply seq_strict.
  - rewrite F7, seq_length, F5. auto.
  - auto.
  - apply steps_sorted.
  - rewrite F7, seq_length. apply steps_bound. exact I.
  - rewrite F7. auto.
  - split; [congruence|].
    assert (L1 : last (steps All f) (length (e_abs o1)) = 1).
    { unfold steps. replace (f - 1) with (S (f - 2)) by lia. cbn [seq rev]. apply last_last. }
    rewrite L1 in G4. unfold backward_selection in H2. rewrite G4 in H2.
    destruct (opt_step _ _ _ _ s3 _) as [[s4 o4]|] eqn:E4; [|discriminate]. cbn [bind fst snd] in H2.
    pose proof (opt_step_facts _ _ _ _ _ _ _ _ E4) as (_ & _ & _ & G & _ & _ & G' & _).
    match type of H2 with bind ?x _ = _ => destruct x as [[s5 l5]|] end; [|discriminate]. cbn [bind fst snd] in H2. injection H2 as _ <- _. split; [congruence|rewrite G'; reflexivity].
Qed.

(** ** Sensitivities *)
Lemma mean_sensitivity_value inv s l : mean_sensitivity inv s = Ok l -> exists alpha K w,
  length l = ncols (s_train s) /\ first_width (s_kernels s) = Ok w /\
  forall j, j < ncols (s_train s) -> nth j l 0%R = sensitivity_of (s_train s) (s_test s) alpha K (nth j w 0%R) j.
Proof.
  unfold mean_sensitivity. intros H. destruct (first_width (s_kernels s)) as [w|]; [|discriminate]. cbn [bind] in H.
  destruct (get_covariance _ _ _ _ _ _) as [K|]; [|discriminate]. cbn [bind] in H. destruct (inv K); [|discriminate]. cbn [bind] in H.
  destruct (dot_vec _ _) as [alpha|]; [|discriminate]. cbn [bind] in H. destruct (_ && _); [discriminate|]. injection H as <-.
  exists alpha, K, w. split; [rewrite map_length, seq_length; auto|]. split; [auto|]. intros j Hj.
  rewrite (nth_map_lt _ _ _ 0) by (rewrite seq_length; auto). rewrite seq_nth by auto. reflexivity.
Qed.

Lemma sumR_nonneg l : Forall (fun x => (0 <= x)%R) l -> (0 <= sumR l)%R.
Proof. induction 1; cbn; lra. Qed.

Lemma sumR_zero l : Forall (fun x => x = 0%R) l -> sumR l = 0%R.
Proof. induction 1; cbn; lra. Qed.

(** C256: sensitivities are never negative, and a feature that has one value in all
    training and test points has sensitivity zero: no feature with a smaller one is
    kept in its place. *)
Theorem sensitivities_nonnegative : forall inv s l, s_train s <> [] -> mean_sensitivity inv s = Ok l ->
  length l = ncols (s_train s) /\ Forall (fun x => (0 <= x)%R) l /\
  forall j c, j < ncols (s_train s) -> (forall r, In r (s_train s) \/ In r (s_test s) -> nth j r 0%R = c) ->
    nth j l 0%R = 0%R /\ forall k, k < length l -> (nth j l 0 <= nth k l 0)%R.
Proof.
  intros inv s l HN H. destruct (mean_sensitivity_value _ _ _ H) as (alpha & K & w & HL & _ & HV). split; [auto|].
  assert (HF : Forall (fun x => (0 <= x)%R) l).
  { apply Forall_forall. intros x Hx. destruct (In_nth _ _ 0%R Hx) as [j [Hj <-]]. rewrite HV by lia. unfold sensitivity_of.
    apply sumR_nonneg, Forall_map, Forall_forall. intros q Hq. apply Rmult_le_pos; [|apply pow2_ge_0].
    unfold Rdiv. rewrite Rmult_1_l. apply Rlt_le, Rinv_0_lt_compat, lt_0_INR. destruct (s_train s); [congruence|cbn; lia]. }
  split; [auto|]. intros j c Hj Hc.
  assert (Z : nth j l 0%R = 0%R).
  { rewrite HV by auto. unfold sensitivity_of. apply sumR_zero, Forall_map, Forall_forall. intros q Hq.
    rewrite (sumR_zero (map _ _)); [ring|]. apply Forall_map, Forall_forall. intros i Hi. apply in_seq in Hi.
    rewrite (Sum_zero (nc K)); [reflexivity|]. intros k Hk. rewrite (Hc (row_at (s_train s) i)), (Hc q); [unfold Rdiv; ring|auto|].
    left. apply nth_In. lia. }
  split; [auto|]. intros k Hk. rewrite Z. rewrite Forall_forall in HF. apply HF, nth_In. auto.
Qed.

(** C257: the sensitivity should be the mean squared derivative of the predicted mean
    at the test points.  For the training point 0 with target 1, width 1 and any noise
    r the predicted mean is k(x, 0) / (1 + r^2); its derivative at the test point 3 is
    smaller than 1, the sensitivity reported is 9.  The covariance used is that between
    training points, not between training and test points. *)
Lemma single_mean x : exists c, get_covariance [gaussian [1%R]] false [[x]] (Some [[0%R]]) None false = Ok c /\ at_ c 0 0 = exp (- / 2 * (x * x))%R.
Proof.
  eexists. split; [reflexivity|]. cbn. unfold gaussian_fn, sqeuclidean. cbn. rewrite Rplus_0_l, Rmult_1_l. f_equal. field.
Qed.

Theorem sensitivity_not_derivative_refuted : forall inv cho r, oracles_ok inv cho -> oracles_total inv cho -> (0 < r)%R ->
  let mean x := match get_covariance [gaussian [1%R]] false [[x]] (Some [[0%R]]) None false with
                | Ok c => (at_ c 0%nat 0%nat * / (1 + r ^ 2))%R | Err _ => 0%R end in
  mean_sensitivity inv (SA [[0]] [1] [[3]] [gaussian [1]] r)%R = Ok [9%R] /\
  exists d, derivable_pt_lim mean 3%R d /\ (d ^ 2 < 1)%R.
Proof.
  intros inv cho r HO HC Hr mean. split.
  - destruct (gaussian_inverse inv cho HO HC [1%R] 1 [[0%R]] r (le_n 1) eq_refl ltac:(repeat constructor; lra) ltac:(discriminate) ltac:(repeat constructor) Hr) as (C & B & E1 & E2 & C1 & C2 & B1 & B2).
    destruct (covariance_with_reg 1 [gaussian [1%R]] false [[0%R]] r (gaussian_evaluable [1%R] 1 eq_refl)) as [C' [E' [_ [_ HC']]]];
      try discriminate; [repeat constructor|]. rewrite E1 in E'. injection E' as <-.
    specialize (HC' 0 0 ltac:(cbn; lia) ltac:(cbn; lia)). cbn [length] in *.
    assert (KV : at_ C 0 0 = (1 + r ^ 2)%R).
    { rewrite HC'. unfold kappa, row_at. cbn [nth]. destruct (single_mean 0) as [c [Ec Vc]]. rewrite Ec, Vc.
      replace (- / 2 * (0 * 0))%R with 0%R by ring. rewrite exp_0. unfold ident, logged. cbn. ring. }
    destruct HO as [SI _]. destruct (SI _ _ E2) as [_ [_ [_ V]]]. rewrite C1 in V.
    assert (Pk : (0 < 1 + r ^ 2)%R) by (pose proof (pow2_ge_0 r); lra).
    apply inverse_1 in V; [|rewrite KV; lra]. rewrite KV in V.
    unfold mean_sensitivity. cbn [s_kernels first_width gaussian set_width k_width bind s_train s_reg s_targets s_test].
    change (KD (k_type (bare KGaussian)) (k_mult (bare KGaussian)) (k_features (bare KGaussian)) (k_dimension (bare KGaussian))
      (k_scaling (bare KGaussian)) (k_float (bare KGaussian)) (k_scaling_bounds (bare KGaussian)) (k_bounds (bare KGaussian))
      (Some (Arr [1%R])) (k_const (bare KGaussian)) (k_slope (bare KGaussian)) (k_degree (bare KGaussian)) (k_hyper (bare KGaussian))
      (k_unknown (bare KGaussian))) with (gaussian [1%R]).
    rewrite E1. cbn [bind]. rewrite E2. cbn [bind]. unfold dot_vec. rewrite B1, B2. cbn [length Nat.eqb bind ncols Nat.ltb Nat.leb andb seq map].
    unfold sensitivity_of, tabulate. cbn [length seq map sumR fold_right]. rewrite C2. cbn [Sum nth]. unfold row_at. cbn [nth].
    rewrite KV, V. f_equal. f_equal. cbn [INR]. field. lra.
  - set (c := (/ (1 + r ^ 2))%R).
    assert (Pk : (1 < 1 + r ^ 2)%R) by (pose proof (pow_lt r 2 Hr); lra).
    assert (Cc : (0 < c < 1)%R).
    { unfold c. split; [apply Rinv_0_lt_compat; lra|]. rewrite <- Rinv_1. apply Rinv_lt_contravar; lra. }
    exists (c * (exp (- / 2 * (3 * 3)) * (- / 2 * (1 * 3 + 3 * 1))))%R. split.
    + assert (D : derivable_pt_lim (fun x => c * exp (- / 2 * (x * x)))%R 3 (c * (exp (- / 2 * (3 * 3)) * (- / 2 * (1 * 3 + 3 * 1))))%R).
      { apply (derivable_pt_lim_scal (fun x => exp (- / 2 * (x * x)))%R c).
        apply (derivable_pt_lim_comp (fun x => - / 2 * (x * x))%R exp).
        - apply (derivable_pt_lim_scal (fun x => x * x)%R (- / 2)). apply (derivable_pt_lim_mult id id); apply derivable_pt_lim_id.
        - apply derivable_pt_lim_exp. }
      intros eps He. destruct (D eps He) as [delta HD]. exists delta. intros h Hh1 Hh2. specialize (HD h Hh1 Hh2).
      assert (ME : forall x, mean x = (c * exp (- / 2 * (x * x)))%R).
      { intros x. unfold mean. destruct (single_mean x) as [k [Ek Vk]]. rewrite Ek, Vk. unfold c. ring. }
      rewrite !ME. exact HD.
    + set (e := exp (- / 2 * (3 * 3))%R).
      assert (Pe : (0 < e)%R) by apply exp_pos.
      assert (E2 : (e * e < / 10)%R).
      { unfold e. rewrite <- exp_plus. replace (- / 2 * (3 * 3) + - / 2 * (3 * 3))%R with (- (9))%R by lra. rewrite exp_Ropp.
        pose proof (exp_ineq1 9 ltac:(lra)). apply Rinv_lt_contravar; [|lra]. apply Rmult_lt_0_compat; lra. }
      replace ((c * (e * (- / 2 * (1 * 3 + 3 * 1)))) ^ 2)%R with (9 * (c * c) * (e * e))%R by field.
      assert (c * c < 1)%R by (replace 1%R with (1 * 1)%R by ring; apply Rmult_le_0_lt_compat; lra).
      assert (0 < c * c)%R by (apply Rmult_lt_0_compat; lra).
      assert ((c * c) * (e * e) <= 1 * / 10)%R by (apply Rmult_le_compat; try lra; apply Rlt_le, Rmult_lt_0_compat; lra).
      lra.
Qed.
Print Assumptions backward_selection_nested_partial.
Print Assumptions backward_selection_runs_partial.
Print Assumptions backward_selection_floats_refuted.
Print Assumptions selection_beyond_features_refuted.
Print Assumptions second_selection_reduced_refuted.
Print Assumptions sensitivities_nonnegative.
Print Assumptions sensitivity_not_derivative_refuted.
